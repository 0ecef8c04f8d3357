(** Independent specification of running a deterministic automaton. *)
From Verif Require Import Base OrdMap SymbolSetModel SymbolSetSpec SymbolMapModel SymbolMapSpec NdfaModel NdfaSpec SymbolTableSpec.
Local Open Scope Z_scope.

(** The state after reading one character: the target of the state's transition on a set
    that contains the character, or -1. *)
Definition moves {A} (d : ndfa A) (q : nat) (c r : Z) : Prop :=
  (exists id r', In (id, r') (get_state d q) /\ contains (sm_get (n_symbols d) id) c = true /\ r = Z.of_nat r') \/
  (r = -1 /\ forall id r', In (id, r') (get_state d q) -> contains (sm_get (n_symbols d) id) c = false).

(** Reading a word one symbol at a time; a negative state is final. *)
Fixpoint run_word (step : Z -> Z -> option Z) (q : Z) (w : list Z) : option Z :=
  match w with
  | [] => Some q
  | c :: w => if q <? 0 then Some q else match step q c with Some q' => run_word step q' w | None => None end
  end.

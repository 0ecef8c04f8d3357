(** Specification notions for DFA compaction. *)
From Verif Require Import Base OrdMap SymbolSetModel SymbolSetSpec SymbolMapModel SymbolMapSpec NdfaModel NdfaSpec.
Local Open Scope Z_scope.

Section Spec.
  Context {A : Type}.
  Implicit Types d : ndfa A.

  Definition accepting d (q : nat) : Prop := actions_for_state d q <> [].

  (** [f] is the first accepting state that is not an initial state. *)
  Definition first_accepting d (init : list nat) (f : nat) : Prop :=
    (f < count_states d)%nat /\ ~ In f init /\ accepting d f /\
    (forall q, (q < f)%nat -> ~ In q init -> ~ accepting d q).

  (** The states that compaction lumps together at first: the non-initial states that do not
      accept, and [f]. *)
  Definition lumped d (init : list nat) (f q : nat) : Prop :=
    (q < count_states d)%nat /\ ~ In q init /\ (~ accepting d q \/ q = f).

  (** A word that tells [p] from [f]: only one of them can read it, or they end up in
      different states that are not both lumped together. *)
  Definition told_apart d init f p : Prop :=
    exists w,
      ((exists q, path d f w q) /\ ~ (exists q, path d p w q)) \/
      (~ (exists q, path d f w q) /\ (exists q, path d p w q)) \/
      (exists a b, path d f w a /\ path d p w b /\ a <> b /\ ~ (lumped d init f a /\ lumped d init f b)).
End Spec.

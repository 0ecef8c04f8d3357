(** Independent specification of finite automata: paths and acceptance. *)
From Verif Require Import Base OrdMap SymbolSetModel SymbolSetSpec SymbolMapModel SymbolMapSpec NdfaModel.
Local Open Scope Z_scope.

Section Spec.
  Context {A : Type} (eager : A -> bool).
  Implicit Types d : ndfa A.

  (** [path d q w q']: reading the word [w] from state [q] can end in [q'].  Transitions on
      the empty symbol set are silent. *)
  Inductive path d : nat -> list Z -> nat -> Prop :=
  | path_nil q : path d q [] q
  | path_eps q id r w q' :
      In (id, r) (get_state d q) -> sm_get (n_symbols d) id = [] ->
      path d r w q' -> path d q w q'
  | path_sym q id r x w q' :
      In (id, r) (get_state d q) -> contains (sm_get (n_symbols d) id) x = true ->
      path d r w q' -> path d q (x :: w) q'.

  Definition accepts d (q : nat) (w : list Z) (a : A) : Prop :=
    exists q', path d q w q' /\ In a (actions_for_state d q').

  (** No proper prefix of [w] reaches an eager accept action. *)
  Definition not_cut d (q : nat) (w : list Z) : Prop :=
    forall u v b, w = u ++ v -> v <> [] -> accepts d q u b -> eager b = false.

  (** Automata as the API can build them: *)
  Inductive op :=
  | OpState                                       (* add_state() *)
  | OpTrans (old : nat) (s : symbol_set) (new : nat)   (* add_transition(old, s, new) *)
  | OpAccept (q : nat) (a : A)                    (* accept(q, a) *)
  | OpClear (q : nat).                            (* clear_accept(q) *)

  Definition do_op d (o : op) : ndfa A :=
    match o with
    | OpState => snd (add_state d)
    | OpTrans old s new => add_transition d old s new
    | OpAccept q a => accept d q a
    | OpClear q => clear_accept d q
    end.

  Definition op_valid (o : op) : Prop := match o with OpTrans _ s _ => normal s | _ => True end.

  Definition build (ops : list op) : ndfa A := fold_left do_op ops ndfa_new.

  (** Well-formed automata: every automaton the API builds is one (C07_build_ok), and the
      transformations keep them so. *)
  Record ndfa_ok d : Prop := {
    ok_symbols : exists reqs, Forall normal reqs /\ n_symbols d = sm_of reqs;
    ok_trans : forall q id r, In (id, r) (get_state d q) ->
                 0 <= id < sm_count (n_symbols d) /\ (r < count_states d)%nat;
    ok_sorted : forall q, StronglySorted (fun a b => trans_ltb a b = true) (get_state d q);
    ok_accept : StronglySorted (fun a b => Nat.ltb (fst a) (fst b) = true) (n_accept d) }.

  (** No symbol in two different symbol sets. *)
  Definition disjoint_symbols d : Prop :=
    forall i j x, contains (sm_get (n_symbols d) i) x = true ->
                  contains (sm_get (n_symbols d) j) x = true -> i = j.

  (** Deterministic: no silent transitions, and a symbol leads to at most one state. *)
  Definition deterministic d : Prop :=
    (forall q id r, In (id, r) (get_state d q) -> sm_get (n_symbols d) id <> []) /\
    (forall q x id1 r1 id2 r2, In (id1, r1) (get_state d q) -> In (id2, r2) (get_state d q) ->
       contains (sm_get (n_symbols d) id1) x = true -> contains (sm_get (n_symbols d) id2) x = true ->
       r1 = r2).
End Spec.

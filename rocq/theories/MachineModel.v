(** Model of LR states and of the LALR state machine (lr_state.h, lalr_state.cpp, lalr_machine.cpp and
    lalr_machine.h of TameParse/Lr). *)
From Verif Require Import Base OrdMap GrammarModel FirstModel LrItemModel.
Local Open Scope Z_scope.

Section Machine.
  Context (rid : rule -> Z).

  (** lalr_state (lalr_state.h 38-60) with its lr_state (lr_state.h 66-98): identifiers of the items,
      the items in the order in which they were added, their lookaheads and the identifier of the
      state, -1 when it has none.  The merging of items (lr_state.h 158, 184-199) is that of
      state_no_merge, which does nothing. *)
  Record lrstate := mkState { st_ids : list (lr0 * nat); st_list : list lr0; st_looks : list iset; st_ident : Z }.
  (** lr_state.h 91, lalr_state.cpp 34 *)
  Definition new_state : lrstate := mkState [] [] [] (-1).
  (** lr_state.h 165-203 and lalr_state.cpp 67-79 *)
  Definition state_add (k : lr0) (s : lrstate) : lrstate * nat :=
    match mfind (lr0_ltb rid) k (st_ids s) with
    | Some n => (mkState (st_ids s) (st_list s) (st_looks s ++ repeat no_items (S n - length (st_looks s))) (st_ident s), n)
    | None =>
        let n := length (st_list s) in
        (mkState (mset (lr0_ltb rid) k n (st_ids s)) (st_list s ++ [k]) (st_looks s ++ repeat no_items (S n - length (st_looks s))) (st_ident s), n)
    end.
  (** lr_state.h 219-223 *)
  Definition find_identifier (k : lr0) (s : lrstate) : Z := match mfind (lr0_ltb rid) k (st_ids s) with Some n => Z.of_nat n | None => -1 end.
  Definition set_identifier (n : Z) (s : lrstate) : lrstate := mkState (st_ids s) (st_list s) (st_looks s) n.

  (** lr_state.h 123-143: the number of items, then the items one after the other *)
  Fixpoint items_ltb (l k : list lr0) : bool :=
    match l, k with
    | a :: l, b :: k => if lr0_ltb rid a b then true else if lr0_ltb rid b a then false else items_ltb l k
    | _, _ => false
    end.
  Definition kernel_ltb (l k : list lr0) : bool :=
    if Nat.ltb (length l) (length k) then true
    else if Nat.ltb (length k) (length l) then false
    else items_ltb l k.
  (** lr_state.h 105-120 *)
  Fixpoint items_eqb (l k : list lr0) : bool :=
    match l, k with
    | a :: l, b :: k => if lr0_ltb rid a b || lr0_ltb rid b a then false else items_eqb l k
    | _, _ => true
    end.
  Definition kernel_eqb (l k : list lr0) : bool := if negb (Nat.eqb (length l) (length k)) then false else items_eqb l k.

  (** lalr_machine (lalr_machine.h 47-84).  The keys of m_StateIds are the states themselves; a key is
      kept here as the items of the state, which are not to change once it has been added
      (lalr_machine.cpp 46-48). *)
  Record machine := mkMachine { m_ids : list (list lr0 * Z); m_states : list lrstate; m_trans : list (list (item * Z)) }.
  Definition new_machine : machine := mkMachine [] [] [].
  (** lalr_machine.cpp 53-82.  The second result is the state that was passed, as it is afterwards. *)
  Definition add_state (s : lrstate) (m : machine) : machine * lrstate * Z :=
    if 0 <=? st_ident s then (m, s, st_ident s)
    else
      match mfind kernel_ltb (st_list s) (m_ids m) with
      | Some n => (m, set_identifier n s, n)
      | None =>
          let n := Z.of_nat (length (m_states m)) in
          let s := set_identifier n s in
          (mkMachine (mset kernel_ltb (st_list s) n (m_ids m)) (m_states m ++ [s]) (m_trans m ++ [[]]), s, n)
      end.
  (** Replaces an element of a vector *)
  Fixpoint vset {A} (n : nat) (a : A) (l : list A) : list A :=
    match l, n with
    | [], _ => []
    | _ :: l, O => a :: l
    | b :: l, S n => b :: vset n a l
    end.
  (** lalr_machine.cpp 89-95.  [None]: m_Transitions is accessed outside its bounds. *)
  Definition add_transition (q : Z) (i : item) (t : Z) (m : machine) : option machine :=
    if (t <? 0) || (Z.of_nat (length (m_states m)) <=? t) then Some m
    else if q <? 0 then None
    else
      match nth_error (m_trans m) (Z.to_nat q) with
      | None => None
      | Some ts => Some (mkMachine (m_ids m) (m_states m) (vset (Z.to_nat q) (minsert item_ltb i t ts) (m_trans m)))
      end.
  (** lalr_machine.cpp 102-109 *)
  Definition merge_lookahead (la : iset) (old : iset) : iset * bool :=
    fold_left (fun '(s, changed) i => match i with IEmpty => (s, changed) | _ => (iinsert i s, orb changed (negb (icontains s i))) end) la (old, false).
  (** lalr_machine.cpp 98-112.  [None]: m_States or m_Lookahead is accessed outside its bounds. *)
  Definition add_lookahead (q : Z) (n : Z) (la : iset) (m : machine) : option (machine * bool) :=
    if n <? 0 then Some (m, false)
    else if q <? 0 then None
    else
      match nth_error (m_states m) (Z.to_nat q) with
      | None => None
      | Some s =>
          match nth_error (st_looks s) (Z.to_nat n) with
          | None => None
          | Some old =>
              let '(new, changed) := merge_lookahead la old in
              Some (mkMachine (m_ids m) (vset (Z.to_nat q) (mkState (st_ids s) (st_list s) (vset (Z.to_nat n) new (st_looks s)) (st_ident s)) (m_states m)) (m_trans m), changed)
          end
      end.
  (** lalr_machine.h 125-131, 134-139 and 142; [None] stands for the empty container *)
  Definition state_with_id (n : Z) (m : machine) : option lrstate :=
    if (n <? 0) || (Z.of_nat (length (m_states m)) <=? n) then None else nth_error (m_states m) (Z.to_nat n).
  Definition transitions_for_state (n : Z) (m : machine) : list (item * Z) :=
    if (n <? 0) || (Z.of_nat (length (m_trans m)) <=? n) then [] else nth (Z.to_nat n) (m_trans m) [].
  Definition count_states (m : machine) : Z := Z.of_nat (length (m_states m)).
End Machine.

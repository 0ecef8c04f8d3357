(** Model of the parser tables: their construction (parser_tables.cpp 36-238) and the functions that
    look things up in them (parser_tables.h 159-225). *)
From Verif Require Import Base OrdMap BinSearch GrammarModel FirstModel MachineModel ActionModel.
Local Open Scope Z_scope.

(** parser_tables.h 46-60: [e_next] has 24 bits *)
Record entry := mkEntry { e_type : action_type; e_next : Z; e_symbol : Z }.
(** parser_tables.h 63-75 *)
Record reduce_rule := mkReduce { rr_identifier : Z; rr_rule : Z; rr_length : Z }.
(** parser_tables.h 101-140.  The arrays of actions have one element more than the count says, which
    is not initialised; it is left out here. *)
Record tables := mkTables {
  t_terminals : list (list entry);      (* m_TerminalActions, m_Counts *)
  t_nonterminals : list (list entry);   (* m_NonterminalActions, m_Counts *)
  t_eoi : Z;                            (* m_EndOfInput *)
  t_eog : Z;                            (* m_EndOfGuard *)
  t_guards : list Z;                    (* m_EndGuardStates *)
  t_rules : list reduce_rule;           (* m_Rules *)
  t_weak : list (Z * Z) }.              (* m_WeakToStrong *)

(** parser_tables.cpp 37-64 *)
Definition action_score (t : action_type) : Z :=
  match t with Guard => 0 | WeakReduce => 1 | Shift | ShiftStrong | Divert => 2 | Reduce => 3 | Goto => 4 | Ignore | Accept => 5 end.
(** parser_tables.cpp 66-80 *)
Definition entry_ltb (a b : entry) : bool :=
  if e_symbol a <? e_symbol b then true
  else if e_symbol b <? e_symbol a then false
  else if action_score (e_type a) <? action_score (e_type b) then true
  else false.
(** parser_tables.h 91-95 *)
Definition weak_ltb (a b : Z * Z) : bool := fst a <? fst b.

Section Make.
  (** rule::identifier, grammar::rule_with_identifier and grammar::identifier_for_item *)
  Context (rid : rule -> Z) (rule_of : Z -> rule) (ident : item -> Z).
  (** std::sort with compare_actions, and with symbol_equivalent::operator< *)
  Context (sort : list entry -> list entry) (sort_weak : list (Z * Z) -> list (Z * Z)).

  Definition is_terminal (i : item) : bool := match i with ITerm _ => true | _ => false end.
  Definition term_symbol (i : item) : Z := match i with ITerm s => s | _ => 0 end.
  Definition is_reduction (t : action_type) : bool := match t with Reduce | WeakReduce | Accept => true | _ => false end.
  (** The 24 bits of nextState *)
  Definition bits24 (n : Z) : Z := n mod 2 ^ 24.
  (** parser_tables.cpp 131-144: the number of a rule *)
  Definition rule_index (r : rule) (ids : list (Z * Z)) : Z * list (Z * Z) :=
    match mfind Z.ltb (rid r) ids with
    | Some n => (n, ids)
    | None => let n := Z.of_nat (length ids) in (n, mset Z.ltb (rid r) n ids)
    end.
  (** parser_tables.cpp 125-164: the entries for the terminals, those for the other items (neither are
      sorted yet), the numbers of the rules, and the states with an action for the end of a guard *)
  Fixpoint fill (q : Z) (acts : action_set) (ids : list (Z * Z)) (eogs : list Z) : list entry * list entry * list (Z * Z) * list Z :=
    match acts with
    | [] => ([], [], ids, eogs)
    | a :: acts =>
        let '(n, ids) := if is_reduction (a_type a) then rule_index (a_rule a) ids else (a_next a, ids) in
        if is_terminal (a_item a) then
          let '(ts, ns, ids, eogs) := fill q acts ids eogs in
          (mkEntry (a_type a) (bits24 n) (term_symbol (a_item a)) :: ts, ns, ids, eogs)
        else
          let s := ident (a_item a) in
          let '(ts, ns, ids, eogs) := fill q acts ids (if s =? ident IEog then eogs ++ [q] else eogs) in
          (ts, mkEntry (a_type a) (bits24 n) s :: ns, ids, eogs)
    end.
  (** parser_tables.cpp 101-175 *)
  Fixpoint fill_states (q : Z) (actss : list action_set) (ids : list (Z * Z)) (eogs : list Z) : list (list entry) * list (list entry) * list (Z * Z) * list Z :=
    match actss with
    | [] => ([], [], ids, eogs)
    | acts :: actss =>
        let '(ts, ns, ids, eogs) := fill q acts ids eogs in
        let '(tss, nss, ids, eogs) := fill_states (q + 1) actss ids eogs in
        (sort ts :: tss, sort ns :: nss, ids, eogs)
    end.
  (** parser_tables.cpp 184-194 *)
  Definition reduce_rule_of (id : Z) : reduce_rule :=
    let r := rule_of id in mkReduce (ident (r_nonterminal r)) (rid r) (Z.of_nat (length (r_items r))).
  Definition no_reduce : reduce_rule := mkReduce 0 0 0.
  Definition fill_rules (ids : list (Z * Z)) : list reduce_rule :=
    fold_left (fun l '(id, n) => vset (Z.to_nat n) (reduce_rule_of id) l) ids (repeat no_reduce (length ids)).
  (** parser_tables.cpp 196-236: the weak symbols of each strong symbol *)
  Definition weak_pairs (weak : list (item * iset)) : list (Z * Z) :=
    flat_map (fun '(strong, ws) => match strong with
                                   | ITerm s => flat_map (fun w => match w with ITerm t => [(t, s)] | _ => [] end) ws
                                   | _ => []
                                   end) weak.
  (** parser_tables.cpp 83-238.  [actss]: the actions of state 0, 1 and so on *)
  Definition make_tables (actss : list action_set) (weak : list (item * iset)) : tables :=
    let '(tss, nss, ids, eogs) := fill_states 0 actss [] [] in
    mkTables tss nss (ident IEoi) (ident IEog) eogs (fill_rules ids) (sort_weak (weak_pairs weak)).
End Make.

(** parser_tables.h 159-170.  An iterator is the list of the entries from it to the end of the array. *)
Definition no_entry : entry := mkEntry Shift 0 0.
Definition find_pos (symbol : Z) (l : list entry) : nat := lower_bound_pos (fun i => e_symbol (nth i l no_entry) <? symbol) (length l).
Definition find_action (symbol : Z) (l : list entry) : list entry := skipn (find_pos symbol l) l.
(** The arrays of a state.  [None]: not a state *)
Definition row (q : Z) (rows : list (list entry)) : option (list entry) := if q <? 0 then None else nth_error rows (Z.to_nat q).
(** parser_tables.h 186-196 *)
Definition find_terminal (t : tables) (q symbol : Z) : option (list entry) := match row q (t_terminals t) with Some l => Some (find_action symbol l) | None => None end.
Definition find_nonterminal (t : tables) (q symbol : Z) : option (list entry) := match row q (t_nonterminals t) with Some l => Some (find_action symbol l) | None => None end.
(** parser_tables.h 204-207: std::binary_search *)
Definition has_end_of_guard (t : tables) (q : Z) : bool :=
  let p := lower_bound_pos (fun i => nth i (t_guards t) 0 <? q) (length (t_guards t)) in
  match nth_error (t_guards t) p with Some g => negb (q <? g) | None => false end.
(** parser_tables.h 209-225: std::find *)
Definition strong_for_weak (t : tables) (weak : Z) : Z :=
  match find (fun p => fst p =? weak) (t_weak t) with Some p => snd p | None => weak end.
(** parser_tables.h 174.  [None]: outside the array *)
Definition rule_at (t : tables) (n : Z) : option reduce_rule := if n <? 0 then None else nth_error (t_rules t) (Z.to_nat n).
(** A scan of the actions for a symbol, as in parser_state.h 518-521: it stops at the end or at another
    symbol. *)
Fixpoint scan (symbol : Z) (l : list entry) : list entry :=
  match l with
  | [] => []
  | e :: l => if e_symbol e =? symbol then e :: scan symbol l else []
  end.

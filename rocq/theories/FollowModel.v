(** Model of the FOLLOW sets of a grammar (grammar::follow and grammar::fill_follow, grammar.cpp
    287-394). *)
From Verif Require Import Base OrdMap GrammarModel FirstModel.
Local Open Scope Z_scope.

Definition set_map := list (item * iset).
(** The state of the computation: m_CachedFollowSets and the map [dependencies] *)
Record follow_state := mkFollow { follow_sets : set_map; depends : set_map }.

(** [map.insert] of an empty set when there is no entry *)
Definition ensure (i : item) (m : set_map) : set_map := minsert item_ltb i no_items m.
Definition set_of (i : item) (m : set_map) : iset := match mfind item_ltb i m with Some s => s | None => no_items end.
(** item_set::merge: the set afterwards, and whether it changed (C21) *)
Definition merge_changes (s t : iset) : bool := existsb (fun i => negb (icontains s i)) t.

Section Grammar.
  (** grammar::first.  Its answers do not change while this runs (C25_stable). *)
  Context (first_of : item -> iset).
  (** m_Nonterminals *)
  Context (nonterminals : list (Z * list (list item))).

  (** grammar.cpp 363-378: [true] when the loop reached the end of the rule *)
  Fixpoint add_following (following : list item) (s : iset) : iset * bool :=
    match following with
    | [] => (s, true)
    | i :: following =>
        let s := imerge s (first_of i) in
        if icontains (first_of i) IEmpty then add_following following s else (s, false)
    end.
  (** grammar.cpp 348-388: one position of a rule of [nt] *)
  Definition visit (nt i : item) (following : list item) (st : follow_state) : follow_state :=
    match i with
    | ITerm _ => st
    | _ =>
        let fs := ensure i (follow_sets st) in
        let '(s, at_end) := add_following following (set_of i fs) in
        let fs := mset item_ltb i s fs in
        if at_end
        then let ds := ensure i (depends st) in mkFollow fs (mset item_ltb i (iinsert nt (set_of i ds)) ds)
        else mkFollow fs (depends st)
    end.
  (** grammar.cpp 342-394.  [fill_parts] is the recursive part (390-396) for an EBNF item. *)
  Fixpoint fill_parts (i : item) (st : follow_state) : follow_state :=
    match i with
    | IEbnf _ rs =>
        (fix each_rule (rs : list (list item)) (st : follow_state) : follow_state :=
           match rs with
           | [] => st
           | r :: rs =>
               each_rule rs
                 ((fix each_item (l : list item) (st : follow_state) : follow_state :=
                     match l with
                     | [] => st
                     | j :: l => each_item l (fill_parts j (visit i j l st))
                     end) r st)
           end) rs st
    | _ => st
    end.
  Fixpoint fill_follow (nt : item) (l : list item) (st : follow_state) : follow_state :=
    match l with
    | [] => st
    | j :: l => fill_follow nt l (fill_parts j (visit nt j l st))
    end.
  (** grammar.cpp 294-299 *)
  Definition fill_all : follow_state :=
    fold_left (fun st '(n, rs) => fold_left (fun st r => fill_follow (INonterm n) r st) rs st) nonterminals (mkFollow [] []).

  (** grammar.cpp 307-327: one pass over the dependencies.  The sets of dependencies are walked in
      the order of the items; the C++ code walks them in the order of their identifiers. *)
  Definition depend_on (i d : item) (fs : set_map) : set_map * bool :=
    if item_eqb d i then (fs, false)
    else match mfind item_ltb d fs with
         | None => (fs, false)
         | Some ds => let fs := ensure i fs in (mset item_ltb i (imerge (set_of i fs) ds) fs, merge_changes (set_of i fs) ds)
         end.
  Fixpoint depend_all (i : item) (ds : iset) (fs : set_map) (changed : bool) : set_map * bool :=
    match ds with
    | [] => (fs, changed)
    | d :: ds => let '(fs, c) := depend_on i d fs in depend_all i ds fs (changed || c)
    end.
  Fixpoint pass (deps : set_map) (fs : set_map) (changed : bool) : set_map * bool :=
    match deps with
    | [] => (fs, changed)
    | (i, ds) :: deps => let '(fs, changed) := depend_all i ds fs changed in pass deps fs changed
    end.
  (** grammar.cpp 302-328; [None]: more than [fuel] passes *)
  Fixpoint passes (fuel : nat) (deps fs : set_map) : option set_map :=
    match fuel with
    | O => None
    | S fuel => let '(fs, changed) := pass deps fs false in if changed then passes fuel deps fs else Some fs
    end.
  (** grammar.cpp 287-337 *)
  Definition follow_map (fuel : nat) : option set_map := passes fuel (depends fill_all) (follow_sets fill_all).
  Definition follow (fuel : nat) (i : item) : option iset :=
    match follow_map fuel with None => None | Some fs => Some (set_of i fs) end.
End Grammar.

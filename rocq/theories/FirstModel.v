(** Model of the FIRST sets of a grammar: grammar::first and the methods [first] of the items. *)
From Verif Require Import Base OrdMap GrammarModel.
Local Open Scope Z_scope.

(** item_set, as the sorted list of its members: ItemSetProps.v (C21) shows that the operations of
    the C++ class behave as those of a finite set, and C23 and C52 that the identifiers it keeps stand for
    the items. *)
Definition iset := list item.
Definition no_items : iset := [].
Definition iinsert (i : item) (s : iset) : iset := sins item_ltb i s.
Definition ierase (i : item) (s : iset) : iset := serase item_ltb i s.
Definition icontains (s : iset) (i : item) : bool := smem item_ltb i s.
Definition imerge (s t : iset) : iset := fold_left (fun s i => iinsert i s) t s.

(** m_CachedFirstSets (grammar.h 101) *)
Definition first_cache := list (item * iset).

Section Grammar.
  (** grammar::rules_for_nonterminal (grammar.cpp 86-101): the items of each rule *)
  Context (rules : Z -> list (list item)).

  Section Items.
    (** grammar::first *)
    Context (first : item -> first_cache -> option (first_cache * iset)).

    (** standard_items.cpp 139-156: the items after the first of a rule *)
    Fixpoint rest_first (rest : list item) (c : first_cache) (result : iset) : option (first_cache * iset) :=
      match rest with
      | [] => Some (c, result)
      | i :: rest =>
          match first i c with
          | None => None
          | Some (c, next) =>
              let result := imerge (ierase IEmpty result) next in
              if icontains next IEmpty then rest_first rest c result else Some (c, result)
          end
      end.
    (** standard_items.cpp 121-158 *)
    Fixpoint rules_first (rs : list (list item)) (c : first_cache) (result : iset) : option (first_cache * iset) :=
      match rs with
      | [] => Some (c, result)
      | [] :: rs => rules_first rs c (iinsert IEmpty result)
      | (i :: rest) :: rs =>
          match first i c with
          | None => None
          | Some (c, f) =>
              let result := imerge result f in
              if icontains f IEmpty then
                match rest_first rest c result with
                | None => None
                | Some (c, result) => rules_first rs c result
                end
              else rules_first rs c result
          end
      end.
    (** ebnf_items.cpp 189-198, 242-248, 301-311, 366-377: the first item of the rule *)
    Definition head_first (r : list item) (c : first_cache) (if_empty : iset) (result : iset) : option (first_cache * iset) :=
      match r with
      | [] => Some (c, imerge result if_empty)
      | i :: _ => match first i c with None => None | Some (c, f) => Some (c, imerge result f) end
      end.
    Fixpoint alternatives_first (rs : list (list item)) (c : first_cache) (result : iset) : option (first_cache * iset) :=
      match rs with
      | [] => Some (c, result)
      | r :: rs => match head_first r c [IEmpty] result with None => None | Some (c, result) => alternatives_first rs c result end
      end.
    (** standard_items.cpp 56 (terminal), 111 (nonterminal), 191 (empty), guard.cpp 99, and the
        end of input and of guard items; ebnf_items.cpp 181 (optional), 234 (repeating), 291
        (repeating optional), 357 (alternative) *)
    Definition item_first (i : item) (c : first_cache) : option (first_cache * iset) :=
      match i with
      | INonterm n => rules_first (rules n) c [i]
      | IEbnf Optional rs => head_first (nth 0 rs []) c [IEmpty] [IEmpty]
      | IEbnf Repeat rs => head_first (nth 0 rs []) c [] []
      | IEbnf RepeatZero rs => head_first (nth 0 rs []) c [IEmpty] [IEmpty]
      | IEbnf Alternative rs => alternatives_first rs c []
      | _ => Some (c, [i])
      end.
  End Items.

  (** grammar.cpp 238-253.  [fuel] bounds the depth of the recursion; [None]: it ran out. *)
  Fixpoint first (fuel : nat) (i : item) (c : first_cache) : option (first_cache * iset) :=
    match fuel with
    | O => None
    | S fuel =>
        match mfind item_ltb i c with
        | Some s => Some (c, s)
        | None =>
            match item_first (first fuel) i (minsert item_ltb i no_items c) with
            | None => None
            | Some (c, s) => Some (mset item_ltb i s c, s)
            end
        end
    end.
  (** grammar.cpp 256-281 *)
  Fixpoint first_for_items (fuel : nat) (l : list item) (c : first_cache) (result : iset) : option (first_cache * iset) :=
    match l with
    | [] => Some (c, iinsert IEmpty result)
    | i :: l =>
        match first fuel i c with
        | None => None
        | Some (c, f) => let result := imerge (ierase IEmpty result) f in if icontains result IEmpty then first_for_items fuel l c result else Some (c, result)
        end
    end.
  Definition first_for_rule (fuel : nat) (l : list item) (c : first_cache) : option (first_cache * iset) :=
    match l with [] => Some (c, [IEmpty]) | _ => first_for_items fuel l c [] end.
End Grammar.

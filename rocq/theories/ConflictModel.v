(** Model of the search for conflicts: conflict.cpp 82-243. *)
From Verif Require Import Base OrdMap GrammarModel FirstModel LrItemModel ClosureModel MachineModel BuilderModel ActionModel TableModel RewriteModel.
Local Open Scope Z_scope.

(** conflict.h 60-90: m_StateId, m_Token, m_Shift and m_Reduce *)
Record conflict := mkConflict { f_state : Z; f_token : item; f_shift : list lr0; f_reduce : list (lr0 * list lid) }.

(** conflict.cpp 106-118: the types that are not left out *)
Definition contends (a : action) : bool := match a_type a with Goto | Ignore | Accept => false | _ => true end.
(** conflict.cpp 131-142: the types that count as weak *)
Definition gives_way (a : action) : bool := match a_type a with Guard | WeakReduce | Ignore => true | _ => false end.

Section Builder.
  Context (rid : rule -> Z) (first_of : item -> iset) (rules : Z -> list (list item)) (busy : nat -> list item -> item -> bool).
  (** lalr_builder::find_lookahead_source (lalr_builder.cpp 569-633): the items that a lookahead of an
      item of a state comes from.  Any answer will do here; the function itself is in LookSourceModel. *)
  Context (sources : Z -> Z -> item -> list lid).

  (** conflict.cpp 83-85 and 160-170 *)
  Definition shift_items (x : item) (closure : lr1_set) : list lr0 :=
    fold_left (fun s '(k, _) => match after_dot k with i :: _ => if icontains (first_of i) x then sins (lr0_ltb rid) k s else s | [] => s end) closure [].
  (** conflict.cpp 90-92, with the insertions into the result (208 and 229) *)
  Definition add_reduce (k : lr0) (ids : list lid) (r : list (lr0 * list lid)) : list (lr0 * list lid) :=
    mset (lr0_ltb rid) k (fold_left (fun s i => sins lid_ltb i s) ids (match mfind (lr0_ltb rid) k r with Some l => l | None => [] end)) r.
  (** conflict.cpp 196-209 *)
  Definition closure_reduces (x : item) (id : lid) (items : lr1_set) (r : list (lr0 * list lid)) : list (lr0 * list lid) :=
    fold_left (fun r '(k, la) => if at_end k && icontains la x then add_reduce k [id] r else r) items r.
  (** conflict.cpp 173-230: [n] is the number of the item in the state.  [None]: the fuel ran out. *)
  Fixpoint state_reduces (fuel : nat) (q : Z) (x : item) (n : Z) (kernel : list lr1) (r : list (lr0 * list lid)) (c : caching) : option (list (lr0 * list lid) * caching) :=
    match kernel with
    | [] => Some (r, c)
    | (k, la) :: kernel =>
        match after_dot k with
        | i :: _ =>
            match cache_closure rid first_of rules busy fuel [] i k la [] c with
            | None => None
            | Some (items, c) => state_reduces fuel q x (n + 1) kernel (closure_reduces x (q, n) items r) c
            end
        | [] => state_reduces fuel q x (n + 1) kernel (if icontains la x then add_reduce k (sources q n x) r else r) c
        end
    end.
  (** conflict.cpp 144-240: the conflict for an item with more than one action *)
  Definition describe (fuel : nat) (q : Z) (s : lrstate) (x : item) (c : caching) : option (list conflict * caching) :=
    match generate_closure rid first_of rules busy fuel fuel (kernel_items s) c with
    | None => None
    | Some (closure, c) =>
        match state_reduces fuel q x 0 (kernel_items s) [] c with
        | None => None
        | Some (reduces, c) =>
            let shifts := shift_items x closure in
            match shifts, reduces with
            | [], [] => Some ([], c)
            | _, _ => Some ([mkConflict q x shifts reduces], c)
            end
        end
    end.
  (** conflict.cpp 126-144 *)
  Definition clashes (l : list action) : bool := (2 <=? length l)%nat && (2 <=? length l - length (filter gives_way l))%nat.
  (** conflict.cpp 125-242 *)
  Fixpoint describe_all (fuel : nat) (q : Z) (s : lrstate) (groups : list (item * list action)) (c : caching) : option (list conflict * caching) :=
    match groups with
    | [] => Some ([], c)
    | (x, l) :: groups =>
        if clashes l then
          match describe fuel q s x c with
          | None => None
          | Some (found, c) =>
              match describe_all fuel q s groups c with
              | None => None
              | Some (more, c) => Some (found ++ more, c)
              end
          end
        else describe_all fuel q s groups c
    end.
  (** conflict.cpp 95-243: the conflicts in a state with the actions [acts].  [None]: not a state, or
      the fuel ran out. *)
  Definition state_conflicts (fuel : nat) (m : machine) (q : Z) (acts : action_set) (c : caching) : option (list conflict * caching) :=
    match state_with_id q m with
    | None => None
    | Some s => describe_all fuel q s (group contends acts) c
    end.
  (** conflict.cpp 246-251 *)
  Fixpoint conflicts_in (fuel : nat) (m : machine) (guards : guard_states) (rewriters : list rewriter) (qs : list Z) (c : caching) : option (list conflict * caching) :=
    match qs with
    | [] => Some ([], c)
    | q :: qs =>
        match actions_for_state rid first_of rules busy fuel m guards rewriters q c with
        | None => None
        | Some (acts, c) =>
            match state_conflicts fuel m q acts c with
            | None => None
            | Some (found, c) =>
                match conflicts_in fuel m guards rewriters qs c with
                | None => None
                | Some (more, c) => Some (found ++ more, c)
                end
            end
        end
    end.
  Definition find_conflicts (fuel : nat) (m : machine) (guards : guard_states) (rewriters : list rewriter) (c : caching) : option (list conflict * caching) :=
    conflicts_in fuel m guards rewriters (state_ids m) c.
End Builder.

(** The memory of parser tables: how they are made, copied, assigned and
    destroyed (TameParse/Lr/parser_tables.cpp 83-421).

    Simplifications.  The memory is a list of arrays, whose places are their
    addresses; an array which was released is [None].  [new] adds an array at
    the end.  The spare element at the end of most arrays, which is never set
    or read, is left out.  The two outer arrays of actions and the array of
    counts are filled after the loop that copies the states instead of during
    it.  A program keeps its objects in variables which are numbered in the
    order in which they are made. *)

From Verif Require Import Base MachineModel TableModel.
Local Open Scope nat_scope.

(** parser_tables.h 46-97: the types of the arrays. *)
Inductive array :=
| Rows (l : list nat)
| Actions (l : list entry)
| Counts (l : list (nat * nat))
| Guards (l : list Z)
| Rules (l : list reduce_rule)
| Weak (l : list (Z * Z)).

Definition memory := list (option array).

(** parser_tables.h 101-137. *)
Record object := mkObject {
  o_states : nat;
  o_eoi : Z;
  o_eog : Z;
  o_term : nat;
  o_nonterm : nat;
  o_counts : nat;
  o_guards : nat;
  o_num_guards : nat;
  o_num_rules : nat;
  o_rules : nat;
  o_num_weak : nat;
  o_weak : option nat;
  o_delete : bool }.

Definition bind {A B} (x : option A) (f : A -> option B) : option B := match x with Some a => f a | None => None end.
Notation "'let?' p := x 'in' f" := (bind x (fun r => let p := r in f)) (at level 200, p pattern, x at level 100, f at level 200).

(** Reading through a pointer.  [None]: the array was released, or is not of
    this type. *)
Definition rows_at (m : memory) (a : nat) : option (list nat) := match nth_error m a with Some (Some (Rows l)) => Some l | _ => None end.
Definition actions_at (m : memory) (a : nat) : option (list entry) := match nth_error m a with Some (Some (Actions l)) => Some l | _ => None end.
Definition counts_at (m : memory) (a : nat) : option (list (nat * nat)) := match nth_error m a with Some (Some (Counts l)) => Some l | _ => None end.
Definition guards_at (m : memory) (a : nat) : option (list Z) := match nth_error m a with Some (Some (Guards l)) => Some l | _ => None end.
Definition rules_at (m : memory) (a : nat) : option (list reduce_rule) := match nth_error m a with Some (Some (Rules l)) => Some l | _ => None end.
Definition weak_at (m : memory) (a : nat) : option (list (Z * Z)) := match nth_error m a with Some (Some (Weak l)) => Some l | _ => None end.

(** The loops that copy [n] elements.  [None]: there are fewer. *)
Definition copied {A} (n : nat) (l : list A) : option (list A) := if n <=? length l then Some (firstn n l) else None.

(** [new]. *)
Definition alloc (x : array) (m : memory) : nat * memory := (length m, m ++ [Some x]).

(** [delete[]].  [None]: not an array, or released before. *)
Definition release (a : nat) (m : memory) : option memory :=
  match nth_error m a with Some (Some _) => Some (vset a None m) | _ => None end.

(** parser_tables.cpp 273-289 and 353-369: the loop over the states, from state
    [k] on for [n] states.  The answer has the new arrays of actions for the
    terminals, those for the nonterminals, and the counts. *)
Fixpoint copy_states (from : object) (n k : nat) (m : memory) : option (list nat * list nat * list (nat * nat) * memory) :=
  match n with
  | O => Some ([], [], [], m)
  | S n =>
      let? counts := counts_at m (o_counts from) in
      let? c := nth_error counts k in
      let? terms := rows_at m (o_term from) in
      let? t := nth_error terms k in
      let? ta := actions_at m t in
      let? ta' := copied (fst c) ta in
      let? nonterms := rows_at m (o_nonterm from) in
      let? nt := nth_error nonterms k in
      let? na := actions_at m nt in
      let? na' := copied (snd c) na in
      let '(t', m) := alloc (Actions ta') m in
      let '(n', m) := alloc (Actions na') m in
      let? (ts, ns, cs, m) := copy_states from n (S k) m in
      Some (t' :: ts, n' :: ns, c :: cs, m)
  end.

(** parser_tables.cpp 258-313: the copy constructor; 341-393: the second half of
    the assignment, which does the same. *)
Definition copy (from : object) (m : memory) : option (object * memory) :=
  let '(term, m) := alloc (Rows []) m in
  let '(nonterm, m) := alloc (Rows []) m in
  let '(counts, m) := alloc (Counts []) m in
  let? (ts, ns, cs, m) := copy_states from (o_states from) 0 m in
  let m := vset term (Some (Rows ts)) m in
  let m := vset nonterm (Some (Rows ns)) m in
  let m := vset counts (Some (Counts cs)) m in
  let? rs := rules_at m (o_rules from) in
  let? rs' := copied (o_num_rules from) rs in
  let '(rules, m) := alloc (Rules rs') m in
  let? gs := guards_at m (o_guards from) in
  let? gs' := copied (o_num_guards from) gs in
  let '(guards, m) := alloc (Guards gs') m in
  let? (weak, m) :=
    match o_weak from with
    | None => Some (None, m)
    | Some w =>
        let? ws := weak_at m w in
        let? ws' := copied (o_num_weak from) ws in
        let '(w', m) := alloc (Weak ws') m in
        Some (Some w', m)
    end in
  Some (mkObject (o_states from) (o_eoi from) (o_eog from) term nonterm counts guards (o_num_guards from)
          (o_num_rules from) rules (o_num_weak from) weak (o_delete from), m).

(** parser_tables.cpp 321-324 and 401-404: the loop that releases the arrays of
    the states. *)
Fixpoint release_states (this : object) (n k : nat) (m : memory) : option memory :=
  match n with
  | O => Some m
  | S n =>
      let? nonterms := rows_at m (o_nonterm this) in
      let? nt := nth_error nonterms k in
      let? m := release nt m in
      let? terms := rows_at m (o_term this) in
      let? t := nth_error terms k in
      let? m := release t m in
      release_states this n (S k) m
  end.

(** parser_tables.cpp 398-416: the destructor; 320-333: the first half of the
    assignment, which does the same. *)
Definition destroy (this : object) (m : memory) : option memory :=
  if o_delete this then
    let? m := release_states this (o_states this) 0 m in
    let? m := release (o_nonterm this) m in
    let? m := release (o_term this) m in
    let? m := release (o_rules this) m in
    let? m := release (o_counts this) m in
    let? m := release (o_guards this) m in
    match o_weak this with Some w => release w m | None => Some m end
  else Some m.

(** The arrays for the states of some tables. *)
Fixpoint make_states (terms nonterms : list (list entry)) (m : memory) : list nat * list nat * list (nat * nat) * memory :=
  match terms, nonterms with
  | t :: terms, n :: nonterms =>
      let '(t', m) := alloc (Actions t) m in
      let '(n', m) := alloc (Actions n) m in
      let '(ts, ns, cs, m) := make_states terms nonterms m in
      (t' :: ts, n' :: ns, (length t, length n) :: cs, m)
  | _, _ => ([], [], [], m)
  end.

(** parser_tables.cpp 83-238: the constructor that builds tables, whose contents
    are those of [make_tables]; [weak] tells whether there is an object with
    the weak symbols.  With [owned] false, 241-255: the constructor around
    arrays which the client made, in any order. *)
Definition make (owned : bool) (t : tables) (weak : bool) (m : memory) : object * memory :=
  let '(ts, ns, cs, m) := make_states (t_terminals t) (t_nonterminals t) m in
  let '(term, m) := alloc (Rows ts) m in
  let '(nonterm, m) := alloc (Rows ns) m in
  let '(counts, m) := alloc (Counts cs) m in
  let '(guards, m) := alloc (Guards (t_guards t)) m in
  let '(rules, m) := alloc (Rules (t_rules t)) m in
  let '(w, m) := if weak then let '(w, m) := alloc (Weak (t_weak t)) m in (Some w, m) else (None, m) in
  (mkObject (length (t_terminals t)) (t_eoi t) (t_eog t) term nonterm counts guards (length (t_guards t))
     (length (t_rules t)) rules (if weak then length (t_weak t) else 0) w owned, m).

(** What a program does with tables.  [Build] is the constructor that takes a
    builder, [Wrap] the one that takes arrays of the client. *)
Inductive op :=
| Build (t : tables) (weak : bool)
| Wrap (t : tables) (weak : bool)
| Copy (x : nat)
| Assign (x y : nat)
| Destroy (x : nat).

Record world := mkWorld { w_objects : list (option object); w_memory : memory }.

Definition live (w : world) (x : nat) : option object := match nth_error (w_objects w) x with Some (Some o) => Some o | _ => None end.

(** One step.  [None]: undefined behaviour, or a variable that holds no
    object. *)
Definition step (w : world) (o : op) : option world :=
  match o with
  | Build t weak => let '(x, m) := make true t weak (w_memory w) in Some (mkWorld (w_objects w ++ [Some x]) m)
  | Wrap t weak => let '(x, m) := make false t weak (w_memory w) in Some (mkWorld (w_objects w ++ [Some x]) m)
  | Copy y =>
      let? from := live w y in
      let? (x, m) := copy from (w_memory w) in
      Some (mkWorld (w_objects w ++ [Some x]) m)
  | Assign x y =>
      let? this := live w x in
      let? from := live w y in
      (* parser_tables.cpp 318 *)
      if x =? y then Some w
      else
        let? m := destroy this (w_memory w) in
        let? (o', m) := copy from m in
        Some (mkWorld (vset x (Some o') (w_objects w)) m)
  | Destroy x =>
      let? this := live w x in
      let? m := destroy this (w_memory w) in
      Some (mkWorld (vset x None (w_objects w)) m)
  end.

Fixpoint run (w : world) (l : list op) : option world :=
  match l with
  | [] => Some w
  | o :: l => let? w := step w o in run w l
  end.

Definition start : world := mkWorld [] [].

(** parser_tables.h 173-225: what the functions that look things up can see of
    an object: the rows up to their counts, and the other arrays. *)
Fixpoint see_rows (m : memory) (n : nat) (rows : list nat) (counts : list nat) : option (list (list entry)) :=
  match n with
  | O => Some []
  | S n =>
      match rows, counts with
      | a :: rows, c :: counts =>
          let? l := actions_at m a in
          let? l := copied c l in
          let? r := see_rows m n rows counts in
          Some (l :: r)
      | _, _ => None
      end
  end.
Definition see (m : memory) (o : object) : option tables :=
  let? counts := counts_at m (o_counts o) in
  let? ts := rows_at m (o_term o) in
  let? tss := see_rows m (o_states o) ts (map fst counts) in
  let? ns := rows_at m (o_nonterm o) in
  let? nss := see_rows m (o_states o) ns (map snd counts) in
  let? gs := guards_at m (o_guards o) in
  let? gs := copied (o_num_guards o) gs in
  let? rs := rules_at m (o_rules o) in
  let? rs := copied (o_num_rules o) rs in
  let? ws := match o_num_weak o, o_weak o with
             | O, _ => Some []
             | n, Some w => let? ws := weak_at m w in copied n ws
             | _, None => None
             end in
  Some (mkTables tss nss (o_eoi o) (o_eog o) gs rs ws).

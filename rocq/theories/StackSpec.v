(** What a stack and its copies are to contain: each handle has a list of entries of its own. *)
From Verif Require Import Base OrdMap RunModel StackModel.
Local Open Scope Z_scope.

Section Spec.
  Context (A : Type) (item0 : A) (state0 : Z).
  (** An entry has a name, given when it was pushed, and the state and the item it was given.  The first one is the top;
      there is always one.  [a_stacks]: what each handle that has not been destroyed contains. *)
  Definition entries := list (nat * (Z * A)).
  Record astate := mkAstate { a_stacks : nat -> option entries; a_made : nat; a_names : nat }.
  Definition start : astate := mkAstate (fun h => match h with O => Some [(O, (state0, item0))] | _ => None end) 1 1.
  Definition put (h : nat) (l : option entries) (f : nat -> option entries) : nat -> option entries := fun i => if Nat.eqb i h then l else f i.
  Definition rename (n : nat) (x : Z * A) (l : entries) : entries := map (fun e => if Nat.eqb (fst e) n then (n, x) else e) l.
  (** Only SetTop looks at names: it changes the entry in every stack it is part of. *)
  Definition a_op (o : op A) (a : astate) : astate :=
    match o with
    | Copy h => mkAstate (put (a_made a) (a_stacks a h) (a_stacks a)) (S (a_made a)) (a_names a)
    | Assign h f => mkAstate (put h (a_stacks a f) (a_stacks a)) (a_made a) (a_names a)
    | Destroy h => mkAstate (put h None (a_stacks a)) (a_made a) (a_names a)
    | SetTop h s x =>
        match a_stacks a h with
        | Some ((n, _) :: _) => mkAstate (fun i => match a_stacks a i with Some l => Some (rename n (s, x) l) | None => None end) (a_made a) (a_names a)
        | _ => a
        end
    | Push h s x => match a_stacks a h with Some l => mkAstate (put h (Some ((a_names a, (s, x)) :: l)) (a_stacks a)) (a_made a) (S (a_names a)) | None => a end
    | Pop h => match a_stacks a h with Some (_ :: (e :: l)) => mkAstate (put h (Some (e :: l)) (a_stacks a)) (a_made a) (a_names a) | _ => a end
    end.
  Definition live (a : astate) (h : nat) : Prop := a_stacks a h <> None.
  (** Handles are used while they live. *)
  Definition used_alive (o : op A) (a : astate) : Prop :=
    match o with
    | Copy h | SetTop h _ _ | Push h _ _ | Pop h | Destroy h => live a h
    | Assign h f => live a h /\ live a f
    end.
  (** Also, they are destroyed in the order opposite to that in which they were made. *)
  Definition legal (o : op A) (a : astate) : Prop := used_alive o a /\ forall h, o = Destroy h -> forall i, live a i -> (i <= h)%nat.
  Inductive history (ok : op A -> astate -> Prop) : list (op A) -> astate -> Prop :=
  | history_none : history ok [] start
  | history_more l a o : history ok l a -> ok o a -> history ok (l ++ [o]) (a_op o a).
  (** What is [n] entries below the top; the last entry if there are not so many *)
  Definition content (n : nat) (l : entries) : option (Z * A) := match nth_error l (Nat.min n (Nat.pred (length l))) with Some (_, x) => Some x | None => None end.
  (** The handle an operation is called for *)
  Definition subject (o : op A) : option nat := match o with Copy _ => None | Assign h _ | Destroy h | SetTop h _ _ | Push h _ _ | Pop h => Some h end.
  Definition changes_entry (o : op A) : Prop := match o with SetTop _ _ _ => True | _ => False end.
End Spec.
Arguments mkAstate {A}. Arguments a_stacks {A}. Arguments a_made {A}. Arguments a_names {A}.

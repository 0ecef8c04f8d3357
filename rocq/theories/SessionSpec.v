(** What the states of a session are to see: every state has a position of its own in the one sequence of symbols. *)
From Verif Require Import Base SessionModel.

Section Spec.
  Context (T : Type) (source : nat -> option T).
  (** The input ends with the first NULL: nothing that would be read after it counts. *)
  Fixpoint ended (n : nat) : bool := match n with O => false | S n => ended n || match source n with None => true | Some _ => false end end.
  Definition symbol (n : nat) : option T := if ended n then None else source n.
  (** How many calls of read are needed to know the first [n] symbols *)
  Fixpoint reads_for (n : nat) : nat := match n with O => O | S n => if ended n then reads_for n else S (reads_for n) end.

  (** [a_at]: where each state that has not been destroyed is; [a_far]: how many symbols have been asked for. *)
  Record astate := mkAstate { a_at : nat -> option nat; a_made : nat; a_far : nat }.
  Definition start : astate := mkAstate (fun h => match h with O => Some O | _ => None end) 1 0.
  Definition put (h : nat) (p : option nat) (f : nat -> option nat) : nat -> option nat := fun i => if Nat.eqb i h then p else f i.
  Definition a_op (o : op) (a : astate) : astate :=
    match o with
    | Clone h => mkAstate (put (a_made a) (a_at a h) (a_at a)) (S (a_made a)) (a_far a)
    | Close h => mkAstate (put h None (a_at a)) (a_made a) (a_far a)
    | Next h => mkAstate (put h (match a_at a h with Some p => Some (S p) | None => None end) (a_at a)) (a_made a) (a_far a)
    | Look h k => mkAstate (a_at a) (a_made a) (match a_at a h with Some p => Nat.max (a_far a) (S (p + k)) | None => a_far a end)
    end.
  Definition live (a : astate) (h : nat) : Prop := a_at a h <> None.
  (** States are used while they live.  The next symbol is moved to only when the current one is known to be there. *)
  Definition legal (o : op) (a : astate) : Prop :=
    match o with
    | Clone h | Close h | Look h _ => live a h
    | Next h => exists p, a_at a h = Some p /\ p < a_far a /\ symbol p <> None
    end.
  Inductive history : list op -> astate -> Prop :=
  | history_none : history [] start
  | history_more l a o : history l a -> legal o a -> history (l ++ [o]) (a_op o a).
  (** The symbols from [from] on, [n] of them, all there *)
  Fixpoint symbols (from n : nat) : list T := match n with O => [] | S n => match symbol from with Some t => t :: symbols (S from) n | None => [] end end.
End Spec.

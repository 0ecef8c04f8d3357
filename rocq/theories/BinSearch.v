(** [std::lower_bound] as a binary search over positions, and its specification. *)
From Verif Require Import Base.

(** The loop of [std::lower_bound] on an array of [len] elements from [first]: [less i]
    tells whether element [i] compares less than the value searched for. *)
Fixpoint lower_bound_loop (fuel : nat) (less : nat -> bool) (first len : nat) : nat :=
  match fuel with
  | O => first
  | S fuel =>
    if Nat.eqb len 0 then first
    else let half := Nat.div2 len in
         let middle := first + half in
         if less middle then lower_bound_loop fuel less (S middle) (len - half - 1)
         else lower_bound_loop fuel less first half
  end.
Definition lower_bound_pos (less : nat -> bool) (n : nat) : nat := lower_bound_loop n less 0 n.

Lemma lower_bound_loop_spec less n : (forall i j, i < j -> j < n -> less j = true -> less i = true) ->
  forall fuel first len, len <= fuel -> first + len <= n ->
  (forall i, i < first -> less i = true) -> (forall i, first + len <= i -> i < n -> less i = false) ->
  let p := lower_bound_loop fuel less first len in
  first <= p <= first + len /\ (forall i, i < p -> less i = true) /\ (forall i, p <= i -> i < n -> less i = false).
Proof.
  intros MON. induction fuel as [|fuel IH]; intros first len Hf Hn H1 H2; cbn [lower_bound_loop].
  - assert (len = 0) by lia. subst. cbv zeta. split; [lia|]. split; [exact H1|]. intros i Hi. apply H2. lia.
  - destruct (Nat.eqb_spec len 0) as [->|N].
    + cbv zeta. split; [lia|]. split; [exact H1|]. intros i Hi. apply H2. lia.
    + cbv zeta. assert (HH : Nat.div2 len < len) by (apply Nat.lt_div2; lia). set (half := Nat.div2 len) in *.
      destruct (less (first + half)) eqn:E.
      * specialize (IH (S (first + half)) (len - half - 1) ltac:(lia) ltac:(lia)). cbv zeta in IH.
        destruct IH as (A & B & C).
        -- intros i Hi. destruct (Nat.eq_dec i (first + half)) as [->|]; [exact E|]. apply (MON i (first + half)); [lia|lia|exact E].
        -- intros i Hi Hi'. apply H2; lia.
        -- split; [lia|]. split; assumption.
      * specialize (IH first half ltac:(lia) ltac:(lia) H1). cbv zeta in IH. destruct IH as (A & B & C).
        -- intros i Hi Hi'. destruct (less i) eqn:Ei; [|reflexivity]. destruct (Nat.eq_dec i (first + half)) as [->|]; [congruence|].
           rewrite (MON (first + half) i) in E; [discriminate|lia|exact Hi'|exact Ei].
        -- split; [lia|]. split; assumption.
Qed.

Lemma lower_bound_pos_spec less n : (forall i j, i < j -> j < n -> less j = true -> less i = true) ->
  let p := lower_bound_pos less n in
  p <= n /\ (forall i, i < p -> less i = true) /\ (forall i, p <= i -> i < n -> less i = false).
Proof.
  intros MON. destruct (lower_bound_loop_spec less n MON n 0 n) as (A & B & C); try lia.
  cbv zeta. split; [unfold lower_bound_pos; lia|]. split; assumption.
Qed.

(** For any [less], the result stays inside the array. *)
Lemma lower_bound_loop_le less : forall fuel first len, lower_bound_loop fuel less first len <= first + len.
Proof.
  induction fuel as [|fuel IH]; intros first len; cbn [lower_bound_loop]; [lia|].
  destruct (Nat.eqb_spec len 0); [lia|]. pose proof (Nat.lt_div2 len ltac:(lia)). cbv zeta.
  destruct (less _); [specialize (IH (S (first + Nat.div2 len)) (len - Nat.div2 len - 1))|specialize (IH first (Nat.div2 len))]; lia.
Qed.
Lemma lower_bound_pos_le less n : lower_bound_pos less n <= n.
Proof. apply (lower_bound_loop_le less n 0 n). Qed.

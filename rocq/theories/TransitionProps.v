(** C50: the comparison operators of transitions. *)
From Verif Require Import Base NdfaModel.
Local Open Scope Z_scope.

(** transition.h 68-74: [>] is the negation of [<=], [>=] the negation of [<]. *)
Definition trans_gtb (a b : transition) : bool := negb (trans_leb a b).
Definition trans_geb (a b : transition) : bool := negb (trans_ltb a b).

(** C50 is false as stated: two different transitions that are [<=] each other, so that one
    is [<] the other without the other being [>] it. *)
Theorem C50_order_refuted : exists a b : transition, a <> b /\ trans_leb a b = true /\ trans_leb b a = true /\
  trans_ltb a b = true /\ trans_gtb b a = false.
Proof. exists (1, 5%nat), (2, 0%nat). split; [discriminate|]. repeat split. Qed.
Print Assumptions C50_order_refuted.

(** C50, the part that holds: [<] is a strict total order, [>=] is its complement, and [<=]
    and [>] agree with it whenever the symbol sets are the same.  Missing: [<=] and [>] in
    general. *)
Theorem C50_order_partial : forall a b c : transition,
  trans_ltb a a = false /\
  (trans_ltb a b = true -> trans_ltb b c = true -> trans_ltb a c = true) /\
  (trans_ltb a b = true \/ a = b \/ trans_ltb b a = true) /\
  (trans_geb a b = true <-> trans_ltb b a = true \/ a = b) /\
  (trans_ltb a b = true \/ a = b -> trans_leb a b = true) /\
  (fst a = fst b -> (trans_leb a b = true <-> trans_ltb a b = true \/ a = b) /\ trans_gtb a b = trans_ltb b a).
Proof.
  intros [s q] [s' q'] [s'' q'']. unfold trans_geb, trans_gtb, trans_leb, trans_ltb. cbn [fst snd].
  assert (D : forall (x y : Z) (u v : nat), (x, u) = (y, v) <-> x = y /\ u = v) by (intros; split; [intros H; injection H; auto|intros [-> ->]; reflexivity]).
  rewrite !D. assert (E : forall x y u v, (if x <? y then true else if y <? x then false else Nat.ltb u v) = true <-> x < y \/ (x = y /\ (u < v)%nat)).
  { intros x y u v. destruct (Z.ltb_spec x y); [split; auto|]. destruct (Z.ltb_spec y x); [split; [discriminate|lia]|]. rewrite Nat.ltb_lt. lia. }
  assert (F : forall x y u v, (Nat.ltb u v || (x <? y) || ((x =? y) && Nat.eqb u v))%bool = true <-> (u < v)%nat \/ x < y \/ (x = y /\ u = v)).
  { intros. rewrite !Bool.orb_true_iff, Bool.andb_true_iff, Nat.ltb_lt, Z.ltb_lt, Z.eqb_eq, Nat.eqb_eq. tauto. }
  split; [apply Bool.not_true_is_false; rewrite E; lia|]. split; [rewrite !E; lia|]. split; [rewrite !E; lia|].
  split; [rewrite Bool.negb_true_iff, <- Bool.not_true_iff_false, !E; lia|]. split; [rewrite E, F; lia|].
  intros Q. split; [rewrite E, F; lia|]. apply Bool.eq_iff_eq_true. rewrite Bool.negb_true_iff, <- Bool.not_true_iff_false, E, F. lia.
Qed.
Print Assumptions C50_order_partial.

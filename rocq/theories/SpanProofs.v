(** Proofs about the positions of definition objects. *)

From Coq Require Import List ZArith Bool Lia.
From Verif Require Import DefCopyModel DefCopyProofs SpanModel SpanSpec.
Import ListNotations.
Local Open Scope Z_scope.

Lemma upto_refl a : upto a a.
Proof. unfold upto. lia. Qed.

Lemma upto_trans a b c : upto a b -> upto b c -> upto a c.
Proof. unfold upto. lia. Qed.

Lemma upto_total a b : upto a b \/ upto b a.
Proof. unfold upto. lia. Qed.

Lemma pos_ltb_true a b : pos_ltb a b = true <-> ~ upto b a.
Proof.
  unfold pos_ltb, upto.
  destruct (Z.ltb_spec (p_line a) (p_line b)); [split; [lia | reflexivity] |].
  destruct (Z.ltb_spec (p_line b) (p_line a)); [split; [discriminate | lia] |].
  destruct (Z.ltb_spec (p_column a) (p_column b)); [split; [lia | reflexivity] |].
  destruct (Z.ltb_spec (p_column b) (p_column a)); [split; [discriminate | lia] |].
  rewrite Z.ltb_lt. lia.
Qed.

Lemma pos_ltb_false a b : pos_ltb a b = false <-> upto b a.
Proof.
  destruct (pos_ltb a b) eqn:E.
  - apply pos_ltb_true in E. split; [discriminate | contradiction].
  - split; [| reflexivity]. intros _. destruct (upto_total b a) as [U | U]; [exact U |].
    unfold pos_ltb in E. unfold upto in *.
    destruct (Z.ltb_spec (p_line a) (p_line b)); [discriminate |].
    destruct (Z.ltb_spec (p_line b) (p_line a)); [lia |].
    destruct (Z.ltb_spec (p_column a) (p_column b)); [discriminate |].
    destruct (Z.ltb_spec (p_column b) (p_column a)); [lia |].
    apply Z.ltb_ge in E. lia.
Qed.

Lemma pos_eqb_true a b : pos_eqb a b = true <-> a = b.
Proof.
  unfold pos_eqb. destruct a as [x y z], b as [x' y' z']. cbn.
  destruct (Z.eqb_spec y y'); cbn; [| split; [discriminate | congruence]].
  destruct (Z.eqb_spec z z'); cbn; [| split; [discriminate | congruence]].
  rewrite Z.eqb_eq. split; congruence.
Qed.

Lemma upto_antisym a b : upto a b -> upto b a -> a = b.
Proof. destruct a, b. unfold upto. cbn. intros. f_equal; lia. Qed.

Lemma inside_refl w : inside w w.
Proof. split; apply upto_refl. Qed.

Lemma inside_trans a b c : inside a b -> inside b c -> inside a c.
Proof. intros [A B] [C D]. split; eapply upto_trans; eauto. Qed.

(** A child that lies inside changes nothing. *)
Lemma add_inside w cs c : proper w -> proper (span_of c) -> inside (span_of c) w -> add_child (Shape w cs) c = Shape w (cs ++ [c]).
Proof.
  intros P Q [A B]. unfold add_child. f_equal. destruct (placed (span_of c)) eqn:L; [| reflexivity].
  destruct (pos_eqb (s_start w) pos0 && pos_eqb (s_end w) pos0) eqn:E.
  - apply andb_prop in E as [E1 E2]. apply pos_eqb_true in E1, E2. destruct w as [u v]. cbn in *. subst u v.
    unfold proper in Q.
    assert (X : s_start (span_of c) = pos0) by (apply upto_antisym; [eapply upto_trans; eauto | exact A]).
    assert (Y : s_end (span_of c) = pos0) by (apply upto_antisym; [exact B | rewrite <- X; exact Q]).
    now rewrite X, Y.
  - apply pos_ltb_false in A. rewrite A. destruct w as [u v]. cbn. now destruct (pos_ltb v _).
Qed.

(** A child of an object without a position gives it its position. *)
Lemma add_first c : proper (span_of c) -> add_child (Shape span0 []) c = Shape (span_of c) [c].
Proof.
  intros P. unfold add_child. cbn. f_equal. destruct (span_of c) as [u v]. unfold placed. cbn.
  destruct (pos_eqb u pos0) eqn:A; [| reflexivity]. destruct (pos_eqb v pos0) eqn:B; [| reflexivity].
  apply pos_eqb_true in A, B. now subst.
Qed.

Definition good (w : span) (x : shape) : Prop := covering x /\ inside (span_of x) w /\ proper (span_of x).

Lemma good_add w cs c : proper w -> covering (Shape w cs) -> good w c -> add_child (Shape w cs) c = Shape w (cs ++ [c]) /\ covering (Shape w (cs ++ [c])).
Proof.
  intros P C (C1 & I1 & P1). split; [now apply add_inside |]. inversion C; subst. constructor; apply Forall_app; auto.
Qed.

Lemma covering_nil w : covering (Shape w []).
Proof. constructor; constructor. Qed.

Lemma stick_paren w l : proper w -> Forall (good w) l -> forall cs, covering (Shape w cs) ->
  exists cs', stick w (Some (Shape w cs)) true l = Some (Shape w cs') /\ covering (Shape w cs').
Proof.
  intros P. induction 1 as [| x r G F IH]; intros cs C; [now exists cs |]. cbn [stick].
  destruct (good_add w cs x P C G) as [E C']. rewrite E. now apply IH.
Qed.

Lemma stick_good w l : proper w -> Forall (good w) l ->
  good w (match stick w None false l with None => Shape w [] | Some y => y end).
Proof.
  intros P F. destruct F as [| x r G F].
  - cbn. split; [apply covering_nil |]. split; [apply inside_refl | exact P].
  - cbn [stick]. destruct F as [| y r G' F]; [exact G |]. cbn [stick].
    destruct (good_add w [] x P (covering_nil w) G) as [E1 C1]. rewrite E1.
    destruct (good_add w _ y P C1 G') as [E2 C2]. rewrite E2.
    destruct (stick_paren w r P F _ C2) as (cs & E & C). rewrite E.
    split; [exact C |]. split; [apply inside_refl | exact P].
Qed.

Lemma good_mono w w' x : inside w w' -> good w x -> good w' x.
Proof. intros I (A & B & C). split; [exact A |]. split; [eapply inside_trans; eauto | exact C]. Qed.

Lemma make_good : forall x, nested x -> good (place_simple x) (make_simple x).
Proof.
  fix IH 1.
  assert (IHe : forall e, nested_ebnf e -> good (place_ebnf e) (make_ebnf e)).
  { fix IHe 1. intros [w items a] N. inversion N as [w0 items0 a0 P I NI Ia Na]; subst. cbn [place_ebnf].
    assert (F : Forall (good w) (map make_simple items)).
    { clear N. induction items as [| x r IHr]; cbn; [constructor |]. inversion I; subst. constructor.
      - apply (good_mono (place_simple x)); [assumption |]. apply IH. apply NI. now left.
      - apply IHr; [assumption |]. intros y Y. apply NI. now right. }
    pose proof (stick_good w _ P F) as G.
    cbn [make_ebnf]. destruct a as [e |]; [| exact G].
    assert (Ge : good w (make_ebnf e)).
    { apply (good_mono (place_ebnf e)); [now apply Ia |]. apply IHe. now apply Na. }
    destruct (good_add w [] _ P (covering_nil w) G) as [E1 C1]. rewrite E1.
    destruct (good_add w _ _ P C1 Ge) as [E2 C2]. rewrite E2.
    split; [exact C2 |]. split; [apply inside_refl | exact P]. }
  intros [w | w e | w y | w e] N; cbn [place_simple make_simple].
  - inversion N; subst. split; [apply covering_nil |]. split; [apply inside_refl | assumption].
  - inversion N as [| w0 e0 P I NE | |]; subst. specialize (IHe e NE). destruct IHe as (A & B & C).
    rewrite add_first by exact C. split; [| split].
    + constructor; constructor; auto using inside_refl.
    + cbn. eapply inside_trans; eauto.
    + exact C.
  - inversion N as [| | w0 y0 P I NY |]; subst. specialize (IH y NY).
    destruct (good_add w [] _ P (covering_nil w) (good_mono _ _ _ I IH)) as [E1 C1]. rewrite E1.
    split; [exact C1 |]. split; [apply inside_refl | exact P].
  - inversion N as [| | | w0 e0 P I NE]; subst. exact (good_mono _ _ _ I (IHe e NE)).
Qed.

(** Productions. *)
Lemma add_item_inside w n : proper w -> proper n -> inside n w -> add_item w n = w.
Proof.
  intros P Q [A B]. unfold add_item. destruct (pos_eqb (s_start w) (s_end w)) eqn:E.
  - apply pos_eqb_true in E. unfold proper in *.
    assert (X : s_start n = s_start w).
    { apply upto_antisym; [| exact A]. rewrite E. eapply upto_trans; eauto. }
    assert (Y : s_end n = s_end w).
    { apply upto_antisym; [exact B |]. rewrite <- E, <- X. exact Q. }
    assert (N : n = w) by (destruct n, w; cbn in *; congruence). subst n.
    rewrite (proj2 (pos_ltb_false _ _) (upto_refl _)). cbn.
    rewrite (proj2 (pos_ltb_false _ _) (upto_refl _)). now destruct w.
  - rewrite (proj2 (pos_ltb_false _ _) A). cbn. rewrite (proj2 (pos_ltb_false _ _) B). now destruct w.
Qed.

Lemma production_span w items : proper w -> Forall nested items -> Forall (fun x => inside (place_simple x) w) items ->
  make_production w items = w.
Proof.
  intros P. unfold make_production. induction 1 as [| x r N F IH]; intros I; [reflexivity |]. inversion I; subst. cbn.
  destruct (make_good x N) as (_ & B & C). rewrite add_item_inside; auto. eapply inside_trans; eauto.
Qed.

(** In the order of the text, a production grows from its first item to its
    last one. *)
Lemma add_item_next w n : upto (s_start w) (s_start n) -> s_start w <> s_end w -> upto (s_end w) (s_end n) ->
  add_item w n = mkSpan (s_start w) (s_end n).
Proof.
  intros A D B. unfold add_item. destruct (pos_eqb (s_start w) (s_end w)) eqn:E; [apply pos_eqb_true in E; contradiction |].
  rewrite (proj2 (pos_ltb_false _ _) A). cbn. destruct (pos_ltb (s_end w) (s_end n)) eqn:L; [reflexivity |].
  apply pos_ltb_false in L. now rewrite (upto_antisym _ _ L B).
Qed.

(** Files. *)
Definition least (w : span) (l : list toplevel) : Prop :=
  (exists b, In b l /\ s_start (o_span b) = s_start w) /\ (exists b, In b l /\ s_end (o_span b) = s_end w)
  /\ forall b, In b l -> inside (o_span b) w.

Lemma add_block_least f b : (f_blocks f = [] \/ least (f_span f) (f_blocks f)) -> least (f_span (add_block f b)) (f_blocks (add_block f b)).
Proof.
  intros [E | ((b1 & I1 & E1) & (b2 & I2 & E2) & A)]; unfold add_block, least; cbn.
  - rewrite E. cbn. split; [exists b; auto |]. split; [exists b; auto |]. intros c [<- | []]. split; apply upto_refl.
  - destruct (f_blocks f) as [| b0 r] eqn:B; [destruct I1 |]. rewrite <- B in *. cbn [orb].
    destruct (pos_ltb (s_start (o_span b)) (s_start (f_span f))) eqn:L1;
      destruct (pos_ltb (s_end (f_span f)) (s_end (o_span b))) eqn:L2; cbn [s_start s_end orb];
      (split; [| split]);
      first [ now (exists b; split; [apply in_or_app; right; left; reflexivity |])
            | now (exists b1; split; [apply in_or_app; left |])
            | now (exists b2; split; [apply in_or_app; left |])
            | idtac ];
      intros c I; apply in_app_or in I; destruct I as [I | [<- | []]]; split; cbn [s_start s_end];
      try (apply pos_ltb_true in L1; destruct (upto_total (s_start (o_span b)) (s_start (f_span f))); [| contradiction]);
      try (apply pos_ltb_true in L2; destruct (upto_total (s_end (f_span f)) (s_end (o_span b))); [| contradiction]);
      try apply pos_ltb_false in L1; try apply pos_ltb_false in L2;
      try (specialize (A c I); destruct A);
      eauto using upto_trans, upto_refl.
Qed.

Lemma fold_least l : forall f, (f_blocks f = [] /\ l <> []) \/ least (f_span f) (f_blocks f) ->
  least (f_span (fold_left add_block l f)) (f_blocks (fold_left add_block l f)).
Proof.
  induction l as [| b r IH]; intros f H.
  - destruct H as [[_ H] | H]; [contradiction | exact H].
  - cbn [fold_left]. apply IH. right. apply add_block_least. destruct H as [[H _] | H]; auto.
Qed.

Lemma last_any {A} (x : A) r d d' : last (x :: r) d = last (x :: r) d'.
Proof. revert x. induction r as [| y r IH]; intros x; [reflexivity |]. exact (IH y). Qed.

Lemma ordered_sum l : forall n m, in_order m l -> upto (s_start n) (s_start m) ->
  upto (s_end n) (s_end m) -> s_start n <> s_end n ->
  fold_left add_item (m :: l) n = mkSpan (s_start n) (s_end (last l m)).
Proof.
  induction l as [| k r IH]; intros n m O A B D.
  - cbn. now rewrite add_item_next.
  - cbn [fold_left] in *. destruct O as (O1 & O2 & O3 & O4). cbn [in_order] in *.
    rewrite (add_item_next n m) by assumption.
    assert (D' : s_start n <> s_end m).
    { intros E. apply O2. apply upto_antisym; [exact O1 |]. now rewrite <- E. }
    assert (O5 : upto (s_start k) (s_end k)) by (destruct r; apply O4).
    rewrite (IH (mkSpan (s_start n) (s_end m)) k).
    + cbn [s_start]. f_equal. destruct r as [| z r]; [reflexivity |]. cbn [last] in *. f_equal. apply (last_any z r).
    + exact O4.
    + cbn. eapply upto_trans; [exact A |]. eapply upto_trans; [exact O1 | exact O3].
    + cbn. eapply upto_trans; [exact O3 | exact O5].
    + exact D'.
Qed.

Lemma ordered_first w n l : s_start w = s_end w -> in_order n l ->
  fold_left add_item (n :: l) w = mkSpan (s_start n) (s_end (last l n)).
Proof.
  intros E O.
  assert (X : add_item w n = n).
  { unfold add_item. rewrite (proj2 (pos_eqb_true _ _) E).
    rewrite (proj2 (pos_ltb_false _ _) (upto_refl _)). cbn.
    rewrite (proj2 (pos_ltb_false _ _) (upto_refl _)). now destruct n. }
  cbn [fold_left]. rewrite X. destruct l as [| m r].
  - cbn. now destruct n.
  - destruct O as (O1 & O2 & O3 & O4).
    assert (O5 : upto (s_start m) (s_end m)) by (destruct r; apply O4).
    rewrite (ordered_sum r n m O4).
    + f_equal. destruct r as [| z r]; [reflexivity |]. f_equal. apply (last_any z r).
    + eapply upto_trans; eauto.
    + eapply upto_trans; eauto.
    + exact O2.
Qed.

Lemma least_same w l : least w l -> least_around w (map o_span l).
Proof.
  intros ((b1 & I1 & E1) & (b2 & I2 & E2) & A). split; [| split].
  - rewrite map_map. apply in_map_iff. now exists b1.
  - rewrite map_map. apply in_map_iff. now exists b2.
  - apply Forall_forall. intros n I. apply in_map_iff in I as (b & <- & I). now apply A.
Qed.

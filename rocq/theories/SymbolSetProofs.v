From Verif Require Import Base SymbolSetModel SymbolSetSpec.
Local Open Scope Z_scope.

Definition sep (a b : range) : Prop := hi a < lo b.
Definition ne (r : range) : Prop := lo r < hi r.
Definition mem (s : symbol_set) (x : Z) : Prop := exists r, In r s /\ in_range x r.
Definition wf (s : symbol_set) : Prop := Forall ne s /\ StronglySorted sep s.

Lemma mem_nil x : mem [] x <-> False.
Proof. split; [intros (r & [] & _) | tauto]. Qed.
Lemma mem_cons a s x : mem (a :: s) x <-> in_range x a \/ mem s x.
Proof.
  split.
  - intros (r & [->|Hr] & Hx); [left; exact Hx | right; exists r; auto].
  - intros [H|(r & Hr & Hx)]; [exists a; cbn; auto | exists r; cbn; auto].
Qed.
Lemma mem_app s t x : mem (s ++ t) x <-> mem s x \/ mem t x.
Proof.
  induction s as [|a s IH]; cbn [app].
  - rewrite mem_nil. tauto.
  - rewrite !mem_cons, IH. tauto.
Qed.

Lemma wf_nil : wf []. Proof. split; constructor. Qed.
Lemma wf_app s t : wf (s ++ t) <-> wf s /\ wf t /\ (forall a b, In a s -> In b t -> sep a b).
Proof. unfold wf. rewrite Forall_app, SS_app. tauto. Qed.
Lemma wf_cons a s : wf (a :: s) <-> ne a /\ wf s /\ (forall b, In b s -> sep a b).
Proof.
  unfold wf. rewrite SS_cons. split.
  - intros [H1 H2]. inv H1. tauto.
  - intros (H1 & (H2 & H3) & H4). repeat split; auto.
Qed.
Lemma wf_ne s r : wf s -> In r s -> ne r.
Proof. intros [H _]. rewrite Forall_forall in H. auto. Qed.

Lemma lower_bound_spec k s : wf s ->
  forall p q, lower_bound k s = (p, q) ->
  s = p ++ q /\ (forall r, In r p -> lo r < k) /\ (forall r, In r q -> k <= lo r).
Proof.
  induction s as [|a s IH]; cbn [lower_bound]; intros Hw p q E.
  - inv E. repeat split; intros ? [].
  - apply wf_cons in Hw as (Ha & Hw & Hs).
    destruct (Z.ltb_spec (lo a) k) as [Hk|Hk].
    + destruct (lower_bound k s) as [p' q'] eqn:E'. inv E.
      destruct (IH Hw _ _ eq_refl) as (-> & H1 & H2).
      repeat split; auto. intros r [->|Hr]; auto.
    + inv E. cbn [app]. repeat split; [intros ? []|].
      intros r [->|Hr]; [lia|]. specialize (Hs _ Hr). unfold sep, ne in *. lia.
Qed.

Lemma upper_bound_spec k s : wf s ->
  forall p q, upper_bound k s = (p, q) ->
  s = p ++ q /\ (forall r, In r p -> lo r <= k) /\ (forall r, In r q -> k < lo r).
Proof.
  induction s as [|a s IH]; cbn [upper_bound]; intros Hw p q E.
  - inv E. repeat split; intros ? [].
  - apply wf_cons in Hw as (Ha & Hw & Hs).
    destruct (Z.leb_spec (lo a) k) as [Hk|Hk].
    + destruct (upper_bound k s) as [p' q'] eqn:E'. inv E.
      destruct (IH Hw _ _ eq_refl) as (-> & H1 & H2).
      repeat split; auto. intros r [->|Hr]; auto.
    + inv E. cbn [app]. repeat split; [intros ? []|].
      intros r [->|Hr]; [lia|]. specialize (Hs _ Hr). unfold sep, ne in *. lia.
Qed.

Lemma set_insert_mid r p q :
  (forall a, In a p -> lo a < lo r) -> (forall a, In a q -> lo r < lo a) ->
  set_insert r (p ++ q) = p ++ r :: q.
Proof.
  intros Hp Hq. induction p as [|a p IH]; cbn [app set_insert].
  - destruct q as [|b q]; cbn [set_insert]; [reflexivity|].
    specialize (Hq b (or_introl eq_refl)).
    destruct (Z.ltb_spec (lo b) (lo r)); [lia|].
    destruct (Z.ltb_spec (lo r) (lo b)); [reflexivity|lia].
  - pose proof (Hp a (or_introl eq_refl)).
    destruct (Z.ltb_spec (lo a) (lo r)); [|lia].
    rewrite IH; [reflexivity|]. intros; apply Hp; cbn; auto.
Qed.

(** What the search for the first affected range establishes. *)
Lemma find_first_spec r s : wf s -> ne r ->
  forall p q, find_first r s = (p, q) ->
  s = p ++ q /\ (forall a, In a p -> hi a < lo r) /\
  (forall a, In a q -> lo r <= hi a).
Proof.
  intros Hw Hr p q. unfold find_first.
  destruct (lower_bound (lo r) s) as [pre post] eqn:E.
  destruct (lower_bound_spec _ _ Hw _ _ E) as (-> & H1 & H2).
  pose proof Hw as Hw'. apply wf_app in Hw' as (Hp & Hq & Hc).
  destruct (last_split pre) as [->|(pre' & x & ->)].
  - cbn [rev]. intros E2; inv E2. repeat split; [intros ? []|].
    intros a Ha. specialize (H2 _ Ha). pose proof (wf_ne _ _ Hq Ha). unfold ne in *. lia.
  - rewrite rev_app_distr. cbn [rev app].
    apply wf_app in Hp as (Hp1 & Hp2 & Hp3).
    destruct (Z.leb_spec (lo r) (hi x)) as [Hx|Hx]; intros E2; inv E2.
    + rewrite rev_involutive. rewrite <- app_assoc. cbn [app]. repeat split.
      * intros a Ha.
        specialize (Hp3 a x Ha (or_introl eq_refl)). unfold sep in Hp3.
        specialize (H1 x). rewrite in_app_iff in H1. cbn in H1.
        assert (lo x < lo r) by auto. lia.
      * intros a [->|Ha]; [lia|]. specialize (H2 _ Ha).
        pose proof (wf_ne _ _ Hq Ha). unfold ne in *. lia.
    + repeat split.
      * intros a Ha. rewrite in_app_iff in Ha. destruct Ha as [Ha|[->|[]]]; [|lia].
        specialize (Hp3 a x Ha (or_introl eq_refl)). unfold sep in Hp3.
        pose proof (wf_ne _ x Hp2 (or_introl eq_refl)) as Hn. unfold ne in *. lia.
      * intros a Ha. specialize (H2 _ Ha).
        pose proof (wf_ne _ _ Hq Ha). unfold ne in *. lia.
Qed.

Lemma can_merge_spec a b : can_merge a b = true <-> lo a <= hi b /\ lo b <= hi a.
Proof.
  unfold can_merge. destruct (Z.ltb_spec (hi b) (lo a)); destruct (Z.ltb_spec (hi a) (lo b)); lia.
Qed.

Lemma merge_spec a b : lo (merge a b) = Z.min (lo a) (lo b) /\ hi (merge a b) = Z.max (hi a) (hi b).
Proof.
  unfold merge; cbn [lo hi].
  destruct (Z.ltb_spec (lo b) (lo a)); destruct (Z.ltb_spec (hi a) (hi b)); lia.
Qed.

Lemma fold_merge mid : forall r, ne r -> Forall ne mid ->
  (forall a, In a mid -> lo r <= hi a /\ lo a <= hi r) ->
  forall m, m = fold_left merge mid r ->
  ne m /\ lo m <= lo r /\ hi r <= hi m /\
  (forall x, in_range x m <-> in_range x r \/ mem mid x) /\
  (forall a, In a mid -> lo m <= lo a /\ hi a <= hi m) /\
  (lo m = lo r \/ exists a, In a mid /\ lo m = lo a) /\
  (hi m = hi r \/ exists a, In a mid /\ hi m = hi a).
Proof.
  induction mid as [|b mid IH]; cbn [fold_left]; intros r Hr Hn Ht m Em.
  - subst m. split; [exact Hr|]. split; [lia|]. split; [lia|]. split; [|split; [|split]].
    + intros x. rewrite mem_nil. tauto.
    + intros ? [].
    + auto.
    + auto.
  - pose proof (Forall_inv Hn) as Hb. pose proof (Forall_inv_tail Hn) as Hn2.
    destruct (merge_spec r b) as [El Eh].
    destruct (Ht b (or_introl eq_refl)) as [Hb1 Hb2].
    assert (Hr' : ne (merge r b)) by (unfold ne in *; lia).
    specialize (IH (merge r b) Hr' Hn2).
    edestruct IH as (I1 & I2 & I3 & I4 & I5 & I6 & I7).
    { intros a Ha. destruct (Ht a (or_intror Ha)). lia. }
    { exact Em. }
    split; [exact I1|]. split; [lia|]. split; [lia|]. split; [|split; [|split]].
    + intros x. rewrite I4, mem_cons.
      assert (in_range x (merge r b) <-> in_range x r \/ in_range x b) by (unfold in_range, ne in *; lia).
      tauto.
    + intros a [->|Ha]; [lia|]. auto.
    + destruct I6 as [I6|(a & Ha & I6)].
      * destruct (Z.le_gt_cases (lo r) (lo b)); [left; lia|].
        right; exists b; cbn; split; [auto|lia].
      * right; exists a; cbn; auto.
    + destruct I7 as [I7|(a & Ha & I7)].
      * destruct (Z.le_gt_cases (hi b) (hi r)); [left; lia|].
        right; exists b; cbn; split; [auto|lia].
      * right; exists a; cbn; auto.
Qed.

(** Union with a range: semantics, invariant, bounds. *)
Lemma union_range_spec s r : wf s -> ne r ->
  wf (union_range s r) /\ (forall x, mem (union_range s r) x <-> mem s x \/ in_range x r).
Proof.
  intros Hw Hr. unfold union_range.
  destruct (find_first r s) as [pre post] eqn:E.
  destruct (find_first_spec _ _ Hw Hr _ _ E) as (-> & H1 & H2).
  pose proof Hw as Hw'. apply wf_app in Hw' as (Hp & Hq & Hc).
  assert (Hpn : forall a, In a pre -> lo a < lo r).
  { intros a Ha. specialize (H1 _ Ha). pose proof (wf_ne _ _ Hp Ha). unfold ne in *. lia. }
  destruct post as [|f post].
  - rewrite set_insert_mid; [|exact Hpn|intros ? []].
    split.
    + apply wf_app. split; [exact Hp|]. split.
      * apply wf_cons. split; [exact Hr|]. split; [exact wf_nil|]. intros ? [].
      * intros a b Ha [<-|[]]. apply H1; auto.
    + intros x. rewrite !mem_app, mem_cons, mem_nil. tauto.
  - destruct (can_merge r f) eqn:Em; cbn [negb].
    + apply can_merge_spec in Em.
      cbn [range_of_value lo].
      destruct (upper_bound (hi r) (f :: post)) as [mid rest] eqn:Eu.
      destruct (upper_bound_spec _ _ Hq _ _ Eu) as (Eq & U1 & U2).
      rewrite Eq in *.
      pose proof Hq as Hq'. apply wf_app in Hq' as (Hm & Hrest & Hmr).
      remember (fold_left merge mid r) as m eqn:Em'.
      edestruct (fold_merge mid r Hr (proj1 Hm)) as (M1 & M2 & M3 & M4 & M5 & M6 & M7).
      { intros a Ha. split; [apply H2; rewrite in_app_iff; auto | apply U1; auto]. }
      { exact Em'. }
      assert (Hml : forall a, In a pre -> hi a < lo m).
      { intros a Ha. destruct M6 as [->|(b & Hb & ->)]; [auto|].
        apply (Hc a b Ha). rewrite in_app_iff; auto. }
      assert (Hmh : forall a, In a rest -> hi m < lo a).
      { intros a Ha. destruct M7 as [->|(b & Hb & ->)]; [auto|].
        apply (Hmr b a Hb Ha). }
      rewrite set_insert_mid.
      * split.
        -- apply wf_app. split; [exact Hp|]. split.
           ++ apply wf_cons. split; [exact M1|]. split; [exact Hrest|]. exact Hmh.
           ++ intros a b Ha [<-|Hb]; [apply Hml; auto|].
              apply (Hc a b Ha). rewrite in_app_iff; auto.
        -- intros x. rewrite !mem_app, mem_cons, M4. tauto.
      * intros a Ha. specialize (Hml _ Ha). pose proof (wf_ne _ _ Hp Ha). unfold ne in *. lia.
      * intros a Ha. specialize (Hmh _ Ha). unfold ne in *. lia.
    + assert (Hf : hi r < lo f).
      { destruct (Z.lt_ge_cases (hi r) (lo f)) as [|Hge]; [assumption|].
        assert (can_merge r f = true) as C; [|congruence].
        apply can_merge_spec. split; [apply H2; cbn; auto|lia]. }
      assert (Hall : forall a, In a (f :: post) -> hi r < lo a).
      { intros a [<-|Ha]; [exact Hf|].
        apply wf_cons in Hq as (Hfn & _ & Hs). specialize (Hs _ Ha). unfold sep, ne in *. lia. }
      rewrite set_insert_mid; [|exact Hpn|].
      * split.
        -- apply wf_app. split; [exact Hp|]. split.
           ++ apply wf_cons. split; [exact Hr|]. split; [exact Hq|]. exact Hall.
           ++ intros a b Ha [<-|Hb]; [apply H1; auto|]. apply (Hc a b Ha Hb).
        -- intros x. rewrite !mem_app, (mem_cons r). tauto.
      * intros a Ha. specialize (Hall _ Ha). unfold ne in *. lia.
Qed.

Lemma last_in {A} (l : list A) d : l <> [] -> In (last l d) l.
Proof.
  induction l as [|a l IH]; [congruence|]. intros _. cbn [last].
  destruct l as [|b l]; [cbn; auto|]. right. apply IH. congruence.
Qed.

(** Exclusion of a range. *)
Lemma exclude_range_spec s e : wf s -> ne e ->
  wf (exclude_range s e) /\ (forall x, mem (exclude_range s e) x <-> mem s x /\ ~ in_range x e).
Proof.
  intros Hw He. unfold exclude_range.
  destruct (find_first e s) as [pre post] eqn:E.
  destruct (find_first_spec _ _ Hw He _ _ E) as (-> & H1 & H2).
  pose proof Hw as Hw'. apply wf_app in Hw' as (Hp & Hq & Hc).
  assert (Hpx : forall x, mem pre x -> ~ in_range x e).
  { intros x (a & Ha & Hx). specialize (H1 _ Ha). unfold in_range in *. lia. }
  destruct post as [|f post].
  - split; [exact Hw|]. intros x. rewrite mem_app, mem_nil. firstorder.
  - destruct (can_merge e f) eqn:Em; cbn [negb].
    + apply can_merge_spec in Em.
      cbn [range_of_value lo].
      destruct (upper_bound (hi e) (f :: post)) as [mid rest] eqn:Eu.
      destruct (upper_bound_spec _ _ Hq _ _ Eu) as (Eq & U1 & U2).
      destruct mid as [|f' mid].
      { exfalso. cbn [app] in Eq. specialize (U2 f). rewrite <- Eq in U2.
        specialize (U2 (or_introl eq_refl)). lia. }
      assert (f' = f) by (cbn [app] in Eq; congruence). subst f'.
      rewrite Eq in *.
      pose proof Hq as Hq'. apply wf_app in Hq' as (Hm & Hrest & Hmr).
      set (mids := f :: mid) in *.
      assert (Hfin : In (last mids f) mids) by (apply last_in; discriminate).
      set (fin := last mids f) in *.
      (* f is the lowest and fin the highest of mids *)
      assert (Hlow : forall a, In a mids -> lo f <= lo a).
      { intros a [<-|Ha]; [lia|]. apply wf_cons in Hm as (Hfn & _ & Hs).
        specialize (Hs _ Ha). unfold sep, ne in *. lia. }
      assert (Hhigh : forall a, In a mids -> a = fin \/ hi a < lo fin).
      { unfold fin. clear -Hm. assert (Hne : mids <> []) by discriminate. revert Hm Hne.
        generalize mids as l. induction l as [|b l IH]; intros Hm Hne a Ha; [tauto|].
        apply wf_cons in Hm as (Hb & Hl & Hs). cbn [last].
        destruct l as [|c l].
        - destruct Ha as [->|[]]; auto.
        - destruct Ha as [->|Ha].
          + right. apply Hs. apply last_in. discriminate.
          + apply IH; auto. discriminate. }
      assert (Hfinn : ne fin) by (apply (wf_ne _ _ Hm Hfin)).
      assert (Hfn : ne f) by (apply (wf_ne _ f Hm); left; reflexivity).
      (* the pieces kept *)
      set (s1 := pre ++ rest).
      set (L := if lo f <? lo e then [mkR (lo f) (lo e)] else []).
      set (R := if hi e <? hi fin then [mkR (hi e) (hi fin)] else []).
      assert (Hpf : forall a, In a pre -> hi a < lo f).
      { intros a Ha. apply (Hc a f Ha). left; reflexivity. }
      assert (Hres : (let s2 := if lo f <? lo e then set_insert (mkR (lo f) (lo e)) s1 else s1 in
                      if hi e <? hi fin then set_insert (mkR (hi e) (hi fin)) s2 else s2)
                     = pre ++ L ++ R ++ rest).
      { cbv zeta. unfold L, R, s1.
        assert (Hpe : forall a, In a pre -> lo a < hi e).
        { intros a Ha. specialize (H1 _ Ha). pose proof (wf_ne _ _ Hp Ha). unfold ne in *. lia. }
        assert (Hre : forall a, In a rest -> hi e < lo a) by auto.
        destruct (Z.ltb_spec (lo f) (lo e)) as [Hl|Hl].
        - rewrite set_insert_mid.
          2:{ cbn [lo]. intros a Ha. specialize (Hpf _ Ha). pose proof (wf_ne _ _ Hp Ha). unfold ne in *. lia. }
          2:{ cbn [lo]. intros a Ha. specialize (Hre _ Ha). unfold ne in *. lia. }
          destruct (Z.ltb_spec (hi e) (hi fin)).
          + replace (pre ++ {| lo := lo f; hi := lo e |} :: rest)
              with ((pre ++ [{| lo := lo f; hi := lo e |}]) ++ rest) by (rewrite <- app_assoc; reflexivity).
            rewrite set_insert_mid.
            * rewrite <- app_assoc. reflexivity.
            * cbn [lo]. intros a Ha. rewrite in_app_iff in Ha.
              destruct Ha as [Ha|[<-|[]]]; [auto|cbn [lo]; unfold ne in *; lia].
            * exact Hre.
          + reflexivity.
        - destruct (Z.ltb_spec (hi e) (hi fin)).
          + rewrite set_insert_mid; [reflexivity | exact Hpe | exact Hre].
          + reflexivity. }
      cbv zeta in Hres. rewrite Hres. clear Hres.
      assert (HL : forall a, In a L -> lo a = lo f /\ hi a = lo e /\ lo f < lo e).
      { unfold L. destruct (Z.ltb_spec (lo f) (lo e)); [|intros ? []].
        intros a [<-|[]]; cbn; auto. }
      assert (HR : forall a, In a R -> lo a = hi e /\ hi a = hi fin /\ hi e < hi fin).
      { unfold R. destruct (Z.ltb_spec (hi e) (hi fin)); [|intros ? []].
        intros a [<-|[]]; cbn; auto. }
      split.
      * (* well-formed *)
        apply wf_app. split; [exact Hp|]. split.
        -- apply wf_app. split.
           { unfold L. destruct (Z.ltb_spec (lo f) (lo e)); [|exact wf_nil].
             apply wf_cons. split; [unfold ne; cbn [lo hi]; lia|]. split; [exact wf_nil|intros ? []]. }
           split.
           { apply wf_app. split.
             { unfold R. destruct (Z.ltb_spec (hi e) (hi fin)); [|exact wf_nil].
               apply wf_cons. split; [unfold ne; cbn [lo hi]; lia|]. split; [exact wf_nil|intros ? []]. }
             split; [exact Hrest|].
             intros a b Ha Hb. destruct (HR _ Ha) as (? & Hah & ?). unfold sep. rewrite Hah.
             apply (Hmr fin b Hfin Hb). }
           intros a b Ha Hb. destruct (HL _ Ha) as (? & Hah & ?). unfold sep. rewrite Hah.
           rewrite in_app_iff in Hb. destruct Hb as [Hb|Hb].
           { destruct (HR _ Hb) as (-> & ? & ?). exact He. }
           { specialize (U2 _ Hb). unfold ne in *. lia. }
        -- intros a b Ha Hb. unfold sep. rewrite !in_app_iff in Hb.
           destruct Hb as [Hb|[Hb|Hb]].
           { destruct (HL _ Hb) as (-> & _). auto. }
           { destruct (HR _ Hb) as (-> & _). specialize (H1 _ Ha). unfold ne in *. lia. }
           { apply (Hc a b Ha). rewrite in_app_iff; auto. }
      * (* membership *)
        intros x. rewrite !mem_app.
        assert (HLm : mem L x <-> in_range x (mkR (lo f) (lo e))).
        { unfold L. destruct (Z.ltb_spec (lo f) (lo e)).
          - rewrite mem_cons, mem_nil. tauto.
          - rewrite mem_nil. unfold in_range; cbn [lo hi]; lia. }
        assert (HRm : mem R x <-> in_range x (mkR (hi e) (hi fin))).
        { unfold R. destruct (Z.ltb_spec (hi e) (hi fin)).
          - rewrite mem_cons, mem_nil. tauto.
          - rewrite mem_nil. unfold in_range; cbn [lo hi]; lia. }
        rewrite HLm, HRm. clear HLm HRm HL HR.
        assert (Hrx : mem rest x -> ~ in_range x e).
        { intros (a & Ha & Hx). specialize (U2 _ Ha). unfold in_range in *. lia. }
        assert (Hmid : mem mids x /\ ~ in_range x e <->
                       in_range x (mkR (lo f) (lo e)) \/ in_range x (mkR (hi e) (hi fin))).
        { split.
          - intros [(a & Ha & Hx) Hn]. pose proof (Hlow _ Ha). pose proof (Hhigh _ Ha) as Hh.
            specialize (U1 _ Ha). assert (lo e <= hi a) by (apply H2; rewrite in_app_iff; auto).
            unfold in_range in *; cbn [lo hi].
            assert (hi a <= hi fin) by (destruct Hh as [->|]; unfold ne in *; lia).
            lia.
          - intros [Hx|Hx]; unfold in_range in Hx; cbn [lo hi] in Hx.
            + split; [exists f; split; [left; reflexivity | unfold in_range; lia]
                     | unfold in_range; lia].
            + assert (lo fin <= hi e) by (apply U1; exact Hfin).
              split; [exists fin; split; [exact Hfin | unfold in_range; lia]
                     | unfold in_range; lia]. }
        specialize (Hpx x). tauto.
    + assert (Hf : hi e < lo f).
      { destruct (Z.lt_ge_cases (hi e) (lo f)) as [|Hge]; [assumption|].
        assert (can_merge e f = true) as C; [|congruence].
        apply can_merge_spec. split; [apply H2; cbn; auto|lia]. }
      split; [exact Hw|]. intros x. split; [|tauto].
      intros Hm. split; [exact Hm|]. rewrite mem_app in Hm. destruct Hm as [Hm|(a & Ha & Hx)]; [auto|].
      assert (hi e < lo a).
      { destruct Ha as [<-|Ha]; [exact Hf|].
        apply wf_cons in Hq as (Hfn & _ & Hs). specialize (Hs _ Ha). unfold sep, ne in *. lia. }
      unfold in_range in *. lia.
Qed.

Lemma union_set_spec t : forall s, wf s -> Forall ne t ->
  wf (union_set s t) /\ (forall x, mem (union_set s t) x <-> mem s x \/ mem t x).
Proof.
  unfold union_set. induction t as [|r t IH]; cbn [fold_left]; intros s Hs Ht.
  - split; [exact Hs|]. intros x. rewrite mem_nil. tauto.
  - inv Ht. destruct (union_range_spec s r Hs) as [Hw Hm]; [assumption|].
    destruct (IH _ Hw) as [Hw' Hm']; [assumption|].
    split; [exact Hw'|]. intros x. rewrite Hm', Hm, mem_cons. tauto.
Qed.

Lemma exclude_set_spec t : forall s, wf s -> Forall ne t ->
  wf (exclude_set s t) /\ (forall x, mem (exclude_set s t) x <-> mem s x /\ ~ mem t x).
Proof.
  unfold exclude_set. induction t as [|r t IH]; cbn [fold_left]; intros s Hs Ht.
  - split; [exact Hs|]. intros x. rewrite mem_nil. tauto.
  - inv Ht. destruct (exclude_range_spec s r Hs) as [Hw Hm]; [assumption|].
    destruct (IH _ Hw) as [Hw' Hm']; [assumption|].
    split; [exact Hw'|]. intros x. rewrite Hm', Hm, mem_cons. tauto.
Qed.

(** Bounds: all symbols are in the universe. *)
Definition bounded (s : symbol_set) : Prop := forall x, mem s x -> universe x.

Lemma wf_bounded_valid s : wf s -> bounded s -> Forall valid_range s.
Proof.
  intros Hw Hb. rewrite Forall_forall. intros r Hr.
  pose proof (wf_ne _ _ Hw Hr) as Hn. unfold ne in Hn.
  assert (universe (lo r)) by (apply Hb; exists r; unfold in_range; split; [auto|lia]).
  assert (universe (hi r - 1)) by (apply Hb; exists r; unfold in_range; split; [auto|lia]).
  unfold universe, valid_range in *. lia.
Qed.

(** Inversion. *)
Lemma invert_loop_spec s : forall l nr,
  wf s -> Forall valid_range s -> (forall a, In a s -> hi l < lo a \/ (hi l = 0 /\ nr = [] /\ lo a >= 0)) ->
  wf nr -> (forall a, In a nr -> hi a < hi l) -> 0 <= hi l ->
  forall nr' l', invert_loop l s nr = (nr', l') ->
  wf nr' /\ (forall a, In a nr' -> hi a < hi l') /\ 0 <= hi l' /\ hi l <= hi l' /\
  (s = [] -> l' = l) /\ (forall a, In a s -> hi a <= hi l') /\
  (hi l' = hi l \/ hi l' <= c_MaxSymbol) /\
  (forall x, mem nr' x <-> mem nr x \/ (hi l <= x < hi l' /\ ~ mem s x)).
Proof.
  induction s as [|r s IH]; cbn [invert_loop]; intros l nr Hw Hv Hl Hn Hnl H0 nr' l' E.
  - inv E. split; [exact Hn|]. split; [exact Hnl|]. split; [exact H0|]. split; [lia|].
    split; [reflexivity|]. split; [intros ? []|]. split; [auto|].
    intros x. split; [auto|]. intros [H|H]; [exact H|lia].
  - apply wf_cons in Hw as (Hr & Hw & Hs). inversion Hv as [|? ? Hrv Hv2]; subst.
    assert (Hlr : hi l <= lo r).
    { destruct (Hl r (or_introl eq_refl)) as [?|(? & ? & ?)]; lia. }
    set (nr1 := if lo r =? hi l then nr else set_insert {| lo := hi l; hi := lo r |} nr) in E.
    assert (Hnr1 : wf nr1 /\ (forall a, In a nr1 -> hi a < hi r) /\
                   (forall x, mem nr1 x <-> mem nr x \/ hi l <= x < lo r)).
    { unfold nr1. destruct (Z.eqb_spec (lo r) (hi l)) as [Eq|Ne].
      - split; [exact Hn|]. split.
        + intros a Ha. specialize (Hnl _ Ha). unfold ne in *. lia.
        + intros x. split; [auto|]. intros [H|H]; [auto|lia].
      - replace (set_insert {| lo := hi l; hi := lo r |} nr)
          with (nr ++ [{| lo := hi l; hi := lo r |}]).
        2:{ rewrite <- (app_nil_r nr) at 2. rewrite set_insert_mid; [reflexivity| |intros ? []].
            cbn [lo]. intros a Ha. specialize (Hnl _ Ha). pose proof (wf_ne _ _ Hn Ha). unfold ne in *. lia. }
        split; [|split].
        + apply wf_app. split; [exact Hn|]. split.
          * apply wf_cons. split; [unfold ne; cbn [lo hi]; lia|]. split; [exact wf_nil|intros ? []].
          * intros a b Ha [<-|[]]. unfold sep; cbn [lo]. auto.
        + intros a Ha. rewrite in_app_iff in Ha. destruct Ha as [Ha|[<-|[]]].
          * specialize (Hnl _ Ha). unfold ne in *. lia.
          * cbn [hi]. unfold ne in *. lia.
        + intros x. rewrite mem_app, mem_cons, mem_nil. unfold in_range; cbn [lo hi]. tauto. }
    destruct Hnr1 as (W1 & L1 & M1).
    assert (Hl' : forall a, In a s -> hi r < lo a \/ (hi r = 0 /\ nr1 = [] /\ lo a >= 0)).
    { intros a Ha. left. apply Hs; auto. }
    assert (H0r : 0 <= hi r) by (unfold ne in *; lia).
    destruct (IH _ _ Hw Hv2 Hl' W1 L1 H0r _ _ E) as (I1 & I2 & I3 & I4 & I5 & I6 & I7 & I8).
    split; [exact I1|]. split; [exact I2|]. split; [exact I3|]. split; [unfold ne in *; lia|].
    split; [discriminate|]. split; [|split].
    + intros a [->|Ha]; auto.
    + right. destruct I7 as [->|I7]; [|exact I7]. unfold valid_range in Hrv. lia.
    + intros x. rewrite I8, M1, mem_cons.
      assert (HN : ~ (mem s x /\ x < hi r)).
      { intros [(a & Ha & Hx) Hlt]. specialize (Hs _ Ha). unfold sep, in_range in *. lia. }
      unfold in_range, ne in *.
      split.
      * intros [[H|H]|[H1 H2]].
        -- auto.
        -- right. split; [lia|]. intros [H'|H']; [lia|]. apply HN. split; [auto|lia].
        -- right. split; [lia|]. intros [H'|H']; [lia|auto].
      * intros [H|[H1 H2]]; [auto|].
        destruct (Z.lt_ge_cases x (lo r)); [left; right; lia|].
        right. split; [|tauto]. destruct (Z.lt_ge_cases x (hi r)); [exfalso; apply H2; left; lia|lia].
Qed.

Lemma invert_spec s : wf s -> Forall valid_range s ->
  wf (invert s) /\ (forall x, mem (invert s) x <-> universe x /\ ~ mem s x).
Proof.
  intros Hw Hv. unfold invert.
  destruct (invert_loop {| lo := 0; hi := 0 |} s []) as [nr l] eqn:E.
  assert (Hl : forall a, In a s -> hi {|lo:=0;hi:=0|} < lo a \/
            (hi {|lo:=0;hi:=0|} = 0 /\ ([]:list range) = [] /\ lo a >= 0)).
  { intros a Ha. right. rewrite Forall_forall in Hv. specialize (Hv _ Ha).
    unfold valid_range in Hv. split; [reflexivity|]. split; [reflexivity|lia]. }
  assert (Hnil : forall a, In a ([]:list range) -> hi a < hi {|lo:=0;hi:=0|}) by (intros ? []).
  assert (H00 : 0 <= hi {|lo:=0;hi:=0|}) by (cbn; lia).
  destruct (invert_loop_spec s _ _ Hw Hv Hl wf_nil Hnil H00 _ _ E)
    as (I1 & I2 & I3 & I4 & I5 & I6 & I7 & I8).
  cbn [hi] in *.
  assert (HM : 0 < c_MaxSymbol) by (unfold c_MaxSymbol; lia).
  destruct (Z.ltb_spec (hi l) c_MaxSymbol) as [Hlt|Hge].
  - replace (set_insert {| lo := hi l; hi := c_MaxSymbol |} nr)
      with (nr ++ [{| lo := hi l; hi := c_MaxSymbol |}]).
    2:{ rewrite <- (app_nil_r nr) at 2. rewrite set_insert_mid; [reflexivity| |intros ? []].
        cbn [lo]. intros a Ha. specialize (I2 _ Ha). pose proof (wf_ne _ _ I1 Ha). unfold ne in *. lia. }
    split.
    + apply wf_app. split; [exact I1|]. split.
      * apply wf_cons. split; [unfold ne; cbn [lo hi]; lia|]. split; [exact wf_nil|intros ? []].
      * intros a b Ha [<-|[]]. unfold sep; cbn [lo]. auto.
    + intros x. rewrite mem_app, mem_cons, mem_nil, I8, mem_nil.
      unfold in_range, universe; cbn [lo hi].
      assert (mem s x -> x < hi l).
      { intros (a & Ha & Hx). specialize (I6 _ Ha). unfold in_range in Hx. lia. }
      split.
      * intros [[[]|[H1 H2]]|[H1|[]]]; split; try lia; auto. intros H2. specialize (H H2). lia.
      * intros [H1 H2]. destruct (Z.lt_ge_cases x (hi l)); [left; right; split; [lia|auto] | right; left; lia].
  - split; [exact I1|]. intros x. rewrite I8, mem_nil. unfold universe.
    split.
    + intros [[]|[H1 H2]]. split; [lia|auto].
    + intros [H1 H2]. right. split; [lia|auto].
Qed.

(** Singleton set for [&= range]. *)
Lemma single_wf r : ne r -> wf [r].
Proof. intros H. apply wf_cons. split; [exact H|]. split; [exact wf_nil|intros ? []]. Qed.

Lemma valid_ne r : valid_range r -> ne r.
Proof. unfold valid_range, ne. lia. Qed.
Lemma Forall_valid_ne s : Forall valid_range s -> Forall ne s.
Proof. apply Forall_impl. exact valid_ne. Qed.

(** Main lemma: every expression. *)
Lemma eval_spec e : valid e ->
  wf (eval e) /\ bounded (eval e) /\ (forall x, mem (eval e) x <-> denote e x).
Proof.
  induction e as [| r | e IH r | e IHe f IHf | e IH r | e IHe f IHf | e IH r | e IHe f IHf | e IH];
    cbn [valid eval denote]; intros Hv.
  - split; [exact wf_nil|]. split; [intros x H; apply mem_nil in H; tauto|].
    intros x; apply mem_nil.
  - split; [apply single_wf, valid_ne; exact Hv|]. split.
    + intros x H. rewrite mem_cons, mem_nil in H. unfold in_range, valid_range, universe in *. lia.
    + intros x. rewrite mem_cons, mem_nil. tauto.
  - destruct Hv as [H1 H2]. destruct (IH H1) as (W & B & M).
    destruct (union_range_spec _ r W (valid_ne _ H2)) as [W' M'].
    split; [exact W'|]. split.
    + intros x Hx. apply M' in Hx as [Hx|Hx]; [auto|]. unfold in_range, valid_range, universe in *. lia.
    + intros x. rewrite M', M. tauto.
  - destruct Hv as [H1 H2]. destruct (IHe H1) as (W & B & M). destruct (IHf H2) as (W2 & B2 & M2).
    destruct (union_set_spec (eval f) _ W (proj1 W2)) as [W' M'].
    split; [exact W'|]. split.
    + intros x Hx. apply M' in Hx as [Hx|Hx]; auto.
    + intros x. rewrite M', M, M2. tauto.
  - destruct Hv as [H1 H2]. destruct (IH H1) as (W & B & M).
    destruct (exclude_range_spec _ r W (valid_ne _ H2)) as [W' M'].
    split; [exact W'|]. split.
    + intros x Hx. apply M' in Hx as [Hx _]; auto.
    + intros x. rewrite M', M. tauto.
  - destruct Hv as [H1 H2]. destruct (IHe H1) as (W & B & M). destruct (IHf H2) as (W2 & B2 & M2).
    destruct (exclude_set_spec (eval f) _ W (proj1 W2)) as [W' M'].
    split; [exact W'|]. split.
    + intros x Hx. apply M' in Hx as [Hx _]; auto.
    + intros x. rewrite M', M, M2. tauto.
  - destruct Hv as [H1 H2]. destruct (IH H1) as (W & B & M).
    assert (Hsv : Forall valid_range [r]) by (constructor; [exact H2|constructor]).
    destruct (invert_spec [r] (single_wf _ (valid_ne _ H2)) Hsv) as [Wi Mi].
    unfold and_range.
    destruct (exclude_set_spec (invert [r]) _ W (proj1 Wi)) as [W' M'].
    split; [exact W'|]. split.
    + intros x Hx. apply M' in Hx as [Hx _]; auto.
    + intros x. rewrite M', Mi, <- M, mem_cons, mem_nil. split.
      * intros [Hx Hn]. split; [exact Hx|]. specialize (B _ Hx).
        destruct (Z.le_gt_cases (lo r) x); destruct (Z.lt_ge_cases x (hi r));
          unfold in_range; try (split; lia); exfalso; apply Hn; unfold in_range; split; (tauto || lia).
      * intros [Hx Hr]. split; [exact Hx|]. tauto.
  - destruct Hv as [H1 H2]. destruct (IHe H1) as (W & B & M). destruct (IHf H2) as (W2 & B2 & M2).
    destruct (invert_spec (eval f) W2 (wf_bounded_valid _ W2 B2)) as [Wi Mi].
    unfold and_set.
    destruct (exclude_set_spec (invert (eval f)) _ W (proj1 Wi)) as [W' M'].
    assert (Hdec : forall x, mem (eval f) x \/ ~ mem (eval f) x).
    { intros x. clear. induction (eval f) as [|a s IH]; [right; rewrite mem_nil; tauto|].
      destruct IH as [IH|IH]; [left; apply mem_cons; auto|].
      destruct (Z.le_gt_cases (lo a) x); [destruct (Z.lt_ge_cases x (hi a))|].
      - left; apply mem_cons; left; split; lia.
      - right. rewrite mem_cons. unfold in_range. intros [?|?]; [lia|auto].
      - right. rewrite mem_cons. unfold in_range. intros [?|?]; [lia|auto]. }
    split; [exact W'|]. split.
    + intros x Hx. apply M' in Hx as [Hx _]; auto.
    + intros x. rewrite M', Mi, <- M, <- M2. split.
      * intros [Hx Hn]. split; [exact Hx|]. specialize (B _ Hx).
        destruct (Hdec x) as [H|H]; [exact H|]. exfalso. apply Hn. auto.
      * intros [Hx Hr]. split; [exact Hx|]. tauto.
  - destruct (IH Hv) as (W & B & M).
    destruct (invert_spec (eval e) W (wf_bounded_valid _ W B)) as [Wi Mi].
    split; [exact Wi|]. split.
    + intros x Hx. apply Mi in Hx as [Hx _]; exact Hx.
    + intros x. rewrite Mi, M. tauto.
Qed.

Lemma range_has_spec r x : range_has r x = true <-> in_range x r.
Proof.
  unfold range_has, in_range.
  destruct (Z.ltb_spec x (lo r)); destruct (Z.leb_spec (hi r) x); split; intros; (discriminate || lia || auto).
Qed.

Lemma contains_spec s x : wf s -> contains s x = true <-> mem s x.
Proof.
  intros Hw. unfold contains. cbn [range_of_value lo].
  destruct (upper_bound x s) as [p q] eqn:E.
  destruct (upper_bound_spec _ _ Hw _ _ E) as (-> & H1 & H2).
  apply wf_app in Hw as (Hp & Hq & Hc).
  assert (Hqn : ~ mem q x).
  { intros (a & Ha & Hx). specialize (H2 _ Ha). unfold in_range in Hx. lia. }
  rewrite mem_app.
  destruct (last_split p) as [->|(p' & l & ->)].
  - cbn [rev]. rewrite mem_nil. split; [discriminate|tauto].
  - rewrite rev_app_distr. cbn [rev app]. rewrite range_has_spec, mem_app, mem_cons, mem_nil.
    apply wf_app in Hp as (Hp1 & Hp2 & Hp3).
    assert (Hlx : lo l <= x) by (apply H1; rewrite in_app_iff; cbn; auto).
    assert (~ mem p' x).
    { intros (a & Ha & Hx). specialize (Hp3 a l Ha (or_introl eq_refl)). unfold sep, in_range in *. lia. }
    tauto.
Qed.

Theorem symbol_set_semantics_lemma e x : valid e -> contains (eval e) x = true <-> denote e x.
Proof.
  intros Hv. destruct (eval_spec e Hv) as (W & _ & M). rewrite (contains_spec _ _ W). apply M.
Qed.

Theorem symbol_set_normal_lemma e : valid e -> normal (eval e).
Proof.
  intros Hv. destruct (eval_spec e Hv) as (W & B & M). split.
  - apply wf_bounded_valid; assumption.
  - exact (proj2 W).
Qed.

(** Normal forms with equal members are equal. *)
Lemma wf_ext s : forall t, wf s -> wf t -> (forall x, mem s x <-> mem t x) -> s = t.
Proof.
  induction s as [|a s IH]; intros [|b t] Hs Ht Hm.
  - reflexivity.
  - exfalso. apply wf_cons in Ht as (Hb & _). assert (mem [] (lo b)) as C.
    { apply Hm, mem_cons. left. unfold in_range, ne in *. lia. }
    apply mem_nil in C. exact C.
  - exfalso. apply wf_cons in Hs as (Hb & _). assert (mem [] (lo a)) as C.
    { apply Hm, mem_cons. left. unfold in_range, ne in *. lia. }
    apply mem_nil in C. exact C.
  - apply wf_cons in Hs as (Ha & Hs & Has). apply wf_cons in Ht as (Hb & Ht & Hbt).
    assert (Hsx : forall x, mem s x -> hi a < x).
    { intros x (r & Hr & Hx). specialize (Has _ Hr). unfold sep, in_range in *. lia. }
    assert (Htx : forall x, mem t x -> hi b < x).
    { intros x (r & Hr & Hx). specialize (Hbt _ Hr). unfold sep, in_range in *. lia. }
    assert (Hm' : forall x, in_range x a \/ mem s x <-> in_range x b \/ mem t x).
    { intros x. rewrite <- !mem_cons. apply Hm. }
    unfold ne in *.
    assert (El : lo a = lo b).
    { assert (lo b <= lo a).
      { destruct (proj1 (Hm' (lo a))) as [H|H]; [left; unfold in_range; lia| |].
        - unfold in_range in H; lia.
        - specialize (Htx _ H); lia. }
      assert (lo a <= lo b).
      { destruct (proj2 (Hm' (lo b))) as [H'|H']; [left; unfold in_range; lia| |].
        - unfold in_range in H'; lia.
        - specialize (Hsx _ H'); lia. }
      lia. }
    assert (Eh : hi a = hi b).
    { destruct (Z.lt_total (hi a) (hi b)) as [H|[H|H]]; [|exact H|].
      - exfalso. destruct (proj2 (Hm' (hi a))) as [H'|H']; [left; unfold in_range; lia| |].
        + unfold in_range in H'. lia.
        + specialize (Hsx _ H'). lia.
      - exfalso. destruct (proj1 (Hm' (hi b))) as [H'|H']; [left; unfold in_range; lia| |].
        + unfold in_range in H'. lia.
        + specialize (Htx _ H'). lia. }
    assert (a = b) by (destruct a, b; cbn in *; congruence). subst b.
    f_equal. apply IH; auto.
    intros x. specialize (Hm' x). specialize (Hsx x). specialize (Htx x).
    unfold in_range in Hm'. split; intros H; [destruct (proj1 Hm') as [H'|H'] | destruct (proj2 Hm') as [H'|H']]; auto.
    + specialize (Hsx H). lia.
    + specialize (Htx H). lia.
Qed.

Lemma range_eqb_spec a b : range_eqb a b = true <-> a = b.
Proof.
  unfold range_eqb. rewrite andb_true_iff, !Z.eqb_eq. destruct a, b; cbn. split.
  - intros [-> ->]; reflexivity.
  - intros H; inv H; auto.
Qed.

Lemma ranges_eqb_spec s : forall t, length s = length t -> ranges_eqb s t = true <-> s = t.
Proof.
  induction s as [|a s IH]; intros [|b t] Hl; cbn in Hl; try (exfalso; lia); cbn [ranges_eqb].
  - tauto.
  - destruct (range_eqb a b) eqn:E; cbn [negb].
    + apply range_eqb_spec in E. subst b. rewrite IH by lia. split; [intros ->; reflexivity | intros H; inv H; reflexivity].
    + split; [discriminate|]. intros H; inv H.
      assert (range_eqb b b = true) by (apply range_eqb_spec; reflexivity). congruence.
Qed.

Lemma set_eqb_spec s t : set_eqb s t = true <-> s = t.
Proof.
  unfold set_eqb. destruct (Nat.eqb_spec (length t) (length s)) as [E|E]; cbn [negb].
  - apply ranges_eqb_spec. auto.
  - split; [discriminate|]. intros ->. congruence.
Qed.

Theorem symbol_set_eq_lemma e f : valid e -> valid f ->
  set_eqb (eval e) (eval f) = true <-> (forall x, denote e x <-> denote f x).
Proof.
  intros He Hf. rewrite set_eqb_spec.
  destruct (eval_spec e He) as (W & _ & M). destruct (eval_spec f Hf) as (W2 & _ & M2).
  split.
  - intros E x. rewrite <- M, <- M2, E. tauto.
  - intros H. apply wf_ext; auto. intros x. rewrite M, M2. apply H.
Qed.

(** Order laws: strict total order on all lists of ranges. *)
Lemma range_ltb_spec a b : range_ltb a b = true <-> lo a < lo b \/ (lo a = lo b /\ hi a < hi b).
Proof.
  unfold range_ltb. destruct (Z.ltb_spec (lo a) (lo b)); destruct (Z.ltb_spec (lo b) (lo a));
    try destruct (Z.ltb_spec (hi a) (hi b)); lia.
Qed.

Lemma range_eq_ext a b : lo a = lo b -> hi a = hi b -> a = b.
Proof. destruct a, b; cbn; intros -> ->; reflexivity. Qed.

Lemma ranges_ltb_irrefl s : ranges_ltb false s s = false.
Proof.
  induction s as [|a s IH]; cbn [ranges_ltb]; [reflexivity|].
  rewrite (proj2 (range_eqb_spec a a) eq_refl). exact IH.
Qed.

Lemma ranges_ltb_trans s : forall t u, length s = length t -> length t = length u ->
  ranges_ltb false s t = true -> ranges_ltb false t u = true -> ranges_ltb false s u = true.
Proof.
  induction s as [|a s IH]; intros [|b t] [|c u] H1 H2; cbn in H1, H2; try (exfalso; lia); cbn [ranges_ltb].
  - auto.
  - destruct (range_eqb a b) eqn:E1; destruct (range_eqb b c) eqn:E2.
    + apply range_eqb_spec in E1, E2. subst. rewrite (proj2 (range_eqb_spec c c) eq_refl).
      apply IH; lia.
    + apply range_eqb_spec in E1. subst. rewrite E2. auto.
    + apply range_eqb_spec in E2. subst. rewrite E1. auto.
    + intros H3 H4. apply range_ltb_spec in H3, H4.
      destruct (range_eqb a c) eqn:E3.
      * apply range_eqb_spec in E3. subst. lia.
      * apply range_ltb_spec. lia.
Qed.

Lemma ranges_ltb_total s : forall t, length s = length t ->
  s = t \/ ranges_ltb false s t = true \/ ranges_ltb false t s = true.
Proof.
  induction s as [|a s IH]; intros [|b t] H; cbn in H; try (exfalso; lia); cbn [ranges_ltb].
  - auto.
  - destruct (range_eqb a b) eqn:E.
    + apply range_eqb_spec in E. subst b.
      rewrite (proj2 (range_eqb_spec a a) eq_refl).
      destruct (IH t) as [->|[H'|H']]; auto.
    + destruct (range_eqb b a) eqn:E'.
      * apply range_eqb_spec in E'. subst. rewrite (proj2 (range_eqb_spec a a) eq_refl) in E. discriminate.
      * rewrite !range_ltb_spec.
        destruct (Z.lt_total (lo a) (lo b)) as [H1|[H1|H1]]; [auto| |auto].
        destruct (Z.lt_total (hi a) (hi b)) as [H2|[H2|H2]]; [auto| |auto].
        exfalso. rewrite (range_eq_ext _ _ H1 H2), (proj2 (range_eqb_spec b b) eq_refl) in E. discriminate.
Qed.

Theorem set_ltb_irrefl s : set_ltb s s = false.
Proof. unfold set_ltb. rewrite Nat.ltb_irrefl. apply ranges_ltb_irrefl. Qed.

Theorem set_ltb_trans s t u : set_ltb s t = true -> set_ltb t u = true -> set_ltb s u = true.
Proof.
  unfold set_ltb.
  destruct (Nat.ltb_spec (length s) (length t)); destruct (Nat.ltb_spec (length t) (length s));
  destruct (Nat.ltb_spec (length t) (length u)); destruct (Nat.ltb_spec (length u) (length t));
  destruct (Nat.ltb_spec (length s) (length u)); destruct (Nat.ltb_spec (length u) (length s));
    try lia; try discriminate; auto.
  apply ranges_ltb_trans; lia.
Qed.

Theorem set_ltb_total s t : s = t \/ set_ltb s t = true \/ set_ltb t s = true.
Proof.
  unfold set_ltb.
  destruct (Nat.ltb_spec (length s) (length t)); destruct (Nat.ltb_spec (length t) (length s)); auto.
  apply ranges_ltb_total. lia.
Qed.

Theorem set_leb_spec s t : set_leb s t = true <-> set_ltb s t = true \/ s = t.
Proof.
  unfold set_leb, set_ltb.
  destruct (Nat.ltb_spec (length s) (length t)); destruct (Nat.ltb_spec (length t) (length s)); try (exfalso; lia).
  - tauto.
  - split; [discriminate|]. intros [?|Est]; [discriminate|subst; lia].
  - assert (E : length s = length t) by lia. clear H H0. revert t E.
    induction s as [|a s IH]; intros [|b t] E; cbn in E; try (exfalso; lia); cbn [ranges_ltb].
    + tauto.
    + destruct (range_eqb a b) eqn:Eq.
      * apply range_eqb_spec in Eq. subst. rewrite IH by lia.
        split; intros [H|H]; auto; [right; congruence | right; congruence].
      * split; [auto|]. intros [H|H]; [exact H|]. inv H.
        rewrite (proj2 (range_eqb_spec b b) eq_refl) in Eq. discriminate.
Qed.

(** No signed overflow without inversion: as long as no range involved reaches INT_MAX. *)
Lemma key_overflows_iff s r : key_overflows s r = true -> hi r = 0x7fffffff.
Proof.
  unfold key_overflows. destruct (find_first r s) as [p [|f q]]; [discriminate|].
  rewrite andb_true_iff, Z.eqb_eq. tauto.
Qed.

Lemma normal_wf s : normal s -> wf s.
Proof. intros [H1 H2]. split; [apply Forall_valid_ne; exact H1 | exact H2]. Qed.

Lemma union_range_step s r : normal s -> valid_range r ->
  forall x, contains (union_range s r) x = true <-> contains s x = true \/ in_range x r.
Proof.
  intros Hn Hr x. apply normal_wf in Hn.
  destruct (union_range_spec s r Hn (valid_ne _ Hr)) as [W M].
  rewrite (contains_spec _ _ W), (contains_spec _ _ Hn). apply M.
Qed.

Lemma empty_exclusion_lemma :
  exists (e : expr) (r : range), valid e /\ lo r = hi r /\
    (forall x, contains (exclude_range (eval e) r) x = contains (eval e) x) /\
    set_eqb (exclude_range (eval e) r) (eval e) = false.
Proof.
  exists (ERange (mkR 0 10)), (mkR 5 5). split; [cbn; unfold valid_range, c_MaxSymbol; cbn; lia|].
  split; [reflexivity|]. split; [|vm_compute; reflexivity].
  intros x. cbn [eval].
  change (exclude_range [{| lo := 0; hi := 10 |}] {| lo := 5; hi := 5 |})
    with [mkR 0 5; mkR 5 10].
  unfold contains. cbn [range_of_value lo upper_bound].
  destruct (Z.leb_spec 0 x); [|reflexivity].
  destruct (Z.leb_spec 5 x); cbn [rev app]; unfold range_has; cbn [lo hi].
  - destruct (Z.ltb_spec x 5); destruct (Z.ltb_spec x 0); destruct (Z.leb_spec 10 x); try lia; reflexivity.
  - destruct (Z.ltb_spec x 0); destruct (Z.leb_spec 10 x); destruct (Z.leb_spec 5 x); try lia; reflexivity.
Qed.

Lemma and_overflow_lemma :
  exists e f, valid e /\ valid f /\ exclude_set_overflows (eval e) (invert (eval f)) = true.
Proof.
  exists (ERange (mkR 97 123)), (ERange (mkR 48 58)).
  repeat split; cbn; try lia; try (unfold c_MaxSymbol; lia).
Qed.

(** A sound check for [normal], for examples. *)
Fixpoint normal_b (s : symbol_set) : bool :=
  match s with
  | [] => true
  | r :: t => (0 <=? lo r) && (lo r <? hi r) && (hi r <=? c_MaxSymbol) &&
              match t with [] => true | r' :: _ => hi r <? lo r' end && normal_b t
  end.

Lemma normal_b_sound s : normal_b s = true -> normal s.
Proof.
  intros H. assert (G : normal s /\ forall k, match s with [] => True | r :: _ => k < lo r end -> forall r, In r s -> k < lo r); [|apply G].
  induction s as [|r s IH]; cbn [normal_b] in H.
  - split; [split; constructor|]. intros k _ r [].
  - apply andb_true_iff in H as [H H']. apply andb_true_iff in H as [H H4].
    destruct (IH H') as [[I1 I2] I3]. split.
    + split; (constructor; [|]); auto.
      * unfold valid_range. lia.
      * rewrite Forall_forall. intros r' Hr'. apply I3; [|exact Hr']. destruct s; [exact I|]. lia.
    + intros k Hk r' [<-|Hr']; [exact Hk|]. apply I3; [|exact Hr']. destruct s; [exact I|]. lia.
Qed.

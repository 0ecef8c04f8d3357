(** Proofs about deduplication of symbol maps. *)
From Verif Require Import Base OrdMap SymbolSetModel SymbolSetSpec SymbolSetProofs.
From Verif Require Import SymbolMapModel SymbolMapSpec SymbolMapProofs.
Local Open Scope Z_scope.

Notation cell := (Z * (Z * list Z))%type.
Definition clo (p : cell) := fst p.
Definition chi (p : cell) := fst (snd p).
Definition cids (p : cell) := snd (snd p).

Definition okc (p : cell) : Prop := clo p < chi p /\ ssorted Z.ltb (cids p) /\ cids p <> [].
Definition wfc (c : cells) : Prop :=
  Forall okc c /\ StronglySorted (fun a b => chi a <= clo b) c.
Definition lab (c : cells) (x i : Z) : Prop :=
  exists p, In p c /\ clo p <= x < chi p /\ In i (cids p).
Definition cov (c : cells) (x : Z) : Prop := exists p, In p c /\ clo p <= x < chi p.

Lemma wfc_app a b : wfc (a ++ b) <-> wfc a /\ wfc b /\ (forall p q, In p a -> In q b -> chi p <= clo q).
Proof. unfold wfc. rewrite Forall_app, SS_app. tauto. Qed.
Lemma wfc_cons p b : wfc (p :: b) <-> okc p /\ wfc b /\ (forall q, In q b -> chi p <= clo q).
Proof. unfold wfc. rewrite Forall_cons_iff, SS_cons. tauto. Qed.
Lemma wfc_nil : wfc []. Proof. split; constructor. Qed.
Lemma lab_app a b x i : lab (a ++ b) x i <-> lab a x i \/ lab b x i.
Proof.
  unfold lab. split.
  - intros (p & H & H'). apply in_app_or in H as [H|H]; eauto.
  - intros [(p & H & H')|(p & H & H')]; exists p; rewrite in_app_iff; auto.
Qed.
Lemma lab_cons p b x i : lab (p :: b) x i <-> (clo p <= x < chi p /\ In i (cids p)) \/ lab b x i.
Proof.
  unfold lab. cbn [In]. split.
  - intros (q & [<-|H] & H'); eauto.
  - intros [H|(q & H & H')]; eauto.
Qed.
Lemma lab_nil x i : lab [] x i <-> False.
Proof. unfold lab. cbn. firstorder. Qed.
Lemma cov_cons p b x : cov (p :: b) x <-> clo p <= x < chi p \/ cov b x.
Proof.
  unfold cov. cbn [In]. split.
  - intros (q & [<-|H] & H'); eauto.
  - intros [H|(q & H & H')]; eauto.
Qed.
Lemma cov_app a b x : cov (a ++ b) x <-> cov a x \/ cov b x.
Proof.
  unfold cov. split.
  - intros (p & H & H'). apply in_app_or in H as [H|H]; eauto.
  - intros [(p & H & H')|(p & H & H')]; exists p; rewrite in_app_iff; auto.
Qed.

Lemma wfc_okc c p : wfc c -> In p c -> okc p.
Proof. intros [H _] Hin. rewrite Forall_forall in H. auto. Qed.

Lemma cov_lab c x : wfc c -> cov c x <-> exists i, lab c x i.
Proof.
  intros W. split.
  - intros (p & H & H'). destruct (wfc_okc _ _ W H) as (_ & _ & Hn).
    destruct (cids p) as [|i l] eqn:E; [congruence|]. exists i, p. rewrite E. cbn; auto.
  - intros (i & p & H & H' & _). exists p; auto.
Qed.

Lemma wfc_below pre k w post : wfc (pre ++ (k, w) :: post) -> below Z.ltb k pre.
Proof.
  intros W p Hp. pose proof W as W'. apply wfc_app in W as (W1 & W2 & W3).
  specialize (W3 p (k, w) Hp (or_introl eq_refl)).
  destruct (wfc_okc _ _ W1 Hp) as [H _]. unfold chi, clo in *. cbn [fst snd] in *. lia.
Qed.

Lemma find_below {A} f (pre post : list A) : (forall p, In p pre -> f p = false) ->
  find f (pre ++ post) = find f post.
Proof.
  induction pre as [|p pre IH]; intros H; cbn [app find]; [reflexivity|].
  rewrite H by (left; reflexivity). apply IH. intros; apply H; right; assumption.
Qed.

Lemma cell_next_mid pre k w post : wfc (pre ++ (k, w) :: post) ->
  cell_next k (pre ++ (k, w) :: post) = match post with [] => None | q :: _ => Some (fst q) end.
Proof.
  intros W. unfold cell_next. pose proof (wfc_below _ _ _ _ W) as B. rewrite find_below.
  2:{ intros p Hp. specialize (B _ Hp). lia. }
  cbn [find fst]. replace (k <? k) with false by lia.
  apply wfc_app in W as (_ & W & _). apply wfc_cons in W as ((H & _) & W & W').
  destruct post as [|[l [u v]] post]; [reflexivity|].
  specialize (W' (l, (u, v)) (or_introl eq_refl)). unfold clo, chi in *. cbn [find fst snd] in *.
  replace (k <? l) with true by lia. reflexivity.
Qed.

Lemma cell_split_mid pre k u v post p : wfc (pre ++ (k, (u, v)) :: post) -> k < p < u ->
  cell_split (pre ++ (k, (u, v)) :: post) k u p =
  (pre ++ (k, (p, v)) :: (p, (u, v)) :: post, Some k).
Proof.
  intros W Hp. pose proof (wfc_below _ _ _ _ W) as B. unfold cell_split, cell_values.
  rewrite (mfind_mid _ Zltb_strict) by exact B.
  rewrite (merase_mid _ Zltb_strict) by exact B.
  assert (Bp : below Z.ltb p pre) by (intros q Hq; specialize (B _ Hq); lia).
  assert (Ap : above Z.ltb p post).
  { intros q Hq. apply wfc_app in W as (_ & W & _). apply wfc_cons in W as (_ & _ & W).
    specialize (W _ Hq). unfold chi, clo in W. cbn [fst snd] in W. lia. }
  unfold cell_assign. rewrite (mfind_absent _ Zltb_strict) by assumption.
  rewrite (mset_absent _ Zltb_strict) by assumption.
  rewrite (minsert_absent _ Zltb_strict); [reflexivity|exact B|].
  intros q [<-|Hq]; cbn [fst]; [lia|]. specialize (Ap _ Hq). lia.
Qed.

Lemma sins_ok id v : ssorted Z.ltb v -> ssorted Z.ltb (sins Z.ltb id v) /\ sins Z.ltb id v <> [].
Proof.
  intros H. split; [apply sins_sorted; [apply Zltb_strict|exact H]|].
  intros E. assert (In id (sins Z.ltb id v)) by (apply sins_in; [apply Zltb_strict|auto]).
  rewrite E in H0. destruct H0.
Qed.

(** The loop never overshoots when this holds of the cells from the iterator on. *)
Definition clip (post : cells) (b : Z) : Prop :=
  cov post (b - 1) \/ cov post b \/ (forall x, b < x -> ~ cov post x).

Lemma cell_loop_spec fuel : forall pre post rlo rhi id,
  wfc (pre ++ post) ->
  (forall p, In p pre -> chi p <= rlo) ->
  match post with [] => True | q :: _ => rlo < chi q end ->
  rlo <= rhi ->
  (rlo < rhi -> clip post rhi) ->
  (2 * length post + (match post with q :: _ => if (rlo <? clo q)%Z then 1 else 0 | [] => 0 end) + 2 <= fuel)%nat ->
  exists c', cell_loop fuel (pre ++ post) (match post with [] => None | q :: _ => Some (fst q) end) rlo rhi id = Some c'
    /\ wfc c' /\ forall x i, lab c' x i <-> lab (pre ++ post) x i \/ (i = id /\ rlo <= x < rhi).
Proof.
  induction fuel as [|fuel IH]; intros pre post rlo rhi id W Hpre Hhd Hle Hclip Hf; [lia|].
  cbn [cell_loop].
  destruct (rhi =? rlo) eqn:E0.
  { exists (pre ++ post). split; [reflexivity|]. split; [exact W|].
    intros x i. split; [auto|]. intros [H|H]; [exact H|lia]. }
  specialize (Hclip ltac:(lia)).
  destruct post as [|[k [u v]] post].
  { (* end of the map *)
    unfold cell_assign. rewrite app_nil_r in *.
    assert (B : below Z.ltb rlo pre).
    { intros p Hp. specialize (Hpre _ Hp). destruct (wfc_okc _ _ W Hp) as [H _].
      unfold clo in H. lia. }
    pose proof (mfind_absent _ Zltb_strict rlo pre [] B (fun _ H => match H with end)) as Hfa.
    rewrite app_nil_r in Hfa. rewrite Hfa.
    pose proof (mset_absent _ Zltb_strict rlo (rhi, [id]) pre [] B (fun _ H => match H with end)) as Hma.
    rewrite app_nil_r in Hma. rewrite Hma.
    eexists. split; [reflexivity|]. split.
    - apply wfc_app. split; [exact W|]. split.
      + apply wfc_cons. split; [|split; [apply wfc_nil|intros ? []]].
        split; [unfold clo, chi; try unfold g; try unfold a; try unfold bb; cbn [fst snd]; lia|]. split; [|discriminate].
        cbn. apply ssorted_cons. split; [constructor|intros ? []].
      + intros p q Hp [<-|[]]. unfold clo; cbn [fst]. auto.
    - intros x i. rewrite lab_app, lab_cons. rewrite lab_nil. unfold clo, chi, cids; cbn [fst snd In].
      intuition (subst; auto; lia). }
  pose proof (wfc_below _ _ _ _ W) as B.
  cbn [fst]. rewrite (mfind_mid _ Zltb_strict) by exact B.
  unfold clo, chi in Hhd, Hf; cbn [fst snd length] in Hhd, Hf.
  pose proof W as W0. apply wfc_app in W0 as (Wp & Wq & Wpq). apply wfc_cons in Wq as ((Hku & Hv & Hvn) & Wq & Hq).
  unfold clo, chi, cids in Hku, Hv, Hvn; cbn [fst snd] in Hku, Hv, Hvn.
  destruct (rlo <? k) eqn:E1.
  { (* gap *)
    assert (Hk : k <= rhi).
    { destruct (Z_le_dec k rhi); [assumption|exfalso].
      assert (NC : forall x, x < k -> ~ cov ((k,(u,v)) :: post) x).
      { intros x Hx (p & [<-|Hin] & Hp); unfold clo, chi in *; cbn [fst snd] in *; [lia|].
        specialize (Hq _ Hin). unfold chi in Hq; cbn [fst snd] in Hq. unfold clo in Hq. lia. }
      destruct Hclip as [H|[H|H]]; [apply (NC _) in H; [auto|lia]|apply (NC _) in H; [auto|lia]|].
      apply (H k); [lia|]. exists (k,(u,v)). split; [left; reflexivity|]. unfold clo, chi; try unfold g; try unfold a; try unfold bb; cbn [fst snd]; lia. }
    assert (Br : below Z.ltb rlo pre).
    { intros p Hp. specialize (Hpre _ Hp). destruct (wfc_okc _ _ Wp Hp) as [H _]. unfold clo in H. lia. }
    rewrite (minsert_absent _ Zltb_strict).
    2:{ exact Br. }
    2:{ intros p [<-|Hp]; cbn [fst]; [lia|]. specialize (Hq _ Hp). unfold chi, clo in Hq. cbn [fst snd] in Hq. lia. }
    set (g := (rlo, (k, [id])) : cell).
    assert (Wg : wfc ((pre ++ [g]) ++ (k,(u,v)) :: post)).
    { rewrite <- app_assoc. apply wfc_app. split; [exact Wp|]. split.
      - cbn [app]. apply wfc_cons. split; [|split].
        + split; [unfold clo, chi; try unfold g; try unfold a; try unfold bb; cbn [fst snd]; lia|]. split; [|discriminate].
          cbn. apply ssorted_cons. split; [constructor|intros ? []].
        + apply wfc_app in W. apply W.
        + intros q [<-|H]; unfold g, chi, clo; cbn [fst snd]; [lia|].
          specialize (Hq _ H). unfold chi, clo in Hq. cbn [fst snd] in Hq. lia.
      - intros p q Hp [<-|H]; [unfold clo; cbn [fst]; auto|]. apply Wpq; assumption. }
    change (pre ++ (rlo, (k, [id])) :: (k, (u, v)) :: post) with (pre ++ g :: (k, (u, v)) :: post).
    replace (pre ++ g :: (k, (u, v)) :: post) with ((pre ++ [g]) ++ (k,(u,v)) :: post) by (rewrite <- app_assoc; reflexivity).
    replace (cell_next rlo ((pre ++ [g]) ++ (k, (u, v)) :: post)) with (Some k).
    2:{ rewrite <- app_assoc in *. cbn [app] in *. subst g. rewrite cell_next_mid by exact Wg. reflexivity. }
    destruct (IH (pre ++ [g]) ((k,(u,v)) :: post) k rhi id) as (c' & Hc & Hw & Hl); auto.
    - intros p Hp. apply in_app_or in Hp as [Hp|[<-|[]]]; [|unfold chi; try unfold g; cbn [fst snd]; lia].
      specialize (Hpre _ Hp). lia.
    - unfold clo; cbn [fst length]. replace (k <? k) with false by lia. lia.
    - cbn [fst] in Hc. exists c'. split; [exact Hc|]. split; [exact Hw|].
      intros x i. rewrite Hl. rewrite !lab_app, lab_cons, lab_nil.
      unfold g, clo, chi, cids; cbn [fst snd In]. intuition (subst; auto; try lia). }
  assert (Hkr : k <= rlo) by lia.
  (* first split *)
  assert (S1 : exists pre2, 
     (if k <? rlo then let '(c', _) := cell_split (pre ++ (k, (u, v)) :: post) k u rlo in (c', cell_next k c')
      else (pre ++ (k, (u, v)) :: post, Some k)) = (pre2 ++ (rlo, (u, v)) :: post, Some rlo) /\
     wfc (pre2 ++ (rlo, (u, v)) :: post) /\
     (forall p, In p pre2 -> chi p <= rlo) /\
     (forall x i, lab (pre2 ++ (rlo, (u, v)) :: post) x i <-> lab (pre ++ (k, (u, v)) :: post) x i)).
  { destruct (k <? rlo) eqn:E2.
    - rewrite cell_split_mid by (auto; lia).
      assert (W2 : wfc (pre ++ (k, (rlo, v)) :: (rlo, (u, v)) :: post)).
      { apply wfc_app. split; [exact Wp|]. split.
        - apply wfc_cons. split; [|split].
          + split; [unfold clo, chi; try unfold g; try unfold a; try unfold bb; cbn [fst snd]; lia|]. auto.
          + apply wfc_cons. split; [|split; [exact Wq|exact Hq]].
            split; [unfold clo, chi; try unfold g; try unfold a; try unfold bb; cbn [fst snd]; lia|]. auto.
          + intros q [<-|H]; unfold chi, clo; cbn [fst snd]; [lia|].
            specialize (Hq _ H). unfold chi, clo in Hq. cbn [fst snd] in Hq. lia.
        - intros p q Hp [<-|[<-|H]].
          + apply (Wpq p (k,(u,v))); cbn; auto.
          + specialize (Wpq p (k,(u,v)) Hp (or_introl eq_refl)). unfold clo in *. cbn [fst] in *. lia.
          + apply (Wpq p q); cbn; auto. }
      rewrite cell_next_mid by exact W2.
      exists (pre ++ [(k, (rlo, v))]). rewrite <- app_assoc. cbn [app fst]. split; [reflexivity|].
      split; [exact W2|]. split.
      + intros p Hp. apply in_app_or in Hp as [Hp|[<-|[]]]; [auto|unfold chi; try unfold g; cbn [fst snd]; lia].
      + intros x i. rewrite !lab_app, !lab_cons. unfold clo, chi, cids; cbn [fst snd].
        intuition (try lia). destruct (Z_lt_dec x rlo); [right; left; split; [lia|assumption]|right; right; left; split; [lia|assumption]].
    - assert (k = rlo) by lia. subst k. exists pre. split; [reflexivity|]. split; [exact W|]. split; [exact Hpre|]. tauto. }
  destruct S1 as (pre2 & S1 & W2 & Hpre2 & Hl2).
  match goal with |- exists c', (let '(_, _) := ?X in _) = _ /\ _ =>
    replace X with ((pre2 ++ (rlo, (u, v)) :: post : cells), Some rlo) by (symmetry; exact S1) end.
  pose proof (wfc_below _ _ _ _ W2) as B2.
  rewrite (mfind_mid _ Zltb_strict) by exact B2.
  pose proof W2 as W2'. apply wfc_app in W2' as (Wp2 & _ & Wpq2).
  destruct (sins_ok id v Hv) as [Hv2 Hvn2].
  destruct (rhi <? u) eqn:E3.
  - rewrite cell_split_mid by (auto; lia). cbn [fst].
    rewrite (mfind_mid _ Zltb_strict) by exact B2. rewrite (mset_mid _ Zltb_strict) by exact B2.
    set (a := (rlo, (rhi, sins Z.ltb id v)) : cell). set (bb := (rhi, (u, v)) : cell).
    assert (W3 : wfc (pre2 ++ a :: bb :: post)).
    { apply wfc_app. split; [exact Wp2|]. split.
      - apply wfc_cons. split; [|split].
        + split; [unfold clo, chi; try unfold g; try unfold a; try unfold bb; cbn [fst snd]; lia|]. auto.
        + apply wfc_cons. split; [|split; [exact Wq|exact Hq]].
          split; [unfold clo, chi; try unfold g; try unfold a; try unfold bb; cbn [fst snd]; lia|]. auto.
        + intros q [<-|H]; unfold a, bb, chi, clo; cbn [fst snd]; [lia|].
          specialize (Hq _ H). unfold chi, clo in Hq. cbn [fst snd] in Hq. lia.
      - intros p q Hp [<-|[<-|H]].
        + apply (Wpq2 p (rlo,(u,v))); cbn; auto.
        + specialize (Hpre2 _ Hp). unfold bb, clo; cbn [fst snd]; lia.
        + apply (Wpq2 p q); cbn; auto. }
    subst a. rewrite cell_next_mid by exact W3. fold bb in W3 |- *.
    destruct fuel as [|fuel]; [lia|]. cbn [cell_loop]. rewrite Z.eqb_refl.
    eexists. split; [reflexivity|]. split; [exact W3|].
    intros x i. rewrite <- Hl2. rewrite !lab_app, !lab_cons. unfold bb, clo, chi, cids; cbn [fst snd].
    rewrite (sins_in _ Zltb_strict).
    destruct (Z_lt_dec x rhi); intuition (subst; auto; try lia).
  - rewrite (mfind_mid _ Zltb_strict) by exact B2. rewrite (mset_mid _ Zltb_strict) by exact B2.
    assert (W3 : wfc (pre2 ++ (rlo, (u, sins Z.ltb id v)) :: post)).
    { apply wfc_app. split; [exact Wp2|]. split.
      - apply wfc_cons. split; [|split; [exact Wq|exact Hq]].
        split; [unfold clo, chi; try unfold g; try unfold a; try unfold bb; cbn [fst snd]; lia|]. auto.
      - intros p q Hp [<-|H].
        + apply (Wpq2 p (rlo,(u,v))); cbn; auto.
        + apply (Wpq2 p q); cbn; auto. }
    rewrite cell_next_mid by exact W3.
    destruct (IH (pre2 ++ [(rlo, (u, sins Z.ltb id v))]) post u rhi id) as (c' & Hc & Hw & Hl).
    + rewrite <- app_assoc. exact W3.
    + intros p Hp. apply in_app_or in Hp as [Hp|[<-|[]]]; [|unfold chi; try unfold g; cbn [fst snd]; lia]. specialize (Hpre2 _ Hp). lia.
    + destruct post as [|q post]; [exact I|]. specialize (Hq _ (or_introl eq_refl)).
      apply wfc_cons in Wq as ((H & _) & _). unfold chi at 1 in Hq; cbn [fst snd] in Hq. lia.
    + lia.
    + intros Hur. destruct Hclip as [H|[H|H]].
      * left. apply cov_cons in H as [H|H]; [unfold clo, chi in H; cbn [fst snd] in H; lia|exact H].
      * right; left. apply cov_cons in H as [H|H]; [unfold clo, chi in H; cbn [fst snd] in H; lia|exact H].
      * right; right. intros x Hx Hc. apply (H x Hx). apply cov_cons. auto.
    + destruct post as [|q post]; cbn [length] in *; [lia|]. destruct (u <? clo q); lia.
    + rewrite <- app_assoc in Hc, Hl. cbn [app] in Hc, Hl. exists c'. split; [exact Hc|]. split; [exact Hw|].
      intros x i. rewrite Hl, <- Hl2. rewrite !lab_app, !lab_cons. unfold clo, chi, cids; cbn [fst snd].
      rewrite (sins_in _ Zltb_strict).
      destruct (Z_lt_dec x u); intuition (subst; auto; try lia).
Qed.

(** * One range *)

Lemma split_at k (c : cells) : wfc c -> exists pre post, c = pre ++ post /\
  (forall p, In p pre -> clo p < k) /\ (forall p, In p post -> k <= clo p).
Proof.
  induction c as [|p c IH]; intros W.
  - exists [], []. split; [reflexivity|]. split; intros ? [].
  - pose proof W as W'. apply wfc_cons in W as ((Hp & _) & W & Hq).
    destruct (Z_lt_dec (clo p) k).
    + destruct (IH W) as (pre & post & -> & H1 & H2). exists (p :: pre), post.
      split; [reflexivity|]. split; [|exact H2]. intros q [<-|H]; auto.
    + exists [], (p :: c). split; [reflexivity|]. split; [intros ? []|].
      intros q [<-|H]; [lia|]. specialize (Hq _ H). lia.
Qed.

Lemma cell_lower_bound_split k pre post :
  (forall p, In p pre -> clo p < k) -> (forall p, In p post -> k <= clo p) ->
  cell_lower_bound k (pre ++ post) = match post with [] => None | q :: _ => Some (fst q) end.
Proof.
  intros H1 H2. unfold cell_lower_bound. rewrite find_below.
  2:{ intros p Hp. specialize (H1 _ Hp). unfold clo in H1. lia. }
  destruct post as [|q post]; [reflexivity|]. cbn [find].
  specialize (H2 q (or_introl eq_refl)). unfold clo in H2. replace (k <=? fst q) with true by lia. reflexivity.
Qed.

Lemma filter_all {A} f (l : list A) : (forall a, In a l -> f a = true) -> filter f l = l.
Proof.
  induction l as [|a l IH]; intros H; cbn; [reflexivity|]. rewrite H by (left; reflexivity).
  f_equal. apply IH. intros; apply H; right; assumption.
Qed.
Lemma filter_none {A} f (l : list A) : (forall a, In a l -> f a = false) -> filter f l = [].
Proof.
  induction l as [|a l IH]; intros H; cbn; [reflexivity|]. rewrite H by (left; reflexivity).
  apply IH. intros; apply H; right; assumption.
Qed.

Lemma cell_prev_split pre post : wfc (pre ++ post) ->
  cell_prev (match post with [] => None | q :: _ => Some (fst q) end) (pre ++ post) =
  match rev pre with p :: _ => Some p | [] => None end.
Proof.
  intros W. unfold cell_prev. destruct post as [|q post].
  - rewrite app_nil_r. reflexivity.
  - rewrite filter_app. destruct q as [k w]. cbn [fst].
    pose proof (wfc_below _ _ _ _ W) as B.
    rewrite filter_all by exact B. rewrite filter_none; [rewrite app_nil_r; reflexivity|].
    intros p [<-|Hp]; cbn [fst]; [lia|]. apply wfc_app in W as (_ & W & _).
    apply wfc_cons in W as ((H & _) & W & Hq). specialize (Hq _ Hp). unfold clo, chi in *. cbn [fst snd] in *. lia.
Qed.

Lemma cell_add_spec pre post a b id : wfc (pre ++ post) -> a < b ->
  (forall p, In p pre -> chi p <= a) -> (forall p, In p post -> b <= clo p) ->
  cell_add (pre ++ post) a b id = pre ++ (a, (b, [id])) :: post /\
  wfc (pre ++ (a, (b, [id])) :: post) /\
  forall x i, lab (pre ++ (a, (b, [id])) :: post) x i <-> lab (pre ++ post) x i \/ (i = id /\ a <= x < b).
Proof.
  intros W Hab H1 H2. pose proof W as W'. apply wfc_app in W' as (Wp & Wq & Wpq).
  assert (B : below Z.ltb a pre).
  { intros p Hp. specialize (H1 _ Hp). destruct (wfc_okc _ _ Wp Hp) as [H _]. unfold clo in H. lia. }
  assert (A : above Z.ltb a post).
  { intros p Hp. specialize (H2 _ Hp). unfold clo in H2. lia. }
  split; [|split].
  - unfold cell_add. rewrite (mfind_absent _ Zltb_strict) by assumption.
    apply (mset_absent _ Zltb_strict); assumption.
  - apply wfc_app. split; [exact Wp|]. split.
    + apply wfc_cons. split; [|split; [exact Wq|]].
      * split; [unfold clo, chi; cbn [fst snd]; lia|]. split; [|discriminate].
        cbn. apply ssorted_cons. split; [constructor|intros ? []].
      * intros q Hq. unfold chi; cbn [fst snd]. auto.
    + intros p q Hp [<-|Hq]; [unfold clo; cbn [fst]; auto|auto].
  - intros x i. rewrite !lab_app, lab_cons. unfold clo, chi, cids; cbn [fst snd In].
    intuition (subst; auto; try lia).
Qed.

Lemma cell_add_range_spec c r id : wfc c -> ne r ->
  ((exists x, in_range x r /\ cov c x) -> cov c (hi r - 1) \/ cov c (hi r) \/ (forall x, hi r < x -> ~ cov c x)) ->
  exists c', cell_add_range (cell_fuel c) c r id = Some c' /\ wfc c' /\
    forall x i, lab c' x i <-> lab c x i \/ (i = id /\ in_range x r).
Proof.
  intros W Hr Hok. unfold ne in Hr.
  destruct (split_at (lo r) c W) as (pre & post & -> & H1 & H2).
  unfold cell_add_range. rewrite (cell_lower_bound_split _ _ _ H1 H2).
  rewrite (cell_prev_split _ _ W).
  (* where the iterator ends up, as a new split *)
  assert (HS : exists pre' post', pre ++ post = pre' ++ post' /\
    (match (match rev pre with p :: _ => Some p | [] => None end) with
     | Some (l, (u, _)) => if lo r <? u then Some l else (match post with [] => None | q :: _ => Some (fst q) end)
     | None => (match post with [] => None | q :: _ => Some (fst q) end)
     end) = (match post' with [] => None | q :: _ => Some (fst q) end) /\
    (forall p, In p pre' -> chi p <= lo r) /\
    (match post' with [] => True | q :: _ => lo r < chi q end) ).
  { destruct (last_split pre) as [->|(pre1 & p & ->)].
    - exists [], post. cbn. split; [reflexivity|]. split; [reflexivity|]. split; [intros ? []|].
      destruct post as [|q post]; [exact I|]. specialize (H2 q (or_introl eq_refl)).
      destruct (wfc_okc _ _ W (or_introl eq_refl)) as [H _]. lia.
    - rewrite rev_app_distr. cbn [rev app]. destruct p as [l [u v]].
      rewrite <- app_assoc in *. cbn [app] in *.
      pose proof W as W'. apply wfc_app in W' as (Wp & Wq & Wpq).
      assert (Hp1 : forall p, In p pre1 -> chi p <= lo r).
      { intros p Hp. specialize (Wpq p (l,(u,v)) Hp (or_introl eq_refl)).
        specialize (H1 (l,(u,v))). rewrite in_app_iff in H1. specialize (H1 (or_intror (or_introl eq_refl))). lia. }
      destruct (lo r <? u) eqn:E.
      + exists pre1, ((l,(u,v)) :: post). split; [reflexivity|]. split; [reflexivity|]. split; [exact Hp1|].
        unfold chi; cbn [fst snd]. lia.
      + exists (pre1 ++ [(l,(u,v))]), post. rewrite <- app_assoc. split; [reflexivity|]. split; [reflexivity|].
        split.
        * intros p Hp. apply in_app_or in Hp as [Hp|[<-|[]]]; [auto|]. unfold chi; cbn [fst snd]. lia.
        * destruct post as [|q post]; [exact I|]. specialize (H2 q (or_introl eq_refl)).
          assert (Hin : In q (pre1 ++ (l,(u,v)) :: q :: post)) by (apply in_or_app; cbn; auto).
          destruct (wfc_okc _ _ W Hin) as [H _]. lia. }
  destruct HS as (pre' & post' & Heq & Hit & Hp' & Hh').
  match goal with |- exists c', (match ?X with _ => _ end) = _ /\ _ =>
    replace X with (match post' with [] => None | q :: _ => Some (fst q) end) by (symmetry; exact Hit) end.
  rewrite Heq in *. clear Hit Heq H1 H2 pre post.
  destruct post' as [|[k [u v]] post].
  { destruct (cell_add_spec pre' [] (lo r) (hi r) id W Hr Hp') as (E & Hw & Hl); [intros ? []|].
    rewrite E. eexists. split; [reflexivity|]. split; [exact Hw|]. exact Hl. }
  cbn [fst]. pose proof (wfc_below _ _ _ _ W) as B. rewrite (mfind_mid _ Zltb_strict) by exact B.
  unfold chi in Hh'; cbn [fst snd] in Hh'.
  pose proof W as W'. apply wfc_app in W' as (Wp & Wq & Wpq).
  pose proof Wq as Wq'. apply wfc_cons in Wq' as ((Hku & Hv & Hvn) & Wt & Hq).
  unfold clo, chi, cids in Hku, Hv, Hvn; cbn [fst snd] in Hku, Hv, Hvn.
  destruct (overlaps (mkR k u) r) eqn:EO; cbn [negb orb].
  2:{ assert (hi r <= k).
      { unfold overlaps in EO. cbn [lo hi] in EO. destruct (hi r <=? k) eqn:E; [lia|].
        destruct (u <=? lo r) eqn:E'; [lia|discriminate]. }
      destruct (cell_add_spec pre' ((k,(u,v)) :: post) (lo r) (hi r) id W Hr Hp') as (E & Hw & Hl).
      { intros p [<-|Hp]; [unfold clo; cbn [fst]; lia|]. specialize (Hq _ Hp).
        unfold chi in Hq; cbn [fst snd] in Hq. lia. }
      rewrite E. eexists. split; [reflexivity|]. split; [exact Hw|]. exact Hl. }
  destruct (range_eqb (mkR k u) r) eqn:EE.
  { apply range_eqb_spec in EE. subst r. cbn [lo hi] in *. unfold cell_add.
    rewrite (mfind_mid _ Zltb_strict) by exact B. rewrite (mset_mid _ Zltb_strict) by exact B.
    destruct (sins_ok id v Hv) as [Hv2 Hvn2].
    eexists. split; [reflexivity|]. split.
    - apply wfc_app. split; [exact Wp|]. split.
      + apply wfc_cons. split; [|split; [exact Wt|exact Hq]]. split; [exact Hku|]. auto.
      + intros p q Hp [<-|H]; [apply (Wpq p (k,(u,v))); cbn; auto|apply Wpq; cbn; auto].
    - intros x i. rewrite !lab_app, !lab_cons. unfold in_range, clo, chi, cids; cbn [fst snd lo hi].
      rewrite (sins_in _ Zltb_strict). intuition (subst; auto). }
  assert (Hov : k < hi r).
  { unfold overlaps in EO. cbn [lo hi] in EO. destruct (hi r <=? k) eqn:E; [discriminate|]. lia. }
  assert (Hclip : clip ((k,(u,v)) :: post) (hi r)).
  { assert (NC : forall x, lo r <= x -> cov (pre' ++ (k,(u,v)) :: post) x -> cov ((k,(u,v)) :: post) x).
    { intros x Hx Hc. apply cov_app in Hc as [(p & Hp & Hc)|Hc]; [|exact Hc].
      specialize (Hp' _ Hp). lia. }
    destruct Hok as [H|[H|H]].
    - exists (Z.max k (lo r)). split; [unfold in_range; lia|]. exists (k,(u,v)).
      split; [apply in_or_app; cbn; auto|]. unfold clo, chi; cbn [fst snd]. lia.
    - left. apply NC; [lia|exact H].
    - right; left. apply NC; [lia|exact H].
    - right; right. intros x Hx Hc. apply (H x Hx). apply cov_app. auto. }
  destruct (cell_loop_spec (cell_fuel (pre' ++ (k,(u,v)) :: post)) pre' ((k,(u,v)) :: post) (lo r) (hi r) id)
    as (c' & Hc & Hw & Hl); auto.
  - lia.
  - unfold cell_fuel. rewrite app_length. cbn [length]. unfold clo; cbn [fst]. destruct (lo r <? k); lia.
  - cbn [fst] in Hc. exists c'. split; [exact Hc|]. split; [exact Hw|]. exact Hl.
Qed.

(** * All ranges *)

(** the labelled ranges, in visiting order *)
Definition flat (src : list (symbol_set * Z)) : list (range * Z) :=
  flat_map (fun p => map (fun r => (r, snd p)) (fst p)) src.

Definition labs (P : list (range * Z)) (x i : Z) : Prop := exists r, In (r, i) P /\ in_range x r.

Definition add_all (c : cells) (l : list (range * Z)) : option cells :=
  fold_left (fun oc p => match oc with Some c => cell_add_range (cell_fuel c) c (fst p) (snd p) | None => None end) l (Some c).

Lemma fold_none {A} (l : list A) f : fold_left (fun (oc : option cells) p => match oc with Some c => f c p | None => None end) l None = None.
Proof. induction l as [|a l IH]; cbn; auto. Qed.

Lemma cell_add_set_flat s id : forall c, cell_add_set c s id = add_all c (map (fun r => (r, id)) s).
Proof.
  induction s as [|r s IH]; intros c; cbn [cell_add_set map]; [reflexivity|].
  unfold add_all. cbn [fold_left fst snd].
  destruct (cell_add_range (cell_fuel c) c r id) as [c'|]; [apply IH|].
  symmetry. apply fold_none.
Qed.

Lemma cells_of_flat src : forall c, cells_of c src = add_all c (flat src).
Proof.
  induction src as [|[s id] src IH]; intros c; cbn [cells_of flat flat_map]; [reflexivity|].
  cbn [fst snd]. unfold add_all. rewrite fold_left_app. rewrite cell_add_set_flat. unfold add_all.
  destruct (fold_left _ (map _ s) (Some c)) as [c'|]; [apply IH|]. symmetry. apply fold_none.
Qed.

Lemma add_all_spec l : forall P c, wfc c -> Forall (fun p => ne (fst p)) l ->
  (forall x i, lab c x i <-> labs P x i) ->
  (forall L p R, l = L ++ p :: R -> compatible (map fst (P ++ L)) (fst p)) ->
  exists c', add_all c l = Some c' /\ wfc c' /\ forall x i, lab c' x i <-> labs (P ++ l) x i.
Proof.
  induction l as [|[r id] l IH]; intros P c W Hne Hl Hc.
  - exists c. rewrite app_nil_r. auto.
  - apply Forall_cons_iff in Hne as [Hr Hne]. cbn [fst] in Hr.
    assert (CV : forall x, cov c x <-> covered (map fst P) x).
    { intros x. rewrite (cov_lab _ _ W). split.
      - intros [i Hi]. apply Hl in Hi as (r' & Hin & Hx). exists r'. split; [|exact Hx].
        change r' with (fst (r', i)). apply in_map. exact Hin.
      - intros (r' & Hin & Hx). apply in_map_iff in Hin as ([r2 i] & <- & Hin). exists i.
        apply Hl. exists r2. auto. }
    destruct (cell_add_range_spec c r id W Hr) as (c1 & E1 & W1 & L1).
    { specialize (Hc [] (r, id) l eq_refl). rewrite app_nil_r in Hc. cbn [fst] in Hc.
      intros (x & Hx & Hx'). destruct Hc as [H|[H|H]].
      - exists x. split; [exact Hx|]. apply CV. exact Hx'.
      - left. apply CV. exact H.
      - right; left. apply CV. exact H.
      - right; right. intros y Hy Hcy. apply (H y Hy). apply CV. exact Hcy. }
    destruct (IH (P ++ [(r, id)]) c1 W1 Hne) as (c' & E & W' & L').
    + intros x i. rewrite L1, Hl. unfold labs. split.
      * intros [(r' & Hin & Hx)|[-> Hx]].
        -- exists r'. rewrite in_app_iff. auto.
        -- exists r. rewrite in_app_iff. cbn; auto.
      * intros (r' & Hin & Hx). apply in_app_or in Hin as [Hin|[Hin|[]]]; [left; eauto|]. inv Hin. auto.
    + intros L p R ->. rewrite <- app_assoc. apply (Hc ((r, id) :: L) p R). reflexivity.
    + exists c'. unfold add_all in *. cbn [fold_left fst snd]. rewrite E1. split; [exact E|]. split; [exact W'|].
      intros x i. rewrite L', <- app_assoc. reflexivity.
Qed.

(** * Grouping *)

Definition lexZ := lex_ltb Z.ltb.
Lemma lexZ_strict : strict_total lexZ. Proof. apply lex_strict_total. apply Zltb_strict. Qed.

Definition gstep (g : list (list Z * symbol_set)) (p : cell) :=
  let '(l, (u, ids)) := p in
  let cur := match mfind lexZ ids g with Some s => s | None => [] end in
  mset lexZ ids (union_range cur (mkR l u)) g.

Record ginv (c : cells) (g : list (list Z * symbol_set)) : Prop := {
  gi_sorted : msorted lexZ g;
  gi_set : forall ids s, In (ids, s) g -> wf s /\
     (forall x, mem s x <-> exists p, In p c /\ cids p = ids /\ clo p <= x < chi p);
  gi_dom : forall p, In p c -> exists s, In (cids p, s) g;
  gi_dom' : forall ids s, In (ids, s) g -> exists p, In p c /\ cids p = ids }.

Lemma gstep_inv c g p : ginv c g -> okc p -> ginv (c ++ [p]) (gstep g p).
Proof.
  intros G (Hlt & _). destruct p as [l [u ids]]. unfold clo, chi in Hlt. cbn [fst snd] in Hlt. unfold gstep.
  set (cur := match mfind lexZ ids g with Some s => s | None => [] end).
  assert (HC : wf cur /\ (forall x, mem cur x <-> exists p, In p c /\ cids p = ids /\ clo p <= x < chi p)).
  { unfold cur. destruct (mfind lexZ ids g) as [s|] eqn:E.
    - apply (mfind_in _ lexZ_strict _ (gi_sorted _ _ G)) in E. apply (gi_set _ _ G). exact E.
    - split; [apply wf_nil|]. intros x. rewrite mem_nil. split; [intros []|].
      intros (p & Hp & <- & _). destruct (gi_dom _ _ G _ Hp) as [s Hs].
      apply (mfind_none _ lexZ_strict _ (gi_sorted _ _ G)) with (v := s) in E. auto. }
  destruct HC as [Wc Mc].
  destruct (union_range_spec cur (mkR l u) Wc Hlt) as [Wu Mu].
  constructor.
  - apply mset_sorted; [apply lexZ_strict|apply (gi_sorted _ _ G)].
  - intros ids' s' H. apply (mset_in _ lexZ_strict _ (gi_sorted _ _ G)) in H as [H|[H Hn]].
    + inv H. split; [exact Wu|]. intros x. rewrite Mu, Mc. unfold in_range; cbn [lo hi]. split.
      * intros [(p & Hp & H1 & H2)|H1].
        -- exists p. rewrite in_app_iff. auto.
        -- exists (l, (u, ids)). rewrite in_app_iff. cbn. auto.
      * intros (p & Hp & H1 & H2). apply in_app_or in Hp as [Hp|[<-|[]]]; [left; eauto|].
        right. exact H2.
    + cbn [fst] in Hn. destruct (gi_set _ _ G _ _ H) as [Ws Ms]. split; [exact Ws|].
      intros x. rewrite Ms. split.
      * intros (p & Hp & H1). exists p. rewrite in_app_iff. auto.
      * intros (p & Hp & H1 & H2). apply in_app_or in Hp as [Hp|[<-|[]]]; [eauto|].
        cbn in H1. congruence.
  - intros p Hp. apply in_app_or in Hp as [Hp|[<-|[]]].
    + destruct (gi_dom _ _ G _ Hp) as [s Hs].
      destruct (list_eq_dec Z.eq_dec (cids p) ids) as [e|n].
      * rewrite e. eexists. apply (mset_in _ lexZ_strict _ (gi_sorted _ _ G)). left; reflexivity.
      * exists s. apply (mset_in _ lexZ_strict _ (gi_sorted _ _ G)). right. auto.
    + eexists. apply (mset_in _ lexZ_strict _ (gi_sorted _ _ G)). left; reflexivity.
  - intros ids' s' H. apply (mset_in _ lexZ_strict _ (gi_sorted _ _ G)) in H as [H|[H Hn]].
    + inv H. exists (l, (u, ids)). rewrite in_app_iff. cbn. auto.
    + destruct (gi_dom' _ _ G _ _ H) as (p & Hp & He). exists p. rewrite in_app_iff. auto.
Qed.

Lemma group_inv c : wfc c -> ginv c (group c).
Proof.
  intros W.
  assert (H : forall l c0 g, ginv c0 g -> Forall okc l -> ginv (c0 ++ l) (fold_left gstep l g)).
  { induction l as [|p l IH]; intros c0 g G F; cbn [fold_left].
    - rewrite app_nil_r. exact G.
    - apply Forall_cons_iff in F as [F1 F2].
      replace (c0 ++ p :: l) with ((c0 ++ [p]) ++ l) by (rewrite <- app_assoc; reflexivity).
      apply IH; [|exact F2]. apply gstep_inv; assumption. }
  apply (H c [] []); [|apply W].
  constructor; try (intros; contradiction). constructor.
Qed.

(** * Final map *)

Definition look (new : list (Z * list Z)) (o : Z) : list Z :=
  match mfind Z.ltb o new with Some c => c | None => [] end.

Definition ninv (new : list (Z * list Z)) : Prop :=
  msorted Z.ltb new /\ (forall o, ssorted Z.ltb (look new o)).

Lemma rm_add_new_spec new old id : ninv new ->
  ninv (rm_add_new new old id) /\
  forall o n, In n (look (rm_add_new new old id) o) <-> In n (look new o) \/ (o = old /\ n = id).
Proof.
  intros [Hs Hv]. unfold rm_add_new. change (match mfind Z.ltb old new with Some c => c | None => [] end) with (look new old).
  assert (L : forall o, look (mset Z.ltb old (sins Z.ltb id (look new old)) new) o =
                if Z.eq_dec o old then sins Z.ltb id (look new old) else look new o).
  { intros o. unfold look at 1. destruct (Z.eq_dec o old) as [->|Hn].
    - rewrite (mfind_mset_same _ Zltb_strict) by exact Hs. reflexivity.
    - rewrite (mfind_mset_other _ Zltb_strict) by assumption. reflexivity. }
  split.
  - split; [apply mset_sorted; [apply Zltb_strict|exact Hs]|]. intros o. rewrite L.
    destruct (Z.eq_dec o old); [apply sins_sorted; [apply Zltb_strict|apply Hv]|apply Hv].
  - intros o n. rewrite L. destruct (Z.eq_dec o old) as [->|Hn].
    + rewrite (sins_in _ Zltb_strict). intuition congruence.
    + intuition congruence.
Qed.

Lemma rm_add_fold olds id : forall new, ninv new ->
  let new' := fold_left (fun n o => rm_add_new n o id) olds new in
  ninv new' /\ forall o n, In n (look new' o) <-> In n (look new o) \/ (In o olds /\ n = id).
Proof.
  induction olds as [|a olds IH]; intros new I; cbn [fold_left].
  - split; [exact I|]. cbn. intuition.
  - destruct (rm_add_new_spec new a id I) as [I1 L1]. destruct (IH _ I1) as [I2 L2].
    split; [exact I2|]. intros o n. rewrite L2, L1. cbn [In]. intuition (subst; auto).
Qed.

Record rinv (E : list symbol_set) (B : Z -> Z -> Prop) (m : remapped) (G : list (list Z * symbol_set)) : Prop := {
  ri_sm : sm_inv (rm_map m);
  ri_sets : sm_sets (rm_map m) = E ++ map snd G;
  ri_n : ninv (rm_new m);
  ri_new : forall o n, In n (look (rm_new m) o) <-> B o n \/
     exists k g, nth_error G k = Some g /\ In o (fst g) /\ n = Z.of_nat (length E + k) }.

Lemma rm_step E B m G p : rinv E B m G -> ~ In (snd p) (E ++ map snd G) ->
  rinv E B (snd (rm_identifier m (snd p) (fst p))) (G ++ [p]).
Proof.
  intros R Hn. unfold rm_identifier.
  pose proof (sm_identifier_spec (rm_map m) (snd p) (ri_sm _ _ _ _ R)) as H.
  destruct (sm_identifier (rm_map m) (snd p)) as [i sm]. destruct H as (I & Hs & Hi & _ & Hnew).
  rewrite (ri_sets _ _ _ _ R) in Hs, Hnew. specialize (Hnew Hn).
  destruct (in_dec set_eq_dec (snd p) (E ++ map snd G)) as [h|_]; [contradiction|].
  destruct (rm_add_fold (fst p) i (rm_new m) (ri_n _ _ _ _ R)) as [N L].
  constructor; cbn [snd rm_map rm_new].
  - exact I.
  - rewrite Hs. rewrite map_app, app_assoc. reflexivity.
  - exact N.
  - intros o n. rewrite L, (ri_new _ _ _ _ R). rewrite app_length, map_length in Hnew. split.
    + intros [[H|(k & g & H1 & H2 & H3)]|[H1 H2]]; [auto| |].
      * right. exists k, g. split; [|auto]. rewrite nth_error_app1; [exact H1|]. apply nth_error_Some. congruence.
      * right. exists (length G), p. split; [|split; [exact H1|lia]].
        rewrite nth_error_app2 by lia. rewrite Nat.sub_diag. reflexivity.
    + intros [H|(k & g & H1 & H2 & H3)]; [auto|].
      destruct (Nat.lt_ge_cases k (length G)) as [Hk|Hk].
      * rewrite nth_error_app1 in H1 by exact Hk. left; right. eauto.
      * rewrite nth_error_app2 in H1 by exact Hk. destruct (k - length G)%nat eqn:D; cbn in H1.
        -- inv H1. right. split; [exact H2|]. lia.
        -- destruct n0; discriminate.
Qed.

Lemma rm_fold E B : forall G2 m G1, rinv E B m G1 -> NoDup (E ++ map snd (G1 ++ G2)) ->
  rinv E B (fold_left (fun m p => snd (rm_identifier m (snd p) (fst p))) G2 m) (G1 ++ G2).
Proof.
  induction G2 as [|p G2 IH]; intros m G1 R N; cbn [fold_left].
  - rewrite app_nil_r. exact R.
  - replace (G1 ++ p :: G2) with ((G1 ++ [p]) ++ G2) in * by (rewrite <- app_assoc; reflexivity).
    apply IH; [|exact N]. apply rm_step; [exact R|].
    rewrite map_app, map_app in N. cbn [map] in N. rewrite <- app_assoc in N. rewrite app_assoc in N. cbn [app] in N.
    apply NoDup_remove_2 in N. intros H. apply N. apply in_or_app. auto.
Qed.

Lemma rinv_empty : rinv [] (fun _ _ => False) rm_empty [].
Proof.
  constructor; cbn.
  - apply sm_empty_inv.
  - reflexivity.
  - split; [constructor|]. intros o. cbn. constructor.
  - intros o n. split; [intros []|]. intros [[]|(k & g & H & _)]. destruct k; discriminate.
Qed.

Lemma rinv_eps e : rinv [[]] (fun o n => o = e /\ n = 0) (snd (rm_identifier rm_empty [] [e])) [].
Proof.
  pose proof (rm_step [] (fun _ _ => False) rm_empty [] ([e], []) rinv_empty (fun H => H)) as R.
  cbn [fst snd app] in R. destruct R as [R1 R2 R3 R4]. constructor; auto.
  intros o n. rewrite R4. split.
  - intros [[]|(k & g & H & H1 & H2)]. destruct k as [|k]; cbn in H.
    + inv H. cbn in *. left. intuition.
    + destruct k; discriminate.
  - intros [[-> ->]|(k & g & H & _)].
    + right. exists 0%nat, ([e], []). cbn. auto.
    + destruct k; discriminate.
Qed.

Lemma flat_fst src : map fst (flat src) = flat_map fst src.
Proof.
  induction src as [|[s i] src IH]; cbn [flat flat_map]; [reflexivity|].
  rewrite map_app, map_map. cbn [fst snd]. rewrite map_id. fold (flat src). rewrite IH. reflexivity.
Qed.

Lemma flat_in src r i : In (r, i) (flat src) <-> exists s, In (s, i) src /\ In r s.
Proof.
  unfold flat. rewrite in_flat_map. split.
  - intros ([s j] & H1 & H2). apply in_map_iff in H2 as (r' & H2 & H3). cbn in *. inv H2. eauto.
  - intros (s & H1 & H2). exists (s, i). split; [exact H1|]. apply in_map_iff. exists r. auto.
Qed.

Lemma map_split {A B} (f : A -> B) l P b Q : map f l = P ++ b :: Q ->
  exists L a R, l = L ++ a :: R /\ map f L = P /\ f a = b /\ map f R = Q.
Proof.
  revert l. induction P as [|p P IH]; intros [|a l]; cbn; try discriminate.
  - intros H; inv H. exists [], a, l. auto.
  - intros H; inv H. destruct (IH _ H2) as (L & a' & R & -> & <- & <- & <-).
    exists (a :: L), a', R. auto.
Qed.

Lemma wfc_unique c p q x : wfc c -> In p c -> In q c -> clo p <= x < chi p -> clo q <= x < chi q -> p = q.
Proof.
  intros W. induction c as [|a c IH]; [intros []|].
  apply wfc_cons in W as (_ & W & Ha). intros [<-|Hp] [<-|Hq] H1 H2; auto.
  - specialize (Ha _ Hq). lia.
  - specialize (Ha _ Hp). lia.
Qed.

Lemma contains_iff_mem_get m i x : Forall wf (sm_sets m) ->
  contains (sm_get m i) x = true <-> exists s, 0 <= i /\ nth_error (sm_sets m) (Z.to_nat i) = Some s /\ mem s x.
Proof.
  intros W. rewrite Forall_forall in W. split.
  - intros H. assert (D : 0 <= i < sm_count m).
    { destruct (Z_lt_dec i 0); [|destruct (Z_le_dec (sm_count m) i)]; try lia;
        rewrite sm_get_out in H by lia; discriminate. }
    apply sm_get_in in D as Gi. exists (sm_get m i). split; [lia|]. split; [exact Gi|].
    apply contains_spec; [|exact H]. apply W. eapply nth_error_In; eauto.
  - intros (s & H1 & H2 & H3). rewrite (sm_get_nth _ _ _ H1 H2). apply contains_spec; [|exact H3].
    apply W. eapply nth_error_In; eauto.
Qed.

Theorem deduplicate_inv_wf src : sm_inv src -> Forall wf (sm_sets src) -> all_compatible src ->
  exists new, deduplicate src = Some new /\ is_partition src new /\ sm_has_duplicates (rm_map new) = false /\
    Forall wf (sm_sets (rm_map new)).
Proof.
  intros I W AC. unfold deduplicate. rewrite cells_of_flat.
  assert (Wsrc : forall s i, In (s, i) (sm_ids src) -> wf s).
  { intros s i H. apply (si_in _ I) in H as [_ H]. rewrite Forall_forall in W. apply W. eapply nth_error_In; eauto. }
  destruct (add_all_spec (flat (sm_ids src)) [] []) as (c & -> & Wc & Lc).
  { apply wfc_nil. }
  { rewrite Forall_forall. intros [r i] H. apply flat_in in H as (s & H1 & H2). cbn [fst].
    apply (wf_ne s); eauto. }
  { intros x i. rewrite lab_nil. unfold labs. cbn. firstorder. }
  { intros L p R E. cbn [app]. apply (AC _ _ (map fst R)). unfold visit_order. rewrite <- flat_fst, E, map_app. reflexivity. }
  cbn [app] in Lc.
  assert (LS : forall x i, lab c x i <-> contains (sm_get src i) x = true).
  { intros x i. rewrite Lc. rewrite (contains_iff_mem_get _ _ _ W). unfold labs, mem. split.
    - intros (r & H1 & H2). apply flat_in in H1 as (s & H1 & H3). apply (si_in _ I) in H1 as [H1 H1'].
      exists s. eauto.
    - intros (s & H1 & H2 & r & H3 & H4). exists r. split; [|exact H4]. apply flat_in. exists s.
      split; [|exact H3]. apply (si_in _ I). auto. }
  pose proof (group_inv c Wc) as GI. set (G := group c) in *.
  assert (GN : forall ids s, In (ids, s) G -> exists x, mem s x).
  { intros ids s H. destruct (gi_dom' _ _ GI _ _ H) as (p & Hp & He).
    exists (clo p). apply (gi_set _ _ GI _ _ H). exists p. split; [exact Hp|]. split; [exact He|].
    destruct (wfc_okc _ _ Wc Hp) as [H1 _]. lia. }
  assert (GD : forall ids s ids' s' x, In (ids, s) G -> In (ids', s') G -> mem s x -> mem s' x -> (ids, s) = (ids', s')).
  { intros ids s ids' s' x H1 H2 M1 M2. apply (gi_set _ _ GI _ _ H1) in M1 as (p & Hp & <- & Hx).
    apply (gi_set _ _ GI _ _ H2) in M2 as (q & Hq & <- & Hx').
    assert (p = q) by (eapply wfc_unique; eauto). subst q. f_equal.
    eapply msorted_unique; [apply lexZ_strict|apply (gi_sorted _ _ GI)| |]; eauto. }
  assert (GND : NoDup (map snd G)).
  { pose proof (gi_sorted _ _ GI) as Hs. clear -Hs GD GN. induction G as [|[ids s] G IH]; cbn; [constructor|].
    apply msorted_cons in Hs as [Hs Hl]. constructor.
    - intros H. apply in_map_iff in H as ([ids' s'] & He & Hin). cbn in He. subst s'.
      destruct (GN ids s (or_introl eq_refl)) as [x Hx].
      assert (E := GD ids s ids' s x (or_introl eq_refl) (or_intror Hin) Hx Hx). inv E.
      specialize (Hl _ Hin). cbn [fst] in Hl. rewrite (st_irrefl _ lexZ_strict) in Hl. discriminate.
    - apply IH; [intros; eapply GN; right; eassumption| |exact Hs].
      intros; eapply GD; try (right; eassumption); eassumption. }
  assert (GE : ~ In [] (map snd G)).
  { intros H. apply in_map_iff in H as ([ids s] & He & Hin). cbn in He. subst s.
    destruct (GN _ _ Hin) as [x Hx]. apply mem_nil in Hx. exact Hx. }
  set (eps := sm_find src []).
  assert (HE : exists E B m0, (if 0 <=? eps then snd (rm_identifier rm_empty [] [eps]) else rm_empty) = m0 /\
     rinv E B m0 [] /\ NoDup (E ++ map snd G) /\ (forall s, In s E -> s = []) /\
     (forall o n, B o n -> n = 0 /\ E = [[]] /\ o = eps) /\
     (forall o, 0 <= o -> sm_get src o = [] -> o < sm_count src -> o = eps /\ B o 0 /\ E = [[]])).
  { destruct (0 <=? eps) eqn:Ee.
    - exists [[]], (fun o n => o = eps /\ n = 0). eexists. split; [reflexivity|]. split; [apply rinv_eps|].
      split; [cbn [app]; constructor; assumption|]. split; [intros s [<-|[]]; reflexivity|].
      split; [intros o n [-> ->]; auto|]. intros o H1 H2 H3.
      assert (o = eps).
      { unfold eps, sm_find. assert (X : mfind set_ltb [] (sm_ids src) = Some o).
        { apply (sm_find_some _ _ I). split; [exact H1|]. rewrite sm_get_in by lia. congruence. }
        rewrite X. reflexivity. }
      auto.
    - exists [], (fun _ _ => False). eexists. split; [reflexivity|]. split; [apply rinv_empty|].
      split; [exact GND|]. split; [intros s []|]. split; [intros ? ? []|].
      intros o H1 H2 H3. exfalso. unfold eps, sm_find in Ee.
      assert (X : mfind set_ltb [] (sm_ids src) = Some o).
      { apply (sm_find_some _ _ I). split; [exact H1|]. rewrite sm_get_in by lia. congruence. }
      rewrite X in Ee. lia. }
  destruct HE as (E & B & m0 & -> & R0 & ND & HE & HB & HB2).
  pose proof (rm_fold E B G m0 [] R0 ND) as R. cbn [app] in R.
  set (new := fold_left (fun m p => snd (rm_identifier m (snd p) (fst p))) G m0) in *.
  exists new. split; [reflexivity|].
  assert (Wn : Forall wf (sm_sets (rm_map new))).
  { rewrite (ri_sets _ _ _ _ R). apply Forall_app. split; rewrite Forall_forall.
    - intros s Hs. rewrite (HE _ Hs). apply wf_nil.
    - intros s Hs. apply in_map_iff in Hs as ([ids s'] & <- & Hin). apply (gi_set _ _ GI _ _ Hin). }
  (* members of the new sets *)
  assert (NM : forall n x, contains (sm_get (rm_map new) n) x = true <->
     exists k ids s, nth_error G k = Some (ids, s) /\ n = Z.of_nat (length E + k) /\ mem s x).
  { intros n x. rewrite (contains_iff_mem_get _ _ _ Wn). rewrite (ri_sets _ _ _ _ R). split.
    - intros (s & H1 & H2 & H3). destruct (Nat.lt_ge_cases (Z.to_nat n) (length E)) as [Hk|Hk].
      + rewrite nth_error_app1 in H2 by exact Hk. apply nth_error_In in H2. rewrite (HE _ H2) in H3. apply mem_nil in H3. contradiction.
      + rewrite nth_error_app2 in H2 by exact Hk. rewrite nth_error_map in H2.
        destruct (nth_error G (Z.to_nat n - length E)) as [[ids s']|] eqn:EG; [|discriminate].
        cbn in H2. inv H2. exists (Z.to_nat n - length E)%nat, ids, s. split; [exact EG|]. split; [lia|exact H3].
    - intros (k & ids & s & H1 & -> & H3). exists s. split; [lia|]. split; [|exact H3]. rewrite Nat2Z.id.
      rewrite nth_error_app2 by lia. replace (length E + k - length E)%nat with k by lia.
      rewrite nth_error_map, H1. reflexivity. }
  (* the old sets of a new set's members *)
  assert (NO : forall k ids s x, nth_error G k = Some (ids, s) -> mem s x -> forall o, In o ids <-> lab c x o).
  { intros k ids s x H1 H2 o. apply nth_error_In in H1. apply (gi_set _ _ GI _ _ H1) in H2 as (p & Hp & <- & Hx). split.
    - intros Ho. exists p. auto.
    - intros (q & Hq & Hx' & Ho). assert (p = q) by (eapply wfc_unique; eauto). subst q. exact Ho. }
  (* every labelled symbol is in a new set *)
  assert (NX : forall x o, lab c x o -> exists k ids s, nth_error G k = Some (ids, s) /\ mem s x).
  { intros x o (p & Hp & Hx & _). destruct (gi_dom _ _ GI _ Hp) as [s Hs].
    destruct (In_nth_error _ _ Hs) as [k Hk]. exists k, (cids p), s. split; [exact Hk|].
    apply (gi_set _ _ GI _ _ Hs). exists p. auto. }
  assert (KU : forall k k' ids s ids' s' x, nth_error G k = Some (ids, s) -> nth_error G k' = Some (ids', s') ->
     mem s x -> mem s' x -> k = k').
  { intros k k' ids s ids' s' x H1 H2 M1 M2.
    assert (Eq : (ids, s) = (ids', s')) by (eapply GD; eauto using nth_error_In). inv Eq.
    apply (proj1 (NoDup_nth_error (map snd G)) GND).
    - rewrite map_length. apply nth_error_Some. congruence.
    - rewrite !nth_error_map, H1, H2. reflexivity. }
  assert (IP : is_partition src new).
  { constructor.
    - intros i j x Hi Hj. apply NM in Hi as (k & ids & s & H1 & -> & H2). apply NM in Hj as (k' & ids' & s' & H3 & -> & H4).
      f_equal. f_equal. eapply KU; eauto.
    - intros id Hid x. change (rm_new_symbols new id) with (look (rm_new new) id).
      rewrite <- LS. split.
      + intros Hl. destruct (NX _ _ Hl) as (k & ids & s & H1 & H2).
        exists (Z.of_nat (length E + k)). split.
        * apply (ri_new _ _ _ _ R). right. exists k, (ids, s). split; [exact H1|]. split; [|reflexivity].
          cbn [fst]. eapply NO; eauto.
        * apply NM. exists k, ids, s. auto.
      + intros (n & H1 & H2). apply NM in H2 as (k & ids & s & H3 & -> & H4).
        apply (ri_new _ _ _ _ R) in H1 as [H1|(k' & g & H5 & H6 & H7)].
        * apply HB in H1 as (H1 & HE' & _). rewrite HE' in H1. cbn in H1. lia.
        * assert (k = k') by lia. subst k'. rewrite H3 in H5. inv H5. eapply NO; eauto.
    - intros x y. split.
      + intros (n & H1 & H2). apply NM in H1 as (k & ids & s & H3 & -> & H4).
        apply NM in H2 as (k' & ids' & s' & H5 & H6 & H7). assert (k = k') by lia. subst k'. rewrite H3 in H5; inv H5.
        split.
        * pose proof (nth_error_In _ _ H3) as Hin. pose proof H4 as H4'. apply (gi_set _ _ GI _ _ Hin) in H4' as (p & Hp & <- & Hx).
          destruct (proj1 (cov_lab c x Wc)) as [o Ho]; [exists p; auto|]. exists o. apply LS. exact Ho.
        * intros id. rewrite <- !LS. rewrite <- (NO _ _ _ _ H3 H4), <- (NO _ _ _ _ H3 H7). reflexivity.
      + intros ((id & Hid) & Hall). apply LS in Hid as Hlx. apply Hall in Hid as Hid'. apply LS in Hid' as Hly.
        destruct (NX _ _ Hlx) as (k & ids & s & H1 & H2). destruct (NX _ _ Hly) as (k' & ids' & s' & H3 & H4).
        assert (ids = ids').
        { pose proof (nth_error_In _ _ H1) as Hi1. pose proof (nth_error_In _ _ H3) as Hi2.
          destruct (gi_dom' _ _ GI _ _ Hi1) as (p & Hp & Ep). destruct (gi_dom' _ _ GI _ _ Hi2) as (q & Hq & Eq).
          apply (ssorted_ext _ Zltb_strict).
          - rewrite <- Ep. apply (wfc_okc _ _ Wc Hp).
          - rewrite <- Eq. apply (wfc_okc _ _ Wc Hq).
          - intros o. rewrite (NO _ _ _ _ H1 H2), (NO _ _ _ _ H3 H4). rewrite !LS. apply Hall. }
        subst ids'. assert (s = s').
        { eapply msorted_unique; [apply lexZ_strict|apply (gi_sorted _ _ GI)| |]; eauto using nth_error_In. }
        subst s'. exists (Z.of_nat (length E + k)). split; apply NM; exists k, ids, s; auto.
    - intros id n H. apply (ri_new _ _ _ _ R) in H. unfold sm_count. rewrite (ri_sets _ _ _ _ R), app_length, map_length.
      destruct H as [H|(k & g & H1 & _ & ->)].
      + apply HB in H as (-> & -> & _). cbn [length]. lia.
      + assert (k < length G)%nat by (apply nth_error_Some; congruence). lia.
    - intros id Hid He. destruct (HB2 id) as (-> & HB0 & HE0); [lia|exact He|lia|].
      exists 0. split.
      + apply (ssorted_ext _ Zltb_strict).
        * apply (ri_n _ _ _ _ R).
        * apply ssorted_cons. split; [constructor|intros ? []].
        * intros n. change (rm_new_symbols new eps) with (look (rm_new new) eps). rewrite (ri_new _ _ _ _ R). cbn [In]. split.
          -- intros [H|(k & g & H1 & H2 & ->)]; [apply HB in H as (-> & _); auto|].
             destruct g as [ids s]. cbn [fst] in H2. pose proof (nth_error_In _ _ H1) as Hin.
             destruct (GN _ _ Hin) as [x Hx]. apply (NO _ _ _ _ H1 Hx) in H2. apply LS in H2.
             rewrite He in H2. discriminate.
          -- intros [<-|[]]. auto.
      + apply sm_get_nth; [lia|]. rewrite (ri_sets _ _ _ _ R), HE0. reflexivity.
    - intros id n H Hn. change (rm_new_symbols new id) with (look (rm_new new) id) in H.
      apply (ri_new _ _ _ _ R) in H as [H|(k & [ids s] & H1 & H2 & ->)].
      + apply HB in H as (_ & _ & ->). unfold eps, sm_find.
        destruct (mfind set_ltb [] (sm_ids src)) as [o|] eqn:X.
        * apply (sm_find_some _ _ I) in X as [X1 X2]. apply sm_get_nth; assumption.
        * apply sm_get_out. lia.
      + destruct (GN _ _ (nth_error_In _ _ H1)) as [x Hx].
        assert (C : contains (sm_get (rm_map new) (Z.of_nat (length E + k))) x = true) by (apply NM; exists k, ids, s; auto).
        rewrite Hn in C. discriminate. }
  split; [exact IP|]. split; [|exact Wn].
  destruct (sm_has_duplicates (rm_map new)) eqn:D; [|reflexivity]. exfalso.
  apply (has_duplicates_inv _ (ri_sm _ _ _ _ R) Wn) in D as (i & j & x & Hn & H1 & H2).
  apply Hn. eapply (ip_disjoint _ _ IP); eauto.
Qed.

Theorem deduplicate_inv src : sm_inv src -> Forall wf (sm_sets src) -> all_compatible src ->
  exists new, deduplicate src = Some new /\ is_partition src new /\ sm_has_duplicates (rm_map new) = false.
Proof.
  intros I W AC. destruct (deduplicate_inv_wf src I W AC) as (new & H1 & H2 & H3 & _). exists new. auto.
Qed.

(** maps whose sets are single ranges (or epsilon) are always compatible *)
Lemma single_compatible src : sm_inv src -> Forall wf (sm_sets src) ->
  (forall s, In s (sm_sets src) -> (length s <= 1)%nat) -> all_compatible src.
Proof.
  intros I W H1. unfold all_compatible, visit_order. intros P r Q E.
  assert (HS : forall l : list (symbol_set * Z), msorted set_ltb l -> (forall s i, In (s, i) l -> (length s <= 1)%nat /\ wf s) ->
    StronglySorted (fun a b => lo a <= lo b) (flat_map fst l)).
  { induction l as [|[s i] l IH]; intros Hs Hl; cbn [flat_map]; [constructor|].
    apply msorted_cons in Hs as [Hs Hlt]. apply SS_app. destruct (Hl s i (or_introl eq_refl)) as [Hlen _].
    split; [|split].
    - destruct s as [|a [|b s]]; cbn in *; try lia; repeat constructor.
    - apply IH; [exact Hs|]. intros; eapply Hl; right; eassumption.
    - intros a b Ha Hb. cbn [fst] in Ha. destruct s as [|a' [|]]; cbn in Ha; [contradiction| |cbn in Hlen; lia].
      destruct Ha as [<-|[]]. apply in_flat_map in Hb as ([t j] & Hin & Hb). cbn [fst] in Hb.
      destruct (Hl t j (or_intror Hin)) as [Hlen' _]. destruct t as [|b' [|]]; cbn in Hb; try contradiction; [|cbn in Hlen'; lia].
      destruct Hb as [<-|[]]. specialize (Hlt _ Hin). cbn [fst] in Hlt. cbn in Hlt.
      destruct (range_eqb a' b'); [discriminate|]. apply range_ltb_spec in Hlt. lia. }
  specialize (HS (sm_ids src) (si_sorted _ I)).
  assert (HA : forall s i, In (s, i) (sm_ids src) -> (length s <= 1)%nat /\ wf s).
  { intros s i Hi. apply (si_in _ I) in Hi as [_ Hi]. apply nth_error_In in Hi. split; [auto|].
    rewrite Forall_forall in W. auto. }
  specialize (HS HA). rewrite E in HS. apply SS_app in HS as (_ & _ & HS).
  assert (Hr : ne r).
  { assert (Hin : In r (flat_map fst (sm_ids src))) by (rewrite E; apply in_or_app; cbn; auto).
    apply in_flat_map in Hin as ([s i] & Hs & Hr). destruct (HA _ _ Hs) as [_ Hw]. apply (wf_ne _ _ Hw Hr). }
  intros _. destruct (Z_le_dec (hi r) (lo r)) as [|]; [unfold ne in Hr; lia|].
  (* any earlier range starts at or before r *)
  assert (HP : forall a, In a P -> lo a <= lo r) by (intros a Ha; apply HS; cbn; auto).
  destruct (existsb (fun a => hi r <=? hi a) P) eqn:X.
  - apply existsb_exists in X as (a & Ha & Hx). left. exists a. split; [exact Ha|]. specialize (HP _ Ha).
    unfold in_range, ne in *. lia.
  - right; right. intros x Hx (a & Ha & Hax). assert (existsb (fun a => hi r <=? hi a) P = true); [|congruence].
    apply existsb_exists. exists a. split; [exact Ha|]. unfold in_range in Hax. lia.
Qed.

Lemma sm_of_wf reqs : Forall normal reqs -> Forall wf (sm_sets (sm_of reqs)).
Proof.
  intros H. rewrite sm_of_sets. rewrite Forall_forall in *. intros s Hs. apply normal_wf. apply H.
  apply firsts_in. exact Hs.
Qed.

Lemma deduplicate_lemma reqs : Forall normal reqs -> all_compatible (sm_of reqs) ->
  exists new, deduplicate (sm_of reqs) = Some new /\ is_partition (sm_of reqs) new /\
              sm_has_duplicates (rm_map new) = false.
Proof. intros H. apply deduplicate_inv; [apply sm_of_inv|apply sm_of_wf; exact H]. Qed.

Lemma deduplicate_single_lemma reqs : Forall normal reqs -> Forall (fun s => (length s <= 1)%nat) reqs ->
  exists new, deduplicate (sm_of reqs) = Some new /\ is_partition (sm_of reqs) new /\
              sm_has_duplicates (rm_map new) = false.
Proof.
  intros H H1. apply deduplicate_lemma; [exact H|]. apply single_compatible; [apply sm_of_inv|apply sm_of_wf; exact H|].
  intros s Hs. rewrite sm_of_sets, firsts_in in Hs. rewrite Forall_forall in H1. auto.
Qed.

Lemma has_duplicates_lemma reqs : Forall normal reqs ->
  sm_has_duplicates (sm_of reqs) = true <->
  exists i j x, i <> j /\ contains (sm_get (sm_of reqs) i) x = true /\ contains (sm_get (sm_of reqs) j) x = true.
Proof. intros H. apply has_duplicates_inv; [apply sm_of_inv|apply sm_of_wf; exact H]. Qed.

(** [ ], [0-9] and [^q] (q the quote) *)
Definition bad_reqs : list symbol_set := [[mkR 32 33]; [mkR 48 58]; [mkR 0 34; mkR 35 c_MaxSymbol]].

Lemma dedup_lost_lemma :
  exists reqs new, Forall normal reqs /\ deduplicate (sm_of reqs) = Some new /\
    contains (sm_get (sm_of reqs) 2) 97 = true /\
    (forall n, contains (sm_get (rm_map new) n) 97 = false) /\
    contains (sm_get (sm_of reqs) 1) 40 = false /\
    (exists n, In n (rm_new_symbols new 1) /\ contains (sm_get (rm_map new) n) 40 = true) /\
    sm_has_duplicates (rm_map new) = true /\
    ~ is_partition (sm_of reqs) new.
Proof.
  exists bad_reqs. eexists. split.
  { unfold bad_reqs, normal, valid_range, c_MaxSymbol. repeat (constructor; cbn); try lia. }
  split; [vm_compute; reflexivity|].
  split; [vm_compute; reflexivity|].
  assert (X : forall n, contains (sm_get (rm_map
       {| rm_map := {| sm_sets := [[{| lo := 32; hi := 33 |}];
                  [{| lo := 35; hi := 58 |}; {| lo := 58; hi := 34 |}];
                  [{| lo := 0; hi := 32 |}; {| lo := 33; hi := 48 |}]];
               sm_ids :=
                 [([{| lo := 32; hi := 33 |}], 0);
                  ([{| lo := 0; hi := 32 |}; {| lo := 33; hi := 48 |}], 2);
                  ([{| lo := 35; hi := 58 |}; {| lo := 58; hi := 34 |}], 1)] |};
          rm_new := [(0, [0]); (1, [1]); (2, [0; 1; 2])] |}) n) 97 = false).
  { intros n. destruct (Z_lt_dec n 0); [rewrite sm_get_out by lia; reflexivity|].
    destruct (Z_lt_dec n 3).
    - assert (H : n = 0 \/ n = 1 \/ n = 2) by lia. destruct H as [->|[->| ->]]; vm_compute; reflexivity.
    - rewrite sm_get_out; [reflexivity|]. unfold sm_count. cbn. lia. }
  split; [exact X|].
  split; [vm_compute; reflexivity|].
  split; [exists 1; split; [vm_compute; auto|vm_compute; reflexivity]|].
  split; [vm_compute; reflexivity|].
  intros IP. destruct (proj1 (ip_union _ _ IP 2 ltac:(vm_compute; split; congruence) 97) ltac:(vm_compute; reflexivity)) as (n & _ & Hn).
  rewrite X in Hn. discriminate.
Qed.

Lemma rm_copy_lemma : exists reqs new, Forall normal reqs /\ deduplicate (sm_of reqs) = Some new /\
  is_partition (sm_of reqs) new /\ ~ is_partition (sm_of reqs) (rm_copy new).
Proof.
  assert (HN : Forall normal [[mkR 48 58]]).
  { unfold normal, valid_range, c_MaxSymbol. repeat (constructor; cbn); try lia. }
  destruct (deduplicate_single_lemma [[mkR 48 58]] HN) as (new & E & IP & _).
  { repeat constructor. }
  exists [[mkR 48 58]], new. split; [exact HN|]. split; [exact E|]. split; [exact IP|].
  vm_compute in E. inv E. intros IPc.
  destruct (proj1 (ip_union _ _ IPc 0 ltac:(vm_compute; split; congruence) 50) ltac:(vm_compute; reflexivity)) as (n & _ & Hn).
  unfold rm_copy in Hn. cbn [rm_map] in Hn. rewrite sm_get_out in Hn; [discriminate|]. unfold sm_count. cbn. lia.
Qed.

(** A sound check for [all_compatible], for examples. *)
Definition compatible_b (P : list range) (r : range) : bool :=
  forallb (fun a => negb (overlaps a r)) P || existsb (fun a => range_has a (hi r - 1)) P ||
  existsb (fun a => range_has a (hi r)) P || forallb (fun a => hi a <=? hi r + 1) P.

Fixpoint all_compatible_b (P l : list range) : bool :=
  match l with
  | [] => true
  | r :: t => compatible_b P r && all_compatible_b (P ++ [r]) t
  end.

Lemma compatible_b_sound P r : compatible_b P r = true -> compatible P r.
Proof.
  unfold compatible_b, compatible. intros H (x & Hx & a & Ha & Hax).
  apply orb_true_iff in H as [H|H]; [apply orb_true_iff in H as [H|H]; [apply orb_true_iff in H as [H|H]|]|].
  - rewrite forallb_forall in H. specialize (H _ Ha). unfold overlaps, in_range in *.
    destruct (hi r <=? lo a) eqn:E1; [lia|]. destruct (hi a <=? lo r) eqn:E2; [lia|]. discriminate.
  - left. apply existsb_exists in H as (b & Hb & H). apply range_has_spec in H. exists b; auto.
  - right; left. apply existsb_exists in H as (b & Hb & H). apply range_has_spec in H. exists b; auto.
  - right; right. intros y Hy (b & Hb & Hby). rewrite forallb_forall in H. specialize (H _ Hb).
    unfold in_range in Hby. lia.
Qed.

Lemma all_compatible_b_sound m : all_compatible_b [] (visit_order m) = true -> all_compatible m.
Proof.
  intros H P r Q E. rewrite E in H. apply compatible_b_sound.
  assert (G : forall P P0, all_compatible_b P0 (P ++ r :: Q) = true -> compatible_b (P0 ++ P) r = true).
  { clear. induction P as [|a P IH]; intros P0; cbn [app all_compatible_b]; intros H.
    - apply andb_true_iff in H as [H _]. rewrite app_nil_r. exact H.
    - apply andb_true_iff in H as [_ H]. apply IH in H. rewrite <- app_assoc in H. exact H. }
  apply (G P []). exact H.
Qed.

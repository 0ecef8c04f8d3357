(** Proofs about merging symbol sets. *)
From Verif Require Import Base OrdMap SymbolSetModel SymbolSetSpec SymbolSetProofs.
From Verif Require Import SymbolMapModel SymbolMapSpec SymbolMapProofs DedupProofs NdfaModel NdfaSpec NdfaProofs ToDfaProofs.
From Verif Require Import NdfaReduceModel NdfaReduceSpec CompactProofs.
Local Open Scope Z_scope.

Notation zfind := (mfind Z.ltb).

Definition target (st : list transition) (s : Z) : option nat := option_map snd (find (fun t : transition => fst t =? s) st).

Lemma target_some (st : list transition) : NoDup (map fst st) -> forall s t, target st s = Some t <-> In (s, t) st.
Proof.
  intros STN s t. unfold target. split.
  - destruct (find (fun t : transition => fst t =? s) st) as [[s' t']|] eqn:E; [|discriminate]. cbn. intros X. inv X. apply find_some in E as [E1 E2]. cbn in E2.
    apply Z.eqb_eq in E2. subst s'. exact E1.
  - intros H. destruct (find (fun t : transition => fst t =? s) st) as [[s' t']|] eqn:E.
    + apply find_some in E as [E1 E2]. cbn in *. apply Z.eqb_eq in E2. subst s'. f_equal. eapply nodup_fst_fun; eauto.
    + exfalso. pose proof (find_none _ _ E _ H) as X. cbn in X. lia.
Qed.

Section Merge.
  Variable all : list Z.
  Hypothesis ALL : ssorted Z.ltb all.

  Record mpart (us : list (list Z)) (m : symmap) : Prop := {
    mp_sorted : msorted Z.ltb m;
    mp_class : forall c s, In s (nth c us []) <-> zfind s m = Some c;
    mp_cs : forall c, ssorted Z.ltb (nth c us []);
    mp_dom : forall s, (exists c, zfind s m = Some c) <-> In s all }.

  Lemma mpart_len us m s c : mpart us m -> zfind s m = Some c -> (c < length us)%nat.
  Proof.
    intros P H. apply (mp_class _ _ P) in H. destruct (Nat.lt_ge_cases c (length us)) as [|Hc]; [assumption|].
    rewrite nth_overflow in H by exact Hc. destruct H.
  Qed.

  Lemma mpart_app us m : mpart us m -> mpart (us ++ [[]]) m.
  Proof. intros [P1 P2 P3 P4]. constructor; auto; intros c; rewrite nth_app_nil; auto. Qed.

  Lemma sget_find us m s : mpart us m -> In s all -> zfind s m = Some (sget m s).
  Proof. intros P H. apply (mp_dom _ _ P) in H as [c H]. unfold sget. rewrite H. reflexivity. Qed.

  Lemma move_one us m s c new : mpart us m -> (c < length us)%nat -> (new < length us)%nat -> c <> new -> zfind s m = Some c ->
    mpart (set_nth new (sins Z.ltb s (nth new (set_nth c (serase Z.ltb s (nth c us [])) us) [])) (set_nth c (serase Z.ltb s (nth c us [])) us))
          (mset Z.ltb s new m).
  Proof.
    intros P Hc Hn Hcn Hs. pose proof P as [P1 P2 P3 P4]. constructor.
    - apply mset_sorted; [apply Zltb_strict|exact P1].
    - intros x t. destruct (Z.eq_dec t s) as [->|Ht].
      + rewrite (mfind_mset_same _ Zltb_strict) by exact P1. destruct (Nat.eq_dec x new) as [->|Hx]; [|destruct (Nat.eq_dec x c) as [->|Hx']].
        * rewrite set_nth_same by (rewrite set_nth_length; exact Hn). rewrite (sins_in _ Zltb_strict). tauto.
        * rewrite set_nth_other by exact Hx. rewrite set_nth_same by exact Hc. rewrite (serase_in _ Zltb_strict) by apply P3.
          split; [intros [_ H]; congruence|congruence].
        * rewrite !set_nth_other by assumption. rewrite P2. split; congruence.
      + rewrite (mfind_mset_other _ Zltb_strict) by assumption. rewrite <- P2. destruct (Nat.eq_dec x new) as [->|Hx]; [|destruct (Nat.eq_dec x c) as [->|Hx']].
        * rewrite set_nth_same by (rewrite set_nth_length; exact Hn). rewrite set_nth_other by auto. rewrite (sins_in _ Zltb_strict). tauto.
        * rewrite set_nth_other by exact Hx. rewrite set_nth_same by exact Hc. rewrite (serase_in _ Zltb_strict) by apply P3. tauto.
        * rewrite !set_nth_other by assumption. tauto.
    - assert (C1 : forall x, ssorted Z.ltb (nth x (set_nth c (serase Z.ltb s (nth c us [])) us) [])).
      { intros x. destruct (Nat.eq_dec x c) as [->|Hx]; [|rewrite set_nth_other by exact Hx; apply P3].
        rewrite set_nth_same by exact Hc. apply serase_sorted; [apply Zltb_strict|apply P3]. }
      intros x. destruct (Nat.eq_dec x new) as [->|Hx]; [|rewrite set_nth_other by exact Hx; apply C1].
      rewrite set_nth_same by (rewrite set_nth_length; exact Hn). apply sins_sorted; [apply Zltb_strict|apply C1].
    - intros t. rewrite <- P4. destruct (Z.eq_dec t s) as [->|Ht].
      + rewrite (mfind_mset_same _ Zltb_strict) by exact P1. split; eauto.
      + rewrite (mfind_mset_other _ Zltb_strict) by assumption. reflexivity.
  Qed.

  Lemma move_spec c new : c <> new -> forall l us m, mpart us m -> (c < length us)%nat -> (new < length us)%nat ->
    (forall s, In s l -> In s all) ->
    let '(us', m') := merge_move c new (us, m) l in
    mpart us' m' /\ length us' = length us /\
    (forall s, In s l -> zfind s m = Some c -> zfind s m' = Some new) /\
    (forall s, ~ In s l \/ zfind s m <> Some c -> zfind s m' = zfind s m).
  Proof.
    intros Hcn. induction l as [|a l IH]; intros us m P Hc Hn Hl.
    - cbn. split; [exact P|]. split; [reflexivity|]. split; [intros s []|auto].
    - unfold merge_move. cbn [fold_left].
      assert (Ha : zfind a m = Some (sget m a)) by (eapply sget_find; [exact P|apply Hl; cbn; auto]).
      pose proof (mp_sorted _ _ P) as Ms. assert (Hl' : forall s, In s l -> In s all) by (intros; apply Hl; right; assumption).
      destruct (Nat.eqb_spec (sget m a) c) as [E|E].
      + rewrite E in Ha. specialize (IH _ _ (move_one us m a c new P Hc Hn Hcn Ha)). rewrite !set_nth_length in IH. specialize (IH Hc Hn Hl').
        unfold merge_move in IH. unfold symmap in *. destruct (fold_left _ l _) as [us' m']. destruct IH as (I1 & I2 & I3 & I4).
        split; [exact I1|]. split; [exact I2|]. split.
        * intros s Hs Fs. destruct (Z.eq_dec s a) as [->|Hsa].
          -- rewrite I4; [apply mfind_mset_same; [apply Zltb_strict|exact Ms]|]. right.
             rewrite (mfind_mset_same _ Zltb_strict) by exact Ms. congruence.
          -- apply I3; [destruct Hs; [congruence|assumption]|]. rewrite (mfind_mset_other _ Zltb_strict) by assumption. exact Fs.
        * intros s Hs. assert (Hsa : s <> a) by (intros ->; destruct Hs as [Hs|Hs]; [apply Hs; cbn; auto|congruence]).
          rewrite I4; [apply mfind_mset_other; [apply Zltb_strict|assumption|assumption]|]. rewrite (mfind_mset_other _ Zltb_strict) by assumption.
          destruct Hs as [Hs|Hs]; [left; intros X; apply Hs; right; exact X|right; exact Hs].
      + specialize (IH _ _ P Hc Hn Hl'). unfold merge_move in IH. unfold symmap in *. destruct (fold_left _ l _) as [us' m']. destruct IH as (I1 & I2 & I3 & I4).
        split; [exact I1|]. split; [exact I2|]. split.
        * intros s [<-|Hs] Fs; [congruence|]. apply I3; assumption.
        * intros s [Hs|Hs]; apply I4; [left; intros X; apply Hs; right; exact X|right; exact Hs].
  Qed.

  Section OneState.
    Variable st : list transition.
    Hypothesis STS : ssorted trans_ltb st.
    Hypothesis STN : NoDup (map fst st).
    Hypothesis STA : forall s t, In (s, t) st -> In s all.

    Local Notation target := (target st).
    Local Notation target_some := (target_some st STN).

    Record linv (m0 : symmap) (done syms : list Z) (tr : list transition) (sfs : list (nat * option nat)) (us : list (list Z)) (m : symmap) : Prop := {
      li_p : mpart us m;
      li_all : all = done ++ syms;
      li_tr : exists pre, st = pre ++ tr /\ (forall t, In t pre -> In (fst t) done) /\ (forall t, In t tr -> In (fst t) syms);
      li_sfs : msorted Nat.ltb sfs;
      li_some : forall c v, nfind c sfs = Some v ->
        (exists s, zfind s m = Some c /\ target s = v) /\ (forall s, In s done -> zfind s m = Some c -> target s = v);
      li_none : forall c, nfind c sfs = None ->
        (forall s, In s done -> zfind s m <> Some c) \/
        (forall s s', zfind s m = Some c -> zfind s' m = Some c -> target s = target s');
      li_ref : forall s s', In s all -> In s' all -> zfind s m = zfind s' m -> zfind s m0 = zfind s' m0;
      li_coarse : forall s s', In s all -> In s' all -> zfind s m0 = zfind s' m0 -> target s = target s' -> zfind s m = zfind s' m;
      li_one : all = [] -> length us = 1%nat;
      li_ne : all <> [] -> forall c, (c < length us)%nat -> nth c us [] <> [] }.

    Lemma erase_fold_in (l : list transition) : forall a s, ssorted Z.ltb a ->
      In s (fold_left (fun l (t : transition) => serase Z.ltb (fst t) l) l a) <-> In s a /\ ~ In s (map fst l).
    Proof.
      induction l as [|t l IH]; intros a s Ha; cbn [fold_left map]; [cbn; tauto|].
      rewrite IH by (apply serase_sorted; [apply Zltb_strict|exact Ha]). rewrite (serase_in _ Zltb_strict) by exact Ha. cbn [In]. intuition congruence.
    Qed.

    Lemma loop_step m0 done s syms tr sfs us m : linv m0 done (s :: syms) tr sfs us m ->
      match tr with t :: _ => if fst t =? s then Some (snd t) else None | [] => None end = target s /\
      (exists pre, match target s, tr with Some _, _ :: tr' => st = pre ++ tr' | _, _ => st = pre ++ tr end /\
         (forall t, In t pre -> In (fst t) (done ++ [s])) /\
         (forall t, In t (match target s, tr with Some _, _ :: tr' => tr' | _, _ => tr end) -> In (fst t) syms)).
    Proof.
      intros LI. destruct (li_tr _ _ _ _ _ _ _ LI) as (pre & E & Hpre & Htr). pose proof (li_all _ _ _ _ _ _ _ LI) as EA.
      assert (Slt : forall x, In x syms -> s < x).
      { intros x Hx. pose proof ALL as H. rewrite EA in H. apply SS_app in H as (_ & H & _). apply SS_cons in H as [_ H].
        apply H in Hx. lia. }
      assert (Sd : ~ In s done).
      { intros Hx. pose proof ALL as H. rewrite EA in H. apply SS_app in H as (_ & _ & H). specialize (H s s Hx (or_introl eq_refl)). lia. }
      destruct (target s) as [t|] eqn:ET.
      - apply target_some in ET. rewrite E in ET. apply in_app_or in ET as [ET|ET]; [apply Hpre in ET; contradiction|].
        destruct tr as [|[s0 t0] tr']; [destruct ET|].
        assert (s0 = s).
        { destruct ET as [X|ET]; [congruence|]. destruct (Htr (s0, t0) (or_introl eq_refl)) as [X|X]; [auto|]. cbn [fst] in X. apply Slt in X.
          pose proof STS as H. rewrite E in H. apply SS_app in H as (_ & H & _). apply SS_cons in H as [_ H]. apply H in ET. apply trans_ltb_lt in ET. cbn in ET. lia. }
        subst s0. pose proof STN as N. rewrite E in N.
        rewrite map_app in N. cbn [map fst] in N. apply NoDup_remove_2 in N.
        assert (t0 = t). { destruct ET as [X|ET]; [congruence|]. exfalso. apply N. apply in_or_app. right. apply (in_map fst) in ET. exact ET. }
        subst t0. cbn [fst snd]. rewrite Z.eqb_refl. split; [reflexivity|]. exists (pre ++ [(s, t)]). rewrite <- app_assoc. split; [exact E|]. split.
        + intros x Hx. apply in_app_or in Hx as [Hx|[<-|[]]]; apply in_or_app; [left; apply Hpre; exact Hx|right; cbn; auto].
        + intros x Hx. destruct (Htr x (or_intror Hx)) as [X|X]; [|exact X]. exfalso. apply N. apply in_or_app. right. rewrite X. apply in_map. exact Hx.
      - assert (NS : forall x, In x tr -> fst x <> s).
        { intros [x t] Hx Ex. cbn in Ex. subst x. assert (target s = Some t); [|congruence]. apply target_some. rewrite E. apply in_or_app. auto. }
        split.
        + destruct tr as [|t tr']; [reflexivity|]. specialize (NS t (or_introl eq_refl)). destruct (Z.eqb_spec (fst t) s); [contradiction|reflexivity].
        + exists pre. split; [exact E|]. split; [intros; apply in_or_app; auto|]. intros t Ht. destruct (Htr t Ht) as [X|X]; [|exact X]. exfalso. apply (NS t Ht). auto.
    Qed.

    Lemma opt_eq_dec (a b : option nat) : {a = b} + {a <> b}.
    Proof. decide equality. apply Nat.eq_dec. Qed.

    (** one step, the transition pointer aside *)
    Lemma loop_inner m0 done s syms tr tr2 sfs us m : linv m0 done (s :: syms) tr sfs us m ->
      (exists pre, st = pre ++ tr2 /\ (forall t, In t pre -> In (fst t) (done ++ [s])) /\ (forall t, In t tr2 -> In (fst t) syms)) ->
      let '(sfs1, us1, m1) :=
          match nfind (sget m s) sfs with
          | None => (mset Nat.ltb (sget m s) (target s) sfs, us, m)
          | Some old =>
            if match old, target s with
               | Some a, Some b => Nat.eqb a b
               | None, None => true
               | _, _ => false
               end
            then (sfs, us, m)
            else
              let new := length us in
              let moved :=
                match target s with
                | Some target => map fst (filter (fun t : transition => Nat.eqb (snd t) target) tr)
                | None => fold_left (fun l (t : transition) => serase Z.ltb (fst t) l) st all
                end in
              let '(us1, m1) := merge_move (sget m s) new (us ++ [[]], m) moved in
              (sfs, us1, m1)
          end in
      linv m0 (done ++ [s]) syms tr2 sfs1 us1 m1.
    Proof.
      intros LI TR. pose proof LI as [P EA HT HS HSo HNo HR HC HO HN].
      assert (Sin : In s all) by (rewrite EA; apply in_or_app; cbn; auto).
      assert (Sd : ~ In s done).
      { intros Hx. pose proof ALL as H. rewrite EA in H. apply SS_app in H as (_ & _ & H). specialize (H s s Hx (or_introl eq_refl)). lia. }
      pose proof (sget_find _ _ _ P Sin) as Fs. set (c := sget m s) in *.
      assert (NA : all = [] -> False) by (intros X; rewrite X in Sin; destruct Sin).
      assert (EA' : all = (done ++ [s]) ++ syms) by (rewrite <- app_assoc; exact EA).
      destruct (nfind c sfs) as [old|] eqn:Ec.
      - destruct (opt_eq_dec old (target s)) as [Eo|Eo].
        + replace (match old, target s with Some a, Some b => Nat.eqb a b | None, None => true | _, _ => false end) with true
            by (rewrite Eo; destruct (target s); [rewrite Nat.eqb_refl|]; reflexivity).
          constructor; auto.
          * intros c' v Hv. destruct (HSo c' v Hv) as [A1 A2]. split; [exact A1|]. intros x Hx Fx. apply in_app_or in Hx as [Hx|[<-|[]]]; [auto|].
            assert (c' = c) by congruence. subst c'. congruence.
          * intros c' Hv. destruct (HNo c' Hv) as [A1|A1]; [|auto]. left. intros x Hx Fx. apply in_app_or in Hx as [Hx|[<-|[]]]; [eapply A1; eauto|congruence].
        + replace (match old, target s with Some a, Some b => Nat.eqb a b | None, None => true | _, _ => false end) with false.
          2:{ destruct old as [a|], (target s) as [b|]; try reflexivity; [|congruence]. symmetry. apply Nat.eqb_neq. congruence. }
          set (moved := match target s with
                | Some target => map fst (filter (fun t : transition => Nat.eqb (snd t) target) tr)
                | None => fold_left (fun l (t : transition) => serase Z.ltb (fst t) l) st all end).
          destruct HT as (pre & E & Hpre & Htr).
          assert (M1 : forall x, In x moved -> In x all /\ target x = target s).
          { intros x Hx. unfold moved in Hx. destruct (target s) as [v|] eqn:ET.
            - apply in_map_iff in Hx as ([x' t] & Ex & Hx). cbn in Ex. subst x'. apply filter_In in Hx as [Hx Hv]. cbn in Hv. apply Nat.eqb_eq in Hv. subst t.
              assert (X : In (x, v) st) by (rewrite E; apply in_or_app; auto). split; [eapply STA; eauto|]. apply target_some. exact X.
            - apply erase_fold_in in Hx; [|exact ALL]. destruct Hx as [Hx1 Hx2]. split; [exact Hx1|]. destruct (target x) eqn:X; [|reflexivity].
              apply target_some in X. exfalso. apply Hx2. apply (in_map fst) in X. exact X. }
          assert (M2 : forall x, In x all -> zfind x m = Some c -> target x = target s -> In x moved).
          { intros x Hx Fx Tx.
            assert (ND : ~ In x done). { intros Hd. destruct (HSo c old Ec) as [_ A2]. specialize (A2 x Hd Fx). congruence. }
            unfold moved. destruct (target s) as [v|] eqn:ET.
            - apply target_some in Tx. rewrite E in Tx. apply in_app_or in Tx as [Tx|Tx]; [apply Hpre in Tx; contradiction|].
              apply in_map_iff. exists (x, v). split; [reflexivity|]. apply filter_In. split; [exact Tx|]. cbn. apply Nat.eqb_refl.
            - apply erase_fold_in; [exact ALL|]. split; [exact Hx|]. intros X. apply in_map_iff in X as ([x' t] & Ex & X). cbn in Ex. subst x'.
              apply target_some in X. congruence. }
          pose proof (mpart_len _ _ _ _ P Fs) as Hc.
          pose proof (move_spec c (length us) ltac:(lia) moved (us ++ [[]]) m (mpart_app _ _ P)) as MS.
          rewrite app_length in MS. cbn [length] in MS. specialize (MS ltac:(lia) ltac:(lia) ltac:(intros x Hx; apply M1; exact Hx)).
          cbv zeta. destruct (merge_move c (length us) (us ++ [[]], m) moved) as [us1 m1]. destruct MS as (P1 & L1 & V1 & V2).
          assert (Hsm : In s moved) by (apply M2; auto).
          (* the classes after the move *)
          assert (CL : forall x k, zfind x m1 = Some k ->
             (k = length us /\ In x moved /\ zfind x m = Some c) \/ (k <> length us /\ zfind x m = Some k /\ (~ In x moved \/ k <> c))).
          { intros x k Hk. destruct (in_dec Z.eq_dec x moved) as [Hx|Hx].
            - destruct (zfind x m) as [k'|] eqn:Ex.
              + destruct (Nat.eq_dec k' c) as [->|Hkc].
                * left. rewrite (V1 x Hx Ex) in Hk. inv Hk. auto.
                * right. rewrite (V2 x) in Hk by (right; congruence). assert (k = k') by congruence. subst k'.
                  split; [pose proof (mpart_len _ _ _ _ P Ex); lia|]. auto.
              + rewrite (V2 x) in Hk by (right; congruence). congruence.
            - right. rewrite (V2 x) in Hk by auto. split; [pose proof (mpart_len _ _ _ _ P Hk); lia|auto]. }
          constructor; auto.
          * intros c' v Hv. destruct (HSo c' v Hv) as [(s1 & B1 & B2) A2].
            assert (c' <> length us) by (pose proof (mpart_len _ _ _ _ P B1); lia). split.
            -- exists s1. split; [|exact B2]. rewrite V2; [exact B1|]. destruct (Nat.eq_dec c' c) as [->|Hcc]; [|right; congruence].
               left. intros X. apply M1 in X as [_ X]. congruence.
            -- intros x Hx Fx. destruct (CL _ _ Fx) as [(X & _)|(_ & X & Y)]; [congruence|]. apply in_app_or in Hx as [Hx|[<-|[]]]; [auto|].
               exfalso. destruct Y as [Y|Y]; [contradiction|congruence].
          * intros c' Hv. destruct (Nat.eq_dec c' (length us)) as [->|Hcn].
            -- right. intros x y Fx Fy. destruct (CL _ _ Fx) as [(_ & X & _)|(X & _)]; [|congruence]. destruct (CL _ _ Fy) as [(_ & Y & _)|(Y & _)]; [|congruence].
               apply M1 in X as [_ X]. apply M1 in Y as [_ Y]. congruence.
            -- destruct (HNo c' Hv) as [A1|A1].
               ++ left. intros x Hx Fx. destruct (CL _ _ Fx) as [(X & _)|(_ & X & Y)]; [congruence|]. apply in_app_or in Hx as [Hx|[<-|[]]]; [eapply A1; eauto|congruence].
               ++ right. intros x y Fx Fy. destruct (CL _ _ Fx) as [(X & _)|(_ & X & _)]; [congruence|]. destruct (CL _ _ Fy) as [(Y & _)|(_ & Y & _)]; [congruence|]. auto.
          * intros x y Hx Hy Exy. apply HR; auto.
            pose proof (sget_find _ _ _ P1 Hx) as Fx. pose proof (sget_find _ _ _ P1 Hy) as Fy. rewrite Exy, Fy in Fx. inv Fx. rewrite Fy in Exy.
            destruct (CL _ _ Exy) as [(X & _ & X2)|(X & X2 & _)], (CL _ _ Fy) as [(Y & _ & Y2)|(Y & Y2 & _)]; congruence.
          * intros x y Hx Hy Exy Txy. pose proof (HC x y Hx Hy Exy Txy) as E1.
            destruct (in_dec Z.eq_dec x moved) as [Mx|Mx].
            -- destruct (opt_eq_dec (zfind x m) (Some c)) as [Ex|Ex]; [|rewrite !V2 by (right; congruence); exact E1].
               rewrite (V1 x Mx Ex). symmetry. apply V1; [|congruence]. apply M2; [exact Hy|congruence|]. apply M1 in Mx. destruct Mx. congruence.
            -- destruct (in_dec Z.eq_dec y moved) as [My|My]; [|rewrite !V2 by auto; exact E1].
               destruct (opt_eq_dec (zfind y m) (Some c)) as [Ey|Ey]; [|rewrite !V2 by (right; congruence); exact E1].
               exfalso. apply Mx. apply M2; [exact Hx|congruence|]. apply M1 in My. destruct My. congruence.
          * intros X. destruct (NA X).
          * intros An x Hx. rewrite L1 in Hx. destruct (Nat.eq_dec x (length us)) as [->|Hxn].
            -- specialize (V1 s Hsm Fs). apply (mp_class _ _ P1) in V1. intros X. rewrite X in V1. destruct V1.
            -- destruct (HSo c old Ec) as [(s1 & B1 & B2) _]. destruct (Nat.eq_dec x c) as [->|Hxc].
               ++ assert (X : zfind s1 m1 = Some c). { rewrite V2; [exact B1|]. left. intros X. apply M1 in X as [_ X]. congruence. }
                  apply (mp_class _ _ P1) in X. intros Y. rewrite Y in X. destruct X.
               ++ destruct (hd_in _ (HN An x ltac:(lia))) as (y & l & Y). assert (Fy : zfind y m = Some x) by (apply (mp_class _ _ P); rewrite Y; cbn; auto).
                  assert (X : zfind y m1 = Some x) by (rewrite V2; [exact Fy|right; congruence]).
                  apply (mp_class _ _ P1) in X. intros Z. rewrite Z in X. destruct X.
      - constructor; auto.
        + apply nset_sorted. exact HS.
        + intros c' v. destruct (Nat.eq_dec c' c) as [->|Hcc].
          * rewrite nset_same by exact HS. intros Ev. inv Ev. split; [eauto|]. intros x Hx Fx. destruct (HNo c Ec) as [A1|A1].
            -- apply in_app_or in Hx as [Hx|[<-|[]]]; [exfalso; eapply A1; eauto|reflexivity].
            -- apply A1; assumption.
          * rewrite nset_other by assumption. intros Hv. destruct (HSo c' v Hv) as [A1 A2]. split; [exact A1|].
            intros x Hx Fx. apply in_app_or in Hx as [Hx|[<-|[]]]; [auto|congruence].
        + intros c'. destruct (Nat.eq_dec c' c) as [->|Hcc]; [rewrite nset_same by exact HS; discriminate|].
          rewrite nset_other by assumption. intros Hv. destruct (HNo c' Hv) as [A1|A1]; [|auto]. left.
          intros x Hx Fx. apply in_app_or in Hx as [Hx|[<-|[]]]; [eapply A1; eauto|congruence].
    Qed.

    Lemma loop_ok m0 : forall syms done fuel tr sfs us m, (length syms <= fuel)%nat -> linv m0 done syms tr sfs us m ->
      exists us' m' tr' sfs', merge_loop fuel all st syms tr sfs us m = Some (us', m') /\ linv m0 all [] tr' sfs' us' m'.
    Proof.
      induction syms as [|s syms IH]; intros done fuel tr sfs us m Hf LI.
      - exists us, m, tr, sfs. assert (E : all = done) by (rewrite (li_all _ _ _ _ _ _ _ LI), app_nil_r; reflexivity).
        split; [destruct fuel; reflexivity|]. rewrite <- E in LI. exact LI.
      - destruct fuel as [|fuel]; [cbn in Hf; lia|]. cbn [merge_loop]. destruct (loop_step _ _ _ _ _ _ _ _ LI) as [ET (pre & Epre & Hpre & Hsy)].
        rewrite ET. pose proof (loop_inner m0 done s syms tr) as LN.
        assert (Hf' : (length syms <= fuel)%nat) by (cbn in Hf; lia).
        destruct (target s) as [v|] eqn:ETs.
        + destruct tr as [|t tr']; [discriminate|].
          specialize (LN tr' sfs us m LI ltac:(exists pre; auto)). rewrite ?ETs in LN. cbv zeta in *.
          match type of LN with context [let '(_, _) := ?X in _] => destruct X as [[sfs1 us1] m1] end.
          destruct tr' as [|t2 tr'']; [eapply IH; eauto|].
          destruct (Z.eqb_spec (fst t2) s) as [E2|E2]; [|eapply IH; eauto].
          exfalso. specialize (Hsy t2 (or_introl eq_refl)). pose proof ALL as H. rewrite (li_all _ _ _ _ _ _ _ LI) in H. apply SS_app in H as (_ & H & _).
          apply SS_cons in H as [_ H]. rewrite E2 in Hsy. apply H in Hsy. lia.
        + assert (E0 : st = pre ++ tr) by (destruct tr; exact Epre).
          assert (H0 : forall t, In t tr -> In (fst t) syms) by (destruct tr; exact Hsy).
          specialize (LN tr sfs us m LI ltac:(exists pre; auto)). rewrite ?ETs in LN. cbv zeta in *.
          match type of LN with context [let '(_, _) := ?X in _] => destruct X as [[sfs1 us1] m1] end.
          eapply IH; eauto.
    Qed.
  End OneState.

  Definition pure (st : list transition) (m : symmap) : Prop :=
    forall s s', In s all -> In s' all -> zfind s m = zfind s' m -> target st s = target st s'.
  Definition good (us : list (list Z)) (m : symmap) : Prop :=
    mpart us m /\ (all = [] -> length us = 1%nat) /\ (all <> [] -> forall c, (c < length us)%nat -> nth c us [] <> []).

  Lemma merge_state_ok st us m : ssorted trans_ltb st -> NoDup (map fst st) -> (forall s t, In (s, t) st -> In s all) -> good us m ->
    exists us' m', merge_loop (length all + length st) all st all st [] us m = Some (us', m') /\ good us' m' /\ pure st m' /\
      (forall s s', In s all -> In s' all -> zfind s m' = zfind s' m' -> zfind s m = zfind s' m) /\
      (forall s s', In s all -> In s' all -> zfind s m = zfind s' m -> target st s = target st s' -> zfind s m' = zfind s' m').
  Proof.
    intros S1 S2 S3 (P & ONE & NE).
    destruct (loop_ok st S1 S2 S3 m all [] (length all + length st) st [] us m) as (us' & m' & tr' & sfs' & E & LI); [lia| |].
    { constructor; auto.
      - exists []. split; [reflexivity|]. split; [intros ? []|]. intros [s t] H. eapply S3; eauto.
      - constructor.
      - discriminate. }
    exists us', m'. split; [exact E|]. destruct LI as [P' EA HT HS HSo HNo HR HC HO HN]. split; [split; [assumption|split; assumption]|]. split; [|split; assumption].
    intros s s' Hs Hs' Ess. pose proof (sget_find _ _ _ P' Hs) as Fs. pose proof Fs as Fs'. rewrite Ess in Fs'.
    destruct (nfind (sget m' s) sfs') as [v|] eqn:Ev.
    - destruct (HSo _ _ Ev) as [_ A]. rewrite (A s Hs Fs), (A s' Hs' Fs'). reflexivity.
    - destruct (HNo _ Ev) as [A|A]; [exfalso; exact (A s Hs Fs)|auto].
  Qed.

  Lemma merge_states_ok : forall states us m,
    (forall st, In st states -> ssorted trans_ltb st /\ NoDup (map fst st) /\ (forall s t, In (s, t) st -> In s all)) -> good us m ->
    exists us' m', merge_states all states us m = Some (us', m') /\ good us' m' /\
      (forall s s', In s all -> In s' all ->
         (zfind s m' = zfind s' m' <-> zfind s m = zfind s' m /\ forall st, In st states -> target st s = target st s')).
  Proof.
    induction states as [|st states IH]; intros us m H G; cbn [merge_states].
    - exists us, m. split; [reflexivity|]. split; [exact G|]. intros s s' _ _. split; [intros E; split; [exact E|intros ? []]|intros [E _]; exact E].
    - destruct (H st (or_introl eq_refl)) as (S1 & S2 & S3). destruct (merge_state_ok st us m S1 S2 S3 G) as (us1 & m1 & E1 & G1 & P1 & R1 & C1).
      rewrite E1. destruct (IH us1 m1) as (us2 & m2 & E2 & G2 & X2); [intros; apply H; right; assumption|exact G1|].
      exists us2, m2. split; [exact E2|]. split; [exact G2|]. intros s s' Hs Hs'. rewrite X2 by assumption. split.
      + intros [A B]. split; [apply R1; assumption|]. intros x [<-|Hx]; [apply P1; assumption|auto].
      + intros [A B]. split; [apply C1; auto; apply B; cbn; auto|]. intros x Hx. apply B. cbn; auto.
  Qed.
End Merge.

(** * The merged automaton *)
Section MergeMain.
  Context {A : Type}.
  Variable d : ndfa A.
  Hypothesis OK : ndfa_ok d.
  Hypothesis DJ : disjoint_symbols d.
  Hypothesis VD : verify_is_dfa d = true.

  Let ids := map snd (sm_ids (n_symbols d)).
  Let all := fold_left (fun l s => sins Z.ltb s l) ids [].
  Let m0 : symmap := fold_left (fun m s => mset Z.ltb s O m) ids [].

  Lemma ids_in i : In i ids <-> 0 <= i < sm_count (n_symbols d).
  Proof.
    destruct (ok_inv _ OK) as [I _]. unfold ids. rewrite in_map_iff. split.
    - intros ([s j] & E & H). cbn in E. subst j. apply (si_in _ I) in H as [H1 H2]. unfold sm_count.
      assert (Z.to_nat i < length (sm_sets (n_symbols d)))%nat by (apply nth_error_Some; congruence). lia.
    - intros H. exists (sm_get (n_symbols d) i, i). split; [reflexivity|]. apply (si_in _ I). split; [lia|]. apply sm_get_in. exact H.
  Qed.

  Lemma all_spec l : forall a, (ssorted Z.ltb a -> ssorted Z.ltb (fold_left (fun l s => sins Z.ltb s l) l a)) /\
    forall i, In i (fold_left (fun l s => sins Z.ltb s l) l a) <-> In i l \/ In i a.
  Proof.
    induction l as [|s l IH]; intros a; cbn [fold_left]; [split; [auto|cbn; tauto]|]. destruct (IH (sins Z.ltb s a)) as [H1 H2]. split.
    - intros H. apply H1. apply sins_sorted; [apply Zltb_strict|exact H].
    - intros i. rewrite H2, (sins_in _ Zltb_strict). cbn [In]. intuition congruence.
  Qed.

  Lemma all_sorted : ssorted Z.ltb all.
  Proof. apply (proj1 (all_spec ids [])). constructor. Qed.
  Lemma all_in i : In i all <-> 0 <= i < sm_count (n_symbols d).
  Proof. unfold all. rewrite (proj2 (all_spec ids [])), ids_in. cbn. tauto. Qed.

  Lemma m0_spec l : forall m : symmap, msorted Z.ltb m -> (forall s c, zfind s m = Some c -> c = O) ->
    let m' := fold_left (fun m s => mset Z.ltb s O m) l m in
    msorted Z.ltb m' /\ forall s c, zfind s m' = Some c <-> c = O /\ (In s l \/ zfind s m = Some O).
  Proof.
    induction l as [|a l IH]; intros m Hs Hz; cbn [fold_left].
    - split; [exact Hs|]. intros s c. split; [intros H; pose proof (Hz _ _ H); subst c; auto|]. intros [-> [[]|H]]. exact H.
    - destruct (IH (mset Z.ltb a O m)) as [I1 I2]; [apply mset_sorted; [apply Zltb_strict|exact Hs]| |].
      + intros s c. rewrite (mfind_mset _ Zltb_strict _ Hs). destruct (if a <? s then true else s <? a); intros H; [eapply Hz; eauto|congruence].
      + split; [exact I1|]. intros s c. rewrite I2. cbn [In]. destruct (Z.eq_dec s a) as [->|Hn].
        * rewrite (mfind_mset_same _ Zltb_strict) by exact Hs. tauto.
        * rewrite (mfind_mset_other _ Zltb_strict) by assumption. intuition congruence.
  Qed.

  Lemma start_good : good all [all] m0.
  Proof.
    destruct (m0_spec ids [] ltac:(constructor) ltac:(discriminate)) as [S1 S2]. fold m0 in S1, S2.
    assert (S3 : forall s c, zfind s m0 = Some c <-> c = O /\ In s all).
    { intros s c. rewrite S2, all_in, ids_in. cbn [mfind]. intuition congruence. }
    split.
    - constructor.
      + exact S1.
      + intros [|c] s; rewrite S3; cbn [nth].
        * tauto.
        * destruct c; cbn; split; try tauto; intros [X _]; discriminate.
      + intros [|c]; cbn [nth]; [apply all_sorted|destruct c; constructor].
      + intros s. split; [intros (c & H); apply S3 in H; tauto|]. intros H. exists O. apply S3. auto.
    - split; [reflexivity|]. intros H [|c] Hc; cbn in *; [exact H|lia].
  Qed.

  Lemma d_nodup st : In st (n_states d) -> NoDup (map fst st) /\ ~ In (eps_id d) (map fst st).
  Proof. intros H. apply (proj1 (verify_is_dfa_spec d) VD). exact H. Qed.

  Lemma states_get st : In st (n_states d) -> exists q, (q < count_states d)%nat /\ st = get_state d q.
  Proof. intros H. apply (In_nth _ _ []) in H as (q & Hq & <-). exists q. split; [exact Hq|reflexivity]. Qed.

  Lemma states_ok st : In st (n_states d) -> ssorted trans_ltb st /\ NoDup (map fst st) /\ (forall s t, In (s, t) st -> In s all).
  Proof.
    intros H. pose proof (d_nodup st H) as [N _]. apply states_get in H as (q & _ & ->). split; [apply (ok_sorted _ OK)|]. split; [exact N|].
    intros s t Hin. apply all_in. eapply ok_trans; eauto.
  Qed.

  Variables (us : list (list Z)) (m : symmap).
  Hypothesis G : good all us m.
  Hypothesis CLASS : forall s s', In s all -> In s' all ->
         (zfind s m = zfind s' m <-> forall st, In st (n_states d) -> target st s = target st s').

  Definition sunion (l : list Z) : symbol_set := fold_left (fun s id => union_set s (sm_get (n_symbols d) id)) l [].

  Lemma get_normal i : normal (sm_get (n_symbols d) i).
  Proof.
    destruct (ok_symbols _ OK) as (reqs & HF & E). rewrite E. unfold sm_get.
    destruct (_ || _)%bool; [apply normal_b_sound; reflexivity|]. rewrite sm_of_sets.
    destruct (nth_in_or_default (Z.to_nat i) (firsts reqs) []) as [H|H].
    - rewrite Forall_forall in HF. apply HF. apply firsts_in. exact H.
    - rewrite H. apply normal_b_sound; reflexivity.
  Qed.

  Lemma sunion_spec l : wf (sunion l) /\ forall x, mem (sunion l) x <-> exists i, In i l /\ mem (sm_get (n_symbols d) i) x.
  Proof.
    unfold sunion. assert (X : forall l a, wf a ->
      wf (fold_left (fun s id => union_set s (sm_get (n_symbols d) id)) l a) /\
      forall x, mem (fold_left (fun s id => union_set s (sm_get (n_symbols d) id)) l a) x <-> mem a x \/ exists i, In i l /\ mem (sm_get (n_symbols d) i) x).
    { clear l. induction l as [|i l IH]; intros a Ha; cbn [fold_left].
      - split; [exact Ha|]. intros x. split; [auto|]. intros [H|(i & [] & _)]. exact H.
      - pose proof (normal_wf _ (get_normal i)) as Wi.
        assert (NEi : Forall ne (sm_get (n_symbols d) i)) by (apply Forall_forall; intros r Hr; eapply wf_ne; eauto).
        destruct (union_set_spec (sm_get (n_symbols d) i) a Ha NEi) as [U1 U2]. destruct (IH _ U1) as [I1 I2]. split; [exact I1|].
        intros x. rewrite I2, U2. cbn [In]. split.
        + intros [[H|H]|(j & H1 & H2)]; [auto|right; exists i; auto|right; exists j; auto].
        + intros [H|(j & [<-|H1] & H2)]; [auto|auto|right; exists j; auto]. }
    destruct (X l [] wf_nil) as [X1 X2]. split; [exact X1|]. intros x. rewrite X2, mem_nil. tauto.
  Qed.

  Lemma sunion_contains l x : contains (sunion l) x = true <-> exists i, In i l /\ contains (sm_get (n_symbols d) i) x = true.
  Proof.
    destruct (sunion_spec l) as [W M]. rewrite (contains_spec _ _ W), M. split; intros (i & H1 & H2); exists i; split; auto;
      apply (contains_spec _ _ (normal_wf _ (get_normal i))); exact H2.
  Qed.

  Lemma sunion_normal l : normal (sunion l).
  Proof.
    destruct (sunion_spec l) as [W M]. apply normal_of_wf; [exact W|]. intros x Hx. apply M in Hx as (i & _ & Hx). eapply normal_universe; [apply get_normal|exact Hx].
  Qed.

  Lemma nonempty_mem s : wf s -> s <> [] -> exists x, mem s x.
  Proof.
    destruct s as [|r s]; [congruence|]. intros W _. exists (lo r). apply mem_cons. left. apply wf_ne with (r := r) in W; [|cbn; auto]. unfold in_range, ne in *. lia.
  Qed.

  Lemma empty_id_unique i j : In i all -> In j all -> sm_get (n_symbols d) i = [] -> sm_get (n_symbols d) j = [] -> i = j.
  Proof.
    intros Hi Hj Ei Ej. destruct (ok_inv _ OK) as [I _]. apply all_in in Hi, Hj.
    apply (eps_id_spec _ I i Hi) in Ei. apply (eps_id_spec _ I j Hj) in Ej. congruence.
  Qed.

  Lemma class_in c i : In i (nth c us []) -> In i all /\ zfind i m = Some c.
  Proof. destruct G as [P _]. intros H. apply (mp_class _ _ _ P) in H. split; [|exact H]. apply (mp_dom _ _ _ P). eauto. Qed.

  (** different classes have different unions *)
  Lemma unions_distinct : NoDup (map sunion us).
  Proof.
    destruct G as (P & ONE & NE). destruct (list_eq_dec Z.eq_dec all []) as [E|E].
    - destruct us as [|u [|u2 us']]; cbn in *; try (specialize (ONE E); discriminate). constructor; [intros []|constructor].
    - apply (NoDup_nth _ (sunion [])). rewrite map_length. intros i j Hi Hj. rewrite !map_nth. intros EU.
      assert (KEY : forall a b, (a < length us)%nat -> sunion (nth a us []) = sunion (nth b us []) -> sunion (nth a us []) <> [] -> a = b).
      { intros a b Ha Eab Hne. destruct (nonempty_mem _ (proj1 (sunion_spec _)) Hne) as [x Hx].
        pose proof Hx as Hy. rewrite Eab in Hy. apply sunion_spec in Hx as (k & K1 & K2). apply sunion_spec in Hy as (k' & K1' & K2').
        apply (contains_spec _ _ (normal_wf _ (get_normal k))) in K2. apply (contains_spec _ _ (normal_wf _ (get_normal k'))) in K2'.
        assert (k = k') by (eapply DJ; eauto). subst k'. apply class_in in K1 as [_ K1]. apply class_in in K1' as [_ K1']. congruence. }
      destruct (set_eq_dec (sunion (nth i us [])) []) as [Z|Z]; [|eapply KEY; eauto].
      assert (EMP : forall a, (a < length us)%nat -> sunion (nth a us []) = [] -> exists k, In k (nth a us []) /\ sm_get (n_symbols d) k = []).
      { intros a Ha Ea. destruct (hd_in _ (NE E a Ha)) as (k & t & Ek). exists k. split; [rewrite Ek; cbn; auto|].
        destruct (set_eq_dec (sm_get (n_symbols d) k) []) as [|Hk]; [assumption|]. exfalso.
        destruct (nonempty_mem _ (normal_wf _ (get_normal k)) Hk) as [x Hx].
        assert (X : mem (sunion (nth a us [])) x) by (apply sunion_spec; exists k; split; [rewrite Ek; cbn; auto|exact Hx]). rewrite Ea in X. apply mem_nil in X. exact X. }
      destruct (EMP i Hi Z) as (k & K1 & K2). destruct (EMP j Hj ltac:(congruence)) as (k' & K1' & K2').
      apply class_in in K1 as [A1 K1]. apply class_in in K1' as [A2 K1']. assert (k = k') by (apply empty_id_unique; assumption). congruence.
  Qed.

  Lemma firsts_nodup l : NoDup l -> firsts l = l.
  Proof.
    intros H. unfold firsts. rewrite nodup_fixed_point; [apply rev_involutive|]. apply NoDup_rev. exact H.
  Qed.

  Lemma merge_symbols_eq : merge_symbols d us = sm_of (map sunion us).
  Proof.
    unfold merge_symbols, sm_of. fold sunion.
    assert (X : forall l sm, fold_left (fun sm ids => snd (sm_identifier sm (sunion ids))) l sm = fst (sm_run sm (map sunion l))).
    { induction l as [|u l IH]; intros sm; cbn [fold_left map sm_run]; [reflexivity|]. rewrite IH.
      destruct (sm_identifier sm (sunion u)) as [i sm1]. cbn [snd]. destruct (sm_run sm1 (map sunion l)). reflexivity. }
    apply X.
  Qed.

  Lemma merge_get c : (c < length us)%nat -> sm_get (merge_symbols d us) (Z.of_nat c) = sunion (nth c us []).
  Proof.
    intros H. rewrite merge_symbols_eq. apply sm_get_nth; [lia|]. rewrite sm_of_sets, (firsts_nodup _ unions_distinct), Nat2Z.id.
    rewrite (nth_error_nth' _ (sunion [])) by (rewrite map_length; exact H). rewrite map_nth. reflexivity.
  Qed.

  Lemma merge_count : sm_count (merge_symbols d us) = Z.of_nat (length us).
  Proof. rewrite merge_symbols_eq. unfold sm_count. rewrite sm_of_sets, (firsts_nodup _ unions_distinct), map_length. reflexivity. Qed.

  Let r := mkN (map (merge_state m) (n_states d)) (merge_symbols d us)
                (map (fun q => (q, actions_for_state d q)) (seq 0 (count_states d))).

  Lemma merge_state_in st i t : In (i, t) (merge_state m st) <-> exists s, In (s, t) st /\ i = Z.of_nat (sget m s).
  Proof.
    unfold merge_state. assert (X : forall l acc, In (i, t) (fold_left (fun acc (t : transition) => sins trans_ltb (Z.of_nat (sget m (fst t)), snd t) acc) l acc) <->
      In (i, t) acc \/ exists s, In (s, t) l /\ i = Z.of_nat (sget m s)).
    { induction l as [|[s' t'] l IH]; intros acc; cbn [fold_left fst snd].
      - split; [auto|]. intros [H|(s & [] & _)]. exact H.
      - rewrite IH, (sins_in _ trans_strict). cbn [In]. split.
        + intros [[E|H]|(s & H & ->)]; [inv E; right; exists s'; auto|auto|right; exists s; auto].
        + intros [H|(s & [E|H] & ->)]; [auto|inv E; auto|right; exists s; auto]. }
    rewrite X. cbn. tauto.
  Qed.

  Lemma merge_state_sorted st : ssorted trans_ltb (merge_state m st).
  Proof.
    unfold merge_state. generalize (@nil transition) (SSorted_nil (fun a b => trans_ltb a b = true)).
    induction st as [|t l IH]; intros acc H; cbn [fold_left]; [exact H|]. apply IH. apply sins_sorted; [apply trans_strict|exact H].
  Qed.

  Lemma rm_get q : get_state r q = merge_state m (get_state d q).
  Proof. unfold get_state, r. cbn [n_states]. change (@nil transition) with (merge_state m []) at 1. apply map_nth. Qed.

  Lemma rm_count : count_states r = count_states d.
  Proof. unfold count_states, r. cbn [n_states]. apply map_length. Qed.

  Lemma rm_acts q : actions_for_state r q = actions_for_state d q.
  Proof.
    unfold actions_for_state at 1. rewrite rm_count. destruct (Nat.leb_spec (count_states d) q) as [H|H].
    - unfold actions_for_state. replace (Nat.leb (count_states d) q) with true by (symmetry; apply Nat.leb_le; exact H). reflexivity.
    - unfold r. cbn [n_accept].
      assert (E : nfind q (map (fun q => (q, actions_for_state d q)) (seq 0 (count_states d))) = Some (actions_for_state d q)); [|rewrite E; reflexivity].
      assert (SS : forall k l, msorted Nat.ltb (map (fun q => (q, actions_for_state d q)) (seq k l))).
      { intros k l. revert k. induction l as [|l IH]; intros k; cbn [seq map]; [constructor|]. apply msorted_cons. split; [apply IH|].
        intros [x y] Hx. apply in_map_iff in Hx as (z & E & Hz). inv E. apply in_seq in Hz. cbn [fst]. apply Nat.ltb_lt. lia. }
      apply mfind_in; [apply natltb_strict|apply SS|]. apply in_map_iff. exists q. split; [reflexivity|]. apply in_seq. lia.
  Qed.

  (** a class acts as one symbol *)
  Lemma class_target q s s' t : In s all -> In s' all -> sget m s = sget m s' -> In (s, t) (get_state d q) -> In (s', t) (get_state d q).
  Proof.
    intros Hs Hs' E Hin. destruct G as (P & _).
    assert (Q : In (get_state d q) (n_states d)).
    { destruct (Nat.lt_ge_cases q (count_states d)) as [H|H]; [apply nth_In; exact H|]. rewrite get_state_out in Hin by exact H. destruct Hin. }
    assert (Z1 : zfind s m = zfind s' m) by (rewrite (sget_find _ _ _ _ P Hs), (sget_find _ _ _ _ P Hs'), E; reflexivity).
    rewrite (CLASS s s' Hs Hs') in Z1. specialize (Z1 _ Q). pose proof (proj1 (d_nodup _ Q)) as N.
    apply (target_some _ N). rewrite <- Z1. apply target_some; assumption.
  Qed.

  Lemma trans_all q s t : In (s, t) (get_state d q) -> In s all.
  Proof. intros H. apply all_in. eapply ok_trans; eauto. Qed.

  Lemma get_all s x : contains (sm_get (n_symbols d) s) x = true -> In s all.
  Proof.
    intros H. apply all_in. destruct (Z_le_dec 0 s) as [H1|H1]; [destruct (Z_lt_dec s (sm_count (n_symbols d))) as [H2|H2]; [lia|]|];
      rewrite sm_get_out in H by lia; rewrite contains_nil in H; discriminate.
  Qed.

  Lemma sget_len s : In s all -> (sget m s < length us)%nat.
  Proof. intros H. destruct G as (P & _). eapply mpart_len; [exact P|eapply sget_find; eauto]. Qed.

  Lemma class_contains s x : In s all -> contains (sm_get (merge_symbols d us) (Z.of_nat (sget m s))) x = true <->
    exists s', In s' all /\ sget m s' = sget m s /\ contains (sm_get (n_symbols d) s') x = true.
  Proof.
    intros H. rewrite merge_get by (apply sget_len; exact H). rewrite sunion_contains. destruct G as (P & _). split.
    - intros (i & H1 & H2). apply class_in in H1 as [H1 H3]. exists i. split; [exact H1|]. split; [|exact H2]. unfold sget at 1. rewrite H3. reflexivity.
    - intros (s' & H1 & H2 & H3). exists s'. split; [|exact H3]. apply (mp_class _ _ _ P). rewrite <- H2. eapply sget_find; eauto.
  Qed.

  Lemma d_noeps q s t : In (s, t) (get_state d q) -> sm_get (n_symbols d) s <> [].
  Proof.
    destruct (ok_inv _ OK) as [I _]. intros Hin E. apply (eps_id_spec _ I) in E; [|eapply ok_trans; eauto]. subst s.
    assert (X : (q < count_states d)%nat) by (destruct (Nat.lt_ge_cases q (count_states d)) as [|H]; [assumption|]; rewrite get_state_out in Hin by exact H; destruct Hin).
    apply (proj2 (d_nodup (get_state d q) ltac:(apply nth_In; exact X))). apply (in_map fst) in Hin. exact Hin.
  Qed.

  Lemma rm_path q w q' : path r q w q' <-> path d q w q'.
  Proof.
    split.
    - induction 1 as [q|q id t w q' Hin He Hp IH|q id t x w q' Hin Hc Hp IH].
      + constructor.
      + exfalso. rewrite rm_get in Hin. apply merge_state_in in Hin as (s & Hin & ->). pose proof (trans_all _ _ _ Hin) as Hs.
        destruct (nonempty_mem _ (normal_wf _ (get_normal s)) (d_noeps _ _ _ Hin)) as [x Hx]. apply (contains_spec _ _ (normal_wf _ (get_normal s))) in Hx.
        assert (X : contains (sm_get (merge_symbols d us) (Z.of_nat (sget m s))) x = true) by (apply class_contains; [exact Hs|exists s; auto]).
        cbn [n_symbols r] in He. rewrite He, contains_nil in X. discriminate.
      + rewrite rm_get in Hin. apply merge_state_in in Hin as (s & Hin & ->). pose proof (trans_all _ _ _ Hin) as Hs.
        cbn [n_symbols r] in Hc. apply class_contains in Hc as (s' & H1 & H2 & H3); [|exact Hs].
        eapply path_sym; [|exact H3|exact IH]. eapply (class_target q s s'); eauto.
    - induction 1 as [q|q id t w q' Hin He Hp IH|q id t x w q' Hin Hc Hp IH].
      + constructor.
      + exfalso. eapply d_noeps; eauto.
      + pose proof (trans_all _ _ _ Hin) as Hs. eapply path_sym; [| |exact IH].
        * rewrite rm_get. apply merge_state_in. exists id. split; [exact Hin|reflexivity].
        * cbn [n_symbols r]. apply class_contains; [exact Hs|]. exists id. auto.
  Qed.

  Lemma rm_ok : ndfa_ok r.
  Proof.
    constructor.
    - exists (map sunion us). split; [|apply merge_symbols_eq]. apply Forall_forall. intros s Hs. apply in_map_iff in Hs as (l & <- & _). apply sunion_normal.
    - intros q i t Hin. rewrite rm_get in Hin. apply merge_state_in in Hin as (s & Hin & ->). rewrite rm_count. cbn [n_symbols r]. rewrite merge_count.
      pose proof (trans_all _ _ _ Hin) as Hs. apply sget_len in Hs. split; [lia|]. eapply ok_trans; eauto.
    - intros q. rewrite rm_get. apply merge_state_sorted.
    - unfold r. cbn [n_accept]. generalize (count_states d) O. induction n as [|l IH]; intros k; cbn [seq map]; [constructor|].
      apply msorted_cons. split; [apply IH|]. intros [x y] Hx. apply in_map_iff in Hx as (z & E & Hz). inv E. apply in_seq in Hz. cbn [fst]. apply Nat.ltb_lt. lia.
  Qed.

  Lemma rm_disjoint : disjoint_symbols r.
  Proof.
    intros i j x Hi Hj. cbn [n_symbols r] in *.
    assert (R : forall k, contains (sm_get (merge_symbols d us) k) x = true -> exists c, k = Z.of_nat c /\ (c < length us)%nat).
    { intros k Hk. exists (Z.to_nat k). pose proof merge_count as C.
      destruct (Z_le_dec 0 k) as [H1|H1]; [destruct (Z_lt_dec k (sm_count (merge_symbols d us))) as [H2|H2]; [lia|]|];
      rewrite sm_get_out in Hk by lia; rewrite contains_nil in Hk; discriminate. }
    destruct (R i Hi) as (a & -> & Ha). destruct (R j Hj) as (b & -> & Hb). rewrite merge_get in Hi, Hj by assumption.
    apply sunion_contains in Hi as (k & K1 & K2). apply sunion_contains in Hj as (k' & K1' & K2').
    assert (k = k') by (eapply DJ; eauto). subst k'. apply class_in in K1 as [_ K1]. apply class_in in K1' as [_ K1']. congruence.
  Qed.

  Lemma rm_verify : verify_is_dfa r = true.
  Proof.
    apply verify_is_dfa_spec. intros st Hst. cbn [n_states r] in Hst. apply in_map_iff in Hst as (st0 & <- & H0).
    pose proof (d_nodup _ H0) as [N NEp]. apply states_get in H0 as (q & Hq & ->). split.
    - assert (FUN : forall i a b, In (i, a) (merge_state m (get_state d q)) -> In (i, b) (merge_state m (get_state d q)) -> a = b).
      { intros i a b Ha Hb. apply merge_state_in in Ha as (s & H1 & ->). apply merge_state_in in Hb as (s' & H2 & E). apply Nat2Z.inj in E.
        pose proof (trans_all _ _ _ H1) as A1. pose proof (trans_all _ _ _ H2) as A2.
        apply (class_target q s s' a A1 A2 E) in H1. eapply nodup_fst_fun; [exact N| |]; eauto. }
      pose proof (merge_state_sorted (get_state d q)) as SS. revert SS FUN. generalize (merge_state m (get_state d q)).
      induction l as [|[i t] l IH]; intros SS FUN; cbn [map fst]; [constructor|]. apply SS_cons in SS as [S1 S2]. constructor.
      + intros H. apply in_map_iff in H as ([i' t'] & E & H). cbn in E. subst i'. assert (t = t') by (eapply FUN; cbn; eauto). subst t'.
        specialize (S2 _ H). rewrite (st_irrefl _ trans_strict) in S2. discriminate.
      + apply IH; [exact S1|]. intros. eapply FUN; right; eassumption.
    - intros H. apply in_map_iff in H as ([i t] & E & H). cbn [fst] in E. subst i. apply merge_state_in in H as (s & Hin & E).
      pose proof (trans_all _ _ _ Hin) as Hs. destruct (ok_inv _ rm_ok) as [I _].
      assert (Z0 : sm_get (n_symbols r) (Z.of_nat (sget m s)) = []).
      { apply (eps_id_spec _ I); [|symmetry; exact E]. cbn [n_symbols r]. rewrite merge_count. apply sget_len in Hs. lia. }
      destruct (nonempty_mem _ (normal_wf _ (get_normal s)) (d_noeps _ _ _ Hin)) as [x Hx]. apply (contains_spec _ _ (normal_wf _ (get_normal s))) in Hx.
      assert (X : contains (sm_get (merge_symbols d us) (Z.of_nat (sget m s))) x = true) by (apply class_contains; [exact Hs|exists s; auto]).
      cbn [n_symbols r] in Z0. rewrite Z0, contains_nil in X. discriminate.
  Qed.

  Lemma path_one q s x q' : contains (sm_get (n_symbols d) s) x = true -> path d q [x] q' <-> In (s, q') (get_state d q).
  Proof.
    intros Hx. split.
    - intros H. inversion H as [|? ? ? ? ? Hin He|? id t ? ? ? Hin Hc Hp]; subst; [exfalso; eapply d_noeps; eauto|].
      assert (id = s) by (eapply DJ; eauto). subst id. inversion Hp as [|? ? ? ? ? Hin' He'|]; subst; [exact Hin|exfalso; eapply d_noeps; eauto].
    - intros H. eapply path_sym; eauto. constructor.
  Qed.

  (** merged exactly if no state tells them apart *)
  Lemma rm_merged x y : (exists i, contains (sm_get (n_symbols d) i) x = true) -> (exists i, contains (sm_get (n_symbols d) i) y = true) ->
    (exists c, contains (sm_get (n_symbols r) c) x = true /\ contains (sm_get (n_symbols r) c) y = true) <->
    (forall q q', path d q [x] q' <-> path d q [y] q').
  Proof.
    intros [i Hi] [j Hj]. pose proof (get_all _ _ Hi) as Ai. pose proof (get_all _ _ Hj) as Aj. cbn [n_symbols r].
    assert (X1 : (exists c, contains (sm_get (merge_symbols d us) c) x = true /\ contains (sm_get (merge_symbols d us) c) y = true) <-> sget m i = sget m j).
    { split.
      - intros (c & C1 & C2).
        assert (Z1 : c = Z.of_nat (sget m i)) by (apply (rm_disjoint c (Z.of_nat (sget m i)) x); [exact C1|apply class_contains; [exact Ai|exists i; auto]]).
        assert (Z2 : c = Z.of_nat (sget m j)) by (apply (rm_disjoint c (Z.of_nat (sget m j)) y); [exact C2|apply class_contains; [exact Aj|exists j; auto]]). lia.
      - intros E. exists (Z.of_nat (sget m i)). split; apply class_contains; auto; [exists i; auto|exists j; auto]. }
    rewrite X1. destruct G as (P & _).
    assert (X2 : sget m i = sget m j <-> zfind i m = zfind j m).
    { rewrite (sget_find _ _ _ _ P Ai), (sget_find _ _ _ _ P Aj). split; congruence. }
    rewrite X2, (CLASS i j Ai Aj). split.
    - intros H q q'. rewrite (path_one q i x q' Hi), (path_one q j y q' Hj).
      destruct (Nat.lt_ge_cases q (count_states d)) as [Hq|Hq]; [|rewrite get_state_out by exact Hq; cbn; tauto].
      assert (Q : In (get_state d q) (n_states d)) by (apply nth_In; exact Hq). specialize (H _ Q). pose proof (proj1 (d_nodup _ Q)) as N.
      rewrite <- (target_some _ N i), <- (target_some _ N j), H. reflexivity.
    - intros H st Hst. pose proof (proj1 (d_nodup _ Hst)) as N. apply states_get in Hst as (q & Hq & ->).
      specialize (H q). assert (H' : forall q', In (i, q') (get_state d q) <-> In (j, q') (get_state d q)).
      { intros q'. rewrite <- (path_one q i x q' Hi), <- (path_one q j y q' Hj). apply H. }
      destruct (target (get_state d q) i) as [t|] eqn:E1.
      + apply (target_some _ N) in E1. apply H' in E1. symmetry. apply (target_some _ N). exact E1.
      + destruct (target (get_state d q) j) as [t|] eqn:E2; [|reflexivity]. apply (target_some _ N) in E2. apply H' in E2. apply (target_some _ N) in E2. congruence.
  Qed.
End MergeMain.

Theorem merge_correct {A} (d : ndfa A) : ndfa_ok d -> disjoint_symbols d -> verify_is_dfa d = true ->
  exists r, to_ndfa_with_merged_symbols d = Some r /\
    ndfa_ok r /\ disjoint_symbols r /\ verify_is_dfa r = true /\ count_states r = count_states d /\
    (forall q w q', path r q w q' <-> path d q w q') /\
    (forall q, actions_for_state r q = actions_for_state d q) /\
    (forall x y, (exists i, contains (sm_get (n_symbols d) i) x = true) -> (exists i, contains (sm_get (n_symbols d) i) y = true) ->
      (exists c, contains (sm_get (n_symbols r) c) x = true /\ contains (sm_get (n_symbols r) c) y = true) <->
      (forall q q', path d q [x] q' <-> path d q [y] q')).
Proof.
  intros OK DJ VD. unfold to_ndfa_with_merged_symbols.
  destruct (merge_states_ok _ (all_sorted d) (n_states d) _ _ (states_ok d OK VD) (start_good d OK VD)) as (us & m & E & G & C).
  rewrite E. eexists. split; [reflexivity|].
  assert (CLASS : forall s s', In s (fold_left (fun l s => sins Z.ltb s l) (map snd (sm_ids (n_symbols d))) []) ->
     In s' (fold_left (fun l s => sins Z.ltb s l) (map snd (sm_ids (n_symbols d))) []) ->
     (zfind s m = zfind s' m <-> forall st, In st (n_states d) -> target st s = target st s')).
  { intros s s' Hs Hs'. rewrite (C s s' Hs Hs'). split; [tauto|]. intros H. split; [|exact H].
    destruct (start_good d OK VD) as (P & _). rewrite (sget_find _ _ _ _ P Hs), (sget_find _ _ _ _ P Hs').
    pose proof (mpart_len _ _ _ _ _ P (sget_find _ _ _ _ P Hs)). pose proof (mpart_len _ _ _ _ _ P (sget_find _ _ _ _ P Hs')). cbn [length] in *. f_equal. lia. }
  split; [eapply rm_ok; eauto|]. split; [eapply rm_disjoint; eauto|]. split; [eapply rm_verify; eauto|]. split; [eapply rm_count; eauto|].
  split; [intros; eapply rm_path; eauto|]. split; [intros; eapply rm_acts; eauto|]. intros; eapply rm_merged; eauto.
Qed.

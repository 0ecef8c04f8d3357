(** Proofs about hard-coded symbol tables. *)
From Verif Require Import Base OrdMap SymbolSetModel SymbolSetSpec SymbolSetProofs SymbolMapModel SymbolMapSpec SymbolMapProofs.
From Verif Require Import DedupProofs SymbolTableModel SymbolTableSpec SymbolTableProofs.
Local Open Scope Z_scope.

(** * Bounds of the used entries *)

Lemma lowest_used_spec n used : forall i, n = i + Z.of_nat (length used) ->
  let lw := lowest_used i n used in
  (i <= lw <= n) /\ (forall k, i <= k < lw -> nth (Z.to_nat (k - i)) used false = false) /\
  (lw < n -> nth (Z.to_nat (lw - i)) used false = true).
Proof.
  induction used as [|u t IH]; intros i Hn; cbn [lowest_used length] in *.
  - split; [lia|]. split; lia.
  - destruct u.
    + split; [lia|]. split; [intros; lia|]. intros _. rewrite Z.sub_diag. reflexivity.
    + specialize (IH (i + 1) ltac:(lia)). cbv zeta in *. destruct IH as (H1 & H2 & H3). split; [lia|]. split.
      * intros k Hk. destruct (Z.eq_dec k i) as [->|]; [rewrite Z.sub_diag; reflexivity|].
        replace (Z.to_nat (k - i)) with (S (Z.to_nat (k - (i + 1)))) by lia. cbn [nth]. apply H2. lia.
      * intros Hl. replace (Z.to_nat (lowest_used (i + 1) n t - i)) with (S (Z.to_nat (lowest_used (i + 1) n t - (i + 1)))) by lia.
        cbn [nth]. apply H3. exact Hl.
Qed.

Lemma highest_used_spec used : forall i, 0 <= i ->
  let h := highest_used i used in
  (h = 0 \/ i < h <= i + Z.of_nat (length used)) /\
  (forall k, i <= k -> h <= k -> nth (Z.to_nat (k - i)) used false = false) /\
  (h <> 0 -> nth (Z.to_nat (h - 1 - i)) used false = true).
Proof.
  induction used as [|u t IH]; intros i Hi; cbn [highest_used length] in *.
  - split; [lia|]. split; [|lia]. intros k H1 H2. destruct (Z.to_nat (k - i)); reflexivity.
  - specialize (IH (i + 1) ltac:(lia)). cbv zeta in *. destruct IH as (H1 & H2 & H3).
    destruct (Z.eqb_spec (highest_used (i + 1) t) 0) as [E|E].
    + assert (T : forall k, i + 1 <= k -> nth (Z.to_nat (k - i)) (u :: t) false = false).
      { intros k Hk. replace (Z.to_nat (k - i)) with (S (Z.to_nat (k - (i + 1)))) by lia. cbn [nth]. apply H2; lia. }
      destruct u.
      * split; [lia|]. split; [intros k Hk Hk'; apply T; lia|]. intros _. replace (i + 1 - 1 - i) with 0 by lia. reflexivity.
      * split; [lia|]. split; [|lia]. intros k Hk _. destruct (Z.eq_dec k i) as [->|]; [rewrite Z.sub_diag; reflexivity|apply T; lia].
    + split; [lia|]. split.
      * intros k Hk Hk'. replace (Z.to_nat (k - i)) with (S (Z.to_nat (k - (i + 1)))) by lia. cbn [nth]. apply H2; lia.
      * intros _. replace (Z.to_nat (highest_used (i + 1) t - 1 - i)) with (S (Z.to_nat (highest_used (i + 1) t - 1 - (i + 1)))) by lia.
        cbn [nth]. apply H3. exact E.
Qed.

Lemma bounds_used used k : 0 <= k < Z.of_nat (length used) -> nth (Z.to_nat k) used false = true ->
  let low := lowest_used 0 (Z.of_nat (length used)) used in let high := highest_used 0 used in low <= k < high.
Proof.
  intros Hk Hu. cbv zeta.
  pose proof (lowest_used_spec (Z.of_nat (length used)) used 0 ltac:(lia)) as (L1 & L2 & _).
  pose proof (highest_used_spec used 0 ltac:(lia)) as (_ & H2 & _). cbv zeta in *. split.
  - destruct (Z_le_dec (lowest_used 0 (Z.of_nat (length used)) used) k) as [|X]; [lia|]. specialize (L2 k ltac:(lia)). rewrite Z.sub_0_r in L2. congruence.
  - destruct (Z_lt_dec k (highest_used 0 used)) as [|X]; [lia|]. specialize (H2 k ltac:(lia) ltac:(lia)). rewrite Z.sub_0_r in H2. congruence.
Qed.

Lemma bounds_ok used : Z.of_nat (length used) <= 256 -> (2 <= Z.of_nat (length used))%Z ->
  let low := lowest_used 0 (Z.of_nat (length used)) used in let high := highest_used 0 used in
  2 + (high - low) <? 0 = false ->
  (0 <= low /\ low < high /\ high <= Z.of_nat (length used) /\ low < 256) \/ (length used = 2%nat /\ low = 2 /\ high = 0).
Proof.
  intros HL HL2. cbv zeta. intros HB.
  pose proof (lowest_used_spec (Z.of_nat (length used)) used 0 ltac:(lia)) as (L1 & L2 & L3).
  pose proof (highest_used_spec used 0 ltac:(lia)) as (H1 & H2 & H3). cbv zeta in *.
  set (low := lowest_used 0 (Z.of_nat (length used)) used) in *. set (high := highest_used 0 used) in *.
  destruct (Z.eq_dec low (Z.of_nat (length used))) as [E|E].
  - destruct (Z.eq_dec high 0) as [E'|E']; [right; lia|]. specialize (H3 E'). specialize (L2 (high - 1) ltac:(lia)). congruence.
  - specialize (L3 ltac:(lia)). left. split; [lia|]. split; [|split; [|lia]].
    + destruct (Z_lt_dec low high); [assumption|]. specialize (H2 low ltac:(lia) ltac:(lia)). congruence.
    + destruct H1 as [H1|H1]; [|lia]. specialize (H2 low ltac:(lia) ltac:(lia)). congruence.
Qed.

Lemma pack low high : 0 <= low < 256 -> 0 <= high ->
  Z.land (Z.lor low (Z.shiftl high 8)) 255 = low /\ Z.shiftr (Z.lor low (Z.shiftl high 8)) 8 = high.
Proof.
  intros Hl Hh.
  assert (LL : Z.shiftr low 8 = 0) by (rewrite Z.shiftr_div_pow2 by lia; apply Z.div_small; lia).
  split.
  - change 255 with (Z.ones 8). rewrite Z.land_lor_distr_l, !Z.land_ones by lia. rewrite Z.shiftl_mul_pow2 by lia.
    rewrite Z.mod_mul by lia. rewrite Z.mod_small by lia. apply Z.lor_0_r.
  - rewrite Z.shiftr_lor, LL, Z.lor_0_l. rewrite Z.shiftr_shiftl_l by lia. apply Z.shiftl_0_r.
Qed.

(** * Slices, offsets and data *)

Lemma nth_error_firstn' {X} n (l : list X) : forall k, (k < n)%nat -> nth_error (firstn n l) k = nth_error l k.
Proof. revert n. induction l as [|x l IH]; intros [|n] [|k] H; cbn; try lia; auto. apply IH. lia. Qed.
Lemma nth_error_skipn' {X} n : forall (l : list X) k, nth_error (skipn n l) k = nth_error l (n + k).
Proof. induction n as [|n IH]; intros [|x l] k; cbn; auto. destruct k; reflexivity. Qed.

Lemma slice_nth {X} low high (l : list X) k : 0 <= low -> 0 <= k < high - low ->
  nth_error (slice low high l) (Z.to_nat k) = nth_error l (Z.to_nat (low + k)).
Proof.
  intros Hl Hk. unfold slice. rewrite nth_error_firstn' by lia. rewrite nth_error_skipn'. f_equal. lia.
Qed.

Lemma slice_length {X} low high (l : list X) : 0 <= low -> low <= high -> high <= Z.of_nat (length l) ->
  Z.of_nat (length (slice low high l)) = high - low.
Proof. intros. unfold slice. rewrite firstn_length, skipn_length. lia. Qed.

Lemma tget_mid pre h suf k x : nth_error h (Z.to_nat k) = Some x -> 0 <= k ->
  tget (pre ++ h ++ suf) (Z.of_nat (length pre) + k) = Some x.
Proof.
  intros H Hk. unfold tget. destruct (Z.ltb_spec (Z.of_nat (length pre) + k) 0); [lia|].
  rewrite nth_error_app2 by lia. replace (Z.to_nat (Z.of_nat (length pre) + k) - length pre)%nat with (Z.to_nat k) by lia.
  rewrite nth_error_app1; [exact H|]. apply nth_error_Some. congruence.
Qed.

Lemma tget_first pre h suf x : nth_error h 0 = Some x -> tget (pre ++ h ++ suf) (Z.of_nat (length pre)) = Some x.
Proof. intros H. rewrite <- (Z.add_0_r (Z.of_nat (length pre))). apply tget_mid; [exact H|lia]. Qed.

Lemma offsets_length subs : forall cp, length (offsets cp subs) = length subs.
Proof. induction subs as [|[s|] t IH]; intros cp; cbn; auto. Qed.

Lemma offsets_none subs : forall cp k, nth_error subs k = Some None -> nth_error (offsets cp subs) k = Some (-1).
Proof. induction subs as [|[s|] t IH]; intros cp [|k] H; cbn in *; try discriminate; auto. Qed.

Lemma offsets_some subs : forall cp k s, nth_error subs k = Some (Some s) ->
  exists d1 d2, sub_data subs = d1 ++ s ++ d2 /\ nth_error (offsets cp subs) k = Some (cp + Z.of_nat (length d1)).
Proof.
  induction subs as [|o t IH]; intros cp [|k] s H; cbn [nth_error] in *; try discriminate.
  - inversion H; subst. exists [], (sub_data t). cbn. split; [reflexivity|]. f_equal. lia.
  - destruct o as [s0|]; cbn [offsets nth_error].
    + destruct (IH (cp + Z.of_nat (length s0)) k s H) as (d1 & d2 & E1 & E2). exists (s0 ++ d1), d2. split.
      * change (sub_data (Some s0 :: t)) with (s0 ++ sub_data t). rewrite E1, <- app_assoc. reflexivity.
      * rewrite E2. f_equal. rewrite app_length. lia.
    + destruct (IH cp k s H) as (d1 & d2 & E1 & E2). exists d1, d2. auto.
Qed.

Lemma sub_data_app a c : sub_data (a ++ c) = sub_data a ++ sub_data c.
Proof. apply flat_map_app. Qed.

Lemma sub_data_nil a : (forall k x, nth_error a k = Some x -> x = None) -> sub_data a = [].
Proof.
  induction a as [|x a IH]; intros H; [reflexivity|]. pose proof (H 0%nat x eq_refl) as ->. cbn. apply IH. intros k y Hk. apply (H (S k) y Hk).
Qed.

Lemma sub_data_slice low high subs : 0 <= low -> low <= high -> high <= Z.of_nat (length subs) ->
  (forall k, nth_error subs (Z.to_nat k) <> None -> 0 <= k < low \/ high <= k -> nth_error subs (Z.to_nat k) = Some None) ->
  sub_data subs = sub_data (slice low high subs).
Proof.
  intros H0 H1 H2 HN. unfold slice.
  rewrite <- (firstn_skipn (Z.to_nat low) subs) at 1. rewrite sub_data_app.
  rewrite <- (firstn_skipn (Z.to_nat (high - low)) (skipn (Z.to_nat low) subs)) at 1. rewrite sub_data_app.
  rewrite (sub_data_nil (firstn _ _)), (sub_data_nil (skipn (Z.to_nat (high - low)) _)); [rewrite app_nil_r; reflexivity| |].
  - intros k x Hx. rewrite !nth_error_skipn' in Hx. specialize (HN (low + (high - low) + Z.of_nat k)).
    replace (Z.to_nat (low + (high - low) + Z.of_nat k)) with (Z.to_nat low + (Z.to_nat (high - low) + k))%nat in HN by lia.
    rewrite Hx in HN. specialize (HN ltac:(discriminate) ltac:(lia)). congruence.
  - intros k x Hx. assert (k < Z.to_nat low)%nat. { pose proof (proj1 (nth_error_Some (firstn (Z.to_nat low) subs) k) ltac:(congruence)). rewrite firstn_length in *. lia. }
    rewrite nth_error_firstn' in Hx by assumption. specialize (HN (Z.of_nat k)). rewrite Nat2Z.id in HN. rewrite Hx in HN.
    specialize (HN ltac:(discriminate) ltac:(lia)). congruence.
Qed.

Lemma all_some_spec {X} (l : list (option X)) r : all_some l = Some r -> l = map Some r.
Proof.
  revert r. induction l as [|[x|] l IH]; intros r H; cbn in H; try discriminate.
  - inversion H. reflexivity.
  - destruct (all_some l) as [r'|]; [|discriminate]. inversion H. cbn. f_equal. auto.
Qed.

Lemma all_some_total {X} (l : list (option X)) : (forall x, In x l -> x <> None) -> exists r, all_some l = Some r.
Proof.
  induction l as [|[x|] l IH]; intros H; cbn.
  - eauto.
  - destruct IH as [r ->]; [intros; apply H; cbn; auto|]. eauto.
  - exfalso. apply (H None); cbn; auto.
Qed.

(** * The lookup *)

Definition block_of (c : Z) : Z := 256 * (c / 256).

(** The result of a hard-coded lookup. *)
Definition hres (R : list (range * Z)) (c v : Z) : Prop :=
  if c <? 256 then v = val R c
  else (forall p, In p R -> covers (fst p) (block_of c) 256 -> v = snd p) /\
       ((forall p, In p R -> ~ covers (fst p) (block_of c) 256) -> v = -1).

Lemma block_in b n c : Z.divide 256 b -> Z.divide 256 n -> b <= c < b + n -> b <= block_of c /\ block_of c + 256 <= b + n /\ block_of c <= c < block_of c + 256.
Proof.
  intros [x ->] [y ->] H. unfold block_of. pose proof (Z.div_mod c 256 ltac:(lia)). pose proof (Z.mod_pos_bound c 256 ltac:(lia)). lia.
Qed.

Lemma pairwise_in R : pairwise R -> forall p q, In p R -> In q R -> p <> q -> apart p q.
Proof.
  induction R as [|x R IH]; intros HP p q Hp Hq N; [destruct Hp|]. apply SS_cons in HP as [HP HA].
  destruct Hp as [->|Hp], Hq as [->|Hq]; [congruence|apply HA; exact Hq|apply apart_sym, HA; exact Hp|apply IH; assumption].
Qed.

Lemma hres_default R b n c def : pairwise R -> Z.divide 256 b -> Z.divide 256 n -> b <= c < b + n ->
  (def = -1 \/ exists p, In p R /\ covers (fst p) b n) -> val R c = def -> hres R c def.
Proof.
  intros HP Hb Hn Hc HD HV. unfold hres. destruct (c <? 256); [auto|].
  destruct (block_in b n c Hb Hn Hc) as (B1 & B2 & B3). split.
  - intros p Hp [C1 C2]. rewrite <- HV. apply val_in; [exact HP|exact Hp|]. apply has_spec. unfold in_range. lia.
  - intros HN. destruct HD as [|(p & Hp & [C1 C2])]; [assumption|]. exfalso. apply (HN p Hp). split; lia.
Qed.

Lemma to_hard_S l (def : Z) (symbols : option (list (option (table l)))) :
  to_hard (S l) (def, symbols) =
    match symbols with
    | None => Some [def; 0]
    | Some s =>
      let used := map (fun x => match x with Some _ => true | None => false end) s in
      let low := lowest_used 0 (Z.of_nat (length s)) used in
      let high := highest_used 0 used in
      match all_some (map (fun x => match x with
                                    | Some u => match to_hard l u with Some h => Some (Some h) | None => None end
                                    | None => Some None end) s) with
      | None => None
      | Some subs =>
        if 2 + (high - low) <? 0 then None
        else Some (def :: Z.lor low (Z.shiftl high 8) :: offsets (2 + (high - low)) (slice low high subs) ++ sub_data subs)
      end
    end.
Proof. reflexivity. Qed.

Lemma map_nth' {X Y} (f : X -> Y) l k d d' : f d = d' -> nth k (map f l) d' = f (nth k l d).
Proof. intros <-. apply map_nth. Qed.

Lemma pow_ge sb : 7 <= sb -> 128 <= 2 ^ sb.
Proof. intros. change 128 with (2 ^ 7). apply Z.pow_le_mono_r; lia. Qed.

Lemma hard_lemma R : pairwise R -> Forall nonempty R -> forall l sb b t h pre suf c,
  7 <= sb <= 8 -> (l = O -> sb = 8) -> Z.divide (256 * unit_size l) b -> tinv R l sb b t -> to_hard l t = Some h ->
  0 <= c -> b <= c < b + span l sb ->
  exists v, hcst_lookup l (pre ++ h ++ suf) (Z.of_nat (length pre)) c = Some v /\ hres R c v.
Proof.
  intros HP HNE. induction l as [|l IH]; intros sb b [def symbols] h pre suf c Hsb Hsb0 HD TI TH Hc0 Hc.
  - assert (sb = 8) by auto. subst sb. clear Hsb Hsb0. change (span 0 8) with 256 in *. rewrite unit_0, Z.mul_1_r in HD.
    cbn [tinv] in TI. change (span 0 8) with 256 in *. change (2 ^ 8) with 256 in *. destruct TI as [T1 T2].
    cbn [to_hard] in TH. destruct symbols as [s|].
    + destruct T2 as (LS & (q & Q1 & Q2) & V).
      assert (NC : forall p, In p R -> ~ covers (fst p) b 256).
      { intros p P1 P2.  assert (p <> q \/ p = q) as [N|N].
        { destruct p as [rp ip], q as [rq iq]. destruct (range_eq_dec rp rq) as [->|]; [|left; congruence].
          destruct (Z.eq_dec ip iq) as [->|]; [right; reflexivity|left; congruence]. }
        - assert (AP : apart p q) by (apply (pairwise_in R HP); assumption). rewrite Forall_forall in HNE.
          eapply (cover_touch p q b 256 b 256); [exact AP|apply HNE; exact Q1|exact P2|apply Q2|lia|lia|lia|lia|exact HD].
        - subst q. apply (proj2 Q2). exact P2. }
      assert (DEF : def = -1) by (destruct T1 as [|(p & P1 & P2)]; [assumption|destruct (NC p P1 P2)]).
      subst def. rewrite LS in TH. change (Z.to_nat 256) with 256%nat in *.
      set (used := map (fun x => negb (x =? -1)) s) in *.
      assert (LU : length used = 256%nat) by (unfold used; rewrite map_length; exact LS).
      rewrite <- LU in TH.
      destruct (2 + _ <? 0) eqn:EB in TH; [discriminate|].
      pose proof (bounds_ok used ltac:(lia) ltac:(lia) EB) as [BO|BO]; [|lia]. cbv zeta in BO.
      set (low := lowest_used 0 (Z.of_nat (length used)) used) in *. set (high := highest_used 0 used) in *.
      inversion TH as [TH']. subst h. clear TH.
      destruct (pack low high ltac:(lia) ltac:(lia)) as [PK1 PK2].
      cbn [hcst_lookup].
      rewrite (tget_first pre _ suf (-1)), (tget_mid pre _ suf 1 (Z.lor low (Z.shiftl high 8))) by (reflexivity || lia).
      rewrite PK1, PK2.
      assert (UV : forall i, 0 <= i < 256 -> nth (Z.to_nat i) used false = negb (val R (b + i) =? -1)).
      { intros i Hi. unfold used. rewrite (map_nth' (fun x => negb (x =? -1)) s _ (-1)) by reflexivity. rewrite V by lia. reflexivity. }
      destruct ((c <? low) || (high <=? c)) eqn:EC.
      * exists (-1). split; [reflexivity|]. unfold hres. destruct (Z.ltb_spec c 256) as [C|C].
        -- assert (b = 0) by (destruct HD as [x ->]; lia). subst b. destruct (Z.eq_dec (val R c) (-1)) as [|NV]; [auto|]. exfalso.
           pose proof (bounds_used used c ltac:(lia)) as BU. rewrite UV in BU by lia. specialize (BU ltac:(rewrite Z.add_0_l; lia)). cbv zeta in BU. fold low high in BU. lia.
        -- assert (block_of c = b) as ->. { unfold block_of. destruct HD as [x ->]. rewrite <- (Z.div_unique c 256 x (c - x * 256)) by lia. lia. }
           split; [intros p P1 P2; destruct (NC p P1 P2)|auto].
      * assert (C : c < 256) by lia. assert (b = 0) by (destruct HD as [x ->]; lia). subst b.
        assert (Z.land c 255 = c) as ->. { change 255 with (Z.ones 8). rewrite Z.land_ones by lia. apply Z.mod_small. change (2 ^ 8) with 256. lia. }
        assert (NS : nth_error (slice low high s) (Z.to_nat (c - low)) = Some (val R c)).
        { rewrite slice_nth by lia. replace (low + (c - low)) with c by lia. rewrite (nth_error_nth' s (-1)) by lia. rewrite V by lia. reflexivity. }
        replace (Z.of_nat (length pre) + 2 + (c - low)) with (Z.of_nat (length pre) + (2 + (c - low))) by lia.
        rewrite (tget_mid pre _ suf (2 + (c - low)) (val R c)); [| |lia].
        -- exists (val R c). split; [destruct (Z.eqb_spec (val R c) (-1)) as [->|]; reflexivity|]. unfold hres. replace (c <? 256) with true by lia. reflexivity.
        -- replace (Z.to_nat (2 + (c - low))) with (S (S (Z.to_nat (c - low)))) by lia. exact NS.
    + inversion TH; subst h. exists def. split; [|apply (hres_default R b 256); auto using Z.divide_refl].
      cbn [hcst_lookup].
      rewrite (tget_first pre [def; 0] suf def), (tget_mid pre [def; 0] suf 1 0) by (reflexivity || lia).
      change (Z.land 0 255) with 0. change (Z.shiftr 0 8) with 0. replace ((c <? 0) || (0 <=? c)) with true by lia. reflexivity.
  - clear Hsb0. apply (proj1 (tinv_S _ _ _ _ _ _)) in TI. destruct TI as [T1 T2].
    assert (D256 : Z.divide 256 b) by (eapply Z.divide_trans; [apply Z.divide_factor_l|exact HD]).
    assert (DS : Z.divide 256 (span (S l) sb)).
    { unfold span. rewrite unit_S. apply Z.divide_mul_r. apply Z.divide_factor_l. }
    assert (P8 : 128 <= 2 ^ sb) by (apply pow_ge; lia). assert (P8' : 2 ^ sb <= 2 ^ 8) by (apply Z.pow_le_mono_r; lia). change (2 ^ 8) with 256 in P8'.
    pose proof (unit_pos (S l)) as U.
    rewrite (to_hard_S l def symbols) in TH. destruct symbols as [s|].
    + cbv zeta in TH. destruct (all_some _) as [subs|] eqn:EA in TH; [|discriminate]. apply all_some_spec in EA.
      destruct T2 as [LS V].
      set (used := map (fun x : option (table l) => match x with Some _ => true | None => false end) s) in *.
      assert (LU : length used = length s) by (unfold used; apply map_length).
      rewrite <- LU in TH. destruct (2 + _ <? 0) eqn:EB in TH; [discriminate|].
      pose proof (bounds_ok used ltac:(lia) ltac:(lia) EB) as [BO|BO]; [|lia]. cbv zeta in BO.
      assert (BU : forall k, 0 <= k < Z.of_nat (length used) -> nth (Z.to_nat k) used false = true -> lowest_used 0 (Z.of_nat (length used)) used <= k < highest_used 0 used) by (intros; apply bounds_used; assumption).
      set (low := lowest_used 0 (Z.of_nat (length used)) used) in *. set (high := highest_used 0 used) in *.
      set (hh := def :: Z.lor low (Z.shiftl high 8) :: offsets (2 + (high - low)) (slice low high subs) ++ sub_data subs) in *.
      assert (h = hh) by congruence. subst h. clear TH.
      assert (LSub : length subs = length s) by (apply (f_equal (@length _)) in EA; rewrite !map_length in EA; auto).
      assert (SUBN : forall k, (k < length s)%nat -> match nth k s None with
                       | None => nth_error subs k = Some None
                       | Some u => exists h', to_hard l u = Some h' /\ nth_error subs k = Some (Some h') end).
      { intros k Hk. apply (f_equal (fun z => nth_error z k)) in EA. rewrite !nth_error_map in EA.
        rewrite (nth_error_nth' s None Hk) in EA. cbn [option_map] in EA.
        destruct (nth_error subs k) as [x|] eqn:Ex; [|discriminate]. cbn [option_map] in EA.
        destruct (nth k s None) as [u|]; [|congruence]. destruct (to_hard l u) as [h'|]; [|discriminate]. exists h'. split; [reflexivity|congruence]. }
      assert (UV : forall k, (k < length s)%nat -> nth k used false = match nth k s None with Some _ => true | None => false end).
      { intros k Hk. unfold used. apply (map_nth' (fun x : option (table l) => match x with Some _ => true | None => false end)). reflexivity. }
      destruct (pack low high ltac:(lia) ltac:(lia)) as [PK1 PK2].
      assert (POS : Z.land (Z.shiftr c (shift (S l))) 255 = (c - b) / unit_size (S l)).
      { rewrite shiftr_unit. change 255 with (Z.ones 8). rewrite Z.land_ones by lia.
        rewrite <- (entry_index_spec (S l) 8 c) by lia. apply entry_index_block; [lia|exact HD|]. unfold span in Hc. change (2 ^ 8) with 256. nia. }
      pose proof (Z.div_mod (c - b) (unit_size (S l)) ltac:(lia)) as DM.
      pose proof (Z.mod_pos_bound (c - b) (unit_size (S l)) U) as MB.
      set (i := (c - b) / unit_size (S l)) in *.
      assert (Hi : 0 <= i < 2 ^ sb). { unfold span in Hc. split; [apply Z.div_pos; lia|apply Z.div_lt_upper_bound; lia]. }
      specialize (V i Hi).
      cbn [hcst_lookup].
      rewrite (tget_first pre hh suf def), (tget_mid pre hh suf 1 (Z.lor low (Z.shiftl high 8))) by (reflexivity || lia).
      rewrite PK1, PK2, POS. pose proof SUBN as SUBN0. pose proof UV as UV0. specialize (SUBN (Z.to_nat i) ltac:(lia)). specialize (UV (Z.to_nat i) ltac:(lia)).
      assert (DEFCASE : nth (Z.to_nat i) s None = None -> hres R c def).
      { intros E. rewrite E in V. eapply hres_default; [exact HP|exact D256|exact DS|exact Hc|exact T1|]. apply V. lia. }
      destruct ((i <? low) || (high <=? i)) eqn:EC.
      * exists def. split; [reflexivity|]. apply DEFCASE. destruct (nth (Z.to_nat i) s None) eqn:E; [|reflexivity]. specialize (BU i ltac:(lia) UV). lia.
      * assert (LSl : Z.of_nat (length (slice low high subs)) = high - low) by (apply slice_length; lia).
        assert (SL : nth_error (slice low high subs) (Z.to_nat (i - low)) = nth_error subs (Z.to_nat i)).
        { rewrite slice_nth by lia. f_equal. lia. }
        assert (OFF : forall x, nth_error (offsets (2 + (high - low)) (slice low high subs)) (Z.to_nat (i - low)) = Some x ->
                        tget (pre ++ hh ++ suf) (Z.of_nat (length pre) + 2 + (i - low)) = Some x).
        { intros x Hx. replace (Z.of_nat (length pre) + 2 + (i - low)) with (Z.of_nat (length pre) + (2 + (i - low))) by lia. apply tget_mid; [|lia].
          replace (Z.to_nat (2 + (i - low))) with (S (S (Z.to_nat (i - low)))) by lia. unfold hh. cbn [nth_error].
          rewrite nth_error_app1; [exact Hx|]. apply nth_error_Some. congruence. }
        destruct (nth (Z.to_nat i) s None) as [u|] eqn:EU.
        -- destruct SUBN as (h' & TH' & SN). rewrite SN in SL.
           destruct (offsets_some _ (2 + (high - low)) _ _ SL) as (d1 & d2 & E1 & E2). rewrite (OFF _ E2).
           destruct (Z.eqb_spec (2 + (high - low) + Z.of_nat (length d1)) (-1)); [lia|].
           assert (SD : sub_data subs = sub_data (slice low high subs)).
           { apply sub_data_slice; [lia|lia|lia|]. intros k Hk Hk'. apply nth_error_Some in Hk. rewrite LSub in Hk.
             specialize (SUBN0 (Z.to_nat k) Hk). specialize (UV0 (Z.to_nat k) Hk). destruct (nth (Z.to_nat k) s None) as [u'|]; [|exact SUBN0].
             destruct (Z_lt_dec k 0) as [|Kp]; [lia|]. specialize (BU k ltac:(lia) UV0). lia. }

           set (pre' := pre ++ def :: Z.lor low (Z.shiftl high 8) :: offsets (2 + (high - low)) (slice low high subs) ++ d1).
           replace (pre ++ hh ++ suf) with (pre' ++ h' ++ (d2 ++ suf)) by (unfold pre', hh; rewrite SD, E1; rewrite <- ?app_assoc; cbn [app]; rewrite <- ?app_assoc; reflexivity).
           replace (Z.of_nat (length pre) + (2 + (high - low) + Z.of_nat (length d1))) with (Z.of_nat (length pre')).
           2:{ unfold pre'. rewrite app_length. cbn [length]. rewrite app_length, offsets_length. lia. }
           destruct V as [V _]. eapply (IH 8 (b + i * unit_size (S l)) u); [lia|reflexivity| |exact V|exact TH'|exact Hc0|rewrite span_8; lia].
           rewrite <- unit_S. apply Z.divide_add_r; [|apply Z.divide_factor_r]. eapply Z.divide_trans; [|exact HD]. apply Z.divide_factor_r.
        -- rewrite SUBN in SL. rewrite (OFF (-1)) by (apply offsets_none; exact SL). cbn [Z.eqb]. exists def. split; [reflexivity|]. apply DEFCASE. reflexivity.
    + inversion TH; subst h. exists def. split; [|apply (hres_default R b (span (S l) sb)); auto].
      cbn [hcst_lookup].
      rewrite (tget_first pre [def; 0] suf def), (tget_mid pre [def; 0] suf 1 0) by (reflexivity || lia).
      change (Z.land 0 255) with 0. change (Z.shiftr 0 8) with 0.
      set (pos := Z.land _ 255). replace ((pos <? 0) || (0 <=? pos)) with true by lia. reflexivity.
Qed.

(** * When the table can be written *)

Fixpoint good (l : nat) : table l -> Prop :=
  match l return table l -> Prop with
  | O => fun t => match snd t with None => True | Some s => exists k, (k < length s)%nat /\ nth k s (-1) <> fst t end
  | S l' => fun t => match snd t with None => True
            | Some s => (exists k u, nth_error s k = Some (Some u)) /\ (forall k u, nth_error s k = Some (Some u) -> good l' u) end
  end.

Lemma good_S l (def : Z) (symbols : option (list (option (table l)))) :
  good (S l) (def, symbols) <->
  match symbols with None => True
  | Some s => (exists k u, nth_error s k = Some (Some u)) /\ (forall k u, nth_error s k = Some (Some u) -> good l u) end.
Proof. reflexivity. Qed.

Lemma used_bounds used k : (k < length used)%nat -> nth k used false = true ->
  2 + (highest_used 0 used - lowest_used 0 (Z.of_nat (length used)) used) <? 0 = false.
Proof.
  intros Hk Hu. pose proof (bounds_used used (Z.of_nat k) ltac:(lia)) as B. rewrite Nat2Z.id in B. specialize (B Hu). cbv zeta in B. lia.
Qed.

Lemma good_hard l : forall t, good l t -> exists h, to_hard l t = Some h.
Proof.
  induction l as [|l IH]; intros [def symbols] G.
  - cbn [to_hard]. destruct symbols as [s|]; [|eauto]. destruct G as (k & Hk & N). cbn [fst snd] in *.
    set (used := map (fun x => negb (x =? def)) s). assert (LU : length used = length s) by apply map_length. rewrite <- LU.
    rewrite (used_bounds used k); [eauto|lia|]. unfold used. destruct (Z.eqb_spec (nth k s (-1)) def) as [|E]; [contradiction|].
    assert (NE : nth_error (map (fun x => negb (x =? def)) s) k = Some true).
    { rewrite nth_error_map, (nth_error_nth' s (-1) Hk). cbn [option_map]. destruct (Z.eqb_spec (nth k s (-1)) def); [contradiction|reflexivity]. }
    apply nth_error_nth with (d := false) in NE. exact NE.
  - rewrite (to_hard_S l def symbols). apply (proj1 (good_S l def symbols)) in G. destruct symbols as [s|]; [|eauto].
    destruct G as [(k & u & Hk) G]. cbv zeta.
    destruct (all_some_total (map (fun x : option (table l) => match x with
                                    | Some u => match to_hard l u with Some h => Some (Some h) | None => None end
                                    | None => Some None end) s)) as [subs ->].
    { intros x Hx. apply in_map_iff in Hx as ([u'|] & <- & Hx); [|discriminate]. apply In_nth_error in Hx as [k' Hk']. destruct (IH u' (G k' u' Hk')) as [h ->]. discriminate. }
    set (used := map (fun x : option (table l) => match x with Some _ => true | None => false end) s).
    assert (LU : length used = length s) by apply map_length. rewrite <- LU.
    assert (Hk' : (k < length s)%nat) by (apply nth_error_Some; congruence).
    rewrite (used_bounds used k); [eauto|lia|].
    assert (NE : nth_error used k = Some true) by (unfold used; rewrite nth_error_map, Hk; reflexivity).
    apply nth_error_nth with (d := false) in NE. exact NE.
Qed.

Lemma add_range_S l sb b r id (def : Z) (symbols : option (list (option (table l)))) :
  add_range (S l) sb b r id (def, symbols) =
    let start := if lo r - b <? 0 then 0 else lo r - b in
    let endIndex := Z.shiftr (if hi r - b <? 0 then 0 else hi r - b) (shift (S l)) in
    if (Z.land start (Z.shiftl 1 (shift (S l)) - 1) =? 0) && (Z.shiftr start (shift (S l)) =? 0) && (max_index sb <=? endIndex) then (id, symbols)
    else
      (def, Some (for_range (fun index sub =>
                    Some (add_range l 8 (b + Z.shiftl index (shift (S l))) r id (match sub with Some u => u | None => empty_table l end)))
                  (Z.shiftr start (shift (S l))) (if max_index sb - 1 <? endIndex then max_index sb - 1 else endIndex) 0
                  (match symbols with Some s => s | None => repeat None (Z.to_nat (max_index sb)) end))).
Proof. reflexivity. Qed.

Lemma index_touch r b l sb i : 0 <= i < 2 ^ sb -> b <= hi r ->
  (Z.max 0 (lo r - b) / unit_size l <=? i) && (i <=? (if 2 ^ sb - 1 <? Z.max 0 (hi r - b) / unit_size l then 2 ^ sb - 1 else Z.max 0 (hi r - b) / unit_size l)) = true
  <-> touches r (b + i * unit_size l) (unit_size l).
Proof.
  intros Hi HB. pose proof (unit_pos l) as U. unfold touches. rewrite andb_true_iff, !Z.leb_le.
  assert (X1 : Z.max 0 (lo r - b) / unit_size l <= i <-> lo r < b + i * unit_size l + unit_size l).
  { rewrite <- Z.lt_succ_r. split; intros X.
    - assert (Z.max 0 (lo r - b) < unit_size l * Z.succ i); [|nia].
      pose proof (Z.mul_succ_div_gt (Z.max 0 (lo r - b)) (unit_size l) U). nia.
    - apply Z.div_lt_upper_bound; nia. }
  assert (X2 : i <= Z.max 0 (hi r - b) / unit_size l <-> (i = 0 \/ b + i * unit_size l <= hi r)).
  { split; intros X.
    - pose proof (Z.mul_div_le (Z.max 0 (hi r - b)) (unit_size l) U). destruct (Z.eq_dec i 0); [auto|]. right. nia.
    - apply Z.div_le_lower_bound; [lia|]. destruct X as [->|X]; nia. }
  rewrite X1. assert (i <= (if 2 ^ sb - 1 <? Z.max 0 (hi r - b) / unit_size l then 2 ^ sb - 1 else Z.max 0 (hi r - b) / unit_size l)
                      <-> i <= Z.max 0 (hi r - b) / unit_size l) as -> by (destruct (Z.ltb_spec (2 ^ sb - 1) (Z.max 0 (hi r - b) / unit_size l)); lia).
  rewrite X2. split; intros [Y1 Y2]; (split; [exact Y1|]); [destruct Y2 as [->|Y2]; lia|right; lia].
Qed.

Lemma good_empty l : good l (empty_table l).
Proof. destruct l; exact I. Qed.

Lemma good_step R p : snd p <> -1 -> ~ Z.divide 256 (hi (fst p)) -> forall l sb b t,
  7 <= sb -> (forall q, In q R -> apart q p) -> (forall q, In q R -> nonempty q) -> nonempty p ->
  256 <= span l sb -> Z.divide (span l sb) b -> Z.divide 256 b -> touches (fst p) b (span l sb) ->
  tinv R l sb b t -> good l t -> good l (add_range l sb b (fst p) (snd p) t).
Proof.
  destruct p as [r id]. cbn [fst snd]. intros HID HND.
  induction l as [|l IH]; intros sb b [def symbols] Hsb HA HNE NE HS HD HD' HT TI G.
  - pose proof (step R (r, id) 0 sb b (def, symbols) Hsb HA HNE NE HS HD HD') as ST. cbn [fst snd] in ST.
    specialize (ST ltac:(apply HT) ltac:(intros _; apply HT) TI).
    cbn [add_range] in *. rewrite clamp_start, clamp_end in *.
    assert (P : 0 < 2 ^ sb) by (apply Z.pow_pos_nonneg; lia).
    assert (SP : span 0 sb = 2 ^ sb) by (unfold span; rewrite unit_0; lia).
    destruct (_ && _ && _) eqn:EC.
    + rewrite (cover_test r b 0 sb) in EC by lia. cbn [tinv] in TI. destruct TI as [T1 T2]. destruct symbols as [s|]; [|exact I].
      exfalso. destruct T2 as (_ & (q & Q1 & Q2 & _) & _). rewrite SP in *.
      eapply (cover_touch (r, id) q b (2 ^ sb) b (2 ^ sb)); [apply apart_sym; apply HA; exact Q1|apply HNE; exact Q1|exact EC|exact Q2|lia|lia|lia|lia|exact HD'].
    + cbn [good fst snd]. cbn [tinv] in ST. destruct ST as (_ & LS & _ & V).
      assert (DEF : def = -1).
      { cbn [tinv] in TI. destruct TI as [[T1|(q & Q1 & Q2)] _]; [exact T1|]. exfalso. rewrite SP in *.
        eapply (cover_touch q (r, id) b (2 ^ sb) b (2 ^ sb)); [apply HA; exact Q1|exact NE|exact Q2|exact HT|lia|lia|lia|lia|exact HD']. }
      subst def. destruct HT as [HT1 HT2]. rewrite SP in HT1.
      assert (b < hi r) by (destruct (Z.eq_dec b (hi r)) as [EB|]; [exfalso; apply HND; rewrite <- EB; exact HD'|lia]).
      exists (Z.to_nat (Z.max 0 (lo r - b))). rewrite LS. split; [lia|]. rewrite V by lia.
      destruct (val_app_in R (r, id) (b + Z.max 0 (lo r - b)) HA) as [-> _]; [|exact HID].
      apply has_spec. unfold in_range. cbn [fst]. unfold nonempty in NE. cbn [fst] in NE. lia.
  - rewrite (add_range_S l sb b r id def symbols). cbv zeta. rewrite clamp_start, clamp_end.
    assert (P : 0 < 2 ^ sb) by (apply Z.pow_pos_nonneg; lia). pose proof (unit_pos (S l)) as U.
    assert (U256 : 256 <= unit_size (S l)) by (rewrite unit_S; pose proof (unit_pos l); lia).
    apply (proj1 (good_S _ _ _)) in G.
    destruct (_ && _ && _) eqn:EC; [apply good_S; exact G|].
    apply (proj1 (tinv_S _ _ _ _ _ _)) in TI. destruct TI as [T1 T2]. apply good_S.
    set (syms := match symbols with Some s => s | None => repeat None (Z.to_nat (max_index sb)) end).
    assert (LS : length syms = Z.to_nat (2 ^ sb)) by (unfold syms; destruct symbols; [apply T2|apply repeat_length]).
    assert (VS : forall i u, 0 <= i < 2 ^ sb -> nth (Z.to_nat i) syms None = Some u -> tinv R l 8 (b + i * unit_size (S l)) u /\ good l u).
    { unfold syms. intros i u Hi Hu. destruct symbols as [s|]; [|rewrite nth_repeat in Hu; discriminate].
      destruct T2 as [L V]. specialize (V i Hi). rewrite Hu in V. split; [apply V|]. apply (proj2 G (Z.to_nat i)).
      rewrite (nth_error_nth' s None) by lia. congruence. }
    assert (VN : forall i, 0 <= i < 2 ^ sb -> nth (Z.to_nat i) syms None = None ->
              forall c, b + i * unit_size (S l) <= c < b + i * unit_size (S l) + unit_size (S l) -> val R c = def).
    { unfold syms. intros i Hi Hu c Hc. destruct symbols as [s|].
      - destruct T2 as [L V]. specialize (V i Hi). rewrite Hu in V. apply V. exact Hc.
      - apply T2. unfold span. nia. }
    clearbody syms. clear T2 G.
    rewrite !shiftr_unit. unfold max_index.
    match goal with |- (exists k u, nth_error ?fr k = _) /\ _ => set (res := fr) end.
    assert (RN : forall k, (k < Z.to_nat (2 ^ sb))%nat -> nth_error res k = Some (nth k res None)).
    { intros k Hk. apply nth_error_nth'. unfold res. rewrite for_range_length. lia. }
    assert (IN : forall k, nth_error res k <> None -> (k < Z.to_nat (2 ^ sb))%nat).
    { intros k Hk. apply nth_error_Some in Hk. unfold res in Hk. rewrite for_range_length in Hk. lia. }
    assert (TT : forall i, 0 <= i < 2 ^ sb ->
        (Z.max 0 (lo r - b) / unit_size (S l) <=? i) && (i <=? (if 2 ^ sb - 1 <? Z.max 0 (hi r - b) / unit_size (S l) then 2 ^ sb - 1 else Z.max 0 (hi r - b) / unit_size (S l))) = true
        <-> touches r (b + i * unit_size (S l)) (unit_size (S l))).
    { intros i Hi. apply index_touch; [exact Hi|apply HT]. }
    split.
    + assert (exists i, 0 <= i < 2 ^ sb /\ touches r (b + i * unit_size (S l)) (unit_size (S l))) as (i & Hi & Ti).
      { destruct HT as [H1 H2]. exists (Z.max 0 (lo r - b) / unit_size (S l)).
        pose proof (Z.div_mod (Z.max 0 (lo r - b)) (unit_size (S l)) ltac:(lia)) as DM. pose proof (Z.mod_pos_bound (Z.max 0 (lo r - b)) (unit_size (S l)) U) as MB.
        unfold span in H1. unfold nonempty in NE. cbn [fst] in NE. split.
        - split; [apply Z.div_pos; lia|]. apply Z.div_lt_upper_bound; [lia|]. nia.
        - unfold touches. nia. }
      exists (Z.to_nat i). specialize (RN (Z.to_nat i) ltac:(lia)). unfold res in RN at 2. rewrite for_range_nth in RN by lia.
      rewrite Z2Nat.id, Z.add_0_l in RN by lia. rewrite (proj2 (TT i Hi) Ti) in RN. eexists. exact RN.
    + intros k u Hk. assert (Hk' : (k < Z.to_nat (2 ^ sb))%nat) by (apply IN; congruence).
      rewrite RN in Hk by exact Hk'. unfold res in Hk. rewrite for_range_nth in Hk by lia. rewrite Z.add_0_l in Hk.
      set (i := Z.of_nat k) in *. assert (Hi : 0 <= i < 2 ^ sb) by lia. assert (Ek : k = Z.to_nat i) by lia. rewrite Ek in Hk.
      specialize (TT i Hi). destruct (_ && _) eqn:E in Hk.
      * assert (Ti : touches r (b + i * unit_size (S l)) (unit_size (S l))) by (apply TT; exact E).
        rewrite shiftl_unit in Hk.
        assert (DC : Z.divide (span l 8) (b + i * unit_size (S l))).
        { rewrite span_8. apply Z.divide_add_r; [|apply Z.divide_factor_r]. eapply Z.divide_trans; [|exact HD]. unfold span. apply Z.divide_factor_r. }
        inversion Hk as [Hk'']. clear Hk. 
        apply IH; [lia|exact HA|exact HNE|exact NE|rewrite span_8; exact U256|exact DC| |rewrite span_8; exact Ti| |].
        -- eapply Z.divide_trans; [|exact DC]. rewrite span_8, unit_S. apply Z.divide_factor_l.
        -- destruct (nth (Z.to_nat i) syms None) as [u'|] eqn:EU; [apply (VS i u' Hi EU)|]. apply tinv_empty; [lia|]. rewrite span_8. intros c Hc. rewrite (VN i Hi EU c Hc).
           destruct T1 as [T1|(q & Q1 & Q2)]; [exact T1|]. exfalso.
           eapply (cover_touch q (r, id) b (span (S l) sb) (b + i * unit_size (S l)) (unit_size (S l))); [apply HA; exact Q1|exact NE|exact Q2|exact Ti|nia|lia|unfold span; nia|exact HS|exact HD'].
        -- destruct (nth (Z.to_nat i) syms None) as [u'|] eqn:EU; [apply (VS i u' Hi EU)|apply good_empty].
      * injection Hk as Hk. apply (VS i u Hi). congruence.
Qed.

Section MapHard.
  Variable reqs : list symbol_set.
  Hypothesis NR : Forall normal reqs.
  Let m := sm_of reqs.
  Hypothesis DJ : disjoint_map m.

  Theorem hard_table_lemma k h : no_block_after_range m -> fits k m -> to_hard (kind_depth k) (translator k m) = Some h ->
    forall c, 0 <= c < kind_limit k -> exists id, hard_coded_lookup k h c = Some id /\
      (c < 256 -> lookup_exact m c id) /\ (256 <= c -> block_exact m c id).
  Proof.
    intros NB HF HT c Hc.
    pose proof (additions_apart reqs NR DJ NB) as HP. fold m in HP.
    assert (HNE : Forall nonempty (additions m)).
    { apply Forall_forall. intros p Hp. apply (additions_valid reqs NR) in Hp. unfold valid_range, nonempty in *. lia. }
    destruct (hard_lemma (additions m) HP HNE (kind_depth k) (kind_bits k) 0 (translator k m) h [] [] c) as (v & E & HV).
    - destruct k; cbn; lia.
    - destruct k; cbn; congruence.
    - apply Z.divide_0_r.
    - apply translator_inv; assumption.
    - exact HT.
    - lia.
    - rewrite kind_span. lia.
    - exists v. split; [rewrite app_nil_r in E; exact E|]. unfold hres in HV. split; intros HC.
      + replace (c <? 256) with true in HV by lia. subst v. apply (val_exact reqs NR).
      + replace (c <? 256) with false in HV by lia. destruct HV as [HV1 HV2]. unfold block_exact.
        destruct (Exists_dec (fun p => covers (fst p) (block_of c) 256) (additions m)) as [EX|EX].
        { intros p. unfold covers. destruct (Z_le_dec (lo (fst p)) (block_of c)); [|right; lia]. destruct (Z_le_dec (block_of c + 256) (hi (fst p))); [left; lia|right; lia]. }
        * left. apply Exists_exists in EX as ([r i] & Hp & HCov). rewrite (HV1 _ Hp HCov). cbn [snd].
          apply (additions_in reqs) in Hp as [Hi Hr]. fold m in Hr. split; [exact Hi|]. exists r. split; [exact Hr|]. exact HCov.
        * right. split.
          -- apply HV2. intros p Hp HCov. apply EX. apply Exists_exists. eauto.
          -- intros i (r & Hr & HCov). apply EX. apply Exists_exists. exists (r, i). split; [|exact HCov]. apply (additions_in reqs). fold m. split; [|exact Hr].
             destruct (Z_lt_dec i 0); [rewrite sm_get_out in Hr by lia; destruct Hr|]. destruct (Z_lt_dec i (sm_count m)); [lia|]. rewrite sm_get_out in Hr by lia. destruct Hr.
  Qed.

  Theorem hard_exists_lemma k : no_end_at_block m -> starts_in k m -> exists h, to_hard (kind_depth k) (translator k m) = Some h.
  Proof.
    intros NE ST. apply good_hard. unfold translator.
    assert (NB : no_block_after_range m) by (intros i j r r' Hr Hr' E D; exfalso; apply (NE i r Hr); rewrite E; exact D).
    pose proof (additions_apart reqs NR DJ NB) as HP. fold m in HP.
    assert (HV : forall p, In p (additions m) -> valid_range (fst p) /\ ~ Z.divide 256 (hi (fst p)) /\ lo (fst p) < kind_limit k /\ snd p <> -1).
    { intros [r i] Hp. split; [apply (additions_valid reqs NR); exact Hp|]. apply (additions_in reqs) in Hp as [Hi Hr]. fold m in Hi, Hr. cbn [fst snd].
      split; [eapply NE; eauto|]. split; [eapply ST; eauto|lia]. }
    revert HP HV. generalize (additions m). clear NB NE ST DJ. intros adds.
    assert (S7 : 7 <= kind_bits k) by (destruct k; cbn; lia).
    assert (S256 : 256 <= span (kind_depth k) (kind_bits k)) by (rewrite kind_span; destruct k; cbn; lia).
    induction adds as [|p R IH] using rev_ind; intros HP HV; [apply good_empty|].
    assert (HV' : forall q, In q R -> valid_range (fst q) /\ ~ Z.divide 256 (hi (fst q)) /\ lo (fst q) < kind_limit k /\ snd q <> -1) by (intros q Hq; apply HV, in_or_app; auto).
    destruct (HV p ltac:(apply in_or_app; cbn; auto)) as (V1 & V2 & V3 & V4).
    apply pairwise_snoc in HP as [HP HA]. unfold add_all. rewrite fold_left_app. cbn [fold_left].
    apply (good_step R p V4 V2).
    - exact S7.
    - exact HA.
    - intros q Hq. destruct (HV' q Hq) as (W & _). unfold valid_range, nonempty in *. lia.
    - unfold valid_range, nonempty in *. lia.
    - exact S256.
    - apply Z.divide_0_r.
    - apply Z.divide_0_r.
    - unfold touches. rewrite kind_span. unfold valid_range in V1. lia.
    - apply add_all_inv; [exact S7|exact S256|exact HP| | |].
      + apply Forall_forall. intros q Hq. destruct (HV' q Hq) as (W & _). unfold valid_range, nonempty in *. lia.
      + intros q Hq. destruct (HV' q Hq) as (W & _). unfold valid_range in W. lia.
      + intros _ q Hq. rewrite kind_span. apply (HV' q Hq).
    - apply IH; [exact HP|exact HV'].
  Qed.
End MapHard.

(** * Witnesses *)

Lemma normal_sets sets : forallb normal_b sets = true -> Forall normal sets.
Proof. intros H. apply Forall_forall. intros s Hs. apply normal_b_sound. rewrite forallb_forall in H. apply H. exact Hs. Qed.

Lemma disjoint_of reqs : Forall normal reqs -> sm_has_duplicates (sm_of reqs) = false -> disjoint_map (sm_of reqs).
Proof.
  intros NR H i j x Hi Hj. destruct (Z.eq_dec i j) as [|N]; [assumption|]. exfalso.
  assert (sm_has_duplicates (sm_of reqs) = true); [|congruence]. apply has_duplicates_lemma; [exact NR|]. eauto 10.
Qed.

Lemma lookup_exact_not m c : (exists i, contains (sm_get m i) c = true) -> ~ lookup_exact m c (-1).
Proof. intros [i Hi] [[H _]|[_ H]]; [lia|]. specialize (H i). congruence. Qed.

Lemma boundary_lemma : exists reqs, Forall normal reqs /\ disjoint_map (sm_of reqs) /\
  contains (sm_get (sm_of reqs) 1) 300 = true /\
  set_for_symbol Kwchar (translator Kwchar (sm_of reqs)) 300 = -1 /\
  set_for_symbol Kint (translator Kint (sm_of reqs)) 300 = -1.
Proof.
  exists [[mkR 0 256]; [mkR 256 512]]. assert (N : Forall normal [[mkR 0 256]; [mkR 256 512]]) by (apply normal_sets; vm_compute; reflexivity).
  split; [exact N|]. split; [apply disjoint_of; [exact N|vm_compute; reflexivity]|]. vm_compute. auto.
Qed.

Lemma boundary_order_lemma : exists reqs, Forall normal reqs /\ disjoint_map (sm_of reqs) /\
  contains (sm_get (sm_of reqs) 0) 300 = true /\
  set_for_symbol Kwchar (translator Kwchar (sm_of reqs)) 300 = -1.
Proof.
  exists [[mkR 256 768]; [mkR 254 256; mkR 1000 1001]].
  assert (N : Forall normal [[mkR 256 768]; [mkR 254 256; mkR 1000 1001]]) by (apply normal_sets; vm_compute; reflexivity).
  split; [exact N|]. split; [apply disjoint_of; [exact N|vm_compute; reflexivity]|]. vm_compute. auto.
Qed.

Lemma alias_lemma : exists reqs, Forall normal reqs /\ disjoint_map (sm_of reqs) /\
  (forall i, contains (sm_get (sm_of reqs) i) 65633 = false) /\
  set_for_symbol Kwchar (translator Kwchar (sm_of reqs)) 65633 = 0.
Proof.
  exists [[mkR 97 123]].
  assert (N : Forall normal [[mkR 97 123]]) by (apply normal_sets; vm_compute; reflexivity).
  split; [exact N|]. split; [apply disjoint_of; [exact N|vm_compute; reflexivity]|]. split; [|vm_compute; reflexivity].
  intros i. destruct (Z.eq_dec i 0) as [->|]; [vm_compute; reflexivity|]. rewrite sm_get_out; [reflexivity|].
  change (sm_count (sm_of [[mkR 97 123]])) with 1. lia.
Qed.

Lemma hard_upper_lemma : exists reqs h, Forall normal reqs /\ disjoint_map (sm_of reqs) /\
  no_end_at_block (sm_of reqs) /\ starts_in Kwchar (sm_of reqs) /\
  to_hard (kind_depth Kwchar) (translator Kwchar (sm_of reqs)) = Some h /\
  set_for_symbol Kwchar (translator Kwchar (sm_of reqs)) 257 = 1 /\
  hard_coded_lookup Kwchar h 257 = Some (-1).
Proof.
  exists [[mkR 97 123]; [mkR 257 270]].
  destruct (to_hard (kind_depth Kwchar) (translator Kwchar (sm_of [[mkR 97 123]; [mkR 257 270]]))) as [h|] eqn:E; [|vm_compute in E; discriminate].
  exists h. assert (N : Forall normal [[mkR 97 123]; [mkR 257 270]]) by (apply normal_sets; vm_compute; reflexivity).
  split; [exact N|]. split; [apply disjoint_of; [exact N|vm_compute; reflexivity]|].
  assert (IN : forall i r, In r (sm_get (sm_of [[mkR 97 123]; [mkR 257 270]]) i) -> r = mkR 97 123 \/ r = mkR 257 270).
  { intros i r. destruct (Z.eq_dec i 0) as [->|]; [cbn; intros [<-|[]]; auto|]. destruct (Z.eq_dec i 1) as [->|]; [cbn; intros [<-|[]]; auto|].
    rewrite sm_get_out; [intros []|]. change (sm_count (sm_of [[mkR 97 123]; [mkR 257 270]])) with 2. lia. }
  split; [intros i r Hr [x Hx]; destruct (IN i r Hr) as [-> | ->]; cbn in Hx; lia|].
  split; [intros i r Hr; destruct (IN i r Hr) as [-> | ->]; cbn; lia|].
  split; [reflexivity|]. vm_compute in E. inversion E. subst h. vm_compute. auto.
Qed.

Lemma hard_alloc_lemma : exists reqs, Forall normal reqs /\ disjoint_map (sm_of reqs) /\
  no_block_after_range (sm_of reqs) /\ starts_in Kwchar (sm_of reqs) /\
  to_hard (kind_depth Kwchar) (translator Kwchar (sm_of reqs)) = None.
Proof.
  exists [[mkR 0 256]].
  assert (N : Forall normal [[mkR 0 256]]) by (apply normal_sets; vm_compute; reflexivity).
  split; [exact N|]. split; [apply disjoint_of; [exact N|vm_compute; reflexivity]|].
  assert (IN : forall i r, In r (sm_get (sm_of [[mkR 0 256]]) i) -> r = mkR 0 256).
  { intros i r. destruct (Z.eq_dec i 0) as [->|]; [cbn; intuition congruence|].
    rewrite sm_get_out; [intros []|]. change (sm_count (sm_of [[mkR 0 256]])) with 1. lia. }
  split; [intros i j r r' Hr Hr'; rewrite (IN i r Hr), (IN j r' Hr'); cbn; lia|].
  split; [intros i r Hr; rewrite (IN i r Hr); cbn; lia|]. vm_compute. reflexivity.
Qed.

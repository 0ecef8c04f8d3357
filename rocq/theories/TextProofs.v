(** Proofs about UTF-8 reading, case conversion and dequoting. *)
From Verif Require Import Base BinSearch SymbolSetModel SymbolSetSpec SymbolSetProofs TextModel TextSpec CaseTables.
Local Open Scope Z_scope.

(** ** UTF-8 *)
Lemma u8_get_ascii target b t : 0 <= b < 128 ->
  u8_get target (u8_new (b :: t)) = (b, u8_new t).
Proof.
  intros H. unfold u8_get, u8_new, byte_get, in_good. cbn [u_pair u_in u_failed u_bad negb Z.eqb orb].
  destruct (Z.ltb_spec b 128); [reflexivity|lia].
Qed.

Lemma u8_get_end target : u8_get target (u8_new []) = (0, mkU [] true true 0).
Proof. reflexivity. Qed.

Lemma u8_run_dead n : forall target r, u_pair r = 0 -> u_bad r = true ->
  u8_run n target r = repeat (0, false) n.
Proof.
  induction n as [|n IH]; intros target r P B; [reflexivity|]. cbn [u8_run repeat].
  assert (E : u8_get target r = (0, r)) by (unfold u8_get; rewrite P, B, orb_true_r; reflexivity).
  rewrite E. unfold u8_good at 1. rewrite B. cbn. f_equal. apply IH; assumption.
Qed.

Lemma ascii_lemma n : forall cps target, Forall (fun c => 0 <= c < 128) cps ->
  u8_run (length cps + n) target (u8_new cps) = map (fun u => (u, true)) cps ++ repeat (0, false) n.
Proof.
  induction cps as [|c cps IH]; intros target F; cbn [length Nat.add map app].
  - destruct n; [reflexivity|]. cbn [u8_run repeat]. rewrite u8_get_end. cbn [u8_good u_bad in_good u_failed negb andb].
    f_equal. apply u8_run_dead; reflexivity.
  - inversion F as [|? ? H1 H2]; subst. cbn [u8_run]. rewrite u8_get_ascii by assumption. f_equal. apply IH. assumption.
Qed.

Lemma encode_ascii cps : Forall (fun c => 0 <= c < 128) cps -> flat_map encode cps = cps.
Proof.
  induction 1 as [|c t H]; [reflexivity|]. cbn [flat_map]. unfold encode at 1.
  destruct (Z.ltb_spec c 128); [|lia]. cbn [app]. congruence.
Qed.

Lemma utf16_ascii cps : Forall (fun c => 0 <= c < 128) cps -> flat_map utf16 cps = cps.
Proof.
  induction 1 as [|c t H]; [reflexivity|]. cbn [flat_map]. unfold utf16 at 1.
  destruct (Z.ltb_spec c 65536); [|lia]. cbn [app]. congruence.
Qed.

Lemma decodes_ascii target cps : Forall (fun c => 0 <= c < 128) cps -> decodes target cps.
Proof.
  intros F. unfold decodes. cbv zeta. rewrite (utf16_ascii cps F), (encode_ascii cps F).
  pose proof (ascii_lemma 0 cps target F) as E. rewrite Nat.add_0_r in E. cbn [repeat] in E. rewrite app_nil_r in E. exact E.
Qed.

Lemma encode_first c : 128 <= c -> scalar c -> exists b t, encode c = b :: t /\ 128 <= b.
Proof.
  intros H S. unfold encode. destruct (Z.ltb_spec c 128); [lia|].
  destruct (Z.ltb_spec c 2048); [|destruct (Z.ltb_spec c 65536)]; eexists; eexists; (split; [reflexivity|]).
  - pose proof (Z.div_pos c 64). lia.
  - pose proof (Z.div_pos c 4096). lia.
  - pose proof (Z.div_pos c 262144). lia.
Qed.

Lemma land_small target m : 0 <= target < 128 -> 0 <= m < 256 -> Z.land target m < 128.
Proof.
  intros H Hm. pose proof (Z.land_nonneg target m). 
  destruct (Z_lt_dec (Z.land target m) 128) as [|N]; [assumption|exfalso].
  assert (E : Z.land target m = Z.land (Z.land target m) 127).
  { rewrite <- Z.land_assoc, (Z.land_comm m 127), Z.land_assoc. f_equal.
    change 127 with (Z.ones 7). rewrite Z.land_ones by lia. rewrite Z.mod_small; [reflexivity|]. change (2 ^ 7) with 128. lia. }
  change 127 with (Z.ones 7) in E. rewrite (Z.land_ones (Z.land target m) 7) in E by lia.
  pose proof (Z.mod_pos_bound (Z.land target m) (2 ^ 7) ltac:(lia)) as B. rewrite <- E in B. change (2 ^ 7) with 128 in B. lia.
Qed.

Lemma u8_get_high target b t : 0 <= target < 128 -> 128 <= b ->
  u8_get target (u8_new (b :: t)) = (0, mkU t false true 0).
Proof.
  intros H Hb. unfold u8_get, u8_new, byte_get, in_good. cbn [u_pair u_in u_failed u_bad negb Z.eqb orb].
  destruct (Z.ltb_spec b 128); [lia|].
  pose proof (land_small target 0xe0 H ltac:(lia)). pose proof (land_small target 0xf0 H ltac:(lia)). pose proof (land_small target 0xf8 H ltac:(lia)).
  destruct (Z.eqb_spec (Z.land target 0xe0) 0xc0); [lia|]. destruct (Z.eqb_spec (Z.land target 0xf0) 0xe0); [lia|].
  destruct (Z.eqb_spec (Z.land target 0xf8) 0xf0); [lia|]. reflexivity.
Qed.

Lemma stops_lemma n : forall cps target c rest, Forall (fun c => 0 <= c < 128) cps -> 0 <= target < 128 ->
  128 <= c -> scalar c ->
  u8_run (length cps + n) target (u8_new (flat_map encode (cps ++ c :: rest))) = map (fun u => (u, true)) cps ++ repeat (0, false) n.
Proof.
  induction cps as [|a cps IH]; intros target c rest F T C S; cbn [length Nat.add map app].
  - cbn [flat_map]. destruct (encode_first c C S) as (b & t & E & Hb). rewrite E. cbn [app].
    destruct n; [reflexivity|]. cbn [u8_run repeat]. rewrite u8_get_high by assumption.
    cbn [u8_good u_bad in_good u_failed negb andb]. f_equal. apply u8_run_dead; reflexivity.
  - inversion F as [|? ? H1 H2]; subst. cbn [flat_map u8_run]. unfold encode at 1. destruct (Z.ltb_spec a 128); [|lia].
    cbn [app]. rewrite u8_get_ascii by assumption. f_equal. apply IH; assumption.
Qed.

Lemma utf8_refuted_lemma : exists cps, Forall scalar cps /\ forall target, 0 <= target < 128 -> ~ decodes target cps.
Proof.
  exists [0xe9]. split; [repeat constructor; unfold scalar; lia|]. intros target H D. unfold decodes in D. cbv zeta in D.
  change (flat_map utf16 [0xe9]) with [0xe9] in D. cbn [length u8_run] in D.
  change (flat_map encode [0xe9]) with [0xc3; 0xa9] in D.
  rewrite u8_get_high in D by lia. cbn in D. discriminate.
Qed.

(** ** Case conversion *)
Lemma sorted_map_cons e t : sorted_map (e :: t) = true ->
  e_lower e < e_upper e /\ sorted_map t = true /\ forall e', In e' t -> e_upper e <= e_lower e' /\ e_lower e' < e_upper e'.
Proof.
  revert e. induction t as [|a t IH]; intros e H; cbn [sorted_map] in H.
  - split; [lia|]. split; [reflexivity|]. intros e' [].
  - apply andb_true_iff in H as [H H2]. apply andb_true_iff in H as [H0 H1]. split; [lia|]. split; [exact H2|].
    destruct (IH a H2) as (A & B & C). intros e' [<-|H']; [lia|]. specialize (C e' H'). lia.
Qed.

Lemma sorted_map_skipn n : forall map, sorted_map map = true -> sorted_map (skipn n map) = true.
Proof.
  induction n as [|n IH]; intros map H; [exact H|]. destruct map as [|e t]; [exact H|]. cbn [skipn]. apply IH.
  apply (sorted_map_cons e t H).
Qed.

Lemma sorted_map_nth map : sorted_map map = true -> forall i j, (i < j)%nat -> (j < length map)%nat ->
  e_upper (nth i map no_entry) <= e_lower (nth j map no_entry) /\ e_lower (nth j map no_entry) < e_upper (nth j map no_entry).
Proof.
  induction map as [|e t IH]; intros H i j Hij Hj; [cbn in Hj; lia|]. destruct (sorted_map_cons e t H) as (A & B & C).
  destruct j as [|j]; [lia|]. cbn [length] in Hj. destruct i as [|i]; cbn [nth].
  - apply C. apply nth_In. lia.
  - apply IH; [assumption|lia|lia].
Qed.

(** The entries before the first one found do not matter. *)
Lemma case_of_skip map n x : (forall i, (i < n)%nat -> (i < length map)%nat -> e_upper (nth i map no_entry) <= x) ->
  case_of map x = case_of (skipn n map) x.
Proof.
  revert n. induction map as [|e t IH]; intros n H; [destruct n; reflexivity|]. destruct n as [|n]; [reflexivity|].
  cbn [case_of skipn]. pose proof (H O ltac:(lia) ltac:(cbn; lia)) as H0. cbn [nth] in H0.
  destruct (Z.ltb_spec x (e_upper e)); [lia|]. rewrite andb_false_r. apply IH. intros i Hi Hl.
  apply (H (S i)); [lia|cbn [length]; lia].
Qed.

Lemma nth_skipn {X} (l : list X) n k d : nth k (skipn n l) d = nth (n + k) l d.
Proof. revert l. induction n as [|n IH]; intros l; [reflexivity|]. destruct l; [destruct k; reflexivity|]. apply IH. Qed.

Lemma first_entry_spec map k : sorted_map map = true ->
  (forall i, (i < first_entry map k)%nat -> e_upper (nth i map no_entry) <= k) /\
  (forall e t, skipn (first_entry map k) map = e :: t -> k < e_upper e).
Proof.
  intros S. unfold first_entry.
  destruct (lower_bound_pos_spec (fun i => negb (k <? e_upper (nth i map no_entry))) (length map)) as (A & B & C).
  - intros i j Hij Hj E. destruct (sorted_map_nth map S i j Hij Hj) as [H1 H2].
    destruct (Z.ltb_spec k (e_upper (nth j map no_entry))); [discriminate|].
    destruct (Z.ltb_spec k (e_upper (nth i map no_entry))); [lia|reflexivity].
  - set (p := lower_bound_pos _ _) in *. split.
    + intros i Hi. specialize (B i Hi). cbv beta in B. destruct (Z.ltb_spec k (e_upper (nth i map no_entry))); [discriminate|lia].
    + intros e t E. assert (Hp : (p < length map)%nat).
      { destruct (Nat.lt_ge_cases p (length map)); [assumption|]. rewrite skipn_all2 in E by assumption. discriminate. }
      specialize (C p ltac:(lia) Hp). cbv beta in C.
      assert (N : nth p map no_entry = e).
      { rewrite <- (Nat.add_0_r p), <- nth_skipn, E. reflexivity. }
      rewrite N in C. destruct (Z.ltb_spec k (e_upper e)); [assumption|discriminate].
Qed.

Definition image (map : list map_entry) (a b y : Z) : Prop := exists x, a <= x < b /\ case_of map x = y.

Lemma image_split map a b c y : a <= b <= c -> image map a c y <-> image map a b y \/ image map b c y.
Proof.
  intros H. split.
  - intros (x & Hx & E). destruct (Z_lt_dec x b); [left|right]; exists x; split; auto; lia.
  - intros [(x & Hx & E)|(x & Hx & E)]; exists x; split; auto; lia.
Qed.

Lemma case_of_below map x : sorted_map map = true -> (forall e, In e map -> x < e_lower e) -> case_of map x = x.
Proof.
  induction map as [|e t IH]; intros S H; [reflexivity|]. cbn [case_of]. destruct (Z.leb_spec (e_lower e) x).
  - specialize (H e (or_introl eq_refl)). lia.
  - cbn [andb]. apply IH; [apply (sorted_map_cons e t S)|]. intros e' He'. apply H. right. exact He'.
Qed.

(** From one range on: the current entries are those above [lowerChar]. *)
Lemma convert_loop_spec fuel : forall cur l u result,
  sorted_map cur = true -> wf result -> l <= u ->
  match cur with [] => True | e :: _ => l < e_upper e /\ (e_lower e < l -> u <= e_upper e) end ->
  (2 * length cur + (match cur with e :: _ => if ((l <? e_lower e) && (l <? u))%Z then 2 else 1 | [] => 1 end) <= fuel)%nat ->
  exists res, convert_loop fuel cur l u result = Some res /\ wf res /\
    forall y, mem res y <-> mem result y \/ image cur l u y.
Proof.
  assert (EMP : forall map l u y, ~ l < u -> image map l u y -> False) by (intros map l u y H (x & Hx & _); lia).
  induction fuel as [|fuel IH]; intros cur l u result S W LU HC HF.
  { destruct cur as [|e t]; [cbn in HF; lia|]. destruct ((l <? e_lower e) && (l <? u)); cbn in HF; lia. }
  cbn [convert_loop]. destruct (Z.ltb_spec l u) as [L|L]; cbn [negb].
  2:{ eexists. split; [reflexivity|]. split; [exact W|]. intros y. split; [auto|]. intros [?|H]; [assumption|].
      exfalso. apply (EMP cur l u y); [lia|exact H]. }
  destruct cur as [|e rest].
  - destruct (union_range_spec result (mkR l u) W) as (W' & M'); [unfold ne; cbn; lia|].
    eexists. split; [reflexivity|]. split; [exact W'|]. intros y. rewrite M'.
    apply or_iff_compat_l. unfold in_range, image. cbn [lo hi case_of]. split; [intros H; exists y; auto|intros (x & H & E); lia].
  - destruct HC as [HC1 HC2]. destruct (sorted_map_cons e rest S) as (S1 & S2 & S3). destruct (Z.ltb_spec l (e_lower e)) as [B|B].
    + set (m := if u <? e_lower e then u else e_lower e). assert (Hm : l < m <= u /\ m <= e_lower e) by (unfold m; destruct (Z.ltb_spec u (e_lower e)); lia).
      destruct (union_range_spec result (mkR l m) W) as (W' & M'); [unfold ne; cbn; lia|].
      destruct (IH (e :: rest) m u (union_range result (mkR l m)) S W' ltac:(lia)) as (res & E & W2 & M2).
      * split; [lia|]. lia.
      * assert (Hm' : m = u \/ m = e_lower e) by (unfold m; destruct (Z.ltb_spec u (e_lower e)); lia).
        cbn [length] in *. destruct (Z.ltb_spec m (e_lower e)); destruct (Z.ltb_spec m u); destruct (Z.ltb_spec l (e_lower e)); destruct (Z.ltb_spec l u); cbn [andb] in *; lia.
        
      * exists res. split; [exact E|]. split; [exact W2|]. intros y. rewrite M2, M'. rewrite (image_split (e :: rest) l m u y) by lia.
        assert (I : in_range y (mkR l m) <-> image (e :: rest) l m y).
        { unfold in_range, image. cbn [lo hi]. assert (CB : forall x, l <= x < m -> case_of (e :: rest) x = x).
          { intros x Hx. apply case_of_below; [exact S|]. intros e' [<-|H']; [lia|]. specialize (S3 e' H'). lia. }
          split.
          - intros H. exists y. split; [exact H|]. apply CB, H.
          - intros (x & H & Ex). rewrite (CB x H) in Ex. subst. exact H. }
        tauto.
    + cbv zeta. set (k := e_upper e - e_lower e). set (m := if u - l <? k then u - l else k).
      assert (Hm : (m = u - l \/ (l = e_lower e /\ m = k)) /\ 0 < m /\ l + m <= e_upper e /\ l + m <= u).
      { unfold m, k. destruct (Z_lt_dec (e_lower e) l) as [G|G].
        - specialize (HC2 G). destruct (Z.ltb_spec (u - l) (e_upper e - e_lower e)); lia.
        - destruct (Z.ltb_spec (u - l) (e_upper e - e_lower e)); lia. }
      set (i := e_to e + (l - e_lower e)).
      destruct (union_range_spec result (mkR i (i + m)) W) as (W' & M'); [unfold ne; cbn; lia|].
      destruct (IH rest (l + m) u (union_range result (mkR i (i + m))) S2 W' ltac:(lia)) as (res & E & W2 & M2).
      * destruct rest as [|e' rest']; [exact I|]. specialize (S3 e' (or_introl eq_refl)). split; lia.
      * cbn [length] in *. destruct rest as [|e' rest']; [cbn [length] in *; lia|].
        cbn [andb] in HF. destruct ((l + m <? e_lower e') && (l + m <? u)); lia.
      * exists res. split; [exact E|]. split; [exact W2|]. intros y. rewrite M2, M'. rewrite (image_split (e :: rest) l (l + m) u y) by lia.
        assert (I1 : in_range y (mkR i (i + m)) <-> image (e :: rest) l (l + m) y).
        { unfold in_range, image. cbn [lo hi case_of]. split.
          - intros H. exists (y - i + l). split; [lia|]. destruct (Z.leb_spec (e_lower e) (y - i + l)); [|lia].
            destruct (Z.ltb_spec (y - i + l) (e_upper e)); [|lia]. cbn [andb]. unfold i. lia.
          - intros (x & H & Ex). destruct (Z.leb_spec (e_lower e) x); [|lia]. destruct (Z.ltb_spec x (e_upper e)); [|lia].
            cbn [andb] in Ex. unfold i. lia. }
        assert (I2 : image rest (l + m) u y <-> image (e :: rest) (l + m) u y).
        { destruct (Z_lt_dec (l + m) u) as [G|G].
          - assert (l + m = e_upper e) as Q by (unfold k in Hm; lia). unfold image. cbn [case_of].
            split; intros (x & H & Ex); exists x; (split; [exact H|]); destruct (Z.ltb_spec x (e_upper e)); try lia;
              rewrite andb_false_r in *; exact Ex.
          - split; intros H; exfalso; eapply EMP; eauto. }
        tauto.
Qed.

Lemma convert_range_spec map r : sorted_map map = true -> ne r ->
  (forall e, In e map -> ~ (e_lower e < lo r < e_upper e /\ e_upper e < hi r)) ->
  exists res, convert_range map r = Some res /\ wf res /\ forall y, mem res y <-> exists x, in_range x r /\ case_of map x = y.
Proof.
  intros S N H. unfold convert_range. destruct (first_entry_spec map (lo r) S) as (A & B).
  set (p := first_entry map (lo r)) in *. unfold ne in N.
  destruct (convert_loop_spec (2 * length (skipn p map) + 2) (skipn p map) (lo r) (hi r) []) as (res & E & W & M).
  - apply sorted_map_skipn, S.
  - apply wf_nil.
  - lia.
  - destruct (skipn p map) as [|e t] eqn:Q; [exact I|]. specialize (B e t eq_refl). split; [exact B|].
    intros L. destruct (Z_le_dec (hi r) (e_upper e)); [assumption|]. exfalso. apply (H e); [|lia].
    rewrite <- (firstn_skipn p map), Q. apply in_or_app. right. left. reflexivity.
  - destruct (skipn p map) as [|e t]; [cbn; lia|]. destruct ((lo r <? e_lower e) && (lo r <? hi r)); lia.
  - exists res. split; [exact E|]. split; [exact W|]. intros y. rewrite M, mem_nil. unfold image, in_range.
    assert (CS : forall x, lo r <= x -> case_of map x = case_of (skipn p map) x).
    { intros x Hx. apply case_of_skip. intros i Hi _. specialize (A i Hi). lia. }
    split.
    + intros [[]|(x & Hx & Ex)]. exists x. split; [exact Hx|]. rewrite CS by lia. exact Ex.
    + intros (x & Hx & Ex). right. exists x. split; [exact Hx|]. rewrite <- CS by lia. exact Ex.
Qed.

Lemma convert_ranges_spec map : sorted_map map = true -> forall source result, wf result -> Forall ne source ->
  no_straddle map source ->
  exists res, convert_ranges map source result = Some res /\ wf res /\
    forall y, mem res y <-> mem result y \/ exists x, mem source x /\ case_of map x = y.
Proof.
  intros S. induction source as [|r t IH]; intros result W F NS; cbn [convert_ranges].
  - exists result. split; [reflexivity|]. split; [exact W|]. intros y. split; [auto|]. intros [?|(x & Hx & _)]; [assumption|].
    apply mem_nil in Hx. destruct Hx.
  - inversion F as [|? ? F1 F2]; subst. destruct (convert_range_spec map r S F1) as (c & E & Wc & Mc).
    { intros e He. apply (NS r e); [left; reflexivity|exact He]. }
    rewrite E. assert (Fc : Forall ne c) by (apply Forall_forall; intros x Hx; eapply wf_ne; eauto).
    destruct (union_set_spec c result W Fc) as (Wu & Mu).
    destruct (IH (union_set result c) Wu F2) as (res & E2 & W2 & M2).
    { intros r' e Hr He. apply (NS r' e); [right; exact Hr|exact He]. }
    exists res. split; [exact E2|]. split; [exact W2|]. intros y. rewrite M2, Mu, Mc. split.
    + intros [[H|(x & Hx & Ex)]|(x & Hx & Ex)]; [left; exact H| |]; right; exists x; rewrite mem_cons; auto.
    + intros [H|(x & Hx & Ex)]; [auto|]. rewrite mem_cons in Hx. destruct Hx as [Hx|Hx]; [left; right|right]; eauto.
Qed.

Lemma case_lemma map s : sorted_map map = true -> normal s -> no_straddle map s ->
  exists res, to_case map s = Some res /\
    forall y, contains res y = true <-> exists x, contains s x = true /\ case_of map x = y.
Proof.
  intros S N NS. pose proof (normal_wf s N) as W.
  destruct (convert_ranges_spec map S s [] wf_nil) as (res & E & Wr & M); [apply Forall_valid_ne, N|exact NS|].
  exists res. split; [exact E|]. intros y. rewrite (contains_spec res y Wr), M, mem_nil. split.
  - intros [[]|(x & Hx & Ex)]. exists x. split; [apply contains_spec; assumption|exact Ex].
  - intros (x & Hx & Ex). right. exists x. split; [apply contains_spec; assumption|exact Ex].
Qed.

Lemma tables_sorted : sorted_map uppercase_map = true /\ sorted_map lowercase_map = true.
Proof. split; vm_compute; reflexivity. Qed.

Lemma table_sorted t : t = uppercase_map \/ t = lowercase_map -> sorted_map t = true.
Proof. intros [->| ->]; apply tables_sorted. Qed.

Lemma single_no_straddle map c : no_straddle map [mkR c (c + 1)].
Proof. intros r e [<-|[]] _ H. cbn in H. lia. Qed.

Lemma single_case_lemma map c : sorted_map map = true -> 0 <= c < c_MaxSymbol ->
  exists res, to_case map [mkR c (c + 1)] = Some res /\ forall y, contains res y = true <-> y = case_of map c.
Proof.
  intros S H. assert (N : normal [mkR c (c + 1)]).
  { split; [repeat constructor; cbn; unfold c_MaxSymbol in *; lia|repeat constructor]. }
  destruct (case_lemma map [mkR c (c + 1)] S N (single_no_straddle map c)) as (res & E & M).
  exists res. split; [exact E|]. intros y. rewrite M. split.
  - intros (x & Hx & Ex). apply contains_spec in Hx; [|apply normal_wf, N]. apply mem_cons in Hx. destruct Hx as [Hx|Hx].
    + unfold in_range in Hx. cbn in Hx. assert (x = c) by lia. subst. reflexivity.
    + apply mem_nil in Hx. destruct Hx.
  - intros ->. exists c. split; [|reflexivity]. apply contains_spec; [apply normal_wf, N|]. apply mem_cons. left. unfold in_range. cbn. lia.
Qed.

(** ** Dequoting *)
Lemma represents_step fuel : forall b s pre result q,
  represents b s -> (length b < fuel)%nat ->
  (1 <= length pre)%nat -> (Z.of_nat (length (pre ++ b ++ [q])) < 2 ^ 64) ->
  dequote_loop fuel (pre ++ b ++ [q]) (length pre) result = Some (result ++ s).
Proof.
  induction fuel as [|fuel IH]; intros b s pre result q R F P L; [lia|]. cbn [dequote_loop].
  rewrite Z.mod_small by (rewrite !app_length in *; cbn [length] in *; lia).
  assert (AT : forall k x, nth_error (b ++ [q]) k = Some x -> str_at (pre ++ b ++ [q]) (length pre + k) = Some x).
  { intros k x E. assert (Hk : (k < length (b ++ [q]))%nat) by (apply nth_error_Some; congruence).
    unfold str_at. destruct (Nat.ltb_spec (length pre + k) (length (pre ++ b ++ [q]))) as [_|N]; [|rewrite app_length in N; lia].
    f_equal. rewrite app_nth2_plus. apply nth_error_nth with (d := 0) in E. exact E. }
  inversion R as [|c b' s' NB R'|c v b' s' IC R'|c b' s' NI R']; subst.
  - cbn [app]. destruct (Z.ltb_spec (Z.of_nat (length pre)) (Z.of_nat (length (pre ++ [q])) - 1)) as [N|N];
      [rewrite app_length in N; cbn [length] in N; lia|]. cbn [negb]. rewrite app_nil_r. reflexivity.
  - destruct (Z.ltb_spec (Z.of_nat (length pre)) (Z.of_nat (length (pre ++ (c :: b') ++ [q])) - 1)) as [_|N];
      [|rewrite !app_length in N; cbn [length] in N; lia]. cbn [negb].
    pose proof (AT O c eq_refl) as A. rewrite Nat.add_0_r in A. rewrite A. destruct (Z.eqb_spec c 92); [congruence|].
    specialize (IH b' s' (pre ++ [c]) (result ++ [c]) q R'). rewrite <- !app_assoc in IH. cbn [app] in IH.
    rewrite app_length in IH. cbn [length] in *. replace (length pre + 1)%nat with (S (length pre)) in IH by lia.
    apply IH; [lia|lia|]. cbn [app] in L. rewrite app_length in *. exact L.
  - destruct (Z.ltb_spec (Z.of_nat (length pre)) (Z.of_nat (length (pre ++ (92 :: c :: b') ++ [q])) - 1)) as [_|N];
      [|rewrite !app_length in N; cbn [length] in N; lia]. cbn [negb].
    pose proof (AT O 92 eq_refl) as A. rewrite Nat.add_0_r in A. rewrite A. cbn [Z.eqb Pos.eqb].
    pose proof (AT 1%nat c eq_refl) as A1. replace (length pre + 1)%nat with (S (length pre)) in A1 by lia. rewrite A1.
    assert (E : escape c = v).
    { cbn in IC. repeat (destruct IC as [IC|IC]; [injection IC as <- <-; reflexivity|]). destruct IC. }
    rewrite E. specialize (IH b' s' (pre ++ [92; c]) (result ++ [v]) q R'). rewrite <- !app_assoc in IH. cbn [app] in IH.
    rewrite app_length in IH. cbn [length] in *. replace (length pre + 2)%nat with (S (S (length pre))) in IH by lia.
    apply IH; [lia|lia|]. cbn [app] in L. rewrite app_length in *. exact L.
  - destruct (Z.ltb_spec (Z.of_nat (length pre)) (Z.of_nat (length (pre ++ (92 :: c :: b') ++ [q])) - 1)) as [_|N];
      [|rewrite !app_length in N; cbn [length] in N; lia]. cbn [negb].
    pose proof (AT O 92 eq_refl) as A. rewrite Nat.add_0_r in A. rewrite A. cbn [Z.eqb Pos.eqb].
    pose proof (AT 1%nat c eq_refl) as A1. replace (length pre + 1)%nat with (S (length pre)) in A1 by lia. rewrite A1.
    assert (E : escape c = c).
    { unfold escape. cbn in NI.
      repeat match goal with |- context [if ?x =? ?y then _ else _] => destruct (Z.eqb_spec x y); [exfalso; apply NI; subst; tauto|] end.
      reflexivity. }
    rewrite E. specialize (IH b' s' (pre ++ [92; c]) (result ++ [c]) q R'). rewrite <- !app_assoc in IH. cbn [app] in IH.
    rewrite app_length in IH. cbn [length] in *. replace (length pre + 2)%nat with (S (S (length pre))) in IH by lia.
    apply IH; [lia|lia|]. cbn [app] in L. rewrite app_length in *. exact L.
Qed.

Lemma dequote_lemma p q b s : represents b s -> Z.of_nat (length b) + 2 < 2 ^ 64 ->
  dequote_string (p :: b ++ [q]) = Some s.
Proof.
  intros R L. unfold dequote_string. apply (represents_step (S (length (p :: b ++ [q]))) b s [p] [] q R).
  - cbn [length]. rewrite app_length. lia.
  - cbn. lia.
  - cbn [app length]. rewrite app_length. cbn [length]. lia.
Qed.

Lemma quote_represents s : represents (flat_map (fun c => if (c =? 34) || (c =? 92) then [92; c] else [c]) s) s.
Proof.
  induction s as [|c s IH]; [constructor|]. cbn [flat_map]. destruct (Z.eqb_spec c 34) as [->|N]; cbn [orb].
  - cbn [app]. apply R_escape; [cbn; lia|exact IH].
  - destruct (Z.eqb_spec c 92) as [->|N2]; cbn [app].
    + apply R_escape; [cbn; lia|exact IH].
    + apply R_plain; assumption.
Qed.

Lemma round_trip_lemma s : Z.of_nat (length (quote s)) < 2 ^ 64 -> dequote_string (quote s) = Some s.
Proof.
  intros L. unfold quote in *. apply dequote_lemma; [apply quote_represents|].
  cbn [length] in L. rewrite app_length in L. cbn [length] in L. lia.
Qed.

(** The reading is defined for every string but the empty one. *)
Lemma dequote_loop_defined s : s <> [] -> Z.of_nat (length s) < 2 ^ 64 -> forall fuel pos result,
  (length s < fuel + pos)%nat -> (0 < fuel)%nat -> dequote_loop fuel s pos result <> None.
Proof.
  intros NE L. assert (0 < length s)%nat by (destruct s; [congruence|cbn; lia]).
  induction fuel as [|fuel IH]; intros pos result F F0; [lia|]. cbn [dequote_loop]. rewrite Z.mod_small by lia.
  destruct (Z.ltb_spec (Z.of_nat pos) (Z.of_nat (length s) - 1)) as [P|P]; cbn [negb]; [|discriminate].
  unfold str_at. destruct (Nat.ltb_spec pos (length s)); [|lia]. destruct (nth pos s 0 =? 92).
  - destruct (Nat.ltb_spec (S pos) (length s)); [|lia]. apply IH; lia.
  - apply IH; lia.
Qed.

Lemma dequote_defined_lemma s : Z.of_nat (length s) < 2 ^ 64 -> dequote_string s = None <-> s = [].
Proof.
  intros L. split.
  - intros H. destruct s as [|a t]; [reflexivity|]. exfalso. revert H. apply dequote_loop_defined; [discriminate|exact L|lia|lia].
  - intros ->. reflexivity.
Qed.

(** Every text without an unpaired backslash at its end stands for exactly one string. *)
Lemma represents_unique b s : represents b s -> forall s', represents b s' -> s = s'.
Proof.
  induction 1 as [|c b s N R IH|c v b s IC R IH|c b s NI R IH]; intros s2 R2; inversion R2; subst; try congruence.
  - f_equal; auto.
  - f_equal; [|auto].
    assert (FN : forall c v, In (c, v) control -> v = escape c).
    { intros c0 v1 H. cbn in H. repeat (destruct H as [H|H]; [injection H as <- <-; reflexivity|]). destruct H. }
    rewrite (FN _ _ IC), (FN _ _ H1). reflexivity.
  - exfalso. apply H1. apply (in_map fst) in IC. exact IC.
  - exfalso. apply NI. apply (in_map fst) in H1. exact H1.
  - f_equal; auto.
Qed.

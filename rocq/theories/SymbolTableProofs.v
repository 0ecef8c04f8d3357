(** Proofs about symbol tables. *)
From Verif Require Import Base OrdMap SymbolSetModel SymbolSetSpec SymbolSetProofs SymbolMapModel SymbolMapSpec SymbolMapProofs.
From Verif Require Import SymbolTableModel SymbolTableSpec.
Local Open Scope Z_scope.

(** * Arithmetic *)

Definition unit_size (l : nat) : Z := 2 ^ shift l.

Lemma unit_pos l : 0 < unit_size l.
Proof. unfold unit_size, shift. apply Z.pow_pos_nonneg; lia. Qed.

Lemma unit_S l : unit_size (S l) = 256 * unit_size l.
Proof.
  unfold unit_size, shift. replace (8 * Z.of_nat (S l)) with (8 + 8 * Z.of_nat l) by lia.
  rewrite Z.pow_add_r by lia. reflexivity.
Qed.

Lemma unit_0 : unit_size 0 = 1.
Proof. reflexivity. Qed.

Lemma shift_nonneg l : 0 <= shift l. Proof. unfold shift; lia. Qed.

Lemma shiftr_unit x l : Z.shiftr x (shift l) = x / unit_size l.
Proof. apply Z.shiftr_div_pow2, shift_nonneg. Qed.
Lemma shiftl_unit x l : Z.shiftl x (shift l) = x * unit_size l.
Proof. apply Z.shiftl_mul_pow2, shift_nonneg. Qed.
Lemma land_unit x l : Z.land x (Z.shiftl 1 (shift l) - 1) = x mod unit_size l.
Proof.
  replace (Z.shiftl 1 (shift l) - 1) with (Z.ones (shift l)) by (rewrite Z.ones_equiv; rewrite shiftl_unit; unfold unit_size; lia).
  rewrite Z.land_ones by apply shift_nonneg. reflexivity.
Qed.

Lemma entry_index_spec l sb v : 0 <= sb -> entry_index l sb v = (v / unit_size l) mod 2 ^ sb.
Proof.
  intros H. unfold entry_index, max_index. rewrite Z.shiftr_land, Z.shiftr_shiftl_l by apply shift_nonneg.
  rewrite Z.sub_diag, Z.shiftl_0_r. replace (2 ^ sb - 1) with (Z.ones sb) by (rewrite Z.ones_equiv; lia).
  rewrite Z.land_ones by exact H. rewrite shiftr_unit. reflexivity.
Qed.

Lemma entry_index_block l sb b c : 0 <= sb -> Z.divide (2 ^ sb * unit_size l) b -> b <= c < b + 2 ^ sb * unit_size l ->
  entry_index l sb c = (c - b) / unit_size l.
Proof.
  intros H [k ->] Hc. rewrite entry_index_spec by exact H. pose proof (unit_pos l) as U.
  assert (P : 0 < 2 ^ sb) by (apply Z.pow_pos_nonneg; lia).
  replace c with ((c - k * (2 ^ sb * unit_size l)) + (k * 2 ^ sb) * unit_size l) at 1 by ring.
  rewrite Z.div_add by lia. rewrite Z.mod_add by lia. apply Z.mod_small. split.
  - apply Z.div_pos; lia.
  - apply Z.div_lt_upper_bound; lia.
Qed.

(** * Loops over arrays *)

Lemma for_range_length {X} (f : Z -> X -> X) s e : forall l i, length (for_range f s e i l) = length l.
Proof. induction l as [|x l IH]; intros i; cbn; auto. Qed.

Lemma for_range_nth {X} (f : Z -> X -> X) s e (dflt : X) : forall l i k, (k < length l)%nat ->
  nth k (for_range f s e i l) dflt =
  (if (s <=? i + Z.of_nat k) && (i + Z.of_nat k <=? e) then f (i + Z.of_nat k) (nth k l dflt) else nth k l dflt).
Proof.
  induction l as [|x l IH]; intros i [|k] Hk; cbn [length for_range nth] in *; try lia.
  - rewrite Z.add_0_r. reflexivity.
  - rewrite IH by lia. replace (i + 1 + Z.of_nat k) with (i + Z.of_nat (S k)) by lia. reflexivity.
Qed.

(** * Lists of additions *)

Definition has (r : range) (c : Z) : bool := (lo r <=? c) && (c <? hi r).
Definition val (R : list (range * Z)) (c : Z) : Z :=
  match find (fun p => has (fst p) c) R with Some p => snd p | None => -1 end.

Lemma has_spec r c : has r c = true <-> in_range c r.
Proof. unfold has, in_range. lia. Qed.

Definition apart (p q : range * Z) : Prop :=
  let r := fst p in let s := fst q in
  (hi r <= lo s \/ hi s <= lo r) /\
  (hi r = lo s -> Z.divide 256 (lo s) -> hi s < lo s + 256) /\
  (hi s = lo r -> Z.divide 256 (lo r) -> hi r < lo r + 256).

Definition nonempty (p : range * Z) : Prop := lo (fst p) < hi (fst p).

Lemma val_app R p c : val (R ++ [p]) c = match find (fun p => has (fst p) c) R with Some p => snd p | None => if has (fst p) c then snd p else -1 end.
Proof.
  unfold val. induction R as [|a R IH]; cbn [app find].
  - destruct (has (fst p) c); reflexivity.
  - destruct (has (fst a) c); [reflexivity|exact IH].
Qed.

Lemma val_app_out R p c : has (fst p) c = false -> val (R ++ [p]) c = val R c.
Proof. intros H. rewrite val_app, H. unfold val. destruct (find _ R); reflexivity. Qed.

Lemma val_app_in R p c : (forall q, In q R -> apart q p) -> has (fst p) c = true -> val (R ++ [p]) c = snd p /\ val R c = -1.
Proof.
  intros HA H. rewrite val_app, H. unfold val. destruct (find (fun p => has (fst p) c) R) as [q|] eqn:E; [|auto].
  exfalso. apply find_some in E as [E1 E2]. apply HA in E1 as [E1 _]. apply has_spec in E2, H. unfold in_range in *. lia.
Qed.

Definition touches (r : range) (b n : Z) : Prop := lo r < b + n /\ b <= hi r.
Definition covers (r : range) (b n : Z) : Prop := lo r <= b /\ b + n <= hi r.

Lemma cover_touch p q b n cb cn : apart p q -> nonempty q -> covers (fst p) b n -> touches (fst q) cb cn ->
  b <= cb -> 0 < cn -> cb + cn <= b + n -> 256 <= n -> Z.divide 256 b -> False.
Proof.
  intros (A1 & A2 & A3) NE [C1 C2] [T1 T2] H1 H2 H3 H4 HD. unfold nonempty in NE.
  assert (hi (fst q) <= lo (fst p) \/ hi (fst p) <= lo (fst q)) as [X|X] by lia; [|lia].
  assert (lo (fst p) = b) by lia. assert (hi (fst q) = lo (fst p)) by lia.
  specialize (A3 ltac:(lia)). assert (Z.divide 256 (lo (fst p))) as D by (replace (lo (fst p)) with b by lia; exact HD). specialize (A3 D). lia.
Qed.

Lemma apart_sym p q : apart p q -> apart q p.
Proof. intros (A & B & C). split; [tauto|]. split; assumption. Qed.

(** * The table invariant *)

Definition span (l : nat) (sb : Z) : Z := 2 ^ sb * unit_size l.

Fixpoint tinv (R : list (range * Z)) (l : nat) (sb b : Z) : table l -> Prop :=
  match l return table l -> Prop with
  | O => fun t =>
    let '(def, symbols) := t in
    (def = -1 \/ exists p, In p R /\ covers (fst p) b (span 0 sb)) /\
    match symbols with
    | None => forall c, b <= c < b + span 0 sb -> val R c = def
    | Some s => length s = Z.to_nat (2 ^ sb) /\ (exists p, In p R /\ (touches (fst p) b (span 0 sb) /\ ~ covers (fst p) b (span 0 sb))) /\
                forall i, 0 <= i < 2 ^ sb -> nth (Z.to_nat i) s (-1) = val R (b + i)
    end
  | S l' => fun t =>
    let '(def, symbols) := t in
    (def = -1 \/ exists p, In p R /\ covers (fst p) b (span (S l') sb)) /\
    match symbols with
    | None => forall c, b <= c < b + span (S l') sb -> val R c = def
    | Some s => length s = Z.to_nat (2 ^ sb) /\
                forall i, 0 <= i < 2 ^ sb ->
                  let cb := b + i * unit_size (S l') in
                  match nth (Z.to_nat i) s None with
                  | None => forall c, cb <= c < cb + unit_size (S l') -> val R c = def
                  | Some u => tinv R l' 8 cb u /\ exists p, In p R /\ touches (fst p) cb (unit_size (S l'))
                  end
    end
  end.

Lemma tinv_S R l sb b (def : Z) (symbols : option (list (option (table l)))) :
  tinv R (S l) sb b (def, symbols) <->
    (def = -1 \/ exists p, In p R /\ covers (fst p) b (span (S l) sb)) /\
    match symbols with
    | None => forall c, b <= c < b + span (S l) sb -> val R c = def
    | Some s => length s = Z.to_nat (2 ^ sb) /\
                forall i, 0 <= i < 2 ^ sb ->
                  match nth (Z.to_nat i) s None with
                  | None => forall c, b + i * unit_size (S l) <= c < b + i * unit_size (S l) + unit_size (S l) -> val R c = def
                  | Some u => tinv R l 8 (b + i * unit_size (S l)) u /\
                              exists p, In p R /\ touches (fst p) (b + i * unit_size (S l)) (unit_size (S l))
                  end
    end.
Proof. reflexivity. Qed.

Lemma span_8 l : span l 8 = unit_size (S l).
Proof. unfold span. rewrite unit_S. reflexivity. Qed.

Lemma tinv_empty l sb b R : 0 <= sb -> (forall c, b <= c < b + span l sb -> val R c = -1) -> tinv R l sb b (empty_table l).
Proof. intros H HV. destruct l; cbn; auto. Qed.

Lemma tinv_frame R p : forall l sb b t, 0 <= sb -> (forall c, b <= c < b + span l sb -> has (fst p) c = false) ->
  tinv R l sb b t -> tinv (R ++ [p]) l sb b t.
Proof.
  assert (EX : forall (P : range * Z -> Prop), (exists p, In p R /\ P p) -> exists q, In q (R ++ [p]) /\ P q).
  { intros P (q & H1 & H2). exists q. split; [apply in_or_app; auto|exact H2]. }
  induction l as [|l IH]; intros sb b [def symbols] Hsb HN H.
  - cbn [tinv] in *. destruct H as [H1 H2]. split; [destruct H1 as [H1|H1]; [auto|right; apply EX; exact H1]|]. destruct symbols as [s|].
    + destruct H2 as (L & T & V). split; [exact L|]. split; [apply EX; exact T|]. intros i Hi. rewrite val_app_out; [apply V; exact Hi|].
      apply HN. unfold span. rewrite unit_0. lia.
    + intros c Hc. rewrite val_app_out by (apply HN; exact Hc). apply H2. exact Hc.
  - apply (proj1 (tinv_S _ _ _ _ _ _)) in H. apply tinv_S. destruct H as [H1 H2]. split; [destruct H1 as [H1|H1]; [auto|right; apply EX; exact H1]|]. destruct symbols as [s|].
    + destruct H2 as (L & V). split; [exact L|]. intros i Hi. specialize (V i Hi).
      assert (SUB : forall c, b + i * unit_size (S l) <= c < b + i * unit_size (S l) + unit_size (S l) -> has (fst p) c = false).
      { intros c Hc. apply HN. unfold span. pose proof (unit_pos (S l)). nia. }
      destruct (nth (Z.to_nat i) s None) as [u|].
      * destruct V as [V1 V2]. split; [|apply EX; exact V2]. apply IH; [lia| |exact V1]. rewrite span_8. exact SUB.
      * intros c Hc. rewrite val_app_out by (apply SUB; exact Hc). apply V. exact Hc.
    + intros c Hc. rewrite val_app_out by (apply HN; exact Hc). apply H2. exact Hc.
Qed.

Lemma clamp_index r b l : 0 <= hi r ->
  Z.shiftr (if hi r - b <? 0 then 0 else hi r - b) (shift l) = Z.max 0 (hi r - b) / unit_size l.
Proof. intros _. rewrite shiftr_unit. f_equal. destruct (Z.ltb_spec (hi r - b) 0); lia. Qed.

Lemma clamp_start r b : (if lo r - b <? 0 then 0 else lo r - b) = Z.max 0 (lo r - b).
Proof. destruct (Z.ltb_spec (lo r - b) 0); lia. Qed.
Lemma clamp_end r b : (if hi r - b <? 0 then 0 else hi r - b) = Z.max 0 (hi r - b).
Proof. destruct (Z.ltb_spec (hi r - b) 0); lia. Qed.

Lemma cover_test r b l sb : 0 <= sb ->
  (Z.land (Z.max 0 (lo r - b)) (Z.shiftl 1 (shift l) - 1) =? 0) && (Z.shiftr (Z.max 0 (lo r - b)) (shift l) =? 0) &&
  (max_index sb <=? Z.shiftr (Z.max 0 (hi r - b)) (shift l)) = true <-> covers r b (span l sb).
Proof.
  intros H. rewrite land_unit, !shiftr_unit. unfold max_index, covers, span. pose proof (unit_pos l) as U.
  assert (P : 0 < 2 ^ sb) by (apply Z.pow_pos_nonneg; lia).
  rewrite !andb_true_iff, !Z.eqb_eq, Z.leb_le. split.
  - intros [[H1 H2] H3]. pose proof (Z.div_mod (Z.max 0 (lo r - b)) (unit_size l) ltac:(lia)) as E. rewrite H1, H2 in E.
    pose proof (Z.mul_div_le (Z.max 0 (hi r - b)) (unit_size l) U). split; [lia|]. nia.
  - intros [H1 H2]. replace (Z.max 0 (lo r - b)) with 0 by lia. rewrite Z.mod_0_l, Z.div_0_l by lia. split; [auto|].
    apply Z.div_le_lower_bound; nia.
Qed.

Lemma step R p : forall l sb b t, 7 <= sb -> (forall q, In q R -> apart q p) -> (forall q, In q R -> nonempty q) -> nonempty p ->
  256 <= span l sb -> Z.divide (span l sb) b -> Z.divide 256 b -> b <= hi (fst p) -> (l = O -> lo (fst p) < b + span l sb) ->
  tinv R l sb b t -> tinv (R ++ [p]) l sb b (add_range l sb b (fst p) (snd p) t).
Proof.
  destruct p as [r id]. cbn [fst snd].
  induction l as [|l IH]; intros sb b [def symbols] Hsb HA HNE NE HS HD HD' HB HT TI; cbn [add_range].
  - rewrite clamp_start, clamp_end.
    assert (P : 0 < 2 ^ sb) by (apply Z.pow_pos_nonneg; lia).
    assert (SP : span 0 sb = 2 ^ sb) by (unfold span; rewrite unit_0; lia). rewrite SP in *.
    destruct (_ && _ && _) eqn:EC.
    + rewrite (cover_test r b 0 sb) in EC by lia. rewrite SP in EC. cbn [tinv] in *. rewrite SP in *. destruct TI as [T1 T2].
      split; [right; exists (r, id); split; [apply in_or_app; cbn; auto|exact EC]|].
      destruct symbols as [s|].
      * exfalso. destruct T2 as (_ & (q & Q1 & Q2 & _) & _).
        eapply (cover_touch (r, id) q b (2 ^ sb) b (2 ^ sb)); [apply apart_sym; apply HA; exact Q1|apply HNE; exact Q1|exact EC|exact Q2|lia|lia|lia|lia|exact HD'].
      * intros c Hc. destruct (val_app_in R (r, id) c HA) as [V _]; [|exact V]. apply has_spec. unfold in_range, covers in *. cbn [fst]. lia.
    + assert (NC : ~ covers r b (2 ^ sb)). { intros X. rewrite <- SP in X. apply (cover_test r b 0 sb) in X; [congruence|lia]. }
      clear EC. cbn [tinv] in *. rewrite SP in *. destruct TI as [T1 T2]. specialize (HT eq_refl). assert (HTT : touches r b (2 ^ sb)) by (split; cbn [fst] in *; lia). rewrite !shiftr_unit, unit_0, !Z.div_1_r. unfold max_index.
      split; [destruct T1 as [T1|(q & Q1 & Q2)]; [auto|right; exists q; split; [apply in_or_app; auto|exact Q2]]|].
      set (syms := match symbols with Some s => s | None => repeat (-1) (Z.to_nat (2 ^ sb)) end).
      assert (LS : length syms = Z.to_nat (2 ^ sb)) by (unfold syms; destruct symbols; [apply T2|apply repeat_length]).
      assert (VS : forall i, 0 <= i < 2 ^ sb -> nth (Z.to_nat i) syms (-1) = val R (b + i)).
      { unfold syms. destruct symbols as [s|]; [apply T2|]. intros i Hi. rewrite nth_repeat. rewrite T2 by lia.
        destruct T1 as [T1|(q & Q1 & Q2)]; [auto|]. exfalso.
        eapply (cover_touch q (r, id) b (2 ^ sb) b (2 ^ sb)); [apply HA; exact Q1|exact NE|exact Q2|exact HTT|lia|lia|lia|lia|exact HD']. }
      split; [rewrite for_range_length; exact LS|]. split; [exists (r, id); split; [apply in_or_app; cbn; auto|split; [exact HTT|exact NC]]|].
      intros i Hi. rewrite for_range_nth by lia. rewrite Z2Nat.id, Z.add_0_l by lia.
      assert (HH : (Z.max 0 (lo r - b) <=? i) && (i <=? (if 2 ^ sb <? Z.max 0 (hi r - b) then 2 ^ sb else Z.max 0 (hi r - b)) - 1) = has r (b + i)).
      { unfold has. destruct (Z.ltb_spec (2 ^ sb) (Z.max 0 (hi r - b))); lia. }
      rewrite HH. destruct (has r (b + i)) eqn:Hh.
      * destruct (val_app_in R (r, id) (b + i) HA Hh) as [V _]. symmetry. exact V.
      * rewrite val_app_out by exact Hh. apply VS. exact Hi.
  - rewrite clamp_start, clamp_end.
    assert (P : 0 < 2 ^ sb) by (apply Z.pow_pos_nonneg; lia). pose proof (unit_pos (S l)) as U.
    assert (U256 : 256 <= unit_size (S l)) by (rewrite unit_S; pose proof (unit_pos l); lia).
    destruct (_ && _ && _) eqn:EC.
    + rewrite (cover_test r b (S l) sb) in EC by lia. apply (proj1 (tinv_S _ _ _ _ _ _)) in TI. apply tinv_S. destruct TI as [T1 T2].
      split; [right; exists (r, id); split; [apply in_or_app; cbn; auto|exact EC]|].
      assert (VV : forall c, b <= c < b + span (S l) sb -> val (R ++ [(r, id)]) c = id).
      { intros c Hc. destruct (val_app_in R (r, id) c HA) as [V _]; [|exact V]. apply has_spec. unfold in_range, covers in *. cbn [fst]. lia. }
      destruct symbols as [s|]; [|exact VV]. destruct T2 as [L V]. split; [exact L|]. intros i Hi. specialize (V i Hi).
      destruct (nth (Z.to_nat i) s None) as [u|].
      * exfalso. destruct V as [_ (q & Q1 & Q2)].
        eapply (cover_touch (r, id) q b (span (S l) sb) (b + i * unit_size (S l)) (unit_size (S l))); [apply apart_sym; apply HA; exact Q1|apply HNE; exact Q1|exact EC|exact Q2|nia|lia|unfold span; nia|exact HS|exact HD'].
      * intros c Hc. apply VV. unfold span. nia.
    + clear EC. apply (proj1 (tinv_S _ _ _ _ _ _)) in TI. apply tinv_S. destruct TI as [T1 T2].
      split; [destruct T1 as [T1|(q & Q1 & Q2)]; [auto|right; exists q; split; [apply in_or_app; auto|exact Q2]]|].
      match goal with |- length (for_range _ _ _ _ ?y) = _ /\ _ => set (syms := y : list (option (table l))) end.
      assert (LS : length syms = Z.to_nat (2 ^ sb)) by (unfold syms; destruct symbols; [apply T2|apply repeat_length]).
      assert (VS : forall i, 0 <= i < 2 ^ sb -> match nth (Z.to_nat i) syms None with
                  | None => forall c, b + i * unit_size (S l) <= c < b + i * unit_size (S l) + unit_size (S l) -> val R c = def
                  | Some u => tinv R l 8 (b + i * unit_size (S l)) u /\ exists p, In p R /\ touches (fst p) (b + i * unit_size (S l)) (unit_size (S l))
                  end).
      { unfold syms. destruct symbols as [s|]; [apply T2|]. intros i Hi. rewrite nth_repeat. intros c Hc. apply T2. unfold span. nia. }
      clearbody syms. clear T2.
      split; [rewrite for_range_length; exact LS|].
      intros i Hi. rewrite for_range_nth by lia. rewrite Z2Nat.id, Z.add_0_l by lia. rewrite !shiftr_unit. unfold max_index.
      set (cb := b + i * unit_size (S l)).
      assert (HH : (Z.max 0 (lo r - b) / unit_size (S l) <=? i) && (i <=? (if 2 ^ sb - 1 <? Z.max 0 (hi r - b) / unit_size (S l) then 2 ^ sb - 1 else Z.max 0 (hi r - b) / unit_size (S l))) = true
                 <-> touches r cb (unit_size (S l))).
      { unfold touches, cb. rewrite andb_true_iff, !Z.leb_le.
        assert (X1 : Z.max 0 (lo r - b) / unit_size (S l) <= i <-> lo r < b + i * unit_size (S l) + unit_size (S l)).
        { rewrite <- Z.lt_succ_r. split; intros X.
          - assert (Z.max 0 (lo r - b) < unit_size (S l) * Z.succ i); [|nia].
            pose proof (Z.mul_succ_div_gt (Z.max 0 (lo r - b)) (unit_size (S l)) U). nia.
          - apply Z.div_lt_upper_bound; nia. }
        assert (X2 : i <= Z.max 0 (hi r - b) / unit_size (S l) <-> (i = 0 \/ b + i * unit_size (S l) <= hi r)).
        { split; intros X.
          - pose proof (Z.mul_div_le (Z.max 0 (hi r - b)) (unit_size (S l)) U). destruct (Z.eq_dec i 0); [auto|]. right. nia.
          - apply Z.div_le_lower_bound; [lia|]. destruct X as [->|X]; nia. }
        rewrite X1. assert (i <= (if 2 ^ sb - 1 <? Z.max 0 (hi r - b) / unit_size (S l) then 2 ^ sb - 1 else Z.max 0 (hi r - b) / unit_size (S l))
                            <-> i <= Z.max 0 (hi r - b) / unit_size (S l)) as -> by (destruct (Z.ltb_spec (2 ^ sb - 1) (Z.max 0 (hi r - b) / unit_size (S l))); lia).
        rewrite X2. cbn [fst] in HB. split; intros [Y1 Y2]; (split; [exact Y1|]); [destruct Y2 as [->|Y2]; lia|right; lia]. }
      specialize (VS i Hi). fold cb in VS.
      destruct ((Z.max 0 (lo r - b) / unit_size (S l) <=? i) && _) eqn:E.
      * destruct HH as [HH _]. specialize (HH eq_refl). rewrite shiftl_unit. fold cb.
        split; [|exists (r, id); split; [apply in_or_app; cbn; auto|exact HH]].
        assert (DC : Z.divide (span l 8) cb).
        { rewrite span_8. unfold cb. apply Z.divide_add_r; [|apply Z.divide_factor_r].
          eapply Z.divide_trans; [|exact HD]. unfold span. apply Z.divide_factor_r. }
        apply IH; [lia|exact HA|exact HNE|exact NE|rewrite span_8; exact U256|exact DC| |apply HH|intros _; rewrite span_8; apply HH|].
        -- eapply Z.divide_trans; [|exact DC]. rewrite span_8, unit_S. apply Z.divide_factor_l.
        -- destruct (nth (Z.to_nat i) syms None) as [u|]; [apply VS|]. apply tinv_empty; [lia|]. rewrite span_8. intros c Hc. rewrite VS by exact Hc.
           destruct T1 as [T1|(q & Q1 & Q2)]; [exact T1|]. exfalso.
           eapply (cover_touch q (r, id) b (span (S l) sb) cb (unit_size (S l))); [apply HA; exact Q1|exact NE|exact Q2|exact HH|unfold cb; nia|lia|unfold span, cb; nia|exact HS|exact HD'].
      * assert (NT : ~ touches r cb (unit_size (S l))) by (intros X; apply HH in X; congruence).
        assert (OUT : forall c, cb <= c < cb + unit_size (S l) -> has r c = false).
        { intros c Hc. destruct (has r c) eqn:Hh; [|reflexivity]. exfalso. apply NT. apply has_spec in Hh. unfold in_range, touches in *. lia. }
        destruct (nth (Z.to_nat i) syms None) as [u|].
        -- destruct VS as [V1 (q & Q1 & Q2)]. split; [|exists q; split; [apply in_or_app; auto|exact Q2]].
           apply tinv_frame; [lia| |exact V1]. rewrite span_8. exact OUT.
        -- intros c Hc. rewrite val_app_out by (apply OUT; exact Hc). apply VS. exact Hc.
Qed.

(** * All additions *)

Definition pairwise (adds : list (range * Z)) : Prop := StronglySorted apart adds.

Lemma pairwise_snoc R p : pairwise (R ++ [p]) -> pairwise R /\ forall q, In q R -> apart q p.
Proof. intros H. apply SS_app in H as (H1 & _ & H3). split; [exact H1|]. intros q Hq. apply H3; cbn; auto. Qed.

Lemma add_all_inv l sb : 7 <= sb -> 256 <= span l sb -> forall adds,
  pairwise adds -> Forall nonempty adds -> (forall p, In p adds -> 0 <= lo (fst p)) ->
  (l = O -> forall p, In p adds -> lo (fst p) < span l sb) ->
  tinv adds l sb 0 (add_all l sb adds).
Proof.
  intros Hsb HS. induction adds as [|p R IH] using rev_ind; intros HP HN H0 HF.
  - unfold add_all. cbn. apply tinv_empty; [lia|]. reflexivity.
  - unfold add_all. rewrite fold_left_app. cbn [fold_left]. apply pairwise_snoc in HP as [HP HA]. apply Forall_app in HN as [HN HNp].
    inversion HNp as [|? ? NE _]; subst. rewrite Forall_forall in HN.
    pose proof (H0 p ltac:(apply in_or_app; cbn; auto)) as P0. unfold nonempty in NE.
    apply step; [lia|exact HA|exact HN|exact NE|exact HS|apply Z.divide_0_r|apply Z.divide_0_r|lia| |].
    + intros E. rewrite Z.add_0_l. apply HF; [exact E|]. apply in_or_app; cbn; auto.
    + apply IH; [exact HP|apply Forall_forall; exact HN| |].
      * intros q Hq. apply H0. apply in_or_app; auto.
      * intros E q Hq. apply HF; [exact E|]. apply in_or_app; auto.
Qed.

Lemma lookup_S l sb val (def : Z) (symbols : option (list (option (table l)))) :
  lookup (S l) sb val (def, symbols) =
  match symbols with
  | None => def
  | Some s => match nth (Z.to_nat (entry_index (S l) sb val)) s None with
              | None => def
              | Some next => lookup l 8 val next
              end
  end.
Proof. reflexivity. Qed.

Lemma lookup_inv R : forall l sb b t, 0 <= sb -> Z.divide (span l sb) b -> tinv R l sb b t ->
  forall c, b <= c < b + span l sb -> lookup l sb c t = val R c.
Proof.
  induction l as [|l IH]; intros sb b [def symbols] Hsb HD TI c Hc.
  - cbn [lookup]. cbn [tinv] in TI. destruct TI as [_ T2]. destruct symbols as [s|]; [|symmetry; apply T2; exact Hc].
    destruct T2 as (_ & _ & V). rewrite (entry_index_block 0 sb b) by assumption. rewrite unit_0, Z.div_1_r.
    rewrite V by (unfold span in Hc; rewrite unit_0 in Hc; lia). f_equal. lia.
  - rewrite (lookup_S l sb c def symbols). apply (proj1 (tinv_S _ _ _ _ _ _)) in TI. destruct TI as [_ T2]. destruct symbols as [s|]; [|symmetry; apply T2; exact Hc].
    destruct T2 as (_ & V). rewrite (entry_index_block (S l) sb b) by assumption.
    pose proof (unit_pos (S l)) as U. pose proof (Z.div_mod (c - b) (unit_size (S l)) ltac:(lia)) as DM.
    pose proof (Z.mod_pos_bound (c - b) (unit_size (S l)) U) as MB.
    set (i := (c - b) / unit_size (S l)) in *.
    assert (Hi : 0 <= i < 2 ^ sb). { unfold span in Hc. split; [apply Z.div_pos; lia|apply Z.div_lt_upper_bound; lia]. }
    specialize (V i Hi). destruct (nth (Z.to_nat i) s None) as [u|].
    + apply (IH 8 (b + i * unit_size (S l))); [lia| |apply V|rewrite span_8; lia].
      rewrite span_8. apply Z.divide_add_r; [|apply Z.divide_factor_r]. eapply Z.divide_trans; [|exact HD]. apply Z.divide_factor_r.
    + symmetry. apply V. lia.
Qed.

Lemma kind_span k : span (kind_depth k) (kind_bits k) = kind_limit k.
Proof. destruct k; reflexivity. Qed.

Lemma val_in R : pairwise R -> forall p c, In p R -> has (fst p) c = true -> val R c = snd p.
Proof.
  unfold val. induction R as [|q R IH]; intros HP p c Hp Hc; [destruct Hp|]. apply SS_cons in HP as [HP HA]. cbn [find].
  destruct Hp as [->|Hp]; [rewrite Hc; reflexivity|].
  destruct (has (fst q) c) eqn:E; [|apply IH; assumption]. exfalso. destruct (HA p Hp) as [A _]. apply has_spec in E, Hc. unfold in_range in *. lia.
Qed.

Lemma val_none R c : (forall p, In p R -> has (fst p) c = false) -> val R c = -1.
Proof.
  unfold val. induction R as [|q R IH]; intros H; cbn [find]; [reflexivity|]. rewrite H by (cbn; auto). apply IH. intros; apply H; cbn; auto.
Qed.

(** * Maps *)

Lemma SS_flat_map {X Y} (P : Y -> Y -> Prop) (f : X -> list Y) l :
  Forall (fun x => StronglySorted P (f x)) l -> StronglySorted (fun x y => forall a b, In a (f x) -> In b (f y) -> P a b) l ->
  StronglySorted P (flat_map f l).
Proof.
  induction l as [|x l IH]; intros H1 H2; cbn [flat_map]; [constructor|]. inversion H1 as [|? ? H1a H1b]; subst. apply SS_cons in H2 as [H2 H3].
  apply SS_app. split; [exact H1a|]. split; [apply IH; assumption|]. intros a b Ha Hb. apply in_flat_map in Hb as (y & Hy & Hb). eapply H3; eauto.
Qed.

Lemma SS_weaken {X} (P Q : X -> X -> Prop) l : (forall a b, In a l -> In b l -> P a b -> Q a b) -> StronglySorted P l -> StronglySorted Q l.
Proof.
  induction l as [|x l IH]; intros H HS; [constructor|]. apply SS_cons in HS as [H1 H2]. apply SS_cons. split.
  - apply IH; [|exact H1]. intros; apply H; cbn; auto.
  - intros b Hb. apply H; cbn; auto.
Qed.

Lemma SS_map {X Y} (P : Y -> Y -> Prop) (f : X -> Y) l : StronglySorted (fun a b => P (f a) (f b)) l -> StronglySorted P (map f l).
Proof.
  induction l as [|x l IH]; intros HS; cbn; [constructor|]. apply SS_cons in HS as [H1 H2]. apply SS_cons. split; [apply IH; exact H1|].
  intros b Hb. apply in_map_iff in Hb as (y & <- & Hy). auto.
Qed.

Section MapAdditions.
  Variable reqs : list symbol_set.
  Hypothesis NR : Forall normal reqs.
  Let m := sm_of reqs.

  Lemma ids_entry s i : In (s, i) (sm_ids m) <-> 0 <= i < sm_count m /\ sm_get m i = s.
  Proof.
    unfold m. rewrite (si_in _ (sm_of_inv reqs)). fold m. split.
    - intros [H1 H2]. assert (Z.to_nat i < length (sm_sets m))%nat by (apply nth_error_Some; congruence).
      unfold sm_count. split; [lia|]. apply sm_get_nth; assumption.
    - intros [H1 <-]. split; [lia|]. apply sm_get_in. exact H1.
  Qed.

  Lemma sets_normal i : normal (sm_get m i).
  Proof.
    destruct (Z_lt_dec i 0) as [H|H]; [rewrite sm_get_out by lia; split; constructor|].
    destruct (Z_lt_dec i (sm_count m)) as [H'|H']; [|rewrite sm_get_out by lia; split; constructor].
    pose proof (sm_get_in m i ltac:(lia)) as E. apply nth_error_In in E. unfold m in *. rewrite sm_of_sets in E.
    apply (proj1 (firsts_in _ _)) in E. rewrite Forall_forall in NR. apply NR. exact E.
  Qed.

  Lemma additions_in r i : In (r, i) (additions m) <-> 0 <= i < sm_count m /\ In r (sm_get m i).
  Proof.
    unfold additions. rewrite in_flat_map. split.
    - intros ([s j] & H1 & H2). apply in_map_iff in H2 as (r' & E & H2). cbn [fst snd] in *. inversion E; subst. apply ids_entry in H1 as [H1 <-]. auto.
    - intros [H1 H2]. exists (sm_get m i, i). split; [apply ids_entry; auto|]. apply in_map_iff. exists r. auto.
  Qed.

  Hypothesis DJ : disjoint_map m.
  Hypothesis NB : no_block_after_range m.

  Lemma additions_apart : pairwise (additions m).
  Proof.
    unfold pairwise, additions. apply SS_flat_map.
    - apply Forall_forall. intros [s i] Hin. apply ids_entry in Hin as [Hi <-]. cbn [fst snd].
      apply SS_map. pose proof (sets_normal i) as [V S]. eapply SS_weaken; [|exact S]. intros a b Ha Hb Hab. cbv beta in Hab.
      rewrite Forall_forall in V. pose proof (V a Ha) as Va. pose proof (V b Hb) as Vb. unfold valid_range in *.
      unfold apart. cbn [fst]. split; [lia|]. split; lia.
    - eapply SS_weaken; [|exact (si_sorted _ (sm_of_inv reqs))]. fold m. intros [s i] [t j] H1 H2 Hlt [r i'] [r' j'] Hr Hr'. cbn [fst snd] in *.
      apply in_map_iff in Hr as (r0 & E & Hr). apply in_map_iff in Hr' as (r1 & E' & Hr'). inversion E; inversion E'; subst. clear E E'.
      apply ids_entry in H1 as [Hi E1]. apply ids_entry in H2 as [Hj E2]. subst s t.
      assert (NE : i' <> j').
      { intros X. rewrite X in Hlt. pose proof (set_ltb_irrefl (sm_get m j')). congruence. }
      unfold apart. cbn [fst]. pose proof (sets_normal i') as Ni. pose proof (sets_normal j') as Nj.
      destruct Ni as [Vi _]. destruct Nj as [Vj _].
      rewrite Forall_forall in Vi, Vj. specialize (Vi r Hr). specialize (Vj r' Hr'). unfold valid_range in Vi, Vj.
      split; [|split; intros X1 X2; [exact (NB i' j' r r' Hr Hr' X1 X2)|exact (NB j' i' r' r Hr' Hr X1 X2)]].
      destruct (Z_le_dec (hi r) (lo r')) as [|X]; [auto|]. destruct (Z_le_dec (hi r') (lo r)) as [|Y]; [auto|]. exfalso.
      apply NE. apply (DJ i' j' (Z.max (lo r) (lo r'))).
      + apply contains_spec; [apply normal_wf, sets_normal|]. exists r. split; [exact Hr|]. unfold in_range. lia.
      + apply contains_spec; [apply normal_wf, sets_normal|]. exists r'. split; [exact Hr'|]. unfold in_range. lia.
  Qed.

  Lemma additions_valid p : In p (additions m) -> valid_range (fst p).
  Proof.
    destruct p as [r i]. intros H. apply additions_in in H as [_ H]. pose proof (sets_normal i) as [V _]. rewrite Forall_forall in V. apply V. exact H.
  Qed.

  Lemma val_exact c : lookup_exact m c (val (additions m) c).
  Proof.
    unfold lookup_exact.
    destruct (find (fun p => has (fst p) c) (additions m)) as [[r i]|] eqn:E.
    - left. assert (val (additions m) c = i) as -> by (unfold val; rewrite E; reflexivity).
      apply find_some in E as [E1 E2]. apply additions_in in E1 as [Hi Hr]. split; [exact Hi|].
      apply contains_spec; [apply normal_wf, sets_normal|]. exists r. split; [exact Hr|]. apply has_spec. exact E2.
    - right. split; [unfold val; rewrite E; reflexivity|]. intros i.
      destruct (contains (sm_get m i) c) eqn:C; [|reflexivity]. exfalso.
      apply contains_spec in C as (r & Hr & Hc); [|apply normal_wf, sets_normal].
      assert (Hi : 0 <= i < sm_count m). { destruct (Z_lt_dec i 0); [rewrite sm_get_out in Hr by lia; destruct Hr|]. destruct (Z_lt_dec i (sm_count m)); [lia|]. rewrite sm_get_out in Hr by lia. destruct Hr. }
      pose proof (find_none _ _ E (r, i) ltac:(apply additions_in; auto)) as X. cbn [fst] in X. apply has_spec in Hc. congruence.
  Qed.

  Lemma translator_inv k : fits k m -> tinv (additions m) (kind_depth k) (kind_bits k) 0 (translator k m).
  Proof.
    intros HF. unfold translator. apply add_all_inv.
    - destruct k; cbn; lia.
    - rewrite kind_span. destruct k; cbn; lia.
    - exact additions_apart.
    - apply Forall_forall. intros p Hp. apply additions_valid in Hp. unfold valid_range, nonempty in *. lia.
    - intros p Hp. apply additions_valid in Hp. unfold valid_range in Hp. lia.
    - intros E [r i] Hp. apply additions_in in Hp as [_ Hp]. rewrite kind_span. destruct k; try discriminate. cbn [fst kind_limit]. eapply HF; eauto.
  Qed.

  Theorem translator_lemma k c : fits k m -> 0 <= c < kind_limit k -> lookup_exact m c (set_for_symbol k (translator k m) c).
  Proof.
    intros HF Hc. unfold set_for_symbol. rewrite (lookup_inv (additions m) _ _ 0); [apply val_exact|destruct k; cbn; lia|apply Z.divide_0_r|apply translator_inv; exact HF|].
    rewrite kind_span. lia.
  Qed.
End MapAdditions.

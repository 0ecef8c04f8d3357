(** Proofs about item sets. *)
From Verif Require Import Base OrdMap ItemSetModel ItemSetSpec.
Local Open Scope Z_scope.

(** ** Bits *)
Lemma shift_id id : Z.shiftr id 5 = id / 32.
Proof. rewrite Z.shiftr_div_pow2 by lia. reflexivity. Qed.
Lemma mask_id id : Z.land id 31 = id mod 32.
Proof. change 31 with (Z.ones 5). rewrite Z.land_ones by lia. reflexivity. Qed.
Lemma one_bit b i : 0 <= b -> 0 <= i -> Z.testbit (Z.shiftl 1 b) i = (i =? b).
Proof.
  intros Hb Hi. rewrite Z.shiftl_spec by lia. destruct (Z.eqb_spec i b) as [->|N]; [rewrite Z.sub_diag; reflexivity|].
  change 1 with (2 ^ 0). destruct (Z_lt_le_dec i b).
  - apply Z.testbit_neg_r. lia.
  - apply Z.pow2_bits_false. lia.
Qed.
Lemma mask_test w b : 0 <= b -> (Z.land w (Z.shiftl 1 b) =? 0) = negb (Z.testbit w b).
Proof.
  intros Hb. destruct (Z.testbit w b) eqn:E; cbn [negb].
  - apply Z.eqb_neq. intros H. pose proof (f_equal (fun z => Z.testbit z b) H) as X. cbn beta in X.
    rewrite Z.land_spec, E, one_bit, Z.eqb_refl, Z.bits_0 in X by lia. discriminate X.
  - apply Z.eqb_eq. apply Z.bits_inj'. intros i Hi. rewrite Z.land_spec, one_bit, Z.bits_0 by lia.
    destruct (Z.eqb_spec i b) as [->|]; [rewrite E; reflexivity|apply Bool.andb_false_r].
Qed.

Definition bit_at (ws : list Z) (x : Z) : bool := Z.testbit (word_at ws (x / 32)) (x mod 32).
Definition word_ok (w : Z) : Prop := 0 <= w < 2 ^ 32.

Lemma high_bits w i : word_ok w -> 32 <= i -> Z.testbit w i = false.
Proof.
  intros W Hi. unfold word_ok in W. destruct (Z.eq_dec w 0) as [->|N]; [apply Z.bits_0|].
  apply Z.bits_above_log2; [lia|]. assert (Z.log2 w < 32) by (apply Z.log2_lt_pow2; lia). lia.
Qed.
Lemma word_of_bits w : 0 <= w -> (forall i, 32 <= i -> Z.testbit w i = false) -> word_ok w.
Proof.
  intros W H. split; [exact W|]. destruct (Z.eq_dec w 0) as [->|N]; [reflexivity|]. apply Z.log2_lt_pow2; [lia|].
  destruct (Z_lt_le_dec (Z.log2 w) 32) as [L|L]; [exact L|]. specialize (H _ L). rewrite Z.bit_log2 in H by lia. discriminate H.
Qed.

Lemma word_at_set ws i w j : 0 <= i < Z.of_nat (length ws) -> 0 <= j -> word_at (set_word ws (Z.to_nat i) w) j = if j =? i then w else word_at ws j.
Proof.
  intros Hi Hj. unfold word_at. assert (E : (j =? i) = Nat.eqb (Z.to_nat j) (Z.to_nat i)) by (destruct (Z.eqb_spec j i), (Nat.eqb_spec (Z.to_nat j) (Z.to_nat i)); lia).
  rewrite E. clear E. assert (L : (Z.to_nat i < length ws)%nat) by lia. generalize dependent (Z.to_nat i). generalize (Z.to_nat j). clear. intros j i. revert i j.
  induction ws as [|a ws IH]; intros i j L; cbn [length] in L; [lia|]. destruct i as [|i], j as [|j]; cbn [set_word nth Nat.eqb]; try reflexivity. apply IH. lia.
Qed.
Lemma set_word_length ws i w : length (set_word ws i w) = length ws.
Proof. revert i. induction ws as [|a ws IH]; intros [|i]; cbn [set_word length]; auto. Qed.
Lemma set_word_ok ws i w : Forall word_ok ws -> word_ok w -> Forall word_ok (set_word ws i w).
Proof. intros F W. revert i. induction F as [|a ws A F IH]; intros [|i]; cbn [set_word]; constructor; auto. Qed.

Lemma resize_length ws n : length (resize ws n) = max (length ws) n.
Proof. unfold resize. rewrite app_length, repeat_length. lia. Qed.
Lemma nth_repeat_0 n i : nth i (repeat 0 n) 0 = 0.
Proof. revert i. induction n as [|n IH]; intros [|i]; cbn; auto. Qed.
Lemma resize_word ws n i : word_at (resize ws n) i = word_at ws i.
Proof.
  unfold word_at, resize. destruct (le_lt_dec (length ws) (Z.to_nat i)) as [L|L].
  - rewrite app_nth2, nth_repeat_0, nth_overflow by exact L. reflexivity.
  - apply app_nth1, L.
Qed.
Lemma resize_ok ws n : Forall word_ok ws -> Forall word_ok (resize ws n).
Proof. intros F. apply Forall_app. split; [exact F|]. apply Forall_forall. intros x X. apply repeat_spec in X. subst x. split; [lia|reflexivity]. Qed.
Lemma resize_bit ws n x : bit_at (resize ws n) x = bit_at ws x.
Proof. unfold bit_at. rewrite resize_word. reflexivity. Qed.
Lemma word_at_ok ws i : Forall word_ok ws -> word_ok (word_at ws i).
Proof.
  intros F. unfold word_at. destruct (nth_in_or_default (Z.to_nat i) ws 0) as [I|E].
  - rewrite Forall_forall in F. apply F, I.
  - rewrite E. split; [lia|reflexivity].
Qed.
Lemma bit_at_high ws x : 32 * Z.of_nat (length ws) <= x -> bit_at ws x = false.
Proof.
  intros H. unfold bit_at, word_at. rewrite nth_overflow; [apply Z.bits_0|]. assert (Z.of_nat (length ws) <= x / 32) by (apply Z.div_le_lower_bound; lia). lia.
Qed.

Lemma split_id x y : x = y <-> x / 32 = y / 32 /\ x mod 32 = y mod 32.
Proof. split; [intros ->; auto|]. intros [H1 H2]. rewrite (Z.div_mod x 32), (Z.div_mod y 32), H1, H2 by lia. reflexivity. Qed.

(** ** Counting *)
Fixpoint pop (p : positive) : Z := match p with xH => 1 | xO p => pop p | xI p => 1 + pop p end.
Definition popz (w : Z) : Z := match w with Zpos p => pop p | _ => 0 end.

Lemma popz_double w b : 0 <= w -> popz (2 * w + Z.b2z b) = popz w + Z.b2z b.
Proof. intros H. destruct w as [|p|p]; [destruct b; reflexivity| |lia]. destruct b; cbn [Z.b2z]; [rewrite Z.add_comm with (n := popz _)|rewrite !Z.add_0_r]; reflexivity. Qed.
Lemma clear_lowest p : 0 <= Z.land (Zpos p) (Zpos p - 1) /\ popz (Z.land (Zpos p) (Zpos p - 1)) = pop p - 1.
Proof.
  induction p as [p IH|p IH|].
  - replace (Z.land (Zpos p~1) (Zpos p~1 - 1)) with (2 * Zpos p).
    + split; [lia|]. change (popz (2 * Zpos p)) with (pop p). cbn [pop]. lia.
    + rewrite Pos2Z.inj_xI. replace (2 * Z.pos p + 1 - 1) with (2 * Zpos p) by lia. apply Z.bits_inj'. intros i Hi. rewrite Z.land_spec.
      destruct (Z.eq_dec i 0) as [->|N].
      * rewrite Z.testbit_even_0. apply eq_sym, Bool.andb_false_r.
      * replace i with (Z.succ (i - 1)) by lia. rewrite Z.testbit_odd_succ, Z.testbit_even_succ by lia. apply eq_sym, Bool.andb_diag.
  - destruct IH as [IH1 IH2]. replace (Z.land (Zpos p~0) (Zpos p~0 - 1)) with (2 * Z.land (Zpos p) (Zpos p - 1)).
    + split; [lia|]. rewrite <- (Z.add_0_r (2 * _)). change 0 with (Z.b2z false) at 1. rewrite popz_double, IH2 by exact IH1. cbn. lia.
    + change (Zpos p~0) with (2 * Zpos p). replace (2 * Z.pos p - 1) with (2 * (Zpos p - 1) + 1) by lia. apply Z.bits_inj'. intros i Hi. rewrite Z.land_spec.
      destruct (Z.eq_dec i 0) as [->|N].
      * rewrite !Z.testbit_even_0. reflexivity.
      * replace i with (Z.succ (i - 1)) by lia. rewrite Z.testbit_odd_succ, !Z.testbit_even_succ, Z.land_spec by lia. reflexivity.
  - split; [cbn; lia|reflexivity].
Qed.
Lemma pop_pos p : 1 <= pop p.
Proof. induction p; cbn [pop]; lia. Qed.
Lemma count_bits_pop fuel : forall w, 0 <= w -> popz w <= Z.of_nat fuel -> count_bits fuel w = popz w.
Proof.
  induction fuel as [|fuel IH]; intros w W L; cbn [count_bits].
  - destruct w as [|p|p]; [reflexivity| |lia]. cbn [popz] in L. pose proof (pop_pos p). lia.
  - destruct (Z.eqb_spec w 0) as [->|N]; [reflexivity|]. destruct w as [|p|p]; [lia| |lia]. destruct (clear_lowest p) as [A B]. rewrite IH; [rewrite B; cbn [popz]; lia|exact A|].
    rewrite B. cbn [popz] in L. lia.
Qed.

Lemma filter_len {A} (f : A -> bool) l : (length (filter f l) <= length l)%nat.
Proof. induction l as [|a l IH]; cbn [filter length]; [lia|]. destruct (f a); cbn [length]; lia. Qed.
Definition bits_below (n : nat) (w : Z) : list Z := filter (Z.testbit w) (map Z.of_nat (seq 0 n)).
Lemma bits_below_pop n : forall w, 0 <= w < 2 ^ Z.of_nat n -> Z.of_nat (length (bits_below n w)) = popz w.
Proof.
  induction n as [|n IH]; intros w W.
  - cbn in W. assert (w = 0) by lia. subst. reflexivity.
  - assert (P : 2 ^ Z.of_nat (S n) = 2 * 2 ^ Z.of_nat n) by (rewrite Nat2Z.inj_succ, Z.pow_succ_r by lia; reflexivity).
    set (h := w / 2). set (b := Z.testbit w 0). assert (EW : w = 2 * h + Z.b2z b) by (subst h b; rewrite Z.bit0_mod; apply Z.div_mod; lia).
    assert (H : 0 <= h < 2 ^ Z.of_nat n) by (subst h; split; [apply Z.div_pos; lia|apply Z.div_lt_upper_bound; lia]).
    unfold bits_below. cbn [seq map filter]. change (Z.of_nat 0) with 0. fold b. rewrite <- seq_shift, map_map.
    assert (E : length (filter (Z.testbit w) (map (fun x => Z.of_nat (S x)) (seq 0 n))) = length (bits_below n h)).
    { unfold bits_below. clear - EW. induction (seq 0 n) as [|a l IHl]; [reflexivity|]. cbn [map filter].
      assert (T : Z.testbit w (Z.of_nat (S a)) = Z.testbit h (Z.of_nat a)).
      { rewrite EW, Nat2Z.inj_succ. destruct b; cbn [Z.b2z]; [apply Z.testbit_odd_succ; lia|rewrite Z.add_0_r; apply Z.testbit_even_succ; lia]. }
      rewrite T. destruct (Z.testbit h (Z.of_nat a)); cbn [length]; rewrite IHl; reflexivity. }
    replace (popz w) with (popz (2 * h + Z.b2z b)) by (rewrite <- EW; reflexivity). rewrite popz_double by lia. rewrite <- (IH h H), <- E. clear. destruct b; cbn [length Z.b2z]; lia.
Qed.

Fixpoint members_from (base : Z) (ws : list Z) : list Z :=
  match ws with [] => [] | w :: ws => map (Z.add base) (bits_below 32 w) ++ members_from (base + 32) ws end.

Lemma bits_below_in n w x : In x (bits_below n w) <-> 0 <= x < Z.of_nat n /\ Z.testbit w x = true.
Proof.
  unfold bits_below. rewrite filter_In, in_map_iff. split.
  - intros ((k & <- & I) & T). apply in_seq in I. split; [lia|exact T].
  - intros (L & T). split; [|exact T]. exists (Z.to_nat x). split; [lia|]. apply in_seq. lia.
Qed.
Lemma filter_sorted {A} (R : A -> A -> Prop) f l : StronglySorted R l -> StronglySorted R (filter f l).
Proof.
  induction 1 as [|a l S IH F]; cbn [filter]; [constructor|]. destruct (f a); [|exact IH]. constructor; [exact IH|].
  rewrite Forall_forall in *. intros x X. apply filter_In in X as [X _]. apply F, X.
Qed.
Lemma map_sorted (f : Z -> Z) l : (forall a b, a < b -> f a < f b) -> StronglySorted Z.lt l -> StronglySorted Z.lt (map f l).
Proof.
  intros M. induction 1 as [|a l S IH F]; cbn [map]; constructor; [exact IH|]. rewrite Forall_forall in *. intros x X. apply in_map_iff in X as (y & <- & Y). apply M, F, Y.
Qed.
Lemma bits_below_sorted n w : StronglySorted Z.lt (bits_below n w).
Proof.
  apply filter_sorted. generalize 0%nat. induction n as [|n IH]; intros a; cbn [seq map]; constructor; [apply IH|]. rewrite Forall_forall. intros x X.
  apply in_map_iff in X as (y & <- & Y). apply in_seq in Y. lia.
Qed.

Lemma members_in ws : Forall word_ok ws -> forall base x, In x (members_from base ws) <-> base <= x /\ bit_at ws (x - base) = true.
Proof.
  induction 1 as [|w ws W F IH]; intros base x; cbn [members_from].
  - split; [intros []|]. intros (_ & H). unfold bit_at, word_at in H. rewrite nth_overflow in H by (cbn; lia). rewrite Z.bits_0 in H. discriminate H.
  - rewrite in_app_iff, in_map_iff, IH. assert (T : base <= x -> x - base < 32 -> bit_at (w :: ws) (x - base) = Z.testbit w (x - base)).
    { intros H1 H2. unfold bit_at. rewrite Z.div_small, Z.mod_small by lia. reflexivity. }
    assert (T2 : base + 32 <= x -> bit_at (w :: ws) (x - base) = bit_at ws (x - (base + 32))).
    { intros H. unfold bit_at. replace (x - base) with (x - (base + 32) + 1 * 32) by lia. rewrite Z.div_add, Z.mod_add by lia.
      unfold word_at. assert (0 <= (x - (base + 32)) / 32) by (apply Z.div_pos; lia). replace (Z.to_nat ((x - (base + 32)) / 32 + 1)) with (S (Z.to_nat ((x - (base + 32)) / 32))) by lia. reflexivity. }
    split.
    + intros [(y & <- & Y)|(H1 & H2)].
      * apply bits_below_in in Y as [Y1 Y2]. split; [lia|]. rewrite T by lia. replace (base + y - base) with y by lia. exact Y2.
      * split; [lia|]. rewrite T2 by lia. exact H2.
    + intros (H1 & H2). destruct (Z_lt_le_dec (x - base) 32) as [L|L].
      * left. exists (x - base). split; [lia|]. rewrite T in H2 by lia. apply bits_below_in. split; [lia|exact H2].
      * right. split; [lia|]. rewrite T2 in H2 by lia. exact H2.
Qed.
Lemma members_sorted ws : Forall word_ok ws -> forall base, StronglySorted Z.lt (members_from base ws).
Proof.
  induction 1 as [|w ws W F IH]; intros base; cbn [members_from]; [constructor|]. apply SS_app. split; [|split].
  - apply map_sorted; [intros; lia|apply bits_below_sorted].
  - apply IH.
  - intros a b A B. apply in_map_iff in A as (y & <- & Y). apply bits_below_in in Y. apply (members_in ws F) in B. lia.
Qed.
Lemma count_size_members ws : Forall word_ok ws -> count_size ws = Z.of_nat (length (members_from 0 ws)).
Proof.
  intros F. unfold count_size. assert (G : forall n base, fold_left (fun n w => n + count_bits 32 w) ws n = n + Z.of_nat (length (members_from base ws))).
  { induction F as [|w ws W F IH]; intros n base; cbn [fold_left members_from length]; [lia|]. rewrite (IH _ (base + 32)), app_length, map_length.
    pose proof (bits_below_pop 32 w W) as P. assert (PL : popz w <= 32).
    { rewrite <- P. change 32 with (Z.of_nat 32). apply inj_le. unfold bits_below. etransitivity; [apply filter_len|]. rewrite map_length, seq_length. reflexivity. }
    unfold word_ok in W. rewrite count_bits_pop by (cbn; lia). lia. }
  rewrite (G 0 0). lia.
Qed.

(** ** The invariant *)
Lemma sorted_ltb l : StronglySorted Z.lt l <-> ssorted Z.ltb l.
Proof.
  unfold ssorted. split; (induction 1 as [|a l S IH F]; constructor; [exact IH|]; rewrite Forall_forall in *; intros x X; apply Z.ltb_lt, F, X).
Qed.
Lemma sins_len k l : ssorted Z.ltb l -> length (sins Z.ltb k l) = if existsb (Z.eqb k) l then length l else S (length l).
Proof.
  induction l as [|a l IH]; intros S; cbn [sins existsb length]; [reflexivity|]. apply ssorted_cons in S as [S L].
  destruct (Z.ltb_spec a k); [|destruct (Z.ltb_spec k a)]; cbn [length].
  - rewrite IH by exact S. destruct (Z.eqb_spec k a); [lia|]. cbn [orb]. destruct (existsb _ l); reflexivity.
  - destruct (Z.eqb_spec k a); [lia|]. cbn [orb]. destruct (existsb (Z.eqb k) l) eqn:E; [|reflexivity]. apply existsb_exists in E as (x & X & E).
    apply Z.eqb_eq in E. subst x. specialize (L _ X). apply Z.ltb_lt in L. lia.
  - destruct (Z.eqb_spec k a); [|lia]. reflexivity.
Qed.
Lemma serase_len k l : ssorted Z.ltb l -> In k l -> length l = S (length (serase Z.ltb k l)).
Proof.
  induction l as [|a l IH]; intros S I; [destruct I|]. cbn [serase]. pose proof S as S'. apply ssorted_cons in S as [S L].
  destruct (Z.ltb_spec a k); [|destruct (Z.ltb_spec k a)]; cbn [length].
  - destruct I as [->|I]; [lia|]. rewrite <- IH by assumption. reflexivity.
  - destruct I as [->|I]; [lia|]. specialize (L _ I). apply Z.ltb_lt in L. lia.
  - reflexivity.
Qed.

Definition holds (s : item_set) (l : list Z) : Prop :=
  Forall word_ok (words s) /\ ssorted Z.ltb l /\ (forall x, In x l <-> 0 <= x /\ bit_at (words s) x = true) /\ size s = Z.of_nat (length l).

Lemma in_existsb k l : existsb (Z.eqb k) l = true <-> In k l.
Proof. rewrite existsb_exists. split; [intros (x & X & E); apply Z.eqb_eq in E; subst; exact X|intros X; exists k; rewrite Z.eqb_refl; auto]. Qed.

Lemma lor_ok w b : word_ok w -> 0 <= b < 32 -> word_ok (Z.lor w (Z.shiftl 1 b)).
Proof.
  intros W B. apply word_of_bits.
  - apply Z.lor_nonneg. split; [apply W|]. apply Z.shiftl_nonneg. lia.
  - intros i I. rewrite Z.lor_spec, high_bits, one_bit by (assumption || lia). cbn [orb]. apply Z.eqb_neq. lia.
Qed.

Lemma insert_holds s l id : holds s l -> 0 <= id ->
  holds (fst (insert id s)) (sins Z.ltb id l) /\ snd (insert id s) = negb (existsb (Z.eqb id) l).
Proof.
  intros (F & S & M & N) H. unfold insert. rewrite shift_id, mask_id.
  set (ws := if max_item s <=? id / 32 then _ else _).
  assert (B0 : 0 <= id mod 32 < 32) by (apply Z.mod_pos_bound; lia). assert (D0 : 0 <= id / 32) by (apply Z.div_pos; lia).
  assert (F' : Forall word_ok ws) by (subst ws; destruct (Z.leb_spec (max_item s) (id / 32)); [apply resize_ok, F|exact F]).
  assert (BW : forall x, bit_at ws x = bit_at (words s) x) by (subst ws; intros x; destruct (Z.leb_spec (max_item s) (id / 32)); [apply resize_bit|reflexivity]).
  assert (LW : id / 32 < Z.of_nat (length ws)) by (subst ws; unfold max_item in *; destruct (Z.leb_spec (Z.of_nat (length (words s))) (id / 32)); [rewrite resize_length|]; lia).
  rewrite mask_test by lia. fold (bit_at ws id). rewrite BW.
  assert (EX : existsb (Z.eqb id) l = bit_at (words s) id).
  { apply Bool.eq_iff_eq_true. rewrite in_existsb, M. split; [tauto|auto]. }
  rewrite EX. destruct (bit_at (words s) id) eqn:E; cbn [negb fst snd].
  - split; [|reflexivity]. split; [exact F'|]. split; [apply sins_sorted; [apply Zltb_strict|exact S]|]. split.
    + intros x. cbn [words]. rewrite (sins_in Z.ltb Zltb_strict), M, BW. split; [intros [->|X]; auto|auto].
    + cbn [size]. rewrite sins_len, EX by exact S. exact N.
  - split; [|reflexivity]. split; [apply set_word_ok; [exact F'|apply lor_ok; [apply word_at_ok, F'|lia]]|]. split; [apply sins_sorted; [apply Zltb_strict|exact S]|]. split.
    + intros x. cbn [words]. rewrite (sins_in Z.ltb Zltb_strict), M, <- BW. unfold bit_at. destruct (Z_lt_le_dec x 0) as [L|L]; [lia|].
      rewrite word_at_set by (try (apply Z.div_pos; lia); lia). assert (0 <= x mod 32 < 32) by (apply Z.mod_pos_bound; lia).
      destruct (Z.eqb_spec (x / 32) (id / 32)) as [D|D].
      * rewrite Z.lor_spec, one_bit, Bool.orb_true_iff, Z.eqb_eq, D by lia. split; [intros [->|(_ & X)]; auto|]. intros (_ & [X|X]); [auto|]. left. apply split_id. auto.
      * split; [intros [->|X]; [congruence|exact X]|auto].
    + cbn [size]. rewrite sins_len, EX by exact S. lia.
Qed.

Lemma erase_holds s l id : holds s l -> 0 <= id ->
  holds (fst (erase id s)) (serase Z.ltb id l) /\ snd (erase id s) = existsb (Z.eqb id) l.
Proof.
  intros (F & S & M & N) H. unfold erase. rewrite shift_id, mask_id.
  assert (B0 : 0 <= id mod 32 < 32) by (apply Z.mod_pos_bound; lia). assert (D0 : 0 <= id / 32) by (apply Z.div_pos; lia).
  assert (EX : existsb (Z.eqb id) l = bit_at (words s) id).
  { apply Bool.eq_iff_eq_true. rewrite in_existsb, M. split; [tauto|auto]. }
  assert (KEEP : bit_at (words s) id = false -> holds s (serase Z.ltb id l) /\ false = existsb (Z.eqb id) l).
  { intros E. rewrite EX, E. split; [|reflexivity]. replace (serase Z.ltb id l) with l; [repeat split; try assumption; apply M; assumption|].
    apply (ssorted_ext Z.ltb Zltb_strict); [exact S|apply serase_sorted; [apply Zltb_strict|exact S]|]. intros k.
    rewrite (serase_in Z.ltb Zltb_strict l S). split; [|tauto]. intros I. split; [exact I|]. intros ->. apply M in I as [_ I]. congruence. }
  destruct (Z.leb_spec (max_item s) (id / 32)) as [L|L]; [|rewrite mask_test by lia; fold (bit_at (words s) id); destruct (bit_at (words s) id) eqn:E]; cbn [fst snd negb].
  - apply KEEP. apply bit_at_high. unfold max_item in L. pose proof (Z.div_mod id 32). lia.
  - split; [|symmetry; exact EX]. assert (W : word_ok (word_at (words s) (id / 32))) by (apply word_at_ok, F).
    split; [apply set_word_ok; [exact F|]|split; [apply serase_sorted; [apply Zltb_strict|exact S]|split]].
    + apply word_of_bits; [apply Z.land_nonneg; left; apply W|]. intros i I. rewrite Z.land_spec, high_bits by (assumption || lia). reflexivity.
    + intros x. cbn [words]. rewrite (serase_in Z.ltb Zltb_strict l S), M. unfold bit_at. destruct (Z_lt_le_dec x 0) as [LX|LX]; [lia|].
      unfold max_item in L. rewrite word_at_set by (try (apply Z.div_pos; lia); lia). assert (0 <= x mod 32 < 32) by (apply Z.mod_pos_bound; lia).
      destruct (Z.eqb_spec (x / 32) (id / 32)) as [D|D].
      * rewrite Z.land_spec, Z.lnot_spec, one_bit, D, Bool.andb_true_iff, Bool.negb_true_iff, Z.eqb_neq by lia. split.
        -- intros ((_ & X) & NE). split; [exact LX|]. split; [exact X|]. intros Y. apply NE, split_id. auto.
        -- intros (_ & X & Y). split; [auto|]. intros ->. apply Y. reflexivity.
      * split; [tauto|]. intros X. split; [exact X|]. intros ->. apply D. reflexivity.
    + cbn [size]. assert (I : In id l) by (apply M; auto). pose proof (serase_len id l S I). lia.
  - apply KEEP. reflexivity.
Qed.

Lemma merge_words_spec ms : Forall word_ok ms -> forall ws, Forall word_ok ws -> (length ms <= length ws)%nat ->
  let r := merge_words ws ms in
  Forall word_ok (fst r) /\ length (fst r) = length ws /\ (forall i, 0 <= i -> word_at (fst r) i = Z.lor (word_at ws i) (word_at ms i)) /\
  (snd r = true <-> exists x, 0 <= x /\ bit_at ms x = true /\ bit_at ws x = false) /\ (snd r = false -> fst r = ws).
Proof.
  induction 1 as [|m ms OM FM IH]; intros ws FW L; cbn [length] in L.
  - assert (E : merge_words ws [] = (ws, false)) by (destruct ws; reflexivity). rewrite E. cbn [fst snd]. split; [exact FW|]. split; [reflexivity|]. split; [|split; [|reflexivity]].
    + intros i I. unfold word_at at 3. rewrite nth_overflow, Z.lor_0_r by (cbn; lia). reflexivity.
    + split; [discriminate|]. intros (x & _ & X & _). unfold bit_at, word_at in X. rewrite nth_overflow, Z.bits_0 in X by (cbn; lia). discriminate X.
  - destruct ws as [|w ws]; [cbn in L; lia|]. cbn [length] in L. inversion FW as [|? ? OW FW']; subst. specialize (IH ws FW' ltac:(lia)). cbn [merge_words].
    destruct (merge_words ws ms) as [rest changed]. cbn [fst snd] in IH. destruct IH as (F & LE & WA & CH & SM).
    assert (AT0 : forall a l, word_at (a :: l) 0 = a) by reflexivity.
    assert (ATS : forall a l i, 0 < i -> word_at (a :: l) i = word_at l (i - 1)).
    { intros a l i I. unfold word_at. replace (Z.to_nat i) with (S (Z.to_nat (i - 1))) by lia. reflexivity. }
    assert (BS : forall a l x, 32 <= x -> bit_at (a :: l) x = bit_at l (x - 32)).
    { intros a l x X. unfold bit_at. assert (1 <= x / 32) by (apply Z.div_le_lower_bound; lia). rewrite ATS by lia.
      replace (x - 32) with (x + (-1) * 32) by lia. rewrite Z.div_add, Z.mod_add by lia. reflexivity. }
    assert (B0 : forall a l x, 0 <= x < 32 -> bit_at (a :: l) x = Z.testbit a x).
    { intros a l x X. unfold bit_at. rewrite Z.div_small, Z.mod_small by lia. reflexivity. }
    assert (C : ((m =? 0) || (Z.land m (Z.lnot w) =? 0))%bool = true <-> forall x, 0 <= x -> Z.testbit m x = true -> Z.testbit w x = true).
    { rewrite Bool.orb_true_iff, !Z.eqb_eq. split.
      - intros [->|E] x X T; [rewrite Z.bits_0 in T; discriminate T|]. apply (f_equal (fun z => Z.testbit z x)) in E. cbn beta in E.
        rewrite Z.land_spec, Z.lnot_spec, T, Z.bits_0 in E by lia. destruct (Z.testbit w x); [reflexivity|discriminate E].
      - intros X. right. apply Z.bits_inj'. intros i I. rewrite Z.land_spec, Z.lnot_spec, Z.bits_0 by lia. destruct (Z.testbit m i) eqn:E; [|reflexivity].
        rewrite X by assumption. reflexivity. }
    destruct ((m =? 0) || (Z.land m (Z.lnot w) =? 0))%bool; cbn [fst snd].
    + assert (C' := proj1 C eq_refl). split; [constructor; assumption|]. split; [cbn [length]; lia|]. split; [|split].
      * intros i I. destruct (Z.eq_dec i 0) as [->|NI]; [|rewrite !ATS by lia; apply WA; lia]. rewrite !AT0. apply Z.bits_inj'. intros k K. rewrite Z.lor_spec.
        destruct (Z.testbit m k) eqn:E; [rewrite C' by assumption; reflexivity|rewrite Bool.orb_false_r; reflexivity].
      * rewrite CH. split.
        -- intros (x & X & Y). exists (x + 32). rewrite !BS by lia. replace (x + 32 - 32) with x by lia. split; [lia|exact Y].
        -- intros (x & X & Y1 & Y2). destruct (Z_lt_le_dec x 32) as [LX|LX].
           ++ rewrite !B0 in * by lia. rewrite C' in Y2 by assumption. discriminate Y2.
           ++ rewrite !BS in * by lia. exists (x - 32). split; [lia|auto].
      * intros E. rewrite SM by exact E. reflexivity.
    + split; [constructor; [|exact F]|split; [cbn [length]; lia|split; [|split; [|discriminate]]]].
      * apply word_of_bits; [apply Z.lor_nonneg; split; [apply OW|apply OM]|]. intros i I. rewrite Z.lor_spec, !high_bits by assumption. reflexivity.
      * intros i I. destruct (Z.eq_dec i 0) as [->|NI]; [reflexivity|rewrite !ATS by lia; apply WA; lia].
      * split; [intros _|reflexivity]. destruct (members_in [Z.land m (Z.lnot w)]) with (base := 0) (x := 0) as [_ _]; [|].
        { constructor; [|constructor]. apply word_of_bits; [apply Z.land_nonneg; left; apply OM|]. intros i I. rewrite Z.land_spec, high_bits by assumption. reflexivity. }
        destruct (Z.eq_dec (Z.land m (Z.lnot w)) 0) as [E|E].
        -- exfalso. apply Bool.diff_true_false. symmetry. apply C. intros x X T. apply (f_equal (fun z => Z.testbit z x)) in E. cbn beta in E.
           rewrite Z.land_spec, Z.lnot_spec, T, Z.bits_0 in E by lia. destruct (Z.testbit w x); [reflexivity|discriminate E].
        -- assert (P : 0 < Z.land m (Z.lnot w)) by (assert (0 <= Z.land m (Z.lnot w)) by (apply Z.land_nonneg; left; apply OM); lia).
           pose proof (Z.bit_log2 _ P) as T. pose proof (Z.log2_nonneg (Z.land m (Z.lnot w))) as LN. rewrite Z.land_spec, Z.lnot_spec, Bool.andb_true_iff, Bool.negb_true_iff in T by exact LN. destruct T as [T1 T2].
           assert (LX : Z.log2 (Z.land m (Z.lnot w)) < 32) by (destruct (Z_lt_le_dec (Z.log2 (Z.land m (Z.lnot w))) 32) as [X|X]; [exact X|]; rewrite (high_bits m _ OM X) in T1; discriminate T1).
           exists (Z.log2 (Z.land m (Z.lnot w))). rewrite !B0 by lia. auto.
Qed.

Lemma merge_holds s l t k : holds s l -> holds t k ->
  exists r, holds (fst (merge s t)) r /\ (forall x, In x r <-> In x l \/ In x k) /\ (snd (merge s t) = true <-> exists x, In x k /\ ~ In x l).
Proof.
  intros (F & S & M & N) (F2 & S2 & M2 & N2). unfold merge. set (ws := if max_item s <? max_item t then _ else _).
  assert (F' : Forall word_ok ws) by (subst ws; destruct (max_item s <? max_item t); [apply resize_ok, F|exact F]).
  assert (BW : forall x, bit_at ws x = bit_at (words s) x) by (subst ws; intros x; destruct (max_item s <? max_item t); [apply resize_bit|reflexivity]).
  assert (LW : (length (words t) <= length ws)%nat) by (subst ws; unfold max_item in *; destruct (Z.ltb_spec (Z.of_nat (length (words s))) (Z.of_nat (length (words t)))); [rewrite resize_length|]; lia).
  destruct (merge_words_spec (words t) F2 ws F' LW) as (FR & LR & WA & CH & SM). destruct (merge_words ws (words t)) as [ws' changed]. cbn [fst snd] in *.
  assert (MEM : forall x, In x (members_from 0 ws') <-> In x l \/ In x k).
  { intros x. rewrite (members_in ws' FR), M, M2, <- BW, Z.sub_0_r. destruct (Z_lt_le_dec x 0) as [LX|LX]; [lia|]. unfold bit_at. rewrite WA by (apply Z.div_pos; lia).
    rewrite Z.lor_spec, Bool.orb_true_iff. tauto. }
  exists (members_from 0 ws'). assert (SO : ssorted Z.ltb (members_from 0 ws')) by (apply sorted_ltb, members_sorted, FR). split; [|split; [exact MEM|]].
  - split; [exact FR|]. split; [exact SO|]. split; [intros x; cbn [words]; rewrite (members_in ws' FR), Z.sub_0_r; reflexivity|]. cbn [size]. destruct changed.
    + apply count_size_members, FR.
    + rewrite N. f_equal. f_equal. apply (ssorted_ext Z.ltb Zltb_strict); [exact S|exact SO|]. intros x. rewrite (members_in ws' FR), M, <- BW, Z.sub_0_r, (SM eq_refl). reflexivity.
  - rewrite CH. split.
    + intros (x & X & X1 & X2). exists x. rewrite M, M2, <- BW. split; [auto|]. intros (_ & X3). congruence.
    + intros (x & X1 & X2). exists x. rewrite M, <- BW in X2. apply M2 in X1 as [X1 X3]. split; [exact X1|]. split; [exact X3|]. destruct (bit_at ws x); [exfalso; auto|reflexivity].
Qed.

(** ** Iteration *)
Lemma one_lor set bit : 0 <= bit < 32 -> Z.lor (Z.shiftl set 5) bit = 32 * set + bit.
Proof.
  intros B. rewrite Z.shiftl_mul_pow2 by lia. change (2 ^ 5) with 32. rewrite <- Z.lxor_lor, <- Z.add_nocarry_lxor; [lia| |].
  all: apply Z.bits_inj'; intros i I; rewrite Z.land_spec, Z.bits_0; destruct (Z_lt_le_dec i 5) as [L|L];
    [change 32 with (2 ^ 5); rewrite Z.mul_pow2_bits_low by lia; reflexivity|
     destruct (Z.eq_dec bit 0) as [->|NB]; [rewrite Z.bits_0, Bool.andb_false_r; reflexivity|];
     rewrite (Z.bits_above_log2 bit i), Bool.andb_false_r; [reflexivity|lia|]; apply Z.lt_le_trans with 5; [apply Z.log2_lt_pow2; [lia|exact (proj2 B)]|exact L]].
Qed.
Lemma shl5 x : Z.shiftl x 5 = 32 * x.
Proof. rewrite Z.shiftl_mul_pow2 by lia. change (2 ^ 5) with 32. lia. Qed.

Lemma next_spec ws : Forall word_ok ws -> forall fuel set bit, 0 <= set <= Z.of_nat (length ws) -> 0 <= bit < 32 -> (set = Z.of_nat (length ws) -> bit = 0) ->
  32 * Z.of_nat (length ws) - (32 * set + bit) < Z.of_nat fuel ->
  exists r, next_loop fuel ws set bit = Some r /\ r <= 32 * Z.of_nat (length ws) /\ (32 * set + bit < r \/ r = 32 * Z.of_nat (length ws)) /\
    (forall x, 32 * set + bit < x < r -> bit_at ws x = false) /\ (r < 32 * Z.of_nat (length ws) -> bit_at ws r = true).
Proof.
  intros F. set (n := Z.of_nat (length ws)). induction fuel as [|fuel IH]; intros set bit HS HB HE HF; [lia|]. cbn [next_loop]. fold n.
  assert (AT : forall k b, 0 <= b < 32 -> bit_at ws (32 * k + b) = Z.testbit (word_at ws k) b).
  { intros k b B. unfold bit_at. rewrite (Z.mul_comm 32 k), Z.add_comm, Z.div_add, Z.mod_add, Z.div_small, Z.mod_small by lia. reflexivity. }
  destruct (Z.leb_spec n set) as [L|L].
  - exists (32 * n). rewrite shl5. split; [reflexivity|]. split; [lia|]. split; [auto|]. split; intros; lia.
  - destruct ((bit =? 0) && (word_at ws set =? 0))%bool eqn:E.
    + apply andb_prop in E as [E1 E2]. apply Z.eqb_eq in E1, E2. subst bit.
      assert (Z0 : forall x, 32 * set + 0 < x < 32 * (set + 1) -> bit_at ws x = false).
      { intros x X. replace x with (32 * set + (x - 32 * set)) by lia. rewrite AT by lia. rewrite E2. apply Z.bits_0. }
      change 1 with (Z.shiftl 1 0) at 3. rewrite mask_test by lia. rewrite Bool.negb_involutive. rewrite <- AT by lia. rewrite Z.add_0_r.
      destruct (Z.ltb_spec (set + 1) n) as [L1|L1]; cbn [andb].
      * destruct (bit_at ws (32 * (set + 1))) eqn:EB.
        -- exists (32 * (set + 1)). rewrite shl5. split; [reflexivity|]. split; [lia|]. split; [lia|]. split; [intros x X; apply Z0; lia|auto].
        -- destruct (IH (set + 1) 0) as (r & ER & R1 & R2 & R3 & R4); try lia. exists r. split; [exact ER|]. split; [lia|]. split; [lia|]. split; [|exact R4].
           intros x X. destruct (Z_lt_le_dec x (32 * (set + 1))); [apply Z0; lia|]. destruct (Z.eq_dec x (32 * (set + 1))) as [->|]; [exact EB|apply R3; lia].
      * destruct (IH (set + 1) 0) as (r & ER & R1 & R2 & R3 & R4); try lia. exists r. split; [exact ER|]. split; [lia|]. split; [lia|]. split; [|exact R4].
        intros x X. apply Z0. lia.
    + assert (P : exists set' bit', (if 32 <=? bit + 1 then (set + 1, 0) else (set, bit + 1)) = (set', bit') /\ 32 * set' + bit' = 32 * set + bit + 1 /\ 0 <= bit' < 32 /\ set <= set' /\ (n <= set' -> bit' = 0 /\ set' = n)).
      { destruct (Z.leb_spec 32 (bit + 1)); eexists _, _; (split; [reflexivity|]); lia. }
      destruct P as (set' & bit' & -> & P & B' & LS & EN). destruct (Z.leb_spec n set') as [L1|L1].
      * exists (32 * n). rewrite shl5. destruct (EN L1) as [-> ->]. split; [reflexivity|]. split; [lia|]. split; [auto|]. split; intros; lia.
      * rewrite mask_test, Bool.negb_involutive by lia. rewrite <- AT by lia. destruct (bit_at ws (32 * set' + bit')) eqn:EB.
        -- rewrite one_lor by lia. exists (32 * set' + bit'). split; [reflexivity|]. split; [lia|]. split; [lia|]. split; [intros; lia|auto].
        -- destruct (IH set' bit') as (r & ER & R1 & R2 & R3 & R4); try lia. exists r. split; [exact ER|]. split; [lia|]. split; [lia|]. split; [|exact R4].
           intros x X. destruct (Z.eq_dec x (32 * set' + bit')) as [->|]; [exact EB|apply R3; lia].
Qed.

(** The members from [x] on *)
Lemma visit_spec s l : holds s l -> forall fuel id, 0 <= id <= 32 * max_item s -> (id < 32 * max_item s -> bit_at (words s) id = true) ->
  32 * max_item s - id <= Z.of_nat fuel ->
  visit fuel s (Some id) = Some (filter (fun x => id <=? x) l).
Proof.
  intros (F & S & M & N). apply sorted_ltb in S. induction fuel as [|fuel IH]; intros id H1 H2 H3; cbn [visit]; unfold end_; rewrite shl5.
  - destruct (Z.eqb_spec id (32 * max_item s)) as [E|E]; [|lia]. f_equal. symmetry. 
    assert (G : forall x, In x l -> (id <=? x) = false).
    { intros x X. apply M in X as [X0 X]. destruct (Z.leb_spec id x); [|reflexivity]. rewrite bit_at_high in X by (unfold max_item in E; lia). discriminate X. }
    clear - G. induction l as [|a l IHl]; [reflexivity|]. cbn [filter]. rewrite (G a) by (cbn; auto). apply IHl. intros x X. apply G. cbn. auto.
  - destruct (Z.eqb_spec id (32 * max_item s)) as [E|E].
    + f_equal. symmetry. assert (G : forall x, In x l -> (id <=? x) = false).
      { intros x X. apply M in X as [X0 X]. destruct (Z.leb_spec id x); [|reflexivity]. rewrite bit_at_high in X by (unfold max_item in E; lia). discriminate X. }
      clear - G. induction l as [|a l IHl]; [reflexivity|]. cbn [filter]. rewrite (G a) by (cbn; auto). apply IHl. intros x X. apply G. cbn. auto.
    + unfold next_item_id. rewrite shift_id, mask_id. unfold max_item in *. assert (B0 : 0 <= id mod 32 < 32) by (apply Z.mod_pos_bound; lia). pose proof (Z.div_mod id 32 ltac:(lia)) as DM.
      assert (D0 : 0 <= id / 32) by (apply Z.div_pos; lia).
      destruct (next_spec (words s) F (32 * length (words s) + 1) (id / 32) (id mod 32)) as (r & ER & R1 & R2 & R3 & R4); try lia.
      rewrite ER. assert (LT : id < r) by lia. rewrite IH by (try lia; intros; apply R4; lia). f_equal.
      assert (SP : forall k, StronglySorted Z.lt k -> (forall x, In x k <-> In x l) -> filter (fun x => id <=? x) k = id :: filter (fun x => r <=? x) k).
      { intros k SK EK. apply (ssorted_ext Z.ltb Zltb_strict).
        - apply sorted_ltb, filter_sorted, SK.
        - apply sorted_ltb. constructor; [apply filter_sorted, SK|]. rewrite Forall_forall. intros x X. apply filter_In in X as [_ X]. apply Z.leb_le in X. lia.
        - intros x. cbn [In]. rewrite !filter_In, !Z.leb_le, EK, M. split.
          + intros ((X0 & X) & LX). destruct (Z.eq_dec id x) as [|NX]; [auto|]. right. split; [auto|]. destruct (Z_lt_le_dec x r) as [LR|]; [|lia]. rewrite R3 in X by lia. discriminate X.
          + intros [<-|((X0 & X) & LX)]; [|split; [auto|lia]]. split; [split; [lia|apply H2; lia]|lia]. }
      symmetry. apply SP; [exact S|reflexivity].
Qed.

Lemma filter_all (l : list Z) (f : Z -> bool) : (forall x, In x l -> f x = true) -> filter f l = l.
Proof. induction l as [|a l IH]; intros H; cbn [filter]; [reflexivity|]. rewrite H by (cbn; auto). f_equal. apply IH. intros x X. apply H. cbn. auto. Qed.

Lemma iterate_spec s l : holds s l -> iterate s = Some l.
Proof.
  intros H. pose proof H as (F & S & M & N). unfold iterate.
  assert (B : exists id, begin s = Some id /\ 0 <= id <= 32 * max_item s /\ (id < 32 * max_item s -> bit_at (words s) id = true) /\ (forall x, In x l -> id <= x)).
  { unfold begin. destruct (Z.eqb_spec (max_item s) 0) as [E|E].
    - exists 0. split; [reflexivity|]. split; [lia|]. split; [lia|]. intros x X. apply M in X. lia.
    - change 1 with (Z.shiftl 1 0) at 1. rewrite mask_test, Bool.negb_involutive by lia. change (Z.testbit (word_at (words s) 0) 0) with (bit_at (words s) 0). unfold max_item in *.
      destruct (bit_at (words s) 0) eqn:EB.
      + exists 0. split; [reflexivity|]. split; [lia|]. split; [auto|]. intros x X. apply M in X. lia.
      + destruct (next_spec (words s) F (32 * length (words s) + 1) 0 0) as (r & ER & R1 & R2 & R3 & R4); try lia. exists r. split; [exact ER|]. split; [lia|]. split; [exact R4|].
        intros x X. apply M in X as [X0 X]. destruct (Z_lt_le_dec x r); [|lia]. destruct (Z.eq_dec x 0) as [->|]; [congruence|]. rewrite R3 in X by lia. discriminate X. }
  destruct B as (id & -> & B1 & B2 & B3). rewrite (visit_spec s l H) by (assumption || (unfold max_item in *; lia)). f_equal. apply filter_all. intros x X. apply Z.leb_le, B3, X.
Qed.

(** ** Every set that can be built *)
Lemma built_holds b : build_ok b -> exists l, holds (built b) l /\ forall x, In x l <-> member b x.
Proof.
  induction b as [|id b IH|id b IH|b IHb c IHc]; cbn [build_ok built member].
  - intros _. exists []. split; [|tauto]. split; [constructor|]. split; [constructor|]. split; [|reflexivity]. intros x. split; [intros []|]. intros (_ & H). unfold bit_at, word_at in H.
    rewrite nth_overflow, Z.bits_0 in H by (cbn; lia). discriminate H.
  - intros [H B]. destruct (IH B) as (l & HL & E). exists (sins Z.ltb id l). split; [apply insert_holds; assumption|]. intros x. rewrite (sins_in Z.ltb Zltb_strict), E. reflexivity.
  - intros [H B]. destruct (IH B) as (l & HL & E). exists (serase Z.ltb id l). split; [apply erase_holds; assumption|]. intros x. rewrite (serase_in Z.ltb Zltb_strict) by apply HL. rewrite E. tauto.
  - intros [B C]. destruct (IHb B) as (l & HL & EL). destruct (IHc C) as (k & HK & EK). destruct (merge_holds _ _ _ _ HL HK) as (r & HR & ER & _). exists r. split; [exact HR|].
    intros x. rewrite ER, EL, EK. reflexivity.
Qed.

Lemma contains_holds s l x : holds s l -> contains x s = true <-> In x l.
Proof.
  intros (F & S & M & N). rewrite M. unfold contains. rewrite shift_id, mask_id. destruct (Z_lt_le_dec x 0) as [L|L].
  - assert (x / 32 < 0) by (apply Z.div_lt_upper_bound; lia). destruct (Z.leb_spec (max_item s) (x / 32)); cbn [orb]; [split; [discriminate|lia]|].
    destruct (Z.ltb_spec (x / 32) 0); [split; [discriminate|lia]|lia].
  - assert (0 <= x / 32) by (apply Z.div_pos; lia). destruct (Z.ltb_spec (x / 32) 0); [lia|]. rewrite Bool.orb_false_r. unfold max_item. destruct (Z.leb_spec (Z.of_nat (length (words s))) (x / 32)) as [LX|LX].
    + split; [discriminate|]. intros (_ & X). rewrite bit_at_high in X; [discriminate X|]. pose proof (Z.div_mod x 32 ltac:(lia)). pose proof (Z.mod_pos_bound x 32). lia.
    + rewrite mask_test, Bool.negb_involutive by (apply Z.mod_pos_bound; lia). unfold bit_at. tauto.
Qed.

(** ** Comparisons *)
Lemma words_eqb_spec a : forall b, length a = length b -> words_eqb a b = true <-> a = b.
Proof.
  induction a as [|x a IH]; intros [|y b] L; try discriminate L; cbn [words_eqb]; [tauto|]. injection L as L. rewrite Bool.andb_true_iff, Z.eqb_eq, IH by exact L. split; [intros [-> ->]; reflexivity|intros E; injection E; auto].
Qed.
Lemma holds_words s l : holds s l -> forall ws, Forall word_ok ws -> length ws = length (words s) -> (forall x, In x l <-> 0 <= x /\ bit_at ws x = true) -> ws = words s.
Proof.
  intros (F & _ & M & _) ws FW L MW. apply nth_ext with (d := 0) (d' := 0); [exact L|]. intros n LN. apply Z.bits_inj'. intros i I. destruct (Z_lt_le_dec i 32) as [LI|LI].
  - assert (AT : forall vs, bit_at vs (32 * Z.of_nat n + i) = Z.testbit (nth n vs 0) i).
    { intros vs. unfold bit_at, word_at. rewrite (Z.mul_comm 32), Z.add_comm, Z.div_add, Z.mod_add, Z.div_small, Z.mod_small by lia. cbn [Z.add]. rewrite Nat2Z.id. reflexivity. }
    rewrite <- !AT. apply Bool.eq_iff_eq_true. specialize (M (32 * Z.of_nat n + i)). specialize (MW (32 * Z.of_nat n + i)). split; intros H; [apply M, MW|apply MW, M]; split; (lia || exact H).
  - rewrite !high_bits; [reflexivity| |exact LI| |exact LI]; apply Forall_nth; assumption || lia.
Qed.

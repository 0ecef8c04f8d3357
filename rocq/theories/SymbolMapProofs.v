(** Proofs about symbol maps and deduplication. *)
From Verif Require Import Base OrdMap SymbolSetModel SymbolSetSpec SymbolSetProofs.
From Verif Require Import SymbolMapModel SymbolMapSpec.
Local Open Scope Z_scope.

Lemma set_ltb_strict : strict_total set_ltb.
Proof. constructor; [apply set_ltb_irrefl|apply set_ltb_trans|apply set_ltb_total]. Qed.

(** * symbol_map *)

Record sm_inv (m : symbol_map) : Prop := {
  si_sorted : msorted set_ltb (sm_ids m);
  si_in : forall s i, In (s, i) (sm_ids m) <-> 0 <= i /\ nth_error (sm_sets m) (Z.to_nat i) = Some s;
  si_nodup : NoDup (sm_sets m) }.

Lemma sm_empty_inv : sm_inv sm_empty.
Proof.
  constructor; cbn.
  - constructor.
  - intros s i. split; [intros []|]. intros [_ H]. destruct (Z.to_nat i); discriminate.
  - constructor.
Qed.

Lemma sm_find_some m s : sm_inv m -> forall i,
  mfind set_ltb s (sm_ids m) = Some i <-> 0 <= i /\ nth_error (sm_sets m) (Z.to_nat i) = Some s.
Proof.
  intros I i. rewrite (mfind_in _ set_ltb_strict _ (si_sorted _ I)). apply (si_in _ I).
Qed.

Lemma sm_find_none m s : sm_inv m -> mfind set_ltb s (sm_ids m) = None <-> ~ In s (sm_sets m).
Proof.
  intros I. rewrite (mfind_none _ set_ltb_strict _ (si_sorted _ I)). split.
  - intros H Hin. apply In_nth_error in Hin as [n Hn].
    apply (H (Z.of_nat n)). apply (si_in _ I). rewrite Nat2Z.id. split; [lia|exact Hn].
  - intros H i Hi. apply (si_in _ I) in Hi as [_ Hi]. apply nth_error_In in Hi. auto.
Qed.

Lemma sm_identifier_spec m s : sm_inv m ->
  let '(i, m') := sm_identifier m s in
  sm_inv m' /\
  sm_sets m' = (if in_dec set_eq_dec s (sm_sets m) then sm_sets m else sm_sets m ++ [s]) /\
  0 <= i /\ nth_error (sm_sets m') (Z.to_nat i) = Some s /\
  (~ In s (sm_sets m) -> i = Z.of_nat (length (sm_sets m))).
Proof.
  intros I. unfold sm_identifier.
  destruct (mfind set_ltb s (sm_ids m)) as [i|] eqn:E.
  - apply (sm_find_some _ _ I) in E as [H1 H2]. pose proof (nth_error_In _ _ H2) as Hin.
    destruct (in_dec set_eq_dec s (sm_sets m)) as [_|n]; [|contradiction].
    split; [exact I|]. split; [reflexivity|]. split; [exact H1|]. split; [exact H2|]. contradiction.
  - pose proof (proj1 (sm_find_none _ _ I) E) as Hn.
    destruct (in_dec set_eq_dec s (sm_sets m)) as [h|_]; [contradiction|].
    split; [|split; [reflexivity|]].
    + constructor; cbn [sm_sets sm_ids].
      * apply minsert_sorted; [apply set_ltb_strict|apply (si_sorted _ I)].
      * intros t i. rewrite (minsert_in _ _ (si_sorted _ I)). rewrite (si_in _ I). split.
        -- intros [[H1 H2]|[H _]].
           ++ split; [exact H1|]. rewrite nth_error_app1; [exact H2|]. apply nth_error_Some. congruence.
           ++ inv H. split; [lia|]. rewrite Nat2Z.id. rewrite nth_error_app2 by lia.
              rewrite Nat.sub_diag. reflexivity.
        -- intros [H1 H2]. destruct (Nat.lt_ge_cases (Z.to_nat i) (length (sm_sets m))) as [H|H].
           ++ left. rewrite nth_error_app1 in H2 by exact H. auto.
           ++ rewrite nth_error_app2 in H2 by exact H.
              destruct (Z.to_nat i - length (sm_sets m))%nat eqn:D.
              ** cbn in H2. inv H2. right. split; [|exact E]. f_equal. lia.
              ** cbn in H2. destruct n; discriminate.
      * rewrite <- (rev_involutive (sm_sets m ++ [s])). apply NoDup_rev.
        rewrite rev_app_distr. cbn. constructor; [rewrite <- in_rev; exact Hn|].
        apply NoDup_rev. apply (si_nodup _ I).
    + cbn [sm_sets]. split; [lia|]. split; [|auto]. rewrite Nat2Z.id.
      rewrite nth_error_app2 by lia. rewrite Nat.sub_diag. reflexivity.
Qed.

Definition add_first (seen : list symbol_set) (s : symbol_set) :=
  if in_dec set_eq_dec s seen then seen else seen ++ [s].

Lemma firsts_snoc l s : firsts (l ++ [s]) = add_first (firsts l) s.
Proof.
  unfold firsts, add_first. rewrite rev_app_distr. cbn [rev app nodup].
  destruct (in_dec set_eq_dec s (rev l)) as [h|h];
  destruct (in_dec set_eq_dec s (rev (nodup set_eq_dec (rev l)))) as [h'|h'].
  - reflexivity.
  - exfalso. apply h'. rewrite <- in_rev. apply nodup_In. exact h.
  - exfalso. apply h. rewrite <- in_rev in h'. apply nodup_In in h'. exact h'.
  - reflexivity.
Qed.

Lemma firsts_fold l : firsts l = fold_left add_first l [].
Proof.
  induction l as [|s l IH] using rev_ind; [reflexivity|].
  rewrite firsts_snoc, fold_left_app. cbn. rewrite IH. reflexivity.
Qed.

Lemma add_first_prefix l : forall seen, exists t, fold_left add_first l seen = seen ++ t.
Proof.
  induction l as [|s l IH]; intros seen; cbn [fold_left].
  - exists []. rewrite app_nil_r. reflexivity.
  - destruct (IH (add_first seen s)) as [t Ht]. rewrite Ht. unfold add_first.
    destruct (in_dec set_eq_dec s seen); [exists t; reflexivity|].
    exists ([s] ++ t). rewrite app_assoc. reflexivity.
Qed.

Lemma sm_run_spec reqs : forall m, sm_inv m ->
  let '(m', ids) := sm_run m reqs in
  sm_inv m' /\ sm_sets m' = fold_left add_first reqs (sm_sets m) /\
  Forall2 (fun s i => 0 <= i /\ nth_error (sm_sets m') (Z.to_nat i) = Some s) reqs ids.
Proof.
  induction reqs as [|s reqs IH]; intros m I; cbn [sm_run].
  - split; [exact I|]. split; [reflexivity|constructor].
  - pose proof (sm_identifier_spec m s I) as H.
    destruct (sm_identifier m s) as [i m1]. destruct H as (I1 & Hs & Hi & Hn & _).
    specialize (IH m1 I1). destruct (sm_run m1 reqs) as [m2 l]. destruct IH as (I2 & Hs2 & Hf).
    split; [exact I2|]. cbn [fold_left].
    change (add_first (sm_sets m) s) with (if in_dec set_eq_dec s (sm_sets m) then sm_sets m else sm_sets m ++ [s]).
    rewrite <- Hs. split; [exact Hs2|]. constructor; [|exact Hf]. split; [exact Hi|].
    destruct (add_first_prefix reqs (sm_sets m1)) as [t Ht]. rewrite Hs2, Ht.
    rewrite nth_error_app1; [exact Hn|]. apply nth_error_Some. congruence.
Qed.

Lemma sm_of_inv reqs : sm_inv (sm_of reqs).
Proof.
  unfold sm_of. pose proof (sm_run_spec reqs sm_empty sm_empty_inv) as H.
  destruct (sm_run sm_empty reqs). apply H.
Qed.

Lemma sm_of_sets reqs : sm_sets (sm_of reqs) = firsts reqs.
Proof.
  unfold sm_of. rewrite firsts_fold. pose proof (sm_run_spec reqs sm_empty sm_empty_inv) as H.
  destruct (sm_run sm_empty reqs). apply H.
Qed.

Lemma firsts_in l s : In s (firsts l) <-> In s l.
Proof. unfold firsts. rewrite <- in_rev, nodup_In, <- in_rev. reflexivity. Qed.

Lemma sm_get_nth m i s : 0 <= i -> nth_error (sm_sets m) (Z.to_nat i) = Some s -> sm_get m i = s.
Proof.
  intros H1 H2. unfold sm_get.
  assert (Z.to_nat i < length (sm_sets m))%nat by (apply nth_error_Some; congruence).
  replace ((i <? 0) || (Z.of_nat (length (sm_sets m)) <=? i)) with false by lia.
  apply nth_error_nth. exact H2.
Qed.

Lemma sm_get_in m i : 0 <= i < sm_count m -> nth_error (sm_sets m) (Z.to_nat i) = Some (sm_get m i).
Proof.
  unfold sm_count, sm_get. intros H.
  replace ((i <? 0) || (Z.of_nat (length (sm_sets m)) <=? i)) with false by lia.
  apply nth_error_nth'. lia.
Qed.

Lemma sm_get_out m i : ~ (0 <= i < sm_count m) -> sm_get m i = [].
Proof.
  unfold sm_count, sm_get. intros H.
  replace ((i <? 0) || (Z.of_nat (length (sm_sets m)) <=? i)) with true by lia. reflexivity.
Qed.

Lemma ids_of_spec reqs :
  Forall2 (fun s i => 0 <= i /\ nth_error (firsts reqs) (Z.to_nat i) = Some s) reqs (ids_of reqs).
Proof.
  unfold ids_of. pose proof (sm_run_spec reqs sm_empty sm_empty_inv) as H.
  rewrite firsts_fold. destruct (sm_run sm_empty reqs) as [m l]. destruct H as (_ & H & H').
  rewrite H in H'. exact H'.
Qed.

Lemma Forall2_nth {A B} (P : A -> B -> Prop) l l' : Forall2 P l l' ->
  length l = length l' /\
  forall n a b, nth_error l n = Some a -> nth_error l' n = Some b -> P a b.
Proof.
  induction 1 as [|a b l l' H _ [IH1 IH2]]; cbn.
  - split; [reflexivity|]. intros [|n]; discriminate.
  - split; [congruence|]. intros [|n] x y; cbn; [congruence|]. apply IH2.
Qed.

Theorem symbol_map_ids_lemma reqs :
  length (ids_of reqs) = length reqs /\
  (forall k s i, nth_error reqs k = Some s -> nth_error (ids_of reqs) k = Some i ->
     sm_get (sm_of reqs) i = s /\ sm_find (sm_of reqs) s = i /\
     0 <= i < sm_count (sm_of reqs)) /\
  (forall k k' s s' i i',
     nth_error reqs k = Some s -> nth_error (ids_of reqs) k = Some i ->
     nth_error reqs k' = Some s' -> nth_error (ids_of reqs) k' = Some i' ->
     (i = i' <-> s = s')) /\
  (forall s, ~ In s reqs -> sm_find (sm_of reqs) s = -1) /\
  (forall i, ~ (0 <= i < sm_count (sm_of reqs)) -> sm_get (sm_of reqs) i = []) /\
  (forall i, 0 <= i < sm_count (sm_of reqs) ->
     nth_error (firsts reqs) (Z.to_nat i) = Some (sm_get (sm_of reqs) i)) /\
  sm_count (sm_of reqs) = Z.of_nat (length (firsts reqs)).
Proof.
  pose proof (ids_of_spec reqs) as F. apply Forall2_nth in F as [F1 F2].
  pose proof (sm_of_inv reqs) as I. pose proof (sm_of_sets reqs) as S.
  split; [congruence|].
  split.
  { intros k s i H1 H2. destruct (F2 _ _ _ H1 H2) as [H3 H4].
    split; [apply sm_get_nth; [exact H3|rewrite S; exact H4]|].
    split.
    - unfold sm_find. assert (E : mfind set_ltb s (sm_ids (sm_of reqs)) = Some i).
      { apply (sm_find_some _ _ I). rewrite S. auto. } rewrite E. reflexivity.
    - unfold sm_count. rewrite S. assert (Z.to_nat i < length (firsts reqs))%nat by (apply nth_error_Some; congruence). lia. }
  split.
  { intros k k' s s' i i' H1 H2 H3 H4. destruct (F2 _ _ _ H1 H2) as [H5 H6].
    destruct (F2 _ _ _ H3 H4) as [H7 H8]. split.
    - intros ->. congruence.
    - intros ->. pose proof (si_nodup _ I) as N. rewrite S in N.
      assert (Z.to_nat i = Z.to_nat i'); [|lia].
      eapply NoDup_nth_error; [exact N| |congruence]. apply nth_error_Some. congruence. }
  split.
  { intros s H. unfold sm_find. assert (E : mfind set_ltb s (sm_ids (sm_of reqs)) = None).
    { apply (sm_find_none _ _ I). rewrite S, firsts_in. exact H. } rewrite E. reflexivity. }
  split; [apply sm_get_out|].
  split.
  { intros i H. rewrite <- S. apply sm_get_in. exact H. }
  unfold sm_count. rewrite S. reflexivity.
Qed.

Lemma overlaps_spec a b : lo a < hi a -> lo b < hi b ->
  overlaps a b = true <-> exists x, in_range x a /\ in_range x b.
Proof.
  intros Ha Hb. unfold overlaps, in_range.
  destruct (hi b <=? lo a) eqn:E1; [|destruct (hi a <=? lo b) eqn:E2].
  - split; [discriminate|]. intros [x H]. lia.
  - split; [discriminate|]. intros [x H]. lia.
  - split; [|reflexivity]. intros _. exists (Z.max (lo a) (lo b)). lia.
Qed.

Lemma existsb_seq f n : existsb f (seq 0 n) = true <-> exists i, (i < n)%nat /\ f i = true.
Proof.
  rewrite existsb_exists. split.
  - intros (i & H1 & H2). apply in_seq in H1. exists i. split; [lia|exact H2].
  - intros (i & H1 & H2). exists i. split; [apply in_seq; lia|exact H2].
Qed.

Lemma has_duplicates_inv m : sm_inv m -> Forall wf (sm_sets m) ->
  sm_has_duplicates m = true <->
  exists i j x, i <> j /\ contains (sm_get m i) x = true /\ contains (sm_get m j) x = true.
Proof.
  intros I W. rewrite Forall_forall in W.
  set (sets := map fst (sm_ids m)).
  assert (HS : forall s, In s sets <-> In s (sm_sets m)).
  { intros s. unfold sets. rewrite in_map_iff. split.
    - intros ([t i] & <- & H). apply (si_in _ I) in H as [_ H]. cbn. eapply nth_error_In; eauto.
    - intros H. apply In_nth_error in H as [n Hn]. exists (s, Z.of_nat n). split; [reflexivity|].
      apply (si_in _ I). rewrite Nat2Z.id. split; [lia|exact Hn]. }
  assert (ND : NoDup sets).
  { unfold sets. pose proof (si_sorted _ I) as Hs. clear -Hs. induction (sm_ids m) as [|p l IH]; cbn; [constructor|].
    apply msorted_cons in Hs as [Hs Hl]. constructor; [|auto].
    rewrite in_map_iff. intros (q & Hq & Hin). specialize (Hl _ Hin). rewrite Hq in Hl.
    rewrite set_ltb_irrefl in Hl. discriminate. }
  assert (G : forall s t x, In s (sm_sets m) -> In t (sm_sets m) -> s <> t -> mem s x -> mem t x ->
     exists i j y, i <> j /\ contains (sm_get m i) y = true /\ contains (sm_get m j) y = true).
  { intros s t x Hs Ht Hn M1 M2. apply In_nth_error in Hs as [a Ha]. apply In_nth_error in Ht as [b Hb].
    exists (Z.of_nat a), (Z.of_nat b), x. split.
    - intros E. assert (a = b) by lia. congruence.
    - rewrite (sm_get_nth m (Z.of_nat a) s), (sm_get_nth m (Z.of_nat b) t); try rewrite Nat2Z.id; try lia; auto.
      split; apply contains_spec; auto; apply W; eapply nth_error_In; eauto. }
  unfold sm_has_duplicates. fold sets. rewrite existsb_seq. split.
  - intros (i & Hi & H). apply existsb_exists in H as (r & Hr & H).
    apply existsb_seq in H as (j & Hj & H). destruct (Nat.eqb j i) eqn:E; [discriminate|].
    apply existsb_exists in H as (r' & Hr' & H).
    assert (Si : In (nth i sets []) (sm_sets m)) by (apply HS; apply nth_In; exact Hi).
    assert (Sj : In (nth j sets []) (sm_sets m)) by (apply HS; apply nth_In; exact Hj).
    apply overlaps_spec in H as (x & Hx' & Hx).
    2:{ apply (wf_ne _ _ (W _ Sj) Hr'). } 2:{ apply (wf_ne _ _ (W _ Si) Hr). }
    apply (G (nth i sets []) (nth j sets []) x); auto.
    + intros Heq. apply Nat.eqb_neq in E. apply E. symmetry.
      eapply (proj1 (NoDup_nth sets [])); eauto.
    + exists r; auto.
    + exists r'; auto.
  - intros (i & j & x & Hn & H1 & H2).
    assert (Di : 0 <= i < sm_count m).
    { destruct (Z_lt_dec i 0); [|destruct (Z_le_dec (sm_count m) i)]; try lia;
        rewrite sm_get_out in H1 by lia; discriminate. }
    assert (Dj : 0 <= j < sm_count m).
    { destruct (Z_lt_dec j 0); [|destruct (Z_le_dec (sm_count m) j)]; try lia;
        rewrite sm_get_out in H2 by lia; discriminate. }
    apply sm_get_in in Di as Gi. apply sm_get_in in Dj as Gj.
    pose proof (nth_error_In _ _ Gi) as Ii. pose proof (nth_error_In _ _ Gj) as Ij.
    apply contains_spec in H1; [|apply W; exact Ii]. apply contains_spec in H2; [|apply W; exact Ij].
    destruct H1 as (r & Hr & Hx). destruct H2 as (r' & Hr' & Hx').
    assert (sm_get m i <> sm_get m j).
    { intros E. rewrite E in Gi. assert (Z.to_nat i = Z.to_nat j); [|lia].
      eapply NoDup_nth_error; [apply (si_nodup _ I)| |congruence]. apply nth_error_Some. congruence. }
    apply HS in Ii as Ii'. apply HS in Ij as Ij'.
    destruct (In_nth (A:=symbol_set) _ _ [] Ii') as (a & La & Ea). destruct (In_nth (A:=symbol_set) _ _ [] Ij') as (b & Lb & Eb).
    exists a. split; [exact La|]. cbv beta. rewrite Ea. apply existsb_exists. exists r. split; [exact Hr|].
    apply existsb_seq. exists b. split; [exact Lb|].
    destruct (Nat.eqb b a) eqn:E. { apply Nat.eqb_eq in E. subst b. congruence. }
    rewrite Eb. apply existsb_exists. exists r'. split; [exact Hr'|].
    apply overlaps_spec; [apply (wf_ne _ _ (W _ Ij) Hr')|apply (wf_ne _ _ (W _ Ii) Hr)|].
    exists x. auto.
Qed.

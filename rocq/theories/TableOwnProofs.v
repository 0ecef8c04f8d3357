(** Proofs about the memory of parser tables. *)

From Verif Require Import Base MachineModel MachineProofs TableModel TableOwnModel TableOwnSpec.
From Coq Require Import Lia Permutation.
Local Open Scope nat_scope.

Lemma nodup_app {A} (l k : list A) : NoDup l -> NoDup k -> (forall a, In a l -> ~ In a k) -> NoDup (l ++ k).
Proof.
  induction 1 as [| a l N D IH]; intros K F; cbn; [exact K |]. constructor.
  - rewrite in_app_iff. intros [I | I]; [contradiction | exact (F a (or_introl eq_refl) I)].
  - apply IH; [exact K |]. intros b I. exact (F b (or_intror I)).
Qed.

Lemma copied_all {A} (l : list A) : copied (length l) l = Some l.
Proof. unfold copied. now rewrite Nat.leb_refl, firstn_all. Qed.

Lemma skipn_nth {A} (l : list A) : forall k x, nth_error l k = Some x -> skipn k l = x :: skipn (S k) l.
Proof. induction l as [| a l IH]; intros [| k] x E; try discriminate; cbn in *; [congruence |]. now apply IH. Qed.

Lemma from_skipn {A} (l : list A) : forall k x, In x (skipn k l) -> In x l.
Proof. induction l as [| a l IH]; intros [| k] x I; cbn in *; auto. right. eauto. Qed.

Lemma nth_app_new {A} (m n : list A) k : nth_error (m ++ n) (length m + k) = nth_error n k.
Proof. rewrite nth_error_app2 by lia. f_equal. lia. Qed.

Lemma nth_app_old {A} (m n : list A) a x : nth_error m a = Some x -> nth_error (m ++ n) a = Some x.
Proof. intros E. rewrite nth_error_app1; [exact E |]. apply nth_error_Some. congruence. Qed.

(** The object holds a value in the memory. *)
Definition row_list (m : memory) (a : nat) : list nat := match rows_at m a with Some l => l | None => [] end.
Definition weak_part (o : object) : list nat := match o_weak o with Some w => [w] | None => [] end.
Definition parts (m : memory) (o : object) : list nat :=
  [o_nonterm o; o_term o; o_rules o; o_counts o; o_guards o] ++ weak_part o ++ row_list m (o_nonterm o) ++ row_list m (o_term o).

Definition at_ (m : memory) (a : nat) (x : array) : Prop := nth_error m a = Some (Some x).

Definition counts_of (t : tables) : list (nat * nat) := map (fun p => (length (fst p), length (snd p))) (combine (t_terminals t) (t_nonterminals t)).

Record good (m : memory) (o : object) (v : value) : Prop := {
  g_lengths : length (t_nonterminals (v_tables v)) = length (t_terminals (v_tables v));
  g_weakness : v_weak v = false -> t_weak (v_tables v) = [];
  g_states : o_states o = length (t_terminals (v_tables v));
  g_eoi : o_eoi o = t_eoi (v_tables v);
  g_eog : o_eog o = t_eog (v_tables v);
  g_delete : o_delete o = v_owned v;
  g_rows : exists ts ns, at_ m (o_term o) (Rows ts) /\ at_ m (o_nonterm o) (Rows ns)
             /\ Forall2 (fun a l => at_ m a (Actions l)) ts (t_terminals (v_tables v))
             /\ Forall2 (fun a l => at_ m a (Actions l)) ns (t_nonterminals (v_tables v));
  g_counts : at_ m (o_counts o) (Counts (counts_of (v_tables v)));
  g_guards : at_ m (o_guards o) (Guards (t_guards (v_tables v)));
  g_num_guards : o_num_guards o = length (t_guards (v_tables v));
  g_rules : at_ m (o_rules o) (Rules (t_rules (v_tables v)));
  g_num_rules : o_num_rules o = length (t_rules (v_tables v));
  g_weak : if v_weak v then exists w, o_weak o = Some w /\ at_ m w (Weak (t_weak (v_tables v))) else o_weak o = None;
  g_num_weak : o_num_weak o = if v_weak v then length (t_weak (v_tables v)) else 0 }.

Lemma rows_at_eq m a l : at_ m a (Rows l) -> rows_at m a = Some l.
Proof. unfold rows_at, at_. now intros ->. Qed.

Lemma row_list_eq m a l : at_ m a (Rows l) -> row_list m a = l.
Proof. unfold row_list. intros H. now rewrite (rows_at_eq _ _ _ H). Qed.

(** An object only depends on its own arrays. *)
Lemma good_frame m m' o v : good m o v -> (forall a, In a (parts m o) -> nth_error m' a = nth_error m a) ->
  good m' o v /\ parts m' o = parts m o.
Proof.
  intros G F. destruct G as [G1 G2 G3 G4 G5 G6 (ts & ns & R1 & R2 & R3 & R4) G8 G9 G10 G11 G12 G13 G14].
  unfold parts in F. rewrite (row_list_eq _ _ _ R1), (row_list_eq _ _ _ R2) in F.
  assert (K : forall a x, In a ([o_nonterm o; o_term o; o_rules o; o_counts o; o_guards o] ++ weak_part o ++ ns ++ ts) -> at_ m a x -> at_ m' a x).
  { intros a x I H. unfold at_. now rewrite F. }
  assert (R1' : at_ m' (o_term o) (Rows ts)) by (apply K; [cbn; auto | exact R1]).
  assert (R2' : at_ m' (o_nonterm o) (Rows ns)) by (apply K; [cbn; auto | exact R2]).
  assert (FF : forall l ls, (forall a, In a l -> In a (ns ++ ts)) -> Forall2 (fun a l => at_ m a (Actions l)) l ls -> Forall2 (fun a l => at_ m' a (Actions l)) l ls).
  { intros l ls Sub FF. induction FF as [| a x l ls H FF IH]; constructor.
    - apply K; [| exact H]. rewrite !in_app_iff. right. right. rewrite <- in_app_iff. apply Sub. now left.
    - apply IH. intros b I. apply Sub. now right. }
  split.
  - constructor; auto.
    + exists ts, ns. split; [exact R1' | split; [exact R2' | split]]; apply FF; auto; intros a I; rewrite in_app_iff; auto.
    + apply K; [cbn; auto | exact G8].
    + apply K; [cbn; auto 10 | exact G9].
    + apply K; [cbn; auto | exact G11].
    + destruct (v_weak v); [| exact G13]. destruct G13 as (w & E & H). exists w. split; [exact E |].
      apply K; [| exact H]. rewrite !in_app_iff. right. left. unfold weak_part. rewrite E. now left.
  - unfold parts. now rewrite (row_list_eq _ _ _ R1), (row_list_eq _ _ _ R2), (row_list_eq _ _ _ R1'), (row_list_eq _ _ _ R2').
Qed.

Lemma forall2_at m l ls : Forall2 (fun a l => at_ m a (Actions l)) l ls -> forall a, In a l -> exists x, at_ m a x.
Proof. induction 1 as [| a x l ls H F IH]; intros b I; [contradiction |]. destruct I as [-> | I]; eauto. Qed.

Lemma parts_live m o v : good m o v -> forall a, In a (parts m o) -> exists x, at_ m a x.
Proof.
  intros G a. destruct G as [G1 G2 G3 G4 G5 G6 (ts & ns & R1 & R2 & R3 & R4) G8 G9 G10 G11 G12 G13 G14].
  unfold parts. rewrite (row_list_eq _ _ _ R1), (row_list_eq _ _ _ R2), !in_app_iff.
  intros [I | [I | [I | I]]].
  - cbn in I. destruct I as [<- | [<- | [<- | [<- | [<- | []]]]]]; eauto.
  - unfold weak_part in I. destruct (v_weak v).
    + destruct G13 as (w & E & H). rewrite E in I. destruct I as [<- | []]. eauto.
    + rewrite G13 in I. contradiction.
  - exact (forall2_at _ _ _ R4 _ I).
  - exact (forall2_at _ _ _ R3 _ I).
Qed.

Lemma parts_length m o v : good m o v -> length (parts m o) = arrays v.
Proof.
  intros G. destruct G as [G1 G2 G3 G4 G5 G6 (ts & ns & R1 & R2 & R3 & R4) G8 G9 G10 G11 G12 G13 G14].
  unfold parts. rewrite (row_list_eq _ _ _ R1), (row_list_eq _ _ _ R2), !app_length.
  rewrite (Forall2_length _ _ _ R3), (Forall2_length _ _ _ R4), G1. unfold weak_part, arrays.
  destruct (v_weak v); [destruct G13 as (w & -> & _) | rewrite G13]; cbn [length]; lia.
Qed.

Lemma live_below m a (x : array) : at_ m a x -> a < length m.
Proof. unfold at_. intros H. apply nth_error_Some. congruence. Qed.

(** What can be seen of an object is its value. *)
Lemma see_rows_good m rows ls : Forall2 (fun a l => at_ m a (Actions l)) rows ls ->
  see_rows m (length ls) rows (map (@length entry) ls) = Some ls.
Proof.
  induction 1 as [| a l rows ls H F IH]; [reflexivity |]. cbn. unfold actions_at. rewrite H. cbn. rewrite copied_all. cbn. now rewrite IH.
Qed.

Lemma counts_fst t : length (t_nonterminals t) = length (t_terminals t) ->
  map fst (counts_of t) = map (@length entry) (t_terminals t) /\ map snd (counts_of t) = map (@length entry) (t_nonterminals t).
Proof.
  unfold counts_of. generalize (t_nonterminals t) as ns, (t_terminals t) as ts. induction ns as [| n ns IH]; intros [| a ts] L; try discriminate; [now split |].
  cbn. destruct (IH ts) as [-> ->]; [cbn in L; lia | now split].
Qed.

Lemma see_good m o v : good m o v -> see m o = Some (v_tables v).
Proof.
  intros G. destruct G as [G1 G2 G3 G4 G5 G6 (ts & ns & R1 & R2 & R3 & R4) G8 G9 G10 G11 G12 G13 G14].
  unfold see, counts_at. rewrite G8. cbn [bind]. destruct (counts_fst _ G1) as [-> ->].
  rewrite (rows_at_eq _ _ _ R1), (rows_at_eq _ _ _ R2). cbn [bind]. rewrite G3, (see_rows_good _ _ _ R3). cbn [bind].
  rewrite <- G1, (see_rows_good _ _ _ R4). cbn [bind]. unfold guards_at, rules_at. rewrite G9, G11. cbn [bind].
  rewrite G10, G12, !copied_all. cbn [bind]. rewrite G4, G5.
  assert (W : match o_num_weak o, o_weak o with
             | O, _ => Some []
             | n, Some w => bind (weak_at m w) (fun ws => copied n ws)
             | _, None => None
             end = Some (t_weak (v_tables v))).
  { rewrite G14. destruct (v_weak v).
    - destruct G13 as (w & -> & H). unfold weak_at. rewrite H. cbn [bind].
      destruct (t_weak (v_tables v)) as [| p l] eqn:E; [reflexivity |]. cbn [length]. rewrite <- E at 1.
      change (S (length l)) with (length (p :: l)). rewrite E. apply copied_all.
    - now rewrite (G2 eq_refl). }
  rewrite W. cbn [bind]. destruct (v_tables v). reflexivity.
Qed.

(** Counting arrays. *)
Lemma alive_app m n : alive (m ++ n) = alive m + alive n.
Proof. unfold alive. induction m as [| [a |] m IH]; cbn; auto. Qed.

Lemma alive_release a : forall m x, at_ m a x -> alive m = S (alive (vset a None m)).
Proof.
  unfold at_. induction a as [| a IH]; intros [| c m] x H; try discriminate; cbn in H.
  - injection H as ->. reflexivity.
  - specialize (IH m x H). unfold alive in *. cbn. destruct c; cbn; lia.
Qed.

Fixpoint release_list (l : list nat) (m : memory) : option memory :=
  match l with [] => Some m | a :: l => bind (release a m) (release_list l) end.

Lemma release_live m a x : at_ m a x -> release a m = Some (vset a None m).
Proof. unfold release, at_. now intros ->. Qed.

Lemma at_other m a b (x : array) : a <> b -> at_ m b x -> at_ (vset a None m) b x.
Proof. unfold at_. intros N H. rewrite nth_vset. destruct (Nat.eqb_spec b a); [congruence | exact H]. Qed.

Lemma release_list_ok l : forall m, NoDup l -> (forall a, In a l -> exists x, at_ m a x) ->
  exists m', release_list l m = Some m' /\ length m' = length m /\ alive m = length l + alive m'
    /\ (forall a, ~ In a l -> nth_error m' a = nth_error m a).
Proof.
  induction l as [| a l IH]; intros m D H.
  - exists m. cbn. auto.
  - inversion D as [| ? ? N D']; subst. destruct (H a (or_introl eq_refl)) as (x & X).
    destruct (IH (vset a None m) D') as (m' & E1 & E2 & E3 & E4).
    { intros b I. destruct (H b (or_intror I)) as (y & Y). exists y. apply at_other; [| exact Y]. intros ->. contradiction. }
    exists m'. cbn [release_list length]. rewrite (release_live _ _ _ X). cbn [bind]. split; [exact E1 |].
    rewrite vset_length in E2. split; [exact E2 |]. split; [rewrite (alive_release _ _ _ X), E3; lia |].
    intros b I. cbn in I. rewrite E4 by tauto. rewrite nth_vset. destruct (Nat.eqb_spec b a); [| reflexivity]. subst. tauto.
Qed.

Lemma release_list_app l k m : release_list (l ++ k) m = bind (release_list l m) (release_list k).
Proof. revert m. induction l as [| a l IH]; intros m; cbn; [reflexivity |]. destruct (release a m); cbn; auto. Qed.

Fixpoint interleave (l k : list nat) : list nat :=
  match l, k with a :: l, b :: k => a :: b :: interleave l k | _, _ => [] end.

Lemma interleave_perm l : forall k, length l = length k -> Permutation (interleave l k) (l ++ k).
Proof.
  induction l as [| a l IH]; intros [| b k] L; try discriminate; cbn; [constructor |].
  constructor. transitivity (b :: (l ++ k)); [constructor; apply IH; cbn in L; lia |]. apply Permutation_middle.
Qed.

Lemma release_states_list this n : forall k m ts ns, at_ m (o_term this) (Rows ts) -> at_ m (o_nonterm this) (Rows ns) ->
  length ts = k + n -> length ns = k + n -> ~ In (o_term this) (ns ++ ts) -> ~ In (o_nonterm this) (ns ++ ts) ->
  NoDup (ns ++ ts) -> (forall a, In a (skipn k ns ++ skipn k ts) -> exists x, at_ m a x) ->
  release_states this n k m = release_list (interleave (skipn k ns) (skipn k ts)) m.
Proof.
  induction n as [| n IH]; intros k m ts ns T N LT LN NT NN D H.
  - rewrite !skipn_all2 by lia. reflexivity.
  - destruct (nth_error ts k) as [t |] eqn:ET; [| apply nth_error_None in ET; lia].
    destruct (nth_error ns k) as [nt |] eqn:EN; [| apply nth_error_None in EN; lia].
    rewrite (skipn_nth _ _ _ ET), (skipn_nth _ _ _ EN) in *. cbn [release_states interleave release_list].
    rewrite (rows_at_eq _ _ _ N). cbn [bind]. rewrite EN. cbn [bind].
    destruct (H nt) as (x & X); [now left |].
    destruct (H t) as (y & Y); [rewrite in_app_iff; right; now left |].
    rewrite (release_live _ _ _ X). cbn [bind].
    assert (It : In t ts) by (eapply nth_error_In; eauto). assert (In_ : In nt ns) by (eapply nth_error_In; eauto).
    assert (Dt : nt <> t).
    { intros ->. clear - D It In_. induction ns as [| a ns IH]; [contradiction |]. cbn in D. inversion D; subst.
      destruct In_ as [-> | I]; [| now apply IH]. apply H1. rewrite in_app_iff. auto. }
    assert (N1 : nt <> o_term this) by (intros E; apply NT; rewrite <- E, in_app_iff; auto).
    assert (N2 : nt <> o_nonterm this) by (intros E; apply NN; rewrite <- E, in_app_iff; auto).
    assert (N3 : t <> o_term this) by (intros E; apply NT; rewrite <- E, in_app_iff; auto).
    assert (N4 : t <> o_nonterm this) by (intros E; apply NN; rewrite <- E, in_app_iff; auto).
    rewrite (rows_at_eq _ _ _ (at_other _ _ _ _ N1 T)). cbn [bind]. rewrite ET. cbn [bind].
    rewrite (release_live _ _ _ (at_other _ _ _ _ Dt Y)). cbn [bind].
    apply IH; auto using at_other; try lia.
    intros a I.
    destruct (H a) as (z & Zz).
    { rewrite in_app_iff in I |- *. destruct I; [left | right]; now right. }
    exists z. apply at_other; [| apply at_other; [| exact Zz]].
    + intros <-. clear - I D ET EN LT LN It.
      rewrite in_app_iff in I. destruct I as [I | I].
      * assert (In t ns) by (eapply from_skipn; eauto).
        clear - D It H. induction ns as [| a ns IH]; [contradiction |]. cbn in D. inversion D; subst.
        destruct H as [-> | I]; [| now apply IH]. apply H2. rewrite in_app_iff. auto.
      * assert (D' : NoDup ts) by (clear - D; induction ns; [exact D | cbn in D; inversion D; subst; auto]).
        clear - I D' ET. revert k ET I. induction ts as [| c ts IHt]; intros [| k] ET I; cbn in *; try discriminate.
        -- injection ET as ->. inversion D'; subst. contradiction.
        -- inversion D'; subst. eapply IHt; eauto.
    + intros <-. clear - I D ET EN LT LN In_.
      rewrite in_app_iff in I. destruct I as [I | I].
      * assert (D' : NoDup ns).
        { clear - D. induction ns as [| a ns IH]; [constructor |]. cbn in D. inversion D; subst. constructor; [| auto].
          intros I. apply H1. rewrite in_app_iff. auto. }
        clear - I D' EN. revert k EN I. induction ns as [| c ns IHt]; intros [| k] ET I; cbn in *; try discriminate.
        -- injection ET as ->. inversion D'; subst. contradiction.
        -- inversion D'; subst. eapply IHt; eauto.
      * assert (In nt ts) by (eapply from_skipn; eauto).
        clear - D In_ H. induction ns as [| a ns IH]; [contradiction |]. cbn in D. inversion D; subst.
        destruct In_ as [-> | I]; [| now apply IH]. apply H2. rewrite in_app_iff. auto.
Qed.

(** The destructor releases exactly the arrays of the object. *)
Lemma destroy_good m o v : good m o v -> NoDup (parts m o) ->
  exists m', destroy o m = Some m' /\ length m' = length m
    /\ alive m = (if v_owned v then arrays v else 0) + alive m'
    /\ (forall a, (v_owned v = true -> ~ In a (parts m o)) -> nth_error m' a = nth_error m a).
Proof.
  intros G D. unfold destroy. rewrite (g_delete _ _ _ G). destruct (v_owned v).
  2: { exists m. repeat split. }
  pose proof (parts_length _ _ _ G) as PL. pose proof (parts_live _ _ _ G) as PV. pose proof G as G'.
  destruct G' as [G1 G2 G3 G4 G5 G6 (ts & ns & R1 & R2 & R3 & R4) G8 G9 G10 G11 G12 G13 G14].
  assert (P : parts m o = [o_nonterm o; o_term o; o_rules o; o_counts o; o_guards o] ++ weak_part o ++ ns ++ ts).
  { unfold parts. now rewrite (row_list_eq _ _ _ R1), (row_list_eq _ _ _ R2). }
  set (tail := [o_nonterm o; o_term o; o_rules o; o_counts o; o_guards o] ++ weak_part o) in *.
  rewrite app_assoc in P. fold tail in P.
  assert (LT : length ts = o_states o) by (rewrite (Forall2_length _ _ _ R3); congruence).
  assert (LN : length ns = o_states o) by (rewrite (Forall2_length _ _ _ R4); congruence).
  assert (D2 : forall a, In a tail -> ~ In a (ns ++ ts)).
  { rewrite P in D. clear - D. induction tail as [| b l IH]; intros a I; [contradiction |]. cbn in D. inversion D; subst.
    destruct I as [-> | I]; [| auto]. intros J. apply H1. rewrite in_app_iff. auto. }
  assert (D3 : NoDup (ns ++ ts)).
  { rewrite P in D. clear - D. induction tail as [| b l IH]; [exact D |]. cbn in D. inversion D; auto. }
  rewrite (release_states_list o (o_states o) 0 m ts ns); auto.
  2: { apply D2. unfold tail. cbn. auto. }
  2: { apply D2. unfold tail. cbn. auto. }
  2: { intros a I. apply PV. rewrite P, in_app_iff. right. exact I. }
  cbn [skipn].
  assert (PERM : Permutation (interleave ns ts ++ tail) (parts m o)).
  { rewrite P. transitivity (tail ++ interleave ns ts); [apply Permutation_app_comm |]. apply Permutation_app_head, interleave_perm. congruence. }
  destruct (release_list_ok (interleave ns ts ++ tail) m) as (m' & E1 & E2 & E3 & E4).
  - eapply Permutation_NoDup; [apply Permutation_sym, PERM | exact D].
  - intros a I. apply PV. eapply Permutation_in; eauto.
  - exists m'. split.
    + rewrite release_list_app in E1. destruct (release_list (interleave ns ts) m) as [m1 |]; [| discriminate]. cbn [bind] in *.
      rewrite <- E1. unfold tail, weak_part.
      assert (RB : forall x, bind x (fun y : memory => Some y) = x) by (intros [? |]; reflexivity).
      destruct (o_weak o); cbn [app release_list]; repeat (destruct (release _ _); cbn [bind]; [| reflexivity]); reflexivity.
    + split; [exact E2 |]. split; [rewrite E3, (Permutation_length PERM), PL; reflexivity |].
      intros a I. apply E4. intros J. apply (I eq_refl). eapply Permutation_in; eauto.
Qed.

(** The arrays of the states, two for each. *)
Fixpoint block (ts ns : list (list entry)) : memory :=
  match ts, ns with t :: ts, n :: ns => Some (Actions t) :: Some (Actions n) :: block ts ns | _, _ => [] end.
Fixpoint evens (b n : nat) : list nat := match n with O => [] | S n => b :: evens (S (S b)) n end.

Lemma in_evens n : forall b a, In a (evens b n) -> exists i, i < n /\ a = b + 2 * i.
Proof.
  induction n as [| n IH]; intros b a I; [contradiction |]. destruct I as [<- | I]; [exists 0; lia |].
  apply IH in I as (i & L & ->). exists (S i). lia.
Qed.

Lemma nodup_evens n : forall b, NoDup (evens b n).
Proof.
  induction n as [| n IH]; intros b; constructor; [| apply IH]. intros I. apply in_evens in I as (i & _ & E). lia.
Qed.

Lemma block_some ts : forall ns, Forall (fun c => exists x : array, c = Some x) (block ts ns).
Proof.
  induction ts as [| t ts IH]; intros [| n ns]; cbn; try constructor.
  - now exists (Actions t).
  - constructor; [now exists (Actions n) | apply IH].
Qed.

Lemma block_length ts : forall ns, length ns = length ts -> length (block ts ns) = 2 * length ts.
Proof. induction ts as [| t ts IH]; intros [| n ns] L; try discriminate; [reflexivity |]. cbn in *. rewrite IH; lia. Qed.

Lemma alive_block ts : forall ns, length ns = length ts -> alive (block ts ns) = 2 * length ts.
Proof. unfold alive. induction ts as [| t ts IH]; intros [| n ns] L; try discriminate; [reflexivity |]. cbn in *. rewrite IH; lia. Qed.

Lemma block_at ts : forall ns b M, length ns = length ts ->
  (forall i x, nth_error (block ts ns) i = Some x -> nth_error M (b + i) = Some x) ->
  Forall2 (fun a l => at_ M a (Actions l)) (evens b (length ts)) ts /\ Forall2 (fun a l => at_ M a (Actions l)) (evens (S b) (length ts)) ns.
Proof.
  induction ts as [| t ts IH]; intros [| n ns] b M L H; try discriminate; [split; constructor |].
  destruct (IH ns (S (S b)) M) as [A B]; [cbn in L; lia | |].
  { intros i x E. replace (S (S b) + i) with (b + S (S i)) by lia. apply H. exact E. }
  cbn [length evens]. split; constructor; auto; unfold at_.
  - replace b with (b + 0) by lia. apply H. reflexivity.
  - replace (S b) with (b + 1) by lia. apply H. reflexivity.
Qed.

Lemma good_app m n o v : good m o v -> good (m ++ n) o v.
Proof.
  intros G. apply (good_frame m (m ++ n) o v G). intros a I. destruct (parts_live _ _ _ G a I) as (x & X).
  unfold at_ in X. rewrite X. now apply nth_app_old.
Qed.

Lemma counts_nth t k x y : nth_error (t_terminals t) k = Some x -> nth_error (t_nonterminals t) k = Some y ->
  nth_error (counts_of t) k = Some (length x, length y).
Proof.
  unfold counts_of. generalize (t_terminals t) as ts, (t_nonterminals t) as ns. revert k.
  induction k as [| k IH]; intros [| t0 ts] [| n0 ns] A B; try discriminate; cbn in *; [congruence | now apply IH].
Qed.

Lemma forall2_nth {A B} (P : A -> B -> Prop) l k : Forall2 P l k -> forall i y, nth_error k i = Some y -> exists x, nth_error l i = Some x /\ P x y.
Proof. induction 1 as [| a b l k H F IH]; intros [| i] y E; try discriminate; cbn in *; [injection E as <-; eauto | auto]. Qed.

Lemma copy_states_good o v n : forall k M, good M o v -> k + n = length (t_terminals (v_tables v)) ->
  copy_states o n k M = Some (evens (length M) n, evens (S (length M)) n, skipn k (counts_of (v_tables v)),
    M ++ block (skipn k (t_terminals (v_tables v))) (skipn k (t_nonterminals (v_tables v)))).
Proof.
  induction n as [| n IH]; intros k M G L; pose proof G as G';
    destruct G' as [G1 G2 G3 G4 G5 G6 (ts & ns & R1 & R2 & R3 & R4) G8 G9 G10 G11 G12 G13 G14].
  - rewrite !(skipn_all2 (t_terminals _)), !(skipn_all2 (t_nonterminals _)), (skipn_all2 (counts_of _)).
    + cbn. now rewrite app_nil_r.
    + unfold counts_of. rewrite map_length, combine_length. lia.
    + lia.
    + lia.
  - destruct (nth_error (t_terminals (v_tables v)) k) as [x |] eqn:EX; [| apply nth_error_None in EX; lia].
    destruct (nth_error (t_nonterminals (v_tables v)) k) as [y |] eqn:EY; [| apply nth_error_None in EY; lia].
    pose proof (counts_nth _ _ _ _ EX EY) as EC.
    destruct (forall2_nth _ _ _ R3 _ _ EX) as (a & EA & HA). destruct (forall2_nth _ _ _ R4 _ _ EY) as (b & EB & HB).
    cbn [copy_states]. unfold counts_at at 1. rewrite G8. cbn [bind]. rewrite EC. cbn [bind].
    rewrite (rows_at_eq _ _ _ R1). cbn [bind]. rewrite EA. cbn [bind]. unfold actions_at at 1. rewrite HA. cbn [bind fst snd].
    rewrite copied_all. cbn [bind]. rewrite (rows_at_eq _ _ _ R2). cbn [bind]. rewrite EB. cbn [bind]. unfold actions_at at 1. rewrite HB. cbn [bind fst snd].
    rewrite copied_all. cbn [bind alloc].
    rewrite IH; [| now apply good_app, good_app | lia]. cbn [bind].
    rewrite (skipn_nth _ _ _ EX), (skipn_nth _ _ _ EY), (skipn_nth _ _ _ EC). cbn [block evens].
    rewrite !app_length. cbn [length]. replace (length M + 1 + 1) with (S (S (length M))) by lia. replace (length M + 1) with (S (length M)) by lia.
    rewrite <- !app_assoc. reflexivity.
Qed.

(** Where the arrays of a new object lie. *)
Lemma fresh_nodup m o b n : row_list m (o_term o) = evens b n -> row_list m (o_nonterm o) = evens (S b) n ->
  let others := [o_nonterm o; o_term o; o_rules o; o_counts o; o_guards o] ++ weak_part o in
  NoDup others -> Forall (fun a => a < b \/ b + 2 * n <= a) others -> NoDup (parts m o).
Proof.
  intros E1 E2 others D F. unfold parts. rewrite E1, E2, app_assoc. fold others. rewrite Forall_forall in F.
  apply nodup_app; [exact D | apply nodup_app; try apply nodup_evens |].
  - intros a I J. apply in_evens in I as (i & Li & Ei). apply in_evens in J as (j & Lj & Ej). lia.
  - intros a I J. apply F in I. rewrite in_app_iff in J. destruct J as [J | J]; apply in_evens in J as (j & Lj & Ej); lia.
Qed.

Lemma fresh_above m o L b n : row_list m (o_term o) = evens b n -> row_list m (o_nonterm o) = evens (S b) n -> L <= b ->
  Forall (fun a => L <= a) ([o_nonterm o; o_term o; o_rules o; o_counts o; o_guards o] ++ weak_part o) -> forall a, In a (parts m o) -> L <= a.
Proof.
  intros E1 E2 LB F a. unfold parts. rewrite E1, E2, app_assoc, in_app_iff. rewrite Forall_forall in F. intros [I | I]; [auto |].
  rewrite in_app_iff in I. destruct I as [I | I]; apply in_evens in I as (i & _ & ->); lia.
Qed.

(** A new object: its value, its arrays, and the rest of the memory. *)
Definition fresh (m m' : memory) (o : object) (v : value) : Prop :=
  good m' o v /\ NoDup (parts m' o) /\ (forall a, In a (parts m' o) -> length m <= a)
  /\ (exists n, m' = m ++ n) /\ alive m' = alive m + arrays v.

Lemma vset_three {A} (l k : list A) a b c x y z :
  vset (length l + 1 + 1) z (vset (length l + 1) y (vset (length l) x (l ++ a :: b :: c :: k))) = l ++ x :: y :: z :: k.
Proof. induction l as [| d l IH]; [reflexivity |]. cbn. now rewrite IH. Qed.

Lemma copy_good m o v : good m o v -> exists o' m', copy o m = Some (o', m') /\ fresh m m' o' v.
Proof.
  intros G. pose proof G as G'.
  destruct G' as [G1 G2 G3 G4 G5 G6 _ G8 G9 G10 G11 G12 G13 G14].
  set (t := v_tables v) in *. set (n := length (t_terminals t)) in *. set (L := length m).
  unfold copy. cbn [alloc]. rewrite !app_length. cbn [length]. fold L.
  set (M0 := ((m ++ [Some (Rows [])]) ++ [Some (Rows [])]) ++ [Some (Counts [])]).
  assert (LM : length M0 = L + 3) by (unfold M0, L; rewrite !app_length; cbn; lia).
  rewrite (copy_states_good o v (o_states o) 0 M0); [| now unfold M0; apply good_app, good_app, good_app | rewrite G3; reflexivity].
  cbn [bind skipn]. fold t. rewrite LM, G3. fold n.
  set (B := block (t_terminals t) (t_nonterminals t)).
  set (ts := evens (L + 3) n). set (ns := evens (S (L + 3)) n).
  assert (LB : length B = 2 * n) by (unfold B; now apply block_length).
  set (M1 := m ++ [Some (Rows ts); Some (Rows ns); Some (Counts (counts_of t))] ++ B).
  match goal with |- context [vset _ (Some (Counts _)) ?x] => assert (E1 : vset (L + 1 + 1) (Some (Counts (counts_of t))) x = M1) end.
  { unfold M0, M1. rewrite <- !app_assoc. cbn [app]. apply vset_three. }
  rewrite E1. clear E1.
  assert (GM : forall k, good (m ++ k) o v) by (intros; now apply good_app).
  assert (LM1 : length M1 = L + 3 + 2 * n) by (unfold M1; rewrite !app_length, LB; cbn; unfold L; lia).
  assert (R : rules_at M1 (o_rules o) = Some (t_rules t)).
  { unfold rules_at. pose proof (g_rules _ _ _ (GM ([Some (Rows ts); Some (Rows ns); Some (Counts (counts_of t))] ++ B))) as H. unfold at_ in H. fold M1 in H. now rewrite H. }
  rewrite R. cbn [bind]. rewrite G12, copied_all. cbn [bind].
  set (M2 := M1 ++ [Some (Rules (t_rules t))]).
  assert (LM2 : length M2 = L + 4 + 2 * n) by (unfold M2; rewrite app_length, LM1; cbn; lia).
  assert (GU : guards_at M2 (o_guards o) = Some (t_guards t)).
  { unfold guards_at. pose proof (g_guards _ _ _ (GM (([Some (Rows ts); Some (Rows ns); Some (Counts (counts_of t))] ++ B) ++ [Some (Rules (t_rules t))]))) as H. unfold at_ in H.
    rewrite app_assoc in H. fold M1 in H. fold M2 in H. now rewrite H. }
  rewrite GU. cbn [bind]. rewrite G10, copied_all. cbn [bind].
  set (M3 := M2 ++ [Some (Guards (t_guards t))]).
  assert (LM3 : length M3 = L + 5 + 2 * n) by (unfold M3; rewrite app_length, LM2; cbn; lia).
  rewrite LM1, LM2.
  assert (PRE : forall k, exists n0, M3 ++ k = m ++ n0).
  { intros k. unfold M3, M2, M1. eexists. rewrite <- !app_assoc. reflexivity. }
  assert (AL : alive M3 = alive m + (2 * n + 5)).
  { unfold M3, M2, M1. rewrite !alive_app. unfold B. rewrite alive_block by exact G1. fold n. cbn. lia. }
  assert (AT : forall k, at_ (M3 ++ k) L (Rows ts) /\ at_ (M3 ++ k) (L + 1) (Rows ns) /\ at_ (M3 ++ k) (L + 1 + 1) (Counts (counts_of t))
    /\ at_ (M3 ++ k) (L + 3 + 2 * n) (Rules (t_rules t)) /\ at_ (M3 ++ k) (L + 4 + 2 * n) (Guards (t_guards t))
    /\ Forall2 (fun a l => at_ (M3 ++ k) a (Actions l)) ts (t_terminals t) /\ Forall2 (fun a l => at_ (M3 ++ k) a (Actions l)) ns (t_nonterminals t)).
  { intros k.
    assert (A1 : forall a x, nth_error M1 a = Some x -> nth_error (M3 ++ k) a = Some x) by (intros; unfold M3, M2; now do 3 apply nth_app_old).
    assert (A0 : forall i x, nth_error ([Some (Rows ts); Some (Rows ns); Some (Counts (counts_of t))] ++ B) i = Some x -> nth_error (M3 ++ k) (L + i) = Some x).
    { intros i x E. apply A1. unfold M1, L. now rewrite nth_app_new. }
    split; [replace L with (L + 0) by lia; now apply A0 |]. split; [now apply A0 |]. split; [replace (L + 1 + 1) with (L + 2) by lia; now apply A0 |].
    split. { unfold at_, M3, M2. do 2 apply nth_app_old. rewrite <- LM1. replace (length M1) with (length M1 + 0) by lia. now rewrite nth_app_new. }
    split. { unfold at_, M3. apply nth_app_old. rewrite <- LM2. replace (length M2) with (length M2 + 0) by lia. now rewrite nth_app_new. }
    apply block_at; [exact G1 |]. intros i x E. replace (L + 3 + i) with (L + S (S (S i))) by lia. apply A0. exact E. }
  clearbody M3. clear R GU.
  destruct (v_weak v) eqn:EW.
  - destruct G13 as (w & Ew & Hw). rewrite Ew.
    destruct (PRE []) as (n0 & P0). rewrite app_nil_r in P0.
    assert (W : weak_at M3 w = Some (t_weak t)).
    { unfold weak_at. rewrite P0. unfold at_ in Hw. erewrite nth_app_old by exact Hw. reflexivity. }
    rewrite W. cbn [bind]. rewrite G14, copied_all. cbn [bind]. rewrite LM3.
    eexists _, _. split; [reflexivity |].
    destruct (AT [Some (Weak (t_weak t))]) as (A1 & A2 & A3 & A4 & A5 & A6 & A7).
    assert (E1 : row_list (M3 ++ [Some (Weak (t_weak t))]) L = evens (L + 3) n) by (now apply row_list_eq).
    assert (E2 : row_list (M3 ++ [Some (Weak (t_weak t))]) (L + 1) = evens (S (L + 3)) n) by (now apply row_list_eq).
    split; [| split; [| split; [| split]]].
    + constructor; cbn; fold t; auto.
      * rewrite EW. exact G2.
      * exists ts, ns. auto.
      * rewrite EW. exists (L + 5 + 2 * n). split; [reflexivity |]. unfold at_. rewrite <- LM3. replace (length M3) with (length M3 + 0) by lia. now rewrite nth_app_new.
      * now rewrite EW.
    + apply (fresh_nodup _ _ (L + 3) n); [exact E1 | exact E2 | |]; cbn [o_nonterm o_term o_rules o_counts o_guards weak_part o_weak app].
      * repeat constructor; cbn [In]; lia.
      * repeat constructor; lia.
    + fold L. apply (fresh_above _ _ L (L + 3) n); [exact E1 | exact E2 | lia |]; cbn [o_nonterm o_term o_rules o_counts o_guards weak_part o_weak app].
      repeat constructor; lia.
    + apply PRE.
    + rewrite alive_app, AL. unfold arrays. fold t n. rewrite EW. cbn. lia.
  - rewrite G13. cbn [bind]. eexists _, _. split; [reflexivity |].
    destruct (AT []) as (A1 & A2 & A3 & A4 & A5 & A6 & A7). destruct (PRE []) as (n0 & P0). rewrite app_nil_r in *.
    assert (E1 : row_list M3 L = evens (L + 3) n) by (now apply row_list_eq).
    assert (E2 : row_list M3 (L + 1) = evens (S (L + 3)) n) by (now apply row_list_eq).
    split; [| split; [| split; [| split]]].
    + constructor; cbn; fold t; auto.
      * exists ts, ns. auto.
      * now rewrite EW.
      * now rewrite EW.
    + apply (fresh_nodup _ _ (L + 3) n); [exact E1 | exact E2 | |]; cbn [o_nonterm o_term o_rules o_counts o_guards weak_part o_weak app].
      * repeat constructor; cbn [In]; lia.
      * repeat constructor; lia.
    + fold L. apply (fresh_above _ _ L (L + 3) n); [exact E1 | exact E2 | lia |]; cbn [o_nonterm o_term o_rules o_counts o_guards weak_part o_weak app].
      repeat constructor; lia.
    + now exists n0.
    + rewrite AL. unfold arrays. fold t n. rewrite EW. cbn. lia.
Qed.

Lemma make_states_eq ts : forall ns M, length ns = length ts ->
  make_states ts ns M = (evens (length M) (length ts), evens (S (length M)) (length ts),
    map (fun p => (length (fst p), length (snd p))) (combine ts ns), M ++ block ts ns).
Proof.
  induction ts as [| t ts IH]; intros [| n ns] M E; try discriminate.
  - cbn. now rewrite app_nil_r.
  - cbn [make_states alloc]. rewrite IH by (cbn in E; lia). rewrite !app_length. cbn [length evens combine map fst snd block].
    replace (length M + 1 + 1) with (S (S (length M))) by lia. replace (length M + 1) with (S (length M)) by lia.
    now rewrite <- !app_assoc.
Qed.

Definition made_tail (b : nat) (t : tables) (weak : bool) : memory :=
  [Some (Rows (evens b (length (t_terminals t)))); Some (Rows (evens (S b) (length (t_terminals t)))); Some (Counts (counts_of t)); Some (Guards (t_guards t)); Some (Rules (t_rules t))]
  ++ (if weak then [Some (Weak (t_weak t))] else []).

Definition made_object (b : nat) (owned : bool) (t : tables) (weak : bool) : object :=
  let k := b + 2 * length (t_terminals t) in
  mkObject (length (t_terminals t)) (t_eoi t) (t_eog t) k (k + 1) (k + 2) (k + 3) (length (t_guards t))
    (length (t_rules t)) (k + 4) (if weak then length (t_weak t) else 0) (if weak then Some (k + 5) else None) owned.

Lemma make_eq owned t weak m : length (t_nonterminals t) = length (t_terminals t) ->
  make owned t weak m = (made_object (length m) owned t weak, m ++ block (t_terminals t) (t_nonterminals t) ++ made_tail (length m) t weak).
Proof.
  intros G1. unfold make. rewrite make_states_eq by exact G1. cbn [alloc]. unfold made_object, made_tail.
  destruct weak; cbn [alloc]; rewrite !app_length, (block_length _ _ G1), <- !app_assoc; cbn [length app]; f_equal; f_equal; try lia.
  f_equal. lia.
Qed.

Lemma make_good owned t weak m : length (t_nonterminals t) = length (t_terminals t) -> (weak = false -> t_weak t = []) ->
  exists o' m', make owned t weak m = (o', m') /\ fresh m m' o' (mkValue t weak owned).
Proof.
  intros G1 G2. eexists _, _. split; [now apply make_eq |].
  set (n := length (t_terminals t)) in *. set (L := length m). set (B := block (t_terminals t) (t_nonterminals t)).
  set (M := m ++ B ++ made_tail L t weak). set (o := made_object L owned t weak).
  assert (LB : length B = 2 * n) by (unfold B; now apply block_length).
  assert (A0 : forall i x, nth_error (made_tail L t weak) i = Some x -> nth_error M (L + 2 * n + i) = Some x).
  { intros i x E. unfold M, L. replace (length m + 2 * n + i) with (length m + (length B + i)) by lia. now rewrite !nth_app_new. }
  assert (R1 : at_ M (o_term o) (Rows (evens L n))) by (unfold at_, o; cbn; replace (L + _) with (L + 2 * n + 0) by (cbn; lia); now apply A0).
  assert (R2 : at_ M (o_nonterm o) (Rows (evens (S L) n))) by (now apply A0).
  destruct (block_at (t_terminals t) (t_nonterminals t) L M G1) as [R3 R4].
  { intros i x E. unfold M, L. rewrite nth_app_new. apply nth_app_old. exact E. }
  fold n in R3, R4. unfold fresh.
  split; [| split; [| split; [| split]]].
  - constructor; try reflexivity; auto.
    + exists (evens L n), (evens (S L) n). auto.
    + now apply A0.
    + now apply A0.
    + now apply A0.
    + unfold o. cbn [v_weak v_tables o_weak made_object]. destruct weak; [| reflexivity]. eexists. split; [reflexivity |]. now apply A0.
  - apply (fresh_nodup _ _ L n); [now apply row_list_eq | now apply row_list_eq | |];
      unfold o; destruct weak; cbn [made_object o_nonterm o_term o_rules o_counts o_guards weak_part o_weak app]; fold n.
    + repeat constructor; cbn [In]; lia.
    + repeat constructor; cbn [In]; lia.
    + repeat constructor; lia.
    + repeat constructor; lia.
  - fold L. apply (fresh_above _ _ L L n); [now apply row_list_eq | now apply row_list_eq | lia |];
      unfold o; destruct weak; cbn [made_object o_nonterm o_term o_rules o_counts o_guards weak_part o_weak app]; fold n; repeat constructor; lia.
  - eexists. reflexivity.
  - unfold M. rewrite !alive_app. unfold B. rewrite alive_block by exact G1. unfold arrays. cbn [v_tables v_weak]. destruct weak; cbn; lia.
Qed.

(** The invariant of all histories. *)
Record inv (w : world) (s : list (option value)) : Prop := {
  i_length : length (w_objects w) = length s;
  i_good : forall x v, held s x = Some v -> exists o, live w x = Some o /\ good (w_memory w) o v /\ NoDup (parts (w_memory w) o);
  i_none : forall x, held s x = None -> live w x = None;
  i_apart : forall x y o o', x <> y -> live w x = Some o -> live w y = Some o' -> forall a, In a (parts (w_memory w) o) -> ~ In a (parts (w_memory w) o') }.

Lemma held_app s v x : held (s ++ [v]) x = if x =? length s then v else held s x.
Proof.
  unfold held. destruct (Nat.eqb_spec x (length s)) as [-> | N].
  - rewrite nth_error_app2 by lia. rewrite Nat.sub_diag. cbn. now destruct v.
  - destruct (Nat.lt_ge_cases x (length s)); [now rewrite nth_error_app1 |].
    rewrite (proj2 (nth_error_None (s ++ [v]) x)) by (rewrite app_length; cbn; lia). now rewrite (proj2 (nth_error_None s x)) by lia.
Qed.

Lemma live_app objs v m x : live (mkWorld (objs ++ [v]) m) x = if x =? length objs then v else live (mkWorld objs m) x.
Proof.
  unfold live. cbn. destruct (Nat.eqb_spec x (length objs)) as [-> | N].
  - rewrite nth_error_app2 by lia. rewrite Nat.sub_diag. cbn. now destruct v.
  - destruct (Nat.lt_ge_cases x (length objs)); [now rewrite nth_error_app1 |].
    rewrite (proj2 (nth_error_None (objs ++ [v]) x)) by (rewrite app_length; cbn; lia). now rewrite (proj2 (nth_error_None objs x)) by lia.
Qed.

Lemma held_vset s v x y : x < length s -> held (vset x v s) y = if y =? x then v else held s y.
Proof.
  intros L. unfold held. rewrite nth_vset. destruct (Nat.eqb_spec y x); [| reflexivity].
  destruct (nth_error s x) eqn:E; [now destruct v | apply nth_error_None in E; lia].
Qed.

Lemma live_vset objs m v x y : x < length objs -> live (mkWorld (vset x v objs) m) y = if y =? x then v else live (mkWorld objs m) y.
Proof.
  intros L. unfold live. cbn. rewrite nth_vset. destruct (Nat.eqb_spec y x); [| reflexivity].
  destruct (nth_error objs x) eqn:E; [now destruct v | apply nth_error_None in E; lia].
Qed.

Lemma held_below s x v : held s x = Some v -> x < length s.
Proof. unfold held. intros H. apply nth_error_Some. now destruct (nth_error s x). Qed.

Lemma live_memory objs m m' x : live (mkWorld objs m) x = live (mkWorld objs m') x.
Proof. reflexivity. Qed.

(** A new object in a new variable. *)
Lemma inv_add w s o v m' : inv w s -> fresh (w_memory w) m' o v ->
  inv (mkWorld (w_objects w ++ [Some o]) m') (s ++ [Some v]).
Proof.
  intros [IL IG IN IA] (F1 & F2 & F3 & (n & ->) & F5).
  assert (FR : forall x o0, live w x = Some o0 -> exists v0, held s x = Some v0 /\ good (w_memory w ++ n) o0 v0 /\ parts (w_memory w ++ n) o0 = parts (w_memory w) o0
     /\ NoDup (parts (w_memory w) o0) /\ (forall a, In a (parts (w_memory w) o0) -> a < length (w_memory w))).
  { intros x o0 E. destruct (held s x) as [v0 |] eqn:H; [| rewrite (IN _ H) in E; discriminate].
    destruct (IG _ _ H) as (o1 & E1 & G & D). rewrite E in E1. injection E1 as <-. exists v0. split; [reflexivity |].
    destruct (good_frame _ (w_memory w ++ n) _ _ G) as [G' P'].
    { intros a I. destruct (parts_live _ _ _ G a I) as (x0 & X). unfold at_ in X. rewrite X. now apply nth_app_old. }
    repeat (split; [assumption |]). intros a I. destruct (parts_live _ _ _ G a I) as (x0 & X). eapply live_below; eauto. }
  constructor.
  - cbn. rewrite !app_length. cbn. lia.
  - intros x v0. rewrite held_app, live_app, IL. destruct (x =? length s); [intros [= <-]; eauto |].
    intros H. destruct (IG _ _ H) as (o1 & E1 & _). destruct (FR _ _ E1) as (v1 & H1 & G & P & D & _).
    rewrite H in H1. injection H1 as <-. exists o1. cbn [w_memory]. rewrite P. auto.
  - intros x. rewrite held_app, live_app, IL. destruct (x =? length s); [discriminate |]. apply IN.
  - intros x y o1 o2 N. rewrite !live_app, IL.
    destruct (Nat.eqb_spec x (length s)) as [-> | Nx], (Nat.eqb_spec y (length s)) as [-> | Ny]; try congruence; cbn [w_memory].
    + intros [= <-] E a I J. destruct (FR _ _ E) as (v1 & _ & _ & P & _ & B). rewrite P in J. apply B in J. apply F3 in I. lia.
    + intros E [= <-] a I J. destruct (FR _ _ E) as (v1 & _ & _ & P & _ & B). rewrite P in I. apply B in I. apply F3 in J. lia.
    + intros E E' a. destruct (FR _ _ E) as (v1 & _ & _ & P & _). destruct (FR _ _ E') as (v2 & _ & _ & P' & _). rewrite P, P'. exact (IA _ _ _ _ N E E' a).
Qed.

(** An object destroyed. *)
Lemma inv_destroy w s x v : inv w s -> held s x = Some v ->
  exists o m', live w x = Some o /\ destroy o (w_memory w) = Some m' /\ inv (mkWorld (vset x None (w_objects w)) m') (vset x None s)
    /\ length m' = length (w_memory w) /\ alive (w_memory w) = (if v_owned v then arrays v else 0) + alive m'
    /\ (forall a, (v_owned v = true -> ~ In a (parts (w_memory w) o)) -> nth_error m' a = nth_error (w_memory w) a).
Proof.
  intros [IL IG IN IA] H. destruct (IG _ _ H) as (o & E & G & D). destruct (destroy_good _ _ _ G D) as (m' & D1 & D2 & D3 & D4).
  exists o, m'. repeat (match goal with |- _ /\ _ => split end); auto.
  assert (LX : x < length (w_objects w)) by (rewrite IL; eapply held_below; eauto).
  assert (LS : x < length s) by (eapply held_below; eauto).
  assert (FR : forall y o0, y <> x -> live w y = Some o0 -> exists v0, held s y = Some v0 /\ good m' o0 v0 /\ parts m' o0 = parts (w_memory w) o0 /\ NoDup (parts (w_memory w) o0)).
  { intros y o0 N E0. destruct (held s y) as [v0 |] eqn:H0; [| rewrite (IN _ H0) in E0; discriminate].
    destruct (IG _ _ H0) as (o1 & E1 & G0 & D0). rewrite E0 in E1. injection E1 as <-. exists v0. split; [reflexivity |].
    destruct (good_frame _ m' _ _ G0) as [G' P']; [| auto]. intros a I. apply D4. intros _ J. exact (IA _ _ _ _ N E0 E a I J). }
  constructor.
  - cbn. rewrite !vset_length. exact IL.
  - intros y v0. rewrite held_vset, live_vset by assumption. destruct (Nat.eqb_spec y x) as [| N]; [discriminate |].
    intros H0. destruct (IG _ _ H0) as (o1 & E1 & _). destruct (FR _ _ N E1) as (v1 & H1 & G1 & P & D1'). rewrite H0 in H1. injection H1 as <-.
    exists o1. cbn [w_memory]. rewrite P. auto.
  - intros y. rewrite held_vset, live_vset by assumption. destruct (y =? x); [reflexivity |]. apply IN.
  - intros y z o1 o2 N. rewrite !live_vset by assumption.
    destruct (Nat.eqb_spec y x) as [| N1]; [discriminate |]. destruct (Nat.eqb_spec z x) as [| N2]; [discriminate |].
    intros E1 E2 a. cbn [w_memory]. destruct (FR _ _ N1 E1) as (? & _ & _ & -> & _). destruct (FR _ _ N2 E2) as (? & _ & _ & -> & _). exact (IA _ _ _ _ N E1 E2 a).
Qed.

(** A new object in a variable that is free. *)
Lemma inv_put w s x o v m' : inv w s -> x < length s -> held s x = None -> fresh (w_memory w) m' o v ->
  inv (mkWorld (vset x (Some o) (w_objects w)) m') (vset x (Some v) s).
Proof.
  intros I LS H (F1 & F2 & F3 & (n & ->) & F5). destruct I as [IL IG IN IA].
  assert (LX : x < length (w_objects w)) by lia.
  assert (FR : forall y o0, live w y = Some o0 -> exists v0, held s y = Some v0 /\ good (w_memory w ++ n) o0 v0 /\ parts (w_memory w ++ n) o0 = parts (w_memory w) o0
     /\ NoDup (parts (w_memory w) o0) /\ (forall a, In a (parts (w_memory w) o0) -> a < length (w_memory w))).
  { intros y o0 E. destruct (held s y) as [v0 |] eqn:H0; [| rewrite (IN _ H0) in E; discriminate].
    destruct (IG _ _ H0) as (o1 & E1 & G & D). rewrite E in E1. injection E1 as <-. exists v0. split; [reflexivity |].
    destruct (good_frame _ (w_memory w ++ n) _ _ G) as [G' P'].
    { intros a I. destruct (parts_live _ _ _ G a I) as (x0 & X). unfold at_ in X. rewrite X. now apply nth_app_old. }
    repeat (split; [assumption |]). intros a I. destruct (parts_live _ _ _ G a I) as (x0 & X). eapply live_below; eauto. }
  constructor.
  - cbn. rewrite !vset_length. exact IL.
  - intros y v0. rewrite held_vset, live_vset by assumption. destruct (y =? x); [intros [= <-]; eauto |].
    intros H0. destruct (IG _ _ H0) as (o1 & E1 & _). destruct (FR _ _ E1) as (v1 & H1 & G & P & D & _).
    rewrite H0 in H1. injection H1 as <-. exists o1. cbn [w_memory]. rewrite P. auto.
  - intros y. rewrite held_vset, live_vset by assumption. destruct (y =? x); [discriminate |]. apply IN.
  - intros y z o1 o2 N. rewrite !live_vset by assumption.
    destruct (Nat.eqb_spec y x) as [-> | Nx], (Nat.eqb_spec z x) as [-> | Ny]; try congruence; cbn [w_memory].
    + intros [= <-] E a I J. destruct (FR _ _ E) as (v1 & _ & _ & P & _ & B). rewrite P in J. apply B in J. apply F3 in I. lia.
    + intros E [= <-] a I J. destruct (FR _ _ E) as (v1 & _ & _ & P & _ & B). rewrite P in I. apply B in I. apply F3 in J. lia.
    + intros E E' a. destruct (FR _ _ E) as (v1 & _ & _ & P & _). destruct (FR _ _ E') as (v2 & _ & _ & P' & _). rewrite P, P'. exact (IA _ _ _ _ N E E' a).
Qed.

Lemma vset_vset {A} x (a b : A) l : vset x a (vset x b l) = vset x a l.
Proof. revert x. induction l as [| c l IH]; intros [| x]; cbn; try reflexivity. now rewrite IH. Qed.

Lemma vset_held s x v : held s x = Some v -> vset x (Some v) s = s.
Proof. unfold held. intros H. apply vset_same. destruct (nth_error s x) as [[u |] |]; congruence. Qed.

(** One step keeps the invariant, and says how many arrays there are. *)
Lemma step_inv w s o s' : inv w s -> proper o -> value_step s o = Some s' ->
  exists w', step w o = Some w' /\ inv w' s' /\ alive (w_memory w') + removed s o = alive (w_memory w) + added s o.
Proof.
  intros I P E. destruct o as [t weak | t weak | y | x y | x]; cbn in P, E.
  - injection E as <-. destruct P as [P1 P2]. destruct (make_good true t weak (w_memory w) P1 P2) as (o' & m' & E & F).
    cbn [step]. rewrite E. eexists. split; [reflexivity |]. split; [now apply inv_add |]. destruct F as (_ & _ & _ & _ & A). cbn [added removed w_memory]. unfold arrays in *. cbn [v_tables v_weak] in *. lia.
  - injection E as <-. destruct P as [P1 P2]. destruct (make_good false t weak (w_memory w) P1 P2) as (o' & m' & E & F).
    cbn [step]. rewrite E. eexists. split; [reflexivity |]. split; [now apply inv_add |]. destruct F as (_ & _ & _ & _ & A). cbn [added removed w_memory]. unfold arrays in *. cbn [v_tables v_weak] in *. lia.
  - destruct (held s y) as [v |] eqn:H; [| discriminate]. injection E as <-. destruct (i_good _ _ I _ _ H) as (o & L & G & D).
    destruct (copy_good _ _ _ G) as (o' & m' & E & F). cbn [step]. rewrite L. cbn [bind]. rewrite E. cbn [bind].
    eexists. split; [reflexivity |]. split; [now apply inv_add |]. destruct F as (_ & _ & _ & _ & A). cbn [added removed w_memory]. rewrite H. lia.
  - destruct (held s x) as [vx |] eqn:HX; [| discriminate]. destruct (held s y) as [v |] eqn:HY; [| discriminate]. injection E as <-.
    destruct (i_good _ _ I _ _ HY) as (oy & LY & GY & DY). destruct (inv_destroy _ _ _ _ I HX) as (ox & m1 & LX & D1 & I1 & DL & DA & DF).
    cbn [step]. rewrite LX, LY. cbn [bind added removed]. destruct (Nat.eqb_spec x y) as [-> | N].
    + exists w. split; [reflexivity |]. rewrite (vset_held _ _ _ HY). split; [exact I | lia].
    + rewrite D1. cbn [bind]. assert (LS : x < length s) by (eapply held_below; eauto).
      assert (HY1 : held (vset x None s) y = Some v). { rewrite held_vset by exact LS. destruct (Nat.eqb_spec y x); congruence. }
      destruct (i_good _ _ I1 _ _ HY1) as (oy' & LY' & GY' & DY').
      assert (LXO : x < length (w_objects w)) by (rewrite (i_length _ _ I); exact LS).
      rewrite live_vset in LY' by exact LXO. destruct (Nat.eqb_spec y x); [congruence |].
      assert (oy' = oy) by (unfold live in *; cbn in LY'; congruence). subst oy'. cbn [w_memory] in GY'.
      destruct (copy_good _ _ _ GY') as (o' & m' & E & F). rewrite E. cbn [bind]. eexists. split; [reflexivity |]. split.
      * pose proof (inv_put _ _ x o' v m' I1) as IP. cbn [w_objects w_memory] in IP. rewrite !vset_vset in IP. apply IP.
        -- now rewrite vset_length.
        -- rewrite held_vset by exact LS. now rewrite Nat.eqb_refl.
        -- exact F.
      * destruct F as (_ & _ & _ & _ & A). cbn [w_memory]. unfold given_back. rewrite HX, HY. lia.
  - destruct (held s x) as [v |] eqn:H; [| discriminate]. injection E as <-.
    destruct (inv_destroy _ _ _ _ I H) as (ox & m1 & LX & D1 & I1 & DL & DA & DF). cbn [step]. rewrite LX. cbn [bind]. rewrite D1. cbn [bind].
    eexists. split; [reflexivity |]. split; [exact I1 |]. cbn [added removed w_memory]. unfold given_back. rewrite H. lia.
Qed.

Lemma run_inv l : forall w s s', inv w s -> Forall proper l -> values s l = Some s' ->
  exists w', run w l = Some w' /\ inv w' s' /\ alive (w_memory w') + total removed s l = alive (w_memory w) + total added s l.
Proof.
  induction l as [| o l IH]; intros w s s' I P E; cbn in E.
  - injection E as <-. exists w. split; [reflexivity |]. split; [exact I |]. cbn. lia.
  - inversion P; subst. destruct (value_step s o) as [s1 |] eqn:ES; [| discriminate].
    destruct (step_inv _ _ _ _ I H1 ES) as (w1 & E1 & I1 & A1). destruct (IH _ _ _ I1 H2 E) as (w2 & E2 & I2 & A2).
    exists w2. cbn [run total]. rewrite E1, ES. cbn [bind]. split; [exact E2 |]. split; [exact I2 |]. lia.
Qed.

Lemma inv_start : inv start [].
Proof.
  constructor; cbn; try reflexivity.
  - intros [| x] v H; discriminate.
  - intros [| x] _; reflexivity.
  - intros [| x] y o o' _ H; discriminate.
Qed.

(** Arrays that belong to no object which has to release them. *)
Definition foreign (w : world) (s : list (option value)) (a : nat) : Prop :=
  a < length (w_memory w) /\ (forall x v o, held s x = Some v -> v_owned v = true -> live w x = Some o -> ~ In a (parts (w_memory w) o)).

Lemma fresh_parts m n o v : good m o v -> parts (m ++ n) o = parts m o.
Proof.
  intros G. apply (good_frame m (m ++ n) o v G). intros a I. destruct (parts_live _ _ _ G a I) as (x & X).
  unfold at_ in X. rewrite X. now apply nth_app_old.
Qed.

Lemma foreign_add w s o v m' a : inv w s -> fresh (w_memory w) m' o v -> foreign w s a ->
  nth_error m' a = nth_error (w_memory w) a /\ foreign (mkWorld (w_objects w ++ [Some o]) m') (s ++ [Some v]) a.
Proof.
  intros I (F1 & F2 & F3 & (n & ->) & F5) [A1 A2]. split; [now rewrite nth_error_app1 |]. split; [cbn; rewrite app_length; lia |].
  intros x v0 o0. rewrite held_app, live_app, (i_length _ _ I). destruct (x =? length s).
  - intros _ _ [= <-] J. apply F3 in J. lia.
  - intros H OW L. destruct (i_good _ _ I _ _ H) as (o1 & L1 & G & _). change (live w x = Some o0) in L. assert (o1 = o0) by congruence. subst o1.
    cbn [w_memory]. rewrite (fresh_parts _ _ _ _ G). exact (A2 _ _ _ H OW L).
Qed.

Lemma foreign_put w s x o v m' a : inv w s -> x < length s -> fresh (w_memory w) m' o v -> foreign w s a ->
  nth_error m' a = nth_error (w_memory w) a /\ foreign (mkWorld (vset x (Some o) (w_objects w)) m') (vset x (Some v) s) a.
Proof.
  intros I LS (F1 & F2 & F3 & (n & ->) & F5) [A1 A2]. split; [now rewrite nth_error_app1 |]. split; [cbn; rewrite app_length; lia |].
  intros y v0 o0. rewrite held_vset by exact LS. rewrite live_vset by (rewrite (i_length _ _ I); exact LS). destruct (y =? x).
  - intros _ _ [= <-] J. apply F3 in J. lia.
  - intros H OW L. destruct (i_good _ _ I _ _ H) as (o1 & L1 & G & _). change (live w y = Some o0) in L. assert (o1 = o0) by congruence. subst o1.
    cbn [w_memory]. rewrite (fresh_parts _ _ _ _ G). exact (A2 _ _ _ H OW L).
Qed.

Lemma foreign_destroy w s x v o m' a : inv w s -> held s x = Some v -> live w x = Some o -> length m' = length (w_memory w) ->
  (forall a, (v_owned v = true -> ~ In a (parts (w_memory w) o)) -> nth_error m' a = nth_error (w_memory w) a) -> foreign w s a ->
  nth_error m' a = nth_error (w_memory w) a /\ foreign (mkWorld (vset x None (w_objects w)) m') (vset x None s) a.
Proof.
  intros I H L LM F [A1 A2]. split; [apply F; intros OW; exact (A2 _ _ _ H OW L) |]. split; [cbn; lia |].
  assert (LS : x < length s) by (eapply held_below; eauto).
  intros y v0 o0. rewrite held_vset by exact LS. rewrite live_vset by (rewrite (i_length _ _ I); exact LS).
  destruct (Nat.eqb_spec y x) as [| N]; [discriminate |]. intros H0 OW L0. change (live w y = Some o0) in L0.
  destruct (i_good _ _ I _ _ H0) as (o1 & L1 & G & _). assert (o1 = o0) by congruence. subst o1. cbn [w_memory].
  destruct (good_frame _ m' _ _ G) as [_ ->].
  - intros b J. apply F. intros _ K. exact (i_apart _ _ I _ _ _ _ N L0 L b J K).
  - exact (A2 _ _ _ H0 OW L0).
Qed.

Lemma step_foreign w s o s' w' a : inv w s -> proper o -> value_step s o = Some s' -> step w o = Some w' -> foreign w s a ->
  nth_error (w_memory w') a = nth_error (w_memory w) a /\ foreign w' s' a.
Proof.
  intros I P E ST FA. destruct o as [t weak | t weak | y | x y | x]; cbn in P, E; cbn [step] in ST.
  - injection E as <-. destruct P as [P1 P2]. destruct (make_good true t weak (w_memory w) P1 P2) as (o' & m' & E & F). rewrite E in ST. injection ST as <-. now apply foreign_add.
  - injection E as <-. destruct P as [P1 P2]. destruct (make_good false t weak (w_memory w) P1 P2) as (o' & m' & E & F). rewrite E in ST. injection ST as <-. now apply foreign_add.
  - destruct (held s y) as [v |] eqn:H; [| discriminate]. injection E as <-. destruct (i_good _ _ I _ _ H) as (o & L & G & D).
    destruct (copy_good _ _ _ G) as (o' & m' & E & F). rewrite L in ST. cbn [bind] in ST. rewrite E in ST. cbn [bind] in ST. injection ST as <-. now apply foreign_add.
  - destruct (held s x) as [vx |] eqn:HX; [| discriminate]. destruct (held s y) as [v |] eqn:HY; [| discriminate]. injection E as <-.
    destruct (i_good _ _ I _ _ HY) as (oy & LY & GY & DY). destruct (inv_destroy _ _ _ _ I HX) as (ox & m1 & LX & D1 & I1 & DL & DA & DF).
    rewrite LX, LY in ST. cbn [bind] in ST. destruct (Nat.eqb_spec x y) as [-> | N].
    + injection ST as <-. rewrite (vset_held _ _ _ HY). auto.
    + rewrite D1 in ST. cbn [bind] in ST. assert (LS : x < length s) by (eapply held_below; eauto).
      assert (HY1 : held (vset x None s) y = Some v). { rewrite held_vset by exact LS. destruct (Nat.eqb_spec y x); congruence. }
      destruct (i_good _ _ I1 _ _ HY1) as (oy' & LY' & GY' & DY').
      assert (LXO : x < length (w_objects w)) by (rewrite (i_length _ _ I); exact LS).
      rewrite live_vset in LY' by exact LXO. destruct (Nat.eqb_spec y x); [congruence |].
      assert (oy' = oy) by (unfold live in *; cbn in LY'; congruence). subst oy'. cbn [w_memory] in GY'.
      destruct (copy_good _ _ _ GY') as (o' & m' & E & F). rewrite E in ST. cbn [bind] in ST. injection ST as <-.
      destruct (foreign_destroy _ _ _ _ _ _ a I HX LX DL DF FA) as [N1 FA1].
      pose proof (foreign_put _ _ x o' v m' a I1) as FP. cbn [w_objects w_memory] in FP. rewrite !vset_vset in FP.
      destruct FP as [N2 FA2]; auto; [now rewrite vset_length |]. cbn [w_memory]. split; [congruence | exact FA2].
  - destruct (held s x) as [v |] eqn:H; [| discriminate]. injection E as <-.
    destruct (inv_destroy _ _ _ _ I H) as (ox & m1 & LX & D1 & I1 & DL & DA & DF). rewrite LX in ST. cbn [bind] in ST. rewrite D1 in ST. cbn [bind] in ST.
    injection ST as <-. exact (foreign_destroy _ _ _ _ _ _ a I H LX DL DF FA).
Qed.

Lemma run_foreign l : forall w s s' w' a, inv w s -> Forall proper l -> values s l = Some s' -> run w l = Some w' -> foreign w s a ->
  nth_error (w_memory w') a = nth_error (w_memory w) a.
Proof.
  induction l as [| o l IH]; intros w s s' w' a I P E R FA; cbn in E, R.
  - injection R as <-. reflexivity.
  - inversion P; subst. destruct (value_step s o) as [s1 |] eqn:ES; [| discriminate].
    destruct (step_inv _ _ _ _ I H1 ES) as (w1 & E1 & I1 & _). rewrite E1 in R. cbn [bind] in R.
    destruct (step_foreign _ _ _ _ _ _ I H1 ES E1 FA) as [N1 FA1]. rewrite <- N1. exact (IH _ _ _ _ _ I1 H2 E R FA1).
Qed.

(** The arrays of the client belong to nobody. *)
Lemma wrap_foreign w s t weak w' a : inv w s -> proper (Wrap t weak) -> step w (Wrap t weak) = Some w' ->
  length (w_memory w) <= a < length (w_memory w') -> foreign w' (s ++ [Some (mkValue t weak false)]) a.
Proof.
  intros I [P1 P2] ST L. cbn [step] in ST. destruct (make_good false t weak (w_memory w) P1 P2) as (o' & m' & E & F). rewrite E in ST. injection ST as <-.
  split; [exact (proj2 L) |]. intros x v o. rewrite held_app, live_app, (i_length _ _ I). destruct (x =? length s); [intros [= <-]; discriminate |].
  intros H OW LV. change (live w x = Some o) in LV. destruct (i_good _ _ I _ _ H) as (o1 & L1 & G & _). assert (o1 = o) by congruence. subst o1.
  destruct F as (_ & _ & _ & (n & ->) & _). cbn [w_memory]. rewrite (fresh_parts _ _ _ _ G). intros J.
  destruct (parts_live _ _ _ G a J) as (y & Y). apply live_below in Y. lia.
Qed.

(** Sums over the variables. *)
Definition sizes (s : list (option value)) : nat := list_sum (map (fun c => match c with Some v => arrays v | None => 0 end) s).

Lemma sizes_app s v : sizes (s ++ [Some v]) = sizes s + arrays v.
Proof. unfold sizes. rewrite map_app, list_sum_app. cbn. lia. Qed.

Lemma sizes_vset s : forall x c v, held s x = Some v ->
  sizes (vset x c s) + arrays v = sizes s + match c with Some u => arrays u | None => 0 end.
Proof.
  unfold sizes, held. induction s as [| d s IH]; intros [| x] c v H; cbn in H; try discriminate; cbn [vset map].
  - destruct d; [| discriminate]. injection H as ->. cbn. lia.
  - specialize (IH x c v H). change (list_sum (?a :: ?l)) with (a + list_sum l). lia.
Qed.

Definition all_owned (s : list (option value)) : Prop := forall x v, held s x = Some v -> v_owned v = true.

Lemma step_sizes s o s' : wraps o = false -> all_owned s -> value_step s o = Some s' ->
  all_owned s' /\ added s o + sizes s = removed s o + sizes s'.
Proof.
  intros W A E. destruct o as [t weak | t weak | y | x y | x]; cbn [value_step wraps] in *; try discriminate.
  - injection E as <-. split.
    + intros z v. rewrite held_app. destruct (z =? length s); [intros [= <-]; reflexivity | apply A].
    + rewrite sizes_app. cbn [added removed]. lia.
  - destruct (held s y) as [v |] eqn:H; [| discriminate]. injection E as <-. split.
    + intros z v0. rewrite held_app. destruct (z =? length s); [intros [= <-]; eauto | apply A].
    + rewrite sizes_app. cbn [added removed]. rewrite H. lia.
  - destruct (held s x) as [vx |] eqn:HX; [| discriminate]. destruct (held s y) as [v |] eqn:HY; [| discriminate]. injection E as <-. split.
    + intros z v0. rewrite held_vset by (eapply held_below; eauto). destruct (z =? x); [intros [= <-]; eauto | apply A].
    + pose proof (sizes_vset s x (Some v) vx HX) as SV. cbn [added removed]. destruct (Nat.eqb_spec x y) as [-> | N].
      * rewrite HX in HY. injection HY as <-. lia.
      * unfold given_back. rewrite HX, HY, (A _ _ HX). lia.
  - destruct (held s x) as [vx |] eqn:HX; [| discriminate]. injection E as <-. split.
    + intros z v0. rewrite held_vset by (eapply held_below; eauto). destruct (z =? x); [discriminate | apply A].
    + pose proof (sizes_vset s x None vx HX) as SV. cbv beta iota in SV. cbn [added removed]. unfold given_back. rewrite HX, (A _ _ HX). lia.
Qed.

Lemma total_sizes l : forall s s', forallb (fun o => negb (wraps o)) l = true -> all_owned s -> values s l = Some s' ->
  total added s l + sizes s = total removed s l + sizes s'.
Proof.
  induction l as [| o l IH]; intros s s' W A E; cbn in W, E.
  - injection E as <-. reflexivity.
  - apply andb_true_iff in W as [W1 W2]. apply negb_true_iff in W1. destruct (value_step s o) as [s1 |] eqn:ES; [| discriminate].
    destruct (step_sizes _ _ _ W1 A ES) as [A1 Q]. specialize (IH _ _ W2 A1 E). cbn [total]. rewrite ES. lia.
Qed.

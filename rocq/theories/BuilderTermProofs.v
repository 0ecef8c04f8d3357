(** The construction of the states and lookaheads ends. *)
From Verif Require Import Base OrdMap GrammarModel GrammarProofs FirstModel FirstProofs FollowProofs LrItemModel LrItemProofs ClosureModel ClosureSpec ClosureProofs ClosureTermProofs MachineModel MachineProofs BuilderModel BuilderSpec BuilderProofs BuilderLookProofs.
Local Open Scope Z_scope.

(** All the sublists of a list *)
Fixpoint sublists {A} (l : list A) : list (list A) := match l with [] => [[]] | a :: l => map (cons a) (sublists l) ++ sublists l end.
Lemma filter_sublist {A} (f : A -> bool) l : In (filter f l) (sublists l).
Proof. induction l as [|a l IH]; [left; reflexivity|]. cbn. apply in_app_iff. destruct (f a); [left; apply in_map, IH|right; exact IH]. Qed.
Lemma after_dot_in k j : In j (after_dot k) -> In j (r_items (l_rule k)).
Proof. unfold after_dot. generalize (r_items (l_rule k)), (l_offset k). intros l n. revert l. induction n as [|n IH]; intros [|a l] H; try exact H. right. apply IH, H. Qed.
Lemma after_dot_bound k x rest : after_dot k = x :: rest -> (l_offset k < length (r_items (l_rule k)))%nat.
Proof. unfold after_dot. intros H. apply (f_equal (@length item)) in H. rewrite skipn_length in H. cbn [length] in H. lia. Qed.
Lemma mset_length_new {K V} (ltb : K -> K -> bool) k (v : V) m : mfind ltb k m = None -> length (mset ltb k v m) = S (length m).
Proof. induction m as [|[k' v'] m IH]; cbn; intros H; [reflexivity|]. destruct (ltb k' k); [cbn; rewrite IH by exact H; reflexivity|]. destruct (ltb k k'); [reflexivity|discriminate H]. Qed.
Lemma sins_length {K} (ltb : K -> K -> bool) k s : (length (sins ltb k s) <= S (length s))%nat.
Proof. induction s as [|k' s IH]; cbn; [lia|]. destruct (ltb k' k); [cbn; lia|]. destruct (ltb k k'); cbn; lia. Qed.

Section Builder.
  Context (rid : rule -> Z) (RI : injective rid).
  Context (first_of : item -> iset) (FO : forall i, set_ok (first_of i)).
  Context (rules : Z -> list (list item)) (us : list item).
  Notation u := (fun i => In i us).
  Context (UO : ordinary rules first_of u) (GU : guards_in u).
  Context (busy : nat -> list item -> item -> bool) (width : nat) (BB : bounded_busy busy width).
  Context (languages : list item) (LU : forall l, In l languages -> u l).
  Notation within l := (fun k : lr0 => In k l).
  Notation cache_ok := (cache_ok rid first_of rules u).

  (** ** The items *)
  Definition roots : list lr0 := map language_start languages ++ flat_map (fun i => match i with IGuard p l => [guard_start p l] | _ => [] end) us ++ starts rules us.
  Definition all_items : list lr0 := flat_map (fun k => map (mkLr0 (l_rule k)) (seq 0 (S (length (r_items (l_rule k)))))) roots.
  Lemma all_items_in k : In k all_items <-> (exists k0, In k0 roots /\ l_rule k = l_rule k0) /\ (l_offset k <= length (r_items (l_rule k)))%nat.
  Proof.
    unfold all_items. rewrite in_flat_map. split.
    - intros (k0 & R & H). apply in_map_iff in H. destruct H as (n & <- & H). apply in_seq in H. cbn [l_rule l_offset]. split; [eauto|]. lia.
    - intros [(k0 & R & E) L]. exists k0. split; [exact R|]. apply in_map_iff. exists (l_offset k). rewrite <- E. split; [destruct k; reflexivity|]. apply in_seq. lia.
  Qed.
  Lemma roots_u k j : In k roots -> In j (r_items (l_rule k)) -> u j.
  Proof.
    intros R H. unfold roots in R. apply in_app_iff in R. destruct R as [R|R].
    - apply in_map_iff in R. destruct R as (l & <- & R). cbn in H. destruct H as [<-|[]]. apply LU, R.
    - apply in_app_iff in R. destruct R as [R|R].
      + apply in_flat_map in R. destruct R as (i & I & R). destruct i as [| | | | |p l|]; try (destruct R; fail). destruct R as [<-|[]]. eapply GU; [exact I|exact H].
      + eapply (starts_u first_of rules us UO); eassumption.
  Qed.
  Lemma all_items_u k j : In k all_items -> In j (after_dot k) -> u j.
  Proof. intros H J. apply all_items_in in H. destruct H as [(k0 & R & E) _]. apply after_dot_in in J. rewrite E in J. eapply roots_u; eassumption. Qed.
  Lemma closure_all (K : lr0 -> Prop) : (forall k, K k -> In k all_items) -> forall k, closure_item rules K k -> In k all_items.
  Proof.
    intros H k. induction 1 as [k X|k y rest r C IH A E]; [apply H, X|]. apply all_items_in. cbn [l_rule l_offset r_items]. split; [|lia]. exists (start y r). split; [|reflexivity]. apply in_app_iff. right. apply in_app_iff. right. apply starts_in; [|exact E]. eapply all_items_u; [exact IH|]. rewrite A. left. reflexivity.
  Qed.
  Lemma state_all K : lr0_state rules languages K -> forall k, K k -> In k all_items.
  Proof.
    induction 1 as [K l HL E|K from k0 p l rest R IH C A E|K from x R IH NE G E]; intros k H; apply E in H.
    - subst k. apply all_items_in. split; [|cbn; lia]. exists (language_start l). split; [|reflexivity]. apply in_app_iff. left. apply in_map, HL.
    - subst k. apply all_items_in. split; [|cbn; lia]. exists (guard_start p l). split; [|reflexivity]. apply in_app_iff. right. apply in_app_iff. left. apply in_flat_map. exists (IGuard p l). split; [|left; reflexivity]. eapply all_items_u; [eapply closure_all; [exact IH|exact C]|]. rewrite A. left. reflexivity.
    - destruct H as (k0 & rest & C & A & ->). assert (X := closure_all from IH k0 C). apply all_items_in in X. apply all_items_in. destruct X as [X _]. split; [exact X|]. apply after_dot_bound in A. cbn. lia.
  Qed.

  (** ** The number of states *)
  Definition max_states : nat := length (sublists all_items).
  Definition kernel_code (l : list lr0) : list lr0 := filter (fun k => if in_dec (lr0_dec rid RI) k l then true else false) all_items.
  Lemma kernel_code_inj l l' : ssorted (lr0_ltb rid) l -> ssorted (lr0_ltb rid) l' -> (forall k, In k l -> In k all_items) -> (forall k, In k l' -> In k all_items) -> kernel_code l = kernel_code l' -> l = l'.
  Proof.
    intros S S' A A' E. apply (ssorted_ext _ (lr0_strict rid RI)); [exact S|exact S'|]. assert (X : forall l, (forall k, In k l -> In k all_items) -> forall k, In k l <-> In k (kernel_code l)).
    { intros l0 A0 k. unfold kernel_code. rewrite filter_In. destruct (in_dec (lr0_dec rid RI) k l0) as [Y|Y]; split; intros H; auto; try contradiction. destruct H; discriminate. }
    intros k. rewrite (X l A), (X l' A'), E. reflexivity.
  Qed.
  Notation binv := (binv rid rules u languages).
  Lemma states_bound m : machine_ok rid m -> (forall q l, kern m q l -> lr0_state rules languages (within l)) -> (forall s, In s (m_states m) -> ssorted (lr0_ltb rid) (st_list s)) -> (length (m_states m) <= max_states)%nat.
  Proof.
    intros OK SO SS. rewrite <- (map_length (fun s => kernel_code (st_list s))). apply NoDup_incl_length; [|intros x H; apply in_map_iff in H; destruct H as (s & <- & _); apply filter_sublist].
    apply NoDup_nth_error. intros i j Hi E. rewrite map_length in Hi. destruct (nth_error (m_states m) i) as [s|] eqn:SI; [|apply nth_error_None in SI; lia]. rewrite (map_nth_error _ _ _ SI) in E. symmetry in E. destruct (nth_error (m_states m) j) as [t|] eqn:SJ.
    - rewrite (map_nth_error _ _ _ SJ) in E. injection E as E. assert (KI : kern m (Z.of_nat i) (st_list s)) by (split; [lia|]; rewrite Nat2Z.id; eauto). assert (KJ : kern m (Z.of_nat j) (st_list t)) by (split; [lia|]; rewrite Nat2Z.id; eauto).
      apply kernel_code_inj in E; [| | |intros k; exact (state_all _ (SO _ _ KJ) k)|intros k; exact (state_all _ (SO _ _ KI) k)].
      + rewrite E in KJ. pose proof (kern_inj rid RI _ _ _ _ OK KI KJ). lia.
      + apply SS, (nth_error_In _ _ SJ).
      + apply SS, (nth_error_In _ _ SI).
    - apply nth_error_None in SJ. assert (X : nth_error (map (fun s => kernel_code (st_list s)) (m_states m)) j = None) by (apply nth_error_None; rewrite map_length; exact SJ). congruence.
  Qed.
  Lemma count_bound m guards : binv m guards -> (length (m_states m) <= max_states)%nat.
  Proof. intros I. apply states_bound; [apply I|apply I|]. intros s S. apply (bi_states _ _ _ _ _ _ I s S). Qed.
  Lemma guards_bound m guards : binv m guards -> (length guards <= length all_items)%nat.
  Proof.
    intros I. rewrite <- (map_length fst guards), <- (map_length (fun k => rid (l_rule k)) all_items). apply NoDup_incl_length; [apply (sorted_nodup _ z_strict), sorted_keys, I|].
    intros z H. apply in_map_iff in H. destruct H as ([z' n] & <- & H). cbn [fst]. apply (mfind_in _ z_strict) in H; [|apply I]. apply (bi_guards _ _ _ _ _ _ I) in H. destruct H as (p & l & -> & K). apply in_map_iff. exists (guard_start p l). split; [reflexivity|]. apply (state_all _ (bi_reached _ _ _ _ _ _ I _ _ K)). left. reflexivity.
  Qed.
  Lemma kernel_bound m guards q l : binv m guards -> kern m q l -> (length l <= length all_items)%nat.
  Proof.
    intros I K. apply NoDup_incl_length; [|intros k; exact (state_all _ (bi_reached _ _ _ _ _ _ I _ _ K) k)]. destruct (kern_with_id m q l K) as (s & _ & <- & S). apply (state_nodup rid RI). pose proof (mo_states _ _ (bi_ok _ _ _ _ _ _ I)) as F. rewrite Forall_forall in F. apply F, S.
  Qed.
  Lemma guard_state_length i m guards queue m' guards' queue' : guard_state rid i m guards queue = (m', guards', queue') -> (length queue' + length guards = length queue + length guards')%nat.
  Proof.
    unfold guard_state. destruct (guard_rule i) as [r|]; [|intros H; injection H as <- <- <-; lia]. destruct (mfind Z.ltb (rid r) guards) as [v|] eqn:F; [intros H; injection H as <- <- <-; lia|]. destruct (add_state rid (single_state rid (mkLr0 r 0) IEog) m) as [[m1 s1] n]. intros H. injection H as <- <- <-. rewrite app_length, mset_length_new by exact F. cbn [length]. lia.
  Qed.
  Lemma scan_closure_length items : forall news m guards queue news' m' guards' queue', scan_closure rid items news m guards queue = (news', m', guards', queue') -> (length queue' + length guards = length queue + length guards')%nat.
  Proof.
    induction items as [|k items IH]; intros news m guards queue news' m' guards' queue' H; cbn [scan_closure] in H; [injection H as <- <- <- <-; lia|]. destruct (after_dot k) as [|i rest]; [eapply IH, H|]. destruct (generate_transition i); [|eapply IH, H]. destruct (guard_state rid i m guards queue) as [[m1 g1] q1] eqn:G. apply guard_state_length in G. apply IH in H. lia.
  Qed.
  Lemma add_transition_some q x t m l : machine_ok rid m -> kern m q l -> add_transition q x t m <> None.
  Proof.
    intros OK (P & s & N & _) H. unfold add_transition in H. destruct (_ || _)%bool; [discriminate H|]. rewrite (proj2 (Z.ltb_ge q 0) P) in H. destruct (nth_error (m_trans m) (Z.to_nat q)) as [ts|] eqn:E; [discriminate H|]. apply nth_error_None in E. assert (Z.to_nat q < length (m_states m))%nat by (apply nth_error_Some; congruence). pose proof (mo_trans _ _ OK). lia.
  Qed.
  Lemma add_targets_some q lq guards news : forall m max queue, binv m guards -> kern m q lq -> (forall x s, In (x, s) news -> target_ok rid rules u languages lq x s) -> max <= count_states m -> add_targets rid q news m max queue <> None.
  Proof.
    induction news as [|[x s] news IH]; intros m max queue I KQ TO MX; cbn [add_targets]; [discriminate|]. destruct (add_state rid s m) as [[m1 s1] t] eqn:E. destruct (TO x s (or_introl eq_refl)) as (SO & ID & GS & NE & NL & G).
    assert (RE : lr0_state rules languages (within (st_list s))) by (eapply state_goto; [apply (bi_reached _ _ _ _ _ _ I q lq KQ)|exact NE| |exact G]; destruct (st_list s) as [|k l]; [contradiction|]; exists k; apply G; left; reflexivity).
    apply (add_state_inv rid RI rules u busy languages _ _ _ _ _ guards I GS SO ID RE) in E. destruct E as (I1 & EX1 & KT & R & N). destruct (add_transition q x t m1) as [m2|] eqn:AT; [|eapply add_transition_some in AT; [contradiction|apply I1|apply EX1, KQ]].
    apply (add_transition_inv rid first_of FO rules u busy languages LU q lq x t (st_list s) _ _ guards I1 (ex_kern _ _ EX1 _ _ KQ) KT NE NL G) in AT. destruct AT as (I2 & EX2 & T2 & KK & CE).
    assert (KQ2 : kern m2 q lq) by (apply EX2, EX1, KQ). pose proof (extends_count _ _ EX1) as C1. assert (KT2 : exists l, kern m1 t l) by eauto. apply kern_range in KT2.
    destruct (max <=? t); apply IH; try assumption; try lia; intros y s0 X; apply TO; right; exact X.
  Qed.

  (** ** The states *)
  Definition la0 : iset := [IEmpty; IEoi; IEog].
  Definition closure_steps : nat := enough_fuel first_of rules us la0 width + length all_items + length (starts rules us) + 1.
  Definition state_steps : nat := max_states + max_states + length all_items + 1.
  Lemma origin_looks s k la : good_state rid u languages s -> In (k, la) (kernel_items s) -> forall x, In x la -> In x (looks first_of us la0).
  Proof.
    intros G H x X. destruct (gs_origin _ _ _ _ G) as [(l & _ & _ & E)|[(p & l & _ & E)|[E _]]]; apply in_combine_r in H; rewrite E in H.
    - destruct H as [<-|[]]. destruct X as [<-|[]]. left. reflexivity.
    - destruct H as [<-|[]]. destruct X as [<-|[]]. right. apply in_app_iff. left. cbn. auto.
    - apply repeat_spec in H. subst la. destruct X.
  Qed.
  Lemma make_states_ends fuel : (closure_steps <= fuel)%nat -> forall steps queue max m guards c, binv m guards -> 0 <= max <= count_states m -> cache_ok (fst c) -> (forall n, In n queue -> exists l, kern m n l) ->
    Z.of_nat (length queue) + (Z.of_nat max_states - max) + (Z.of_nat (length all_items) - Z.of_nat (length guards)) < Z.of_nat steps -> make_states rid first_of rules busy fuel steps queue max m guards c <> None.
  Proof.
    intros FU. induction steps as [|steps IH]; intros queue max m guards c I MX CO QV ST.
    { pose proof (count_bound m guards I) as CB. pose proof (guards_bound m guards I) as GB. unfold count_states in MX. lia. }
    cbn [make_states]. destruct queue as [|q queue]; [discriminate|]. destruct (QV q (or_introl eq_refl)) as [lq KQ]. destruct (kern_with_id m q lq KQ) as (s & SW & EL & SI). rewrite SW. subst lq.
    assert (SO : state_ok rid s) by (pose proof (mo_states _ _ (bi_ok _ _ _ _ _ _ I)) as F; rewrite Forall_forall in F; apply F, SI). pose proof (bi_states _ _ _ _ _ _ I s SI) as GS.
    assert (KB := kernel_bound m guards q (st_list s) I KQ).
    destruct (create_closure rid first_of rules busy fuel fuel (kernel_items s) c) as [[items c1]|] eqn:CC.
    2: { exfalso. revert CC. apply (create_closure_ends rid RI first_of FO rules us la0 UO busy width BB); [|exact CO| |].
         - intros k la X. split; [|split].
           + intros j Hj. eapply (gs_items _ _ _ _ GS); [eapply in_combine_l, X|exact Hj].
           + eapply kernel_items_ok; eassumption.
           + eapply origin_looks; eassumption.
         - unfold closure_steps in FU. lia.
         - unfold kernel_items. rewrite combine_length. unfold closure_steps in FU. unfold lr1 in *. lia. }
    apply (state_closure rid RI first_of FO rules u UO busy languages) in CC; try assumption. destruct CC as (CO1 & SS & IN).
    destruct (scan_closure rid items [] m guards queue) as [[[news m1] g1] q1] eqn:SC. pose proof (scan_closure_length _ _ _ _ _ _ _ _ _ SC) as SL. apply (scan_closure_inv rid RI rules u GU busy languages q (st_list s) items []) in SC; [|exact I|exact KQ|apply (sorted_nodup _ (lr0_strict rid RI)), SS| |split; [constructor|discriminate|right; reflexivity]].
    2: { intros k K. apply IN in K. split; [exact K|]. apply (closure_u first_of rules u UO (st_list s)); [apply GS|exact K]. }
    destruct SC as (I1 & EX1 & MG1 & NO & GD & new1 & -> & NV1 & NR1). cbn [app] in NO.
    assert (TO : forall x s0, In (x, s0) news -> target_ok rid rules u languages (st_list s) x s0) by (intros x s0 X; eapply (news_targets rid first_of FO rules u UO busy languages LU); try eassumption; apply GS).
    pose proof (extends_count _ _ EX1) as EC1.
    destruct (add_targets rid q news m1 max (queue ++ new1)) as [[[m2 max2] q2]|] eqn:AT; [|eapply add_targets_some in AT; [contradiction|exact I1|apply EX1, KQ|exact TO|lia]].
    apply (add_targets_inv rid RI first_of FO rules u busy languages LU q (st_list s) g1) in AT; [|exact I1|apply EX1, KQ|exact TO|lia].
    destruct AT as (I2 & EX2 & TR & M2 & new2 & -> & NV2 & NR2 & NL). apply IH; [exact I2|lia|exact CO1| |].
    - intros n X. apply in_app_iff in X. destruct X as [X|X]; [|apply NV2, X]. apply in_app_iff in X. destruct X as [X|X].
      + destruct (QV n (or_intror X)) as [l K]. exists l. apply EX2, EX1, K.
      + destruct (NV1 n X) as [l K]. exists l. apply EX2, K.
    - rewrite app_length. rewrite app_length in *. cbn [length] in ST. lia.
  Qed.
  Lemma complete_states_ends fuel steps c : (closure_steps <= fuel)%nat -> (state_steps <= steps)%nat -> cache_ok (fst c) -> complete_states rid first_of rules busy fuel steps (start_machine rid languages) [] c <> None.
  Proof.
    intros F S CO. destruct (start_machine_inv rid RI rules u busy languages LU) as [I _]. unfold complete_states. apply make_states_ends; [exact F|exact I|unfold count_states; lia|exact CO|intros n X; apply state_ids_in, X|].
    unfold state_ids, count_states. rewrite map_length, seq_length. cbn [length]. pose proof (count_bound _ _ I). unfold state_steps in S. lia.
  Qed.

  (** ** The lookaheads *)
  Definition alike (m m' : machine) : Prop := machine_ok rid m' /\ map st_list (m_states m') = map st_list (m_states m) /\ m_trans m' = m_trans m.
  Lemma alike_refl m : machine_ok rid m -> alike m m.
  Proof. intros OK. split; [exact OK|]. split; reflexivity. Qed.
  Lemma alike_trans a b c : alike a b -> alike b c -> alike a c.
  Proof. intros (_ & A & B) (OK & C & D). split; [exact OK|]. split; congruence. Qed.
  Lemma alike_kern m m' q l : alike m m' -> kern m' q l <-> kern m q l.
  Proof.
    intros (_ & E & _). assert (X : forall m m', map st_list (m_states m') = map st_list (m_states m) -> kern m' q l -> kern m q l); [|split; apply X; congruence]. clear. intros m m' E (P & s & N & <-). split; [exact P|]. apply (map_nth_error st_list) in N. rewrite E in N.
    destruct (nth_error (m_states m) (Z.to_nat q)) as [t|] eqn:T; [exists t; split; [reflexivity|]; rewrite (map_nth_error st_list _ _ T) in N; congruence|]. apply nth_error_None in T. assert (Y : (Z.to_nat q < length (map st_list (m_states m)))%nat) by (apply nth_error_Some; congruence). rewrite map_length in Y. lia.
  Qed.
  Lemma alike_transitions m m' q : alike m m' -> transitions_for_state q m' = transitions_for_state q m.
  Proof. intros (_ & _ & E). unfold transitions_for_state. rewrite E. reflexivity. Qed.
  Lemma add_lookahead_alike q n la m m' b : machine_ok rid m -> 0 <= n -> add_lookahead q n la m = Some (m', b) -> alike m m'.
  Proof. intros OK P H. apply (add_lookahead_spec rid) in H; [|exact OK|exact P]. destruct H as (OK' & _ & ET & EL & _). split; [exact OK'|]. auto. Qed.
  Lemma add_lookahead_some q n la m k : machine_ok rid m -> item_at m (q, n) k -> add_lookahead q n la m <> None.
  Proof.
    intros OK (P & l & (Q & s & S & <-) & N). cbn [fst snd] in *. unfold add_lookahead. rewrite (proj2 (Z.ltb_ge n 0) P), (proj2 (Z.ltb_ge q 0) Q), S. assert (L : (Z.to_nat n < length (st_looks s))%nat).
    { pose proof (mo_states _ _ OK) as F. rewrite Forall_forall in F. rewrite (so_looks _ _ (F s (nth_error_In _ _ S))). apply nth_error_Some. congruence. }
    apply nth_error_Some in L. destruct (nth_error (st_looks s) (Z.to_nat n)) as [old|]; [|contradiction]. destruct (merge_lookahead la old). discriminate.
  Qed.
  Definition targets_in (ts : list (item * Z)) (m : machine) : Prop := forall i t, mfind item_ltb i ts = Some t -> exists l, kern m t l.
  Lemma transitions_in q m : machine_ok rid m -> targets_in (transitions_for_state q m) m.
  Proof.
    intros OK i t H. unfold transitions_for_state in H. destruct (Z.ltb_spec q 0) as [N|N]; cbn [orb] in H; [discriminate H|]. destruct (Z.leb_spec (Z.of_nat (length (m_trans m))) q) as [L|L]; [discriminate H|]. assert (B : (Z.to_nat q < length (m_trans m))%nat) by lia. apply (nth_error_nth' _ []) in B.
    apply (mfind_in _ item_strict) in H; [|pose proof (mo_sorted_trans _ _ OK) as F; rewrite Forall_forall in F; apply F; eapply nth_error_In, B]. apply kern_range. unfold count_states. eapply (mo_targets _ _ OK); eassumption.
  Qed.
  Lemma pass_items_some from ts items : forall m p, machine_ok rid m -> targets_in ts m -> exists m' p', pass_items rid from ts items m p = Some (m', p') /\ alike m m'.
  Proof.
    induction items as [|[k la] items IH]; intros m p OK TI; cbn [pass_items]; [exists m, p; split; [reflexivity|apply alike_refl, OK]|]. destruct (after_dot k) as [|i rest]; [apply IH; assumption|]. destruct (mfind item_ltb i ts) as [t|] eqn:F; [|apply IH; assumption]. destruct (TI i t F) as [l K]. destruct (kern_with_id m t l K) as (s & SW & _ & IN). rewrite SW.
    set (n := find_identifier rid (advance k) s). destruct (Z.ltb_spec n 0) as [N|N]; [apply IH; assumption|]. assert (IA : item_at m (t, n) (advance k)) by (eapply (item_at_find rid RI); [exact OK|exact SW|]; auto).
    destruct (add_lookahead t n la m) as [[m1 b]|] eqn:AL; [|eapply add_lookahead_some in AL; [contradiction|exact OK|exact IA]]. apply add_lookahead_alike in AL; [|exact OK|exact N]. destruct (IH m1 (if icontains la IEmpty then add_link from (t, n) p else p)) as (m2 & p2 & E & A); [apply AL|intros i0 t0 F0; destruct (TI i0 t0 F0) as [l0 K0]; exists l0; apply (alike_kern m m1 _ _ AL), K0|]. exists m2, p2. split; [exact E|eapply alike_trans; eassumption].
  Qed.
  Lemma pass_state_some fuel q ks : (closure_steps <= fuel)%nat -> forall n ts m p c, machine_ok rid m -> targets_in ts m -> (forall k j, In k ks -> In j (after_dot k) -> u j) -> cache_ok (fst c) ->
    exists m' p' c', pass_state rid first_of rules busy fuel q ks n ts m p c = Some (m', p', c') /\ alike m m' /\ cache_ok (fst c').
  Proof.
    intros FU. induction ks as [|k ks IH]; intros n ts m p c OK TI KU CO; cbn [pass_state]; [exists m, p, c; split; [reflexivity|]; split; [apply alike_refl, OK|exact CO]|]. assert (KU' : forall k0 j, In k0 ks -> In j (after_dot k0) -> u j) by (intros k0 j X; apply KU; right; exact X). destruct (at_end k); [apply IH; assumption|].
    assert (UK : forall j, In j (after_dot k) -> u j) by (intros j; apply KU; left; reflexivity).
    destruct (item_closure rid first_of rules busy fuel k [IEmpty] c) as [[items c1]|] eqn:IC.
    2: { exfalso. revert IC. apply (item_closure_ends rid RI first_of FO rules us la0 UO busy width BB); [|exact CO|unfold closure_steps in FU; lia]. split; [exact UK|]. split; [apply single_ok|]. intros x [<-|[]]. right. apply in_app_iff. left. left. reflexivity. }
    apply (item_closure_exact rid RI first_of FO rules u UO busy) in IC; [|apply single_ok|exact UK|exact CO]. destruct IC as (CO1 & _).
    destruct (pass_items_some (q, n) ts items m p OK TI) as (m1 & p1 & E & A). rewrite E. destruct (IH (n + 1) ts m1 p1 c1) as (m2 & p2 & c2 & E2 & A2 & CO2); [apply A|intros i0 t0 F0; destruct (TI i0 t0 F0) as [l0 K0]; exists l0; apply (alike_kern m m1 _ _ A), K0|exact KU'|exact CO1|]. exists m2, p2, c2. split; [exact E2|]. split; [eapply alike_trans; eassumption|exact CO2].
  Qed.
  Section Automaton.
    Context (m0 : machine) (AU : automaton rid rules u languages m0).
    Lemma kernel_u q l k j : kern m0 q l -> In k l -> In j (after_dot k) -> u j.
    Proof. intros K X Hj. destruct (kern_with_id m0 q l K) as (s & _ & <- & S). eapply (gs_items _ _ _ _ (au_states _ _ _ _ _ AU s S)); eassumption. Qed.
    Lemma pass_states_some fuel qs : (closure_steps <= fuel)%nat -> (forall q, In q qs -> exists l, kern m0 q l) -> forall m p c, alike m0 m -> cache_ok (fst c) -> pass_states rid first_of rules busy fuel qs m p c <> None.
    Proof.
      intros FU. induction qs as [|q qs IH]; intros QS m p c A CO; cbn [pass_states]; [discriminate|]. destruct (QS q (or_introl eq_refl)) as [l K]. apply (alike_kern m0 m _ _ A) in K. destruct (kern_with_id m q l K) as (s & SW & EL & _). rewrite SW. rewrite <- EL in K.
      destruct (pass_state_some fuel q (st_list s) FU 0 (transitions_for_state q m) m p c) as (m1 & p1 & c1 & E & A1 & CO1); [apply A|apply transitions_in, A| |exact CO|].
      - intros k j X. apply (alike_kern m0 m _ _ A) in K. eapply kernel_u; eassumption.
      - rewrite E. apply IH; [intros q' X; apply QS; right; exact X|eapply alike_trans; eassumption|exact CO1].
    Qed.
    Lemma count_bound_au : (length (m_states m0) <= max_states)%nat.
    Proof. apply states_bound; [apply AU|apply AU|]. intros s S. apply (au_states _ _ _ _ _ AU s S). Qed.
    (** The places for lookaheads *)
    Definition places : list (lid * item) := list_prod (list_prod (map Z.of_nat (seq 0 max_states)) (map Z.of_nat (seq 0 (length all_items)))) (looks first_of us la0).
    Lemma place_in t k x : item_at m0 t k -> In x (looks first_of us la0) -> In (t, x) places.
    Proof.
      intros (P & l & K & N) X. apply in_prod; [|exact X]. destruct t as [q n]. cbn [fst snd] in *. assert (KL : (length l <= length all_items)%nat).
      { apply NoDup_incl_length; [|intros k0; exact (state_all _ (au_sound _ _ _ _ _ AU _ _ K) k0)]. destruct (kern_with_id m0 q l K) as (s & _ & <- & S). apply (state_nodup rid RI). pose proof (mo_states _ _ (au_ok _ _ _ _ _ AU)) as F. rewrite Forall_forall in F. apply F, S. }
      assert (Z.to_nat n < length l)%nat by (apply nth_error_Some; congruence). assert (R : exists l, kern m0 q l) by eauto. apply kern_range in R. unfold count_states in R. pose proof count_bound_au.
      apply in_prod; apply in_map_iff; [exists (Z.to_nat q)|exists (Z.to_nat n)]; (split; [lia|apply in_seq; lia]).
    Qed.
    Notation lalr := (lalr_look rules first_of languages Z (kernel_in m0) (steps_to m0)).
    Lemma kernel_all q k : kernel_in m0 q k -> In k all_items.
    Proof. intros (l & K & X). exact (state_all _ (au_sound _ _ _ _ _ AU _ _ K) k X). Qed.
    Lemma lalr_looks q k x : lalr q k x -> In x (looks first_of us la0).
    Proof.
      induction 1 as [q l L K|q p l K|q k y rest r x C A E B|q k y rest r x L IH A E S|q k y rest q' x L IH A T]; try exact IH; [left; reflexivity|right; cbn; auto|]. eapply looks_begins; [|exact B]. intros j Hj. eapply all_items_u; [eapply closure_all; [|exact C]; intros k0; apply kernel_all|]. rewrite A. right. exact Hj.
    Qed.
    Definition open_place (m : machine) (e : lid * item) : bool := if in_dec item_dec (snd e) (looks_at m (fst e)) then false else true.
    Definition open_places (m : machine) : nat := length (filter (open_place m) places).
    Lemma place_range e : In e places -> 0 <= fst (fst e) /\ 0 <= snd (fst e).
    Proof. destruct e as [[q n] x]. intros H. apply in_prod_iff in H. destruct H as [H _]. apply in_prod_iff in H. destruct H as [H1 H2]. apply in_map_iff in H1, H2. destruct H1 as (a & <- & _), H2 as (b & <- & _). cbn. lia. Qed.
    Section Flow.
      Context (m1 : machine) (p : propagation) (PI : pass_inv rid m0 (edge first_of rules m0) m1 p).
      Lemma pass_on_ends f la targets : (forall f l, mfind lid_ltb f p = Some l -> forall t, In t l -> edge first_of rules m0 f t IEmpty) -> (forall t, In t targets -> edge first_of rules m0 f t IEmpty) -> (forall x, In x la -> flows first_of rules m0 m1 f x) -> forall m todo, flow_inv rid first_of rules m0 m1 p todo m ->
        exists m' todo', pass_on la targets p m todo = Some (m', todo') /\ (length todo' + open_places m' <= length todo + open_places m)%nat.
      Proof.
        intros LE. induction targets as [|t targets IH]; intros TE LF m todo I; cbn [pass_on]; [exists m, todo; split; [reflexivity|lia]|]. pose proof (TE t (or_introl eq_refl)) as ET. destruct (edge_range _ _ _ _ _ _ ET) as [_ [PT QT]]. assert (IT : exists k, item_at m t k /\ item_at m0 t k).
        { destruct ET as (_ & k2 & _ & _ & _ & _ & _ & _ & (Q & l & K & N)). exists (advance k2). split; (split; [exact Q|]); exists l; (split; [|exact N]); [apply (fi_kern _ _ _ _ _ _ _ _ I), K|exact K]. }
        destruct IT as (k & IT & IT0). destruct (add_lookahead (fst t) (snd t) la m) as [[m2 ch]|] eqn:AL; [|eapply add_lookahead_some in AL; [contradiction|apply I|destruct t; exact IT]].
        pose proof AL as AL'. apply add_lookahead_alike in AL'; [|apply I|exact QT]. apply (add_lookahead_spec rid) in AL; [|apply I|exact QT]. destruct AL as (OK2 & EI & ETR & ELS & LK & CH).
        assert (LK2 : forall s x, 0 <= fst s -> 0 <= snd s -> In x (looks_at m2 s) <-> In x (looks_at m s) \/ (s = t /\ In x la /\ x <> IEmpty)).
        { intros s x PS QS. unfold looks_at. rewrite LK, !Z2Nat.id by assumption. split; (intros [X|X]; [auto|right]); [destruct X as (E1 & E2 & X); split; [destruct s, t; cbn in *; congruence|exact X]|destruct X as (-> & X); auto]. }
        assert (LT : forall x, In x la -> x <> IEmpty -> flows first_of rules m0 m1 t x) by (intros x X NE; eapply flows_on; [apply LF, X|exact ET|exact NE]).
        set (todo2 := if (ch && match mfind lid_ltb t p with Some _ => true | None => false end)%bool then sins lid_ltb t todo else todo) in *.
        assert (I2 : flow_inv rid first_of rules m0 m1 p todo2 m2).
        { split; [exact OK2| | | | | |].
          - intros q l. rewrite (alike_kern m m2 q l AL'). apply I.
          - intros q. rewrite (alike_transitions m m2 q AL'). apply I.
          - intros s x PS QS X. apply LK2 in X; [|exact PS|exact QS]. destruct X as [X|(-> & X & NE)]; [apply (fi_sound _ _ _ _ _ _ _ _ I); assumption|apply LT; assumption].
          - intros s x PS QS X. apply LK2; [exact PS|exact QS|]. left. apply (fi_base _ _ _ _ _ _ _ _ I); assumption.
          - intros s X. subst todo2. destruct (ch && _)%bool; [|apply (fi_todo _ _ _ _ _ _ _ _ I), X]. apply (sins_in _ lid_strict) in X. destruct X as [->|X]; [auto|apply (fi_todo _ _ _ _ _ _ _ _ I), X].
          - subst todo2. destruct (ch && _)%bool; [apply (sins_sorted _ lid_strict)|]; apply I. }
        destruct (IH (fun s X => TE s (or_intror X)) LF m2 todo2 I2) as (m3 & todo3 & E3 & L3). exists m3, todo3. split; [exact E3|]. enough (length todo2 + open_places m2 <= length todo + open_places m)%nat by lia.
        assert (MO : forall e, In e places -> open_place m2 e = true -> open_place m e = true).
        { intros e HE. unfold open_place. destruct (in_dec item_dec (snd e) (looks_at m (fst e))) as [X|X]; [|reflexivity]. destruct (in_dec item_dec (snd e) (looks_at m2 (fst e))) as [Y|Y]; [discriminate|]. exfalso. apply Y. apply LK2; [apply (place_range e HE)|apply (place_range e HE)|auto]. }
        destruct ch; cbn [andb] in todo2.
        + assert (LS : (open_places m2 < open_places m)%nat).
          { unfold open_places. apply filter_less; [exact MO|]. destruct (proj1 CH eq_refl) as (x & X & NE & NI). exists (t, x). split; [|unfold open_place; cbn [fst snd]; split].
            - eapply place_in; [exact IT0|]. eapply lalr_looks. eapply (flows_lalr rid first_of rules u languages m0 AU m1 p PI); [exact PT|exact QT|apply LT; eassumption|exact IT0].
            - destruct (in_dec item_dec x (looks_at m t)) as [Y|Y]; [contradiction|reflexivity].
            - destruct (in_dec item_dec x (looks_at m2 t)) as [Y|Y]; [reflexivity|]. exfalso. apply Y. apply LK2; auto. }
          assert (length todo2 <= S (length todo))%nat by (subst todo2; destruct (mfind lid_ltb t p); [apply sins_length|lia]). lia.
        + subst todo2. assert (open_places m2 <= open_places m)%nat by (apply filter_le, MO). lia.
      Qed.
      Lemma propagate_ends steps : (forall f l, mfind lid_ltb f p = Some l -> forall t, In t l -> edge first_of rules m0 f t IEmpty) -> forall todo m, flow_inv rid first_of rules m0 m1 p todo m -> (forall f, In f todo -> exists k, item_at m0 f k) -> (forall f, mfind lid_ltb f p <> None -> exists k, item_at m0 f k) -> (length todo + open_places m < steps)%nat -> propagate steps todo p m <> None.
      Proof.
        intros LE. induction steps as [|steps IH]; intros todo m I TI PK ST; [lia|]. cbn [propagate]. destruct todo as [|f todo]; [discriminate|]. destruct (fi_todo _ _ _ _ _ _ _ _ I f (or_introl eq_refl)) as [P Q]. destruct (TI f (or_introl eq_refl)) as (k & _ & l & K & N). apply (fi_kern _ _ _ _ _ _ _ _ I) in K.
        destruct (kern_with_id m _ _ K) as (s & SW & EL & SI). rewrite SW, (proj2 (Z.ltb_ge _ _) Q). destruct (nth_error (st_looks s) (Z.to_nat (snd f))) as [la|] eqn:NL.
        2: { exfalso. apply nth_error_None in NL. pose proof (mo_states _ _ (fi_ok _ _ _ _ _ _ _ _ I)) as F. rewrite Forall_forall in F. rewrite (so_looks _ _ (F s SI)), EL in NL. assert (Z.to_nat (snd f) < length l)%nat by (apply nth_error_Some; congruence). lia. }
        assert (LA : looks_at m f = la). { unfold looks_at, lookahead_of. unfold state_with_id in SW. destruct (_ || _)%bool in SW; [discriminate SW|]. rewrite SW. apply nth_error_nth, NL. }
        set (targets := match mfind lid_ltb f p with Some l => l | None => [] end).
        assert (TE : forall t, In t targets -> edge first_of rules m0 f t IEmpty) by (intros t X; subst targets; destruct (mfind lid_ltb f p) as [l0|] eqn:F; [eapply LE; eassumption|destruct X]).
        assert (I' : flow_inv rid first_of rules m0 m1 p todo m). { destruct I. split; try assumption; [intros f' X; apply fi_todo; right; exact X|]. apply ssorted_cons in fi_sorted. apply fi_sorted. }
        destruct (pass_on_ends f la targets LE TE) with (m := m) (todo := todo) as (m2 & todo2 & PO & LS); [intros x X; apply (fi_sound _ _ _ _ _ _ _ _ I); [exact P|exact Q|rewrite LA; exact X]|exact I'|]. rewrite PO.
        pose proof PO as PO'. apply (pass_on_inv rid first_of rules u busy m0 kernel_u m1 p f la targets LE P Q TE m todo) in PO'; [|exact I'|intros x; rewrite LA; reflexivity]. destruct PO' as (R1 & _). apply IH; [exact R1| |exact PK|cbn [length] in ST; lia].
        assert (TG : forall t, In t targets -> exists k, item_at m0 t k) by (intros t X; destruct (TE t X) as (_ & k2 & _ & _ & _ & _ & _ & _ & IA); eauto).
        assert (TT : forall t, In t todo -> exists k, item_at m0 t k) by (intros t X; apply TI; right; exact X). clear -PO TG TT. clearbody targets. revert m todo PO TT. induction targets as [|t targets IH]; intros m todo PO TT; cbn [pass_on] in PO; [injection PO as <- <-; exact TT|]. destruct (add_lookahead (fst t) (snd t) la m) as [[m3 ch]|]; [|discriminate PO].
        eapply IH; [intros t0 X; apply TG; right; exact X|exact PO|]. intros t0 X. destruct (ch && _)%bool; [|apply TT, X]. apply (sins_in _ lid_strict) in X. destruct X as [->|X]; [apply TG; left; reflexivity|apply TT, X].
      Qed.
    End Flow.
    Definition look_steps : nat := (length places + length places + max_states * length all_items + 1)%nat.
    Lemma open_places_bound m : (open_places m <= length places)%nat.
    Proof. unfold open_places. generalize (open_place m). intros g. induction places as [|e l IH]; [auto|]. cbn [filter]. destruct (g e); cbn; lia. Qed.
    Lemma complete_lookaheads_ends fuel steps c : (closure_steps <= fuel)%nat -> (look_steps <= steps)%nat -> cache_ok (fst c) -> complete_lookaheads rid first_of rules busy fuel steps m0 c <> None.
    Proof.
      intros FU ST CO. unfold complete_lookaheads. destruct (pass_states rid first_of rules busy fuel (state_ids m0) m0 [] c) as [[[m1 p] c1]|] eqn:PS; [|eapply pass_states_some in PS; [contradiction|exact FU|intros q X; apply state_ids_in, X|apply alike_refl, AU|exact CO]].
      apply (pass_all rid RI first_of FO rules u UO busy m0 (au_ok _ _ _ _ _ AU) kernel_u) in PS; [|exact CO]. destruct PS as [CO1 I].
      assert (LE : forall f l, mfind lid_ltb f p = Some l -> forall t, In t l -> edge first_of rules m0 f t IEmpty) by (intros f l F t X; apply (pi_link _ _ _ _ _ I); eauto).
      assert (PK : forall f, mfind lid_ltb f p <> None -> exists k, item_at m0 f k).
      { intros f F. destruct (mfind lid_ltb f p) as [l|] eqn:FM; [|contradiction]. destruct (pi_links _ _ _ _ _ I _ _ FM) as [_ NL]. destruct l as [|t l]; [contradiction|]. destruct (LE f (t :: l) FM t (or_introl eq_refl)) as (k & _ & _ & _ & IA & _). eauto. }
      assert (KF : forall f, In f (map fst p) -> mfind lid_ltb f p <> None).
      { intros f X. apply in_map_iff in X. destruct X as ([f' l] & <- & X). cbn [fst]. apply (mfind_in _ lid_strict) in X; [congruence|apply I]. }
      destruct (propagate steps (map fst p) p m1) eqn:PR; [discriminate|]. exfalso. revert PR. apply (propagate_ends m1 p I); [exact LE| |intros f X; apply PK, KF, X|exact PK|].
      - split; try apply I; [intros t x _ _ X; apply flows_here, X|auto| |apply sorted_keys, I]. intros f X. destruct (PK f (KF f X)) as [k IA]. apply (at_range _ _ _ IA).
      - rewrite map_length. pose proof (open_places_bound m1). assert (PL : (length p <= max_states * length all_items)%nat).
        { rewrite <- (map_length fst p). replace (max_states * length all_items)%nat with (length (list_prod (map Z.of_nat (seq 0 max_states)) (map Z.of_nat (seq 0 (length all_items))))) by (rewrite prod_length, !map_length, !seq_length; reflexivity).
          apply NoDup_incl_length; [apply (sorted_nodup _ lid_strict), sorted_keys, I|]. intros f X. destruct (PK f (KF f X)) as [k IA]. pose proof (place_in f k IEoi IA (or_introl eq_refl)) as Y. apply in_prod_iff in Y. apply Y. }
        unfold look_steps in ST. lia.
    Qed.
  End Automaton.
  Definition builder_steps : nat := (closure_steps + state_steps + look_steps)%nat.
  (** The whole construction *)
  Lemma complete_parser_ends fuel steps c : (builder_steps <= fuel)%nat -> (builder_steps <= steps)%nat -> cache_ok (fst c) -> complete_parser rid first_of rules busy fuel steps (start_machine rid languages) [] c <> None.
  Proof.
    unfold builder_steps. intros F S CO. unfold complete_parser. destruct (complete_states rid first_of rules busy fuel steps (start_machine rid languages) [] c) as [[[m g] c1]|] eqn:CS; [|eapply complete_states_ends in CS; [contradiction|lia|lia|exact CO]].
    apply (complete_states_exact rid RI first_of FO rules u UO GU busy languages LU) in CS; [|exact CO]. destruct CS as (AU & CO1 & _). destruct (complete_lookaheads rid first_of rules busy fuel steps m c1) as [[[m' p] c']|] eqn:CL; [discriminate|]. eapply complete_lookaheads_ends in CL; [contradiction|exact AU|lia|lia|exact CO1].
  Qed.
End Builder.

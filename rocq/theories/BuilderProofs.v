(** Proofs about the states that the builder makes. *)
From Verif Require Import Base OrdMap GrammarModel GrammarProofs FirstModel FirstProofs LrItemModel LrItemProofs ClosureModel ClosureSpec ClosureProofs MachineModel MachineProofs BuilderModel BuilderSpec.
Local Open Scope Z_scope.

Lemma after_advance k x rest : after_dot k = x :: rest -> after_dot (advance k) = rest.
Proof.
  unfold after_dot, advance. cbn [l_rule l_offset]. generalize (r_items (l_rule k)), (l_offset k). intros l n. revert l. induction n as [|n IH]; intros [|a l] H; try discriminate H; cbn in *; [injection H as _ ->; reflexivity|apply IH, H].
Qed.
Lemma advance_inj a b : advance a = advance b -> a = b.
Proof. destruct a, b. unfold advance. cbn. intros H. injection H as -> ->. reflexivity. Qed.
Lemma closure_item_mono rules (K K' : lr0 -> Prop) : (forall k, K k -> K' k) -> forall k, closure_item rules K k -> closure_item rules K' k.
Proof. intros H k. induction 1 as [k X|k y rest r C IH A E]; [apply in_kernel, H, X|eapply in_step; eassumption]. Qed.
Lemma closure_item_ext rules (K K' : lr0 -> Prop) : (forall k, K k <-> K' k) -> forall k, closure_item rules K k <-> closure_item rules K' k.
Proof. intros H k. split; apply closure_item_mono; intros k'; apply H. Qed.
Lemma goto_ext rules (K K' : lr0 -> Prop) : (forall k, K k <-> K' k) -> forall x k, goto rules K x k <-> goto rules K' x k.
Proof. intros H x k. unfold goto. split; intros (k0 & rest & C & R); exists k0, rest; (split; [eapply (closure_item_ext rules K K' H); exact C|exact R]). Qed.

(** The items with the dot before [x], after the dot has moved over it *)
Definition before_dot (x : item) (k : lr0) : bool := match after_dot k with i :: _ => item_eqb i x | [] => false end.
Definition moved (x : item) (items : list lr0) : list lr0 := map advance (filter (before_dot x) items).
Lemma before_dot_spec x k : before_dot x k = true <-> exists rest, after_dot k = x :: rest.
Proof.
  unfold before_dot. destruct (after_dot k) as [|i rest]; [split; [discriminate|intros [r H]; discriminate H]|]. rewrite item_eqb_spec. split; [intros ->; eauto|intros [r H]; injection H as -> _; reflexivity].
Qed.
Lemma moved_in x items k' : In k' (moved x items) <-> exists k rest, In k items /\ after_dot k = x :: rest /\ k' = advance k.
Proof.
  unfold moved. rewrite in_map_iff. split.
  - intros (k & <- & H). apply filter_In in H. destruct H as [H B]. apply before_dot_spec in B. destruct B as [rest B]. eauto.
  - intros (k & rest & H & B & ->). exists k. split; [reflexivity|]. apply filter_In. split; [exact H|]. apply before_dot_spec. eauto.
Qed.
Lemma moved_app x a b : moved x (a ++ b) = moved x a ++ moved x b.
Proof. unfold moved. rewrite filter_app, map_app. reflexivity. Qed.
Lemma moved_sorted rid x items : ssorted (lr0_ltb rid) items -> ssorted (lr0_ltb rid) (moved x items).
Proof.
  induction 1 as [|k items S IH F]; [constructor|]. unfold moved in *. cbn [filter]. destruct (before_dot x k); [|exact IH]. cbn [map]. constructor; [exact IH|]. apply Forall_forall. intros k' H. apply in_map_iff in H. destruct H as (k0 & <- & H). apply filter_In in H. destruct H as [H _].
  rewrite Forall_forall in F. specialize (F k0 H). exact F.
Qed.
Lemma sorted_nodup {K} (ltb : K -> K -> bool) (ST : strict_total ltb) l : ssorted ltb l -> NoDup l.
Proof.
  induction 1 as [|a l S IH F]; constructor; [|exact IH]. intros H. rewrite Forall_forall in F. specialize (F a H). rewrite (st_irrefl _ ST) in F. discriminate F.
Qed.
Lemma z_strict : strict_total Z.ltb.
Proof. split; [apply Z.ltb_irrefl|intros a b c H1 H2; apply Z.ltb_lt in H1, H2; apply Z.ltb_lt; lia|intros a b; destruct (Z.lt_trichotomy a b) as [H|[H|H]]; [right; left; apply Z.ltb_lt, H|auto|right; right; apply Z.ltb_lt, H]]. Qed.

Section Machine.
  Context (rid : rule -> Z) (RI : injective rid).
  (** The kernel of a state *)
  Definition kern (m : machine) (q : Z) (l : list lr0) : Prop := 0 <= q /\ exists s, nth_error (m_states m) (Z.to_nat q) = Some s /\ st_list s = l.
  Definition trans (m : machine) (q : Z) (x : item) : option Z := mfind item_ltb x (transitions_for_state q m).
  Lemma kern_fun m q l l' : kern m q l -> kern m q l' -> l = l'.
  Proof. intros (_ & s & A & <-) (_ & t & B & <-). congruence. Qed.
  Lemma kern_inj m p q l : machine_ok rid m -> kern m p l -> kern m q l -> p = q.
  Proof. intros OK A B. apply (id_of_kernel rid RI m l p OK) in A. apply (id_of_kernel rid RI m l q OK) in B. congruence. Qed.
  Lemma kern_range m q : (exists l, kern m q l) <-> 0 <= q < count_states m.
  Proof.
    unfold count_states. split.
    - intros (l & P & s & A & _). assert (Z.to_nat q < length (m_states m))%nat by (apply nth_error_Some; congruence). lia.
    - intros P. destruct (nth_error (m_states m) (Z.to_nat q)) as [s|] eqn:E; [exists (st_list s); split; [lia|eauto]|]. apply nth_error_None in E. lia.
  Qed.
  Lemma with_id_kern m q s : state_with_id q m = Some s -> kern m q (st_list s).
  Proof.
    unfold state_with_id. destruct (Z.ltb_spec q 0) as [N|N]; [discriminate|]. cbn [orb]. destruct (Z.leb_spec (Z.of_nat (length (m_states m))) q) as [L|L]; [discriminate|]. intros H. split; [exact N|]. eauto.
  Qed.
  Lemma kern_with_id m q l : kern m q l -> exists s, state_with_id q m = Some s /\ st_list s = l /\ In s (m_states m).
  Proof.
    intros (P & s & A & E). exists s. split; [|split; [exact E|eapply nth_error_In, A]]. unfold state_with_id. assert (Z.to_nat q < length (m_states m))%nat by (apply nth_error_Some; congruence). rewrite (proj2 (Z.ltb_ge q 0)), (proj2 (Z.leb_gt _ _)) by lia. exact A.
  Qed.
  Lemma state_ids_in m q : In q (state_ids m) <-> exists l, kern m q l.
  Proof.
    rewrite kern_range. unfold state_ids, count_states. rewrite in_map_iff. split.
    - intros (n & <- & H). apply in_seq in H. lia.
    - intros H. exists (Z.to_nat q). split; [lia|]. apply in_seq. lia.
  Qed.
  Record extends (m m' : machine) : Prop := { ex_kern : forall q l, kern m q l -> kern m' q l; ex_trans : forall q x t, trans m q x = Some t -> trans m' q x = Some t }.
  Lemma extends_refl m : extends m m.
  Proof. split; auto. Qed.
  Lemma extends_trans a b c : extends a b -> extends b c -> extends a c.
  Proof. intros [A1 A2] [B1 B2]. split; auto. Qed.
  Lemma extends_count m m' : extends m m' -> count_states m <= count_states m'.
  Proof.
    intros [E _]. destruct (Z.le_gt_cases (count_states m) 0) as [L|L]; [unfold count_states in *; lia|]. destruct (proj2 (kern_range m (count_states m - 1))) as [l K]; [lia|]. apply E in K. assert (H : exists l, kern m' (count_states m - 1) l) by eauto. apply kern_range in H. lia.
  Qed.
  Lemma extends_states m m' : (exists l, m_states m' = m_states m ++ l) -> (exists l, m_trans m' = m_trans m ++ l) -> extends m m'.
  Proof.
    intros [l E] [l' E']. split.
    - intros q k (P & s & A & K). split; [exact P|]. exists s. split; [|exact K]. rewrite E, nth_error_app1; [exact A|]. apply nth_error_Some. congruence.
    - intros q x t H. unfold trans, transitions_for_state in *. rewrite E', app_length. destruct (Z.ltb_spec q 0) as [N|N]; [exact H|]. cbn [orb] in *. destruct (Z.leb_spec (Z.of_nat (length (m_trans m))) q) as [L|L]; [discriminate H|]. rewrite (proj2 (Z.leb_gt _ _)) by lia. rewrite app_nth1 by lia. exact H.
  Qed.
  Lemma no_trans m q x : ~ (0 <= q < Z.of_nat (length (m_trans m))) -> trans m q x = None.
  Proof. intros H. unfold trans, transitions_for_state. destruct (Z.ltb_spec q 0) as [N|N]; [reflexivity|]. cbn [orb]. rewrite (proj2 (Z.leb_le _ _)) by lia. reflexivity. Qed.
  Lemma add_state_cases s m m' s' n : machine_ok rid m -> state_ok rid s -> st_ident s = -1 -> add_state rid s m = (m', s', n) ->
    machine_ok rid m' /\ extends m m' /\ kern m' n (st_list s) /\
    (m' = m \/ (m_states m' = m_states m ++ [set_identifier n s] /\ n = count_states m /\ (forall q x, trans m' q x = trans m q x))).
  Proof.
    intros OK SO ID H. destruct (in_dec (list_eq_dec (lr0_dec rid RI)) (st_list s) (map st_list (m_states m))) as [K|K].
    - apply (add_state_known rid RI) in H; [|exact OK|exact ID|exact K]. destruct H as (-> & -> & P & t & A & E). split; [exact OK|]. split; [apply extends_refl|]. split; [split; [exact P|eauto]|auto].
    - apply (add_state_new rid RI) in H; [|exact OK|exact SO|exact ID|exact K]. destruct H as (OK' & -> & -> & ES & ET). split; [exact OK'|]. split; [apply extends_states; eauto|]. split.
      + split; [lia|]. exists (set_identifier (Z.of_nat (length (m_states m))) s). rewrite ES, Nat2Z.id, nth_error_app2, Nat.sub_diag by lia. auto.
      + right. split; [exact ES|]. split; [reflexivity|]. intros q x. unfold trans, transitions_for_state. rewrite ET, app_length. cbn [length]. destruct (Z.ltb_spec q 0) as [N|N]; [reflexivity|]. cbn [orb].
        destruct (Z.leb_spec (Z.of_nat (length (m_trans m) + 1)) q) as [L|L], (Z.leb_spec (Z.of_nat (length (m_trans m))) q) as [L'|L']; try lia; [reflexivity| |rewrite app_nth1 by lia; reflexivity]. rewrite app_nth2 by lia. replace (Z.to_nat q - length (m_trans m))%nat with 0%nat by lia. reflexivity.
  Qed.
  Lemma single_state_facts k x : st_list (single_state rid k x) = [k] /\ st_looks (single_state rid k x) = [[x]] /\ st_ident (single_state rid k x) = -1 /\ state_ok rid (single_state rid k x).
  Proof.
    split; [reflexivity|]. split; [reflexivity|]. split; [reflexivity|]. destruct (state_add rid k new_state) as [s n] eqn:E. pose proof (state_add_spec rid RI k new_state s n (new_state_ok rid) E) as (OK & _).
    unfold single_state. rewrite E. injection E as <- <-. destruct OK as [O1 O2 O3 O4]. split; cbn in *; try assumption; try reflexivity. constructor; [apply single_ok|constructor].
  Qed.
End Machine.

Section Builder.
  Context (rid : rule -> Z) (RI : injective rid).
  Context (first_of : item -> iset) (FO : forall i, set_ok (first_of i)).
  Context (rules : Z -> list (list item)) (u : item -> Prop) (UO : ordinary rules first_of u) (GU : guards_in u).
  Context (busy : nat -> list item -> item -> bool).
  Context (languages : list item) (LU : forall l, In l languages -> u l).
  Notation within l := (fun k : lr0 => In k l).
  Notation cache_ok := (cache_ok rid first_of rules u).
  Notation trans := (trans).

  (** Where a state comes from *)
  Definition origin (s : lrstate) : Prop :=
    (exists l, In l languages /\ st_list s = [language_start l] /\ st_looks s = [[IEoi]]) \/
    (exists p l, st_list s = [guard_start p l] /\ st_looks s = [[IEog]]) \/
    (st_looks s = repeat [] (length (st_list s)) /\ forall k, In k (st_list s) -> (0 < l_offset k)%nat).
  Record good_state (s : lrstate) : Prop := {
    gs_sorted : ssorted (lr0_ltb rid) (st_list s);
    gs_items : forall k j, In k (st_list s) -> In j (after_dot k) -> u j;
    gs_origin : origin s }.
  Record binv (m : machine) (guards : guard_states) : Prop := {
    bi_ok : machine_ok rid m;
    bi_states : forall s, In s (m_states m) -> good_state s;
    bi_trans : forall q x t, trans m q x = Some t -> exists l l', kern m q l /\ kern m t l' /\ x <> IEmpty /\ l' <> [] /\ forall k, In k l' <-> goto rules (within l) x k;
    bi_sorted : msorted Z.ltb guards;
    bi_guards : forall z n, mfind Z.ltb z guards = Some n -> exists p l, z = rid (mkRule (IGuard p l) l) /\ kern m n [guard_start p l];
    bi_reached : forall q l, kern m q l -> lr0_state rules languages (within l) }.
  Definition more_guards (g g' : guard_states) : Prop := forall z n, mfind Z.ltb z g = Some n -> mfind Z.ltb z g' = Some n.
  Definition processed (m : machine) (guards : guard_states) (q : Z) : Prop := exists l, kern m q l /\
    (forall x k, x <> IEmpty -> goto rules (within l) x k -> trans m q x <> None) /\
    (forall k p g rest, closure_item rules (within l) k -> after_dot k = IGuard p g :: rest -> mfind Z.ltb (rid (mkRule (IGuard p g) g)) guards <> None).
  Lemma processed_more m m' g g' q : extends m m' -> more_guards g g' -> processed m g q -> processed m' g' q.
  Proof.
    intros EX MG (l & K & A & B). exists l. split; [apply EX, K|]. split.
    - intros x k NE G. specialize (A x k NE G). destruct (trans m q x) as [t|] eqn:E; [|contradiction]. apply EX in E. congruence.
    - intros k p g0 rest C D. specialize (B k p g0 rest C D). destruct (mfind Z.ltb (rid (mkRule (IGuard p g0) g0)) g) as [n|] eqn:E; [|contradiction]. apply MG in E. congruence.
  Qed.

  Lemma closure_u l : (forall k j, In k l -> In j (after_dot k) -> u j) -> forall k, closure_item rules (within l) k -> forall j, In j (after_dot k) -> u j.
  Proof.
    intros H k. induction 1 as [k K|k y rest r C IH A E]; intros j Hj; [eapply H; eassumption|]. apply (UO y (IH y ltac:(rewrite A; left; reflexivity)) ) with (r := r); [exact E|exact Hj].
  Qed.
  Lemma good_set_identifier n s : good_state s -> good_state (set_identifier n s).
  Proof. intros [A B C]. split; assumption. Qed.
  (** Adding a good state keeps the invariant. *)
  Lemma add_state_inv s m m' s' n guards : binv m guards -> good_state s -> state_ok rid s -> st_ident s = -1 -> lr0_state rules languages (within (st_list s)) -> add_state rid s m = (m', s', n) ->
    binv m' guards /\ extends m m' /\ kern m' n (st_list s) /\ (forall q l, kern m' q l -> (exists l0, kern m q l0) \/ q = n) /\ (n < count_states m \/ (n = count_states m /\ count_states m' = n + 1)).
  Proof.
    intros I GS SO ID RE H. apply (add_state_cases rid RI) in H; [|apply I|exact SO|exact ID]. destruct H as (OK & EX & KN & C).
    assert (C' : (forall s0, In s0 (m_states m') -> good_state s0) /\ (forall q x t, trans m' q x = Some t -> trans m q x = Some t) /\ (forall q l, kern m' q l -> (exists l0, kern m q l0) \/ q = n) /\ (n < count_states m \/ (n = count_states m /\ count_states m' = n + 1))).
    { destruct C as [->|(ES & -> & ET)].
      - split; [apply I|]. split; [auto|]. split; [eauto|]. left. apply (kern_range m n). eauto.
      - split; [rewrite ES; intros s0 K; apply in_app_iff in K; destruct K as [K|[<-|[]]]; [apply (bi_states m guards I), K|apply good_set_identifier, GS]|]. split; [intros q x t; rewrite ET; auto|]. assert (CM : count_states m' = count_states m + 1) by (unfold count_states; rewrite ES, app_length; cbn [length]; lia). split.
        + intros q l K. assert (R : exists l, kern m' q l) by eauto. apply kern_range in R. destruct (Z.eq_dec q (count_states m)) as [->|NE]; [auto|]. left. apply kern_range. lia.
        + right. split; [reflexivity|exact CM]. }
    destruct C' as (G & T & R & N). split; [|split; [exact EX|split; [exact KN|split; [exact R|exact N]]]]. split; [exact OK|exact G| |apply I| |].
    - intros q x t E. apply T, (bi_trans m guards I) in E. destruct E as (l & l' & K & K' & R'). exists l, l'. split; [apply EX, K|]. split; [apply EX, K'|exact R'].
    - intros z v E. apply (bi_guards m guards I) in E. destruct E as (p & l & E & K). exists p, l. split; [exact E|apply EX, K].
    - intros q l K. destruct (R q l K) as [[l0 K0]| ->].
      + assert (l0 = l) by (eapply kern_fun; [apply EX; eassumption|exact K]). subst l0. apply (bi_reached m guards I q l K0).
      + rewrite (kern_fun m' n l (st_list s) K KN). exact RE.
  Qed.

  Lemma guard_start_good p l : u (IGuard p l) -> good_state (single_state rid (guard_start p l) IEog).
  Proof.
    intros U. split; [constructor; constructor| |].
    - intros k j [<-|[]] Hj. eapply GU; [exact U|exact Hj].
    - right. left. exists p, l. split; reflexivity.
  Qed.
  Lemma guard_state_inv k i rest q lq m guards queue m' guards' queue' : binv m guards -> kern m q lq -> closure_item rules (within lq) k -> after_dot k = i :: rest -> u i ->
    guard_state rid i m guards queue = (m', guards', queue') ->
    binv m' guards' /\ extends m m' /\ more_guards guards guards' /\ (forall p g, i = IGuard p g -> mfind Z.ltb (rid (mkRule i g)) guards' <> None) /\
    exists new, queue' = queue ++ new /\ (forall n, In n new -> exists l, kern m' n l) /\ (forall n l, kern m' n l -> (exists l0, kern m n l0) \/ In n new).
  Proof.
    intros I KQ CK A U H. assert (T : (m', guards', queue') = (m, guards, queue) -> (forall p g, i = IGuard p g -> mfind Z.ltb (rid (mkRule i g)) guards' <> None) -> binv m' guards' /\ extends m m' /\ more_guards guards guards' /\ (forall p g, i = IGuard p g -> mfind Z.ltb (rid (mkRule i g)) guards' <> None) /\
      exists new, queue' = queue ++ new /\ (forall n, In n new -> exists l, kern m' n l) /\ (forall n l, kern m' n l -> (exists l0, kern m n l0) \/ In n new)).
    { intros E G. injection E as -> -> ->. split; [exact I|]. split; [apply extends_refl|]. split; [intros z n X; exact X|]. split; [exact G|]. exists []. rewrite app_nil_r. split; [reflexivity|]. split; [intros n []|eauto]. }
    unfold guard_state in H. destruct (guard_rule i) as [r|] eqn:GR; [|injection H as <- <- <-; apply T; [reflexivity|]; intros p g ->; discriminate GR].
    destruct i as [| | | | |p g|]; try discriminate GR. injection GR as <-. destruct (mfind Z.ltb (rid (mkRule (IGuard p g) g)) guards) as [v|] eqn:F; [injection H as <- <- <-; apply T; [reflexivity|]; intros p' g' E; injection E as <- <-; congruence|]. clear T.
    fold (guard_start p g) in H. destruct (add_state rid (single_state rid (guard_start p g) IEog) m) as [[m1 s1] n] eqn:E. injection H as <- <- <-.
    apply (add_state_inv _ _ _ _ _ guards I) in E; [|apply guard_start_good, U|apply (single_state_facts rid RI)|reflexivity|].
    - destruct E as (I1 & EX & KN & R & _). cbn [st_list single_state] in KN.
      assert (MG : more_guards guards (mset Z.ltb (rid (mkRule (IGuard p g) g)) n guards)).
      { intros z v X. destruct (Z.eq_dec z (rid (mkRule (IGuard p g) g))) as [->|NE]; [congruence|]. rewrite (mfind_mset_other _ z_strict); [exact X|apply I|congruence]. }
      split; [|split; [exact EX|split; [exact MG|split]]].
      + split; try apply I1; [apply (mset_sorted _ z_strict), I|]. intros z v X. destruct (Z.eq_dec z (rid (mkRule (IGuard p g) g))) as [->|NE].
        * rewrite (mfind_mset_same _ z_strict) in X by apply I. injection X as <-. exists p, g. split; [reflexivity|exact KN].
        * rewrite (mfind_mset_other _ z_strict) in X; [|apply I|congruence]. apply (bi_guards m1 guards I1), X.
      + intros p' g' X. injection X as <- <-. rewrite (mfind_mset_same _ z_strict) by apply I. discriminate.
      + exists [n]. split; [reflexivity|]. split; [intros v [<-|[]]; eauto|]. intros v l K. apply R in K. destruct K as [K|K]; [auto|right; left; congruence].
    - eapply state_guard; [apply (bi_reached m guards I q lq KQ)|exact CK|exact A|]. intros k'. cbn. split; [intros [<-|[]]; reflexivity|intros ->; auto].
  Qed.

  Record fresh_state (x : item) (l : list lr0) (s : lrstate) : Prop := { ns_ok : state_ok rid s; ns_ident : st_ident s = -1; ns_looks : st_looks s = repeat [] (length (st_list s)); ns_list : st_list s = l }.
  Record news_ok (scanned : list lr0) (news : list (item * lrstate)) : Prop := {
    no_sorted : msorted item_ltb news;
    no_some : forall x s, mfind item_ltb x news = Some s -> x <> IEmpty /\ moved x scanned <> [] /\ fresh_state x (moved x scanned) s;
    no_none : forall x, mfind item_ltb x news = None -> x = IEmpty \/ moved x scanned = [] }.
  Lemma news_add scanned news k i rest : news_ok scanned news -> ~ In k scanned -> after_dot k = i :: rest -> i <> IEmpty ->
    news_ok (scanned ++ [k]) (mset item_ltb i (fst (state_add rid (advance k) (match mfind item_ltb i news with Some s => s | None => new_state end))) news).
  Proof.
    intros [S A B] NI D NE. set (s := match mfind item_ltb i news with Some s => s | None => new_state end).
    assert (SO : fresh_state i (moved i scanned) s).
    { subst s. destruct (mfind item_ltb i news) as [s|] eqn:F; [apply (A i s F)|]. apply B in F. destruct F as [->|F]; [contradiction|]. rewrite F. split; [apply new_state_ok|reflexivity|reflexivity|reflexivity]. }
    assert (MK : moved i [k] = [advance k]) by (unfold moved; cbn [filter]; rewrite (proj2 (before_dot_spec i k)) by eauto; reflexivity).
    assert (SN : fresh_state i (moved i (scanned ++ [k])) (fst (state_add rid (advance k) s))).
    { destruct SO as [O1 O2 O3 O4]. destruct (state_add rid (advance k) s) as [s' n] eqn:E. apply (state_add_spec rid RI) in E; [|exact O1]. destruct E as (O1' & E2 & _ & _ & E3). destruct E3 as [E3 E4].
      - rewrite O4. intros K. apply moved_in in K. destruct K as (k0 & r0 & K & _ & E). apply advance_inj in E. subst k0. contradiction.
      - cbn [fst]. split; [exact O1'|congruence| |rewrite E3, O4, moved_app, MK; reflexivity]. rewrite E4, E3, O3, app_length, repeat_app. reflexivity. }
    assert (OT : forall x, x <> i -> moved x (scanned ++ [k]) = moved x scanned).
    { intros x NX. rewrite moved_app. replace (moved x [k]) with (@nil lr0); [apply app_nil_r|]. unfold moved. cbn [filter]. destruct (before_dot x k) eqn:E; [|reflexivity]. apply before_dot_spec in E. destruct E as [r E]. rewrite D in E. injection E as -> _. contradiction. }
    split.
    - apply (mset_sorted _ item_strict), S.
    - intros x s' F. destruct (item_eqb x i) eqn:XI.
      + apply item_eqb_spec in XI. subst x. rewrite (mfind_mset_same _ item_strict) in F by exact S. injection F as <-. split; [exact NE|]. split; [rewrite moved_app, MK; destruct (moved i scanned); discriminate|exact SN].
      + assert (NX : x <> i) by (intros ->; rewrite (proj2 (item_eqb_spec i i) eq_refl) in XI; discriminate). rewrite (mfind_mset_other _ item_strict) in F; [|exact S|congruence]. rewrite (OT x NX). apply A, F.
    - intros x F. destruct (item_eqb x i) eqn:XI.
      + apply item_eqb_spec in XI. subst x. rewrite (mfind_mset_same _ item_strict) in F by exact S. discriminate F.
      + assert (NX : x <> i) by (intros ->; rewrite (proj2 (item_eqb_spec i i) eq_refl) in XI; discriminate). rewrite (mfind_mset_other _ item_strict) in F; [|exact S|congruence]. rewrite (OT x NX). apply B, F.
  Qed.
  Lemma news_skip scanned news k : news_ok scanned news -> (after_dot k = [] \/ exists rest, after_dot k = IEmpty :: rest) -> news_ok (scanned ++ [k]) news.
  Proof.
    intros [S A B] D. assert (OT : forall x, x <> IEmpty -> moved x (scanned ++ [k]) = moved x scanned).
    { intros x NX. rewrite moved_app. replace (moved x [k]) with (@nil lr0); [apply app_nil_r|]. unfold moved. cbn [filter]. destruct (before_dot x k) eqn:E; [|reflexivity]. apply before_dot_spec in E. destruct E as [r E]. destruct D as [D|[r' D]]; rewrite D in E; [discriminate E|]. injection E as <- _. contradiction. }
    split; [exact S| |].
    - intros x s F. specialize (A x s F). rewrite OT by apply A. exact A.
    - intros x F. specialize (B x F). destruct (item_eqb x IEmpty) eqn:XI; [left; apply item_eqb_spec, XI|]. rewrite OT by (intros ->; discriminate XI). exact B.
  Qed.
  Lemma scan_closure_inv q lq items : forall scanned news m guards queue news' m' guards' queue', binv m guards -> kern m q lq -> NoDup (scanned ++ items) -> (forall k, In k items -> closure_item rules (within lq) k /\ forall j, In j (after_dot k) -> u j) -> news_ok scanned news ->
    scan_closure rid items news m guards queue = (news', m', guards', queue') ->
    binv m' guards' /\ extends m m' /\ more_guards guards guards' /\ news_ok (scanned ++ items) news' /\ (forall k p g rest, In k items -> after_dot k = IGuard p g :: rest -> mfind Z.ltb (rid (mkRule (IGuard p g) g)) guards' <> None) /\
    exists new, queue' = queue ++ new /\ (forall n, In n new -> exists l, kern m' n l) /\ (forall n l, kern m' n l -> (exists l0, kern m n l0) \/ In n new).
  Proof.
    induction items as [|k items IH]; intros scanned news m guards queue news' m' guards' queue' I KQ ND CI NO H; cbn [scan_closure] in H.
    - injection H as <- <- <- <-. split; [exact I|]. split; [apply extends_refl|]. split; [intros z n X; exact X|]. rewrite app_nil_r. split; [exact NO|]. split; [intros k p g rest []|]. exists []. rewrite app_nil_r. split; [reflexivity|]. split; [intros n []|eauto].
    - assert (ND' : NoDup ((scanned ++ [k]) ++ items)) by (rewrite <- app_assoc; exact ND). assert (NI : ~ In k scanned) by (intros X; apply NoDup_remove_2 in ND; apply ND, in_app_iff; auto). destruct (CI k (or_introl eq_refl)) as [CK UK]. assert (CI' : forall k0, In k0 items -> closure_item rules (within lq) k0 /\ forall j, In j (after_dot k0) -> u j) by (intros k0 X; apply CI; right; exact X).
      replace (scanned ++ k :: items) with ((scanned ++ [k]) ++ items) by (rewrite <- app_assoc; reflexivity). destruct (after_dot k) as [|i rest] eqn:A.
      + apply (IH (scanned ++ [k])) in H; try assumption; [|apply news_skip; auto]. destruct H as (R1 & R2 & R3 & R4 & R5 & R6). split; [exact R1|]. split; [exact R2|]. split; [exact R3|]. split; [exact R4|]. split; [|exact R6]. intros k0 p g r [<-|X] Y; [congruence|eapply R5; eassumption].
      + destruct (generate_transition i) eqn:GT.
        * destruct (guard_state rid i m guards queue) as [[m1 g1] q1] eqn:G. assert (UI : u i) by (apply UK; left; reflexivity). apply (guard_state_inv k i rest q lq) in G; try assumption. destruct G as (I1 & EX1 & MG1 & GD1 & new1 & -> & NV1 & NR1).
          apply (IH (scanned ++ [k])) in H; [|exact I1|apply EX1, KQ|exact ND'|exact CI'|eapply news_add; try eassumption; intros ->; discriminate GT]. destruct H as (R1 & R2 & R3 & R4 & R5 & new2 & -> & NV2 & NR2).
          split; [exact R1|]. split; [eapply extends_trans; eassumption|]. split; [intros z n X; apply R3, MG1, X|]. split; [exact R4|]. split.
          -- intros k0 p g r [<-|X] Y; [|eapply R5; eassumption]. rewrite A in Y. injection Y as -> <-. specialize (GD1 p g eq_refl). destruct (mfind Z.ltb (rid (mkRule (IGuard p g) g)) g1) as [v|] eqn:E; [|contradiction]. apply R3 in E. congruence.
          -- exists (new1 ++ new2). rewrite app_assoc. split; [reflexivity|]. split.
             ++ intros n X. apply in_app_iff in X. destruct X as [X|X]; [|apply NV2, X]. apply NV1 in X. destruct X as [l X]. exists l. apply R2, X.
             ++ intros n l X. apply NR2 in X. destruct X as [[l0 X]|X]; [|right; apply in_app_iff; auto]. apply NR1 in X. destruct X as [X|X]; [auto|right; apply in_app_iff; auto].
        * apply (IH (scanned ++ [k])) in H; try assumption; [|apply news_skip; [exact NO|right; exists rest; destruct i; try discriminate GT; exact A]]. destruct H as (R1 & R2 & R3 & R4 & R5 & R6). split; [exact R1|]. split; [exact R2|]. split; [exact R3|]. split; [exact R4|]. split; [|exact R6].
          intros k0 p g r [<-|X] Y; [rewrite A in Y; injection Y as -> _; discriminate GT|eapply R5; eassumption].
  Qed.

  Definition target_ok (lq : list lr0) (x : item) (s : lrstate) : Prop := state_ok rid s /\ st_ident s = -1 /\ good_state s /\ x <> IEmpty /\ st_list s <> [] /\ forall k, In k (st_list s) <-> goto rules (within lq) x k.
  Lemma add_transition_inv q lq x t lt m m' guards : binv m guards -> kern m q lq -> kern m t lt -> x <> IEmpty -> lt <> [] -> (forall k, In k lt <-> goto rules (within lq) x k) -> add_transition q x t m = Some m' ->
    binv m' guards /\ extends m m' /\ trans m' q x <> None /\ (forall p l, kern m' p l <-> kern m p l) /\ count_states m' = count_states m.
  Proof.
    intros I KQ KT NE NL G H. apply (add_transition_spec rid) in H; [|apply I]. destruct H as (OK & ES & _ & TR). assert (KK : forall p l, kern m' p l <-> kern m p l) by (intros p l; unfold kern; rewrite ES; reflexivity).
    assert (TC : 0 <= t < count_states m) by (apply kern_range; eauto). fold (trans m' q x) in *.
    assert (EX : extends m m') by (split; [intros p l; apply KK|]; intros p j v E; unfold trans in *; rewrite TR, E; reflexivity).
    split; [|split; [exact EX|split; [|split; [exact KK|unfold count_states; rewrite ES; reflexivity]]]].
    - split; [exact OK|rewrite ES; apply I| |apply I| |].
      + intros p j v E. unfold trans in E. rewrite TR in E. destruct (mfind item_ltb j (transitions_for_state p m)) as [v'|] eqn:F.
        * injection E as ->. apply (bi_trans m guards I) in F. destruct F as (l & l' & K & K' & R). exists l, l'. split; [apply KK, K|]. split; [apply KK, K'|exact R].
        * destruct (p =? q) eqn:E1; [|discriminate E]. destruct (item_eqb j x) eqn:E2; [|discriminate E]. destruct ((0 <=? t) && (t <? count_states m))%bool eqn:E3; cbn [andb] in E; rewrite E3 in E; [|discriminate E]. injection E as <-. apply Z.eqb_eq in E1. apply item_eqb_spec in E2. subst p j. exists lq, lt. split; [apply KK, KQ|]. split; [apply KK, KT|]. auto.
      + intros z n E. apply (bi_guards m guards I) in E. destruct E as (p & l & E & K). exists p, l. split; [exact E|apply KK, K].
      + intros p l K. apply KK in K. apply (bi_reached m guards I p l K).
    - unfold trans. rewrite TR, Z.eqb_refl, (proj2 (item_eqb_spec x x) eq_refl), (proj2 (Z.leb_le 0 t)), (proj2 (Z.ltb_lt t _)) by lia. destruct (mfind item_ltb x (transitions_for_state q m)); discriminate.
  Qed.
  Lemma add_targets_inv q lq guards news : forall m max queue m' max' queue', binv m guards -> kern m q lq -> (forall x s, In (x, s) news -> target_ok lq x s) -> max <= count_states m -> add_targets rid q news m max queue = Some (m', max', queue') ->
    binv m' guards /\ extends m m' /\ (forall x s, In (x, s) news -> trans m' q x <> None) /\ max <= max' <= count_states m' /\
    exists new, queue' = queue ++ new /\ (forall n, In n new -> exists l, kern m' n l) /\ (forall n l, kern m' n l -> (exists l0, kern m n l0) \/ In n new) /\ Z.of_nat (length new) <= max' - max.
  Proof.
    induction news as [|[x s] news IH]; intros m max queue m' max' queue' I KQ TO MX H; cbn [add_targets] in H.
    - injection H as <- <- <-. split; [exact I|]. split; [apply extends_refl|]. split; [intros x s []|]. split; [lia|]. exists []. rewrite app_nil_r. split; [reflexivity|]. split; [intros n []|]. split; [eauto|cbn; lia].
    - destruct (add_state rid s m) as [[m1 s1] t] eqn:E. destruct (TO x s (or_introl eq_refl)) as (SO & ID & GS & NE & NL & G).
      assert (RE : lr0_state rules languages (within (st_list s))) by (eapply state_goto; [apply (bi_reached m guards I q lq KQ)|exact NE| |exact G]; destruct (st_list s) as [|k l]; [contradiction|]; exists k; apply G; left; reflexivity).
      apply (add_state_inv _ _ _ _ _ guards I GS SO ID RE) in E. destruct E as (I1 & EX1 & KT & R & N). destruct (add_transition q x t m1) as [m2|] eqn:AT; [|discriminate H].
      apply (add_transition_inv q lq x t (st_list s) _ _ guards I1 (ex_kern _ _ EX1 _ _ KQ) KT NE NL G) in AT. destruct AT as (I2 & EX2 & T2 & KK & CE).
      assert (KQ2 : kern m2 q lq) by (apply EX2, EX1, KQ). assert (TO' : forall y s0, In (y, s0) news -> target_ok lq y s0) by (intros y s0 X; apply TO; right; exact X). pose proof (extends_count _ _ EX1) as C1.
      assert (R2 : forall n l, kern m2 n l -> (exists l0, kern m n l0) \/ n = t) by (intros n l K; apply KK in K; eapply R, K).
      assert (DN : forall m' : machine, extends m2 m' -> (forall y s0, In (y, s0) news -> trans m' q y <> None) -> forall y s0, In (y, s0) ((x, s) :: news) -> trans m' q y <> None).
      { intros m0 EX TR y s0 [X|X]; [|eapply TR, X]. injection X as <- <-. destruct (trans m2 q x) as [v|] eqn:F; [|contradiction]. apply EX in F. congruence. }
      destruct (Z.leb_spec max t) as [L|L].
      + apply IH in H; try assumption; [|lia]. destruct H as (I3 & EX3 & TR3 & M3 & new & -> & NV & NR & NL3). split; [exact I3|]. split; [eapply extends_trans; [exact EX1|eapply extends_trans; eassumption]|]. split; [apply DN; assumption|]. split; [lia|].
        exists (t :: new). rewrite <- app_assoc. split; [reflexivity|]. split; [|split].
        * intros n [<-|X]; [|apply NV, X]. exists (st_list s). apply EX3, EX2, KT.
        * intros n l K. apply NR in K. destruct K as [[l0 K]|K]; [|right; right; exact K]. apply R2 in K. destruct K as [K| ->]; [auto|right; left; reflexivity].
        * cbn [length]. lia.
      + apply IH in H; try assumption; [|lia]. destruct H as (I3 & EX3 & TR3 & M3 & new & -> & NV & NR & NL3). split; [exact I3|]. split; [eapply extends_trans; [exact EX1|eapply extends_trans; eassumption]|]. split; [apply DN; assumption|]. split; [lia|].
        exists new. split; [reflexivity|]. split; [exact NV|]. split; [|exact NL3]. intros n l K. apply NR in K. destruct K as [[l0 K]|K]; [|auto]. apply R2 in K. destruct K as [K| ->]; [auto|]. left. apply kern_range. assert (P : exists l, kern m1 t l) by eauto. apply kern_range in P. lia.
  Qed.

  Lemma combine_some {A B} (l : list A) (lo : list B) k : length lo = length l -> In k l -> exists la, In (k, la) (combine l lo).
  Proof. revert lo. induction l as [|a l IH]; intros [|b lo] L K; try discriminate L; [destruct K|]. cbn in *. injection L as L. destruct K as [->|K]; [exists b; auto|]. destruct (IH lo L K) as [la X]. eauto. Qed.
  Lemma kernel_items_in s k : state_ok rid s -> (exists la, In (k, la) (kernel_items s)) <-> In k (st_list s).
  Proof. intros OK. split; [intros [la H]; eapply in_combine_l, H|apply combine_some, OK]. Qed.
  Lemma kernel_items_ok s k la : state_ok rid s -> In (k, la) (kernel_items s) -> set_ok la.
  Proof. intros OK H. apply in_combine_r in H. pose proof (so_sets _ _ OK) as F. rewrite Forall_forall in F. apply F, H. Qed.
  Lemma state_closure fuel steps s c items c' : state_ok rid s -> good_state s -> cache_ok (fst c) -> create_closure rid first_of rules busy fuel steps (kernel_items s) c = Some (items, c') ->
    cache_ok (fst c') /\ ssorted (lr0_ltb rid) items /\ forall k, In k items <-> closure_item rules (within (st_list s)) k.
  Proof.
    intros SO GS CO H. apply (create_closure_exact rid RI first_of FO rules u UO busy (kernel_items s)) in H; [| | |exact CO].
    - destruct H as (CO' & SS & IN). split; [exact CO'|]. split; [exact SS|]. intros k. rewrite IN. apply closure_item_ext. intros k'. apply kernel_items_in, SO.
    - intros k la X. eapply kernel_items_ok; eassumption.
    - intros k la X j Hj. eapply (gs_items s GS); [|exact Hj]. eapply in_combine_l, X.
  Qed.
  Lemma news_targets lq items news x s : (forall k j, In k lq -> In j (after_dot k) -> u j) -> ssorted (lr0_ltb rid) items -> (forall k, In k items <-> closure_item rules (within lq) k) -> news_ok items news -> In (x, s) news -> target_ok lq x s.
  Proof.
    intros UQ SS IN NO X. apply (mfind_in _ item_strict) in X; [|apply NO]. destruct (no_some _ _ NO x s X) as (NE & NL & [F1 F2 F3 F4]).
    split; [exact F1|]. split; [exact F2|]. split; [|split; [exact NE|split; [rewrite F4; exact NL|]]].
    - split.
      + rewrite F4. apply moved_sorted, SS.
      + rewrite F4. intros k j K Hj. apply moved_in in K. destruct K as (k0 & rest & K & A & ->). rewrite (after_advance _ _ _ A) in Hj. apply (closure_u lq UQ k0); [apply IN, K|]. rewrite A. right. exact Hj.
      + right. right. split; [exact F3|]. rewrite F4. intros k K. apply moved_in in K. destruct K as (k0 & rest & _ & _ & ->). cbn. lia.
    - intros k. rewrite F4, moved_in. unfold goto. split; intros (k0 & rest & K & R); exists k0, rest; (split; [apply IN, K|exact R]).
  Qed.
  Lemma make_states_inv fuel steps : forall queue max m guards c m' guards' c', binv m guards -> max <= count_states m -> cache_ok (fst c) -> (forall n, In n queue -> exists l, kern m n l) -> (forall n l, kern m n l -> In n queue \/ processed m guards n) ->
    make_states rid first_of rules busy fuel steps queue max m guards c = Some (m', guards', c') ->
    binv m' guards' /\ extends m m' /\ more_guards guards guards' /\ cache_ok (fst c') /\ forall n l, kern m' n l -> processed m' guards' n.
  Proof.
    induction steps as [|steps IH]; intros queue max m guards c m' guards' c' I MX CO QV QP H; cbn [make_states] in H; [discriminate H|]. destruct queue as [|q queue].
    - injection H as <- <- <-. split; [exact I|]. split; [apply extends_refl|]. split; [intros z n X; exact X|]. split; [exact CO|]. intros n l K. apply QP in K. destruct K as [[]|K]. exact K.
    - destruct (state_with_id q m) as [s|] eqn:S; [|discriminate H]. pose proof (with_id_kern m q s S) as KQ. assert (SI : In s (m_states m)) by (destruct (kern_with_id m q _ KQ) as (s' & S' & _ & X); congruence).
      assert (SO : state_ok rid s) by (pose proof (mo_states _ _ (bi_ok _ _ I)) as F; rewrite Forall_forall in F; apply F, SI). pose proof (bi_states _ _ I s SI) as GS.
      destruct (create_closure rid first_of rules busy fuel fuel (kernel_items s) c) as [[items c1]|] eqn:CC; [|discriminate H]. apply state_closure in CC; try assumption. destruct CC as (CO1 & SS & IN).
      destruct (scan_closure rid items [] m guards queue) as [[[news m1] g1] q1] eqn:SC. apply (scan_closure_inv q (st_list s) items []) in SC; [|exact I|exact KQ|apply (sorted_nodup _ (lr0_strict rid RI)), SS| |split; [constructor|discriminate|right; reflexivity]].
      2: { intros k K. apply IN in K. split; [exact K|]. apply (closure_u (st_list s)); [apply GS|exact K]. }
      destruct SC as (I1 & EX1 & MG1 & NO & GD & new1 & -> & NV1 & NR1). cbn [app] in NO.
      destruct (add_targets rid q news m1 max (queue ++ new1)) as [[[m2 max2] q2]|] eqn:AT; [|discriminate H]. apply (add_targets_inv q (st_list s) g1) in AT; [|exact I1|apply EX1, KQ| |pose proof (extends_count _ _ EX1); lia].
      2: { intros x s0 X. eapply news_targets; try eassumption. apply GS. }
      destruct AT as (I2 & EX2 & TR & M2 & new2 & -> & NV2 & NR2 & _). assert (EX : extends m m2) by (eapply extends_trans; eassumption).
      apply IH in H; [|exact I2|lia|exact CO1| |].
      + destruct H as (R1 & R2 & R3 & R4 & R5). split; [exact R1|]. split; [eapply extends_trans; eassumption|]. split; [intros z n X; apply R3, MG1, X|]. split; [exact R4|exact R5].
      + intros n X. apply in_app_iff in X. destruct X as [X|X]; [|apply NV2, X]. apply in_app_iff in X. destruct X as [X|X].
        * destruct (QV n (or_intror X)) as [l K]. exists l. apply EX, K.
        * destruct (NV1 n X) as [l K]. exists l. apply EX2, K.
      + intros n l K. apply NR2 in K. destruct K as [[l1 K]|K]; [|left; apply in_app_iff; auto]. apply NR1 in K. destruct K as [[l0 K]|K]; [|left; apply in_app_iff; left; apply in_app_iff; auto].
        apply QP in K. destruct K as [[<-|K]|K]; [|left; apply in_app_iff; left; apply in_app_iff; auto|right; eapply processed_more; eassumption]. right. exists (st_list s). split; [apply EX, KQ|]. split.
        * intros x k NE G. destruct (mfind item_ltb x news) as [s0|] eqn:F; [apply (mfind_in _ item_strict) in F; [|apply NO]; eapply TR, F|]. exfalso. apply (no_none _ _ NO) in F. destruct F as [F|F]; [contradiction|]. destruct G as (k0 & rest & C & A & ->). assert (X : In (advance k0) (moved x items)) by (apply moved_in; exists k0, rest; split; [apply IN, C|auto]). rewrite F in X. destruct X.
        * intros k p g rest C A. eapply GD; [apply IN, C|exact A].
  Qed.

  (** The machine with the states of the languages *)
  Lemma add_initial_inv l m m' n guards : binv m guards -> In l languages -> add_initial_state rid l m = (m', n) -> binv m' guards /\ extends m m' /\ kern m' n [language_start l].
  Proof.
    intros I L H. unfold add_initial_state in H. fold (language_start l) in H. change (language_item l) with (language_start l) in H. destruct (add_state rid (single_state rid (language_start l) IEoi) m) as [[m1 s1] n1] eqn:E. injection H as <- <-.
    apply (add_state_inv _ _ _ _ _ guards I) in E; [| |apply (single_state_facts rid RI)|reflexivity|].
    - destruct E as (I1 & EX & KN & _). split; [exact I1|]. split; [exact EX|exact KN].
    - split; [constructor; constructor| |].
      + intros k j [<-|[]] Hj. cbn in Hj. destruct Hj as [<-|[]]. apply LU, L.
      + left. exists l. split; [exact L|]. split; reflexivity.
    - eapply state_language; [exact L|]. intros k. cbn. split; [intros [<-|[]]; reflexivity|intros ->; auto].
  Qed.
  Definition add_languages (ls : list item) (m : machine) : machine := fold_left (fun m l => fst (add_initial_state rid l m)) ls m.
  Lemma add_languages_inv ls : (forall l, In l ls -> In l languages) -> forall m guards, binv m guards -> binv (add_languages ls m) guards /\ extends m (add_languages ls m) /\ forall l, In l ls -> exists n, kern (add_languages ls m) n [language_start l].
  Proof.
    induction ls as [|l ls IH]; intros LS m guards I; cbn [add_languages fold_left]; [split; [exact I|]; split; [apply extends_refl|intros l []]|]. destruct (add_initial_state rid l m) as [m1 n] eqn:E. apply (add_initial_inv l m m1 n guards I) in E; [|apply LS; left; reflexivity].
    destruct E as (I1 & EX1 & K1). cbn [fst]. destruct (IH (fun l0 X => LS l0 (or_intror X)) m1 guards I1) as (I2 & EX2 & K2). split; [exact I2|]. split; [eapply extends_trans; eassumption|]. intros l0 [<-|X]; [exists n; apply EX2, K1|apply K2, X].
  Qed.
  Lemma new_machine_inv : binv new_machine [].
  Proof.
    split; [apply new_machine_ok|intros s []| |constructor|discriminate|].
    - intros q x t H. unfold trans, transitions_for_state in H. cbn in H. destruct (q <? 0); cbn [orb] in H; [discriminate H|]. destruct (0 <=? q); [discriminate H|]. destruct (Z.to_nat q); discriminate H.
    - intros q l (_ & s & H & _). destruct (Z.to_nat q); discriminate H.
  Qed.
  Definition start_machine : machine := add_languages languages new_machine.
  Lemma start_machine_inv : binv start_machine [] /\ forall l, In l languages -> exists n, kern start_machine n [language_start l].
  Proof. destruct (add_languages_inv languages (fun l X => X) new_machine [] new_machine_inv) as (A & _ & B). split; assumption. Qed.
  (** The finished machine *)
  Record automaton (m : machine) : Prop := {
    au_ok : machine_ok rid m;
    au_sound : forall q l, kern m q l -> lr0_state rules languages (within l);
    au_complete : forall K, lr0_state rules languages K -> exists q l, kern m q l /\ forall k, K k <-> In k l;
    au_unique : forall p q l l', kern m p l -> kern m q l' -> (forall k, In k l <-> In k l') -> p = q;
    au_trans : forall q x t, trans m q x = Some t <-> exists l l', kern m q l /\ kern m t l' /\ x <> IEmpty /\ (exists k, In k l') /\ forall k, In k l' <-> goto rules (within l) x k;
    au_states : forall s, In s (m_states m) -> good_state s }.
  Lemma complete_states_exact fuel steps c m guards c' : cache_ok (fst c) -> complete_states rid first_of rules busy fuel steps start_machine [] c = Some (m, guards, c') ->
    automaton m /\ cache_ok (fst c') /\ extends start_machine m /\ (forall z n, mfind Z.ltb z guards = Some n -> exists p l, z = rid (mkRule (IGuard p l) l) /\ kern m n [guard_start p l]) /\
    (forall q l k p g rest, kern m q l -> closure_item rules (within l) k -> after_dot k = IGuard p g :: rest -> exists n, mfind Z.ltb (rid (mkRule (IGuard p g) g)) guards = Some n /\ kern m n [guard_start p g]).
  Proof.
    intros CO H. destruct start_machine_inv as [I L]. unfold complete_states in H. apply make_states_inv in H; [|exact I|lia|exact CO|intros n X; apply state_ids_in, X|intros n l K; left; apply state_ids_in; eauto].
    destruct H as (I' & EX & _ & CO' & PR).
    assert (GR : forall q l k p g rest, kern m q l -> closure_item rules (within l) k -> after_dot k = IGuard p g :: rest -> exists n, mfind Z.ltb (rid (mkRule (IGuard p g) g)) guards = Some n /\ kern m n [guard_start p g]).
    { intros q l k p g rest K C A. destruct (PR q l K) as (l0 & K0 & _ & G). rewrite <- (kern_fun _ _ _ _ K K0) in *. specialize (G k p g rest C A). destruct (mfind Z.ltb (rid (mkRule (IGuard p g) g)) guards) as [n|] eqn:F; [|contradiction]. exists n. split; [reflexivity|].
      apply (bi_guards _ _ I') in F. destruct F as (p' & l' & E & KN). apply RI in E. injection E as <- <-. exact KN. }
    assert (UN : forall p q l l', kern m p l -> kern m q l' -> (forall k, In k l <-> In k l') -> p = q).
    { intros p q l l' K K' E. assert (S : forall q l, kern m q l -> ssorted (lr0_ltb rid) l) by (intros q0 l0 KK; destruct (kern_with_id m q0 l0 KK) as (s & _ & <- & X); apply (bi_states _ _ I' s X)). rewrite (ssorted_ext _ (lr0_strict rid RI) l l' (S _ _ K) (S _ _ K') E) in K. eapply (kern_inj rid RI); [apply I'|exact K|exact K']. }
    assert (TR : forall q x t, trans m q x = Some t <-> exists l l', kern m q l /\ kern m t l' /\ x <> IEmpty /\ (exists k, In k l') /\ forall k, In k l' <-> goto rules (within l) x k).
    { intros q x t. split.
      - intros F. apply (bi_trans _ _ I') in F. destruct F as (l & l' & K & K' & NE & NL & G). exists l, l'. split; [exact K|]. split; [exact K'|]. split; [exact NE|]. split; [destruct l' as [|k l']; [contradiction|exists k; left; reflexivity]|exact G].
      - intros (l & l' & K & K' & NE & [k X] & G). destruct (PR q l K) as (l0 & K0 & A & _). rewrite <- (kern_fun _ _ _ _ K K0) in *. pose proof (A x k NE (proj1 (G k) X)) as B. destruct (trans m q x) as [t'|] eqn:F; [|contradiction]. f_equal.
        apply (bi_trans _ _ I') in F. destruct F as (l1 & l2 & K1 & K2 & _ & _ & G2). rewrite <- (kern_fun _ _ _ _ K K1) in *. eapply UN; [exact K2|exact K'|]. intros k'. rewrite G, G2. reflexivity. }
    split; [|split; [exact CO'|split; [exact EX|split; [apply I'|exact GR]]]]. split; [apply I'|apply I'| |exact UN|exact TR|apply I'].
    intros K R. induction R as [K l HL E|K from k p l rest R IH C A E|K from x R IH NE [k0 G0] E].
    - destruct (L l HL) as [n KN]. apply EX in KN. exists n, [language_start l]. split; [exact KN|]. intros k. rewrite E. cbn. split; [intros ->; auto|intros [<-|[]]; reflexivity].
    - destruct IH as (q & l0 & KQ & E0). destruct (GR q l0 k p l rest KQ) as (n & _ & KN); [apply (closure_item_ext rules _ _ E0), C|exact A|]. exists n, [guard_start p l]. split; [exact KN|]. intros k'. rewrite E. cbn. split; [intros ->; auto|intros [<-|[]]; reflexivity].
    - destruct IH as (q & l0 & KQ & E0). destruct (PR q l0 KQ) as (l1 & K1 & A & _). rewrite <- (kern_fun _ _ _ _ KQ K1) in *. pose proof (A x k0 NE (proj1 (goto_ext rules _ _ E0 x k0) G0)) as B. destruct (trans m q x) as [t|] eqn:F; [|contradiction].
      apply TR in F. destruct F as (l2 & l3 & K2 & K3 & _ & _ & G). rewrite <- (kern_fun _ _ _ _ KQ K2) in *. exists t, l3. split; [exact K3|]. intros k. rewrite E, G. apply goto_ext, E0.
  Qed.
End Builder.

(** C82: the search for the items that a lookahead comes from. *)
From Verif Require Import Base OrdMap GrammarModel GrammarProofs FirstModel FirstProofs FollowModel FollowSpec FollowProofs FollowProps LrItemModel LrItemProofs ClosureModel ClosureSpec ClosureProofs ClosureTermProofs ClosureProps MachineModel MachineProofs BuilderModel BuilderSpec BuilderProofs BuilderLookProofs BuilderTermProofs BuilderProps LookSourceModel LookSourceSpec LookSourceProofs.
Local Open Scope Z_scope.

(** A parser as in C30, with its table of propagations and its tables of spontaneous lookaheads *)
Definition built_sources rid first_of rules u busy languages (m : machine) (guards : guard_states) (p : propagation) (sp : spontaneous) : Prop :=
  exists fuel steps c c' fuel' c'', earlier_calls rid first_of rules u busy c /\
  complete_parser rid first_of rules busy fuel steps (fold_left (fun m l => fst (add_initial_state rid l m)) languages new_machine) [] c = Some (m, guards, p, c') /\
  complete_sources rid first_of rules busy fuel' m c' = Some (sp, c'').
Lemma built_sources_built rid first_of rules u busy languages m guards p sp : built_sources rid first_of rules u busy languages m guards p sp -> built rid first_of rules u busy languages m guards.
Proof. intros (fuel & steps & c & c' & fuel' & c'' & E & H & _). exists fuel, steps, c, p, c'. auto. Qed.

Lemma item_at_fun m t k k' : item_at m t k -> item_at m t k' -> k = k'.
Proof. intros (_ & l & K & N) (_ & l' & K' & N'). rewrite (kern_fun _ _ _ _ K K') in N. congruence. Qed.
Lemma edge_same first_of rules m m0 : (forall q l, kern m q l <-> kern m0 q l) -> (forall q, transitions_for_state q m = transitions_for_state q m0) -> forall f t x, edge first_of rules m0 f t x -> edge first_of rules m f t x.
Proof.
  intros KK TT f t x (k & k2 & y & rest & (P1 & l1 & K1 & N1) & M & A & T & (P2 & l2 & K2 & N2)). exists k, k2, y, rest. split; [split; [exact P1|]; exists l1; split; [apply KK, K1|exact N1]|]. split; [exact M|]. split; [exact A|]. split; [unfold trans in *; rewrite TT; exact T|]. split; [exact P2|]. exists l2. split; [apply KK, K2|exact N2].
Qed.
Lemma marked_handed first_of rules k k2 : marked first_of rules k k2 IEmpty <-> handed rules first_of k k2.
Proof.
  split.
  - intros M. remember IEmpty as z eqn:EZ. revert EZ. induction M as [k' z [-> X]|k' y rest r z C A E B|k' y rest r z M IH A E S]; intros ->; [constructor|destruct B as (p & y0 & q0 & _ & _ & _ & N); contradiction|]. eapply handed_on; [apply IH; reflexivity|exact A|exact E|exact S].
  - induction 1 as [|k' y rest r H IH A E S]; [apply look_kernel; split; [reflexivity|left; reflexivity]|]. eapply look_passed; eassumption.
Qed.
Lemma marked_given first_of rules k k2 x : x <> IEmpty -> marked first_of rules k k2 x <-> given rules first_of k k2 x.
Proof.
  intros NE. split.
  - intros M. induction M as [k' z [-> X]|k' y rest r z C A E B|k' y rest r z M IH A E S]; [destruct X as [<-|[]]; contradiction|eapply look_begins; eassumption|]. exact (look_passed _ _ _ _ _ _ _ _ _ (IH NE) A E S).
  - intros M. induction M as [k' z []|k' y rest r z C A E B|k' y rest r z M IH A E S]; [eapply look_begins; eassumption|]. exact (look_passed _ _ _ _ _ _ _ _ _ (IH NE) A E S).
Qed.

Section Built.
  Context rid first_of rules u busy languages m guards p sp (BU : buildable rid first_of rules u languages) (BS : built_sources rid first_of rules u busy languages m guards p sp).
  Notation E := (edge first_of rules m).
  Notation look := (lalr_look rules first_of languages Z (kernel m) (step m)).
  Lemma sources_facts : machine_ok rid m /\ msorted lid_ltb p /\ (forall f l, mfind lid_ltb f p = Some l -> ssorted lid_ltb l) /\ (forall f t, (exists l, mfind lid_ltb f p = Some l /\ In t l) <-> E f t IEmpty) /\
    (forall f l, mfind lid_ltb f p = Some l -> exists la, lookahead_at m f = Some la /\ set_ok la) /\ note_inv E sp.
  Proof.
    destruct BU as [RI FO UO GU LU]. destruct BS as (fuel & steps & c & c' & fuel' & c'' & EC & H & CS'). apply (earlier_calls_ok _ _ _ _ _ _ RI FO UO) in EC. unfold complete_parser in H. change (fold_left (fun m l => fst (add_initial_state rid l m)) languages new_machine) with (start_machine rid languages) in H.
    destruct (complete_states rid first_of rules busy fuel steps (start_machine rid languages) [] c) as [[[m0 g] c1]|] eqn:CS; [|discriminate H]. apply (complete_states_exact rid RI first_of FO rules u UO GU busy languages LU) in CS; [|exact EC]. destruct CS as (AU & CO1 & _).
    destruct (complete_lookaheads rid first_of rules busy fuel steps m0 c1) as [[[m' p'] c2]|] eqn:CL; [|discriminate H]. injection H as E1 E2 E3 E4. subst m' g p' c2.
    assert (IU0 : forall q l k j, kern m0 q l -> In k l -> In j (after_dot k) -> u j) by (intros q l k j K X Hj; destruct (kern_with_id m0 q l K) as (s & _ & <- & S); eapply (gs_items _ _ _ _ (au_states _ _ _ _ _ AU s S)); eassumption).
    apply (lookaheads_flow rid RI first_of FO rules u UO busy) in CL; [|apply AU|exact IU0|exact CO1]. destruct CL as (m1 & PI & CO' & OK & KK & TT & _).
    apply (sources_exact rid RI first_of FO rules u UO busy m OK) in CS'; [|intros q l k j K; apply (IU0 q l k j), KK, K|exact CO']. destruct CS' as [_ NI].
    assert (EE : forall f t x, edge first_of rules m0 f t x <-> E f t x) by (intros f t x; split; apply edge_same; intros; [apply KK|apply TT|symmetry; apply KK|symmetry; apply TT]).
    split; [exact OK|]. split; [apply PI|]. split; [intros f l F; apply (pi_links _ _ _ _ _ PI f l F)|]. split; [intros f t; rewrite <- EE; apply PI|]. split; [|exact NI].
    intros f l F. destruct (pi_links _ _ _ _ _ PI f l F) as [_ NL]. destruct l as [|t l]; [contradiction|]. assert (ED : E f t IEmpty) by (apply EE; apply (pi_link _ _ _ _ _ PI); exists (t :: l); split; [exact F|left; reflexivity]).
    destruct ED as (k & _ & _ & _ & (P & l' & K & N) & _). destruct (kern_with_id m _ _ K) as (s & S & <- & IN). unfold lookahead_at. rewrite S. rewrite (proj2 (Z.ltb_ge _ _) P). pose proof (mo_states _ _ OK) as FS. rewrite Forall_forall in FS. specialize (FS s IN).
    destruct (nth_error (st_looks s) (Z.to_nat (snd f))) as [la|] eqn:L; [|apply nth_error_None in L; rewrite (so_looks _ _ FS) in L; assert (Z.to_nat (snd f) < length (st_list s))%nat by (apply nth_error_Some; congruence); lia].
    exists la. split; [reflexivity|]. destruct (C30_all_items_partial rid first_of rules u busy languages m guards BU (built_sources_built _ _ _ _ _ _ _ _ _ _ BS) _ _ S) as [_ SO]. rewrite Forall_forall in SO. apply SO. eapply nth_error_In, L.
  Qed.
  Lemma kernel_item q k : kernel m q k <-> exists n, item_at m (q, n) k.
  Proof.
    split.
    - intros (s & S & X). apply In_nth_error in X. destruct X as [n X]. exists (Z.of_nat n). split; [cbn; lia|]. exists (st_list s). cbn [fst snd]. rewrite Nat2Z.id. split; [apply with_id_kern, S|exact X].
    - intros (n & P & l & K & N). cbn [fst snd] in *. destruct (kern_with_id m _ _ K) as (s & S & <- & _). exists s. split; [exact S|eapply nth_error_In, N].
  Qed.
  Lemma item_kernel f k : item_at m f k -> kernel m (fst f) k.
  Proof. intros I. apply kernel_item. exists (snd f). destruct f. exact I. Qed.
  Lemma has_look f k x : item_at m f k -> has m x f <-> look (fst f) k x.
  Proof.
    intros (P & l & K & N). destruct (kern_with_id m _ _ K) as (s & S & <- & IN). destruct (C30_all_items_partial rid first_of rules u busy languages m guards BU (built_sources_built _ _ _ _ _ _ _ _ _ _ BS) _ _ S) as [LN _].
    destruct (nth_error (st_looks s) (Z.to_nat (snd f))) as [la|] eqn:L; [|apply nth_error_None in L; assert (Z.to_nat (snd f) < length (st_list s))%nat by (apply nth_error_Some; congruence); lia].
    rewrite <- (C30_exact_partial rid first_of rules u busy languages m guards BU (built_sources_built _ _ _ _ _ _ _ _ _ _ BS) _ _ _ _ _ S N L x). unfold has, lookahead_at. rewrite S, (proj2 (Z.ltb_ge _ _) P), L. split; [intros (la' & X & Y); injection X as <-; exact Y|intros X; eauto].
  Qed.
  Lemma edge_passes f t k k' : item_at m f k -> item_at m t k' -> E f t IEmpty <-> passes rules first_of (step m) (fst f) k (fst t) k'.
  Proof.
    destruct sources_facts as (OK & _). intros IF IT. split.
    - intros (k0 & k2 & y & rest & I1 & M & A & T & I2). rewrite <- (item_at_fun _ _ _ _ IF I1) in M. exists k2, y, rest. split; [apply marked_handed, M|]. split; [exact A|]. split; [apply (step_trans rid); [exact OK|exact T]|]. eapply item_at_fun; eassumption.
    - intros (k2 & y & rest & M & A & T & ->). exists k, k2, y, rest. split; [exact IF|]. split; [apply marked_handed, M|]. split; [exact A|]. split; [apply (step_trans rid) in T; [exact T|exact OK]|exact IT].
  Qed.
  Lemma edge_gives f t k k' x : x <> IEmpty -> item_at m f k -> item_at m t k' -> E f t x <-> gives rules first_of (step m) (fst f) k x (fst t) k'.
  Proof.
    intros NE. destruct sources_facts as (OK & _). intros IF IT. split.
    - intros (k0 & k2 & y & rest & I1 & M & A & T & I2). rewrite <- (item_at_fun _ _ _ _ IF I1) in M. exists k2, y, rest. split; [apply marked_given; assumption|]. split; [exact A|]. split; [apply (step_trans rid); [exact OK|exact T]|]. eapply item_at_fun; eassumption.
    - intros (k2 & y & rest & M & A & T & ->). exists k, k2, y, rest. split; [exact IF|]. split; [apply marked_given; assumption|]. split; [exact A|]. split; [apply (step_trans rid) in T; [exact T|exact OK]|exact IT].
  Qed.
  Lemma edge_items f t x : E f t x -> exists k k', item_at m f k /\ item_at m t k'.
  Proof. intros (k & k2 & y & rest & I1 & _ & _ & _ & I2). eauto. Qed.
  Lemma reach_by_way x t0 k t : item_at m t0 k -> reach m x E t0 t -> exists k2, item_at m t k2 /\ by_way rules first_of languages (kernel m) (step m) x (fst t0) k (fst t) k2.
  Proof.
    intros I. induction 1 as [|f t R (k2 & I2 & B) ED HF]; [exists k; split; [exact I|constructor]|]. destruct (edge_items _ _ _ ED) as (k1 & k2' & I1 & _). exists k1. split; [exact I1|]. eapply by_way_of; [exact B|apply item_kernel, I1|apply (has_look _ _ _ I1), HF|apply (edge_passes _ _ _ _ I1 I2), ED].
  Qed.
  Lemma by_way_reach x q k q2 k2 : by_way rules first_of languages (kernel m) (step m) x q k q2 k2 -> forall n, item_at m (q, n) k -> exists n2, item_at m (q2, n2) k2 /\ reach m x E (q, n) (q2, n2).
  Proof.
    induction 1 as [|q1 k1 q2 k2 B IH K L PA]; intros n I; [exists n; split; [exact I|constructor]|]. destruct (IH n I) as (n2 & I2 & R). apply kernel_item in K. destruct K as [n1 I1]. exists n1. split; [exact I1|]. eapply reach_back; [exact R|apply (edge_passes _ _ _ _ I1 I2), PA|apply (has_look _ _ _ I1), L].
  Qed.
  Lemma sources_spec x q n k f : x <> IEmpty -> item_at m (q, n) k -> sources_of m x E (q, n) f <-> exists k1, item_at m f k1 /\ source rules first_of languages (kernel m) (step m) x q k (fst f) k1.
  Proof.
    intros NE I. split.
    - intros (t & R & D). destruct (reach_by_way _ _ _ _ I R) as (k2 & I2 & B). assert (IF : exists k1, item_at m f k1) by (destruct D as [D|[D _]]; destruct (edge_items _ _ _ D) as (k1 & _ & X & _); eauto). destruct IF as [k1 I1]. exists k1. split; [exact I1|]. split; [apply item_kernel, I1|]. exists (fst t), k2. split; [exact B|].
      destruct D as [D|[D HF]]; [left; apply (edge_gives _ _ _ _ _ NE I1 I2), D|right; split; [apply (has_look _ _ _ I1), HF|apply (edge_passes _ _ _ _ I1 I2), D]].
    - intros (k1 & I1 & K1 & q2 & k2 & B & D). destruct (by_way_reach _ _ _ _ _ B n I) as (n2 & I2 & R). exists (q2, n2). split; [exact R|]. destruct D as [D|[L D]]; [left; apply (edge_gives _ _ _ _ _ NE I1 I2), D|right; split; [apply (edge_passes _ _ _ _ I1 I2), D|apply (has_look _ _ _ I1), L]].
  Qed.
End Built.

(** The search ends, and finds exactly the sources of the lookahead [x] of the item number [n] of the state
    [q]: the items that give [x] by themselves, or have it and pass it on, to the item or to one by way of
    which it gets it. *)
Theorem C82_exact_partial : forall rid first_of rules u busy languages m guards p sp, buildable rid first_of rules u languages -> built_sources rid first_of rules u busy languages m guards p sp ->
  forall q s n k x, state_with_id q m = Some s -> nth_error (st_list s) n = Some k -> x <> IEmpty ->
  exists steps0, forall steps, (steps0 <= steps)%nat -> exists l, find_lookahead_source m p sp x steps q (Z.of_nat n) = Some l /\ NoDup l /\
  forall q1 n1, In (q1, n1) l <-> exists s1 k1, state_with_id q1 m = Some s1 /\ 0 <= n1 /\ nth_error (st_list s1) (Z.to_nat n1) = Some k1 /\ source rules first_of languages (kernel m) (step m) x q k q1 k1.
Proof.
  intros rid first_of rules u busy languages m guards p sp BU BS q s n k x S N NE. destruct (sources_facts _ _ _ _ _ _ _ _ _ _ BU BS) as (OK & PS & PO & PL & PK & NI).
  exists (3 + (1 + length p) * length p)%nat. intros steps ST. destruct (find_exact m p sp x NE _ PS PO PL PK NI q (Z.of_nat n) steps ltac:(lia)) as (l & FL & SL & IL). exists l. split; [exact FL|]. split; [eapply (BuilderProofs.sorted_nodup _ lid_strict), SL|].
  assert (I : item_at m (q, Z.of_nat n) k) by (split; [cbn; lia|]; exists (st_list s); cbn [fst snd]; rewrite Nat2Z.id; split; [apply with_id_kern, S|exact N]).
  intros q1 n1. rewrite IL, (sources_spec _ _ _ _ _ _ _ _ _ _ BU BS x q (Z.of_nat n) k (q1, n1) NE I). cbn [fst]. split.
  - intros (k1 & (P & l1 & K1 & N1) & SO). cbn [fst snd] in *. destruct (kern_with_id m _ _ K1) as (s1 & S1 & <- & _). exists s1, k1. auto.
  - intros (s1 & k1 & S1 & P & N1 & SO). exists k1. split; [|exact SO]. split; [exact P|]. exists (st_list s1). split; [apply with_id_kern, S1|exact N1].
Qed.
Print Assumptions C82_exact_partial.

(** ** Every lookahead has an origin *)
Section Origin.
  Context rid first_of rules u busy languages m guards (BU : buildable rid first_of rules u languages) (B : built rid first_of rules u busy languages m guards).
  Notation look := (lalr_look rules first_of languages Z (kernel m) (step m)).
  Notation by_way := (by_way rules first_of languages (kernel m) (step m)).
  Definition origin (x : item) (q : Z) (k : lr0) : Prop := exists q1 k1, by_way x q k q1 k1 /\ (begins_with languages k1 x \/ exists q0 k0, kernel m q0 k0 /\ gives rules first_of (step m) q0 k0 x q1 k1).
  Lemma by_way_trans x q k q2 k2 : by_way x q k q2 k2 -> forall q1 k1, by_way x q2 k2 q1 k1 -> by_way x q k q1 k1.
  Proof. intros H. induction 1 as [|q1 k1 q3 k3 B1 IH K L P]; [exact H|]. eapply by_way_of; eassumption. Qed.
  Lemma look_origin q k x : look q k x -> exists k0, kernel m q k0 /\ ((handed rules first_of k0 k /\ look q k0 x /\ origin x q k0) \/ given rules first_of k0 k x).
  Proof.
    destruct (C54_transitions_partial _ _ _ _ _ _ _ _ BU B) as (TR & _). induction 1 as [q l L K|q p0 l K|q k y rest r x C A E BG|q k y rest r x L IH A E S|q k y rest q' x L IH A T].
    - eexists. split; [exact K|]. left. split; [constructor|]. split; [apply lalr_language; assumption|]. eexists. eexists. split; [constructor|]. left. left. eauto.
    - eexists. split; [exact K|]. left. split; [constructor|]. split; [apply lalr_guard; assumption|]. eexists. eexists. split; [constructor|]. left. right. eauto.
    - apply closure_single in C. destruct C as (k0 & K & C). exists k0. split; [exact K|]. right. eapply look_begins; eassumption.
    - destruct IH as (k0 & K & [(H & LK & O)|G]); exists k0; (split; [exact K|]); [left; split; [eapply handed_on; eassumption|auto]|right; exact (look_passed _ _ _ _ _ _ _ _ _ G A E S)].
    - destruct IH as (k0 & K & IH). exists (advance k). assert (CI : closure_item rules (kernel m q) k).
      { apply (closure_item_mono rules (fun k1 => k1 = k0)); [intros k1 ->; exact K|]. destruct IH as [(H & _)|G]; [eapply marked_item, marked_handed, H|]. clear -G. induction G as [k' x []|k' y rest r x C A E BG|k' y rest r x C IH A E S]; eapply in_step; eassumption. }
      split; [apply (TR q y q' T); exists k, rest; auto|]. left. split; [constructor|]. split; [eapply lalr_step; eassumption|]. destruct IH as [(H & LK & q1 & k1 & BW & O)|G].
      + exists q1, k1. split; [|exact O]. eapply by_way_trans; [|exact BW]. eapply by_way_of; [apply by_itself|exact K|exact LK|]. exists k, y, rest. auto.
      + exists q', (advance k). split; [constructor|]. right. exists q, k0. split; [exact K|]. exists k, y, rest. auto.
  Qed.
  Lemma kernel_origin q k x : kernel m q k -> look q k x -> origin x q k.
  Proof.
    intros K L. destruct (built_facts _ _ _ _ _ _ _ _ BU B) as (m0 & AU & _ & OK & KK & _). assert (NS : forall y r, k = mkLr0 (mkRule y r) 0 -> expands rules y r -> False).
    { intros y r -> E. eapply (kernel_not_start rid first_of (bu_first _ _ _ _ _ BU) rules u busy languages m0 AU q y r); [|exact E]. destruct K as (s & S & X). exists (st_list s). split; [apply KK, with_id_kern, S|exact X]. }
    destruct (look_origin q k x L) as (k0 & K0 & [(H & _ & O)|G]).
    - destruct H as [|k' y rest r H A E S]; [exact O|]. exfalso. eapply NS; [reflexivity|exact E].
    - exfalso. destruct G as [k' z []|k' y rest r z C A E BG|k' y rest r z C A E S]; (eapply NS; [reflexivity|exact E]).
  Qed.
End Origin.
(** So each lookahead of an item is explained: the item has it from the beginning, or the sources include
    an item that gives it by itself or that has it from the beginning. *)
Theorem C82_explained_partial : forall rid first_of rules u busy languages m guards p sp, buildable rid first_of rules u languages -> built_sources rid first_of rules u busy languages m guards p sp ->
  forall q k x, kernel m q k -> lalr_look rules first_of languages Z (kernel m) (step m) q k x ->
  begins_with languages k x \/ exists q1 k1, source rules first_of languages (kernel m) (step m) x q k q1 k1 /\ (begins_with languages k1 x \/ exists q2 k2, gives rules first_of (step m) q1 k1 x q2 k2).
Proof.
  intros rid first_of rules u busy languages m guards p sp BU BS q k x K L. destruct (kernel_origin _ _ _ _ _ _ _ _ BU (built_sources_built _ _ _ _ _ _ _ _ _ _ BS) q k x K L) as (q1 & k1 & BW & [O|(q0 & k0 & K0 & G)]).
  - destruct BW as [|q1 k1 q2 k2 BW K1 L1 P1]; [left; exact O|]. right. exists q1, k1. split; [|left; exact O]. split; [exact K1|]. exists q2, k2. auto.
  - right. exists q0, k0. split; [|right; eauto]. split; [exact K0|]. exists q1, k1. auto.
Qed.
Print Assumptions C82_explained_partial.

(** ** The tables can be made *)
Lemma note_items_some rid (RI : injective rid) from ts items m : machine_ok rid m -> targets_in ts m -> forall sp, note_items rid from ts items m sp <> None.
Proof.
  intros OK TI. induction items as [|[k la] items IH]; intros sp; cbn [note_items]; [discriminate|]. destruct (after_dot k) as [|i rest]; [apply IH|]. destruct (mfind item_ltb i ts) as [t|] eqn:F; [|apply IH]. destruct (TI i t F) as [l K]. destruct (kern_with_id m t l K) as (s & -> & _). apply IH.
Qed.
Lemma note_state_some rid first_of rules us busy width languages (BU : buildable rid first_of rules (fun i => In i us) languages) (BB : bounded_busy busy width) m (OK : machine_ok rid m) fuel q ks : (closure_steps first_of rules us width languages <= fuel)%nat -> forall n ts sp c, targets_in ts m -> (forall k j, In k ks -> In j (after_dot k) -> In j us) -> cache_ok rid first_of rules (fun i => In i us) (fst c) ->
  exists sp' c', note_state rid first_of rules busy fuel q ks n ts m sp c = Some (sp', c') /\ cache_ok rid first_of rules (fun i => In i us) (fst c').
Proof.
  destruct BU as [RI FO UO GU LU]. intros FU. induction ks as [|k ks IH]; intros n ts sp c TI KU CO; cbn [note_state]; [eauto|]. assert (KU' : forall k0 j, In k0 ks -> In j (after_dot k0) -> In j us) by (intros k0 j X; apply KU; right; exact X). destruct (at_end k); [apply IH; assumption|].
  assert (UK : forall j, In j (after_dot k) -> In j us) by (intros j; apply KU; left; reflexivity).
  destruct (item_closure rid first_of rules busy fuel k [IEmpty] c) as [[items c1]|] eqn:IC.
  2: { exfalso. revert IC. apply (item_closure_ends rid RI first_of FO rules us la0 UO busy width BB); [|exact CO|unfold closure_steps in FU; lia]. split; [exact UK|]. split; [apply single_ok|]. intros x [<-|[]]. right. apply in_app_iff. left. left. reflexivity. }
  apply (item_closure_exact rid RI first_of FO rules _ UO busy) in IC; [|apply single_ok|exact UK|exact CO]. destruct IC as (CO1 & _). pose proof (note_items_some rid RI (q, n) ts items m OK TI (note_entry (q, n) sp)) as NN. destruct (note_items rid (q, n) ts items m (note_entry (q, n) sp)) as [sp1|]; [|contradiction]. apply IH; assumption.
Qed.
Theorem C82_ends_partial : forall rid first_of rules us busy width languages m guards p fuel1 steps c c', buildable rid first_of rules (fun i => In i us) languages ->
  (forall n stack i, (width <= count_occ item_dec stack i)%nat -> busy n stack i = true) -> earlier_calls rid first_of rules (fun i => In i us) busy c ->
  complete_parser rid first_of rules busy fuel1 steps (fold_left (fun m l => fst (add_initial_state rid l m)) languages new_machine) [] c = Some (m, guards, p, c') ->
  exists fuel0, forall fuel, (fuel0 <= fuel)%nat -> complete_sources rid first_of rules busy fuel m c' <> None.
Proof.
  intros rid first_of rules us busy width languages m guards p fuel1 steps c c' BU BB EC H. exists (closure_steps first_of rules us width languages). intros fuel FU. pose proof BU as BU0. destruct BU0 as [RI FO UO GU LU]. apply (earlier_calls_ok _ _ _ _ _ _ RI FO UO) in EC. unfold complete_parser in H. change (fold_left (fun m l => fst (add_initial_state rid l m)) languages new_machine) with (start_machine rid languages) in H.
  destruct (complete_states rid first_of rules busy fuel1 steps (start_machine rid languages) [] c) as [[[m0 g] c1]|] eqn:CS; [|discriminate H]. apply (complete_states_exact rid RI first_of FO rules _ UO GU busy languages LU) in CS; [|exact EC]. destruct CS as (AU & CO1 & _).
  destruct (complete_lookaheads rid first_of rules busy fuel1 steps m0 c1) as [[[m' p'] c2]|] eqn:CL; [|discriminate H]. injection H as E1 E2 E3 E4. subst m' g p' c2. apply (lookaheads_exact rid RI first_of FO rules _ UO busy languages m0 AU) in CL; [|exact CO1]. destruct CL as (CO' & OK & KK & TT & _).
  assert (IU : forall q l k j, kern m q l -> In k l -> In j (after_dot k) -> In j us) by (intros q l k j K X Hj; apply KK in K; destruct (kern_with_id m0 q l K) as (s & _ & <- & S); eapply (gs_items _ _ _ _ (au_states _ _ _ _ _ AU s S)); eassumption).
  unfold complete_sources. assert (QS : forall q, In q (state_ids m) -> exists l, kern m q l) by (intros q; apply state_ids_in). revert QS CO'. generalize (state_ids m) (([], []) : spontaneous) c'. intros qs. induction qs as [|q qs IH]; intros sp c2 QS CO2; cbn [note_states]; [discriminate|].
  destruct (QS q (or_introl eq_refl)) as [l K]. destruct (kern_with_id m q l K) as (s & -> & EL & _). destruct (note_state_some rid first_of rules us busy width languages BU BB m OK fuel q (st_list s) FU 0 (transitions_for_state q m) sp c2 ) as (sp1 & c1' & -> & CO3); [eapply (transitions_in rid first_of FO us languages LU), OK|intros k j X; rewrite EL in X; eapply IU; eassumption|exact CO2|].
  apply IH; [intros q' X; apply QS; right; exact X|exact CO3].
Qed.
Print Assumptions C82_ends_partial.

(** ** Examples *)
From Verif Require Import ActionModel RewriteModel RewriteSpec ConflictModel ConflictProps TableModel TableProofs TableProps RunModel RunSpec RunTableProofs RunTool RunProps.
(** The tool with the tables of sources *)
Definition source_tool (nts : grammar_of) (languages : list item) : option (machine * guard_states * propagation * spontaneous) :=
  match complete_parser rule_number (first_by (rules_of nts) 20) (rules_of nts) one_object tool_fuel tool_fuel (start_states languages) [] ([], 0%nat) with
  | Some (m, guards, p, c) => match complete_sources rule_number (first_by (rules_of nts) 20) (rules_of nts) one_object tool_fuel m c with Some (sp, _) => Some (m, guards, p, sp) | None => None end
  | None => None
  end.
Lemma source_tool_ok nts us languages m guards actss : tool nts us languages = Some (m, guards, actss) -> forall m' g' p sp, source_tool nts languages = Some (m', g', p, sp) ->
  buildable rule_number (first_by (rules_of nts) 20) (rules_of nts) (fun i => In i us) languages /\ built_sources rule_number (first_by (rules_of nts) 20) (rules_of nts) (fun i => In i us) one_object languages m' g' p sp.
Proof.
  intros E m' g' p sp. split; [apply (tool_ok _ _ _ _ _ _ E)|]. revert H. unfold source_tool. destruct (complete_parser _ _ _ _ _ _ _ _ _) as [[[[m1 g1] p1] c1]|] eqn:CP; [|discriminate]. destruct (complete_sources _ _ _ _ _ _ _) as [[sp1 c2]|] eqn:CS; [|discriminate]. intros H. injection H as <- <- <- <-.
  exists tool_fuel, tool_fuel, ([], 0%nat), c1, tool_fuel, c2. split; [constructor; constructor|]. split; [exact CP|exact CS].
Qed.
(** 0 -> t4 1 t6 | t5 2 t6 | t5 1 t7 | t4 2 t7, 1 -> t8, 2 -> t8: after t4 t8 and after t5 t8 the parser
    is in the same state.  The lookahead t6 of the item 1 -> t8 . comes from the state after t4 only. *)
Definition nts_merged : grammar_of := [(0, [[ITerm 4; INonterm 1; ITerm 6]; [ITerm 5; INonterm 2; ITerm 6]; [ITerm 5; INonterm 1; ITerm 7]; [ITerm 4; INonterm 2; ITerm 7]]); (1, [[ITerm 8]]); (2, [[ITerm 8]])].
Definition items_merged := [INonterm 0; INonterm 1; INonterm 2; ITerm 4; ITerm 5; ITerm 6; ITerm 7; ITerm 8].
Example C82_nontrivial : exists m g p sp, buildable rule_number (first_by (rules_of nts_merged) 20) (rules_of nts_merged) (fun i => In i items_merged) [INonterm 0] /\
  built_sources rule_number (first_by (rules_of nts_merged) 20) (rules_of nts_merged) (fun i => In i items_merged) one_object [INonterm 0] m g p sp /\
  kernel m 4 (mkLr0 (mkRule (INonterm 1) [ITerm 8]) 1) /\ find_lookahead_source m p sp (ITerm 6) 20 4 0 = Some [(1, 0)] /\
  kernel m 9 (mkLr0 (mkRule (INonterm 0) [ITerm 4; INonterm 1; ITerm 6]) 3) /\ find_lookahead_source m p sp IEoi 20 9 0 = Some [(0, 0); (1, 0); (5, 0)].
Proof.
  destruct (tool nts_merged items_merged [INonterm 0]) as [[[m g] a]|] eqn:E; [|vm_compute in E; discriminate E]. pose proof (source_tool_ok _ _ _ _ _ _ E) as T. destruct (source_tool nts_merged [INonterm 0]) as [[[[m' g'] p] sp]|] eqn:F; [|vm_compute in F; discriminate F]. specialize (T _ _ _ _ eq_refl). exists m', g', p, sp. vm_compute in F. injection F as <- <- <- <-.
  split; [apply T|]. split; [apply T|]. split; [eexists; split; [vm_compute; reflexivity|left; reflexivity]|]. split; [vm_compute; reflexivity|]. split; [eexists; split; [vm_compute; reflexivity|left; reflexivity]|vm_compute; reflexivity].
Qed.

(** ** The sources and the LR(1) rewriter *)
(** What the rewriter and the search for conflicts ask for *)
Definition real_sources (m : machine) (p : propagation) (sp : spontaneous) (q n : Z) (x : item) : list lid := match find_lookahead_source m p sp x 100 q n with Some l => l | None => [] end.
Definition real_lr1 (m : machine) (p : propagation) (sp : spontaneous) : rewriter :=
  lr1_rewrite (fun q => match state_with_id q m with Some s => kernel_items s | None => [] end) (fun q n x => map (fun f => (fst f, Z.to_nat (snd f))) (real_sources m p sp q (Z.of_nat n) x)).
(** For the grammar above the rewriter does its work: there are two conflicts without it, and none with it. *)
Example C57_sources_example : exists m g p sp, built_sources rule_number (first_by (rules_of nts_merged) 20) (rules_of nts_merged) (fun i => In i items_merged) one_object [INonterm 0] m g p sp /\
  (exists found c, find_conflicts rule_number (first_by (rules_of nts_merged) 20) (rules_of nts_merged) one_object (real_sources m p sp) 50 m g [] ([], 0%nat) = Some (found, c) /\ map (fun f => (f_state f, f_token f)) found = [(4, ITerm 6); (4, ITerm 7)] /\ map f_reduce found = [[(mkLr0 (mkRule (INonterm 1) [ITerm 8]) 1, [(1, 0)]); (mkLr0 (mkRule (INonterm 2) [ITerm 8]) 1, [(2, 1)])]; [(mkLr0 (mkRule (INonterm 1) [ITerm 8]) 1, [(2, 0)]); (mkLr0 (mkRule (INonterm 2) [ITerm 8]) 1, [(1, 1)])]]) /\
  exists c, find_conflicts rule_number (first_by (rules_of nts_merged) 20) (rules_of nts_merged) one_object (real_sources m p sp) 50 m g [real_lr1 m p sp] ([], 0%nat) = Some ([], c).
Proof.
  destruct (tool nts_merged items_merged [INonterm 0]) as [[[m g] a]|] eqn:E; [|vm_compute in E; discriminate E]. pose proof (source_tool_ok _ _ _ _ _ _ E) as T. destruct (source_tool nts_merged [INonterm 0]) as [[[[m' g'] p] sp]|] eqn:F; [|vm_compute in F; discriminate F]. specialize (T _ _ _ _ eq_refl). exists m', g', p, sp. vm_compute in F. injection F as <- <- <- <-.
  split; [apply T|]. split; [eexists; eexists; split; [vm_compute; reflexivity|split; reflexivity]|]. eexists. vm_compute. reflexivity.
Qed.
(** It also hides conflicts that every parser has.  In 0 -> 1 t6 | 2 t6, 1 -> t5, 2 -> t5 the sentence t5 t6
    has two trees.  The only source of the lookahead t6 after t5 is the item at the start of the language;
    the rewriter looks for items whose next symbol is 1 or 2, and among the kernel items of the source there
    are none: that is taken to mean that the two reductions lead to different states. *)
Definition nts_hidden : grammar_of := [(0, [[INonterm 1; ITerm 6]; [INonterm 2; ITerm 6]]); (1, [[ITerm 5]]); (2, [[ITerm 5]])].
Definition items_hidden := [INonterm 0; INonterm 1; INonterm 2; ITerm 5; ITerm 6].
Notation hidden_parses := (parses (rules_of nts_hidden) rule_number item_number lex fst lex_renamed (fun _ _ => False) (fun _ => False)).
Theorem C57_hides_refuted : exists m g p sp, buildable rule_number (first_by (rules_of nts_hidden) 20) (rules_of nts_hidden) (fun i => In i items_hidden) [INonterm 0] /\
  built_sources rule_number (first_by (rules_of nts_hidden) 20) (rules_of nts_hidden) (fun i => In i items_hidden) one_object [INonterm 0] m g p sp /\
  (exists a b, a <> b /\ hidden_parses (INonterm 0) a (lexemes [5; 6]) [] /\ hidden_parses (INonterm 0) b (lexemes [5; 6]) []) /\
  (exists found c, find_conflicts rule_number (first_by (rules_of nts_hidden) 20) (rules_of nts_hidden) one_object (real_sources m p sp) 50 m g [] ([], 0%nat) = Some (found, c) /\ map (fun f => (f_state f, f_token f)) found = [(1, ITerm 6)]) /\
  exists c, find_conflicts rule_number (first_by (rules_of nts_hidden) 20) (rules_of nts_hidden) one_object (real_sources m p sp) 50 m g [real_lr1 m p sp] ([], 0%nat) = Some ([], c).
Proof.
  destruct (tool nts_hidden items_hidden [INonterm 0]) as [[[m g] a]|] eqn:E; [|vm_compute in E; discriminate E]. pose proof (source_tool_ok _ _ _ _ _ _ E) as T. destruct (source_tool nts_hidden [INonterm 0]) as [[[[m' g'] p] sp]|] eqn:F; [|vm_compute in F; discriminate F]. specialize (T _ _ _ _ eq_refl). exists m', g', p, sp. vm_compute in F. injection F as <- <- <- <-.
  split; [apply T|]. split; [apply T|]. split; [|split; [eexists; eexists; split; [vm_compute; reflexivity|reflexivity]|eexists; vm_compute; reflexivity]].
  assert (P : forall n, n = 1 \/ n = 2 -> exists t, hidden_parses (INonterm 0) (Node (item_number (INonterm 0)) (rule_number (mkRule (INonterm 0) [INonterm n; ITerm 6])) t) (lexemes [5; 6]) []).
  { intros n N. eexists. eapply parses_rule; [constructor; destruct N as [-> | ->]; cbn; tauto|]. change (lexemes [5; 6]) with (firstn 1 (lexemes [5; 6]) ++ skipn 1 (lexemes [5; 6]) ++ []). eapply all_next.
    - eapply parses_rule; [constructor; destruct N as [-> | ->]; left; reflexivity|]. change (firstn 1 (lexemes [5; 6])) with (firstn 1 (lexemes [5; 6]) ++ []). eapply all_next; [exact (parses_term _ _ _ _ _ _ _ _ (5, 0) _)|constructor].
    - eapply all_next; [exact (parses_term _ _ _ _ _ _ _ _ (6, 1) _)|constructor]. }
  destruct (P 1 (or_introl eq_refl)) as [t1 P1]. destruct (P 2 (or_intror eq_refl)) as [t2 P2]. eexists. eexists. split; [|split; [exact P1|exact P2]]. intros X. injection X as X _. vm_compute in X. discriminate X.
Qed.
Print Assumptions C57_hides_refuted.

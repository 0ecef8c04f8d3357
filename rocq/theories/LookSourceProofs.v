(** Proofs about where lookaheads come from. *)
From Verif Require Import Base OrdMap GrammarModel GrammarProofs FirstModel FirstProofs FollowProofs LrItemModel LrItemProofs ClosureModel ClosureSpec ClosureProofs ClosureTermProofs MachineModel MachineProofs BuilderModel BuilderSpec BuilderProofs BuilderLookProofs LookSourceModel LookSourceSpec.
Local Open Scope Z_scope.

Lemma link_strict : strict_total link_ltb.
Proof.
  destruct lid_strict as [R T O]. assert (AS : forall a b, lid_ltb a b = true -> lid_ltb b a = false) by (intros a b H; destruct (lid_ltb b a) eqn:E; [|reflexivity]; rewrite <- (R a); symmetry; eapply T; eassumption).
  split.
  - intros [a b]. unfold link_ltb. cbn. rewrite !R. reflexivity.
  - intros [a b] [c d] [e f]. unfold link_ltb. cbn. intros H1 H2. destruct (O a c) as [->|[X|X]].
    + rewrite R in H1. destruct (lid_ltb c e); [reflexivity|]. destruct (lid_ltb e c); [discriminate H2|]. eapply T; eassumption.
    + destruct (O c e) as [<-|[Y|Y]]; [rewrite X; reflexivity|rewrite (T _ _ _ X Y); reflexivity|]. rewrite (AS _ _ Y), Y in H2. discriminate H2.
    + rewrite (AS _ _ X), X in H1. discriminate H1.
  - intros [a b] [c d]. unfold link_ltb. cbn. destruct (O a c) as [<-|[X|X]].
    + rewrite R. destruct (O b d) as [<-|[X|X]]; auto.
    + right. left. rewrite X. reflexivity.
    + right. right. rewrite X. reflexivity.
Qed.
Lemma link_dec (a b : link) : {a = b} + {a <> b}.
Proof. decide equality; apply lid_dec. Qed.

Section Tables.
  Context (rid : rule -> Z) (RI : injective rid).
  Context (first_of : item -> iset) (FO : forall i, set_ok (first_of i)).
  Context (rules : Z -> list (list item)) (u : item -> Prop) (UO : ordinary rules first_of u).
  Context (busy : nat -> list item -> item -> bool).
  Notation cache_ok := (cache_ok rid first_of rules u).
  Notation edge := (edge first_of rules).

  Definition noted (sp : spontaneous) (f t : lid) (x : item) : Prop := exists ts la, mfind lid_ltb f (fst sp) = Some ts /\ In t ts /\ mfind link_ltb (f, t) (snd sp) = Some la /\ In x la.
  Record note_inv (E : lid -> lid -> item -> Prop) (sp : spontaneous) : Prop := {
    ni_sorted : msorted lid_ltb (fst sp);
    ni_sets : forall f ts, mfind lid_ltb f (fst sp) = Some ts -> ssorted lid_ltb ts;
    ni_sorted2 : msorted link_ltb (snd sp);
    ni_looks : forall e la, mfind link_ltb e (snd sp) = Some la -> set_ok la;
    ni_both : forall f t la, mfind link_ltb (f, t) (snd sp) = Some la -> exists ts, mfind lid_ltb f (fst sp) = Some ts /\ In t ts;
    ni_noted : forall f t x, x <> IEmpty -> noted sp f t x <-> E f t x }.
  Lemma note_ext E E' sp : (forall f t x, x <> IEmpty -> E f t x <-> E' f t x) -> note_inv E sp -> note_inv E' sp.
  Proof. intros H [A1 A2 A3 A4 A5 A6]. split; try assumption. intros f t x NE. rewrite A6 by exact NE. apply H, NE. Qed.
  Lemma note_entry_inv E from sp : note_inv E sp -> note_inv E (note_entry from sp).
  Proof.
    intros [A1 A2 A3 A4 A5 A6]. assert (F : forall f, mfind lid_ltb f (fst (note_entry from sp)) = if lid_dec f from then Some (match mfind lid_ltb from (fst sp) with Some l => l | None => [] end) else mfind lid_ltb f (fst sp)).
    { intros f. unfold note_entry. cbn [fst]. destruct (lid_dec f from) as [->|N]; [apply (mfind_mset_same _ lid_strict), A1|apply (mfind_mset_other _ lid_strict); [exact A1|congruence]]. }
    assert (K : forall f t, (exists ts, mfind lid_ltb f (fst (note_entry from sp)) = Some ts /\ In t ts) <-> (exists ts, mfind lid_ltb f (fst sp) = Some ts /\ In t ts)).
    { intros f t. rewrite F. destruct (lid_dec f from) as [->|N]; [|reflexivity]. destruct (mfind lid_ltb from (fst sp)) as [l|]; [reflexivity|]. split; [intros (ts & X & Y); injection X as <-; destruct Y|intros (ts & X & _); discriminate X]. }
    split.
    - apply (mset_sorted _ lid_strict), A1.
    - intros f ts. rewrite F. destruct (lid_dec f from); [|apply A2]. intros X. injection X as <-. destruct (mfind lid_ltb from (fst sp)) as [l|] eqn:E1; [eapply A2, E1|constructor].
    - exact A3.
    - exact A4.
    - intros f t la X. apply K, (A5 f t la X).
    - intros f t x NE. rewrite <- A6 by exact NE. unfold noted. split; intros (ts & la & X & Y & Z); [destruct (proj1 (K f t)) as (ts' & X' & Y'); [eauto|]|destruct (proj2 (K f t)) as (ts' & X' & Y'); [eauto|]]; exists ts', la; auto.
  Qed.
  Lemma note_link_inv E from to la sp : set_ok la -> note_inv E sp -> note_inv (fun f t x => E f t x \/ (f = from /\ t = to /\ In x la)) (note_link from to la sp).
  Proof.
    intros SL I. unfold note_link. destruct ((1 <? length la)%nat || _)%bool eqn:CD.
    - destruct I as [A1 A2 A3 A4 A5 A6]. set (old := match mfind link_ltb (from, to) (snd sp) with Some s => s | None => no_items end). assert (OL : set_ok old) by (subst old; destruct (mfind link_ltb (from, to) (snd sp)) as [s|] eqn:F; [eapply A4, F|constructor]).
      assert (G : forall e, mfind link_ltb e (mset link_ltb (from, to) (imerge old la) (snd sp)) = if link_dec e (from, to) then Some (imerge old la) else mfind link_ltb e (snd sp)).
      { intros e. destruct (link_dec e (from, to)) as [->|N]; [apply (mfind_mset_same _ link_strict), A3|apply (mfind_mset_other _ link_strict); [exact A3|congruence]]. }
      assert (K : forall f t, (exists ts, mfind lid_ltb f (add_link from to (fst sp)) = Some ts /\ In t ts) <-> (exists ts, mfind lid_ltb f (fst sp) = Some ts /\ In t ts) \/ (f = from /\ t = to)).
      { intros f t. rewrite (add_link_spec from to (fst sp) f A1). destruct (lid_dec f from) as [->|N]; [|split; [auto|intros [X|[X _]]; [exact X|contradiction]]]. split.
        - intros (ts & X & Y). injection X as <-. apply (sins_in _ lid_strict) in Y. destruct Y as [->|Y]; [auto|]. left. destruct (mfind lid_ltb from (fst sp)) as [l|]; [eauto|destruct Y].
        - intros X. eexists. split; [reflexivity|]. apply (sins_in _ lid_strict). destruct X as [(ts & X & Y)|[_ ->]]; [|auto]. rewrite X. auto. }
      split; cbn [fst snd].
      + apply (mset_sorted _ lid_strict), A1.
      + intros f ts. rewrite (add_link_spec from to (fst sp) f A1). destruct (lid_dec f from); [|apply A2]. intros X. injection X as <-. apply (sins_sorted _ lid_strict). destruct (mfind lid_ltb from (fst sp)) as [l|] eqn:E1; [eapply A2, E1|constructor].
      + apply (mset_sorted _ link_strict), A3.
      + intros e s. rewrite G. destruct (link_dec e (from, to)); [|apply A4]. intros X. injection X as <-. apply imerge_ok, OL.
      + intros f t s. rewrite G. destruct (link_dec (f, t) (from, to)) as [X|N]; intros H; apply K; [injection X as -> ->; auto|left; eapply A5, H].
      + intros f t x NE. rewrite <- A6 by exact NE. unfold noted. cbn [fst snd]. split.
        * intros (ts & s & X & Y & Z & W). rewrite G in Z. destruct (link_dec (f, t) (from, to)) as [EQ|N].
          -- injection EQ as -> ->. injection Z as <-. apply imerge_in in W. destruct W as [W|W]; [|auto]. left. subst old. destruct (mfind link_ltb (from, to) (snd sp)) as [s|] eqn:F; [|destruct W]. destruct (A5 _ _ _ F) as (ts' & X' & Y'). exists ts', s. auto.
          -- left. destruct (proj1 (K f t)) as [(ts' & X' & Y')|[-> ->]]; [eauto| |contradiction]. exists ts', s. auto.
        * intros H. assert (X : exists ts, mfind lid_ltb f (add_link from to (fst sp)) = Some ts /\ In t ts) by (apply K; destruct H as [(ts & s & X & Y & _)|(-> & -> & _)]; eauto). destruct X as (ts & X & Y). exists ts. rewrite G. destruct (link_dec (f, t) (from, to)) as [EQ|N].
          -- injection EQ as -> ->. eexists. split; [exact X|]. split; [exact Y|]. split; [reflexivity|]. apply imerge_in. destruct H as [(ts' & s & _ & _ & Z & W)|(_ & _ & W)]; [|auto]. subst old. rewrite Z. auto.
          -- destruct H as [(ts' & s & _ & _ & Z & W)|(-> & -> & _)]; [|contradiction]. exists s. auto.
    - eapply (note_ext E); [|exact I]. intros f t x NE. split; [auto|]. intros [X|(_ & _ & X)]; [exact X|]. exfalso. apply orb_false_iff in CD. destruct CD as [C1 C2]. apply Nat.ltb_ge in C1. destruct la as [|y [|z la]]; cbn in C1; [destruct X| |lia]. destruct X as [->|[]].
      cbn [andb] in C2. apply negb_false_iff, icontains_in in C2; [|exact SL]. destruct C2 as [C2|[]]. contradiction.
  Qed.

  Section Machine.
    Context (m : machine) (OK : machine_ok rid m) (IU : forall q l k j, kern m q l -> In k l -> In j (after_dot k) -> u j).
    Notation item_edges := (item_edges m).
    Lemma note_items_inv from items : (forall k la, In (k, la) items -> set_ok la) -> forall E sp sp', note_inv E sp -> note_items rid from (transitions_for_state (fst from) m) items m sp = Some sp' ->
      note_inv (fun f t x => E f t x \/ item_edges from (transitions_for_state (fst from) m) items f t x) sp'.
    Proof.
      set (ts := transitions_for_state (fst from) m). induction items as [|[k la] items IH]; intros SI E sp sp' I H; cbn [note_items] in H.
      - injection H as <-. eapply note_ext; [|exact I]. intros f t x _. split; [auto|]. intros [X|(_ & k & la & y & rest & [] & _)]. exact X.
      - assert (SI' : forall k0 la0, In (k0, la0) items -> set_ok la0) by (intros k0 la0 X; eapply SI; right; exact X).
        assert (SK : (forall t, (exists y rest, after_dot k = y :: rest /\ mfind item_ltb y ts = Some (fst t)) -> ~ item_at m t (advance k)) -> note_items rid from ts items m sp = Some sp' -> note_inv (fun f t x => E f t x \/ item_edges from ts ((k, la) :: items) f t x) sp').
        { intros N H'. eapply note_ext; [|eapply IH; eassumption]. intros f t x _. cbn beta. unfold BuilderLookProofs.item_edges. split.
          - intros [X|(EF & k1 & la1 & y & rest & X & R)]; [auto|]. right. split; [exact EF|]. exists k1, la1, y, rest. split; [right; exact X|exact R].
          - intros [X|(EF & k1 & la1 & y & rest & [X|X] & R)]; [auto| |right; split; [exact EF|]; exists k1, la1, y, rest; split; [exact X|exact R]]. injection X as <- <-. destruct R as (_ & A & F & IA). exfalso. apply (N t); [eauto|exact IA]. }
        destruct (after_dot k) as [|y rest] eqn:A; [apply SK; [intros t (y & rest & X & _); discriminate X|exact H]|]. destruct (mfind item_ltb y ts) as [t0|] eqn:F; [|apply SK; [intros t (y' & rest' & X & F'); injection X as <- <-; congruence|exact H]].
        destruct (state_with_id t0 m) as [s|] eqn:S; [|discriminate H]. pose proof (fun t => item_at_find rid RI m t t0 s (advance k) OK S) as AF. cbv zeta in H. set (n := find_identifier rid (advance k) s) in *. destruct (Z.ltb_spec n 0) as [NN|NN].
        + apply SK; [|exact H]. intros t (y' & rest' & X & F') IA. injection X as <- <-. assert (ET : fst t = t0) by congruence. destruct (proj1 (AF t) (conj IA ET)) as [_ P]. lia.
        + clear SK. assert (IT : item_at m (t0, n) (advance k)) by (apply AF; split; [reflexivity|exact NN]). apply (note_link_inv E from (t0, n) la) in I; [|eapply SI; left; reflexivity].
          apply (IH SI' _ _ _ I) in H. eapply note_ext; [|exact H]. intros f t x _. cbn beta. split.
          * intros [[X|(-> & -> & X)]|(EF & k1 & la1 & y1 & rest1 & X & R)]; [auto| |right; split; [exact EF|]; exists k1, la1, y1, rest1; split; [right; exact X|exact R]].
            right. split; [reflexivity|]. exists k, la, y, rest. split; [left; reflexivity|]. split; [exact X|]. split; [exact A|]. split; [exact F|exact IT].
          * intros [X|(EF & k1 & la1 & y1 & rest1 & [X|X] & R)]; [auto| |right; split; [exact EF|]; exists k1, la1, y1, rest1; split; [exact X|exact R]]. injection X as <- <-. destruct R as (Hx & A1 & F1 & IA). left. right. split; [exact EF|]. split; [|exact Hx].
            rewrite A in A1. injection A1 as <- <-. assert (E0 : fst t = t0) by congruence. apply (proj1 (AF t) (conj IA E0)).
    Qed.
    Lemma note_state_inv fuel q ks : forall n E sp c sp' c', (forall j k, nth_error ks j = Some k -> item_at m (q, n + Z.of_nat j) k /\ forall i, In i (after_dot k) -> u i) -> cache_ok (fst c) -> note_inv E sp ->
      note_state rid first_of rules busy fuel q ks n (transitions_for_state q m) m sp c = Some (sp', c') ->
      cache_ok (fst c') /\ note_inv (fun f t x => E f t x \/ (exists j k, nth_error ks j = Some k /\ f = (q, n + Z.of_nat j) /\ edge m f t x)) sp'.
    Proof.
      induction ks as [|k ks IH]; intros n E sp c sp' c' KS CO I H; cbn [note_state] in H.
      - injection H as <- <-. split; [exact CO|]. eapply note_ext; [|exact I]. intros f t x _. split; [auto|]. intros [X|(j & k & X & _)]; [exact X|]. destruct j; discriminate X.
      - assert (KS' : forall j k0, nth_error ks j = Some k0 -> item_at m (q, n + 1 + Z.of_nat j) k0 /\ forall i, In i (after_dot k0) -> u i) by (intros j k0 X; replace (n + 1 + Z.of_nat j) with (n + Z.of_nat (S j)) by lia; apply KS, X).
        destruct (KS 0%nat k eq_refl) as [IK UK]. replace (n + Z.of_nat 0) with n in IK by lia.
        assert (EK : forall t x, edge m (q, n) t x <-> exists k2 y rest, marked first_of rules k k2 x /\ after_dot k2 = y :: rest /\ trans m q y = Some (fst t) /\ item_at m t (advance k2)).
        { intros t x. split; [|intros (k2 & y & rest & R); exists k, k2, y, rest; split; [exact IK|exact R]]. intros (k' & k2 & y & rest & IA & R). exists k2, y, rest. replace k with k'; [exact R|]. destruct IA as (_ & l & K1 & N1), IK as (_ & l' & K2 & N2). rewrite (kern_fun _ _ _ _ K1 K2) in N1. cbn [snd] in *. congruence. }
        assert (GO : forall E1 sp1 c1, cache_ok (fst c1) -> note_inv E1 sp1 -> (forall f t x, E1 f t x <-> E f t x \/ (f = (q, n) /\ edge m f t x)) -> note_state rid first_of rules busy fuel q ks (n + 1) (transitions_for_state q m) m sp1 c1 = Some (sp', c') ->
          cache_ok (fst c') /\ note_inv (fun f t x => E f t x \/ (exists j k0, nth_error (k :: ks) j = Some k0 /\ f = (q, n + Z.of_nat j) /\ edge m f t x)) sp').
        { intros E1 sp1 c1 CO1 I1 EQ H1. apply (IH _ E1) in H1; try assumption. destruct H1 as [CO' I']. split; [exact CO'|]. eapply note_ext; [|exact I']. intros f t x _. cbn beta. rewrite EQ. split.
          - intros [[X|(-> & X)]|(j & k0 & X & -> & Y)]; [auto|right; exists 0%nat, k; split; [reflexivity|]; replace (n + Z.of_nat 0) with n by lia; auto|]. right. exists (S j), k0. split; [exact X|]. replace (n + 1 + Z.of_nat j) with (n + Z.of_nat (S j)) in * by lia. auto.
          - intros [X|([|j] & k0 & X & -> & Y)]; [auto|left; right; replace (n + Z.of_nat 0) with n in * by lia; auto|]. right. exists j, k0. split; [exact X|]. replace (n + 1 + Z.of_nat j) with (n + Z.of_nat (S j)) by lia. auto. }
        destruct (at_end k) eqn:AE.
        + eapply GO; [exact CO|exact I| |exact H]. intros f t x. split; [auto|]. intros [X|(-> & X)]; [exact X|]. exfalso. apply EK in X. destruct X as (k2 & y & rest & M & A & _). assert (D : after_dot k = []) by (unfold at_end in AE; apply Nat.leb_le in AE; apply skipn_all2, AE).
          apply marked_item, (closure_at_end rules) in M; [|exact D]. congruence.
        + destruct (item_closure rid first_of rules busy fuel k [IEmpty] c) as [[items c1]|] eqn:IC; [|discriminate H]. apply (item_closure_exact rid RI first_of FO rules u UO busy) in IC; [|apply single_ok|exact UK|exact CO]. destruct IC as (CO1 & OKI & MI & LI).
          destruct (note_items rid (q, n) (transitions_for_state q m) items m (note_entry (q, n) sp)) as [sp1|] eqn:PI; [|discriminate H]. apply (note_items_inv (q, n) items) with (E := E) in PI; [|intros k0 la X; eapply (lo_sets _ _ OKI), X|apply note_entry_inv, I].
          eapply GO; [exact CO1|exact PI| |exact H]. intros f t x. cbn beta. unfold BuilderLookProofs.item_edges. cbn [fst]. split; (intros [X|(-> & X)]; [auto|right; split; [reflexivity|]]).
          * apply EK. destruct X as (k2 & la & y & rest & X & Hx & A & F & IA). exists k2, y, rest. split; [|split; [exact A|split; [exact F|exact IA]]]. apply LI. apply (look_entry rid RI); eauto.
          * apply EK in X. destruct X as (k2 & y & rest & M & A & F & IA). apply LI in M. apply (look_entry rid RI) in M; [|exact OKI]. destruct M as (la & X & Hx). exists k2, la, y, rest. auto 6.
    Qed.
    Lemma note_states_inv fuel qs : forall E sp c sp' c', cache_ok (fst c) -> note_inv E sp -> note_states rid first_of rules busy fuel qs m sp c = Some (sp', c') ->
      cache_ok (fst c') /\ note_inv (fun f t x => E f t x \/ (In (fst f) qs /\ edge m f t x)) sp'.
    Proof.
      induction qs as [|q qs IH]; intros E sp c sp' c' CO I H; cbn [note_states] in H.
      - injection H as <- <-. split; [exact CO|]. eapply note_ext; [|exact I]. intros f t x _. split; [auto|]. intros [X|([] & _)]; exact X.
      - destruct (state_with_id q m) as [s|] eqn:S; [|discriminate H]. pose proof (with_id_kern m q s S) as K.
        destruct (note_state rid first_of rules busy fuel q (st_list s) 0 (transitions_for_state q m) m sp c) as [[sp1 c1]|] eqn:PS; [|discriminate H].
        assert (KS : forall j k, nth_error (st_list s) j = Some k -> item_at m (q, 0 + Z.of_nat j) k /\ forall i, In i (after_dot k) -> u i).
        { intros j k X. split; [|intros i Hi; eapply (IU q (st_list s)); [exact K|eapply nth_error_In, X|exact Hi]]. split; [cbn; lia|]. exists (st_list s). split; [exact K|]. cbn [snd]. rewrite Z.add_0_l, Nat2Z.id. exact X. }
        apply (note_state_inv fuel q (st_list s) 0 E) in PS; try assumption. destruct PS as [CO1 I1]. apply (IH _ _ _ _ _ CO1 I1) in H. destruct H as [CO' I']. split; [exact CO'|]. eapply note_ext; [|exact I']. intros f t x _. cbn beta. split.
        + intros [[X|(j & k & X & -> & Y)]|(X & Y)]; [auto|right; split; [left; reflexivity|exact Y]|right; split; [right; exact X|exact Y]].
        + intros [X|([EQ|X] & Y)]; [auto| |auto]. left. right. destruct Y as (k & k2 & y & rest & (P & l & KL & N) & R). cbn in EQ. rewrite <- EQ in KL. rewrite (kern_fun _ _ _ _ KL K) in N. exists (Z.to_nat (snd f)), k. split; [exact N|]. split; [destruct f; cbn in *; f_equal; [congruence|lia]|].
          exists k, k2, y, rest. split; [|exact R]. split; [exact P|]. exists (st_list s). rewrite <- EQ. auto.
    Qed.
    Lemma sources_exact fuel c sp c' : cache_ok (fst c) -> complete_sources rid first_of rules busy fuel m c = Some (sp, c') -> cache_ok (fst c') /\ note_inv (edge m) sp.
    Proof.
      intros CO H. unfold complete_sources in H. apply (note_states_inv fuel _ (fun _ _ _ => False)) in H; [|exact CO|].
      - destruct H as [CO' I]. split; [exact CO'|]. eapply note_ext; [|exact I]. intros f t x _. cbn beta. split; [intros [[]|(_ & X)]; exact X|]. intros X. right. split; [|exact X].
        destruct X as (k & k2 & y & rest & (_ & l & K & _) & _). apply state_ids_in. eauto.
      - split; cbn [fst snd]; try constructor; try discriminate. intros (ts & la & X & _). discriminate X. intros [].
    Qed.
  End Machine.
End Tables.

Lemma inserted_in (l : list lid) : forall s f, In f (fold_left (fun s f => sins lid_ltb f s) l s) <-> In f s \/ In f l.
Proof. induction l as [|a l IH]; intros s f; cbn [fold_left]; [cbn; tauto|]. rewrite IH, (sins_in _ lid_strict). cbn. split; intuition congruence. Qed.
Lemma inserted_sorted (l : list lid) : forall s, ssorted lid_ltb s -> ssorted lid_ltb (fold_left (fun s f => sins lid_ltb f s) l s).
Proof. induction l as [|a l IH]; intros s S; cbn [fold_left]; [exact S|]. apply IH, (sins_sorted _ lid_strict), S. Qed.

Lemma filter_len {A} (f : A -> bool) l : (length (filter f l) <= length l)%nat.
Proof. induction l as [|a l IH]; cbn; [lia|]. destruct (f a); cbn; lia. Qed.

Section Search.
  Context (m : machine) (p : propagation) (sp : spontaneous) (x : item) (NE : x <> IEmpty) (E : lid -> lid -> item -> Prop).
  Context (PS : msorted lid_ltb p) (PO : forall f l, mfind lid_ltb f p = Some l -> ssorted lid_ltb l) (PL : forall f t, (exists l, mfind lid_ltb f p = Some l /\ In t l) <-> E f t IEmpty).
  Context (PK : forall f l, mfind lid_ltb f p = Some l -> exists la, lookahead_at m f = Some la /\ set_ok la) (NI : note_inv E sp).
  Definition has (f : lid) : Prop := exists la, lookahead_at m f = Some la /\ In x la.
  Lemma giving_in t f : In f (giving sp x t) <-> E f t x.
  Proof.
    rewrite <- (ni_noted _ _ NI f t x NE). unfold giving, noted. rewrite in_map_iff. split.
    - intros ([f' ts] & <- & H). apply filter_In in H. destruct H as [H C]. cbn [fst snd] in *. apply andb_true_iff in C. destruct C as [C1 C2]. apply (mfind_in _ lid_strict) in H; [|apply NI]. exists ts. apply (smem_in _ lid_strict) in C1; [|eapply (ni_sets _ _ NI), H].
      destruct (mfind link_ltb (f', t) (snd sp)) as [la|] eqn:F; [|discriminate C2]. exists la. apply icontains_in in C2; [auto|eapply (ni_looks _ _ NI), F].
    - intros (ts & la & X & Y & Z & W). exists (f, ts). split; [reflexivity|]. apply filter_In. cbn [fst snd]. split; [apply (mfind_in _ lid_strict); [apply NI|exact X]|]. apply andb_true_iff. split; [apply (smem_in _ lid_strict); [eapply (ni_sets _ _ NI), X|exact Y]|]. rewrite Z. apply icontains_in; [eapply (ni_looks _ _ NI), Z|exact W].
  Qed.
  Lemma passing_list t p' : (forall f l, In (f, l) p' -> ssorted lid_ltb l /\ exists la, lookahead_at m f = Some la /\ set_ok la) ->
    exists l, passing m x t p' = Some l /\ (length l <= length p')%nat /\ forall f, In f l <-> exists ts, In (f, ts) p' /\ In t ts /\ has f.
  Proof.
    induction p' as [|[f ts] p' IH]; intros H; cbn [passing]; [exists []; split; [reflexivity|]; split; [cbn; lia|]; intros f; split; [intros []|intros (ts & [] & _)]|].
    destruct (H f ts (or_introl eq_refl)) as (SO & la & LA & OL). destruct IH as (l & -> & LN & IL); [intros f' l' X; apply H; right; exact X|]. rewrite LA. eexists. split; [reflexivity|].
    assert (C : (icontains la x && smem lid_ltb t ts)%bool = true <-> In t ts /\ has f).
    { rewrite andb_true_iff, (icontains_in _ _ OL), (smem_in _ lid_strict _ SO). split; [intros [A B]; split; [exact B|exists la; auto]|intros [A (la' & B & D)]; split; [congruence|exact A]]. }
    destruct (icontains la x && smem lid_ltb t ts)%bool; cbn [length].
    - split; [lia|]. intros f'. cbn [In]. rewrite IL. split; [intros [<-|(ts' & X & Y)]; [exists ts; split; [auto|apply C; reflexivity]|exists ts'; auto]|]. intros (ts' & [X|X] & Y & Z); [injection X as <- <-; auto|right; eauto].
    - split; [lia|]. intros f'. rewrite IL. cbn [In]. split; [intros (ts' & X & Y); exists ts'; auto|]. intros (ts' & [X|X] & Y & Z); [injection X as <- <-; exfalso; assert (false = true) by (apply C; auto); discriminate|eauto].
  Qed.
  Lemma passing_in t : exists l, passing m x t p = Some l /\ (length l <= length p)%nat /\ (forall f, In f l -> In f (map fst p)) /\ forall f, In f l <-> E f t IEmpty /\ has f.
  Proof.
    destruct (passing_list t p) as (l & EL & LN & IL). { intros f l X. apply (mfind_in _ lid_strict) in X; [|exact PS]. eauto. }
    exists l. split; [exact EL|]. split; [exact LN|]. split; [intros f X; apply IL in X; destruct X as (ts & X & _); apply in_map_iff; exists (f, ts); auto|]. intros f. rewrite IL, <- PL. split; [intros (ts & X & Y & Z); split; [exists ts; split; [apply (mfind_in _ lid_strict); assumption|exact Y]|exact Z]|intros [(ts & X & Y) Z]; exists ts; split; [apply (mfind_in _ lid_strict); assumption|auto]].
  Qed.
  Inductive reach (t0 : lid) : lid -> Prop :=
  | reach_self : reach t0 t0
  | reach_back f t : reach t0 t -> E f t IEmpty -> has f -> reach t0 f.
  Definition direct (f t : lid) : Prop := E f t x \/ (E f t IEmpty /\ has f).
  Definition sources_of (t0 f : lid) : Prop := exists t, reach t0 t /\ direct f t.
  Definition missing (t0 : lid) (visited : list lid) : nat := length (filter (fun t => negb (smem lid_ltb t visited)) (t0 :: map fst p)).
  Record search_inv (t0 : lid) (todo visited found : list lid) : Prop := {
    se_sorted : ssorted lid_ltb visited;
    se_found_sorted : ssorted lid_ltb found;
    se_reach : forall t, In t todo \/ In t visited -> reach t0 t;
    se_known : forall t, In t todo -> In t (t0 :: map fst p);
    se_start : In t0 todo \/ In t0 visited;
    se_back : forall f t, In t visited -> E f t IEmpty -> has f -> In f todo \/ In f visited;
    se_found : forall f, In f found <-> exists t, In t visited /\ direct f t }.
  Lemma search_exact t0 steps : forall todo visited found, search_inv t0 todo visited found -> (length todo + missing t0 visited * length p < steps)%nat ->
    exists l, search m p sp x steps todo visited found = Some l /\ ssorted lid_ltb l /\ forall f, In f l <-> sources_of t0 f.
  Proof.
    induction steps as [|steps IH]; intros todo visited found I B; [lia|]. cbn [search]. destruct todo as [|t todo].
    - exists found. split; [reflexivity|]. split; [apply I|]. intros f. rewrite (se_found _ _ _ _ I). assert (R : forall t, reach t0 t -> In t visited).
      { induction 1 as [|f' t R IR ED HF]; [destruct (se_start _ _ _ _ I) as [[]|X]; exact X|]. destruct (se_back _ _ _ _ I f' t IR ED HF) as [[]|X]. exact X. }
      split; intros (t & X & Y); exists t; (split; [|exact Y]); [apply (se_reach _ _ _ _ I); auto|apply R, X].
    - cbn [length] in B. destruct (smem lid_ltb t visited) eqn:M.
      + apply (smem_in _ lid_strict) in M; [|apply I]. apply IH; [|lia]. destruct I as [A1 A2 A3 A4 A5 A6 A7]. split; try assumption.
        * intros s X. apply A3. destruct X as [X|X]; [left; right; exact X|auto].
        * intros s X. apply A4. right. exact X.
        * destruct A5 as [[<-|X]|X]; auto.
        * intros f s X Y Z. destruct (A6 f s X Y Z) as [[<-|W]|W]; auto.
      + destruct (passing_in t) as (l & -> & LN & LK & LI). assert (MI : ~ In t visited) by (intros X; apply (smem_in _ lid_strict) in X; [congruence|apply I]). pose proof (sins_sorted _ lid_strict visited (se_sorted _ _ _ _ I) t) as SV.
        apply IH.
        * destruct I as [A1 A2 A3 A4 A5 A6 A7]. assert (RT : reach t0 t) by (apply A3; left; left; reflexivity). split.
          -- exact SV.
          -- apply inserted_sorted, A2.
          -- intros s X. rewrite in_app_iff, (sins_in _ lid_strict) in X. destruct X as [[X|X]|[->|X]]; [apply A3; left; right; exact X| |exact RT|apply A3; auto]. apply LI in X. eapply reach_back; [exact RT|apply X|apply X].
          -- intros s X. apply in_app_iff in X. destruct X as [X|X]; [apply A4; right; exact X|right; apply LK, X].
          -- rewrite in_app_iff, (sins_in _ lid_strict). destruct A5 as [[<-|X]|X]; auto.
          -- intros f s X Y Z. rewrite in_app_iff, (sins_in _ lid_strict). apply (sins_in _ lid_strict) in X. destruct X as [->|X]; [left; right; apply LI; auto|]. destruct (A6 f s X Y Z) as [[->|W]|W]; auto.
          -- intros f. rewrite inserted_in, in_app_iff, A7, giving_in, LI. split.
             ++ intros [(s & X & Y)|X]; [exists s; split; [apply (sins_in _ lid_strict); auto|exact Y]|exists t; split; [apply (sins_in _ lid_strict); auto|exact X]].
             ++ intros (s & X & Y). apply (sins_in _ lid_strict) in X. destruct X as [->|X]; [right; exact Y|left; eauto].
        * assert (LT : (missing t0 (sins lid_ltb t visited) < missing t0 visited)%nat).
          { apply filter_less.
            - intros s _ X. apply negb_true_iff in X. apply negb_true_iff. destruct (smem lid_ltb s visited) eqn:EV; [|reflexivity]. apply (smem_in _ lid_strict) in EV; [|apply I]. rewrite <- X. symmetry. apply (smem_in _ lid_strict); [exact SV|]. apply (sins_in _ lid_strict). auto.
            - exists t. split; [apply (se_known _ _ _ _ I); left; reflexivity|]. rewrite M. split; [reflexivity|]. apply negb_false_iff, (smem_in _ lid_strict); [exact SV|]. apply (sins_in _ lid_strict). auto. }
          rewrite app_length. nia.
  Qed.
  Lemma find_exact q n steps : (1 + (1 + length p) * length p < steps)%nat -> exists l, find_lookahead_source m p sp x steps q n = Some l /\ ssorted lid_ltb l /\ forall f, In f l <-> sources_of (q, n) f.
  Proof.
    intros B. unfold find_lookahead_source. apply search_exact.
    - split.
      + constructor.
      + constructor.
      + intros t [[<-|[]]|[]]. constructor.
      + intros t [<-|[]]. left. reflexivity.
      + left. left. reflexivity.
      + intros f t [].
      + intros f. split; [intros []|intros (t & [] & _)].
    - assert (LE : (missing (q, n) [] <= 1 + length p)%nat) by (unfold missing; rewrite <- (map_length fst p); apply (filter_len _ ((q, n) :: map fst p))).
      cbn [length]. nia.
  Qed.
End Search.

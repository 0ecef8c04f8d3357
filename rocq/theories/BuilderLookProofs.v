(** Proofs about the lookaheads that the builder finds. *)
From Verif Require Import Base OrdMap GrammarModel GrammarProofs FirstModel FirstProofs FollowProofs LrItemModel LrItemProofs ClosureModel ClosureSpec ClosureProofs MachineModel MachineProofs BuilderModel BuilderSpec BuilderProofs.
Local Open Scope Z_scope.

Lemma lid_strict : strict_total lid_ltb.
Proof.
  split.
  - intros [a b]. unfold lid_ltb. cbn. rewrite !Z.ltb_irrefl, Z.eqb_refl. reflexivity.
  - intros [a b] [c d] [e f]. unfold lid_ltb. cbn. destruct (Z.ltb_spec a c), (Z.eqb_spec a c), (Z.ltb_spec c e), (Z.eqb_spec c e), (Z.ltb_spec a e), (Z.eqb_spec a e); cbn; try lia; try discriminate; try reflexivity; intros H5 H6; apply Z.ltb_lt in H5, H6; apply Z.ltb_lt; lia.
  - intros [a b] [c d]. unfold lid_ltb. cbn. destruct (Z.lt_trichotomy a c) as [H|[H|H]].
    + right. left. rewrite (proj2 (Z.ltb_lt _ _) H). reflexivity.
    + subst c. rewrite Z.ltb_irrefl, Z.eqb_refl. cbn. destruct (Z.lt_trichotomy b d) as [H|[H|H]]; [right; left; apply Z.ltb_lt, H|left; congruence|right; right; apply Z.ltb_lt, H].
    + right. right. rewrite (proj2 (Z.ltb_lt _ _) H). reflexivity.
Qed.
Lemma lid_dec (a b : lid) : {a = b} + {a <> b}.
Proof. decide equality; apply Z.eq_dec. Qed.

Section Look.
  Context (rid : rule -> Z) (RI : injective rid).
  Context (first_of : item -> iset) (FO : forall i, set_ok (first_of i)).
  Context (rules : Z -> list (list item)) (u : item -> Prop) (UO : ordinary rules first_of u).
  Context (busy : nat -> list item -> item -> bool).
  Notation cache_ok := (cache_ok rid first_of rules u).

  (** The item at a place, and its lookaheads *)
  Definition item_at (m : machine) (t : lid) (k : lr0) : Prop := 0 <= snd t /\ exists l, kern m (fst t) l /\ nth_error l (Z.to_nat (snd t)) = Some k.
  Definition looks_at (m : machine) (t : lid) : iset := lookahead_of (Z.to_nat (fst t)) (Z.to_nat (snd t)) m.
  Definition marked (k : lr0) : lr0 -> item -> Prop := closure_look rules first_of (fun k0 => k0 = k) (fun k0 y => k0 = k /\ In y [IEmpty]).
  (** The lookahead [x] goes from the item at [f] to the one at [t]; with [IEmpty] for [x], all the
      lookaheads of the item go there. *)
  Definition edge (m : machine) (f t : lid) (x : item) : Prop := exists k k2 y rest, item_at m f k /\ marked k k2 x /\ after_dot k2 = y :: rest /\ trans m (fst f) y = Some (fst t) /\ item_at m t (advance k2).

  Lemma marked_item k k2 x : marked k k2 x -> closure_item rules (fun k0 => k0 = k) k2.
  Proof. induction 1 as [k' x [-> _]|k' y rest r x C A E B|k' y rest r x C IH A E S]; [apply in_kernel; reflexivity|eapply in_step; eassumption|eapply in_step; eassumption]. Qed.
  Lemma closure_at_end k k2 : after_dot k = [] -> closure_item rules (fun k0 => k0 = k) k2 -> k2 = k.
  Proof. intros D. induction 1 as [k' ->|k' y rest r C -> A E]; [reflexivity|congruence]. Qed.

  Section Fixed.
    (** The machine before the lookaheads are found *)
    Context (m0 : machine).
    Record pass_inv (E : lid -> lid -> item -> Prop) (m : machine) (p : propagation) : Prop := {
      pi_ok : machine_ok rid m;
      pi_kern : forall q l, kern m q l <-> kern m0 q l;
      pi_trans : forall q, transitions_for_state q m = transitions_for_state q m0;
      pi_sorted : msorted lid_ltb p;
      pi_links : forall f l, mfind lid_ltb f p = Some l -> ssorted lid_ltb l /\ l <> [];
      pi_link : forall f t, (exists l, mfind lid_ltb f p = Some l /\ In t l) <-> E f t IEmpty;
      pi_look : forall t x, 0 <= fst t -> 0 <= snd t -> In x (looks_at m t) <-> In x (looks_at m0 t) \/ (x <> IEmpty /\ exists f, E f t x) }.
    Lemma pass_ext E E' m p : (forall f t x, E f t x <-> E' f t x) -> pass_inv E m p -> pass_inv E' m p.
    Proof.
      intros H [A1 A2 A3 A4 A5 A6 A7]. split; try assumption.
      - intros f t. rewrite A6. apply H.
      - intros t x P Q. rewrite A7 by assumption. split; (intros [X|(NE & f & X)]; [auto|right; split; [exact NE|exists f; apply H, X]]).
    Qed.
    Lemma item_at_same E m p t k : pass_inv E m p -> item_at m t k <-> item_at m0 t k.
    Proof. intros I. unfold item_at. split; intros (P & l & K & N); (split; [exact P|]; exists l; split; [apply (pi_kern _ _ _ I), K|exact N]). Qed.
    Lemma item_at_find m t q s k : machine_ok rid m -> state_with_id q m = Some s -> item_at m t k /\ fst t = q <-> t = (q, find_identifier rid k s) /\ 0 <= find_identifier rid k s.
    Proof.
      intros OK S. pose proof (with_id_kern m q s S) as K. destruct (kern_with_id m q _ K) as (s' & S' & _ & IN). assert (s' = s) by congruence. subst s'. assert (SO : state_ok rid s) by (pose proof (mo_states _ _ OK) as F; rewrite Forall_forall in F; apply F, IN).
      destruct (find_identifier_spec rid RI k s SO) as [F1 F2]. split.
      - intros [(P & l & KL & N) <-]. rewrite (kern_fun _ _ _ _ KL K) in N. rewrite <- F1 in N. rewrite N. split; [destruct t; cbn [fst snd] in *; f_equal; lia|lia].
      - intros [-> P]. cbn [fst]. split; [|reflexivity]. split; [exact P|]. exists (st_list s). split; [exact K|]. cbn [snd]. apply F1. lia.
    Qed.
    Lemma add_link_spec f t p f' : msorted lid_ltb p -> mfind lid_ltb f' (add_link f t p) = if lid_dec f' f then Some (sins lid_ltb t (match mfind lid_ltb f p with Some l => l | None => [] end)) else mfind lid_ltb f' p.
    Proof. intros S. unfold add_link. destruct (lid_dec f' f) as [->|N]; [apply (mfind_mset_same _ lid_strict), S|apply (mfind_mset_other _ lid_strict); [exact S|congruence]]. Qed.
    Definition item_edges (from : lid) (ts : list (item * Z)) (items : lr1_set) (f t : lid) (x : item) : Prop :=
      f = from /\ exists k la y rest, In (k, la) items /\ In x la /\ after_dot k = y :: rest /\ mfind item_ltb y ts = Some (fst t) /\ item_at m0 t (advance k).
    Lemma pass_items_inv from items : (forall k la, In (k, la) items -> set_ok la) -> forall E m p m' p', pass_inv E m p -> pass_items rid from (transitions_for_state (fst from) m0) items m p = Some (m', p') ->
      pass_inv (fun f t x => E f t x \/ item_edges from (transitions_for_state (fst from) m0) items f t x) m' p'.
    Proof.
      set (ts := transitions_for_state (fst from) m0). induction items as [|[k la] items IH]; intros SI E m p m' p' I H; cbn [pass_items] in H.
      - injection H as <- <-. eapply pass_ext; [|exact I]. intros f t x. split; [auto|]. intros [X|(_ & k & la & y & rest & [] & _)]. exact X.
      - assert (SI' : forall k0 la0, In (k0, la0) items -> set_ok la0) by (intros k0 la0 X; eapply SI; right; exact X).
        assert (SK : (forall t, (exists y rest, after_dot k = y :: rest /\ mfind item_ltb y ts = Some (fst t)) -> ~ item_at m0 t (advance k)) -> pass_items rid from ts items m p = Some (m', p') -> pass_inv (fun f t x => E f t x \/ item_edges from ts ((k, la) :: items) f t x) m' p').
        { intros N H'. eapply pass_ext; [|eapply IH; eassumption]. intros f t x. cbn beta. unfold item_edges. split.
          - intros [X|(EF & k1 & la1 & y & rest & X & R)]; [auto|]. right. split; [exact EF|]. exists k1, la1, y, rest. split; [right; exact X|exact R].
          - intros [X|(EF & k1 & la1 & y & rest & [X|X] & R)]; [auto| |right; split; [exact EF|]; exists k1, la1, y, rest; split; [exact X|exact R]]. injection X as <- <-. destruct R as (_ & A & F & IA). exfalso. apply (N t); [eauto|exact IA]. }
        destruct (after_dot k) as [|y rest] eqn:A; [apply SK; [intros t (y & rest & X & _); discriminate X|exact H]|]. destruct (mfind item_ltb y ts) as [t0|] eqn:F; [|apply SK; [intros t (y' & rest' & X & F'); injection X as <- <-; congruence|exact H]].
        destruct (state_with_id t0 m) as [s|] eqn:S; [|discriminate H]. pose proof (fun t => item_at_find m t t0 s (advance k) (pi_ok _ _ _ I) S) as AF. set (n := find_identifier rid (advance k) s) in *. destruct (Z.ltb_spec n 0) as [NN|NN].
        + apply SK; [|exact H]. intros t (y' & rest' & X & F') IA. injection X as <- <-. assert (ET : fst t = t0) by congruence. apply (item_at_same _ _ _ _ _ I) in IA. destruct (proj1 (AF t) (conj IA ET)) as [_ P]. lia.
        + destruct (add_lookahead t0 n la m) as [[m1 ch]|] eqn:AL; [|discriminate H]. assert (SL : set_ok la) by (eapply SI; left; reflexivity). clear SK.
          assert (IT : item_at m (t0, n) (advance k)) by (apply AF; split; [reflexivity|exact NN]). assert (P0 : 0 <= t0) by (destruct IT as (_ & l & (P & _) & _); exact P).
          apply (add_lookahead_spec rid) in AL; [|apply I|exact NN]. destruct AL as (OK1 & EI & ET & EL & LK & _).
          assert (I1 : pass_inv (fun f t x => E f t x \/ (f = from /\ t = (t0, n) /\ In x la)) m1 (if icontains la IEmpty then add_link from (t0, n) p else p)).
          { assert (PS : msorted lid_ltb (add_link from (t0, n) p)) by (apply (mset_sorted _ lid_strict), I). split.
            - exact OK1.
            - intros q l. rewrite <- (pi_kern _ _ _ I). unfold kern. split; intros (P & s0 & X & <-); (split; [exact P|]); apply (map_nth_error st_list) in X.
              + rewrite EL in X. destruct (nth_error (m_states m) (Z.to_nat q)) as [s1|] eqn:E1; [exists s1; split; [reflexivity|]; rewrite (map_nth_error st_list _ _ E1) in X; injection X as ->; reflexivity|]. apply nth_error_None in E1. assert (Z.to_nat q < length (map st_list (m_states m)))%nat by (apply nth_error_Some; congruence). rewrite map_length in *. lia.
              + rewrite <- EL in X. destruct (nth_error (m_states m1) (Z.to_nat q)) as [s1|] eqn:E1; [exists s1; split; [reflexivity|]; rewrite (map_nth_error st_list _ _ E1) in X; injection X as ->; reflexivity|]. apply nth_error_None in E1. assert (Z.to_nat q < length (map st_list (m_states m1)))%nat by (apply nth_error_Some; congruence). rewrite map_length in *. lia.
            - intros q. rewrite <- (pi_trans _ _ _ I). unfold transitions_for_state. rewrite ET. reflexivity.
            - destruct (icontains la IEmpty); [exact PS|apply I].
            - intros f l X. destruct (icontains la IEmpty); [|eapply (pi_links _ _ _ I), X]. rewrite add_link_spec in X by apply I. destruct (lid_dec f from) as [->|NE]; [|eapply (pi_links _ _ _ I), X]. injection X as <-. assert (SO : ssorted lid_ltb match mfind lid_ltb from p with Some l => l | None => [] end) by (destruct (mfind lid_ltb from p) as [l|] eqn:FL; [apply (pi_links _ _ _ I _ _ FL)|constructor]).
              split; [apply (sins_sorted _ lid_strict), SO|]. intros Z. assert (W : In (t0, n) (sins lid_ltb (t0, n) match mfind lid_ltb from p with Some l => l | None => [] end)) by (apply (sins_in _ lid_strict); auto). rewrite Z in W. destruct W.
            - intros f t. rewrite <- (pi_link _ _ _ I f t). destruct (icontains la IEmpty) eqn:IC.
              + apply icontains_in in IC; [|exact SL]. split.
                * intros (l & X & Y). rewrite add_link_spec in X by apply I. destruct (lid_dec f from) as [->|NE]; [|eauto]. injection X as <-. apply (sins_in _ lid_strict) in Y. destruct Y as [->|Y]; [auto|]. left. destruct (mfind lid_ltb from p) as [l|]; [eauto|destruct Y].
                * intros [(l & X & Y)|(-> & -> & _)].
                  -- destruct (lid_dec f from) as [->|NE]; [exists (sins lid_ltb (t0, n) l); rewrite add_link_spec, X by apply I; destruct (lid_dec from from); [|contradiction]; split; [reflexivity|]; apply (sins_in _ lid_strict); auto|]. exists l. rewrite add_link_spec by apply I. destruct (lid_dec f from); [contradiction|auto].
                  -- eexists. rewrite add_link_spec by apply I. destruct (lid_dec from from); [|contradiction]. split; [reflexivity|]. apply (sins_in _ lid_strict). auto.
              + apply icontains_not in IC; [|exact SL]. split; [auto|]. intros [X|(_ & _ & X)]; [exact X|contradiction].
            - intros t x P Q. unfold looks_at. rewrite LK. rewrite !Z2Nat.id by assumption. fold (looks_at m t). rewrite (pi_look _ _ _ I t x P Q). split.
              + intros [[X|(NE & f & X)]|(E1 & E2 & X & NE)]; [auto|right; split; [exact NE|exists f; auto]|]. right. split; [exact NE|]. exists from. right. split; [reflexivity|]. split; [|exact X]. destruct t; cbn in *. congruence.
              + intros [X|(NE & f & [X|(-> & -> & X)])]; [auto|left; right; split; [exact NE|exists f; exact X]|]. right. cbn. auto. }
          apply (IH SI' _ _ _ _ _ I1) in H. eapply pass_ext; [|exact H]. intros f t x. cbn beta. split.
          * intros [[X|(-> & -> & X)]|(EF & k1 & la1 & y1 & rest1 & X & R)]; [auto| |right; split; [exact EF|]; exists k1, la1, y1, rest1; split; [right; exact X|exact R]].
            right. split; [reflexivity|]. exists k, la, y, rest. split; [left; reflexivity|]. split; [exact X|]. split; [exact A|]. split; [exact F|]. apply (item_at_same _ _ _ _ _ I), IT.
          * intros [X|(EF & k1 & la1 & y1 & rest1 & [X|X] & R)]; [auto| |right; split; [exact EF|]; exists k1, la1, y1, rest1; split; [exact X|exact R]]. injection X as <- <-. destruct R as (Hx & A1 & F1 & IA). left. right. split; [exact EF|]. split; [|exact Hx].
            rewrite A in A1. injection A1 as <- <-. assert (E0 : fst t = t0) by congruence. apply (item_at_same _ _ _ _ _ I) in IA. apply (proj1 (AF t) (conj IA E0)).
    Qed.
    Lemma pass_state_inv fuel q ks : forall n E m p c m' p' c', (forall j k, nth_error ks j = Some k -> item_at m0 (q, n + Z.of_nat j) k /\ forall i, In i (after_dot k) -> u i) -> cache_ok (fst c) -> pass_inv E m p ->
      pass_state rid first_of rules busy fuel q ks n (transitions_for_state q m0) m p c = Some (m', p', c') ->
      cache_ok (fst c') /\ pass_inv (fun f t x => E f t x \/ (exists j k, nth_error ks j = Some k /\ f = (q, n + Z.of_nat j) /\ edge m0 f t x)) m' p'.
    Proof.
      induction ks as [|k ks IH]; intros n E m p c m' p' c' KS CO I H; cbn [pass_state] in H.
      - injection H as <- <- <-. split; [exact CO|]. eapply pass_ext; [|exact I]. intros f t x. split; [auto|]. intros [X|(j & k & X & _)]; [exact X|]. destruct j; discriminate X.
      - assert (KS' : forall j k0, nth_error ks j = Some k0 -> item_at m0 (q, n + 1 + Z.of_nat j) k0 /\ forall i, In i (after_dot k0) -> u i) by (intros j k0 X; replace (n + 1 + Z.of_nat j) with (n + Z.of_nat (S j)) by lia; apply KS, X).
        destruct (KS 0%nat k eq_refl) as [IK UK]. replace (n + Z.of_nat 0) with n in IK by lia.
        assert (EK : forall t x, edge m0 (q, n) t x <-> exists k2 y rest, marked k k2 x /\ after_dot k2 = y :: rest /\ trans m0 q y = Some (fst t) /\ item_at m0 t (advance k2)).
        { intros t x. split; [|intros (k2 & y & rest & R); exists k, k2, y, rest; split; [exact IK|exact R]]. intros (k' & k2 & y & rest & IA & R). exists k2, y, rest. replace k with k'; [exact R|]. destruct IA as (_ & l & K1 & N1), IK as (_ & l' & K2 & N2). rewrite (kern_fun _ _ _ _ K1 K2) in N1. cbn [snd] in *. congruence. }
        assert (GO : forall E1 m1 p1 c1, cache_ok (fst c1) -> pass_inv E1 m1 p1 -> (forall f t x, E1 f t x <-> E f t x \/ (f = (q, n) /\ edge m0 f t x)) -> pass_state rid first_of rules busy fuel q ks (n + 1) (transitions_for_state q m0) m1 p1 c1 = Some (m', p', c') ->
          cache_ok (fst c') /\ pass_inv (fun f t x => E f t x \/ (exists j k0, nth_error (k :: ks) j = Some k0 /\ f = (q, n + Z.of_nat j) /\ edge m0 f t x)) m' p').
        { intros E1 m1 p1 c1 CO1 I1 EQ H1. apply (IH _ E1) in H1; try assumption. destruct H1 as [CO' I']. split; [exact CO'|]. eapply pass_ext; [|exact I']. intros f t x. cbn beta. rewrite EQ. split.
          - intros [[X|(-> & X)]|(j & k0 & X & -> & Y)]; [auto|right; exists 0%nat, k; split; [reflexivity|]; replace (n + Z.of_nat 0) with n by lia; auto|]. right. exists (S j), k0. split; [exact X|]. replace (n + 1 + Z.of_nat j) with (n + Z.of_nat (S j)) in * by lia. auto.
          - intros [X|([|j] & k0 & X & -> & Y)]; [auto|left; right; replace (n + Z.of_nat 0) with n in * by lia; auto|]. right. exists j, k0. split; [exact X|]. replace (n + 1 + Z.of_nat j) with (n + Z.of_nat (S j)) by lia. auto. }
        destruct (at_end k) eqn:AE.
        + eapply GO; [exact CO|exact I| |exact H]. intros f t x. split; [auto|]. intros [X|(-> & X)]; [exact X|]. exfalso. apply EK in X. destruct X as (k2 & y & rest & M & A & _). assert (D : after_dot k = []) by (unfold at_end in AE; apply Nat.leb_le in AE; apply skipn_all2, AE).
          apply marked_item, closure_at_end in M; [|exact D]. congruence.
        + destruct (item_closure rid first_of rules busy fuel k [IEmpty] c) as [[items c1]|] eqn:IC; [|discriminate H]. apply (item_closure_exact rid RI first_of FO rules u UO busy) in IC; [|apply single_ok|exact UK|exact CO]. destruct IC as (CO1 & OKI & MI & LI).
          destruct (pass_items rid (q, n) (transitions_for_state q m0) items m p) as [[m1 p1]|] eqn:PI; [|discriminate H]. apply (pass_items_inv (q, n) items) with (E := E) in PI; [|intros k0 la X; eapply (lo_sets _ _ OKI), X|exact I].
          eapply GO; [exact CO1|exact PI| |exact H]. intros f t x. cbn beta. unfold item_edges. cbn [fst]. split; (intros [X|(-> & X)]; [auto|right; split; [reflexivity|]]).
          * apply EK. destruct X as (k2 & la & y & rest & X & Hx & A & F & IA). exists k2, y, rest. split; [|split; [exact A|split; [exact F|exact IA]]]. apply LI. apply (look_entry rid RI); eauto.
          * apply EK in X. destruct X as (k2 & y & rest & M & A & F & IA). apply LI in M. apply (look_entry rid RI) in M; [|exact OKI]. destruct M as (la & X & Hx). exists k2, la, y, rest. auto 6.
    Qed.
    Context (OK0 : machine_ok rid m0) (IU : forall q l k j, kern m0 q l -> In k l -> In j (after_dot k) -> u j).
    Lemma pass_states_inv fuel qs : forall E m p c m' p' c', cache_ok (fst c) -> pass_inv E m p -> pass_states rid first_of rules busy fuel qs m p c = Some (m', p', c') ->
      cache_ok (fst c') /\ pass_inv (fun f t x => E f t x \/ (In (fst f) qs /\ edge m0 f t x)) m' p'.
    Proof.
      induction qs as [|q qs IH]; intros E m p c m' p' c' CO I H; cbn [pass_states] in H.
      - injection H as <- <- <-. split; [exact CO|]. eapply pass_ext; [|exact I]. intros f t x. split; [auto|]. intros [X|([] & _)]; exact X.
      - destruct (state_with_id q m) as [s|] eqn:S; [|discriminate H]. pose proof (with_id_kern m q s S) as K. apply (pi_kern _ _ _ I) in K. rewrite (pi_trans _ _ _ I) in H.
        destruct (pass_state rid first_of rules busy fuel q (st_list s) 0 (transitions_for_state q m0) m p c) as [[[m1 p1] c1]|] eqn:PS; [|discriminate H].
        assert (KS : forall j k, nth_error (st_list s) j = Some k -> item_at m0 (q, 0 + Z.of_nat j) k /\ forall i, In i (after_dot k) -> u i).
        { intros j k X. split; [|intros i Hi; eapply (IU q (st_list s)); [exact K|eapply nth_error_In, X|exact Hi]]. split; [cbn; lia|]. exists (st_list s). split; [exact K|]. cbn [snd]. rewrite Z.add_0_l, Nat2Z.id. exact X. }
        apply (pass_state_inv fuel q (st_list s) 0 E) in PS; try assumption. destruct PS as [CO1 I1]. apply (IH _ _ _ _ _ _ _ CO1 I1) in H. destruct H as [CO' I']. split; [exact CO'|]. eapply pass_ext; [|exact I']. intros f t x. cbn beta. split.
        + intros [[X|(j & k & X & -> & Y)]|(X & Y)]; [auto|right; split; [left; reflexivity|exact Y]|right; split; [right; exact X|exact Y]].
        + intros [X|([EQ|X] & Y)]; [auto| |auto]. left. right. destruct Y as (k & k2 & y & rest & (P & l & KL & N) & R). cbn in EQ. rewrite <- EQ in KL. rewrite (kern_fun _ _ _ _ KL K) in N. exists (Z.to_nat (snd f)), k. split; [exact N|]. split; [destruct f; cbn in *; f_equal; [congruence|lia]|].
          exists k, k2, y, rest. split; [|exact R]. split; [exact P|]. exists (st_list s). rewrite <- EQ. auto.
    Qed.
    Lemma pass_start : pass_inv (fun _ _ _ => False) m0 [].
    Proof.
      split; [exact OK0|reflexivity|reflexivity|constructor|discriminate| |].
      - intros f t. split; [intros (l & X & _); discriminate X|intros []].
      - intros t x _ _. split; [auto|]. intros [X|(_ & f & [])]. exact X.
    Qed.
    Lemma pass_all fuel c m' p' c' : cache_ok (fst c) -> pass_states rid first_of rules busy fuel (state_ids m0) m0 [] c = Some (m', p', c') -> cache_ok (fst c') /\ pass_inv (edge m0) m' p'.
    Proof.
      intros CO H. apply (pass_states_inv fuel _ (fun _ _ _ => False)) in H; [|exact CO|apply pass_start]. destruct H as [CO' I]. split; [exact CO'|]. eapply pass_ext; [|exact I]. intros f t x. cbn beta. split; [intros [[]|(_ & X)]; exact X|]. intros X. right. split; [|exact X].
      destruct X as (k & k2 & y & rest & (_ & l & K & _) & _). apply state_ids_in. eauto.
    Qed.

    (** Passing the lookaheads on *)
    Inductive flows (m1 : machine) : lid -> item -> Prop :=
    | flows_here t x : In x (looks_at m1 t) -> flows m1 t x
    | flows_on f t x : flows m1 f x -> edge m0 f t IEmpty -> x <> IEmpty -> flows m1 t x.
    Record flow_inv (m1 : machine) (p : propagation) (todo : list lid) (m : machine) : Prop := {
      fi_ok : machine_ok rid m;
      fi_kern : forall q l, kern m q l <-> kern m0 q l;
      fi_trans : forall q, transitions_for_state q m = transitions_for_state q m0;
      fi_sound : forall t x, 0 <= fst t -> 0 <= snd t -> In x (looks_at m t) -> flows m1 t x;
      fi_base : forall t x, 0 <= fst t -> 0 <= snd t -> In x (looks_at m1 t) -> In x (looks_at m t);
      fi_todo : forall f, In f todo -> 0 <= fst f /\ 0 <= snd f;
      fi_sorted : ssorted lid_ltb todo }.
    Definition settled (p : propagation) (todo : list lid) (m : machine) : Prop := forall f t x l, mfind lid_ltb f p = Some l -> In t l -> In x (looks_at m f) -> x <> IEmpty -> In x (looks_at m t) \/ In f todo.
    Lemma edge_range f t x : edge m0 f t x -> (0 <= fst f /\ 0 <= snd f) /\ (0 <= fst t /\ 0 <= snd t).
    Proof. intros (k & k2 & y & rest & (P & l & (P' & _) & _) & _ & _ & _ & (Q & l' & (Q' & _) & _)). auto. Qed.
    Lemma pass_on_inv m1 p f la targets : (forall f l, mfind lid_ltb f p = Some l -> forall t, In t l -> edge m0 f t IEmpty) -> 0 <= fst f -> 0 <= snd f -> (forall t, In t targets -> edge m0 f t IEmpty) -> forall m todo m' todo', flow_inv m1 p todo m -> (forall x, In x la <-> In x (looks_at m f)) -> pass_on la targets p m todo = Some (m', todo') ->
      flow_inv m1 p todo' m' /\ (forall t, In t todo -> In t todo') /\ (forall t x, 0 <= fst t -> 0 <= snd t -> In x (looks_at m t) -> In x (looks_at m' t)) /\ (forall x, In x la <-> In x (looks_at m' f)) /\ (forall t x, In t targets -> In x la -> x <> IEmpty -> In x (looks_at m' t)) /\
      (forall t, 0 <= fst t -> 0 <= snd t -> mfind lid_ltb t p <> None -> In t todo' \/ forall x, In x (looks_at m' t) <-> In x (looks_at m t)).
    Proof.
      intros LE P Q. induction targets as [|t targets IH]; intros TE m todo m' todo' I EL H; cbn [pass_on] in H.
      - injection H as <- <-. split; [exact I|]. split; [auto|]. split; [auto|]. split; [auto|]. split; [intros t x []|]. right. reflexivity.
      - destruct (add_lookahead (fst t) (snd t) la m) as [[m2 ch]|] eqn:AL; [|discriminate H]. pose proof (TE t (or_introl eq_refl)) as ET. destruct (edge_range _ _ _ ET) as [_ [PT QT]].
        apply (add_lookahead_spec rid) in AL; [|apply I|exact QT]. destruct AL as (OK2 & EI & ETR & ELS & LK & CH).
        assert (LK2 : forall s x, 0 <= fst s -> 0 <= snd s -> In x (looks_at m2 s) <-> In x (looks_at m s) \/ (s = t /\ In x la /\ x <> IEmpty)).
        { intros s x PS QS. unfold looks_at. rewrite LK, !Z2Nat.id by assumption. split; (intros [X|X]; [auto|right]); [destruct X as (E1 & E2 & X); split; [destruct s, t; cbn in *; congruence|exact X]|destruct X as (-> & X); auto]. }
        set (todo2 := if (ch && match mfind lid_ltb t p with Some _ => true | None => false end)%bool then sins lid_ltb t todo else todo) in *.
        assert (TD : forall s, In s todo2 <-> In s todo \/ (s = t /\ ch = true /\ mfind lid_ltb t p <> None)).
        { intros s. subst todo2. destruct ch; cbn [andb].
          - destruct (mfind lid_ltb t p) as [l|] eqn:F; [rewrite (sins_in _ lid_strict); split; [intros [->|X]; [right; split; [reflexivity|split; [reflexivity|discriminate]]|auto]|intros [X|(-> & _)]; auto]|]. split; [auto|intros [X|(_ & _ & X)]; [exact X|contradiction]].
          - split; [auto|intros [X|(_ & X & _)]; [exact X|discriminate X]]. }
        assert (KK : forall q l, kern m2 q l <-> kern m0 q l).
        { intros q l. rewrite <- (fi_kern _ _ _ _ I). unfold kern. split; intros (PP & s0 & X & <-); (split; [exact PP|]); apply (map_nth_error st_list) in X.
          + rewrite ELS in X. destruct (nth_error (m_states m) (Z.to_nat q)) as [s1|] eqn:E1; [exists s1; split; [reflexivity|]; rewrite (map_nth_error st_list _ _ E1) in X; injection X as ->; reflexivity|]. apply nth_error_None in E1. assert (Z.to_nat q < length (map st_list (m_states m)))%nat by (apply nth_error_Some; congruence). rewrite map_length in *. lia.
          + rewrite <- ELS in X. destruct (nth_error (m_states m2) (Z.to_nat q)) as [s1|] eqn:E1; [exists s1; split; [reflexivity|]; rewrite (map_nth_error st_list _ _ E1) in X; injection X as ->; reflexivity|]. apply nth_error_None in E1. assert (Z.to_nat q < length (map st_list (m_states m2)))%nat by (apply nth_error_Some; congruence). rewrite map_length in *. lia. }
        assert (OKM2 : forall x, In x la <-> In x (looks_at m2 f)) by (intros x; rewrite LK2, <- EL by assumption; tauto).
        assert (I2 : flow_inv m1 p todo2 m2).
        { split; [exact OK2|exact KK| | | | |].
          - intros q. rewrite <- (fi_trans _ _ _ _ I). unfold transitions_for_state. rewrite ETR. reflexivity.
          - intros s x PS QS X. apply LK2 in X; [|exact PS|exact QS]. destruct X as [X|(-> & X & NE)]; [apply (fi_sound _ _ _ _ I); assumption|]. eapply flows_on; [|exact ET|exact NE]. apply (fi_sound _ _ _ _ I); [exact P|exact Q|]. apply EL, X.
          - intros s x PS QS X. apply LK2; [exact PS|exact QS|]. left. apply (fi_base _ _ _ _ I); assumption.
          - intros s X. apply TD in X. destruct X as [X|(-> & _)]; [apply (fi_todo _ _ _ _ I), X|auto].
          - subst todo2. destruct (ch && _)%bool; [apply (sins_sorted _ lid_strict)|]; apply I. }
        apply IH in H; [|intros s X; apply TE; right; exact X|exact I2|exact OKM2]. destruct H as (R1 & R2 & R3 & R4 & R5 & R6). split; [exact R1|]. split; [intros s X; apply R2, TD; auto|]. split; [intros s x PS QS X; apply R3; try assumption; apply LK2; auto|]. split; [exact R4|]. split.
        + intros s x [<-|X] Y NE; [apply R3; try assumption; apply LK2; auto|apply R5; assumption].
        + intros s PS QS F. destruct (R6 s PS QS F) as [X|X]; [auto|]. destruct (lid_dec s t) as [->|NS].
          * destruct ch eqn:C; [left; apply R2, TD; auto|]. right. intros x. rewrite X, LK2 by assumption. split; [intros [Y|(_ & Y & NE)]; [exact Y|]|auto]. destruct (in_dec item_dec x (looks_at m t)) as [Z|Z]; [exact Z|]. exfalso. assert (false = true) by (apply CH; exists x; auto). discriminate.
          * right. intros x. rewrite X, LK2 by assumption. split; [intros [Y|(Y & _)]; [exact Y|contradiction]|auto].
    Qed.
    Lemma propagate_inv m1 p steps : (forall f l, mfind lid_ltb f p = Some l -> forall t, In t l -> edge m0 f t IEmpty) -> forall todo m m', flow_inv m1 p todo m -> settled p todo m -> propagate steps todo p m = Some m' -> flow_inv m1 p [] m' /\ settled p [] m'.
    Proof.
      intros LE. induction steps as [|steps IH]; intros todo m m' I S H; cbn [propagate] in H; [discriminate H|]. destruct todo as [|f todo]; [injection H as <-; auto|].
      destruct (fi_todo _ _ _ _ I f (or_introl eq_refl)) as [P Q]. destruct (state_with_id (fst f) m) as [s|] eqn:SW; [|discriminate H]. rewrite (proj2 (Z.ltb_ge _ _) Q) in H. destruct (nth_error (st_looks s) (Z.to_nat (snd f))) as [la|] eqn:NL; [|discriminate H].
      assert (EL : looks_at m f = la). { unfold looks_at, lookahead_of. pose proof (with_id_kern m _ _ SW) as K. unfold state_with_id in SW. destruct (_ || _)%bool in SW; [discriminate SW|]. rewrite SW. apply nth_error_nth, NL. }
      set (targets := match mfind lid_ltb f p with Some l => l | None => [] end) in *. destruct (pass_on la targets p m todo) as [[m2 todo2]|] eqn:PO; [|discriminate H].
      assert (I' : flow_inv m1 p todo m). { destruct I. split; try assumption; [intros f' X; apply fi_todo0; right; exact X|]. apply ssorted_cons in fi_sorted0. apply fi_sorted0. }
      assert (TE : forall t, In t targets -> edge m0 f t IEmpty) by (intros t X; subst targets; destruct (mfind lid_ltb f p) as [l|] eqn:F; [eapply LE; eassumption|destruct X]).
      apply (pass_on_inv m1 p f la targets LE P Q TE m todo) in PO; [|exact I'|intros x; rewrite EL; reflexivity]. destruct PO as (R1 & R2 & R3 & R4 & R5 & R6).
      eapply IH; [exact R1| |exact H]. intros g t x l F X Y NE. pose proof (LE g l F t X) as ED. destruct (edge_range _ _ _ ED) as [[PG QG] [PT QT]]. destruct (R6 g PG QG ltac:(congruence)) as [Z|Z]; [auto|]. apply Z in Y. destruct (lid_dec g f) as [->|NG].
      - left. apply R5; [subst targets; rewrite F; exact X| |exact NE]. rewrite <- EL. exact Y.
      - destruct (S g t x l F X Y NE) as [W|[W|W]]; [left; apply R3; assumption|congruence|right; apply R2, W].
    Qed.
    Lemma sorted_keys {K V} (ltb : K -> K -> bool) (m : list (K * V)) : msorted ltb m -> ssorted ltb (map fst m).
    Proof.
      induction m as [|[k v] m IH]; intros S; [constructor|]. apply msorted_cons in S. destruct S as [S F]. cbn. constructor; [apply IH, S|]. apply Forall_forall. intros k' H. apply in_map_iff in H. destruct H as (e & <- & H). apply F, H.
    Qed.
    Lemma lookaheads_flow fuel steps c m' p c' : cache_ok (fst c) -> complete_lookaheads rid first_of rules busy fuel steps m0 c = Some (m', p, c') ->
      exists m1, pass_inv (edge m0) m1 p /\ cache_ok (fst c') /\ machine_ok rid m' /\ (forall q l, kern m' q l <-> kern m0 q l) /\ (forall q, transitions_for_state q m' = transitions_for_state q m0) /\
      forall t x, 0 <= fst t -> 0 <= snd t -> In x (looks_at m' t) <-> flows m1 t x.
    Proof.
      intros CO H. unfold complete_lookaheads in H. destruct (pass_states rid first_of rules busy fuel (state_ids m0) m0 [] c) as [[[m1 p1] c1]|] eqn:PS; [|discriminate H]. destruct (propagate steps (map fst p1) p1 m1) as [m2|] eqn:PR; [|discriminate H]. injection H as <- <- <-.
      apply pass_all in PS; [|exact CO]. destruct PS as [CO1 I]. exists m1. split; [exact I|]. split; [exact CO1|].
      assert (LE : forall f l, mfind lid_ltb f p1 = Some l -> forall t, In t l -> edge m0 f t IEmpty) by (intros f l F t X; apply (pi_link _ _ _ I); eauto).
      apply (propagate_inv m1) in PR; [|exact LE| |].
      - destruct PR as [F S]. split; [apply F|]. split; [apply F|]. split; [apply F|]. intros t x P Q. split; [apply (fi_sound _ _ _ _ F); assumption|]. intros FL. revert P Q. induction FL as [t x X|f t x FL IH ED NE]; intros P Q; [apply (fi_base _ _ _ _ F); assumption|].
        destruct (edge_range _ _ _ ED) as [[PF QF] _]. specialize (IH PF QF). destruct (proj2 (pi_link _ _ _ I f t) ED) as (l & FM & XL). destruct (S f t x l FM XL IH NE) as [W|[]]. exact W.
      - split; try apply I; [intros t x _ _ X; apply flows_here, X|auto| |apply sorted_keys, I]. intros f X. apply in_map_iff in X. destruct X as ([f' l] & <- & X). cbn [fst]. apply (mfind_in _ lid_strict) in X; [|apply I]. destruct (pi_links _ _ _ I _ _ X) as [_ NL]. destruct l as [|t l]; [contradiction|]. apply (edge_range f' t IEmpty), (LE f' (t :: l) X). left. reflexivity.
      - intros f t x l F X Y NE. right. apply in_map_iff. exists (f, l). split; [reflexivity|]. apply (mfind_in _ lid_strict) in F; [exact F|apply I].
    Qed.
  End Fixed.

  Section Lalr.
    Context (languages : list item) (m0 : machine) (AU : automaton rid rules u languages m0).
    Definition kernel_in (m : machine) (q : Z) (k : lr0) : Prop := exists l, kern m q l /\ In k l.
    Definition steps_to (m : machine) (q : Z) (x : item) (q' : Z) : Prop := trans m q x = Some q'.
    Notation lalr := (lalr_look rules first_of languages Z (kernel_in m0) (steps_to m0)).
    Lemma at_kernel t k : item_at m0 t k -> kernel_in m0 (fst t) k.
    Proof. intros (P & l & K & N). exists l. split; [exact K|eapply nth_error_In, N]. Qed.
    Lemma at_range t k : item_at m0 t k -> 0 <= fst t /\ 0 <= snd t.
    Proof. intros (P & l & (P' & _) & _). auto. Qed.
    Lemma kernel_at q k : kernel_in m0 q k -> exists n, item_at m0 (q, n) k.
    Proof. intros (l & K & X). apply In_nth_error in X. destruct X as [n X]. exists (Z.of_nat n). split; [cbn; lia|]. exists l. cbn [fst snd]. rewrite Nat2Z.id. auto. Qed.
    Lemma single_closure q k k2 : kernel_in m0 q k -> closure_item rules (fun k0 => k0 = k) k2 -> closure_item rules (kernel_in m0 q) k2.
    Proof. intros K. apply closure_item_mono. intros k0 ->. exact K. Qed.
    Lemma closure_single (K : lr0 -> Prop) k2 : closure_item rules K k2 -> exists k, K k /\ closure_item rules (fun k0 => k0 = k) k2.
    Proof. induction 1 as [k X|k y rest r C (k0 & X & IH) A E]; [exists k; split; [exact X|apply in_kernel; reflexivity]|]. exists k0. split; [exact X|]. eapply in_step; eassumption. Qed.
    Lemma kernel_within q l : kern m0 q l -> forall k, kernel_in m0 q k <-> In k l.
    Proof. intros K k. split; [intros (l' & K' & X); rewrite (kern_fun _ _ _ _ K K'); exact X|intros X; exists l; auto]. Qed.
    (** The items of a kernel do not come from a closure. *)
    Lemma kernel_not_start q y r : kernel_in m0 q (mkLr0 (mkRule y r) 0) -> expands rules y r -> False.
    Proof.
      intros (l & K & X) E. destruct (kern_with_id m0 q l K) as (s & _ & <- & S). destruct (gs_origin _ _ _ _ (au_states _ _ _ _ _ AU s S)) as [(l0 & _ & EL & _)|[(p & g & EL & _)|[_ O]]].
      - rewrite EL in X. destruct X as [X|[]]. injection X as <- <-. inversion E.
      - rewrite EL in X. destruct X as [X|[]]. injection X as <- <-. inversion E.
      - specialize (O _ X). cbn in O. lia.
    Qed.
    Lemma start_looks t x : 0 <= fst t -> 0 <= snd t -> In x (looks_at m0 t) -> (exists l, In l languages /\ item_at m0 t (language_start l) /\ x = IEoi) \/ (exists p l, item_at m0 t (guard_start p l) /\ x = IEog).
    Proof.
      intros P Q X. unfold looks_at, lookahead_of in X. destruct (nth_error (m_states m0) (Z.to_nat (fst t))) as [s|] eqn:S; [|destruct X]. assert (K : kern m0 (fst t) (st_list s)) by (split; [exact P|eauto]).
      destruct (gs_origin _ _ _ _ (au_states _ _ _ _ _ AU s (nth_error_In _ _ S))) as [(l0 & L0 & EL & ELK)|[(p & g & EL & ELK)|[ELK O]]]; rewrite ELK in X.
      - destruct (Z.to_nat (snd t)) as [|[|n]] eqn:N; cbn in X; [|destruct X|destruct X]. destruct X as [<-|[]]. left. exists l0. split; [exact L0|]. split; [|reflexivity]. split; [exact Q|]. exists (st_list s). split; [exact K|]. rewrite N, EL. reflexivity.
      - destruct (Z.to_nat (snd t)) as [|[|n]] eqn:N; cbn in X; [|destruct X|destruct X]. destruct X as [<-|[]]. right. exists p, g. split; [|reflexivity]. split; [exact Q|]. exists (st_list s). split; [exact K|]. rewrite N, EL. reflexivity.
      - exfalso. assert (F : forall n j, nth n (repeat (@nil item) j) [] = []) by (clear; intros n j; revert n; induction j as [|j IH]; intros [|n]; cbn; auto). rewrite F in X. destruct X.
    Qed.
    Lemma start_language t l : item_at m0 t (language_start l) -> In IEoi (looks_at m0 t).
    Proof.
      intros (P & l' & (Q & s & S & <-) & N). unfold looks_at, lookahead_of. rewrite S. pose proof (nth_error_In _ _ N) as X.
      destruct (gs_origin _ _ _ _ (au_states _ _ _ _ _ AU s (nth_error_In _ _ S))) as [(l0 & L0 & EL & ELK)|[(p & g & EL & ELK)|[ELK O]]].
      - rewrite ELK. rewrite EL in N. destruct (Z.to_nat (snd t)) as [|[|n]]; cbn in N; try discriminate N. left. reflexivity.
      - rewrite EL in X. destruct X as [X|[]]. discriminate X.
      - specialize (O _ X). cbn in O. lia.
    Qed.
    Lemma start_guard t p l : item_at m0 t (guard_start p l) -> In IEog (looks_at m0 t).
    Proof.
      intros (P & l' & (Q & s & S & <-) & N). unfold looks_at, lookahead_of. rewrite S. pose proof (nth_error_In _ _ N) as X.
      destruct (gs_origin _ _ _ _ (au_states _ _ _ _ _ AU s (nth_error_In _ _ S))) as [(l0 & L0 & EL & ELK)|[(p0 & g & EL & ELK)|[ELK O]]].
      - rewrite EL in X. destruct X as [X|[]]. discriminate X.
      - rewrite ELK. rewrite EL in N. destruct (Z.to_nat (snd t)) as [|[|n]]; cbn in N; try discriminate N. left. reflexivity.
      - specialize (O _ X). cbn in O. lia.
    Qed.
    Lemma marked_spontaneous q k k2 x : kernel_in m0 q k -> marked k k2 x -> x <> IEmpty -> lalr q k2 x.
    Proof.
      intros K M. induction M as [k' x [-> X]|k' y rest r x C A E B|k' y rest r x M IH A E S]; intros NE.
      - destruct X as [<-|[]]. contradiction.
      - eapply lalr_begins; try eassumption. eapply single_closure; eassumption.
      - exact (lalr_passed _ _ _ _ _ _ _ _ _ _ _ _ (IH NE) A E S).
    Qed.
    Lemma marked_passed q k k2 x : lalr q k x -> marked k k2 IEmpty -> lalr q k2 x.
    Proof.
      intros L M. remember IEmpty as z eqn:EZ. revert EZ. induction M as [k' z [-> X]|k' y rest r z C A E B|k' y rest r z M IH A E S]; intros ->.
      - exact L.
      - destruct B as (p & y0 & q0 & _ & _ & _ & N). contradiction.
      - exact (lalr_passed _ _ _ _ _ _ _ _ _ _ _ _ (IH eq_refl) A E S).
    Qed.
    Lemma au_step q l x q' : kern m0 q l -> trans m0 q x = Some q' -> forall k, kernel_in m0 q' k <-> goto rules (fun k => In k l) x k.
    Proof.
      intros K T k. apply (au_trans _ _ _ _ _ AU) in T. destruct T as (l1 & l2 & K1 & K2 & _ & _ & G). rewrite <- (kern_fun _ _ _ _ K K1) in G. rewrite <- G. apply kernel_within, K2.
    Qed.
    Section Flow.
      Context (m1 : machine) (p : propagation) (PI : pass_inv m0 (edge m0) m1 p).
      Lemma flows_lalr t x : 0 <= fst t -> 0 <= snd t -> flows m0 m1 t x -> forall k, item_at m0 t k -> lalr (fst t) k x.
      Proof.
        intros P Q F. revert P Q. induction F as [t x X|f t x F IH ED NE]; intros P Q k IK.
        - apply (pi_look _ _ _ _ PI) in X; [|exact P|exact Q]. assert (KU : forall k', item_at m0 t k' -> k' = k) by (intros k' (_ & l' & K' & N'); destruct IK as (_ & l & K & N); rewrite (kern_fun _ _ _ _ K K') in N; congruence). destruct X as [X|(NE & f & k0 & k2 & y & rest & IF & M & A & T & IA)].
          + apply start_looks in X; [|exact P|exact Q]. destruct X as [(l & L & IA & ->)|(p0 & l & IA & ->)]; rewrite <- (KU _ IA); [eapply lalr_language; [exact L|apply at_kernel, IA]|eapply lalr_guard; apply at_kernel, IA].
          + rewrite <- (KU _ IA). eapply lalr_step; [|exact A|exact T]. eapply marked_spontaneous; [apply at_kernel, IF|exact M|exact NE].
        - destruct (edge_range _ _ _ _ ED) as [[PF QF] _]. destruct ED as (k0 & k2 & y & rest & IF & M & A & T & IA). specialize (IH PF QF k0 IF). replace k with (advance k2); [eapply lalr_step; [|exact A|exact T]; eapply marked_passed; eassumption|].
          destruct IA as (_ & l' & K' & N'), IK as (_ & l & K & N). rewrite (kern_fun _ _ _ _ K K') in N. congruence.
      Qed.
      Definition found (q : Z) (k : lr0) (x : item) : Prop := x <> IEmpty /\ exists n k0, item_at m0 (q, n) k0 /\ (marked k0 k x \/ (marked k0 k IEmpty /\ flows m0 m1 (q, n) x)).
      Lemma marked_self k : marked k k IEmpty.
      Proof. apply look_kernel. split; [reflexivity|left; reflexivity]. Qed.
      Lemma lalr_found q k x : lalr q k x -> found q k x.
      Proof.
        induction 1 as [q l L K|q p0 l K|q k y rest r x C A E B|q k y rest r x L IH A E S|q k y rest q' x L IH A T].
        - split; [discriminate|]. apply kernel_at in K. destruct K as [n IA]. exists n. eexists. split; [exact IA|]. right. split; [apply marked_self|]. apply flows_here. apply (pi_look _ _ _ _ PI); [apply (at_range _ _ IA)|apply (at_range _ _ IA)|]. left. eapply start_language, IA.
        - split; [discriminate|]. apply kernel_at in K. destruct K as [n IA]. exists n. eexists. split; [exact IA|]. right. split; [apply marked_self|]. apply flows_here. apply (pi_look _ _ _ _ PI); [apply (at_range _ _ IA)|apply (at_range _ _ IA)|]. left. eapply start_guard, IA.
        - split; [destruct B as (p1 & y0 & q0 & _ & _ & _ & N); exact N|]. apply closure_single in C. destruct C as (k0 & K & C). apply kernel_at in K. destruct K as [n IA]. exists n, k0. split; [exact IA|]. left. eapply look_begins; eassumption.
        - destruct IH as (NE & n & k0 & IA & [M|[M F]]); (split; [exact NE|]; exists n, k0; split; [exact IA|]); [left|right; split; [|exact F]]; eapply look_passed; eassumption.
        - destruct IH as (NE & n & k0 & IA & M). split; [exact NE|].
          assert (K' : kernel_in m0 q' (advance k)).
          { destruct IA as (_ & l & K & N). cbn [fst] in K. apply (au_step q l y q' K T). exists k, rest. split; [|auto]. apply (closure_item_mono rules (fun k1 => k1 = k0)); [intros k1 ->; eapply nth_error_In, N|]. destruct M as [M|[M _]]; eapply marked_item, M. }
          apply kernel_at in K'. destruct K' as [n' IA']. exists n', (advance k). split; [exact IA'|]. right. split; [apply marked_self|]. destruct M as [M|[M F]].
          + apply flows_here. apply (pi_look _ _ _ _ PI); [apply (at_range _ _ IA')|apply (at_range _ _ IA')|]. right. split; [exact NE|]. exists (q, n), k0, k, y, rest. auto.
          + eapply flows_on; [exact F| |exact NE]. exists k0, k, y, rest. auto.
      Qed.
      Lemma found_kernel t k x : item_at m0 t k -> found (fst t) k x -> flows m0 m1 t x.
      Proof.
        intros IK (NE & n & k0 & IA & M). assert (KK : forall z, marked k0 k z -> k = k0 /\ z = IEmpty).
        { intros z MZ. assert (KI : kernel_in m0 (fst t) k) by (apply at_kernel, IK). inversion MZ as [k' z' [E1 E2]|k' y rest r z' C A E B|k' y rest r z' L A E S]; subst; [destruct E2 as [<-|[]]; auto| |]; exfalso; eapply kernel_not_start; eassumption. }
        destruct M as [M|[M F]]; [apply KK in M; destruct M; contradiction|]. destruct (KK _ M) as [-> _]. replace t with (fst t, n); [exact F|]. destruct IA as (P & l & K & N), IK as (P' & l' & K' & N'). cbn [fst snd] in *. rewrite (kern_fun _ _ _ _ K' K) in N'.
        destruct t as [q n']. cbn [fst snd] in *. f_equal. assert (ND : NoDup l) by (destruct K as (_ & s & S & <-); apply (state_nodup rid RI); pose proof (mo_states _ _ (au_ok _ _ _ _ _ AU)) as F'; rewrite Forall_forall in F'; apply F'; eapply nth_error_In, S).
        assert (Z.to_nat n = Z.to_nat n'); [|lia]. apply (proj1 (NoDup_nth_error l) ND); [apply nth_error_Some; congruence|congruence].
      Qed.
      Lemma flows_exact t k x : item_at m0 t k -> flows m0 m1 t x <-> lalr (fst t) k x.
      Proof.
        intros IK. split.
        - intros F. eapply flows_lalr; [|apply IK|exact F|exact IK]. destruct IK as (_ & l & (P & _) & _). exact P.
        - intros L. eapply found_kernel; [exact IK|apply lalr_found, L].
      Qed.
    End Flow.
    Lemma lookaheads_exact fuel steps c m' p c' : cache_ok (fst c) -> complete_lookaheads rid first_of rules busy fuel steps m0 c = Some (m', p, c') ->
      cache_ok (fst c') /\ machine_ok rid m' /\ (forall q l, kern m' q l <-> kern m0 q l) /\ (forall q, transitions_for_state q m' = transitions_for_state q m0) /\
      forall t k x, item_at m0 t k -> In x (looks_at m' t) <-> lalr (fst t) k x.
    Proof.
      intros CO H. apply lookaheads_flow in H; [|apply AU| |exact CO].
      - destruct H as (m1 & PI & CO' & OK & KK & TT & L). split; [exact CO'|]. split; [exact OK|]. split; [exact KK|]. split; [exact TT|]. intros t k x IA. assert (P : 0 <= fst t /\ 0 <= snd t) by (destruct IA as (P & l & (P' & _) & _); auto). rewrite L by apply P. eapply flows_exact; eassumption.
      - intros q l k j K X Hj. destruct (kern_with_id m0 q l K) as (s & _ & <- & S). eapply (gs_items _ _ _ _ (au_states _ _ _ _ _ AU s S)); eassumption.
    Qed.
  End Lalr.
End Look.

(** The automaton builder adds fragments. *)
From Verif Require Import Base OrdMap SymbolSetModel SymbolSetSpec SymbolSetProofs SymbolMapModel SymbolMapSpec SymbolMapProofs
  NdfaModel NdfaSpec NdfaProofs TextSpec RegexModel RegexSpec RegexGraph.
Local Open Scope Z_scope.

Section Build.
  Context {A : Type}.
  Implicit Types d : ndfa A.

  Definition edges d : graph := fun q t r => exists id, In (id, r) (get_state d q) /\ sm_get (n_symbols d) id = t.

  Lemma path_gpath d q w r : path d q w r <-> gpath (edges d) q w r.
  Proof.
    split; intros H; induction H.
    - constructor.
    - eapply gp_eps; [exists id; split; eauto|assumption].
    - eapply gp_sym; [exists id; split; [eassumption|reflexivity]|assumption|assumption].
    - constructor.
    - destruct H as (id & E1 & E2). eapply path_eps; eauto.
    - destruct H as (id & E1 & <-). eapply path_sym; eauto.
  Qed.

  Lemma edges_lt d q t r : ndfa_ok d -> edges d q t r -> (q < count_states d)%nat /\ (r < count_states d)%nat.
  Proof.
    intros OK (id & H & _). split; [|apply (ok_trans d OK q id r H)].
    destruct (Nat.lt_ge_cases q (count_states d)) as [L|L]; [exact L|]. rewrite (get_state_out d q L) in H. destruct H.
  Qed.

  Record grows d d' (F : graph) : Prop := {
    gr_ok : ndfa_ok d';
    gr_edges : forall q t r, edges d' q t r <-> edges d q t r \/ F q t r;
    gr_count : (count_states d <= count_states d')%nat;
    gr_accept : n_accept d' = n_accept d }.

  Definition fresh d d' (q : nat) : Prop := (count_states d <= q < count_states d')%nat.

  Lemma grows_refl d : ndfa_ok d -> grows d d gempty.
  Proof. intros OK. constructor; auto. intros q t r. unfold gempty. tauto. Qed.

  Lemma grows_trans d d1 d2 F1 F2 : grows d d1 F1 -> grows d1 d2 F2 -> grows d d2 (gunion F1 F2).
  Proof.
    intros [O1 E1 C1 A1] [O2 E2 C2 A2]. constructor; [exact O2| |lia|congruence]. intros q t r. rewrite E2, E1. unfold gunion. tauto.
  Qed.

  Lemma grows_ext d d' F F' : grows d d' F -> (forall q t r, F q t r <-> F' q t r) -> grows d d' F'.
  Proof. intros [O E C AC] X. constructor; auto. intros q t r. rewrite E, X. tauto. Qed.

  Lemma add_state_grows d : ndfa_ok d -> fst (add_state d) = count_states d /\ grows d (snd (add_state d)) gempty /\
    count_states (snd (add_state d)) = S (count_states d).
  Proof.
    intros OK. split; [reflexivity|].
    assert (C : count_states (snd (add_state d)) = S (count_states d)).
    { unfold count_states. cbn [add_state snd n_states]. rewrite app_length. cbn [length]. lia. }
    split; [|exact C]. constructor; [exact (do_op_ok d OpState I OK)| |lia|reflexivity]. intros q t r. unfold gempty, edges.
    assert (G : get_state (snd (add_state d)) q = get_state d q).
    { unfold get_state. cbn [add_state snd n_states]. destruct (Nat.lt_ge_cases q (length (n_states d))) as [L|L].
      - apply app_nth1, L.
      - rewrite app_nth2 by exact L. rewrite (nth_overflow (n_states d)) by exact L. destruct (q - length (n_states d))%nat as [|[|k]]; reflexivity. }
    rewrite G. cbn [add_state snd n_symbols]. tauto.
  Qed.

  Lemma add_transition_grows d a s b : ndfa_ok d -> normal s -> (a < count_states d)%nat -> (b < count_states d)%nat ->
    grows d (add_transition d a s b) (gedge a s b) /\ count_states (add_transition d a s b) = count_states d.
  Proof.
    intros OK N La Lb. pose proof (do_op_ok d (OpTrans a s b) N OK) as OK2. cbn [do_op] in OK2.
    pose proof OK as [OS OT OO OA]. unfold add_transition in *.
    destruct (Nat.leb_spec (count_states d) a) as [X|_]; [lia|]. destruct (Nat.leb_spec (count_states d) b) as [X|_]; [lia|].
    destruct OS as (reqs & Hr & Es). pose proof (sm_of_inv reqs) as IV. rewrite <- Es in IV.
    pose proof (sm_identifier_id _ s IV) as (H1 & H2 & H3 & H4). destruct (sm_identifier (n_symbols d) s) as [id sm]. cbn [fst snd] in *.
    assert (C : count_states (state_add (mkN (n_states d) sm (n_accept d)) a (id, b)) = count_states d).
    { unfold count_states, state_add. cbn [n_states]. apply set_nth_length. }
    split; [|exact C]. constructor; [exact OK2| |lia|reflexivity]. intros q t r. unfold edges, gedge, get_state, state_add. cbn [n_states n_symbols].
    destruct (Nat.eq_dec q a) as [->|NE].
    - rewrite set_nth_same by exact La. split.
      + intros (i & Hi & Ht). apply (sins_in _ trans_strict) in Hi as [E|Hi]; [injection E as -> ->; right; repeat split; congruence|].
        left. exists i. split; [exact Hi|]. rewrite <- Ht. symmetry. apply H4. apply (OT a i r Hi).
      + intros [(i & Hi & Ht)|(_ & -> & ->)].
        * exists i. split; [apply (sins_in _ trans_strict); right; exact Hi|]. rewrite <- Ht. apply H4. apply (OT a i r Hi).
        * exists id. split; [apply (sins_in _ trans_strict); left; reflexivity|exact H2].
    - rewrite set_nth_other by exact NE. split.
      + intros (i & Hi & Ht). left. exists i. split; [exact Hi|]. rewrite <- Ht. symmetry. apply H4. apply (OT q i r Hi).
      + intros [(i & Hi & Ht)|(X & _)]; [|congruence]. exists i. split; [exact Hi|]. rewrite <- Ht. apply H4. apply (OT q i r Hi).
  Qed.

  (** ** Surrogate pairs *)
  Fixpoint zrange (n : nat) (a : Z) : list Z := match n with O => [] | S n => a :: zrange n (a + 1) end.
  Lemma zrange_in n : forall a x, a <= x < a + Z.of_nat n -> In x (zrange n a).
  Proof. induction n as [|n IH]; intros a x H; [lia|]. cbn [zrange]. destruct (Z.eq_dec a x) as [->|]; [left; reflexivity|right; apply IH; lia]. Qed.

  Lemma surrogate_pair_spec c : 0x10000 <= c < 0x110000 ->
    surrogate_pair c = (0xd800 + (c - 0x10000) / 1024, 0xdc00 + (c - 0x10000) mod 1024).
  Proof.
    intros H. unfold surrogate_pair.
    assert (B1 : forallb (fun k => Z.lor (Z.lor 0xd800 (Z.land k 0x3f)) (Z.shiftl (Z.shiftr k 6 - 1) 6) =? 0xd800 + (k - 64)) (zrange 1024 64) = true) by (vm_compute; reflexivity).
    assert (B2 : forallb (fun k => Z.lor 0xdc00 k =? 0xdc00 + k) (zrange 1024 0) = true) by (vm_compute; reflexivity).
    rewrite forallb_forall in B1, B2.
    assert (D : c = 1024 * (c / 1024) + c mod 1024) by (apply Z.div_mod; lia). pose proof (Z.mod_pos_bound c 1024 ltac:(lia)) as M.
    assert (K : 64 <= c / 1024 < 1088) by (split; [apply Z.div_le_lower_bound|apply Z.div_lt_upper_bound]; lia).
    assert (E1 : (c - 0x10000) / 1024 = c / 1024 - 64).
    { replace (c - 0x10000) with (c + (-64) * 1024) by lia. rewrite Z.div_add by lia. lia. }
    assert (E2 : (c - 0x10000) mod 1024 = c mod 1024).
    { replace (c - 0x10000) with (c + (-64) * 1024) by lia. apply Z.mod_add. lia. }
    rewrite E1, E2. f_equal.
    - specialize (B1 (c / 1024) (zrange_in 1024 64 (c / 1024) ltac:(cbn [Z.of_nat Pos.of_succ_nat]; lia))). apply Z.eqb_eq in B1.
      replace (Z.shiftr c 10) with (c / 1024) by (rewrite Z.shiftr_div_pow2 by lia; reflexivity).
      replace (Z.shiftr c 16) with (Z.shiftr (c / 1024) 6); [rewrite B1; lia|].
      replace (c / 1024) with (Z.shiftr c 10) by (rewrite Z.shiftr_div_pow2 by lia; reflexivity). rewrite Z.shiftr_shiftr by lia. reflexivity.
    - replace (Z.land c 0x3ff) with (c mod 1024) by (symmetry; apply (Z.land_ones c 10); lia).
      specialize (B2 (c mod 1024) (zrange_in 1024 0 (c mod 1024) ltac:(cbn [Z.of_nat Pos.of_succ_nat]; lia))). apply Z.eqb_eq in B2. exact B2.
  Qed.

  Lemma single_normal a b : 0 <= a -> a < b -> b <= c_MaxSymbol -> normal [mkR a b].
  Proof. intros. split; [repeat constructor; assumption|constructor; constructor]. Qed.
  Lemma contains_single a b x : a < b -> contains [mkR a b] x = true <-> a <= x < b.
  Proof.
    intros H. rewrite contains_spec by (apply single_wf; exact H). rewrite mem_cons, mem_nil. unfold in_range. cbn [lo hi]. tauto.
  Qed.
  Lemma nil_normal : normal []. Proof. split; constructor. Qed.

  Lemma frag_none s n : s <> n -> frag gempty (fun q => q = n) s n (fun _ => False) true true false.
  Proof.
    intros N. constructor; auto.
    - intros q t r [].
    - intros w. split; [|intros []]. intros H. inversion H as [|? ? ? ? []|? ? ? ? ? ? []]. congruence.
  Qed.

  Lemma surrogate_transition_grows d r cur next : ndfa_ok d -> valid_range r -> 0x10000 <= lo r ->
    (forall x, lo r <= x -> x + 1 < hi r -> x + 1 < 0x110000 -> (x + 1) mod 1024 <> 0) ->
    (cur < count_states d)%nat -> (next < count_states d)%nat -> cur <> next ->
    exists F, grows d (add_surrogate_transition d r cur next) F /\
      frag F (fun q => q = next \/ fresh d (add_surrogate_transition d r cur next) q) cur next
           (fun w => exists x, in_range x r /\ x < 0x110000 /\ w = utf16 x) true true false.
  Proof.
    intros OK V L U Lc Ln NE. unfold add_surrogate_transition. destruct (Z.leb_spec 0x110000 (lo r)) as [B|B].
    - exists gempty. split; [apply grows_refl, OK|]. apply (frag_ext _ _ _ _ _ _ _ _ _ _ _ (frag_none cur next NE)).
      + tauto.
      + intros q. unfold fresh. split; [intros [X|X]; [exact X|lia]|auto].
      + intros w. split; [|intros []]. intros (x & X & Y & _). unfold in_range in X. lia.
    - cbv zeta. set (up := if 0x110000 <? hi r then 0x110000 else hi r).
      assert (UP : lo r < up /\ up <= 0x110000 /\ up <= hi r /\ (up < hi r -> up = 0x110000)).
      { unfold up. destruct V as (V1 & V2 & V3). destruct (Z.ltb_spec 0x110000 (hi r)); lia. }
      destruct UP as (U1 & U2 & U3 & U4). rewrite (surrogate_pair_spec (lo r)) by lia. rewrite (surrogate_pair_spec (up - 1)) by lia.
      assert (SH : (lo r - 0x10000) / 1024 = (up - 1 - 0x10000) / 1024).
      { destruct (Z.eq_dec ((lo r - 0x10000) / 1024) ((up - 1 - 0x10000) / 1024)) as [|NQ]; [assumption|exfalso].
        assert (LE : (lo r - 0x10000) / 1024 <= (up - 1 - 0x10000) / 1024) by (apply Z.div_le_mono; lia).
        set (k := (lo r - 0x10000) / 1024) in *. set (k2 := (up - 1 - 0x10000) / 1024) in *.
        assert (D1 : lo r - 0x10000 = 1024 * k + (lo r - 0x10000) mod 1024) by (apply Z.div_mod; lia).
        assert (D2 : up - 1 - 0x10000 = 1024 * k2 + (up - 1 - 0x10000) mod 1024) by (apply Z.div_mod; lia).
        pose proof (Z.mod_pos_bound (lo r - 0x10000) 1024 ltac:(lia)). pose proof (Z.mod_pos_bound (up - 1 - 0x10000) 1024 ltac:(lia)).
        specialize (U (0x10000 + 1024 * (k + 1) - 1) ltac:(lia) ltac:(lia) ltac:(lia)). apply U.
        replace (0x10000 + 1024 * (k + 1) - 1 + 1) with ((64 + k + 1) * 1024) by lia. apply Z.mod_mul. lia. }
      rewrite <- SH, Z.eqb_refl. set (h := 0xd800 + (lo r - 0x10000) / 1024).
      set (l1 := 0xdc00 + (lo r - 0x10000) mod 1024). set (l2 := 0xdc00 + (up - 1 - 0x10000) mod 1024).
      assert (D1 : lo r - 0x10000 = 1024 * ((lo r - 0x10000) / 1024) + (lo r - 0x10000) mod 1024) by (apply Z.div_mod; lia).
      assert (D2 : up - 1 - 0x10000 = 1024 * ((lo r - 0x10000) / 1024) + (up - 1 - 0x10000) mod 1024) by (rewrite SH; apply Z.div_mod; lia).
      pose proof (Z.mod_pos_bound (lo r - 0x10000) 1024 ltac:(lia)) as M1. pose proof (Z.mod_pos_bound (up - 1 - 0x10000) 1024 ltac:(lia)) as M2.
      assert (HB : 0 <= (lo r - 0x10000) / 1024 < 1024) by (split; [apply Z.div_le_lower_bound|apply Z.div_lt_upper_bound]; lia).
      destruct (add_state_grows d OK) as (AS1 & AS2 & AS3). destruct (add_state d) as [tmp d1]. cbn [fst snd] in AS1, AS2, AS3. subst tmp.
      set (tmp := count_states d) in *.
      destruct (add_transition_grows d1 cur [mkR h (h + 1)] tmp (gr_ok _ _ _ AS2)) as (G1 & C1);
        [apply single_normal; unfold h, c_MaxSymbol in *; lia|lia|lia|].
      destruct (add_transition_grows (add_transition d1 cur [mkR h (h + 1)] tmp) tmp [mkR l1 (l2 + 1)] next (gr_ok _ _ _ G1)) as (G2 & C2);
        [apply single_normal; unfold l1, l2, c_MaxSymbol in *; lia|lia|lia|].
      exists (gunion (gedge cur [mkR h (h + 1)] tmp) (gedge tmp [mkR l1 (l2 + 1)] next)). split.
      + eapply grows_ext; [eapply grows_trans; [eapply grows_trans; [exact AS2|exact G1]|exact G2]|]. intros q t r'. unfold gunion, gempty. tauto.
      + eapply frag_ext; [apply (frag_cat _ _ _ _ _ _ _ _ _ _ _ _ _ _ _ (frag_edge cur [mkR h (h + 1)] tmp ltac:(lia)) (frag_edge tmp [mkR l1 (l2 + 1)] next ltac:(lia)))| | |].
        * intros q X Y. lia.
        * exact NE.
        * reflexivity.
        * intros q t r'. reflexivity.
        * intros q. unfold fresh. rewrite C2, C1, AS3. fold tmp. split; [intros [X|X]; [right; exact X|left; lia]|intros [->|X]; [right; lia|left; exact X]].
        * intros w. split.
          -- intros (x & X & Y & ->). unfold in_range in X. assert (x < up) by lia.
             assert (DX : x - 0x10000 = 1024 * ((x - 0x10000) / 1024) + (x - 0x10000) mod 1024) by (apply Z.div_mod; lia).
             pose proof (Z.mod_pos_bound (x - 0x10000) 1024 ltac:(lia)) as MX.
             assert (EX : (x - 0x10000) / 1024 = (lo r - 0x10000) / 1024).
             { assert ((lo r - 0x10000) / 1024 <= (x - 0x10000) / 1024) by (apply Z.div_le_mono; lia).
               assert ((x - 0x10000) / 1024 <= (up - 1 - 0x10000) / 1024) by (apply Z.div_le_mono; lia). lia. }
             exists [h], [0xdc00 + (x - 0x10000) mod 1024]. split.
             ++ unfold utf16. destruct (Z.ltb_spec x 0x10000); [lia|]. rewrite EX. reflexivity.
             ++ split; right; eexists; (split; [|reflexivity]); apply contains_single; unfold l1, l2; lia.
          -- intros (u & v & -> & R1 & R2). destruct R1 as [[X _]|(x1 & X1 & ->)]; [discriminate|]. destruct R2 as [[X _]|(x2 & X2 & ->)]; [discriminate|].
             apply contains_single in X1; [|lia]. apply contains_single in X2; [|unfold l1, l2; lia]. unfold l1, l2 in X2.
             set (k := (lo r - 0x10000) / 1024) in *. exists (0x10000 + 1024 * k + (x2 - 0xdc00)). unfold in_range.
             assert (EQ : (0x10000 + 1024 * k + (x2 - 0xdc00) - 0x10000) = k * 1024 + (x2 - 0xdc00)) by lia.
             split; [lia|]. split; [lia|]. unfold utf16. destruct (Z.ltb_spec (0x10000 + 1024 * k + (x2 - 0xdc00)) 0x10000); [lia|]. rewrite EQ.
             rewrite Z.div_add_l by lia. rewrite (Z.div_small (x2 - 0xdc00) 1024) by lia.
             replace (k * 1024 + (x2 - 0xdc00)) with ((x2 - 0xdc00) + k * 1024) by lia. rewrite Z.mod_add by lia. rewrite Z.mod_small by lia.
             cbn [app]. f_equal; [unfold h in *; lia|f_equal; lia].
  Qed.

  (** ** The split *)
  Lemma union_range_normal s r : normal s -> valid_range r -> normal (union_range s r) /\ forall x, mem (union_range s r) x <-> mem s x \/ in_range x r.
  Proof.
    intros N V. destruct (union_range_spec s r (normal_wf s N) (valid_ne r V)) as (W & M). split; [|exact M].
    apply normal_of_wf; [exact W|]. intros x X. apply M in X as [X|X]; [apply (normal_universe s x N X)|]. destruct V. unfold in_range, universe in *. lia.
  Qed.

  Lemma split_spec s : normal s -> forall su ns, split_surrogates s = (su, ns) ->
    normal su /\ normal ns /\ (forall x, mem su x <-> mem s x /\ 0x10000 <= x) /\ (forall x, mem ns x <-> mem s x /\ x < 0x10000).
  Proof.
    intros N su ns E. unfold split_surrogates in E.
    assert (G : forall l su0 ns0, Forall valid_range l -> normal su0 -> normal ns0 ->
      forall su ns, fold_left (fun acc r => let '(surrogates, nonSurrogates) := acc in
        if hi r <=? lo r then acc
        else if 0x10000 <? hi r then
          if lo r <=? 0xffff then (union_range surrogates (mkR 0x10000 (hi r)), union_range nonSurrogates (mkR (lo r) 0x10000))
          else (union_range surrogates r, nonSurrogates)
        else (surrogates, union_range nonSurrogates r)) l (su0, ns0) = (su, ns) ->
      normal su /\ normal ns /\ (forall x, mem su x <-> mem su0 x \/ (mem l x /\ 0x10000 <= x)) /\ (forall x, mem ns x <-> mem ns0 x \/ (mem l x /\ x < 0x10000))).
    { clear. induction l as [|r l IH]; intros su0 ns0 F N1 N2 su ns E; cbn [fold_left] in E.
      - injection E as <- <-. split; [exact N1|]. split; [exact N2|]. split; intros x; rewrite mem_nil; tauto.
      - apply Forall_cons_iff in F as [V F]. pose proof V as (V1 & V2 & V3). destruct (Z.leb_spec (hi r) (lo r)); [lia|].
        destruct (Z.ltb_spec 0x10000 (hi r)) as [B|B]; [destruct (Z.leb_spec (lo r) 0xffff) as [B2|B2]|].
        + destruct (union_range_normal su0 (mkR 0x10000 (hi r)) N1) as (A1 & A2); [repeat split; cbn; lia|].
          destruct (union_range_normal ns0 (mkR (lo r) 0x10000) N2) as (A3 & A4); [repeat split; cbn; unfold c_MaxSymbol in *; lia|].
          destruct (IH _ _ F A1 A3 su ns E) as (R1 & R2 & R3 & R4). split; [exact R1|]. split; [exact R2|].
          split; intros x; [rewrite R3, A2|rewrite R4, A4]; rewrite mem_cons; unfold in_range; cbn [lo hi]; clear - V1 V2 V3 B B2; intuition lia.
        + destruct (union_range_normal su0 r N1 V) as (A1 & A2).
          destruct (IH _ _ F A1 N2 su ns E) as (R1 & R2 & R3 & R4). split; [exact R1|]. split; [exact R2|].
          split; intros x; [rewrite R3, A2|rewrite R4]; rewrite mem_cons; unfold in_range; clear - V1 V2 V3 B B2; intuition lia.
        + destruct (union_range_normal ns0 r N2 V) as (A1 & A2).
          destruct (IH _ _ F N1 A1 su ns E) as (R1 & R2 & R3 & R4). split; [exact R1|]. split; [exact R2|].
          split; intros x; [rewrite R3|rewrite R4, A2]; rewrite mem_cons; unfold in_range; clear - V1 V2 V3 B; intuition lia. }
    destruct (G s [] [] (proj1 N) nil_normal nil_normal su ns E) as (R1 & R2 & R3 & R4). split; [exact R1|]. split; [exact R2|].
    split; intros x; [rewrite R3|rewrite R4]; rewrite mem_nil; tauto.
  Qed.

  Lemma mem_some s : s <> [] -> Forall ne s -> exists x, mem s x.
  Proof. destruct s as [|r s]; [congruence|]. intros _ F. apply Forall_cons_iff in F as [F _]. exists (lo r). apply mem_cons. left. unfold in_range, ne in *. lia. Qed.

  (** ** Adding symbols *)
  Lemma add_symbols_grows (b : builder (A := A)) s : ndfa_ok (b_nfa b) -> normal s -> s <> [] -> (b_cur b < count_states (b_nfa b))%nat -> b_next b = None ->
    (b_surr b = true -> unsplit (fun x => contains s x = true)) ->
    exists F d', add_with_surrogates b s = mkB d' (count_states (b_nfa b)) None (b_cur b) (b_surr b) (b_lower b) (b_upper b) (b_stack b) /\
      grows (b_nfa b) d' F /\ (count_states (b_nfa b) < count_states d')%nat /\
      frag F (fresh (b_nfa b) d') (b_cur b) (count_states (b_nfa b)) (units (b_surr b) (fun x => contains s x = true)) true true false.
  Proof.
    intros OK N NE LC NX US. unfold add_with_surrogates. rewrite NX. set (d := b_nfa b) in *. set (cur := b_cur b) in *.
    destruct (add_state_grows d OK) as (AS1 & AS2 & AS3). destruct (add_state d) as [next d1]. cbn [fst snd] in AS1, AS2, AS3. subst next. set (next := count_states d) in *.
    assert (NC : cur <> next) by lia. pose proof (normal_wf s N) as W.
    assert (CT : forall x, contains s x = true <-> mem s x) by (intros x; apply contains_spec, W).
    destruct (split_surrogates s) as [su ns] eqn:SP. destruct (split_spec s N su ns SP) as (NSu & NNs & Msu & Mns).
    assert (PLAIN : (b_surr b = true -> su = []) -> exists F d', 
      mkB (add_transition d1 cur s next) next None cur (b_surr b) (b_lower b) (b_upper b) (b_stack b) = mkB d' next None cur (b_surr b) (b_lower b) (b_upper b) (b_stack b) /\
      grows d d' F /\ (next < count_states d')%nat /\ frag F (fresh d d') cur next (units (b_surr b) (fun x => contains s x = true)) true true false).
    { intros SE. destruct (add_transition_grows d1 cur s next (gr_ok _ _ _ AS2) N) as (G1 & C1); [lia|lia|].
      exists (gedge cur s next), (add_transition d1 cur s next). split; [reflexivity|]. split.
      { eapply grows_ext; [eapply grows_trans; [exact AS2|exact G1]|]. intros q t r. unfold gunion, gempty. tauto. }
      split; [lia|]. apply (frag_ext _ _ _ _ _ _ _ _ _ _ _ (frag_edge cur s next NC)).
      - tauto.
      - intros q. unfold fresh. rewrite C1, AS3. fold next. lia.
      - intros w. unfold units, reads. destruct (b_surr b) eqn:SR.
        + split.
          * intros (x & X & _ & ->). right. exists x. split; [exact X|]. unfold utf16. destruct (Z.ltb_spec x 0x10000); [reflexivity|].
            exfalso. assert (M : mem su x) by (apply Msu; split; [apply CT, X|lia]). rewrite (SE eq_refl) in M. apply mem_nil in M. exact M.
          * intros [[X _]|(x & X & ->)]; [congruence|]. exists x. split; [exact X|]. destruct (Z_lt_dec x 0x10000) as [LX|LX].
            -- split; [lia|]. unfold utf16. destruct (Z.ltb_spec x 0x10000); [reflexivity|lia].
            -- exfalso. assert (M : mem su x) by (apply Msu; split; [apply CT, X|lia]). rewrite (SE eq_refl) in M. apply mem_nil in M. exact M.
        + split; [intros (x & X & ->); right; exists x; auto|]. intros [[X _]|(x & X & ->)]; [congruence|]. exists x. auto. }
    destruct (b_surr b) eqn:SR; cbn [andb]; [|apply PLAIN; discriminate].
    destruct su as [|r0 su0] eqn:SU; cbn [negb]; [apply PLAIN; reflexivity|]. rewrite <- SU in *. clear r0 su0 SU PLAIN.
    set (d2 := match ns with [] => d1 | _ => add_transition d1 cur ns next end).
    assert (G2 : exists F, grows d d2 F /\ count_states d2 = S next /\
      frag F (fun q => q = next) cur next (fun w => exists x, mem ns x /\ w = utf16 x) true true false).
    { unfold d2. destruct ns as [|r0 ns0] eqn:NSE.
      - exists gempty. split; [exact AS2|]. split; [exact AS3|]. apply (frag_ext _ _ _ _ _ _ _ _ _ _ _ (frag_none cur next NC)); [tauto|tauto|].
        intros w. split; [intros (x & X & _); apply mem_nil in X; exact X|intros []].
      - rewrite <- NSE in *. destruct (add_transition_grows d1 cur ns next (gr_ok _ _ _ AS2) NNs) as (G1 & C1); [lia|lia|].
        exists (gedge cur ns next). split; [|split; [lia|]].
        + eapply grows_ext; [eapply grows_trans; [exact AS2|exact G1]|]. intros q t r. unfold gunion, gempty. tauto.
        + apply (frag_ext _ _ _ _ _ _ _ _ _ _ _ (frag_edge cur ns next NC)); [tauto|tauto|]. intros w. unfold reads.
          assert (CN : forall x, contains ns x = true <-> mem ns x) by (intros x; apply contains_spec, normal_wf, NNs). split.
          * intros (x & X & ->). right. exists x. rewrite CN. split; [exact X|]. unfold utf16. apply Mns in X. destruct (Z.ltb_spec x 0x10000); [reflexivity|lia].
          * intros [[X _]|(x & X & ->)]; [congruence|]. apply CN in X. exists x. split; [exact X|]. unfold utf16. apply Mns in X.
            destruct (Z.ltb_spec x 0x10000); [reflexivity|lia]. }
    destruct G2 as (F2 & G2 & C2 & FR2).
    assert (LOOP : forall l d3 F L, Forall valid_range l -> (forall r x, In r l -> in_range x r -> mem su x) ->
      grows d d3 F -> (next < count_states d3)%nat -> frag F (fun q => q = next \/ fresh d2 d3 q) cur next L true true false ->
      (count_states d2 <= count_states d3)%nat ->
      exists F', grows d (fold_left (fun d r => add_surrogate_transition d r cur next) l d3) F' /\
        (count_states d3 <= count_states (fold_left (fun d r => add_surrogate_transition d r cur next) l d3))%nat /\
        frag F' (fun q => q = next \/ fresh d2 (fold_left (fun d r => add_surrogate_transition d r cur next) l d3) q) cur next
          (fun w => L w \/ exists x, mem l x /\ x < 0x110000 /\ w = utf16 x) true true false).
    { induction l as [|r l IH]; intros d3 F L FV FM G3 LN FR LE; cbn [fold_left].
      - exists F. split; [exact G3|]. split; [lia|]. apply (frag_ext _ _ _ _ _ _ _ _ _ _ _ FR); [tauto|tauto|]. intros w. split; [|auto].
        intros [X|(x & X & _)]; [exact X|]. apply mem_nil in X. destruct X.
      - apply Forall_cons_iff in FV as [V FV].
        assert (LR : 0x10000 <= lo r).
        { pose proof V as (V1 & V2 & V3). assert (M : mem su (lo r)) by (apply (FM r); [left; reflexivity|unfold in_range; lia]). apply Msu in M. lia. }
        assert (UR : forall x, lo r <= x -> x + 1 < hi r -> x + 1 < 0x110000 -> (x + 1) mod 1024 <> 0).
        { intros x X1 X2 X3. apply (US eq_refl x); [| |lia|lia]; apply CT.
          - apply (Msu x). apply (FM r); [left; reflexivity|unfold in_range; lia].
          - apply (Msu (x + 1)). apply (FM r); [left; reflexivity|unfold in_range; lia]. }
        destruct (surrogate_transition_grows d3 r cur next (gr_ok _ _ _ G3) V LR UR) as (F3 & G4 & FR3); [lia|exact LN|exact NC|].
        pose proof (gr_count _ _ _ G4) as C4.
        pose proof (frag_par _ _ _ _ _ _ _ _ FR FR3) as FR4.
        assert (DJ : forall q, q = next \/ fresh d2 d3 q -> q = next \/ fresh d3 (add_surrogate_transition d3 r cur next) q -> q = next).
        { unfold fresh. intros q [X|X] [Y|Y]; auto; lia. }
        specialize (FR4 DJ).
        destruct (IH (add_surrogate_transition d3 r cur next) (gunion F F3) (fun w => L w \/ exists x, in_range x r /\ x < 0x110000 /\ w = utf16 x)) as (F5 & G5 & C5 & FR5).
        + exact FV.
        + intros r' x X Y. apply (FM r'); [right; exact X|exact Y].
        + eapply grows_trans; eassumption.
        + lia.
        + apply (frag_ext _ _ _ _ _ _ _ _ _ _ _ FR4); [tauto| |tauto]. intros q. unfold fresh. lia.
        + lia.
        + exists F5. split; [exact G5|]. split; [lia|]. apply (frag_ext _ _ _ _ _ _ _ _ _ _ _ FR5); [tauto|tauto|]. intros w. split.
          * intros [X|(x & X & Y)]; [auto|]. apply mem_cons in X as [X|X]; [left; right; exists x; auto|right; exists x; auto].
          * intros [[X|(x & X & Y)]|(x & X & Y)]; [auto| |]; right; exists x; (split; [apply mem_cons; auto|exact Y]). }
    destruct (LOOP su d2 F2 (fun w => exists x, mem ns x /\ w = utf16 x) (proj1 NSu)) as (F5 & G5 & C5 & FR5); [| exact G2 | | | |].
    - intros r x X Y. exists r. auto.
    - lia.
    - apply (frag_ext _ _ _ _ _ _ _ _ _ _ _ FR2); [tauto| |tauto]. intros q. unfold fresh. lia.
    - lia.
    - exists F5. eexists. split; [reflexivity|]. split; [exact G5|]. split; [lia|]. apply (frag_ext _ _ _ _ _ _ _ _ _ _ _ FR5); [tauto| |].
      + intros q. unfold fresh. fold next. rewrite C2. lia.
      + intros w. unfold units. split.
        * intros (x & X & Y & ->). apply CT in X. destruct (Z_lt_dec x 0x10000) as [LX|LX].
          -- left. exists x. split; [apply Mns; auto|reflexivity].
          -- right. exists x. split; [apply Msu; split; [exact X|lia]|auto].
        * intros [(x & X & ->)|(x & X & Y & ->)].
          -- apply Mns in X as [X1 X2]. exists x. split; [apply CT, X1|]. split; [lia|reflexivity].
          -- apply Msu in X as [X1 X2]. exists x. split; [apply CT, X1|]. auto.
  Qed.

  (** ** Paths in the automaton with a fragment added *)
  Lemma added_paths (d : ndfa A) (b1 : builder (A := A)) F s (L : lang) ef no : ndfa_ok d -> (s < count_states d)%nat -> grows d (b_nfa b1) F -> frag F (fresh d (b_nfa b1)) s (b_cur b1) L true ef no -> no = false ->
    (count_states d <= b_cur b1 < count_states (b_nfa b1))%nat /\
    (forall q w, (q < count_states d)%nat -> path (b_nfa b1) q w (b_cur b1) <-> exists u v, w = u ++ v /\ path d q u s /\ L v) /\
    (forall q r w, (q < count_states d)%nat -> (r < count_states d)%nat -> path (b_nfa b1) q w r <-> path d q w r).
  Proof.
    intros OK LS GR FR ->.
    assert (NE : b_cur b1 <> s) by exact (fr_same _ _ _ _ _ _ _ _ FR eq_refl).
    assert (LE : fresh d (b_nfa b1) (b_cur b1)) by (destruct (fr_e _ _ _ _ _ _ _ _ FR); [contradiction|assumption]).
    destruct (frag_added (edges d) F _ _ _ _ _ _ FR NE) as (P1 & P2).
    { intros q t r E. destruct (edges_lt d q t r OK E). unfold fresh. lia. }
    assert (GE : forall q w r, path (b_nfa b1) q w r <-> gpath (gunion (edges d) F) q w r).
    { intros q w r. rewrite path_gpath. split; apply gpath_mono; intros x t y; rewrite (gr_edges _ _ _ GR); exact (fun X => X). }
    split; [exact LE|]. split.
    - intros q w L1. rewrite GE, P1 by (unfold fresh; lia). split; intros (u & v & E & X & Y); exists u, v; (split; [exact E|]); (split; [apply path_gpath, X|exact Y]).
    - intros q r w L1 L2. rewrite GE, P2 by (unfold fresh; lia). symmetry. apply path_gpath.
  Qed.

End Build.

(** Regular expressions compile to automata for their languages. *)
From Verif Require Import Base OrdMap SymbolSetModel SymbolSetSpec SymbolSetProofs SymbolMapModel SymbolMapSpec SymbolMapProofs
  NdfaModel NdfaSpec NdfaProofs TextSpec RegexModel RegexSpec RegexGraph RegexBuildProofs RegexParseProofs.
Local Open Scope Z_scope.

Section RegexProofs.
  Context {A : Type} (to_lower to_upper : symbol_set -> symbol_set) (expressions literals : list Z -> option (list Z)) (category : list Z -> option symbol_set)
    (defined : list Z -> list (bool * bool * token)) (surr nocase : bool) (low up : Z -> Z) (convertible : (Z -> Prop) -> Prop).
  Hypothesis TL0 : to_lower [] = [].
  Hypothesis TU0 : to_upper [] = [].
  Hypothesis CX : forall P Q, (forall x, P x <-> Q x) -> convertible P -> convertible Q.
  Hypothesis TL : forall s, normal s -> convertible (fun x => contains s x = true) ->
    normal (to_lower s) /\ forall x, contains (to_lower s) x = true <-> exists y, contains s y = true /\ x = low y.
  Hypothesis TU : forall s, normal s -> convertible (fun x => contains s x = true) ->
    normal (to_upper s) /\ forall x, contains (to_upper s) x = true <-> exists y, contains s y = true /\ x = up y.

  Notation builder := (builder (A := A)).
  Notation shift := (shift (A := A) to_lower to_upper).
  Notation pop := (pop (A := A) to_lower to_upper).
  Notation begin_or := (begin_or (A := A) to_lower to_upper).
  Notation rejoin := (rejoin (A := A) to_lower to_upper).
  Notation eval := (eval (A := A) to_lower to_upper expressions literals category defined).
  Notation any_case := (any_case nocase low up).
  Notation chars_ok := (chars_ok surr nocase low up convertible).
  Notation matches := (matches surr nocase low up).
  Notation l_word := (l_word surr nocase low up).
  Notation well_formed := (well_formed expressions literals category defined surr nocase low up convertible).

  Record good (b : builder) : Prop := {
    gb_ok : ndfa_ok (b_nfa b);
    gb_cur : (b_cur b < count_states (b_nfa b))%nat;
    gb_next : b_next b = None;
    gb_surr : b_surr b = surr;
    gb_lower : b_lower b = nocase;
    gb_upper : b_upper b = nocase }.

  (** ** Transitions without characters *)
  Lemma shift_nil b : good b \/ (b_lower b = nocase /\ b_upper b = nocase) -> shift b [] = add_with_surrogates b [].
  Proof.
    intros H. assert (E : b_lower b = nocase /\ b_upper b = nocase) by (destruct H as [[]|]; auto). destruct E as [E1 E2].
    unfold RegexModel.shift. rewrite E1, E2, TL0, TU0. destruct nocase; reflexivity.
  Qed.

  Definition moved (b : builder) d cur prev : builder := mkB d cur None prev (b_surr b) (b_lower b) (b_upper b) (b_stack b).

  Lemma shift_new b : good b -> shift b [] =
    moved b (add_transition (snd (add_state (b_nfa b))) (b_cur b) [] (count_states (b_nfa b))) (count_states (b_nfa b)) (b_cur b).
  Proof.
    intros G. rewrite shift_nil by auto. unfold add_with_surrogates. rewrite (gb_next b G). cbn [add_state fst snd split_surrogates fold_left].
    rewrite Bool.andb_false_r. reflexivity.
  Qed.

  Lemma shift_to b f : b_lower b = nocase -> b_upper b = nocase ->
    shift (set_next b f) [] = moved b (add_transition (b_nfa b) (b_cur b) [] f) f (b_cur b).
  Proof.
    intros E1 E2. rewrite shift_nil by (right; auto). unfold add_with_surrogates. cbn [set_next at_state b_next split_surrogates fold_left]. cbn [b_surr b_nfa b_cur b_lower b_upper b_stack].
    rewrite Bool.andb_false_r. reflexivity.
  Qed.

  (** ** Transitions with characters *)
  Lemma union_normal s t : normal s -> normal t -> normal (union_set s t) /\ forall x, mem (union_set s t) x <-> mem s x \/ mem t x.
  Proof.
    intros N1 N2. destruct (union_set_spec t s (normal_wf s N1) (proj1 (normal_wf t N2))) as (W & M). split; [|exact M].
    apply normal_of_wf; [exact W|]. intros x X. apply M in X as [X|X]; [apply (normal_universe s x N1 X)|apply (normal_universe t x N2 X)].
  Qed.

  (** What a piece of text adds. *)
  Definition adds (b b' : builder) (L : lang) (bf ef no : bool) : Prop :=
    good b' /\ b_stack b' = b_stack b /\ exists F, grows (b_nfa b) (b_nfa b') F /\
      frag F (fresh (b_nfa b) (b_nfa b')) (b_cur b) (b_cur b') L bf ef no.

  Lemma shift_chars b s P : good b -> normal s -> (forall x, contains s x = true <-> P x) -> (exists x, P x) -> chars_ok P ->
    adds b (shift b s) (units surr (any_case P)) true true false /\ b_prev (shift b s) = b_cur b.
  Proof.
    intros G N M (x0 & X0) (C1 & C2).
    assert (T : exists t, shift b s = add_with_surrogates b t /\ normal t /\ t <> [] /\ forall x, contains t x = true <-> any_case P x).
    { unfold RegexModel.shift. rewrite (gb_lower b G), (gb_upper b G).
      assert (CS : forall x, contains s x = true <-> mem s x) by (intros x; apply contains_spec, normal_wf, N).
      destruct nocase eqn:NC; cbn [orb].
      - assert (CV : convertible (fun x => contains s x = true)) by (apply (CX P); [intros x; symmetry; apply M|apply C1; reflexivity]).
        destruct (TL s N CV) as (NL & ML). destruct (TU s N CV) as (NU & MU).
        destruct (union_normal s (to_lower s) N NL) as (N1 & M1). destruct (union_normal _ (to_upper s) N1 NU) as (N2 & M2).
        eexists. split; [reflexivity|]. split; [exact N2|].
        assert (MM : forall x, contains (union_set (union_set s (to_lower s)) (to_upper s)) x = true <-> RegexSpec.any_case true low up P x).
        { intros x. rewrite (contains_spec _ _ (normal_wf _ N2)), M2, M1, <- (contains_spec _ _ (normal_wf _ NL)), <- (contains_spec _ _ (normal_wf _ NU)), <- CS, ML, MU.
          unfold RegexSpec.any_case, same_char. split.
          - intros [[X|(y & Y & ->)]|(y & Y & ->)]; [exists x; split; [apply M, X|auto]|exists y; split; [apply M, Y|auto]|exists y; split; [apply M, Y|auto]].
          - intros (y & Y & [->|(_ & [->| ->])]); [left; left; apply M, Y|left; right; exists y; split; [apply M, Y|reflexivity]|right; exists y; split; [apply M, Y|reflexivity]]. }
        split; [|exact MM]. intros E. assert (X : contains (union_set (union_set s (to_lower s)) (to_upper s)) x0 = true) by (apply MM; exists x0; split; [exact X0|left; reflexivity]).
        rewrite E in X. discriminate X.
      - exists s. split; [reflexivity|]. split; [exact N|]. split.
        + intros ->. apply M in X0. discriminate X0.
        + intros x. rewrite M. unfold RegexSpec.any_case, same_char. split; [intros X; exists x; auto|intros (y & Y & [->|(X & _)]); [exact Y|discriminate X]]. }
    destruct T as (t & -> & NT & NE & MT).
    assert (US : b_surr b = true -> unsplit (fun x => contains t x = true)).
    { rewrite (gb_surr b G). intros S x X1 X2. apply (C2 S); [apply MT, X1|apply MT, X2]. }
    destruct (add_symbols_grows b t (gb_ok b G) NT NE (gb_cur b G) (gb_next b G) US) as (F & d' & -> & GR & LT & FR).
    cbn [b_prev]. split; [|reflexivity]. split; [|split; [reflexivity|]].
    - constructor; cbn; try apply G; [apply (gr_ok _ _ _ GR)|exact LT|reflexivity].
    - cbn [b_nfa b_cur]. exists F. split; [exact GR|]. apply (frag_ext _ _ _ _ _ _ _ _ _ _ _ FR); [tauto|tauto|].
      intros w. rewrite (gb_surr b G). unfold units. split; intros (x & X & Y); exists x; (split; [apply MT, X|exact Y]).
  Qed.

  (** ** Sequences *)
  Lemma adds_refl b : good b -> adds b b (fun w => w = []) true true true.
  Proof.
    intros G. split; [exact G|]. split; [reflexivity|]. exists gempty. split; [apply grows_refl, G|].
    apply (frag_ext _ _ _ _ _ _ _ _ _ _ _ (frag_empty (b_cur b))); [tauto| |tauto]. intros q. unfold fresh. lia.
  Qed.

  Lemma adds_cat b b1 b2 L1 L2 bf1 ef1 no1 bf2 ef2 no2 : good b -> adds b b1 L1 bf1 ef1 no1 -> adds b1 b2 L2 bf2 ef2 no2 -> (ef1 || bf2)%bool = true ->
    adds b b2 (l_cat L1 L2) (bf1 && (negb no1 || bf2)) (ef2 && (negb no2 || ef1)) (no1 && no2).
  Proof.
    intros G (G1 & S1 & F1 & GR1 & FR1) (G2 & S2 & F2 & GR2 & FR2) C. split; [exact G2|]. split; [congruence|].
    exists (gunion F1 F2). split; [eapply grows_trans; eassumption|].
    pose proof (gr_count _ _ _ GR1). pose proof (gr_count _ _ _ GR2). pose proof (gb_cur b G).
    eapply frag_ext; [apply (frag_cat _ _ _ _ _ _ _ _ _ _ _ _ _ _ _ FR1 FR2); [intros q; unfold fresh; lia|unfold fresh; lia|exact C]|tauto| |tauto].
    intros q. unfold fresh. lia.
  Qed.

  Lemma adds_move b b1 b2 b' L bf ef no : adds b1 b2 L bf ef no -> b_nfa b1 = b_nfa b -> b_cur b1 = b_cur b ->
    good b' -> b_nfa b' = b_nfa b2 -> b_cur b' = b_cur b2 -> b_stack b' = b_stack b -> adds b b' L bf ef no.
  Proof. intros (G & S & F & GR & FR) E1 E2 G1 E3 E4 E5. split; [exact G1|]. split; [exact E5|]. exists F. rewrite <- E1, <- E2, E3, E4. auto. Qed.

  Lemma adds_lang b b' L L' bf ef no : adds b b' L bf ef no -> (forall w, L' w <-> L w) -> adds b b' L' bf ef no.
  Proof. intros (G & S & F & GR & FR) E. split; [exact G|]. split; [exact S|]. exists F. split; [exact GR|]. apply (frag_ext _ _ _ _ _ _ _ _ _ _ _ FR); [tauto|tauto|exact E]. Qed.

  Lemma good_moved b d cur prev : good b -> ndfa_ok d -> (cur < count_states d)%nat -> good (moved b d cur prev).
  Proof. intros G O L. constructor; cbn; try apply G; auto. Qed.

  Lemma shift_new_adds b : good b -> adds b (shift b []) (fun w => w = []) true true false /\ b_prev (shift b []) = b_cur b.
  Proof.
    intros G. rewrite (shift_new b G). destruct (add_state_grows (b_nfa b) (gb_ok b G)) as (_ & AS2 & AS3). pose proof (gb_cur b G) as LC.
    destruct (add_transition_grows (snd (add_state (b_nfa b))) (b_cur b) [] (count_states (b_nfa b)) (gr_ok _ _ _ AS2) nil_normal) as (G1 & C1); [lia|lia|].
    split; [|reflexivity]. split; [apply good_moved; [exact G|apply (gr_ok _ _ _ G1)|lia]|]. split; [reflexivity|]. cbn [moved b_nfa b_cur].
    exists (gedge (b_cur b) [] (count_states (b_nfa b))). split.
    - eapply grows_ext; [eapply grows_trans; [exact AS2|exact G1]|]. intros q t r. unfold gunion, gempty. tauto.
    - eapply frag_ext; [apply (frag_edge (b_cur b) [] (count_states (b_nfa b))); lia|tauto| |].
      + intros q. unfold fresh. rewrite C1, AS3. lia.
      + intros w. unfold reads. split; [auto|]. intros [[_ X]|(x & X & _)]; [exact X|discriminate X].
  Qed.

  (** ** Words *)
  Definition is_nil (w : list Z) : bool := match w with [] => true | _ => false end.
  Lemma word_adds word : Forall (fun c => 0 <= c < c_MaxSymbol /\ chars_ok (fun x => x = c)) word -> forall b, good b ->
    adds b (add_literal_at to_lower to_upper b word) (l_word word) true true (is_nil word).
  Proof.
    unfold add_literal_at. induction word as [|c word IH]; intros F b G; cbn [fold_left].
    - apply adds_refl, G.
    - apply Forall_cons_iff in F as [(V & C) F].
      destruct (shift_chars b [mkR c (c + 1)] (fun x => x = c) G) as (AD & _);
        [apply single_normal; unfold c_MaxSymbol in *; lia|intros x; rewrite contains_single by lia; lia|eauto|exact C|].
      pose proof (IH F (shift b [mkR c (c + 1)]) (proj1 AD)) as AD2.
      pose proof (adds_cat _ _ _ _ _ _ _ _ _ _ _ G AD AD2 eq_refl) as AD3. cbn [negb orb andb] in AD3.
      replace (negb (is_nil word) || true)%bool with true in AD3 by (destruct word; reflexivity). exact AD3.
  Qed.

  (** ** Alternatives: the part before the last bar ([Lp], from [s] to the common final state)
      and the part since ([Lc], from [s] to the current state). *)
  Definition alt (d0 : ndfa A) (b : builder) (s : nat) (fo : option nat) (Lp Lc : lang) (bf ef no : bool) : Prop :=
    (s < count_states d0)%nat /\
    match fo with
    | None => (forall w, ~ Lp w) /\ exists F, grows d0 (b_nfa b) F /\ frag F (fresh d0 (b_nfa b)) s (b_cur b) Lc bf ef no
    | Some f => exists Fp Ip Fc Ic, grows d0 (b_nfa b) (gunion Fp Fc) /\ frag Fp Ip s f Lp true true false /\ frag Fc Ic s (b_cur b) Lc bf ef no /\
                (forall q, Ip q \/ Ic q <-> fresh d0 (b_nfa b) q) /\ (forall q, Ip q -> Ic q -> False)
    end.

  Definition stk (b : builder) (s : nat) (fo : option nat) (st : list (nat * option nat)) : Prop :=
    b_stack b = (s, fo) :: st \/ (b_stack b = [] /\ s = 0%nat /\ fo = None /\ st = []).

  Lemma alt_step d0 b b' s fo Lp Lc no L bf2 ef2 no2 : alt d0 b s fo Lp Lc true true no -> adds b b' L bf2 ef2 no2 -> no = false \/ bf2 = true ->
    alt d0 b' s fo Lp (l_cat Lc L) true ef2 (no && no2).
  Proof.
    intros (LS & H) (G2 & S2 & F2 & GR2 & FR2) C. split; [exact LS|]. pose proof (gr_count _ _ _ GR2) as CT.
    assert (BF : (true && (negb no || bf2))%bool = true) by (destruct C as [-> | ->]; cbn; [reflexivity|destruct no; reflexivity]).
    assert (EF : (ef2 && (negb no2 || true))%bool = ef2) by (destruct ef2, no2; reflexivity).
    destruct fo as [f|].
    - destruct H as (Fp & Ip & Fc & Ic & GR & FP & FC & EI & DI). pose proof (gr_count _ _ _ GR).
      exists Fp, Ip, (gunion Fc F2), (fun q => Ic q \/ fresh (b_nfa b) (b_nfa b') q). split.
      { eapply grows_ext; [eapply grows_trans; eassumption|]. intros q t r. unfold gunion. tauto. }
      split; [exact FP|]. split.
      + pose proof (frag_cat _ _ _ _ _ _ _ _ _ _ _ _ _ _ _ FC FR2) as X. rewrite BF, EF in X. apply X; [|unfold fresh; lia|reflexivity].
        intros q I1 I2. assert (fresh d0 (b_nfa b) q) by (apply EI; auto). unfold fresh in *. lia.
      + split.
        * intros q. specialize (EI q). unfold fresh in *. split.
          -- intros [X|[X|X]]; [apply or_introl with (B := Ic q) in X; apply EI in X; lia|apply or_intror with (A := Ip q) in X; apply EI in X; lia|lia].
          -- intros X. destruct (Nat.lt_ge_cases q (count_states (b_nfa b))) as [Y|Y]; [|right; right; lia]. destruct (proj2 EI ltac:(lia)); auto.
        * intros q I1 [I2|I2]; [apply (DI q I1 I2)|]. assert (fresh d0 (b_nfa b) q) by (apply EI; auto). unfold fresh in *. lia.
    - destruct H as (NP & F & GR & FR). split; [exact NP|]. pose proof (gr_count _ _ _ GR). exists (gunion F F2). split; [eapply grows_trans; eassumption|].
      pose proof (frag_cat _ _ _ _ _ _ _ _ _ _ _ _ _ _ _ FR FR2) as X. rewrite BF, EF in X.
      eapply frag_ext; [apply X; [intros q; unfold fresh; lia|unfold fresh; lia|reflexivity]|tauto| |tauto]. intros q. unfold fresh. lia.
  Qed.

  (** The transition to the common final state. *)
  Lemma alt_join d0 b s f Lp Lc ef no : good b -> alt d0 b s (Some f) Lp Lc true ef no ->
    exists F, grows d0 (add_transition (b_nfa b) (b_cur b) [] f) F /\ (f < count_states (b_nfa b))%nat /\
      count_states (add_transition (b_nfa b) (b_cur b) [] f) = count_states (b_nfa b) /\
      frag F (fresh d0 (b_nfa b)) s f (fun w => Lp w \/ Lc w) true true false.
  Proof.
    intros G (LS & Fp & Ip & Fc & Ic & GR & FP & FC & EI & DI).
    assert (NE : f <> s) by exact (fr_same _ _ _ _ _ _ _ _ FP eq_refl).
    assert (IF : Ip f) by (destruct (fr_e _ _ _ _ _ _ _ _ FP); [contradiction|assumption]).
    assert (LF : (f < count_states (b_nfa b))%nat) by (assert (fresh d0 (b_nfa b) f) by (apply EI; auto); unfold fresh in *; lia).
    destruct (add_transition_grows (b_nfa b) (b_cur b) [] f (gb_ok b G) nil_normal (gb_cur b G) LF) as (GT & CT).
    pose proof (frag_close _ _ _ _ _ _ _ _ f FC ltac:(intros X; apply (DI f IF X)) NE) as FC2.
    pose proof (frag_par _ _ _ _ _ _ _ _ FP FC2) as FA.
    exists (gunion Fp (gunion Fc (gedge (b_cur b) [] f))). split.
    { eapply grows_ext; [eapply grows_trans; eassumption|]. intros q t r. unfold gunion. tauto. }
    split; [exact LF|]. split; [exact CT|]. eapply frag_ext; [apply FA|tauto| |tauto].
    - intros q I1 [I2|I2]; [exfalso; apply (DI q I1 I2)|exact I2].
    - intros q. rewrite <- EI. split; [intros [X|X]; auto|intros [X|[X|X]]; [auto|auto|subst; auto]].
  Qed.

  Lemma alt_bar d0 b s fo st Lp Lc ef no : good b -> stk b s fo st -> alt d0 b s fo Lp Lc true ef no ->
    exists f, good (begin_or b) /\ b_stack (begin_or b) = (s, Some f) :: st /\
      alt d0 (begin_or b) s (Some f) (fun w => Lp w \/ Lc w) (fun w => w = []) true true true.
  Proof.
    intros G ST AL. pose proof (gb_cur b G) as LC. pose proof AL as (LS & _).
    assert (E : exists b2, b2 = match b_stack b with [] => with_stack b [(0%nat, None)] | _ => b end /\ b_stack b2 = (s, fo) :: st /\ good b2 /\ b_nfa b2 = b_nfa b /\ b_cur b2 = b_cur b /\
      begin_or b = at_state (match fo with
                 | None => let prev := b_prev b2 in let b := shift b2 [] in with_stack (at_state b (b_cur b) (b_next b) prev) ((s, Some (b_cur b)) :: st)
                 | Some f => with_nfa b2 (add_transition (b_nfa b2) (b_cur b2) [] f)
                 end) s (b_next (match fo with
                 | None => let prev := b_prev b2 in let b := shift b2 [] in with_stack (at_state b (b_cur b) (b_next b) prev) ((s, Some (b_cur b)) :: st)
                 | Some f => with_nfa b2 (add_transition (b_nfa b2) (b_cur b2) [] f)
                 end)) (b_prev (match fo with
                 | None => let prev := b_prev b2 in let b := shift b2 [] in with_stack (at_state b (b_cur b) (b_next b) prev) ((s, Some (b_cur b)) :: st)
                 | Some f => with_nfa b2 (add_transition (b_nfa b2) (b_cur b2) [] f)
                 end))).
    { eexists. split; [reflexivity|]. unfold RegexModel.begin_or. destruct ST as [E|(E & -> & -> & ->)]; rewrite E.
      - rewrite ?E. split; [reflexivity|]. split; [exact G|]. auto.
      - split; [reflexivity|]. split; [constructor; cbn; apply G|]. auto. }
    destruct E as (b2 & _ & ST2 & G2 & EN & EC & ->). clear ST.
    destruct fo as [f|].
    - rewrite <- EN, <- EC in *.
      assert (AL2 : alt d0 b2 s (Some f) Lp Lc true ef no).
      { destruct AL as (X & Y). split; [exact X|]. rewrite <- EN, <- EC in Y. exact Y. }
      destruct (alt_join d0 b2 s f Lp Lc ef no G2 AL2) as (F & GR & LF & CT & FR).
      exists f. cbn [at_state with_nfa b_stack b_next b_prev]. pose proof (gr_count _ _ _ GR) as CG. split; [|split; [exact ST2|]].
      + constructor; cbn; try apply G2; [apply (gr_ok _ _ _ GR)|lia].
      + split; [exact LS|]. cbn [b_nfa b_cur]. exists F, (fresh d0 (b_nfa b2)), gempty, (fun _ => False). split.
        { eapply grows_ext; [exact GR|]. intros q t r. unfold gunion, gempty. tauto. }
        split; [exact FR|]. split; [apply frag_empty|]. split; [|tauto]. intros q. unfold fresh. cbn [with_nfa at_state b_nfa]. rewrite CT. tauto.
    - destruct AL as (_ & NP & F & GR & FR). rewrite <- EN, <- EC in *. destruct (shift_new_adds b2 G2) as ((G3 & S3 & F3 & GR3 & FR3) & _).
      rewrite (shift_new b2 G2) in *. cbn [moved b_nfa b_cur b_stack b_next b_prev b_surr b_lower b_upper] in *.
      set (n := count_states (b_nfa b2)) in *. set (d3 := add_transition (snd (add_state (b_nfa b2))) (b_cur b2) [] n) in *.
      destruct (add_state_grows (b_nfa b2) (gb_ok b2 G2)) as (_ & AS2 & AS3).
      destruct (add_transition_grows (snd (add_state (b_nfa b2))) (b_cur b2) [] n (gr_ok _ _ _ AS2) nil_normal) as (G1 & C1); [unfold n; lia|unfold n; lia|].
      fold d3 in G1, C1. pose proof (gr_count _ _ _ GR) as CG.
      exists n. cbn [at_state with_stack moved b_stack b_next b_prev b_nfa b_cur b_surr b_lower b_upper]. split; [|split; [reflexivity|]].
      + constructor; cbn; try apply G2; [apply (gr_ok _ _ _ G1)|lia|reflexivity].
      + split; [exact LS|]. cbn [b_nfa b_cur].
        exists (gunion F (gedge (b_cur b2) [] n)), (fun q => fresh d0 (b_nfa b2) q \/ q = n), gempty, (fun _ => False). split.
        { eapply grows_ext; [eapply grows_trans; [exact GR|eapply grows_trans; [exact AS2|exact G1]]|]. intros q t r. unfold gunion, gempty. tauto. }
        split; [|split; [apply frag_empty|split; [|tauto]]].
        * eapply frag_ext; [apply (frag_close _ _ _ _ _ _ _ _ n FR); [unfold fresh, n; lia|unfold n; lia]|tauto|tauto|].
          intros w. specialize (NP w). tauto.
        * intros q. unfold fresh. cbn [moved with_nfa with_stack at_state b_nfa]. rewrite C1, AS3. fold n. lia.
  Qed.

  (** The end of the alternatives, by a bracket or by the end of the text. *)
  Lemma alt_pop d0 b s f st Lp Lc ef no : good b -> b_stack b = (s, Some f) :: st -> alt d0 b s (Some f) Lp Lc true ef no ->
    good (pop b) /\ b_stack (pop b) = st /\ b_prev (pop b) = s /\
    exists F, grows d0 (b_nfa (pop b)) F /\ frag F (fresh d0 (b_nfa (pop b))) s (b_cur (pop b)) (fun w => Lp w \/ Lc w) true true false.
  Proof.
    intros G ST AL. destruct (alt_join d0 b s f Lp Lc ef no G AL) as (F & GR & LF & CT & FR).
    unfold RegexModel.pop. rewrite ST. rewrite shift_to by apply G. cbn [with_stack at_state moved b_stack b_prev b_nfa b_cur b_next b_surr b_lower b_upper].
    split; [constructor; cbn; try apply G; [apply (gr_ok _ _ _ GR)|lia|reflexivity]|]. split; [reflexivity|]. split; [reflexivity|].
    exists F. split; [exact GR|]. apply (frag_ext _ _ _ _ _ _ _ _ _ _ _ FR); [tauto| |tauto]. intros q. unfold fresh. rewrite CT. tauto.
  Qed.

  Lemma alt_rejoin d0 b s f st Lp Lc ef no : good b -> b_stack b = (s, Some f) :: st -> alt d0 b s (Some f) Lp Lc true ef no ->
    good (rejoin b) /\ b_stack (rejoin b) = (s, None) :: st /\
    exists F, grows d0 (b_nfa (rejoin b)) F /\ frag F (fresh d0 (b_nfa (rejoin b))) s (b_cur (rejoin b)) (fun w => Lp w \/ Lc w) true true false.
  Proof.
    intros G ST AL. destruct (alt_join d0 b s f Lp Lc ef no G AL) as (F & GR & LF & CT & FR).
    unfold RegexModel.rejoin. rewrite ST. rewrite shift_to by apply G. cbn [with_stack at_state moved b_stack b_prev b_nfa b_cur b_next b_surr b_lower b_upper].
    split; [constructor; cbn; try apply G; [apply (gr_ok _ _ _ GR)|lia|reflexivity]|]. split; [reflexivity|].
    exists F. split; [exact GR|]. apply (frag_ext _ _ _ _ _ _ _ _ _ _ _ FR); [tauto| |tauto]. intros q. unfold fresh. rewrite CT. tauto.
  Qed.

  (** ** Repetition *)
  Lemma adds_edges b b' L bf ef no : good b -> adds b b' L bf ef no -> b_prev b' = b_cur b ->
    (bf = true -> ef = true -> adds b (star to_lower to_upper b') (l_star L) false false no) /\
    adds b (plus to_lower to_upper b') (l_cat L (l_star L)) false false no /\
    (bf = true -> ef = true -> adds b (opt to_lower to_upper b') (fun w => w = [] \/ L w) (negb no) (negb no) no) /\
    b_prev (star to_lower to_upper b') = b_cur b /\ b_prev (plus to_lower to_upper b') = b_cur b /\ b_prev (opt to_lower to_upper b') = b_cur b.
  Proof.
    intros G (G1 & S1 & F & GR & FR) P. pose proof (gr_count _ _ _ GR) as C1. pose proof (gb_cur b G) as LB. pose proof (gb_cur b' G1) as LC.
    unfold star, plus, opt. rewrite P.
    rewrite (shift_to (goto1 b' (b_cur b)) (b_cur b')) by apply G1. rewrite (shift_to (goto1 b' (b_cur b')) (b_cur b)) by apply G1.
    rewrite (shift_to (goto1 (moved _ _ _ _) (b_cur b')) (b_cur b)) by apply G1.
    cbn [moved goto1 goto2 at_state b_nfa b_cur b_next b_prev b_surr b_lower b_upper b_stack].
    destruct (add_transition_grows (b_nfa b') (b_cur b) [] (b_cur b') (gb_ok b' G1) nil_normal) as (GA & CA); [lia|lia|].
    destruct (add_transition_grows (b_nfa b') (b_cur b') [] (b_cur b) (gb_ok b' G1) nil_normal) as (GB & CB); [lia|lia|].
    destruct (add_transition_grows (add_transition (b_nfa b') (b_cur b) [] (b_cur b')) (b_cur b') [] (b_cur b) (gr_ok _ _ _ GA) nil_normal) as (GC & CC); [lia|lia|].
    split; [|split; [|split; [|auto]]].
    - intros -> ->. split; [constructor; cbn; try apply G1; [apply (gr_ok _ _ _ GC)|lia|reflexivity]|]. split; [exact S1|]. cbn [b_nfa b_cur].
      exists (gunion F (gunion (gedge (b_cur b) [] (b_cur b')) (gedge (b_cur b') [] (b_cur b)))). split.
      { eapply grows_ext; [eapply grows_trans; [exact GR|eapply grows_trans; [exact GA|exact GC]]|]. tauto. }
      eapply frag_ext; [apply (frag_star _ _ _ _ _ _ FR)|tauto| |tauto]. intros q. unfold fresh. cbn [moved goto1 goto2 at_state with_nfa with_stack set_next push b_nfa]. rewrite CC, CA. tauto.
    - split; [constructor; cbn; try apply G1; [apply (gr_ok _ _ _ GB)|lia|reflexivity]|]. split; [exact S1|]. cbn [b_nfa b_cur].
      exists (gunion F (gedge (b_cur b') [] (b_cur b))). split; [eapply grows_trans; eassumption|].
      eapply frag_ext; [apply (frag_plus _ _ _ _ _ _ _ _ FR)|tauto| |tauto]. intros q. unfold fresh. cbn [moved goto1 goto2 at_state with_nfa with_stack set_next push b_nfa]. rewrite CB. tauto.
    - intros -> ->. split; [constructor; cbn; try apply G1; [apply (gr_ok _ _ _ GA)|lia|reflexivity]|]. split; [exact S1|]. cbn [b_nfa b_cur].
      exists (gunion F (gedge (b_cur b) [] (b_cur b'))). split; [eapply grows_trans; eassumption|].
      eapply frag_ext; [apply (frag_opt _ _ _ _ _ _ FR)|tauto| |tauto]. intros q. unfold fresh. cbn [moved goto1 goto2 at_state with_nfa with_stack set_next push b_nfa]. rewrite CA. tauto.
  Qed.

  (** ** The induction *)
  Definition first_free (r : re) : bool := match r with ROr r _ => begin_free r | _ => begin_free r end.
  Fixpoint alts_safe (r : re) : bool := match r with ROr r s => safe r && alts_safe s && first_free s | _ => safe r end.

  Lemma safe_first r : safe r = true -> begin_free r = true -> first_free r = true.
  Proof. destruct r; cbn [safe begin_free first_free]; auto. rewrite !Bool.andb_true_iff. tauto. Qed.
  Lemma safe_alts r : safe r = true -> alts_safe r = true.
  Proof.
    induction r; cbn [safe alts_safe]; auto. rewrite !Bool.andb_true_iff. intros [[[H1 H2] H3] H4]. split; [split; [exact H1|apply IHr2, H2]|]. apply safe_first; assumption.
  Qed.

  Definition claim1 (r : re) : Prop := well_formed 1 r -> safe r = true -> forall b, good b ->
    exists b', adds b b' (matches r) (begin_free r) (end_free r) (nothing r) /\ (well_formed 2 r -> b_prev b' = b_cur b) /\
      forall tail res, eval tail b' res -> eval (text r ++ tail) b res.

  Definition claim0 (r : re) : Prop := well_formed 0 r -> alts_safe r = true -> forall d0 b s fo st Lp Lc no, good b -> stk b s fo st ->
    alt d0 b s fo Lp Lc true true no -> (forall w, Lc w <-> w = []) -> no = false \/ first_free r = true ->
    exists b' fo' Lp' Lc' ef' no', good b' /\ stk b' s fo' st /\ alt d0 b' s fo' Lp' Lc' true ef' no' /\
      (forall w, Lp' w \/ Lc' w <-> Lp w \/ matches r w) /\
      (match r with ROr _ _ => exists f, fo' = Some f | _ => True end) /\ (forall f, fo = Some f -> exists f', fo' = Some f') /\
      (forall f, fo' = Some f -> b_stack b' = (s, Some f) :: st) /\
      forall tail res, eval tail b' res -> eval (text r ++ tail) b res.

  Lemma wf_weak r : forall l l', (l <= l')%nat -> well_formed l' r -> well_formed l r.
  Proof.
    destruct r; cbn [well_formed_in]; intros l l' L; auto; try lia.
    - intros (H1 & H2). split; [lia|exact H2].
    - intros (H1 & H2). split; [lia|exact H2].
  Qed.
  Lemma wf_top r : (match r with ROr _ _ => False | _ => True end) -> well_formed 0 r -> well_formed 1 r.
  Proof. destruct r; cbn [well_formed_in]; try tauto; intros _; [lia|intros (H1 & H2); split; [lia|exact H2]]. Qed.

  Lemma l_cat_nil_l (L M : lang) : (forall w, L w <-> w = []) -> forall w, l_cat L M w <-> M w.
  Proof.
    intros H w. unfold l_cat. split.
    - intros (u & v & -> & X & Y). apply H in X. subst u. exact Y.
    - intros X. exists [], w. split; [reflexivity|]. split; [apply H; reflexivity|exact X].
  Qed.

  Lemma claim0_of_1 r : (match r with ROr _ _ => False | _ => True end) -> claim1 r -> claim0 r.
  Proof.
    intros NO C W S d0 b s fo st Lp Lc no G ST AL NL FF.
    assert (S1 : safe r = true) by (destruct r; try exact S; destruct NO).
    assert (F1 : first_free r = begin_free r) by (destruct r; try reflexivity; destruct NO).
    destruct (C (wf_top r NO W) S1 b G) as (b' & AD & _ & EV). rewrite F1 in FF.
    exists b', fo, Lp, (l_cat Lc (matches r)), (end_free r), (no && nothing r)%bool. pose proof AD as (G' & SE & _). split; [exact G'|].
    split; [unfold stk; rewrite SE; exact ST|]. split; [eapply alt_step; eassumption|]. split; [intros w; rewrite (l_cat_nil_l Lc (matches r) NL); tauto|]. split; [destruct r; try exact I; destruct NO|].
    split; [eauto|]. split; [|exact EV]. intros f ->. rewrite SE. destruct ST as [ST|(_ & _ & X & _)]; [exact ST|discriminate X].
  Qed.

  Lemma good_push b : good b -> good (push b).
  Proof. intros [A1 A2 A3 A4 A5 A6]. constructor; assumption. Qed.

  Lemma pop_none b s st : b_stack b = (s, None) :: st -> pop b = with_stack (at_state b (b_cur b) (b_next b) s) st.
  Proof. intros E. unfold RegexModel.pop. rewrite E. reflexivity. Qed.
  Lemma good_pop_none b s st : good b -> b_stack b = (s, None) :: st -> good (pop b).
  Proof. intros [A1 A2 A3 A4 A5 A6] E. rewrite (pop_none b s st E). constructor; assumption. Qed.

  (** A name stands for its definition in brackets, behind an empty transition. *)
  Definition is_or (r : re) : bool := match r with ROr _ _ => true | _ => false end.

  Definition both (r : re) : Prop := claim1 r /\ claim0 r.

  (** Nothing *)
  Lemma both_empty : both REmpty.
  Proof.
    
      assert (C : claim1 REmpty).
      { intros W S b G. exists b. split; [apply adds_refl, G|]. split; [cbn; lia|]. intros tail res H. exact H. }
      split; [exact C|apply claim0_of_1; [exact I|exact C]].
  Qed.

  (** Atoms *)
  Lemma both_atom a : both (RAtom a).
  Proof.
    
      assert (C : claim1 (RAtom a)).
      { intros (W1 & W2) S b G.
        assert (NE : exists x, atom_has a x).
        { destruct a as [c| |neg ms]; [exists (chr_value c); reflexivity|exists 0; unfold atom_has, c_MaxSymbol; lia|apply W1]. }
        destruct (eval_atom (A := A) to_lower to_upper expressions literals category defined a [] W1) as (s0 & N & M & _).
        assert (D : forall tail, exists s, normal s /\ (forall x, contains s x = true <-> atom_has a x) /\ forall b res, eval tail (shift b s) res -> eval (atom_text a ++ tail) b res)
          by (intros tail; apply eval_atom, W1).
        (* the set does not depend on the rest of the text *)
        assert (U : forall tail b res, eval tail (shift b s0) res -> eval (atom_text a ++ tail) b res).
        { intros tail b0 res H. destruct (D tail) as (s1 & N1 & M1 & E1). apply E1.
          assert (ES : s1 = s0) by (apply (wf_ext s1 s0 (normal_wf _ N1) (normal_wf _ N)); intros x; rewrite <- !contains_spec by (apply normal_wf; assumption); rewrite M1, M; tauto). rewrite ES. exact H. }
        destruct (shift_chars b s0 (atom_has a) G N M NE W2) as (AD & PR). exists (shift b s0). split; [exact AD|]. split; [intros _; exact PR|]. intros tail res. apply U. }
      split; [exact C|apply claim0_of_1; [exact I|exact C]].
  Qed.

  (** Sequences *)
  Lemma both_cat r s : both r -> both s -> both (RCat r s).
  Proof.
    intros [IHr1 IHr0] [IHs1 IHs0]. 
      assert (C : claim1 (RCat r s)).
      { intros (_ & W1 & W2) S b G. cbn [safe] in S. rewrite !Bool.andb_true_iff in S. destruct S as [[S1 S2] S3].
        destruct (IHr1 W1 S1 b G) as (b1 & AD1 & _ & EV1). destruct (IHs1 W2 S2 b1 (proj1 AD1)) as (b2 & AD2 & _ & EV2).
        exists b2. split; [exact (adds_cat _ _ _ _ _ _ _ _ _ _ _ G AD1 AD2 S3)|]. split; [cbn [well_formed_in]; lia|].
        intros tail res H. cbn [text]. rewrite <- app_assoc. apply EV1, EV2, H. }
      split; [exact C|apply claim0_of_1; [exact I|exact C]].
  Qed.

  (** Alternatives *)
  Lemma both_or r s : both r -> both s -> both (ROr r s).
  Proof.
    intros [IHr1 IHr0] [IHs1 IHs0]. 
      split; [intros (W & _); lia|].
      intros (_ & W1 & W2) S d0 b s0 fo st Lp Lc no G ST AL NL FF. cbn [alts_safe first_free] in S, FF. rewrite !Bool.andb_true_iff in S. destruct S as [[S1 S2] S3].
      destruct (IHr1 W1 S1 b G) as (b1 & AD1 & _ & EV1). pose proof AD1 as (G1 & SE1 & _).
      pose proof (alt_step _ _ _ _ _ _ _ _ _ _ _ _ AL AD1 FF) as AL1.
      assert (ST1 : stk b1 s0 fo st) by (unfold stk; rewrite SE1; exact ST).
      destruct (alt_bar _ _ _ _ _ _ _ _ _ G1 ST1 AL1) as (f & G2 & ST2 & AL2).
      destruct (IHs0 W2 S2 d0 (begin_or b1) s0 (Some f) st _ _ true G2 (or_introl ST2) AL2 ltac:(tauto) (or_intror S3)) as (b' & fo' & Lp' & Lc' & ef' & no' & G' & ST' & AL' & EL & _ & KF & KS & EV).
      exists b', fo', Lp', Lc', ef', no'. split; [exact G'|]. split; [exact ST'|]. split; [exact AL'|]. split.
      + intros w. rewrite EL. rewrite (l_cat_nil_l Lc (matches r) NL). cbn [RegexSpec.matches]. tauto.
      + split; [destruct (KF f eq_refl) as (f' & E); eauto|]. split; [intros f0 _; destruct (KF f eq_refl) as (f' & E); eauto|]. split; [exact KS|].
        intros tail res H. cbn [text]. rewrite <- !app_assoc. cbn [app]. apply EV1, eval_bar, EV, H.
  Qed.

  (** Star *)
  Lemma both_star r : both r -> both (RStar r).
  Proof.
    intros [IH1 IH0]. 
      assert (C : claim1 (RStar r)).
      { intros W S b G. cbn [safe well_formed_in] in S, W. rewrite !Bool.andb_true_iff in S. destruct S as [[S1 S2] S3].
        destruct (IH1 (wf_weak r 1 2 ltac:(lia) W) S1 b G) as (b1 & AD & PR & EV). specialize (PR W). rewrite S2, S3 in AD.
        destruct (adds_edges _ _ _ _ _ _ G AD PR) as (E1 & _ & _ & P1 & _). exists (star to_lower to_upper b1). split; [exact (E1 eq_refl eq_refl)|]. split; [auto|].
        intros tail res H. cbn [text]. rewrite <- app_assoc. cbn [app]. apply EV, eval_star, H. }
      split; [exact C|apply claim0_of_1; [exact I|exact C]].
  Qed.

  (** Plus *)
  Lemma both_plus r : both r -> both (RPlus r).
  Proof.
    intros [IH1 IH0]. 
      assert (C : claim1 (RPlus r)).
      { intros W S b G. cbn [safe well_formed_in] in S, W.
        destruct (IH1 (wf_weak r 1 2 ltac:(lia) W) S b G) as (b1 & AD & PR & EV). specialize (PR W).
        destruct (adds_edges _ _ _ _ _ _ G AD PR) as (_ & E1 & _ & _ & P1 & _). exists (plus to_lower to_upper b1). split; [exact E1|]. split; [auto|].
        intros tail res H. cbn [text]. rewrite <- app_assoc. cbn [app]. apply EV, eval_plus, H. }
      split; [exact C|apply claim0_of_1; [exact I|exact C]].
  Qed.

  (** Optional *)
  Lemma both_opt r : both r -> both (ROpt r).
  Proof.
    intros [IH1 IH0]. 
      assert (C : claim1 (ROpt r)).
      { intros W S b G. cbn [safe well_formed_in] in S, W. rewrite !Bool.andb_true_iff in S. destruct S as [[S1 S2] S3].
        destruct (IH1 (wf_weak r 1 2 ltac:(lia) W) S1 b G) as (b1 & AD & PR & EV). specialize (PR W). rewrite S2, S3 in AD.
        destruct (adds_edges _ _ _ _ _ _ G AD PR) as (_ & _ & E1 & _ & _ & P1). exists (opt to_lower to_upper b1). split; [exact (E1 eq_refl eq_refl)|]. split; [auto|].
        intros tail res H. cbn [text]. rewrite <- app_assoc. cbn [app]. apply EV, eval_opt, H. }
      split; [exact C|apply claim0_of_1; [exact I|exact C]].
  Qed.

  (** Brackets *)
  Lemma both_group r : both r -> both (RGroup r).
  Proof.
    intros [IH1 IH0]. 
      assert (C : claim1 (RGroup r)).
      { intros W S b G. cbn [safe well_formed_in] in S, W. pose proof (good_push b G) as GP.
        destruct (is_or r) eqn:OR.
        - assert (ALT : alt (b_nfa b) (push b) (b_cur b) None (fun _ => False) (fun w => w = []) true true true).
          { split; [apply gb_cur, G|]. split; [tauto|]. exists gempty. split; [apply grows_refl, G|].
            apply (frag_ext _ _ _ _ _ _ _ _ _ _ _ (frag_empty (b_cur b))); [tauto| |tauto]. intros q. unfold fresh. cbn [push with_stack b_nfa]. lia. }
          assert (FF : first_free r = true).
          { destruct r; try discriminate OR. cbn [safe first_free] in *. rewrite !Bool.andb_true_iff in S. tauto. }
          destruct (IH0 W (safe_alts r S) (b_nfa b) (push b) (b_cur b) None (b_stack b) _ _ true GP (or_introl eq_refl) ALT ltac:(tauto) (or_intror FF))
            as (b' & fo' & Lp' & Lc' & ef' & no' & G' & ST' & AL' & EL & KO & _ & KS & EV).
          assert (KO' : exists f, fo' = Some f) by (destruct r; try discriminate OR; exact KO). destruct KO' as (f & ->).
          destruct (alt_pop _ _ _ _ _ _ _ _ _ G' (KS f eq_refl) AL') as (G2 & S2 & P2 & F & GR & FR).
          exists (pop b'). split; [|split; [intros _; exact P2|]].
          + destruct r; try discriminate OR. cbn [begin_free end_free nothing]. split; [exact G2|]. split; [exact S2|]. exists F. split; [exact GR|].
            apply (frag_ext _ _ _ _ _ _ _ _ _ _ _ FR); [tauto|tauto|]. intros w. rewrite EL. cbn [RegexSpec.matches]. tauto.
          + intros tail res H. cbn [text app]. apply eval_open. rewrite <- app_assoc. cbn [app]. apply EV, eval_close, H.
        - assert (W1 : well_formed 1 r) by (apply wf_top; [destruct r; try exact I; discriminate OR|exact W]).
          destruct (IH1 W1 S (push b) GP) as (b1 & AD & _ & EV). pose proof AD as (G1 & S1 & _). cbn [push with_stack b_stack] in S1.
          exists (pop b1). split; [|split].
          + apply (adds_move b (push b) b1 _ _ _ _ _ AD eq_refl eq_refl (good_pop_none _ _ _ G1 S1)); rewrite (pop_none _ _ _ S1); reflexivity.
          + intros _. rewrite (pop_none _ _ _ S1). reflexivity.
          + intros tail res H. cbn [text app]. apply eval_open. rewrite <- app_assoc. cbn [app]. apply EV, eval_close, H. }
      split; [exact C|apply claim0_of_1; [exact I|exact C]].
  Qed.

  (** Names of expressions *)
  Lemma both_name name r : both r -> both (RName name r).
  Proof.
    intros [IH1 IH0]. 
      assert (C : claim1 (RName name r)).
      { intros (W1 & WD & W2 & W3) S b G. pose proof (good_push b G) as GP. destruct (shift_new_adds (push b) GP) as (AD0 & _). set (b0 := shift (push b) []) in *.
        pose proof AD0 as (G0 & S0 & F0 & GR0 & FR0). cbn [push with_stack b_stack b_nfa b_cur] in S0, GR0, FR0.
        destruct (is_or r) eqn:OR.
        - assert (ALT : alt (b_nfa b) b0 (b_cur b) None (fun _ => False) (fun w => w = []) true true false).
          { split; [apply gb_cur, G|]. split; [tauto|]. exists F0. auto. }
          assert (SA : alts_safe r = true).
          { destruct r as [| | |r1 r2| | | | | | | |]; try discriminate OR. cbn [safe alts_safe] in *. rewrite !Bool.andb_true_iff in S. destruct S as [[S1 S2] S3]. rewrite S1, (safe_alts r2 S2), (safe_first r2 S2 S3). reflexivity. }
          destruct (IH0 W3 SA (b_nfa b) b0 (b_cur b) None (b_stack b) _ _ false G0 (or_introl S0) ALT ltac:(tauto) (or_introl eq_refl))
            as (b' & fo' & Lp' & Lc' & ef' & no' & G' & ST' & AL' & EL & KO & _ & KS & EV).
          assert (KO' : exists f, fo' = Some f) by (destruct r; try discriminate OR; exact KO). destruct KO' as (f & ->).
          destruct (alt_rejoin _ _ _ _ _ _ _ _ _ G' (KS f eq_refl) AL') as (G2 & S2 & F & GR & FR).
          exists (pop (rejoin b')). split; [|split].
          + pose proof (good_pop_none _ _ _ G2 S2) as G3. rewrite (pop_none _ _ _ S2) in *. split; [exact G3|]. split; [reflexivity|]. exists F. cbn [with_stack at_state b_nfa b_cur].
            split; [exact GR|]. destruct r; try discriminate OR. cbn [begin_free end_free nothing].
            apply (frag_ext _ _ _ _ _ _ _ _ _ _ _ FR); [tauto|tauto|]. intros w. rewrite EL. cbn [RegexSpec.matches]. tauto.
          + intros _. rewrite (pop_none _ _ _ S2). reflexivity.
          + intros tail res H. cbn [text app]. rewrite <- app_assoc. cbn [app]. apply (eval_name _ _ _ _ _ _ name (text r) tail b (rejoin b') res W1 WD W2); [|exact H].
            fold b0. rewrite <- (app_nil_r (text r)). apply EV, eval_end.
        - assert (W4 : well_formed 1 r) by (apply wf_top; [destruct r; try exact I; discriminate OR|exact W3]).
          assert (S4 : safe r = true) by (destruct r; try discriminate OR; exact S).
          destruct (IH1 W4 S4 b0 G0) as (b1 & AD & _ & EV). pose proof AD as (G1 & S1 & _). rewrite S0 in S1.
          pose proof (adds_cat _ _ _ _ _ _ _ _ _ _ _ GP AD0 AD eq_refl) as AD2. cbn [negb orb andb] in AD2.
          replace (end_free r && (negb (nothing r) || true))%bool with (end_free r) in AD2 by (destruct (end_free r), (nothing r); reflexivity).
          assert (RJ : rejoin b1 = b1) by (unfold RegexModel.rejoin; rewrite S1; reflexivity).
          exists (pop b1). split; [|split].
          + apply (adds_lang _ _ (l_cat (fun w => w = []) (matches r))); [|intros w; cbn [RegexSpec.matches]; rewrite (l_cat_nil_l (fun w => w = []) (matches r) ltac:(tauto)); tauto].
            replace (end_free (RName name r)) with (end_free r) by reflexivity.
            apply (adds_move b (push b) b1 _ _ _ _ _ AD2 eq_refl eq_refl (good_pop_none _ _ _ G1 S1)); rewrite (pop_none _ _ _ S1); reflexivity.
          + intros _. rewrite (pop_none _ _ _ S1). reflexivity.
          + intros tail res H. cbn [text app]. rewrite <- app_assoc. cbn [app]. apply (eval_name _ _ _ _ _ _ name (text r) tail b b1 res W1 WD W2); [|exact H].
            fold b0. rewrite <- (app_nil_r (text r)). apply EV. rewrite <- RJ at 2. apply eval_end. }
      split; [exact C|apply claim0_of_1; [exact I|exact C]].
  Qed.

  (** Names of literals *)
  Lemma both_word name word : both (RWord name word).
  Proof.
    
      assert (C : claim1 (RWord name word)).
      { intros (W1 & WD & W2 & W3 & W4) S b G.
        assert (GB : good (builder_at (b_nfa b) surr nocase (b_cur b))) by (constructor; cbn; try reflexivity; apply G).
        pose proof (word_adds word W4 _ GB) as AD. set (b1 := add_literal_at to_lower to_upper (builder_at (b_nfa b) surr nocase (b_cur b)) word) in *.
        assert (EL : add_literal to_lower to_upper (b_nfa b) (b_surr b) (b_lower b) (b_cur b) word = (b_cur b1, b_nfa b1)).
        { unfold add_literal. destruct (Nat.leb_spec (count_states (b_nfa b)) (b_cur b)) as [X|_]; [pose proof (gb_cur b G); lia|]. rewrite (gb_surr b G), (gb_lower b G). reflexivity. }
        pose proof AD as (G1 & _). set (b2 := goto1 (with_nfa (push b) (b_nfa b1)) (b_cur b1)).
        assert (S2 : b_stack b2 = (b_cur b, None) :: b_stack b) by reflexivity.
        assert (G2 : good b2) by (constructor; cbn; try apply G; [apply G1|apply G1|reflexivity]).
        exists (pop b2). split; [|split].
        - apply (adds_move b (builder_at (b_nfa b) surr nocase (b_cur b)) b1 _ _ _ _ _ AD eq_refl eq_refl (good_pop_none _ _ _ G2 S2)); rewrite (pop_none _ _ _ S2); reflexivity.
        - intros _. rewrite (pop_none _ _ _ S2). reflexivity.
        - intros tail res H. cbn [text app]. rewrite <- app_assoc. cbn [app]. eapply eval_word; eauto. }
      split; [exact C|apply claim0_of_1; [exact I|exact C]].
  Qed.

  (** Categories of characters *)
  Lemma both_chars name has : both (RChars name has).
  Proof.

      assert (C : claim1 (RChars name has)).
      { intros (W1 & WD & W2 & W3 & (s0 & WC & N & M) & NE & W4) S b G. pose proof (good_push b G) as GP.
        destruct (shift_chars (push b) s0 has GP N M NE W4) as (AD & PR). pose proof AD as (G1 & S1 & _).
        assert (S2 : b_stack (shift (push b) s0) = (b_cur b, None) :: b_stack b) by exact S1.
        exists (pop (shift (push b) s0)). split; [|split].
        - apply (adds_move b (push b) (shift (push b) s0) _ _ _ _ _ AD eq_refl eq_refl (good_pop_none _ _ _ G1 S2)); rewrite (pop_none _ _ _ S2); reflexivity.
        - intros _. rewrite (pop_none _ _ _ S2). reflexivity.
        - intros tail res H. cbn [text app]. rewrite <- app_assoc. cbn [app]. eapply eval_chars; eauto. }
      split; [exact C|apply claim0_of_1; [exact I|exact C]].
  Qed.

  (** ** The whole expression *)
  Lemma good_at d q : ndfa_ok d -> (q < count_states d)%nat -> good (builder_at d surr nocase q).
  Proof. intros O L. constructor; cbn; auto. Qed.

  Lemma whole_lemma (r : re) (d : ndfa A) (init : nat) : ndfa_ok d -> (init < count_states d)%nat ->
    both r -> well_formed 0 r -> safe_whole r = true -> (init = 0%nat \/ is_or r = false) ->
    exists d' final fuel0, (forall fuel, (fuel0 <= fuel)%nat ->
        add_regex to_lower to_upper expressions literals category defined fuel d surr nocase init (text r) = Some (final, d')) /\
      ndfa_ok d' /\ n_accept d' = n_accept d /\ (count_states d <= final < count_states d')%nat /\
      (forall q w, (q < count_states d)%nat -> path d' q w final <-> exists u v, w = u ++ v /\ path d q u init /\ matches r v) /\
      (forall q q' w, (q < count_states d)%nat -> (q' < count_states d)%nat -> path d' q w q' <-> path d q w q').
  Proof.
    intros OK LI (C1 & C0) W S TOP. pose proof (good_at d init OK LI) as GB. set (bb := builder_at d surr nocase init) in *.
    destruct (shift_new_adds bb GB) as (AD0 & _). set (b0 := shift bb []) in *. pose proof AD0 as (G0 & S0 & F0 & GR0 & FR0). cbn [bb builder_at b_stack b_nfa b_cur] in S0, GR0, FR0.
    assert (FIN : exists b1 F ef, eval (text r) b0 b1 /\ grows d (b_nfa b1) F /\ frag F (fresh d (b_nfa b1)) init (b_cur b1) (matches r) true ef false).
    { destruct (is_or r) eqn:OR.
      - destruct TOP as [ -> | X]; [|discriminate X].
        assert (ALT : alt d b0 0 None (fun _ => False) (fun w => w = []) true true false) by (split; [exact LI|split; [tauto|exists F0; auto]]).
        assert (SA : alts_safe r = true).
        { destruct r as [| | |r1 r2| | | | | | | |]; try discriminate OR. cbn [safe_whole alts_safe] in *. rewrite !Bool.andb_true_iff in S. destruct S as [[S1 S2] S3]. rewrite S1, (safe_alts r2 S2), (safe_first r2 S2 S3). reflexivity. }
        destruct (C0 W SA d b0 0%nat None [] _ _ false G0 (or_intror (conj S0 (conj eq_refl (conj eq_refl eq_refl)))) ALT ltac:(tauto) (or_introl eq_refl))
          as (b' & fo' & Lp' & Lc' & ef' & no' & G' & ST' & AL' & EL & KO & _ & KS & EV).
        assert (KO' : exists f, fo' = Some f) by (destruct r; try discriminate OR; exact KO). destruct KO' as (f & ->).
        destruct (alt_rejoin _ _ _ _ _ _ _ _ _ G' (KS f eq_refl) AL') as (G2 & S2 & F & GR & FR).
        exists (rejoin b'), F, true. split; [rewrite <- (app_nil_r (text r)); apply EV, eval_end|]. split; [exact GR|].
        apply (frag_ext _ _ _ _ _ _ _ _ _ _ _ FR); [tauto|tauto|]. intros w. rewrite EL. tauto.
      - assert (W4 : well_formed 1 r) by (apply wf_top; [destruct r; try exact I; discriminate OR|exact W]).
        assert (S4 : safe r = true) by (destruct r; try discriminate OR; exact S).
        destruct (C1 W4 S4 b0 G0) as (b1 & AD & _ & EV). pose proof AD as (G1 & S1 & _). rewrite S0 in S1.
        destruct (adds_cat _ _ _ _ _ _ _ _ _ _ _ GB AD0 AD eq_refl) as (_ & _ & F & GR & FR). cbn [negb orb andb] in FR.
        assert (RJ : rejoin b1 = b1) by (unfold RegexModel.rejoin; rewrite S1; reflexivity).
        exists b1, F, (end_free r && (negb (nothing r) || true))%bool. split; [rewrite <- (app_nil_r (text r)); apply EV; rewrite <- RJ at 2; apply eval_end|]. split; [exact GR|].
        apply (frag_ext _ _ _ _ _ _ _ _ _ _ _ FR); [tauto|tauto|]. intros w. rewrite (l_cat_nil_l (fun w => w = []) (matches r) ltac:(tauto)). tauto. }
    destruct FIN as (b1 & F & ef & (k & EV) & GR & FR). exists (b_nfa b1), (b_cur b1), k.
    destruct (added_paths d b1 F init _ _ _ OK LI GR FR eq_refl) as (LE & P1 & P2).
    split; [|split; [apply (gr_ok _ _ _ GR)|split; [apply (gr_accept _ _ _ GR)|auto]]].
    intros fuel LF. unfold add_regex. destruct (Nat.leb_spec (count_states d) init) as [X|_]; [lia|]. fold bb b0. rewrite (run_more _ _ _ _ _ _ k fuel _ _ _ LF EV). reflexivity.
  Qed.

  (** ** Literals *)
  Theorem literal_lemma (word : list Z) (d : ndfa A) (init : nat) : ndfa_ok d -> (init < count_states d)%nat -> word <> [] ->
    Forall (fun c => 0 <= c < c_MaxSymbol /\ chars_ok (fun x => x = c)) word ->
    exists final d', add_literal to_lower to_upper d surr nocase init word = (final, d') /\
      ndfa_ok d' /\ n_accept d' = n_accept d /\ (count_states d <= final < count_states d')%nat /\
      (forall q w, (q < count_states d)%nat -> path d' q w final <-> exists u v, w = u ++ v /\ path d q u init /\ l_word word v) /\
      (forall q q' w, (q < count_states d)%nat -> (q' < count_states d)%nat -> path d' q w q' <-> path d q w q').
  Proof.
    intros OK LI NE FW. pose proof (good_at d init OK LI) as GB. destruct (word_adds word FW _ GB) as (G1 & S1 & F & GR & FR).
    set (b1 := add_literal_at to_lower to_upper (builder_at d surr nocase init) word) in *. cbn [builder_at b_nfa b_cur] in GR, FR.
    assert (NI : is_nil word = false) by (destruct word; [congruence|reflexivity]). rewrite NI in FR.
    destruct (added_paths d b1 F init _ _ _ OK LI GR FR eq_refl) as (LE & P1 & P2).
    exists (b_cur b1), (b_nfa b1). split; [|split; [apply (gr_ok _ _ _ GR)|split; [apply (gr_accept _ _ _ GR)|auto]]].
    unfold add_literal. destruct (Nat.leb_spec (count_states d) init) as [X|_]; [lia|]. reflexivity.
  Qed.
End RegexProofs.

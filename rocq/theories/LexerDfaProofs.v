(** Proofs about lexers made from automata. *)
From Verif Require Import Base OrdMap SymbolSetModel SymbolSetSpec SymbolMapModel SymbolMapSpec SymbolMapProofs.
From Verif Require Import NdfaModel NdfaSpec NdfaProofs DedupProofs ToDfaProofs SymbolTableModel SymbolTableSpec SymbolTableProofs StateMachineModel StateMachineSpec StateMachineProofs.
From Verif Require Import LexerModel LexerSpec LexerProofs.
Local Open Scope Z_scope.

Section Dfa.
  Context {A : Type}.
  Variable d : ndfa A.
  Variable less : A -> A -> bool.
  Variable symbol : A -> Z.
  Hypothesis OK : ndfa_ok d.
  Hypothesis DET : deterministic d.
  Hypothesis ORD : action_order less.
  Variable step : Z -> Z -> option Z.
  Variable text : list Z.
  Hypothesis STEP : forall q c, (q < count_states d)%nat -> In c text -> exists r, step (Z.of_nat q) c = Some r /\ moves d q c r.

  Let acc := accept_at (accept_table less symbol d).
  Let valid_state := valid_state d.

  Lemma accept_at_spec q : valid_state q -> acc q = Some (fill_accept less symbol (actions_for_state d (Z.to_nat q))).
  Proof.
    intros H. unfold valid_state, LexerSpec.valid_state in H. unfold acc, accept_at, accept_table. replace (q <? 0) with false by lia.
    rewrite nth_error_map, (nth_error_nth' _ 0%nat) by (rewrite seq_length; lia). rewrite seq_nth by lia. reflexivity.
  Qed.

  Lemma dfa_tables_ok : tables_ok step acc valid_state text.
  Proof.
    intros q c V Hc. unfold valid_state, LexerSpec.valid_state in V. destruct (STEP (Z.to_nat q) c ltac:(lia) Hc) as (r & E & M). rewrite Z2Nat.id in E by lia.
    exists r. split; [exact E|]. intros Hr. destruct (moves_target d OK _ _ _ M) as [->|B]; [lia|]. split; [exact B|].
    eexists. apply accept_at_spec. exact B.
  Qed.

  Lemma dfa_matches q p a : valid_state q -> incl p text -> matches step acc q p a ->
    p <> [] /\ exists b, accepts d (Z.to_nat q) p b /\ symbol b = a /\ forall b', accepts d (Z.to_nat q) p b' -> less b b' = false.
  Proof.
    intros V I [NE (s & R & Hs & Ha & H0)]. split; [exact NE|]. unfold valid_state, LexerSpec.valid_state in V.
    destruct (run_word_lemma d OK DET step p (Z.to_nat q)) as (r & E & B & P); [lia|intros; apply STEP; auto|].
    rewrite Z2Nat.id in E by lia. rewrite E in R. inversion R; subst r. assert (VS : valid_state s) by (unfold valid_state, LexerSpec.valid_state; lia).
    rewrite accept_at_spec in Ha by exact VS. inversion Ha as [Ha']. destruct ORD as [O1 O2 O3].
    destruct (actions_for_state d (Z.to_nat s)) as [|x l] eqn:EA; [cbn in Ha'; lia|]. rewrite <- EA in *.
    destruct (fill_accept_spec less symbol O1 O2 O3 (actions_for_state d (Z.to_nat s))) as (h & H1 & H2 & H3); [rewrite EA; discriminate|].
    exists h. rewrite H2. split; [|split; [reflexivity|]].
    - exists (Z.to_nat s). split; [apply P; lia|exact H1].
    - intros b' (q' & P' & Hb). apply P in P'. subst s. rewrite Nat2Z.id in H3. auto.
  Qed.

  Lemma dfa_matches_conv q p b : valid_state q -> incl p text -> p <> [] -> (forall w a, accepts d (Z.to_nat q) w a -> 0 <= symbol a) -> accepts d (Z.to_nat q) p b -> exists a, matches step acc q p a.
  Proof.
    intros V I NE SYM (q' & P' & Hb). unfold valid_state, LexerSpec.valid_state in V.
    destruct (run_word_lemma d OK DET step p (Z.to_nat q)) as (r & E & B & P); [lia|intros; apply STEP; auto|].
    rewrite Z2Nat.id in E by lia. pose proof P' as P0. apply P in P'. subst r. destruct ORD as [O1 O2 O3].
    destruct (fill_accept_spec less symbol O1 O2 O3 (actions_for_state d q')) as (h & H1 & H2 & H3); [intros X; rewrite X in Hb; destruct Hb|].
    exists (symbol h). split; [exact NE|]. exists (Z.of_nat q'). split; [exact E|]. split; [lia|].
    rewrite accept_at_spec by (unfold valid_state, LexerSpec.valid_state; lia). rewrite Nat2Z.id, H2. split; [reflexivity|]. apply (SYM p). exists q'. auto.
  Qed.

  Lemma dfa_munch q t p a : valid_state q -> incl t text -> (forall w a, accepts d (Z.to_nat q) w a -> 0 <= symbol a) -> longest_match step acc q t p a -> munch less symbol (accepts d (Z.to_nat q)) t p a.
  Proof.
    intros V I SYM [[rest E] H]. split; [exists rest; exact E|].
    assert (IP : forall p' r', t = p' ++ r' -> incl p' text) by (intros p' r' -> x Hx; apply I, in_or_app; auto).
    destruct H as [[M H]|(H1 & H2 & H3)].
    - left. destruct (dfa_matches q p a V (IP _ _ E) M) as [NE HB]. split; [exact NE|]. split; [exact HB|].
      intros p' r' b' E' NE' L. destruct (dfa_matches_conv q p' b' V (IP _ _ E') NE' SYM L) as [a' M']. eapply H; eauto.
    - right. repeat split; auto. intros p' r' b' E' NE' L. destruct (dfa_matches_conv q p' b' V (IP _ _ E') NE' SYM L) as [a' M']. eapply H3; eauto.
  Qed.

  Hypothesis NEOI : ~ In end_of_input text.

  Theorem dfa_lex_lemma first newlineState client n :
    valid_state first -> valid_state newlineState -> (forall seen s, client seen = Some s -> valid_state s) ->
    (forall seen w a, accepts d (Z.to_nat (start_state first newlineState client seen)) w a -> 0 <= symbol a) -> (length text < n)%nat ->
    exists ls st', read_all step acc newlineState n client (stream_new first text) [] = Some (ls, st') /\
      contents ls = text /\
      (forall ls1 l ls2, ls = ls1 ++ l :: ls2 ->
         lx_content l <> [] /\ munch less symbol (accepts d (Z.to_nat (start_state first newlineState client (rev ls1)))) (contents (l :: ls2)) (lx_content l) (lx_matched l)) /\
      ds_buffer st' = [] /\ ds_input st' = [].
  Proof.
    intros V1 VN VC SYM L. assert (V0 : valid_state 0) by (unfold valid_state, LexerSpec.valid_state in *; lia).
    destruct (lex_all_lemma step acc first newlineState valid_state client V1 V0 VN VC) with (input := text) (n := n) as (ls & st' & R1 & R2 & R3 & R4 & R5);
      [intros s H; unfold valid_state, LexerSpec.valid_state in H; lia|apply dfa_tables_ok|exact NEOI|exact L|].
    exists ls, st'. split; [exact R1|]. split; [exact R2|]. split; [|exact R5]. intros ls1 l ls2 E. split.
    - rewrite Forall_forall in R3. apply R3. rewrite E. apply in_or_app. cbn. auto.
    - destruct (R4 _ _ _ E) as [R _]. apply dfa_munch; [| |apply SYM|exact R].
      + unfold start_state, default_state. destruct (client (rev ls1)) eqn:EC; [eapply VC; eauto|]. destruct (rev ls1); [exact V1|]. destruct (is_break_b _); assumption.
      + intros x Hx. rewrite <- R2, E. unfold contents in *. rewrite map_app, concat_app. apply in_or_app. auto.
  Qed.
End Dfa.

Lemma base_order : action_order action_less.
Proof. constructor; unfold action_less; intros; lia. Qed.

Lemma munch_ext {A} (less : A -> A -> bool) symbol (L L' : list Z -> A -> Prop) text p a :
  (forall w b, L w b <-> L' w b) -> munch less symbol L text p a -> munch less symbol L' text p a.
Proof.
  intros E [H1 H]. split; [exact H1|]. destruct H as [(N & (b & B1 & B2 & B3) & M)|(L1 & L2 & M)].
  - left. split; [exact N|]. split; [exists b; split; [apply E; exact B1|split; [exact B2|intros b' Hb; apply B3, E; exact Hb]]|].
    intros p' r' b' Ep NE Hl. eapply M; eauto. apply E. exact Hl.
  - right. repeat split; auto. intros p' r' b' Ep NE Hl. eapply M; eauto. apply E. exact Hl.
Qed.

Lemma machine_steps {A} k (d : ndfa A) step : ndfa_ok d -> disjoint_symbols d -> no_block_after_range (n_symbols d) -> fits k (n_symbols d) ->
  machine_of k d step -> forall q c, (q < count_states d)%nat -> 0 <= c < kind_limit k -> exists r, step (Z.of_nat q) c = Some r /\ moves d q c r.
Proof.
  intros OK DJ NB F M q c Hq Hc. pose proof (real_exact d OK DJ k c NB F Hc) as X. destruct M as [(rows & H & ->)|(rows & H & ->)].
  - eapply flat_machine_lemma; eauto.
  - eapply compact_machine_lemma; eauto.
Qed.

(** The whole way from an automaton built through the API. *)
Theorem pipeline_lemma {A} (eager : A -> bool) (less : A -> A -> bool) (symbol : A -> Z) (ops : list (@op A)) u fuel r k step text n :
  Forall op_valid ops -> all_compatible (n_symbols (build ops)) -> action_order less ->
  (forall q a, In a (actions_for_state (build ops) q) -> 0 <= symbol a) ->
  to_ndfa_with_unique_symbols (build ops) = Some u -> to_dfa eager fuel u [0%nat] = Some r ->
  machine_of k r step -> no_block_after_range (n_symbols u) -> fits k (n_symbols u) ->
  (forall c, In c text -> 0 <= c < kind_limit k) -> (length text < n)%nat ->
  exists ls st, read_all step (accept_at (accept_table less symbol r)) 0 n (fun _ => None) (stream_new 0 text) [] = Some (ls, st) /\
    contents ls = text /\
    forall ls1 l ls2, ls = ls1 ++ l :: ls2 -> lx_content l <> [] /\
      munch less symbol (fun w a => accepts (build ops) 0 w a /\ not_cut eager (build ops) 0 w) (contents (l :: ls2)) (lx_content l) (lx_matched l).
Proof.
  intros V C O SY EU ED M NB F TX L. pose proof (build_ok_lemma ops V) as OK.
  destruct (unique_lemma (build ops) OK C) as (u' & EU' & UOK & UDJ & _ & UC & UA & UP). rewrite EU in EU'. inversion EU'; subst u'.
  assert (C0 : (0 < count_states u)%nat).
  { rewrite UC. clear. unfold build. assert (G : forall os (d : ndfa A), (0 < count_states d)%nat -> (0 < count_states (fold_left do_op os d))%nat).
    { induction os as [|o os IH]; intros d H; [exact H|]. cbn. apply IH. destruct o as [|old sy new| |]; [| |exact H|exact H].
      - cbn. unfold count_states in *. cbn. rewrite app_length. lia.
      - cbn. unfold add_transition. destruct (Nat.leb _ old); [exact H|]. destruct (Nat.leb _ new); [exact H|]. destruct (sm_identifier _ _).
        unfold state_add, count_states in *. cbn [n_states]. rewrite set_nth_length. exact H. }
    apply G. cbn. lia. }
  destruct (to_dfa_correct eager u [0%nat] fuel r UOK UDJ) as (ROK & RV & RD & RS & RL & RA); [intros q [<-|[]]; exact C0|exact ED|].
  assert (RDJ : disjoint_symbols r) by (intros i j x; rewrite RS; apply UDJ).
  assert (LA : forall w a, accepts r 0 w a <-> accepts (build ops) 0 w a /\ not_cut eager (build ops) 0 w).
  { assert (AU : forall w a, accepts u 0 w a <-> accepts (build ops) 0 w a) by (intros w a; split; intros (q & P & H); exists q; [rewrite <- UA, <- UP|rewrite UA, UP]; auto).
    intros w a. rewrite (RA 0%nat 0%nat eq_refl w a), AU. apply and_iff_compat_l. split; intros H x y b E NE AB; (eapply H; [exact E|exact NE|apply AU; exact AB]). }
  rewrite <- RS in NB, F. cbn [length] in RL.
  destruct (dfa_lex_lemma r less symbol ROK RD O step text) with (first := 0) (newlineState := 0) (client := fun _ : list lexeme => @None Z) (n := n) as (ls & st & H1 & H2 & H3 & _); auto.
  - intros q c Hq Hc. eapply machine_steps; eauto.
  - intros H. specialize (TX _ H). unfold end_of_input in TX. lia.
  - unfold valid_state. lia.
  - unfold valid_state. lia.
  - intros seen s H. discriminate.
  - intros seen w a Ha. assert (start_state 0 0 (fun _ => None) seen = 0) as E by (unfold start_state, default_state; destruct seen; [reflexivity|]; destruct (is_break_b _); reflexivity).
    rewrite E in Ha. apply LA in Ha as [(q & _ & Ha) _]. eauto.
  - exists ls, st. split; [exact H1|]. split; [exact H2|]. intros ls1 l ls2 E. destruct (H3 _ _ _ E) as [N MU]. split; [exact N|].
    assert (start_state 0 0 (fun _ => None) (rev ls1) = 0) as E0 by (unfold start_state, default_state; destruct (rev ls1); [reflexivity|]; destruct (is_break_b _); reflexivity).
    rewrite E0 in MU. eapply munch_ext; [exact LA|exact MU].
Qed.

Theorem C16_dfa_lemma {A} (less : A -> A -> bool) (symbol : A -> Z) (d : ndfa A) k step text first newlineState client n :
  ndfa_ok d -> disjoint_symbols d -> deterministic d -> action_order less ->
  machine_of k d step -> no_block_after_range (n_symbols d) -> fits k (n_symbols d) -> (forall c, In c text -> 0 <= c < kind_limit k) ->
  valid_state d first -> valid_state d newlineState -> (forall seen s, client seen = Some s -> valid_state d s) ->
  (forall seen w a, accepts d (Z.to_nat (start_state first newlineState client seen)) w a -> 0 <= symbol a) ->
  (length text < n)%nat ->
  exists ls st, read_all step (accept_at (accept_table less symbol d)) newlineState n client (stream_new first text) [] = Some (ls, st) /\
    contents ls = text /\
    forall ls1 l ls2, ls = ls1 ++ l :: ls2 -> lx_content l <> [] /\
      munch less symbol (accepts d (Z.to_nat (start_state first newlineState client (rev ls1)))) (contents (l :: ls2)) (lx_content l) (lx_matched l).
Proof.
  intros OK DJ DET O M NB F TX V1 VN VC SYM L.
  destruct (dfa_lex_lemma d less symbol OK DET O step text) with (first := first) (newlineState := newlineState) (client := client) (n := n) as (ls & st & H1 & H2 & H3 & _); auto.
  - intros q c Hq Hc. eapply machine_steps; eauto.
  - intros H. specialize (TX _ H). unfold end_of_input in TX. lia.
  - exists ls, st. auto.
Qed.

Lemma language_order : action_order la_less.
Proof.
  constructor.
  - intros a. destruct (la_less a a) eqn:E; [|reflexivity]. apply la_less_spec in E. unfold better in E. intuition (try congruence; lia).
  - intros a b c H1 H2. rewrite la_less_spec in *. unfold better in *. intuition (try congruence; try lia).
    all: destruct (la_weak a), (la_weak b), (la_weak c); try discriminate; auto; right; split; auto; lia.
  - intros a b c H1 H2. destruct (la_less a c) eqn:E; [|reflexivity]. apply la_less_spec in E.
    assert (N1 : ~ better b a) by (rewrite <- la_less_spec; congruence). assert (N2 : ~ better c b) by (rewrite <- la_less_spec; congruence).
    exfalso. unfold better in *. destruct (la_weak a), (la_weak b), (la_weak c); intuition (try congruence; lia).
Qed.

Lemma mixed_lemma : exists a b, fill_accept any_less any_symbol [a; b] <> fill_accept any_less any_symbol [b; a] /\ any_less a b = true /\ any_less b a = true.
Proof. exists (Base_action 5), (Lang_action (mkLA 3 0 false)). vm_compute. split; [discriminate|auto]. Qed.

Lemma char_ok_lemma bytes : Forall (fun b => 0 <= b < 256) bytes -> ~ In 253 bytes -> ~ In end_of_input (map symbol_of_char bytes).
Proof.
  intros H N Hin. apply in_map_iff in Hin as (b & E & Hb). rewrite Forall_forall in H. specialize (H b Hb). apply N.
  unfold symbol_of_char, end_of_input in E. destruct (Z.ltb_spec b 128); [lia|]. replace 253 with b by lia. exact Hb.
Qed.

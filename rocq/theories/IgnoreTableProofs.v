(** Tables with and without ignored symbols: they agree on all other symbols. *)
From Verif Require Import Base OrdMap GrammarModel GrammarProofs FirstModel MachineModel ActionModel ActionProofs TableModel TableProofs TableProps RunModel RunSpec RunProofs RunTableProofs RunFuelProofs RewriteModel RewriteSpec RewriteProofs RewriteProps DriveProofs CompleteProofs.
From Coq Require Import Permutation.
Local Open Scope Z_scope.

Section Ignored.
  Context (symbols : list Z).
  Definition ignored_symbol (s : Z) : bool := existsb (Z.eqb s) symbols.
  Definition kept_action (a : action) : bool := match a_item a with ITerm s => negb (ignored_symbol s) | _ => true end.
  Definition kept_entry (e : entry) : bool := negb (ignored_symbol (e_symbol e)).
  Lemma ignored_in s : ignored_symbol s = true <-> In s symbols.
  Proof. unfold ignored_symbol. rewrite existsb_exists. split; [intros (x & I & E); apply Z.eqb_eq in E; subst; exact I|intros I; exists s; split; [exact I|apply Z.eqb_refl]]. Qed.
  Lemma kept_in a : kept_action a = true <-> ~ In (a_item a) (map ITerm symbols).
  Proof.
    unfold kept_action. destruct (a_item a) eqn:E; try (split; [intros _ X; apply in_map_iff in X; destruct X as (? & X & _); discriminate X|reflexivity]).
    rewrite negb_true_iff. split; [intros N X; apply in_map_iff in X; destruct X as (s & X & I); injection X as <-; apply ignored_in in I; congruence|]. intros N. destruct (ignored_symbol _) eqn:G; [|reflexivity]. exfalso. apply N, in_map, ignored_in, G.
  Qed.
  Lemma kept_all q acts : ssorted action_ltb acts -> (forall a, In a acts -> kept_action a = true) -> filter kept_action (ignored_rewrite (ignoring (map ITerm symbols)) q acts) = acts.
  Proof.
    intros S K. destruct (C32_actions (map ITerm symbols) q acts) as [S' _]. apply (ssorted_ext _ action_strict); [apply sorted_filter, S'|exact S|]. intros a. rewrite filter_In. split.
    - intros [I N]. apply kept_in in N. apply C32_others in I; assumption.
    - intros I. split; [|apply K, I]. apply C32_others; [apply kept_in, K, I|exact I].
  Qed.
  Lemma dropped q acts a : (forall a, In a acts -> kept_action a = true) -> In a (ignored_rewrite (ignoring (map ITerm symbols)) q acts) -> kept_action a = false -> a_type a = Ignore /\ is_terminal (a_item a) = true.
  Proof.
    intros K I N. apply C32_actions in I. destruct I as [H1 H2|b H1 H2 H3 H4|i H1 H2 H3].
    - apply K in H1. congruence.
    - apply K in H1. rewrite H4 in N. unfold kept_action, with_type in *. cbn in N. congruence.
    - subst a. split; [reflexivity|]. cbn. apply in_map_iff in H1. destruct H1 as (s & <- & _). reflexivity.
  Qed.

  Context (rid : rule -> Z) (rule_of : Z -> rule) (ident : item -> Z) (sort : list entry -> list entry) (sort_weak : list (Z * Z) -> list (Z * Z)) (SO : sorts entry_ltb sort).
  Lemma fill_kept q acts : (forall a, In a acts -> kept_action a = false -> is_reduction (a_type a) = false /\ is_terminal (a_item a) = true) -> forall ids eogs ts ns ids' eogs',
    fill rid ident q (filter kept_action acts) ids eogs = (ts, ns, ids', eogs') -> exists ts', fill rid ident q acts ids eogs = (ts', ns, ids', eogs') /\ filter kept_entry ts' = ts.
  Proof.
    induction acts as [|a acts IH]; intros D ids eogs ts ns ids' eogs' H; cbn [filter] in H; [cbn in H; injection H as <- <- <- <-; exists []; split; reflexivity|]. specialize (IH (fun b X => D b (or_intror X))). destruct (kept_action a) eqn:K.
    - cbn [fill] in H |- *. destruct (if is_reduction (a_type a) then _ else _) as [n ids1]. destruct (is_terminal (a_item a)) eqn:T.
      + destruct (fill rid ident q (filter kept_action acts) ids1 eogs) as [[[ts1 ns1] i1] e1] eqn:F. injection H as <- <- <- <-. destruct (IH _ _ _ _ _ _ F) as (ts' & -> & E). eexists. split; [reflexivity|]. cbn [filter]. unfold kept_entry at 1. cbn [e_symbol]. unfold kept_action in K. destruct (a_item a); try discriminate T. cbn [term_symbol]. rewrite K, E. reflexivity.
      + destruct (fill rid ident q (filter kept_action acts) ids1 _) as [[[ts1 ns1] i1] e1] eqn:F. injection H as <- <- <- <-. destruct (IH _ _ _ _ _ _ F) as (ts' & -> & E). eexists. split; [reflexivity|exact E].
    - destruct (D a (or_introl eq_refl) K) as [R T]. cbn [fill]. rewrite R, T. destruct (IH _ _ _ _ _ _ H) as (ts' & -> & E). eexists. split; [reflexivity|]. cbn [filter]. unfold kept_entry at 1. cbn [e_symbol]. unfold kept_action in K. destruct (a_item a); try discriminate T. cbn [term_symbol]. rewrite K. exact E.
  Qed.
  Lemma fill_states_kept actss : (forall acts, In acts actss -> ssorted action_ltb acts /\ forall a, In a acts -> kept_action a = true) -> forall q ids eogs tss nss ids' eogs',
    fill_states rid ident sort q actss ids eogs = (tss, nss, ids', eogs') -> exists tss', fill_states rid ident sort q (rewrite_states (ignored_rewrite (ignoring (map ITerm symbols))) q actss) ids eogs = (tss', nss, ids', eogs') /\
    Forall2 (fun l l' => exists ts ts', l = sort ts /\ l' = sort ts' /\ filter kept_entry ts' = ts) tss tss'.
  Proof.
    induction actss as [|acts actss IH]; intros OK q ids eogs tss nss ids' eogs' H; cbn [fill_states rewrite_states] in H |- *; [injection H as <- <- <- <-; exists []; split; [reflexivity|constructor]|].
    destruct (OK acts (or_introl eq_refl)) as [S K]. destruct (fill rid ident q acts ids eogs) as [[[ts ns] i1] e1] eqn:F. destruct (fill_states rid ident sort (q + 1) actss i1 e1) as [[[tss1 nss1] i2] e2] eqn:G. injection H as <- <- <- <-.
    rewrite <- (kept_all q acts S K) in F. apply fill_kept in F; [|intros a A N; destruct (dropped q acts a K A N) as [T1 T2]; split; [rewrite T1; reflexivity|exact T2]]. destruct F as (ts' & -> & E). destruct (IH (fun b X => OK b (or_intror X)) _ _ _ _ _ _ _ G) as (tss' & -> & X). eexists. split; [reflexivity|]. constructor; [exists ts, ts'; auto|exact X].
  Qed.

  Context (actss : list action_set) (OK : forall acts, In acts actss -> ssorted action_ltb acts /\ forall a, In a acts -> kept_action a = true).
  Context (DE : forall acts, In acts actss -> decided acts) (FI : fits rid rule_of actss).
  Let t := make_tables rid rule_of ident sort sort_weak actss [].
  Let t' := make_tables rid rule_of ident sort sort_weak (rewrite_states (ignored_rewrite (ignoring (map ITerm symbols))) 0 actss) [].
  Lemma tables_kept : t_nonterminals t' = t_nonterminals t /\ t_rules t' = t_rules t /\ t_guards t' = t_guards t /\ t_eoi t' = t_eoi t /\ t_weak t' = t_weak t /\
    Forall2 (fun l l' => exists ts ts', l = sort ts /\ l' = sort ts' /\ filter kept_entry ts' = ts) (t_terminals t) (t_terminals t').
  Proof.
    unfold t, t', make_tables. destruct (fill_states rid ident sort 0 actss [] []) as [[[tss nss] ids] eogs] eqn:F. apply fill_states_kept in F; [|exact OK]. destruct F as (tss' & -> & X). cbn. auto 10.
  Qed.
  Lemma few_equal (l l' l0 : list entry) : Permutation l0 l -> Permutation l0 l' -> (length l <= 1)%nat -> l = l'.
  Proof.
    intros P P' N. pose proof (Permutation_length P) as E. destruct l as [|a [|b l]]; cbn in N; [|destruct l0 as [|x [|y l0]]; cbn in E; try discriminate E|lia].
    - symmetry in P. apply Permutation_nil in P. subst. apply Permutation_nil in P'. congruence.
    - apply Permutation_length_1 in P. subst. apply Permutation_length_1_inv in P'. congruence.
  Qed.
  Lemma decided_few acts s : ssorted action_ltb acts -> decided acts -> (length (filter (fun a => item_eqb (a_item a) (ITerm s)) acts) <= 1)%nat.
  Proof.
    intros S D. pose proof (sorted_filter _ (fun a => item_eqb (a_item a) (ITerm s)) _ S) as SF. assert (X : forall a b, In a (filter (fun a => item_eqb (a_item a) (ITerm s)) acts) -> In b (filter (fun a => item_eqb (a_item a) (ITerm s)) acts) -> a = b).
    { intros a b A B. apply filter_In in A, B. destruct A as [A EA], B as [B EB]. apply item_eqb_spec in EA, EB. apply D; [exact A|exact B|congruence|right; exists s; exact EA]. }
    destruct (filter _ acts) as [|a [|b l]]; cbn; try lia. exfalso. assert (a = b) by (apply X; cbn; auto). subst b. inversion SF as [|? ? _ FA]; subst. inversion FA as [|? ? H _]; subst. assert (N := st_irrefl _ action_strict a). congruence.
  Qed.
  Lemma same_terminal q s : ignored_symbol s = false ->
    match find_terminal t q s, find_terminal t' q s with Some l, Some l' => scan s l = scan s l' | None, None => True | _, _ => False end.
  Proof.
    intros N. destruct tables_kept as (_ & _ & _ & _ & _ & F). unfold find_terminal, row. destruct (Z.ltb_spec q 0) as [Q|Q]; [exact Logic.I|].
    destruct (nth_error (t_terminals t) (Z.to_nat q)) as [l|] eqn:E.
    - destruct (Forall2_nth _ _ _ F _ _ E) as (l' & E' & ts & ts' & -> & -> & K). rewrite E'.
      assert (LN : (length (scan s (find_action s (sort ts))) <= 1)%nat).
      { assert (A : exists acts, nth_error actss (Z.to_nat q) = Some acts). { destruct (nth_error actss (Z.to_nat q)) eqn:A; [eauto|]. apply nth_error_None in A. assert (X := proj1 (nth_error_Some (t_terminals t) (Z.to_nat q)) ltac:(rewrite E; discriminate)). destruct (made_rows rid rule_of ident sort sort_weak actss [] SO) as [M _]. fold t in M. lia. }
        destruct A as (acts & A). destruct (C31_terminals_partial rid rule_of ident sort sort_weak actss [] (Z.to_nat q) acts s SO FI A) as (found & m & F' & P & D & _). fold t in F', D. rewrite Z2Nat.id in F' by lia. unfold find_terminal, row in F'. destruct (Z.ltb_spec q 0); [lia|]. rewrite E in F'. injection F' as <-.
        rewrite <- (Forall2_length _ _ _ D), (Permutation_length P). apply nth_error_In in A. apply decided_few; [apply OK, A|apply DE, A]. }
      assert (BS : forall ts, by_symbol (sort ts)) by (intros x; apply sorted_by_symbol; exact (proj2 (SO x))).
      eapply few_equal; [| |exact LN]; rewrite find_action_filter by apply BS.
      + apply permutation_filter, (proj1 (SO ts)).
      + rewrite <- K. assert (X : filter (fun e => e_symbol e =? s) (filter kept_entry ts') = filter (fun e => e_symbol e =? s) ts').
        { clear -N. induction ts' as [|e l IH]; [reflexivity|]. cbn [filter]. unfold kept_entry at 1. destruct (Z.eqb_spec (e_symbol e) s) as [E|E].
          - rewrite E, N. cbn [negb filter]. rewrite E, Z.eqb_refl, IH. reflexivity.
          - destruct (negb _); cbn [filter]; [destruct (Z.eqb_spec (e_symbol e) s); [contradiction|]|]; exact IH. }
        rewrite X. apply permutation_filter, (proj1 (SO ts')).
    - destruct (nth_error (t_terminals t') (Z.to_nat q)) as [l'|] eqn:E'; [|exact Logic.I]. destruct (Forall2_nth' _ _ _ F _ _ E') as (l & X & _). congruence.
  Qed.

  Context (PL : forall acts a, In acts actss -> In a acts -> a_type a <> Guard /\ a_type a <> WeakReduce).
  Lemma row_plain terminal q s l : find_symbol t terminal q s = Done l -> forall e, In e (scan s l) -> e_type e <> Guard /\ e_type e <> WeakReduce.
  Proof.
    intros F e I. assert (IL : In e l). { clear -I. induction l as [|x l IH]; [exact I|]. cbn [scan] in I. destruct (_ =? _); [|destruct I]. destruct I as [<-|I]; [left; reflexivity|right; apply IH, I]. }
    unfold find_symbol in F. assert (X : exists r, row q (if terminal then t_terminals t else t_nonterminals t) = Some r /\ In e r).
    { destruct terminal; unfold find_terminal, find_nonterminal in F; (destruct (row q _) as [r|]; [|discriminate F]); cbn [defined] in F; injection F as <-; exists r; (split; [reflexivity|]); unfold find_action in IL; rewrite <- (firstn_skipn (find_pos s r) r); apply in_app_iff; right; exact IL. }
    destruct X as (r & R & IR). destruct (row_entry rid rule_of ident sort sort_weak actss [] SO FI terminal q r e R IR) as (acts & a & _ & A & AI & _ & [DT _] & _). apply nth_error_In in A. destruct (PL _ _ A AI). split; congruence.
  Qed.
End Ignored.

(** * The parser *)
Section Parser.
  Context (t t' : tables) (ignored : Z -> bool).
  Context (SN : t_nonterminals t' = t_nonterminals t) (SR : t_rules t' = t_rules t) (SE : t_eoi t' = t_eoi t) (SW : t_weak t' = t_weak t).
  Context (ST : forall q s, ignored s = false -> match find_terminal t q s, find_terminal t' q s with Some l, Some l' => scan s l = scan s l' | None, None => True | _, _ => False end).
  Context (RP : forall terminal q s l, find_symbol t terminal q s = Done l -> forall e, In e (scan s l) -> e_type e <> Guard /\ e_type e <> WeakReduce).
  Context (L : Type) (matched : L -> Z) (renamed : Z -> L -> L) (V : Type) (shift_value : option L -> V) (reduce_value : Z -> Z -> list V -> V).
  Notation choose := (fun t => choose t L matched renamed V shift_value reduce_value).
  Notation process := (fun t => process t L matched renamed V shift_value reduce_value).
  Notation parse := (fun t => parse t L matched renamed V shift_value reduce_value).
  Lemma same_symbol_find q s : find_symbol t' false q s = find_symbol t false q s.
  Proof. unfold find_symbol, find_nonterminal. rewrite SN. reflexivity. Qed.
  Lemma same_goto q s : find_goto t' q s = find_goto t q s.
  Proof. unfold find_goto. rewrite same_symbol_find. reflexivity. Qed.
  Lemma same_rule n : rule_at t' n = rule_at t n.
  Proof. unfold rule_at. rewrite SR. reflexivity. Qed.
  Lemma same_strong s : strong_for_weak t' s = strong_for_weak t s.
  Proof. unfold strong_for_weak. rewrite SW. reflexivity. Qed.
  Lemma same_standard r d : standard_reduce t' L V reduce_value r d = standard_reduce t L V reduce_value r d.
  Proof. unfold standard_reduce. destruct (pop_items _ _ _) as [its l]. destruct (top (map fst l)) as [q0| |]; cbn [bind]; [|reflexivity|reflexivity]. cbn [bind]. rewrite same_goto. reflexivity. Qed.
  Lemma same_perform la e d : perform t' L matched renamed (standard_actions t' L V shift_value reduce_value) la e d = perform t L matched renamed (standard_actions t L V shift_value reduce_value) la e d.
  Proof.
    assert (R : forall n, bind (defined (rule_at t' n)) (fun r => bind (standard_reduce t' L V reduce_value r d) (fun d => Done (false, d))) = bind (defined (rule_at t n)) (fun r => bind (standard_reduce t L V reduce_value r d) (fun d => Done (false, d)))).
    { intros n. rewrite same_rule. destruct (rule_at t n) as [r|]; [|reflexivity]. cbn [defined bind]. rewrite same_standard. reflexivity. }
    unfold perform. destruct (e_type e); try reflexivity; try apply R. destruct la; try reflexivity. rewrite same_strong. reflexivity.
  Qed.
  Lemma choose_scan (t0 : tables) fuel terminal s la acts : forall p, choose t0 fuel terminal s la acts p = choose t0 fuel terminal s la (scan s acts) p.
  Proof.
    induction acts as [|e acts IH]; intros p; [reflexivity|]. cbn [scan]. destruct (Z.eqb_spec (e_symbol e) s) as [E|E]; cbn [RunModel.choose].
    - rewrite E, Z.eqb_refl. cbn [negb]. destruct (match e_type e with WeakReduce => _ | _ => _ end) as [go| |]; cbn [bind]; [|reflexivity|reflexivity]. cbn [bind]. destruct go; cbn [negb]; [|apply IH]. destruct (e_type e); try reflexivity.
      destruct (check_guard _ _ _ _ _ _ _ _ _) as [[g seen]| |]; cbn [bind]; [|reflexivity|reflexivity]. cbn [bind]. destruct (g <? 0); [apply IH|]. destruct (process_guard _ _ _ _ _ _ _ _) as [[b d]| |]; cbn [bind]; [|reflexivity|reflexivity]. cbn [bind]. destruct b; [reflexivity|apply IH].
    - destruct (Z.eqb_spec (e_symbol e) s); [contradiction|]. reflexivity.
  Qed.
  Lemma same_choose fuel terminal s la acts : (forall e, In e acts -> e_type e <> Guard /\ e_type e <> WeakReduce) -> forall p, choose t' fuel terminal s la acts p = choose t fuel terminal s la acts p.
  Proof.
    induction acts as [|e acts IH]; intros G p; [reflexivity|]. specialize (IH (fun x X => G x (or_intror X))). destruct (G e (or_introl eq_refl)) as [G1 G2]. cbn [RunModel.choose]. destruct (negb (e_symbol e =? s)); [reflexivity|]. destruct (e_type e); try contradiction; cbn [bind negb]; rewrite ?same_perform; reflexivity.
  Qed.
  Lemma same_process fuel p : (forall l, In l (p_input p) -> ignored (matched l) = false) -> process t' fuel p = process t fuel p.
  Proof.
    intros NI. unfold RunModel.process. destruct (nth_error (p_input p) 0) as [l|] eqn:E; cbn [symbol_of_look p_run].
    - assert (N : ignored (matched l) = false) by (apply NI, nth_error_In with 0%nat, E). destruct (top _) as [q| |]; cbn [bind]; [|reflexivity|reflexivity]. cbn [bind]. pose proof (ST q (matched l) N) as X. pose proof (RP true q (matched l)) as RP0. unfold find_symbol in *. destruct (find_terminal t q (matched l)) as [r|], (find_terminal t' q (matched l)) as [r'|]; cbn [defined bind]; [|contradiction|contradiction|reflexivity].
      rewrite (choose_scan t'), (choose_scan t), <- X. apply same_choose. apply RP0. reflexivity.
    - rewrite SE. destruct (top _) as [q| |]; cbn [bind]; [|reflexivity|reflexivity]. cbn [bind]. rewrite same_symbol_find. pose proof (RP false q (t_eoi t)) as RP0. destruct (find_symbol t false q (t_eoi t)) as [r| |]; cbn [bind]; [|reflexivity|reflexivity]. cbn [bind]. rewrite (choose_scan t'), (choose_scan t). apply same_choose. apply RP0. reflexivity.
  Qed.
  Lemma choose_input (t0 : tables) fuel terminal s la acts : forall p r p', choose t0 fuel terminal s la acts p = Done (r, p') -> incl (p_input p') (p_input p).
  Proof.
    induction acts as [|e acts IH]; intros p r p' H; cbn [RunModel.choose] in H; [injection H as _ <-; apply incl_refl|]. destruct (negb _); [injection H as _ <-; apply incl_refl|].
    destruct (match e_type e with WeakReduce => _ | _ => _ end) as [go| |]; try discriminate H. cbn [bind] in H. destruct (negb go); [eapply IH, H|]. 
    assert (PF : forall X, bind (perform t0 L matched renamed (standard_actions t0 L V shift_value reduce_value) la e (p_run p)) (fun '(b, d) => if b : bool then bind (next_lexeme L V (mkParser d (p_input p) (p_seen p))) (fun p => Done (More, p)) else Done (More, mkParser d (p_input p) (p_seen p))) = Done X -> incl (p_input (snd X)) (p_input p)).
    { intros X. destruct (perform _ _ _ _ _ _ _ _) as [[b d]| |]; try discriminate. cbn [bind]. destruct b; [|intros Y; injection Y as <-; apply incl_refl]. unfold next_lexeme. cbn [p_input p_run p_seen]. destruct (p_input p) as [|x l]; [discriminate|]. cbn [bind]. intros Y. injection Y as <-. cbn. intros y I. right. exact I. }
    destruct (e_type e); try (apply (PF (r, p')) in H; exact H); try (injection H as _ <-; apply incl_refl).
    destruct (check_guard _ _ _ _ _ _ _ _ _) as [[g seen]| |]; try discriminate H. cbn [bind] in H. destruct (g <? 0); [apply IH in H; exact H|]. destruct (process_guard _ _ _ _ _ _ _ _) as [[b d]| |]; try discriminate H. cbn [bind] in H. destruct b; [injection H as _ <-; apply incl_refl|apply IH in H; exact H].
  Qed.
  Lemma process_input (t0 : tables) fuel p r p' : process t0 fuel p = Done (r, p') -> incl (p_input p') (p_input p).
  Proof.
    unfold RunModel.process. destruct (symbol_of_look _ _ _ _) as [terminal s]. destruct (top _) as [q| |]; try discriminate. cbn [bind]. destruct (find_symbol _ _ _ _) as [l| |]; try discriminate. cbn [bind]. intros H. apply choose_input in H. exact H.
  Qed.
  Lemma same_parse fuel : forall p, (forall l, In l (p_input p) -> ignored (matched l) = false) -> parse t' fuel p = parse t fuel p.
  Proof.
    induction fuel as [|fuel IH]; intros p NI; [reflexivity|]. cbn [RunModel.parse]. rewrite (same_process fuel p NI). destruct (process t fuel p) as [[r p']| |] eqn:E; cbn [bind]; [|reflexivity|reflexivity]. cbn [bind]. destruct r; [|reflexivity|reflexivity]. apply IH. intros l I. apply NI. eapply process_input; [exact E|exact I].
  Qed.
End Parser.

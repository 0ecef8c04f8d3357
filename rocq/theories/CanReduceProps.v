(** C40: tentative reductions. *)
From Verif Require Import Base OrdMap GrammarModel GrammarProofs FirstModel FirstSpec FirstProofs FirstProps FollowModel FollowSpec FollowProofs FollowProps LrItemModel LrItemProofs ClosureModel ClosureSpec ClosureProofs ClosureTermProofs ClosureProps MachineModel MachineProofs BuilderModel BuilderSpec BuilderProofs BuilderLookProofs BuilderTermProofs BuilderProps ActionModel ActionSpec ActionProofs ActionProps TableModel TableProofs TableProps RunModel RunSpec RunProofs RunTableProofs RunTool RunFuelProofs RunProps ConflictModel ConflictSpec ConflictProofs ConflictProps DriveProofs CompleteProofs CompleteProps TerminateProofs TerminateProps CanReduceSpec CanReduceProofs.
Local Open Scope Z_scope.

Notation stack_of p := (map fst (s_stack (p_run p))).

(** C40.  If can_reduce answers, then the answer is true exactly when the parser, run from here, comes to
    shift the lookahead or to accept.  The lookahead is the first lexeme of the input or, without one, the end
    of the input.  Guards, diverted states and ignored symbols are left out. *)
Theorem C40_exact_partial : forall t L matched renamed V shift_value reduce_value fuel terminal symbol b p,
  shift_reduce_tables t -> symbol_of_look t L matched (nth_error (p_input p) 0) = (terminal, symbol) ->
  can_reduce t fuel terminal symbol (stack_of p) = Done b ->
  (b = true <-> will_shift t L matched renamed V shift_value reduce_value p).
Proof. intros. eapply can_reduce_exact; eassumption. Qed.
Print Assumptions C40_exact_partial.

(** If the parser comes to shift the lookahead then can_reduce answers, without undefined behaviour. *)
Theorem C40_defined_partial : forall t L matched renamed V shift_value reduce_value terminal symbol p,
  shift_reduce_tables t -> symbol_of_look t L matched (nth_error (p_input p) 0) = (terminal, symbol) ->
  will_shift t L matched renamed V shift_value reduce_value p ->
  exists n, forall fuel, (n <= fuel)%nat -> can_reduce t fuel terminal symbol (stack_of p) = Done true.
Proof.
  intros t L matched renamed V sv rv terminal symbol p SR SL W. assert (X : exists q, top (stack_of p) = Done q). { destruct W as [fuel p l p' P _|fuel p p' P|fuel p p' P _ _]; unfold process in P; rewrite SL in P; cbn [p_run] in P; destruct (top (stack_of p)) as [q| |]; try discriminate P; exists q; reflexivity. }
  destruct X as [q T]. destruct (will_shift_loop _ _ _ _ _ _ _ SR p W terminal symbol q SL) as [n H]. exists n. intros fuel LE. apply (le_done _ _ _ (can_reduce_more t n fuel terminal symbol _ LE)). unfold loop_at in H. unfold can_reduce. rewrite T in *. exact H.
Qed.
Print Assumptions C40_defined_partial.

(** It ends if the parser does. *)
Theorem C40_ends_partial : forall t L matched renamed V shift_value reduce_value steps result terminal symbol p,
  shift_reduce_tables t -> symbol_of_look t L matched (nth_error (p_input p) 0) = (terminal, symbol) ->
  parse t L matched renamed V shift_value reduce_value steps p = Done result ->
  exists n, forall fuel, (n <= fuel)%nat -> can_reduce t fuel terminal symbol (stack_of p) <> OutOfFuel.
Proof.
  intros t L matched renamed V sv rv steps result terminal symbol p SR SL H. destruct (top (stack_of p)) as [q| |] eqn:T; [|exists 0%nat; intros fuel _; unfold can_reduce; rewrite T; discriminate|destruct (stack_of p); discriminate T].
  destruct (parse_loop _ _ _ _ _ _ _ SR steps p result terminal symbol q H SL) as [n N]. exists n. intros fuel LE E. apply N. destruct (can_reduce_more t n fuel terminal symbol (stack_of p) LE) as [X|X]; [|rewrite <- X in E]; unfold loop_at; unfold can_reduce in *; rewrite T in *; assumption.
Qed.
Print Assumptions C40_ends_partial.

Section Built.
  Context rid rule_of ident sort (sort_weak : list (Z * Z) -> list (Z * Z)) first_of rules u busy languages actss m guards (PP : plain_parser rid rule_of ident sort first_of rules u busy languages actss m guards) (RF : right_first rules first_of u).
  Let BU := pp_buildable _ _ _ _ _ _ _ _ _ _ _ _ PP.
  Let B := pp_built _ _ _ _ _ _ _ _ _ _ _ _ PP.
  Notation t := (make_tables rid rule_of ident sort sort_weak actss []).
  Lemma row_of (ls : list (list entry)) l : In l ls -> exists q, row q ls = Some l.
  Proof. intros I. apply In_nth_error in I. destruct I as [n N]. exists (Z.of_nat n). unfold row. destruct (Z.ltb_spec (Z.of_nat n) 0); [lia|]. rewrite Nat2Z.id. exact N. Qed.
  Lemma made_shift_reduce : shift_reduce_tables t.
  Proof.
    pose proof PP as [_ [E1 E2] NG _ _ II SO FI].
    assert (ACT : forall terminal l e, In l (if terminal : bool then t_terminals t else t_nonterminals t) -> In e l -> exists q a, lalr_action rules first_of languages (kernel m) (step m) q a /\ is_terminal (a_item a) = terminal /\ e_type e = a_type a /\ e_symbol e = symbol_of ident (a_item a)).
    { intros terminal l e I J. destruct (row_of _ _ I) as [q R]. destruct (row_entry rid rule_of ident sort sort_weak actss [] SO FI terminal q l e R J) as (acts & a & Q & N & AI & IT & [DT _] & SY). exists q, a. split; [|auto]. apply (plain_actions_exact _ _ _ _ _ _ _ _ _ _ _ _ PP) with (a := a) in N. rewrite Z2Nat.id in N by exact Q. apply N, AI. }
    split.
    - intros l e I J. destruct (ACT true l e I J) as (q & a & A & IT & -> & _). assert (D : exists s, a_item a = ITerm s) by (destruct (a_item a); try discriminate IT; eauto). destruct (input_cases _ _ _ _ _ _ _ _ _ _ _ _ PP RF q a A (or_intror D)) as [(s & n & -> & _)|[(k & -> & _)|X]]; cbn; auto.
    - intros l e I J T. destruct (ACT false l e I J) as (q & a & A & IT & E & _). rewrite T in E. destruct A; try discriminate E. cbn in IT. discriminate IT.
    - intros l e I J S. destruct (ACT false l e I J) as (q & a & A & IT & -> & SY). assert (X : a_item a = IEoi). { apply II. destruct (made rid rule_of ident sort sort_weak actss [] SO) as (ids & _ & _ & _ & _ & _ & _ & _ & _ & EO & _). rewrite <- EO, <- S, SY. destruct (a_item a); try reflexivity. discriminate IT. }
      destruct (input_cases _ _ _ _ _ _ _ _ _ _ _ _ PP RF q a A (or_introl X)) as [(s & n & -> & _)|[(k & -> & _)|Y]]; [discriminate X|cbn; auto|auto].
  Qed.
  Lemma reached_path l q L matched renamed V shift_value reduce_value v0 input p : (forall k, kernel m q k <-> k = language_start l) -> reached t L matched renamed V shift_value reduce_value (start_parser L V q v0 input) p -> exists xs, path (step m) q (stack_of p) xs.
  Proof.
    intros KQ R. pose proof PP as [_ [E1 E2] NG _ AP II SO FI]. pose proof (built_machine _ _ _ _ _ _ _ _ BU B) as LM. assert (FN := lm_fun _ _ _ LM). assert (PL : forall q x n, step m q x n -> x <> IEoi /\ x <> IEog) by (intros q0 x n S; apply (built_step _ _ _ _ _ _ _ _ BU B) in S; split; congruence).
    pose proof (plain_faithful _ _ _ _ _ _ _ _ BU B actss (fun _ _ => False) (strong_for_weak t) (fun _ => False) AP) as FA.
    pose proof (made_justified rules (kernel m) (step m) _ _ FN PL rid rule_of ident sort sort_weak actss [] II SO FI FA) as JU.
    pose proof (made_no_accept rules (kernel m) (step m) _ _ rid rule_of ident sort sort_weak actss [] II SO FI FA) as NA.
    assert (TR : top_rule (mkRule IEmpty [l])) by (left; reflexivity).
    assert (V0 : run_valid rules (step m) rid ident (fun _ _ => False) (fun _ => False) L matched renamed V shift_value reduce_value q v0 input (p_input p) (p_run p)).
    { induction R as [|fuel p r p' R IH P]; [apply start_valid|]. exact (proj1 (process_ok rules (kernel m) (step m) LM rid ident II _ _ _ JU L matched renamed NA V shift_value reduce_value q (mkRule IEmpty [l]) KQ TR v0 input fuel p r p' IH P)). }
    destruct V0 as (xs & ts & w & word & rs & PA & _). exists xs. exact PA.
  Qed.
End Built.

(** For parsers without conflicts, at every point of every parse: can_reduce ends, and answers whether the
    lookahead will be shifted or accepted, or else its behaviour is undefined.  That last can happen only when the
    answer should be false. *)
Theorem C40_conflict_free_partial : forall rid rule_of ident sort sort_weak first_of rules u busy languages actss m guards l q,
  plain_parser rid rule_of ident sort first_of rules u busy languages actss m guards -> right_first rules first_of u -> no_conflict rid first_of rules u busy languages m guards ->
  (forall k, kernel m q k <-> k = language_start l) ->
  forall L matched renamed V shift_value reduce_value v0 input p terminal symbol,
  let t := make_tables rid rule_of ident sort sort_weak actss [] in
  reached t L matched renamed V shift_value reduce_value (start_parser L V q v0 input) p -> symbol_of_look t L matched (nth_error (p_input p) 0) = (terminal, symbol) ->
  exists n, (will_shift t L matched renamed V shift_value reduce_value p /\ forall fuel, (n <= fuel)%nat -> can_reduce t fuel terminal symbol (stack_of p) = Done true) \/
    (~ will_shift t L matched renamed V shift_value reduce_value p /\ forall fuel, (n <= fuel)%nat -> can_reduce t fuel terminal symbol (stack_of p) = Done false \/ can_reduce t fuel terminal symbol (stack_of p) = Undefined).
Proof.
  intros rid rule_of ident sort sort_weak first_of rules u busy languages actss m guards l q PP RF NC KQ L matched renamed V sv rv v0 input p terminal symbol t R SL.
  pose proof (made_shift_reduce _ _ _ _ sort_weak _ _ _ _ _ _ _ _ PP RF) as SR. fold t in SR. destruct (reached_path _ _ _ _ sort_weak _ _ _ _ _ _ _ _ PP l q L matched renamed V sv rv v0 input p KQ R) as [xs PA].
  destruct (all_finish rid rule_of ident sort sort_weak first_of rules u busy languages actss m guards PP RF NC L matched renamed V sv rv l q KQ (p_input p) (s_stack (p_run p)) xs PA) as [steps F]. destruct (F (s_calls (p_run p)) (p_seen p)) as (b & p2 & H). destruct p as [[st calls] inp seen]. cbn [p_run s_stack s_calls p_input p_seen] in *.
  destruct (C40_ends_partial t L matched renamed V sv rv steps (b, p2) terminal symbol (mkParser (mkRun st calls) inp seen) SR SL H) as [n N]. cbn [p_run s_stack] in N.
  destruct (can_reduce t n terminal symbol (map fst st)) as [c| |] eqn:C.
  - exists n. pose proof (C40_exact_partial t L matched renamed V sv rv n terminal symbol c (mkParser (mkRun st calls) inp seen) SR SL C) as EX. destruct c; [left|right].
    + split; [apply EX; reflexivity|]. intros fuel LE. exact (le_done _ _ _ (can_reduce_more t n fuel terminal symbol _ LE) C).
    + split; [intros W; apply EX in W; discriminate W|]. intros fuel LE. left. exact (le_done _ _ _ (can_reduce_more t n fuel terminal symbol _ LE) C).
  - exists n. right. split; [|intros fuel LE; right; destruct (can_reduce_more t n fuel terminal symbol (map fst st) LE) as [X|X]; congruence]. intros W. destruct (C40_defined_partial t L matched renamed V sv rv terminal symbol (mkParser (mkRun st calls) inp seen) SR SL W) as [n' N']. cbn [p_run s_stack] in N'. specialize (N' (Nat.max n n') (Nat.le_max_r _ _)). destruct (can_reduce_more t n (Nat.max n n') terminal symbol (map fst st) (Nat.le_max_l _ _)) as [X|X]; congruence.
  - exfalso. exact (N n (le_n n) C).
Qed.
Print Assumptions C40_conflict_free_partial.

(** The parser of C40_conflict_free_partial, made by [tool] *)
Definition free_of_conflicts nts us m guards actss : Prop :=
  plain_parser rule_number (rule_in (all_rules nts us [INonterm 0])) item_number (insertion_sort entry_ltb) (first_by (rules_of nts) 20) (rules_of nts) (fun i => In i us) one_object [INonterm 0] actss m guards /\
  right_first (rules_of nts) (first_by (rules_of nts) 20) (fun i => In i us) /\
  no_conflict rule_number (first_by (rules_of nts) 20) (rules_of nts) (fun i => In i us) one_object [INonterm 0] m guards /\
  (forall k, kernel m 0 k <-> k = language_start (INonterm 0)).
Notation tool_reached t w p := (reached t lex fst lex_renamed (ast lex) ast_shift ast_reduce (start_parser lex (ast lex) 0 (Leaf None) (lexemes w)) p).
Notation tool_shifts t p := (will_shift t lex fst lex_renamed (ast lex) ast_shift ast_reduce p).

(** 0 -> 0 + 1 | 1, 1 -> x | ( 0 ), where + is t5 and x is t4.  After ( x, a ) will be shifted; after x, another x
    will not. *)
Example C40_nontrivial : exists m guards actss p p', let t := tool_tables nts_expr items_expr [INonterm 0] actss [] in
  free_of_conflicts nts_expr items_expr m guards actss /\ shift_reduce_tables t /\
  tool_reached t [6; 4; 7] p /\ map fst (p_input p) = [7] /\ can_reduce t 20 true 7 (stack_of p) = Done true /\ tool_shifts t p /\
  tool_reached t [4; 4] p' /\ map fst (p_input p') = [4] /\ can_reduce t 20 true 4 (stack_of p') = Done false /\ ~ tool_shifts t p'.
Proof.
  destruct (tool nts_expr items_expr [INonterm 0]) as [[[m g] a]|] eqn:E; [|vm_compute in E; discriminate E]. assert (PP := tool_plain_parser _ _ _ _ _ _ E). assert (T := tool_ok _ _ _ _ _ _ E). vm_compute in E. injection E as <- <- <-.
  assert (NG : forall p g, ~ In (IGuard p g) items_expr) by (intros p g X; cbn in X; intuition discriminate). specialize (PP NG).
  assert (RF : right_first (rules_of nts_expr) (first_by (rules_of nts_expr) 20) (fun i => In i items_expr)) by (eapply checked_first; [exact T|vm_compute; reflexivity]).
  pose proof (made_shift_reduce _ _ _ _ (insertion_sort weak_ltb) _ _ _ _ _ _ _ _ PP RF) as SR.
  eexists. eexists. eexists. eexists. eexists. cbv zeta. split; [split; [exact PP|split; [exact RF|split]]|split; [exact SR|split; [|split; [|split; [|split; [|split; [|split; [|split]]]]]]]].
  - split; [|eapply checked_accept; [exact PP|vm_compute; reflexivity]]. exists no_sources, 50%nat, ([], 0%nat). eexists. split; [constructor; constructor|vm_compute; reflexivity].
  - intros k. split; [intros (s & S & K); vm_compute in S; injection S as <-; destruct K as [<-|[]]; reflexivity|intros ->; eexists; split; [vm_compute; reflexivity|left; reflexivity]].
  - eapply (reached_first _ _ _ _ _ _ _ 0%nat); [vm_compute; reflexivity|]. eapply (reached_first _ _ _ _ _ _ _ 0%nat); [vm_compute; reflexivity|]. apply reached_here.
  - reflexivity.
  - vm_compute. reflexivity.
  - eapply (C40_exact_partial _ _ _ _ _ _ _ 20 true 7 true); [exact SR|reflexivity|vm_compute; reflexivity|reflexivity].
  - eapply (reached_first _ _ _ _ _ _ _ 0%nat); [vm_compute; reflexivity|]. apply reached_here.
  - reflexivity.
  - vm_compute. reflexivity.
  - intros W. eapply (C40_exact_partial _ _ _ _ _ _ _ 20 true 4 false) in W; [discriminate W|exact SR|reflexivity|vm_compute; reflexivity].
Qed.

(** The answer is not always defined, not even for this grammar without conflicts: after x, for a ).  The
    reductions lead to a state all of whose terminals come before ), and there the end of the array is not
    noticed. *)
Theorem C40_defined_refuted : exists m guards actss p, let t := tool_tables nts_expr items_expr [INonterm 0] actss [] in
  free_of_conflicts nts_expr items_expr m guards actss /\ tool_reached t [4; 7] p /\ map fst (p_input p) = [7] /\
  forall fuel, (3 <= fuel)%nat -> can_reduce t fuel true 7 (stack_of p) = Undefined.
Proof.
  destruct (tool nts_expr items_expr [INonterm 0]) as [[[m g] a]|] eqn:E; [|vm_compute in E; discriminate E]. assert (PP := tool_plain_parser _ _ _ _ _ _ E). assert (T := tool_ok _ _ _ _ _ _ E). vm_compute in E. injection E as <- <- <-.
  assert (NG : forall p g, ~ In (IGuard p g) items_expr) by (intros p g X; cbn in X; intuition discriminate). specialize (PP NG).
  assert (RF : right_first (rules_of nts_expr) (first_by (rules_of nts_expr) 20) (fun i => In i items_expr)) by (eapply checked_first; [exact T|vm_compute; reflexivity]).
  eexists. eexists. eexists. eexists. cbv zeta. split; [split; [exact PP|split; [exact RF|split]]|split; [|split]].
  - split; [|eapply checked_accept; [exact PP|vm_compute; reflexivity]]. exists no_sources, 50%nat, ([], 0%nat). eexists. split; [constructor; constructor|vm_compute; reflexivity].
  - intros k. split; [intros (s & S & K); vm_compute in S; injection S as <-; destruct K as [<-|[]]; reflexivity|intros ->; eexists; split; [vm_compute; reflexivity|left; reflexivity]].
  - eapply (reached_first _ _ _ _ _ _ _ 0%nat); [vm_compute; reflexivity|]. apply reached_here.
  - reflexivity.
  - intros fuel LE. cbn [p_run s_stack map fst]. match goal with |- can_reduce ?t _ _ _ _ = _ => destruct (can_reduce_more t 3 fuel true 7 [1; 0] LE) as [X|X] end; [vm_compute in X; discriminate X|]. rewrite <- X. vm_compute. reflexivity.
Qed.
Print Assumptions C40_defined_refuted.

(** It does not always end: with the grammar of C43_cycle_refuted, for which no conflict is reported, the reduction 0 -> 0
    is tried for ever. *)
Theorem C40_ends_refuted : exists m guards actss p c', let t := tool_tables nts_cycle items_cycle [INonterm 0] actss [] in
  plain_parser rule_number (rule_in (all_rules nts_cycle items_cycle [INonterm 0])) item_number (insertion_sort entry_ltb) (first_by (rules_of nts_cycle) 20) (rules_of nts_cycle) (fun i => In i items_cycle) one_object [INonterm 0] actss m guards /\
  right_first (rules_of nts_cycle) (first_by (rules_of nts_cycle) 20) (fun i => In i items_cycle) /\
  find_conflicts rule_number (first_by (rules_of nts_cycle) 20) (rules_of nts_cycle) one_object no_sources 50 m guards [] ([], 0%nat) = Some ([], c') /\
  tool_reached t [4] p /\ p_input p = [] /\ forall fuel, can_reduce t fuel false (t_eoi t) (stack_of p) = OutOfFuel.
Proof.
  destruct (tool nts_cycle items_cycle [INonterm 0]) as [[[m g] a]|] eqn:E; [|vm_compute in E; discriminate E]. assert (PP := tool_plain_parser _ _ _ _ _ _ E). assert (T := tool_ok _ _ _ _ _ _ E). vm_compute in E. injection E as <- <- <-.
  assert (NG : forall p g, ~ In (IGuard p g) items_cycle) by (intros p g X; cbn in X; intuition discriminate). specialize (PP NG).
  eexists. eexists. eexists. eexists. eexists. cbv zeta. split; [exact PP|]. split; [eapply checked_first; [exact T|vm_compute; reflexivity]|]. split; [vm_compute; reflexivity|]. split; [|split].
  - eapply (reached_first _ _ _ _ _ _ _ 0%nat); [vm_compute; reflexivity|]. eapply (reached_first _ _ _ _ _ _ _ 0%nat); [vm_compute; reflexivity|]. apply reached_here.
  - reflexivity.
  - cbn [p_run s_stack map fst]. set (t := tool_tables _ _ _ _ _). set (e := t_eoi t). vm_compute in e.
    assert (F : find_symbol t false 2 e = Done (match find_symbol t false 2 e with Done l => l | _ => [] end)) by (vm_compute; reflexivity). set (l := match find_symbol t false 2 e with Done l => l | _ => [] end) in F. vm_compute in l.
    assert (LOOP : forall fuel, can_reduce_loop t fuel false e 2 2 l [2; 0] = OutOfFuel).
    { induction fuel as [|fuel IH]; [reflexivity|]. unfold l at 1. cbn [can_reduce_loop e_symbol e_type]. replace (fake_reduce t _ [2; 0]) with (Done [2; 0]) by (vm_compute; reflexivity). cbn [bind top]. rewrite F. cbn [bind]. exact IH. }
    intros fuel. unfold can_reduce. cbn [top bind]. rewrite F. cbn [bind]. apply LOOP.
Qed.
Print Assumptions C40_ends_refuted.

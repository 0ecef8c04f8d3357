(** Tables with at most one action for each symbol: the parser does what the machine does. *)
From Verif Require Import Base OrdMap GrammarModel GrammarProofs FirstModel FirstSpec LrItemModel ClosureSpec BuilderSpec MachineModel ActionModel ActionSpec TableModel TableProofs TableProps RunModel RunSpec RunProofs RunTableProofs RunFuelProofs DriveProofs.
From Coq Require Import Permutation.
Local Open Scope Z_scope.

(** At most one action for each terminal, and for the end of the input *)
Definition decided (acts : action_set) : Prop := forall a b, In a acts -> In b acts -> a_item a = a_item b -> a_item a = IEoi \/ (exists s, a_item a = ITerm s) -> a = b.

Section Decided.
  Context (rid : rule -> Z) (rule_of : Z -> rule) (ident : item -> Z) (sort : list entry -> list entry) (sort_weak : list (Z * Z) -> list (Z * Z)) (actss : list action_set) (weaks : list (item * iset)).
  Context (II : forall i j, ident i = ident j -> i = j) (SO : sorts entry_ltb sort) (FI : fits rid rule_of actss).
  Let t := make_tables rid rule_of ident sort sort_weak actss weaks.
  Context (L : Type) (matched : L -> Z) (renamed : Z -> L -> L) (V : Type) (shift_value : option L -> V) (reduce_value : Z -> Z -> list V -> V).
  Notation next_item := (next_item L matched).
  Notation process := (process t L matched renamed V shift_value reduce_value).

  Lemma look_actions q acts w : nth_error actss q = Some acts -> exists found l, (let '(terminal, symbol) := symbol_of_look t L matched (nth_error w 0) in find_symbol t terminal (Z.of_nat q) symbol = Done found /\ Forall2 (describes rid ident t) l (scan symbol found)) /\
    Permutation l (filter (fun a => item_eqb (a_item a) (next_item w)) acts).
  Proof.
    intros Q. destruct w as [|x w]; cbn [nth_error symbol_of_look next_item].
    - destruct (C31_nonterminals_partial rid rule_of ident sort sort_weak actss weaks q acts IEoi SO II FI Q eq_refl) as (found & l & F & P & D & _). fold t in F, D. exists found, l. split; [|exact P].
      assert (E : t_eoi t = ident IEoi) by (destruct (made rid rule_of ident sort sort_weak actss weaks SO) as (ids & _ & _ & _ & _ & _ & _ & _ & _ & E & _); exact E). rewrite E. split; [|exact D]. unfold find_symbol. rewrite F. reflexivity.
    - destruct (C31_terminals_partial rid rule_of ident sort sort_weak actss weaks q acts (matched x) SO FI Q) as (found & l & F & P & D & _). fold t in F, D. exists found, l. split; [|exact P]. split; [|exact D]. unfold find_symbol. rewrite F. reflexivity.
  Qed.
  Lemma scan_cons s found e l : scan s found = e :: l -> exists l', found = e :: l' /\ e_symbol e = s.
  Proof. destruct found as [|e' l']; [discriminate|]. cbn [scan]. destruct (Z.eqb_spec (e_symbol e') s); [|discriminate]. intros X. injection X as <- _. exists l'. auto. Qed.

  Lemma process_rejects q qs v d w acts : s_stack d = (Z.of_nat q, v) :: qs -> nth_error actss q = Some acts -> (forall a, In a acts -> a_item a <> next_item w) ->
    forall fuel seen, exists seen', process fuel (mkParser d w seen) = Done (Rejected, mkParser d w seen').
  Proof.
    intros ST Q NA fuel seen. destruct (look_actions q acts w Q) as (found & l & X & P). destruct (symbol_of_look t L matched (nth_error w 0)) as [terminal symbol] eqn:SL. destruct X as [F D].
    assert (N : filter (fun a => item_eqb (a_item a) (next_item w)) acts = []). { clear -NA. induction acts as [|a acts IH]; [reflexivity|]. cbn [filter]. destruct (item_eqb (a_item a) (next_item w)) eqn:E; [apply item_eqb_spec in E; exfalso; eapply NA; [left; reflexivity|exact E]|]. apply IH. intros b B. apply NA. right. exact B. }
    rewrite N in P. apply Permutation_sym, Permutation_nil in P. subst l. assert (E : scan symbol found = []) by (inversion D; reflexivity). exists (Nat.max seen (Nat.min 1 (length w))). unfold RunModel.process. cbn [p_run p_input p_seen]. rewrite SL, ST. cbn [map fst top bind]. rewrite F. cbn [bind].
    destruct found as [|e found]; cbn [choose]; [reflexivity|]. cbn [scan] in E. destruct (e_symbol e =? symbol); [discriminate E|]. reflexivity.
  Qed.
  Lemma process_acts q qs v d w acts a : s_stack d = (Z.of_nat q, v) :: qs -> nth_error actss q = Some acts -> decided acts -> In a acts -> a_item a = next_item w ->
    forall fuel seen, exists seen', 
      match a_type a with
      | Accept => process fuel (mkParser d w seen) = Done (Accepted, mkParser d w seen')
      | Shift => forall l w', w = l :: w' -> process fuel (mkParser d w seen) = Done (More, mkParser (mkRun ((a_next a, shift_value (Some l)) :: s_stack d) (CallShift (Some l) :: s_calls d)) w' seen')
      | Reduce => forall d', standard_reduce t L V reduce_value (reduce_of rid ident (a_rule a)) d = Done d' -> process fuel (mkParser d w seen) = Done (More, mkParser d' w seen')
      | _ => True
      end.
  Proof.
    intros ST Q DE AI AX fuel seen. destruct (look_actions q acts w Q) as (found & l & X & P). destruct (symbol_of_look t L matched (nth_error w 0)) as [terminal symbol] eqn:SL. destruct X as [F D].
    assert (AL : forall b, In b l -> b = a). { intros b B. apply (Permutation_in _ P) in B. apply filter_In in B. destruct B as [B E]. apply item_eqb_spec in E. apply DE; [exact B|exact AI|congruence|rewrite E; destruct w; cbn; eauto]. }
    assert (NL : In a l). { apply (Permutation_in _ (Permutation_sym P)), filter_In. split; [exact AI|]. apply item_eqb_spec. exact AX. }
    destruct l as [|b l]; [destruct NL|]. rewrite (AL b (or_introl eq_refl)) in D. inversion D as [|? e ? l' [DT DN] D' E1 E2]; subst. symmetry in E2. destruct (scan_cons _ _ _ _ E2) as (found' & -> & ES). clear E2 D' D NL AL P.
    set (seen0 := Nat.max seen (Nat.min 1 (length w))). unfold RunModel.process. cbn [p_run p_input p_seen]. rewrite SL, ST. cbn [map fst top bind]. rewrite F. cbn [bind choose]. rewrite ES, Z.eqb_refl. cbn [negb]. rewrite DT. fold seen0.
    destruct (a_type a) eqn:TA; try (exists O; exact Logic.I).
    - exists (Nat.pred seen0). intros x w' ->. cbn [bind negb nth_error]. unfold perform. rewrite DT, ?TA. cbn [is_reduction] in DN. cbn [bind lexeme_of d_shift standard_actions p_run p_input p_seen]. unfold next_lexeme. cbn [p_input p_run p_seen bind]. rewrite DN, ST. reflexivity.
    - exists seen0. intros d' SR. cbn [bind negb nth_error]. unfold perform. rewrite DT, ?TA. cbn [is_reduction] in DN. rewrite DN. cbn [defined bind d_reduce standard_actions p_run p_input p_seen]. unfold reduce_of in SR. rewrite SR. reflexivity.
    - exists seen0. reflexivity.
  Qed.
End Decided.

(** * Moves of the machine are moves of the parser *)
Section Simulate.
  Context (rules : Z -> list (list item)) (first_of : item -> iset) (languages : list item) (kernel : Z -> lr0 -> Prop) (step : Z -> item -> Z -> Prop) (LM : lr0_machine rules kernel step).
  Context (u : item -> Prop) (UP : forall i, u i -> i <> IEmpty /\ forall p g, i <> IGuard p g) (UE : ~ u IEoi /\ ~ u IEog) (US : forall q x n, step q x n -> u x).
  Context (rid : rule -> Z) (rule_of : Z -> rule) (ident : item -> Z) (sort : list entry -> list entry) (sort_weak : list (Z * Z) -> list (Z * Z)) (actss : list action_set) (weaks : list (item * iset)).
  Context (II : forall i j, ident i = ident j -> i = j) (SO : sorts entry_ltb sort) (FI : fits rid rule_of actss).
  Let t := make_tables rid rule_of ident sort sort_weak actss weaks.
  (** The actions are those of the machine. *)
  Context (AE : forall q acts, nth_error actss q = Some acts -> forall a, In a acts <-> lalr_action rules first_of languages kernel step (Z.of_nat q) a).
  Context (QS : forall q k, kernel q k -> 0 <= q < Z.of_nat (length actss)).
  Context (SK : forall q x n, step q x n -> exists k, kernel n k).
  Context (DE : forall acts, In acts actss -> decided acts).
  Context (GO : forall q x q', step q x q' -> (forall s, x <> ITerm s) -> find_goto t q (ident x) = Done (Some q')).
  Context (L : Type) (matched : L -> Z) (renamed : Z -> L -> L) (V : Type) (shift_value : option L -> V) (reduce_value : Z -> Z -> list V -> V).
  Notation next_item := (next_item L matched).
  Notation process := (process t L matched renamed V shift_value reduce_value).
  Notation parse := (parse t L matched renamed V shift_value reduce_value).
  Notation move := (move rules first_of languages kernel step rid ident L matched V shift_value reduce_value).
  Notation moves := (moves rules first_of languages kernel step rid ident L matched V shift_value reduce_value).

  Lemma state_actions q k : kernel q k -> exists n acts, q = Z.of_nat n /\ nth_error actss n = Some acts /\ decided acts /\ forall a, In a acts <-> lalr_action rules first_of languages kernel step q a.
  Proof.
    intros K. specialize (QS _ _ K). destruct (nth_error actss (Z.to_nat q)) as [acts|] eqn:N; [|apply nth_error_None in N; lia]. exists (Z.to_nat q), acts. rewrite Z2Nat.id by lia. split; [reflexivity|]. split; [exact N|]. split; [eapply DE, nth_error_In, N|].
    intros a. rewrite (AE _ _ N), Z2Nat.id by lia. reflexivity.
  Qed.
  Lemma next_input w : input_symbol (next_item w).
  Proof. destruct w; cbn; [right; left; reflexivity|left; eauto]. Qed.
  Lemma closure_kernel q k : closure_item rules (kernel q) k -> exists k0, kernel q k0.
  Proof. induction 1; eauto. Qed.
  Lemma pop_all n : forall l : list (Z * V), (n < length l)%nat -> pop_items V n l = (map snd (firstn n l), skipn n l).
  Proof.
    induction n as [|n IH]; intros l LE; [reflexivity|]. destruct l as [|[q v] [|y l]]; cbn in LE; try lia. cbn [pop_items drop1]. rewrite IH by (cbn; lia). reflexivity.
  Qed.
  Lemma reduce_moves its q v st r n calls : length its = length (r_items r) -> step q (r_nonterminal r) n -> (forall s, r_nonterminal r <> ITerm s) ->
    standard_reduce t L V reduce_value (reduce_of rid ident r) (mkRun (its ++ (q, v) :: st) calls) = Done (mkRun ((n, reduce_value (ident (r_nonterminal r)) (rid r) (map snd its)) :: (q, v) :: st) (CallReduce (ident (r_nonterminal r)) (rid r) (map snd its) :: calls)).
  Proof.
    intros LI S NT. unfold standard_reduce, reduce_of. cbn [rr_length rr_identifier rr_rule s_stack s_calls]. rewrite Nat2Z.id, <- LI. rewrite pop_all by (rewrite app_length; cbn; lia).
    assert (F1 : firstn (length its) (its ++ (q, v) :: st) = its) by (rewrite firstn_app, Nat.sub_diag, firstn_all, firstn_O, app_nil_r; reflexivity). assert (F2 : skipn (length its) (its ++ (q, v) :: st) = (q, v) :: st) by (rewrite skipn_app, Nat.sub_diag, skipn_all; reflexivity).
    rewrite F1, F2. cbn [map fst top bind]. rewrite (GO _ _ _ S NT). reflexivity.
  Qed.
  Lemma look_rule q k x : lalr_look rules first_of languages Z kernel step q k x -> top_rule (l_rule k) \/ expands rules (r_nonterminal (l_rule k)) (r_items (l_rule k)).
  Proof. induction 1; cbn [l_rule r_nonterminal r_items advance language_start guard_start]; auto; left; [left; reflexivity|right; exists p, l; reflexivity]. Qed.
  Definition states_ok (st : list (Z * V)) : Prop := forall q v, In (q, v) st -> exists k, kernel q k.
  Lemma move_process c c' : move c c' -> states_ok (fst c) ->
    states_ok (fst c') /\ forall calls fuel seen, exists calls' seen', process fuel (mkParser (mkRun (fst c) calls) (snd c) seen) = Done (More, mkParser (mkRun (fst c') calls') (snd c') seen').
  Proof.
    intros M OK. destruct M as [q v st l w n S|its q v st w tp k n HT CO NT LI S]; cbn [fst snd] in *.
    - split; [intros q' v' [X|X]; [injection X as <- <-; eapply SK, S|apply (OK q' v' X)]|]. intros calls fuel seen. destruct (OK q v (or_introl eq_refl)) as [k K]. destruct (state_actions _ _ K) as (m & acts & -> & N & D & EX).
      assert (A : In (mkAction Shift (ITerm (matched l)) n no_rule) acts) by (apply EX; constructor; [exact S|eauto]).
      destruct (process_acts rid rule_of ident sort sort_weak actss weaks II SO FI L matched renamed V shift_value reduce_value m st v (mkRun ((Z.of_nat m, v) :: st) calls) (l :: w) acts _ eq_refl N D A eq_refl fuel seen) as [seen' PA].
      eexists. eexists. apply PA. reflexivity.
    - split; [intros q' v' [X|X]; [injection X as <- <-; eapply SK, S|apply (OK q' v'), in_app_iff; right; exact X]|]. intros calls fuel seen. destruct (its ++ (q, v) :: st) as [|[tp' v'] st'] eqn:E; [discriminate HT|]. cbn in HT. injection HT as ->.
      destruct (OK tp v' (or_introl eq_refl)) as [k' K]. destruct (state_actions _ _ K) as (m & acts & -> & N & D & EX).
      assert (A : In (mkAction Reduce (next_item w) (-1) (l_rule k)) acts) by (apply EX; constructor; [exact CO|apply next_input|exact NT]).
      destruct (process_acts rid rule_of ident sort sort_weak actss weaks II SO FI L matched renamed V shift_value reduce_value m st' v' (mkRun ((Z.of_nat m, v') :: st') calls) w acts _ eq_refl N D A eq_refl fuel seen) as [seen' PA].
      eexists. eexists. apply PA. cbn [a_rule]. rewrite <- E. apply reduce_moves; [exact LI|exact S|]. destruct CO as (_ & _ & LK). destruct (look_rule _ _ _ LK) as [T|E']; [contradiction|]. apply (expands_plain _ _ _ E').
  Qed.
  Lemma moves_parse c c' : moves c c' -> states_ok (fst c) -> states_ok (fst c') /\ exists n, forall calls seen, exists calls' seen', forall fuel, parse (n + fuel) (mkParser (mkRun (fst c) calls) (snd c) seen) = parse fuel (mkParser (mkRun (fst c') calls') (snd c') seen').
  Proof.
    induction 1 as [c|c c1 c2 M MS IH]; intros OK.
    - split; [exact OK|]. exists O. intros calls seen. exists calls, seen. reflexivity.
    - destruct (move_process _ _ M OK) as [OK1 P]. destruct (IH OK1) as (OK2 & n & Q). split; [exact OK2|]. exists (1 + n)%nat. intros calls seen.
      assert (X : exists calls1 seen1, forall fuel, process fuel (mkParser (mkRun (fst c) calls) (snd c) seen) = Done (More, mkParser (mkRun (fst c1) calls1) (snd c1) seen1)).
      { destruct (P calls 0%nat seen) as (calls1 & seen1 & P0). exists calls1, seen1. intros fuel. apply (le_done _ _ _ (process_more t L matched renamed V shift_value reduce_value 0 fuel _ (Nat.le_0_l fuel)) P0). }
      destruct X as (calls1 & seen1 & X). destruct (Q calls1 seen1) as (calls2 & seen2 & Y). exists calls2, seen2. intros fuel. cbn [Nat.add RunModel.parse]. rewrite X. cbn [bind]. apply Y.
  Qed.

  Lemma complete l q0 v0 tree input :
    (forall q k, closure_item rules (kernel q) k -> forall j, In j (after_dot k) -> u j) -> closed rules u -> no_empty_repeat u -> (forall i r j, u i -> expands rules i r -> In j r -> u j) -> (forall i, u i -> first_set rules i (first_of i)) ->
    In l languages -> (forall k, kernel q0 k <-> k = language_start l) ->
    parses_all rules rid ident L matched renamed (fun _ _ => False) (fun _ => False) [l] [tree] input [] ->
    exists n, forall fuel, (n <= fuel)%nat -> exists p, parse fuel (start_parser L V q0 v0 input) = Done (true, p) /\ map snd (s_stack (p_run p)) = [value L V shift_value reduce_value tree; v0].
  Proof.
    intros UC CU NR UX FS LI KQ P. inversion P as [| |x xs tr ts w1 w2 rest PX PN E1 E2 E3 E4]; subst; [contradiction|]. inversion PN; subst; [|contradiction].
    assert (K : kernel q0 (language_start l)) by (apply KQ; reflexivity).
    destruct (proj1 (drive rules first_of languages kernel step LM u UC UP NR UX FS rid ident L matched renamed V shift_value reduce_value) _ _ _ _ PX q0 v0 [] (language_start l) []) as (n & S & KN & M).
    - constructor. exact K.
    - reflexivity.
    - right. split; [intros i []|]. cbn. constructor; assumption.
    - cbn [app] in *. rewrite ?app_nil_r in *. destruct (moves_parse _ _ M) as (OK & m & PM); [intros q v [X|[]]; injection X as <- <-; eauto|]. cbn [fst snd] in *. exists (m + 1)%nat. intros fuel LE.
      destruct (PM [] 0%nat) as (calls & seen & PE). destruct (state_actions _ _ KN) as (k & acts & -> & N & D & EX).
      assert (A : In (mkAction Accept IEoi (-1) (l_rule (advance (language_start l)))) acts). { apply EX. constructor; [|right; left; reflexivity|left; reflexivity]. split; [constructor; exact KN|]. split; [reflexivity|]. eapply lalr_step; [constructor; eassumption|reflexivity|exact S]. }
      replace fuel with (m + (1 + (fuel - m - 1)))%nat by lia. unfold start_parser. rewrite PE. cbn [Nat.add RunModel.parse].
      destruct (process_acts rid rule_of ident sort sort_weak actss weaks II SO FI L matched renamed V shift_value reduce_value k [(q0, v0)] (value L V shift_value reduce_value tree) (mkRun ((Z.of_nat k, value L V shift_value reduce_value tree) :: [(q0, v0)]) calls) [] acts _ eq_refl N D A eq_refl (fuel - m - 1)%nat seen) as [seen' PA].
      cbn [a_type] in PA. fold t in PA. rewrite PA. cbn [bind]. eexists. split; reflexivity.
  Qed.
End Simulate.

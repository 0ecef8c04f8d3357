From Verif Require Import Base OrdMap GrammarModel GrammarProofs FirstModel LrItemModel LrItemProofs ClosureSpec BuilderSpec ActionModel ActionSpec TableModel TableProofs TableProps RunModel RunSpec RunProofs RunTableProofs RewriteModel RewriteSpec PrecSpec.
Local Open Scope Z_scope.

(** * Trees as the parser makes them: with the state each part was begun in, and the action by which it
    was finished *)
Section Made.
  Context (rules : Z -> list (list item)) (step : Z -> item -> Z -> Prop) (rid : rule -> Z) (ident : item -> Z) (L : Type) (matched : L -> Z) (renamed : Z -> L -> L) (weak : Z -> Z -> Prop) (ignorable : Z -> Prop).
  (** The actions of each state *)
  Context (available : Z -> action -> Prop).
  Definition look (l : option L) : item := match l with Some l => ITerm (matched l) | None => IEoi end.
  Definition reduces (q : Z) (r : rule) (x : item) : Prop := exists a, available q a /\ (a_type a = Reduce \/ a_type a = WeakReduce) /\ a_item a = x /\ a_rule a = r.
  Inductive made : Z -> item -> ast L -> list L -> list L -> Prop :=
  | made_term q l rest a : available q a -> a_type a = Shift -> a_item a = ITerm (matched l) -> made q (ITerm (matched l)) (Leaf (Some l)) [l] rest
  | made_weak q l s rest : weak (matched l) s -> made q (ITerm s) (Leaf (Some (renamed s l))) [l] rest
  | made_rule q x r ts w rest q' : expands rules x r -> made_all q r ts w rest q' -> reduces q' (mkRule x r) (look (hd_error rest)) -> made q x (Node (ident x) (rid (mkRule x r)) ts) w rest
  with made_all : Z -> list item -> list (ast L) -> list L -> list L -> Z -> Prop :=
  | made_none q rest : made_all q [] [] [] rest q
  | made_ignored q xs ts l w rest q' : ignorable (matched l) -> made_all q xs ts w rest q' -> made_all q xs ts (l :: w) rest q'
  | made_next q x xs t ts w1 w2 rest q1 q' : made q x t w1 (w2 ++ rest) -> step q x q1 -> made_all q1 xs ts w2 rest q' -> made_all q (x :: xs) (t :: ts) (w1 ++ w2) rest q'.

  Lemma made_app q xs ts w1 w2 rest q1 : made_all q xs ts w1 (w2 ++ rest) q1 -> forall ys us q2, made_all q1 ys us w2 rest q2 -> made_all q (xs ++ ys) (ts ++ us) (w1 ++ w2) rest q2.
  Proof.
    intros H. remember (w2 ++ rest) as r eqn:E. revert w2 rest E. induction H as [q r|q xs ts l w r q' I H IH|q x xs t ts w1 w' r q1 q' P S H IH]; intros w2 rest E ys us q2 Y; subst r; cbn [app].
    - exact Y.
    - constructor; [exact I|]. apply IH; [reflexivity|exact Y].
    - rewrite <- app_assoc. econstructor; [rewrite <- app_assoc; exact P|exact S|]. apply IH; [reflexivity|exact Y].
  Qed.
  Lemma made_app_inv q xs ys : forall ts w rest q2, made_all q (xs ++ ys) ts w rest q2 -> exists t1 t2 w1 w2 q1, ts = t1 ++ t2 /\ w = w1 ++ w2 /\ made_all q xs t1 w1 (w2 ++ rest) q1 /\ made_all q1 ys t2 w2 rest q2.
  Proof.
    intros ts w rest q2 H. remember (xs ++ ys) as zs eqn:E. revert xs ys E. induction H as [q r|q zs ts l w r q' I H IH|q z zs t ts w1 w' r q1 q' P S H IH]; intros xs ys E.
    - destruct xs; [|discriminate E]. cbn in E. subst ys. exists [], [], [], [], q. repeat split; constructor.
    - destruct (IH _ _ E) as (t1 & t2 & w1 & w2 & q1 & -> & -> & A & B). exists t1, t2, (l :: w1), w2, q1. repeat split; try assumption. constructor; assumption.
    - destruct xs as [|x xs].
      + cbn in E. subst ys. exists [], (t :: ts), [], (w1 ++ w'), q. repeat split; [constructor|econstructor; eassumption].
      + cbn in E. injection E as <- ->. destruct (IH _ _ eq_refl) as (t1 & t2 & w1' & w2 & q3 & -> & -> & A & B). exists (t :: t1), t2, (w1 ++ w1'), w2, q3. split; [reflexivity|]. split; [rewrite app_assoc; reflexivity|]. split; [|exact B].
        econstructor; [rewrite app_assoc; exact P|exact S|exact A].
  Qed.
  Lemma made_one q x t w rest q' : made q x t w rest -> step q x q' -> made_all q [x] [t] w rest q'.
  Proof. intros P S. rewrite <- (app_nil_r w). econstructor; [exact P|exact S|constructor]. Qed.
  Lemma made_one_inv q x ts w rest q' : made_all q [x] ts w rest q' -> exists t w1 w2, ts = [t] /\ made q x t w1 (w2 ++ rest) /\ step q x q'.
  Proof.
    intros H. remember [x] as xs eqn:E. induction H as [q r|q zs ts l w r q' I H IH|q z zs t ts w1 w' r q1 q' P S H IH]; [discriminate E|apply IH, E|]. injection E as -> ->.
    assert (X : ts = [] /\ q1 = q'). { clear -H. remember [] as zs eqn:E. induction H; [auto|auto|discriminate E]. } destruct X as [-> ->]. exists t, w1, w'. auto.
  Qed.
  Lemma made_length q xs ts w rest q' : made_all q xs ts w rest q' -> length ts = length xs.
  Proof. induction 1; cbn; congruence. Qed.
  (** The first of several *)
  Lemma made_first q x xs ts w rest q' : made_all q (x :: xs) ts w rest q' -> exists t ts' w1 w2 q1, ts = t :: ts' /\ made q x t w1 (w2 ++ rest) /\ step q x q1 /\ made_all q1 xs ts' w2 rest q'.
  Proof.
    intros H. remember (x :: xs) as zs eqn:E. induction H as [q r|q zs ts l w r q' I H IH|q z zs t ts w1 w' r q1 q' P S H IH]; [discriminate E|apply IH, E|]. injection E as -> ->. exists t, ts, w1, w', q1. auto.
  Qed.

  Lemma made_symbol q s t w rest : made q (ITerm s) t w rest -> (exists a, available q a /\ a_type a = Shift /\ a_item a = ITerm s) \/ exists l, weak (matched l) s.
  Proof. intros M. inversion M as [q1 l rest1 a A1 A2 A3|q1 l s1 rest1 WK|q1 x r ts w1 rest1 q' E]; subst; [left; exists a; auto|right; eauto|inversion E]. Qed.

  (** What follows a part of a tree *)
  Notation reads := (reads L matched renamed weak ignorable).
  Lemma reads_join a w : reads a w -> forall a' w', reads a' w' -> reads (a ++ a') (w ++ w').
  Proof. induction 1; intros; cbn [app]; [assumption|apply reads_same|apply reads_weak|apply reads_ignored]; auto. Qed.
  Scheme made_ind2 := Induction for made Sort Prop with made_all_ind2 := Induction for made_all Sort Prop.
  Combined Scheme made_both from made_ind2, made_all_ind2.
  Lemma made_reads : (forall q x t w rest, made q x t w rest -> reads (leaves L t) w) /\ (forall q xs ts w rest q', made_all q xs ts w rest q' -> reads (flat_map (leaves L) ts) w).
  Proof.
    apply made_both.
    - intros. cbn. apply reads_same. constructor.
    - intros. cbn. apply reads_weak; [assumption|constructor].
    - intros. cbn [leaves]. assumption.
    - intros. constructor.
    - intros. apply reads_ignored; assumption.
    - intros. cbn [flat_map]. apply reads_join; assumption.
  Qed.
  Lemma made_split q xs : forall before c behind w rest q', made_all q xs (before ++ c :: behind) w rest q' -> exists q1 x w1 w2, made q1 x c w1 (w2 ++ rest) /\ reads (flat_map (leaves L) behind) w2 /\ exists q2, step q1 x q2.
  Proof.
    intros before c behind w rest q' H. remember (before ++ c :: behind) as ts eqn:E. revert before E. induction H as [q r|q zs ts l w r q' I H IH|q z zs t ts w1 w' r q1 q' P S H IH]; intros before E; [destruct before; discriminate E|apply (IH _ E)|].
    destruct before as [|t0 before]; cbn in E; injection E as -> E; [subst ts|].
    - exists q, z, w1, w'. split; [exact P|]. split; [exact (proj2 made_reads _ _ _ _ _ _ H)|eauto].
    - exact (IH _ E).
  Qed.
  Lemma made_inside t s after : inside t s after -> forall q x w rest, made q x t w rest -> (exists q', step q x q') -> exists q1 x1 w1 w2, made q1 x1 s w1 (w2 ++ rest) /\ reads after w2 /\ exists q2, step q1 x1 q2.
  Proof.
    induction 1 as [t|n r before c behind s after IN IH]; intros q x w rest M ST.
    - exists q, x, w, []. split; [exact M|]. split; [constructor|exact ST].
    - inversion M as [| |q0 x0 r0 ts w0 rest0 q' E A R]; subst. destruct (made_split _ _ _ _ _ _ _ _ A) as (q1 & x1 & w1 & w2 & M1 & RD & ST1). destruct (IH _ _ _ _ M1 ST1) as (q3 & x3 & w3 & w4 & M3 & RD3 & ST3). exists q3, x3, w3, (w4 ++ w2). split; [rewrite <- app_assoc; exact M3|]. split; [apply reads_join; assumption|exact ST3].
  Qed.
  Lemma made_leftmost t s : leftmost t s -> forall q x w rest, made q x t w rest -> exists x1 w1 rest1, made q x1 s w1 rest1.
  Proof.
    induction 1 as [t|n r c ts s LM IH]; intros q x w rest M; [eauto|]. inversion M as [| |q0 x0 r0 ts0 w0 rest0 q' E A R]; subst. assert (LN := made_length _ _ _ _ _ _ A). destruct r0 as [|y ys]; [discriminate LN|]. apply made_first in A. destruct A as (t & ts' & w1 & w2 & q1 & EQ & M1 & _). injection EQ as <- _. exact (IH _ _ _ _ M1).
  Qed.
End Made.

Lemma popped V n : forall l : list (Z * V), (n < length l)%nat -> pop_items V n l = (map snd (firstn n l), skipn n l).
Proof.
  induction n as [|n IH]; intros l H; [destruct l; reflexivity|]. destruct l as [|[q v] l]; cbn [length] in H; [lia|]. destruct l as [|x l]; [cbn in H; lia|]. cbn [pop_items drop1]. rewrite IH by lia. reflexivity.
Qed.

(** * The parser makes such trees *)
Section Parser.
  Context (rules : Z -> list (list item)) (kernel : Z -> lr0 -> Prop) (step : Z -> item -> Z -> Prop) (LM : lr0_machine rules kernel step) (weak : Z -> Z -> Prop) (ignorable : Z -> Prop).
  Context (PL : forall q x n, step q x n -> x <> IEoi /\ x <> IEog).
  Context (rid : rule -> Z) (rule_of : Z -> rule) (ident : item -> Z) (sort : list entry -> list entry) (sort_weak : list (Z * Z) -> list (Z * Z)).
  Context (actss : list action_set) (weaks : list (item * iset)).
  Context (II : forall i j, ident i = ident j -> i = j) (SO : sorts entry_ltb sort) (FI : fits rid rule_of actss).
  Let t := make_tables rid rule_of ident sort sort_weak actss weaks.
  Context (FA : faithful rules kernel step weak (strong_for_weak t) ignorable actss).
  Context (NG : forall acts a, In acts actss -> In a acts -> a_type a <> Guard).
  Definition available (q : Z) (a : action) : Prop := 0 <= q /\ exists acts, nth_error actss (Z.to_nat q) = Some acts /\ In a acts.
  Context (L : Type) (matched : L -> Z) (renamed : Z -> L -> L) (V : Type) (shift_value : option L -> V) (reduce_value : Z -> Z -> list V -> V).
  Context (q0 : Z) (r0 : rule) (KQ : forall k, kernel q0 k <-> k = mkLr0 r0 0) (TR : top_rule r0) (v0 : V).
  Notation made := (made rules step rid ident L matched renamed weak ignorable available).
  Notation made_all := (made_all rules step rid ident L matched renamed weak ignorable available).
  Notation value := (value L V shift_value reduce_value).
  Notation acts := (standard_actions t L V shift_value reduce_value).
  Let JU := made_justified rules kernel step weak ignorable (lm_fun _ _ _ LM) PL rid rule_of ident sort sort_weak actss weaks II SO FI FA.

  Lemma made_end q xs ts w rest q' : made_all q xs ts w rest q' -> forall ss ys, path step q0 (q :: ss) ys -> exists ss', path step q0 (q' :: ss') (rev xs ++ ys) /\ skipn (length xs) (q' :: ss') = q :: ss.
  Proof.
    induction 1 as [q r|q zs ts l w r q' I H IH|q z zs u ts w1 w' r q1 q' P S H IH]; intros ss ys PT; [exists ss; auto|apply IH, PT|]. destruct (IH (q :: ss) (z :: ys)) as (ss' & PT' & SK); [constructor; assumption|]. exists ss'. split; [cbn [rev]; rewrite <- app_assoc; exact PT'|].
    cbn [length]. clear -SK. revert SK. generalize (q' :: ss') as l. generalize (length zs) as n. induction n as [|n IHn]; intros l SK; [cbn in SK; subst l; reflexivity|]. destruct l as [|a l]; [discriminate SK|]. exact (IHn l SK).
  Qed.
  Lemma path_same qs xs : path step q0 qs xs -> forall qs', path step q0 qs' xs -> qs = qs'.
  Proof.
    induction 1 as [|q qs xs x q' P IH S]; intros qs' P'; inversion P' as [|q1 qs1 xs1 x1 q1' P1 S1]; subst; [reflexivity|]. specialize (IH _ P1). injection IH as <- <-. rewrite (lm_fun _ _ _ LM _ _ _ _ S S1). reflexivity.
  Qed.
  Definition run_made (rest : list L) (d : run L V) : Prop := exists xs ts w q qs,
    map fst (s_stack d) = q :: qs /\ path step q0 (q :: qs) xs /\ map snd (s_stack d) = map value ts ++ [v0] /\ made_all q0 (rev xs) (rev ts) w rest q.
  Lemma run_made_reduce rest d q qs r a d' : run_made rest d -> map fst (s_stack d) = q :: qs -> available q a -> a_type a = Reduce \/ a_type a = WeakReduce -> a_rule a = r -> a_item a = look L matched (hd_error rest) ->
    standard_reduce t L V reduce_value (reduce_of rid ident r) d = Done d' -> run_made rest d'.
  Proof.
    intros (xs & ts & w & q1 & qs1 & ST1 & PT & VS & MA) ST AV TY AR AI H. rewrite ST in ST1. injection ST1 as <- <-.
    assert (X : exists k, l_rule k = r /\ closure_item rules (kernel q) k /\ after_dot k = [] /\ ~ top_rule (l_rule k)).
    { destruct AV as (Q & acts0 & N & I). pose proof (fa_sound _ _ _ _ _ _ _ FA _ _ _ N I) as S. rewrite Z2Nat.id in S by exact Q. destruct S; cbn in TY, AR |- *; try (destruct TY as [TY|TY]; discriminate TY). exists k. auto. }
    destruct X as (k & EK & C & AD & NT). destruct (path_reduce rules kernel step LM q0 r0 KQ TR _ _ _ _ PT C AD NT) as (E & LN & F & q' & qs' & q'' & SK & STP). rewrite EK in *.
    unfold standard_reduce in H. cbn [reduce_of rr_length rr_identifier rr_rule] in H. rewrite Nat2Z.id in H. assert (LS : length (s_stack d) = S (length xs)) by (apply path_length in PT; rewrite <- ST, map_length in PT; exact PT).
    rewrite popped in H by lia. rewrite <- skipn_map in H. rewrite ST, SK in H. cbn [top bind] in H.
    destruct (expands_plain _ _ _ E) as (_ & X1 & X2 & X3 & X4). pose proof (ju_goto _ _ _ _ _ _ _ _ JU _ _ _ STP X3 X4 X1 X2) as JG. fold t in JG. rewrite JG in H. cbn [bind] in H. injection H as <-.
    set (n := length (r_items r)) in *.
    pose proof MA as MA0. rewrite <- (firstn_skipn n xs) in MA. rewrite rev_app_distr, F, rev_involutive in MA. apply made_app_inv in MA. destruct MA as (t1 & t2 & w1 & w2 & q1 & TS & -> & MA1 & MA2).
    assert (LT : length t2 = n) by exact (made_length _ _ _ _ _ _ _ _ _ _ _ _ _ _ _ _ MA2). assert (ET : ts = rev t2 ++ rev t1) by (rewrite <- rev_app_distr, <- TS, rev_involutive; reflexivity). assert (LT' : length (rev t2) = n) by (rewrite rev_length; exact LT).
    assert (Q1 : q1 = q').
    { destruct (made_end _ _ _ _ _ _ MA1 [] [] (path_start _ _)) as (ss1 & P1 & _). rewrite app_nil_r, rev_involutive in P1. pose proof (path_skipn _ _ n _ _ PT LN) as P2. rewrite SK in P2. pose proof (path_same _ _ P1 _ P2) as X. congruence. }
    subst q1. exists (r_nonterminal r :: skipn n xs), (Node (ident (r_nonterminal r)) (rid r) t2 :: rev t1), (w1 ++ w2), q'', (q' :: qs'). cbn [s_stack s_calls map fst snd].
    split; [rewrite <- skipn_map, ST, SK; reflexivity|]. split; [constructor; [|exact STP]; rewrite <- SK; apply path_skipn; assumption|]. split.
    - cbn [app RunSpec.value]. rewrite <- skipn_map, <- firstn_map, VS, ET, map_app, <- app_assoc. rewrite <- LT', <- (map_length value), firstn_app, Nat.sub_diag, firstn_all, skipn_app, Nat.sub_diag, skipn_all. cbn [firstn skipn app]. rewrite app_nil_r, map_rev. reflexivity.
    - cbn [rev]. rewrite rev_involutive. eapply made_app; [exact MA1|]. apply made_one; [|exact STP]. destruct r as [x items]. cbn [r_nonterminal r_items] in *. econstructor; [exact E|exact MA2|]. exists a. auto.
  Qed.
  Lemma run_made_push rest rest' w' d q qs q' s u v : run_made rest d -> map fst (s_stack d) = q :: qs -> step q (ITerm s) q' -> rest = w' ++ rest' -> made q (ITerm s) u w' rest' -> v = value u ->
    forall cs, run_made rest' (mkRun ((q', v) :: s_stack d) cs).
  Proof.
    intros (xs & ts & w & q1 & qs1 & ST1 & PT & VS & MA) ST STP -> MD -> cs. rewrite ST in ST1. injection ST1 as <- <-. exists (ITerm s :: xs), (u :: ts), (w ++ w'), q', (q :: qs). cbn [s_stack map fst snd app rev].
    split; [rewrite ST; reflexivity|]. split; [constructor; assumption|]. split; [rewrite VS; reflexivity|]. eapply made_app; [exact MA|]. apply made_one; assumption.
  Qed.
  Lemma run_made_ignore l rest d : run_made (l :: rest) d -> ignorable (matched l) -> run_made rest d.
  Proof.
    intros (xs & ts & w & q1 & qs1 & ST1 & PT & VS & MA) I. exists xs, ts, (w ++ [l]), q1, qs1. repeat (split; [assumption|]). rewrite <- (app_nil_r (rev xs)), <- (app_nil_r (rev ts)). eapply made_app; [exact MA|]. constructor; [exact I|constructor].
  Qed.
  Definition accepted_made (p : parser L V) : Prop := exists tree w rest, made q0 (hd IEmpty (r_items r0)) tree w rest /\ map snd (s_stack (p_run p)) = [value tree; v0] /\ exists q1, step q0 (hd IEmpty (r_items r0)) q1.
  Context (R1 : length (r_items r0) = 1%nat).
  Definition entry_for (terminal : bool) (q : Z) (e : entry) : Prop := exists a, available q a /\ is_terminal (a_item a) = terminal /\ describes rid ident t a e /\ e_symbol e = symbol_of ident (a_item a).
  Lemma find_entries terminal q s l : find_symbol t terminal q s = Done l -> forall e, In e l -> entry_for terminal q e.
  Proof.
    intros H e I. unfold find_symbol in H. apply defined_done in H. assert (X : exists r, row q (if terminal then t_terminals t else t_nonterminals t) = Some r /\ In e r).
    { destruct terminal; unfold find_terminal, find_nonterminal in H; [destruct (row q (t_terminals t)) as [r|] eqn:R|destruct (row q (t_nonterminals t)) as [r|] eqn:R]; try discriminate H; injection H as <-; exists r; (split; [reflexivity || exact R|apply (find_action_in _ _ _ I)]). }
    destruct X as (r & R & IE). destruct (row_entry rid rule_of ident sort sort_weak actss weaks SO FI terminal q r e R IE) as (acts0 & a & Q & N & IA & TE & DE & SY). exists a. split; [split; [exact Q|exists acts0; auto]|]. auto.
  Qed.
  Lemma choose_made fuel (terminal : bool) symbol la : forall es p r p' q qs,
    run_made (p_input p) (p_run p) -> map fst (s_stack (p_run p)) = q :: qs -> (forall e, In e es -> entry_for terminal q e) ->
    looked L la (p_input p) -> (if terminal then exists l, hd_error (p_input p) = Some l /\ symbol = matched l else p_input p = [] /\ symbol = ident IEoi) ->
    choose t L matched renamed V shift_value reduce_value fuel terminal symbol la es p = Done (r, p') ->
    run_made (p_input p') (p_run p') /\ (r = Accepted -> accepted_made p').
  Proof.
    induction es as [|e es IH]; intros p r p' q qs RV ST OK LK SY H; cbn [choose] in H; [injection H as <- <-; split; [exact RV|discriminate]|].
    destruct (Z.eqb_spec (e_symbol e) symbol) as [ES|NS]; cbn [negb] in H; [|injection H as <- <-; split; [exact RV|discriminate]].
    done_in H go GO. destruct (OK e (or_introl eq_refl)) as (a & AV & TE & [DT DE] & SE). assert (OK' : forall x, In x es -> entry_for terminal q x) by (intros x I; apply OK; right; exact I).
    destruct go; cbn [negb] in H; [|eapply IH; eassumption]. clear GO.
    assert (AI : a_item a = look L matched (hd_error (p_input p))).
    { destruct terminal.
      - destruct SY as (l & HD & SM). rewrite HD. cbn. destruct (a_item a) as [| | |s| | |]; try discriminate TE. cbn in SE. congruence.
      - destruct SY as [IE SM]. rewrite IE. cbn. apply II. destruct (a_item a); try discriminate TE; cbn in SE; congruence. }
    assert (SND : sound_action rules kernel step weak (strong_for_weak t) ignorable q a).
    { destruct AV as (Q & acts0 & N & I). pose proof (fa_sound _ _ _ _ _ _ _ FA _ _ _ N I) as S. rewrite Z2Nat.id in S by exact Q. exact S. }
    assert (REDUCE : a_type a = Reduce \/ a_type a = WeakReduce -> (do (b, d) <- perform t L matched renamed acts la e (p_run p) ;; let p := mkParser d (p_input p) (p_seen p) in if b : bool then do p <- next_lexeme L V p ;; Done (More, p) else Done (More, p)) = Done (r, p') -> run_made (p_input p') (p_run p') /\ (r = Accepted -> accepted_made p')).
    { intros T X. done_in X bd PF. destruct bd as [b d']. unfold perform in PF. assert (X' : exists d1, standard_reduce t L V reduce_value (reduce_of rid ident (a_rule a)) (p_run p) = Done d1 /\ b = false /\ d' = d1).
      { rewrite DT in PF. destruct T as [T|T]; rewrite T in PF, DE; cbn [is_reduction] in DE; rewrite DE in PF; cbn [defined bind] in PF; done_in PF d1 D1; injection PF as <- <-; cbn in D1; eauto. }
      destruct X' as (d1 & D1 & -> & ->). injection X as <- <-. cbn [p_input p_run]. split; [|discriminate]. eapply run_made_reduce; try eassumption. reflexivity. }
    rewrite DT in H. destruct (a_type a) eqn:T; try (apply REDUCE; auto; fail); clear REDUCE.
    - (* shift *) done_in H bd PF. destruct bd as [b d']. unfold perform in PF. rewrite DT in PF. injection PF as <- <-. cbn [d_shift standard_actions] in H. cbn [is_reduction] in DE.
      inversion SND as [x n r1 STP TY| | | | | |]; subst a; cbn in T; try discriminate T; [|subst ty; destruct H0 as [X|X]; discriminate X]. cbn [a_item a_next] in *.
      destruct terminal.
      + destruct SY as (l & HD & SM). destruct la as [l'| |]; [|cbn in LK; rewrite LK in HD; discriminate HD|destruct LK]. cbn [looked lexeme_of] in *. assert (l' = l) by congruence. subst l'. cbn [next_lexeme p_input] in H. destruct (p_input p) as [|l1 rest] eqn:IP; [discriminate HD|]. injection HD as ->. cbn [bind next_lexeme p_input p_run p_seen] in H. injection H as <- <-. cbn [p_input p_run]. split; [|discriminate].
        cbn in AI. subst x. eapply (run_made_push (l :: rest) rest [l]); [exact RV|exact ST|rewrite DE; exact STP|reflexivity|econstructor; [exact AV|reflexivity|reflexivity]|reflexivity].
      + exfalso. destruct SY as [IE _]. rewrite IE in AI. cbn in AI. subst x. destruct TY as [[s X]|(p1 & g & X)]; discriminate X.
    - (* shiftstrong *) done_in H bd PF. destruct bd as [b d']. unfold perform in PF. rewrite DT in PF. cbn [is_reduction] in DE.
      inversion SND as [| |ty x n k X| | |w n r1 WK STP|]; subst a; cbn in T; try discriminate T; [subst ty; destruct X as [X|X]; discriminate X|]. cbn [a_item a_next] in *. destruct terminal; [|discriminate TE].
      destruct SY as (l & HD & SM). destruct la as [l'| |]; [|discriminate PF|discriminate PF]. injection PF as <- <-. cbn [d_shift standard_actions] in H. cbn [looked lexeme_of] in *. assert (l' = l) by congruence. subst l'. cbn [next_lexeme p_input] in H. destruct (p_input p) as [|l1 rest] eqn:IP; [discriminate HD|]. injection HD as ->. cbn [bind next_lexeme p_input p_run p_seen] in H. injection H as <- <-. cbn [p_input p_run]. split; [|discriminate].
      cbn in SE. assert (EW : w = matched l) by congruence. clear SE. subst w. rewrite DE. eapply (run_made_push (l :: rest) rest [l]); [exact RV|exact ST|exact STP|reflexivity|constructor; exact WK|reflexivity].
    - (* ignore *) done_in H bd PF. destruct bd as [b d']. unfold perform in PF. rewrite DT in PF. injection PF as <- <-.
      inversion SND as [| |ty x n k X| | | |s n r1 IG]; subst a; cbn in T; try discriminate T; [subst ty; destruct X as [X|X]; discriminate X|]. cbn [a_item a_next] in *. destruct terminal; [|discriminate TE].
      destruct SY as (l & HD & SM). cbn [next_lexeme p_input] in H. destruct (p_input p) as [|l1 rest] eqn:IP; [discriminate HD|]. injection HD as ->. cbn [bind next_lexeme p_input p_run p_seen] in H. injection H as <- <-. cbn [p_input p_run]. split; [|discriminate].
      cbn in SE. assert (EW : s = matched l) by congruence. clear SE. subst s. eapply run_made_ignore; eassumption.
    - (* accept *) injection H as <- <-. split; [exact RV|]. intros _. destruct RV as (xs & ts & w & q1 & qs1 & ST1 & PT & VS & MA). rewrite ST in ST1. injection ST1 as <- <-.
      inversion SND as [| |ty x n k X|x n k XE C AD TP| | |]; subst a; cbn in T; try discriminate T; [subst ty; destruct X as [X|X]; discriminate X|]. cbn [a_item] in *.
      destruct (path_accept rules kernel step LM q0 r0 KQ _ _ _ _ PT C AD TP) as (RE & XS & _). rewrite XS, rev_involutive in MA. assert (IE : p_input p = []). { destruct (p_input p) as [|l rest]; [reflexivity|]. cbn in AI. destruct XE as [XE|XE]; rewrite XE in AI; discriminate AI. }
      rewrite IE in *. destruct (r_items r0) as [|y [|? ?]] eqn:RI; try discriminate R1. apply made_one_inv in MA. destruct MA as (tree & w1 & w2 & TS & MD & STP). assert (ts = [tree]) by (rewrite <- (rev_involutive ts), TS; reflexivity). subst ts.
      unfold accepted_made. rewrite RI. exists tree, w1, (w2 ++ []). split; [exact MD|]. eauto.
    - (* goto *) exfalso. inversion SND as [|x n r1 STP TY TG|ty x n k X| | | |]; subst a; cbn in T; try discriminate T; [|subst ty; destruct X as [X|X]; discriminate X]. cbn [a_item] in *. destruct (p_input p) as [|l rest]; cbn in AI; subst x; [destruct (PL _ _ _ STP); congruence|exact (TY _ eq_refl)].
    - (* divert *) exfalso. inversion SND as [| |ty x n k X| | | |]; subst a; cbn in T; try discriminate T. subst ty; destruct X as [X|X]; discriminate X.
    - (* guard *) exfalso. destruct AV as (_ & acts0 & N & I). exact (NG acts0 a (nth_error_In _ _ N) I T).
  Qed.
  Lemma process_made fuel p r p' : run_made (p_input p) (p_run p) -> process t L matched renamed V shift_value reduce_value fuel p = Done (r, p') -> run_made (p_input p') (p_run p') /\ (r = Accepted -> accepted_made p').
  Proof.
    intros RV H. unfold process in H. destruct (symbol_of_look t L matched (nth_error (p_input p) 0)) as [terminal symbol] eqn:SL. cbn [p_run p_input] in H. done_in H q TP. destruct (top_done _ _ TP) as [qs ST]. done_in H es FS.
    eapply choose_made; [| | | | |exact H]; cbn [p_input p_run]; [exact RV|exact ST| | |].
    - exact (find_entries _ _ _ _ FS).
    - destruct (p_input p); reflexivity.
    - unfold symbol_of_look in SL. destruct (p_input p) as [|l rest]; cbn in SL; injection SL as <- <-; [split; [reflexivity|apply (ju_eoi _ _ _ _ _ _ _ _ JU)]|exists l; split; reflexivity].
  Qed.
  Lemma parse_made fuel : forall p b p', run_made (p_input p) (p_run p) -> parse t L matched renamed V shift_value reduce_value fuel p = Done (b, p') -> run_made (p_input p') (p_run p') /\ (b = true -> accepted_made p').
  Proof.
    induction fuel as [|fuel IH]; intros p b p' RV H; [discriminate H|]. cbn [parse] in H. done_in H rp PR. destruct rp as [r p1]. destruct (process_made _ _ _ _ RV PR) as [RV1 AC]. destruct r.
    - exact (IH _ _ _ RV1 H).
    - injection H as <- <-. auto.
    - injection H as <- <-. split; [exact RV1|discriminate].
  Qed.
  Lemma start_made input : run_made input (mkRun [(q0, v0)] []).
  Proof. exists [], [], [], q0, []. cbn. repeat split; constructor. Qed.
End Parser.

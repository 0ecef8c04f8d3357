From Verif Require Import Base OrdMap GrammarModel GrammarProofs FirstModel LrItemModel ClosureSpec BuilderSpec ActionModel ActionSpec TableModel RunModel RunSpec.
Local Open Scope Z_scope.

Lemma bind_done {A B} (x : outcome A) (f : A -> outcome B) b : bind x f = Done b -> exists a, x = Done a /\ f a = Done b.
Proof. destruct x; cbn; try discriminate. eauto. Qed.
Lemma defined_done {A} (x : option A) a : defined x = Done a -> x = Some a.
Proof. destruct x; cbn; congruence. Qed.
Ltac done_in H x E := apply bind_done in H; destruct H as (x & E & H).

(** * Derivations *)
Section Derivations.
  Context (rules : Z -> list (list item)) (rid : rule -> Z) (ident : item -> Z) (L : Type) (matched : L -> Z) (renamed : Z -> L -> L) (weak : Z -> Z -> Prop) (ignorable : Z -> Prop).
  Notation parses := (parses rules rid ident L matched renamed weak ignorable).
  Notation parses_all := (parses_all rules rid ident L matched renamed weak ignorable).
  Notation rightmost := (rightmost rules).
  Notation spells := (spells L matched weak ignorable).

  Lemma all_app xs ts w1 w2 rest : parses_all xs ts w1 (w2 ++ rest) -> forall ys us, parses_all ys us w2 rest -> parses_all (xs ++ ys) (ts ++ us) (w1 ++ w2) rest.
  Proof.
    intros H. remember (w2 ++ rest) as r eqn:E. revert w2 rest E. induction H as [r|xs ts l w r I H IH|x xs t ts w1 w' r P H IH]; intros w2 rest E ys us Y; subst r; cbn [app].
    - exact Y.
    - constructor; [exact I|]. apply IH; [reflexivity|exact Y].
    - rewrite <- app_assoc. constructor; [rewrite <- app_assoc; exact P|]. apply IH; [reflexivity|exact Y].
  Qed.
  Lemma all_app_inv xs ys : forall ts w rest, parses_all (xs ++ ys) ts w rest -> exists t1 t2 w1 w2, ts = t1 ++ t2 /\ w = w1 ++ w2 /\ length t1 = length xs /\ parses_all xs t1 w1 (w2 ++ rest) /\ parses_all ys t2 w2 rest.
  Proof.
    intros ts w rest H. remember (xs ++ ys) as zs eqn:E. revert xs ys E. induction H as [r|zs ts l w r I H IH|z zs t ts w1 w' r P H IH]; intros xs ys E.
    - destruct xs; [|discriminate E]. cbn in E. subst ys. exists [], [], [], []. repeat split; constructor.
    - destruct (IH _ _ E) as (t1 & t2 & w1 & w2 & -> & -> & LN & A & B). exists t1, t2, (l :: w1), w2. repeat split; try assumption. constructor; assumption.
    - destruct xs as [|x xs].
      + cbn in E. subst ys. exists [], (t :: ts), [], (w1 ++ w'). repeat split; constructor; assumption.
      + cbn in E. injection E as <- ->. destruct (IH _ _ eq_refl) as (t1 & t2 & w1' & w2 & -> & -> & LN & A & B). exists (t :: t1), t2, (w1 ++ w1'), w2. split; [reflexivity|]. split; [rewrite app_assoc; reflexivity|]. split; [cbn; congruence|]. split; [|exact B].
        constructor; [rewrite app_assoc; exact P|exact A].
  Qed.
  Lemma all_one x t w rest : parses x t w rest -> parses_all [x] [t] w rest.
  Proof. intros P. rewrite <- (app_nil_r w). constructor; [exact P|constructor]. Qed.
  Lemma all_length xs ts w rest : parses_all xs ts w rest -> length ts = length xs.
  Proof. induction 1; cbn; congruence. Qed.

  Lemma rightmost_snoc rs a b : rightmost rs a b -> forall x, shiftable x -> rightmost rs (a ++ [x]) (b ++ [x]).
  Proof.
    induction 1 as [a|r rs a w b E F R IH]; intros x X; [constructor|]. rewrite <- app_assoc. cbn [app]. constructor; [exact E|apply Forall_app; split; [exact F|constructor; [exact X|constructor]]|].
    specialize (IH x X). rewrite <- !app_assoc in IH. exact IH.
  Qed.
  Lemma spells_app xs w : spells xs w -> forall ys w', spells ys w' -> spells (xs ++ ys) (w ++ w').
  Proof. induction 1; intros; cbn [app]; try constructor; auto. Qed.
End Derivations.

(** * Paths in an LR(0) machine *)
Section Machine.
  Context (rules : Z -> list (list item)) (kernel : Z -> lr0 -> Prop) (step : Z -> item -> Z -> Prop).
  Record lr0_machine : Prop := {
    lm_goto : forall q x q', step q x q' -> forall k, kernel q' k <-> goto rules (kernel q) x k;
    lm_step : forall q x k, x <> IEmpty -> (exists k0, kernel q k0) -> goto rules (kernel q) x k -> exists q', step q x q';
    lm_fun : forall q x q1 q2, step q x q1 -> step q x q2 -> q1 = q2 }.
  Context (LM : lr0_machine).
  (** [q0]: where the path starts; [r0]: the only rule of its kernel *)
  Context (q0 : Z) (r0 : rule) (KQ : forall k, kernel q0 k <-> k = mkLr0 r0 0) (TR : top_rule r0).
  (** The states passed, the last one first, and the symbols between them *)
  Inductive path : list Z -> list item -> Prop :=
  | path_start : path [q0] []
  | path_step q qs xs x q' : path (q :: qs) xs -> step q x q' -> path (q' :: q :: qs) (x :: xs).

  Lemma path_length qs xs : path qs xs -> length qs = S (length xs).
  Proof. induction 1; cbn in *; lia. Qed.
  Lemma path_skipn n : forall qs xs, path qs xs -> (n <= length xs)%nat -> path (skipn n qs) (skipn n xs).
  Proof.
    induction n as [|n IH]; intros qs xs P LE; [exact P|]. inversion P as [|q qs' xs' x q' P' S]; subst; cbn in LE; [lia|]. cbn [skipn]. apply IH; [exact P'|lia].
  Qed.
  Lemma expands_no_top y r : expands rules y r -> ~ top_rule (mkRule y r).
  Proof. intros E [T|(p & l & T)]; cbn in T; subst y; inversion E. Qed.
  Lemma expands_plain y r : expands rules y r -> y <> IEmpty /\ (forall s, y <> ITerm s) /\ (forall p l, y <> IGuard p l) /\ y <> IEoi /\ y <> IEog.
  Proof. intros E. destruct E; repeat split; intros; discriminate. Qed.
  Lemma closure_offset q k : closure_item rules (kernel q) k -> kernel q k \/ exists k0 y rest r, closure_item rules (kernel q) k0 /\ after_dot k0 = y :: rest /\ expands rules y r /\ k = mkLr0 (mkRule y r) 0.
  Proof. intros C. destruct C as [k K|k y rest r C A E]; [left; exact K|right; exists k, y, rest, r; auto]. Qed.
  (** Going back along the path from an item *)
  Lemma path_back n : forall q qs xs r, path (q :: qs) xs -> closure_item rules (kernel q) (mkLr0 r n) ->
    (n <= length xs)%nat /\ (n <= length (r_items r))%nat /\ firstn n xs = rev (firstn n (r_items r)) /\ exists q' qs', skipn n (q :: qs) = q' :: qs' /\ closure_item rules (kernel q') (mkLr0 r 0).
  Proof.
    induction n as [|n IH]; intros q qs xs r P C.
    - split; [lia|]. split; [lia|]. split; [reflexivity|]. exists q, qs. auto.
    - destruct (closure_offset _ _ C) as [K|(k0 & y & rest & r' & _ & _ & _ & E)]; [|discriminate E]. inversion P as [|q1 qs1 xs1 x q' P1 ST]; subst.
      + apply KQ in K. discriminate K.
      + apply (lm_goto LM _ _ _ ST) in K. destruct K as (k1 & rest & C1 & A & E). destruct k1 as [r1 o1]. unfold advance in E. cbn [l_rule l_offset] in E. injection E as <- ->. destruct (IH _ _ _ _ P1 C1) as (L1 & L2 & F & q'' & qs'' & SK & C0).
        unfold after_dot in A. cbn [l_rule l_offset] in A. assert (LT : (o1 < length (r_items r))%nat). { destruct (Nat.lt_ge_cases o1 (length (r_items r))) as [|GE]; [assumption|]. rewrite skipn_all2 in A by lia. discriminate A. }
        split; [cbn; lia|]. split; [lia|]. split; [|exists q'', qs''; split; [exact SK|exact C0]]. change (firstn (S o1) (x :: xs1)) with (x :: firstn o1 xs1). rewrite F.
        assert (X : firstn (S o1) (r_items r) = firstn o1 (r_items r) ++ [x]).
        { clear -A. revert A. generalize (r_items r). induction o1 as [|o IH]; intros l A; [destruct l; [discriminate A|]; cbn in A; injection A as -> ->; reflexivity|]. destruct l as [|a l]; [discriminate A|]. cbn [skipn] in A. apply IH in A. change (firstn (S (S o)) (a :: l)) with (a :: firstn (S o) l). rewrite A. reflexivity. }
        rewrite X, rev_app_distr. reflexivity.
  Qed.
  (** An item at the start of a rule in the kernel: the start of the path *)
  Lemma path_top q qs xs r : path (q :: qs) xs -> kernel q (mkLr0 r 0) -> qs = [] /\ xs = [] /\ r = r0.
  Proof.
    intros P K. inversion P as [|q1 qs1 xs1 x q' P1 ST]; subst.
    - apply KQ in K. injection K as ->. auto.
    - apply (lm_goto LM _ _ _ ST) in K. destruct K as (k1 & rest & _ & _ & E). discriminate E.
  Qed.
  (** A complete rule: its items are on the path, and lead on from where they started. *)
  Lemma path_complete q qs xs k : path (q :: qs) xs -> closure_item rules (kernel q) k -> after_dot k = [] -> let n := length (r_items (l_rule k)) in
    (n <= length xs)%nat /\ l_offset k = n /\ firstn n xs = rev (r_items (l_rule k)) /\ exists q' qs', skipn n (q :: qs) = q' :: qs' /\ closure_item rules (kernel q') (mkLr0 (l_rule k) 0).
  Proof.
    intros P C A n. destruct k as [r o]. cbn [l_rule] in *. destruct (path_back o q qs xs r P C) as (L1 & L2 & F & q' & qs' & S & C0). unfold after_dot in A. cbn [l_rule l_offset] in A.
    assert (o = n). { assert (X := skipn_length o (r_items r)). rewrite A in X. cbn in X. unfold n. lia. } subst o. split; [exact L1|]. split; [reflexivity|]. split; [rewrite F; unfold n; rewrite firstn_all; reflexivity|]. exists q', qs'. auto.
  Qed.
  Lemma path_reduce q qs xs k : path (q :: qs) xs -> closure_item rules (kernel q) k -> after_dot k = [] -> ~ top_rule (l_rule k) -> let n := length (r_items (l_rule k)) in
    expands rules (r_nonterminal (l_rule k)) (r_items (l_rule k)) /\
    (n <= length xs)%nat /\ firstn n xs = rev (r_items (l_rule k)) /\ exists q' qs' q'', skipn n (q :: qs) = q' :: qs' /\ step q' (r_nonterminal (l_rule k)) q''.
  Proof.
    intros P C A NT n. destruct (path_complete _ _ _ _ P C A) as (LN & _ & F & q' & qs' & S & C0). fold n in LN, F, S. assert (P' := path_skipn n _ _ P LN). rewrite S in P'. destruct (closure_offset _ _ C0) as [K|(k0 & y & rest & r' & C1 & A1 & E & EK)].
    - exfalso. destruct (path_top _ _ _ _ P' K) as (_ & _ & X). apply NT. rewrite X. exact TR.
    - injection EK as EK. rewrite EK. cbn [r_nonterminal r_items]. split; [exact E|]. split; [exact LN|]. split; [rewrite F, EK; reflexivity|]. destruct (lm_step LM q' y (advance k0)) as [q'' S'].
      + apply (expands_plain _ _ E).
      + clear -C1. induction C1; eauto.
      + exists k0, rest. auto.
      + exists q', qs', q''. auto.
  Qed.
  Lemma path_accept q qs xs k : path (q :: qs) xs -> closure_item rules (kernel q) k -> after_dot k = [] -> top_rule (l_rule k) -> l_rule k = r0 /\ xs = rev (r_items r0) /\ length qs = length xs.
  Proof.
    intros P C A T. destruct (path_complete _ _ _ _ P C A) as (LN & _ & F & q' & qs' & S & C0). set (n := length (r_items (l_rule k))) in *. assert (P' := path_skipn n _ _ P LN). rewrite S in P'. destruct (closure_offset _ _ C0) as [K|(k0 & y & rest & r' & C1 & A1 & E & EK)].
    - destruct (path_top _ _ _ _ P' K) as (-> & X & E). split; [exact E|]. rewrite E in F. split; [rewrite <- F; pose proof (firstn_skipn n xs) as FS; rewrite X, app_nil_r in FS; symmetry; exact FS|]. apply path_length in P. cbn in P. lia.
    - injection EK as EK. rewrite EK in T. apply expands_no_top in E. contradiction.
  Qed.
End Machine.

(** * Tables whose actions are those of a machine *)
Section Sound.
  Context (rules : Z -> list (list item)) (kernel : Z -> lr0 -> Prop) (step : Z -> item -> Z -> Prop) (LM : lr0_machine rules kernel step).
  Context (rid : rule -> Z) (ident : item -> Z) (II : forall i j, ident i = ident j -> i = j) (t : tables) (weak : Z -> Z -> Prop) (ignorable : Z -> Prop).

  Definition reduce_of (r : rule) : reduce_rule := mkReduce (ident (r_nonterminal r)) (rid r) (Z.of_nat (length (r_items r))).
  Definition completes (q : Z) (e : entry) (r : rule) : Prop :=
    rule_at t (e_next e) = Some (reduce_of r) /\ exists k, l_rule k = r /\ closure_item rules (kernel q) k /\ after_dot k = [].
  Definition terminal_entry (q : Z) (e : entry) : Prop :=
    match e_type e with
    | Shift => step q (ITerm (e_symbol e)) (e_next e)
    | ShiftStrong => weak (e_symbol e) (strong_for_weak t (e_symbol e)) /\ step q (ITerm (strong_for_weak t (e_symbol e))) (e_next e)
    | Ignore => ignorable (e_symbol e)
    | Reduce | WeakReduce => exists r, completes q e r /\ ~ top_rule r
    | Guard => exists p g, forall k, kernel (e_next e) k <-> k = guard_start p g
    | Accept | Goto | Divert => False
    end.
  Definition nonterminal_entry (q : Z) (e : entry) : Prop :=
    match e_type e with
    | Shift => exists p g, e_symbol e = ident (IGuard p g) /\ step q (IGuard p g) (e_next e)
    | Goto => exists x, e_symbol e = ident x /\ x <> IEoi /\ x <> IEog /\ (forall p g, x <> IGuard p g)
    | Reduce | WeakReduce => exists r, completes q e r /\ ~ top_rule r
    | Accept => exists r, completes q e r /\ top_rule r
    | ShiftStrong | Ignore | Guard | Divert => False
    end.
  Record justified : Prop := {
    ju_terminal : forall q l e, row q (t_terminals t) = Some l -> In e l -> terminal_entry q e;
    ju_nonterminal : forall q l e, row q (t_nonterminals t) = Some l -> In e l -> nonterminal_entry q e;
    ju_goto : forall q x q', step q x q' -> x <> IEoi -> x <> IEog -> (forall s, x <> ITerm s) -> (forall p g, x <> IGuard p g) -> find_goto t q (ident x) = Done (Some q');
    ju_eoi : t_eoi t = ident IEoi;
    ju_eog : t_eog t = ident IEog }.
  Context (JU : justified).

  Lemma find_action_in s e l : In e (find_action s l) -> In e l.
  Proof. unfold find_action. intros H. rewrite <- (firstn_skipn (find_pos s l) l). apply in_app_iff. right. exact H. Qed.
  Definition entry_ok (terminal : bool) (q : Z) (e : entry) : Prop := if terminal then terminal_entry q e else nonterminal_entry q e.
  Lemma find_symbol_ok terminal q s l : find_symbol t terminal q s = Done l -> forall e, In e l -> entry_ok terminal q e.
  Proof.
    intros H e I. unfold find_symbol in H. apply defined_done in H. destruct terminal; unfold find_terminal, find_nonterminal in H.
    - destruct (row q (t_terminals t)) as [r|] eqn:R; [|discriminate H]. injection H as <-. eapply ju_terminal; [exact JU|exact R|apply (find_action_in _ _ _ I)].
    - destruct (row q (t_nonterminals t)) as [r|] eqn:R; [|discriminate H]. injection H as <-. eapply ju_nonterminal; [exact JU|exact R|apply (find_action_in _ _ _ I)].
  Qed.

  Context (L : Type) (matched : L -> Z) (renamed : Z -> L -> L).
  Notation parses := (parses rules rid ident L matched renamed weak ignorable).
  Notation parses_all := (parses_all rules rid ident L matched renamed weak ignorable).

  (** The use of a guard symbol *)
  Section Guard.
    Context {D : Type} (dl : delegate L D) (P : D -> Prop) (la : lookahead L) (p : Z) (g : list item).
    Context (HR : forall d q qs e r d', P d -> d_states dl d = q :: qs -> completes q e r -> ~ top_rule r -> d_reduce dl (reduce_of r) d = Done d' -> P d').
    Context (HS : forall d q qs q', P d -> d_states dl d = q :: qs -> step q (IGuard p g) q' -> P (d_shift dl q' (lexeme_of L la) d)).
    Lemma top_done l q : top l = Done q -> exists qs, l = q :: qs.
    Proof. destruct l; cbn; [discriminate|]. intros H. injection H as ->. eauto. Qed.
    Lemma guard_act e q qs d b d' : P d -> d_states dl d = q :: qs -> nonterminal_entry q e -> e_symbol e = ident (IGuard p g) -> (e_type e = Accept -> False) -> perform t L matched renamed dl la e d = Done (b, d') -> P d'.
    Proof.
      intros PD ST N S NA H. unfold perform in H. unfold nonterminal_entry in N. destruct (e_type e) eqn:T; try contradiction.
      - injection H as <- <-. destruct N as (p' & g' & E & SP). rewrite E in S. apply II in S. injection S as -> ->. eapply HS; eassumption.
      - destruct N as (r & C & NT). done_in H r' R. apply defined_done in R. done_in H d1 D1. injection H as <- <-. destruct C as [C1 C2]. rewrite C1 in R. injection R as <-. eapply HR; try eassumption. split; eassumption.
      - destruct N as (r & C & NT). done_in H r' R. apply defined_done in R. done_in H d1 D1. injection H as <- <-. destruct C as [C1 C2]. rewrite C1 in R. injection R as <-. eapply HR; try eassumption. split; eassumption.
      - destruct N as (x & E & _ & _ & NG). rewrite E in S. apply II in S. exfalso. apply (NG _ _ S).
    Qed.
    (** A guard symbol has no accepting action *)
    Context (NA : forall q l e, row q (t_nonterminals t) = Some l -> In e l -> e_symbol e = ident (IGuard p g) -> e_type e = Accept -> False).
    Lemma guard_perform_ok fuel : forall acts d d' q qs l, P d -> d_states dl d = q :: qs -> row q (t_nonterminals t) = Some l -> (forall e, In e acts -> In e l) ->
      guard_perform t L matched renamed dl fuel la (ident (IGuard p g)) acts d = Done d' -> P d'.
    Proof.
      induction fuel as [|fuel IH]; intros acts d d' q qs l PD ST R IN H; [discriminate H|]. cbn [guard_perform] in H. destruct acts as [|e acts]; [injection H as <-; exact PD|].
      destruct (Z.eqb_spec (e_symbol e) (ident (IGuard p g))) as [SY|NS]; cbn [negb] in H; [|injection H as <-; exact PD].
      done_in H go GO. destruct go; cbn [negb] in H; [|eapply IH; [exact PD|exact ST|exact R| |exact H]; intros; apply IN; right; assumption].
      done_in H bd PF. destruct bd as [b d1]. assert (P1 : P d1). { eapply guard_act; [exact PD|exact ST| |exact SY| |exact PF]; [eapply ju_nonterminal; [exact JU|exact R|apply IN; left; reflexivity]|]. eapply NA; [exact R|apply IN; left; reflexivity|exact SY]. }
      destruct b; [injection H as <-; exact P1|]. done_in H q1 TP. destruct (top_done _ _ TP) as [qs1 ST1]. done_in H l1 FS. unfold find_symbol in FS. apply defined_done in FS. unfold find_nonterminal in FS. destruct (row q1 (t_nonterminals t)) as [r1|] eqn:R1; [|discriminate FS]. injection FS as <-.
      eapply IH; [exact P1|exact ST1|exact R1| |exact H]. intros e0. apply find_action_in.
    Qed.
    Lemma process_guard_ok fuel d b d' : P d -> process_guard t L matched renamed dl fuel la (ident (IGuard p g)) d = Done (b, d') -> P d'.
    Proof.
      intros PD H. unfold process_guard in H. done_in H q TP. destruct (top_done _ _ TP) as [qs ST]. done_in H l FS. unfold find_symbol in FS. apply defined_done in FS. unfold find_nonterminal in FS. destruct (row q (t_nonterminals t)) as [r1|] eqn:R1; [|discriminate FS]. injection FS as <-.
      set (acts := find_action (ident (IGuard p g)) r1) in *. assert (IN : forall e, In e acts -> In e r1) by (intros e0; apply find_action_in). clearbody acts. destruct acts as [|e acts]; [injection H as _ <-; exact PD|]. destruct (negb _); [injection H as _ <-; exact PD|].
      done_in H u U. destruct (negb u); [injection H as _ <-; exact PD|]. done_in H d1 G. injection H as _ <-. eapply guard_perform_ok; eassumption.
    Qed.
  End Guard.

  (** A reduction, on the symbols of the path and their trees *)
  Lemma reduce_parses xs ts w rest r : parses_all (rev xs) ts w rest -> let n := length (r_items r) in (n <= length xs)%nat -> firstn n xs = rev (r_items r) -> expands rules (r_nonterminal r) (r_items r) ->
    exists t1 t2, ts = t1 ++ t2 /\ length t2 = n /\ parses_all (rev (r_nonterminal r :: skipn n xs)) (t1 ++ [Node (ident (r_nonterminal r)) (rid r) t2]) w rest.
  Proof.
    intros P n LN F E. rewrite <- (firstn_skipn n xs) in P. rewrite rev_app_distr, F, rev_involutive in P. apply all_app_inv in P. destruct P as (t1 & t2 & w1 & w2 & -> & -> & LT & A & B). exists t1, t2. split; [reflexivity|]. split; [apply all_length in B; exact B|].
    cbn [rev]. eapply all_app; [exact A|]. apply all_one. destruct r as [x items]. constructor; assumption.
  Qed.

  (** * Guards *)
  Section CheckGuard.
    Context (input : list L) (under : list Z) (off : nat) (q0 : Z) (p0 : Z) (g0 : list item) (KQ : forall k, kernel q0 k <-> k = guard_start p0 g0).
    Let r0 := mkRule (IGuard p0 g0) g0.
    Lemma r0_top : top_rule r0.
    Proof. right. exists p0, g0. reflexivity. Qed.
    Definition guard_valid (offset : nat) (d : list Z) : Prop := exists xs ts w, path step q0 d xs /\ skipn off input = w ++ skipn offset input /\ parses_all (rev xs) ts w (skipn offset input).
    Lemma guard_valid_reduce offset d q qs e r d' : guard_valid offset d -> d = q :: qs -> completes q e r -> ~ top_rule r -> guard_reduce t (reduce_of r) d = Done d' -> guard_valid offset d'.
    Proof.
      intros (xs & ts & w & PT & SP & PA) -> (_ & k & <- & C & AD) NT H. destruct (path_reduce rules kernel step LM q0 r0 KQ r0_top _ _ _ _ PT C AD NT) as (E & LN & F & q' & qs' & q'' & SK & ST). set (r := l_rule k) in *.
      unfold guard_reduce in H. cbn [reduce_of rr_length rr_identifier] in H. rewrite Nat2Z.id in H. destruct (Nat.ltb_spec (length (q :: qs)) (length (r_items r))); [discriminate H|]. rewrite SK in H. cbn [top bind] in H.
      destruct (expands_plain _ _ _ E) as (_ & X1 & X2 & X3 & X4). rewrite (ju_goto JU _ _ _ ST X3 X4 X1 X2) in H. cbn [bind] in H. injection H as <-.
      destruct (reduce_parses _ _ _ _ r PA LN F E) as (t1 & t2 & -> & _ & PA'). eexists (r_nonterminal r :: skipn (length (r_items r)) xs), _, w. split; [|split; [exact SP|exact PA']].
      constructor; [|exact ST]. rewrite <- SK. apply path_skipn; assumption.
    Qed.
    Lemma guard_valid_shift offset d q qs q' p g : guard_valid offset d -> d = q :: qs -> step q (IGuard p g) q' -> (exists ts w rest, skipn offset input = w ++ rest /\ parses_all g ts w rest) -> guard_valid offset (q' :: d).
    Proof.
      intros (xs & ts & w & PT & SP & PA) -> ST (us & w' & rest & E & PG). exists (IGuard p g :: xs), (ts ++ [Leaf (hd_error (w' ++ rest))]), w. split; [constructor; assumption|]. split; [exact SP|]. cbn [rev]. rewrite <- (app_nil_r w). eapply all_app; [exact PA|]. apply all_one. rewrite E. econstructor. exact PG.
    Qed.
    Lemma skipn_nth offset l : nth_error input offset = Some l -> skipn offset input = l :: skipn (S offset) input.
    Proof. clear. revert input. induction offset as [|o IH]; intros i H; [destruct i; [discriminate H|]; cbn in H; injection H as ->; reflexivity|]. destruct i as [|a i]; [discriminate H|]. apply IH in H. exact H. Qed.
    Lemma guard_valid_token offset d q qs q' l s t' : guard_valid offset d -> d = q :: qs -> nth_error input offset = Some l -> step q (ITerm s) q' -> (forall rest, parses (ITerm s) t' [l] rest) -> guard_valid (S offset) (q' :: d).
    Proof.
      intros (xs & ts & w & PT & SP & PA) -> N ST PG. rewrite (skipn_nth _ _ N) in *. exists (ITerm s :: xs), (ts ++ [t']), (w ++ [l]). split; [constructor; assumption|]. split; [rewrite SP, <- app_assoc; reflexivity|]. cbn [rev]. eapply all_app; [exact PA|]. apply all_one, PG.
    Qed.
    Lemma guard_valid_ignore offset d l : guard_valid offset d -> nth_error input offset = Some l -> ignorable (matched l) -> guard_valid (S offset) d.
    Proof.
      intros (xs & ts & w & PT & SP & PA) N I. rewrite (skipn_nth _ _ N) in *. exists xs, ts, (w ++ [l]). split; [assumption|]. split; [rewrite SP, <- app_assoc; reflexivity|]. rewrite <- (app_nil_r (rev xs)), <- (app_nil_r ts). eapply all_app; [exact PA|]. constructor; [exact I|constructor].
    Qed.
  End CheckGuard.

  (** A guard symbol cannot be accepted: no accepting action has it for its symbol. *)
  Context (NA : forall q l e p g, row q (t_nonterminals t) = Some l -> In e l -> e_symbol e = ident (IGuard p g) -> e_type e = Accept -> False).
  (** The answer of check_guard: -1, or the symbol of the guard, which begins the rest of the input *)
  Definition guard_answer (input : list L) (off : nat) (p0 : Z) (g0 : list item) (a : Z) : Prop := a = -1 \/ a = ident (IGuard p0 g0) /\ exists ts w rest, skipn off input = w ++ rest /\ parses_all g0 ts w rest.
  Lemma check_loop_ok input under fuel : forall off q0 p0 g0, (forall k, kernel q0 k <-> k = guard_start p0 g0) -> forall offset d seen a seen', guard_valid input off q0 offset d ->
    check_loop t L matched renamed input under fuel offset d seen = Done (a, seen') -> guard_answer input off p0 g0 a.
  Proof.
    induction fuel as [|fuel IH]; intros off q0 p0 g0 KQ offset d seen a seen' GV H; [discriminate H|]. cbn [check_loop] in H. set (la := nth_error input offset) in *. destruct (symbol_of_look t L matched la) as [terminal symbol] eqn:SL.
    done_in H q TP. destruct (top_done _ _ TP) as [qs ->]. done_in H can_end CE. clear CE. destruct (if can_end : bool then (false, t_eog t) else (terminal, symbol)) as [terminal' symbol'] eqn:TS. done_in H acts FS. pose proof (find_symbol_ok _ _ _ _ FS) as OK.
    assert (SY : (terminal' = true /\ exists l, la = Some l /\ symbol' = matched l) \/ (terminal' = false /\ (symbol' = ident IEoi \/ symbol' = ident IEog))).
    { destruct can_end; injection TS as <- <-; [right; rewrite (ju_eog JU); auto|]. unfold symbol_of_look in SL. destruct la as [l|]; injection SL as <- <-; [left; eauto|right; rewrite (ju_eoi JU); auto]. }
    clear FS TS. revert H OK. generalize (Nat.max seen (Nat.min (S offset) (length input))) as sn. assert (LA : (match la with Some l => Lexeme l | None => End end) = Moved \/ lexeme_of L (match la with Some l => Lexeme l | None => End end) = la) by (right; destruct la; reflexivity). revert LA. generalize (match la with Some l => Lexeme l | None => End end) as lk.
    induction acts as [|e acts IHa]; intros lk LA sn H OK; [injection H as <- <-; left; reflexivity|]. destruct (Z.eqb_spec (e_symbol e) symbol') as [ES|NS]; cbn [negb] in H; [|injection H as <- <-; left; reflexivity].
    done_in H go GO. destruct go; cbn [negb] in H; [|eapply IHa; [exact LA|exact H|]; intros; apply OK; right; assumption]. clear GO. pose proof (OK e (or_introl eq_refl)) as EO. specialize (fun lk LA sn X => IHa lk LA sn X (fun x I => OK x (or_intror I))).
    assert (REDUCE : e_type e = Reduce \/ e_type e = WeakReduce -> (do (b, d') <- perform t L matched renamed (guard_actions t L under) lk e (q :: qs);; check_loop t L matched renamed input under fuel (if b : bool then S offset else offset) d' sn) = Done (a, seen') -> guard_answer input off p0 g0 a).
    { intros T X. done_in X bd PF. destruct bd as [b d']. unfold perform in PF. assert (R : exists r, completes q e r /\ ~ top_rule r) by (unfold entry_ok, terminal_entry, nonterminal_entry in EO; destruct terminal', T as [T|T]; rewrite T in EO; exact EO).
      destruct R as (r & C & NT). assert (X' : exists d1, guard_reduce t (reduce_of r) (q :: qs) = Done d1 /\ b = false /\ d' = d1).
      { destruct C as [C1 C2]. destruct T as [T|T]; rewrite T in PF; rewrite C1 in PF; cbn [defined bind] in PF; done_in PF d1 D1; injection PF as <- <-; cbn in D1; eauto. }
      destruct X' as (d1 & D1 & -> & ->). eapply (IH _ _ _ _ KQ); [|exact X]. eapply guard_valid_reduce; [exact KQ|exact GV|reflexivity|exact C|exact NT|exact D1]. }
    destruct (e_type e) eqn:T; try (apply REDUCE; auto; fail).
    - (* shift *) clear REDUCE. done_in H bd PF. destruct bd as [b d']. unfold perform in PF. rewrite T in PF. injection PF as <- <-. cbn [d_shift guard_actions] in H. destruct SY as [[-> (l & LL & ->)]|[-> SE]]; cbn [entry_ok] in EO; [unfold terminal_entry in EO|unfold nonterminal_entry in EO]; rewrite T in EO.
      + eapply (IH _ _ _ _ KQ); [|exact H]. eapply (guard_valid_token _ _ _ _ _ _ _ _ l (matched l)); [exact GV|reflexivity|exact LL|rewrite <- ES; exact EO|intros; constructor].
      + destruct EO as (p & g & EO & _). exfalso. rewrite <- ES in SE. rewrite EO in SE. destruct SE as [SE|SE]; apply II in SE; discriminate SE.
    - (* shiftstrong *) clear REDUCE. done_in H bd PF. destruct bd as [b d']. unfold perform in PF. rewrite T in PF. destruct SY as [[-> (l & LL & ->)]|[-> SE]]; cbn [entry_ok] in EO; [unfold terminal_entry in EO|unfold nonterminal_entry in EO]; rewrite T in EO; [|contradiction]. destruct EO as [W ST].
      destruct lk as [l'| |]; [|discriminate PF|discriminate PF]. destruct LA as [LA|LA]; [discriminate LA|]. cbn in LA. assert (l' = l) by congruence. subst l'. injection PF as <- <-. cbn [d_shift guard_actions] in H. rewrite ES in W, ST.
      eapply (IH _ _ _ _ KQ); [|exact H]. eapply (guard_valid_token _ _ _ _ _ _ _ _ l); [exact GV|reflexivity|exact LL|exact ST|intros; constructor; exact W].
    - (* ignore *) clear REDUCE. done_in H bd PF. destruct bd as [b d']. unfold perform in PF. rewrite T in PF. injection PF as <- <-. destruct SY as [[-> (l & LL & ->)]|[-> SE]]; cbn [entry_ok] in EO; [unfold terminal_entry in EO|unfold nonterminal_entry in EO]; rewrite T in EO; [|contradiction].
      eapply (IH _ _ _ _ KQ); [|exact H]. eapply guard_valid_ignore; [exact GV|exact LL|rewrite <- ES; exact EO].
    - (* accept *) clear REDUCE. destruct SY as [[-> (l & LL & ->)]|[-> SE]]; cbn [entry_ok] in EO; [unfold terminal_entry in EO|unfold nonterminal_entry in EO]; rewrite T in EO; [contradiction|]. destruct EO as (r & (R & k & <- & C & AD) & TR). done_in H rr RR. apply defined_done in RR. rewrite R in RR. injection RR as <-. injection H as <- <-. cbn [reduce_of rr_identifier].
      destruct GV as (xs & ts & w & PT & SP & PA). destruct (path_accept rules kernel step LM q0 (mkRule (IGuard p0 g0) g0) KQ _ _ _ _ PT C AD TR) as (RE & -> & _); rewrite RE. right. cbn [r_nonterminal r_items] in *. split; [reflexivity|]. rewrite rev_involutive in PA. eauto.
    - (* goto *) clear REDUCE. exfalso. destruct SY as [[-> (l & LL & ->)]|[-> SE]]; cbn [entry_ok] in EO; [unfold terminal_entry in EO|unfold nonterminal_entry in EO]; rewrite T in EO; [contradiction|]. destruct EO as (x & EX & X1 & X2 & _). rewrite <- ES, EX in SE. destruct SE as [SE|SE]; apply II in SE; contradiction.
    - (* divert *) clear REDUCE. exfalso. destruct SY as [[-> (l & LL & ->)]|[-> SE]]; cbn [entry_ok] in EO; [unfold terminal_entry in EO|unfold nonterminal_entry in EO]; rewrite T in EO; contradiction.
    - (* guard *) clear REDUCE. destruct SY as [[-> (l & LL & ->)]|[-> SE]]; cbn [entry_ok] in EO; [unfold terminal_entry in EO|unfold nonterminal_entry in EO]; rewrite T in EO; [|contradiction]. destruct EO as (p & g & KE). done_in H ag CG. destruct ag as [a1 seen1].
      assert (GA : guard_answer input offset p g a1). { eapply (IH offset _ _ _ KE); [|exact CG]. exists [], [], []. split; [constructor|]. split; [reflexivity|constructor]. }
      set (lk' := match lk with Lexeme _ => if Nat.ltb sn seen1 then Moved else lk | _ => lk end) in H. assert (LA' : lk' = Moved \/ lexeme_of L lk' = la) by (unfold lk'; destruct lk; auto; destruct (Nat.ltb sn seen1); auto). clearbody lk'.
      destruct (Z.ltb_spec a1 0); [eapply IHa; [exact LA'|exact H]|]. destruct GA as [->|[-> GA]]; [lia|]. done_in H bd PG. destruct bd as [b d']. assert (GV' : guard_valid input off q0 offset d').
      { eapply (process_guard_ok (guard_actions t L under) (guard_valid input off q0 offset) lk' p g); [| | |exact GV|exact PG].
        - intros d0 q1 qs1 e1 r1 d1 V1 S1 C1 N1 R1. eapply guard_valid_reduce; [exact KQ|exact V1|exact S1|exact C1|exact N1|exact R1].
        - intros d0 q1 qs1 q2 V1 S1 ST. cbn [d_shift guard_actions]. eapply guard_valid_shift; [exact V1|exact S1|exact ST|exact GA].
        - intros. eapply NA; eassumption. }
      destruct b; [eapply (IH _ _ _ _ KQ); [exact GV'|exact H]|]. eapply IHa; [exact LA'|exact H].
  Qed.
  Lemma check_guard_ok input under fuel q p g offset seen a seen' : (forall k, kernel q k <-> k = guard_start p g) -> check_guard t L matched renamed input under fuel q offset seen = Done (a, seen') -> guard_answer input offset p g a.
  Proof. intros KQ. apply check_loop_ok with (q0 := q); [exact KQ|]. exists [], [], []. split; [constructor|]. split; [reflexivity|constructor]. Qed.

  (** * The parser *)
  Section Parser.
    Context (V : Type) (shift_value : option L -> V) (reduce_value : Z -> Z -> list V -> V).
    Context (q0 : Z) (r0 : rule) (KQ : forall k, kernel q0 k <-> k = mkLr0 r0 0) (TR : top_rule r0) (v0 : V) (input0 : list L).
    Notation value := (value L V shift_value reduce_value).
    Notation acts := (standard_actions t L V shift_value reduce_value).
    (** The reductions among the calls, the last one first *)
    Definition reductions (cs : list (call L V)) : list (Z * Z) := flat_map (fun c => match c with CallShift _ => [] | CallReduce n r _ => [(n, r)] end) cs.
    Definition reported (rs : list rule) : list (Z * Z) := map (fun r => (ident (r_nonterminal r), rid r)) rs.
    Definition run_valid (rest : list L) (d : run L V) : Prop := exists xs ts w word rs,
      path step q0 (map fst (s_stack d)) xs /\ map snd (s_stack d) = map value ts ++ [v0] /\ input0 = w ++ rest /\ parses_all (rev xs) (rev ts) w rest /\
      rightmost rules rs (rev xs) word /\ Forall shiftable word /\ spells L matched weak ignorable word w /\ reductions (s_calls d) = reported rs.
    Lemma pop_items_spec n : forall l, (n < length l)%nat -> pop_items V n l = (map snd (firstn n l), skipn n l).
    Proof.
      induction n as [|n IH]; intros l H; [destruct l; reflexivity|]. destruct l as [|[q v] l]; cbn [length] in H; [lia|]. destruct l as [|x l]; [cbn in H; lia|]. cbn [pop_items drop1]. rewrite IH by lia. reflexivity.
    Qed.
    Lemma run_valid_reduce rest d q qs e r d' : run_valid rest d -> map fst (s_stack d) = q :: qs -> completes q e r -> ~ top_rule r -> standard_reduce t L V reduce_value (reduce_of r) d = Done d' -> run_valid rest d'.
    Proof.
      intros (xs & ts & w & word & rs & PT & VS & IN & PA & RM & FS & SP & RD) ST (_ & k & <- & C & AD) NT H. rewrite ST in PT. destruct (path_reduce rules kernel step LM q0 r0 KQ TR _ _ _ _ PT C AD NT) as (E & LN & F & q' & qs' & q'' & SK & STP). set (r := l_rule k) in *.
      unfold standard_reduce in H. cbn [reduce_of rr_length rr_identifier rr_rule] in H. rewrite Nat2Z.id in H. assert (LS : length (s_stack d) = S (length xs)) by (apply path_length in PT; rewrite <- ST, map_length in PT; exact PT).
      rewrite pop_items_spec in H by lia. rewrite <- skipn_map in H. rewrite ST, SK in H. cbn [top bind] in H.
      destruct (expands_plain _ _ _ E) as (_ & X1 & X2 & X3 & X4). rewrite (ju_goto JU _ _ _ STP X3 X4 X1 X2) in H. cbn [bind] in H. injection H as <-.
      destruct (reduce_parses _ _ _ _ r PA LN F E) as (t1 & t2 & TS & LT & PA'). assert (ET : ts = rev t2 ++ rev t1) by (rewrite <- rev_app_distr, <- TS, rev_involutive; reflexivity).
      set (n := length (r_items r)) in *. assert (LT' : length (rev t2) = n) by (rewrite rev_length; exact LT).
      exists (r_nonterminal r :: skipn n xs), (Node (ident (r_nonterminal r)) (rid r) t2 :: rev t1), w, word, (r :: rs). cbn [s_stack s_calls map].
      split; [|split; [|split; [exact IN|split; [|split; [|split; [exact FS|split; [exact SP|]]]]]]].
      - cbn [map fst]. rewrite <- skipn_map, ST, SK. constructor; [|exact STP]. rewrite <- SK. apply path_skipn; assumption.
      - cbn [map snd app RunSpec.value]. rewrite <- skipn_map, <- firstn_map, VS, ET, map_app, <- app_assoc. rewrite <- LT', <- (map_length value), firstn_app, Nat.sub_diag, firstn_all, skipn_app, Nat.sub_diag, skipn_all. cbn [firstn skipn app]. rewrite app_nil_r, map_rev. reflexivity.
      - cbn [rev]. rewrite rev_involutive. exact PA'.
      - cbn [rev]. constructor; [exact E|constructor|]. rewrite app_nil_r. replace (rev (skipn n xs) ++ r_items r) with (rev xs); [exact RM|]. rewrite <- (firstn_skipn n xs) at 1. rewrite rev_app_distr, F, rev_involutive. reflexivity.
      - unfold reductions, reported in *. cbn [flat_map map app reduce_of rr_identifier rr_rule]. rewrite RD. reflexivity.
    Qed.
    Lemma run_valid_guard rest d q qs q' p g : run_valid rest d -> map fst (s_stack d) = q :: qs -> step q (IGuard p g) q' -> (exists ts w rest', rest = w ++ rest' /\ parses_all g ts w rest') -> run_valid rest (mkRun ((q', shift_value (hd_error rest)) :: s_stack d) (CallShift (hd_error rest) :: s_calls d)).
    Proof.
      intros (xs & ts & w & word & rs & PT & VS & IN & PA & RM & FS & SP & RD) ST STP (us & w' & rest' & E & PG). exists (IGuard p g :: xs), (Leaf (hd_error rest) :: ts), w, (word ++ [IGuard p g]), rs. cbn [s_stack s_calls map fst snd rev app RunSpec.value reductions flat_map].
      assert (SH : shiftable (IGuard p g)) by (right; eauto).
      split; [rewrite ST in *; constructor; assumption|]. split; [rewrite VS; reflexivity|]. split; [exact IN|]. split; [|split; [apply rightmost_snoc; assumption|split; [apply Forall_app; split; [exact FS|constructor; [exact SH|constructor]]|split; [|exact RD]]]].
      - rewrite <- (app_nil_r w). eapply all_app; [exact PA|]. apply all_one. rewrite E. econstructor. exact PG.
      - rewrite <- (app_nil_r w). apply spells_app; [exact SP|]. constructor. constructor.
    Qed.
    Lemma run_valid_token l rest d q qs q' s l' : run_valid (l :: rest) d -> map fst (s_stack d) = q :: qs -> step q (ITerm s) q' -> (forall rest, parses (ITerm s) (Leaf (Some l')) [l] rest) -> run_valid rest (mkRun ((q', shift_value (Some l')) :: s_stack d) (CallShift (Some l') :: s_calls d)).
    Proof.
      intros (xs & ts & w & word & rs & PT & VS & IN & PA & RM & FS & SP & RD) ST STP PG. exists (ITerm s :: xs), (Leaf (Some l') :: ts), (w ++ [l]), (word ++ [ITerm s]), rs. cbn [s_stack s_calls map fst snd rev app RunSpec.value reductions flat_map].
      assert (SH : shiftable (ITerm s)) by (left; eauto).
      split; [rewrite ST in *; constructor; assumption|]. split; [rewrite VS; reflexivity|]. split; [rewrite <- app_assoc; exact IN|]. split; [|split; [apply rightmost_snoc; assumption|split; [apply Forall_app; split; [exact FS|constructor; [exact SH|constructor]]|split; [|exact RD]]]].
      - eapply all_app; [exact PA|]. apply all_one, PG.
      - apply spells_app; [exact SP|]. specialize (PG []). inversion PG; subst; [apply spells_term|apply spells_weak; [assumption|]]; constructor.
    Qed.
    Lemma run_valid_ignore l rest d : run_valid (l :: rest) d -> ignorable (matched l) -> run_valid rest d.
    Proof.
      intros (xs & ts & w & word & rs & PT & VS & IN & PA & RM & FS & SP & RD) I. exists xs, ts, (w ++ [l]), word, rs. split; [exact PT|]. split; [exact VS|]. split; [rewrite <- app_assoc; exact IN|]. split; [|split; [exact RM|split; [exact FS|split; [|exact RD]]]].
      - rewrite <- (app_nil_r (rev xs)), <- (app_nil_r (rev ts)). eapply all_app; [exact PA|]. constructor; [exact I|constructor].
      - rewrite <- (app_nil_r word). apply spells_app; [exact SP|]. constructor; [exact I|constructor].
    Qed.
    (** What is found when the parser accepts its input *)
    Definition accepted (p : parser L V) : Prop := exists ts w word rs, input0 = w /\ p_input p = [] /\ parses_all (r_items r0) ts w [] /\ map snd (s_stack (p_run p)) = map value (rev ts) ++ [v0] /\
      rightmost rules rs (r_items r0) word /\ Forall shiftable word /\ spells L matched weak ignorable word w /\ reductions (s_calls (p_run p)) = reported rs.
    Definition looked (la : lookahead L) (input : list L) : Prop := match la with Lexeme l => hd_error input = Some l | End => input = [] | Moved => False end.
    Lemma choose_ok fuel terminal symbol la : forall es p r p' q qs,
      run_valid (p_input p) (p_run p) -> map fst (s_stack (p_run p)) = q :: qs -> (forall e, In e es -> entry_ok terminal q e) ->
      looked la (p_input p) -> (if terminal then exists l, hd_error (p_input p) = Some l /\ symbol = matched l else p_input p = [] /\ symbol = ident IEoi) ->
      choose t L matched renamed V shift_value reduce_value fuel terminal symbol la es p = Done (r, p') ->
      run_valid (p_input p') (p_run p') /\ (r = Accepted -> accepted p').
    Proof.
      induction es as [|e es IH]; intros p r p' q qs RV ST OK LK SY H; cbn [choose] in H; [injection H as <- <-; split; [exact RV|discriminate]|].
      destruct (Z.eqb_spec (e_symbol e) symbol) as [ES|NS]; cbn [negb] in H; [|injection H as <- <-; split; [exact RV|discriminate]].
      done_in H go GO. pose proof (OK e (or_introl eq_refl)) as EO. assert (OK' : forall x, In x es -> entry_ok terminal q x) by (intros x I; apply OK; right; exact I).
      destruct go; cbn [negb] in H; [|eapply IH; eassumption]. clear GO.
      assert (REDUCE : e_type e = Reduce \/ e_type e = WeakReduce -> (do (b, d) <- perform t L matched renamed acts la e (p_run p) ;; let p := mkParser d (p_input p) (p_seen p) in if b : bool then do p <- next_lexeme L V p ;; Done (More, p) else Done (More, p)) = Done (r, p') -> run_valid (p_input p') (p_run p') /\ (r = Accepted -> accepted p')).
      { intros T X. done_in X bd PF. destruct bd as [b d']. unfold perform in PF. assert (R : exists r, completes q e r /\ ~ top_rule r) by (unfold entry_ok, terminal_entry, nonterminal_entry in EO; destruct terminal, T as [T|T]; rewrite T in EO; exact EO).
        destruct R as (r1 & C & NT). assert (X' : exists d1, standard_reduce t L V reduce_value (reduce_of r1) (p_run p) = Done d1 /\ b = false /\ d' = d1).
        { destruct C as [C1 C2]. destruct T as [T|T]; rewrite T in PF; rewrite C1 in PF; cbn [defined bind] in PF; done_in PF d1 D1; injection PF as <- <-; cbn in D1; eauto. }
        destruct X' as (d1 & D1 & -> & ->). injection X as <- <-. cbn [p_input p_run]. split; [|discriminate]. eapply run_valid_reduce; eassumption. }
      destruct (e_type e) eqn:T; try (apply REDUCE; auto; fail); clear REDUCE.
      - (* shift *) done_in H bd PF. destruct bd as [b d']. unfold perform in PF. rewrite T in PF. injection PF as <- <-. cbn [d_shift standard_actions] in H. destruct terminal; cbn [entry_ok] in EO; [unfold terminal_entry in EO|unfold nonterminal_entry in EO]; rewrite T in EO.
        + destruct SY as (l & HD & SM). destruct la as [l'| |]; [|cbn in LK; rewrite LK in HD; discriminate HD|destruct LK]. cbn [looked lexeme_of] in *. assert (l' = l) by congruence. subst l'. cbn [next_lexeme p_input] in H. destruct (p_input p) as [|l1 rest] eqn:IP; [discriminate HD|]. injection HD as ->. cbn [bind next_lexeme p_input p_run p_seen] in H. injection H as <- <-. cbn [p_input p_run]. split; [|discriminate].
          eapply run_valid_token; [exact RV|exact ST|rewrite ES, SM in EO; exact EO|intros; constructor].
        + destruct EO as (p1 & g & EO & _). exfalso. destruct SY as [_ SE]. rewrite <- ES, EO in SE. apply II in SE. discriminate SE.
      - (* shiftstrong *) done_in H bd PF. destruct bd as [b d']. unfold perform in PF. rewrite T in PF. destruct terminal; cbn [entry_ok] in EO; [unfold terminal_entry in EO|unfold nonterminal_entry in EO]; rewrite T in EO; [|contradiction].
        destruct EO as [W STP]. destruct SY as (l & HD & SM). destruct la as [l'| |]; [|discriminate PF|discriminate PF]. injection PF as <- <-. cbn [d_shift standard_actions] in H. cbn [looked lexeme_of] in *. assert (l' = l) by congruence. subst l'. cbn [next_lexeme p_input] in H. destruct (p_input p) as [|l1 rest] eqn:IP; [discriminate HD|]. injection HD as ->. cbn [bind next_lexeme p_input p_run p_seen] in H. injection H as <- <-. cbn [p_input p_run]. split; [|discriminate].
        rewrite ES, SM in W, STP. eapply run_valid_token; [exact RV|exact ST|exact STP|intros; constructor; exact W].
      - (* ignore *) done_in H bd PF. destruct bd as [b d']. unfold perform in PF. rewrite T in PF. injection PF as <- <-. destruct terminal; cbn [entry_ok] in EO; [unfold terminal_entry in EO|unfold nonterminal_entry in EO]; rewrite T in EO; [|contradiction].
        destruct SY as (l & HD & SM). cbn [next_lexeme p_input] in H. destruct (p_input p) as [|l1 rest] eqn:IP; [discriminate HD|]. injection HD as ->. cbn [bind next_lexeme p_input p_run p_seen] in H. injection H as <- <-. cbn [p_input p_run]. split; [|discriminate].
        rewrite ES, SM in EO. eapply run_valid_ignore; eassumption.
      - (* accept *) injection H as <- <-. split; [exact RV|]. intros _. destruct terminal; cbn [entry_ok] in EO; [unfold terminal_entry in EO|unfold nonterminal_entry in EO]; rewrite T in EO; [contradiction|]. destruct EO as (r & (R & k & <- & C & AD) & TP). destruct SY as [IE _].
        destruct RV as (xs & ts & w & word & rs & PT & VS & IN & PA & RM & FS & SP & RD). rewrite ST in PT. destruct (path_accept rules kernel step LM q0 r0 KQ _ _ _ _ PT C AD TP) as (_ & XE & _). rewrite XE, rev_involutive in *. rewrite IE in *. rewrite app_nil_r in IN. exists (rev ts), w, word, rs. rewrite rev_involutive. repeat (split; [assumption|]). assumption.
      - (* goto *) exfalso. destruct terminal; cbn [entry_ok] in EO; [unfold terminal_entry in EO|unfold nonterminal_entry in EO]; rewrite T in EO; [contradiction|]. destruct EO as (x & EX & X1 & _). destruct SY as [_ SE]. rewrite <- ES, EX in SE. apply II in SE. contradiction.
      - (* divert *) exfalso. destruct terminal; cbn [entry_ok] in EO; [unfold terminal_entry in EO|unfold nonterminal_entry in EO]; rewrite T in EO; contradiction.
      - (* guard *) destruct terminal; cbn [entry_ok] in EO; [unfold terminal_entry in EO|unfold nonterminal_entry in EO]; rewrite T in EO; [|contradiction]. destruct EO as (p1 & g & KE). done_in H ag CG. destruct ag as [a1 seen1].
        pose proof (check_guard_ok _ _ _ _ _ _ _ _ _ _ KE CG) as GA. destruct (Z.ltb_spec a1 0); [exact (IH (mkParser (p_run p) (p_input p) seen1) _ _ _ _ RV ST OK' LK SY H)|]. destruct GA as [->|[-> GA]]; [lia|]. done_in H bd PG. destruct bd as [b d']. cbn [skipn] in GA.
        assert (RV' : run_valid (p_input p) d').
        { eapply (process_guard_ok acts (run_valid (p_input p)) la p1 g); [| | |exact RV|exact PG].
          - intros d0 q1 qs1 e1 r1 d1 V1 S1 C1 N1 R1. eapply run_valid_reduce; [exact V1|exact S1|exact C1|exact N1|exact R1].
          - intros d0 q1 qs1 q2 V1 S1 STP. cbn [d_shift standard_actions]. replace (lexeme_of L la) with (hd_error (p_input p)); [eapply run_valid_guard; eassumption|]. destruct la; cbn in LK |- *; [exact LK|rewrite LK; reflexivity|destruct LK].
          - intros. eapply NA; eassumption. }
        destruct b; [injection H as <- <-; cbn [p_input p_run] in *; split; [exact RV'|discriminate]|]. cbn [p_run p_input] in *. exact (IH (mkParser (p_run p) (p_input p) seen1) _ _ _ _ RV ST OK' LK SY H).
    Qed.
    Lemma process_ok fuel p r p' : run_valid (p_input p) (p_run p) -> process t L matched renamed V shift_value reduce_value fuel p = Done (r, p') -> run_valid (p_input p') (p_run p') /\ (r = Accepted -> accepted p').
    Proof.
      intros RV H. unfold process in H. destruct (symbol_of_look t L matched (nth_error (p_input p) 0)) as [terminal symbol] eqn:SL. cbn [p_run p_input] in H. done_in H q TP. destruct (top_done _ _ TP) as [qs ST]. done_in H es FS.
      eapply choose_ok; [| | | | |exact H]; cbn [p_input p_run]; [exact RV|exact ST| | |].
      - exact (find_symbol_ok _ _ _ _ FS).
      - destruct (p_input p); reflexivity.
      - unfold symbol_of_look in SL. destruct (p_input p) as [|l rest]; cbn in SL; injection SL as <- <-; [split; [reflexivity|apply (ju_eoi JU)]|exists l; split; reflexivity].
    Qed.
    Lemma parse_ok fuel : forall p b p', run_valid (p_input p) (p_run p) -> parse t L matched renamed V shift_value reduce_value fuel p = Done (b, p') -> run_valid (p_input p') (p_run p') /\ (b = true -> accepted p').
    Proof.
      induction fuel as [|fuel IH]; intros p b p' RV H; [discriminate H|]. cbn [parse] in H. done_in H rp PR. destruct rp as [r p1]. destruct (process_ok _ _ _ _ RV PR) as [RV1 AC]. destruct r.
      - exact (IH _ _ _ RV1 H).
      - injection H as <- <-. auto.
      - injection H as <- <-. split; [exact RV1|discriminate].
    Qed.
    Lemma start_valid : run_valid input0 (mkRun [(q0, v0)] []).
    Proof. exists [], [], [], [], []. cbn. repeat split; constructor. Qed.
  End Parser.
End Sound.

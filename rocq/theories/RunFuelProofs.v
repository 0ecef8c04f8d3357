(** More fuel never changes the result of a run, and symbols that every state ignores change nothing. *)
From Verif Require Import Base OrdMap GrammarModel FirstModel ActionModel TableModel RunModel.
Local Open Scope Z_scope.

(** The run [y] has at least the fuel of [x] *)
Definition le_out {A} (x y : outcome A) : Prop := x = OutOfFuel \/ x = y.
Lemma le_refl {A} (x : outcome A) : le_out x x. Proof. right. reflexivity. Qed.
Lemma le_bind {A B} (x y : outcome A) (f g : A -> outcome B) : le_out x y -> (forall a, le_out (f a) (g a)) -> le_out (bind x f) (bind y g).
Proof. intros [-> | ->] H; [left; reflexivity|]. destruct y; cbn; [apply H|apply le_refl|apply le_refl]. Qed.
Lemma le_if {A} (b : bool) (x y x' y' : outcome A) : le_out x x' -> le_out y y' -> le_out (if b then x else y) (if b then x' else y').
Proof. destruct b; auto. Qed.
Lemma le_done {A} (x y : outcome A) a : le_out x y -> x = Done a -> y = Done a.
Proof. intros [-> | ->] E; [discriminate E|exact E]. Qed.

Section Fuel.
  Context (t : tables).
  Lemma can_reduce_loop_more f : forall f' terminal symbol q0 q acts v, (f <= f')%nat -> le_out (can_reduce_loop t f terminal symbol q0 q acts v) (can_reduce_loop t f' terminal symbol q0 q acts v).
  Proof.
    induction f as [|f IH]; intros [|f'] terminal symbol q0 q acts v LE; [apply le_refl|left; reflexivity|lia|]. assert (LE' : (f <= f')%nat) by lia. cbn [can_reduce_loop]. destruct acts as [|e acts]; [apply le_refl|]. apply le_if; [apply le_refl|]. destruct (e_type e); try apply le_refl; try apply IH, LE'; repeat (apply le_bind; [apply le_refl|intros ?]); try apply IH, LE'.
    apply le_bind; [apply IH, LE'|]. intros b. apply le_if; [apply le_refl|apply IH, LE'].
  Qed.
  Lemma can_reduce_more f f' terminal symbol v : (f <= f')%nat -> le_out (can_reduce t f terminal symbol v) (can_reduce t f' terminal symbol v).
  Proof. intros LE. unfold can_reduce. repeat (apply le_bind; [apply le_refl|intros ?]). apply can_reduce_loop_more, LE. Qed.
  Lemma can_reduce_by_more f f' terminal symbol e v : (f <= f')%nat -> le_out (can_reduce_by t f terminal symbol e v) (can_reduce_by t f' terminal symbol e v).
  Proof. intros LE. unfold can_reduce_by. destruct (e_type e); try apply le_refl; (apply le_bind; [apply le_refl|intros ?]; apply can_reduce_more, LE). Qed.

  Context (L : Type) (matched : L -> Z) (renamed : Z -> L -> L).
  Lemma guard_usable_more f f' symbol acts v : (f <= f')%nat -> le_out (guard_usable t f symbol acts v) (guard_usable t f' symbol acts v).
  Proof.
    intros LE. induction acts as [|e acts IH]; cbn [guard_usable]; [apply le_refl|]. apply le_if; [apply le_refl|]. destruct (e_type e); try apply le_refl; try exact IH; (apply le_bind; [apply can_reduce_by_more, LE|]; intros b; apply le_if; [apply le_refl|exact IH]).
  Qed.
  Lemma guard_perform_more {D} (dl : delegate L D) f : forall f' la symbol acts d, (f <= f')%nat -> le_out (guard_perform t L matched renamed dl f la symbol acts d) (guard_perform t L matched renamed dl f' la symbol acts d).
  Proof.
    induction f as [|f IH]; intros [|f'] la symbol acts d LE; [apply le_refl|left; reflexivity|lia|]. assert (LE' : (f <= f')%nat) by lia. cbn [guard_perform]. destruct acts as [|e acts]; [apply le_refl|]. apply le_if; [apply le_refl|].
    apply le_bind; [destruct (e_type e); try apply le_refl; apply can_reduce_by_more, LE'|]. intros go. apply le_if; [apply IH, LE'|]. apply le_bind; [apply le_refl|]. intros [fin d']. apply le_if; [apply le_refl|]. repeat (apply le_bind; [apply le_refl|intros ?]). apply IH, LE'.
  Qed.
  Lemma process_guard_more {D} (dl : delegate L D) f f' la symbol d : (f <= f')%nat -> le_out (process_guard t L matched renamed dl f la symbol d) (process_guard t L matched renamed dl f' la symbol d).
  Proof.
    intros LE. unfold process_guard. repeat (apply le_bind; [apply le_refl|intros ?]). destruct a0 as [|e acts]; [apply le_refl|]. apply le_if; [apply le_refl|]. apply le_bind; [apply guard_usable_more, LE|]. intros b. apply le_if; [apply le_refl|]. apply le_bind; [apply guard_perform_more, LE|]. intros d'. apply le_refl.
  Qed.
  Lemma check_loop_more input under f : forall f' offset d seen, (f <= f')%nat -> le_out (check_loop t L matched renamed input under f offset d seen) (check_loop t L matched renamed input under f' offset d seen).
  Proof.
    induction f as [|f IH]; intros [|f'] offset d seen LE; [apply le_refl|left; reflexivity|lia|]. assert (LE' : (f <= f')%nat) by lia. cbn [check_loop]. destruct (symbol_of_look t L matched (nth_error input offset)) as [terminal symbol]. apply le_bind; [apply le_refl|]. intros q.
    apply le_bind. { apply le_if; [|apply le_refl]. apply le_bind; [apply le_refl|]. intros l. destruct l; [apply le_refl|apply can_reduce_by_more, LE']. }
    intros can_end. destruct (if can_end then _ else _) as [terminal' symbol']. apply le_bind; [apply le_refl|]. intros acts. generalize (match nth_error input offset with Some l => Lexeme l | None => End end) as la. generalize (Nat.max seen (Nat.min (S offset) (length input))) as seen1.
    induction acts as [|e acts IHA]; intros seen1 la; [apply le_refl|]. apply le_if; [apply le_refl|]. apply le_bind. { destruct (e_type e), la; try apply le_refl; apply can_reduce_by_more, LE'. }
    intros go. apply le_if; [apply IHA|]. destruct (e_type e); try (apply le_bind; [apply le_refl|]; intros [b d']; apply IH, LE').
    - apply le_bind; [apply le_refl|]. intros r. apply le_refl.
    - apply le_bind; [apply IH, LE'|]. intros [g seen']. apply le_if; [apply IHA|]. apply le_bind; [apply process_guard_more, LE'|]. intros [b d']. apply le_if; [apply IH, LE'|apply IHA].
  Qed.
  Context (V : Type) (shift_value : option L -> V) (reduce_value : Z -> Z -> list V -> V).
  Notation choose := (choose t L matched renamed V shift_value reduce_value).
  Notation process := (process t L matched renamed V shift_value reduce_value).
  Notation parse := (parse t L matched renamed V shift_value reduce_value).
  Lemma choose_more f f' terminal symbol la acts : (f <= f')%nat -> forall p, le_out (choose f terminal symbol la acts p) (choose f' terminal symbol la acts p).
  Proof.
    intros LE. induction acts as [|e acts IH]; intros p; cbn [RunModel.choose]; [apply le_refl|]. apply le_if; [apply le_refl|]. apply le_bind; [destruct (e_type e); try apply le_refl; apply can_reduce_by_more, LE|]. intros go. apply le_if; [apply IH|]. destruct (e_type e); try apply le_refl.
    apply le_bind; [apply check_loop_more, LE|]. intros [g seen]. apply le_if; [apply IH|]. apply le_bind; [apply process_guard_more, LE|]. intros [b d]. apply le_if; [apply le_refl|apply IH].
  Qed.
  Lemma process_more f f' p : (f <= f')%nat -> le_out (process f p) (process f' p).
  Proof.
    intros LE. unfold RunModel.process. destruct (symbol_of_look t L matched (nth_error (p_input p) 0)) as [terminal symbol]. repeat (apply le_bind; [apply le_refl|intros ?]). apply choose_more, LE.
  Qed.
  Lemma parse_more f : forall f' p, (f <= f')%nat -> le_out (parse f p) (parse f' p).
  Proof.
    induction f as [|f IH]; intros [|f'] p LE; [apply le_refl|left; reflexivity|lia|]. cbn [RunModel.parse]. apply le_bind; [apply process_more; lia|]. intros [r p']. destruct r; [apply IH; lia|apply le_refl|apply le_refl].
  Qed.

  (** ** Symbols that every state ignores *)
  Definition no_guards : Prop := forall l e, In l (t_terminals t) \/ In l (t_nonterminals t) -> In e l -> e_type e <> Guard.
  Context (NG : no_guards) (LN : length (t_terminals t) = length (t_nonterminals t)).
  Context (ign : Z -> bool) (IG : forall q s l, ign s = true -> find_terminal t q s = Some l -> exists e l', l = e :: l' /\ e_symbol e = s /\ e_type e = Ignore).
  Definition kept (l : L) : bool := negb (ign (matched l)).
  Lemma found_no_guard terminal q symbol l : find_symbol t terminal q symbol = Done l -> forall e, In e l -> e_type e <> Guard.
  Proof.
    intros F e I. assert (X : exists l0, (In l0 (t_terminals t) \/ In l0 (t_nonterminals t)) /\ In e l0); [|destruct X as (l0 & A & B); exact (NG l0 e A B)].
    unfold find_symbol, find_terminal, find_nonterminal, row, find_action, defined in F. destruct terminal; destruct (q <? 0); try discriminate F; (destruct (nth_error _ (Z.to_nat q)) as [l0|] eqn:N; [|discriminate F]); injection F as <-; exists l0; (split; [apply nth_error_In in N; auto|]); rewrite <- (firstn_skipn (find_pos symbol l0) l0); apply in_or_app; right; exact I.
  Qed.
  Lemma ignored_step fuel p l rest q0 v0 stack : p_input p = l :: rest -> ign (matched l) = true -> s_stack (p_run p) = (q0, v0) :: stack -> 0 <= q0 < Z.of_nat (length (t_terminals t)) ->
    exists seen, process fuel p = Done (More, mkParser (p_run p) rest seen).
  Proof.
    intros IN II ST Q. unfold RunModel.process. rewrite IN. cbn [nth_error symbol_of_look p_run]. rewrite ST. cbn [map fst top bind]. unfold find_symbol. destruct (find_terminal t q0 (matched l)) as [acts|] eqn:F.
    - destruct (IG _ _ _ II F) as (e & acts' & -> & ES & ET). cbn [defined bind RunModel.choose]. rewrite ES, Z.eqb_refl. cbn [negb]. rewrite ET. cbn [bind negb]. unfold perform. rewrite ET. cbn [bind p_run p_input]. unfold next_lexeme. cbn [p_input p_run p_seen bind]. eexists. reflexivity.
    - exfalso. unfold find_terminal, row in F. destruct (Z.ltb_spec q0 0); [lia|]. destruct (nth_error (t_terminals t) (Z.to_nat q0)) eqn:N; [discriminate F|]. apply nth_error_None in N. lia.
  Qed.
  Lemma process_row fuel p x : process fuel p = Done x -> exists q0 v0 stack, s_stack (p_run p) = (q0, v0) :: stack /\ 0 <= q0 < Z.of_nat (length (t_terminals t)).
  Proof.
    unfold RunModel.process. destruct (symbol_of_look t L matched (nth_error (p_input p) 0)) as [terminal symbol]. cbn [p_run]. destruct (s_stack (p_run p)) as [|[q0 v0] stack]; [discriminate|]. cbn [map fst top bind]. intros H. exists q0, v0, stack. split; [reflexivity|]. unfold find_symbol, find_terminal, find_nonterminal, row in H.
    destruct terminal; (destruct (Z.ltb_spec q0 0); [discriminate H|]); destruct (nth_error _ (Z.to_nat q0)) eqn:N; try discriminate H; assert (X := proj1 (nth_error_Some _ _) ltac:(rewrite N; discriminate)); lia.
  Qed.
  (** The two parsers have done the same, and are left with the same part of what they had. *)
  Definition same (p1 p2 : parser L V) (x y : outcome (result * parser L V)) : Prop :=
    match x, y with
    | Done (r, p1'), Done (r', p2') => r = r' /\ p_run p1' = p_run p2' /\ exists k, p_input p1' = skipn k (p_input p1) /\ p_input p2' = skipn k (p_input p2) /\ (k <= 1)%nat
    | Undefined, Undefined | OutOfFuel, OutOfFuel => True
    | _, _ => False
    end.
  Lemma choose_same fuel terminal symbol la acts : (forall e, In e acts -> e_type e <> Guard) -> forall p1 p2, p_run p1 = p_run p2 -> (p_input p1 = [] <-> p_input p2 = []) ->
    same p1 p2 (choose fuel terminal symbol la acts p1) (choose fuel terminal symbol la acts p2).
  Proof.
    induction acts as [|e acts IH]; intros NGA p1 p2 R I; cbn [RunModel.choose]; [cbn; repeat split; auto; exists 0%nat; auto|]. destruct (negb (e_symbol e =? symbol)); [cbn; repeat split; auto; exists 0%nat; auto|]. rewrite <- R.
    destruct (match e_type e with WeakReduce => _ | _ => _ end) as [go| |]; [|exact Logic.I|exact Logic.I]. cbn [bind]. destruct go; cbn [negb]; [|apply IH; auto; intros e0 E0; apply NGA; right; exact E0]. specialize (NGA e (or_introl eq_refl)).
    destruct (e_type e); try contradiction; try (cbn; repeat split; auto; exists 0%nat; auto; fail);
      (destruct (perform _ _ _ _ _ _ _ _) as [[b d]| |]; [|exact Logic.I|exact Logic.I]; cbn [bind]; destruct b; [|cbn; repeat split; auto; exists 0%nat; auto]; unfold next_lexeme; cbn [p_input p_run p_seen]; destruct (p_input p1) as [|x1 i1] eqn:E1, (p_input p2) as [|x2 i2] eqn:E2; try (exfalso; destruct I as [I1 I2]; (discriminate (I1 eq_refl) || discriminate (I2 eq_refl))); cbn [bind]; [exact Logic.I|]; cbn; repeat split; auto; exists 1%nat; rewrite E1, E2; cbn; auto).
  Qed.
  Lemma process_same fuel p1 p2 : p_run p1 = p_run p2 -> nth_error (p_input p1) 0 = nth_error (p_input p2) 0 -> same p1 p2 (process fuel p1) (process fuel p2).
  Proof.
    intros R I. unfold RunModel.process. rewrite <- I, <- R. destruct (symbol_of_look t L matched (nth_error (p_input p1) 0)) as [terminal symbol]. cbn [p_run]. destruct (top _) as [q| |]; [|exact Logic.I|exact Logic.I]. cbn [bind]. destruct (find_symbol t terminal q symbol) as [acts| |] eqn:F; [|exact Logic.I|exact Logic.I]. cbn [bind].
    assert (IE : p_input p1 = [] <-> p_input p2 = []) by (destruct (p_input p1), (p_input p2); cbn in I; split; intros; congruence).
    match goal with |- same _ _ (RunModel.choose _ _ _ _ _ _ _ ?f ?te ?sy ?la ?ac ?a) (RunModel.choose _ _ _ _ _ _ _ _ _ _ _ _ ?b) => exact (choose_same f te sy la ac (found_no_guard _ _ _ _ F) a b eq_refl IE) end.
  Qed.
  Lemma kept_head l rest : kept l = true -> filter kept (l :: rest) = l :: filter kept rest.
  Proof. intros K. cbn. rewrite K. reflexivity. Qed.
  Lemma drop_ignored fuel : forall p1 p2 b p1', parse fuel p1 = Done (b, p1') -> p_run p2 = p_run p1 -> p_input p2 = filter kept (p_input p1) ->
    exists p2', parse fuel p2 = Done (b, p2') /\ p_run p2' = p_run p1' /\ p_input p2' = filter kept (p_input p1').
  Proof.
    induction fuel as [|fuel IH]; intros p1 p2 b p1' H R I; [discriminate H|]. cbn [RunModel.parse] in H.
    assert (CASE : (exists l rest, p_input p1 = l :: rest /\ kept l = false) \/ (nth_error (p_input p1) 0 = nth_error (p_input p2) 0 /\ forall k, (k <= 1)%nat -> skipn k (filter kept (p_input p1)) = filter kept (skipn k (p_input p1)))).
    { rewrite I. destruct (p_input p1) as [|l rest]; [right; split; [reflexivity|]; intros k _; rewrite skipn_nil; cbn; rewrite skipn_nil; reflexivity|]. destruct (kept l) eqn:K; [right|left; eauto]. split; [cbn; rewrite K; reflexivity|]. intros [|[|k]] LE; [reflexivity| |lia]. cbn. rewrite K. reflexivity. }
    destruct CASE as [(l & rest & E & K)|[N SK]].
    - destruct (process fuel p1) as [[r p]| |] eqn:P; [|discriminate H|discriminate H]. cbn [bind] in H. destruct (process_row _ _ _ P) as (q0 & v0 & stack & ST & Q). apply negb_false_iff in K. destruct (ignored_step fuel p1 l rest q0 v0 stack E K ST Q) as (seen & P'). rewrite P in P'. injection P' as -> ->.
      destruct (IH _ p2 _ _ H R) as (p2' & H' & R' & I'); [cbn [p_input]; rewrite I, E; cbn; unfold kept at 1; rewrite K; reflexivity|]. exists p2'. split; [|auto]. apply (le_done _ _ _ (parse_more fuel (S fuel) p2 ltac:(lia)) H').
    - pose proof (process_same fuel p1 p2 (eq_sym R) N) as SM. cbn [RunModel.parse]. destruct (process fuel p1) as [[r p]| |]; [|discriminate H|discriminate H]. cbn [bind] in H. unfold same in SM. destruct (process fuel p2) as [[r2 q2]| |]; [|contradiction|contradiction]. destruct SM as (<- & RR & k & E1 & E2 & K1). cbn [bind].
      assert (IQ : p_input q2 = filter kept (p_input p)) by (rewrite E1, E2, I; apply SK, K1).
      destruct r; [exact (IH _ q2 _ _ H (eq_sym RR) IQ)| |]; injection H as <- <-; exists q2; auto.
  Qed.
  Lemma add_ignored fuel : forall p1 p2 b p2', parse fuel p2 = Done (b, p2') -> p_run p2 = p_run p1 -> p_input p2 = filter kept (p_input p1) ->
    exists fuel' p1', parse fuel' p1 = Done (b, p1') /\ p_run p2' = p_run p1' /\ p_input p2' = filter kept (p_input p1').
  Proof.
    induction fuel as [|fuel IH]; intros p1 p2 b p2' H R I; [discriminate H|]. destruct p1 as [run input seen]. cbn [p_run p_input] in *. revert seen. induction input as [|l rest IHI]; intros seen.
    2:destruct (kept l) eqn:K.
    - assert (N : nth_error (p_input p2) 0 = @nth_error L [] 0) by (rewrite I; reflexivity). pose proof (process_same fuel p2 (mkParser run [] seen) R N) as SM. cbn [RunModel.parse] in H. destruct (process fuel p2) as [[r q2]| |] eqn:P2; [|discriminate H|discriminate H]. cbn [bind] in H. destruct (process fuel (mkParser run [] seen)) as [[r' q1]| |] eqn:P1; [|contradiction SM|contradiction SM]. cbn in SM. destruct SM as (<- & RR & k & E2 & E1 & _).
      assert (IQ : p_input q2 = filter kept (p_input q1)) by (rewrite E1, E2, I; rewrite !skipn_nil; reflexivity).
      destruct r; [destruct (IH q1 q2 _ _ H RR IQ) as (f' & p1' & H' & R' & I'); exists (S (Nat.max fuel f')), p1'; split; [|auto]; cbn [RunModel.parse]; rewrite (le_done _ _ _ (process_more fuel (Nat.max fuel f') _ (Nat.le_max_l _ _)) P1); cbn [bind]; exact (le_done _ _ _ (parse_more f' (Nat.max fuel f') q1 (Nat.le_max_r _ _)) H')| |]; injection H as <- <-; exists (S fuel), q1; (split; [cbn [RunModel.parse]; rewrite P1; reflexivity|auto]).
    - assert (N : nth_error (p_input p2) 0 = nth_error (l :: rest) 0) by (rewrite I; cbn; rewrite K; reflexivity). pose proof (process_same fuel p2 (mkParser run (l :: rest) seen) R N) as SM. cbn [RunModel.parse] in H. destruct (process fuel p2) as [[r q2]| |] eqn:P2; [|discriminate H|discriminate H]. cbn [bind] in H. destruct (process fuel (mkParser run (l :: rest) seen)) as [[r' q1]| |] eqn:P1; [|contradiction SM|contradiction SM]. cbn in SM. destruct SM as (<- & RR & k & E2 & E1 & K1).
      assert (IQ : p_input q2 = filter kept (p_input q1)) by (rewrite E1, E2, I; destruct k as [|[|k]]; [reflexivity|cbn; rewrite K; reflexivity|lia]).
      destruct r; [destruct (IH q1 q2 _ _ H RR IQ) as (f' & p1' & H' & R' & I'); exists (S (Nat.max fuel f')), p1'; split; [|auto]; cbn [RunModel.parse]; rewrite (le_done _ _ _ (process_more fuel (Nat.max fuel f') _ (Nat.le_max_l _ _)) P1); cbn [bind]; exact (le_done _ _ _ (parse_more f' (Nat.max fuel f') q1 (Nat.le_max_r _ _)) H')| |]; injection H as <- <-; exists (S fuel), q1; (split; [cbn [RunModel.parse]; rewrite P1; reflexivity|auto]).
    - cbn [filter] in I. rewrite K in I. assert (X : exists q0 v0 stack, s_stack run = (q0, v0) :: stack /\ 0 <= q0 < Z.of_nat (length (t_terminals t))).
      { cbn [RunModel.parse] in H. destruct (process fuel p2) as [x| |] eqn:P2; [|discriminate H|discriminate H]. destruct (process_row _ _ _ P2) as (q0 & v0 & stack & ST & Q). exists q0, v0, stack. rewrite <- R. auto. }
      destruct X as (q0 & v0 & stack & ST & Q). apply negb_false_iff in K. specialize (IHI I).
      destruct (ignored_step 0 (mkParser run (l :: rest) seen) l rest q0 v0 stack eq_refl K ST Q) as (seen' & P0). destruct (IHI seen') as (f' & p1' & H' & R' & I'). exists (S f'), p1'. split; [|auto]. cbn [RunModel.parse]. rewrite (le_done _ _ _ (process_more 0 f' _ (Nat.le_0_l _)) P0). cbn [bind p_run]. exact H'.
  Qed.
End Fuel.

(** Why reductions come to an end: an LALR(1) machine without conflicts cannot reduce for ever while it looks
    at one lexeme. *)
From Verif Require Import Base OrdMap GrammarModel GrammarProofs FirstModel FirstSpec LrItemModel ClosureSpec BuilderSpec ActionModel ActionSpec RunModel RunSpec RunProofs DriveProofs.
From Coq Require Import Relation_Operators.
Local Open Scope Z_scope.

Section Reds.
  Context (rules : Z -> list (list item)) (first_of : item -> iset) (languages : list item).
  Context (kernel : Z -> lr0 -> Prop) (step : Z -> item -> Z -> Prop) (LM : lr0_machine rules kernel step).
  Context (u : item -> Prop) (UC : forall q k, closure_item rules (kernel q) k -> forall j, In j (after_dot k) -> u j).
  Context (UP : forall i, u i -> i <> IEmpty /\ forall p g, i <> IGuard p g) (CU : closed rules u) (NR : no_empty_repeat u) (UE : ~ u IEoi /\ ~ u IEog).
  Context (UX : forall i r j, u i -> expands rules i r -> In j r -> u j).
  Context (FS : forall i, u i -> first_set rules i (first_of i)).
  (** At most one action for each symbol of the input *)
  Context (DD : forall q a b, lalr_action rules first_of languages kernel step q a -> lalr_action rules first_of languages kernel step q b -> a_item a = a_item b -> a_item a = IEoi \/ (exists s, a_item a = ITerm s) -> a = b).
  Context (KO : forall q k, kernel q k -> (l_offset k <= length (r_items (l_rule k)))%nat /\ (l_offset k = O -> top_rule (l_rule k))).
  Context (N : nat) (NS : forall q x n, step q x n -> 0 <= n < Z.of_nat N).
  Context (US : forall q y n, step q y n -> u y) (SK : forall q y n, step q y n -> exists k, kernel n k).
  (** What is left of the input, and the symbol it begins with *)
  Context (w : list Z).
  Notation x := (next_item Z (fun s => s) w).
  Notation look := (lalr_look rules first_of languages Z kernel step).
  Notation complete_on := (complete_on rules first_of languages kernel step).
  Notation closure q := (closure_item rules (kernel q)).
  Notation parses := (parses rules (fun _ => 0) (fun _ => 0) Z (fun s => s) (fun _ s => s) (fun _ _ => False) (fun _ => False)).
  Notation parses_all := (parses_all rules (fun _ => 0) (fun _ => 0) Z (fun s => s) (fun _ s => s) (fun _ _ => False) (fun _ => False)).
  Notation moves := (moves rules first_of languages kernel step (fun _ => 0) (fun _ => 0) Z (fun s => s) unit (fun _ => tt) (fun _ _ _ => tt)).
  Notation move := (move rules first_of languages kernel step (fun _ => 0) (fun _ => 0) Z (fun s => s) unit (fun _ => tt) (fun _ _ _ => tt)).

  (** Reductions, as changes of the stack of states *)
  Inductive red : list Z -> list Z -> Prop :=
  | red_intro q qs k q' qs' n : complete_on q k x -> ~ top_rule (l_rule k) -> skipn (length (r_items (l_rule k))) (q :: qs) = q' :: qs' -> step q' (r_nonterminal (l_rule k)) n -> red (q :: qs) (n :: q' :: qs').
  Inductive reds : list Z -> list Z -> Prop :=
  | reds_none a : reds a a
  | reds_more a b c : red a b -> reds b c -> reds a c.
  Lemma reds_trans a b c : reds a b -> reds b c -> reds a c.
  Proof. induction 1; intros; [assumption|]. eapply reds_more; eauto. Qed.
  Lemma reds_one a b : red a b -> reds a b.
  Proof. intros R. eapply reds_more; [exact R|constructor]. Qed.
  Definition stops : list Z -> Prop := Acc (fun b a => red a b).

  Lemma x_input : input_symbol x.
  Proof. destruct w; cbn; [right; left; reflexivity|left; eauto]. Qed.
  Lemma x_decided : x = IEoi \/ exists s, x = ITerm s.
  Proof. destruct w; cbn; [left; reflexivity|right; eauto]. Qed.
  Lemma reduce_rule_fun q k k' : complete_on q k x -> complete_on q k' x -> ~ top_rule (l_rule k) -> ~ top_rule (l_rule k') -> l_rule k = l_rule k'.
  Proof.
    intros C1 C2 T1 T2. assert (E : mkAction Reduce x (-1) (l_rule k) = mkAction Reduce x (-1) (l_rule k')). { apply (DD q); [constructor; [exact C1|apply x_input|exact T1]|constructor; [exact C2|apply x_input|exact T2]|reflexivity|apply x_decided]. } injection E. auto.
  Qed.
  Lemma red_det a b c : red a b -> red a c -> b = c.
  Proof.
    intros R1 R2. inversion R1 as [q qs k q' qs' n C1 T1 K1 S1]; subst. inversion R2 as [? ? k2 q2 qs2 n2 C2 T2 K2 S2]; subst. pose proof (reduce_rule_fun _ _ _ C1 C2 T1 T2) as E. rewrite <- E in K2, S2. rewrite K1 in K2. injection K2 as <- <-. rewrite (lm_fun _ _ _ LM _ _ _ _ S1 S2). reflexivity.
  Qed.
  Lemma shift_stops q qs n s : x = ITerm s -> step q x n -> stops (q :: qs).
  Proof.
    intros XS S. constructor. intros b R. exfalso. inversion R as [? ? k q' qs' n' C1 T1 K1 S1]; subst. assert (E : mkAction Reduce x (-1) (l_rule k) = mkAction Shift x n no_rule) by (apply (DD q); [constructor; [exact C1|apply x_input|exact T1]|constructor; [exact S|left; exists s; exact XS]|reflexivity|apply x_decided]). discriminate E.
  Qed.
  Lemma accept_stops q qs k : complete_on q k x -> top_rule (l_rule k) -> stops (q :: qs).
  Proof.
    intros C T. constructor. intros b R. exfalso. inversion R as [? ? k' q' qs' n' C1 T1 K1 S1]; subst. assert (E : mkAction Reduce x (-1) (l_rule k') = mkAction Accept x (-1) (l_rule k)) by (apply (DD q); [constructor; [exact C1|apply x_input|exact T1]|constructor; [exact C|apply x_input|exact T]|reflexivity|apply x_decided]). discriminate E.
  Qed.
  Lemma red_stops a b : red a b -> stops b -> stops a.
  Proof. intros R S. constructor. intros c R'. rewrite <- (red_det _ _ _ R R'). exact S. Qed.
  Lemma reds_stops a b : reds a b -> stops b -> stops a.
  Proof. induction 1 as [|a b c R RS IH]; intros S; [exact S|]. eapply red_stops; [exact R|apply IH, S]. Qed.
  Lemma stops_cycle a : stops a -> forall b, red a b -> reds b a -> False.
  Proof.
    induction 1 as [a _ IH]. intros b R RS. inversion RS as [|? c ? R' RS']; subst; [eapply IH; [exact R|exact R|constructor]|]. eapply (IH b R c R'). eapply reds_trans; [exact RS'|apply reds_one, R].
  Qed.

  (** Moves that read nothing *)
  Lemma move_length c c' : move c c' -> (length (snd c') < length (snd c))%nat \/ snd c' = snd c /\ (snd c = w -> red (map fst (fst c)) (map fst (fst c'))).
  Proof.
    intros M. destruct M as [q v st l w' n S|its q v st w' tp k n HT CO NT LI S]; cbn [fst snd length]; [left; lia|]. right. split; [reflexivity|]. intros ->. rewrite map_app in *. cbn [map fst] in *. destruct (map fst its ++ q :: map fst st) as [|t0 rest] eqn:E; [discriminate HT|]. cbn in HT. injection HT as ->.
    eapply red_intro; [exact CO|exact NT| |exact S]. rewrite <- E, <- LI, <- (map_length fst its), skipn_app, Nat.sub_diag, skipn_all. reflexivity.
  Qed.
  Lemma moves_length c c' : moves c c' -> (length (snd c') <= length (snd c))%nat.
  Proof. induction 1 as [|c c1 c2 M MS IH]; [lia|]. destruct (move_length _ _ M) as [LT|[E _]]; [lia|rewrite <- E; exact IH]. Qed.
  Lemma moves_reds c c' : moves c c' -> snd c = w -> snd c' = w -> reds (map fst (fst c)) (map fst (fst c')).
  Proof.
    induction 1 as [|c c1 c2 M MS IH]; intros E1 E2; [constructor|]. destruct (move_length _ _ M) as [LT|[E R]]; [apply moves_length in MS; rewrite E2 in MS; rewrite E1 in LT; lia|]. eapply reds_more; [apply R, E1|]. apply IH; [congruence|exact E2].
  Qed.
  Definition tags (st : list Z) : list (Z * unit) := map (fun q => (q, tt)) st.
  Lemma tags_fst st : map fst (tags st) = st.
  Proof. unfold tags. rewrite map_map. cbn. apply map_id. Qed.

  (** Empty items are parsed without reading. *)
  Lemma empties_parses : forall y, empties rules y -> forall rest, exists t, parses y t [] rest.
  Proof.
    fix F 2. intros y E rest. destruct E as [y r E A]. assert (X : exists ts, parses_all r ts [] rest).
    { clear E. induction A as [|j r J A IH]; [exists []; constructor|]. destruct IH as [ts IH]. destruct (F j J rest) as [t T]. exists (t :: ts). apply (all_next _ _ _ _ _ _ _ _ _ _ _ _ [] [] rest); [exact T|exact IH]. }
    destruct X as [ts X]. eexists. apply parses_rule; [exact E|exact X].
  Qed.
  Lemma empties_all r : Forall (empties rules) r -> forall rest, exists ts, parses_all r ts [] rest.
  Proof. induction 1 as [|j r J A IH]; intros rest; [exists []; constructor|]. destruct (IH rest) as [ts P]. destruct (empties_parses j J rest) as [t T]. exists (t :: ts). apply (all_next _ _ _ _ _ _ _ _ _ _ _ _ [] [] rest); [exact T|exact P]. Qed.
  Lemma nullables_parse r : nullables rules r -> (forall j, In j r -> u j) -> exists ts, parses_all r ts [] w.
  Proof. intros NN U. apply empties_all. apply (proj2 (nullable_empties_both rules u CU (fun i Ui => proj1 (UP i Ui))) _ NN U). Qed.
  Lemma after_end k : after_dot (mkLr0 (l_rule k) (l_offset k + length (after_dot k))) = [].
  Proof. unfold after_dot. cbn [l_rule l_offset]. rewrite Nat.add_comm. generalize (r_items (l_rule k)). intros l. apply length_zero_iff_nil. rewrite skipn_length, skipn_length. lia. Qed.

  (** If what is left of a rule may be empty and [x] may follow it, then that is what happens. *)
  Lemma skip_run q k st : look q k x -> nullables rules (after_dot k) ->
    exists its top, length its = length (after_dot k) /\ hd_error (its ++ q :: st) = Some top /\ complete_on top (mkLr0 (l_rule k) (l_offset k + length (after_dot k))) x /\ reds (q :: st) (its ++ q :: st).
  Proof.
    intros LK NN. assert (C : closure q k) by (eapply look_closure; eassumption). destruct (nullables_parse _ NN (UC _ _ C)) as [ts P].
    destruct (proj2 (drive rules first_of languages kernel step LM u UC UP NR UX FS (fun _ => 0) (fun _ => 0) Z (fun s => s) (fun _ s => s) unit (fun _ => tt) (fun _ _ _ => tt)) _ _ _ _ P q tt (tags st) k C eq_refl LK) as (its & top & LI & _ & HT & CT & LT & M).
    cbn [app] in M. apply moves_reds in M; [|reflexivity|reflexivity]. cbn [fst snd map] in M. rewrite map_app in M, HT. cbn [map fst] in M, HT. rewrite tags_fst in M, HT. exists (map fst its), top. rewrite map_length. split; [exact LI|]. split; [exact HT|]. split; [|exact M].
    split; [exact CT|]. split; [apply after_end|exact LT].
  Qed.

  Lemma empties_nullable : forall y, empties rules y -> u y -> nullable rules y.
  Proof.
    fix F 2. intros y E U. destruct E as [y r E A]. eapply expand_nullable; [exact E|intros rs ->; apply NR, U|]. assert (UR : forall j, In j r -> u j) by (intros j; eapply UX; eassumption). clear E U. induction A as [|j r J A IH]; [constructor|]. constructor; [apply (F j J), UR; left; reflexivity|apply IH; intros; apply UR; right; assumption].
  Qed.
  Lemma empties_nullables r : Forall (empties rules) r -> (forall j, In j r -> u j) -> nullables rules r.
  Proof. induction 1 as [|j r J A IH]; intros U; [constructor|]. constructor; [apply empties_nullable; [exact J|apply U; left; reflexivity]|apply IH; intros; apply U; right; assumption]. Qed.
  Lemma leads_starts s y : leads rules s y -> u y -> starts rules y (ITerm s).
  Proof.
    induction 1 as [|y pre z post E F LD IH]; intros U; [constructor; exact I|]. assert (UR : forall j, In j (pre ++ z :: post) -> u j) by (intros j; eapply UX; eassumption). eapply expand_starts; [exact E|reflexivity| |apply IH, UR, in_elt]. apply empties_nullables; [exact F|intros j J; apply UR, in_or_app; left; exact J].
  Qed.
  (** If what is left of a rule may begin with [x], then [x] is shifted after some reductions. *)
  Lemma leads_run s : x = ITerm s -> forall y, leads rules s y -> forall pre q k post st, closure q k -> after_dot k = pre ++ y :: post -> Forall (empties rules) pre -> stops (q :: st).
  Proof.
    intros XS y LD. induction LD as [|y pre' z post' E F LD IH].
    - intros pre. induction pre as [|j pre IHP]; intros q k post st C A FP.
      + destruct (next_state rules kernel step LM q k (ITerm s) post C A) as (n & S & _); [discriminate|]. eapply shift_stops; [exact XS|rewrite XS; exact S].
      + inversion FP as [|? ? EJ FP']; subst. assert (U : forall i, In i (j :: pre ++ ITerm s :: post) -> u i) by (intros i J; apply (UC _ _ C); rewrite A; exact J). destruct (empties_parses j EJ w) as [t P].
        destruct (proj1 (drive rules first_of languages kernel step LM u UC UP NR UX FS (fun _ => 0) (fun _ => 0) Z (fun s => s) (fun _ s => s) unit (fun _ => tt) (fun _ _ _ => tt)) _ _ _ _ P q tt (tags st) k (pre ++ ITerm s :: post) C A) as (n & S & K & M).
        { left. rewrite XS. eapply starts_begins; [exact FS|intros i J; apply U; right; exact J|discriminate|]. exists pre, (ITerm s), post. split; [reflexivity|]. split; [apply empties_nullables; [exact FP'|intros i J; apply U; right; apply in_or_app; left; exact J]|constructor; exact I]. }
        cbn [app] in M. apply moves_reds in M; [|reflexivity|reflexivity]. cbn [fst snd map] in M. rewrite tags_fst in M. eapply reds_stops; [exact M|]. eapply IHP; [constructor; exact K|apply (after_advance _ _ _ A)|exact FP'].
    - intros pre. induction pre as [|j pre IHP]; intros q k post st C A FP.
      + eapply (IH pre' q (mkLr0 (mkRule y (pre' ++ z :: post')) 0)); [eapply in_step; [exact C|exact A|exact E]|reflexivity|exact F].
      + inversion FP as [|? ? EJ FP']; subst. assert (U : forall i, In i (j :: pre ++ y :: post) -> u i) by (intros i J; apply (UC _ _ C); rewrite A; exact J). destruct (empties_parses j EJ w) as [t P].
        destruct (proj1 (drive rules first_of languages kernel step LM u UC UP NR UX FS (fun _ => 0) (fun _ => 0) Z (fun s => s) (fun _ s => s) unit (fun _ => tt) (fun _ _ _ => tt)) _ _ _ _ P q tt (tags st) k (pre ++ y :: post) C A) as (n & S & K & M).
        { left. rewrite XS. eapply starts_begins; [exact FS|intros i J; apply U; right; exact J|discriminate|]. exists pre, y, post. split; [reflexivity|]. split; [apply empties_nullables; [exact FP'|intros i J; apply U; right; apply in_or_app; left; exact J]|]. apply leads_starts; [eapply leads_rule; eassumption|apply U; right; apply in_elt]. }
        cbn [app] in M. apply moves_reds in M; [|reflexivity|reflexivity]. cbn [fst snd map] in M. rewrite tags_fst in M. eapply reds_stops; [exact M|]. eapply IHP; [constructor; exact K|apply (after_advance _ _ _ A)|exact FP'].
  Qed.
  Lemma skips_nullables r : (forall j, In j r -> u j) -> skips first_of r -> nullables rules r.
  Proof. intros U S. induction r as [|j r IH]; [constructor|]. constructor; [|apply IH; [intros; apply U; right; assumption|intros i J; apply S; right; exact J]]. specialize (S j (or_introl eq_refl)). apply FS in S; [|apply U; left; reflexivity]. destruct S as [[_ S]|S]; [exact S|]. exfalso. clear -S. remember IEmpty as e eqn:E. induction S as [s SY|? ? ? ? ? ? ? ? IH]; [subst; destruct SY|auto]. Qed.
  Lemma begins_run q k st : closure q k -> begins first_of (after_dot k) x -> stops (q :: st).
  Proof.
    intros C (pre & y & post & A & SKP & FI & NE). assert (U : forall i, In i (pre ++ y :: post) -> u i) by (intros i J; apply (UC _ _ C); rewrite A; exact J). apply FS in FI; [|apply U, in_elt]. destruct FI as [[X _]|S]; [contradiction|].
    assert (UXX : u x). { assert (UY : u y) by apply U, in_elt. clear -S UY CU. induction S as [s SY|i pre z post s H NN S IH]; [exact UY|]. apply IH. eapply CU; [exact UY|exact H|apply in_elt]. }
    destruct x_decided as [X|[s X]]; [exfalso; apply (proj1 UE); rewrite <- X; exact UXX|]. rewrite X in S. eapply (leads_run s X y); [apply (starts_leads rules u CU (fun i Ui => proj1 (UP i Ui))); [exact S|apply U, in_elt]|exact C|exact A|].
    apply (proj2 (nullable_empties_both rules u CU (fun i Ui => proj1 (UP i Ui)))); [|intros j J; apply U, in_or_app; left; exact J]. apply skips_nullables; [intros j J; apply U, in_or_app; left; exact J|exact SKP].
  Qed.

  (** * Where a lookahead comes from *)
  Lemma skipn_more {A} (a b : list A) n : skipn (length a + n) (a ++ b) = skipn n b.
  Proof. induction a; cbn; auto. Qed.
  Lemma closure_off q k : closure q k -> (l_offset k <= length (r_items (l_rule k)))%nat.
  Proof. intros C. destruct C as [k K|k y rest r C A E]; [apply (KO _ _ K)|cbn; lia]. Qed.
  Lemma items_length k : (l_offset k <= length (r_items (l_rule k)))%nat -> length (r_items (l_rule k)) = (length (after_dot k) + l_offset k)%nat.
  Proof. intros LE. unfold after_dot. rewrite skipn_length. lia. Qed.
  Lemma pop_run its q st k top o below n : (l_offset k <= length (r_items (l_rule k)))%nat -> length its = length (after_dot k) -> hd_error (its ++ q :: st) = Some top -> complete_on top (mkLr0 (l_rule k) (l_offset k + length (after_dot k))) x -> ~ top_rule (l_rule k) ->
    skipn (l_offset k) (q :: st) = o :: below -> step o (r_nonterminal (l_rule k)) n -> red (its ++ q :: st) (n :: o :: below).
  Proof.
    intros LE LI HT CO NT KS S. destruct (its ++ q :: st) as [|t0 rest] eqn:E; [discriminate HT|]. cbn in HT. injection HT as ->. eapply red_intro; [exact CO|exact NT| |exact S]. cbn [l_rule]. rewrite (items_length _ LE), <- E, <- LI, skipn_more. exact KS.
  Qed.
  Lemma step_no_top q r n : step q (r_nonterminal r) n -> ~ top_rule r.
  Proof. intros S. apply US in S. apply UP in S. destruct S as [S1 S2]. intros [T|(p & g & T)]; [exact (S1 T)|exact (S2 p g T)]. Qed.
  (** After the item [advance k], which has [x] as a lookahead, what is left may be empty. *)
  Lemma skip_next q k y rest n st : look q k x -> after_dot k = y :: rest -> nullables rules rest -> step q y n ->
    exists its top, length its = length (after_dot k) /\ hd_error (its ++ q :: st) = Some top /\ complete_on top (mkLr0 (l_rule k) (l_offset k + length (after_dot k))) x /\ reds (n :: q :: st) (its ++ q :: st).
  Proof.
    intros LK A NN S. assert (LN : look n (advance k) x) by (eapply lalr_step; eassumption). assert (AA : after_dot (advance k) = rest) by apply (after_advance _ _ _ A). destruct (skip_run n (advance k) (q :: st) LN) as (its & top & LI & HT & CO & R); [rewrite AA; exact NN|]. rewrite AA in LI, CO. exists (its ++ [n]), top. rewrite <- app_assoc. cbn [app advance l_rule l_offset] in *.
    rewrite app_length, LI, A. cbn [length]. split; [lia|]. split; [exact HT|]. split; [|exact R]. rewrite Nat.add_succ_r. exact CO.
  Qed.

  Lemma source q k : look q k x -> exists qs, hd_error qs = Some q /\ (top_rule (l_rule k) \/ exists o below n, skipn (l_offset k) qs = o :: below /\ step o (r_nonterminal (l_rule k)) n /\ stops (n :: o :: below)).
  Proof.
    intros LK. remember x as xx eqn:EX. induction LK as [q l I K|q p l K|q k y rest r z C A E BG|q k y rest r z LK IH A E S|q k y rest q' z LK IH A S]; subst z || idtac.
    - exists [q]. split; [reflexivity|]. left. left. reflexivity.
    - exfalso. destruct w; discriminate EX.
    - exists [q]. split; [reflexivity|]. right. destruct (next_state rules kernel step LM q k y rest C A) as (n & S & K); [apply (expands_plain _ _ _ E)|]. exists q, [], n. split; [reflexivity|]. split; [exact S|]. eapply begins_run; [constructor; exact K|]. rewrite (after_advance _ _ _ A). exact BG.
    - destruct (IH eq_refl) as (qs & HQ & X). assert (C : closure q k) by (eapply look_closure; eassumption). destruct (next_state rules kernel step LM q k y rest C A) as (n & S' & K); [apply (expands_plain _ _ _ E)|]. destruct qs as [|q0 st]; [discriminate HQ|]. cbn in HQ. injection HQ as ->. exists (q :: st). split; [reflexivity|]. right. exists q, st, n. split; [reflexivity|]. split; [exact S'|].
      assert (NN : nullables rules rest) by (apply skips_nullables; [intros j J; apply (UC _ _ C); rewrite A; right; exact J|exact S]).
      destruct (skip_next q k y rest n st LK A NN S') as (its & top & LI & HT & CO & R). eapply reds_stops; [exact R|]. destruct X as [T|(o & below & n' & KS & SO & ST)].
      + destruct (its ++ q :: st) as [|t0 rr] eqn:EI; [discriminate HT|]. cbn in HT. injection HT as ->. eapply accept_stops; [exact CO|exact T].
      + eapply red_stops; [|exact ST]. eapply pop_run; [apply (closure_off _ _ C)|exact LI|exact HT|exact CO|eapply step_no_top; exact SO|exact KS|exact SO].
    - destruct (IH eq_refl) as (qs & HQ & X). exists (q' :: qs). split; [reflexivity|]. cbn [advance l_rule l_offset skipn]. exact X.
  Qed.

  (** What happens after a reduction: either the rest does not depend on the states below, or the state
      reached is left by a reduction of a rule in its kernel. *)
  Lemma local q k : look q k x ->
    (l_offset k = O /\ exists n, step q (r_nonterminal (l_rule k)) n /\ forall st, stops (n :: q :: st)) \/
    (exists kk, kernel q kk /\ look q kk x /\ (nullables rules (after_dot k) -> nullables rules (after_dot kk)) /\
      (kk = k \/ l_offset k = O /\ exists n, step q (r_nonterminal (l_rule k)) n /\ forall st, exists its top, length its = length (after_dot kk) /\ hd_error (its ++ q :: st) = Some top /\ complete_on top (mkLr0 (l_rule kk) (l_offset kk + length (after_dot kk))) x /\ reds (n :: q :: st) (its ++ q :: st))).
  Proof.
    intros LK. remember x as xx eqn:EX. assert (KK : forall q k, kernel q k -> look q k xx -> exists kk, kernel q kk /\ look q kk xx /\ (nullables rules (after_dot k) -> nullables rules (after_dot kk)) /\ (kk = k \/ l_offset k = O /\ exists n, step q (r_nonterminal (l_rule k)) n /\ forall st, exists its top, length its = length (after_dot kk) /\ hd_error (its ++ q :: st) = Some top /\ complete_on top (mkLr0 (l_rule kk) (l_offset kk + length (after_dot kk))) xx /\ reds (n :: q :: st) (its ++ q :: st))) by (intros q0 k0 K0 L0; exists k0; auto).
    induction LK as [q l I K|q p l K|q k y rest r z C A E BG|q k y rest r z LK IH A E S|q k y rest q' z LK IH A S].
    - right. apply KK; [exact K|constructor; assumption].
    - right. apply KK; [exact K|constructor; assumption].
    - left. split; [reflexivity|]. destruct (next_state rules kernel step LM q k y rest C A) as (n & S & K); [apply (expands_plain _ _ _ E)|]. exists n. split; [exact S|]. intros st. eapply begins_run; [constructor; exact K|]. rewrite (after_advance _ _ _ A). rewrite <- EX. exact BG.
    - assert (C : closure q k) by (eapply look_closure; eassumption). assert (U : forall j, In j (y :: rest) -> u j) by (intros j J; apply (UC _ _ C); rewrite A; exact J). destruct (next_state rules kernel step LM q k y rest C A) as (n & S' & K); [apply (expands_plain _ _ _ E)|].
      assert (NN : nullables rules rest) by (apply skips_nullables; [intros j J; apply U; right; exact J|exact S]).
      assert (NK : nullables rules r -> nullables rules (after_dot k)). { intros NR'. rewrite A. constructor; [|exact NN]. eapply expand_nullable; [exact E|intros rs ->; apply NR, U; left; reflexivity|exact NR']. }
      destruct (IH EX KK) as [(OF & n' & SO & ST)|(kk & KK1 & KK2 & KK3 & X)]; subst z.
      + left. split; [reflexivity|]. exists n. split; [exact S'|]. intros st. destruct (skip_next q k y rest n st LK A NN S') as (its & top & LI & HT & CO & R). eapply reds_stops; [exact R|]. eapply red_stops; [|apply (ST st)]. eapply pop_run; [apply (closure_off _ _ C)|exact LI|exact HT|exact CO|eapply step_no_top; exact SO|rewrite OF; reflexivity|exact SO].
      + right. exists kk. split; [exact KK1|]. split; [exact KK2|]. split; [intros NR'; apply KK3, NK, NR'|]. right. split; [reflexivity|]. exists n. split; [exact S'|]. intros st. destruct (skip_next q k y rest n st LK A NN S') as (its & top & LI & HT & CO & R). destruct X as [-> |(OF & n' & SO & Y)].
        * exists its, top. auto.
        * destruct (Y st) as (its2 & top2 & LI2 & HT2 & CO2 & R2). exists its2, top2. split; [exact LI2|]. split; [exact HT2|]. split; [exact CO2|]. eapply reds_trans; [exact R|]. eapply reds_more; [|exact R2]. eapply pop_run; [apply (closure_off _ _ C)|exact LI|exact HT|exact CO|eapply step_no_top; exact SO|rewrite OF; reflexivity|exact SO].
    - right. apply KK; [|eapply lalr_step; eassumption]. apply (lm_goto _ _ _ LM _ _ _ S). exists k, rest. split; [eapply look_closure; eassumption|auto].
  Qed.
  Lemma macro r k st : complete_on r k x -> ~ top_rule (l_rule k) -> stops (r :: st) \/
    exists kk, kernel r kk /\ look r kk x /\ nullables rules (after_dot kk) /\ exists its top, length its = length (after_dot kk) /\ hd_error (its ++ r :: st) = Some top /\ complete_on top (mkLr0 (l_rule kk) (l_offset kk + length (after_dot kk))) x /\ reds (r :: st) (its ++ r :: st).
  Proof.
    intros (C & AD & LK) NT. assert (RD : forall n, l_offset k = O -> step r (r_nonterminal (l_rule k)) n -> red (r :: st) (n :: r :: st)).
    { intros n OF S. eapply red_intro; [split; [exact C|split; [exact AD|exact LK]]|exact NT| |exact S]. rewrite (items_length _ (closure_off _ _ C)), AD, OF. reflexivity. }
    destruct (local r k LK) as [(OF & n & S & ST)|(kk & K & LKK & NN & X)].
    - left. eapply red_stops; [apply RD; eassumption|apply ST].
    - right. exists kk. split; [exact K|]. split; [exact LKK|]. split; [apply NN; rewrite AD; constructor|]. destruct X as [-> |(OF & n & S & Y)].
      + exists [], r. rewrite AD. cbn [length app hd_error]. split; [reflexivity|]. split; [reflexivity|]. split; [|constructor]. rewrite Nat.add_0_r. destruct k. split; [exact C|split; [exact AD|exact LK]].
      + destruct (Y st) as (its & top & LI & HT & CO & R). exists its, top. split; [exact LI|]. split; [exact HT|]. split; [exact CO|]. eapply reds_more; [apply RD; eassumption|exact R].
  Qed.

  (** * Cycles of single items *)
  Definition glink (a b : item) : Prop := exists rest, expands rules b (a :: rest) /\ nullables rules rest.
  Definition passes (q : Z) (a : item) : Prop := exists k rest, look q k x /\ after_dot k = a :: rest /\ nullables rules rest.
  Lemma link_run b a c rest qs na nc : look b (mkLr0 (mkRule c (a :: rest)) 0) x -> nullables rules rest -> step b a na -> step b c nc ->
    exists mid, reds (na :: b :: qs) mid /\ red mid (nc :: b :: qs).
  Proof.
    intros LK NN SA SC. destruct (skip_next b _ a rest na qs LK eq_refl NN SA) as (its & top & LI & HT & CO & R). exists (its ++ b :: qs). split; [exact R|]. eapply pop_run; [|exact LI|exact HT|exact CO| |reflexivity|exact SC]; [cbn; lia|]. eapply (step_no_top b). exact SC.
  Qed.
  Lemma stops_cycle2 a mid : stops a -> reds a mid -> red mid a -> False.
  Proof.
    intros S R1 R2. inversion R1 as [|? c ? R' RS']; subst; [eapply stops_cycle; [exact S|exact R2|constructor]|]. eapply stops_cycle; [exact S|exact R'|]. eapply reds_trans; [exact RS'|apply reds_one, R2].
  Qed.
  Lemma pass_back b qs a c : clos_refl_trans_n1 item glink a c -> passes b c -> forall na nc, step b a na -> step b c nc -> reds (na :: b :: qs) (nc :: b :: qs).
  Proof.
    induction 1 as [|d c G R IH]; intros P na nc SA SC; [rewrite (lm_fun _ _ _ LM _ _ _ _ SA SC); constructor|]. destruct G as (rest & E & NN). destruct P as (k & rest' & LK & A & NN').
    assert (C : closure b k) by (eapply look_closure; eassumption). assert (LD : look b (mkLr0 (mkRule c (d :: rest)) 0) x). { eapply lalr_passed; [exact LK|exact A|exact E|]. eapply nullables_skips; [exact FS|intros j J; apply (UC _ _ C); rewrite A; right; exact J|exact NN']. }
    assert (UD : u d) by (apply (UC b (mkLr0 (mkRule c (d :: rest)) 0)); [eapply look_closure; eassumption|left; reflexivity]).
    destruct (next_state rules kernel step LM b (mkLr0 (mkRule c (d :: rest)) 0) d rest) as (nd & SD & _); [eapply look_closure; eassumption|reflexivity|apply UP, UD|]. eapply reds_trans; [apply IH; [exists (mkLr0 (mkRule c (d :: rest)) 0), rest; auto|exact SA|exact SD]|]. destruct (link_run b d c rest qs nd nc LD NN SD SC) as (mid & R1 & R2). eapply reds_trans; [exact R1|apply reds_one, R2].
  Qed.
  Lemma no_cycle r a c rest : look r (mkLr0 (mkRule c (a :: rest)) 1) x -> expands rules c (a :: rest) -> nullables rules rest -> clos_refl_trans_n1 item glink c a -> False.
  Proof.
    intros LK E NN R. assert (X : exists b, look b (mkLr0 (mkRule c (a :: rest)) 0) x /\ step b a r).
    { remember (mkLr0 (mkRule c (a :: rest)) 1) as k eqn:EK. destruct LK as [q l I K|q p l K|q k y rest' r z C A E' BG|q k y rest' r z LK A E' S|q k y rest' q' z LK A S]; try discriminate EK. destruct k as [rk ok]. unfold advance in EK. cbn in EK. injection EK as -> ->. cbn in A. injection A as -> ->. exists q. auto. }
    destruct X as (b & LB & SB). destruct (source b _ LB) as (qs & HQ & [T|(o & below & n & KS & SO & ST)]); [exact (expands_no_top _ _ _ E T)|]. cbn [l_offset skipn l_rule r_nonterminal] in *. subst qs. cbn in HQ. injection HQ as ->.
    destruct (link_run b a c rest below r n LB NN SB SO) as (mid & R1 & R2). eapply (stops_cycle2 _ mid ST); [|exact R2]. eapply reds_trans; [|exact R1]. eapply pass_back; [exact R|exists (mkLr0 (mkRule c (a :: rest)) 0), rest; auto|exact SO|exact SB].
  Qed.

  (** * Termination *)
  Lemma one_symbol b a a' n : step b a n -> step b a' n -> a = a'.
  Proof.
    intros S1 S2. destruct (SK _ _ _ S1) as [k K]. pose proof K as K'. apply (lm_goto _ _ _ LM _ _ _ S1) in K. apply (lm_goto _ _ _ LM _ _ _ S2) in K'. destruct K as (k1 & r1 & _ & A1 & E1), K' as (k2 & r2 & _ & A2 & E2). assert (k1 = k2) by (destruct k1, k2; unfold advance in *; cbn in *; congruence). subst k2. congruence.
  Qed.
  Lemma too_many (l : list Z) : NoDup l -> (forall v, In v l -> 0 <= v < Z.of_nat N) -> (length l <= N)%nat.
  Proof.
    intros ND R. rewrite <- (seq_length N 0), <- (map_length Z.of_nat). apply NoDup_incl_length; [exact ND|]. intros v V. apply R in V. apply in_map_iff. exists (Z.to_nat v). split; [lia|]. apply in_seq. lia.
  Qed.
  Definition top_ok (st : list Z) : Prop := match st with r :: b :: _ => exists a, step b a r | _ => True end.
  Lemma top_dec r : {top_rule r} + {~ top_rule r}.
  Proof. destruct r as [[| | | | |p l|] its]; try (right; intros [T|(p' & l' & T)]; discriminate T); left; [left; reflexivity|right; exists p, l; reflexivity]. Qed.
  Lemma look_expands q k : look q k x -> ~ top_rule (l_rule k) -> expands rules (r_nonterminal (l_rule k)) (r_items (l_rule k)).
  Proof.
    remember x as z eqn:EZ. induction 1; cbn [l_rule r_nonterminal r_items advance language_start guard_start] in *; intros T; auto; exfalso; apply T; [left; reflexivity|right; exists p, l; reflexivity].
  Qed.
  (** A state that is left by a reduction of its kernel *)
  Lemma stops_by r st : (forall kk its top c, kernel r kk -> look r kk x -> nullables rules (after_dot kk) -> ~ top_rule (l_rule kk) -> complete_on top (mkLr0 (l_rule kk) (l_offset kk + length (after_dot kk))) x -> length its = length (after_dot kk) -> hd_error (its ++ r :: st) = Some top -> red (its ++ r :: st) c ->
      (exists o below n, skipn (l_offset kk) (r :: st) = o :: below /\ step o (r_nonterminal (l_rule kk)) n /\ c = n :: o :: below) -> stops c) -> stops (r :: st).
  Proof.
    intros H. constructor. intros b R. inversion R as [? ? k q' qs' n CO NT KS S]; subst. assert (ST : stops (r :: st)); [|exact (Acc_inv ST R)].
    destruct (macro r k st CO NT) as [ST|(kk & K & LK & NN & its & top & LI & HT & CT & RS)]; [exact ST|]. eapply reds_stops; [exact RS|]. destruct (top_dec (l_rule kk)) as [T|T].
    - destruct (its ++ r :: st) as [|t0 rr]; [discriminate HT|]. cbn in HT. injection HT as ->. eapply accept_stops; [exact CT|exact T].
    - constructor. intros c RC. apply (H kk its top c K LK NN T CT LI HT RC). destruct (its ++ r :: st) as [|t0 rr] eqn:EI; [discriminate HT|]. cbn in HT. injection HT as ->. inversion RC as [? ? k2 q2 qs2 n2 CO2 NT2 KS2 S2]; subst. pose proof (reduce_rule_fun _ _ _ CO2 CT NT2 T) as ER. cbn [l_rule] in ER. rewrite ER in KS2, S2.
      rewrite (items_length _ (proj1 (KO _ _ K))), <- EI, <- LI, skipn_more in KS2. exists q2, qs2, n2. auto.
  Qed.
  Lemma unit_stops b below : (forall st, (length st <= length (b :: below))%nat -> top_ok st -> stops st) ->
    forall m vs a r, step b a r -> NoDup vs -> (forall v, In v vs -> 0 <= v < Z.of_nat N /\ exists a0, step b a0 v /\ clos_refl_trans_n1 item glink a0 a) -> ~ In r vs -> (length vs + m = N)%nat -> stops (r :: b :: below).
  Proof.
    intros IH. induction m as [|m IHM]; intros vs a r S ND VS NI LN.
    { exfalso. assert (X : (length (r :: vs) <= N)%nat); [|cbn in X; lia]. apply too_many; [constructor; assumption|]. intros v [<-|V]; [eapply NS, S|apply VS, V]. }
    apply stops_by. intros kk its top c K LK NN NT CT LI HT RC (o & be & n & KS & SO & ->). pose proof K as KG. apply (lm_goto _ _ _ LM _ _ _ S) in KG. destruct KG as (e & rest & CE & AE & EK). assert (OF : l_offset kk = (1 + l_offset e)%nat) by (subst kk; reflexivity). rewrite OF in KS. cbn [Nat.add skipn] in KS. destruct (l_offset e) as [|oe] eqn:OE.
    - cbn [skipn] in KS. injection KS as <- <-. destruct e as [[c its'] oe]. cbn in OE. subst oe. unfold after_dot in AE. cbn in AE. subst its'. subst kk. cbn [advance l_rule l_offset r_nonterminal after_dot r_items skipn] in *. pose proof (look_expands _ _ LK NT) as EX. cbn [l_rule r_nonterminal r_items] in EX.
      assert (G : glink a c) by (exists rest; auto). destruct (in_dec Z.eq_dec n (r :: vs)) as [I|I].
      + exfalso. eapply no_cycle; [exact LK|exact EX|exact NN|]. destruct I as [<-|I]; [rewrite (one_symbol _ _ _ _ SO S); constructor|]. destruct (VS _ I) as (_ & a0 & S0 & R0). rewrite (one_symbol _ _ _ _ SO S0). exact R0.
      + eapply (IHM (r :: vs)); [exact SO|constructor; assumption| |exact I|cbn; lia]. intros v [<-|V].
        * split; [eapply NS, S|]. exists a. split; [exact S|]. econstructor; [exact G|constructor].
        * destruct (VS _ V) as (V1 & a0 & S0 & R0). split; [exact V1|]. exists a0. split; [exact S0|]. econstructor; [exact G|exact R0].
    - apply IH; [|exists (r_nonterminal (l_rule kk)); exact SO]. cbn [skipn] in KS. assert (LL := skipn_length oe below). rewrite KS in LL. cbn in *. lia.
  Qed.
  Theorem reductions_end : forall st, top_ok st -> stops st.
  Proof.
    assert (H : forall h st, (length st <= h)%nat -> top_ok st -> stops st).
    { induction h as [|h IH]; intros st LE TO; [destruct st; [constructor; intros b R; inversion R|cbn in LE; lia]|]. destruct st as [|r [|b below]]; [constructor; intros b R; inversion R| |].
      - apply stops_by. intros kk its top c K LK NN NT CT LI HT RC (o & be & n & KS & SO & ->). destruct (l_offset kk) as [|ok] eqn:OF; [exfalso; apply NT, (KO _ _ K), OF|]. cbn in KS. destruct ok; discriminate KS.
      - cbn in LE. destruct TO as [a S]. eapply (unit_stops b below) with (m := N) (vs := []); [intros st LS; apply IH; cbn in *; lia|exact S|constructor|intros v []|intros []|reflexivity]. }
    intros st. apply (H (length st)). lia.
  Qed.
End Reds.

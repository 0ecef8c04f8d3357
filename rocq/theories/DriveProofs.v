(** What an LALR(1) machine does with a sequence of lexemes that has a parse tree. *)
From Verif Require Import Base OrdMap GrammarModel GrammarProofs FirstModel FirstSpec LrItemModel ClosureSpec BuilderSpec ActionModel ActionSpec RunModel RunSpec RunProofs.
Local Open Scope Z_scope.

(** * Expansions and FIRST sets *)
Section Expand.
  Context (rules : Z -> list (list item)).
  Lemma nullables_app a b : nullables rules (a ++ b) <-> nullables rules a /\ nullables rules b.
  Proof.
    induction a as [|i a IH]; cbn [app]; [split; [intros H; split; [constructor|exact H]|tauto]|]. split.
    - intros H. inversion H; subst. apply IH in H3. destruct H3. split; [constructor|]; assumption.
    - intros [H1 H2]. inversion H1; subst. constructor; [assumption|]. apply IH. auto.
  Qed.
  Lemma expand_nullable x r : expands rules x r -> (forall rs, x = IEbnf Repeat rs -> exists i r rs', rs = (i :: r) :: rs') -> nullables rules r -> nullable rules x.
  Proof.
    induction 1 as [n r I|k rs K|k rs K|k rs K|rs r I N|rs rs' r I E IH]; intros NR NN.
    - eapply null_body; [exact I|exact NN].
    - destruct K as [-> | ->]; constructor.
    - destruct K as [-> | ->]; [constructor|]. destruct (NR _ eq_refl) as (i & b & rs' & ->). eapply null_body; [exists rs'; reflexivity|exact NN].
    - destruct K as [-> | ->]; [|constructor]. inversion NN; subst. assumption.
    - eapply null_body; [exact I|exact NN].
    - eapply null_body; [exact I|]. constructor; [|constructor]. apply IH; [intros ? X; discriminate X|exact NN].
  Qed.
  Lemma expand_starts x r pre y post s : expands rules x r -> r = pre ++ y :: post -> nullables rules pre -> starts rules y s -> starts rules x s.
  Proof.
    intros E. revert pre y post. induction E as [n r I|k rs K|k rs K|k rs K|rs r I N|rs rs' r I E IH]; intros pre y post Q NN S.
    - subst r. eapply starts_body; [exact I|exact NN|exact S].
    - destruct pre; discriminate Q.
    - destruct rs as [|r rs]; cbn [nth] in Q; [destruct pre; discriminate Q|]. subst r. eapply (starts_body _ _ pre y post); [|exact NN|exact S]. destruct K as [-> | ->]; exists rs; reflexivity.
    - destruct pre as [|a pre]; cbn [app] in Q.
      + injection Q as Q _. subst y. exact S.
      + injection Q as _ Q. destruct rs as [|r rs]; cbn [nth] in Q; [destruct pre; discriminate Q|]. subst r. inversion NN; subst. eapply (starts_body _ _ pre y post); [|eassumption|exact S]. destruct K as [-> | ->]; exists rs; reflexivity.
    - subst r. eapply starts_body; [exact I|exact NN|exact S].
    - eapply (starts_body _ _ [] _ []); [exact I|constructor|]. eapply IH; eassumption.
  Qed.

  (** The other way round *)
  Lemma alternative_dec (r : list item) : {rs | r = [IEbnf Alternative rs]} + {~ one_alternative r}.
  Proof.
    destruct r as [|[| | | | | |k rs] [|j r]]; try (right; intros [rs' X]; discriminate X). destruct k; try (right; intros [rs' X]; discriminate X). left. exists rs. reflexivity.
  Qed.
  Inductive empties : item -> Prop := empties_rule x r : expands rules x r -> Forall empties r -> empties x.
  Inductive leads (s : Z) : item -> Prop :=
  | leads_self : leads s (ITerm s)
  | leads_rule x pre y post : expands rules x (pre ++ y :: post) -> Forall empties pre -> leads s y -> leads s x.
End Expand.
Scheme nullable_min := Minimality for nullable Sort Prop with nullables_min := Minimality for nullables Sort Prop.
Combined Scheme nullable_both from nullable_min, nullables_min.
Section Expand2.
  Context (rules : Z -> list (list item)) (u : item -> Prop) (CU : closed rules u) (UE : forall i, u i -> i <> IEmpty).
  Lemma nullable_empties_both : (forall x, nullable rules x -> u x -> empties rules x) /\ (forall r, nullables rules r -> (forall j, In j r -> u j) -> Forall (empties rules) r).
  Proof.
    apply nullable_both.
    - intros U. exfalso. apply (UE _ U). reflexivity.
    - intros rs _. apply (empties_rule _ _ []); [apply expands_none; auto|constructor].
    - intros rs _. apply (empties_rule _ _ []); [apply expands_none; auto|constructor].
    - intros i r B _ IH U. assert (F : Forall (empties rules) r) by (apply IH; intros j J; eapply CU; eassumption). destruct i as [| | | |n| |k rs]; cbn in B; try contradiction.
      + eapply empties_rule; [constructor; exact B|exact F].
      + destruct k.
        * apply (empties_rule _ _ []); [apply expands_none; auto|constructor].
        * destruct B as [rs' ->]. apply (empties_rule _ _ r); [apply (expands_once _ _ (r :: rs')); auto|exact F].
        * destruct (alternative_dec r) as [[rs' ->]|N]; [|apply (empties_rule _ _ r); [constructor; assumption|exact F]]. inversion F as [|? ? E _]; subst. inversion E as [? r' E' F']; subst. apply (empties_rule _ _ r'); [eapply expands_nested; eassumption|exact F'].
        * apply (empties_rule _ _ []); [apply expands_none; auto|constructor].
    - constructor.
    - intros i r _ IH1 _ IH2 U. constructor; [apply IH1, U; left; reflexivity|apply IH2; intros; apply U; right; assumption].
  Qed.
  Lemma starts_leads x s : starts rules x (ITerm s) -> u x -> leads rules s x.
  Proof.
    intros S. remember (ITerm s) as a eqn:E. induction S as [a _|i pre y post a B NN S IH]; intros U; subst a; [constructor|].
    assert (L : leads rules s y) by (apply IH; [reflexivity|eapply CU; [exact U|exact B|apply in_app_iff; right; left; reflexivity]]). assert (F : Forall (empties rules) pre) by (apply (proj2 nullable_empties_both _ NN); intros j J; eapply CU; [exact U|exact B|apply in_app_iff; left; exact J]).
    destruct i as [| | | |n| |k rs]; cbn in B; try contradiction.
    - eapply leads_rule; [constructor; exact B|exact F|exact L].
    - destruct k.
      + destruct B as [rs' ->]. apply (leads_rule _ _ _ pre y post); [apply (expands_once _ _ ((pre ++ y :: post) :: rs')); auto|exact F|exact L].
      + destruct B as [rs' ->]. apply (leads_rule _ _ _ pre y post); [apply (expands_once _ _ ((pre ++ y :: post) :: rs')); auto|exact F|exact L].
      + destruct (alternative_dec (pre ++ y :: post)) as [[rs' Q]|N]; [|eapply leads_rule; [apply expands_choice; [exact B|exact N]|exact F|exact L]]. rewrite Q in B. destruct pre as [|? pre]; [|destruct pre; discriminate Q]. injection Q as -> ->. inversion L as [|? pre' y' post' E' F' L']; subst. eapply leads_rule; [eapply expands_nested; eassumption|exact F'|exact L'].
      + destruct B as [rs' ->]. apply (leads_rule _ _ _ (IEbnf RepeatZero ((pre ++ y :: post) :: rs') :: pre) y post); [apply (expands_more _ _ ((pre ++ y :: post) :: rs')); auto| |exact L]. constructor; [|exact F]. apply (empties_rule _ _ []); [apply expands_none; auto|constructor].
  Qed.
End Expand2.

(** * Moves of a machine *)
Section Moves.
  Context (rules : Z -> list (list item)) (first_of : item -> iset) (languages : list item).
  Context (kernel : Z -> lr0 -> Prop) (step : Z -> item -> Z -> Prop) (LM : lr0_machine rules kernel step).
  Context (u : item -> Prop) (UC : forall q k, closure_item rules (kernel q) k -> forall j, In j (after_dot k) -> u j).
  Context (UP : forall i, u i -> i <> IEmpty /\ forall p g, i <> IGuard p g) (CU : closed rules u) (NR : no_empty_repeat u).
  Context (UX : forall i r j, u i -> expands rules i r -> In j r -> u j).
  Context (FS : forall i, u i -> first_set rules i (first_of i)).
  Context (rid : rule -> Z) (ident : item -> Z) (L : Type) (matched : L -> Z) (renamed : Z -> L -> L) (V : Type) (shift_value : option L -> V) (reduce_value : Z -> Z -> list V -> V).
  Notation parses := (parses rules rid ident L matched renamed (fun _ _ => False) (fun _ => False)).
  Notation parses_all := (parses_all rules rid ident L matched renamed (fun _ _ => False) (fun _ => False)).
  Notation look := (lalr_look rules first_of languages Z kernel step).
  Notation value := (value L V shift_value reduce_value).

  Definition next_item (w : list L) : item := match w with [] => IEoi | l :: _ => ITerm (matched l) end.
  (** The stack, the state at its top first, and the input that is left *)
  Definition conf := (list (Z * V) * list L)%type.
  Inductive move : conf -> conf -> Prop :=
  | move_shift q v st l w n : step q (ITerm (matched l)) n -> move ((q, v) :: st, l :: w) ((n, shift_value (Some l)) :: (q, v) :: st, w)
  | move_reduce its q v st w top k n : hd_error (map fst (its ++ (q, v) :: st)) = Some top -> complete_on rules first_of languages kernel step top k (next_item w) -> ~ top_rule (l_rule k) ->
      length its = length (r_items (l_rule k)) -> step q (r_nonterminal (l_rule k)) n ->
      move (its ++ (q, v) :: st, w) ((n, reduce_value (ident (r_nonterminal (l_rule k))) (rid (l_rule k)) (map snd its)) :: (q, v) :: st, w).
  Inductive moves : conf -> conf -> Prop :=
  | moves_none c : moves c c
  | moves_more c c' c'' : move c c' -> moves c' c'' -> moves c c''.
  Lemma moves_trans a b c : moves a b -> moves b c -> moves a c.
  Proof. induction 1; intros; [assumption|]. eapply moves_more; eauto. Qed.

  Lemma look_closure q k x : look q k x -> closure_item rules (kernel q) k.
  Proof.
    induction 1 as [q l I K|q p l K|q k y rest r x C A E B|q k y rest r x LK IH A E S|q k y rest q' x LK IH A S].
    - constructor. exact K.
    - constructor. exact K.
    - eapply in_step; eassumption.
    - eapply in_step; eassumption.
    - constructor. apply (lm_goto _ _ _ LM _ _ _ S). exists k, rest. auto.
  Qed.

  (** A parse tree for the first part of what is left gives its first lexeme. *)
  Scheme parses_min := Minimality for RunSpec.parses Sort Prop with parses_all_min := Minimality for RunSpec.parses_all Sort Prop.
  Combined Scheme parses_both from parses_min, parses_all_min.
  Definition reach (w : list L) (x : item) : Prop := match w with [] => nullable rules x | l :: _ => starts rules x (ITerm (matched l)) end.
  Lemma parses_reach : (forall x t w rest, parses x t w rest -> u x -> reach w x) /\
    (forall xs ts w rest, parses_all xs ts w rest -> (forall j, In j xs -> u j) -> match w with [] => nullables rules xs | l :: _ => sequence_starts rules xs (ITerm (matched l)) end).
  Proof.
    apply parses_both.
    - intros l rest _. cbn. constructor. exact I.
    - intros l s rest [].
    - intros x r ts w rest E P IH U. specialize (IH (fun j J => UX _ _ _ U E J)). unfold reach. destruct w as [|l w].
      + eapply expand_nullable; [exact E| |exact IH]. intros rs ->. apply NR, U.
      + destruct IH as (pre & y & post & Q & NN & S). eapply expand_starts; eassumption.
    - intros p g ts w rest _ _ U. destruct (UP _ U) as [_ X]. exfalso. eapply X. reflexivity.
    - intros rest _. constructor.
    - intros xs ts l w rest [].
    - intros x xs t ts w1 w2 rest P IH1 PA IH2 U. specialize (IH1 (U x (or_introl eq_refl))). specialize (IH2 (fun j J => U j (or_intror J))). destruct w1 as [|l w1]; cbn [app reach] in *.
      + destruct w2 as [|l w2]; [constructor; assumption|]. destruct IH2 as (pre & y & post & -> & NN & S). exists (x :: pre), y, post. split; [reflexivity|]. split; [constructor; assumption|exact S].
      + exists [], x, xs. split; [reflexivity|]. split; [constructor|exact IH1].
  Qed.
  Lemma nullables_skips xs : (forall j, In j xs -> u j) -> nullables rules xs -> skips first_of xs.
  Proof. intros U N i I. apply FS; [apply U, I|]. left. split; [reflexivity|]. clear U. induction N as [|a r A N IH]; [destruct I|]. destruct I as [<-|I]; auto. Qed.
  Lemma starts_begins xs x : (forall j, In j xs -> u j) -> x <> IEmpty -> sequence_starts rules xs x -> begins first_of xs x.
  Proof.
    intros U NE (pre & y & post & -> & NN & S). exists pre, y, post. split; [reflexivity|]. split; [apply nullables_skips; [intros j J; apply U, in_app_iff; left; exact J|exact NN]|]. split; [|exact NE].
    apply FS; [apply U, in_app_iff; right; left; reflexivity|]. right. exact S.
  Qed.

  (** What comes after the item at the dot of [k] may start with [y]. *)
  Definition may_follow (q : Z) (k : lr0) (xs : list item) (y : item) : Prop := begins first_of xs y \/ skips first_of xs /\ look q k y.
  Lemma follow_rest q k xs ts w rest y : (forall j, In j xs -> u j) -> parses_all xs ts w rest -> look q k (next_item rest) -> y = next_item (w ++ rest) -> may_follow q k xs y.
  Proof.
    intros U P LK ->. apply (proj2 parses_reach) in P; [|exact U]. destruct w as [|l w]; cbn [app].
    - right. split; [apply nullables_skips; assumption|exact LK].
    - left. apply starts_begins; [exact U|discriminate|exact P].
  Qed.
  Lemma start_look q k x xs r y : closure_item rules (kernel q) k -> after_dot k = x :: xs -> expands rules x r -> may_follow q k xs y -> look q (mkLr0 (mkRule x r) 0) y.
  Proof. intros C A E [B|[S LK]]; [eapply lalr_begins; eassumption|eapply lalr_passed; eassumption]. Qed.
  Lemma next_state q k x xs : closure_item rules (kernel q) k -> after_dot k = x :: xs -> x <> IEmpty -> exists n, step q x n /\ kernel n (advance k).
  Proof.
    intros C A NE. destruct (lm_step _ _ _ LM q x (advance k)) as [n S]; [exact NE|clear -C; induction C; eauto|exists k, xs; auto|]. exists n. split; [exact S|]. apply (lm_goto _ _ _ LM _ _ _ S). exists k, xs. auto.
  Qed.
  Lemma after_advance k x xs : after_dot k = x :: xs -> after_dot (advance k) = xs.
  Proof.
    unfold after_dot, advance. cbn [l_rule l_offset]. generalize (r_items (l_rule k)). induction (l_offset k) as [|n IH]; intros l; destruct l as [|a l]; try discriminate; cbn [skipn].
    - intros X. injection X as _ <-. reflexivity.
    - intros X. apply IH in X. exact X.
  Qed.

  Lemma drive : (forall x t w rest, parses x t w rest -> forall q v st k xs, closure_item rules (kernel q) k -> after_dot k = x :: xs -> may_follow q k xs (next_item rest) ->
      exists n, step q x n /\ kernel n (advance k) /\ moves ((q, v) :: st, w ++ rest) ((n, value t) :: (q, v) :: st, rest)) /\
    (forall xs ts w rest, parses_all xs ts w rest -> forall q v st k, closure_item rules (kernel q) k -> after_dot k = xs -> look q k (next_item rest) ->
      exists its top, length its = length xs /\ map snd its = rev (map value ts) /\ hd_error (map fst (its ++ (q, v) :: st)) = Some top /\
        closure_item rules (kernel top) (mkLr0 (l_rule k) (l_offset k + length xs)) /\ look top (mkLr0 (l_rule k) (l_offset k + length xs)) (next_item rest) /\
        moves ((q, v) :: st, w ++ rest) (its ++ (q, v) :: st, rest)).
  Proof.
    apply parses_both.
    - intros l rest q v st k xs C A F. destruct (next_state _ _ _ _ C A) as (n & S & K); [discriminate|]. exists n. split; [exact S|]. split; [exact K|]. eapply moves_more; [|apply moves_none]. constructor. exact S.
    - intros l s rest [].
    - intros x r ts w rest E P IH q v st k xs C A F. assert (NE : x <> IEmpty) by apply (expands_plain _ _ _ E). destruct (next_state _ _ _ _ C A NE) as (n & S & K). exists n. split; [exact S|]. split; [exact K|].
      assert (LK := start_look _ _ _ _ _ _ C A E F). destruct (IH q v st (mkLr0 (mkRule x r) 0)) as (its & top & LI & VI & HT & CT & LT & M); [eapply in_step; eassumption|reflexivity|exact LK|]. cbn [l_rule l_offset Nat.add] in *.
      eapply moves_trans; [exact M|]. eapply moves_more; [|apply moves_none]. cbn [value RunSpec.value]. rewrite <- VI.
      apply (move_reduce its q v st rest top (mkLr0 (mkRule x r) (length r)) n); cbn [l_rule r_items r_nonterminal]; [exact HT| | |exact LI|exact S].
      + split; [exact CT|]. split; [|exact LT]. unfold after_dot. cbn. apply skipn_all.
      + apply expands_no_top with (1 := E).
    - intros p g ts w rest _ _ q v st k xs C A _. assert (U : u (IGuard p g)) by (apply (UC _ _ C); rewrite A; left; reflexivity). destruct (UP _ U) as [_ X]. exfalso. eapply X. reflexivity.
    - intros rest q v st k C A LK. exists [], q. cbn [length app map fst hd_error rev]. rewrite Nat.add_0_r. destruct k as [rk ok]. cbn [l_rule l_offset]. repeat (split; [assumption || reflexivity|]). apply moves_none.
    - intros xs ts l w rest [].
    - intros x xs t ts w1 w2 rest P IH1 PA IH2 q v st k C A LK. assert (U : forall j, In j (x :: xs) -> u j) by (intros j J; apply (UC _ _ C); rewrite A; exact J).
      destruct (IH1 q v st k xs C A) as (n & S & K & M1); [eapply follow_rest; [intros; apply U; right; assumption|exact PA|exact LK|reflexivity]|].
      assert (LN : look n (advance k) (next_item rest)) by (eapply lalr_step; eassumption).
      destruct (IH2 n (value t) ((q, v) :: st) (advance k)) as (its & top & LI & VI & HT & CT & LT & M2); [constructor; exact K|apply (after_advance _ _ _ A)|exact LN|].
      exists (its ++ [(n, value t)]), top. rewrite <- app_assoc. cbn [app advance l_rule l_offset length map] in *. rewrite app_length, map_app, VI. cbn [length map snd rev]. rewrite (Nat.add_succ_r (l_offset k)). cbn [Nat.add] in CT, LT.
      split; [lia|]. split; [reflexivity|]. split; [exact HT|]. split; [exact CT|]. split; [exact LT|]. eapply moves_trans; [|exact M2]. rewrite <- app_assoc. exact M1.
  Qed.
End Moves.

(** Proofs about the closure of LR items. *)
From Verif Require Import Base OrdMap GrammarModel GrammarProofs FirstModel FirstProofs LrItemModel LrItemProofs ClosureModel ClosureSpec.
Local Open Scope Z_scope.

Section Grammar.
  Context (rid : rule -> Z) (RI : injective rid).
  Context (first_of : item -> iset) (FO : forall i, set_ok (first_of i)).
  Context (rules : Z -> list (list item)).
  Notation expands := (expands rules).
  Notation skips := (skips first_of).
  Notation begins := (begins first_of).

  (** ** Rules that are added *)
  Lemma alternatives_in i r : In r (alternatives i) <-> match i with IEbnf Alternative _ => expands i r | _ => False end.
  Proof.
    revert r. induction i as [| | |s|s|p l IH|k rs IH] using item_rect'; intros r; try tauto. destruct k; try tauto. cbn [alternatives]. rewrite in_flat_map. split.
    - intros (b & Hb & H). rewrite Forall_forall in IH. specialize (IH _ Hb).
      assert (D : In r [b] -> ~ one_alternative b -> expands (IEbnf Alternative rs) r) by (intros [<-|[]] N; apply expands_choice; assumption).
      destruct b as [|j [|j' b]].
      + apply D; [exact H|]. intros [rs' X]. discriminate X.
      + destruct j as [| | |s|s|p l|[| | |] rs']; try (apply D; [exact H|]; intros [rs'' X]; discriminate X). inversion IH as [|? ? A B]; subst. eapply expands_nested; [exact Hb|]. apply A, H.
      + apply D; [exact H|]. intros [rs' X]. discriminate X.
    - intros E. inversion E as [|k rs0 K|k rs0 K|k rs0 K|rs0 r0 Hr N|rs0 rs' r0 Hr E']; subst.
      + destruct K; discriminate.
      + destruct K; discriminate.
      + destruct K; discriminate.
      + exists r. split; [exact Hr|]. destruct r as [|j [|j' b]]; [left; reflexivity| |left; reflexivity]. destruct j as [| | |s|s|p l|[| | |] rs']; try (left; reflexivity). exfalso. apply N. exists rs'. reflexivity.
      + exists [IEbnf Alternative rs']. split; [exact Hr|]. rewrite Forall_forall in IH. specialize (IH _ Hr). inversion IH as [|? ? A B]; subst. apply A. exact E'.
  Qed.
  Lemma bodies_in i r : In r (bodies rules i) <-> expands i r.
  Proof.
    destruct i as [| | |s|s|p l|k rs]; cbn [bodies In].
    1-4: split; [intros []|intros E; inversion E].
    - split; [apply expands_rule|intros E; inversion E; assumption].
    - split; [intros []|intros E; inversion E].
    - destruct k.
      + split; [intros [<-|[<-|[]]]; [apply expands_none|apply expands_once]; auto|]. intros E. inversion E; subst; cbn [In]; auto; match goal with K : _ \/ _ |- _ => destruct K; discriminate end.
      + split; [intros [<-|[<-|[]]]; [apply expands_once|apply expands_more]; auto|]. intros E. inversion E; subst; cbn [In]; auto; match goal with K : _ \/ _ |- _ => destruct K; discriminate end.
      + apply (alternatives_in (IEbnf Alternative rs)).
      + split; [intros [<-|[<-|[]]]; [apply expands_none|apply expands_more]; auto|]. intros E. inversion E; subst; cbn [In]; auto; match goal with K : _ \/ _ |- _ => destruct K; discriminate end.
  Qed.

  (** ** What follows the symbol after the dot *)
  Lemma after_dot_next k i rest : after_dot k = i :: rest -> skipn (S (l_offset k)) (r_items (l_rule k)) = rest.
  Proof.
    unfold after_dot. generalize (r_items (l_rule k)), (l_offset k). intros l n. revert l. induction n as [|n IH]; intros [|a l] H; cbn in H; try discriminate H; [injection H as -> ->; reflexivity|].
    change (skipn (S n) l = rest). apply IH, H.
  Qed.
  Lemma begins_cons i rest x : begins (i :: rest) x <-> (In x (first_of i) /\ x <> IEmpty) \/ (In IEmpty (first_of i) /\ begins rest x).
  Proof.
    split.
    - intros ([|j p] & y & q & E & S & H & N); injection E as -> ->; [auto|]. right. split; [apply S; left; reflexivity|]. exists p, y, q. split; [reflexivity|]. split; [intros m Hm; apply S; right; exact Hm|auto].
    - intros [[H N]|(E & p & y & q & -> & S & H & N)]; [exists [], i, rest; repeat split; auto; intros j []|]. exists (i :: p), y, q. split; [reflexivity|]. split; [|auto]. intros j [<-|Hj]; [exact E|apply S, Hj].
  Qed.
  Lemma skips_cons i rest : skips (i :: rest) <-> In IEmpty (first_of i) /\ skips rest.
  Proof. split; [intros S; split; [apply S; left; reflexivity|intros j Hj; apply S; right; exact Hj]|]. intros [E S] j [<-|Hj]; [exact E|apply S, Hj]. Qed.
  Lemma follow_rest_in rest : forall f la x, set_ok f -> set_ok la -> set_ok (follow_rest first_of rest f la) /\
    (In x (follow_rest first_of rest f la) <-> (In x f /\ x <> IEmpty) \/ (In IEmpty f /\ (begins rest x \/ (skips rest /\ In x la)))).
  Proof.
    induction rest as [|i rest IH]; intros f la x SF SL; cbn [follow_rest]; destruct (icontains f IEmpty) eqn:C.
    - apply icontains_in in C; [|exact SF]. split; [apply imerge_ok, ierase_ok, SF|]. rewrite imerge_in, ierase_in by exact SF. split; [intros [H|H]; [auto|right; split; [exact C|right; split; [intros j []|exact H]]]|].
      intros [H|(_ & [(p & y & q & E & _)|[_ H]])]; [auto|destruct p; discriminate E|auto].
    - apply icontains_not in C; [|exact SF]. split; [exact SF|]. split; [intros H; left; split; [exact H|intros ->; contradiction]|]. intros [[H _]|[H _]]; [exact H|contradiction].
    - apply icontains_in in C; [|exact SF]. assert (SM : set_ok (imerge (ierase IEmpty f) (first_of i))) by (apply imerge_ok, ierase_ok, SF). destruct (IH _ la x SM SL) as [SR IN]. split; [exact SR|]. rewrite IN.
      rewrite !imerge_in, !ierase_in by exact SF. rewrite begins_cons, skips_cons. intuition congruence.
    - apply icontains_not in C; [|exact SF]. split; [exact SF|]. split; [intros H; left; split; [exact H|intros ->; contradiction]|]. intros [[H _]|[H _]]; [exact H|contradiction].
  Qed.
  Lemma fill_follow_in k la i rest : after_dot k = i :: rest -> set_ok la -> set_ok (fill_follow first_of k la) /\ forall x, In x (fill_follow first_of k la) <-> begins rest x \/ (skips rest /\ In x la).
  Proof.
    intros A SL. unfold fill_follow. rewrite (after_dot_next _ _ _ A). destruct rest as [|j rest].
    - split; [exact SL|]. intros x. split; [intros H; right; split; [intros m []|exact H]|]. intros [(p & y & q & E & _)|[_ H]]; [destruct p; discriminate E|exact H].
    - split; [apply (follow_rest_in rest (first_of j) la IEmpty (FO j) SL)|]. intros x. rewrite (proj2 (follow_rest_in rest (first_of j) la x (FO j) SL)), begins_cons, skips_cons. tauto.
  Qed.

  (** ** Sets that are closed *)
  Notation mem := (fun s k => lr1_mem rid k s = true).
  Notation look := (fun s k x => In x (look_of rid k s)).
  Definition start (y : item) (r : list item) : lr0 := mkLr0 (mkRule y r) 0.
  Definition direct (s : lr1_set) (k : lr0) : Prop := forall y rest r, after_dot k = y :: rest -> expands y r -> mem s (start y r) /\ forall x, begins rest x -> look s (start y r) x.
  Definition passes (s : lr1_set) (k : lr0) (x : item) : Prop := forall y rest r, after_dot k = y :: rest -> expands y r -> skips rest -> look s (start y r) x.
  Definition more (s t : lr1_set) : Prop := (forall k, mem s k -> mem t k) /\ (forall k x, look s k x -> look t k x).
  Lemma more_refl s : more s s.
  Proof. split; auto. Qed.
  Lemma more_trans s t v : more s t -> more t v -> more s v.
  Proof. intros [A B] [C D]. split; auto. Qed.
  Lemma direct_more s t k : more s t -> direct s k -> direct t k.
  Proof. intros [A B] D y rest r E X. destruct (D y rest r E X) as [M L]. split; [apply A, M|]. intros x Hx. apply B, L, Hx. Qed.
  Lemma passes_more s t k x : more s t -> passes s k x -> passes t k x.
  Proof. intros [A B] D y rest r E X S. apply B. eapply D; eassumption. Qed.
  (** All that [t] has more than [s] is closed in [t] *)
  Definition step_closed (s t : lr1_set) : Prop :=
    more s t /\ (forall k, mem t k -> mem s k \/ direct t k) /\ (forall k x, look t k x -> look s k x \/ passes t k x).
  Lemma step_closed_trans s t v : step_closed s t -> step_closed t v -> step_closed s v.
  Proof.
    intros (M1 & D1 & P1) (M2 & D2 & P2). split; [eapply more_trans; eassumption|]. split.
    - intros k H. destruct (D2 k H) as [H2|H2]; [|auto]. destruct (D1 k H2) as [H1|H1]; [auto|]. right. eapply direct_more; eassumption.
    - intros k x H. destruct (P2 k x H) as [H2|H2]; [|auto]. destruct (P1 k x H2) as [H1|H1]; [auto|]. right. eapply passes_more; eassumption.
  Qed.
  (** A pair of predicates that is closed *)
  Definition solution (pi : lr0 -> Prop) (pl : lr0 -> item -> Prop) : Prop :=
    (forall k y rest r, pi k -> after_dot k = y :: rest -> expands y r -> pi (start y r) /\ forall x, begins rest x -> pl (start y r) x) /\
    (forall k x y rest r, pl k x -> after_dot k = y :: rest -> expands y r -> skips rest -> pl (start y r) x).
  Definition within (pi : lr0 -> Prop) (pl : lr0 -> item -> Prop) (s : lr1_set) : Prop := (forall k, mem s k -> pi k) /\ (forall k x, look s k x -> pl k x).

  Context (u : item -> Prop) (UO : ordinary rules first_of u).
  Definition covers (pi : lr0 -> Prop) (pl : lr0 -> item -> Prop) (k : lr0) (la : iset) : Prop :=
    forall y rest r, after_dot k = y :: rest -> expands y r -> pi (start y r) /\ (forall x, begins rest x -> pl (start y r) x) /\ (skips rest -> forall x, In x la -> pl (start y r) x).
  Lemma solution_covers pi pl k la : solution pi pl -> pi k -> (forall x, In x la -> pl k x) -> covers pi pl k la.
  Proof. intros [S1 S2] PK PL y rest r A X. destruct (S1 k y rest r PK A X) as [P1 P2]. split; [exact P1|]. split; [exact P2|]. intros SK x Hx. eapply S2; [apply PL, Hx|exact A|exact X|exact SK]. Qed.

  Definition cached_ok (i : item) (s : lr1_set) : Prop :=
    lr1_ok rid s /\ (forall k, mem s k -> direct s k) /\ (forall k x, look s k x -> passes s k x) /\
    direct s (fake_item i) /\ passes s (fake_item i) IEoi /\
    (forall pi pl, solution pi pl -> covers pi pl (fake_item i) [IEoi] -> within pi pl s).
  Definition cache_ok (c : closure_cache) : Prop := msorted item_ltb c /\ forall i s, In (i, s) c -> u i -> s <> [] -> cached_ok i s.

  (** [done k la st st']: [st'] is [st] with the closure of [k] with the lookahead [la]. *)
  Definition done (k : lr0) (la : iset) (st st' : lr1_set) : Prop :=
    lr1_ok rid st' /\ step_closed st st' /\ direct st' k /\ (forall x, In x la -> passes st' k x) /\
    (forall pi pl, solution pi pl -> covers pi pl k la -> within pi pl st -> within pi pl st').
  Definition rec_ok (rec : item -> lr0 -> iset -> lr1_set -> caching -> option (lr1_set * caching)) : Prop :=
    forall i rest k la st c st' c', u i -> after_dot k = i :: rest -> set_ok la -> lr1_ok rid st -> cache_ok (fst c) -> rec i k la st c = Some (st', c') -> cache_ok (fst c') /\ done k la st st'.

  Lemma insert_more k la st : set_ok la -> lr1_ok rid st -> more st (fst (lr1_insert rid k la st)).
  Proof. intros SO OK. split; [intros k' H; apply insert_mem; auto|intros k' x H; apply insert_look; auto]. Qed.
  Lemma begins_u rest x : (forall j, In j rest -> u j) -> begins rest x -> x <> IEoi.
  Proof. intros U (p & y & q & -> & _ & H & _) ->. apply (UO y); [apply U, in_elt|exact H]. Qed.

  Section Recursion.
    Context (rec : item -> lr0 -> iset -> lr1_set -> caching -> option (lr1_set * caching)) (RO : rec_ok rec).
    Lemma insert_closure_item_ok y r la st c st' c' : (forall j, In j r -> u j) -> set_ok la -> lr1_ok rid st -> cache_ok (fst c) -> insert_closure_item rid rec (start y r) la st c = Some (st', c') ->
      cache_ok (fst c') /\ lr1_ok rid st' /\ step_closed st st' /\ mem st' (start y r) /\ (forall x, In x la -> look st' (start y r) x) /\
      (forall pi pl, solution pi pl -> pi (start y r) -> (forall x, In x la -> pl (start y r) x) -> within pi pl st -> within pi pl st').
    Proof.
      intros U SL OK CO H. unfold insert_closure_item in H. pose proof (insert_ok rid RI (start y r) la st SL OK) as OK1. pose proof (fun k' => insert_mem rid RI (start y r) la st k' SL OK) as M1. pose proof (fun k' x => insert_look rid RI (start y r) la st k' x SL OK) as L1.
      pose proof (insert_grew rid RI (start y r) la st SL OK) as G1. pose proof (insert_more (start y r) la st SL OK) as MO. destruct (lr1_insert rid (start y r) la st) as [st1 grew]. cbn [fst snd] in *.
      assert (W : forall pi pl, solution pi pl -> pi (start y r) -> (forall x, In x la -> pl (start y r) x) -> within pi pl st -> within pi pl st1).
      { intros pi pl S PK PL [A B]. split; [intros k' H'; apply M1 in H'; destruct H' as [->|H']; auto|]. intros k' x H'. apply L1 in H'. destruct H' as [[-> H']|H']; auto. }
      assert (PLAIN : direct st1 (start y r) -> (forall x, In x la -> passes st1 (start y r) x) -> st' = st1 -> c' = c -> cache_ok (fst c') /\ lr1_ok rid st' /\ step_closed st st' /\ mem st' (start y r) /\ (forall x, In x la -> look st' (start y r) x) /\
        (forall pi pl, solution pi pl -> pi (start y r) -> (forall x, In x la -> pl (start y r) x) -> within pi pl st -> within pi pl st')).
      { intros D P -> ->. split; [exact CO|]. split; [exact OK1|]. split; [|split; [apply M1; auto|split; [intros x Hx; apply L1; auto|exact W]]].
        split; [exact MO|]. split; [intros k' H'; apply M1 in H'; destruct H' as [->|H']; auto|]. intros k' x H'. apply L1 in H'. destruct H' as [[-> H']|H']; auto. }
      destruct grew.
      - unfold start in H at 1. cbn [l_rule r_items] in H. destruct r as [|j r].
        + injection H as <- <-. apply PLAIN; try reflexivity; [intros a rest b E|intros x Hx a rest b E]; discriminate E.
        + assert (J : (exists t, j = ITerm t) \/ rec j (start y (j :: r)) la st1 c = Some (st', c')) by (destruct j; eauto).
          destruct J as [[t ->]|J].
          * injection H as <- <-. apply PLAIN; try reflexivity; [intros a rest b E X|intros x Hx a rest b E X]; injection E as <- <-; inversion X.
          * apply (RO j r) in J; [|apply U; left; reflexivity|reflexivity|exact SL|exact OK1|exact CO].
            destruct J as (CO2 & OK2 & (MO2 & SD & SP) & D & P & WI). split; [exact CO2|]. split; [exact OK2|]. split; [|split; [apply MO2, M1; auto|split; [intros x Hx; apply MO2, L1; auto|]]].
            -- split; [eapply more_trans; eassumption|]. split.
               ++ intros k' H'. destruct (SD k' H') as [X|X]; [|auto]. apply M1 in X. destruct X as [->|X]; auto.
               ++ intros k' x H'. destruct (SP k' x H') as [X|X]; [|auto]. apply L1 in X. destruct X as [[-> X]|X]; auto.
            -- intros pi pl S PK PL WS. apply WI; [exact S|apply solution_covers; assumption|auto].
      - injection H as <- <-. assert (NG : lr1_mem rid (start y r) st = true /\ forall x, In x la -> In x (look_of rid (start y r) st)).
        { split; [destruct (lr1_mem rid (start y r) st) eqn:E; [reflexivity|]; assert (false = true) by (apply G1; auto); discriminate|]. intros x Hx. apply icontains_in; [apply look_of_ok; assumption|].
          destruct (icontains (look_of rid (start y r) st) x) eqn:E; [reflexivity|]. apply icontains_not in E; [|apply look_of_ok; assumption]. assert (false = true) by (apply G1; right; eauto). discriminate. }
        destruct NG as [NM NL]. split; [exact CO|]. split; [exact OK1|]. split; [|split; [apply M1; auto|split; [intros x Hx; apply L1; auto|exact W]]].
        split; [exact MO|]. split; [intros k' H'; apply M1 in H'; destruct H' as [->|H']; auto|]. intros k' x H'. apply L1 in H'. destruct H' as [[-> H']|H']; auto.
    Qed.
    Lemma insert_bodies_ok y bs : forall la st c st' c', (forall r j, In r bs -> In j r -> u j) -> set_ok la -> lr1_ok rid st -> cache_ok (fst c) -> insert_bodies rid rec y bs la st c = Some (st', c') ->
      cache_ok (fst c') /\ lr1_ok rid st' /\ step_closed st st' /\ (forall r, In r bs -> mem st' (start y r) /\ forall x, In x la -> look st' (start y r) x) /\
      (forall pi pl, solution pi pl -> (forall r, In r bs -> pi (start y r) /\ forall x, In x la -> pl (start y r) x) -> within pi pl st -> within pi pl st').
    Proof.
      induction bs as [|r bs IH]; intros la st c st' c' U SL OK CO H; cbn [insert_bodies] in H.
      - injection H as <- <-. split; [exact CO|]. split; [exact OK|]. split; [split; [apply more_refl|auto]|]. split; [intros r []|auto].
      - destruct (insert_closure_item rid rec (start y r) la st c) as [[st1 c1]|] eqn:E; unfold start in E; rewrite E in H; [|discriminate H]. apply insert_closure_item_ok in E; try assumption; [|intros j Hj; eapply U; [left; reflexivity|exact Hj]].
        destruct E as (CO1 & OK1 & SC1 & M1 & L1 & W1). destruct (IH la st1 c1 st' c') as (CO2 & OK2 & SC2 & B2 & W2); try assumption; [intros r' j Hr; apply U; right; exact Hr|].
        split; [exact CO2|]. split; [exact OK2|]. split; [eapply step_closed_trans; eassumption|]. split.
        + intros r' [<-|Hr]; [|apply B2, Hr]. split; [apply SC2, M1|]. intros x Hx. apply (proj1 SC2), L1, Hx.
        + intros pi pl S P WS. apply W2; [exact S|intros r' Hr; apply P; right; exact Hr|]. apply W1; [exact S|apply P; left; reflexivity|apply P; left; reflexivity|exact WS].
    Qed.
    Lemma closure_ok : rec_ok (closure rid first_of rules rec).
    Proof.
      intros i rest k la st c st' c' UI A SL OK CO H. assert (NE : i <> IEmpty) by (apply UO, UI). assert (H' : insert_bodies rid rec i (bodies rules i) (fill_follow first_of k la) st c = Some (st', c')) by (destruct i; try exact H; contradiction). clear H.
      destruct (fill_follow_in k la i rest A SL) as [SF IN]. apply insert_bodies_ok in H'; try assumption; [|intros r j Hr Hj; eapply (UO i UI); [apply bodies_in, Hr|exact Hj]].
      destruct H' as (CO2 & OK2 & SC & B & W). split; [exact CO2|]. split; [exact OK2|]. split; [exact SC|]. split; [|split].
      - intros y rest' r E X. rewrite A in E. injection E as <- <-. apply bodies_in in X. split; [apply B, X|]. intros x Hx. apply (proj2 (B r X)), IN. auto.
      - intros x Hx y rest' r E X S. rewrite A in E. injection E as <- <-. apply bodies_in in X. apply (proj2 (B r X)), IN. auto.
      - intros pi pl SO CV WS. apply W; [exact SO| |exact WS]. intros r X. apply bodies_in in X. destruct (CV i rest r A X) as (P1 & P2 & P3). split; [exact P1|].
        intros x Hx. apply IN in Hx. destruct Hx as [Hx|[Sk Hx]]; [apply P2, Hx|apply P3; assumption].
    Qed.
  End Recursion.

  (** ** The cache *)
  Definition swap (f la : iset) : iset := if icontains la IEoi then imerge (ierase IEoi la) f else la.
  Lemma swap_in f la x : set_ok la -> set_ok f -> set_ok (swap f la) /\ (In x (swap f la) <-> (In x la /\ x <> IEoi) \/ (In IEoi la /\ In x f)).
  Proof.
    intros SL SF. unfold swap. destruct (icontains la IEoi) eqn:C.
    - apply icontains_in in C; [|exact SL]. split; [apply imerge_ok, ierase_ok, SL|]. rewrite imerge_in, ierase_in by exact SL. tauto.
    - apply icontains_not in C; [|exact SL]. split; [exact SL|]. split; [intros H; left; split; [exact H|intros ->; contradiction]|]. intros [[H _]|[H _]]; [exact H|contradiction].
  Qed.
  Lemma use_cached_spec cached f : (forall k la, In (k, la) cached -> set_ok la) -> set_ok f -> forall st, lr1_ok rid st ->
    lr1_ok rid (use_cached rid cached f st) /\
    (forall k, mem (use_cached rid cached f st) k <-> (exists la, In (k, la) cached) \/ mem st k) /\
    (forall k x, look (use_cached rid cached f st) k x <-> (exists la, In (k, la) cached /\ ((In x la /\ x <> IEoi) \/ (In IEoi la /\ In x f))) \/ look st k x).
  Proof.
    intros SC SF. induction cached as [|[k0 la0] cached IH]; intros st OK; cbn [use_cached fold_left].
    - split; [exact OK|]. split; intros; (split; [auto|]); [intros [[la []]|H]; exact H|intros [(la & [] & _)|H]; exact H].
    - assert (SL : set_ok la0) by (eapply SC; left; reflexivity). pose proof (fun x => swap_in f la0 x SL SF) as SW. assert (SS : set_ok (swap f la0)) by (apply (SW IEmpty)).
      destruct (IH (fun k la H => SC k la (or_intror H)) (fst (lr1_insert rid k0 (swap f la0) st)) (insert_ok rid RI _ _ _ SS OK)) as (OK1 & M1 & L1). unfold use_cached in *. unfold swap in OK1, M1, L1 at 1. split; [exact OK1|]. split.
      + intros k. rewrite M1. fold (swap f la0). rewrite (insert_mem rid RI k0 _ st k SS OK). split.
        * intros [(la & H)|[->|H]]; [left; exists la; right; exact H|left; exists la0; left; reflexivity|auto].
        * intros [(la & [E|H])|H]; [injection E as -> ->; auto|left; eauto|auto].
      + intros k x. rewrite L1. fold (swap f la0). rewrite (insert_look rid RI k0 _ st k x SS OK), (proj2 (SW x)). split.
        * intros [(la & H & P)|[[-> P]|H]]; [left; exists la; split; [right; exact H|exact P]|left; exists la0; split; [left; reflexivity|exact P]|auto].
        * intros [(la & [E|H] & P)|H]; [injection E as -> ->; auto|left; eauto|auto].
  Qed.
  Lemma entry_iff s k : lr1_ok rid s -> (exists la, In (k, la) s) <-> mem s k.
  Proof. intros OK. symmetry. apply mem_in; assumption. Qed.
  Definition in_u (k : lr0) : Prop := forall j, In j (r_items (l_rule k)) -> u j.
  Lemma in_u_rest k y rest : in_u k -> after_dot k = y :: rest -> u y /\ forall j, In j rest -> u j.
  Proof.
    intros U E. unfold after_dot in E. assert (W : forall j, In j (y :: rest) -> u j) by (intros j Hj; apply U; rewrite <- (firstn_skipn (l_offset k) (r_items (l_rule k))), E; apply in_app_iff; auto).
    split; [apply W; left; reflexivity|intros j Hj; apply W; right; exact Hj].
  Qed.
  Lemma use_cached_done i rest k la st s : cached_ok i s -> u i -> after_dot k = i :: rest -> set_ok la -> lr1_ok rid st ->
    done k la st (use_cached rid s (fill_follow first_of k la) st).
  Proof.
    intros (SK & CD & CP & FD & FP & CW) UI A SL OK. destruct (fill_follow_in k la i rest A SL) as [SF IN].
    destruct (use_cached_spec s (fill_follow first_of k la) (lo_sets _ _ SK) SF st OK) as (OK2 & M2 & L2).
    set (st' := use_cached rid s (fill_follow first_of k la) st) in *.
    assert (CU : forall k', mem s k' -> in_u k').
    { apply (CW in_u (fun _ _ => True)).
      - split; [|auto]. intros k' y rest' r U E X. split; [|auto]. intros j Hj. destruct (in_u_rest _ _ _ U E) as [UY _]. eapply (UO y UY); eassumption.
      - intros y rest' r E X. injection E as <- <-. split; [|auto]. intros j Hj. eapply (UO i UI); eassumption. }
    assert (M : forall k', mem st' k' <-> mem s k' \/ mem st k') by (intros k'; rewrite M2, entry_iff by exact SK; reflexivity).
    assert (LE : forall k' (P : iset -> Prop), (exists la', In (k', la') s /\ P la') <-> mem s k' /\ P (look_of rid k' s)).
    { intros k' P. split; [intros (la' & H & Q)|intros [H Q]].
      - split; [apply entry_iff; eauto|]. rewrite (look_of_entry rid RI _ _ _ SK H). exact Q.
      - apply entry_iff in H; [|exact SK]. destruct H as [la' H]. exists la'. rewrite (look_of_entry rid RI _ _ _ SK H) in Q. auto. }
    assert (LM : forall k' x, look s k' x -> mem s k') by (intros k' x; unfold look_of, lr1_mem; destruct (mfind (lr0_ltb rid) k' s); [reflexivity|intros []]).
    assert (L : forall k' x, look st' k' x <-> (look s k' x /\ x <> IEoi) \/ (look s k' IEoi /\ In x (fill_follow first_of k la)) \/ look st k' x).
    { intros k' x. rewrite L2. rewrite (LE k' (fun l => (In x l /\ x <> IEoi) \/ (In IEoi l /\ In x (fill_follow first_of k la)))). split.
      - intros [(_ & [H|H])|H]; auto.
      - intros [[H1 H2]|[[H1 H2]|H]]; [left; split; [eapply LM, H1|auto]|left; split; [eapply LM, H1|auto]|auto]. }
    clear M2 L2 LE. split; [exact OK2|]. split; [|split; [|split]].
    - split; [split; [intros k' H; apply M; auto|intros k' x H; apply L; auto]|]. split.
      + intros k' H. apply M in H. destruct H as [H|H]; [|auto]. right. intros y rest' r E X. destruct (CD k' H y rest' r E X) as [D1 D2]. split; [apply M; auto|]. intros x Hx. apply L. left. split; [apply D2, Hx|].
        eapply begins_u; [|exact Hx]. eapply in_u_rest; [apply CU, H|exact E].
      + intros k' x H. apply L in H. destruct H as [[H N]|[[H HF]|H]]; [| |auto]; right; intros y rest' r E X S; apply L.
        * left. split; [eapply CP; eassumption|exact N].
        * right. left. split; [eapply CP; eassumption|exact HF].
    - intros y rest' r E X. rewrite A in E. injection E as <- <-. destruct (FD i [] r eq_refl X) as [D1 _]. split; [apply M; auto|]. intros x Hx. apply L. right. left. split; [|apply IN; auto]. eapply (FP i []); [reflexivity|exact X|intros j []].
    - intros x Hx y rest' r E X S. rewrite A in E. injection E as <- <-. apply L. right. left. split; [|apply IN; auto]. eapply (FP i []); [reflexivity|exact X|intros j []].
    - intros pi pl [S1 S2] CV [W1 W2].
      destruct (CW (fun k' => pi k' /\ in_u k') (fun k' x => (x <> IEoi /\ pl k' x) \/ (x = IEoi /\ forall y, In y (fill_follow first_of k la) -> pl k' y))) as [WA WB].
      + split.
        * intros k' y rest' r [PK UK] E X. destruct (in_u_rest _ _ _ UK E) as [UY UR]. destruct (S1 k' y rest' r PK E X) as [P1 P2]. split; [split; [exact P1|intros j Hj; eapply (UO y UY); eassumption]|].
          intros x Hx. left. split; [eapply begins_u; eassumption|apply P2, Hx].
        * intros k' x y rest' r [[N P]|[-> P]] E X S; [left; split; [exact N|eapply S2; eassumption]|right; split; [reflexivity|]]. intros z Hz. eapply S2; [apply P, Hz|exact E|exact X|exact S].
      + intros y rest' r E X. injection E as <- <-. destruct (CV i rest r A X) as (P1 & P2 & P3). split; [split; [exact P1|intros j Hj; eapply (UO i UI); eassumption]|]. split; [intros x (p & z & q & E & _); destruct p; discriminate E|].
        intros _ x [<-|[]]. right. split; [reflexivity|]. intros z Hz. apply IN in Hz. destruct Hz as [Hz|[Sk Hz]]; [apply P2, Hz|apply P3; assumption].
      + split; [intros k' H; apply M in H; destruct H as [H|H]; [apply WA, H|apply W1, H]|]. intros k' x H. apply L in H. destruct H as [[H N]|[[H HF]|H]]; [| |apply W2, H].
        * apply WB in H. destruct H as [[_ H]|[H _]]; [exact H|contradiction].
        * apply WB in H. destruct H as [[H _]|[_ H]]; [contradiction|apply H, HF].
  Qed.
  Context (busy : nat -> list item -> item -> bool).
  Notation cc := (cache_closure rid first_of rules busy).
  Lemma cache_closure_ok fuel : forall stack, rec_ok (cc fuel stack).
  Proof.
    induction fuel as [|fuel IH]; intros stack i rest k la st [c n] st' c' UI A SL OK CO H; [discriminate H|]. cbn [cache_closure fst snd] in H. destruct (busy (S n) stack i).
    - apply (closure_ok (cc fuel stack) (IH stack) i rest k la st (c, S n) st' c'); assumption.
    - assert (FILL : match cached_set i c with
        | [] => match closure rid first_of rules (cc fuel (i :: stack)) i (fake_item i) [IEoi] [] (c, S n) with
                | Some (closed, c) => Some (closed, (mset item_ltb i closed (fst c), snd c)) | None => None end
        | cached => Some (cached, (c, S n)) end = Some (fst (match cached_set i c with
        | [] => match closure rid first_of rules (cc fuel (i :: stack)) i (fake_item i) [IEoi] [] (c, S n) with
                | Some (closed, c) => (closed, (mset item_ltb i closed (fst c), snd c)) | None => ([], (c, n)) end
        | cached => (cached, (c, S n)) end), c') /\ st' = use_cached rid (fst (match cached_set i c with
        | [] => match closure rid first_of rules (cc fuel (i :: stack)) i (fake_item i) [IEoi] [] (c, S n) with
                | Some (closed, c) => (closed, (mset item_ltb i closed (fst c), snd c)) | None => ([], (c, n)) end
        | cached => (cached, (c, S n)) end)) (fill_follow first_of k la) st).
      { destruct (cached_set i c); [destruct (closure rid first_of rules (cc fuel (i :: stack)) i (fake_item i) [IEoi] [] (c, S n)) as [[? ?]|]|]; try discriminate H; injection H as <- <-; split; reflexivity. }
      clear H. destruct FILL as [F ->]. revert F. generalize (fst (match cached_set i c with
        | [] => match closure rid first_of rules (cc fuel (i :: stack)) i (fake_item i) [IEoi] [] (c, S n) with
                | Some (closed, c) => (closed, (mset item_ltb i closed (fst c), snd c)) | None => ([], (c, n)) end
        | cached => (cached, (c, S n)) end)). intros s F. enough (G : cache_ok (fst c') /\ cached_ok i s) by (split; [apply G|apply use_cached_done with (i := i) (rest := rest); try assumption; apply G]).
      destruct CO as [CS CO]. destruct (cached_set i c) as [|e s0] eqn:CE.
      + destruct (closure rid first_of rules (cc fuel (i :: stack)) i (fake_item i) [IEoi] [] (c, S n)) as [[closed c2]|] eqn:CL; [|discriminate F]. injection F as -> <-.
        apply (closure_ok (cc fuel (i :: stack)) (IH (i :: stack)) i [] (fake_item i)) in CL; [|exact UI|reflexivity|apply single_ok|apply lr1_ok_nil|split; assumption].
        destruct CL as ([CS2 CO2] & OK2 & (_ & D & P) & DF & PF & W).
        assert (K : cached_ok i s).
        { split; [exact OK2|]. split; [intros k' H; destruct (D k' H) as [X|X]; [discriminate X|exact X]|]. split; [intros k' x H; destruct (P k' x H) as [X|X]; [destruct X|exact X]|]. split; [exact DF|]. split; [apply PF; left; reflexivity|].
          intros pi pl S CV. apply W; [exact S|exact CV|]. split; [intros k' X; discriminate X|intros k' x []]. }
        split; [|exact K]. cbn [fst]. split; [apply (mset_sorted _ item_strict), CS2|]. intros j t H UJ N. apply (mset_in _ item_strict) in H; [|exact CS2]. destruct H as [E|[H _]]; [injection E as -> ->|]; [exact K|eapply CO2; eassumption].
      + injection F as <- <-. split; [split; assumption|]. unfold cached_set in CE. destruct (mfind item_ltb i c) as [s1|] eqn:E; [|discriminate CE]. subst s1. apply (mfind_in _ item_strict) in E; [|exact CS]. eapply CO; [exact E|exact UI|discriminate].
  Qed.

  (** ** The queue *)
  Section Kernel.
    Context (kernel : list lr1) (KS : forall k la, In (k, la) kernel -> set_ok la) (KU : forall k la, In (k, la) kernel -> forall j, In j (after_dot k) -> u j).
    Definition kernel_item (k : lr0) : Prop := exists la, In (k, la) kernel.
    Definition kernel_look (k : lr0) (x : item) : Prop := exists la, In (k, la) kernel /\ In x la.
    Notation ci := (closure_item rules kernel_item).
    Notation cl := (closure_look rules first_of kernel_item kernel_look).
    Lemma closure_solution : solution ci cl.
    Proof. split; [intros k y rest r H A X; split; [eapply in_step; eassumption|intros x Hx; eapply look_begins; eassumption]|intros k x y rest r H A X S; eapply look_passed; eassumption]. Qed.
    Lemma closure_u k : ci k -> forall y rest, after_dot k = y :: rest -> u y.
    Proof.
      intros H. enough (U : forall j, In j (after_dot k) -> u j) by (intros y rest E; apply U; rewrite E; left; reflexivity). induction H as [k [la H]|k y rest r H IH A X]; [eapply KU, H|].
      intros j Hj. assert (UY : u y) by (apply IH; rewrite A; left; reflexivity). eapply (UO y UY); [exact X|exact Hj].
    Qed.
    Lemma closed_contains s : lr1_ok rid s -> (forall k la, In (k, la) kernel -> mem s k /\ forall x, In x la -> look s k x) -> (forall k, mem s k -> direct s k) -> (forall k x, look s k x -> passes s k x) ->
      (forall k, ci k -> mem s k) /\ (forall k x, cl k x -> look s k x).
    Proof.
      intros OK HK D P. assert (I : forall k, ci k -> mem s k) by (induction 1 as [k [la H]|k y rest r H IH A X]; [eapply HK, H|apply (D k IH y rest r A X)]). split; [exact I|].
      induction 1 as [k x (la & H & Hx)|k y rest r x H A X B|k y rest r x H IH A X S]; [eapply HK; eassumption|apply (D k (I k H) y rest r A X), B|eapply P; eassumption].
    Qed.

    Record queue_ok (queue : list lr1) (target : lr1_set) : Prop := {
      qo_ok : lr1_ok rid target;
      qo_sets : forall k la, In (k, la) queue -> set_ok la /\ mem target k /\ forall x, In x la -> look target k x;
      qo_direct : forall k, mem target k -> direct target k \/ exists la, In (k, la) queue;
      qo_passes : forall k x, look target k x -> passes target k x \/ exists la, In (k, la) queue /\ In x la;
      qo_kernel : forall k la, In (k, la) kernel -> mem target k /\ forall x, In x la -> look target k x;
      qo_within : within ci cl target }.
    Lemma add_new_spec items : (forall k la, In (k, la) items -> set_ok la) -> forall target queue target' queue', lr1_ok rid target -> add_new rid items target queue = (target', queue') ->
      lr1_ok rid target' /\ (forall k, mem target' k <-> mem target k \/ exists la, In (k, la) items) /\ (forall k x, look target' k x <-> look target k x \/ exists la, In (k, la) items /\ In x la) /\
      (forall k la, In (k, la) queue -> In (k, la) queue') /\ (forall k la, In (k, la) queue' -> In (k, la) queue \/ In (k, la) items) /\
      (forall k, mem target' k -> mem target k \/ exists la, In (k, la) queue') /\ (forall k x, look target' k x -> look target k x \/ exists la, In (k, la) queue' /\ In x la).
    Proof.
      induction items as [|[k0 la0] items IH]; intros SI target queue target' queue' OK H; cbn [add_new] in H.
      - injection H as <- <-. split; [exact OK|]. split; [intros k; split; [auto|intros [X|[la []]]; exact X]|]. split; [intros k x; split; [auto|intros [X|(la & [] & _)]; exact X]|]. auto 10.
      - assert (S0 : set_ok la0) by (eapply SI; left; reflexivity). pose proof (insert_ok rid RI k0 la0 target S0 OK) as OK1. pose proof (fun k' => insert_mem rid RI k0 la0 target k' S0 OK) as M1. pose proof (fun k' x => insert_look rid RI k0 la0 target k' x S0 OK) as L1.
        pose proof (insert_grew rid RI k0 la0 target S0 OK) as G1. destruct (lr1_insert rid k0 la0 target) as [t1 grew]. cbn [fst snd] in *. apply IH in H; [|intros k la X; eapply SI; right; exact X|exact OK1]. destruct H as (OK2 & M2 & L2 & Q1 & Q2 & Q3 & Q4).
        split; [exact OK2|]. split; [|split; [|split; [|split; [|split]]]].
        + intros k. rewrite M2, M1. split; [intros [[->|X]|[la X]]; [right; exists la0; left; reflexivity|auto|right; exists la; right; exact X]|]. intros [X|[la [E|X]]]; [auto|injection E as <- <-; auto|eauto].
        + intros k x. rewrite L2, L1. split; [intros [[[-> X]|X]|(la & X & Y)]; [right; exists la0; split; [left; reflexivity|exact X]|auto|right; exists la; split; [right; exact X|exact Y]]|].
          intros [X|(la & [E|X] & Y)]; [auto|injection E as <- <-; auto|eauto].
        + intros k la X. apply Q1. destruct grew; [apply in_app_iff; auto|exact X].
        + intros k la X. apply Q2 in X. destruct X as [X|X]; [|right; right; exact X]. destruct grew; [|auto]. apply in_app_iff in X. destruct X as [X|[X|[]]]; [auto|right; left; exact X].
        + intros k X. destruct (Q3 k X) as [Y|Y]; [|auto]. apply M1 in Y. destruct Y as [->|Y]; [|auto]. destruct (lr1_mem rid k0 target) eqn:E; [auto|]. right. exists la0. apply Q1. rewrite (proj2 G1) by auto. apply in_app_iff. right. left. reflexivity.
        + intros k x X. destruct (Q4 k x X) as [Y|Y]; [|auto]. apply L1 in Y. destruct Y as [[-> Y]|Y]; [|auto]. destruct (icontains (look_of rid k0 target) x) eqn:E; [apply icontains_in in E; [auto|apply look_of_ok; assumption]|].
          apply icontains_not in E; [|apply look_of_ok; assumption]. right. exists la0. split; [|exact Y]. apply Q1. rewrite (proj2 G1) by eauto. apply in_app_iff. right. left. reflexivity.
    Qed.
    Lemma look_entry s k x : lr1_ok rid s -> look s k x <-> exists la, In (k, la) s /\ In x la.
    Proof.
      intros OK. split; [|intros (la & H & Hx); cbn; rewrite (look_of_entry rid RI _ _ _ OK H); exact Hx]. unfold look_of. destruct (mfind (lr0_ltb rid) k s) as [la|] eqn:E; [|intros []].
      intros H. exists la. split; [|exact H]. apply (mfind_in _ (lr0_strict rid RI)); [apply OK|exact E].
    Qed.
    Lemma within_empty pi pl : within pi pl [].
    Proof. split; [intros k X; cbn in X; discriminate X|intros k x []]. Qed.
    Lemma queue_step k la i rest queue target n c items c' target' queue' :
      queue_ok ((k, la) :: queue) target -> cache_ok c -> after_dot k = i :: rest -> (exists fuel, cc fuel [] i k la [] (c, n) = Some (items, c')) -> add_new rid items target queue = (target', queue') ->
      cache_ok (fst c') /\ queue_ok queue' target'.
    Proof.
      intros [OK QS QD QP QK QW] CO A [fuel H] AN. destruct (QS k la (or_introl eq_refl)) as (SL & MK & LK).
      assert (UI : u i) by (eapply closure_u; [apply QW, MK|exact A]).
      apply (cache_closure_ok fuel [] i rest) in H; [|exact UI|exact A|exact SL|apply lr1_ok_nil|exact CO]. destruct H as (CO' & OKI & (_ & D & P) & DK & PK & W). split; [exact CO'|].
      apply add_new_spec in AN; [|apply OKI|exact OK]. destruct AN as (OK' & M & L & Q1 & Q2 & Q3 & Q4).
      assert (MI : more items target') by (split; [intros k' X; apply M; right; apply entry_iff; assumption|intros k' x X; apply L; right; apply look_entry; assumption]).
      assert (MT : more target target') by (split; [intros k' X; apply M; auto|intros k' x X; apply L; auto]).
      assert (WI : within ci cl items) by (apply W; [apply closure_solution|apply solution_covers; [apply closure_solution|apply QW, MK|intros x Hx; apply QW, LK, Hx]|apply within_empty]).
      split; [exact OK'| | | | |].
      - intros k' la' X. apply Q2 in X. destruct X as [X|X].
        + destruct (QS k' la' (or_intror X)) as (S1 & S2 & S3). split; [exact S1|]. split; [apply MT, S2|intros x Hx; apply MT, S3, Hx].
        + split; [eapply (lo_sets _ _ OKI), X|]. split; [apply MI, entry_iff; eauto|]. intros x Hx. apply MI, look_entry; eauto.
      - intros k' X. destruct (Q3 k' X) as [Y|Y]; [|auto]. destruct (QD k' Y) as [Z|[la' [E|Z]]]; [left; exact (direct_more _ _ _ MT Z)|injection E as <- <-; left; exact (direct_more _ _ _ MI DK)|right; exists la'; apply Q1, Z].
      - intros k' x X. destruct (Q4 k' x X) as [Y|Y]; [|auto]. destruct (QP k' x Y) as [Z|(la' & [E|Z] & Hx)]; [left; exact (passes_more _ _ _ _ MT Z)|injection E as <- <-; left; eapply passes_more; [exact MI|apply PK, Hx]|right; exists la'; auto].
      - intros k' la' X. destruct (QK k' la' X) as [Y Z]. split; [apply MT, Y|intros x Hx; apply MT, Z, Hx].
      - split; [intros k' X; apply M in X; destruct X as [X|X]; [apply QW, X|apply WI, entry_iff; assumption]|]. intros k' x X. apply L in X. destruct X as [X|X]; [apply QW, X|apply WI, look_entry; assumption].
    Qed.
    Lemma queue_skip k la queue target : queue_ok ((k, la) :: queue) target -> after_dot k = [] -> queue_ok queue target.
    Proof.
      intros [OK QS QD QP QK QW] A. split; [exact OK|intros k' la' X; apply QS; right; exact X| | |exact QK|exact QW].
      - intros k' X. destruct (QD k' X) as [Z|[la' [E|Z]]]; [auto|injection E as <- <-; left; intros y rest r E; rewrite A in E; discriminate E|eauto].
      - intros k' x X. destruct (QP k' x X) as [Z|(la' & [E|Z] & Hx)]; [auto|injection E as <- <-; left; intros y rest r E; rewrite A in E; discriminate E|eauto].
    Qed.
    Lemma close_queue_ok fuel steps : forall queue target c s c', queue_ok queue target -> cache_ok (fst c) -> close_queue rid first_of rules busy fuel steps queue target c = Some (s, c') ->
      cache_ok (fst c') /\ lr1_ok rid s /\ (forall k, mem s k <-> ci k) /\ (forall k x, look s k x <-> cl k x).
    Proof.
      induction steps as [|steps IH]; intros queue target [c n] s c' QO CO H; [discriminate H|]. cbn [close_queue] in H. destruct queue as [|[k la] queue].
      - injection H as <- <-. split; [exact CO|]. destruct QO as [OK _ QD QP QK [W1 W2]]. split; [exact OK|]. destruct (closed_contains target OK QK) as [C1 C2].
        + intros k X. destruct (QD k X) as [Y|[la []]]. exact Y.
        + intros k x X. destruct (QP k x X) as [Y|(la & [] & _)]. exact Y.
        + split; [intros k; split; [apply W1|apply C1]|intros k x; split; [apply W2|apply C2]].
      - destruct (after_dot k) as [|i rest] eqn:A; [eapply IH; [eapply queue_skip; eassumption|exact CO|exact H]|].
        destruct (cc fuel [] i k la [] (c, n)) as [[items c2]|] eqn:E; [|discriminate H]. destruct (add_new rid items target queue) as [t2 q2] eqn:AN.
        destruct (queue_step k la i rest queue target n c items c2 t2 q2 QO CO A (ex_intro _ fuel E) AN) as [CO2 QO2]. eapply IH; eassumption.
    Qed.
    Lemma kernel_set_spec l : (forall k la, In (k, la) l -> set_ok la) -> forall s, lr1_ok rid s ->
      lr1_ok rid (fold_left (fun s '(k, la) => fst (lr1_insert rid k la s)) l s) /\
      (forall k, mem (fold_left (fun s '(k, la) => fst (lr1_insert rid k la s)) l s) k <-> mem s k \/ exists la, In (k, la) l) /\
      (forall k x, look (fold_left (fun s '(k, la) => fst (lr1_insert rid k la s)) l s) k x <-> look s k x \/ exists la, In (k, la) l /\ In x la).
    Proof.
      induction l as [|[k0 la0] l IH]; intros SI s OK; cbn [fold_left].
      - split; [exact OK|]. split; [intros k; split; [auto|intros [X|[la []]]; exact X]|]. intros k x; split; [auto|intros [X|(la & [] & _)]; exact X].
      - assert (S0 : set_ok la0) by (eapply SI; left; reflexivity). destruct (IH (fun k la H => SI k la (or_intror H)) _ (insert_ok rid RI k0 la0 s S0 OK)) as (OK1 & M1 & L1). split; [exact OK1|]. split.
        + intros k. rewrite M1, (insert_mem rid RI k0 la0 s k S0 OK). split; [intros [[->|X]|[la X]]; [right; exists la0; left; reflexivity|auto|right; exists la; right; exact X]|]. intros [X|[la [E|X]]]; [auto|injection E as <- <-; auto|eauto].
        + intros k x. rewrite L1, (insert_look rid RI k0 la0 s k x S0 OK). split; [intros [[[-> X]|X]|(la & X & Y)]; [right; exists la0; split; [left; reflexivity|exact X]|auto|right; exists la; split; [right; exact X|exact Y]]|].
          intros [X|(la & [E|X] & Y)]; [auto|injection E as <- <-; auto|eauto].
    Qed.
    Lemma generate_closure_exact fuel steps c s c' : cache_ok (fst c) -> generate_closure rid first_of rules busy fuel steps kernel c = Some (s, c') ->
      cache_ok (fst c') /\ lr1_ok rid s /\ (forall k, mem s k <-> ci k) /\ (forall k x, look s k x <-> cl k x).
    Proof.
      intros CO H. destruct (kernel_set_spec kernel KS [] (lr1_ok_nil rid)) as (OK & M & L). assert (MK : forall k la, In (k, la) kernel -> mem (fold_left (fun s '(k, la) => fst (lr1_insert rid k la s)) kernel []) k) by (intros k la X; apply M; right; eauto).
      assert (LK : forall k la x, In (k, la) kernel -> In x la -> look (fold_left (fun s '(k, la) => fst (lr1_insert rid k la s)) kernel []) k x) by (intros k la x X Y; apply L; right; eauto).
      eapply close_queue_ok; [|exact CO|exact H]. split; [exact OK| | | | |].
      - intros k la X. split; [eapply KS, X|]. split; [eapply MK, X|intros x Hx; eapply LK; eassumption].
      - intros k X. right. apply M in X. destruct X as [X|X]; [cbn in X; discriminate X|exact X].
      - intros k x X. right. apply L in X. destruct X as [[]|X]. exact X.
      - intros k la X. split; [eapply MK, X|intros x Hx; eapply LK; eassumption].
      - split; [intros k X; apply M in X; destruct X as [X|X]; [cbn in X; discriminate X|apply in_kernel, X]|]. intros k x X. apply L in X. destruct X as [[]|X]. apply look_kernel, X.
    Qed.

    (** ** Without lookaheads *)
    Definition direct0 (s : list lr0) (k : lr0) : Prop := forall y rest r, after_dot k = y :: rest -> expands y r -> In (start y r) s.
    Record queue0_ok (queue : list lr1) (target : list lr0) : Prop := {
      q0_ok : ssorted (lr0_ltb rid) target;
      q0_sets : forall k la, In (k, la) queue -> set_ok la /\ In k target;
      q0_direct : forall k, In k target -> direct0 target k \/ exists la, In (k, la) queue;
      q0_kernel : forall k la, In (k, la) kernel -> In k target;
      q0_within : forall k, In k target -> ci k }.
    Lemma add_new0_spec items : forall target queue target' queue', ssorted (lr0_ltb rid) target -> add_new0 rid items target queue = (target', queue') ->
      ssorted (lr0_ltb rid) target' /\ (forall k, In k target' <-> In k target \/ exists la, In (k, la) items) /\
      (forall k la, In (k, la) queue -> In (k, la) queue') /\ (forall k la, In (k, la) queue' -> In (k, la) queue \/ In (k, la) items) /\
      (forall k, In k target' -> In k target \/ exists la, In (k, la) queue').
    Proof.
      pose proof (lr0_strict rid RI) as ST. induction items as [|[k0 la0] items IH]; intros target queue target' queue' OK H; cbn [add_new0] in H.
      - injection H as <- <-. split; [exact OK|]. split; [intros k; split; [auto|intros [X|[la []]]; exact X]|]. auto 10.
      - unfold lr0_insert in H. pose proof (sins_sorted _ ST target OK k0) as OK1. apply IH in H; [|exact OK1]. destruct H as (OK2 & M2 & Q1 & Q2 & Q3). assert (M1 : forall k, In k (sins (lr0_ltb rid) k0 target) <-> k = k0 \/ In k target) by (intros k; apply (sins_in _ ST)).
        split; [exact OK2|]. split; [|split; [|split]].
        + intros k. rewrite M2, M1. split; [intros [[->|X]|[la X]]; [right; exists la0; left; reflexivity|auto|right; exists la; right; exact X]|]. intros [X|[la [E|X]]]; [auto|injection E as <- <-; auto|eauto].
        + intros k la X. apply Q1. destruct (negb _); [apply in_app_iff; auto|exact X].
        + intros k la X. apply Q2 in X. destruct X as [X|X]; [|right; right; exact X]. destruct (negb _); [|auto]. apply in_app_iff in X. destruct X as [X|[X|[]]]; [auto|right; left; exact X].
        + intros k X. destruct (Q3 k X) as [Y|Y]; [|auto]. apply M1 in Y. destruct Y as [->|Y]; [|auto]. destruct (smem (lr0_ltb rid) k0 target) eqn:E; [left; apply (smem_in _ ST); assumption|]. right. exists la0. apply Q1. cbn [negb]. apply in_app_iff. right. left. reflexivity.
    Qed.
    Lemma close_queue0_ok fuel steps : forall queue target c s c', queue0_ok queue target -> cache_ok (fst c) -> close_queue0 rid first_of rules busy fuel steps queue target c = Some (s, c') ->
      cache_ok (fst c') /\ ssorted (lr0_ltb rid) s /\ (forall k, In k s <-> ci k).
    Proof.
      induction steps as [|steps IH]; intros queue target [c n] s c' QO CO H; [discriminate H|]. cbn [close_queue0] in H. destruct queue as [|[k la] queue].
      - injection H as <- <-. split; [exact CO|]. destruct QO as [OK _ QD QK W1]. split; [exact OK|]. intros k. split; [apply W1|].
        induction 1 as [k [la X]|k y rest r X IHX A E]; [eapply QK, X|]. destruct (QD k IHX) as [Y|[la []]]. eapply Y; eassumption.
      - destruct QO as [OK QS QD QK QW]. destruct (after_dot k) as [|i rest] eqn:A.
        + eapply IH; [|exact CO|exact H]. split; [exact OK|intros k' la' X; apply (QS k' la'); right; exact X| |exact QK|exact QW].
          intros k' X. destruct (QD k' X) as [Z|[la' [E|Z]]]; [auto|injection E as <- <-; left; intros y rest r E; rewrite A in E; discriminate E|eauto].
        + destruct (cc fuel [] i k la [] (c, n)) as [[items c2]|] eqn:E; [|discriminate H]. destruct (add_new0 rid items target queue) as [t2 q2] eqn:AN. destruct (QS k la (or_introl eq_refl)) as (SL & MK).
          assert (UI : u i) by (eapply closure_u; [apply QW, MK|exact A]).
          apply (cache_closure_ok fuel [] i rest) in E; [|exact UI|exact A|exact SL|apply lr1_ok_nil|exact CO]. destruct E as (CO2 & OKI & _ & DK & _ & W).
          apply add_new0_spec in AN; [|exact OK]. destruct AN as (OK' & M & Q1 & Q2 & Q3).
          assert (WI : forall k', mem items k' -> ci k').
          { apply (W ci (fun _ _ => True)); [split; [|auto]; intros k' y rest' r X A' X'; split; [eapply in_step; eassumption|auto]| |apply within_empty].
            intros y rest' r A' X. split; [|auto]. eapply in_step; [apply QW, MK|exact A'|exact X]. }
          eapply IH; [|exact CO2|exact H]. split; [exact OK'| | | |].
          * intros k' la' X. apply Q2 in X. destruct X as [X|X]; [destruct (QS k' la' (or_intror X)) as [S1 S2]; split; [exact S1|apply M; auto]|]. split; [eapply (lo_sets _ _ OKI), X|apply M; right; eauto].
          * intros k' X. destruct (Q3 k' X) as [Y|Y]; [|auto]. destruct (QD k' Y) as [Z|[la' [E|Z]]]; [|injection E as <- <-|right; exists la'; apply Q1, Z].
            -- left. intros y rest' r A' X'. apply M. left. eapply Z; eassumption.
            -- left. intros y rest' r A' X'. apply M. right. apply entry_iff; [exact OKI|]. eapply DK; eassumption.
          * intros k' la' X. apply M. left. eapply QK, X.
          * intros k' X. apply M in X. destruct X as [X|X]; [apply QW, X|apply WI, entry_iff; assumption].
    Qed.
    Lemma create_closure_exact fuel steps c s c' : cache_ok (fst c) -> create_closure rid first_of rules busy fuel steps kernel c = Some (s, c') ->
      cache_ok (fst c') /\ ssorted (lr0_ltb rid) s /\ (forall k, In k s <-> ci k).
    Proof.
      pose proof (lr0_strict rid RI) as ST. intros CO H.
      assert (K : forall (l : list lr1) s, ssorted (lr0_ltb rid) s -> ssorted (lr0_ltb rid) (fold_left (fun s '(k, la) => fst (lr0_insert rid k s)) l s) /\ forall k, In k (fold_left (fun s '(k, la) => fst (lr0_insert rid k s)) l s) <-> In k s \/ exists la, In (k, la) l).
      { induction l as [|[k0 la0] l IH]; intros s0 OK; cbn [fold_left]; [split; [exact OK|]; intros k; split; [auto|intros [X|[la []]]; exact X]|]. destruct (IH _ (sins_sorted _ ST s0 OK k0)) as [OK1 M1]. unfold lr0_insert in *. cbn [fst] in *. split; [exact OK1|].
        intros k. rewrite M1, (sins_in _ ST). split; [intros [[->|X]|[la X]]; [right; exists la0; left; reflexivity|auto|right; exists la; right; exact X]|]. intros [X|[la [E|X]]]; [auto|injection E as <- <-; auto|eauto]. }
      assert (N : ssorted (lr0_ltb rid) []) by constructor. destruct (K kernel [] N) as [OK M]. eapply close_queue0_ok; [|exact CO|exact H]. split; [exact OK| | | |].
      - intros k la X. split; [eapply KS, X|apply M; right; eauto].
      - intros k X. right. apply M in X. destruct X as [[]|X]. exact X.
      - intros k la X. apply M. right. eauto.
      - intros k X. apply M in X. destruct X as [[]|X]. apply in_kernel, X.
    Qed.
  End Kernel.
  (** The closure of a single item *)
  Lemma item_closure_exact fuel k la c s c' : set_ok la -> (forall j, In j (after_dot k) -> u j) -> cache_ok (fst c) -> item_closure rid first_of rules busy fuel k la c = Some (s, c') ->
    cache_ok (fst c') /\ lr1_ok rid s /\ (forall k', mem s k' <-> closure_item rules (fun k0 => k0 = k) k') /\ (forall k' x, look s k' x <-> closure_look rules first_of (fun k0 => k0 = k) (fun k0 y => k0 = k /\ In y la) k' x).
  Proof.
    intros SL KU CO H. unfold item_closure in H. pose proof (insert_ok rid RI k la [] SL (lr1_ok_nil rid)) as OK1. pose proof (fun k' => insert_mem rid RI k la [] k' SL (lr1_ok_nil rid)) as M1. pose proof (fun k' x => insert_look rid RI k la [] k' x SL (lr1_ok_nil rid)) as L1.
    set (s0 := fst (lr1_insert rid k la [])) in *.
    assert (SOL : solution (closure_item rules (fun k0 => k0 = k)) (closure_look rules first_of (fun k0 => k0 = k) (fun k0 y => k0 = k /\ In y la))).
    { split; [intros k' y rest r X A E; split; [eapply in_step; eassumption|intros x Hx; eapply look_begins; eassumption]|intros k' x y rest r X A E S; eapply look_passed; eassumption]. }
    assert (W0 : within (closure_item rules (fun k0 => k0 = k)) (closure_look rules first_of (fun k0 => k0 = k) (fun k0 y => k0 = k /\ In y la)) s0).
    { split; [intros k' X; apply M1 in X; destruct X as [->|X]; [apply in_kernel; reflexivity|cbn in X; discriminate X]|]. intros k' x X. apply L1 in X. destruct X as [X|[]]. apply look_kernel, X. }
    enough (G : cache_ok (fst c') /\ done k la s0 s).
    { destruct G as (CO' & OK2 & (MO & D & P) & DK & PK & W). split; [exact CO'|]. split; [exact OK2|].
      assert (WS : within (closure_item rules (fun k0 => k0 = k)) (closure_look rules first_of (fun k0 => k0 = k) (fun k0 y => k0 = k /\ In y la)) s).
      { apply W; [exact SOL|apply solution_covers; [exact SOL|apply in_kernel; reflexivity|intros x Hx; apply look_kernel; auto]|exact W0]. }
      assert (DA : forall k', mem s k' -> direct s k') by (intros k' X; destruct (D k' X) as [Y|Y]; [apply M1 in Y; destruct Y as [->|Y]; [exact DK|cbn in Y; discriminate Y]|exact Y]).
      assert (PA : forall k' x, look s k' x -> passes s k' x) by (intros k' x X; destruct (P k' x X) as [Y|Y]; [apply L1 in Y; destruct Y as [[-> Y]|[]]; apply PK, Y|exact Y]).
      assert (CI : forall k', closure_item rules (fun k0 => k0 = k) k' -> mem s k') by (induction 1 as [k' ->|k' y rest r X IH A E]; [apply MO, M1; auto|apply (DA k' IH y rest r A E)]).
      split; [intros k'; split; [apply WS|apply CI]|]. intros k' x. split; [apply WS|].
      induction 1 as [k' x [-> Hx]|k' y rest r x X A E B|k' y rest r x X IH A E S]; [apply MO, L1; auto|apply (DA k' (CI k' X) y rest r A E), B|eapply PA; eassumption]. }
    destruct (after_dot k) as [|i rest] eqn:A.
    - injection H as <- <-. split; [exact CO|]. split; [exact OK1|]. split; [split; [apply more_refl|auto]|]. split; [intros y rest r E; rewrite A in E; discriminate E|]. split; [intros x Hx y rest r E; rewrite A in E; discriminate E|auto].
    - apply (cache_closure_ok fuel [] i rest) in H; [exact H|apply KU; left; reflexivity|exact A|exact SL|exact OK1|exact CO].
  Qed.
End Grammar.

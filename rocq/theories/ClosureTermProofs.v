(** The closure of LR items is computed in a bounded number of steps. *)
From Verif Require Import Base OrdMap GrammarModel GrammarProofs FirstModel FirstProofs FollowProofs LrItemModel LrItemProofs ClosureModel ClosureSpec ClosureProofs.
Local Open Scope nat_scope.

Lemma filter_le {A} (f g : A -> bool) l : (forall x, In x l -> f x = true -> g x = true) -> length (filter f l) <= length (filter g l).
Proof.
  induction l as [|a l IH]; intros H; [auto|]. cbn [filter]. assert (IL := IH (fun x X => H x (or_intror X))). specialize (H a (or_introl eq_refl)). destruct (f a); [rewrite (H eq_refl); cbn; lia|]. destruct (g a); cbn; lia.
Qed.
Lemma sum_less {A} (f g : A -> nat) l a : In a l -> (forall x, In x l -> f x <= g x) -> f a < g a -> list_sum (map f l) < list_sum (map g l).
Proof.
  induction l as [|b l IH]; intros HA LE LT; [destruct HA|]. cbn. assert (L : list_sum (map f l) <= list_sum (map g l)).
  { assert (LE' : forall x, In x l -> f x <= g x) by (intros x X; apply LE; right; exact X). clear -LE'. induction l as [|c l IH]; [auto|]. cbn. pose proof (LE' c (or_introl eq_refl)). specialize (IH (fun x X => LE' x (or_intror X))). unfold list_sum in *. lia. }
  destruct HA as [->|HA]; [unfold list_sum in *; lia|]. specialize (IH HA (fun x X => LE x (or_intror X)) LT). pose proof (LE b (or_introl eq_refl)). unfold list_sum in *. lia.
Qed.

Section Grammar.
  Context (rid : rule -> Z) (RI : injective rid).
  Context (first_of : item -> iset) (FO : forall i, set_ok (first_of i)).
  Context (rules : Z -> list (list item)).
  Notation expands := (expands rules).
  Notation skips := (skips first_of).
  Notation begins := (begins first_of).
  Notation mem := (fun s k => lr1_mem rid k s = true).
  Notation look := (fun s k x => In x (look_of rid k s)).
  (** All the items, and the lookaheads to start with *)
  Context (us : list item) (la0 : iset).
  Notation u := (fun i => In i us).
  Context (UO : ordinary rules first_of u).
  Notation cache_ok := (cache_ok rid first_of rules u).

  Definition looks : list item := IEoi :: la0 ++ flat_map first_of us.
  Definition starts : list lr0 := flat_map (fun y => map (start y) (bodies rules y)) us.
  Lemma starts_in y r : u y -> expands y r -> In (start y r) starts.
  Proof. intros U X. apply in_flat_map. exists y. split; [exact U|]. apply in_map, bodies_in, X. Qed.
  Lemma looks_begins rest x : (forall j, In j rest -> u j) -> begins rest x -> In x looks.
  Proof. intros U (p & y & q & -> & _ & H & _). right. apply in_app_iff. right. apply in_flat_map. exists y. split; [apply U, in_elt|exact H]. Qed.
  Lemma starts_u k : In k starts -> forall j, In j (r_items (l_rule k)) -> u j.
  Proof. intros H j Hj. apply in_flat_map in H. destruct H as (y & UY & H). apply in_map_iff in H. destruct H as (r & <- & H). apply bodies_in in H. eapply (UO y UY); eassumption. Qed.
  Lemma starts_solution : solution first_of rules (fun k => In k starts) (fun k x => In x looks).
  Proof.
    split; [|auto]. intros k y rest r H A X. assert (UK : in_u u k) by (exact (starts_u k H)). destruct (in_u_rest u _ _ _ UK A) as [UY UR]. split; [apply starts_in; assumption|]. intros x Hx. eapply looks_begins; eassumption.
  Qed.

  (** What a set does not have yet *)
  Definition entries : list (lr0 * option item) := list_prod starts (None :: map Some looks).
  Definition missing (st : lr1_set) (e : lr0 * option item) : bool :=
    match snd e with None => negb (lr1_mem rid (fst e) st) | Some x => negb (icontains (look_of rid (fst e) st) x) end.
  Definition miss (st : lr1_set) : nat := length (filter (missing st) entries).
  Lemma missing_more s t e : lr1_ok rid s -> lr1_ok rid t -> more rid s t -> missing t e = true -> missing s e = true.
  Proof.
    intros OS OT [M L]. unfold missing. destruct e as [k [x|]]; cbn [fst snd]; intros H; apply negb_true_iff in H; apply negb_true_iff.
    - apply icontains_not in H; [|apply look_of_ok; assumption]. apply icontains_not; [apply look_of_ok; assumption|]. intros X. apply H, L, X.
    - destruct (lr1_mem rid k s) eqn:E; [|reflexivity]. apply M in E. congruence.
  Qed.
  Lemma miss_more s t : lr1_ok rid s -> lr1_ok rid t -> more rid s t -> miss t <= miss s.
  Proof. intros OS OT M. apply filter_le. intros e _. apply missing_more; assumption. Qed.
  Lemma miss_insert k la st : set_ok la -> lr1_ok rid st -> In k starts -> (forall x, In x la -> In x looks) -> snd (lr1_insert rid k la st) = true -> miss (fst (lr1_insert rid k la st)) < miss st.
  Proof.
    intros SL OK K L G. assert (OK1 := insert_ok rid RI k la st SL OK). assert (MO := insert_more rid RI k la st SL OK).
    assert (W : exists e, In e entries /\ missing st e = true /\ missing (fst (lr1_insert rid k la st)) e = false).
    { apply (insert_grew rid RI) in G; [|exact SL|exact OK]. destruct G as [G|(x & Hx & G)].
      - exists (k, None). split; [apply in_prod; [exact K|left; reflexivity]|]. unfold missing. cbn [fst snd]. rewrite G. split; [reflexivity|]. apply negb_false_iff, insert_mem; auto.
      - exists (k, Some x). split; [apply in_prod; [exact K|right; apply in_map, L, Hx]|]. unfold missing. cbn [fst snd]. split; [apply negb_true_iff, icontains_not; [apply look_of_ok; assumption|exact G]|]. apply negb_false_iff, icontains_in; [apply look_of_ok; assumption|]. apply insert_look; auto. }
    unfold miss. apply filter_less; [|exact W]. intros e' _. apply missing_more; assumption.
  Qed.

  Definition calm (k : lr0) (la : iset) : Prop := (forall j, In j (after_dot k) -> u j) /\ set_ok la /\ forall x, In x la -> In x looks.
  Definition rec_ends (rec : item -> lr0 -> iset -> lr1_set -> caching -> option (lr1_set * caching)) (m : nat) : Prop :=
    forall i rest k la st c, after_dot k = i :: rest -> calm k la -> lr1_ok rid st -> cache_ok (fst c) -> miss st < m -> rec i k la st c <> None.
  Section Recursion.
    Context (rec : item -> lr0 -> iset -> lr1_set -> caching -> option (lr1_set * caching)) (RO : rec_ok rid first_of rules u rec) (m : nat) (RE : rec_ends rec m).
    Lemma insert_closure_item_ends y r la st c : u y -> expands y r -> set_ok la -> (forall x, In x la -> In x looks) -> lr1_ok rid st -> cache_ok (fst c) -> miss st <= m -> insert_closure_item rid rec (start y r) la st c <> None.
    Proof.
      intros UY X SL LL OK CO M. unfold insert_closure_item. pose proof (insert_ok rid RI (start y r) la st SL OK) as OK1. pose proof (miss_insert (start y r) la st SL OK (starts_in y r UY X) LL) as MI.
      destruct (lr1_insert rid (start y r) la st) as [st1 grew]. cbn [fst snd] in *. destruct grew; [|discriminate]. specialize (MI eq_refl).
      assert (CA : calm (start y r) la) by (split; [|split; assumption]; intros j Hj; eapply (UO y UY); eassumption).
      unfold start at 1. cbn [l_rule r_items]. destruct r as [|j r]; [discriminate|]. destruct j; try discriminate; (eapply RE; [reflexivity|exact CA|exact OK1|exact CO|lia]).
    Qed.
    Lemma insert_bodies_ends y bs : forall la st c, u y -> (forall r, In r bs -> expands y r) -> set_ok la -> (forall x, In x la -> In x looks) -> lr1_ok rid st -> cache_ok (fst c) -> miss st <= m -> insert_bodies rid rec y bs la st c <> None.
    Proof.
      induction bs as [|r bs IH]; intros la st c UY EX SL LL OK CO M; cbn [insert_bodies]; [discriminate|].
      pose proof (insert_closure_item_ends y r la st c UY (EX r (or_introl eq_refl)) SL LL OK CO M) as NN. unfold start in NN. destruct (insert_closure_item rid rec (mkLr0 (mkRule y r) 0) la st c) as [[st1 c1]|] eqn:E; [|contradiction].
      apply (insert_closure_item_ok rid RI first_of rules u rec RO) in E; try assumption; [|intros j Hj; eapply (UO y UY); [apply EX; left; reflexivity|exact Hj]].
      destruct E as (CO1 & OK1 & (MO & _) & _). apply IH; try assumption; [intros r' Hr; apply EX; right; exact Hr|]. pose proof (miss_more st st1 OK OK1 MO). lia.
    Qed.
    Lemma closure_ends i rest k la st c : after_dot k = i :: rest -> calm k la -> lr1_ok rid st -> cache_ok (fst c) -> miss st <= m -> closure rid first_of rules rec i k la st c <> None.
    Proof.
      intros A (CU & SL & LL) OK CO M. assert (UI : u i) by (apply CU; rewrite A; left; reflexivity). assert (UR : forall j, In j rest -> u j) by (intros j Hj; apply CU; rewrite A; right; exact Hj).
      destruct (fill_follow_in first_of FO k la i rest A SL) as [SF IN]. enough (G : insert_bodies rid rec i (bodies rules i) (fill_follow first_of k la) st c <> None) by (destruct i; try exact G; discriminate).
      apply insert_bodies_ends; try assumption; [intros r; apply bodies_in|]. intros x Hx. apply IN in Hx. destruct Hx as [Hx|[_ Hx]]; [eapply looks_begins; eassumption|apply LL, Hx].
    Qed.
  End Recursion.

  (** An item whose calls are on the stack at least [width] times has all its flags set. *)
  Context (busy : nat -> list item -> item -> bool) (width : nat).
  Definition bounded_busy : Prop := forall n stack i, width <= count_occ item_dec stack i -> busy n stack i = true.
  Context (BB : bounded_busy).
  Notation cc := (cache_closure rid first_of rules busy).
  Definition room (stack : list item) : nat := list_sum (map (fun i => width - count_occ item_dec stack i) us).
  Lemma room_less stack i n : u i -> busy n stack i = false -> room (i :: stack) < room stack.
  Proof.
    intros U H. unfold room. apply (sum_less _ _ us i U).
    - intros j _. cbn [count_occ]. destruct (item_dec i j); lia.
    - cbn [count_occ]. destruct (item_dec i i); [|contradiction]. destruct (Nat.le_gt_cases width (count_occ item_dec stack i)) as [L|L]; [rewrite BB in H by exact L; discriminate|lia].
  Qed.
  Lemma miss_nil st : miss st <= length entries.
  Proof. unfold miss. rewrite <- (map_length id entries), map_id. apply (Nat.le_trans _ (length (filter (fun _ => true) entries))); [apply filter_le; reflexivity|]. induction entries as [|e l IH]; cbn; lia. Qed.
  Lemma cache_closure_ends fuel : forall stack, rec_ends (cc fuel stack) (fuel - room stack * S (length entries)).
  Proof.
    induction fuel as [|fuel IH]; intros stack i rest k la st [c n] A CA OK CO M; [lia|]. cbn [cache_closure fst snd]. assert (UI : u i) by (apply (proj1 CA); rewrite A; left; reflexivity). destruct (busy (S n) stack i) eqn:B.
    - apply (closure_ends (cc fuel stack) (cache_closure_ok rid RI first_of FO rules u UO busy fuel stack) _ (IH stack) i rest); try assumption. lia.
    - pose proof (room_less stack i (S n) UI B) as RL.
      pose proof (closure_ends (cc fuel (i :: stack)) (cache_closure_ok rid RI first_of FO rules u UO busy fuel (i :: stack)) _ (IH (i :: stack)) i [] (fake_item i) [IEoi] [] (c, S n) eq_refl) as G.
      destruct (cached_set i c); [|discriminate]. destruct (closure rid first_of rules (cc fuel (i :: stack)) i (fake_item i) [IEoi] [] (c, S n)) as [[? ?]|]; [discriminate|]. exfalso. apply G; [| | |  |reflexivity].
      + split; [intros j [<-|[]]; exact UI|]. split; [apply single_ok|]. intros x [<-|[]]. left. reflexivity.
      + apply lr1_ok_nil.
      + exact CO.
      + pose proof (miss_nil []) as MN. revert M RL MN. generalize (miss st), (miss []), (length entries), (room stack), (room (i :: stack)). clear. intros a b e r r' M RL MN. nia.
  Qed.
  Definition enough_fuel : nat := S (room [] * S (length entries) + length entries).
  Lemma cache_closure_some fuel i rest k la st c : enough_fuel <= fuel -> after_dot k = i :: rest -> calm k la -> lr1_ok rid st -> cache_ok (fst c) -> cc fuel [] i k la st c <> None.
  Proof. intros F A CA OK CO. eapply cache_closure_ends; try eassumption. pose proof (miss_nil st). unfold enough_fuel in F. lia. Qed.

  (** ** The queue *)
  Lemma add_new_less items : (forall k la, In (k, la) items -> In k starts /\ set_ok la /\ forall x, In x la -> In x looks) -> forall target queue target' queue', lr1_ok rid target -> add_new rid items target queue = (target', queue') -> length queue' + miss target' <= length queue + miss target.
  Proof.
    induction items as [|[k la] items IH]; intros SI target queue target' queue' OK H; cbn [add_new] in H; [injection H as <- <-; lia|]. destruct (SI k la (or_introl eq_refl)) as (SK & SL & LL).
    pose proof (insert_ok rid RI k la target SL OK) as OK1. pose proof (miss_insert k la target SL OK SK LL) as MI. pose proof (miss_more _ _ OK OK1 (insert_more rid RI k la target SL OK)) as MM.
    destruct (lr1_insert rid k la target) as [t1 grew]. cbn [fst snd] in *. apply IH in H; [|intros k' la' X; apply SI; right; exact X|exact OK1]. destruct grew; [rewrite app_length in H; cbn in H; specialize (MI eq_refl)|]; lia.
  Qed.
  Lemma closure_items fuel i rest k la c items c' : after_dot k = i :: rest -> calm k la -> cache_ok (fst c) -> cc fuel [] i k la [] c = Some (items, c') ->
    cache_ok (fst c') /\ lr1_ok rid items /\ forall k' la', In (k', la') items -> In k' starts /\ set_ok la' /\ forall x, In x la' -> In x looks.
  Proof.
    intros A (CU & SL & LL) CO H. assert (UI : u i) by (apply CU; rewrite A; left; reflexivity). apply (cache_closure_ok rid RI first_of FO rules u UO busy fuel [] i rest) in H; [|exact UI|exact A|exact SL|apply lr1_ok_nil|exact CO].
    destruct H as (CO' & OK & _ & _ & _ & W). split; [exact CO'|]. split; [exact OK|].
    assert (WI : within rid (fun k => In k starts) (fun k x => In x looks) items).
    { apply W; [apply starts_solution| |apply within_empty]. intros y rest' r E X. rewrite A in E. injection E as <- <-. split; [apply starts_in; assumption|]. split; [intros x; apply looks_begins; intros j Hj; apply CU; rewrite A; right; exact Hj|intros _; exact LL]. }
    intros k' la' X. split; [apply WI, (entry_iff rid RI); eauto|]. split; [eapply (lo_sets _ _ OK), X|]. intros x Hx. apply (proj2 WI k'), (look_entry rid RI); eauto.
  Qed.
  Lemma starts_calm k la : In k starts -> set_ok la -> (forall x, In x la -> In x looks) -> calm k la.
  Proof.
    intros K SL LL. split; [|split; assumption]. intros j Hj. apply (starts_u k K). unfold after_dot in Hj. rewrite <- (firstn_skipn (l_offset k) (r_items (l_rule k))). apply in_app_iff. auto.
  Qed.
  Lemma close_queue_ends fuel steps : enough_fuel <= fuel -> forall queue target c, (forall k la, In (k, la) queue -> calm k la) -> lr1_ok rid target -> cache_ok (fst c) -> length queue + miss target < steps ->
    close_queue rid first_of rules busy fuel steps queue target c <> None.
  Proof.
    intros F. induction steps as [|steps IH]; intros queue target c QC OK CO M; [lia|]. cbn [close_queue]. destruct queue as [|[k la] queue]; [discriminate|]. cbn [length] in M. assert (QC' : forall k la, In (k, la) queue -> calm k la) by (intros k' la' X; apply QC; right; exact X).
    destruct (after_dot k) as [|i rest] eqn:A; [apply IH; try assumption; lia|]. assert (CA : calm k la) by (apply QC; left; reflexivity).
    pose proof (cache_closure_some fuel i rest k la [] c F A CA (lr1_ok_nil rid) CO) as NN. destruct (cc fuel [] i k la [] c) as [[items c2]|] eqn:E; [|contradiction]. destruct (closure_items _ _ _ _ _ _ _ _ A CA CO E) as (CO2 & OKI & SI).
    destruct (add_new rid items target queue) as [t2 q2] eqn:AN. pose proof (add_new_less items SI _ _ _ _ OK AN) as LE. apply (add_new_spec rid RI) in AN; [|intros k' la' X; apply SI in X; apply X|exact OK]. destruct AN as (OK2 & _ & _ & _ & Q & _).
    apply IH; [|exact OK2|exact CO2|unfold lr1 in *; lia]. intros k' la' X. apply Q in X. destruct X as [X|X]; [apply QC', X|]. apply SI in X. apply starts_calm; apply X.
  Qed.
  Lemma generate_closure_ends fuel steps kernel c : (forall k la, In (k, la) kernel -> calm k la) -> cache_ok (fst c) -> enough_fuel <= fuel -> length kernel + length entries < steps -> generate_closure rid first_of rules busy fuel steps kernel c <> None.
  Proof.
    intros KC CO F S. unfold generate_closure. apply close_queue_ends; try assumption; [|pose proof (miss_nil (fold_left (fun s '(k, la) => fst (lr1_insert rid k la s)) kernel [])); lia].
    apply (kernel_set_spec rid RI kernel); [intros k la X; apply (KC k la X)|apply lr1_ok_nil].
  Qed.
  Definition miss0 (t : list lr0) : nat := length (filter (fun k => negb (smem (lr0_ltb rid) k t)) starts).
  Lemma add_new0_less items : (forall k la, In (k, la) items -> In k starts) -> forall target queue target' queue', ssorted (lr0_ltb rid) target -> add_new0 rid items target queue = (target', queue') -> length queue' + miss0 target' <= length queue + miss0 target.
  Proof.
    pose proof (lr0_strict rid RI) as ST. induction items as [|[k la] items IH]; intros SI target queue target' queue' OK H; cbn [add_new0] in H; [injection H as <- <-; lia|]. unfold lr0_insert in H. pose proof (sins_sorted _ ST target OK k) as OK1. apply IH in H; [|intros k' la' X; eapply SI; right; exact X|exact OK1].
    assert (LE : forall x, negb (smem (lr0_ltb rid) x (sins (lr0_ltb rid) k target)) = true -> negb (smem (lr0_ltb rid) x target) = true).
    { intros x X. apply negb_true_iff in X. apply negb_true_iff. destruct (smem (lr0_ltb rid) x target) eqn:E; [|reflexivity]. apply (smem_in _ ST) in E; [|exact OK]. rewrite <- X. symmetry. apply (smem_in _ ST); [exact OK1|]. apply (sins_in _ ST). auto. }
    destruct (smem (lr0_ltb rid) k target) eqn:E; cbn [negb] in H.
    - enough (miss0 (sins (lr0_ltb rid) k target) <= miss0 target) by lia. apply filter_le. intros x _. apply LE.
    - rewrite app_length in H. cbn in H. enough (miss0 (sins (lr0_ltb rid) k target) < miss0 target) by lia. unfold miss0. apply filter_less; [intros x _; apply LE|]. exists k. split; [eapply (SI k la); left; reflexivity|]. rewrite E. split; [reflexivity|].
      apply negb_false_iff, (smem_in _ ST); [exact OK1|]. apply (sins_in _ ST). auto.
  Qed.
  Lemma close_queue0_ends fuel steps : enough_fuel <= fuel -> forall queue target c, (forall k la, In (k, la) queue -> calm k la) -> ssorted (lr0_ltb rid) target -> cache_ok (fst c) -> length queue + miss0 target < steps ->
    close_queue0 rid first_of rules busy fuel steps queue target c <> None.
  Proof.
    intros F. induction steps as [|steps IH]; intros queue target c QC OK CO M; [lia|]. cbn [close_queue0]. destruct queue as [|[k la] queue]; [discriminate|]. cbn [length] in M. assert (QC' : forall k la, In (k, la) queue -> calm k la) by (intros k' la' X; apply QC; right; exact X).
    destruct (after_dot k) as [|i rest] eqn:A; [apply IH; try assumption; lia|]. assert (CA : calm k la) by (apply QC; left; reflexivity).
    pose proof (cache_closure_some fuel i rest k la [] c F A CA (lr1_ok_nil rid) CO) as NN. destruct (cc fuel [] i k la [] c) as [[items c2]|] eqn:E; [|contradiction]. destruct (closure_items _ _ _ _ _ _ _ _ A CA CO E) as (CO2 & OKI & SI).
    destruct (add_new0 rid items target queue) as [t2 q2] eqn:AN. pose proof (add_new0_less items (fun k' la' X => proj1 (SI k' la' X)) _ _ _ _ OK AN) as LE. apply (add_new0_spec rid RI) in AN; [|exact OK]. destruct AN as (OK2 & _ & _ & Q & _).
    apply IH; [|exact OK2|exact CO2|unfold lr1 in *; lia]. intros k' la' X. apply Q in X. destruct X as [X|X]; [apply QC', X|]. apply SI in X. apply starts_calm; apply X.
  Qed.
  Lemma create_closure_ends fuel steps kernel c : (forall k la, In (k, la) kernel -> calm k la) -> cache_ok (fst c) -> enough_fuel <= fuel -> length kernel + length starts < steps -> create_closure rid first_of rules busy fuel steps kernel c <> None.
  Proof.
    pose proof (lr0_strict rid RI) as ST. intros KC CO F S. unfold create_closure. apply close_queue0_ends; try assumption.
    - assert (N : ssorted (lr0_ltb rid) []) by constructor. revert N. generalize (@nil lr0). clear -ST. induction kernel as [|[k la] l IH]; intros s OK; cbn [fold_left]; [exact OK|]. apply IH. apply (sins_sorted _ ST), OK.
    - enough (miss0 (fold_left (fun s '(k, _) => fst (lr0_insert rid k s)) kernel []) <= length starts) by lia. unfold miss0. generalize (fun k => negb (smem (lr0_ltb rid) k (fold_left (fun s '(k, _) => fst (lr0_insert rid k s)) kernel []))). intros f. clear. induction starts as [|e l IH]; [auto|]. cbn [filter]. destruct (f e); cbn; lia.
  Qed.
  Lemma item_closure_ends fuel k la c : calm k la -> cache_ok (fst c) -> enough_fuel <= fuel -> item_closure rid first_of rules busy fuel k la c <> None.
  Proof.
    intros CA CO F. unfold item_closure. destruct (after_dot k) as [|i rest] eqn:A; [discriminate|]. eapply cache_closure_some; try eassumption. apply (insert_ok rid RI); [apply CA|apply lr1_ok_nil].
  Qed.
End Grammar.

(** Proofs about FOLLOW sets. *)
From Verif Require Import Base OrdMap GrammarModel GrammarProofs FirstModel FirstSpec FirstProofs FollowModel FollowSpec.
Local Open Scope Z_scope.

Lemma filter_less {A} (f g : A -> bool) l : (forall a, In a l -> g a = true -> f a = true) -> (exists a, In a l /\ f a = true /\ g a = false) -> (length (filter g l) < length (filter f l))%nat.
Proof.
  assert (LE : forall l, (forall a, In a l -> g a = true -> f a = true) -> (length (filter g l) <= length (filter f l))%nat).
  { clear l. induction l as [|a l IH]; intros H; cbn [filter]; [lia|]. assert (IH' := IH (fun b Hb => H b (or_intror Hb))). pose proof (H a (or_introl eq_refl)) as Ha. destruct (g a); [rewrite (Ha eq_refl); cbn; lia|]. destruct (f a); cbn; lia. }
  induction l as [|a l IH]; intros H (b & Hb & F & G); [destruct Hb|]. cbn [filter]. assert (H' : forall a, In a l -> g a = true -> f a = true) by (intros c Hc; apply H; right; exact Hc).
  destruct Hb as [->|Hb].
  - rewrite F, G. pose proof (LE l H'). cbn. lia.
  - assert (L : (length (filter g l) < length (filter f l))%nat) by (apply IH; [exact H'|exists b; auto]). pose proof (H a (or_introl eq_refl)) as Ha. destruct (g a); [rewrite (Ha eq_refl); cbn; lia|]. destruct (f a); cbn; lia.
Qed.

(** ** FIRST sets are sets *)
Definition cache_sets (c : first_cache) : Prop := msorted item_ltb c /\ forall i s, In (i, s) c -> set_ok s.
Section FirstOk.
  Context (rec : item -> first_cache -> option (first_cache * iset)).
  Hypothesis RO : forall i c c' s, cache_sets c -> rec i c = Some (c', s) -> cache_sets c' /\ set_ok s.
  Lemma rest_first_ok l : forall c r c' s, cache_sets c -> set_ok r -> rest_first rec l c r = Some (c', s) -> cache_sets c' /\ set_ok s.
  Proof.
    induction l as [|i l IH]; intros c r c' s C R H; cbn [rest_first] in H; [injection H as <- <-; auto|]. destruct (rec i c) as [[c1 f]|] eqn:E; [|discriminate H]. destruct (RO _ _ _ _ C E) as [C1 F].
    assert (SO : set_ok (imerge (ierase IEmpty r) f)) by (apply imerge_ok, ierase_ok, R). destruct (icontains f IEmpty); [eapply IH; eassumption|]. injection H as <- <-. auto.
  Qed.
  Lemma rules_first_ok rs : forall c r c' s, cache_sets c -> set_ok r -> rules_first rec rs c r = Some (c', s) -> cache_sets c' /\ set_ok s.
  Proof.
    induction rs as [|[|i l] rs IH]; intros c r c' s C R H; cbn [rules_first] in H; [injection H as <- <-; auto|eapply IH; [eassumption|apply iinsert_ok, R|eassumption]|].
    destruct (rec i c) as [[c1 f]|] eqn:E; [|discriminate H]. destruct (RO _ _ _ _ C E) as [C1 F]. assert (SO : set_ok (imerge r f)) by (apply imerge_ok, R).
    destruct (icontains f IEmpty); [|eapply IH; eassumption]. destruct (rest_first rec l c1 (imerge r f)) as [[c2 r2]|] eqn:E2; [|discriminate H]. destruct (rest_first_ok _ _ _ _ _ C1 SO E2). eapply IH; eassumption.
  Qed.
  Lemma head_first_ok l c ie r c' s : cache_sets c -> set_ok r -> head_first rec l c ie r = Some (c', s) -> cache_sets c' /\ set_ok s.
  Proof.
    intros C R H. destruct l as [|i l]; cbn [head_first] in H; [injection H as <- <-; split; [exact C|apply imerge_ok, R]|].
    destruct (rec i c) as [[c1 f]|] eqn:E; [|discriminate H]. destruct (RO _ _ _ _ C E) as [C1 F]. injection H as <- <-. split; [exact C1|apply imerge_ok, R].
  Qed.
  Lemma alternatives_first_ok rs : forall c r c' s, cache_sets c -> set_ok r -> alternatives_first rec rs c r = Some (c', s) -> cache_sets c' /\ set_ok s.
  Proof.
    induction rs as [|l rs IH]; intros c r c' s C R H; cbn [alternatives_first] in H; [injection H as <- <-; auto|]. destruct (head_first rec l c [IEmpty] r) as [[c1 r1]|] eqn:E; [|discriminate H].
    destruct (head_first_ok _ _ _ _ _ _ C R E). eapply IH; eassumption.
  Qed.
  Lemma item_first_ok rules i c c' s : cache_sets c -> item_first rules rec i c = Some (c', s) -> cache_sets c' /\ set_ok s.
  Proof.
    intros C H. destruct i as [| | |t|n|p l|[| | |] rs]; cbn [item_first] in H; try (injection H as <- <-; split; [exact C|apply single_ok]).
    - eapply rules_first_ok; [exact C|apply single_ok|exact H].
    - eapply head_first_ok; [exact C| |exact H]. apply single_ok.
    - eapply head_first_ok; [exact C| |exact H]. constructor.
    - eapply alternatives_first_ok; [exact C| |exact H]. constructor.
    - eapply head_first_ok; [exact C| |exact H]. apply single_ok.
  Qed.
End FirstOk.
Lemma first_set_ok rules fuel : forall i c c' s, cache_sets c -> first rules fuel i c = Some (c', s) -> cache_sets c' /\ set_ok s.
Proof.
  induction fuel as [|fuel IH]; intros i c c' s C H; cbn [first] in H; [discriminate H|]. destruct (mfind item_ltb i c) as [s0|] eqn:F.
  - injection H as <- <-. split; [exact C|]. destruct C as [S O]. apply (mfind_in _ item_strict) in F; [|exact S]. eapply O, F.
  - destruct (item_first rules (first rules fuel) i (minsert item_ltb i no_items c)) as [[c1 s1]|] eqn:G; [|discriminate H]. injection H as <- <-. apply (item_first_ok (first rules fuel) IH) in G.
    + destruct G as [[S1 O1] SO]. split; [|exact SO]. split; [apply (mset_sorted _ item_strict), S1|]. intros j t Hj. apply (mset_in _ item_strict) in Hj; [|exact S1]. destruct Hj as [E|[Hj _]]; [injection E as -> ->; exact SO|eapply O1, Hj].
    + destruct C as [S O]. split; [apply (minsert_sorted _ item_strict), S|]. intros j t Hj. apply minsert_in in Hj; [|exact S]. destruct Hj as [Hj|[E _]]; [eapply O, Hj|]. injection E as -> ->. constructor.
Qed.

(** ** Maps of sets *)
Record fine (m : set_map) : Prop := { fm_sorted : msorted item_ltb m; fm_sets : forall i s, In (i, s) m -> set_ok s }.
Lemma set_of_ok m i : fine m -> set_ok (set_of i m).
Proof. intros [S F]. unfold set_of. destruct (mfind item_ltb i m) as [s|] eqn:E; [|constructor]. apply (mfind_in _ item_strict) in E; [|exact S]. eapply F, E. Qed.
Lemma ensure_fine m i : fine m -> fine (ensure i m).
Proof.
  intros [S F]. split; [apply (minsert_sorted _ item_strict), S|]. intros j s H. apply minsert_in in H; [|exact S]. destruct H as [H|[E _]]; [eapply F, H|]. injection E as -> ->. constructor.
Qed.
Lemma item_dec (a b : item) : {a = b} + {a <> b}.
Proof. destruct (item_eqb a b) eqn:E; [left; apply item_eqb_spec, E|right; intros H; apply item_eqb_spec in H; congruence]. Qed.
Lemma ensure_find m i j : fine m -> mfind item_ltb j (ensure i m) = match mfind item_ltb j m with Some s => Some s | None => if item_dec j i then Some no_items else None end.
Proof.
  intros [S F]. unfold ensure. rewrite (mfind_minsert _ item_strict) by exact S. destruct (mfind item_ltb j m); [reflexivity|]. destruct (item_dec j i) as [->|N]; [rewrite (st_irrefl _ item_strict); reflexivity|].
  destruct (item_ltb i j) eqn:E1; [reflexivity|]. destruct (item_ltb j i) eqn:E2; [reflexivity|]. exfalso. apply N. symmetry. apply (ltb_eq _ item_strict); assumption.
Qed.
Lemma ensure_set m i j : fine m -> set_of j (ensure i m) = set_of j m.
Proof. intros F. unfold set_of. rewrite ensure_find by exact F. destruct (mfind item_ltb j m); [reflexivity|]. destruct (item_dec j i); reflexivity. Qed.
Lemma mset_fine m i s : fine m -> set_ok s -> fine (mset item_ltb i s m).
Proof.
  intros [S F] SO. split; [apply (mset_sorted _ item_strict), S|]. intros j t H. apply (mset_in _ item_strict) in H; [|exact S]. destruct H as [E|[H _]]; [injection E as -> ->; exact SO|eapply F, H].
Qed.
Lemma mset_find m i s j : fine m -> mfind item_ltb j (mset item_ltb i s m) = if item_dec j i then Some s else mfind item_ltb j m.
Proof. intros [S F]. destruct (item_dec j i) as [->|N]; [apply (mfind_mset_same _ item_strict), S|apply (mfind_mset_other _ item_strict); assumption]. Qed.
Lemma mset_set m i s j : fine m -> set_of j (mset item_ltb i s m) = if item_dec j i then s else set_of j m.
Proof. intros F. unfold set_of. rewrite mset_find by exact F. destruct (item_dec j i); reflexivity. Qed.

Section Grammar.
  Context (first_of : item -> iset).
  Hypothesis FO : forall i, set_ok (first_of i).
  Notation can_skip := (can_skip first_of).

  (** ** One position *)
  Definition contributes (post : list item) (x : item) : Prop := exists p y q, post = p ++ y :: q /\ can_skip p /\ In x (first_of y).
  Lemma add_following_spec post : forall s, set_ok s -> let '(s', e) := add_following first_of post s in
    set_ok s' /\ (forall x, In x s' <-> In x s \/ contributes post x) /\ (e = true <-> can_skip post).
  Proof.
    induction post as [|i post IH]; intros s SO; cbn [add_following].
    - split; [exact SO|]. split; [|split; [intros _ j []|reflexivity]]. intros x. split; [auto|]. intros [H|(p & y & q & E & _)]; [exact H|destruct p; discriminate E].
    - assert (SO2 : set_ok (imerge s (first_of i))) by (apply imerge_ok, SO). destruct (icontains (first_of i) IEmpty) eqn:K.
      + apply icontains_in in K; [|apply FO]. specialize (IH _ SO2). destruct (add_following first_of post (imerge s (first_of i))) as [s' e]. destruct IH as (A & B & C). split; [exact A|]. split.
        * intros x. rewrite B, imerge_in. split.
          -- intros [[H|H]|(p & y & q & -> & N & H)]; [auto|right; exists [], i, post; repeat split; auto; intros j []|]. right. exists (i :: p), y, q. split; [reflexivity|]. split; [|exact H]. intros j [<-|Hj]; [exact K|apply N, Hj].
          -- intros [H|([|j p] & y & q & E & N & H)]; [auto|injection E as -> ->; auto|]. injection E as -> ->. right. exists p, y, q. split; [reflexivity|]. split; [intros k Hk; apply N; right; exact Hk|exact H].
        * rewrite C. split; [intros H j [<-|Hj]; [exact K|apply H, Hj]|intros H j Hj; apply H; right; exact Hj].
      + apply icontains_not in K; [|apply FO]. split; [exact SO2|]. split.
        * intros x. rewrite imerge_in. split; [intros [H|H]; [auto|right; exists [], i, post; repeat split; auto; intros j []]|].
          intros [H|([|j p] & y & q & E & N & H)]; [auto|injection E as -> ->; auto|]. injection E as -> ->. exfalso. apply K, N. left. reflexivity.
        * split; [discriminate|]. intros H. exfalso. apply K, H. left. reflexivity.
  Qed.
  Definition nonterm (i : item) : Prop := forall t, i <> ITerm t.
  Definition fine_state (st : follow_state) : Prop := fine (follow_sets st) /\ fine (depends st).
  Lemma visit_spec nt i post st : fine_state st -> let st' := visit first_of nt i post st in
    fine_state st' /\
    (forall j x, In x (set_of j (follow_sets st')) <-> In x (set_of j (follow_sets st)) \/ (j = i /\ nonterm i /\ contributes post x)) /\
    (forall j d, In d (set_of j (depends st')) <-> In d (set_of j (depends st)) \/ (j = i /\ nonterm i /\ d = nt /\ can_skip post)).
  Proof.
    intros [F D]. cbn zeta. assert (T : (exists t, i = ITerm t) \/ nonterm i) by (destruct i as [| | |t|n|p l|k rs]; [right; intros t'; discriminate..|left; eauto|right; intros t'; discriminate|right; intros t'; discriminate|right; intros t'; discriminate]).
    destruct T as [[t ->]|NT].
    - cbn [visit]. split; [split; assumption|]. split; intros j x; (split; [auto|]; intros [H|(_ & N & _)]; [exact H|exfalso; eapply N; reflexivity]).
    - assert (V : visit first_of nt i post st = (let fs := ensure i (follow_sets st) in let '(s, at_end) := add_following first_of post (set_of i fs) in let fs := mset item_ltb i s fs in
        if at_end then let ds := ensure i (depends st) in mkFollow fs (mset item_ltb i (iinsert nt (set_of i ds)) ds) else mkFollow fs (depends st))).
      { destruct i; try reflexivity. exfalso. eapply NT. reflexivity. }
      rewrite V. clear V. cbn zeta. pose proof (ensure_fine _ i F) as F1. pose proof (set_of_ok _ i F1) as SO. pose proof (add_following_spec post _ SO) as A.
      destruct (add_following first_of post (set_of i (ensure i (follow_sets st)))) as [s e]. destruct A as (A1 & A2 & A3).
      assert (FF : fine (mset item_ltb i s (ensure i (follow_sets st)))) by (apply mset_fine; assumption).
      assert (SS : forall j x, In x (set_of j (mset item_ltb i s (ensure i (follow_sets st)))) <-> In x (set_of j (follow_sets st)) \/ (j = i /\ nonterm i /\ contributes post x)).
      { intros j x. rewrite mset_set by exact F1. destruct (item_dec j i) as [->|N]; [rewrite A2, ensure_set by exact F; tauto|]. rewrite ensure_set by exact F. intuition contradiction. }
      destruct e; cbn [follow_sets depends].
      + pose proof (proj1 A3 eq_refl) as CS. pose proof (ensure_fine _ i D) as D1. split; [split; [exact FF|apply mset_fine; [exact D1|apply iinsert_ok, set_of_ok, D1]]|]. split; [exact SS|].
        intros j d. rewrite mset_set by exact D1. destruct (item_dec j i) as [->|N]; [rewrite iinsert_in, ensure_set by exact D; tauto|]. rewrite ensure_set by exact D. intuition contradiction.
      + split; [split; [exact FF|exact D]|]. split; [exact SS|]. intros j d. split; [auto|]. intros [H|(_ & _ & _ & CS)]; [exact H|]. apply A3 in CS. discriminate CS.
  Qed.

  (** ** All positions *)
  Definition place := (item * item * list item)%type.
  Definition visit_place (st : follow_state) (p : place) : follow_state := let '(nt, i, post) := p in visit first_of nt i post st.
  Fixpoint parts_list (i : item) : list place :=
    match i with
    | IEbnf _ rs =>
        (fix each_rule (rs : list (list item)) : list place :=
           match rs with
           | [] => []
           | r :: rs => (fix each_item (l : list item) : list place :=
                           match l with
                           | [] => []
                           | j :: l => ((i, j, l) :: parts_list j) ++ each_item l
                           end) r ++ each_rule rs
           end) rs
    | _ => []
    end.
  Fixpoint rule_places (nt : item) (l : list item) : list place :=
    match l with [] => [] | j :: l => ((nt, j, l) :: parts_list j) ++ rule_places nt l end.
  Lemma parts_list_ebnf k rs : parts_list (IEbnf k rs) = flat_map (rule_places (IEbnf k rs)) rs.
  Proof.
    cbn [parts_list]. set (i := IEbnf k rs). change (IEbnf k rs) with i. clearbody i. induction rs as [|r rs IH]; [reflexivity|]. cbn [flat_map]. rewrite <- IH. f_equal. clear. induction r as [|j l IHl]; [reflexivity|]. cbn [rule_places]. rewrite <- IHl. reflexivity.
  Qed.
  Lemma fill_parts_ebnf k rs st : fill_parts first_of (IEbnf k rs) st = fold_left (fun st r => fill_follow first_of (IEbnf k rs) r st) rs st.
  Proof.
    cbn [fill_parts]. set (i := IEbnf k rs). change (IEbnf k rs) with i. clearbody i. revert st. induction rs as [|r rs IH]; intros st; [reflexivity|]. cbn [fold_left]. rewrite <- IH. f_equal. clear. revert st. induction r as [|j l IHl]; intros st; [reflexivity|]. cbn [fill_follow]. rewrite <- IHl. reflexivity.
  Qed.
  Lemma fill_parts_places : forall i st, fill_parts first_of i st = fold_left visit_place (parts_list i) st.
  Proof.
    induction i as [| | |s|s|p l IH|k ls IH] using item_rect'; intros st; try reflexivity. rewrite parts_list_ebnf, fill_parts_ebnf. set (i := IEbnf k ls). clearbody i. revert st.
    induction IH as [|r rs F _ IHR]; intros st; [reflexivity|]. cbn [fold_left flat_map]. rewrite fold_left_app, IHR. f_equal.
    clear -F. revert st. induction F as [|j l Hj _ IHF]; intros st; [reflexivity|]. cbn [fill_follow rule_places fold_left app]. rewrite IHF, Hj, fold_left_app. reflexivity.
  Qed.
  Lemma fill_follow_places nt l : forall st, fill_follow first_of nt l st = fold_left visit_place (rule_places nt l) st.
  Proof.
    induction l as [|j l IH]; intros st; [reflexivity|]. cbn [fill_follow rule_places app fold_left]. rewrite IH, fill_parts_places, fold_left_app. reflexivity.
  Qed.

  Lemma rule_places_in nt l p : In p (rule_places nt l) <-> exists pre j post, l = pre ++ j :: post /\ (p = (nt, j, post) \/ In p (parts_list j)).
  Proof.
    induction l as [|j l IH]; cbn [rule_places app In].
    - split; [intros []|]. intros (pre & j & post & E & _). destruct pre; discriminate E.
    - rewrite in_app_iff, IH. split.
      + intros [E|[H|(pre & k & post & -> & H)]]; [exists [], j, l; auto|exists [], j, l; auto|]. exists (j :: pre), k, post. auto.
      + intros ([|k pre] & m & post & E & H).
        * injection E as -> ->. destruct H as [-> |H]; auto.
        * injection E as -> ->. right. right. exists pre, m, post. auto.
  Qed.
  Lemma parts_list_in k rs p : In p (parts_list (IEbnf k rs)) <-> exists pre j post, In (pre ++ j :: post) rs /\ (p = (IEbnf k rs, j, post) \/ In p (parts_list j)).
  Proof.
    rewrite parts_list_ebnf, in_flat_map. split.
    - intros (r & Hr & H). apply rule_places_in in H. destruct H as (pre & j & post & -> & H). eauto 6.
    - intros (pre & j & post & Hr & H). eexists. split; [exact Hr|]. apply rule_places_in. eauto 6.
  Qed.

  Context (nonterminals : list (Z * list (list item))).
  Definition all_places : list place := flat_map (fun '(n, rs) => flat_map (rule_places (INonterm n)) rs) nonterminals.
  Lemma fill_all_places : fill_all first_of nonterminals = fold_left visit_place all_places (mkFollow [] []).
  Proof.
    unfold fill_all, all_places. generalize (mkFollow [] []). induction nonterminals as [|[n rs] nts IH]; intros st; [reflexivity|]. cbn [fold_left flat_map]. rewrite fold_left_app, IH. f_equal.
    clear. revert st. induction rs as [|r rs IH]; intros st; [reflexivity|]. cbn [fold_left flat_map]. rewrite fold_left_app, IH, fill_follow_places. reflexivity.
  Qed.

  Lemma parts_position nt' j' post' : forall m nt after, position nonterminals nt m after -> In (nt', j', post') (parts_list m) -> position nonterminals nt' j' post'.
  Proof.
    induction m as [| | |s|s|p l IH|k ls IH] using item_rect'; intros nt after P H; try (destruct H; fail). apply parts_list_in in H. destruct H as (pre & j & post & Hr & H).
    assert (PJ : position nonterminals (IEbnf k ls) j post) by (eapply in_ebnf; eassumption). destruct H as [E|H]; [injection E as -> -> ->; exact PJ|].
    rewrite Forall_forall in IH. specialize (IH _ Hr). rewrite Forall_forall in IH. eapply (IH j); [apply in_elt|exact PJ|exact H].
  Qed.
  Lemma parts_closed nt k rs after pre i post : In (pre ++ i :: post) rs -> forall m, In (nt, IEbnf k rs, after) (parts_list m) -> In (IEbnf k rs, i, post) (parts_list m).
  Proof.
    intros Hr. induction m as [| | |s|s|p l IH|k' ls IH] using item_rect'; intros H; try (destruct H; fail). apply parts_list_in in H. destruct H as (pre2 & j & post2 & Hr2 & H).
    apply parts_list_in. exists pre2, j, post2. split; [exact Hr2|]. right. destruct H as [E|H].
    - injection E as -> <- ->. apply parts_list_in. exists pre, i, post. auto.
    - rewrite Forall_forall in IH. specialize (IH _ Hr2). rewrite Forall_forall in IH. apply (IH j); [apply in_elt|exact H].
  Qed.
  Lemma all_places_in nt i post : In (nt, i, post) all_places <-> position nonterminals nt i post.
  Proof.
    unfold all_places. rewrite in_flat_map. split.
    - intros ([n rs] & Hn & H). apply in_flat_map in H. destruct H as (r & Hr & H). apply rule_places_in in H. destruct H as (pre & j & post2 & -> & H).
      assert (PJ : position nonterminals (INonterm n) j post2) by (eapply in_rule; eassumption). destruct H as [E|H]; [injection E as -> -> ->; exact PJ|]. eapply parts_position; eassumption.
    - intros P. induction P as [n rs pre i post Hn Hr|nt k rs after pre i post P (p & Hp & H) Hr].
      + exists (n, rs). split; [exact Hn|]. apply in_flat_map. eexists. split; [exact Hr|]. apply rule_places_in. exists pre, i, post. auto.
      + exists p. split; [exact Hp|]. destruct p as [n rs2]. apply in_flat_map in H. destruct H as (r & Hr2 & H). apply in_flat_map. exists r. split; [exact Hr2|].
        apply rule_places_in in H. destruct H as (pre2 & j & post2 & -> & H). apply rule_places_in. exists pre2, j, post2. split; [reflexivity|]. right. destruct H as [E|H].
        * injection E as -> <- ->. apply parts_list_in. exists pre, i, post. auto.
        * eapply parts_closed; eassumption.
  Qed.

  Lemma places_state ps : forall st, fine_state st -> let st' := fold_left visit_place ps st in
    fine_state st' /\
    (forall j x, In x (set_of j (follow_sets st')) <-> In x (set_of j (follow_sets st)) \/ exists nt post, In (nt, j, post) ps /\ nonterm j /\ contributes post x) /\
    (forall j d, In d (set_of j (depends st')) <-> In d (set_of j (depends st)) \/ exists post, In (d, j, post) ps /\ nonterm j /\ can_skip post).
  Proof.
    induction ps as [|[[nt i] post] ps IH]; intros st F; cbn [fold_left].
    - split; [exact F|]. split; intros j x; (split; [auto|]); [intros [H|(a & b & [] & _)]; exact H|intros [H|(a & [] & _)]; exact H].
    - cbn [visit_place]. destruct (visit_spec nt i post st F) as (F1 & S1 & D1). destruct (IH _ F1) as (F2 & S2 & D2). split; [exact F2|]. split.
      + intros j x. rewrite S2, S1. split.
        * intros [[H|(-> & N & C)]|(a & b & H & N & C)]; [auto|right; exists nt, post; split; [left; reflexivity|auto]|right; exists a, b; split; [right; exact H|auto]].
        * intros [H|(a & b & [E|H] & N & C)]; [auto|injection E as -> -> ->; auto 10|right; exists a, b; auto].
      + intros j d. rewrite D2, D1. split.
        * intros [[H|(-> & N & -> & C)]|(b & H & N & C)]; [auto|right; exists post; split; [left; reflexivity|auto]|right; exists b; split; [right; exact H|auto]].
        * intros [H|(b & [E|H] & N & C)]; [auto|injection E as -> -> ->; auto 10|right; exists b; auto].
  Qed.
  Lemma fill_all_spec : let st := fill_all first_of nonterminals in
    fine_state st /\
    (forall j x, In x (set_of j (follow_sets st)) <-> exists nt post, position nonterminals nt j post /\ nonterm j /\ contributes post x) /\
    (forall j d, In d (set_of j (depends st)) <-> exists post, position nonterminals d j post /\ nonterm j /\ can_skip post).
  Proof.
    cbn zeta. rewrite fill_all_places. destruct (places_state all_places (mkFollow [] [])) as (F & S & D).
    - split; (split; [constructor|intros i s []]).
    - split; [exact F|]. split.
      + intros j x. rewrite S. split; [intros [[]|(a & b & H & N)]; exists a, b; rewrite <- all_places_in; auto|intros (a & b & H & N); right; exists a, b; rewrite all_places_in; auto].
      + intros j d. rewrite D. split; [intros [[]|(b & H & N)]; exists b; rewrite <- all_places_in; auto|intros (b & H & N); right; exists b; rewrite all_places_in; auto].
  Qed.

  (** ** The passes over the dependencies *)
  Definition grows (fs fs' : set_map) : Prop := forall j x, In x (set_of j fs) -> In x (set_of j fs').
  Definition same (fs fs' : set_map) : Prop := forall j x, In x (set_of j fs') <-> In x (set_of j fs).
  Lemma depend_on_spec i d fs : fine fs -> let '(fs', c) := depend_on i d fs in
    fine fs' /\ (forall j x, In x (set_of j fs') <-> In x (set_of j fs) \/ (j = i /\ In x (set_of d fs))) /\
    (c = false -> forall x, In x (set_of d fs) -> In x (set_of i fs)) /\
    (c = true -> exists x, In x (set_of d fs) /\ ~ In x (set_of i fs)).
  Proof.
    intros F. unfold depend_on. destruct (item_eqb d i) eqn:E.
    - apply item_eqb_spec in E. subst d. split; [exact F|]. split; [|split; [auto|discriminate]]. intros j x. split; [auto|]. intros [H|[-> H]]; exact H.
    - destruct (mfind item_ltb d fs) as [ds|] eqn:M.
      + pose proof (ensure_fine _ i F) as F1. assert (SD : set_of d fs = ds) by (unfold set_of; rewrite M; reflexivity). rewrite ensure_set by exact F. split; [apply mset_fine; [exact F1|apply imerge_ok, set_of_ok, F]|]. split; [|split].
        * intros j x. rewrite mset_set by exact F1. destruct (item_dec j i) as [->|N]; [rewrite imerge_in, SD; tauto|]. rewrite ensure_set by exact F. intuition contradiction.
        * rewrite SD. unfold merge_changes. intros C x Hx. destruct (icontains (set_of i fs) x) eqn:K; [apply icontains_in in K; [exact K|apply set_of_ok, F]|].
          exfalso. assert (X : existsb (fun i0 => negb (icontains (set_of i fs) i0)) ds = true) by (apply existsb_exists; exists x; rewrite K; auto). congruence.
        * rewrite SD. intros C. apply existsb_exists in C. destruct C as (x & Hx & K). exists x. split; [exact Hx|]. apply icontains_not; [apply set_of_ok, F|]. destruct (icontains (set_of i fs) x); [discriminate K|reflexivity].
      + assert (SD : set_of d fs = no_items) by (unfold set_of; rewrite M; reflexivity). rewrite SD. split; [exact F|]. split; [|split; [intros _ x []|discriminate]]. intros j x. split; [auto|]. intros [H|[_ []]]. exact H.
  Qed.
  (** What every pass keeps: [P] is a solution of the equations that contains the sets. *)
  Definition bounded (P : item -> item -> Prop) (fs : set_map) : Prop := forall j x, In x (set_of j fs) -> P j x.
  Lemma depend_all_spec i ds : forall fs ch, fine fs -> let '(fs', ch') := depend_all i ds fs ch in
    fine fs' /\ grows fs fs' /\
    (forall P : item -> item -> Prop, (forall d x, In d ds -> P d x -> P i x) -> bounded P fs -> bounded P fs') /\
    (ch' = false -> ch = false /\ same fs fs' /\ forall d x, In d ds -> In x (set_of d fs) -> In x (set_of i fs)) /\
    (ch = false -> ch' = true -> exists x, In x (set_of i fs') /\ ~ In x (set_of i fs)).
  Proof.
    induction ds as [|d ds IH]; intros fs ch F; cbn [depend_all].
    - split; [exact F|]. split; [intros j x H; exact H|]. split; [auto|]. split; [intros E; split; [exact E|split; [intros j x; tauto|intros d x []]]|congruence].
    - pose proof (depend_on_spec i d fs F) as S. destruct (depend_on i d fs) as [fs1 c]. destruct S as (F1 & S1 & N1 & Y1). specialize (IH fs1 (ch || c)%bool F1).
      destruct (depend_all i ds fs1 (ch || c)) as [fs2 ch2]. destruct IH as (F2 & G2 & B2 & N2 & Y2). split; [exact F2|]. split; [intros j x H; apply G2, S1; auto|]. split; [|split].
      + intros P HP B. apply B2; [intros d' x Hd; apply HP; right; exact Hd|]. intros j x H. apply S1 in H. destruct H as [H|[-> H]]; [apply B, H|]. apply (HP d); [left; reflexivity|apply B, H].
      + intros E. destruct (N2 E) as (E1 & SM & N3). apply Bool.orb_false_iff in E1. destruct E1 as [E1 E2]. specialize (N1 E2).
        assert (SM1 : same fs fs1) by (intros j x; rewrite S1; split; [intros [H|[-> H]]; [exact H|apply N1, H]|auto]).
        split; [exact E1|]. split; [intros j x; rewrite (SM j x); apply SM1|]. intros d' x [<-|Hd] H; [apply N1, H|]. apply SM1. apply (N3 d' x Hd). apply SM1, H.
      + intros E E2. subst ch. cbn [orb] in *. destruct c.
        * destruct (Y1 eq_refl) as (x & H1 & H2). exists x. split; [apply G2, S1; auto|exact H2].
        * destruct (Y2 eq_refl E2) as (x & H1 & H2). exists x. split; [exact H1|]. intros H. apply H2, S1. auto.
  Qed.
  Lemma pass_spec deps : forall fs ch, fine fs -> let '(fs', ch') := pass deps fs ch in
    fine fs' /\ grows fs fs' /\
    (forall P : item -> item -> Prop, (forall i ds d x, In (i, ds) deps -> In d ds -> P d x -> P i x) -> bounded P fs -> bounded P fs') /\
    (ch' = false -> ch = false /\ same fs fs' /\ forall i ds d x, In (i, ds) deps -> In d ds -> In x (set_of d fs) -> In x (set_of i fs)) /\
    (ch = false -> ch' = true -> exists i x, In i (map fst deps) /\ In x (set_of i fs') /\ ~ In x (set_of i fs)).
  Proof.
    induction deps as [|[i ds] deps IH]; intros fs ch F; cbn [pass].
    - split; [exact F|]. split; [intros j x H; exact H|]. split; [auto|]. split; [intros E; split; [exact E|split; [intros j x; tauto|intros i ds d x []]]|congruence].
    - pose proof (depend_all_spec i ds fs ch F) as S. destruct (depend_all i ds fs ch) as [fs1 c]. destruct S as (F1 & G1 & B1 & N1 & Y1). specialize (IH fs1 c F1).
      destruct (pass deps fs1 c) as [fs2 ch2]. destruct IH as (F2 & G2 & B2 & N2 & Y2). split; [exact F2|]. split; [intros j x H; apply G2, G1, H|]. split; [|split].
      + intros P HP B. apply B2; [intros i' ds' d x Hi; apply HP; right; exact Hi|]. apply B1; [|exact B]. intros d x Hd. apply (HP i ds); [left; reflexivity|exact Hd].
      + intros E. destruct (N2 E) as (E1 & SM & N3). destruct (N1 E1) as (E2 & SM1 & N4). split; [exact E2|]. split; [intros j x; rewrite (SM j x); apply SM1|].
        intros i' ds' d x [X|Hi] Hd H; [injection X as -> ->; eapply N4; eassumption|]. apply SM1. apply (N3 i' ds' d x Hi Hd). apply SM1, H.
      + intros E E2. destruct c.
        * destruct (Y1 E eq_refl) as (x & H1 & H2). exists i, x. split; [left; reflexivity|]. split; [apply G2, H1|exact H2].
        * destruct (N1 eq_refl) as (_ & SM1 & _). destruct (Y2 eq_refl E2) as (i' & x & H0 & H1 & H2). exists i', x. split; [right; exact H0|]. split; [exact H1|]. intros H. apply H2, G1, H.
  Qed.
  Lemma passes_spec deps fuel : forall fs fs', fine fs -> passes fuel deps fs = Some fs' ->
    fine fs' /\ grows fs fs' /\
    (forall P : item -> item -> Prop, (forall i ds d x, In (i, ds) deps -> In d ds -> P d x -> P i x) -> bounded P fs -> bounded P fs') /\
    (forall i ds d x, In (i, ds) deps -> In d ds -> In x (set_of d fs') -> In x (set_of i fs')).
  Proof.
    induction fuel as [|fuel IH]; intros fs fs' F H; cbn [passes] in H; [discriminate H|]. pose proof (pass_spec deps fs false F) as S. destruct (pass deps fs false) as [fs1 c]. destruct S as (F1 & G1 & B1 & N1 & _). destruct c.
    - destruct (IH _ _ F1 H) as (A & B & C & D). split; [exact A|]. split; [intros j x Hx; apply B, G1, Hx|]. split; [intros P HP BP; apply C; [exact HP|apply B1; assumption]|exact D].
    - injection H as <-. destruct (N1 eq_refl) as (_ & SM & N). split; [exact F1|]. split; [exact G1|]. split; [exact B1|]. intros i ds d x Hi Hd H. apply SM. apply (N i ds d x Hi Hd), SM, H.
  Qed.

  (** Termination *)
  Definition absent (keys univ : list item) (fs : set_map) : nat := length (filter (fun '(k, x) => negb (icontains (set_of k fs) x)) (list_prod keys univ)).
  Lemma passes_end deps univ fuel : forall fs, fine fs -> bounded (fun _ x => In x univ) fs -> (absent (map fst deps) univ fs < fuel)%nat -> exists fs', passes fuel deps fs = Some fs'.
  Proof.
    induction fuel as [|fuel IH]; intros fs F B M; [lia|]. cbn [passes]. pose proof (pass_spec deps fs false F) as S. destruct (pass deps fs false) as [fs1 c]. destruct S as (F1 & G1 & B1 & _ & Y1). destruct c; [|eauto].
    assert (B2 : bounded (fun _ x => In x univ) fs1) by (apply B1; [auto|exact B]). apply IH; [exact F1|exact B2|].
    assert (L : (absent (map fst deps) univ fs1 < absent (map fst deps) univ fs)%nat); [|lia]. apply filter_less.
    - intros [k x] _ H. apply Bool.negb_true_iff in H. apply Bool.negb_true_iff. apply icontains_not in H; [|apply set_of_ok, F1]. apply icontains_not; [apply set_of_ok, F|]. intros K. apply H, G1, K.
    - destruct (Y1 eq_refl eq_refl) as (i & x & H0 & H1 & H2). exists (i, x). split; [apply in_prod; [exact H0|eapply B2, H1]|]. split.
      + apply Bool.negb_true_iff, icontains_not; [apply set_of_ok, F|exact H2].
      + apply Bool.negb_false_iff, icontains_in; [apply set_of_ok, F1|exact H1].
  Qed.

  (** ** The result *)
  Lemma follow_exact fuel i s : follow first_of nonterminals fuel i = Some s -> forall x, In x s <-> follows nonterminals first_of i x.
  Proof.
    unfold follow, follow_map. destruct (fill_all_spec) as ([F D] & S & E). destruct (passes fuel (depends (fill_all first_of nonterminals)) (follow_sets (fill_all first_of nonterminals))) as [fs|] eqn:P; [|discriminate].
    intros H. injection H as <-. destruct (passes_spec _ _ _ _ F P) as (F2 & G & B & C).
    assert (DEP : forall j d, (exists ds, In (j, ds) (depends (fill_all first_of nonterminals)) /\ In d ds) <-> exists post, position nonterminals d j post /\ nonterm j /\ can_skip post).
    { intros j d. rewrite <- E. unfold set_of. split.
      - intros (ds & Hj & Hd). rewrite (proj2 (mfind_in _ item_strict _ (fm_sorted _ D) _ _) Hj). exact Hd.
      - destruct (mfind item_ltb j (depends (fill_all first_of nonterminals))) as [ds|] eqn:M; [|intros []]. intros Hd. exists ds. apply (mfind_in _ item_strict) in M; [auto|apply D]. }
    intros x. split.
    - apply (B (follows nonterminals first_of)).
      + intros j ds d y Hj Hd Hf. destruct (proj1 (DEP j d)) as (post & Hp & N & K); [eauto|]. eapply follows_end; eassumption.
      + intros j y Hy. apply S in Hy. destruct Hy as (nt & post & Hp & N & p & z & q & -> & K & Hz). eapply follows_next; eassumption.
    - intros Hf. induction Hf as [nt j p y q x Hp N K Hx|nt j post x Hp N K Hf IH].
      + apply G, S. exists nt, (p ++ y :: q). split; [exact Hp|]. split; [exact N|]. exists p, y, q. auto.
      + destruct (proj2 (DEP j nt)) as (ds & Hj & Hd); [eauto|]. eapply C; eassumption.
  Qed.
  Lemma follow_ends i : exists fuel0, forall fuel, (fuel0 <= fuel)%nat -> exists s, follow first_of nonterminals fuel i = Some s.
  Proof.
    destruct (fill_all_spec) as ([F D] & S & E). set (st := fill_all first_of nonterminals) in *. set (univ := concat (map snd (follow_sets st))).
    exists (Datatypes.S (absent (map fst (depends st)) univ (follow_sets st))). intros fuel L. unfold follow, follow_map. fold st.
    destruct (passes_end (depends st) univ fuel (follow_sets st) F) as [fs ->]; [|lia|eauto]. intros j x H. unfold set_of in H. destruct (mfind item_ltb j (follow_sets st)) as [s|] eqn:M; [|destruct H].
    apply (mfind_in _ item_strict) in M; [|apply F]. apply in_concat. exists s. split; [apply in_map_iff; exists (j, s); auto|exact H].
  Qed.

  (** ** Against the textbook definition *)
  Lemma nullables_skip rules l : (forall i, In i l -> first_set rules i (first_of i)) -> (can_skip l <-> nullables rules l).
  Proof.
    intros H. induction l as [|i l IH]; [split; [constructor|intros _ j []]|]. assert (E : In IEmpty (first_of i) <-> nullable rules i) by (apply first_set_unique_empty, H; left; reflexivity).
    assert (IH' : can_skip l <-> nullables rules l) by (apply IH; intros j Hj; apply H; right; exact Hj). split.
    - intros C. constructor; [apply E, C; left; reflexivity|]. apply IH'. intros j Hj. apply C. right. exact Hj.
    - intros N. inversion N; subst. intros j [<-|Hj]; [apply E; assumption|]. apply IH'; assumption.
  Qed.
  Lemma follow_textbook fuel i s :
    (forall nt j post k, position nonterminals nt j post -> In k post -> first_set (rules_of nonterminals) k (first_of k)) -> no_repeats nonterminals -> (forall t, i <> ITerm t) ->
    follow first_of nonterminals fuel i = Some s -> forall x, x <> IEmpty -> In x s <-> comes_after nonterminals i x.
  Proof.
    intros FS NR NT H x Hn. rewrite (follow_exact _ _ _ H x). clear H s.
    split.
    - clear NT. intros Hf. induction Hf as [nt j p y q x Hp N K Hx|nt j post x Hp N K Hf IH].
      + eapply after_next; [exact Hp|]. exists p, y, q. split; [reflexivity|]. split.
        * apply nullables_skip; [|exact K]. intros k Hk. eapply FS; [exact Hp|apply in_app_iff; auto].
        * apply (FS _ _ _ y Hp) in Hx; [|apply in_elt]. destruct Hx as [[-> _]|Hx]; [contradiction|exact Hx].
      + eapply after_end; [exact Hp| |apply IH, Hn]. apply nullables_skip; [|exact K]. intros k Hk. eapply FS; eassumption.
    - intros Hf. revert NT. induction Hf as [nt j post x Hp (p & y & q & -> & N & S)|nt j post x Hp N Hf IH|nt j post r x Hp N R B S]; intros NT.
      + eapply follows_next; [exact Hp|exact NT| |].
        * apply (nullables_skip (rules_of nonterminals)); [|exact N]. intros k Hk. eapply FS; [exact Hp|apply in_app_iff; auto].
        * apply (FS _ _ _ y Hp); [apply in_elt|]. auto.
      + eapply follows_end; [exact Hp|exact NT| |].
        * apply (nullables_skip (rules_of nonterminals)); [|exact N]. intros k Hk. eapply FS; eassumption.
        * apply IH; [exact Hn|]. intros t ->. inversion Hp.
      + exfalso. inversion Hp as [n rs pre i' post' H1 H2|nt' k rs after pre i' post' H1 H2]; subst; [exact R|]. eapply NR; [exact H1|exact R].
  Qed.
End Grammar.

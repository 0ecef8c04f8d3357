(** The answers a builder keeps. *)
From Verif Require Import Base OrdMap GrammarModel GrammarProofs FirstModel FirstProofs FollowModel FollowSpec FollowProofs FollowProps LrItemModel LrItemProofs ClosureModel ClosureSpec ClosureProofs ClosureTermProofs ClosureProps MachineModel MachineProofs BuilderModel BuilderSpec BuilderProofs BuilderLookProofs BuilderTermProofs BuilderProps ActionModel ActionSpec ActionProofs ActionProps AskModel AskSpec.
Local Open Scope Z_scope.

Lemma sorted_same {A} (ltb : A -> A -> bool) : strict_total ltb -> forall l l', ssorted ltb l -> ssorted ltb l' -> (forall a, In a l <-> In a l') -> l = l'.
Proof.
  intros ST. induction l as [|a l IH]; intros l' S S' E.
  - destruct l' as [|b l']; [reflexivity|]. destruct (proj2 (E b) (or_introl eq_refl)).
  - destruct l' as [|b l']; [destruct (proj1 (E a) (or_introl eq_refl))|]. apply StronglySorted_inv in S as (S & F). apply StronglySorted_inv in S' as (S' & F'). rewrite Forall_forall in F, F'.
    assert (AB : a = b).
    { destruct (proj1 (E a) (or_introl eq_refl)) as [X|X]; [congruence|]. destruct (proj2 (E b) (or_introl eq_refl)) as [Y|Y]; [congruence|]. specialize (F' _ X). specialize (F _ Y). cbv beta in F, F'.
      pose proof (st_trans _ ST _ _ _ F F') as Z. rewrite (st_irrefl _ ST) in Z. discriminate. }
    subst b. f_equal. apply IH; [exact S|exact S'|]. intros x. split; intros X.
    + destruct (proj1 (E x) (or_intror X)) as [<-|Y]; [|exact Y]. specialize (F _ X). cbv beta in F. rewrite (st_irrefl _ ST) in F. discriminate.
    + destruct (proj2 (E x) (or_intror X)) as [<-|Y]; [|exact Y]. specialize (F' _ X). cbv beta in F'. rewrite (st_irrefl _ ST) in F'. discriminate.
Qed.

Section Ask.
  Context (rid : rule -> Z) (first_of : item -> iset) (rules : Z -> list (list item)) (u : item -> Prop) (busy : nat -> list item -> item -> bool) (languages : list item) (m : machine) (guards : guard_states) (fuel : nat).
  Context (BU : buildable rid first_of rules u languages) (B : built rid first_of rules u busy languages m guards).
  Notation history := (history rid first_of rules busy fuel m guards).
  Notation ask := (ask rid first_of rules busy fuel m guards).

  (** The actions before rewriting, in their order *)
  Definition plain_of (q : Z) (plain : action_set) : Prop := ssorted action_ltb plain /\ forall a, In a plain <-> lalr_action rules first_of languages (kernel m) (step m) q a.

  Lemma plain_unique q p p' : plain_of q p -> plain_of q p' -> p = p'.
  Proof. intros (S & E) (S' & E'). apply (sorted_same action_ltb action_strict _ _ S S'). intros a. rewrite E, E'. reflexivity. Qed.

  (** [past]: the requests so far *)
  Definition holds (ws0 : list rewriter) (past : list request) (b : asked_builder) : Prop :=
    ab_rewriters b = in_force ws0 past /\ cache_ok rid first_of rules u (fst (ab_cache b)) /\ msorted Z.ltb (ab_kept b) /\
    (forall q, In (Ask q) past <-> mfind Z.ltb q (ab_kept b) <> None) /\
    forall q acts, mfind Z.ltb q (ab_kept b) = Some acts -> exists plain, plain_of q plain /\ acts = rewritten (in_force ws0 (before q past)) q plain.

  Lemma in_force_app ws rs rs' : in_force ws (rs ++ rs') = in_force (in_force ws rs) rs'.
  Proof. revert ws. induction rs as [|[w|ws'|q] rs IH]; intros ws; cbn [app in_force]; auto. Qed.
  Lemma before_asked q rs rs' : In (Ask q) rs -> before q (rs ++ rs') = before q rs.
  Proof.
    induction rs as [|r rs IH]; [intros []|]. intros [->|I]; cbn [app before]; [rewrite Z.eqb_refl; reflexivity|]. specialize (IH I). destruct r as [w|ws|q']; [rewrite IH; reflexivity|rewrite IH; reflexivity|].
    destruct (q' =? q); [reflexivity|]. rewrite IH. reflexivity.
  Qed.
  Lemma before_new q rs : ~ In (Ask q) rs -> before q rs = rs.
  Proof.
    induction rs as [|r rs IH]; intros N; [reflexivity|]. cbn [before]. assert (IH' : before q rs = rs) by (apply IH; intros X; apply N; right; exact X). destruct r as [w|ws|q']; [rewrite IH'; reflexivity|rewrite IH'; reflexivity|].
    destruct (Z.eqb_spec q' q) as [->|_]; [destruct N; left; reflexivity|]. rewrite IH'. reflexivity.
  Qed.
  Lemma before_snoc q rs r : r <> Ask q -> In (Ask q) (rs ++ [r]) -> before q (rs ++ [r]) = before q rs.
  Proof. intros N I. apply before_asked. apply in_app_iff in I as [I|[I|[]]]; [exact I|]. congruence. Qed.

  Lemma ask_step ws0 past b q b' acts : holds ws0 past b -> ask b q = Some (b', acts) -> holds ws0 (past ++ [Ask q]) b' /\
    exists plain, plain_of q plain /\ acts = rewritten (in_force ws0 (before q (past ++ [Ask q]))) q plain.
  Proof.
    intros (HW & HC & HS & HA & HK). unfold AskModel.ask. destruct (mfind Z.ltb q (ab_kept b)) as [kept|] eqn:K.
    - intros E. injection E as <- <-. assert (I : In (Ask q) past) by (apply HA; congruence). rewrite (before_asked _ _ _ I). split; [|apply HK, K].
      split; [rewrite in_force_app; exact HW|]. split; [exact HC|]. split; [exact HS|]. split.
      + intros q'. rewrite <- HA, in_app_iff. cbn [In]. split; [intros [X|[X|[]]]; [exact X|injection X as <-; exact I]|auto].
      + intros q' acts' K'. assert (I' : In (Ask q') past) by (apply HA; congruence). rewrite (before_asked _ _ _ I'). apply HK, K'.
    - destruct (actions_for_state _ _ _ _ _ _ _ _ _ _) as [[acts' c]|] eqn:E; [|discriminate]. intros X. injection X as <- <-. unfold actions_for_state in E.
      destruct (plain_actions rid first_of rules busy fuel m guards q (ab_cache b)) as [[plain0 c']|] eqn:EP; [|discriminate]. injection E as <- <-.
      destruct (plain_exact _ _ _ _ _ _ _ _ BU B _ _ _ _ _ HC EP) as (HC' & PS & PE).
      assert (N : ~ In (Ask q) past) by (intros X; apply HA in X; congruence).
      assert (BE : before q (past ++ [Ask q]) = past).
      { clear -N. induction past as [|r past IH]; cbn [app before]; [rewrite Z.eqb_refl; reflexivity|]. assert (IH' : before q (past ++ [Ask q]) = past) by (apply IH; intros X; apply N; right; exact X).
        destruct r as [w|ws|q']; [rewrite IH'; reflexivity|rewrite IH'; reflexivity|]. destruct (Z.eqb_spec q' q) as [->|_]; [destruct N; left; reflexivity|]. rewrite IH'. reflexivity. }
      assert (RW : exists plain, plain_of q plain /\ fold_left (fun s w => w q s) (ab_rewriters b) plain0 = rewritten (in_force ws0 (before q (past ++ [Ask q]))) q plain).
      { exists plain0. rewrite BE, <- HW. split; [exact (conj PS PE)|reflexivity]. }
      split; [|exact RW]. split; [cbn [ab_rewriters]; rewrite in_force_app; exact HW|]. split; [exact HC'|]. split; [apply mset_sorted; [apply Zltb_strict|exact HS]|]. cbn [ab_kept]. split.
      + intros q'. rewrite in_app_iff. cbn [In]. destruct (Z.eq_dec q' q) as [->|NE].
        * rewrite (mfind_mset_same _ Zltb_strict) by exact HS. split; [discriminate|auto].
        * rewrite (mfind_mset_other _ Zltb_strict) by (try exact HS; exact NE). rewrite <- HA. split; [intros [X|[X|[]]]; [exact X|congruence]|auto].
      + intros q' acts' K'. destruct (Z.eq_dec q' q) as [->|NE].
        * rewrite (mfind_mset_same _ Zltb_strict) in K' by exact HS. injection K' as <-. exact RW.
        * rewrite (mfind_mset_other _ Zltb_strict) in K' by (try exact HS; exact NE). assert (I' : In (Ask q') past) by (apply HA; congruence). rewrite (before_asked _ _ _ I'). apply HK, K'.
  Qed.

  Lemma other_step ws0 past b r : (forall q, r <> Ask q) -> holds ws0 past b ->
    holds ws0 (past ++ [r]) (match r with AddRewriter w => add_rewriter b w | SetRewriters ws => set_rewriters b ws | Ask _ => b end).
  Proof.
    intros N (HW & HC & HS & HA & HK). assert (G : forall ws, ws = in_force ws0 (past ++ [r]) -> holds ws0 (past ++ [r]) (mkAsked ws (ab_kept b) (ab_cache b))).
    { intros ws ->. split; [reflexivity|]. split; [exact HC|]. split; [exact HS|]. cbn [ab_kept]. split.
      - intros q. rewrite <- HA, in_app_iff. cbn [In]. split; [intros [X|[X|[]]]; [exact X|destruct (N q X)]|auto].
      - intros q acts K. assert (I : In (Ask q) past) by (apply HA; congruence). rewrite (before_asked _ _ _ I). apply HK, K. }
    destruct r as [w|ws|q]; [|apply G; rewrite in_force_app; reflexivity|destruct (N q eq_refl)]. apply G. rewrite in_force_app, <- HW. reflexivity.
  Qed.

  Lemma history_lemma ws0 rs : forall past b answers, holds ws0 past b -> history b rs = Some answers ->
    length answers = length rs /\ forall rs1 q rs2 as1 a as2, rs = rs1 ++ Ask q :: rs2 -> answers = as1 ++ a :: as2 -> length as1 = length rs1 ->
      exists acts, a = Some acts /\ exists plain, plain_of q plain /\ acts = rewritten (in_force ws0 (before q (past ++ rs))) q plain.
  Proof.
    induction rs as [|r rs IH]; intros past b answers H.
    - intros E. injection E as <-. split; [reflexivity|]. intros [|] ? ? ? ? ?; discriminate.
    - assert (G : forall b' a0 rest, holds ws0 (past ++ [r]) b' -> history b' rs = Some rest -> answers = a0 :: rest ->
        (forall q, r = Ask q -> exists acts, a0 = Some acts /\ exists plain, plain_of q plain /\ acts = rewritten (in_force ws0 (before q (past ++ [r]))) q plain) ->
        length answers = length (r :: rs) /\ forall rs1 q rs2 as1 a as2, r :: rs = rs1 ++ Ask q :: rs2 -> answers = as1 ++ a :: as2 -> length as1 = length rs1 ->
          exists acts, a = Some acts /\ exists plain, plain_of q plain /\ acts = rewritten (in_force ws0 (before q (past ++ r :: rs))) q plain).
      { intros b' a0 rest H' E' -> A0. destruct (IH (past ++ [r]) b' rest H' E') as (L & X). split; [cbn [length]; lia|]. intros rs1 q rs2 as1 a as2 ER EA EL. destruct rs1 as [|r1 rs1].
        - destruct as1; [|discriminate]. injection ER as -> <-. injection EA as <- <-. destruct (A0 q eq_refl) as (acts & -> & Y). exists acts. split; [reflexivity|].
          assert (EQ : before q (past ++ Ask q :: rs) = before q (past ++ [Ask q])); [|rewrite EQ; exact Y].
          replace (past ++ Ask q :: rs) with ((past ++ [Ask q]) ++ rs) by (rewrite <- app_assoc; reflexivity). apply before_asked, in_app_iff. right. left. reflexivity.
        - destruct as1 as [|a1 as1]; [discriminate|]. injection ER as <- ->. injection EA as <- ->. destruct (X rs1 q rs2 as1 a as2 eq_refl eq_refl ltac:(cbn in EL; lia)) as (acts & EA & Y). exists acts. split; [exact EA|].
          rewrite <- app_assoc in Y. exact Y. }
      destruct r as [w|ws|q]; cbn [AskModel.history]; intros E.
      + destruct (history (add_rewriter b w) rs) as [rest|] eqn:E'; [|discriminate]. injection E as <-. eapply G; [|exact E'|reflexivity|discriminate]. apply (other_step ws0 past b (AddRewriter w)); [discriminate|exact H].
      + destruct (history (set_rewriters b ws) rs) as [rest|] eqn:E'; [|discriminate]. injection E as <-. eapply G; [|exact E'|reflexivity|discriminate]. apply (other_step ws0 past b (SetRewriters ws)); [discriminate|exact H].
      + destruct (ask b q) as [[b' acts]|] eqn:EA; [|discriminate]. destruct (history b' rs) as [rest|] eqn:E'; [|discriminate]. injection E as <-. destruct (ask_step ws0 past b q b' acts H EA) as (H' & Y).
        eapply G; [exact H'|exact E'|reflexivity|]. intros q' EQ. injection EQ as <-. exists acts. auto.
  Qed.

  Lemma fresh_holds ws c : cache_ok rid first_of rules u (fst c) -> holds ws [] (mkAsked ws [] c).
  Proof. intros C. split; [reflexivity|]. split; [exact C|]. split; [constructor|]. split; [intros q; cbn; split; [intros []|congruence]|]. discriminate. Qed.
End Ask.

(** The rewriters in force do not change between questions. *)
Lemma in_force_asks qs ws : in_force ws (map Ask qs) = ws.
Proof. induction qs; cbn [map in_force]; auto. Qed.
Lemma settled_before rs ws q : settled rs -> In (Ask q) rs -> in_force ws (before q rs) = in_force ws rs.
Proof.
  intros (rs1 & qs & -> & N) I. assert (B : before q (rs1 ++ map Ask qs) = rs1 ++ before q (map Ask qs)).
  { clear I. induction rs1 as [|r rs1 IH]; [reflexivity|]. cbn [app before]. rewrite IH by (intros r' X; apply N; right; exact X). specialize (N r (or_introl eq_refl)). destruct r; [reflexivity|reflexivity|destruct N]. }
  rewrite B, !in_force_app, in_force_asks. assert (X : forall ws', in_force ws' (before q (map Ask qs)) = ws'); [|apply X].
  induction qs as [|q' qs' IH]; intros ws'; cbn [map before in_force]; [reflexivity|]. destruct (q' =? q); [reflexivity|]. cbn [in_force]. clear -q. revert ws'. induction qs' as [|q2 qs' IH]; intros ws'; cbn [map before in_force]; [reflexivity|]. destruct (q2 =? q); [reflexivity|]. apply IH.
Qed.

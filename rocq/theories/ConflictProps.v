(** C36: the conflicts that are reported. *)
From Verif Require Import Base OrdMap GrammarModel GrammarProofs FirstModel FirstProofs FollowModel FollowSpec FollowProofs FollowProps LrItemModel LrItemProofs ClosureModel ClosureSpec ClosureProofs ClosureTermProofs ClosureProps MachineModel MachineProofs BuilderModel BuilderSpec BuilderProofs BuilderLookProofs BuilderTermProofs BuilderProps ActionModel ActionSpec ActionProofs ActionProps TableModel TableProofs TableProps RunModel RunSpec RunProofs RunTableProofs RunTool RunProps RewriteModel RewriteSpec RewriteProofs RewriteProps ConflictModel ConflictSpec ConflictProofs.
Local Open Scope Z_scope.

Lemma disjoint_nodup {A} (l l' : list A) : NoDup l -> NoDup l' -> (forall x, In x l -> In x l' -> False) -> NoDup (l ++ l').
Proof.
  induction l as [|a l IH]; intros N N' D; [exact N'|]. inversion N as [|? ? X Y]; subst. cbn. constructor; [|apply IH; [exact Y|exact N'|intros x I; apply D; right; exact I]]. intros I. apply in_app_iff in I. destruct I as [I|I]; [contradiction|]. eapply D; [left; reflexivity|exact I].
Qed.
Lemma kernel_items_unique rid s k la la' : injective rid -> state_ok rid s -> In (k, la) (kernel_items s) -> In (k, la') (kernel_items s) -> la = la'.
Proof.
  intros RI OK H H'. assert (G : forall (l : list lr0) (lo : list iset) x, In (k, x) (combine l lo) -> exists n, nth_error l n = Some k /\ nth_error lo n = Some x).
  { induction l as [|a l IH]; intros [|b lo] x X; try destruct X; [injection H0 as -> ->; exists 0%nat; auto|]. destruct (IH _ _ H0) as (n & A & C). exists (S n). auto. }
  destruct (G _ _ _ H) as (n & N1 & N2). destruct (G _ _ _ H') as (n' & M1 & M2). apply (find_in rid RI _ _ _ OK) in N1. apply (find_in rid RI _ _ _ OK) in M1. assert (n = n') by congruence. congruence.
Qed.
Section Built.
  Context (rid : rule -> Z) (first_of : item -> iset) (rules : Z -> list (list item)) (u : item -> Prop) (busy : nat -> list item -> item -> bool) (sources : Z -> Z -> item -> list lid) (languages : list item) (m : machine) (guards : guard_states).
  Context (BU : buildable rid first_of rules u languages) (B : built rid first_of rules u busy languages m guards).
  Notation shifts := (shift_reason rules first_of (kernel m)).
  Notation reduces := (reduce_reason rules first_of languages (kernel m) (step m)).
  Notation cok c := (cache_ok rid first_of rules u (fst c)).

  Lemma describe_exact fuel q s x c found c' : state_with_id q m = Some s -> cok c -> describe rid first_of rules busy sources fuel q s x c = Some (found, c') ->
    cok c' /\ ((found = [] /\ forall k, ~ shifts q x k /\ ~ reduces q x k) \/
               exists f, found = [f] /\ f_state f = q /\ f_token f = x /\ (forall k, In k (f_shift f) <-> shifts q x k) /\ (forall k, In k (map fst (f_reduce f)) <-> reduces q x k) /\ exists k, shifts q x k \/ reduces q x k).
  Proof.
    intros S CO H. unfold describe in H. destruct (generate_closure rid first_of rules busy fuel fuel (kernel_items s) c) as [[cl c1]|] eqn:GC; [|discriminate H]. pose proof (built_kernel_of _ _ _ _ _ _ _ _ BU B q s S) as KO. pose proof BU as [RI FO UO GU LU].
    apply (generate_closure_exact rid RI first_of FO rules u UO busy (kernel_items s) (fun k la X => proj1 (KO k la X)) (fun k la X => proj2 (KO k la X))) in GC; [|exact CO]. destruct GC as (CO1 & OK & CI & _).
    destruct (state_reduces rid first_of rules busy sources fuel q x 0 (kernel_items s) [] c1) as [[r c2]|] eqn:SR; [|discriminate H]. apply (state_reduces_keys rid RI first_of FO rules u UO busy sources fuel q x (kernel_items s) KO) in SR; [|constructor|exact CO1]. destruct SR as (CO2 & _ & RK).
    assert (SH : forall k, In k (shift_items rid first_of x cl) <-> shifts q x k).
    { intros k. rewrite (shift_items_in rid RI first_of FO). unfold shift_reason. assert (CE : closure_item rules (kernel m q) k <-> exists la, In (k, la) cl). { rewrite (entry_iff rid RI _ _ OK), CI. symmetry. apply (closure_item_ext rules). exact (built_in_list _ _ _ _ _ _ _ _ BU B q s S). } rewrite CE. split; [intros (la & i & rest & X & Y); split; eauto|intros [(la & X) (i & rest & Y)]; eauto]. }
    assert (RE : forall k, In k (map fst r) <-> reduces q x k).
    { intros k. assert (E : In k (map fst r) <-> exists ids, In (k, ids) r). { rewrite in_map_iff. split; [intros ([k0 ids] & <- & X); eauto|intros (ids & X); exists (k, ids); auto]. } rewrite E, RK. clear E.
      assert (LL : closure_look rules first_of (ClosureProps.in_list (kernel_items s)) (ClosureProps.looked (kernel_items s)) k x <-> lalr_look rules first_of languages Z (kernel m) (step m) q k x).
      { split; intros L; [apply (closed_looks first_of rules languages m q k x)|apply (looks_closed _ _ _ _ _ _ _ _ BU B) in L]; (eapply (closure_look_ext first_of rules); [| |exact L]); intros; try (apply (built_in_list _ _ _ _ _ _ _ _ BU B q s S)); try (apply (built_looked _ _ _ _ _ _ _ _ BU B q s S)); try (symmetry; apply (built_in_list _ _ _ _ _ _ _ _ BU B q s S)); try (symmetry; apply (built_looked _ _ _ _ _ _ _ _ BU B q s S)). }
      unfold reduce_reason, complete_on. rewrite <- LL, (closure_split first_of rules (ClosureProps.in_list (kernel_items s)) (ClosureProps.looked (kernel_items s))) by (intros k0 y (la & X & _); exists la; exact X). split.
      - intros [(ids & [])|(k0 & la & X & AE & Y)].
        assert (C : closure_item rules (kernel m q) k). { assert (K0 : kernel m q k0) by (apply (built_in_list _ _ _ _ _ _ _ _ BU B q s S); exists la; exact X). clear -Y K0. induction Y as [k x [-> _]|k y rest r x X A E Bg|k y rest r x X IH A E S]; [apply in_kernel, K0| |eapply in_step; eassumption]. eapply in_step; [|exact A|exact E]. clear -X K0. induction X as [k ->|k y rest r X IH A E]; [apply in_kernel, K0|eapply in_step; eassumption]. }
        split; [exact C|]. split; [exact AE|]. exists k0. split; [exists la; exact X|]. clear -Y X. induction Y as [k x [-> Hx]|k y rest r x X' A E Bg|k y rest r x X' IH A E S]; [apply look_kernel; split; [reflexivity|exists la; auto]|eapply look_begins; eassumption|eapply look_passed; eassumption].
      - intros (C & AE & k0 & (la & X) & Y). right. exists k0, la. split; [exact X|]. split; [exact AE|]. clear -Y X KO RI S BU B. induction Y as [k x [-> (la' & X' & Hx)]|k y rest r x X' A E Bg|k y rest r x X' IH A E SK]; [apply look_kernel; split; [reflexivity|]|eapply look_begins; eassumption|eapply look_passed; eassumption].
        replace la with la'; [exact Hx|]. pose proof (built_state_ok _ _ _ _ _ _ _ _ BU B q s S) as SO. eapply kernel_items_unique; eassumption. }
    set (sh := shift_items rid first_of x cl) in *. destruct sh as [|k0 sh'] eqn:ES.
    - destruct r as [|[k1 ids] r'] eqn:ER.
      + injection H as <- <-. split; [exact CO2|]. left. split; [reflexivity|]. intros k. rewrite <- SH, <- RE. cbn [In map]. tauto.
      + injection H as <- <-. split; [exact CO2|]. right. eexists. split; [reflexivity|]. split; [reflexivity|]. split; [reflexivity|]. split; [exact SH|]. split; [exact RE|]. exists k1. right. apply RE. left. reflexivity.
    - injection H as <- <-. split; [exact CO2|]. right. eexists. split; [reflexivity|]. split; [reflexivity|]. split; [reflexivity|]. split; [exact SH|]. split; [exact RE|]. exists k0. left. apply SH. left. reflexivity.
  Qed.

  (** What is reported for a state *)
  Definition right_conflict (f : conflict) : Prop :=
    (forall k, In k (f_shift f) <-> shifts (f_state f) (f_token f) k) /\ (forall k, In k (map fst (f_reduce f)) <-> reduces (f_state f) (f_token f) k).
  Definition has_reason (q : Z) (x : item) : Prop := exists k, shifts q x k \/ reduces q x k.
  Lemma describe_all_exact fuel q s : state_with_id q m = Some s -> forall groups c found c', NoDup (map fst groups) -> cok c -> describe_all rid first_of rules busy sources fuel q s groups c = Some (found, c') ->
    cok c' /\ (forall f, In f found -> right_conflict f /\ f_state f = q) /\ (forall x, In x (map f_token found) <-> (exists l, In (x, l) groups /\ clashes l = true) /\ has_reason q x) /\ NoDup (map f_token found).
  Proof.
    intros S. induction groups as [|[x l] groups IH]; intros c found c' ND CO H; cbn [describe_all] in H.
    - injection H as <- <-. split; [exact CO|]. split; [intros f []|]. split; [|constructor]. intros x. cbn. split; [intros []|intros [(l & [] & _) _]].
    - cbn [map fst] in ND. inversion ND as [|? ? NI ND']; subst. destruct (clashes l) eqn:CL.
      + destruct (describe rid first_of rules busy sources fuel q s x c) as [[fd c1]|] eqn:D; [|discriminate H]. destruct (describe_all rid first_of rules busy sources fuel q s groups c1) as [[more c2]|] eqn:DA; [|discriminate H]. injection H as <- <-.
        apply (describe_exact fuel q s x) in D; [|exact S|exact CO]. destruct D as [CO1 D]. apply IH in DA; [|exact ND'|exact CO1]. destruct DA as (CO2 & R2 & T2 & N2). split; [exact CO2|].
        assert (NX : ~ In x (map f_token more)). { intros X. apply T2 in X. destruct X as [(l' & X & _) _]. apply NI. apply in_map_iff. exists (x, l'). auto. }
        destruct D as [[-> NR]|(f & -> & FS & FT & FH & FR & k & RK)].
        * cbn [app]. split; [exact R2|]. split; [|exact N2]. intros y. rewrite T2. split; [intros [(l' & X & Y) Z]; split; [exists l'; split; [right; exact X|exact Y]|exact Z]|]. intros [(l' & [X|X] & Y) Z]; [|split; [exists l'; auto|exact Z]]. injection X as <- <-. destruct Z as (k & [Z|Z]); destruct (NR k); contradiction.
        * cbn [app map In]. split; [|split].
          -- intros f' [<-|X]; [|apply R2, X]. split; [|exact FS]. unfold right_conflict. rewrite FS, FT. auto.
          -- intros y. rewrite T2, FT. split.
             ++ intros [<-|[(l' & X & Y) Z]]; [split; [exists l; auto|exists k; exact RK]|split; [exists l'; auto|exact Z]].
             ++ intros [(l' & [X|X] & Y) Z]; [left; congruence|right; split; [exists l'; auto|exact Z]].
          -- constructor; [rewrite FT; exact NX|exact N2].
      + apply IH in H; [|exact ND'|exact CO]. destruct H as (CO2 & R2 & T2 & N2). split; [exact CO2|]. split; [exact R2|]. split; [|exact N2]. intros y. rewrite T2. split; [intros [(l' & X & Y) Z]; split; [exists l'; split; [right; exact X|exact Y]|exact Z]|]. intros [(l' & [X|X] & Y) Z]; [congruence|split; [exists l'; auto|exact Z]].
  Qed.
  Lemma sorted_map_keys {V} (g : list (item * V)) : msorted item_ltb g -> NoDup (map fst g).
  Proof. intros S. apply sorted_keys in S. apply (BuilderProofs.sorted_nodup _ item_strict), S. Qed.
  Lemma state_exact fuel q acts c found c' : ssorted action_ltb acts -> cok c -> state_conflicts rid first_of rules busy sources fuel m q acts c = Some (found, c') ->
    cok c' /\ (forall f, In f found -> right_conflict f /\ f_state f = q) /\ (forall x, In x (map f_token found) <-> clash (fun a => In a acts) x /\ has_reason q x) /\ NoDup (map f_token found).
  Proof.
    intros SA CO H. unfold state_conflicts in H. destruct (state_with_id q m) as [s|] eqn:S; [|discriminate H]. destruct (group_spec contends acts) as [GS GI]. apply describe_all_exact in H; [|exact S|apply sorted_map_keys, GS|exact CO]. destruct H as (CO' & R & T & N). split; [exact CO'|]. split; [exact R|]. split; [|exact N].
    intros x. rewrite T, <- (clashes_spec acts x SA). split.
    - intros [(l & G & C) Z]. apply GI in G. destruct G as [-> _]. auto.
    - intros [C Z]. split; [|exact Z]. exists (for_item contends x acts). split; [|exact C]. apply GI. split; [reflexivity|]. intros E. rewrite E in C. discriminate C.
  Qed.
  (** The actions of the state [q] after the rewriters [ws] *)
  Definition rewritten_actions (ws : list rewriter) (q : Z) (a : action) : Prop :=
    exists acts, ssorted action_ltb acts /\ (forall b, In b acts <-> lalr_action rules first_of languages (kernel m) (step m) q b) /\ In a (fold_left (fun s w => w q s) ws acts).
  Definition orderly (w : rewriter) : Prop := forall q acts, ssorted action_ltb acts -> ssorted action_ltb (w q acts).
  Lemma rewritten_sorted ws q : Forall orderly ws -> forall acts, ssorted action_ltb acts -> ssorted action_ltb (fold_left (fun s w => w q s) ws acts).
  Proof. induction 1 as [|w ws O F IH]; intros acts S; [exact S|]. cbn [fold_left]. apply IH, O, S. Qed.
  Lemma conflicts_exact fuel ws : Forall orderly ws -> forall qs c found c', NoDup qs -> cok c -> conflicts_in rid first_of rules busy sources fuel m guards ws qs c = Some (found, c') ->
    cok c' /\ (forall f, In f found -> right_conflict f) /\ (forall q x, In (q, x) (map (fun f => (f_state f, f_token f)) found) <-> In q qs /\ clash (rewritten_actions ws q) x /\ has_reason q x) /\ NoDup (map (fun f => (f_state f, f_token f)) found) /\
    forall q, In q qs -> exists acts, ssorted action_ltb acts /\ forall b, In b acts <-> lalr_action rules first_of languages (kernel m) (step m) q b.
  Proof.
    intros OW. induction qs as [|q qs IH]; intros c found c' ND CO H; cbn [conflicts_in] in H.
    - injection H as <- <-. split; [exact CO|]. split; [intros f []|]. split; [intros q x; cbn; tauto|]. split; [constructor|intros q []].
    - inversion ND as [|? ? NI ND']; subst. unfold actions_for_state in H. destruct (plain_actions rid first_of rules busy fuel m guards q c) as [[acts c1]|] eqn:PA; [|discriminate H]. apply (plain_exact _ _ _ _ _ _ _ _ BU B) in PA; [|exact CO]. destruct PA as (CO1 & SA & EA).
      destruct (state_conflicts _ _ _ _ _ _ _ _ _ c1) as [[fd c2]|] eqn:SC; [|discriminate H]. destruct (conflicts_in rid first_of rules busy sources fuel m guards ws qs c2) as [[more c3]|] eqn:CI; [|discriminate H]. injection H as <- <-.
      apply state_exact in SC; [|apply rewritten_sorted; assumption|exact CO1]. destruct SC as (CO2 & R1 & T1 & N1). apply IH in CI; [|exact ND'|exact CO2]. destruct CI as (CO3 & R2 & T2 & N2 & E2). split; [exact CO3|].
      assert (SAME : forall x, clash (fun a => In a (fold_left (fun s w => w q s) ws acts)) x <-> clash (rewritten_actions ws q) x).
      { assert (E : forall a, In a (fold_left (fun s w => w q s) ws acts) <-> rewritten_actions ws q a).
        { intros a. split; [intros I; exists acts; auto|]. intros (acts' & S' & E' & I). replace acts with acts'; [exact I|]. apply (ssorted_ext _ action_strict); [exact S'|exact SA|]. intros b. rewrite EA. apply E'. }
        intros x. split; intros (a & b & A1 & B1 & Y); exists a, b; (split; [apply E, A1|]; split; [apply E, B1|exact Y]). }
      assert (P1 : forall q' x, In (q', x) (map (fun f => (f_state f, f_token f)) fd) <-> q' = q /\ In x (map f_token fd)).
      { intros q' x. rewrite !in_map_iff. split; [intros (f & E & I); destruct (R1 f I) as [_ F]; split; [congruence|exists f; split; [congruence|exact I]]|intros [-> (f & E & I)]; exists f; destruct (R1 f I) as [_ F]; split; [congruence|exact I]]. }
      split; [intros f I; apply in_app_iff in I; destruct I as [I|I]; [apply R1, I|apply R2, I]|]. split.
      + intros q' x. rewrite map_app, in_app_iff, P1, T1, T2, SAME. cbn [In]. split.
        * intros [(-> & X & Y)|(X & Y)]; auto.
        * intros ([<-|X] & Y & Z); auto.
      + split; [|intros q' [<-|I]; [exists acts; auto|apply E2, I]]. rewrite map_app. apply disjoint_nodup; [|exact N2|].
        * clear -N1 R1. induction fd as [|f fd IH]; [constructor|]. cbn [map] in *. inversion N1 as [|? ? X Y]; subst. constructor; [|apply IH; [intros f' I; apply R1; right; exact I|exact Y]]. intros I. apply X. apply in_map_iff in I. destruct I as (f' & E & I). apply in_map_iff. exists f'. split; [congruence|exact I].
        * intros [q' x] X Y. apply P1 in X. destruct X as [-> _]. apply T2 in Y. destruct Y as [Y _]. contradiction.
  Qed.
End Built.

Lemma state_ids_once m : NoDup (state_ids m).
Proof. unfold state_ids. apply FinFun.Injective_map_NoDup; [intros a b; lia|apply seq_NoDup]. Qed.
Lemma state_ids_state m q : In q (state_ids m) <-> is_state m q.
Proof.
  rewrite state_ids_in. unfold is_state. split.
  - intros (l & K). destruct (kern_with_id m q l K) as (s & S & _). congruence.
  - destruct (state_with_id q m) as [s|] eqn:S; [|congruence]. intros _. exists (st_list s). apply with_id_kern, S.
Qed.
Section Reported.
  Context (rid : rule -> Z) (first_of : item -> iset) (rules : Z -> list (list item)) (u : item -> Prop) (busy : nat -> list item -> item -> bool) (sources : Z -> Z -> item -> list lid) (languages : list item) (m : machine) (guards : guard_states).
  Context (BU : buildable rid first_of rules u languages) (B : built rid first_of rules u busy languages m guards).
  Notation has := (lalr_action rules first_of languages (kernel m) (step m)).
  Lemma step_one q x t t' : step m q x t -> step m q x t' -> t = t'.
  Proof. intros A C. destruct (C54_transitions_partial _ _ _ _ _ _ _ _ BU B) as (_ & _ & T). eapply T; eassumption. Qed.
  (** A clash of actions that have not been rewritten has a reduction in it. *)
  Lemma plain_clash q x : clash (has q) x <-> shift_reduce (has q) x \/ reduce_reduce (has q) x.
  Proof.
    split.
    - intros (a & b & A & C & N & AX & BX & DA & DB).
      assert (T : forall a, has q a -> decisive a -> (a_type a = Shift /\ exists t, a = mkAction Shift (a_item a) t no_rule /\ step m q (a_item a) t) \/ a_type a = Reduce).
      { clear. intros a A D. destruct A; cbn in *; unfold decisive in D; cbn in D; try (destruct D as [D|[D|[D|D]]]; discriminate D); eauto. }
      destruct (T a A DA) as [(TA & ta & EA & SA)|TA], (T b C DB) as [(TB & tb & EB & SB)|TB].
      + exfalso. apply N. rewrite EA, EB. rewrite AX in *. rewrite BX in *. f_equal. eapply step_one; eassumption.
      + left. exists a, b. auto 10.
      + left. exists b, a. auto 10.
      + right. exists a, b. auto 10.
    - unfold clash, decisive. intros [(a & b & A & C & AX & BX & TA & TB)|(a & b & A & C & N & AX & BX & TA & TB)]; exists a, b.
      + repeat (split; [assumption|]). split; [intros ->; congruence|]. tauto.
      + tauto.
  Qed.
  Lemma plain_reason q x : clash (has q) x -> has_reason first_of rules languages m q x.
  Proof.
    intros C. apply plain_clash in C. assert (R : exists b, has q b /\ a_item b = x /\ a_type b = Reduce) by (destruct C as [(a & b & A & C & AX & BX & TA & TB)|(a & b & A & C & N & AX & BX & TA & TB)]; exists b; auto).
    destruct R as (b & A & E & T). destruct A as [| |k y CK| |]; try discriminate T. cbn in E. subst y. exists k. right. exact CK.
  Qed.
End Reported.

(** The conflicts that are reported for the actions of the builder: for each state and symbol, one if the
    actions for the symbol are a shift and a reduction or several reductions, and none otherwise.
    Missing: as in C55, grammars whose rules contain the empty item or the end of input. *)
Theorem C36_exact_partial : forall rid first_of rules u busy sources languages m guards fuel c found c',
  buildable rid first_of rules u languages -> built rid first_of rules u busy languages m guards -> any_calls rid first_of rules u busy c ->
  find_conflicts rid first_of rules busy sources fuel m guards [] c = Some (found, c') ->
  (forall q x, In (q, x) (map (fun f => (f_state f, f_token f)) found) <->
     is_state m q /\ (shift_reduce (lalr_action rules first_of languages (kernel m) (step m) q) x \/ reduce_reduce (lalr_action rules first_of languages (kernel m) (step m) q) x)) /\
  NoDup (map (fun f => (f_state f, f_token f)) found).
Proof.
  intros rid first_of rules u busy sources languages m guards fuel c found c' BU B A H. pose proof (any_calls_ok _ _ _ _ _ _ (bu_ids _ _ _ _ _ BU) (bu_first _ _ _ _ _ BU) (bu_ordinary _ _ _ _ _ BU) (bu_guards _ _ _ _ _ BU) A) as CO.
  apply (conflicts_exact _ _ _ _ _ _ _ _ _ BU B fuel [] (Forall_nil _)) in H; [|apply state_ids_once|exact CO]. destruct H as (_ & _ & T & N & E). split; [|exact N]. intros q x. rewrite T, state_ids_state, <- (plain_clash rid first_of rules u busy sources languages m guards BU B). split.
  - intros (S & (a & b & (l & _ & L & I) & (l' & _ & L' & I') & X) & _). split; [exact S|]. exists a, b. split; [apply L, I|]. split; [apply L', I'|exact X].
  - intros (S & X). split; [exact S|]. split; [|eapply plain_reason; eassumption]. apply state_ids_state in S. destruct (E q S) as (acts & SA & EA). destruct X as (a & b & A1 & B1 & X). exists a, b. split; [exists acts; split; [exact SA|]; split; [exact EA|apply EA, A1]|]. split; [exists acts; split; [exact SA|]; split; [exact EA|apply EA, B1]|exact X].
Qed.
Print Assumptions C36_exact_partial.
(** What a conflict names: the items of the state that lead to a shift of the symbol, and those that are
    reduced when it follows. *)
Theorem C36_items_partial : forall rid first_of rules u busy sources languages m guards rewriters fuel c found c',
  buildable rid first_of rules u languages -> built rid first_of rules u busy languages m guards -> any_calls rid first_of rules u busy c ->
  (forall w q acts, In w rewriters -> ssorted action_ltb acts -> ssorted action_ltb (w q acts)) ->
  find_conflicts rid first_of rules busy sources fuel m guards rewriters c = Some (found, c') ->
  forall f, In f found ->
  (forall k, In k (f_shift f) <-> shift_reason rules first_of (kernel m) (f_state f) (f_token f) k) /\
  (forall k, In k (map fst (f_reduce f)) <-> reduce_reason rules first_of languages (kernel m) (step m) (f_state f) (f_token f) k).
Proof.
  intros rid first_of rules u busy sources languages m guards rewriters fuel c found c' BU B A OW H. pose proof (any_calls_ok _ _ _ _ _ _ (bu_ids _ _ _ _ _ BU) (bu_first _ _ _ _ _ BU) (bu_ordinary _ _ _ _ _ BU) (bu_guards _ _ _ _ _ BU) A) as CO.
  apply (conflicts_exact _ _ _ _ _ _ _ _ _ BU B fuel rewriters) in H; [|apply Forall_forall; intros w I q acts; apply OW, I|apply state_ids_once|exact CO]. apply H.
Qed.
Print Assumptions C36_items_partial.
(** After any rewriters: a conflict is reported for the symbols that two decisive actions are left for,
    as long as some item of the grammar leads to one of them. *)
Theorem C36_rewritten_partial : forall rid first_of rules u busy sources languages m guards rewriters fuel c found c',
  buildable rid first_of rules u languages -> built rid first_of rules u busy languages m guards -> any_calls rid first_of rules u busy c ->
  (forall w q acts, In w rewriters -> ssorted action_ltb acts -> ssorted action_ltb (w q acts)) ->
  find_conflicts rid first_of rules busy sources fuel m guards rewriters c = Some (found, c') ->
  (forall q x, In (q, x) (map (fun f => (f_state f, f_token f)) found) <->
     is_state m q /\ clash (rewritten_actions first_of rules languages m rewriters q) x /\
     exists k, shift_reason rules first_of (kernel m) q x k \/ reduce_reason rules first_of languages (kernel m) (step m) q x k) /\
  NoDup (map (fun f => (f_state f, f_token f)) found).
Proof.
  intros rid first_of rules u busy sources languages m guards rewriters fuel c found c' BU B A OW H. pose proof (any_calls_ok _ _ _ _ _ _ (bu_ids _ _ _ _ _ BU) (bu_first _ _ _ _ _ BU) (bu_ordinary _ _ _ _ _ BU) (bu_guards _ _ _ _ _ BU) A) as CO.
  apply (conflicts_exact _ _ _ _ _ _ _ _ _ BU B fuel rewriters) in H; [|apply Forall_forall; intros w I q acts; apply OW, I|apply state_ids_once|exact CO]. destruct H as (_ & _ & T & N & _). split; [|exact N]. intros q x. rewrite T, state_ids_state. reflexivity.
Qed.
Print Assumptions C36_rewritten_partial.

(** Rewriters that add no decisive actions: all but that for weak symbols *)
Definition resolving (w : rewriter) : Prop := forall q acts, ssorted action_ltb acts -> ssorted action_ltb (w q acts) /\ forall a, In a (w q acts) -> decisive a -> In a acts.
Lemma not_decisive a b : weakened b a -> ~ decisive a.
Proof. intros -> [D|[D|[D|D]]]; discriminate D. Qed.
Lemma ignored_resolving symbols : resolving (ignored_rewrite (ignoring symbols)).
Proof.
  intros q acts S. destruct (C32_actions symbols q acts) as [S' E]. split; [exact S'|]. intros a I D. apply E in I. destruct I as [I _|b _ _ _ W|i _ _ ->]; [exact I|destruct (not_decisive _ _ W D)|]. destruct D as [D|[D|[D|D]]]; discriminate D.
Qed.
Lemma precedence_resolving precedence assoc state_items : resolving (precedence_rewrite precedence assoc state_items).
Proof. intros q acts S. destruct (C34_actions precedence assoc state_items q acts S) as [S' E]. split; [exact S'|]. intros a I _. apply E in I. apply I. Qed.
Lemma attribute_resolving closure attribute : resolving (attribute_rewrite closure attribute).
Proof. intros q acts S. destruct (C35_actions closure attribute q acts S) as [S' E]. split; [exact S'|]. intros a I D. apply E in I. destruct I as [I _ _ _|b _ _ _ W]; [exact I|destruct (not_decisive _ _ W D)]. Qed.
Lemma lr1_resolving state_looks sources : (forall q k la, In (k, la) (state_looks q) -> ssorted item_ltb la) -> resolving (lr1_rewrite state_looks sources).
Proof. intros LO q acts S. destruct (C57_actions_partial state_looks sources q acts LO S) as [S' E]. split; [exact S'|]. intros a I D. apply E in I. destruct I as [I _|b _ _ W]; [exact I|destruct (not_decisive _ _ W D)]. Qed.

(** After the rewriters that resolve conflicts: the conflicts that are left are all reported, and only
    those. *)
Theorem C36_resolved_partial : forall rid first_of rules u busy sources languages m guards rewriters fuel c found c',
  buildable rid first_of rules u languages -> built rid first_of rules u busy languages m guards -> any_calls rid first_of rules u busy c ->
  (forall w, In w rewriters -> resolving w) ->
  find_conflicts rid first_of rules busy sources fuel m guards rewriters c = Some (found, c') ->
  forall q x, In (q, x) (map (fun f => (f_state f, f_token f)) found) <-> is_state m q /\ clash (rewritten_actions first_of rules languages m rewriters q) x.
Proof.
  intros rid first_of rules u busy sources languages m guards rewriters fuel c found c' BU B A OW H q x. destruct (C36_rewritten_partial _ _ _ _ _ _ _ _ _ _ _ _ _ _ BU B A (fun w q acts I S => proj1 (OW w I q acts S)) H) as [T _]. rewrite T. split; [intros (S & C & _); auto|]. intros [S C]. split; [exact S|]. split; [exact C|].
  eapply (plain_reason rid first_of rules u busy sources languages m guards BU B). destruct C as (a & b & (l & SL & L & I) & (l' & SL' & L' & I') & N & AX & BX & DA & DB).
  assert (G : forall ws l a, (forall w, In w ws -> resolving w) -> ssorted action_ltb l -> In a (fold_left (fun s w => w q s) ws l) -> decisive a -> In a l).
  { induction ws as [|w ws IH]; intros l0 a0 R S0 I0 D0; [exact I0|]. cbn [fold_left] in I0. destruct (R w (or_introl eq_refl) q l0 S0) as [S1 K]. apply K; [|exact D0]. eapply IH; [intros w' W'; apply R; right; exact W'|exact S1|exact I0|exact D0]. }
  exists a, b. split; [apply L; eapply G; eassumption|]. split; [apply L'; eapply G; eassumption|]. auto 10.
Qed.
Print Assumptions C36_resolved_partial.

(** The search ends, for a grammar with finitely many items in which no guard starts with itself. *)
Section Ends.
  Context (rid : rule -> Z) (first_of : item -> iset) (rules : Z -> list (list item)) (us : list item) (busy : nat -> list item -> item -> bool) (width : nat) (sources : Z -> Z -> item -> list lid) (languages : list item) (m : machine) (guards : guard_states).
  Context (BU : buildable rid first_of rules (fun i => In i us) languages) (B : built rid first_of rules (fun i => In i us) busy languages m guards).
  Context (BB : forall n stack i, (width <= count_occ item_dec stack i)%nat -> busy n stack i = true).
  Notation cok c := (cache_ok rid first_of rules (fun i => In i us) (fst c)).
  Lemma state_reduces_ends la0 fuel q x kernel : (enough_fuel first_of rules us la0 width <= fuel)%nat -> (forall k la, In (k, la) kernel -> calm first_of us la0 k la) -> forall n r c, cok c -> state_reduces rid first_of rules busy sources fuel q x n kernel r c <> None.
  Proof.
    intros F. induction kernel as [|[k la] kernel IH]; intros KC n r c CO; cbn [state_reduces]; [discriminate|]. assert (KC' : forall k la, In (k, la) kernel -> calm first_of us la0 k la) by (intros; apply KC; right; assumption). destruct (KC k la (or_introl eq_refl)) as (KU & SL & KL). destruct BU as [RI FO UO GU LU].
    destruct (after_dot k) as [|i rest] eqn:A; [apply IH; assumption|]. destruct (cache_closure rid first_of rules busy fuel [] i k la [] c) as [[items c1]|] eqn:CC.
    - apply (cached_exact rid RI first_of FO rules _ UO busy fuel i rest) in CC; [|apply KU; left; reflexivity|exact A|exact SL|exact CO]. apply IH; [exact KC'|apply CC].
    - exfalso. revert CC. eapply (cache_closure_some rid RI first_of FO rules us la0 UO busy width BB); [exact F|exact A| |apply lr1_ok_nil|exact CO]. split; [rewrite A; exact KU|auto].
  Qed.
  Lemma state_conflicts_ends q s : state_with_id q m = Some s -> exists fuel0, forall fuel acts c, (fuel0 <= fuel)%nat -> cok c -> state_conflicts rid first_of rules busy sources fuel m q acts c <> None.
  Proof.
    intros S. set (la0 := concat (st_looks s)). pose proof BU as [RI FO UO GU LU]. pose proof (built_kernel_of _ _ _ _ _ _ _ _ BU B q s S) as KO.
    assert (KC : forall k la, In (k, la) (kernel_items s) -> calm first_of us la0 k la). { intros k la X. destruct (KO k la X) as [SL KU]. split; [exact KU|]. split; [exact SL|]. intros x Hx. right. apply in_app_iff. left. apply in_concat. exists la. split; [eapply in_combine_r, X|exact Hx]. }
    exists (enough_fuel first_of rules us la0 width + 1 + (length (kernel_items s) + length (entries first_of rules us la0)))%nat. intros fuel acts c F CO. unfold state_conflicts. rewrite S. generalize (group contends acts). intros groups. revert c CO.
    assert (D : forall x c, cok c -> describe rid first_of rules busy sources fuel q s x c <> None).
    { intros x c CO. unfold describe. destruct (generate_closure rid first_of rules busy fuel fuel (kernel_items s) c) as [[cl c1]|] eqn:GC.
      - apply (generate_closure_exact rid RI first_of FO rules _ UO busy (kernel_items s) (fun k la X => proj1 (KO k la X)) (fun k la X => proj2 (KO k la X))) in GC; [|exact CO]. destruct GC as (CO1 & _). pose proof (state_reduces_ends la0 fuel q x (kernel_items s) ltac:(lia) KC 0 [] c1 CO1) as SR. destruct (state_reduces _ _ _ _ _ _ _ _ _ _ _ _) as [[r c2]|]; [|contradiction]. destruct (shift_items rid first_of x cl), r; discriminate.
      - exfalso. revert GC. eapply (generate_closure_ends rid RI first_of FO rules us la0 UO busy width BB); [exact KC|exact CO|lia|unfold lr1 in *; lia]. }
    induction groups as [|[x l] groups IH]; intros c CO; cbn [describe_all]; [discriminate|]. destruct (clashes l); [|apply IH, CO]. specialize (D x c CO). destruct (describe rid first_of rules busy sources fuel q s x c) as [[fd c1]|] eqn:E; [|contradiction].
    apply (describe_exact _ _ _ _ _ _ _ _ _ BU B) in E; [|exact S|exact CO]. destruct E as [CO1 _]. specialize (IH c1 CO1). destruct (describe_all _ _ _ _ _ _ _ _ groups c1) as [[more c2]|]; [discriminate|contradiction].
  Qed.
End Ends.
Theorem C36_ends_partial : forall rid first_of rules us busy width sources languages m guards rank rewriters, buildable rid first_of rules (fun i => In i us) languages -> built rid first_of rules (fun i => In i us) busy languages m guards ->
  (forall n stack i, (width <= count_occ item_dec stack i)%nat -> busy n stack i = true) ->
  (forall i p l, In i us -> In (IGuard p l) (first_of i) -> In (IGuard p l) us) ->
  (forall p l p' l', In (IGuard p l) us -> begins first_of l (IGuard p' l') -> (rank (IGuard p' l') < rank (IGuard p l))%nat) ->
  (forall w q acts, In w rewriters -> ssorted action_ltb acts -> ssorted action_ltb (w q acts)) ->
  exists fuel0, forall fuel c, (fuel0 <= fuel)%nat -> any_calls rid first_of rules (fun i => In i us) busy c -> find_conflicts rid first_of rules busy sources fuel m guards rewriters c <> None.
Proof.
  intros rid first_of rules us busy width sources languages m guards rank ws BU B BB FU RK OW. assert (OF : Forall orderly ws) by (apply Forall_forall; intros w I q acts; apply OW, I).
  enough (G : forall qs, (forall q, In q qs -> is_state m q) -> exists fuel0, forall fuel c, (fuel0 <= fuel)%nat -> cache_ok rid first_of rules (fun i => In i us) (fst c) -> conflicts_in rid first_of rules busy sources fuel m guards ws qs c <> None).
  { destruct (G (state_ids m)) as (fuel0 & E); [intros q I; apply state_ids_state, I|]. exists fuel0. intros fuel c F A. apply E; [exact F|]. exact (any_calls_ok _ _ _ _ _ _ (bu_ids _ _ _ _ _ BU) (bu_first _ _ _ _ _ BU) (bu_ordinary _ _ _ _ _ BU) (bu_guards _ _ _ _ _ BU) A). }
  induction qs as [|q qs IH]; intros SQ; [exists 0%nat; discriminate|]. destruct IH as (f1 & E1); [intros q' I; apply SQ; right; exact I|]. pose proof (SQ q (or_introl eq_refl)) as IS. destruct (plain_ends _ _ _ _ _ _ _ _ _ _ _ BU B BB FU RK IS) as (f2 & E2).
  unfold is_state in IS. destruct (state_with_id q m) as [s|] eqn:S; [|contradiction]. destruct (state_conflicts_ends _ _ _ _ _ _ sources _ _ _ BU B BB q s S) as (f3 & E3). exists (f1 + f2 + f3)%nat. intros fuel c F CO. cbn [conflicts_in]. unfold actions_for_state. specialize (E2 fuel c ltac:(lia) CO).
  destruct (plain_actions rid first_of rules busy fuel m guards q c) as [[acts c1]|] eqn:PA; [|contradiction]. apply (plain_exact _ _ _ _ _ _ _ _ BU B) in PA; [|exact CO]. destruct PA as (CO1 & SA & _). specialize (E3 fuel (fold_left (fun s w => w q s) ws acts) c1 ltac:(lia) CO1).
  destruct (state_conflicts _ _ _ _ _ _ _ _ _ c1) as [[fd c2]|] eqn:SC; [|contradiction]. apply (state_exact _ _ _ _ _ _ _ _ _ BU B) in SC; [|apply rewritten_sorted; assumption|exact CO1]. destruct SC as (CO2 & _). specialize (E1 fuel c2 ltac:(lia) CO2). destruct (conflicts_in _ _ _ _ _ _ _ _ _ qs c2) as [[more c3]|]; [discriminate|contradiction].
Qed.
Print Assumptions C36_ends_partial.

(** Sums, 0 -> 0 t5 0 | t4: the symbol t5 after a sum is a conflict. *)
Definition nts_sum : grammar_of := [(0, [[INonterm 0; ITerm 5; INonterm 0]; [ITerm 4]])].
Definition items_sum := [INonterm 0; ITerm 4; ITerm 5].
Definition no_sources (_ _ : Z) (_ : item) : list lid := [].
Definition sum_weak := weak_add (ITerm 5) [ITerm 6] no_weak.
Notation sum_conflicts m g ws := (find_conflicts rule_number (first_by (rules_of nts_sum) 20) (rules_of nts_sum) one_object no_sources 50 m g ws ([], 0%nat)).
Example C36_nontrivial : exists m g c', buildable rule_number (first_by (rules_of nts_sum) 20) (rules_of nts_sum) (fun i => In i items_sum) [INonterm 0] /\
  built rule_number (first_by (rules_of nts_sum) 20) (rules_of nts_sum) (fun i => In i items_sum) one_object [INonterm 0] m g /\
  sum_conflicts m g [] = Some ([mkConflict 4 (ITerm 5) [mkLr0 (mkRule (INonterm 0) [INonterm 0; ITerm 5; INonterm 0]) 1] [(mkLr0 (mkRule (INonterm 0) [INonterm 0; ITerm 5; INonterm 0]) 3, [])]], c') /\
  exists c'', sum_conflicts m g [precedence_rewrite (block_precedence [(Left_assoc, [5])]) (block_associativity [(Left_assoc, [5])]) (fun q => match state_with_id q m with Some s => st_list s | None => [] end)] = Some ([], c'').
Proof.
  destruct (tool nts_sum items_sum [INonterm 0]) as [[[m g] a]|] eqn:E; [|vm_compute in E; discriminate E]. pose proof (tool_ok _ _ _ _ _ _ E) as T. exists m, g. vm_compute in E. injection E as <- <- <-. eexists. split; [apply T|]. split; [apply T|]. split; [vm_compute; reflexivity|]. eexists. vm_compute. reflexivity.
Qed.
(** A conflict on a weak symbol is not reported, when the actions for it come from a strong symbol.  Here
    t6 is a weak version of t5: there are a shift and a reduction for it too, and the parser has to choose. *)
Theorem C36_weak_refuted : exists m g found c' acts c'', buildable rule_number (first_by (rules_of nts_sum) 20) (rules_of nts_sum) (fun i => In i items_sum) [INonterm 0] /\
  built rule_number (first_by (rules_of nts_sum) 20) (rules_of nts_sum) (fun i => In i items_sum) one_object [INonterm 0] m g /\
  sum_conflicts m g [weak_rewrite sum_weak] = Some (found, c') /\
  actions_for_state rule_number (first_by (rules_of nts_sum) 20) (rules_of nts_sum) one_object 50 m g [weak_rewrite sum_weak] 4 ([], 0%nat) = Some (acts, c'') /\
  clash (fun a => In a acts) (ITerm 6) /\ ~ In (4, ITerm 6) (map (fun f => (f_state f, f_token f)) found).
Proof.
  destruct (tool nts_sum items_sum [INonterm 0]) as [[[m g] a]|] eqn:E; [|vm_compute in E; discriminate E]. pose proof (tool_ok _ _ _ _ _ _ E) as T. exists m, g. vm_compute in E. injection E as <- <- <-. eexists. eexists. eexists. eexists. split; [apply T|]. split; [apply T|]. split; [vm_compute; reflexivity|]. split; [vm_compute; reflexivity|]. split.
  - exists (mkAction ShiftStrong (ITerm 6) 3 no_rule), (mkAction Reduce (ITerm 6) (-1) (mkRule (INonterm 0) [INonterm 0; ITerm 5; INonterm 0])). split; [cbn; tauto|]. split; [cbn; tauto|]. split; [discriminate|]. split; [reflexivity|]. split; [reflexivity|]. unfold decisive. cbn. tauto.
  - cbn. intros [X|[]]. discriminate X.
Qed.
Print Assumptions C36_weak_refuted.

(** Proofs about the texts of FormatModel.v *)
From Coq Require Import String.
From Verif Require Import Base GrammarModel LrItemModel ActionModel BuilderModel ConflictModel NamesModel NamesProofs FormatModel FormatSpec.
Local Open Scope Z_scope.

(** ** Induction over items *)
Section Induction.
  Context (P : item -> Prop)
    (H0 : P IEmpty) (H1 : P IEoi) (H2 : P IEog) (H3 : forall s, P (ITerm s)) (H4 : forall s, P (INonterm s))
    (H5 : forall p l, Forall P l -> P (IGuard p l)) (H6 : forall k rs, Forall (Forall P) rs -> P (IEbnf k rs)).
  Fixpoint item_induction (i : item) : P i :=
    match i with
    | IEmpty => H0 | IEoi => H1 | IEog => H2 | ITerm s => H3 s | INonterm s => H4 s
    | IGuard p l => H5 p l ((fix f l := match l return Forall P l with [] => Forall_nil _ | i :: l => Forall_cons _ (item_induction i) (f l) end) l)
    | IEbnf k rs => H6 k rs ((fix g rs := match rs return Forall (Forall P) rs with [] => Forall_nil _ | l :: rs => Forall_cons _ ((fix f l := match l return Forall P l with [] => Forall_nil _ | i :: l => Forall_cons _ (item_induction i) (f l) end) l) (g rs) end) rs)
    end.
End Induction.
Lemma all_spec (P : item -> Prop) l : fold_right (fun i p => P i /\ p) True l <-> forall i, In i l -> P i.
Proof.
  induction l as [|a l IH]; cbn [fold_right].
  - split; [intros _ ? []|auto].
  - rewrite IH. split; [intros [A B] i [<-|I]; auto|]. intros H. split; [apply H; left; reflexivity|]. intros i I. apply H. right. exact I.
Qed.
Lemma all_spec2 (P : item -> Prop) rs : fold_right (fun l p => fold_right (fun i p => P i /\ p) True l /\ p) True rs <-> forall l i, In l rs -> In i l -> P i.
Proof.
  induction rs as [|a rs IH]; cbn [fold_right].
  - split; [intros _ ? ? []|auto].
  - rewrite IH, all_spec. split; [intros [A B] l i [<-|I] J; eauto|]. intros H. split; [intros i I; apply (H a); [left; reflexivity|exact I]|]. intros l i I J. apply (H l); [right; exact I|exact J].
Qed.

(** ** Ends of names *)
Definition delim (r : str) : Prop := r = [] \/ exists c r', r = c :: r' /\ In c [32; 41; 93; 44; 10].
Lemma delim_nil : delim []. Proof. left. reflexivity. Qed.
Lemma delim_cons c r : In c [32; 41; 93; 44; 10] -> delim (c :: r). Proof. intros H. right. eauto. Qed.
Lemma delim_char c r : delim (c :: r) -> In c [32; 41; 93; 44; 10].
Proof. intros [H|(d & r' & E & I)]; [discriminate|]. inversion E; subst. exact I. Qed.
Ltac ind := cbn [In]; intuition lia.
Lemma word_run n m r s : Forall word_char n -> Forall word_char m -> delim r -> delim s -> n ++ r = m ++ s -> n = m /\ r = s.
Proof.
  intros W. revert m. induction W as [|c n C W IH]; intros m V D1 D2 E.
  - destruct V as [|d m Dd V]; [auto|]. cbn in E. subst r. apply delim_char in D1. exfalso. apply Dd. revert D1. ind.
  - destruct V as [|d m Dd V]; cbn in E.
    + subst s. apply delim_char in D2. exfalso. apply C. revert D2. ind.
    + inversion E; subst. destruct (IH m V D1 D2 H1) as [-> ->]. auto.
Qed.
Lemma body_run b : string_body b -> forall b' r s, string_body b' -> b ++ 34 :: r = b' ++ 34 :: s -> b = b' /\ r = s.
Proof.
  induction 1 as [|c b A B C W IH|c b C W IH]; intros b' r s V E; destruct V as [|d b' A' B' C' V|d b' C' V]; cbn in E; inversion E; subst; try congruence; auto.
  - destruct (IH b' r s V) as [-> ->]; auto.
  - destruct (IH b' r s V) as [-> ->]; auto.
Qed.
Lemma delim_not c r : delim (c :: r) -> c <> 39 /\ c <> 34.
Proof. intros D. apply delim_char in D. revert D. ind. Qed.
Lemma word_not c : word_char c -> c <> 34 /\ c <> 39.
Proof. intros W. split; intros ->; apply W; cbn; auto 20. Qed.
Lemma terminal_run n m r s : terminal_like n -> terminal_like m -> delim r -> delim s -> n ++ r = m ++ s -> n = m /\ r = s.
Proof.
  intros A B D1 D2 E.
  destruct A as [c n C W N|b Sb|c C|c C]; destruct B as [d m C' W' N'|b' Sb'|d C'|d C']; cbn [app] in E;
    try (inversion E; subst; exfalso; (destruct (word_not _ W); congruence) || (destruct (word_not _ W'); congruence) || congruence).
  - apply (word_run (c :: n) (d :: m)); try assumption; constructor; assumption.
  - rewrite <- !app_assoc in E. cbn [app] in E. inversion E as [E']. destruct (body_run b Sb b' r s Sb' E') as [-> ->]. auto.
  - inversion E; subst. auto.
  - inversion E; subst. exfalso. destruct (delim_not _ _ D1). congruence.
  - inversion E; subst. exfalso. destruct (delim_not _ _ D2). congruence.
  - inversion E; subst. auto.
Qed.
Lemma terminal_first n : terminal_like n -> exists c n', n = c :: n' /\ (c = 34 \/ c = 39 \/ word_char c /\ c <> 60).
Proof. intros [c m C W N|b Sb|c|c]; eauto 8. Qed.
Lemma nonterminal_run n m r s : nonterminal_like n -> nonterminal_like m -> delim r -> delim s -> n ++ r = m ++ s -> n = m /\ r = s.
Proof.
  intros [n' N] [m' M] D1 D2 E. cbn in E. inversion E as [E']. destruct (word_run n' m' r s N M D1 D2 E') as [-> ->]. auto.
Qed.

Section Names.
  Context (T N : Z -> str).
  Notation show := (show_item T N). Notation see := (see T N). Notation legible := (legible T N).

  (** ** Rows of items with the dot as one more item *)
  Definition elem := option item.
  Definition show_elem (e : elem) : str := match e with Some i => show i | None => [94] end.
  Definition see_elem (e : elem) : option seen := match e with Some i => Some (see i) | None => None end.
  Definition legible_elem (e : elem) : Prop := match e with Some i => legible i | None => True end.
  Fixpoint rest (l : list elem) : str := match l with [] => [] | e :: l => 32 :: show_elem e ++ rest l end.
  Definition joined (l : list elem) : str := match l with [] => [] | e :: l => show_elem e ++ rest l end.
  Fixpoint elements (dot pos : Z) (l : list item) : list elem :=
    match l with
    | [] => if dot =? pos then [None] else []
    | i :: l => (if dot =? pos then [None] else []) ++ Some i :: elements dot (pos + 1) l
    end.
  Lemma items_text_joined dot l : forall pos, items_text show dot pos true l = joined (elements dot pos l) /\ items_text show dot pos false l = rest (elements dot pos l).
  Proof.
    induction l as [|i l IH]; intros pos; cbn [items_text elements].
    - destruct (dot =? pos); split; reflexivity.
    - destruct (IH (pos + 1)) as [_ Hr]. destruct (dot =? pos); cbn [app rest joined show_elem]; rewrite Hr; split; reflexivity.
  Qed.
  Lemma elements_none l : forall dot pos, dot < pos -> elements dot pos l = map Some l.
  Proof.
    induction l as [|i l IH]; intros dot pos H; cbn [elements map]; destruct (dot =? pos) eqn:E; try lia; [reflexivity|].
    cbn [app]. rewrite IH by lia. reflexivity.
  Qed.
  Lemma elements_legible dot l : forall pos e, (forall i, In i l -> legible i) -> In e (elements dot pos l) -> legible_elem e.
  Proof.
    induction l as [|i l IH]; intros pos e H I; cbn [elements] in I.
    - destruct (dot =? pos); [destruct I as [<-|[]]|destruct I]. exact Logic.I.
    - apply in_app_or in I as [I|[<-|I]].
      + destruct (dot =? pos); [destruct I as [<-|[]]|destruct I]. exact Logic.I.
      + apply H. left. reflexivity.
      + apply (IH (pos + 1)); [|exact I]. intros j J. apply H. right. exact J.
  Qed.
  (** The row determines the items and the dot *)
  Lemma elements_same l : forall k d e pos, pos <= d <= pos + Z.of_nat (length l) -> pos <= e <= pos + Z.of_nat (length k) ->
    map see_elem (elements d pos l) = map see_elem (elements e pos k) -> map see l = map see k /\ d = e.
  Proof.
    assert (NN : forall l k d e pos, d < pos -> e < pos -> map see_elem (elements d pos l) = map see_elem (elements e pos k) -> map see l = map see k).
    { clear l. intros l k d e pos D E H. rewrite !elements_none, !map_map in H by assumption.
      revert k H. clear. induction l as [|i l IH]; intros [|j k] H; try discriminate; [reflexivity|].
      cbn in H. injection H as A B. cbn. rewrite A. f_equal. apply IH, B. }
    induction l as [|i l IH]; intros k d e pos D E H; cbn [length] in D.
    - assert (d = pos) by lia. subst d. cbn [elements map] in H. rewrite Z.eqb_refl in H. destruct k as [|j k]; cbn [elements] in H.
      + cbn [length] in E. split; [reflexivity|lia].
      + destruct (e =? pos); cbn in H; discriminate H.
    - cbn [elements] in H. destruct k as [|j k]; cbn [elements length] in H, E.
      + assert (e = pos) by lia. subst e. rewrite Z.eqb_refl in H. destruct (d =? pos); cbn in H; discriminate H.
      + destruct (d =? pos) eqn:D1; destruct (e =? pos) eqn:E1; cbn [map app see_elem] in H; try discriminate H.
        * injection H as A B. apply NN in B; [|lia|lia]. cbn [map]. rewrite A, B. split; [reflexivity|lia].
        * injection H as A B. apply IH in B; [|lia|lia]. destruct B as [B ->]. cbn [map]. rewrite A, B. auto.
  Qed.

  (** ** The first character of an item *)
  Definition starter (c : Z) : Prop := ~ In c [32; 41; 93; 44; 10; 124; 61].
  Lemma word_starter c : word_char c -> starter c.
  Proof. unfold word_char, starter. cbn [In]. intuition. Qed.
  Lemma first_char i : legible i -> exists c s, show i = c :: s /\ starter c /\
    match i with IEmpty | IGuard _ _ => c = 91 | IEoi => c = 36 | IEog => c = 37 | ITerm _ => c = 34 \/ c = 39 \/ word_char c /\ c <> 60 | INonterm _ => c = 60 | IEbnf _ _ => c = 40 end.
  Proof.
    intros L. destruct i as [| | |s|s|p l|k rs].
    1-3: eexists _, _; split; [reflexivity|]; split; [unfold starter; vm_compute; intuition discriminate|reflexivity].
    - cbn in L. destruct (terminal_first _ L) as (c & n' & E & C). exists c, n'. split; [exact E|]. split; [|exact C].
      destruct C as [ -> | [ -> | [W _]]]; [unfold starter; vm_compute; intuition discriminate|unfold starter; vm_compute; intuition discriminate|apply word_starter, W].
    - cbn in L. cbn [show_item]. inversion L as [n W E]. exists 60, n. split; [reflexivity|]. split; [unfold starter; vm_compute; intuition discriminate|reflexivity].
    - eexists _, _. split; [reflexivity|]. split; [unfold starter; vm_compute; intuition discriminate|reflexivity].
    - destruct k; eexists _, _; (split; [reflexivity|]); (split; [unfold starter; vm_compute; intuition discriminate|reflexivity]).
  Qed.
  Lemma first_elem e : legible_elem e -> exists c s, show_elem e = c :: s /\ starter c.
  Proof.
    intros L. destruct e as [i|].
    - destruct (first_char i L) as (c & s & E & S & _). eauto.
    - exists 94, []. split; [reflexivity|unfold starter; vm_compute; intuition discriminate].
  Qed.

  (** ** Reading *)
  Definition reads (i : item) : Prop := forall j r s, legible i -> legible j -> delim r -> delim s -> show i ++ r = show j ++ s -> see i = see j /\ r = s.
  Lemma elem_reads e f r s : (forall i, e = Some i -> reads i) -> legible_elem e -> legible_elem f -> delim r -> delim s ->
    show_elem e ++ r = show_elem f ++ s -> see_elem e = see_elem f /\ r = s.
  Proof.
    intros R L K D1 D2 E. destruct e as [i|], f as [j|]; cbn [show_elem see_elem] in *.
    - destruct (R i eq_refl j r s L K D1 D2 E) as [-> ->]. auto.
    - exfalso. destruct (first_char i L) as (c & s' & F & S & C). rewrite F in E. cbn in E. injection E as E1 E2. subst c.
      destruct i; try lia. destruct C as [C|[C|[C _]]]; try lia. apply C. cbn. auto 20.
    - exfalso. destruct (first_char j K) as (c & s' & F & S & C). rewrite F in E. cbn in E. injection E as E1 E2. subst c.
      destruct j; try lia. destruct C as [C|[C|[C _]]]; try lia. apply C. cbn. auto 20.
    - cbn in E. injection E as ->. auto.
  Qed.
  (** [r] ends a row: it is not one more item *)
  Definition stops (l : list elem) (r : str) : Prop := delim r /\ forall e s, In e l -> delim s -> r <> 32 :: show_elem e ++ s.
  Lemma rest_delim l r : delim r -> delim (rest l ++ r).
  Proof. destruct l; [auto|]. intros _. apply delim_cons. cbn. auto. Qed.
  Lemma rest_reads l : (forall i, In (Some i) l -> reads i) -> forall k r s, (forall e, In e l -> legible_elem e) -> (forall e, In e k -> legible_elem e) ->
    stops k r -> stops l s -> rest l ++ r = rest k ++ s -> map see_elem l = map see_elem k /\ r = s.
  Proof.
    induction l as [|e l IH]; intros R k r s L K D1 D2 E; destruct k as [|f k].
    - auto.
    - exfalso. cbn [rest app] in E. rewrite <- app_assoc in E. apply (proj2 D1 f (rest k ++ s)); [left; reflexivity|apply rest_delim, D2|exact E].
    - exfalso. cbn [rest app] in E. rewrite <- app_assoc in E. symmetry in E. apply (proj2 D2 e (rest l ++ r)); [left; reflexivity|apply rest_delim, D1|exact E].
    - cbn [rest app] in E. rewrite <- !app_assoc in E. injection E as E.
      apply elem_reads in E as [A E]; [|intros i ->; apply R; left; reflexivity|apply L; left; reflexivity|apply K; left; reflexivity|apply rest_delim, D1|apply rest_delim, D2].
      apply IH in E as [B ->].
      + cbn [map]. rewrite A, B. auto.
      + intros i I. apply R. right. exact I.
      + intros x I. apply L. right. exact I.
      + intros x I. apply K. right. exact I.
      + split; [apply D1|]. intros x y I. apply (proj2 D1). right. exact I.
      + split; [apply D2|]. intros x y I. apply (proj2 D2). right. exact I.
  Qed.
  Lemma joined_reads l k r s : (forall i, In (Some i) l -> reads i) -> (forall e, In e l -> legible_elem e) -> (forall e, In e k -> legible_elem e) ->
    stops k r -> stops l s -> (forall c r', r = c :: r' -> ~ starter c) -> (forall c s', s = c :: s' -> ~ starter c) ->
    joined l ++ r = joined k ++ s -> map see_elem l = map see_elem k /\ r = s.
  Proof.
    intros R L K D1 D2 F1 F2 E. destruct l as [|e l], k as [|f k].
    - auto.
    - exfalso. cbn [joined app] in E. destruct (first_elem f (K f (or_introl eq_refl))) as (c & x & X & S). rewrite X in E. exact (F1 _ _ E S).
    - exfalso. cbn [joined app] in E. destruct (first_elem e (L e (or_introl eq_refl))) as (c & x & X & S). rewrite X in E. symmetry in E. exact (F2 _ _ E S).
    - apply (rest_reads (e :: l) R (f :: k) r s L K D1 D2). cbn [rest app joined] in *. rewrite E. reflexivity.
  Qed.
  Lemma delim_stops l r : (forall e, In e l -> legible_elem e) -> delim r -> (forall c r', r = 32 :: c :: r' -> ~ starter c) -> stops l r.
  Proof.
    intros L D H. split; [exact D|]. intros e s I Ds E. destruct (first_elem e (L e I)) as (c & x & X & S). rewrite X in E. exact (H _ _ E S).
  Qed.
  Lemma some_in (i : item) l : In (Some i) (map Some l) <-> In i l.
  Proof. rewrite in_map_iff. split; [intros (j & E & I); injection E as ->; exact I|eauto]. Qed.
  Lemma some_legible l : (forall i, In i l -> legible i) -> forall e, In e (map Some l) -> legible_elem e.
  Proof. intros L e I. apply in_map_iff in I as (i & <- & I). apply L, I. Qed.
  Lemma see_some l k : map see_elem (map Some l) = map see_elem (map Some k) -> map see l = map see k.
  Proof.
    rewrite !map_map. revert k. induction l as [|i l IH]; intros [|j k] H; try discriminate; [reflexivity|].
    cbn in H. injection H as A B. cbn. rewrite A. f_equal. apply IH, B.
  Qed.
  Definition plain (l : list item) : str := items_text show (-1) 0 true l.
  Lemma plain_joined l : plain l = joined (map Some l).
  Proof. unfold plain. rewrite (proj1 (items_text_joined (-1) l 0)), elements_none by lia. reflexivity. Qed.
  (** A row in brackets *)
  Lemma plain_reads l k r s : (forall i, In i l -> reads i) -> (forall i, In i l -> legible i) -> (forall i, In i k -> legible i) ->
    delim r -> delim s -> (forall c r', r = c :: r' -> ~ starter c) -> (forall c s', s = c :: s' -> ~ starter c) ->
    (forall c r', r = 32 :: c :: r' -> ~ starter c) -> (forall c r', s = 32 :: c :: r' -> ~ starter c) ->
    plain l ++ r = plain k ++ s -> map see l = map see k /\ r = s.
  Proof.
    intros R L K D1 D2 F1 F2 G1 G2 E. rewrite !plain_joined in E.
    apply joined_reads in E as [A ->]; try assumption.
    - split; [apply see_some, A|reflexivity].
    - intros i I. apply R, some_in, I.
    - apply some_legible, L.
    - apply some_legible, K.
    - apply delim_stops; [apply some_legible, K|exact D1|exact G1].
    - apply delim_stops; [apply some_legible, L|exact D2|exact G2].
  Qed.
  Lemma not_starter c : In c [32; 41; 93; 44; 10; 124; 61] -> ~ starter c.
  Proof. intros I S. exact (S I). Qed.

  (** ** Alternatives *)
  Fixpoint more_rules (rs : list (list item)) : str := match rs with [] => [] | r :: rs => 32 :: 124 :: 32 :: plain r ++ more_rules rs end.
  Lemma rules_text_more rs : rules_text plain false rs = more_rules rs.
  Proof. induction rs as [|r rs IH]; [reflexivity|]. cbn [rules_text more_rules]. rewrite IH. reflexivity. Qed.
  Lemma show_ebnf k r rs : (k <> Alternative -> rs = []) -> show (IEbnf k (r :: rs)) = 40 :: 32 :: plain r ++ more_rules rs ++ 32 :: 41 :: suffix k.
  Proof.
    intros H. destruct k; cbn [show_item]; try (rewrite H by discriminate; reflexivity).
    change (fun r0 : list item => items_text show (-1) 0 true r0) with plain. cbn [rules_text]. rewrite rules_text_more.
    cbn. rewrite <- app_assoc. reflexivity.
  Qed.
  Lemma close_ok rs x : let t := more_rules rs ++ 32 :: 41 :: x in
    delim t /\ (forall c r', t = c :: r' -> ~ starter c) /\ (forall c r', t = 32 :: c :: r' -> ~ starter c).
  Proof.
    destruct rs as [|r rs]; cbn [more_rules app]; (split; [apply delim_cons; cbn; auto 20|]); split; intros c r' E; injection E; intros; subst; apply not_starter; cbn; auto 20.
  Qed.
  Lemma more_reads rs : (forall l i, In l rs -> In i l -> reads i /\ legible i) -> forall ks r s, (forall l i, In l ks -> In i l -> legible i) ->
    more_rules rs ++ 32 :: 41 :: r = more_rules ks ++ 32 :: 41 :: s -> map (map see) rs = map (map see) ks /\ r = s.
  Proof.
    induction rs as [|l rs IH]; intros R ks r s K E; destruct ks as [|k ks]; cbn [more_rules app] in E; try discriminate E.
    - injection E as ->. auto.
    - injection E as E. rewrite <- !app_assoc in E.
      destruct (close_ok rs r) as (A1 & A2 & A3). destruct (close_ok ks s) as (B1 & B2 & B3).
      apply plain_reads in E as [A E]; try assumption.
      + apply IH in E as [B ->]; [cbn [map]; rewrite A, B; auto| |].
        * intros x i I. apply R. right. exact I.
        * intros x i I. apply K. right. exact I.
      + intros i I. apply (R l); [left; reflexivity|exact I].
      + intros i I. apply (R l); [left; reflexivity|exact I].
      + intros i I. apply (K k); [left; reflexivity|exact I].
  Qed.
  Lemma suffix_reads k k' r s : delim r -> delim s -> suffix k ++ r = suffix k' ++ s -> k = k' /\ r = s.
  Proof.
    intros D1 D2 E.
    assert (X : forall c t u, In c [63; 43; 42] -> delim u -> c :: t <> u) by (intros c t u I D <-; apply delim_char in D; revert I D; ind).
    destruct k, k'; cbn in E; try (injection E as ->; auto; fail); try (exfalso; lia || discriminate E); try (subst; auto; fail);
      exfalso; first [revert E; apply X; [cbn; auto|assumption]|symmetry in E; revert E; apply X; [cbn; auto|assumption]].
  Qed.
  Lemma ebnf_reads k rs k' rs' r s : (forall l i, In l rs -> In i l -> reads i) -> legible (IEbnf k rs) -> legible (IEbnf k' rs') ->
    delim r -> delim s -> show (IEbnf k rs) ++ r = show (IEbnf k' rs') ++ s -> see (IEbnf k rs) = see (IEbnf k' rs') /\ r = s.
  Proof.
    intros R [L1 L2] [K1 K2] D1 D2 E. rewrite all_spec2 in L2, K2.
    assert (X : forall k (rs : list (list item)), (k <> Alternative -> length rs = 1%nat) -> rs = [] /\ k = Alternative \/ exists r rs', rs = r :: rs' /\ (k <> Alternative -> rs' = [])).
    { clear. intros k rs H. destruct rs as [|r rs].
      - left. split; [reflexivity|]. destruct k; try reflexivity; discriminate H; discriminate.
      - right. exists r, rs. split; [reflexivity|]. intros A. apply H in A. destruct rs; [reflexivity|discriminate A]. }
    assert (Y : forall l rs x y, (forall i, In i l -> legible i) -> 41 :: x <> plain l ++ more_rules rs ++ 32 :: y).
    { clear -T. intros l rs x y L E. rewrite plain_joined in E. destruct l as [|i l]; cbn [map joined app] in E.
      - destruct rs; discriminate E.
      - destruct (first_char i (L i (or_introl eq_refl))) as (c & s & F & S & _). cbn [show_elem] in E. rewrite F in E. injection E as <-. revert S. apply not_starter. cbn. auto. }
    cbn [FormatSpec.see].
    destruct (X _ _ L1) as [[-> ->]|(l & ls & -> & L3)]; destruct (X _ _ K1) as [[-> ->]|(m & ms & -> & K3)].
    - cbn in E. injection E as ->. auto.
    - exfalso. rewrite show_ebnf in E by exact K3. cbn in E. injection E as E. rewrite <- !app_assoc in E. cbn in E. revert E. apply Y. intros i. apply K2. left. reflexivity.
    - exfalso. rewrite show_ebnf in E by exact L3. cbn in E. injection E as E. rewrite <- !app_assoc in E. cbn in E. symmetry in E. revert E. apply Y. intros i. apply L2. left. reflexivity.
    - rewrite !show_ebnf in E by assumption. cbn [app] in E. injection E as E. rewrite <- !app_assoc in E. cbn [app] in E.
      destruct (close_ok ls (suffix k ++ r)) as (A1 & A2 & A3). destruct (close_ok ms (suffix k' ++ s)) as (B1 & B2 & B3).
      apply plain_reads in E as [A E]; try assumption.
      + apply more_reads in E as [B E].
        * apply suffix_reads in E as [-> ->]; [|assumption|assumption]. cbn [map]. rewrite A, B. auto.
        * intros x i I J. split; [apply (R x); [right; exact I|exact J]|apply (L2 x); [right; exact I|exact J]].
        * intros x i I J. apply (K2 x); [right; exact I|exact J].
      + intros i I. apply (R l); [left; reflexivity|exact I].
      + intros i I. apply (L2 l); [left; reflexivity|exact I].
      + intros i I. apply (K2 m); [left; reflexivity|exact I].
  Qed.
  Lemma item_reads : forall i, reads i.
  Proof.
    assert (F : forall i j r s, legible i -> legible j -> show i ++ r = show j ++ s -> exists c, 
      match i with IEmpty | IGuard _ _ => c = 91 | IEoi => c = 36 | IEog => c = 37 | ITerm _ => c = 34 \/ c = 39 \/ word_char c /\ c <> 60 | INonterm _ => c = 60 | IEbnf _ _ => c = 40 end /\
      match j with IEmpty | IGuard _ _ => c = 91 | IEoi => c = 36 | IEog => c = 37 | ITerm _ => c = 34 \/ c = 39 \/ word_char c /\ c <> 60 | INonterm _ => c = 60 | IEbnf _ _ => c = 40 end).
    { intros i j r s L K E. destruct (first_char i L) as (c & x & Ex & _ & C). destruct (first_char j K) as (d & y & Ey & _ & D).
      rewrite Ex, Ey in E. injection E as -> _. exists d. split; assumption. }
    assert (W : forall c, word_char c -> c <> 91 /\ c <> 36 /\ c <> 37 /\ c <> 40).
    { intros c W. repeat split; intros ->; apply W; cbn; auto 20. }
    intros i. induction i using item_induction; intros j r' s' L K D1 D2 E; destruct (F _ _ _ _ L K E) as (c & C & D); destruct j;
      try (exfalso; subst; lia); try (exfalso; subst; destruct C as [C|[C|[C C']]]; [lia|lia|specialize (W _ C); lia]);
      try (exfalso; subst; destruct D as [D|[D|[D D']]]; [lia|lia|specialize (W _ D); lia]).
    - cbn in E. injection E as ->. auto.
    - discriminate E.
    - cbn in E. injection E as ->. auto.
    - cbn in E. injection E as ->. auto.
    - cbn in *. apply terminal_run in E as [-> ->]; auto.
    - cbn in *. apply nonterminal_run in E as [-> ->]; auto.
    - discriminate E.
    - cbn [FormatSpec.legible] in L, K. rewrite all_spec in L, K. cbn [show_item] in E. change (items_text show (-1) 0 true) with plain in E.
      cbn [codes list_ascii_of_string map app] in E. injection E as E. rewrite <- !app_assoc in E. cbn [app] in E.
      assert (G1 : forall c x y, 93 :: x = c :: y -> ~ starter c) by (intros q x y Q; injection Q; intros; subst; apply not_starter; cbn; auto).
      assert (G2 : forall c x y, 93 :: x = 32 :: c :: y -> ~ starter c) by discriminate.
      apply plain_reads in E as [A E]; try assumption; eauto.
      + injection E as ->. cbn [FormatSpec.see]. rewrite A. auto.
      + intros i I. rewrite Forall_forall in H. apply H, I.
      + apply delim_cons. cbn. auto.
      + apply delim_cons. cbn. auto.
    - apply ebnf_reads; auto. intros l i I J. rewrite Forall_forall in H. specialize (H _ I). rewrite Forall_forall in H. apply H, J.
  Qed.

  (** ** Rules *)
  Definition dot_ok (d : Z) (l : list item) : Prop := 0 <= d <= Z.of_nat (length l).
  Definition quiet (r : str) : Prop := forall c r', r = c :: r' -> ~ starter c.
  Lemma rule_reads a b d e r s : legible_rule T N a -> legible_rule T N b -> (d = -1 /\ e = -1 \/ dot_ok d (r_items a) /\ dot_ok e (r_items b)) ->
    stops (elements e 0 (r_items b)) r -> stops (elements d 0 (r_items a)) s -> quiet r -> quiet s ->
    show_rule T N a d true ++ r = show_rule T N b e true ++ s -> see_rule T N a = see_rule T N b /\ d = e /\ r = s.
  Proof.
    intros [L1 L2] [K1 K2] Dd S1 S2 Q1 Q2 E. unfold show_rule in E. rewrite <- !app_assoc in E.
    apply item_reads in E as [A E]; [|assumption|assumption|apply delim_cons; cbn; auto 20|apply delim_cons; cbn; auto 20].
    cbn [codes list_ascii_of_string map app] in E. injection E as E. rewrite !(proj1 (items_text_joined _ _ _)) in E.
    apply joined_reads in E as [B ->]; try assumption.
    - unfold see_rule. rewrite A. destruct Dd as [[-> ->]|[Da De]].
      + rewrite !elements_none in B by lia. rewrite (see_some _ _ B). auto.
      + apply elements_same in B as [-> ->]; [auto|exact Da|exact De].
    - intros i _. apply item_reads.
    - intros x I. eapply elements_legible; [exact L2|exact I].
    - intros x I. eapply elements_legible; [exact K2|exact I].
  Qed.
  Lemma quiet_nil : quiet []. Proof. intros c r E. discriminate E. Qed.
  Lemma quiet_cons c r : In c [32; 41; 93; 44; 10; 124; 61] -> quiet (c :: r).
  Proof. intros I d s E. injection E as <- _. apply not_starter, I. Qed.
  (** What follows is the end or not a space *)
  Definition ended (r : str) : Prop := r = [] \/ exists c r', r = c :: r' /\ In c [41; 93; 44; 10].
  Lemma ended_stops a d r : legible_rule T N a -> ended r -> stops (elements d 0 (r_items a)) r /\ quiet r.
  Proof.
    intros [_ L] [->|(c & r' & -> & I)].
    - split; [|apply quiet_nil]. apply delim_stops; [|apply delim_nil|discriminate]. intros x X. eapply elements_legible; [exact L|exact X].
    - split; [|apply quiet_cons; cbn in *; intuition]. apply delim_stops; [|apply delim_cons; cbn in *; intuition|].
      + intros x X. eapply elements_legible; [exact L|exact X].
      + intros q x E. injection E as -> _. revert I. ind.
  Qed.
  Lemma lr0_reads k m r s : legible_lr0 T N k -> legible_lr0 T N m ->
    stops (elements (Z.of_nat (l_offset m)) 0 (r_items (l_rule m))) r -> stops (elements (Z.of_nat (l_offset k)) 0 (r_items (l_rule k))) s -> quiet r -> quiet s ->
    show_lr0 T N k ++ r = show_lr0 T N m ++ s -> see_lr0 T N k = see_lr0 T N m /\ r = s.
  Proof.
    intros [L1 L2] [K1 K2] S1 S2 Q1 Q2 E. unfold show_lr0 in E. apply rule_reads in E as (A & B & ->); try assumption.
    - split; [|reflexivity]. unfold see_lr0. rewrite A. f_equal. lia.
    - right. unfold dot_ok. lia.
  Qed.
  Lemma lr0_ended k m r s : legible_lr0 T N k -> legible_lr0 T N m -> ended r -> ended s ->
    show_lr0 T N k ++ r = show_lr0 T N m ++ s -> see_lr0 T N k = see_lr0 T N m /\ r = s.
  Proof.
    intros L K D1 D2. apply lr0_reads; try assumption.
    - exact (proj1 (ended_stops _ _ r (proj1 K) D1)).
    - exact (proj1 (ended_stops _ _ s (proj1 L) D2)).
    - exact (proj2 (ended_stops _ 0 r (proj1 L) D1)).
    - exact (proj2 (ended_stops _ 0 s (proj1 L) D2)).
  Qed.

  (** ** Lists with commas *)
  Lemma commas_delim l c r : In c [41; 93] -> delim (commas T N false l ++ c :: r).
  Proof. intros I. destruct l; cbn [commas app codes list_ascii_of_string map]; apply delim_cons; cbn in *; intuition. Qed.
  Lemma commas_false l : forall k c r s, In c [41; 93] -> (forall i, In i l -> legible i) -> (forall i, In i k -> legible i) ->
    commas T N false l ++ c :: r = commas T N false k ++ c :: s -> map see l = map see k /\ r = s.
  Proof.
    induction l as [|i l IH]; intros [|j k] c r s I L K E; cbn [commas app codes list_ascii_of_string map] in E.
    - injection E as ->. auto.
    - exfalso. injection E as -> _. revert I. ind.
    - exfalso. injection E as <- _. revert I. ind.
    - injection E as E. rewrite <- !app_assoc in E.
      apply item_reads in E as [A E]; [|apply L; left; reflexivity|apply K; left; reflexivity|apply commas_delim, I|apply commas_delim, I].
      apply IH in E as [B ->]; [cbn [map]; rewrite A, B; auto|exact I| |]; intros x X; [apply L|apply K]; right; exact X.
  Qed.
  Lemma commas_first l c r : In c [41; 93] -> (forall i, In i l -> legible i) -> l <> [] -> exists d t, commas T N true l ++ c :: r = d :: t /\ starter d.
  Proof.
    intros I L H. destruct l as [|i l]; [congruence|]. cbn [commas app]. destruct (first_char i (L i (or_introl eq_refl))) as (d & t & F & S & _).
    rewrite F. eexists _, _. split; [reflexivity|exact S].
  Qed.
  Lemma commas_reads l k c r s : In c [41; 93] -> (forall i, In i l -> legible i) -> (forall i, In i k -> legible i) ->
    commas T N true l ++ c :: r = commas T N true k ++ c :: s -> map see l = map see k /\ r = s.
  Proof.
    intros I L K E. assert (Nc : ~ starter c) by (apply not_starter; cbn in *; intuition).
    destruct l as [|i l], k as [|j k].
    - cbn in E. injection E as ->. auto.
    - exfalso. destruct (commas_first (j :: k) c s I K) as (d & t & F & S); [discriminate|]. rewrite F in E. cbn in E. injection E as <- _. exact (Nc S).
    - exfalso. destruct (commas_first (i :: l) c r I L) as (d & t & F & S); [discriminate|]. rewrite F in E. cbn in E. injection E as -> _. exact (Nc S).
    - apply (commas_false (i :: l) (j :: k) c r s I L K). cbn [commas app codes list_ascii_of_string map] in *. rewrite E. reflexivity.
  Qed.
  Lemma set_same l k : (forall i, In i l -> legible i) -> (forall i, In i k -> legible i) -> show_set T N l = show_set T N k -> map see l = map see k.
  Proof. intros L K E. cbn in E. injection E as E. apply (commas_reads l k 41 [] []); auto. cbn. auto. Qed.

  (** ** LR items with their lookahead *)
  Definition brackets (look : list item) : str := match look with [] => [] | _ => codes " [" ++ commas T N true look ++ codes "]" end.
  Lemma brackets_stops l look : (forall e, In e l -> legible_elem e) -> ~ In (Some IEmpty) l -> (forall i, In i look -> legible i) -> stops l (brackets look) /\ quiet (brackets look).
  Proof.
    intros L NE K. destruct look as [|i look]; unfold brackets.
    - split; [|apply quiet_nil]. apply delim_stops; [exact L|apply delim_nil|discriminate].
    - split; [|apply quiet_cons; cbn; auto]. split; [apply delim_cons; cbn; auto 20|]. intros e s I Ds E.
      destruct (commas_first (i :: look) 93 [] (or_intror (or_introl eq_refl)) K) as (d & t & F & S); [discriminate|].
      change (codes "]") with [93] in E. rewrite F in E. cbn [codes list_ascii_of_string map app] in E. injection E as E.
      destruct e as [e|]; [|discriminate E]. cbn [show_elem] in E.
      destruct (first_char e (L _ I)) as (c & x & Fc & Sc & C). rewrite Fc in E. cbn in E. injection E as E1 E2. subst c.
      destruct e; try lia.
      + exact (NE I).
      + destruct C as [C|[C|[C _]]]; try lia. apply C. cbn. auto 20.
      + cbn in Fc. injection Fc as Fc. subst x. cbn in E2. injection E2 as E2 _. subst d. revert S. apply not_starter. cbn. auto 20.
  Qed.
  Lemma lr1_same k m look look' : legible_lr0 T N k -> legible_lr0 T N m -> (forall i, In i look -> legible i) -> (forall i, In i look' -> legible i) ->
    ~ In IEmpty (r_items (l_rule k)) -> ~ In IEmpty (r_items (l_rule m)) ->
    show_lr1 T N k look = show_lr1 T N m look' -> see_lr0 T N k = see_lr0 T N m /\ map see look = map see look'.
  Proof.
    intros L K A B NE NE' E. unfold show_lr1 in E. fold (brackets look) in E. fold (brackets look') in E.
    assert (X : forall d l, (forall i, In i l -> legible i) -> ~ In IEmpty l -> forall e, In e (elements d 0 l) -> legible_elem e) by (intros d l Hl _ e I; eapply elements_legible; [exact Hl|exact I]).
    assert (Y : forall d l pos, ~ In IEmpty l -> ~ In (Some IEmpty) (elements d pos l)).
    { clear. intros d l. induction l as [|i l IH]; intros pos H I; cbn [elements] in I.
      - destruct (d =? pos); [destruct I as [I|[]]; discriminate I|destruct I].
      - apply in_app_or in I as [I|[I|I]].
        + destruct (d =? pos); [destruct I as [I|[]]; discriminate I|destruct I].
        + injection I as ->. apply H. left. reflexivity.
        + apply (IH (pos + 1)); [|exact I]. intros J. apply H. right. exact J. }
    pose proof (proj2 (proj1 L)) as L'. pose proof (proj2 (proj1 K)) as K'.
    apply lr0_reads in E as [C E]; try assumption.
    - split; [exact C|]. unfold brackets in E. destruct look as [|i look], look' as [|j look']; try discriminate E; [reflexivity|].
      cbn [codes list_ascii_of_string map app] in E. injection E as E. apply (commas_reads (i :: look) (j :: look') 93 [] []); auto. cbn. auto.
    - apply brackets_stops; auto. eapply X; eauto.
    - apply brackets_stops; auto. eapply X; eauto.
    - exact (proj2 (brackets_stops [] look (fun e f => match f with end) (fun f => f) A)).
    - exact (proj2 (brackets_stops [] look' (fun e f => match f with end) (fun f => f) B)).
  Qed.

  (** ** States *)
  Definition parens (look : list item) : str := match look with [] => [] | _ => codes " (" ++ commas T N true look ++ codes ")" end.
  Definition line_end (r : str) : Prop := r = [] \/ exists r', r = 10 :: r'.
  Lemma line_ended r : line_end r -> ended r.
  Proof. intros [->|[r' ->]]; [left; reflexivity|]. right. eexists _, _. split; [reflexivity|cbn; auto]. Qed.
  Lemma parens_stops a d look r : legible_rule T N a -> (forall i, In i look -> legible i) -> line_end r -> stops (elements d 0 (r_items a)) (parens look ++ r) /\ quiet (parens look ++ r).
  Proof.
    intros L K R. destruct look as [|i look]; [apply ended_stops; [exact L|apply line_ended, R]|].
    unfold parens. rewrite <- !app_assoc. change (codes ")" ++ r) with (41 :: r).
    destruct (commas_first (i :: look) 41 r (or_introl eq_refl) K) as (q & t & F & S); [discriminate|].
    split; [|apply quiet_cons; cbn; auto]. split; [apply delim_cons; cbn; auto 20|]. intros e s I Ds E.
    rewrite F in E. cbn [codes list_ascii_of_string map app] in E. injection E as E.
    destruct e as [e|]; [|discriminate E]. cbn [show_elem] in E.
    assert (Le : legible e) by (exact (elements_legible d _ 0 (Some e) (proj2 L) I)).
    destruct (first_char e Le) as (c & x & Fc & Sc & C). rewrite Fc in E. cbn in E. injection E as E1 E2. subst c.
    destruct e as [| | |z|z|p l|k rs]; try lia.
    - destruct C as [C|[C|[C _]]]; try lia. apply C. cbn. auto 20.
    - assert (Q : q = 32).
      { destruct k; cbn in Fc; try (injection Fc as Fc; subst x; cbn in E2; injection E2 as -> _; reflexivity).
        destruct rs; cbn in Fc; injection Fc as Fc; subst x; cbn in E2; injection E2 as -> _; reflexivity. }
      subst q. revert S. apply not_starter. cbn. auto.
  Qed.
  Lemma entry_reads k m look look' r s : legible_lr0 T N k -> legible_lr0 T N m -> (forall i, In i look -> legible i) -> (forall i, In i look' -> legible i) ->
    line_end r -> line_end s -> show_lr0 T N k ++ parens look ++ r = show_lr0 T N m ++ parens look' ++ s ->
    see_lr0 T N k = see_lr0 T N m /\ map see look = map see look' /\ r = s.
  Proof.
    intros L K A B R S E. apply lr0_reads in E as [C E]; try assumption.
    - split; [exact C|]. destruct look as [|i look], look' as [|j look']; cbn [parens app] in E.
      + auto.
      + exfalso. destruct R as [->|[r' ->]]; discriminate E.
      + exfalso. destruct S as [->|[r' ->]]; discriminate E.
      + unfold parens in E. rewrite <- !app_assoc in E. cbn [codes list_ascii_of_string map app] in E. injection E as E.
        apply (commas_reads (i :: look) (j :: look') 41 r s); auto. cbn. auto.
    - apply parens_stops; try assumption. apply K.
    - apply parens_stops; try assumption. apply L.
    - exact (proj2 (parens_stops _ 0 look r (proj1 L) A R)).
    - exact (proj2 (parens_stops _ 0 look' s (proj1 L) B S)).
  Qed.
  Notation legible_entry := (legible_entry T N). Notation see_entry := (see_entry T N).
  Lemma show_state_cons first k look l : show_state T N first ((k, look) :: l) = (if first then [] else [10]) ++ show_lr0 T N k ++ parens look ++ show_state T N false l.
  Proof. reflexivity. Qed.
  Lemma state_end l : line_end (show_state T N false l).
  Proof. destruct l as [|[k look] l]; [left; reflexivity|right; rewrite show_state_cons; eexists; reflexivity]. Qed.
  Lemma state_false l : forall k, (forall x, In x l -> legible_entry x) -> (forall x, In x k -> legible_entry x) ->
    show_state T N false l = show_state T N false k -> map see_entry l = map see_entry k.
  Proof.
    induction l as [|[a x] l IH]; intros [|[b y] k] L K E; try discriminate E; [reflexivity|].
    rewrite !show_state_cons in E. injection E as E.
    destruct (L _ (or_introl eq_refl)) as [L1 L2]. destruct (K _ (or_introl eq_refl)) as [K1 K2].
    apply entry_reads in E as (A & B & E); try assumption; try apply state_end.
    cbn [map fst snd]. unfold FormatSpec.see_entry at 1 3. cbn [fst snd]. rewrite A, B. f_equal. apply IH; [| |exact E]; intros z Z'; [apply L|apply K]; right; exact Z'.
  Qed.
  Lemma lr0_nonempty k : legible_lr0 T N k -> show_lr0 T N k <> [].
  Proof.
    intros [[L _] _] E. destruct (first_char _ L) as (c & x & F & _). unfold show_lr0, show_rule in E. rewrite F in E. discriminate E.
  Qed.
  Lemma state_same l k : (forall x, In x l -> legible_entry x) -> (forall x, In x k -> legible_entry x) ->
    show_state T N true l = show_state T N true k -> map see_entry l = map see_entry k.
  Proof.
    intros L K E. destruct l as [|[a x] l], k as [|[b y] k].
    - reflexivity.
    - exfalso. rewrite show_state_cons in E. symmetry in E. apply app_eq_nil in E as [_ E]. apply app_eq_nil in E as [E _]. revert E. apply lr0_nonempty, (K _ (or_introl eq_refl)).
    - exfalso. rewrite show_state_cons in E. apply app_eq_nil in E as [_ E]. apply app_eq_nil in E as [E _]. revert E. apply lr0_nonempty, (L _ (or_introl eq_refl)).
    - apply state_false; [exact L|exact K|]. rewrite !show_state_cons in *. cbn [app] in *. rewrite E. reflexivity.
  Qed.

  (** ** Numbers, actions and conflicts *)
  Lemma upto_space n : forall m r s, ~ In 32 n -> ~ In 32 m -> n ++ 32 :: r = m ++ 32 :: s -> n = m /\ r = s.
  Proof.
    induction n as [|c n IH]; intros [|d m] r s A B E; cbn in E.
    - injection E as ->. auto.
    - injection E as <- _. exfalso. apply B. left. reflexivity.
    - injection E as -> _. exfalso. apply A. left. reflexivity.
    - injection E as -> E. destruct (IH m r s) as [-> ->]; auto; intros I; [apply A|apply B]; right; exact I.
  Qed.
  Lemma number_space z : ~ In 32 (number z).
  Proof.
    unfold number. destruct (z <? 0); cbn [In]; [intros [H|H]; [discriminate H|]|intros H]; apply uint_codes_digit in H; lia.
  Qed.
  Lemma number_same a b : number a = number b -> a = b.
  Proof.
    assert (X : forall n m, 45 :: digits n <> digits m).
    { intros n m H. assert (I : In 45 (digits m)) by (rewrite <- H; left; reflexivity). apply uint_codes_digit in I. lia. }
    unfold number. destruct (a <? 0) eqn:A, (b <? 0) eqn:B; intros E.
    - injection E as E. apply digits_inj in E. lia.
    - exfalso. exact (X _ _ E).
    - exfalso. symmetry in E. exact (X _ _ E).
    - apply digits_inj in E. lia.
  Qed.
  Lemma number_reads a b r s : number a ++ 32 :: r = number b ++ 32 :: s -> a = b /\ r = s.
  Proof. intros E. apply upto_space in E as [E ->]; [|apply number_space|apply number_space]. split; [apply number_same, E|reflexivity]. Qed.
  Lemma paren_rule a b : legible_rule T N a -> legible_rule T N b -> show_rule T N a (-1) true ++ [41] = show_rule T N b (-1) true ++ [41] -> see_rule T N a = see_rule T N b.
  Proof.
    intros L K E. assert (X : ended [41]) by (right; eexists _, _; split; [reflexivity|cbn; auto]).
    apply rule_reads in E as (A & _); auto.
    - exact (proj1 (ended_stops _ _ _ K X)).
    - exact (proj1 (ended_stops _ _ _ L X)).
    - exact (proj2 (ended_stops _ 0 _ L X)).
    - exact (proj2 (ended_stops _ 0 _ L X)).
  Qed.
  Lemma action_same a b : legible_action T N a -> legible_action T N b -> show_action T N a = show_action T N b -> same_action T N a b.
  Proof.
    destruct a as [t i n r], b as [t' i' n' r']. intros [L1 L2] [K1 K2] E. cbn [a_type a_item a_next a_rule] in *.
    assert (P : forall r r', legible_rule T N r -> legible_rule T N r' -> show i ++ codes " (" ++ show_rule T N r (-1) true ++ codes ")" = show i' ++ codes " (" ++ show_rule T N r' (-1) true ++ codes ")" -> see i = see i' /\ see_rule T N r = see_rule T N r').
    { clear E L2 K2. intros x y X Y E. apply item_reads in E as [A E]; [|assumption|assumption|apply delim_cons; cbn; auto 20|apply delim_cons; cbn; auto 20].
      cbn [codes list_ascii_of_string map app] in E. injection E as E. split; [exact A|apply paren_rule; assumption]. }
    assert (Q : show i ++ [] = show i' ++ [] -> see i = see i').
    { intros X. apply item_reads in X; [apply X|assumption|assumption|apply delim_nil|apply delim_nil]. }
    assert (M : forall x y, number x ++ 32 :: codes "on " ++ show i ++ [] = number y ++ 32 :: codes "on " ++ show i' ++ [] -> x = y /\ see i = see i').
    { intros x y X. apply number_reads in X as [-> X]. cbn [codes list_ascii_of_string map app] in X. injection X as X. auto. }
    unfold show_action, same_action in *. cbn [a_type a_item a_next a_rule] in *.
    destruct t, t'; cbn [has_rule has_state] in *;
      cbn [codes list_ascii_of_string map app Ascii.N_of_ascii Ascii.N_of_digits Z.of_N] in E; try discriminate E; injection E as E;
      try (specialize (P r r' (L2 eq_refl) (K2 eq_refl) E) as [P1 P2]; repeat split; auto; discriminate);
      try (repeat split; auto; discriminate).
    all: rewrite <- !app_assoc in E; specialize (M _ _ E) as [M1 M2]; repeat split; auto; discriminate.
  Qed.
  Definition row (k : lr0) : str := 10 :: codes "    " ++ show_lr0 T N k.
  Definition section_end (r : str) : Prop := r = [] \/ exists c r', r = 10 :: 32 :: 32 :: c :: r' /\ c <> 32.
  Lemma rows_reads l : forall k r s, (forall x, In x l -> legible_lr0 T N x) -> (forall x, In x k -> legible_lr0 T N x) -> section_end r -> section_end s ->
    flat_map row l ++ r = flat_map row k ++ s -> map (see_lr0 T N) l = map (see_lr0 T N) k /\ r = s.
  Proof.
    assert (X : forall l r, section_end r -> ended (flat_map row l ++ r)).
    { clear l. intros [|x l] r R.
      - destruct R as [->|(c & r' & -> & _)]; [left; reflexivity|]. right. eexists _, _. split; [reflexivity|cbn; auto].
      - right. eexists _, _. split; [reflexivity|cbn; auto]. }
    induction l as [|a l IH]; intros [|b k] r s L K R S E; cbn [flat_map app] in E.
    - auto.
    - exfalso. destruct R as [->|(c & r' & -> & N')]; [discriminate E|]. cbn in E. injection E as E _. congruence.
    - exfalso. destruct S as [->|(c & r' & -> & N')]; [discriminate E|]. cbn in E. injection E as E _. congruence.
    - unfold row at 1 3 in E. cbn [codes list_ascii_of_string map app] in E. injection E as E. rewrite <- !app_assoc in E.
      apply lr0_ended in E as [A E]; [|apply L; left; reflexivity|apply K; left; reflexivity|apply X, R|apply X, S].
      apply IH in E as [B ->]; [cbn [map]; rewrite A, B; auto| | |exact R|exact S]; intros x I; [apply L|apply K]; right; exact I.
  Qed.
  Lemma reduce_rows c : flat_map (fun k : lr0 * list lid => 10 :: codes "    " ++ show_lr0 T N (fst k)) (f_reduce c) = flat_map row (map fst (f_reduce c)).
  Proof. generalize (f_reduce c). intros l. induction l as [|x l IH]; [reflexivity|]. cbn [flat_map map]. rewrite IH. reflexivity. Qed.
  Lemma conflict_same a b : legible_conflict T N a -> legible_conflict T N b -> show_conflict T N a = show_conflict T N b -> see_conflict T N a = see_conflict T N b.
  Proof.
    intros (L1 & L2 & L3) (K1 & K2 & K3) E. unfold show_conflict in E. rewrite !reduce_rows in E.
    change (fun k : lr0 => 10 :: codes "    " ++ show_lr0 T N k) with row in E.
    assert (L4 : forall x, In x (map fst (f_reduce a)) -> legible_lr0 T N x) by (intros x I; apply in_map_iff in I as (y & <- & I); apply L3, I).
    assert (K4 : forall x, In x (map fst (f_reduce b)) -> legible_lr0 T N x) by (intros x I; apply in_map_iff in I as (y & <- & I); apply K3, I).
    assert (SE : section_end []) by (left; reflexivity).
    unfold see_conflict. rewrite <- (map_map fst (see_lr0 T N) (f_reduce a)), <- (map_map fst (see_lr0 T N) (f_reduce b)).
    destruct (f_shift a) as [|x xs] eqn:Ha, (f_shift b) as [|y ys] eqn:Hb; cbn [codes list_ascii_of_string map app Ascii.N_of_ascii Ascii.N_of_digits Z.of_N] in E; try discriminate E; injection E as E.
    all: apply number_reads in E as [E0 E]; rewrite E0; injection E as E.
    all: apply item_reads in E; [|assumption|assumption|apply delim_cons; cbn; auto 20|apply delim_cons; cbn; auto 20].
    all: destruct E as [A E]; rewrite A; injection E as E.
    - rewrite <- (app_nil_r (flat_map row (map fst (f_reduce a)))), <- (app_nil_r (flat_map row (map fst (f_reduce b)))) in E.
      apply rows_reads in E as [B _]; auto. cbn [map]. rewrite B. reflexivity.
    - apply (f_equal (fun t => 10 :: codes "    " ++ t)) in E.
      match type of E with _ :: _ ++ _ ++ ?u = _ :: _ ++ _ ++ ?v => change (flat_map row (x :: xs) ++ u = flat_map row (y :: ys) ++ v) in E end.
      apply rows_reads in E as [B E]; [|exact L2|exact K2|right; eexists _, _; split; [reflexivity|discriminate]|right; eexists _, _; split; [reflexivity|discriminate]].
      injection E as E. rewrite <- (app_nil_r (flat_map row (map fst (f_reduce a)))), <- (app_nil_r (flat_map row (map fst (f_reduce b)))) in E.
      apply rows_reads in E as [C _]; auto. rewrite B, C. reflexivity.
  Qed.

  (** ** No line breaks in items *)
  Lemma body_line b : string_body b -> ~ In 10 b.
  Proof. induction 1; cbn [In]; intuition lia. Qed.
  Lemma words_line n : Forall word_char n -> ~ In 10 n.
  Proof. intros W I. rewrite Forall_forall in W. apply (W 10 I). cbn. auto. Qed.
  Lemma terminal_line n : terminal_like n -> ~ In 10 n.
  Proof.
    intros [c m C W M|b Sb|c C|c C].
    - apply words_line. constructor; assumption.
    - intros [H|H]; [discriminate H|]. apply in_app_or in H as [H|[H|[]]]; [exact (body_line b Sb H)|discriminate H].
    - cbn [In]. intuition lia.
    - cbn [In]. intuition lia.
  Qed.
  Lemma joined_line l : (forall i, In i l -> ~ In 10 (show i)) -> ~ In 10 (plain l).
  Proof.
    rewrite plain_joined. intros H.
    assert (R : ~ In 10 (rest (map Some l))).
    { clear -H. induction l as [|i l IH]; cbn [map rest In]; [auto|]. intros [I|I]; [discriminate I|]. apply in_app_or in I as [I|I].
      - exact (H i (or_introl eq_refl) I).
      - revert I. apply IH. intros j J. apply H. right. exact J. }
    intros I. apply R. destruct l as [|i l]; [destruct I|]. right. exact I.
  Qed.
  Lemma lines_app (a b : str) : ~ In 10 a -> ~ In 10 b -> ~ In 10 (a ++ b).
  Proof. intros A B I. apply in_app_or in I as [I|I]; auto. Qed.
  Lemma item_line i : legible i -> ~ In 10 (show i).
  Proof.
    induction i as [| | |z|z|p l H|k rs H] using item_induction; intros L.
    1-3: vm_compute; intuition discriminate.
    - apply terminal_line, L.
    - cbn in L. cbn [show_item]. inversion L as [n W E]. intros [I|I]; [discriminate I|]. exact (words_line n W I).
    - cbn [FormatSpec.legible] in L. rewrite all_spec in L. rewrite Forall_forall in H. cbn [show_item]. change (items_text show (-1) 0 true l) with (plain l).
      apply lines_app; [vm_compute; intuition discriminate|]. apply lines_app; [|vm_compute; intuition discriminate].
      apply joined_line. intros i I. apply H; [exact I|apply L, I].
    - destruct L as [L1 L2]. rewrite all_spec2 in L2. rewrite Forall_forall in H.
      assert (P : forall l, In l rs -> ~ In 10 (plain l)).
      { intros l I. apply joined_line. intros i J. specialize (H l I). rewrite Forall_forall in H. apply H; [exact J|apply (L2 l i I J)]. }
      assert (SX : ~ In 10 (suffix k)) by (destruct k; vm_compute; intuition discriminate).
      assert (M : forall rs, (forall l, In l rs -> ~ In 10 (plain l)) -> ~ In 10 (more_rules rs)).
      { clear. intros rs. induction rs as [|r rs IH]; intros P; cbn [more_rules]; [intros []|].
        intros [I|[I|[I|I]]]; try discriminate I. apply in_app_or in I as [I|I]; [exact (P r (or_introl eq_refl) I)|]. revert I. apply IH. intros l J. apply P. right. exact J. }
      destruct rs as [|r rs].
      + destruct k; try (discriminate L1; discriminate). vm_compute. intuition discriminate.
      + rewrite show_ebnf.
        * intros [I|[I|I]]; try discriminate I. apply in_app_or in I as [I|I]; [exact (P r (or_introl eq_refl) I)|].
          apply in_app_or in I as [I|[I|[I|I]]]; try discriminate I; [|exact (SX I)]. revert I. apply M. intros l J. apply P. right. exact J.
        * intros A. apply L1 in A. destruct rs; [reflexivity|discriminate A].
  Qed.

  (** ** Trees as lists of lines *)
  Definition head_text (n : node) : str := match n with Node i x _ => show_head T N i x end.
  Fixpoint join_lines (l : list str) : str := match l with [] => [] | [a] => a | a :: l => a ++ 10 :: join_lines l end.
  Lemma join_lines_cons a b l : join_lines (a :: b :: l) = a ++ 10 :: join_lines (b :: l). Proof. reflexivity. Qed.
  Lemma join_lines_app a l b k : join_lines ((a :: l) ++ b :: k) = join_lines (a :: l) ++ 10 :: join_lines (b :: k).
  Proof.
    revert a. induction l as [|c l IH]; intros a; [reflexivity|].
    change ((a :: c :: l) ++ b :: k) with (a :: (c :: l) ++ b :: k). cbn [app]. rewrite !join_lines_cons. change (c :: l ++ b :: k) with ((c :: l) ++ b :: k). rewrite IH, <- app_assoc. reflexivity.
  Qed.
  Definition prefix (more : bool) : str := if more then codes "|  " else codes "   ".
  Definition more (l : list node) : bool := match l with [] => false | _ => true end.
  Definition block_lines (m : bool) (l : list str) : list str := match l with [] => [] | h :: t => (codes "+- " ++ h) :: map (fun x => prefix m ++ x) t end.
  Section ChildLines.
    Context (lines : node -> list str).
    Fixpoint child_lines (l : list node) : list str := match l with [] => [] | c :: l => block_lines (more l) (lines c) ++ child_lines l end.
  End ChildLines.
  Fixpoint split_lines (s : str) : list str :=
    match s with
    | [] => [[]]
    | c :: s => if c =? 10 then [] :: split_lines s else match split_lines s with [] => [] | h :: t => (c :: h) :: t end
    end.
  Lemma split_cons s : exists h t, split_lines s = h :: t.
  Proof. induction s as [|c s (h & t & E)]; cbn [split_lines]; [eauto|]. rewrite E. destruct (c =? 10); eauto. Qed.
  Lemma split_join s : join_lines (split_lines s) = s.
  Proof.
    induction s as [|c s IH]; [reflexivity|]. cbn [split_lines]. destruct (split_cons s) as (h & t & E). rewrite E in *. destruct (c =? 10) eqn:C.
    - rewrite join_lines_cons, IH. cbn. f_equal. lia.
    - rewrite <- IH. destruct t; reflexivity.
  Qed.
  Lemma split_ok s : forall x, In x (split_lines s) -> ~ In 10 x.
  Proof.
    induction s as [|c s IH]; cbn [split_lines]; intros x I.
    - destruct I as [<-|[]]. intros [].
    - destruct (split_cons s) as (h & t & E). rewrite E in *. destruct (c =? 10) eqn:C.
      + destruct I as [<-|I]; [intros []|apply IH, I].
      + destruct I as [<-|I].
        * intros [H|H]; [lia|]. exact (IH h (or_introl eq_refl) H).
        * apply IH. right. exact I.
  Qed.
  Fixpoint node_lines (n : node) : list str := match n with Node i x l => split_lines (show_head T N i x) ++ child_lines node_lines l end.
  Section NodeInduction.
    Context (P : node -> Prop) (H : forall i x l, Forall P l -> P (Node i x l)).
    Fixpoint node_induction (n : node) : P n :=
      match n with Node i x l => H i x l ((fix f l := match l return Forall P l with [] => Forall_nil _ | c :: l => Forall_cons _ (node_induction c) (f l) end) l) end.
  End NodeInduction.
  Lemma indent_app m a b : indent m (a ++ b) = indent m a ++ indent m b.
  Proof. unfold indent. induction a as [|c a IH]; [reflexivity|]. cbn [app flat_map]. rewrite IH, <- app_assoc. reflexivity. Qed.
  Lemma indent_line m a : ~ In 10 a -> indent m a = a.
  Proof.
    unfold indent. induction a as [|c a IH]; [reflexivity|]. intros H. cbn [flat_map]. destruct (c =? 10) eqn:E.
    - exfalso. apply H. left. lia.
    - cbn [app]. rewrite IH; [reflexivity|]. intros I. apply H. right. exact I.
  Qed.
  Lemma indent_lines m h t : (forall x, In x (h :: t) -> ~ In 10 x) -> indent m (join_lines (h :: t)) = join_lines (h :: map (fun x => prefix m ++ x) t).
  Proof.
    revert h. induction t as [|a t IH]; intros h H.
    - apply indent_line, H. left. reflexivity.
    - cbn [map]. rewrite !join_lines_cons, indent_app, (indent_line m h) by (apply H; left; reflexivity). f_equal.
      change (10 :: join_lines (a :: t)) with ([10] ++ join_lines (a :: t)). rewrite indent_app, IH by (intros x I; apply H; right; exact I).
      assert (X : indent m [10] = 10 :: prefix m) by (destruct m; reflexivity). rewrite X. cbn [app]. f_equal.
      destruct t as [|b t]; [reflexivity|]. cbn [map]. rewrite !join_lines_cons, app_assoc. reflexivity.
  Qed.
  Lemma children_legible i x l c : legible_node T N (Node i x l) -> In c l -> legible_node T N c.
  Proof. intros L I. inversion L as [j k A B|z y A]; subst; [auto|destruct I]. Qed.
  Lemma node_lines_ok n : legible_node T N n -> forall x, In x (node_lines n) -> ~ In 10 x.
  Proof.
    induction n as [i x l H] using node_induction. intros L y I. cbn [node_lines] in I. apply in_app_or in I as [I|I]; [exact (split_ok _ _ I)|].
    assert (C : forall c, In c l -> legible_node T N c) by (intros c J; apply (children_legible _ _ _ _ L J)). clear L.
    induction H as [|c l Hc H IH]; [destruct I|]. cbn [child_lines] in I. apply in_app_or in I as [I|I].
    - specialize (Hc (C c (or_introl eq_refl))). destruct (node_lines c) as [|h t]; [destruct I|]. destruct I as [<-|I].
      + apply lines_app; [vm_compute; intuition discriminate|]. apply Hc. left. reflexivity.
      + apply in_map_iff in I as (z & <- & I). apply lines_app; [destruct l; vm_compute; intuition discriminate|]. apply Hc. right. exact I.
    - apply IH; [exact I|]. intros d J. apply C. right. exact J.
  Qed.
  Lemma node_lines_cons n : exists h t, node_lines n = h :: t.
  Proof. destruct n as [i x l]. cbn [node_lines]. destruct (split_cons (show_head T N i x)) as (h & t & ->). cbn. eauto. Qed.
  Lemma show_lines n : legible_node T N n -> show_node T N n = join_lines (node_lines n).
  Proof.
    induction n as [i x l H] using node_induction. intros L. cbn [show_node node_lines].
    assert (C : forall c, In c l -> legible_node T N c) by (intros c J; apply (children_legible _ _ _ _ L J)). clear L.
    assert (CL : forall h, h ++ children_text (show_node T N) l = join_lines (h :: child_lines node_lines l)).
    { induction H as [|c l Hc H IH]; intros h.
    - cbn. apply app_nil_r.
    - assert (Lc : legible_node T N c) by (apply C; left; reflexivity). specialize (Hc Lc).
      pose proof (node_lines_ok c Lc) as OK. destruct (node_lines_cons c) as (hc & tc & Ec).
      cbn [children_text child_lines]. rewrite Hc, Ec. rewrite Ec in OK. fold (more l).
      rewrite (indent_lines _ hc tc OK). cbn [block_lines].
      assert (X : 10 :: codes "+- " ++ join_lines (hc :: map (fun y => prefix (more l) ++ y) tc) = 10 :: join_lines ((codes "+- " ++ hc) :: map (fun y => prefix (more l) ++ y) tc)).
      { destruct tc as [|d tc]; [reflexivity|]. cbn [map]. rewrite !join_lines_cons, app_assoc. reflexivity. }
      cbn [app]. set (P := map (fun y => prefix (more l) ++ y) tc) in *.
      rewrite join_lines_cons. f_equal.
      assert (Y : children_text (show_node T N) l = match child_lines node_lines l with [] => [] | b :: k => 10 :: join_lines (b :: k) end).
      { assert (Cl : forall d, In d l -> legible_node T N d) by (intros d J; apply C; right; exact J).
        specialize (IH Cl []). cbn [app] in IH. destruct (child_lines node_lines l) as [|b k] eqn:E; [exact IH|]. rewrite IH, join_lines_cons. reflexivity. }
      rewrite Y. rewrite app_comm_cons, app_assoc.
      rewrite <- app_assoc. cbn [app]. 
      transitivity ((10 :: join_lines ((codes "+- " ++ hc) :: P)) ++ match child_lines node_lines l with [] => [] | b :: k => 10 :: join_lines (b :: k) end).
      + rewrite <- X. cbn [app]. rewrite <- app_assoc. reflexivity.
      + destruct (child_lines node_lines l) as [|b k]; [rewrite !app_nil_r; reflexivity|].
        cbn [app]. f_equal. symmetry. exact (join_lines_app (codes "+- " ++ hc) P b k). }
    specialize (CL []). cbn [app] in CL. rewrite CL. generalize (show_head T N i x). intros h. destruct (split_cons h) as (a & t & E). rewrite E.
    pose proof (split_join h) as J. rewrite E in J. destruct (child_lines node_lines l) as [|b k].
    - cbn [join_lines]. rewrite !app_nil_r. symmetry. exact J.
    - rewrite join_lines_cons. cbn [app]. rewrite <- J. symmetry. exact (join_lines_app a t b k).
  Qed.
  Lemma join_lines_inj l : forall k, (forall x, In x l -> ~ In 10 x) -> (forall x, In x k -> ~ In 10 x) -> l <> [] -> k <> [] -> join_lines l = join_lines k -> l = k.
  Proof.
    assert (X : forall a b r s, ~ In 10 a -> ~ In 10 b -> (r = [] \/ exists r', r = 10 :: r') -> (s = [] \/ exists s', s = 10 :: s') -> a ++ r = b ++ s -> a = b /\ r = s).
    { clear. induction a as [|c a IH]; intros [|d b] r s A B R S E; cbn in E.
      - auto.
      - exfalso. destruct R as [->|[r' ->]]; [discriminate E|]. injection E as <- _. apply B. left. reflexivity.
      - exfalso. destruct S as [->|[r' ->]]; [discriminate E|]. injection E as -> _. apply A. left. reflexivity.
      - injection E as -> E. destruct (IH b r s) as [-> ->]; auto; intros I; [apply A|apply B]; right; exact I. }
    assert (Y : forall a l, join_lines (a :: l) = a ++ match l with [] => [] | _ => 10 :: join_lines l end) by (intros a [|b t]; cbn; [rewrite app_nil_r|]; reflexivity).
    assert (Z' : forall l : list str, (match l with [] => [] | _ => 10 :: join_lines l end) = [] \/ exists r', (match l with [] => [] | _ => 10 :: join_lines l end) = 10 :: r') by (intros [|b t]; eauto).
    induction l as [|a l IH]; intros [|b k] A B NA NB E; try congruence. rewrite !Y in E.
    apply X in E as [-> E]; [|apply A; left; reflexivity|apply B; left; reflexivity|apply Z'|apply Z'].
    f_equal. destruct l as [|c l], k as [|d k]; try discriminate E; [reflexivity|]. injection E as E.
    apply IH; try discriminate; try exact E; intros x I; [apply A|apply B]; right; exact I.
  Qed.
  (** The lines of a child end where a line starts with a plus sign *)
  Definition plus_first (l : list str) : Prop := l = [] \/ exists x t, l = (43 :: x) :: t.
  Lemma child_plus l : plus_first (child_lines node_lines l).
  Proof. destruct l as [|c l]; [left; reflexivity|]. right. cbn [child_lines]. destruct (node_lines_cons c) as (h & t & ->). cbn. eauto. Qed.
  Lemma child_nil l : child_lines node_lines l = [] -> l = [].
  Proof. destruct l as [|c l]; [reflexivity|]. cbn [child_lines]. destruct (node_lines_cons c) as (h & t & ->). discriminate. Qed.
  Lemma block_split m m' t : forall t' r s, plus_first r -> plus_first s -> map (fun x => prefix m ++ x) t ++ r = map (fun x => prefix m' ++ x) t' ++ s -> 
    map (fun x => prefix m ++ x) t = map (fun x => prefix m' ++ x) t' /\ r = s.
  Proof.
    induction t as [|a t IH]; intros [|b t'] r s R S E; cbn [map app] in E.
    - auto.
    - exfalso. destruct R as [->|(x & y & ->)]; [discriminate E|]. destruct m'; discriminate E.
    - exfalso. destruct S as [->|(x & y & ->)]; [discriminate E|]. destruct m; discriminate E.
    - injection E as E1 E2. apply IH in E2 as [E2 ->]; [|assumption|assumption]. cbn [map]. rewrite E1, E2. auto.
  Qed.
  Lemma children_start l : children_text (show_node T N) l = [] \/ exists r, children_text (show_node T N) l = 10 :: r.
  Proof. destruct l; cbn [children_text]; eauto. Qed.
  Lemma lines_text n m : legible_node T N n -> legible_node T N m -> node_lines n = node_lines m -> show_node T N n = show_node T N m.
  Proof. intros L K E. rewrite (show_lines n L), (show_lines m K), E. reflexivity. Qed.
  Lemma node_lines_same n : forall m, legible_node T N n -> legible_node T N m -> node_lines n = node_lines m -> see_node T N n = see_node T N m.
  Proof.
    assert (Q : forall q, delim (codes " """ ++ q)) by (intros q; apply delim_cons; cbn; auto).
    assert (DC : forall l, delim (children_text (show_node T N) l)) by (intros l; destruct (children_start l) as [->|[r ->]]; [apply delim_nil|apply delim_cons; cbn; auto 20]).
    induction n as [i x l H] using node_induction. intros [j y k] L K E. pose proof (lines_text _ _ L K E) as ET.
    pose proof L as L0. pose proof K as K0.
    inversion L0 as [i' l' A B|z u A]; inversion K0 as [j' k' A' B'|z' u' A']; subst; cbn [show_node show_head fst snd children_text] in ET.
    2:{ exfalso. rewrite app_nil_r in ET. change (T z') with (show (ITerm z')) in ET. apply item_reads in ET as [_ ET]; auto.
        destruct (children_start l) as [X|[r X]]; rewrite X in ET; discriminate ET. }
    2:{ exfalso. rewrite app_nil_r in ET. change (T z) with (show (ITerm z)) in ET. apply item_reads in ET as [_ ET]; auto.
        destruct (children_start k) as [X|[r X]]; rewrite X in ET; discriminate ET. }
    2:{ rewrite !app_nil_r in ET. apply terminal_run in ET as [ET1 ET]; auto. cbn [codes list_ascii_of_string map app] in ET. injection ET as ET. apply app_inj_tail in ET as [-> _].
        cbn [see_node fst snd map]. rewrite ET1. reflexivity. }
    apply item_reads in ET as [SE _]; auto. cbn [see_node]. rewrite SE. f_equal.
    assert (SP : forall i, legible i -> split_lines (show i) = [show i]).
    { clear. intros i L. pose proof (item_line i L) as O. revert O. generalize (show i). intros t. induction t as [|c t IH]; [reflexivity|]. intros O. cbn [split_lines].
      rewrite IH by (intros I; apply O; right; exact I). destruct (c =? 10) eqn:C; [|reflexivity]. exfalso. apply O. left. lia. }
    cbn [node_lines show_head] in E. rewrite (SP _ A), (SP _ A') in E. cbn [app] in E. injection E as E1 E2.
    assert (C : forall c, In c l -> legible_node T N c) by (intros c J; apply (children_legible _ _ _ _ L J)).
    assert (D : forall c, In c k -> legible_node T N c) by (intros c J; apply (children_legible _ _ _ _ K J)).
    clear E1 L K L0 K0 A A' B B' SE. revert k D E2. induction H as [|c l Hc H IH]; intros k D E.
    - symmetry in E. apply child_nil in E. subst. reflexivity.
    - destruct k as [|d k]; [apply child_nil in E; discriminate E|]. cbn [child_lines] in E.
      destruct (node_lines_cons c) as (h & t & Ec). destruct (node_lines_cons d) as (h' & t' & Ed). rewrite Ec, Ed in E. cbn [block_lines app] in E.
      injection E as E1 E2. apply block_split in E2 as [E2 E3]; [|apply child_plus|apply child_plus].
      assert (MM : more l = more k).
      { destruct l as [|u l], k as [|v k]; try reflexivity; [symmetry in E3; apply child_nil in E3|apply child_nil in E3]; discriminate E3. }
      assert (TT : t = t').
      { rewrite MM in E2. clear -E2. revert t' E2. induction t as [|a t IH]; intros [|b t'] E; try discriminate E; [reflexivity|]. cbn [map] in E. injection E as E1 E2. apply app_inv_head in E1. subst. f_equal. apply IH, E2. }
      cbn [map]. f_equal.
      + apply Hc; [apply C; left; reflexivity|apply D; left; reflexivity|]. rewrite Ec, Ed, TT. f_equal. exact E1.
      + apply IH; [intros z I; apply C; right; exact I|intros z I; apply D; right; exact I|exact E3].
  Qed.
  Lemma node_same n m : legible_node T N n -> legible_node T N m -> show_node T N n = show_node T N m -> see_node T N n = see_node T N m.
  Proof.
    intros L K E. rewrite (show_lines n L), (show_lines m K) in E. apply node_lines_same; [exact L|exact K|].
    apply join_lines_inj; try exact E; [apply node_lines_ok, L|apply node_lines_ok, K| |].
    - destruct (node_lines_cons n) as (h & t & ->). discriminate.
    - destruct (node_lines_cons m) as (h & t & ->). discriminate.
  Qed.

  (** ** Items with the same look *)
  Lemma see_same i : told_apart T N -> forall j p, guards_at p i -> guards_at p j -> see i = see j -> i = j.
  Proof.
    intros [TA NA]. 
    assert (X : forall p l, Forall (fun i => forall j p, guards_at p i -> guards_at p j -> see i = see j -> i = j) l -> forall k, (forall i, In i l -> guards_at p i) -> (forall i, In i k -> guards_at p i) -> map see l = map see k -> l = k).
    { intros p l H. induction H as [|a l Ha H IH]; intros [|b k] G1 G2 E; try discriminate E; [reflexivity|]. cbn [map] in E. injection E as E1 E2. f_equal.
      - apply (Ha b p); [apply G1|apply G2|exact E1]; left; reflexivity.
      - apply IH; [| |exact E2]; intros x I; [apply G1|apply G2]; right; exact I. }
    induction i as [| | |z|z|q l H|k rs H] using item_induction; intros j p G1 G2 E; destruct j; try discriminate E; cbn [FormatSpec.see] in E.
    1-3: reflexivity.
    - injection E as E. f_equal. apply TA, E.
    - injection E as E. f_equal. apply NA, E.
    - cbn [guards_at] in G1, G2. rewrite all_spec in G1, G2. destruct G1 as [-> G1], G2 as [-> G2]. injection E as E. f_equal. eapply X; eauto.
    - cbn [guards_at] in G1, G2. rewrite all_spec2 in G1, G2. injection E as -> E. f_equal.
      revert rules G2 E. induction H as [|l rs Hl H IH]; intros [|m ms] G2 E; try discriminate E; [reflexivity|]. cbn [map] in E. injection E as E1 E2. f_equal.
      + eapply X; [exact Hl| | |exact E1]; intros x I; [eapply G1|eapply G2]; eauto; left; reflexivity.
      + apply IH; [| |exact E2]; intros x y I J; [eapply G1|eapply G2]; eauto; right; exact I.
  Qed.
End Names.

(** Proofs about the order of items and rules and about the identifiers of a grammar. *)
From Verif Require Import Base OrdMap GrammarModel GrammarSpec.
Local Open Scope Z_scope.

(** ** Induction over items *)
Section Induction.
  Context (P : item -> Prop).
  Hypothesis HE : P IEmpty.
  Hypothesis HI : P IEoi.
  Hypothesis HG : P IEog.
  Hypothesis HT : forall s, P (ITerm s).
  Hypothesis HN : forall s, P (INonterm s).
  Hypothesis HU : forall p l, Forall P l -> P (IGuard p l).
  Hypothesis HB : forall k ls, Forall (Forall P) ls -> P (IEbnf k ls).
  Fixpoint item_rect' (i : item) : P i :=
    match i with
    | IEmpty => HE
    | IEoi => HI
    | IEog => HG
    | ITerm s => HT s
    | INonterm s => HN s
    | IGuard p l => HU p l ((fix all (l : list item) : Forall P l := match l with [] => Forall_nil _ | a :: l => Forall_cons a (item_rect' a) (all l) end) l)
    | IEbnf k ls => HB k ls ((fix alls (ls : list (list item)) : Forall (Forall P) ls :=
        match ls with [] => Forall_nil _ | l :: ls => Forall_cons l ((fix all (l : list item) : Forall P l := match l with [] => Forall_nil _ | a :: l => Forall_cons a (item_rect' a) (all l) end) l) (alls ls) end) ls)
    end.
End Induction.

(** ** Three-way comparisons *)
Section Compare.
  Context {A : Type} (cmp : A -> A -> comparison).
  Definition cmp_at (a : A) : Prop := (forall b, cmp a b = Eq <-> a = b) /\ (forall b, cmp b a = CompOpp (cmp a b)).
  Definition trans_at (a : A) : Prop := forall b c, cmp a b = Lt -> cmp b c = Lt -> cmp a c = Lt.

  Lemma zip_cmp_eq l : Forall cmp_at l -> forall k, length l = length k -> zip_cmp cmp l k = Eq <-> l = k.
  Proof.
    induction 1 as [|a l (E & _) F IH]; intros [|b k] L; try discriminate L; cbn [zip_cmp]; [tauto|]. injection L as L. specialize (E b). destruct (cmp a b).
    - rewrite IH by exact L. split; [intros ->; f_equal; apply E; reflexivity|intros X; injection X; auto].
    - split; [discriminate|]. intros X. injection X as X _. apply E in X. discriminate X.
    - split; [discriminate|]. intros X. injection X as X _. apply E in X. discriminate X.
  Qed.
  Lemma zip_cmp_opp l : Forall cmp_at l -> forall k, zip_cmp cmp k l = CompOpp (zip_cmp cmp l k).
  Proof.
    induction 1 as [|a l (_ & O) F IH]; intros [|b k]; cbn [zip_cmp]; try reflexivity. rewrite O. destruct (cmp a b); cbn [CompOpp]; [apply IH|reflexivity|reflexivity].
  Qed.
  Lemma sized_cmp_at l : Forall cmp_at l -> (forall k, sized_cmp cmp l k = Eq <-> l = k) /\ (forall k, sized_cmp cmp k l = CompOpp (sized_cmp cmp l k)).
  Proof.
    intros F. unfold sized_cmp. split; intros k.
    - destruct (Nat.compare_spec (length l) (length k)) as [L|L|L].
      + apply zip_cmp_eq; assumption.
      + split; [discriminate|]. intros ->. lia.
      + split; [discriminate|]. intros ->. lia.
    - rewrite Nat.compare_antisym. destruct (Nat.compare (length l) (length k)); cbn [CompOpp]; [apply zip_cmp_opp, F|reflexivity|reflexivity].
  Qed.

  Hypothesis EQ : forall a b, cmp a b = Eq -> a = b.
  Lemma zip_cmp_trans l : Forall trans_at l -> forall k m, length l = length k -> length k = length m -> zip_cmp cmp l k = Lt -> zip_cmp cmp k m = Lt -> zip_cmp cmp l m = Lt.
  Proof.
    induction 1 as [|a l T F IH]; intros [|b k] [|c m] L1 L2; try discriminate; cbn [zip_cmp]; try discriminate. injection L1 as L1. injection L2 as L2.
    destruct (cmp a b) eqn:C1; [|intros _|discriminate].
    - apply EQ in C1. subst b. intros H1. destruct (cmp a c); [intros H2; eapply IH; eassumption|auto|auto].
    - destruct (cmp b c) eqn:C2; [intros _|intros _|discriminate].
      + apply EQ in C2. subst c. rewrite C1. reflexivity.
      + rewrite (T b c C1 C2). reflexivity.
  Qed.
  Lemma sized_cmp_trans l : Forall trans_at l -> forall k m, sized_cmp cmp l k = Lt -> sized_cmp cmp k m = Lt -> sized_cmp cmp l m = Lt.
  Proof.
    intros F k m. unfold sized_cmp. destruct (Nat.compare_spec (length l) (length k)) as [L|L|L]; [|intros _|discriminate];
      (destruct (Nat.compare_spec (length k) (length m)) as [L2|L2|L2]; [|intros|discriminate]).
    - rewrite (proj2 (Nat.compare_eq_iff _ _) (eq_trans L L2)). apply zip_cmp_trans; assumption.
    - rewrite (proj2 (Nat.compare_lt_iff _ _)) by lia. reflexivity.
    - rewrite (proj2 (Nat.compare_lt_iff _ _)) by lia. reflexivity.
    - rewrite (proj2 (Nat.compare_lt_iff _ _)) by lia. reflexivity.
  Qed.
End Compare.

Lemma item_cmp_at : forall a, cmp_at item_cmp a.
Proof.
  assert (LEAF : forall a, (forall b, match kind_of a ?= kind_of b with Eq => b = a | _ => True end) -> (forall b, item_cmp a b = (kind_of a ?= kind_of b) /\ item_cmp b a = (kind_of b ?= kind_of a)) -> cmp_at item_cmp a).
  { intros a H1 H2. split; intros b; destruct (H2 b) as [E1 E2]; rewrite E1.
    - specialize (H1 b). destruct (kind_of a ?= kind_of b) eqn:K; [split; auto| |]; (split; [discriminate|]); intros ->; rewrite Z.compare_refl in K; discriminate K.
    - rewrite E2. apply Z.compare_antisym. }
  induction a as [| | |s|s|p l IH|k ls IH] using item_rect'.
  - apply LEAF; intros b; destruct b as [| | |t|t|q m|[] m]; cbn; auto.
  - apply LEAF; intros b; destruct b as [| | |t|t|q m|[] m]; cbn; auto.
  - apply LEAF; intros b; destruct b as [| | |t|t|q m|[] m]; cbn; auto.
  - split; intros b; destruct b as [| | |t|t|q m|[] m]; cbn; try (split; discriminate); try reflexivity.
    + rewrite Z.compare_eq_iff. split; [intros ->; reflexivity|intros E; injection E; auto].
    + apply Z.compare_antisym.
  - split; intros b; destruct b as [| | |t|t|q m|[] m]; cbn; try (split; discriminate); try reflexivity.
    + rewrite Z.compare_eq_iff. split; [intros ->; reflexivity|intros E; injection E; auto].
    + apply Z.compare_antisym.
  - destruct (sized_cmp_at item_cmp l IH) as [E O]. split; intros b; destruct b as [| | |t|t|q m|[] m]; cbn [item_cmp kind_of Z.compare Pos.compare Pos.compare_cont]; try (split; discriminate); try reflexivity.
    + destruct (Z.compare_spec p q) as [->|L|L].
      * rewrite E. split; [intros ->; reflexivity|intros X; injection X; auto].
      * split; [discriminate|]. intros X. injection X as -> _. lia.
      * split; [discriminate|]. intros X. injection X as -> _. lia.
    + rewrite (Z.compare_antisym p q). destruct (p ?= q); cbn [CompOpp]; [apply O|reflexivity|reflexivity].
  - destruct (sized_cmp_at (fun l k => sized_cmp item_cmp l k) ls) as [E O].
    { eapply Forall_impl; [|exact IH]. intros l F. exact (sized_cmp_at item_cmp l F). }
    split; intros b; destruct b as [| | |t|t|q m|k2 m]; try (destruct k; split; discriminate); try (destruct k; reflexivity);
      destruct k, k2; cbn [item_cmp kind_of Z.compare Pos.compare Pos.compare_cont CompOpp]; try (split; discriminate); try reflexivity;
      try (rewrite E; split; [intros ->; reflexivity|intros X; injection X; auto]); apply O.
Qed.
Lemma item_cmp_eq a b : item_cmp a b = Eq <-> a = b.
Proof. apply item_cmp_at. Qed.
Lemma item_cmp_opp a b : item_cmp b a = CompOpp (item_cmp a b).
Proof. apply item_cmp_at. Qed.

Lemma item_cmp_trans : forall a, trans_at item_cmp a.
Proof.
  assert (EQ : forall a b, item_cmp a b = Eq -> a = b) by (intros a b; apply item_cmp_eq).
  assert (EQ2 : forall a b, sized_cmp item_cmp a b = Eq -> a = b) by (intros a b; apply (sized_cmp_at item_cmp a); apply Forall_forall; intros; apply item_cmp_at).
  assert (KIND : forall a b c, item_cmp a b = Lt -> item_cmp b c = Lt -> (kind_of a ?= kind_of c = Lt -> item_cmp a c = Lt) /\ kind_of a <= kind_of b <= kind_of c).
  { intros a b c H1 H2. split; [intros L; destruct a, c; cbn [item_cmp]; rewrite L; reflexivity|].
    assert (X : forall x y, item_cmp x y = Lt -> kind_of x <= kind_of y).
    { intros x y H. destruct (Z.compare_spec (kind_of x) (kind_of y)) as [L|L|L]; [lia|lia|]. exfalso. assert (G : (kind_of x ?= kind_of y) = Gt) by (apply Z.compare_gt_iff; exact L).
      destruct x, y; cbn [item_cmp] in H; rewrite G in H; discriminate H. }
    pose proof (X _ _ H1). pose proof (X _ _ H2). lia. }
  induction a as [| | |s|s|p l IH|k ls IH] using item_rect'; intros b c H1 H2; destruct (KIND _ b c H1 H2) as [LT LE];
    (destruct (Z.compare_spec (kind_of b) (kind_of c)) as [K|K|K]; [|apply LT, Z.compare_lt_iff; lia|lia]);
    match goal with |- item_cmp ?a _ = _ => destruct (Z.compare_spec (kind_of a) (kind_of b)) as [K2|K2|K2]; [|apply LT, Z.compare_lt_iff; lia|lia] end.
  - destruct b as [| | |t|t|q m|[] m]; discriminate || discriminate K2.
  - destruct b as [| | |t|t|q m|[] m]; discriminate || discriminate K2.
  - destruct b as [| | |t|t|q m|[] m]; discriminate || discriminate K2.
  - destruct b as [| | |t|t|q m|[] m]; try discriminate K2. destruct c as [| | |u|u|q m|[] m]; try discriminate K. cbn in *. rewrite Z.compare_lt_iff in *. lia.
  - destruct b as [| | |t|t|q m|[] m]; try discriminate K2. destruct c as [| | |u|u|q m|[] m]; try discriminate K. cbn in *. rewrite Z.compare_lt_iff in *. lia.
  - destruct b as [| | |t|t|q m|[] m]; try discriminate K2. destruct c as [| | |u|u|q2 m2|[] m2]; try discriminate K. cbn [item_cmp kind_of Z.compare Pos.compare Pos.compare_cont] in *.
    destruct (Z.compare_spec p q) as [->|L|L]; [|clear H1|discriminate H1]; (destruct (Z.compare_spec q q2) as [->|L2|L2]; [|clear H2|discriminate H2]).
    + eapply (sized_cmp_trans item_cmp EQ l IH); eassumption.
    + reflexivity.
    + rewrite (proj2 (Z.compare_lt_iff _ _)) by lia. reflexivity.
    + rewrite (proj2 (Z.compare_lt_iff _ _)) by lia. reflexivity.
  - assert (FT : Forall (trans_at (fun l k => sized_cmp item_cmp l k)) ls).
    { eapply Forall_impl; [|exact IH]. intros l F x y X Y. eapply (sized_cmp_trans item_cmp EQ l F); eassumption. }
    destruct b as [| | |t|t|q m|k2 m]; try (destruct k; discriminate K2). destruct c as [| | |u|u|q2 m2|k3 m2]; try (destruct k2; discriminate K).
    assert (k = k2) by (destruct k, k2; reflexivity || discriminate K2). assert (k2 = k3) by (destruct k2, k3; reflexivity || discriminate K). subst k2 k3.
    assert (R : forall u v, item_cmp (IEbnf k u) (IEbnf k v) = sized_cmp (fun l k => sized_cmp item_cmp l k) u v) by (intros u v; destruct k; reflexivity).
    rewrite R in *. eapply (sized_cmp_trans (fun l k => sized_cmp item_cmp l k) EQ2 ls FT); eassumption.
Qed.

Lemma item_strict : strict_total item_ltb.
Proof.
  unfold item_ltb. constructor.
  - intros a. rewrite (proj2 (item_cmp_eq a a) eq_refl). reflexivity.
  - intros a b c H1 H2. destruct (item_cmp a b) eqn:E1; try discriminate H1. destruct (item_cmp b c) eqn:E2; try discriminate H2. rewrite (item_cmp_trans a b c E1 E2). reflexivity.
  - intros a b. rewrite (item_cmp_opp a b). pose proof (item_cmp_eq a b) as E. destruct (item_cmp a b); cbn [CompOpp is_lt]; [left; apply E; reflexivity|auto|auto].
Qed.

Lemma item_eqb_spec a b : item_eqb a b = true <-> a = b.
Proof.
  unfold item_eqb. assert (G : (kind_of a =? kind_of b) && is_eq (item_cmp a b) = true <-> a = b).
  { rewrite Bool.andb_true_iff, Z.eqb_eq. split.
    - intros (_ & E). apply item_cmp_eq. destruct (item_cmp a b); [reflexivity|discriminate E|discriminate E].
    - intros ->. split; [reflexivity|]. rewrite (proj2 (item_cmp_eq b b) eq_refl). reflexivity. }
  destruct a, b; try exact G; rewrite Z.eqb_eq; (split; [intros ->; reflexivity|intros E; injection E; auto]).
Qed.

Lemma items_cmp_eq l k : sized_cmp item_cmp l k = Eq <-> l = k.
Proof. apply (sized_cmp_at item_cmp l). apply Forall_forall. intros. apply item_cmp_at. Qed.

Lemma rule_strict : strict_total rule_ltb.
Proof.
  pose proof item_strict as IS. assert (AL : forall l, Forall (cmp_at item_cmp) l) by (intros; apply Forall_forall; intros; apply item_cmp_at).
  unfold rule_ltb. constructor.
  - intros a. rewrite Nat.ltb_irrefl, (st_irrefl _ IS), (proj2 (items_cmp_eq _ _) eq_refl). reflexivity.
  - intros [na la] [nb lb] [nc lc]. cbn [r_items r_nonterminal].
    destruct (Nat.ltb_spec (length la) (length lb)); [intros _|destruct (Nat.ltb_spec (length lb) (length la)); [discriminate|]];
      (destruct (Nat.ltb_spec (length lb) (length lc)); [intros|destruct (Nat.ltb_spec (length lc) (length lb)); [discriminate|]]);
      (destruct (Nat.ltb_spec (length la) (length lc)); [auto|]); try lia. destruct (Nat.ltb_spec (length lc) (length la)); [lia|].
    destruct (item_ltb na nb) eqn:E1; [intros _|destruct (item_ltb nb na) eqn:E2; [discriminate|]].
    + destruct (item_ltb nb nc) eqn:E3; [|destruct (item_ltb nc nb) eqn:E4; [discriminate|]]; intros _.
      * rewrite (st_trans _ IS _ _ _ E1 E3). reflexivity.
      * rewrite <- (ltb_eq _ IS _ _ E3 E4), E1. reflexivity.
    + rewrite (ltb_eq _ IS _ _ E1 E2). destruct (item_ltb nb nc); [auto|]. destruct (item_ltb nc nb); [auto|].
      intros H1' H2'. destruct (sized_cmp item_cmp la lb) eqn:C1; try discriminate H1'. destruct (sized_cmp item_cmp lb lc) eqn:C2; try discriminate H2'.
      rewrite (sized_cmp_trans item_cmp (fun a b => proj1 (item_cmp_eq a b)) la) with (k := lb) (m := lc); [reflexivity| |exact C1|exact C2].
      apply Forall_forall. intros. apply item_cmp_trans.
  - intros [na la] [nb lb]. cbn [r_items r_nonterminal]. destruct (Nat.ltb_spec (length la) (length lb)); [auto|]. destruct (Nat.ltb_spec (length lb) (length la)); [auto|].
    destruct (item_ltb na nb) eqn:E1; [auto|]. destruct (item_ltb nb na) eqn:E2; [auto|]. rewrite (ltb_eq _ IS _ _ E1 E2).
    destruct (sized_cmp_at item_cmp la (AL la)) as [E O]. rewrite O. specialize (E lb). destruct (sized_cmp item_cmp la lb); cbn [CompOpp is_lt]; [left; f_equal; apply E; reflexivity|auto|auto].
Qed.
Lemma rule_eqb_spec a b : rule_eqb a b = true <-> a = b.
Proof.
  destruct a as [na la], b as [nb lb]. unfold rule_eqb. cbn [r_items r_nonterminal]. rewrite !Bool.andb_true_iff, Nat.eqb_eq, item_eqb_spec.
  assert (E : length la = length lb -> items_eqb la lb = true <-> la = lb).
  { revert lb. induction la as [|a la IH]; intros [|b lb] L; try discriminate L; cbn [items_eqb]; [tauto|]. injection L as L. rewrite Bool.andb_true_iff, item_eqb_spec, IH by exact L.
    split; [intros [-> ->]; reflexivity|intros X; injection X; auto]. }
  split; [intros ((L & ->) & X); f_equal; apply E; assumption|]. intros X. injection X as -> ->. split; [auto|]. apply E; reflexivity.
Qed.

(** ** A numbering: two maps that invert each other, with the numbers 0, 1, ... *)
Section Numbering.
  Context {K : Type} (ltb : K -> K -> bool) (ST : strict_total ltb).
  Record numbering (m : list (K * Z)) (back : list (Z * K)) : Prop := {
    nb_sorted : msorted ltb m;
    nb_back : msorted Z.ltb back;
    nb_inv : forall k id, In (k, id) m <-> In (id, k) back;
    nb_range : forall id, (exists k, In (k, id) m) <-> 0 <= id < Z.of_nat (length m) }.

  Lemma numbering_empty : numbering [] [].
  Proof.
    constructor; try constructor; try (intros; cbn; tauto).
    - intros (k & []).
    - cbn. lia.
  Qed.
  Lemma mset_length (V : Type) (m : list (K * V)) k v : msorted ltb m -> mfind ltb k m = None -> length (mset ltb k v m) = S (length m).
  Proof.
    induction m as [|[k' v'] m IH]; intros S F; cbn [mset mfind] in *; [reflexivity|]. apply msorted_cons in S. destruct S as [S A].
    destruct (ltb k' k); [cbn [length]; rewrite IH by assumption; reflexivity|]. destruct (ltb k k'); [reflexivity|discriminate F].
  Qed.
  Lemma numbering_add m back k : numbering m back -> mfind ltb k m = None ->
    let id := Z.of_nat (length m) in numbering (mset ltb k id m) (mset Z.ltb id k back).
  Proof.
    intros [S B I R] F id. pose proof (proj1 (mfind_none ltb ST m S k) F) as N. constructor.
    - apply mset_sorted; assumption.
    - apply mset_sorted; [apply Zltb_strict|assumption].
    - intros k' id'. rewrite (mset_in ltb ST) by exact S. rewrite (mset_in Z.ltb Zltb_strict) by exact B. cbn [fst]. rewrite <- I. split.
      + intros [E|[Hi Hn]]; [left; injection E as -> ->; reflexivity|]. right. split; [exact Hi|]. intros ->. assert (0 <= id < Z.of_nat (length m)) by (apply R; eauto). unfold id in *. lia.
      + intros [E|[Hi Hn]]; [left; injection E as -> ->; reflexivity|]. right. split; [exact Hi|]. intros ->. eapply N, Hi.
    - intros id'. rewrite mset_length by assumption. rewrite Nat2Z.inj_succ. split.
      + intros (k' & H). apply (mset_in ltb ST) in H; [|exact S]. destruct H as [E|[Hi _]]; [injection E as _ ->; unfold id; lia|]. assert (0 <= id' < Z.of_nat (length m)) by (apply R; eauto). lia.
      + intros H. destruct (Z.eq_dec id' id) as [->|Hn]; [exists k; apply (mset_in ltb ST); [exact S|]; left; reflexivity|].
        destruct (proj2 (R id')) as [k' H']; [unfold id in Hn; lia|]. exists k'. apply (mset_in ltb ST); [exact S|]. right. split; [exact H'|]. cbn. intros ->. eapply N, H'.
  Qed.
  Lemma numbering_inj m back k k' id : numbering m back -> In (k, id) m -> In (k', id) m -> k = k'.
  Proof. intros [S B I R] H1 H2. apply I in H1, H2. eapply (msorted_unique Z.ltb Zltb_strict); eassumption. Qed.
End Numbering.

Lemma name_strict : strict_total name_ltb.
Proof. apply lex_strict_total, Zltb_strict. Qed.

(** ** Rules: for every history *)
Record rules_inv (g : ids) (log : list (id_call * Z)) : Prop := {
  ri_numbering : numbering rule_ltb (rule_id g) (id_rule g);
  ri_log : forall r id, In (ForRule r, id) log -> In (r, id) (rule_id g) }.

Lemma identifier_for_rule_known r id g : In (r, id) (rule_id g) -> msorted rule_ltb (rule_id g) -> identifier_for_rule r g = (g, id).
Proof. intros H S. unfold identifier_for_rule. rewrite (proj2 (mfind_in _ rule_strict _ S _ _) H). reflexivity. Qed.

Lemma rules_after allowed g log : after allowed g log -> rules_inv g log.
Proof.
  induction 1 as [|g log c A [N L] _].
  - constructor; [apply numbering_empty|intros r id []].
  - destruct c as [n|i|r].
    + assert (E : rule_id (fst (perform (ForName n) g)) = rule_id g /\ id_rule (fst (perform (ForName n) g)) = id_rule g).
      { cbn [perform]. unfold id_for_nonterminal. destruct (mfind name_ltb n (name_nt g)); split; reflexivity. }
      destruct E as [E1 E2]. constructor; rewrite ?E1, ?E2; [exact N|]. intros r id [X|H]; [discriminate X|apply L, H].
    + assert (E : rule_id (fst (perform (ForItem i) g)) = rule_id g /\ id_rule (fst (perform (ForItem i) g)) = id_rule g).
      { cbn [perform]. unfold identifier_for_item. destruct (mfind item_ltb i (item_id g)); split; reflexivity. }
      destruct E as [E1 E2]. constructor; rewrite ?E1, ?E2; [exact N|]. intros r id [X|H]; [discriminate X|apply L, H].
    + cbn [perform]. unfold identifier_for_rule. destruct (mfind rule_ltb r (rule_id g)) as [id|] eqn:F; cbn [fst snd].
      * constructor; [exact N|]. intros r' id' [X|H]; [|apply L, H]. injection X as <- <-. apply (mfind_in _ rule_strict) in F; [exact F|apply N].
      * constructor; cbn [rule_id id_rule]; [apply numbering_add; [apply rule_strict|exact N|exact F]|].
        intros r' id' [X|H]; (apply (mset_in _ rule_strict); [apply N|]); [left; injection X as <- <-; reflexivity|]. right. split; [apply L, H|]. cbn. intros ->.
        apply L in H. eapply (proj1 (mfind_none _ rule_strict _ (nb_sorted _ _ _ N) _) F), H.
Qed.

(** ** Items and names: for histories that look up issued nonterminals only *)
Record items_inv (g : ids) (log : list (id_call * Z)) : Prop := {
  ii_numbering : numbering item_ltb (item_id g) (id_item g);
  ii_nonterminal : forall n id, In (INonterm n, id) (item_id g) -> id = n;
  ii_names : msorted name_ltb (name_nt g);
  ii_back : msorted Z.ltb (nt_name g);
  ii_inv : forall n id, In (n, id) (name_nt g) <-> In (id, n) (nt_name g);
  ii_item : forall n id, In (n, id) (name_nt g) -> In (INonterm id, id) (item_id g);
  ii_log_item : forall i id, In (ForItem i, id) log -> In (i, id) (item_id g);
  ii_log_name : forall n id, In (ForName n, id) log -> In (n, id) (name_nt g) }.

Lemma identifier_for_item_known i id g : In (i, id) (item_id g) -> msorted item_ltb (item_id g) -> identifier_for_item i g = (g, id).
Proof. intros H S. unfold identifier_for_item. rewrite (proj2 (mfind_in _ item_strict _ S _ _) H). reflexivity. Qed.
Lemma id_for_nonterminal_known n id g : In (n, id) (name_nt g) -> msorted name_ltb (name_nt g) -> id_for_nonterminal n g = (g, id).
Proof. intros H S. unfold id_for_nonterminal. rewrite (proj2 (mfind_in _ name_strict _ S _ _) H). reflexivity. Qed.

Lemma items_after g log : after issued_nonterminals g log -> items_inv g log.
Proof.
  induction 1 as [|g log c A I OK].
  - constructor; cbn; try (intros; tauto); try constructor.
    + repeat constructor.
    + repeat constructor.
    + intros k id. split; (intros [X|[]]; injection X as <- <-; left; reflexivity).
    + intros id. cbn. split; [intros (k & [X|[]]); injection X as _ <-; lia|]. intros H. assert (id = 0) as -> by lia. exists IEmpty. left. reflexivity.
    + intros n id [X|[]]. discriminate X.
  - destruct I as [N NT SN SB IV IT LI LN]. destruct c as [n|i|r]; cbn [perform].
    + unfold id_for_nonterminal. destruct (mfind name_ltb n (name_nt g)) as [id|] eqn:F; cbn [fst snd].
      * constructor; try assumption.
        -- intros i id' [X|H]; [discriminate X|apply LI, H].
        -- intros n' id' [X|H]; [injection X as <- <-; apply (mfind_in _ name_strict) in F; assumption|apply LN, H].
      * set (id := Z.of_nat (length (item_id g))) in *. pose proof (proj1 (mfind_none _ name_strict _ SN _) F) as FN.
        assert (FI : mfind item_ltb (INonterm id) (item_id g) = None).
        { apply (mfind_none _ item_strict); [apply N|]. intros v H. assert (v = id) as -> by (apply NT; exact H). assert (0 <= id < Z.of_nat (length (item_id g))) by (apply (nb_range _ _ _ N); eauto). unfold id in *. lia. }
        pose proof (proj1 (mfind_none _ item_strict _ (nb_sorted _ _ _ N) _) FI) as FJ.
        assert (FB : forall n', ~ In (id, n') (nt_name g)) by (intros n' H; apply IV, IT in H; eapply FJ, H).
        constructor; cbn [item_id id_item name_nt nt_name].
        -- apply (numbering_add _ item_strict); [exact N|exact FI].
        -- intros m id' H. apply (mset_in _ item_strict) in H; [|apply N]. destruct H as [X|[H _]]; [injection X as -> ->; reflexivity|apply NT, H].
        -- apply minsert_sorted, SN; apply name_strict.
        -- apply mset_sorted; [apply Zltb_strict|exact SB].
        -- intros n' id'. rewrite (minsert_in name_ltb) by exact SN. rewrite (mset_in _ Zltb_strict) by exact SB. cbn [fst]. rewrite <- IV. split.
           ++ intros [H|[X _]]; [|left; injection X as -> ->; reflexivity]. right. split; [exact H|]. intros ->. apply IV in H. eapply FB, H.
           ++ intros [X|[H _]]; [right; split; [injection X as -> ->; reflexivity|exact F]|left; exact H].
        -- intros n' id' H. apply (minsert_in name_ltb) in H; [|exact SN]. apply (mset_in _ item_strict); [apply N|]. destruct H as [H|[X _]]; [|left; injection X as -> ->; reflexivity].
           right. apply IT in H. split; [exact H|]. cbn. intros X. injection X as ->. eapply FJ, H.
        -- intros i id' [X|H]; [discriminate X|]. apply LI in H. apply (mset_in _ item_strict); [apply N|]. right. split; [exact H|]. cbn. intros ->. eapply FJ, H.
        -- intros n' id' [X|H]; (apply (minsert_in name_ltb); [exact SN|]); [right; injection X as <- <-; split; [reflexivity|exact F]|left; apply LN, H].
    + unfold identifier_for_item. destruct (mfind item_ltb i (item_id g)) as [id|] eqn:F; cbn [fst snd].
      * constructor; try assumption.
        -- intros i' id' [X|H]; [injection X as <- <-; apply (mfind_in _ item_strict) in F; [exact F|apply N]|apply LI, H].
        -- intros n' id' [X|H]; [discriminate X|apply LN, H].
      * set (id := Z.of_nat (length (item_id g))) in *. pose proof (proj1 (mfind_none _ item_strict _ (nb_sorted _ _ _ N) _) F) as FJ.
        constructor; cbn [item_id id_item name_nt nt_name]; try assumption.
        -- apply (numbering_add _ item_strict); [exact N|exact F].
        -- intros m id' H. apply (mset_in _ item_strict) in H; [|apply N]. destruct H as [X|[H _]]; [|apply NT, H].
           injection X as <- ->. destruct OK as [name H]. apply LN, IT in H. exfalso. eapply FJ, H.
        -- intros n' id' H. apply IT in H. apply (mset_in _ item_strict); [apply N|]. right. split; [exact H|]. cbn. intros <-. eapply FJ, H.
        -- intros i' id' [X|H]; (apply (mset_in _ item_strict); [apply N|]); [left; injection X as <- <-; reflexivity|]. right. apply LI in H. split; [exact H|]. cbn. intros ->. eapply FJ, H.
        -- intros n' id' [X|H]; [discriminate X|apply LN, H].
    + assert (E : item_id (fst (identifier_for_rule r g)) = item_id g /\ id_item (fst (identifier_for_rule r g)) = id_item g /\ name_nt (fst (identifier_for_rule r g)) = name_nt g /\ nt_name (fst (identifier_for_rule r g)) = nt_name g).
      { unfold identifier_for_rule. destruct (mfind rule_ltb r (rule_id g)); repeat split; reflexivity. }
      destruct E as (E1 & E2 & E3 & E4). constructor; rewrite ?E1, ?E2, ?E3, ?E4; try assumption.
      * intros i id' [X|H]; [discriminate X|apply LI, H].
      * intros n' id' [X|H]; [discriminate X|apply LN, H].
Qed.

(** ** Rule objects *)
Definition cache_ok (w : world) : Prop :=
  (forall a, msorted rule_ltb (rule_id (grammars w a))) /\
  match cached (object w) with Some (a, id) => In (content (object w), id) (rule_id (grammars w a)) | None => True end.

Lemma perform_keeps_rules c g : msorted rule_ltb (rule_id g) ->
  msorted rule_ltb (rule_id (fst (perform c g))) /\ (forall r id, In (r, id) (rule_id g) -> In (r, id) (rule_id (fst (perform c g)))).
Proof.
  intros S. destruct c as [n|i|r]; cbn [perform].
  - unfold id_for_nonterminal. destruct (mfind name_ltb n (name_nt g)); cbn [fst rule_id]; auto.
  - unfold identifier_for_item. destruct (mfind item_ltb i (item_id g)); cbn [fst rule_id]; auto.
  - unfold identifier_for_rule. destruct (mfind rule_ltb r (rule_id g)) eqn:F; cbn [fst rule_id]; [auto|]. split; [apply mset_sorted; [apply rule_strict|exact S]|].
    intros r' id H. apply (mset_in _ rule_strict); [exact S|]. right. split; [exact H|]. cbn. intros ->. eapply (proj1 (mfind_none _ rule_strict _ S _) F), H.
Qed.
Lemma world_step_ok c w : cache_ok w -> cache_ok (world_step c w) /\ content (object (world_step c w)) = content (object w).
Proof.
  assert (SET : forall (w : world) a g, (forall a, msorted rule_ltb (rule_id (grammars w a))) -> msorted rule_ltb (rule_id g) -> forall b, msorted rule_ltb (rule_id (set_grammar a g (grammars w) b))).
  { clear. intros w a g S1 S2 b. unfold set_grammar. destruct (Nat.eqb b a); auto. }
  intros [S C]. destruct c as [a|a c]; cbn [world_step].
  - assert (NEW : forall g id, identifier_for_rule (content (object w)) (grammars w a) = (g, id) -> cache_ok (mkWorld (mkObj (content (object w)) (Some (a, id))) (set_grammar a g (grammars w)))).
    { intros g id E. pose proof (perform_keeps_rules (ForRule (content (object w))) (grammars w a) (S a)) as P. cbn [perform] in P. rewrite E in P. cbn [fst] in P. split; [apply SET; [exact S|apply P]|].
      cbn [object cached content grammars]. unfold set_grammar. rewrite Nat.eqb_refl. unfold identifier_for_rule in E.
      destruct (mfind rule_ltb (content (object w)) (rule_id (grammars w a))) eqn:F; injection E as <- <-; cbn [rule_id]; [apply (mfind_in _ rule_strict) in F; auto|]. apply (mset_in _ rule_strict); auto. }
    unfold rule_identifier. destruct (cached (object w)) as [[a' id']|] eqn:K.
    + destruct (Nat.eqb_spec a a') as [->|Hn].
      * split; [|reflexivity]. split; cbn [object grammars]; [apply SET; auto|]. rewrite K. unfold set_grammar. rewrite Nat.eqb_refl. exact C.
      * destruct (identifier_for_rule (content (object w)) (grammars w a)) as [g id] eqn:E. split; [apply NEW; reflexivity|reflexivity].
    + destruct (identifier_for_rule (content (object w)) (grammars w a)) as [g id] eqn:E. split; [apply NEW; reflexivity|reflexivity].
  - split; [|reflexivity]. pose proof (perform_keeps_rules c (grammars w a) (S a)) as [P1 P2]. split; cbn [object grammars]; [apply SET; auto|].
    destruct (cached (object w)) as [[a' id]|]; [|auto]. unfold set_grammar. destruct (Nat.eqb_spec a' a) as [->|]; auto.
Qed.
Lemma world_after_ok calls : forall w, cache_ok w -> cache_ok (world_after calls w) /\ content (object (world_after calls w)) = content (object w).
Proof.
  unfold world_after. induction calls as [|c calls IH]; intros w H; cbn [fold_left]; [auto|]. destruct (world_step_ok c w H) as [H1 H2]. destruct (IH _ H1) as [H3 H4]. split; [exact H3|congruence].
Qed.
Lemma rule_identifier_ok w a : cache_ok w -> snd (rule_identifier a (object w) (grammars w a)) = snd (identifier_for_rule (content (object w)) (grammars w a)).
Proof.
  intros [S C]. unfold rule_identifier. destruct (cached (object w)) as [[a' id]|].
  - destruct (Nat.eqb_spec a a') as [->|]; [rewrite (identifier_for_rule_known _ id); auto|]. destruct (identifier_for_rule (content (object w)) (grammars w a)). reflexivity.
  - destruct (identifier_for_rule (content (object w)) (grammars w a)). reflexivity.
Qed.
Lemma built_rule_spec nt items : content (built_rule nt items) = mkRule nt items /\ cached (built_rule nt items) = None.
Proof.
  unfold built_rule. assert (G : forall items o, content (fold_left (fun o i => append_item i o) items o) = mkRule (r_nonterminal (content o)) (r_items (content o) ++ items) /\ cached (fold_left (fun o i => append_item i o) items o) = cached o).
  { clear. induction items as [|i items IH]; intros o; cbn [fold_left]; [rewrite app_nil_r; destruct o as [[]]; auto|]. destruct (IH (append_item i o)) as [-> ->]. cbn. rewrite <- app_assoc. auto. }
  destruct (G items (new_rule nt)) as [-> ->]. auto.
Qed.

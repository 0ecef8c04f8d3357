(** Proofs about the orders of lexemes, trees, actions, states and conflicts. *)

From Verif Require Import Base OrdMap DefCopyModel GrammarModel GrammarProofs FirstModel LrItemModel LrItemProofs BuilderModel BuilderLookProofs OrderModel OrderSpec.
From Coq Require Import Lia.
Local Open Scope Z_scope.

(** Orders put together from orders. *)
Definition pair_ltb {A B} (f : A -> A -> bool) (g : B -> B -> bool) (a b : A * B) : bool :=
  if f (fst a) (fst b) then true else if f (fst b) (fst a) then false else g (snd a) (snd b).

Lemma pair_strict {A B} (f : A -> A -> bool) (g : B -> B -> bool) : strict_total f -> strict_total g -> strict_total (pair_ltb f g).
Proof.
  intros F G. constructor.
  - intros [a b]. unfold pair_ltb. cbn. now rewrite (st_irrefl _ F), (st_irrefl _ G).
  - intros [a b] [c d] [x y]. unfold pair_ltb. cbn.
    destruct (f a c) eqn:E1.
    + intros _. destruct (f c x) eqn:E2.
      * now rewrite (st_trans _ F _ _ _ E1 E2).
      * destruct (f x c) eqn:E3; [discriminate |]. pose proof (ltb_eq f F _ _ E2 E3) as ->. now rewrite E1.
    + destruct (f c a) eqn:E2; [discriminate |]. pose proof (ltb_eq f F _ _ E1 E2) as ->.
      intros H. destruct (f c x) eqn:E3; [reflexivity |]. destruct (f x c) eqn:E4; [discriminate |].
      intros H'. exact (st_trans _ G _ _ _ H H').
  - intros [a b] [c d]. unfold pair_ltb. cbn.
    destruct (st_total _ F a c) as [-> | [H | H]].
    + rewrite (st_irrefl _ F). destruct (st_total _ G b d) as [-> | [H | H]]; auto.
    + rewrite H. auto.
    + rewrite H. destruct (f a c); auto.
Qed.

Lemma via_strict {A B} (f : B -> A) (ltb : A -> A -> bool) :
  (forall a b, f a = f b -> a = b) -> strict_total ltb -> strict_total (fun a b => ltb (f a) (f b)).
Proof.
  intros I S. constructor.
  - intros a. apply (st_irrefl _ S).
  - intros a b c. apply (st_trans _ S).
  - intros a b. destruct (st_total _ S (f a) (f b)) as [E | H]; auto.
Qed.

Lemma strict_ext {A} (f g : A -> A -> bool) : (forall a b, f a b = g a b) -> strict_total f -> strict_total g.
Proof.
  intros E S. constructor.
  - intros a. rewrite <- E. apply (st_irrefl _ S).
  - intros a b c. rewrite <- !E. apply (st_trans _ S).
  - intros a b. rewrite <- !E. apply (st_total _ S).
Qed.

Lemma pos_strict : strict_total pos_ltb.
Proof.
  apply (strict_ext (fun a b => pair_ltb Z.ltb (pair_ltb Z.ltb Z.ltb) (p_line a, (p_column a, p_offset a)) (p_line b, (p_column b, p_offset b)))).
  - intros a b. reflexivity.
  - apply (via_strict (fun a => (p_line a, (p_column a, p_offset a)))).
    + intros [x y z] [x' y' z'] E. cbn in E. congruence.
    + repeat apply pair_strict; apply Zltb_strict.
Qed.

Lemma if_same (b : bool) : (if b then true else false) = b.
Proof. now destruct b. Qed.

Lemma lexeme_strict : strict_total lexeme_ltb.
Proof.
  apply (strict_ext (fun a b => pair_ltb Z.ltb (pair_ltb (lex_ltb Z.ltb) pos_ltb)
    (w_matched a, (w_symbols a, w_pos a)) (w_matched b, (w_symbols b, w_pos b)))).
  - intros a b. unfold lexeme_ltb. rewrite if_same. reflexivity.
  - apply (via_strict (fun a => (w_matched a, (w_symbols a, w_pos a)))).
    + intros [x y z] [x' y' z'] E. cbn in E. congruence.
    + repeat apply pair_strict; [apply Zltb_strict | apply lex_strict_total, Zltb_strict | apply pos_strict].
Qed.

Lemma pointer_strict {A} (ltb : A -> A -> bool) : strict_total ltb -> strict_total (pointer_ltb ltb).
Proof.
  intros S. constructor.
  - intros [a |]; [apply (st_irrefl _ S) | reflexivity].
  - intros [a |] [b |] [c |]; cbn; try congruence. apply (st_trans _ S).
  - intros [a |] [b |]; cbn; auto. destruct (st_total _ S a b) as [-> | H]; auto.
Qed.

Section States.
  Context (rid : rule -> Z) (RI : injective rid).

  Lemma items_same_length l : forall k, length l = length k -> items_ltb rid l k = lex_ltb (lr0_ltb rid) l k.
  Proof.
    induction l as [| a l IH]; intros [| b k] L; try discriminate; [reflexivity |]. cbn. now rewrite IH by (cbn in L; lia).
  Qed.

  Lemma state_strict : strict_total (state_ltb rid).
  Proof.
    apply (strict_ext (fun a b => pair_ltb Nat.ltb (lex_ltb (lr0_ltb rid)) (length a, a) (length b, b))).
    - intros a b. unfold pair_ltb, state_ltb. cbn [fst snd].
      destruct (Nat.ltb_spec (length a) (length b)); [reflexivity |].
      destruct (Nat.ltb_spec (length b) (length a)); [reflexivity |]. symmetry. apply items_same_length. lia.
    - apply (via_strict (fun a => (length a, a))); [congruence |].
      apply pair_strict; [apply natltb_strict | apply lex_strict_total, lr0_strict, RI].
  Qed.

  Lemma entry_strict : strict_total (entry_ltb rid).
  Proof.
    apply (strict_ext (pair_ltb (lr0_ltb rid) (lex_ltb lid_ltb))); [reflexivity |].
    apply pair_strict; [apply lr0_strict, RI | apply lex_strict_total, lid_strict].
  Qed.

  Lemma conflict_strict : strict_total (conflict_ltb rid).
  Proof.
    apply (strict_ext (fun a b => pair_ltb Z.ltb (pair_ltb item_ltb (pair_ltb (lex_ltb (lr0_ltb rid)) (lex_ltb (entry_ltb rid))))
      (c_state a, (c_token a, (c_shift a, c_reduce a))) (c_state b, (c_token b, (c_shift b, c_reduce b))))).
    - intros a b. unfold conflict_ltb. rewrite if_same. reflexivity.
    - apply (via_strict (fun a => (c_state a, (c_token a, (c_shift a, c_reduce a))))).
      + intros [x y z w] [x' y' z' w'] E. cbn in E. congruence.
      + repeat apply pair_strict; [apply Zltb_strict | apply item_strict | apply lex_strict_total, lr0_strict, RI | apply lex_strict_total, entry_strict].
  Qed.
End States.

(** Trees: the list of the items, lexemes and sizes of a tree, from the root
    down. *)
Definition key := (Z * (option lexeme * nat))%type.
Definition key_ltb : key -> key -> bool := pair_ltb Z.ltb (pair_ltb (pointer_ltb lexeme_ltb) Nat.ltb).

Lemma key_strict : strict_total key_ltb.
Proof. repeat apply pair_strict; [apply Zltb_strict | apply pointer_strict, lexeme_strict | apply natltb_strict]. Qed.

Fixpoint keys (x : node) : list key :=
  let '(Node i _ l cs) := x in (i, (l, length cs)) :: flat_map keys cs.

Fixpoint loop (l l' : list node) : bool * bool :=
  match l, l' with
  | x :: r, y :: r' =>
      let '(p, q) := both x y in
      (if p then true else if q then false else fst (loop r r'),
       if q then true else if p then false else snd (loop r r'))
  | _, _ => (false, false)
  end.

Lemma both_eq i r l cs i' r' l' cs' :
  both (Node i r l cs) (Node i' r' l' cs')
  = let less := (i <? i') || pointer_ltb lexeme_ltb l l' in
    let more := (i' <? i) || pointer_ltb lexeme_ltb l' l in
    let shorter := Nat.ltb (length cs) (length cs') in
    let longer := Nat.ltb (length cs') (length cs) in
    (if less then true else if more then false else if shorter then true else if longer then false else fst (loop cs cs'),
     if more then true else if less then false else if longer then true else if shorter then false else snd (loop cs cs')).
Proof.
  reflexivity.
Qed.

Lemma node_rect_all (P : node -> Prop) :
  (forall i r l cs, Forall P cs -> P (Node i r l cs)) -> forall x, P x.
Proof.
  intros H. fix IH 1. intros [i r l cs]. apply H. induction cs as [| c cs IHcs]; constructor; [apply IH | exact IHcs].
Qed.

(** The second value is the first one for the nodes the other way round. *)
Lemma both_swap a : forall b, both b a = (snd (both a b), fst (both a b)).
Proof.
  induction a as [i r l cs IH] using node_rect_all. intros [i' r' l' cs']. rewrite !both_eq. cbv zeta. cbn [fst snd].
  assert (L : forall cs', loop cs' cs = (snd (loop cs cs'), fst (loop cs cs'))).
  { clear cs'. induction IH as [| x s Hx Hs IHs]; intros [| y s']; try reflexivity. cbn [loop].
    rewrite Hx, IHs. destruct (both x y). reflexivity. }
  rewrite L. reflexivity.
Qed.

Definition decided (p q : bool) (r : bool) : bool := if p then true else if q then false else r.

Lemma keys_both a : forall b, unopposed a b ->
  (forall u v, lex_ltb key_ltb (keys a ++ u) (keys b ++ v) = decided (fst (both a b)) (snd (both a b)) (lex_ltb key_ltb u v))
  /\ (fst (both a b) = false -> snd (both a b) = false -> keys a = keys b).
Proof.
  induction a as [i r l cs IH] using node_rect_all. intros [i' r' l' cs'] U. rewrite both_eq. cbv zeta. cbn [fst snd].
  assert (S : strict_total (pointer_ltb lexeme_ltb)) by apply pointer_strict, lexeme_strict.
  assert (U1 : i < i' -> pointer_ltb lexeme_ltb l' l = false).
  { intros L. destruct (pointer_ltb lexeme_ltb l' l) eqn:E; [| reflexivity]. exfalso. apply U. constructor. auto. }
  assert (U2 : i' < i -> pointer_ltb lexeme_ltb l l' = false).
  { intros L. destruct (pointer_ltb lexeme_ltb l l') eqn:E; [| reflexivity]. exfalso. apply U. constructor. auto. }
  cbn [keys].
  assert (K : forall u v : list key, lex_ltb key_ltb ((i, (l, length cs)) :: u) ((i', (l', length cs')) :: v)
    = decided ((i <? i') || pointer_ltb lexeme_ltb l l') ((i' <? i) || pointer_ltb lexeme_ltb l' l)
        (decided (Nat.ltb (length cs) (length cs')) (Nat.ltb (length cs') (length cs)) (lex_ltb key_ltb u v))).
  { intros u v. cbn [lex_ltb]. unfold key_ltb, pair_ltb, decided. cbn [fst snd].
    destruct (Z.ltb_spec i i') as [L1 | L1]; [reflexivity |].
    destruct (Z.ltb_spec i' i) as [L2 | L2].
    - rewrite (U2 L2). reflexivity.
    - cbn [orb].
      destruct (pointer_ltb lexeme_ltb l l') eqn:P1; [reflexivity |].
      destruct (pointer_ltb lexeme_ltb l' l) eqn:P2; [reflexivity |]. reflexivity. }
  destruct ((i <? i') || pointer_ltb lexeme_ltb l l') eqn:LESS.
  { split; [intros u v; cbn [app]; rewrite K; reflexivity | discriminate]. }
  destruct ((i' <? i) || pointer_ltb lexeme_ltb l' l) eqn:MORE.
  { split; [intros u v; cbn [app]; rewrite K; reflexivity | discriminate]. }
  apply orb_false_iff in LESS as [A1 A2]. apply orb_false_iff in MORE as [B1 B2].
  assert (i' = i) by lia. subst i'. pose proof (ltb_eq _ S _ _ A2 B2) as <-.
  destruct (Nat.ltb_spec (length cs) (length cs')) as [L1 | L1].
  { split; [intros u v; cbn [app]; rewrite K; reflexivity | discriminate]. }
  destruct (Nat.ltb_spec (length cs') (length cs)) as [L2 | L2].
  { split; [intros u v; cbn [app]; rewrite K; reflexivity | discriminate]. }
  assert (L : length cs = length cs') by lia.
  assert (UC : forall x y, In (x, y) (combine cs cs') -> unopposed x y).
  { intros x y I O. apply U. eapply opposed_child; eauto. }
  assert (G : (forall u v, lex_ltb key_ltb (flat_map keys cs ++ u) (flat_map keys cs' ++ v)
               = decided (fst (loop cs cs')) (snd (loop cs cs')) (lex_ltb key_ltb u v))
              /\ (fst (loop cs cs') = false -> snd (loop cs cs') = false -> flat_map keys cs = flat_map keys cs')).
  { clear K U U1 U2 A1 A2 B1 B2 L1 L2. revert cs' L UC.
    induction IH as [| x s Hx Hs IHs]; intros [| y s'] L UC; try discriminate.
    - split; [reflexivity | auto].
    - destruct (Hx y (UC x y (or_introl eq_refl))) as [H1 H2].
      destruct (IHs s' ltac:(cbn in L; lia) (fun p q I => UC p q (or_intror I))) as [H3 H4].
      cbn [loop flat_map]. destruct (both x y) as [p q]. cbn [fst snd] in *. split.
      + intros u v. rewrite <- !app_assoc, H1, H3. unfold decided. destruct p, q; reflexivity.
      + destruct p; [discriminate |]. destruct q; [discriminate |]. intros E1 E2. f_equal; auto. }
  destruct G as [G1 G2]. split.
  - intros u v. cbn [app]. rewrite K, G1. reflexivity.
  - intros E1 E2. rewrite L. f_equal. auto.
Qed.

Lemma opposed_sym a : forall b, opposed a b -> opposed b a.
Proof.
  induction a as [i r l cs IH] using node_rect_all. intros b O. inversion O as [? ? ? ? i' r' l' cs' D | ? ? ? ? r' cs' x y I O']; subst.
  - apply opposed_here. tauto.
  - apply (opposed_child _ _ _ _ _ _ y x).
    + clear - I. revert cs' I. induction cs as [| c s IHs]; intros [| c' s'] I; cbn in *; try contradiction.
      destruct I as [E | I]; [left; congruence | right; auto].
    + rewrite Forall_forall in IH. apply IH; [| exact O']. eapply in_combine_l; eauto.
Qed.

Lemma node_keys a b : unopposed a b -> node_ltb a b = lex_ltb key_ltb (keys a) (keys b).
Proof.
  intros U. destruct (keys_both a b U) as [H1 H2]. specialize (H1 [] []). rewrite !app_nil_r in H1. unfold node_ltb.
  rewrite H1. unfold decided. cbn. destruct (fst (both a b)) eqn:E; [reflexivity |]. now destruct (snd (both a b)).
Qed.

(** The keys say all but the rules. *)
Lemma keys_alike a : forall b u v, keys a ++ u = keys b ++ v -> alike a b /\ u = v.
Proof.
  induction a as [i r l cs IH] using node_rect_all. intros [i' r' l' cs'] u v E. cbn [keys] in E. rewrite <- !app_comm_cons in E.
  injection E as -> -> L E. enough (H : Forall2 alike cs cs' /\ u = v) by (destruct H; split; [constructor |]; assumption).
  revert cs' L E. induction IH as [| x s Hx Hs IHs]; intros [| y s'] L E; try discriminate.
  - now split.
  - cbn [flat_map] in E. rewrite <- !app_assoc in E. apply Hx in E as [A E]. apply IHs in E as [F E]; [| cbn in L; lia].
    split; [now constructor | exact E].
Qed.

Lemma alike_keys a : forall b, alike a b -> keys a = keys b.
Proof.
  induction a as [i r l cs IH] using node_rect_all. intros b A. inversion A as [? ? ? ? ? cs' F]; subst. cbn [keys].
  assert (E : flat_map keys cs = flat_map keys cs' /\ length cs = length cs').
  { clear A. induction F as [| x y s s' Hxy F IHF]; [now split |]. inversion IH; subst. destruct IHF as [E1 E2]; [assumption |].
    cbn. rewrite (H1 y Hxy), E1, E2. now split. }
  destruct E as [E1 E2]. now rewrite E1, E2.
Qed.

Lemma lex_keys_strict : strict_total (lex_ltb key_ltb).
Proof. apply lex_strict_total, key_strict. Qed.

Lemma not_opposed_self a : unopposed a a.
Proof.
  induction a as [i r l cs IH] using node_rect_all. intros O.
  inversion O as [? ? ? ? i' r' l' cs' D | ? ? ? ? r' cs' x y I O']; subst.
  - destruct D as [[D _] | [D _]]; lia.
  - assert (E : x = y).
    { clear - I. induction cs as [| c s IHs]; cbn in *; [contradiction |]. destruct I as [E | I]; [congruence | auto]. }
    subst y. apply in_combine_l in I. rewrite Forall_forall in IH. exact (IH _ I O').
Qed.

Lemma nodes_ordered : orders unopposed alike node_ltb.
Proof.
  pose proof lex_keys_strict as S. split; [| split; [| split]].
  - intros a. rewrite node_keys by apply not_opposed_self. apply (st_irrefl _ S).
  - intros a b U. assert (U' : unopposed b a) by (intros O; apply U; now apply opposed_sym).
    rewrite !node_keys by assumption. intros H. now apply (ltb_asym _ S).
  - intros a b c U1 U2 U3. rewrite !node_keys by assumption. apply (st_trans _ S).
  - intros a b U. assert (U' : unopposed b a) by (intros O; apply U; now apply opposed_sym).
    rewrite !node_keys by assumption. split.
    + intros [A B]. pose proof (ltb_eq _ S _ _ A B) as E.
      apply (keys_alike a b [] []). now rewrite !app_nil_r.
    + intros A. rewrite (alike_keys _ _ A). now rewrite (st_irrefl _ S).
Qed.

Lemma bare_unopposed a : forall b, bare a -> bare b -> unopposed a b.
Proof.
  induction a as [i r l cs IH] using node_rect_all. intros b A B O. inversion A as [? ? ? FA]; subst.
  inversion O as [? ? ? ? i' r' l' cs' D | ? ? ? ? r' cs' x y I O']; subst; inversion B as [? ? ? FB]; subst.
  - cbn in D. destruct D as [[_ D] | [_ D]]; discriminate.
  - rewrite Forall_forall in IH, FA, FB. pose proof (in_combine_l _ _ _ _ I) as IL. pose proof (in_combine_r _ _ _ _ I) as IR.
    exact (IH x IL y (FA x IL) (FB y IR) O').
Qed.

Lemma outlined_unopposed a : forall b, outlined a b -> unopposed a b.
Proof.
  induction a as [i r l cs IH] using node_rect_all. intros b A O. inversion A as [? ? ? ? r1 l1 cs1 E F]; subst.
  inversion O as [? ? ? ? i' r' l' cs' D | ? ? ? ? r' cs' x y I O']; subst.
  - destruct D as [[D _] | [D _]]; lia.
  - clear A O. revert I. induction F as [| p q s s' Hpq F IHF]; cbn; [tauto |]. inversion IH; subst.
    intros [E' | I]; [| apply IHF; auto].
    injection E' as -> ->. eapply H1; eauto.
Qed.

Lemma actions_ordered : orders one_kind equal_rank accept_ltb.
Proof.
  split; [| split; [| split]].
  - intros [s e | s t w]; cbn; [apply Z.ltb_irrefl |]. now rewrite eqb_reflx, !Z.ltb_irrefl.
  - intros [s e | s t w] [s' e' | s' t' w'] K; cbn in K |- *; try contradiction; [lia |].
    destruct w, w'; cbn; try discriminate; auto; destruct (Z.ltb_spec t' t), (Z.ltb_spec t t'); auto; try lia; discriminate.
  - intros [s e | s t w] [s' e' | s' t' w'] [s2 e2 | s2 t2 w2] K1 K2 K3; cbn in K1, K2, K3 |- *; try contradiction; [lia |].
    destruct w, w', w2; cbn; try discriminate; auto;
    destruct (Z.ltb_spec t' t), (Z.ltb_spec t t'), (Z.ltb_spec t2 t'), (Z.ltb_spec t' t2), (Z.ltb_spec t2 t), (Z.ltb_spec t t2);
      auto; try discriminate; try lia.
  - intros [s e | s t w] [s' e' | s' t' w'] K; cbn in K |- *; try contradiction; [lia |].
    destruct w, w'; cbn; try (split; [intros [? ?]; discriminate | intros (_ & _ & ?); discriminate]);
    destruct (Z.ltb_spec t' t), (Z.ltb_spec t t'); try lia;
      (split; [intros [? ?]; try discriminate; repeat split; lia | intros (? & ? & ?); try lia]).
Qed.

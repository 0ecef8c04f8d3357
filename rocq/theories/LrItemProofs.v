(** Proofs about LR items and sets of LR(1) items. *)
From Verif Require Import Base OrdMap GrammarModel GrammarProofs FirstModel FirstProofs LrItemModel.
Local Open Scope Z_scope.

Definition injective (rid : rule -> Z) : Prop := forall a b, rid a = rid b -> a = b.

(** ** A numbering of rules: all rules can have different identifiers. *)
Fixpoint pos_code (p : positive) (tl : list bool) : list bool :=
  match p with xH => false :: tl | xO p => true :: false :: pos_code p tl | xI p => true :: true :: pos_code p tl end.
Definition z_code (z : Z) (tl : list bool) : list bool :=
  match z with Z0 => [false; false] ++ tl | Zpos p => [false; true] ++ pos_code p tl | Zneg p => [true; false] ++ pos_code p tl end.
Section ListCode.
  Context {A : Type} (code : A -> list bool -> list bool).
  Fixpoint list_code (l : list A) (tl : list bool) : list bool :=
    match l with [] => false :: tl | a :: l => true :: code a (list_code l tl) end.
End ListCode.
Fixpoint item_code (i : item) (tl : list bool) : list bool :=
  match i with
  | IEmpty => z_code 0 tl
  | IEoi => z_code 1 tl
  | IEog => z_code 2 tl
  | ITerm s => z_code 3 (z_code s tl)
  | INonterm s => z_code 4 (z_code s tl)
  | IGuard p l => z_code 5 (z_code p (list_code item_code l tl))
  | IEbnf Optional rs => z_code 6 (list_code (fun l tl => list_code item_code l tl) rs tl)
  | IEbnf Repeat rs => z_code 7 (list_code (fun l tl => list_code item_code l tl) rs tl)
  | IEbnf Alternative rs => z_code 8 (list_code (fun l tl => list_code item_code l tl) rs tl)
  | IEbnf RepeatZero rs => z_code 9 (list_code (fun l tl => list_code item_code l tl) rs tl)
  end.
Definition rule_code (r : rule) : list bool := item_code (r_nonterminal r) (list_code item_code (r_items r) []).
Fixpoint bits_number (l : list bool) : positive := match l with [] => xH | true :: l => xI (bits_number l) | false :: l => xO (bits_number l) end.
Definition rule_number (r : rule) : Z := Zpos (bits_number (rule_code r)).
Lemma pos_code_inj p : forall q tl tl', pos_code p tl = pos_code q tl' -> p = q /\ tl = tl'.
Proof. induction p as [p IH|p IH|]; intros [q|q|] tl tl' H; cbn in H; try discriminate H; injection H as H; try (apply IH in H; destruct H as [-> ->]; auto); auto. Qed.
Lemma z_code_inj z : forall z' tl tl', z_code z tl = z_code z' tl' -> z = z' /\ tl = tl'.
Proof. destruct z as [|p|p]; intros [|q|q] tl tl' H; cbn in H; try discriminate H; injection H as H; [subst; auto| |]; apply pos_code_inj in H; destruct H as [-> ->]; auto. Qed.
Lemma list_code_inj {A} (code : A -> list bool -> list bool) l : Forall (fun a => forall b tl tl', code a tl = code b tl' -> a = b /\ tl = tl') l ->
  forall k tl tl', list_code code l tl = list_code code k tl' -> l = k /\ tl = tl'.
Proof.
  induction 1 as [|a l Ha _ IH]; intros [|b k] tl tl' H; cbn in H; try discriminate H; injection H as H; [auto|]. apply Ha in H. destruct H as [-> H]. apply IH in H. destruct H as [-> ->]. auto.
Qed.
Lemma item_code_inj i : forall j tl tl', item_code i tl = item_code j tl' -> i = j /\ tl = tl'.
Proof.
  induction i as [| | |s|s|p l IH|k rs IH] using item_rect'; intros j tl tl' H.
  1-6: destruct j as [| | |s'|s'|p' l'|[| | |] rs']; cbn [item_code] in H; apply z_code_inj in H; destruct H as [E H]; try discriminate E; try (subst; auto; fail).
  - apply z_code_inj in H. destruct H as [-> ->]. auto.
  - apply z_code_inj in H. destruct H as [-> ->]. auto.
  - apply z_code_inj in H. destruct H as [-> H]. apply (list_code_inj _ _ IH) in H. destruct H as [-> ->]. auto.
  - assert (IH2 : Forall (fun l => forall m tl tl', list_code item_code l tl = list_code item_code m tl' -> l = m /\ tl = tl') rs) by (eapply Forall_impl; [|exact IH]; intros l F; apply list_code_inj, F).
    destruct k, j as [| | |s'|s'|p' l'|[| | |] rs']; cbn [item_code] in H; apply z_code_inj in H; destruct H as [E H]; try discriminate E; apply (list_code_inj _ _ IH2) in H; destruct H as [-> ->]; auto.
Qed.
Lemma bits_inj l : forall k, bits_number l = bits_number k -> l = k.
Proof. induction l as [|[|] l IH]; intros [|[|] k] H; cbn in H; try discriminate H; [reflexivity| |]; injection H as H; rewrite (IH _ H); reflexivity. Qed.
Lemma rule_number_injective : injective rule_number.
Proof.
  intros [n l] [n' l'] H. unfold rule_number in H. injection H as H. apply bits_inj in H. unfold rule_code in H. cbn in H. apply item_code_inj in H. destruct H as [-> H]. apply list_code_inj in H; [destruct H as [-> _]; reflexivity|].
  apply Forall_forall. intros i _. apply item_code_inj.
Qed.

Lemma sins_length {K} (ltb : K -> K -> bool) (ST : strict_total ltb) k s : ssorted ltb s -> length (sins ltb k s) = if smem ltb k s then length s else S (length s).
Proof.
  induction s as [|a s IH]; intros S; [reflexivity|]. apply ssorted_cons in S. destruct S as [S H]. cbn [sins smem]. destruct (ltb a k) eqn:E2; [|destruct (ltb k a); reflexivity]. cbn [length]. rewrite IH by exact S. destruct (smem ltb k s); reflexivity.
Qed.
Lemma iinsert_length i s : set_ok s -> length (iinsert i s) = if icontains s i then length s else S (length s).
Proof. apply sins_length, item_strict. Qed.
Lemma imerge_grows t : forall s, set_ok s -> (length s <= length (imerge s t))%nat /\ (length (imerge s t) = length s <-> forall x, In x t -> In x s).
Proof.
  induction t as [|a t IH]; intros s SO; cbn [imerge fold_left]; [split; [lia|split; [intros _ x []|reflexivity]]|]. change (fold_left (fun s i => iinsert i s) t (iinsert a s)) with (imerge (iinsert a s) t).
  destruct (IH (iinsert a s)) as [L E]; [apply iinsert_ok, SO|]. pose proof (iinsert_length a s SO) as LA. destruct (icontains s a) eqn:C.
  - apply icontains_in in C; [|exact SO]. assert (ES : iinsert a s = s). { apply (ssorted_ext _ item_strict); [apply iinsert_ok, SO|exact SO|]. intros k. rewrite iinsert_in. split; [intros [->|H]; assumption|auto]. }
    rewrite ES in *. split; [exact L|]. rewrite E. split; [intros H x [<-|Hx]; auto|intros H x Hx; apply H; right; exact Hx].
  - apply icontains_not in C; [|exact SO]. split; [lia|]. split; [lia|]. intros H. exfalso. apply C, H. left. reflexivity.
Qed.
Lemma imerge_same s t : set_ok s -> length (imerge s t) = length s -> imerge s t = s.
Proof.
  intros SO H. apply (ssorted_ext _ item_strict); [apply imerge_ok, SO|exact SO|]. intros k. rewrite imerge_in. pose proof (proj1 (proj2 (imerge_grows t s SO)) H) as H'. split; [intros [K|K]; auto|auto].
Qed.
Lemma looks_eqb_sound l : forall k, length l = length k -> (looks_eqb l k = true <-> l = k).
Proof.
  induction l as [|a l IH]; intros [|b k] L; try discriminate L; [split; reflexivity|]. cbn [looks_eqb]. injection L as L. destruct (item_eqb a b) eqn:E; cbn [negb].
  - apply item_eqb_spec in E. subst b. rewrite IH by exact L. split; [congruence|]. intros H. injection H as ->. reflexivity.
  - split; [discriminate|]. intros H. injection H as -> ->. pose proof (proj2 (item_eqb_spec b b) eq_refl). congruence.
Qed.

Section Order.
  Context (rid : rule -> Z) (RI : injective rid).
  Lemma lr0_eqb_spec a b : lr0_eqb rid a b = true <-> a = b.
  Proof.
    unfold lr0_eqb. destruct a as [r o], b as [r' o']. cbn [l_rule l_offset]. destruct (Nat.eqb_spec o o') as [->|N]; cbn [negb]; [|split; [discriminate|intros H; injection H as _ ->; contradiction]].
    rewrite Z.eqb_eq. split; [intros H; apply RI in H; subst; reflexivity|intros H; injection H as ->; reflexivity].
  Qed.
  Lemma lr0_dec (a b : lr0) : {a = b} + {a <> b}.
  Proof. destruct (lr0_eqb rid a b) eqn:E; [left; apply lr0_eqb_spec, E|right; intros H; apply lr0_eqb_spec in H; congruence]. Qed.
  Lemma lr0_strict : strict_total (lr0_ltb rid).
  Proof.
    split.
    - intros a. unfold lr0_ltb. rewrite Nat.ltb_irrefl. apply Z.ltb_irrefl.
    - intros a b c. unfold lr0_ltb. destruct (Nat.ltb_spec (l_offset a) (l_offset b)), (Nat.ltb_spec (l_offset b) (l_offset c)), (Nat.ltb_spec (l_offset a) (l_offset c)), (Nat.ltb_spec (l_offset b) (l_offset a)), (Nat.ltb_spec (l_offset c) (l_offset b)), (Nat.ltb_spec (l_offset c) (l_offset a)); try lia; try discriminate; auto.
    - intros a b. destruct (lr0_eqb rid a b) eqn:E; [apply lr0_eqb_spec in E; auto|]. unfold lr0_ltb. unfold lr0_eqb in E.
      destruct (Nat.ltb_spec (l_offset a) (l_offset b)); [auto|]. destruct (Nat.ltb_spec (l_offset b) (l_offset a)); [auto|]. replace (l_offset a) with (l_offset b) in E by lia. rewrite Nat.eqb_refl in E. cbn in E. rewrite !Z.ltb_lt. lia.
  Qed.
  Record lr1_ok (s : lr1_set) : Prop := { lo_sorted : msorted (lr0_ltb rid) s; lo_sets : forall k la, In (k, la) s -> set_ok la }.
  Lemma lr1_ok_nil : lr1_ok [].
  Proof. split; [constructor|intros k la []]. Qed.
  Lemma look_of_ok k s : lr1_ok s -> set_ok (look_of rid k s).
  Proof. intros [S O]. unfold look_of. destruct (mfind (lr0_ltb rid) k s) as [la|] eqn:E; [|constructor]. apply (mfind_in _ lr0_strict) in E; [|exact S]. eapply O, E. Qed.
  Lemma mem_in k s : lr1_ok s -> lr1_mem rid k s = true <-> exists la, In (k, la) s.
  Proof.
    intros [S _]. unfold lr1_mem. destruct (mfind (lr0_ltb rid) k s) as [la|] eqn:E; (split; [|]); try discriminate.
    - intros _. exists la. apply (mfind_in _ lr0_strict), E. exact S.
    - reflexivity.
    - intros [la H]. apply (mfind_in _ lr0_strict) in H; [congruence|exact S].
  Qed.
  Lemma look_of_entry k la s : lr1_ok s -> In (k, la) s -> look_of rid k s = la.
  Proof. intros [S _] H. unfold look_of. apply (mfind_in _ lr0_strict) in H; [|exact S]. rewrite H. reflexivity. Qed.

  (** Insertion through any sound == is the union. *)
  Lemma lr1_insert_find eq k la s k' : (forall a b, eq a b = true -> a = b) -> set_ok la -> lr1_ok s ->
    mfind (lr0_ltb rid) k' (fst (lr1_insert_with rid eq k la s)) = if lr0_dec k' k then Some (match mfind (lr0_ltb rid) k s with Some old => imerge old la | None => la end) else mfind (lr0_ltb rid) k' s.
  Proof.
    intros EQ LO [S O]. unfold lr1_insert_with. destruct (mfind (lr0_ltb rid) k s) as [old|] eqn:F.
    - assert (SO : set_ok old) by (eapply O, (mfind_in _ lr0_strict); [exact S|exact F]).
      assert (SAME : imerge old la = old -> mfind (lr0_ltb rid) k' s = if lr0_dec k' k then Some (imerge old la) else mfind (lr0_ltb rid) k' s).
      { intros ->. destruct (lr0_dec k' k) as [->|]; [exact F|reflexivity]. }
      destruct (Nat.eqb (length la) (length old) && eq la old)%bool eqn:E.
      + apply andb_prop in E. destruct E as [_ E]. apply EQ in E. subst old. apply SAME. apply imerge_same; [exact SO|]. apply imerge_grows; auto.
      + destruct (Nat.eqb_spec (length (imerge old la)) (length old)) as [L|L]; cbn [fst]; [apply SAME, imerge_same; assumption|].
        assert (S2 : msorted (lr0_ltb rid) (merase (lr0_ltb rid) k s)) by (apply (merase_sorted _ lr0_strict), S).
        assert (ST : msorted (lr0_ltb rid) (minsert (lr0_ltb rid) k (imerge old la) (merase (lr0_ltb rid) k s))) by (apply (minsert_sorted _ lr0_strict), S2).
        destruct (mfind (lr0_ltb rid) k' (minsert (lr0_ltb rid) k (imerge old la) (merase (lr0_ltb rid) k s))) as [v|] eqn:G.
        * apply (mfind_in _ lr0_strict) in G; [|exact ST]. apply minsert_in in G; [|exact S2]. destruct G as [G|[G N]].
          -- apply (merase_in _ lr0_strict) in G; [|exact S]. destruct G as [G NE]. cbn [fst] in NE. destruct (lr0_dec k' k); [contradiction|]. symmetry. apply (mfind_in _ lr0_strict); assumption.
          -- injection G as -> ->. destruct (lr0_dec k k); [reflexivity|contradiction].
        * pose proof (proj1 (mfind_none _ lr0_strict _ ST k') G) as NI. destruct (lr0_dec k' k) as [->|NK].
          -- exfalso. apply (NI (imerge old la)). apply minsert_in; [exact S2|]. right. split; [reflexivity|]. apply (mfind_none _ lr0_strict); [exact S2|]. intros v Hv. apply (merase_in _ lr0_strict) in Hv; [|exact S]. apply (proj2 Hv). reflexivity.
          -- symmetry. apply (mfind_none _ lr0_strict); [exact S|]. intros v Hv. apply (NI v). apply minsert_in; [exact S2|]. left. apply (merase_in _ lr0_strict); [exact S|]. auto.
    - cbn [fst]. rewrite (mfind_minsert _ lr0_strict) by exact S. destruct (lr0_dec k' k) as [->|N]; [rewrite F, (st_irrefl _ lr0_strict); reflexivity|]. destruct (mfind (lr0_ltb rid) k' s); [reflexivity|].
      destruct (lr0_ltb rid k k') eqn:E1; [reflexivity|]. destruct (lr0_ltb rid k' k) eqn:E2; [reflexivity|]. exfalso. apply N. symmetry. apply (ltb_eq _ lr0_strict); assumption.
  Qed.
  Lemma lr1_insert_ok eq k la s : (forall a b, eq a b = true -> a = b) -> set_ok la -> lr1_ok s -> lr1_ok (fst (lr1_insert_with rid eq k la s)).
  Proof.
    intros EQ LO OK. pose proof OK as [S O]. assert (ST : msorted (lr0_ltb rid) (fst (lr1_insert_with rid eq k la s))).
    { unfold lr1_insert_with. destruct (mfind (lr0_ltb rid) k s) as [old|]; [|apply (minsert_sorted _ lr0_strict), S]. destruct (Nat.eqb (length la) (length old) && eq la old)%bool; [exact S|].
      destruct (Nat.eqb (length (imerge old la)) (length old)); [exact S|]. apply (minsert_sorted _ lr0_strict), (merase_sorted _ lr0_strict), S. }
    split; [exact ST|]. intros k' v H. apply (mfind_in _ lr0_strict) in H; [|exact ST]. rewrite lr1_insert_find in H by assumption. destruct (lr0_dec k' k).
    - injection H as <-. destruct (mfind (lr0_ltb rid) k s) as [old|] eqn:F; [|exact LO]. apply imerge_ok. eapply O, (mfind_in _ lr0_strict); [exact S|exact F].
    - eapply O, (mfind_in _ lr0_strict); [exact S|exact H].
  Qed.
  Lemma lr1_insert_mem eq k la s k' : (forall a b, eq a b = true -> a = b) -> set_ok la -> lr1_ok s -> lr1_mem rid k' (fst (lr1_insert_with rid eq k la s)) = true <-> k' = k \/ lr1_mem rid k' s = true.
  Proof.
    intros EQ LO OK. unfold lr1_mem. rewrite lr1_insert_find by assumption. destruct (lr0_dec k' k); [intuition|]. tauto.
  Qed.
  Lemma lr1_insert_look eq k la s k' x : (forall a b, eq a b = true -> a = b) -> set_ok la -> lr1_ok s -> In x (look_of rid k' (fst (lr1_insert_with rid eq k la s))) <-> (k' = k /\ In x la) \/ In x (look_of rid k' s).
  Proof.
    intros EQ LO OK. unfold look_of. rewrite lr1_insert_find by assumption. destruct (lr0_dec k' k) as [->|N]; [|intuition].
    destruct (mfind (lr0_ltb rid) k s) as [old|]; [rewrite imerge_in; tauto|]. cbn. tauto.
  Qed.
  Lemma lr1_insert_grew eq k la s : (forall a b, eq a b = true -> a = b) -> set_ok la -> lr1_ok s -> snd (lr1_insert_with rid eq k la s) = true <-> lr1_mem rid k s = false \/ exists x, In x la /\ ~ In x (look_of rid k s).
  Proof.
    intros EQ LO [S O]. unfold lr1_insert_with, lr1_mem, look_of. destruct (mfind (lr0_ltb rid) k s) as [old|] eqn:F; [|cbn; intuition].
    assert (SO : set_ok old) by (eapply O, (mfind_in _ lr0_strict); [exact S|exact F]).
    destruct (Nat.eqb (length la) (length old) && eq la old)%bool eqn:E; cbn [snd].
    - apply andb_prop in E. destruct E as [_ E]. apply EQ in E. subst old. split; [discriminate|]. intros [H|(x & H1 & H2)]; [discriminate H|contradiction].
    - destruct (imerge_grows la old SO) as [L G]. destruct (Nat.eqb_spec (length (imerge old la)) (length old)) as [Q|Q]; cbn [snd].
      + pose proof (proj1 G Q) as H. split; [discriminate|]. intros [X|(x & H1 & H2)]; [discriminate X|]. exfalso. apply H2, H, H1.
      + split; [|reflexivity]. intros _. right. destruct (existsb (fun x => negb (icontains old x)) la) eqn:X.
        * apply existsb_exists in X. destruct X as (x & H1 & H2). exists x. split; [exact H1|]. apply icontains_not; [exact SO|]. destruct (icontains old x); [discriminate H2|reflexivity].
        * exfalso. apply Q, G. intros x Hx. apply icontains_in; [exact SO|]. destruct (icontains old x) eqn:C; [reflexivity|]. assert (Y : existsb (fun x => negb (icontains old x)) la = true) by (apply existsb_exists; exists x; rewrite C; auto). congruence.
  Qed.
  (** The variant that is used from here on *)
  Lemma eqb_ok a b : Nat.eqb (length a) (length b) && looks_eqb a b = true -> a = b.
  Proof. intros H. apply andb_prop in H. destruct H as [L E]. apply looks_eqb_sound; [lia|exact E]. Qed.
  Lemma lr1_insert_as : forall k la s, lr1_insert rid k la s = lr1_insert_with rid (fun a b => Nat.eqb (length a) (length b) && looks_eqb a b) k la s.
  Proof.
    intros k la s. unfold lr1_insert, lr1_insert_with. destruct (mfind (lr0_ltb rid) k s) as [old|]; [|reflexivity]. destruct (Nat.eqb (length la) (length old)); reflexivity.
  Qed.
  Lemma insert_ok k la s : set_ok la -> lr1_ok s -> lr1_ok (fst (lr1_insert rid k la s)).
  Proof. rewrite lr1_insert_as. apply lr1_insert_ok, eqb_ok. Qed.
  Lemma insert_mem k la s k' : set_ok la -> lr1_ok s -> lr1_mem rid k' (fst (lr1_insert rid k la s)) = true <-> k' = k \/ lr1_mem rid k' s = true.
  Proof. rewrite lr1_insert_as. apply lr1_insert_mem, eqb_ok. Qed.
  Lemma insert_look k la s k' x : set_ok la -> lr1_ok s -> In x (look_of rid k' (fst (lr1_insert rid k la s))) <-> (k' = k /\ In x la) \/ In x (look_of rid k' s).
  Proof. rewrite lr1_insert_as. apply lr1_insert_look, eqb_ok. Qed.
  Lemma insert_grew k la s : set_ok la -> lr1_ok s -> snd (lr1_insert rid k la s) = true <-> lr1_mem rid k s = false \/ exists x, In x la /\ ~ In x (look_of rid k s).
  Proof. rewrite lr1_insert_as. apply lr1_insert_grew, eqb_ok. Qed.

  (** ** Comparisons *)
  Lemma lr1_eqb_spec a b : lr1_eqb rid a b = true <-> a = b.
  Proof.
    unfold lr1_eqb. destruct a as [k l], b as [k' l']. cbn [fst snd]. destruct (Nat.eqb_spec (length l) (length l')) as [L|L]; cbn [negb]; [|split; [discriminate|intros H; injection H as _ ->; contradiction]].
    destruct (lr0_eqb rid k k') eqn:E; cbn [negb].
    - apply lr0_eqb_spec in E. subst k'. rewrite (looks_eqb_sound _ _ L). split; [congruence|]. intros H. injection H as ->. reflexivity.
    - split; [discriminate|]. intros H. injection H as -> ->. pose proof (proj2 (lr0_eqb_spec k' k') eq_refl). congruence.
  Qed.
  Lemma looks_total l : forall k, length l = length k -> looks_ltb l k = false -> looks_ltb k l = false -> l = k.
  Proof.
    induction l as [|a l IH]; intros [|b k] L; try discriminate L; [reflexivity|]. injection L as L. cbn [looks_ltb]. destruct (item_ltb a b) eqn:E; [discriminate|]. destruct (item_ltb b a) eqn:E2; [discriminate|].
    assert (a = b) by (apply (ltb_eq _ item_strict); assumption). subst b. rewrite (proj2 (item_eqb_spec a a) eq_refl). cbn [negb]. intros H1 H2. rewrite (IH k L H1 H2). reflexivity.
  Qed.
  Lemma looks_irrefl l : looks_ltb l l = false.
  Proof. induction l as [|a l IH]; [reflexivity|]. cbn [looks_ltb]. rewrite (st_irrefl _ item_strict), (proj2 (item_eqb_spec a a) eq_refl). exact IH. Qed.
  Lemma looks_trans l : forall k m, looks_ltb l k = true -> looks_ltb k m = true -> looks_ltb l m = true.
  Proof.
    induction l as [|a l IH]; intros [|b k] [|c m]; cbn [looks_ltb]; try discriminate. destruct (item_ltb a b) eqn:E1.
    - intros _. destruct (item_ltb b c) eqn:E2; [rewrite (st_trans _ item_strict _ _ _ E1 E2); reflexivity|]. destruct (item_eqb b c) eqn:Q; cbn [negb]; [|discriminate]. apply item_eqb_spec in Q. subst c. rewrite E1. reflexivity.
    - destruct (item_eqb a b) eqn:Q; cbn [negb]; [|discriminate]. apply item_eqb_spec in Q. subst b. intros H1. destruct (item_ltb a c) eqn:E2; [reflexivity|]. destruct (item_eqb a c) eqn:Q; cbn [negb]; [|discriminate]. apply IH. exact H1.
  Qed.
  Lemma lr1_strict : strict_total (lr1_ltb rid).
  Proof.
    assert (EQ : forall k, lr0_eqb rid k k = true) by (intros k; apply lr0_eqb_spec; reflexivity). split.
    - intros [k l]. unfold lr1_ltb. cbn [fst snd]. rewrite (st_irrefl _ lr0_strict), EQ, Nat.ltb_irrefl. apply looks_irrefl.
    - intros [k l] [k' l'] [k'' l'']. unfold lr1_ltb. cbn [fst snd]. destruct (lr0_ltb rid k' k) eqn:E1; [discriminate|]. destruct (lr0_ltb rid k'' k') eqn:E2; [discriminate|]. intros H1 H2.
      assert (T : forall a b, lr0_ltb rid b a = false -> lr0_ltb rid a b = true \/ a = b) by (intros a b H; destruct (st_total _ lr0_strict a b) as [X|[X|X]]; auto; congruence).
      destruct (T _ _ E1) as [L1| ->], (T _ _ E2) as [L2| ->].
      + pose proof (st_trans _ lr0_strict _ _ _ L1 L2) as L. rewrite (ltb_asym _ lr0_strict _ _ L). destruct (lr0_eqb rid k k'') eqn:Q; [|reflexivity]. apply lr0_eqb_spec in Q. subst k''. rewrite (st_irrefl _ lr0_strict) in L. discriminate L.
      + rewrite (ltb_asym _ lr0_strict _ _ L1). destruct (lr0_eqb rid k k'') eqn:Q; [|reflexivity]. apply lr0_eqb_spec in Q. subst k''. rewrite (st_irrefl _ lr0_strict) in L1. discriminate L1.
      + rewrite (ltb_asym _ lr0_strict _ _ L2). destruct (lr0_eqb rid k' k'') eqn:Q; [|reflexivity]. apply lr0_eqb_spec in Q. subst k''. rewrite (st_irrefl _ lr0_strict) in L2. discriminate L2.
      + rewrite EQ in *. cbn [negb] in *. rewrite (st_irrefl _ lr0_strict). destruct (Nat.ltb_spec (length l) (length l')), (Nat.ltb_spec (length l') (length l'')), (Nat.ltb_spec (length l) (length l'')), (Nat.ltb_spec (length l') (length l)), (Nat.ltb_spec (length l'') (length l')), (Nat.ltb_spec (length l'') (length l)); try lia; try discriminate; auto. eapply looks_trans; eassumption.
    - intros [k l] [k' l']. destruct (st_total _ lr0_strict k k') as [-> |[H|H]]; [|right; left|right; right].
      + unfold lr1_ltb. cbn [fst snd]. rewrite (st_irrefl _ lr0_strict), EQ. cbn [negb]. destruct (Nat.ltb_spec (length l) (length l')); [auto|]. destruct (Nat.ltb_spec (length l') (length l)); [auto|].
        destruct (looks_ltb l l') eqn:A; [auto|]. destruct (looks_ltb l' l) eqn:B; [auto|]. left. rewrite (looks_total l l'); [reflexivity|lia|exact A|exact B].
      + unfold lr1_ltb. cbn [fst snd]. rewrite (ltb_asym _ lr0_strict _ _ H). destruct (lr0_eqb rid k k') eqn:Q; [|reflexivity]. apply lr0_eqb_spec in Q. subst k'. rewrite (st_irrefl _ lr0_strict) in H. discriminate H.
      + unfold lr1_ltb. cbn [fst snd]. rewrite (ltb_asym _ lr0_strict _ _ H). destruct (lr0_eqb rid k' k) eqn:Q; [|reflexivity]. apply lr0_eqb_spec in Q. subst k'. rewrite (st_irrefl _ lr0_strict) in H. discriminate H.
  Qed.
End Order.

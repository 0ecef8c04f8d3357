(** Proofs about LR states and the LALR state machine. *)
From Verif Require Import Base OrdMap GrammarModel GrammarProofs FirstModel FirstProofs LrItemModel LrItemProofs MachineModel.
Local Open Scope Z_scope.

Lemma vset_length {A} n (a : A) l : length (vset n a l) = length l.
Proof. revert n. induction l as [|b l IH]; intros [|n]; cbn; try reflexivity. rewrite IH. reflexivity. Qed.
Lemma nth_vset {A} n (a : A) l k : nth_error (vset n a l) k = if Nat.eqb k n then match nth_error l n with Some _ => Some a | None => None end else nth_error l k.
Proof.
  revert n k. induction l as [|b l IH]; intros [|n] [|k]; cbn; try reflexivity; [destruct (Nat.eqb k n); reflexivity|apply IH].
Qed.
Lemma vset_same {A} n (a : A) l : nth_error l n = Some a -> vset n a l = l.
Proof. revert n. induction l as [|b l IH]; intros [|n] H; cbn in *; try reflexivity; [injection H as ->; reflexivity|rewrite IH by exact H; reflexivity]. Qed.
Lemma map_vset {A B} (f : A -> B) n a l : map f (vset n a l) = vset n (f a) (map f l).
Proof. revert n. induction l as [|b l IH]; intros [|n]; cbn; try reflexivity. rewrite IH. reflexivity. Qed.

Section Machine.
  Context (rid : rule -> Z) (RI : injective rid).

  (** ** Comparison of states *)
  Lemma items_ltb_irrefl l : items_ltb rid l l = false.
  Proof. induction l as [|a l IH]; [reflexivity|]. cbn. rewrite (st_irrefl _ (lr0_strict rid RI)). exact IH. Qed.
  Lemma items_ltb_trans l : forall k m, items_ltb rid l k = true -> items_ltb rid k m = true -> items_ltb rid l m = true.
  Proof.
    pose proof (lr0_strict rid RI) as ST. induction l as [|a l IH]; intros [|b k] [|c m] H1 H2; try discriminate. cbn in *.
    destruct (lr0_ltb rid a b) eqn:E1.
    - destruct (lr0_ltb rid b c) eqn:E2; [rewrite (st_trans _ ST _ _ _ E1 E2); reflexivity|]. destruct (lr0_ltb rid c b) eqn:E3; [discriminate|]. rewrite <- (ltb_eq _ ST _ _ E2 E3), E1. reflexivity.
    - destruct (lr0_ltb rid b a) eqn:E1'; [discriminate|]. pose proof (ltb_eq _ ST _ _ E1 E1') as ->. destruct (lr0_ltb rid b c) eqn:E2; [reflexivity|]. destruct (lr0_ltb rid c b); [discriminate|]. eapply IH; eassumption.
  Qed.
  Lemma items_ltb_total l : forall k, length l = length k -> l = k \/ items_ltb rid l k = true \/ items_ltb rid k l = true.
  Proof.
    pose proof (lr0_strict rid RI) as ST. induction l as [|a l IH]; intros [|b k] L; try discriminate L; [auto|]. injection L as L. cbn. destruct (st_total _ ST a b) as [->|[E|E]].
    - rewrite (st_irrefl _ ST). destruct (IH k L) as [->|[H|H]]; auto.
    - rewrite E. auto.
    - rewrite E. auto.
  Qed.
  Lemma kernel_strict : strict_total (kernel_ltb rid).
  Proof.
    split.
    - intros l. unfold kernel_ltb. rewrite Nat.ltb_irrefl. apply items_ltb_irrefl.
    - intros l k m. unfold kernel_ltb. destruct (Nat.ltb_spec (length l) (length k)), (Nat.ltb_spec (length k) (length l)), (Nat.ltb_spec (length k) (length m)), (Nat.ltb_spec (length m) (length k)), (Nat.ltb_spec (length l) (length m)), (Nat.ltb_spec (length m) (length l)); try lia; try discriminate; try reflexivity. apply items_ltb_trans.
    - intros l k. unfold kernel_ltb. destruct (Nat.ltb_spec (length l) (length k)), (Nat.ltb_spec (length k) (length l)); try lia; auto. apply items_ltb_total. lia.
  Qed.
  Lemma items_eqb_spec l : forall k, length l = length k -> items_eqb rid l k = true <-> l = k.
  Proof.
    pose proof (lr0_strict rid RI) as ST. induction l as [|a l IH]; intros [|b k] L; try discriminate L; [split; reflexivity|]. injection L as L. cbn. destruct (lr0_ltb rid a b) eqn:E1; cbn; [split; [discriminate|intros H; injection H as -> ->; rewrite (st_irrefl _ ST) in E1; discriminate]|].
    destruct (lr0_ltb rid b a) eqn:E2; [split; [discriminate|intros H; injection H as -> ->; rewrite (st_irrefl _ ST) in E2; discriminate]|]. rewrite (IH k L), (ltb_eq _ ST _ _ E1 E2). split; [intros ->; reflexivity|intros H; injection H as ->; reflexivity].
  Qed.
  Lemma kernel_eqb_spec l k : kernel_eqb rid l k = true <-> l = k.
  Proof. unfold kernel_eqb. destruct (Nat.eqb_spec (length l) (length k)) as [E|N]; cbn; [apply items_eqb_spec, E|]. split; [discriminate|intros ->; contradiction]. Qed.

  (** ** States *)
  Record state_ok (s : lrstate) : Prop := {
    so_sorted : msorted (lr0_ltb rid) (st_ids s);
    so_ids : forall k n, In (k, n) (st_ids s) <-> nth_error (st_list s) n = Some k;
    so_looks : length (st_looks s) = length (st_list s);
    so_sets : Forall set_ok (st_looks s) }.
  Lemma new_state_ok : state_ok new_state.
  Proof. split; [constructor|intros k [|n]; split; [intros []|discriminate|intros []|discriminate]|reflexivity|constructor]. Qed.
  Lemma find_in s k n : state_ok s -> mfind (lr0_ltb rid) k (st_ids s) = Some n <-> nth_error (st_list s) n = Some k.
  Proof. intros OK. rewrite <- (so_ids s OK). apply (mfind_in _ (lr0_strict rid RI)), OK. Qed.
  Lemma find_none s k : state_ok s -> mfind (lr0_ltb rid) k (st_ids s) = None <-> ~ In k (st_list s).
  Proof.
    intros OK. split.
    - intros H K. apply In_nth_error in K. destruct K as [n K]. apply (find_in s k n OK) in K. congruence.
    - intros H. destruct (mfind (lr0_ltb rid) k (st_ids s)) as [n|] eqn:E; [|reflexivity]. exfalso. apply (find_in s k n OK), nth_error_In in E. contradiction.
  Qed.
  Lemma state_nodup s : state_ok s -> NoDup (st_list s).
  Proof.
    intros OK. apply NoDup_nth_error. intros i j L E. destruct (nth_error (st_list s) i) as [k|] eqn:Ei; [|apply nth_error_None in Ei; lia].
    apply (find_in s k i OK) in Ei. symmetry in E. apply (find_in s k j OK) in E. congruence.
  Qed.
  Lemma state_add_spec k s s' n : state_ok s -> state_add rid k s = (s', n) ->
    state_ok s' /\ st_ident s' = st_ident s /\ nth_error (st_list s') n = Some k /\
    (In k (st_list s) -> s' = s) /\ (~ In k (st_list s) -> st_list s' = st_list s ++ [k] /\ st_looks s' = st_looks s ++ [no_items]).
  Proof.
    pose proof (lr0_strict rid RI) as ST. intros OK H. unfold state_add in H. destruct (mfind (lr0_ltb rid) k (st_ids s)) as [m|] eqn:F.
    - pose proof (proj1 (find_in s k m OK) F) as N. assert (L : (m < length (st_list s))%nat) by (apply nth_error_Some; congruence). rewrite (so_looks s OK) in H. replace (S m - length (st_list s))%nat with 0%nat in H by lia. cbn [repeat] in H. rewrite app_nil_r in H. injection H as <- <-.
      destruct s as [ids l lo id]. cbn in *. split; [exact OK|]. split; [reflexivity|]. split; [exact N|]. split; [reflexivity|]. intros X. exfalso. apply X. eapply nth_error_In, N.
    - pose proof (proj1 (find_none s k OK) F) as N. cbn zeta in H. rewrite (so_looks s OK) in H. replace (S (length (st_list s)) - length (st_list s))%nat with 1%nat in H by lia. cbn [repeat] in H. injection H as <- <-. cbn [repeat st_list st_looks st_ident st_ids]. split; [split|].
      + apply (mset_sorted _ ST), OK.
      + intros k' n'. cbn [st_ids st_list]. rewrite (mset_in _ ST) by apply OK. cbn [fst]. split.
        * intros [E|[E NE]]; [injection E as -> ->; rewrite nth_error_app2, Nat.sub_diag by lia; reflexivity|]. apply (so_ids s OK) in E. rewrite nth_error_app1; [exact E|]. apply nth_error_Some. congruence.
        * intros E. destruct (Nat.lt_ge_cases n' (length (st_list s))) as [L|L]; [rewrite nth_error_app1 in E by exact L; right; split; [apply (so_ids s OK), E|intros ->; apply N; eapply nth_error_In, E]|].
          rewrite nth_error_app2 in E by exact L. destruct (n' - length (st_list s))%nat as [|d] eqn:D; [|destruct d; discriminate E]. injection E as ->. left. f_equal. lia.
      + cbn. rewrite !app_length, (so_looks s OK). reflexivity.
      + cbn. apply Forall_app. split; [apply OK|]. constructor; [constructor|constructor].
      + split; [reflexivity|]. split; [rewrite nth_error_app2, Nat.sub_diag by lia; reflexivity|]. split; [contradiction|auto].
  Qed.
  Lemma find_identifier_spec k s : state_ok s -> (forall n, find_identifier rid k s = Z.of_nat n <-> nth_error (st_list s) n = Some k) /\ (find_identifier rid k s = -1 <-> ~ In k (st_list s)).
  Proof.
    intros OK. unfold find_identifier. destruct (mfind (lr0_ltb rid) k (st_ids s)) as [m|] eqn:F.
    - split; [intros n; rewrite <- (find_in s k n OK), F; split; [intros H; f_equal; lia|intros H; injection H as ->; reflexivity]|]. split; [lia|]. intros N. exfalso. apply N. eapply nth_error_In, (find_in s k m OK), F.
    - split; [intros n; rewrite <- (find_in s k n OK), F; split; [lia|discriminate]|]. split; [intros _; apply find_none; assumption|reflexivity].
  Qed.

  (** ** The machine *)
  Record machine_ok (m : machine) : Prop := {
    mo_sorted : msorted (kernel_ltb rid) (m_ids m);
    mo_ids : forall l n, In (l, n) (m_ids m) <-> 0 <= n /\ exists s, nth_error (m_states m) (Z.to_nat n) = Some s /\ st_list s = l;
    mo_states : Forall state_ok (m_states m);
    mo_ident : forall n s, nth_error (m_states m) n = Some s -> st_ident s = Z.of_nat n;
    mo_trans : length (m_trans m) = length (m_states m);
    mo_sorted_trans : Forall (msorted item_ltb) (m_trans m);
    mo_targets : forall n ts i t, nth_error (m_trans m) n = Some ts -> In (i, t) ts -> 0 <= t < Z.of_nat (length (m_states m)) }.
  Lemma new_machine_ok : machine_ok new_machine.
  Proof.
    split; cbn; try solve [constructor]; try (intros [|n]; discriminate).
    intros l n. split; [intros []|intros (_ & s & H & _); destruct (Z.to_nat n); discriminate H].
  Qed.
  Lemma id_of_kernel m l n : machine_ok m -> mfind (kernel_ltb rid) l (m_ids m) = Some n <-> 0 <= n /\ exists s, nth_error (m_states m) (Z.to_nat n) = Some s /\ st_list s = l.
  Proof. intros OK. rewrite <- (mo_ids m OK). apply (mfind_in _ kernel_strict), OK. Qed.
  Lemma no_kernel m l : machine_ok m -> mfind (kernel_ltb rid) l (m_ids m) = None <-> forall s, In s (m_states m) -> st_list s <> l.
  Proof.
    intros OK. split.
    - intros H s K E. apply In_nth_error in K. destruct K as [n K]. assert (X : mfind (kernel_ltb rid) l (m_ids m) = Some (Z.of_nat n)) by (apply id_of_kernel; [exact OK|]; split; [lia|]; exists s; rewrite Nat2Z.id; auto). congruence.
    - intros H. destruct (mfind (kernel_ltb rid) l (m_ids m)) as [n|] eqn:E; [|reflexivity]. apply id_of_kernel in E; [|exact OK]. destruct E as (_ & s & K & E). apply nth_error_In in K. exfalso. eapply H; eassumption.
  Qed.
  Lemma add_state_known s m m' s' n : machine_ok m -> st_ident s = -1 -> In (st_list s) (map st_list (m_states m)) -> add_state rid s m = (m', s', n) ->
    m' = m /\ s' = set_identifier n s /\ 0 <= n /\ exists t, nth_error (m_states m) (Z.to_nat n) = Some t /\ st_list t = st_list s.
  Proof.
    intros OK ID K H. unfold add_state in H. rewrite ID in H. cbn [Z.leb Z.compare] in H. destruct (mfind (kernel_ltb rid) (st_list s) (m_ids m)) as [n'|] eqn:E.
    - injection H as <- <- <-. split; [reflexivity|]. split; [reflexivity|]. apply id_of_kernel; assumption.
    - exfalso. apply in_map_iff in K. destruct K as (t & E1 & K). eapply (proj1 (no_kernel m (st_list s) OK) E); eassumption.
  Qed.
  Lemma add_state_new s m m' s' n : machine_ok m -> state_ok s -> st_ident s = -1 -> ~ In (st_list s) (map st_list (m_states m)) -> add_state rid s m = (m', s', n) ->
    machine_ok m' /\ n = Z.of_nat (length (m_states m)) /\ s' = set_identifier n s /\ m_states m' = m_states m ++ [s'] /\ m_trans m' = m_trans m ++ [[]].
  Proof.
    intros OK SO ID K H. unfold add_state in H. rewrite ID in H. cbn [Z.leb Z.compare] in H.
    assert (N : mfind (kernel_ltb rid) (st_list s) (m_ids m) = None) by (apply no_kernel; [exact OK|]; intros t Ht E; apply K, in_map_iff; eauto).
    rewrite N in H. injection H as <- <- <-. cbn [m_states m_trans st_list set_identifier]. split; [|auto]. split; cbn [m_states m_trans m_ids].
    - apply (mset_sorted _ kernel_strict), OK.
    - intros l n. rewrite (mset_in _ kernel_strict) by apply OK. cbn [fst]. split.
      + intros [E|[E NE]].
        * injection E as -> ->. split; [lia|]. eexists. rewrite Nat2Z.id, nth_error_app2, Nat.sub_diag by lia. split; reflexivity.
        * apply (mo_ids m OK) in E. destruct E as (P & t & X & E). split; [exact P|]. exists t. rewrite nth_error_app1 by (apply nth_error_Some; congruence). auto.
      + intros (P & t & X & E). destruct (Nat.lt_ge_cases (Z.to_nat n) (length (m_states m))) as [L|L].
        * rewrite nth_error_app1 in X by exact L. right. split; [apply (mo_ids m OK); eauto|]. intros ->. apply K, in_map_iff. exists t. split; [exact E|eapply nth_error_In, X].
        * rewrite nth_error_app2 in X by exact L. destruct (Z.to_nat n - length (m_states m))%nat as [|d] eqn:D; [|destruct d; discriminate X]. injection X as <-. cbn in E. subst l. left. f_equal. lia.
    - apply Forall_app. split; [apply OK|]. constructor; [|constructor]. destruct SO. split; assumption.
    - intros n t X. destruct (Nat.lt_ge_cases n (length (m_states m))) as [L|L]; [rewrite nth_error_app1 in X by exact L; apply (mo_ident m OK), X|].
      rewrite nth_error_app2 in X by exact L. destruct (n - length (m_states m))%nat as [|d] eqn:D; [|destruct d; discriminate X]. injection X as <-. cbn. lia.
    - rewrite !app_length, (mo_trans m OK). reflexivity.
    - apply Forall_app. split; [apply OK|]. constructor; [constructor|constructor].
    - intros n ts i t X I. rewrite app_length. destruct (Nat.lt_ge_cases n (length (m_trans m))) as [L|L]; [rewrite nth_error_app1 in X by exact L; pose proof (mo_targets m OK _ _ _ _ X I); cbn; lia|].
      rewrite nth_error_app2 in X by exact L. destruct (n - length (m_trans m))%nat as [|d] eqn:D; [|destruct d; discriminate X]. injection X as <-. destruct I.
  Qed.
  Lemma add_state_ok s m m' s' n : machine_ok m -> state_ok s -> (0 <= st_ident s -> st_ident s < count_states m) -> -1 <= st_ident s -> add_state rid s m = (m', s', n) -> machine_ok m' /\ 0 <= n < count_states m' /\ st_ident s' = n.
  Proof.
    intros OK SO L B H. unfold count_states in *. destruct (Z.leb_spec 0 (st_ident s)) as [P|P].
    - unfold add_state in H. rewrite (proj2 (Z.leb_le _ _) P) in H. injection H as <- <- <-. auto.
    - destruct (in_dec (list_eq_dec (lr0_dec rid RI)) (st_list s) (map st_list (m_states m))) as [K|K].
      + apply add_state_known in H; [|exact OK|lia|exact K]. destruct H as (-> & -> & P' & t & X & _). split; [exact OK|]. split; [|reflexivity]. assert (Z.to_nat n < length (m_states m))%nat by (apply nth_error_Some; congruence). lia.
      + apply add_state_new in H; [|exact OK|exact SO|lia|exact K]. destruct H as (OK' & -> & -> & ES & _). split; [exact OK'|]. rewrite ES, app_length. cbn. split; [lia|reflexivity].
  Qed.
  Lemma add_transition_spec q i t m m' : machine_ok m -> add_transition q i t m = Some m' -> machine_ok m' /\ m_states m' = m_states m /\ m_ids m' = m_ids m /\
    forall p, (forall j, mfind item_ltb j (transitions_for_state p m') =
      match mfind item_ltb j (transitions_for_state p m) with Some v => Some v | None => if (p =? q) && item_eqb j i && (0 <=? t) && (t <? count_states m) then Some t else None end).
  Proof.
    intros OK H. unfold add_transition, count_states in *. destruct (Z.ltb_spec t 0) as [A|A], (Z.leb_spec (Z.of_nat (length (m_states m))) t) as [B|B]; cbn [orb] in H;
      try (injection H as <-; split; [exact OK|split; [reflexivity|split; [reflexivity|]]]; intros p j; (rewrite (proj2 (Z.leb_gt 0 t)) by lia) || (rewrite (proj2 (Z.ltb_ge t _)) by lia); rewrite ?andb_false_r, ?andb_false_l; destruct (mfind item_ltb j (transitions_for_state p m)); reflexivity).
    destruct (Z.ltb_spec q 0) as [C|C]; [discriminate H|]. destruct (nth_error (m_trans m) (Z.to_nat q)) as [ts|] eqn:E; [|discriminate H]. injection H as <-. assert (LQ : (Z.to_nat q < length (m_trans m))%nat) by (apply nth_error_Some; congruence).
    assert (STS : msorted item_ltb ts) by (pose proof (mo_sorted_trans m OK) as F; rewrite Forall_forall in F; apply F; eapply nth_error_In, E).
    split; [|split; [reflexivity|split; [reflexivity|]]].
    - split; cbn [m_ids m_states m_trans]; try apply OK.
      + rewrite vset_length. apply OK.
      + apply Forall_forall. intros us H. apply In_nth_error in H. destruct H as [n H]. rewrite nth_vset, E in H. destruct (Nat.eqb_spec n (Z.to_nat q)) as [EN|N]; [injection H as <-; apply (minsert_sorted _ item_strict), STS|].
        pose proof (mo_sorted_trans m OK) as F. rewrite Forall_forall in F. apply F. eapply nth_error_In, H.
      + intros n us j v H I. rewrite nth_vset, E in H. destruct (Nat.eqb_spec n (Z.to_nat q)) as [EN|N]; [injection H as <-|eapply (mo_targets m OK); eassumption].
        apply minsert_in in I; [|exact STS]. destruct I as [I|[I _]]; [eapply (mo_targets m OK); eassumption|injection I as -> ->; lia].
    - intros p j. unfold transitions_for_state. cbn [m_trans]. rewrite vset_length. rewrite (proj2 (Z.leb_le 0 t)), (proj2 (Z.ltb_lt t _)) by lia. rewrite !andb_true_r.
      destruct (Z.ltb_spec p 0) as [P|P]; cbn [orb]; [rewrite (proj2 (Z.eqb_neq p q)) by lia; reflexivity|]. destruct (Z.leb_spec (Z.of_nat (length (m_trans m))) p) as [P'|P']; [rewrite (proj2 (Z.eqb_neq p q)) by lia; reflexivity|].
      destruct (Z.eqb_spec p q) as [->|N].
      + rewrite (nth_error_nth _ _ _ (eq_trans (nth_vset (Z.to_nat q) _ _ _) ltac:(rewrite Nat.eqb_refl, E; reflexivity))). rewrite (nth_error_nth _ _ [] E). rewrite (mfind_minsert _ item_strict) by exact STS.
        destruct (mfind item_ltb j ts); [reflexivity|]. cbn [andb]. destruct (item_eqb j i) eqn:J; [apply item_eqb_spec in J; subst; rewrite (st_irrefl _ item_strict); reflexivity|].
        destruct (item_ltb j i) eqn:J1, (item_ltb i j) eqn:J2; try reflexivity. pose proof (ltb_eq _ item_strict _ _ J1 J2) as ->. rewrite (proj2 (item_eqb_spec i i) eq_refl) in J. discriminate J.
      + cbn [andb]. assert (X : nth (Z.to_nat p) (vset (Z.to_nat q) (minsert item_ltb i t ts) (m_trans m)) [] = nth (Z.to_nat p) (m_trans m) []).
        { destruct (nth_error (m_trans m) (Z.to_nat p)) as [us|] eqn:EP; [|apply nth_error_None in EP; lia]. rewrite (nth_error_nth _ _ [] EP). apply nth_error_nth. rewrite nth_vset. destruct (Nat.eqb_spec (Z.to_nat p) (Z.to_nat q)); [lia|exact EP]. }
        rewrite X. destruct (mfind item_ltb j (nth (Z.to_nat p) (m_trans m) [])); reflexivity.
  Qed.
  Lemma merge_lookahead_spec la : forall s b s' b', set_ok s -> fold_left (fun '(s, changed) i => match i with IEmpty => (s, changed) | _ => (iinsert i s, orb changed (negb (icontains s i))) end) la (s, b) = (s', b') ->
    set_ok s' /\ (forall x, In x s' <-> In x s \/ (In x la /\ x <> IEmpty)) /\ (b' = true <-> b = true \/ exists x, In x la /\ x <> IEmpty /\ ~ In x s).
  Proof.
    induction la as [|i la IH]; intros s b s' b' SO H; cbn [fold_left] in H.
    - injection H as <- <-. split; [exact SO|]. split; [intros x; split; [auto|intros [X|[[] _]]; exact X]|]. split; [auto|]. intros [X|(x & [] & _)]. exact X.
    - destruct (item_eqb i IEmpty) eqn:E.
      + apply item_eqb_spec in E. subst i. apply IH in H; [|exact SO]. destruct H as (SO' & IN & CH). split; [exact SO'|]. split; [intros x; rewrite IN; cbn [In]; intuition congruence|]. rewrite CH. split; (intros [X|(x & A & B & C)]; [auto|right; exists x]); cbn [In] in *; intuition congruence.
      + assert (NI : i <> IEmpty) by (intros ->; discriminate E). assert (H' : fold_left (fun '(s, changed) i => match i with IEmpty => (s, changed) | _ => (iinsert i s, orb changed (negb (icontains s i))) end) la (iinsert i s, orb b (negb (icontains s i))) = (s', b')) by (destruct i; try exact H; contradiction).
        clear H. apply IH in H'; [|apply iinsert_ok, SO]. destruct H' as (SO' & IN & CH). split; [exact SO'|]. split.
        * intros x. rewrite IN, iinsert_in. cbn [In]. split; [intros [[->|X]|[X Y]]; auto|]. intros [X|[[<-|X] Y]]; auto.
        * rewrite CH, Bool.orb_true_iff, Bool.negb_true_iff. rewrite icontains_not by exact SO. split.
          -- intros [[X|X]|(x & A & B & C)]; [auto|right; exists i; cbn [In]; auto|]. rewrite iinsert_in in C. right. exists x. cbn [In]. intuition.
          -- intros [X|(x & [<-|A] & B & C)]; [auto|auto|]. destruct (item_eqb x i) eqn:XI; [apply item_eqb_spec in XI; subst; auto|]. right. exists x. split; [exact A|]. split; [exact B|]. rewrite iinsert_in. intros [->|X]; [rewrite (proj2 (item_eqb_spec i i) eq_refl) in XI; discriminate|contradiction].
  Qed.
  (** The lookahead of an item of a state *)
  Definition lookahead_of (q n : nat) (m : machine) : iset := match nth_error (m_states m) q with Some s => nth n (st_looks s) [] | None => [] end.
  Lemma add_lookahead_spec q n la m m' b : machine_ok m -> 0 <= n -> add_lookahead q n la m = Some (m', b) ->
    machine_ok m' /\ m_ids m' = m_ids m /\ m_trans m' = m_trans m /\ map st_list (m_states m') = map st_list (m_states m) /\
    (forall q' n' x, In x (lookahead_of q' n' m') <-> In x (lookahead_of q' n' m) \/ (Z.of_nat q' = q /\ Z.of_nat n' = n /\ In x la /\ x <> IEmpty)) /\
    (b = true <-> exists x, In x la /\ x <> IEmpty /\ ~ In x (lookahead_of (Z.to_nat q) (Z.to_nat n) m)).
  Proof.
    intros OK PN H. unfold add_lookahead in H. rewrite (proj2 (Z.ltb_ge n 0)) in H by exact PN. destruct (Z.ltb_spec q 0) as [Q|Q]; [discriminate H|].
    destruct (nth_error (m_states m) (Z.to_nat q)) as [s|] eqn:S; [|discriminate H]. destruct (nth_error (st_looks s) (Z.to_nat n)) as [old|] eqn:O; [|discriminate H].
    unfold merge_lookahead in H. destruct (fold_left _ la (old, false)) as [new ch] eqn:M. injection H as <- <-.
    assert (SO : state_ok s) by (pose proof (mo_states m OK) as F; rewrite Forall_forall in F; apply F; eapply nth_error_In, S).
    assert (OO : set_ok old) by (pose proof (so_sets s SO) as F; rewrite Forall_forall in F; apply F; eapply nth_error_In, O).
    apply merge_lookahead_spec in M; [|exact OO]. destruct M as (NO & IN & CH).
    assert (SL : map st_list (vset (Z.to_nat q) (mkState (st_ids s) (st_list s) (vset (Z.to_nat n) new (st_looks s)) (st_ident s)) (m_states m)) = map st_list (m_states m)).
    { rewrite map_vset. cbn [st_list]. apply vset_same. apply map_nth_error, S. }
    split; [|split; [reflexivity|split; [reflexivity|split; [exact SL|split]]]].
    - split; cbn [m_ids m_states m_trans]; try apply OK.
      + intros l k. rewrite (mo_ids m OK). split; intros (P & t & X & E); (split; [exact P|]).
        * rewrite nth_vset, S. destruct (Nat.eqb_spec (Z.to_nat k) (Z.to_nat q)) as [EQ|N]; [|eauto]. eexists. split; [reflexivity|]. cbn. rewrite EQ, S in X. injection X as ->. exact E.
        * rewrite nth_vset, S in X. destruct (Nat.eqb_spec (Z.to_nat k) (Z.to_nat q)) as [EQ|N]; [|eauto]. injection X as <-. cbn in E. exists s. rewrite EQ. auto.
      + apply Forall_forall. intros t X. apply In_nth_error in X. destruct X as [k X]. rewrite nth_vset, S in X. pose proof (mo_states m OK) as F. rewrite Forall_forall in F. destruct (Nat.eqb k (Z.to_nat q)); [|apply F; eapply nth_error_In, X].
        injection X as <-. destruct SO as [S1 S2 S3 S4]. split; cbn; try assumption; [rewrite vset_length; exact S3|]. apply Forall_forall. intros l L. apply In_nth_error in L. destruct L as [j L]. rewrite nth_vset, O in L. rewrite Forall_forall in S4.
        destruct (Nat.eqb j (Z.to_nat n)); [injection L as <-; exact NO|apply S4; eapply nth_error_In, L].
      + intros k t X. rewrite nth_vset, S in X. destruct (Nat.eqb_spec k (Z.to_nat q)) as [EK|N]; [injection X as <-; cbn; subst k|]; apply (mo_ident m OK); assumption.
      + rewrite vset_length. apply OK.
      + intros k ts i t X I. rewrite vset_length. eapply (mo_targets m OK); eassumption.
    - intros q' n' x. unfold lookahead_of at 1. cbn [m_states]. rewrite nth_vset, S. destruct (Nat.eqb_spec q' (Z.to_nat q)) as [->|NQ].
      + cbn [st_looks]. destruct (Nat.eqb_spec n' (Z.to_nat n)) as [->|NN].
        * assert (X1 : nth (Z.to_nat n) (vset (Z.to_nat n) new (st_looks s)) [] = new) by (apply nth_error_nth; rewrite nth_vset, Nat.eqb_refl, O; reflexivity). assert (X2 : nth (Z.to_nat n) (st_looks s) [] = old) by (apply nth_error_nth, O).
          rewrite X1. unfold lookahead_of. rewrite S, X2, IN. rewrite !Z2Nat.id by assumption. tauto.
        * assert (X : nth n' (vset (Z.to_nat n) new (st_looks s)) [] = nth n' (st_looks s) []).
          { destruct (nth_error (st_looks s) n') as [l|] eqn:EP; [|pose proof (proj1 (nth_error_None _ _) EP); rewrite !nth_overflow; rewrite ?vset_length; auto]. transitivity l; [|symmetry; apply nth_error_nth, EP]. apply nth_error_nth. rewrite nth_vset. destruct (Nat.eqb_spec n' (Z.to_nat n)); [contradiction|exact EP]. }
          rewrite X. unfold lookahead_of. rewrite S. split; [auto|]. intros [Y|(_ & Y & _)]; [exact Y|lia].
      + split; [auto|]. intros [Y|(Y & _)]; [exact Y|lia].
    - unfold lookahead_of. assert (X2 : nth (Z.to_nat n) (st_looks s) [] = old) by (apply nth_error_nth, O). rewrite S, X2, CH. split; [intros [X|X]; [discriminate X|exact X]|auto].
  Qed.
End Machine.

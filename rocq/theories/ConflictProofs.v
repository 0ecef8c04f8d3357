(** Proofs about the search for conflicts. *)
From Verif Require Import Base OrdMap GrammarModel GrammarProofs FirstModel FirstProofs LrItemModel LrItemProofs ClosureModel ClosureSpec ClosureProofs ClosureProps MachineModel BuilderModel BuilderSpec BuilderLookProofs ActionModel ActionSpec ActionProofs TableModel RewriteModel RewriteProofs ConflictModel ConflictSpec.
Local Open Scope Z_scope.

Lemma clashes_spec acts x : ssorted action_ltb acts -> clashes (for_item contends x acts) = true <-> clash (fun a => In a acts) x.
Proof.
  intros S. unfold clashes. rewrite andb_true_iff, !Nat.leb_le. set (l := for_item contends x acts).
  assert (ND : NoDup l) by (unfold l, for_item; apply NoDup_filter, sorted_nodup, S).
  assert (LEN : (length l = length (filter gives_way l) + length (filter (fun a => negb (gives_way a)) l))%nat).
  { clear. induction l as [|a l IH]; [reflexivity|]. cbn [filter length]. destruct (gives_way a); cbn [negb length]; lia. }
  assert (D : forall a, In a (filter (fun a => negb (gives_way a)) l) <-> In a acts /\ a_item a = x /\ decisive a).
  { intros a. rewrite filter_In. unfold l. rewrite for_item_in. unfold contends, gives_way, decisive. destruct (a_type a); cbn; intuition congruence. }
  assert (ND2 : NoDup (filter (fun a => negb (gives_way a)) l)) by (apply NoDup_filter, ND).
  set (d := filter (fun a => negb (gives_way a)) l) in *. split.
  - intros [_ H]. assert (2 <= length d)%nat by lia. destruct d as [|a [|b d']] eqn:E; [cbn in H0; lia|cbn in H0; lia|]. destruct (proj1 (D a) (or_introl eq_refl)) as (A1 & A2 & A3). destruct (proj1 (D b) (or_intror (or_introl eq_refl))) as (B1 & B2 & B3).
    exists a, b. inversion ND2 as [|? ? NI _]; subst. split; [exact A1|]. split; [exact B1|]. split; [intros ->; apply NI; left; reflexivity|]. auto.
  - intros (a & b & A & B & N & AX & BX & DA & DB). assert (IA : In a d) by (apply D; auto). assert (IB : In b d) by (apply D; auto).
    assert (2 <= length d)%nat by (destruct d as [|c [|c' d']]; [destruct IA|destruct IA as [->|[]], IB as [->|[]]; contradiction|cbn; lia]). lia.
Qed.

Section Grammar.
  Context (rid : rule -> Z) (RI : injective rid) (first_of : item -> iset) (FO : forall i, set_ok (first_of i)) (rules : Z -> list (list item)) (u : item -> Prop) (UO : ordinary rules first_of u) (busy : nat -> list item -> item -> bool).
  Context (sources : Z -> Z -> item -> list lid).
  Notation mem := (fun s k => lr1_mem rid k s = true).
  Notation look := (fun s k x => In x (look_of rid k s)).
  Notation single k := (fun k0 : lr0 => k0 = k).
  Notation single_look k la := (fun (k0 : lr0) (y : item) => k0 = k /\ In y la).

  (** The closure of an item, without the item *)
  Lemma cached_exact fuel i rest k la c s c' : u i -> after_dot k = i :: rest -> set_ok la -> cache_ok rid first_of rules u (fst c) -> cache_closure rid first_of rules busy fuel [] i k la [] c = Some (s, c') ->
    cache_ok rid first_of rules u (fst c') /\ lr1_ok rid s /\ forall k' x, after_dot k' = [] -> look s k' x <-> closure_look rules first_of (single k) (single_look k la) k' x.
  Proof.
    intros UI A SL CO H. apply (cache_closure_ok rid RI first_of FO rules u UO busy fuel [] i rest) in H; [|exact UI|exact A|exact SL|apply lr1_ok_nil|exact CO]. destruct H as (CO' & OK & (MO & D & P) & DK & PK & W). split; [exact CO'|]. split; [exact OK|].
    assert (SOL : solution first_of rules (closure_item rules (single k)) (closure_look rules first_of (single k) (single_look k la))).
    { split; [intros k' y rest' r X A' E; split; [eapply in_step; eassumption|intros x Hx; eapply look_begins; eassumption]|intros k' x y rest' r X A' E S; eapply look_passed; eassumption]. }
    assert (CI : forall k', closure_item rules (single k) k' -> k' = k \/ mem s k').
    { induction 1 as [k' ->|k' y rest' r X IH A' E]; [auto|]. right. destruct IH as [->|IH]; [apply (DK y rest' r A' E)|]. destruct (D k' IH) as [Y|Y]; [discriminate Y|apply (Y y rest' r A' E)]. }
    intros k' x AE. split.
    - apply (proj2 (W _ _ SOL ltac:(apply solution_covers; [exact SOL|apply in_kernel; reflexivity|intros y Hy; apply look_kernel; auto]) ltac:(split; [intros k0 X; discriminate X|intros k0 y []]))).
    - intros X. assert (G : (k' = k /\ In x la) \/ look s k' x).
      { clear AE. induction X as [k' x [-> Hx]|k' y rest' r x X A' E B|k' y rest' r x X IH A' E S].
        - left. auto.
        - right. destruct (CI k' X) as [->|M]; [apply (DK y rest' r A' E), B|]. destruct (D k' M) as [Y|Y]; [discriminate Y|apply (Y y rest' r A' E), B].
        - right. destruct IH as [[-> Hx]|L]; [eapply PK; eassumption|]. destruct (P k' x L) as [[]|Y]. eapply Y; eassumption. }
      destruct G as [[-> _]|G]; [congruence|exact G].
  Qed.

  (** The closure of several items is that of each of them *)
  Lemma closure_split (K : lr0 -> Prop) (L : lr0 -> item -> Prop) : (forall k x, L k x -> K k) -> forall k x, closure_look rules first_of K L k x <-> exists k0, K k0 /\ closure_look rules first_of (single k0) (fun k1 y => k1 = k0 /\ L k0 y) k x.
  Proof.
    intros LK k x. split.
    - induction 1 as [k x X|k y rest r x X A E B|k y rest r x X IH A E S].
      + exists k. split; [eapply LK, X|apply look_kernel; auto].
      + apply (closure_single rules K) in X. destruct X as (k0 & K0 & X). exists k0. split; [exact K0|]. eapply look_begins; eassumption.
      + destruct IH as (k0 & K0 & IH). exists k0. split; [exact K0|]. eapply look_passed; eassumption.
    - intros (k0 & K0 & X). induction X as [k x [-> X]|k y rest r x X A E B|k y rest r x X IH A E S]; [apply look_kernel, X| |eapply look_passed; eassumption].
      eapply look_begins; [|exact A|exact E|exact B]. clear -X K0. induction X as [k ->|k y rest r X IH A E]; [apply in_kernel, K0|eapply in_step; eassumption].
  Qed.

  Notation keys r k := (exists ids, In (k, ids) r).
  Lemma add_reduce_keys k ids r : msorted (lr0_ltb rid) r -> msorted (lr0_ltb rid) (add_reduce rid k ids r) /\ forall k', keys (add_reduce rid k ids r) k' <-> k' = k \/ keys r k'.
  Proof.
    intros S. unfold add_reduce. set (v := fold_left _ _ _). split; [apply (mset_sorted _ (lr0_strict rid RI)), S|]. intros k'. split.
    - intros (v' & X). apply (mset_in _ (lr0_strict rid RI)) in X; [|exact S]. destruct X as [X|[X _]]; [injection X as -> ->; auto|eauto].
    - intros [->|(v' & X)]; [exists v; apply (mset_in _ (lr0_strict rid RI)); auto|]. destruct (lr0_dec rid RI k' k) as [->|N]; [exists v; apply (mset_in _ (lr0_strict rid RI)); auto|]. exists v'. apply (mset_in _ (lr0_strict rid RI)); [exact S|]. right. auto.
  Qed.
  Lemma at_end_dot k : at_end k = true <-> after_dot k = [].
  Proof. unfold at_end, after_dot. rewrite Nat.leb_le. split; [apply skipn_all2|]. intros E. pose proof (skipn_length (l_offset k) (r_items (l_rule k))) as X. rewrite E in X. cbn in X. lia. Qed.
  Lemma closure_reduces_keys x id items : (forall k la, In (k, la) items -> set_ok la) -> forall r, msorted (lr0_ltb rid) r -> msorted (lr0_ltb rid) (closure_reduces rid x id items r) /\
    forall k', keys (closure_reduces rid x id items r) k' <-> keys r k' \/ exists la, In (k', la) items /\ after_dot k' = [] /\ In x la.
  Proof.
    unfold closure_reduces. induction items as [|[k la] items IH]; intros SI r S; cbn [fold_left].
    - split; [exact S|]. intros k'. split; [auto|]. intros [X|(la & [] & _)]. exact X.
    - assert (SI' : forall k la, In (k, la) items -> set_ok la) by (intros; eapply SI; right; eassumption). destruct (at_end k && icontains la x) eqn:E.
      + apply andb_true_iff in E. destruct E as [E1 E2]. apply at_end_dot in E1. apply icontains_in in E2; [|eapply SI; left; reflexivity]. destruct (add_reduce_keys k [id] r S) as [S1 K1]. destruct (IH SI' _ S1) as [S2 K2]. split; [exact S2|]. intros k'. rewrite K2, K1. split.
        * intros [[->|X]|(la' & X & Y)]; [right; exists la; split; [left; reflexivity|auto]|auto|right; exists la'; split; [right; exact X|exact Y]].
        * intros [X|(la' & [X|X] & Y)]; [auto|injection X as -> ->; auto|right; eauto].
      + destruct (IH SI' _ S) as [S2 K2]. split; [exact S2|]. intros k'. rewrite K2. split; [intros [X|(la' & X & Y)]; [auto|right; exists la'; split; [right; exact X|exact Y]]|]. intros [X|(la' & [X|X] & Y1 & Y2)]; [auto| |right; eauto].
        injection X as -> ->. apply at_end_dot in Y1. apply icontains_in in Y2; [|eapply SI; left; reflexivity]. rewrite Y1, Y2 in E. discriminate E.
  Qed.
  Lemma state_reduces_keys fuel q x kernel : kernel_of u kernel -> forall n r c r' c', msorted (lr0_ltb rid) r -> cache_ok rid first_of rules u (fst c) -> state_reduces rid first_of rules busy sources fuel q x n kernel r c = Some (r', c') ->
    cache_ok rid first_of rules u (fst c') /\ msorted (lr0_ltb rid) r' /\ forall k', keys r' k' <-> keys r k' \/ exists k la, In (k, la) kernel /\ after_dot k' = [] /\ closure_look rules first_of (single k) (single_look k la) k' x.
  Proof.
    induction kernel as [|[k la] kernel IH]; intros KO n r c r' c' S CO H; cbn [state_reduces] in H.
    - injection H as <- <-. split; [exact CO|]. split; [exact S|]. intros k'. split; [auto|]. intros [X|(k & la & [] & _)]. exact X.
    - destruct (KO k la (or_introl eq_refl)) as [SL KU]. assert (KO' : kernel_of u kernel) by (intros k1 la1 X; apply KO; right; exact X). destruct (after_dot k) as [|i rest] eqn:A.
      + assert (S1 : msorted (lr0_ltb rid) (if icontains la x then add_reduce rid k (sources q n x) r else r) /\ forall k', keys (if icontains la x then add_reduce rid k (sources q n x) r else r) k' <-> (k' = k /\ In x la) \/ keys r k').
        { destruct (icontains la x) eqn:E.
          - apply icontains_in in E; [|exact SL]. destruct (add_reduce_keys k (sources q n x) r S) as [S1 K1]. split; [exact S1|]. intros k'. rewrite K1. tauto.
          - split; [exact S|]. intros k'. split; [auto|]. intros [[_ X]|X]; [apply icontains_in in X; [congruence|exact SL]|exact X]. }
        destruct S1 as [S1 K1]. apply IH in H; [|exact KO'|exact S1|exact CO]. destruct H as (CO' & S2 & K2). split; [exact CO'|]. split; [exact S2|]. intros k'. rewrite K2, K1. split.
        * intros [[[-> X]|X]|(k1 & la1 & X & Y)]; [|auto|right; exists k1, la1; split; [right; exact X|exact Y]]. right. exists k, la. split; [left; reflexivity|]. split; [exact A|]. apply look_kernel. auto.
        * intros [X|(k1 & la1 & [X|X] & AE & Y)]; [auto| |right; exists k1, la1; auto]. injection X as <- <-. left. left.
          assert (G : k' = k). { eapply (closure_at_end rules); [exact A|]. clear -Y. induction Y as [k' x [-> _]|k' y rest r x X A E B|k' y rest r x X IH A E S]; [apply in_kernel; reflexivity|eapply in_step; eassumption|eapply in_step; eassumption]. }
          subst k'. split; [reflexivity|]. clear -Y A. inversion Y as [k0 x0 [_ X]|k0 y rest r x0 X A0 E B|k0 y rest r x0 X A0 E S]; subst; [exact X| |].
          -- exfalso. assert (k0 = mkLr0 (mkRule y r) 0) by (eapply (closure_at_end rules); [exact A|exact X]). subst k0. congruence.
          -- exfalso. assert (Z : closure_item rules (fun k1 => k1 = mkLr0 (mkRule y r) 0) k0). { clear -X. induction X as [k' x [-> _]|k' y' rest r' x X A E B|k' y' rest r' x X IH A E S]; [apply in_kernel; reflexivity|eapply in_step; eassumption|eapply in_step; eassumption]. }
             assert (k0 = mkLr0 (mkRule y r) 0) by (eapply (closure_at_end rules); [exact A|exact Z]). subst k0. congruence.
      + destruct (cache_closure rid first_of rules busy fuel [] i k la [] c) as [[items c1]|] eqn:CC; [|discriminate H]. apply (cached_exact fuel i rest) in CC; [|apply KU; left; reflexivity|exact A|exact SL|exact CO]. destruct CC as (CO1 & OK & LE).
        destruct (closure_reduces_keys x (q, n) items (fun k1 la1 X => lo_sets _ _ OK _ _ X) r S) as [S1 K1]. apply IH in H; [|exact KO'|exact S1|exact CO1]. destruct H as (CO' & S2 & K2). split; [exact CO'|]. split; [exact S2|]. intros k'. rewrite K2, K1. split.
        * intros [[X|(la1 & X & AE & Y)]|(k1 & la1 & X & Y)]; [auto| |right; exists k1, la1; split; [right; exact X|exact Y]]. right. exists k, la. split; [left; reflexivity|]. split; [exact AE|]. apply LE; [exact AE|]. rewrite (look_of_entry rid RI _ _ _ OK X). exact Y.
        * intros [X|(k1 & la1 & [X|X] & AE & Y)]; [auto| |right; exists k1, la1; auto]. injection X as <- <-. left. right. apply LE in Y; [|exact AE]. apply (look_entry rid RI) in Y; [|exact OK]. destruct Y as (la1 & X & Y). eauto.
  Qed.
  Lemma shift_items_in x cl : forall k, In k (shift_items rid first_of x cl) <-> exists la i rest, In (k, la) cl /\ after_dot k = i :: rest /\ In x (first_of i).
  Proof.
    unfold shift_items. assert (G : forall s, ssorted (lr0_ltb rid) s -> forall k, In k (fold_left (fun s '(k, _) => match after_dot k with i :: _ => if icontains (first_of i) x then sins (lr0_ltb rid) k s else s | [] => s end) cl s) <-> In k s \/ exists la i rest, In (k, la) cl /\ after_dot k = i :: rest /\ In x (first_of i)).
    { induction cl as [|[k0 la0] cl IH]; intros s S k; cbn [fold_left].
      - split; [auto|]. intros [X|(la & i & rest & [] & _)]. exact X.
      - destruct (after_dot k0) as [|i0 rest0] eqn:A.
        + rewrite (IH s S). split; [intros [X|(la & i & rest & X & Y)]; [auto|right; exists la, i, rest; split; [right; exact X|exact Y]]|]. intros [X|(la & i & rest & [X|X] & Y & Z)]; [auto|congruence|right; exists la, i, rest; auto].
        + destruct (icontains (first_of i0) x) eqn:E.
          * apply icontains_in in E; [|apply FO]. rewrite IH by (apply (sins_sorted _ (lr0_strict rid RI)), S). rewrite (sins_in _ (lr0_strict rid RI)). split.
            -- intros [[->|X]|(la & i & rest & X & Y)]; [right; exists la0, i0, rest0; split; [left; reflexivity|auto]|auto|right; exists la, i, rest; split; [right; exact X|exact Y]].
            -- intros [X|(la & i & rest & [X|X] & Y)]; [auto|injection X as -> ->; auto|right; exists la, i, rest; auto].
          * rewrite (IH s S). split; [intros [X|(la & i & rest & X & Y)]; [auto|right; exists la, i, rest; split; [right; exact X|exact Y]]|]. intros [X|(la & i & rest & [X|X] & Y & Z)]; [auto| |right; exists la, i, rest; auto].
            injection X as -> ->. assert (i0 = i) by congruence. subst i0. apply icontains_in in Z; [congruence|apply FO]. }
    intros k. rewrite G by constructor. cbn [In]. tauto.
  Qed.
End Grammar.

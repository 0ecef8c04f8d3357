(** Proofs about the parser stack. *)
From Verif Require Import Base OrdMap RunModel RunProofs StackModel StackSpec.
Local Open Scope Z_scope.

(** * Arrays *)
Section Arrays.
  Context {X : Type}.
  Implicit Types l : list X.
  Lemma cell_iff l i x : cell_at l i = Done x <-> 0 <= i /\ nth_error l (Z.to_nat i) = Some x.
  Proof. unfold cell_at, defined. destruct (Z.ltb_spec i 0); [split; [discriminate|lia]|]. destruct (nth_error l (Z.to_nat i)); split; [intros E; injection E as ->; auto|intros [_ E]; congruence|discriminate|intros [_ E]; discriminate E]. Qed.
  Lemma cell_range l i : (exists x, cell_at l i = Done x) <-> 0 <= i < Z.of_nat (length l).
  Proof.
    split; [intros (x & E); apply cell_iff in E; destruct E as [R E]; assert (Y := proj1 (nth_error_Some l (Z.to_nat i)) ltac:(congruence)); lia|].
    intros R. destruct (nth_error l (Z.to_nat i)) as [x|] eqn:E; [exists x; apply cell_iff; split; [lia|exact E]|]. apply nth_error_None in E. lia.
  Qed.
  Lemma cell_out l i : ~ (0 <= i < Z.of_nat (length l)) -> cell_at l i = Undefined.
  Proof. intros H. unfold cell_at. destruct (Z.ltb_spec i 0); [reflexivity|]. destruct (nth_error l (Z.to_nat i)) eqn:E; [|reflexivity]. exfalso. apply H, cell_range. exists x. apply cell_iff. split; [lia|exact E]. Qed.
  Lemma set_nth_length n x : forall l, length (set_nth n x l) = length l.
  Proof. induction n as [|n IH]; intros [|y l]; cbn; auto. Qed.
  Lemma set_nth_same n x : forall l, (n < length l)%nat -> nth_error (set_nth n x l) n = Some x.
  Proof. induction n as [|n IH]; intros [|y l] H; cbn in *; try lia; [reflexivity|apply IH; lia]. Qed.
  Lemma set_nth_other n m x : n <> m -> forall l, nth_error (set_nth n x l) m = nth_error l m.
  Proof. intros NE. revert m NE. induction n as [|n IH]; intros [|m] NE [|y l]; cbn; try reflexivity; [congruence|apply IH; congruence]. Qed.
  Lemma cell_set_done l i x : 0 <= i < Z.of_nat (length l) -> cell_set l i x = Done (set_nth (Z.to_nat i) x l).
  Proof. intros R. unfold cell_set. destruct (proj2 (cell_range l i) R) as (y & ->). reflexivity. Qed.
  Lemma cell_set_at l i x j : 0 <= i < Z.of_nat (length l) -> cell_at (set_nth (Z.to_nat i) x l) j = if i =? j then Done x else cell_at l j.
  Proof.
    intros R. destruct (Z.eqb_spec i j) as [<-|NE]; [apply cell_iff; split; [lia|apply set_nth_same; lia]|]. unfold cell_at. destruct (Z.ltb_spec j 0); [reflexivity|]. rewrite set_nth_other by lia. reflexivity.
  Qed.
  Lemma cell_app l l' i x : cell_at l i = Done x -> cell_at (l ++ l') i = Done x.
  Proof. rewrite !cell_iff. intros [R E]. split; [exact R|]. rewrite nth_error_app1; [exact E|]. apply nth_error_Some. congruence. Qed.
  Lemma cell_app_inv l l' i x : cell_at (l ++ l') i = Done x -> cell_at l i = Done x \/ In x l'.
  Proof.
    rewrite !cell_iff. intros [R E]. destruct (Nat.ltb_spec (Z.to_nat i) (length l)); [left; rewrite nth_error_app1 in E by lia; auto|]. right. rewrite nth_error_app2 in E by lia. eapply nth_error_In, E.
  Qed.
  (** How many there are with some property *)
  Definition count (f : X -> bool) l : nat := length (filter f l).
  Lemma count_set f n x : forall l y, nth_error l n = Some y -> (count f (set_nth n x l) + (if f y then 1 else 0) = count f l + (if f x then 1 else 0))%nat.
  Proof.
    induction n as [|n IH]; intros [|z l] y E; try discriminate E; cbn in E |- *; unfold count in *; cbn [filter].
    - injection E as ->. destruct (f x), (f y); cbn; lia.
    - specialize (IH l y E). destruct (f z); cbn [length]; lia.
  Qed.
  Lemma count_app f l l' : count f (l ++ l') = (count f l + count f l')%nat.
  Proof. unfold count. induction l as [|x l IH]; cbn [app filter]; [reflexivity|]. destruct (f x); cbn; lia. Qed.
  Lemma count_repeat f x n : count f (repeat x n) = if f x then n else O.
  Proof. unfold count. induction n as [|n IH]; cbn; [destruct (f x); reflexivity|]. destruct (f x) eqn:E; cbn; rewrite ?IH; try reflexivity. Qed.
  Lemma count_some f l : (0 < count f l)%nat -> exists i x, cell_at l i = Done x /\ f x = true.
  Proof.
    unfold count. intros H. destruct (filter f l) as [|x k] eqn:E; [cbn in H; lia|]. assert (I : In x (filter f l)) by (rewrite E; left; reflexivity). apply filter_In in I. destruct I as [I F]. apply In_nth_error in I. destruct I as [n N]. exists (Z.of_nat n), x. split; [|exact F]. apply cell_iff. rewrite Nat2Z.id. split; [lia|exact N].
  Qed.
End Arrays.

Section Stack.
  Context (A : Type) (item0 : A) (state0 : Z) (depth : nat) (D2 : (2 <= depth)%nat).
  Notation slot := (slot A).
  Notation world := (world A).
  Notation new_slot := (new_slot A item0 state0).
  Definition is_empty (c : slot) : bool := c_prev c =? empty.

  (** What can be come to from the entry [i] *)
  Inductive leads_to (cells : list slot) (i : Z) : Z -> Prop :=
  | lead_here : leads_to cells i i
  | lead_prev j c : leads_to cells i j -> cell_at cells j = Done c -> 0 <= c_prev c -> leads_to cells i (c_prev c).
  (** Where the array can be used safely *)
  Definition safe (cells : list slot) (g : Z -> Prop) : Prop := forall j, g j -> exists c, cell_at cells j = Done c /\ c_prev c <> empty /\ (0 <= c_prev c -> g (c_prev c)).

  (** * Marking *)
  Definition marked (marks : list bool) (i : Z) : Prop := cell_at marks i = Done true.
  Definition clear (marks : list bool) : nat := count negb marks.
  Lemma mark_ok cells (g : Z -> Prop) : safe cells g -> forall fuel waiting marks, length marks = length cells -> (forall i, In i waiting -> g i) ->
    (2 * (length waiting + 2 * clear marks) + match waiting with i :: _ => if match cell_at marks i with Done b => b | _ => false end then 1 else 0 | [] => 0 end <= fuel)%nat ->
    (forall i c, marked marks i -> cell_at cells i = Done c -> 0 <= c_prev c -> marked marks (c_prev c) \/ In (c_prev c) waiting) ->
    exists marks', mark A fuel cells waiting marks = Done marks' /\ length marks' = length cells /\ (forall i, marked marks i \/ In i waiting -> marked marks' i) /\
      (forall i, marked marks' i -> marked marks i \/ g i) /\ (forall i c, marked marks' i -> cell_at cells i = Done c -> 0 <= c_prev c -> marked marks' (c_prev c)).
  Proof.
    intros SF. induction fuel as [|fuel IH]; intros waiting marks LN W F CL.
    { destruct waiting as [|i w]; cbn [length] in F; [|lia]. exists marks. cbn. repeat split; auto; [intros i [H|[]]; exact H|]. intros i c M C P. destruct (CL i c M C P) as [H|[]]. exact H. }
    destruct waiting as [|next waiting]; [exists marks; cbn; repeat split; auto; [intros i [H|[]]; exact H|]; intros i c M C P; destruct (CL i c M C P) as [H|[]]; exact H|].
    destruct (SF next (W next (or_introl eq_refl))) as (c & C & NE & PG). assert (R : 0 <= next < Z.of_nat (length marks)) by (rewrite LN; apply cell_range; exists c; exact C). cbn [mark]. rewrite cell_set_done by exact R. cbn [bind]. rewrite C. cbn [bind].
    set (marks1 := set_nth (Z.to_nat next) true marks). assert (L1 : length marks1 = length cells) by (unfold marks1; rewrite set_nth_length; exact LN).
    assert (M1 : forall i, marked marks1 i <-> i = next \/ marked marks i). { intros i. unfold marked, marks1. rewrite cell_set_at by exact R. destruct (Z.eqb_spec next i); [subst; tauto|]. split; [auto|intros [->|H]; [congruence|exact H]]. }
    destruct (proj2 (cell_range marks next) R) as (old & OLD). assert (CC : (clear marks1 + (if old then 0 else 1) = clear marks)%nat). { unfold clear, marks1. apply cell_iff in OLD. pose proof (count_set negb (Z.to_nat next) true marks old (proj2 OLD)) as X. cbn [negb] in X. destruct old; cbn in *; lia. }
    assert (STEP : forall more, (if 0 <=? c_prev c then do b <- cell_at marks1 (c_prev c) ;; Done (negb b) else Done false) = Done more ->
      (more = true -> 0 <= c_prev c /\ cell_at marks1 (c_prev c) = Done false) /\ (more = false -> 0 <= c_prev c -> marked marks1 (c_prev c))).
    { intros more E. destruct (Z.leb_spec 0 (c_prev c)); [|injection E as <-; split; [discriminate|lia]]. destruct (cell_at marks1 (c_prev c)) as [b| |] eqn:B; [|discriminate E|discriminate E]. injection E as <-. destruct b; cbn; split; intros; try discriminate; auto. }
    assert (DEF : exists more, (if 0 <=? c_prev c then do b <- cell_at marks1 (c_prev c) ;; Done (negb b) else Done false) = Done more).
    { destruct (Z.leb_spec 0 (c_prev c)) as [P|P]; [|exists false; reflexivity]. destruct (SF _ (PG P)) as (c2 & C2 & _). destruct (proj2 (cell_range marks1 (c_prev c))) as (b & ->); [rewrite L1; apply cell_range; exists c2; exact C2|]. exists (negb b). reflexivity. }
    destruct DEF as (more & E). rewrite E. cbn [bind]. destruct (STEP more E) as [MT MF]. clear STEP.
    destruct (IH (if more then c_prev c :: waiting else waiting) marks1 L1) as (marks' & MK & LN' & W' & G' & CL').
    - intros i I. destruct more; [destruct I as [<-|I]; [apply PG, MT; reflexivity|]|]; apply W; right; exact I.
    - cbn [length] in F. rewrite OLD in F. destruct more.
      + cbn [length]. rewrite (proj2 (MT eq_refl)). destruct old; lia.
      + destruct waiting as [|i waiting]; cbn [length] in *; [destruct old; lia|]. destruct (match cell_at marks1 i with Done b => b | _ => false end); destruct old; lia.
    - intros i d M C' P. apply M1 in M. destruct M as [->|M].
      + rewrite C in C'. injection C' as <-. destruct more; [right; left; reflexivity|left; apply MF; auto].
      + destruct (CL i d M C' P) as [H|[<-|H]]; [left; apply M1; auto|left; apply M1; auto|right]. destruct more; [right|]; exact H.
    - exists marks'. split; [exact MK|]. split; [exact LN'|]. split; [|split; [|exact CL']].
      + intros i [M|[<-|I]]; apply W'; [left; apply M1; auto|left; apply M1; auto|right; destruct more; [right|]; exact I].
      + intros i M. destruct (G' i M) as [H|H]; [|auto]. apply M1 in H. destruct H as [->|H]; [right; apply W; left; reflexivity|auto].
  Qed.

  (** * Sweeping *)
  Lemma sweep_length : forall cells marks, length (sweep A cells marks) = length cells.
  Proof. induction cells as [|c cells IH]; intros [|b marks]; cbn; auto. Qed.
  Lemma sweep_nth : forall n cells marks c b, nth_error cells n = Some c -> nth_error marks n = Some b -> nth_error (sweep A cells marks) n = Some (if b then c else mkSlot empty (c_state c) (c_item c)).
  Proof. induction n as [|n IH]; intros [|c0 cells] [|b0 marks] c b C B; try discriminate C; try discriminate B; cbn in *; [injection C as ->; injection B as ->; reflexivity|apply IH; assumption]. Qed.
  Lemma sweep_at cells marks i c b : cell_at cells i = Done c -> cell_at marks i = Done b -> cell_at (sweep A cells marks) i = Done (if b then c else mkSlot empty (c_state c) (c_item c)).
  Proof. rewrite !cell_iff. intros [R C] [_ B]. split; [exact R|]. apply sweep_nth; assumption. Qed.
  Lemma sweep_count : forall cells marks, length marks = length cells -> (forall i c, marked marks i -> cell_at cells i = Done c -> c_prev c <> empty) -> count is_empty (sweep A cells marks) = clear marks.
  Proof.
    induction cells as [|c cells IH]; intros [|b marks] LN NE; try discriminate LN; [reflexivity|]. cbn in LN. cbn [sweep]. unfold clear, count in *. cbn [filter].
    assert (IH' : length (filter is_empty (sweep A cells marks)) = length (filter negb marks)). { apply IH; [lia|]. intros i d M C. apply (NE (i + 1) d); [unfold marked in *; rewrite cell_iff in *|rewrite cell_iff in *]; [destruct M as [R M]|destruct C as [R C]]; (split; [lia|]); replace (Z.to_nat (i + 1)) with (S (Z.to_nat i)) by lia; assumption. }
    destruct b; cbn [negb].
    - assert (E : is_empty c = false). { unfold is_empty. apply Z.eqb_neq. apply (NE 0 c); reflexivity. } rewrite E. exact IH'.
    - change (is_empty (mkSlot empty (c_state c) (c_item c))) with true. cbn [length]. rewrite IH'. reflexivity.
  Qed.

  (** * Finding a free entry *)
  Lemma find_free_ok cells k c : cell_at cells k = Done c -> c_prev c = empty -> forall fuel i, 0 <= i < Z.of_nat (length cells) -> (if i <=? k then k - i else k + Z.of_nat (length cells) - i) < Z.of_nat fuel ->
    exists r d, find_free A fuel cells i = Done r /\ cell_at cells r = Done d /\ c_prev d = empty.
  Proof.
    intros C E. assert (KR : 0 <= k < Z.of_nat (length cells)) by (apply cell_range; exists c; exact C). induction fuel as [|fuel IH]; intros i R F; [destruct (Z.leb_spec i k); lia|]. cbn [find_free]. destruct (proj2 (cell_range cells i) R) as (d & DI). rewrite DI. cbn [bind]. destruct (Z.eqb_spec (c_prev d) empty) as [ED|ND]; [exists i, d; auto|].
    assert (i <> k) by (intros ->; rewrite C in DI; injection DI as <-; contradiction). apply IH; unfold next_index.
    - destruct (Z.leb_spec (Z.of_nat (length cells)) (i + 1)); lia.
    - destruct (Z.leb_spec (Z.of_nat (length cells)) (i + 1)) as [H1|H1]; [destruct (Z.leb_spec 0 k)|destruct (Z.leb_spec (i + 1) k)]; destruct (Z.leb_spec i k); lia.
  Qed.
  (** If all entries are in use, it does not end, with any fuel. *)
  Lemma find_free_endless cells : (forall i c, cell_at cells i = Done c -> c_prev c <> empty) -> forall fuel i, 0 <= i < Z.of_nat (length cells) -> find_free A fuel cells i = OutOfFuel.
  Proof.
    intros N. induction fuel as [|fuel IH]; intros i R; [reflexivity|]. cbn [find_free]. destruct (proj2 (cell_range cells i) R) as (d & DI). rewrite DI. cbn [bind]. destruct (Z.eqb_spec (c_prev d) empty) as [ED|_]; [exfalso; exact (N _ _ DI ED)|]. apply IH. unfold next_index. destruct (Z.leb_spec (Z.of_nat (length cells)) (i + 1)); lia.
  Qed.

  (** * A new entry *)
  Definition numbers_ok (w : world) : Prop := w_free w = Z.of_nat (count is_empty (w_cells w)) /\ 0 <= w_first w < Z.of_nat (length (w_cells w)) /\ (depth <= length (w_cells w))%nat.
  Definition same_rest (w w' : world) : Prop := w_handles w' = w_handles w /\ w_root w' = w_root w /\ w_made w' = w_made w /\ w_deleted w' = w_deleted w.
  Definition lives (cells : list slot) (refs : list Z) (j : Z) : Prop := exists i, In i refs /\ leads_to cells i j.
  Lemma lives_safe cells refs : (forall j, lives cells refs j -> exists c, cell_at cells j = Done c /\ c_prev c <> empty) -> safe cells (lives cells refs).
  Proof. intros H j (i & I & LJ). destruct (H j) as (c & C & NE); [exists i; auto|]. exists c. split; [exact C|]. split; [exact NE|]. intros P. exists i. split; [exact I|]. eapply lead_prev; eassumption. Qed.
  (** collect keeps exactly the entries that can be come to from the handles of the list. *)
  Lemma collect_ok w refs : listed A (S (length (w_handles w))) w (w_root w) = Done refs -> (forall j, lives (w_cells w) refs j -> exists c, cell_at (w_cells w) j = Done c /\ c_prev c <> empty) ->
    exists w', collect A w = Done w' /\ same_rest w w' /\ w_first w' = w_first w /\ length (w_cells w') = length (w_cells w) /\ w_free w' = Z.of_nat (count is_empty (w_cells w')) /\
      (forall j c, cell_at (w_cells w) j = Done c -> lives (w_cells w) refs j /\ cell_at (w_cells w') j = Done c \/ ~ lives (w_cells w) refs j /\ cell_at (w_cells w') j = Done (mkSlot empty (c_state c) (c_item c))).
  Proof.
    intros LI LV. pose proof (lives_safe _ _ LV) as SF. set (n := length (w_cells w)). assert (M0 : forall i, ~ marked (repeat false n) i). { intros i M. unfold marked in M. apply cell_iff in M. destruct M as [_ M]. apply nth_error_In, repeat_spec in M. discriminate M. }
    destruct (mark_ok (w_cells w) (lives (w_cells w) refs) SF (2 * length refs + 4 * n + 2) (rev refs) (repeat false n)) as (marks & MK & LN & W & G & CL).
    - rewrite repeat_length. reflexivity.
    - intros i I. exists i. split; [apply in_rev; exact I|constructor].
    - unfold clear. rewrite count_repeat, rev_length. cbn [negb]. destruct (rev refs) as [|i r]; [lia|]. destruct (match cell_at (repeat false n) i with Done b => b | _ => false end); lia.
    - intros i c M. exfalso. exact (M0 i M).
    - assert (MM : forall j, marked marks j <-> lives (w_cells w) refs j).
      { intros j. split; [intros M; destruct (G j M) as [H|H]; [exfalso; exact (M0 j H)|exact H]|]. intros (i & I & LJ). induction LJ as [|j c LJ IH C P]; [apply W; right; apply -> in_rev; exact I|]. exact (CL j c IH C P). }
      unfold collect. rewrite LI. cbn [bind]. fold n. rewrite MK. cbn [bind]. eexists. split; [reflexivity|]. cbn [w_cells w_first w_free]. split; [repeat split|]. split; [reflexivity|]. split; [apply sweep_length|]. split.
      + unfold unmarked. rewrite sweep_count; [reflexivity|exact LN|]. intros i c M C. apply MM in M. destruct (LV i M) as (c' & C' & NE). congruence.
      + intros j c C. assert (R : 0 <= j < Z.of_nat (length marks)) by (rewrite LN; apply cell_range; exists c; exact C). apply cell_range in R. destruct R as (b & B). rewrite (sweep_at _ _ _ _ _ C B). destruct b; [left; split; [apply MM; exact B|reflexivity]|]. right. split; [|reflexivity]. intros LJ. apply MM in LJ. unfold marked in LJ. congruence.
  Qed.
  Lemma get_new_ok w refs : listed A (S (length (w_handles w))) w (w_root w) = Done refs -> (forall j, lives (w_cells w) refs j -> exists c, cell_at (w_cells w) j = Done c /\ c_prev c <> empty) -> numbers_ok w ->
    exists i w' d, get_new A item0 state0 depth w = Done (i, w') /\ same_rest w w' /\ numbers_ok w' /\ cell_at (w_cells w') i = Done d /\ c_prev d = head /\ ~ lives (w_cells w) refs i /\
      (forall j, lives (w_cells w) refs j -> cell_at (w_cells w') j = cell_at (w_cells w) j) /\
      (forall j c, j <> i -> cell_at (w_cells w') j = Done c -> c_prev c <> empty -> cell_at (w_cells w) j = Done c) /\
      (c_state d = state0 /\ c_item d = item0 \/ exists d0, cell_at (w_cells w) i = Done d0 /\ c_state d = c_state d0 /\ c_item d = c_item d0).
  Proof.
    intros LI LV (FR & FI & DL).
    assert (X : exists w1, (if w_free w <=? 0 then do w <- collect A w ;; Done (if w_free w <? Z.of_nat depth / 2 then grow_stack A item0 state0 depth w else w) else Done w) = Done w1 /\ same_rest w w1 /\ numbers_ok w1 /\ 0 < w_free w1 /\
      (forall j, lives (w_cells w) refs j -> cell_at (w_cells w1) j = cell_at (w_cells w) j) /\ (forall j c, cell_at (w_cells w1) j = Done c -> c_prev c <> empty -> cell_at (w_cells w) j = Done c) /\
      (forall j c, cell_at (w_cells w1) j = Done c -> c_state c = state0 /\ c_item c = item0 \/ exists d0, cell_at (w_cells w) j = Done d0 /\ c_state c = c_state d0 /\ c_item c = c_item d0)).
    { destruct (Z.leb_spec (w_free w) 0) as [LE|GT].
      - destruct (collect_ok w refs LI LV) as (w1 & CO & (S1 & S2 & S3 & S4) & F1 & L1 & N1 & K). rewrite CO. cbn [bind].
        assert (OLD : forall j c, cell_at (w_cells w1) j = Done c -> (lives (w_cells w) refs j /\ cell_at (w_cells w) j = Done c) \/ exists d, cell_at (w_cells w) j = Done d /\ c = mkSlot empty (c_state d) (c_item d)).
        { intros j c C. assert (R : exists d, cell_at (w_cells w) j = Done d) by (apply cell_range; rewrite <- L1; apply cell_range; exists c; exact C). destruct R as (d & DJ). destruct (K j d DJ) as [[LJ E]|[LJ E]]; rewrite C in E; injection E as ->; [left; auto|right; exists d; auto]. }
        assert (KL : forall j, lives (w_cells w) refs j -> cell_at (w_cells w1) j = cell_at (w_cells w) j). { intros j LJ. destruct (LV j LJ) as (c & C & _). destruct (K j c C) as [[_ E]|[NJ _]]; [congruence|contradiction]. }
        assert (ON : forall j c, cell_at (w_cells w1) j = Done c -> c_prev c <> empty -> cell_at (w_cells w) j = Done c). { intros j c C NE. destruct (OLD j c C) as [[_ E]|(d & _ & ->)]; [exact E|contradiction NE; reflexivity]. }
        assert (OS : forall j c, cell_at (w_cells w1) j = Done c -> c_state c = state0 /\ c_item c = item0 \/ exists d0, cell_at (w_cells w) j = Done d0 /\ c_state c = c_state d0 /\ c_item c = c_item d0). { intros j c C. right. destruct (OLD j c C) as [[_ E]|(d & E & ->)]; [exists c|exists d]; auto. }
        eexists. split; [reflexivity|]. destruct (Z.ltb_spec (w_free w1) (Z.of_nat depth / 2)) as [SM|BG].
        + unfold grow_stack. set (m := Nat.min (length (w_cells w1)) (8 * depth)). assert (MP : (0 < m)%nat) by (unfold m; lia). unfold same_rest, numbers_ok. cbn [w_cells w_free w_first w_handles w_root w_made w_deleted]. rewrite count_app, count_repeat, app_length, repeat_length. change (is_empty new_slot) with true. cbn iota.
          split; [auto|]. split; [split; [lia|split; lia]|]. split; [lia|]. split; [|split].
          * intros j LJ. destruct (LV j LJ) as (c & C & _). rewrite <- (KL j LJ) in C. rewrite <- (KL j LJ), C. apply cell_app, C.
          * intros j c C NE. apply cell_app_inv in C. destruct C as [C|C]; [apply ON; assumption|]. apply repeat_spec in C. subst c. contradiction NE; reflexivity.
          * intros j c C. apply cell_app_inv in C. destruct C as [C|C]; [apply OS; assumption|]. apply repeat_spec in C. subst c. left. auto.
        + assert (1 <= Z.of_nat depth / 2) by (apply Z.div_le_lower_bound; lia). split; [repeat split; assumption|]. split; [split; [exact N1|split; [rewrite F1, L1; exact FI|rewrite L1; exact DL]]|]. split; [lia|auto].
      - exists w. split; [reflexivity|]. split; [repeat split|]. split; [split; [exact FR|split; assumption]|]. split; [exact GT|]. split; [auto|]. split; [auto|]. intros j c C. right. exists c. auto. }
    destruct X as (w1 & E & (S1 & S2 & S3 & S4) & (FR1 & FI1 & DL1) & POS & KL & ON & OS). unfold get_new. rewrite E. cbn [bind].
    destruct (count_some is_empty (w_cells w1)) as (k & ck & CK & EK); [lia|]. apply Z.eqb_eq in EK. assert (KR : 0 <= k < Z.of_nat (length (w_cells w1))) by (apply cell_range; exists ck; exact CK).
    destruct (find_free_ok (w_cells w1) k ck CK EK (S (length (w_cells w1))) (w_first w1) FI1) as (r & d & FF & CR & ER); [destruct (Z.leb_spec (w_first w1) k); lia|]. rewrite FF. cbn [bind]. rewrite CR. cbn [bind].
    assert (RR : 0 <= r < Z.of_nat (length (w_cells w1))) by (apply cell_range; exists d; exact CR). rewrite cell_set_done by exact RR. cbn [bind]. eexists r, _, _. split; [reflexivity|]. cbn [w_cells w_free w_first w_handles w_root w_made w_deleted].
    assert (CA : forall j, cell_at (set_nth (Z.to_nat r) (mkSlot head (c_state d) (c_item d)) (w_cells w1)) j = if r =? j then Done (mkSlot head (c_state d) (c_item d)) else cell_at (w_cells w1) j) by (intros j; apply cell_set_at; exact RR).
    assert (NR : ~ lives (w_cells w) refs r). { intros LJ. destruct (LV r LJ) as (c & C & NE). rewrite (KL r LJ) in CR. congruence. }
    split; [repeat split; assumption|]. split; [|split; [rewrite CA, Z.eqb_refl; reflexivity|split; [reflexivity|split; [exact NR|split; [|split]]]]].
    - unfold numbers_ok. cbn [w_cells w_free w_first]. rewrite set_nth_length. split; [|split].
      + apply cell_iff in CR. pose proof (count_set is_empty (Z.to_nat r) (mkSlot head (c_state d) (c_item d)) (w_cells w1) d (proj2 CR)) as X. assert (ED : is_empty d = true) by (apply Z.eqb_eq, ER). rewrite ED in X. change (is_empty (mkSlot head (c_state d) (c_item d))) with false in X. cbn iota in X. lia.
      + unfold next_index. destruct (Z.leb_spec (Z.of_nat (length (w_cells w1))) (r + 1)); lia.
      + exact DL1.
    - intros j LJ. rewrite CA. destruct (Z.eqb_spec r j) as [<-|]; [contradiction|apply KL; exact LJ].
    - intros j c NE C NP. rewrite CA in C. destruct (Z.eqb_spec r j) as [<-|]; [contradiction NE; reflexivity|apply ON; assumption].
    - cbn [c_state c_item]. apply OS. exact CR.
  Qed.

  (** * Chains *)
  Inductive chain (name : Z -> nat) (cells : list slot) : Z -> entries A -> Prop :=
  | chain_last i c : cell_at cells i = Done c -> c_prev c = head -> chain name cells i [(name i, (c_state c, c_item c))]
  | chain_more i c l : cell_at cells i = Done c -> 0 <= c_prev c -> chain name cells (c_prev c) l -> chain name cells i ((name i, (c_state c, c_item c)) :: l).
  Lemma chain_cell name cells i l : chain name cells i l -> exists c, cell_at cells i = Done c /\ c_prev c <> empty.
  Proof. intros H. inversion H as [? c C E|? c ? C E]; subst; exists c; (split; [exact C|]); [rewrite E; discriminate|unfold empty; lia]. Qed.
  Lemma leads_more cells i c j : cell_at cells i = Done c -> 0 <= c_prev c -> leads_to cells (c_prev c) j -> leads_to cells i j.
  Proof. intros C P H. induction H as [|j d H IH D P']; [apply (lead_prev _ _ i); [constructor|assumption|assumption]|]. apply (lead_prev _ _ j); assumption. Qed.
  Lemma leads_chain name cells i j : leads_to cells i j -> forall l, chain name cells i l -> exists l', chain name cells j l'.
  Proof.
    intros H. induction H as [|j c H IH C P]; intros l CH; [exists l; exact CH|]. destruct (IH l CH) as (l' & CJ). inversion CJ as [? d D E|? d k D E CK]; subst; rewrite C in D; injection D as <-; [rewrite E in P; unfold head in P; lia|]. exists k. exact CK.
  Qed.
  Lemma chain_agree name name' cells cells' i l : chain name cells i l -> (forall j, leads_to cells i j -> cell_at cells' j = cell_at cells j /\ name' j = name j) -> chain name' cells' i l.
  Proof.
    intros H. induction H as [i c C E|i c l C P H IH]; intros AG; destruct (AG i) as [EC EN]; try constructor; rewrite <- EN.
    - apply chain_last; [congruence|exact E].
    - apply chain_more; [congruence|exact P|]. apply IH. intros j LJ. apply AG. eapply leads_more; eassumption.
  Qed.
  Lemma leads_agree cells cells' i j : leads_to cells' i j -> (forall j, leads_to cells i j -> exists c c', cell_at cells j = Done c /\ cell_at cells' j = Done c' /\ c_prev c' = c_prev c) -> leads_to cells i j.
  Proof. intros H AG. induction H as [|j c' H IH C P]; [constructor|]. destruct (AG j IH) as (c & c2 & C1 & C2 & E). rewrite C in C2. injection C2 as <-. rewrite E in P |- *. eapply lead_prev; eassumption. Qed.

  (** * The list of handles *)
  Fixpoint links (r : option nat) (l : list (nat * option nat)) : Prop := match l with [] => r = None | (h, n) :: l => r = Some h /\ links n l end.
  Definition shape (handles : list (nat * handle)) : list (nat * option nat) := map (fun p => (fst p, h_next (snd p))) handles.
  Lemma listed_ok w : msorted Nat.ltb (w_handles w) -> forall l r fuel, (forall p, In p l -> In p (w_handles w)) -> links r (shape l) -> (length l <= fuel)%nat -> listed A fuel w r = Done (map (fun p => h_index (snd p)) l).
  Proof.
    intros SO. induction l as [|[h x] l IH]; intros r fuel IN LK F; cbn in LK; [subst r; destruct fuel; reflexivity|]. destruct LK as [-> LK]. cbn [length] in F. destruct fuel as [|fuel]; [lia|]. cbn [listed]. unfold handle_at. rewrite (proj2 (mfind_in Nat.ltb natltb_strict (w_handles w) SO h x)) by (apply IN; left; reflexivity). cbn [defined bind]. rewrite (IH (h_next x) fuel); [reflexivity|intros p I; apply IN; right; exact I|exact LK|lia].
  Qed.
  Lemma shape_mset h x y : forall handles, mfind Nat.ltb h handles = Some y -> h_next x = h_next y -> shape (mset Nat.ltb h x handles) = shape handles.
  Proof.
    induction handles as [|[k z] l IH]; intros E N; [discriminate E|]. cbn [mfind] in E. cbn [mset]. destruct (Nat.ltb k h); [cbn; f_equal; apply IH; assumption|]. destruct (Nat.ltb h k); [discriminate E|]. injection E as ->. cbn. rewrite N. reflexivity.
  Qed.

  (** * What represents what *)
  Definition held (w : world) (j : Z) : Prop := exists h x, mfind Nat.ltb h (w_handles w) = Some x /\ leads_to (w_cells w) (h_index x) j.
  Record rep (name : Z -> nat) (a : astate A) (w : world) : Prop := {
    rep_made : w_made w = a_made a;
    rep_sorted : msorted Nat.ltb (w_handles w);
    rep_keys : forall h x, mfind Nat.ltb h (w_handles w) = Some x -> (h < w_made w)%nat;
    rep_stack : forall h, match a_stacks a h, mfind Nat.ltb h (w_handles w) with Some l, Some x => chain name (w_cells w) (h_index x) l /\ h_last x = None | None, None => True | _, _ => False end;
    rep_links : links (w_root w) (rev (shape (w_handles w)));
    rep_numbers : numbers_ok w;
    rep_names : forall j, held w j -> (name j < a_names a)%nat;
    rep_injective : forall j k, held w j -> held w k -> name j = name k -> j = k;
    rep_deleted : w_deleted w = match w_handles w with [] => true | _ => false end }.
  Lemma rep_live name a w h : rep name a w -> live A a h -> exists l x, a_stacks a h = Some l /\ mfind Nat.ltb h (w_handles w) = Some x /\ chain name (w_cells w) (h_index x) l /\ h_last x = None.
  Proof. intros R L. pose proof (rep_stack _ _ _ R h) as X. unfold live in L. destruct (a_stacks a h) as [l|]; [|contradiction L; reflexivity]. destruct (mfind Nat.ltb h (w_handles w)) as [x|]; [|contradiction]. exists l, x. tauto. Qed.
  Lemma rep_found name a w h x : rep name a w -> mfind Nat.ltb h (w_handles w) = Some x -> exists l, a_stacks a h = Some l /\ chain name (w_cells w) (h_index x) l.
  Proof. intros R F. pose proof (rep_stack _ _ _ R h) as X. rewrite F in X. destruct (a_stacks a h) as [l|]; [|contradiction]. exists l. tauto. Qed.
  Lemma rep_there name a w h : rep name a w -> live A a h -> stack_of A w = Done w.
  Proof. intros R L. destruct (rep_live _ _ _ _ R L) as (l & x & _ & F & _). unfold stack_of. rewrite (rep_deleted _ _ _ R). destruct (w_handles w); [discriminate F|reflexivity]. Qed.
  Lemma rep_held name a w j : rep name a w -> held w j -> exists l, chain name (w_cells w) j l.
  Proof. intros R (h & x & F & L). destruct (rep_found _ _ _ _ _ R F) as (l & _ & CH). eapply leads_chain; eassumption. Qed.
  Lemma rep_listed name a w : rep name a w -> exists refs, listed A (S (length (w_handles w))) w (w_root w) = Done refs /\ (forall j, lives (w_cells w) refs j <-> held w j) /\ forall j, lives (w_cells w) refs j -> exists c, cell_at (w_cells w) j = Done c /\ c_prev c <> empty.
  Proof.
    intros R. exists (map (fun p => h_index (snd p)) (rev (w_handles w))). assert (LH : forall j, lives (w_cells w) (map (fun p => h_index (snd p)) (rev (w_handles w))) j <-> held w j).
    { intros j. unfold lives, held. split.
      - intros (i & I & L). apply in_map_iff in I. destruct I as ([h x] & <- & I). apply in_rev in I. exists h, x. split; [apply mfind_in; [exact natltb_strict|apply (rep_sorted _ _ _ R)|exact I]|exact L].
      - intros (h & x & F & L). exists (h_index x). split; [|exact L]. apply mfind_in in F; [|exact natltb_strict|apply (rep_sorted _ _ _ R)]. apply in_map_iff. exists (h, x). split; [reflexivity|]. apply -> in_rev. exact F. }
    split; [|split; [exact LH|]].
    - apply listed_ok; [apply (rep_sorted _ _ _ R)|intros p I; apply in_rev; exact I| |rewrite rev_length; lia]. unfold shape. rewrite map_rev. apply (rep_links _ _ _ R).
    - intros j L. apply LH in L. destruct (rep_held _ _ _ _ R L) as (l & CH). eapply chain_cell, CH.
  Qed.

  (** * Operations *)
  Lemma find_set handles h (x : handle) k : msorted Nat.ltb handles -> mfind Nat.ltb k (mset Nat.ltb h x handles) = if Nat.eqb k h then Some x else mfind Nat.ltb k handles.
  Proof. intros SO. destruct (Nat.eqb_spec k h) as [->|NE]; [apply mfind_mset_same; [exact natltb_strict|exact SO]|apply mfind_mset_other; [exact natltb_strict|exact SO|exact NE]]. Qed.
  Lemma set_same handles h (x : handle) : mfind Nat.ltb h handles = Some x -> mset Nat.ltb h x handles = handles.
  Proof. induction handles as [|[k z] l IH]; intros E; [discriminate E|]. cbn [mfind] in E. cbn [mset]. destruct (Nat.ltb k h); [f_equal; apply IH; exact E|]. destruct (Nat.ltb h k); [discriminate E|]. injection E as ->. reflexivity. Qed.
  Lemma sorted_before pre h (x : handle) : msorted Nat.ltb (pre ++ [(h, x)]) -> forall p, In p pre -> Nat.ltb (fst p) h = true.
  Proof.
    induction pre as [|q pre IH]; intros SO p I; [destruct I|]. cbn [app] in SO. apply msorted_cons in SO. destruct SO as [SO B]. destruct I as [<-|I]; [|apply IH; assumption]. apply (B (h, x)). apply in_or_app. right. left. reflexivity.
  Qed.
  Lemma set_new handles h (x : handle) : msorted Nat.ltb handles -> (forall k y, mfind Nat.ltb k handles = Some y -> (k < h)%nat) -> mset Nat.ltb h x handles = handles ++ [(h, x)].
  Proof.
    intros SO H. rewrite <- (app_nil_r handles) at 1. apply mset_absent; [exact natltb_strict| |intros p []]. intros [k y] I. apply Nat.ltb_lt. apply (H k y). apply mfind_in; [exact natltb_strict|exact SO|exact I].
  Qed.
  Lemma set_some handles h (x : handle) : mset Nat.ltb h x handles <> [].
  Proof. destruct handles as [|[k y] l]; cbn [mset]; [discriminate|]. destruct (Nat.ltb k h); [discriminate|]. destruct (Nat.ltb h k); discriminate. Qed.

  Lemma copy_ok name a w h : rep name a w -> live A a h -> exists w', copy A h w = Done w' /\ rep name (a_op A (Copy h) a) w'.
  Proof.
    intros R L. destruct (rep_live _ _ _ _ R L) as (l & x & EL & F & CH & LA). unfold copy, handle_at. rewrite F. cbn [defined bind]. rewrite (rep_there _ _ _ _ R L). cbn [bind]. eexists. split; [reflexivity|]. pose proof (rep_sorted _ _ _ R) as SO.
    assert (HE : forall j, held (mkWorld (w_cells w) (Some (w_made w)) (w_first w) (w_free w) (mset Nat.ltb (w_made w) (mkHandle (h_index x) None (w_root w)) (w_handles w)) (S (w_made w)) false) j -> held w j).
    { intros j (k & y & FK & LJ). cbn in FK, LJ. rewrite find_set in FK by exact SO. destruct (Nat.eqb k (w_made w)); [injection FK as <-; exists h, x; auto|exists k, y; auto]. }
    constructor; cbn [a_op w_made w_handles w_cells w_root a_made a_names a_stacks w_deleted].
    - f_equal. apply (rep_made _ _ _ R).
    - apply mset_sorted; [exact natltb_strict|exact SO].
    - intros k y FK. rewrite find_set in FK by exact SO. destruct (Nat.eqb_spec k (w_made w)); [lia|]. apply (rep_keys _ _ _ R) in FK. lia.
    - intros k. rewrite find_set by exact SO. unfold put. rewrite <- (rep_made _ _ _ R). destruct (Nat.eqb k (w_made w)); [rewrite EL; auto|apply (rep_stack _ _ _ R)].
    - rewrite (set_new _ _ _ SO (rep_keys _ _ _ R)). unfold shape. rewrite map_app, rev_app_distr. split; [reflexivity|apply (rep_links _ _ _ R)].
    - apply (rep_numbers _ _ _ R).
    - intros j J. apply (rep_names _ _ _ R), HE, J.
    - intros j k J K. apply (rep_injective _ _ _ R); apply HE; assumption.
    - pose proof (set_some (w_handles w) (w_made w) (mkHandle (h_index x) None (w_root w))). destruct (mset _ _ _ _); [contradiction|reflexivity].
  Qed.

  (** One handle gets another index; the entries stay. *)
  Lemma move_ok name a w h x i l made names : rep name a w -> mfind Nat.ltb h (w_handles w) = Some x -> h_last x = None -> chain name (w_cells w) i l -> held w i -> made = a_made a -> names = a_names a ->
    rep name (mkAstate (put A h (Some l) (a_stacks a)) made names) (set_handle A h (mkHandle i (h_last x) (h_next x)) w).
  Proof.
    intros R F LA CH HI -> ->. pose proof (rep_sorted _ _ _ R) as SO.
    assert (HE : forall j, held (set_handle A h (mkHandle i (h_last x) (h_next x)) w) j -> held w j).
    { intros j (k & y & FK & LJ). cbn in FK, LJ. rewrite find_set in FK by exact SO. destruct (Nat.eqb k h); [injection FK as <-|exists k, y; auto]. cbn in LJ. destruct HI as (k' & y & FK & LI). exists k', y. split; [exact FK|]. clear - LI LJ. induction LJ as [|j c LJ IH C P]; [exact LI|]. eapply lead_prev; eassumption. }
    constructor; cbn [a_op w_made w_handles w_cells w_root a_made a_names a_stacks w_deleted set_handle].
    - apply (rep_made _ _ _ R).
    - apply mset_sorted; [exact natltb_strict|exact SO].
    - intros k y FK. rewrite find_set in FK by exact SO. destruct (Nat.eqb_spec k h) as [->|]; [apply (rep_keys _ _ _ R _ _ F)|apply (rep_keys _ _ _ R _ _ FK)].
    - intros k. rewrite find_set by exact SO. unfold put. destruct (Nat.eqb k h); [auto|apply (rep_stack _ _ _ R)].
    - rewrite (shape_mset h _ x); [apply (rep_links _ _ _ R)|exact F|reflexivity].
    - apply (rep_numbers _ _ _ R).
    - intros j J. apply (rep_names _ _ _ R), HE, J.
    - intros j k J K. apply (rep_injective _ _ _ R); apply HE; assumption.
    - rewrite (rep_deleted _ _ _ R). pose proof (set_some (w_handles w) h (mkHandle i (h_last x) (h_next x))). destruct (mset _ _ _ _); [contradiction|]. destruct (w_handles w); [discriminate F|reflexivity].
  Qed.
  Lemma assign_ok name a w h f : rep name a w -> live A a h -> live A a f -> exists w', assign A h f w = Done w' /\ rep name (a_op A (Assign h f) a) w'.
  Proof.
    intros R L L2. destruct (rep_live _ _ _ _ R L) as (l & x & EL & F & CH & LA). destruct (rep_live _ _ _ _ R L2) as (l2 & y & EL2 & F2 & CH2 & LA2). unfold assign, handle_at. rewrite F, F2. cbn [defined bind]. eexists. split; [reflexivity|]. cbn [a_op]. rewrite EL2. apply move_ok; auto. exists f, y. split; [exact F2|constructor].
  Qed.
  Lemma chain_nonempty name cells i l : chain name cells i l -> exists e k, l = e :: k.
  Proof. intros H. inversion H; eauto. Qed.
  Lemma pop_ok name a w h l : rep name a w -> a_stacks a h = Some l -> exists w', pop A h w = Done (Nat.ltb 1 (length l), w') /\ rep name (a_op A (Pop h) a) w'.
  Proof.
    intros R EL. assert (L : live A a h) by (unfold live; congruence). destruct (rep_live _ _ _ _ R L) as (l' & x & EL' & F & CH & LA). rewrite EL in EL'. injection EL' as <-. unfold pop, handle_at. rewrite F. cbn [defined bind]. rewrite (rep_there _ _ _ _ R L). cbn [bind]. cbn [a_op]. rewrite EL. inversion CH as [i c C E|i c k C P CK]; subst; rewrite C; cbn [bind].
    - rewrite E. cbn. exists w. auto.
    - destruct (Z.eqb_spec (c_prev c) (-1)); [lia|]. destruct (chain_nonempty _ _ _ _ CK) as (e & k' & ->). eexists. split; [reflexivity|]. apply move_ok; auto. exists h, x. split; [exact F|]. apply (lead_prev _ _ (h_index x)); [constructor|exact C|exact P].
  Qed.
  Lemma get_chain name cells : forall n i l, chain name cells i l -> exists j c, StackModel.below A n cells i = Done j /\ cell_at cells j = Done c /\ content A n l = Some (c_state c, c_item c).
  Proof.
    induction n as [|n IH]; intros i l CH.
    - inversion CH as [? c C E|? c k C P CK]; subst; exists i, c; auto.
    - cbn [StackModel.below]. inversion CH as [? c C E|? c k C P CK]; subst; rewrite C; cbn [bind].
      + rewrite E. cbn [Z.leb head Z.compare]. destruct (IH _ _ CH) as (j & d & B & CJ & CT). exists j, d. split; [exact B|]. split; [exact CJ|]. rewrite <- CT. unfold content. cbn [length Nat.pred]. rewrite !Nat.min_0_r. reflexivity.
      + rewrite (proj2 (Z.leb_le 0 (c_prev c)) P). destruct (IH _ _ CK) as (j & d & B & CJ & CT). exists j, d. split; [exact B|]. split; [exact CJ|]. rewrite <- CT. destruct (chain_nonempty _ _ _ _ CK) as (e & k' & ->). unfold content. cbn [length Nat.pred Nat.min nth_error]. reflexivity.
  Qed.
  Lemma get_ok name a w h l n : rep name a w -> a_stacks a h = Some l -> exists x, StackModel.get A h n w = Done x /\ content A n l = Some x.
  Proof.
    intros R EL. assert (L : live A a h) by (unfold live; congruence). destruct (rep_live _ _ _ _ R L) as (l' & x & EL' & F & CH & LA). rewrite EL in EL'. injection EL' as <-. unfold StackModel.get, handle_at. rewrite F. cbn [defined bind]. rewrite (rep_there _ _ _ _ R L). cbn [bind]. destruct (get_chain _ _ n _ _ CH) as (j & c & B & CJ & CT). rewrite B. cbn [bind]. rewrite CJ. cbn [bind]. eauto.
  Qed.

  Lemma push_ok name a w h s v : rep name a w -> live A a h -> exists w' name', push A item0 state0 depth h s v w = Done w' /\ rep name' (a_op A (Push h s v) a) w'.
  Proof.
    intros R L. destruct (rep_live _ _ _ _ R L) as (l & x & EL & F & CH & LA). unfold push, handle_at. rewrite F. cbn [defined bind]. rewrite (rep_there _ _ _ _ R L). cbn [bind]. destruct (rep_listed _ _ _ R) as (refs & LI & LH & LV). pose proof (rep_sorted _ _ _ R) as SO.
    destruct (get_new_ok w refs LI LV (rep_numbers _ _ _ R)) as (i & w1 & d & GN & (S1 & S2 & S3 & S4) & N1 & CI & HD & NL & KL & _). rewrite GN. cbn [bind]. assert (RI : 0 <= i < Z.of_nat (length (w_cells w1))) by (apply cell_range; exists d; exact CI). rewrite cell_set_done by exact RI. cbn [bind].
    set (cells := set_nth (Z.to_nat i) (mkSlot (h_index x) s v) (w_cells w1)). assert (CA : forall j, cell_at cells j = if i =? j then Done (mkSlot (h_index x) s v) else cell_at (w_cells w1) j) by (intros j; apply cell_set_at; exact RI).
    set (name' := fun j => if j =? i then a_names a else name j). exists (set_handle A h (mkHandle i (h_last x) (h_next x)) (set_cells A cells w1)), name'. split; [reflexivity|].
    assert (SAME : forall j, held w j -> cell_at cells j = cell_at (w_cells w) j /\ name' j = name j). { intros j J. apply LH in J. unfold name'. rewrite CA. destruct (Z.eqb_spec i j) as [<-|]; [contradiction|]. destruct (Z.eqb_spec j i); [congruence|]. split; [apply KL; exact J|reflexivity]. }
    assert (CHK : forall k y ly, mfind Nat.ltb k (w_handles w) = Some y -> chain name (w_cells w) (h_index y) ly -> chain name' cells (h_index y) ly). { intros k y ly FK CK. apply (chain_agree name name' _ cells _ _ CK). intros j LJ. apply SAME. exists k, y. auto. }
    assert (LDS : forall k y j, mfind Nat.ltb k (w_handles w) = Some y -> leads_to cells (h_index y) j -> leads_to (w_cells w) (h_index y) j).
    { intros k y j FK LJ. apply (leads_agree (w_cells w) cells _ _ LJ). intros j' LJ'. assert (J : held w j') by (exists k, y; auto). destruct (rep_held _ _ _ _ R J) as (lj & CJ). apply chain_cell in CJ. destruct CJ as (c & C & _). exists c, c. destruct (SAME j' J) as [E _]. rewrite E. auto. }
    assert (P0 : 0 <= h_index x). { apply chain_cell in CH. destruct CH as (c & C & _). apply cell_iff in C. tauto. }
    assert (HE : forall j, held (set_handle A h (mkHandle i (h_last x) (h_next x)) (set_cells A cells w1)) j -> j = i \/ held w j).
    { intros j (k & y & FK & LJ). cbn in FK, LJ. rewrite S1 in FK. rewrite find_set in FK by exact SO. destruct (Nat.eqb k h); [|right; exists k, y; split; [exact FK|eapply LDS; eassumption]]. injection FK as <-. cbn in LJ.
      induction LJ as [|j c LJ IH C P]; [auto|]. destruct IH as [->|(k2 & y2 & FK & LK)].
      - right. rewrite CA, Z.eqb_refl in C. injection C as <-. cbn. exists h, x. split; [exact F|constructor].
      - right. exists k2, y2. split; [exact FK|]. assert (J : held w j) by (exists k2, y2; auto). destruct (SAME j J) as [E _]. rewrite C in E. symmetry in E. eapply lead_prev; eassumption. }
    constructor; cbn [a_op w_made w_handles w_cells w_root w_deleted set_handle set_cells]; rewrite ?EL; cbn [a_made a_names a_stacks]; rewrite ?S1, ?S2, ?S3, ?S4.
    - apply (rep_made _ _ _ R).
    - apply mset_sorted; [exact natltb_strict|exact SO].
    - intros k y FK. rewrite find_set in FK by exact SO. destruct (Nat.eqb_spec k h) as [->|]; [apply (rep_keys _ _ _ R _ _ F)|apply (rep_keys _ _ _ R _ _ FK)].
    - intros k. rewrite find_set by exact SO. unfold put. destruct (Nat.eqb k h).
      + cbn [h_index h_last]. split; [|exact LA]. assert (CC : cell_at cells i = Done (mkSlot (h_index x) s v)) by (rewrite CA, Z.eqb_refl; reflexivity). pose proof (chain_more name' cells i _ l CC P0 (CHK _ _ _ F CH)) as X. cbn [c_state c_item] in X. unfold name' at 2 in X. rewrite Z.eqb_refl in X. exact X.
      + pose proof (rep_stack _ _ _ R k) as X. destruct (a_stacks a k) as [lk|]; destruct (mfind Nat.ltb k (w_handles w)) as [y|] eqn:FK; auto. destruct X as [X1 X2]. split; [eapply CHK; eassumption|exact X2].
    - rewrite (shape_mset h _ x); [apply (rep_links _ _ _ R)|exact F|reflexivity].
    - destruct N1 as (N1 & N2 & N3). unfold numbers_ok. cbn [w_cells w_free w_first set_handle set_cells]. unfold cells. rewrite set_nth_length. split; [|auto]. rewrite N1. f_equal. apply cell_iff in CI. pose proof (count_set is_empty (Z.to_nat i) (mkSlot (h_index x) s v) (w_cells w1) d (proj2 CI)) as X.
      assert (E1 : is_empty d = false) by (unfold is_empty; rewrite HD; reflexivity). assert (E2 : is_empty (mkSlot (h_index x) s v) = false) by (unfold is_empty; cbn; apply Z.eqb_neq; unfold empty; lia). rewrite E1, E2 in X. lia.
    - intros j J. unfold name'. destruct (Z.eqb_spec j i); [lia|]. destruct (HE j J) as [->|H]; [congruence|]. apply (rep_names _ _ _ R) in H. lia.
    - intros j k J K. unfold name'. destruct (HE j J) as [->|HJ], (HE k K) as [->|HK]; rewrite ?Z.eqb_refl; [reflexivity| | |].
      + destruct (Z.eqb_spec k i); [congruence|]. apply (rep_names _ _ _ R) in HK. lia.
      + destruct (Z.eqb_spec j i); [congruence|]. apply (rep_names _ _ _ R) in HJ. lia.
      + destruct (Z.eqb_spec j i); [subst; exfalso; apply NL, LH; exact HJ|]. destruct (Z.eqb_spec k i); [subst; exfalso; apply NL, LH; exact HK|]. apply (rep_injective _ _ _ R); assumption.
    - rewrite (rep_deleted _ _ _ R). pose proof (set_some (w_handles w) h (mkHandle i (h_last x) (h_next x))). destruct (mset _ _ _ _); [contradiction|]. destruct (w_handles w); [discriminate F|reflexivity].
  Qed.

  Lemma set_top_ok name a w h s v : rep name a w -> live A a h -> exists w', set_top A h s v w = Done w' /\ rep name (a_op A (SetTop h s v) a) w'.
  Proof.
    intros R L. destruct (rep_live _ _ _ _ R L) as (l & x & EL & F & CH & LA). unfold set_top, handle_at. rewrite F. cbn [defined bind]. rewrite (rep_there _ _ _ _ R L). cbn [bind]. destruct (chain_cell _ _ _ _ CH) as (d & CD & ND). rewrite CD. cbn [bind]. set (i := h_index x) in *.
    assert (RI : 0 <= i < Z.of_nat (length (w_cells w))) by (apply cell_range; exists d; exact CD). rewrite cell_set_done by exact RI. cbn [bind].
    set (cells := set_nth (Z.to_nat i) (mkSlot (c_prev d) s v) (w_cells w)). assert (CA : forall j, cell_at cells j = if i =? j then Done (mkSlot (c_prev d) s v) else cell_at (w_cells w) j) by (intros j; apply cell_set_at; exact RI). eexists. split; [reflexivity|].
    assert (LDS : forall k j, leads_to cells k j -> (exists c, cell_at (w_cells w) k = Done c) -> leads_to (w_cells w) k j).
    { intros k j LJ _. induction LJ as [|j c LJ IH C P]; [constructor|]. rewrite CA in C. destruct (Z.eqb_spec i j) as [<-|]; [injection C as <-; cbn [c_prev] in *|]; eapply lead_prev; eassumption. }
    assert (HE : forall j, held (set_cells A cells w) j -> held w j). { intros j (k & y & FK & LJ). cbn in FK, LJ. exists k, y. split; [exact FK|]. apply LDS; [exact LJ|]. destruct (rep_found _ _ _ _ _ R FK) as (ly & _ & CK). destruct (chain_cell _ _ _ _ CK) as (c & C & _). eauto. }
    assert (HI : held w i) by (exists h, x; split; [exact F|constructor]).
    assert (CHK : forall k lk, chain name (w_cells w) k lk -> (forall j, leads_to (w_cells w) k j -> held w j) -> chain name cells k (rename A (name i) (s, v) lk)).
    { intros k lk CK. induction CK as [k c C E|k c lk C P CK IH]; intros HK; cbn [rename map fst].
      - assert (HKK : held w k) by (apply HK; constructor). destruct (Nat.eqb_spec (name k) (name i)) as [EN|NE].
        + assert (k = i) by (apply (rep_injective _ _ _ R); assumption). subst k. fold i in C. rewrite CD in C. injection C as <-. apply (chain_last name cells i (mkSlot (c_prev d) s v)); [rewrite CA, Z.eqb_refl; reflexivity|exact E].
        + apply chain_last; [|exact E]. rewrite CA. destruct (Z.eqb_spec i k); [congruence|exact C].
      - assert (HKK : held w k) by (apply HK; constructor). assert (REST : chain name cells (c_prev c) (rename A (name i) (s, v) lk)) by (apply IH; intros j LJ; apply HK; eapply leads_more; eassumption). destruct (Nat.eqb_spec (name k) (name i)) as [EN|NE].
        + assert (k = i) by (apply (rep_injective _ _ _ R); assumption). subst k. rewrite CD in C. injection C as <-. apply (chain_more name cells i (mkSlot (c_prev d) s v)); [rewrite CA, Z.eqb_refl; reflexivity|exact P|exact REST].
        + apply chain_more; [|exact P|exact REST]. rewrite CA. destruct (Z.eqb_spec i k); [congruence|exact C]. }
    assert (TOP : exists e k, l = (name i, e) :: k) by (inversion CH; eauto). destruct TOP as (e & k & ->). cbn [a_op]. rewrite EL. constructor; cbn [w_made w_handles w_cells w_root w_deleted set_cells a_made a_names a_stacks].
    - apply (rep_made _ _ _ R).
    - apply (rep_sorted _ _ _ R).
    - apply (rep_keys _ _ _ R).
    - intros k'. pose proof (rep_stack _ _ _ R k') as X. destruct (a_stacks a k') as [lk|]; destruct (mfind Nat.ltb k' (w_handles w)) as [y|] eqn:FK; auto. destruct X as [X1 X2]. split; [|exact X2]. apply CHK; [exact X1|]. intros j LJ. exists k', y. auto.
    - apply (rep_links _ _ _ R).
    - destruct (rep_numbers _ _ _ R) as (N1 & N2 & N3). unfold numbers_ok. cbn [w_cells w_free w_first set_cells]. unfold cells. rewrite set_nth_length. split; [|auto]. rewrite N1. f_equal. apply cell_iff in CD. pose proof (count_set is_empty (Z.to_nat i) (mkSlot (c_prev d) s v) (w_cells w) d (proj2 CD)) as X. change (is_empty (mkSlot (c_prev d) s v)) with (is_empty d) in X. lia.
    - intros j J. apply (rep_names _ _ _ R), HE, J.
    - intros j k' J K. apply (rep_injective _ _ _ R); apply HE; assumption.
    - apply (rep_deleted _ _ _ R).
  Qed.

  Lemma destroy_ok name a w h : rep name a w -> live A a h -> (forall i, live A a i -> (i <= h)%nat) -> exists w', destroy A h w = Done w' /\ rep name (a_op A (Destroy h) a) w'.
  Proof.
    intros R L NW. destruct (rep_live _ _ _ _ R L) as (l & x & EL & F & CH & LA). pose proof (rep_sorted _ _ _ R) as SO. unfold destroy, handle_at. rewrite F. cbn [defined bind]. rewrite (rep_there _ _ _ _ R L). cbn [bind].
    assert (X : exists pre, w_handles w = pre ++ [(h, x)]).
    { destruct (exists_last (l := w_handles w)) as (pre & [k y] & E); [intros E; rewrite E in F; discriminate F|]. exists pre. assert (FK : mfind Nat.ltb k (w_handles w) = Some y) by (apply mfind_in; [exact natltb_strict|exact SO|rewrite E; apply in_or_app; right; left; reflexivity]).
      assert (k = h). { assert (k <= h)%nat by (apply NW; destruct (rep_found _ _ _ _ _ R FK) as (lk & EK & _); unfold live; congruence). apply mfind_in in F; [|exact natltb_strict|exact SO]. rewrite E in F. apply in_app_or in F. destruct F as [F|[F|[]]]; [|congruence]. rewrite E in SO. apply (sorted_before _ _ _ SO) in F. cbn in F. apply Nat.ltb_lt in F. lia. }
      subst k. rewrite F in FK. injection FK as <-. exact E. }
    destruct X as (pre & EP). pose proof (rep_links _ _ _ R) as LK. rewrite EP in LK. unfold shape in LK. rewrite map_app, rev_app_distr in LK. cbn in LK. destruct LK as [RT LK]. rewrite <- map_rev in LK.
    assert (W1 : (match h_next x with None => Done w | Some n => do y <- defined (mfind Nat.ltb n (w_handles w)) ;; Done (set_handle A n (mkHandle (h_index y) (h_last x) (h_next y)) w) end) = Done w).
    { destruct (h_next x) as [n|] eqn:EN; [|reflexivity]. destruct (rev pre) as [|[k y] pre'] eqn:EV; cbn in LK; [discriminate LK|]. destruct LK as [E LK]. injection E as <-.
      assert (FN : mfind Nat.ltb n (w_handles w) = Some y) by (apply mfind_in; [exact natltb_strict|exact SO|]; rewrite EP; apply in_or_app; left; apply in_rev; rewrite EV; left; reflexivity). rewrite FN. cbn [defined bind]. pose proof (rep_stack _ _ _ R n) as X. rewrite FN in X. destruct (a_stacks a n) as [ln|]; [|contradiction]. destruct X as [_ LN]. f_equal. unfold set_handle. destruct y as [yi yl yn]. cbn in *. rewrite LA, <- LN. rewrite set_same by exact FN. destruct w; reflexivity. }
    rewrite W1. cbn [bind]. rewrite LA. cbn [bind]. eexists. split; [reflexivity|]. cbn [set_root w_cells w_root w_first w_free w_handles w_made].
    assert (SP : forall p, In p pre -> Nat.ltb (fst p) h = true) by (intros p I; rewrite EP in SO; apply (sorted_before _ _ _ SO p I)).
    assert (ER : merase Nat.ltb h (w_handles w) = pre). { rewrite EP. rewrite merase_mid; [apply app_nil_r|exact natltb_strict|]. intros p I. apply SP; exact I. }
    assert (SPRE : msorted Nat.ltb pre). { rewrite <- ER. apply merase_sorted; [exact natltb_strict|exact SO]. }
    assert (FP : forall k, mfind Nat.ltb k pre = if Nat.eqb k h then None else mfind Nat.ltb k (w_handles w)).
    { intros k. destruct (Nat.eqb_spec k h) as [->|NE].
      - apply mfind_none; [exact natltb_strict|exact SPRE|]. intros v I. apply SP in I. cbn [fst] in I. rewrite Nat.ltb_irrefl in I. discriminate I.
      - destruct (mfind Nat.ltb k (w_handles w)) as [y|] eqn:FK.
        + apply mfind_in; [exact natltb_strict|exact SPRE|]. apply mfind_in in FK; [|exact natltb_strict|exact SO]. rewrite EP in FK. apply in_app_or in FK. destruct FK as [I|[E|[]]]; [exact I|congruence].
        + apply mfind_none; [exact natltb_strict|exact SPRE|]. intros v I. apply (proj1 (mfind_none Nat.ltb natltb_strict _ SO k) FK v). rewrite EP. apply in_or_app. auto. }
    rewrite ER. assert (HE : forall j, held (mkWorld (w_cells w) (h_next x) (w_first w) (w_free w) pre (w_made w) (match h_next x with None => true | Some _ => false end)) j -> held w j).
    { intros j (k & y & FK & LJ). cbn in FK, LJ. rewrite FP in FK. destruct (Nat.eqb k h); [discriminate FK|]. exists k, y. auto. }
    constructor; cbn [a_op w_made w_handles w_cells w_root w_deleted a_made a_names a_stacks].
    - apply (rep_made _ _ _ R).
    - exact SPRE.
    - intros k y FK. rewrite FP in FK. destruct (Nat.eqb k h); [discriminate FK|]. apply (rep_keys _ _ _ R _ _ FK).
    - intros k. rewrite FP. unfold put. destruct (Nat.eqb k h); [exact Logic.I|apply (rep_stack _ _ _ R)].
    - unfold shape. rewrite <- map_rev. exact LK.
    - apply (rep_numbers _ _ _ R).
    - intros j J. apply (rep_names _ _ _ R), HE, J.
    - intros j k J K. apply (rep_injective _ _ _ R); apply HE; assumption.
    - destruct pre as [|p pre'] using rev_ind; [cbn in LK; rewrite LK; reflexivity|]. rewrite rev_app_distr in LK. cbn in LK. destruct LK as [-> _]. destruct pre'; reflexivity.
  Qed.

  (** * Histories *)
  Lemma create_ok : exists w name, create A item0 state0 depth = Done w /\ rep name (start A item0 state0) w.
  Proof.
    set (w0 := mkWorld (repeat new_slot depth) None 0 (Z.of_nat depth) [] 0 false : world). assert (LI : listed A (S (length (w_handles w0))) w0 (w_root w0) = Done []) by reflexivity. assert (NL : forall j, ~ lives (w_cells w0) [] j) by (intros j (i & [] & _)).
    assert (CE : count is_empty (repeat new_slot depth) = depth) by (rewrite count_repeat; reflexivity).
    destruct (get_new_ok w0 [] LI) as (i & w & d & GN & (S1 & S2 & S3 & S4) & N1 & CI & HD & _ & _ & _ & IN).
    - intros j J. exfalso. exact (NL j J).
    - unfold numbers_ok, w0. cbn [w_cells w_free w_first]. rewrite CE, repeat_length. lia.
    - unfold create. fold w0. rewrite GN. cbn [bind]. eexists _, (fun _ => O). split; [reflexivity|]. rewrite S2. cbn [w0 w_root].
      assert (SD : c_state d = state0 /\ c_item d = item0). { destruct IN as [IN|(d0 & C0 & E1 & E2)]; [exact IN|]. apply cell_iff in C0. destruct C0 as [_ C0]. apply nth_error_In in C0. cbn [w0 w_cells] in C0. apply repeat_spec in C0. subst d0. auto. }
      assert (HE : forall j, held (mkWorld (w_cells w) (Some O) (w_first w) (w_free w) [(O, mkHandle i None None)] 1 false) j -> j = i).
      { intros j (k & y & FK & LJ). cbn in FK, LJ. destruct k; [|discriminate FK]. injection FK as <-. cbn in LJ. induction LJ as [|j c LJ IH C P]; [reflexivity|]. subst j. rewrite CI in C. injection C as <-. rewrite HD in P. unfold head in P. lia. }
      constructor; cbn [start w_made w_handles w_cells w_root w_deleted a_made a_names a_stacks].
      + reflexivity.
      + apply SSorted_cons; constructor.
      + intros k y FK. destruct k; [lia|discriminate FK].
      + intros [|k]; cbn; [|exact Logic.I]. split; [|reflexivity]. destruct SD as [<- <-]. apply (chain_last (fun _ => O)); assumption.
      + split; reflexivity.
      + exact N1.
      + intros j _. lia.
      + intros j k J K _. rewrite (HE j J), (HE k K). reflexivity.
      + reflexivity.
  Qed.
  Lemma op_ok name a w o : rep name a w -> legal A o a -> exists w' name', do_op A item0 state0 depth o w = Done w' /\ rep name' (a_op A o a) w'.
  Proof.
    intros R [U NW]. destruct o; cbn [do_op used_alive] in *.
    - destruct (copy_ok _ _ _ _ R U) as (w' & E & R'). eauto.
    - destruct U as [U1 U2]. destruct (assign_ok _ _ _ _ _ R U1 U2) as (w' & E & R'). eauto.
    - destruct (destroy_ok _ _ _ _ R U (NW h eq_refl)) as (w' & E & R'). eauto.
    - destruct (set_top_ok _ _ _ _ state item R U) as (w' & E & R'). eauto.
    - destruct (push_ok _ _ _ _ state item R U) as (w' & name' & E & R'). eauto.
    - destruct (rep_live _ _ _ _ R U) as (l & x & EL & _). destruct (pop_ok _ _ _ _ _ R EL) as (w' & E & R'). rewrite E. cbn [bind]. eauto.
  Qed.
  Lemma do_ops_app l1 : forall l2 w, do_ops A item0 state0 depth (l1 ++ l2) w = do w <- do_ops A item0 state0 depth l1 w ;; do_ops A item0 state0 depth l2 w.
  Proof. induction l1 as [|o l1 IH]; intros l2 w; cbn [app do_ops bind]; [reflexivity|]. destruct (do_op A item0 state0 depth o w); cbn [bind]; [apply IH|reflexivity|reflexivity]. Qed.
  Notation run := (run A item0 state0 depth).
  Lemma run_app l1 l2 : run (l1 ++ l2) = do w <- run l1 ;; do_ops A item0 state0 depth l2 w.
  Proof. unfold StackModel.run. destruct (create A item0 state0 depth); cbn [bind]; [apply do_ops_app|reflexivity|reflexivity]. Qed.
  Lemma history_ok l a : history A item0 state0 (legal A) l a -> exists w name, run l = Done w /\ rep name a w.
  Proof.
    intros H. induction H as [|l a o H IH LG]; [unfold StackModel.run; destruct create_ok as (w & name & -> & R); cbn; eauto|]. destruct IH as (w & name & E & R). destruct (op_ok _ _ _ _ R LG) as (w' & name' & E' & R'). exists w', name'. split; [|exact R']. rewrite run_app, E. cbn [bind do_ops]. rewrite E'. reflexivity.
  Qed.
End Stack.

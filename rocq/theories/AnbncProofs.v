(** Proofs about the example language a^n b^n c^n. *)
From Verif Require Import Base OrdMap GrammarModel GrammarProofs FollowSpec ClosureSpec TableModel RunModel RunSpec RunTool LrItemProofs TableProps ActionModel AnbncModel.
Local Open Scope Z_scope.

(** The tables, computed *)
Definition made : tables := Eval vm_compute in anbncn_tables.
Lemma made_tables : anbncn_tables = made.
Proof. vm_compute. reflexivity. Qed.

(** ** Runs of the parser *)
Section Runs.
  Context (L : Type) (matched : L -> Z) (renamed : Z -> L -> L) (V : Type) (shift_value : option L -> V) (reduce_value : Z -> Z -> list V -> V).
  Notation T := made.
  Definition guard_symbol : Z := item_number bs_guard.

  (** What may be answered: by the check, and by the parser *)
  Context (P : Z -> Prop) (PG : P guard_symbol) (Q : bool -> Prop) (QT : Q true).

  (** *** The check of the guard *)
  Section Check.
    Context (input : list L) (under : list Z).
    Definition found (fuel offset : nat) (d : list Z) : Prop := forall seen, exists g seen', check_loop T L matched renamed input under fuel offset d seen = Done (g, seen') /\ P g.
    Lemma check_shift fuel offset q d s next es : has_end_of_guard T q = false -> find_symbol T true q s = Done (mkEntry Shift next s :: es) ->
      nth_error (map matched input) offset = Some s -> found fuel (S offset) (next :: q :: d) -> found (S fuel) offset (q :: d).
    Proof.
      intros H F N K seen. rewrite nth_error_map in N. destruct (nth_error input offset) as [l|] eqn:I; [|discriminate N]. injection N as N.
      destruct (K (Nat.max seen (Nat.min (S offset) (length input)))) as (g & seen' & E & PE). exists g, seen'. split; [|exact PE]. rewrite <- E. cbn [check_loop]. rewrite I. cbn [symbol_of_look top bind]. rewrite H. cbn [bind]. rewrite N, F. cbn [bind e_symbol e_type]. rewrite Z.eqb_refl. cbn [negb]. reflexivity.
    Qed.
    Lemma check_reduce fuel offset q d s rule es r q' d' n : has_end_of_guard T q = false -> find_symbol T true q s = Done (mkEntry Reduce rule s :: es) ->
      nth_error (map matched input) offset = Some s -> rule_at T rule = Some r -> Nat.ltb (length (q :: d)) (Z.to_nat (rr_length r)) = false -> skipn (Z.to_nat (rr_length r)) (q :: d) = q' :: d' ->
      find_goto T q' (rr_identifier r) = Done (Some n) -> found fuel offset (n :: q' :: d') -> found (S fuel) offset (q :: d).
    Proof.
      intros H F N R LT SK G K seen. rewrite nth_error_map in N. destruct (nth_error input offset) as [l|] eqn:I; [|discriminate N]. injection N as N.
      destruct (K (Nat.max seen (Nat.min (S offset) (length input)))) as (g & seen' & E & PE). exists g, seen'. split; [|exact PE]. rewrite <- E. cbn [check_loop]. rewrite I. cbn [symbol_of_look top bind]. rewrite H. cbn [bind]. rewrite N, F. cbn [bind e_symbol e_type]. rewrite Z.eqb_refl. cbn [negb perform e_type e_next bind].
      rewrite R. cbn [defined bind guard_actions d_reduce]. unfold guard_reduce. rewrite LT, SK. cbn [top bind]. rewrite G. reflexivity.
    Qed.
    Lemma check_end fuel offset d : found (S fuel) offset (10 :: d).
    Proof.
      intros seen. cbn [check_loop top]. destruct (symbol_of_look T L matched (nth_error input offset)) as [te sy]. cbn [bind].
      change (has_end_of_guard T 10) with true. cbv iota. change (find_symbol T false 10 (t_eog T)) with (Done [mkEntry Accept 4 (t_eog T)]). cbn [bind can_reduce_by e_type].
      change (find_symbol T false 10 (t_eog T)) with (Done [mkEntry Accept 4 (t_eog T)]). cbn [bind e_symbol]. rewrite Z.eqb_refl. cbn [negb e_type bind e_next]. destruct (nth_error input offset); eexists; eexists; (split; [reflexivity|exact PG]).
    Qed.

    (** The stack after a reduction, with [j] symbols a that have no b yet *)
    Definition open_stack (j : nat) : list Z := match j with O => [5; 1] | S j => 9 :: 4 :: repeat 4 j ++ [1] end.
    Context (n : nat) (tail : list Z) (I : map matched input = repeat sym_a n ++ repeat sym_b n ++ sym_c :: tail).
    Lemma at_a k : (k < n)%nat -> nth_error (map matched input) k = Some sym_a.
    Proof. intros H. rewrite I, nth_error_app1 by (rewrite repeat_length; exact H). apply nth_error_repeat, H. Qed.
    Lemma at_b k : (n <= k < 2 * n)%nat -> nth_error (map matched input) k = Some sym_b.
    Proof. intros H. rewrite I, nth_error_app2, repeat_length, nth_error_app1 by (rewrite ?repeat_length; lia). apply nth_error_repeat. lia. Qed.
    Lemma at_c : nth_error (map matched input) (2 * n) = Some sym_c.
    Proof. rewrite I, nth_error_app2, repeat_length, nth_error_app2 by (rewrite ?repeat_length; lia). rewrite repeat_length. replace (2 * n - n - n)%nat with O by lia. reflexivity. Qed.
    Lemma at_bc k : (n <= k <= 2 * n)%nat -> exists s, nth_error (map matched input) k = Some s /\ (s = sym_b \/ s = sym_c).
    Proof. intros H. destruct (Nat.eq_dec k (2 * n)) as [->|NE]; [exists sym_c; split; [apply at_c|auto]|exists sym_b; split; [apply at_b; lia|auto]]. Qed.

    Lemma guard_bs j : forall fuel, (j < n)%nat -> (2 * j + 2 <= fuel)%nat -> found fuel (2 * n - j) (open_stack j).
    Proof.
      induction j as [|j IH]; intros fuel J F.
      - destruct fuel as [|[|fuel]]; [lia|lia|]. rewrite Nat.sub_0_r. eapply (check_shift _ _ 5 [1] sym_c 10); [reflexivity|reflexivity|apply at_c|]. apply check_end.
      - destruct fuel as [|[|fuel]]; [lia|lia|]. cbn [open_stack]. eapply (check_shift _ _ 9 _ sym_b 13); [reflexivity|reflexivity|apply at_b; lia|].
        replace (S (2 * n - S j)) with (2 * n - j)%nat by lia. destruct (at_bc (2 * n - j)) as (s & N & SB); [lia|].
        assert (F13 : exists es, find_symbol T true 13 s = Done (mkEntry Reduce 5 s :: es)) by (destruct SB as [->| ->]; eexists; reflexivity). destruct F13 as (es & F13).
        assert (K : found fuel (2 * n - j) (open_stack j)) by (apply IH; lia).
        destruct j as [|j]; (eapply (check_reduce _ _ 13); [reflexivity|exact F13|exact N|reflexivity|reflexivity|reflexivity|reflexivity|exact K]).
    Qed.
    Lemma guard_as j : forall fuel, (j <= n)%nat -> (0 < n)%nat -> (j + 2 * n + 2 <= fuel)%nat -> found fuel (n - j) (repeat 4 (n - j) ++ [1]).
    Proof.
      induction j as [|j IH]; intros fuel J P0 F.
      - rewrite Nat.sub_0_r. destruct n as [|m] eqn:NM; [lia|]. rewrite <- NM in *. destruct fuel as [|[|fuel]]; [lia|lia|]. rewrite NM. cbn [repeat app]. rewrite <- NM.
        eapply (check_shift _ _ 4 _ sym_b 8); [reflexivity|reflexivity|apply at_b; lia|]. destruct (at_bc (S n)) as (s & N & SB); [lia|].
        assert (F8 : exists es, find_symbol T true 8 s = Done (mkEntry Reduce 3 s :: es)) by (destruct SB as [->| ->]; eexists; reflexivity). destruct F8 as (es & F8).
        assert (K : found fuel (S n) (open_stack m)) by (replace (S n) with (2 * n - m)%nat by lia; apply guard_bs; lia).
        destruct m as [|m]; (eapply (check_reduce _ _ 8); [reflexivity|exact F8|exact N|reflexivity|reflexivity|reflexivity|reflexivity|exact K]).
      - destruct fuel as [|fuel]; [lia|]. assert (K : found fuel (S (n - S j)) (4 :: repeat 4 (n - S j) ++ [1])).
        { replace (S (n - S j)) with (n - j)%nat by lia. replace (4 :: repeat 4 (n - S j) ++ [1]) with (repeat 4 (n - j) ++ [1]) by (replace (n - j)%nat with (S (n - S j)) by lia; reflexivity). apply IH; lia. }
        destruct (n - S j)%nat as [|k] eqn:D; cbn [repeat app] in *.
        + eapply (check_shift _ _ 1 [] sym_a 4); [reflexivity|reflexivity|apply at_a; lia|exact K].
        + eapply (check_shift _ _ 4 _ sym_a 4); [reflexivity|reflexivity|apply at_a; lia|exact K].
    Qed.
    Lemma guard_found fuel : (0 < n)%nat -> (3 * n + 2 <= fuel)%nat -> found fuel 0 [1].
    Proof. intros P0 F. pose proof (guard_as n fuel (le_n n) P0) as K. rewrite Nat.sub_diag in K. apply K. lia. Qed.
  End Check.

  (** *** The parser *)
  Definition succeeds (fuel : nat) (states : list Z) (input : list L) : Prop := forall stack calls seen, map fst stack = states ->
    exists b p, parse T L matched renamed V shift_value reduce_value fuel (mkParser (mkRun stack calls) input seen) = Done (b, p) /\ Q b.
  Lemma run_shift fuel q d s next es l input : find_symbol T true q s = Done (mkEntry Shift next s :: es) -> matched l = s -> succeeds fuel (next :: q :: d) input -> succeeds (S fuel) (q :: d) (l :: input).
  Proof.
    intros F M K stack calls seen E. cbn [parse]. unfold process. cbn [p_input nth_error symbol_of_look p_run s_stack]. rewrite E, M. cbn [top bind]. rewrite F. cbn [bind choose e_symbol]. rewrite Z.eqb_refl. cbn [negb e_type bind perform standard_actions d_shift e_next lexeme_of p_run s_stack s_calls p_input p_seen next_lexeme].
    apply K. cbn [map fst]. rewrite E. reflexivity.
  Qed.
  Lemma pop_states n : forall l : list (Z * V), (n < length l)%nat -> snd (pop_items V n l) = skipn n l.
  Proof.
    induction n as [|n IH]; intros [|[q v] l] H; cbn in H; try lia; try reflexivity. destruct l as [|x l]; [cbn in H; lia|]. cbn [pop_items drop1]. specialize (IH (x :: l)). destruct (pop_items V n (x :: l)) as [vs l'] eqn:E. cbn [snd] in *. apply IH. cbn in *. lia.
  Qed.
  Lemma run_reduce fuel q d te sy rule es r q' d' n input : symbol_of_look T L matched (nth_error input 0) = (te, sy) -> find_symbol T te q sy = Done (mkEntry Reduce rule sy :: es) -> rule_at T rule = Some r ->
    Nat.ltb (Z.to_nat (rr_length r)) (length (q :: d)) = true -> skipn (Z.to_nat (rr_length r)) (q :: d) = q' :: d' -> find_goto T q' (rr_identifier r) = Done (Some n) -> succeeds fuel (n :: q' :: d') input -> succeeds (S fuel) (q :: d) input.
  Proof.
    intros SY F R LT SK G K stack calls seen E. cbn [parse]. unfold process. cbn [p_input p_run s_stack p_seen]. rewrite SY, E. cbn [top bind]. rewrite F. cbn [bind choose e_symbol]. rewrite Z.eqb_refl. cbn [negb e_type bind perform e_next p_run]. rewrite R. cbn [defined bind standard_actions d_reduce]. unfold standard_reduce. cbn [s_stack s_calls].
    apply Nat.ltb_lt in LT. rewrite <- E, map_length in LT. pose proof (pop_states _ stack LT) as PS. destruct (pop_items V (Z.to_nat (rr_length r)) stack) as [vs rest]. cbn [snd] in PS. subst rest.
    assert (M : map fst (skipn (Z.to_nat (rr_length r)) stack) = q' :: d') by (rewrite <- skipn_map, E; exact SK). rewrite M. cbn [top bind]. rewrite G. cbn [bind]. apply K. cbn [map fst]. rewrite M. reflexivity.
  Qed.

  Lemma look_symbol input s w : map matched input = s :: w -> symbol_of_look T L matched (nth_error input 0) = (true, s).
  Proof. destruct input as [|l input]; [discriminate|]. intros H. injection H as H _. cbn. rewrite H. reflexivity. Qed.
  Ltac deep := first [reflexivity|apply Nat.ltb_lt; cbn [rr_length length]; rewrite ?app_length; cbn [length]; lia].
  (** With [j] symbols a that have no c yet *)
  Definition inner_stack (j : nat) : list Z := match j with O => [7; 3; 0] | S j => 11 :: 6 :: repeat 6 j ++ [3; 0] end.
  (** A reduction to a <Matching-Cs>, before the end or before another c *)
  Lemma reduce_cs q d rule id fuel j input : (exists es, find_symbol T true q sym_c = Done (mkEntry Reduce rule sym_c :: es)) -> (exists es, find_symbol T false q (t_eoi T) = Done (mkEntry Reduce rule (t_eoi T) :: es)) ->
    rule_at T rule = Some id -> rr_identifier id = item_number (INonterm 2) -> Nat.ltb (Z.to_nat (rr_length id)) (length (q :: d)) = true -> skipn (Z.to_nat (rr_length id)) (q :: d) = repeat 6 j ++ [3; 0] ->
    map matched input = repeat sym_c j -> succeeds fuel (inner_stack j) input -> succeeds (S fuel) (q :: d) input.
  Proof.
    intros (es1 & F1) (es2 & F2) R ID LT SK M K. destruct j as [|j].
    - destruct input; [|discriminate M]. eapply run_reduce; [reflexivity|exact F2|exact R|exact LT|exact SK|rewrite ID; reflexivity|exact K].
    - eapply run_reduce; [eapply look_symbol; exact M|exact F1|exact R|exact LT|exact SK|rewrite ID; reflexivity|exact K].
  Qed.
  Lemma run_accept fuel d : succeeds (S fuel) (2 :: d) [].
  Proof. intros stack calls seen E. cbn [parse]. unfold process. cbn [p_input nth_error symbol_of_look p_run s_stack]. rewrite E. cbn [top bind]. change (find_symbol T false 2 (t_eoi T)) with (Done [mkEntry Accept 0 (t_eoi T)]). cbn [bind choose e_symbol]. rewrite Z.eqb_refl. cbn [negb e_type bind]. eexists. eexists. split; [reflexivity|exact QT]. Qed.
  Lemma run_cs j : forall fuel input, (2 * j + 2 <= fuel)%nat -> map matched input = repeat sym_c j -> succeeds fuel (inner_stack j) input.
  Proof.
    induction j as [|j IH]; intros fuel input F M.
    - destruct input; [|discriminate M]. destruct fuel as [|[|fuel]]; [lia|lia|]. eapply (run_reduce _ 7); [reflexivity|reflexivity|reflexivity|reflexivity|reflexivity|reflexivity|apply run_accept].
    - destruct input as [|l input]; [discriminate M|]. injection M as M1 M2. destruct fuel as [|[|fuel]]; [lia|lia|]. cbn [inner_stack].
      eapply (run_shift _ 11 _ sym_c 14); [reflexivity|exact M1|]. eapply (reduce_cs 14 _ 6); [eexists; reflexivity|eexists; reflexivity|reflexivity|reflexivity|deep|reflexivity|exact M2|]. apply IH; [lia|exact M2].
  Qed.
  Lemma run_bs m k : forall fuel input, (2 * k + 2 * m + 4 <= fuel)%nat -> map matched input = repeat sym_b k ++ repeat sym_c (S m) -> succeeds fuel (12 :: 6 :: repeat 6 m ++ [3; 0]) input.
  Proof.
    induction k as [|k IH]; intros fuel input F M; (destruct input as [|l input]; [discriminate M|]); injection M as M1 M2; (destruct fuel as [|[|fuel]]; [lia|lia|]).
    - eapply (run_shift _ 12 _ sym_c 16); [reflexivity|exact M1|]. eapply (reduce_cs 16 _ 8); [eexists; reflexivity|eexists; reflexivity|reflexivity|reflexivity|deep|reflexivity|exact M2|]. apply run_cs; [lia|exact M2].
    - eapply (run_shift _ 12 _ sym_b 15); [reflexivity|exact M1|]. assert (K := IH fuel input ltac:(lia) M2).
      destruct k as [|k]; (eapply (run_reduce _ 15); [eapply look_symbol; exact M2|reflexivity|reflexivity|deep|reflexivity|reflexivity|exact K]).
  Qed.
  Lemma run_as k j : forall i fuel input, (0 < i + j)%nat -> (j + 2 * k + 2 * (i + j) + 3 <= fuel)%nat -> map matched input = repeat sym_a j ++ repeat sym_b k ++ repeat sym_c (i + j) -> succeeds fuel (repeat 6 i ++ [3; 0]) input.
  Proof.
    induction j as [|j IH]; intros i fuel input P0 F M.
    - rewrite Nat.add_0_r in *. destruct i as [|i]; [lia|]. destruct fuel as [|fuel]; [lia|]. assert (K := run_bs i k fuel input ltac:(lia) M).
      cbn [repeat app]. destruct k as [|k]; (eapply (run_reduce _ 6); [eapply look_symbol; exact M|reflexivity|reflexivity|deep|reflexivity|reflexivity|exact K]).
    - destruct input as [|l input]; [discriminate M|]. injection M as M1 M2. destruct fuel as [|fuel]; [lia|]. assert (K : succeeds fuel (6 :: repeat 6 i ++ [3; 0]) input) by (apply (IH (S i)); [lia|lia|rewrite M2; replace (i + S j)%nat with (S i + j)%nat by lia; reflexivity]).
      destruct i as [|i]; cbn [repeat app] in *.
      + eapply (run_shift _ 3 _ sym_a 6); [reflexivity|exact M1|exact K].
      + eapply (run_shift _ 6 _ sym_a 6); [reflexivity|exact M1|exact K].
  Qed.
  Definition stops (te : bool) (q sy : Z) : Prop := exists acts, find_symbol T te q sy = Done acts /\ match acts with [] => True | e :: _ => e_symbol e <> sy end.
  Lemma run_stop fuel q d te sy input : Q false -> symbol_of_look T L matched (nth_error input 0) = (te, sy) -> stops te q sy -> succeeds (S fuel) (q :: d) input.
  Proof.
    intros QF SY (acts & F & S0) stack calls seen E. cbn [parse]. unfold process. cbn [p_input p_run s_stack p_seen]. rewrite SY, E. cbn [top bind]. rewrite F. cbn [bind]. destruct acts as [|e acts]; cbn [choose]; [eexists; eexists; split; [reflexivity|exact QF]|].
    rewrite (proj2 (Z.eqb_neq _ _) S0). cbn [negb bind]. eexists. eexists. split; [reflexivity|exact QF].
  Qed.
  Lemma run_guard fuel l input : matched l = sym_a -> found (l :: input) [0] fuel 0 [1] -> (0 < fuel)%nat -> (forall g, P g -> g = guard_symbol \/ (g = -1 /\ Q false)) -> succeeds fuel [3; 0] (l :: input) -> succeeds (S fuel) [0] (l :: input).
  Proof.
    intros M G P0 PQ K stack calls seen E. cbn [parse]. unfold process. cbn [p_input nth_error symbol_of_look p_run s_stack p_seen]. rewrite E, M. cbn [top bind]. change (find_symbol T true 0 sym_a) with (Done [mkEntry Guard 1 sym_a]). cbn [bind choose e_symbol]. rewrite Z.eqb_refl. cbn [negb e_type bind p_run s_stack p_input p_seen e_next]. rewrite E.
    match goal with |- context [check_guard _ _ _ _ _ _ _ _ _ ?s] => destruct (G s) as (g & seen' & C & PE) end. unfold check_guard. rewrite C. cbn [bind]. destruct (PQ g PE) as [->|[-> QF]]; [|eexists; eexists; split; [reflexivity|exact QF]]. change (guard_symbol <? 0) with false. cbv iota.
    unfold process_guard. cbn [standard_actions d_states d_virtual s_stack]. rewrite E. cbn [top bind]. change (find_symbol T false 0 guard_symbol) with (Done [mkEntry Shift 3 guard_symbol]). cbn [bind e_symbol guard_usable e_type]. rewrite Z.eqb_refl. cbn [negb bind].
    destruct fuel as [|fuel]; [lia|]. cbn [guard_perform e_symbol]. rewrite Z.eqb_refl. cbn [negb e_type bind perform d_shift e_next lexeme_of s_stack s_calls].
    apply K. cbn [map fst s_stack]. rewrite E. reflexivity.
  Qed.
  Lemma complete n input fuel : (forall g, P g -> g = guard_symbol \/ (g = -1 /\ Q false)) -> (0 < n)%nat -> (5 * n + 3 <= fuel)%nat -> map matched input = repeat sym_a n ++ repeat sym_b n ++ repeat sym_c n -> succeeds (S fuel) [0] input.
  Proof.
    intros PQ P0 F M. destruct n as [|n]; [lia|]. destruct input as [|l input]; [discriminate M|]. apply run_guard.
    - injection M as M1 _. exact M1.
    - eapply (guard_found _ _ (S n) (repeat sym_c n)); [exact M|lia|lia].
    - lia.
    - exact PQ.
    - apply (run_as (S n) (S n) 0); [lia|lia|exact M].
  Qed.

  (** *** All runs end *)
  Lemma stops_other q s : 0 <= q <= 16 -> s <> sym_a -> s <> sym_b -> s <> sym_c -> stops true q s.
  Proof.
    unfold sym_a, sym_b, sym_c. intros R A B C. assert (Q0 : In q (map Z.of_nat (seq 0 17))) by (apply in_map_iff; exists (Z.to_nat q); split; [lia|apply in_seq; lia]).
    unfold stops, find_symbol, find_terminal. cbn in Q0. repeat (destruct Q0 as [<-|Q0]; [clear R; eexists; (split; [reflexivity|]); cbn; repeat match goal with |- context [Z.ltb ?x ?y] => destruct (Z.ltb_spec x y); cbn end; first [exact Logic.I|lia]|]). destruct Q0.
  Qed.
  Ltac stopped := eexists; split; [reflexivity|cbn; first [exact Logic.I|discriminate]].
  Section Ends.
    Context (input : list L) (under : list Z) (PN : P (-1)).
    Lemma check_stop fuel offset q d te sy : has_end_of_guard T q = false -> symbol_of_look T L matched (nth_error input offset) = (te, sy) -> stops te q sy -> found input under (S fuel) offset (q :: d).
    Proof.
      intros H SY (acts & F & S0) seen. cbn [check_loop]. rewrite SY. cbn [top bind]. rewrite H. cbn [bind]. rewrite F. cbn [bind]. destruct acts as [|e acts]; [eexists; eexists; split; [reflexivity|exact PN]|].
      rewrite (proj2 (Z.eqb_neq _ _) S0). cbn [negb]. eexists. eexists. split; [reflexivity|exact PN].
    Qed.
    Inductive checking : nat -> list Z -> Prop :=
    | checking_as i : checking 0 (repeat 4 i ++ [1])
    | checking_8 i : checking 1 (8 :: 4 :: repeat 4 i ++ [1])
    | checking_bs j : checking 0 (open_stack j)
    | checking_13 j : checking 1 (13 :: 9 :: 4 :: repeat 4 j ++ [1])
    | checking_10 d : checking 0 (10 :: d).
    Lemma look_cases offset : (nth_error input offset = None) \/ (exists s, nth_error (map matched input) offset = Some s /\ symbol_of_look T L matched (nth_error input offset) = (true, s) /\ (offset < length input)%nat).
    Proof. destruct (nth_error input offset) as [l|] eqn:N; [right|left; reflexivity]. exists (matched l). split; [rewrite nth_error_map, N; reflexivity|]. split; [reflexivity|]. apply nth_error_Some. congruence. Qed.
    Lemma check_ends k : forall p d offset fuel, checking p d -> (2 * (length input - offset) + p <= k)%nat -> (k < fuel)%nat -> found input under fuel offset d.
    Proof.
      induction k as [k IH] using lt_wf_ind. intros p d offset fuel C LE LT. destruct fuel as [|fuel]; [lia|].
      assert (STEP : forall p' d' offset', checking p' d' -> (2 * (length input - offset') + p' < 2 * (length input - offset) + p)%nat -> found input under fuel offset' d').
      { intros p' d' offset' C' L'. apply (IH (k - 1)%nat ltac:(lia) p'); [exact C'|lia|lia]. }
      destruct (look_cases offset) as [N|(s & N & SY & LO)].
      - assert (SY : symbol_of_look T L matched (nth_error input offset) = (false, t_eoi T)) by (rewrite N; reflexivity).
        destruct C as [[|i]|i|[|j]|j|d]; try apply check_end; (eapply check_stop; [reflexivity|exact SY|stopped]).
      - assert (CS : s = sym_a \/ s = sym_b \/ s = sym_c \/ (s <> sym_a /\ s <> sym_b /\ s <> sym_c)) by (unfold sym_a, sym_b, sym_c; lia).
        destruct CS as [->|[->|[->|(A & B & D)]]]; [| | |destruct C as [[|i]|i|[|j]|j|d]; try apply check_end; (eapply check_stop; [reflexivity|exact SY|apply stops_other; [lia|assumption..]])];
          destruct C as [[|i]|i|[|j]|j|d]; try apply check_end; try (eapply check_stop; [reflexivity|exact SY|stopped]).
        + eapply (check_shift _ _ _ _ 1 _ sym_a); [reflexivity|reflexivity|exact N|]. apply (STEP 0%nat _ (S offset) (checking_as 1)). lia.
        + eapply (check_shift _ _ _ _ 4 _ sym_a); [reflexivity|reflexivity|exact N|]. apply (STEP 0%nat _ (S offset) (checking_as (S (S i)))). lia.
        + eapply (check_shift _ _ _ _ 4 _ sym_b); [reflexivity|reflexivity|exact N|]. apply (STEP 1%nat _ (S offset) (checking_8 i)). lia.
        + assert (K := STEP 0%nat _ offset (checking_bs i) ltac:(lia)). destruct i; (eapply (check_reduce _ _ _ _ 8 _ sym_b); [reflexivity|reflexivity|exact N|reflexivity|reflexivity|reflexivity|reflexivity|exact K]).
        + eapply (check_shift _ _ _ _ 9 _ sym_b); [reflexivity|reflexivity|exact N|]. apply (STEP 1%nat _ (S offset) (checking_13 j)). lia.
        + assert (K := STEP 0%nat _ offset (checking_bs j) ltac:(lia)). destruct j; (eapply (check_reduce _ _ _ _ 13 _ sym_b); [reflexivity|reflexivity|exact N|reflexivity|reflexivity|reflexivity|reflexivity|exact K]).
        + assert (K := STEP 0%nat _ offset (checking_bs i) ltac:(lia)). destruct i; (eapply (check_reduce _ _ _ _ 8 _ sym_c); [reflexivity|reflexivity|exact N|reflexivity|reflexivity|reflexivity|reflexivity|exact K]).
        + eapply (check_shift _ _ _ _ 5 _ sym_c); [reflexivity|reflexivity|exact N|]. apply (STEP 0%nat _ (S offset) (checking_10 _)). lia.
        + assert (K := STEP 0%nat _ offset (checking_bs j) ltac:(lia)). destruct j; (eapply (check_reduce _ _ _ _ 13 _ sym_c); [reflexivity|reflexivity|exact N|reflexivity|reflexivity|reflexivity|reflexivity|exact K]).
    Qed.
  End Ends.
  Inductive running : nat -> list Z -> Prop :=
  | running_as i : running 2 (repeat 6 i ++ [3; 0])
  | running_12 m : running 1 (12 :: 6 :: repeat 6 m ++ [3; 0])
  | running_15 m : running 2 (15 :: 12 :: 6 :: repeat 6 m ++ [3; 0])
  | running_16 m : running 2 (16 :: 12 :: 6 :: repeat 6 m ++ [3; 0])
  | running_cs j : running 1 (inner_stack j)
  | running_14 j : running 2 (14 :: 11 :: 6 :: repeat 6 j ++ [3; 0])
  | running_2 : running 0 [2; 0].
  Lemma run_ends k : Q false -> forall p d input fuel, running p d -> (3 * length input + p <= k)%nat -> (k < fuel)%nat -> succeeds fuel d input.
  Proof.
    intros QF. induction k as [k IH] using lt_wf_ind. intros p d input fuel C LE LT. destruct fuel as [|fuel]; [lia|].
    assert (STEP : forall p' d' input', running p' d' -> (3 * length input' + p' < 3 * length input + p)%nat -> succeeds fuel d' input').
    { intros p' d' input' C' L'. apply (IH (k - 1)%nat ltac:(lia) p'); [exact C'|lia|lia]. }
    destruct input as [|l input]; cbn [length] in *.
    - destruct C as [[|i]|m|m|m|[|j]|j|]; try apply run_accept; try (eapply run_stop; [exact QF|reflexivity|stopped]).
      + assert (K := STEP 1%nat _ [] (running_cs m) ltac:(cbn; lia)). destruct m; (eapply (run_reduce _ 16); [reflexivity|reflexivity|reflexivity|deep|reflexivity|reflexivity|exact K]).
      + eapply (run_reduce _ 7); [reflexivity|reflexivity|reflexivity|reflexivity|reflexivity|reflexivity|]. apply (STEP 0%nat _ [] running_2). cbn. lia.
      + assert (K := STEP 1%nat _ [] (running_cs j) ltac:(cbn; lia)). destruct j; (eapply (run_reduce _ 14); [reflexivity|reflexivity|reflexivity|deep|reflexivity|reflexivity|exact K]).
    - remember (matched l) as s eqn:M. symmetry in M.
      assert (SY : symbol_of_look T L matched (nth_error (l :: input) 0) = (true, s)) by (cbn; rewrite M; reflexivity).
      assert (CS : s = sym_a \/ s = sym_b \/ s = sym_c \/ (s <> sym_a /\ s <> sym_b /\ s <> sym_c)) by (unfold sym_a, sym_b, sym_c; lia).
      destruct CS as [CS|[CS|[CS|(A & B & D)]]]; [| | |destruct C as [[|i]|m|m|m|[|j]|j|]; (eapply run_stop; [exact QF|exact SY|apply stops_other; [lia|assumption..]])];
        subst s; rewrite CS in SY; destruct C as [[|i]|m|m|m|[|j]|j|]; try (eapply run_stop; [exact QF|exact SY|stopped]).
      + eapply (run_shift _ 3 _ sym_a); [reflexivity|exact CS|]. apply (STEP 2%nat _ input (running_as 1)). lia.
      + eapply (run_shift _ 6 _ sym_a); [reflexivity|exact CS|]. apply (STEP 2%nat _ input (running_as (S (S i)))). lia.
      + eapply (run_reduce _ 6); [exact SY|reflexivity|reflexivity|deep|reflexivity|reflexivity|]. apply (STEP 1%nat _ (l :: input) (running_12 i)). cbn [length]. lia.
      + eapply (run_shift _ 12 _ sym_b); [reflexivity|exact CS|]. apply (STEP 2%nat _ input (running_15 m)). lia.
      + eapply (run_reduce _ 15); [exact SY|reflexivity|reflexivity|deep|reflexivity|reflexivity|]. apply (STEP 1%nat _ (l :: input) (running_12 m)). cbn [length]. lia.
      + eapply (run_reduce _ 6); [exact SY|reflexivity|reflexivity|deep|reflexivity|reflexivity|]. apply (STEP 1%nat _ (l :: input) (running_12 i)). cbn [length]. lia.
      + eapply (run_shift _ 12 _ sym_c); [reflexivity|exact CS|]. apply (STEP 2%nat _ input (running_16 m)). lia.
      + eapply (run_reduce _ 15); [exact SY|reflexivity|reflexivity|deep|reflexivity|reflexivity|]. apply (STEP 1%nat _ (l :: input) (running_12 m)). cbn [length]. lia.
      + assert (K := STEP 1%nat _ (l :: input) (running_cs m) ltac:(cbn [length]; lia)). destruct m; (eapply (run_reduce _ 16); [exact SY|reflexivity|reflexivity|deep|reflexivity|reflexivity|exact K]).
      + eapply (run_shift _ 11 _ sym_c); [reflexivity|exact CS|]. apply (STEP 2%nat _ input (running_14 j)). lia.
      + assert (K := STEP 1%nat _ (l :: input) (running_cs j) ltac:(cbn [length]; lia)). destruct j; (eapply (run_reduce _ 14); [exact SY|reflexivity|reflexivity|deep|reflexivity|reflexivity|exact K]).
  Qed.
  Lemma all_end input fuel : Q false -> (forall g, P g <-> g = guard_symbol \/ g = -1) -> (3 * length input + 3 <= fuel)%nat -> succeeds (S fuel) [0] input.
  Proof.
    intros QF PQ F. destruct input as [|l input]; [eapply run_stop; [exact QF|reflexivity|stopped]|]. cbn [length] in F.
    destruct (Z.eq_dec (matched l) sym_a) as [A|A].
    - apply run_guard; [exact A| |lia|intros g H; apply PQ in H; destruct H as [->| ->]; auto|].
      + eapply (check_ends _ _ ltac:(apply PQ; right; reflexivity) (2 * length (l :: input))%nat 0%nat); [exact (checking_as 0)|lia|cbn [length]; lia].
      + apply (run_ends (3 * length (l :: input) + 2)%nat QF 2%nat); [exact (running_as 0)|lia|cbn [length]; lia].
    - eapply (run_stop _ 0 [] true (matched l)); [exact QF|reflexivity|]. unfold sym_a in A. unfold stops, find_symbol, find_terminal. eexists. split; [reflexivity|]. cbn. repeat match goal with |- context [Z.ltb ?x ?y] => destruct (Z.ltb_spec x y); cbn end; first [exact Logic.I|lia].
  Qed.
End Runs.


(** ** What the grammar stands for *)
Section Trees.
  Context (L : Type) (matched : L -> Z) (renamed : Z -> L -> L).
  Notation P := (parses (rules_of anbncn) rule_number item_number L matched renamed (fun _ _ => False) (fun _ => False)).
  Notation PA := (parses_all (rules_of anbncn) rule_number item_number L matched renamed (fun _ _ => False) (fun _ => False)).
  Lemma all_nil ts w rest : PA [] ts w rest -> w = [].
  Proof. intros H. inversion H; subst; [reflexivity|contradiction]. Qed.
  Lemma all_cons x xs ts w rest : PA (x :: xs) ts w rest -> exists t ts' w1 w2, w = w1 ++ w2 /\ P x t w1 (w2 ++ rest) /\ PA xs ts' w2 rest.
  Proof. intros H. inversion H; subst; [contradiction|]. eexists. eexists. eexists. eexists. split; [reflexivity|]. split; eassumption. Qed.
  Lemma of_term s t w rest : P (ITerm s) t w rest -> exists l, w = [l] /\ matched l = s.
  Proof. intros H. inversion H; subst; [eexists; split; reflexivity|contradiction|]. match goal with E : expands _ (ITerm _) _ |- _ => inversion E end. Qed.
  Lemma of_nonterm n t w rest : P (INonterm n) t w rest -> exists r ts, In r (rules_of anbncn n) /\ PA r ts w rest.
  Proof. intros H. inversion H as [| |x r ts w' rest' E A|]; subst. inversion E; subst. eexists. eexists. split; eassumption. Qed.
  Lemma of_guard p g t w rest : P (IGuard p g) t w rest -> w = [] /\ exists ts w' rest', PA g ts w' rest' /\ w' ++ rest' = rest.
  Proof. intros H. inversion H as [| |x r ts w' rest' E A|p0 g0 ts w' rest' A]; subst; [inversion E|]. split; [reflexivity|]. eexists. eexists. eexists. split; [exact A|reflexivity]. Qed.
  (** A terminal before the rest *)
  Lemma all_term s xs ts w rest : PA (ITerm s :: xs) ts w rest -> exists l ts' w2, w = l :: w2 /\ matched l = s /\ PA xs ts' w2 rest.
  Proof. intros H. destruct (all_cons _ _ _ _ _ H) as (t & ts' & w1 & w2 & -> & T & A). destruct (of_term _ _ _ _ T) as (l & -> & M). exists l, ts', w2. auto. Qed.
  Lemma one_term s ts w rest : PA [ITerm s] ts w rest -> map matched w = [s].
  Proof. intros H. destruct (all_term _ _ _ _ _ H) as (l & ts' & w2 & -> & M & A). rewrite (all_nil _ _ _ A). cbn. rewrite M. reflexivity. Qed.

  Lemma snoc_repeat (x : Z) n : repeat x n ++ [x] = repeat x (S n).
  Proof. induction n as [|n IH]; [reflexivity|]. cbn [repeat app]. rewrite IH. reflexivity. Qed.
  Lemma of_bs n : forall t w rest, (length w <= n)%nat -> P (INonterm 1) t w rest -> exists k, (0 < k)%nat /\ map matched w = repeat sym_a k ++ repeat sym_b k.
  Proof.
    induction n as [|n IH]; intros t w rest LE H; destruct (of_nonterm _ _ _ _ H) as (r & ts & [<-|[<-|[]]] & A); destruct (all_term _ _ _ _ _ A) as (l & ts' & w2 & -> & M & A'); cbn in LE; try lia.
    - destruct (all_cons _ _ _ _ _ A') as (t2 & ts2 & w3 & w4 & -> & B & C). apply one_term in C. rewrite app_length in LE. destruct (IH _ w3 _ ltac:(lia) B) as (k & K & E). exists (S k). split; [lia|]. cbn [map]. rewrite map_app, M, E, C, <- app_assoc, snoc_repeat. reflexivity.
    - apply one_term in A'. exists 1%nat. split; [lia|]. cbn. rewrite M, A'. reflexivity.
  Qed.
  Lemma of_star n : forall t w rest, (length w <= n)%nat -> P (INonterm 3) t w rest -> exists m, map matched w = repeat sym_b m.
  Proof.
    induction n as [|n IH]; intros t w rest LE H; destruct (of_nonterm _ _ _ _ H) as (r & ts & [<-|[<-|[]]] & A); try (apply all_nil in A; subst w; exists O; reflexivity);
      destruct (all_cons _ _ _ _ _ A) as (t2 & ts2 & w3 & w4 & -> & B & C); apply one_term in C; assert (L4 : length w4 = 1%nat) by (rewrite <- (map_length matched), C; reflexivity); rewrite app_length in LE; [lia|].
    destruct (IH _ w3 _ ltac:(lia) B) as (m & E). exists (S m). rewrite map_app, E, C, snoc_repeat. reflexivity.
  Qed.
  Lemma of_cs n : forall t w rest, (length w <= n)%nat -> P (INonterm 2) t w rest -> exists k m, (0 < k)%nat /\ map matched w = repeat sym_a k ++ repeat sym_b m ++ repeat sym_c k.
  Proof.
    induction n as [|n IH]; intros t w rest LE H; destruct (of_nonterm _ _ _ _ H) as (r & ts & [<-|[<-|[]]] & A); destruct (all_term _ _ _ _ _ A) as (l & ts' & w2 & -> & M & A'); cbn in LE; try lia;
      destruct (all_cons _ _ _ _ _ A') as (t2 & ts2 & w3 & w4 & -> & B & C); apply one_term in C; rewrite app_length in LE.
    - destruct (IH _ w3 _ ltac:(lia) B) as (k & m & K & E). exists (S k), m. split; [lia|]. cbn [map]. rewrite map_app, M, E, C, <- !app_assoc, snoc_repeat. reflexivity.
    - destruct (of_star _ _ _ _ (le_n _) B) as (m & E). exists 1%nat, m. split; [lia|]. cbn [map]. rewrite map_app, M, E, C. reflexivity.
  Qed.
  Lemma same_run (x y z : Z) k : forall n t u, y <> x -> z <> x -> repeat x k ++ y :: t = repeat x n ++ z :: u -> k = n /\ y :: t = z :: u.
  Proof. induction k as [|k IH]; intros [|n] t u Y Z0 E; cbn in E; [auto|congruence|congruence|]. injection E as E. destruct (IH _ _ _ Y Z0 E) as [-> F]. auto. Qed.
  Lemma sound tree input : PA [INonterm 0] [tree] input [] -> exists n, (0 < n)%nat /\ map matched input = repeat sym_a n ++ repeat sym_b n ++ repeat sym_c n.
  Proof.
    intros H. destruct (all_cons _ _ _ _ _ H) as (t & ts' & w1 & w2 & -> & N & A). apply all_nil in A. subst w2. rewrite app_nil_r.
    destruct (of_nonterm _ _ _ _ N) as (r & ts & [<-|[]] & A). destruct (all_cons _ _ _ _ _ A) as (t1 & ts1 & wg & w & -> & G & C). apply of_guard in G. destruct G as (-> & gs & w' & rest' & G & E). cbn [app] in *.
    destruct (all_cons _ _ _ _ _ C) as (t2 & ts2 & wc & w3 & -> & CS & C'). apply all_nil in C'. subst w3. rewrite !app_nil_r in *. destruct (of_cs _ _ _ _ (le_n _) CS) as (n & m & PN & MC).
    destruct (all_cons _ _ _ _ _ G) as (t3 & ts3 & wb & w4 & -> & BS & G'). apply one_term in G'. destruct (of_bs _ _ _ _ (le_n _) BS) as (k & PK & MB).
    exists n. split; [exact PN|]. rewrite MC. assert (EQ : repeat sym_a k ++ repeat sym_b k ++ sym_c :: map matched rest' = repeat sym_a n ++ repeat sym_b m ++ repeat sym_c n) by (rewrite <- MC, <- E, !map_app, MB, G', <- !app_assoc; reflexivity).
    destruct k as [|k]; [lia|]. destruct n as [|n]; [lia|].
    assert (HD : exists z u, (z = sym_b \/ z = sym_c) /\ repeat sym_b m ++ repeat sym_c (S n) = z :: u) by (destruct m as [|m]; eexists; eexists; split; [|reflexivity| |reflexivity]; auto). destruct HD as (z & u & Z0 & HD). rewrite HD in EQ. cbn [repeat app] in EQ.
    apply (same_run sym_a sym_b z (S k) (S n)) in EQ; [|discriminate|destruct Z0 as [->| ->]; discriminate]. destruct EQ as [KN EQ]. injection KN as ->. rewrite <- HD in EQ. apply (same_run sym_b sym_c sym_c (S n) m) in EQ; [|discriminate|discriminate]. destruct EQ as [<- _]. reflexivity.
  Qed.
End Trees.

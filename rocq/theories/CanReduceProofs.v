(** Proofs about the tentative reductions of can_reduce. *)
From Verif Require Import Base OrdMap GrammarModel FirstModel ActionModel TableModel RunModel RunFuelProofs CanReduceSpec.
Local Open Scope Z_scope.

Section Exact.
  Context (t : tables) (L : Type) (matched : L -> Z) (renamed : Z -> L -> L) (V : Type) (shift_value : option L -> V) (reduce_value : Z -> Z -> list V -> V) (SR : shift_reduce_tables t).
  Notation process := (process t L matched renamed V shift_value reduce_value).
  Notation choose := (choose t L matched renamed V shift_value reduce_value).
  Notation will_shift := (will_shift t L matched renamed V shift_value reduce_value).
  Notation states p := (map fst (s_stack (p_run p))).
  Lemma sr_no_guards : no_guards t.
  Proof.
    intros l e [I|I] J; [|exact (sr_nonterminals _ SR l e I J)]. intros E. destruct (sr_terminals _ SR l e I J) as [X|[X|[X|[X|X]]]]; congruence.
  Qed.
  Lemma found_row terminal q symbol l : find_symbol t terminal q symbol = Done l -> exists l0, (if terminal then In l0 (t_terminals t) else In l0 (t_nonterminals t)) /\ forall e, In e l -> In e l0.
  Proof.
    unfold find_symbol, find_terminal, find_nonterminal, row, find_action, defined. intros F.
    destruct terminal; destruct (q <? 0); try discriminate F; (destruct (nth_error _ (Z.to_nat q)) as [l0|] eqn:N; [|discriminate F]); injection F as <-; exists l0; (split; [exact (nth_error_In _ _ N)|]); intros e I; rewrite <- (firstn_skipn (find_pos symbol l0) l0); apply in_or_app; right; exact I.
  Qed.

  (** ** The tentative reduction is the real one *)
  Lemma drop1_map {A B} (f : A -> B) l : map f (drop1 l) = drop1 (map f l).
  Proof. destruct l as [|a [|b l]]; reflexivity. Qed.
  Lemma pop_items_drops n : forall l : list (Z * V), snd (pop_items V n l) = drops n l.
  Proof.
    induction n as [|n IH]; intros l; [destruct l; reflexivity|]. destruct l as [|[q v] l].
    - cbn [pop_items drops drop1 snd]. specialize (IH []). destruct n; exact IH || (cbn [pop_items snd] in IH; exact IH).
    - cbn [pop_items drops]. specialize (IH (drop1 ((q, v) :: l))). destruct (pop_items V n (drop1 ((q, v) :: l))) as [vs l']. exact IH.
  Qed.
  Lemma drops_map {A B} (f : A -> B) n : forall l, map f (drops n l) = drops n (map f l).
  Proof. induction n as [|n IH]; intros l; [reflexivity|]. cbn [drops]. rewrite IH, drop1_map. reflexivity. Qed.
  Lemma reduces_same e (d : run L V) la : e_type e = Reduce \/ e_type e = WeakReduce ->
    match fake_reduce t e (map fst (s_stack d)) with
    | Done w => exists d', perform t L matched renamed (standard_actions t L V shift_value reduce_value) la e d = Done (false, d') /\ map fst (s_stack d') = w
    | Undefined => perform t L matched renamed (standard_actions t L V shift_value reduce_value) la e d = Undefined
    | OutOfFuel => False
    end.
  Proof.
    intros T. unfold fake_reduce, perform. assert (X : forall A (a b : A), match e_type e with Reduce | WeakReduce => a | _ => b end = a) by (intros; destruct T as [-> | ->]; reflexivity).
    replace (match e_type e with Ignore => _ | Accept => _ | _ => _ end) with (do r <- defined (rule_at t (e_next e)) ;; do d <- standard_reduce t L V reduce_value r d ;; Done (false, d)) by (destruct T as [-> | ->]; reflexivity).
    replace (match e_type e with Accept => _ | _ => _ end) with (do r <- defined (rule_at t (e_next e)) ;;
        let v := drops (Z.to_nat (rr_length r)) (map fst (s_stack d)) in
        do q <- top v ;;
        do g <- find_goto t q (rr_identifier r) ;;
        Done (match g with Some n => n :: v | None => v end)) by (destruct T as [-> | ->]; reflexivity).
    destruct (rule_at t (e_next e)) as [r|]; [|reflexivity]. cbn [defined bind]. cbv zeta. unfold standard_reduce. assert (P := pop_items_drops (Z.to_nat (rr_length r)) (s_stack d)). destruct (pop_items V (Z.to_nat (rr_length r)) (s_stack d)) as [items l]. cbn [snd] in P. subst l. rewrite drops_map.
    destruct (top (drops (Z.to_nat (rr_length r)) (map fst (s_stack d)))) as [q| |] eqn:TE; cbn [bind]; [|reflexivity|unfold top in TE; destruct (drops _ _); discriminate TE].
    destruct (find_goto t q (rr_identifier r)) as [g| |] eqn:G; cbn [bind]; [|reflexivity|].
    - eexists. split; [reflexivity|]. destruct g as [n|]; cbn [map fst s_stack]; rewrite drops_map; reflexivity.
    - unfold find_goto, find_symbol, defined in G. destruct (find_nonterminal t q (rr_identifier r)); discriminate G.
  Qed.

  (** ** will_shift does not depend on what is in the lookahead list *)
  Lemma will_shift_same p : will_shift p -> forall p2, p_run p2 = p_run p -> p_input p2 = p_input p -> will_shift p2.
  Proof.
    induction 1 as [fuel p l p' P I|fuel p p' P|fuel p p' P I W IH]; intros p2 R IN;
      (assert (S := process_same t L matched renamed V shift_value reduce_value sr_no_guards fuel p p2 (eq_sym R) (f_equal (fun l => nth_error l 0) (eq_sym IN))); rewrite P in S; destruct (process fuel p2) as [[r p2']| |] eqn:P2; try contradiction S; destruct S as (<- & R' & k & I1 & I2 & _); rewrite IN in I2; rewrite <- I1 in I2).
    - apply (shift_now _ _ _ _ _ _ _ fuel p2 l p2' P2). congruence.
    - exact (accept_now _ _ _ _ _ _ _ fuel p2 p2' P2).
    - apply (reduce_first _ _ _ _ _ _ _ fuel p2 p2' P2); [congruence|]. apply IH; congruence.
  Qed.

  Definition from (terminal : bool) (symbol : Z) (la : lookahead L) (acts : list entry) (p : parser L V) : Prop :=
    exists fuel r p', choose fuel terminal symbol la acts p = Done (r, p') /\ (r = Accepted \/ r = More /\ (exists l, p_input p = l :: p_input p') \/ r = More /\ p_input p' = p_input p /\ will_shift p').
  Definition the_look (p : parser L V) : lookahead L := match nth_error (p_input p) 0 with Some l => Lexeme l | None => End end.
  Lemma will_shift_from p terminal symbol q acts : symbol_of_look t L matched (nth_error (p_input p) 0) = (terminal, symbol) -> top (states p) = Done q -> find_symbol t terminal q symbol = Done acts ->
    (will_shift p <-> from terminal symbol (the_look p) acts p).
  Proof.
    intros SL TP F. set (p1 := mkParser (p_run p) (p_input p) (Nat.max (p_seen p) (Nat.min 1 (length (p_input p))))).
    assert (PC : forall fuel, process fuel p = choose fuel terminal symbol (the_look p) acts p1) by (intros fuel; unfold RunModel.process; rewrite SL; cbn [p_run]; rewrite TP; cbn [bind]; rewrite F; reflexivity).
    assert (CS : forall fuel, same L V p p1 (choose fuel terminal symbol (the_look p) acts p) (process fuel p)).
    { intros fuel. rewrite PC. apply choose_same; [|reflexivity|cbn; tauto]. intros e I. exact (found_no_guard t sr_no_guards _ _ _ _ F e I). }
    split.
    - intros W. destruct W as [fuel p l p' P I|fuel p p' P|fuel p p' P I W]; specialize (CS fuel); rewrite P in CS; (destruct (choose fuel terminal symbol (the_look p) acts p) as [[r p2]| |] eqn:C; try contradiction CS; destruct CS as (-> & R & k & I1 & I2 & _); cbn [p1 p_input] in I2; rewrite <- I2 in I1; exists fuel; eexists; exists p2; (split; [exact C|])).
      + right. left. split; [reflexivity|]. exists l. congruence.
      + left. reflexivity.
      + right. right. split; [reflexivity|]. split; [congruence|]. apply (will_shift_same _ W); congruence.
    - intros (fuel & r & p2 & C & H). specialize (CS fuel). rewrite C in CS. destruct (process fuel p) as [[r' p']| |] eqn:P; try contradiction CS. destruct CS as (<- & R & k & I1 & I2 & _). cbn [p1 p_input] in I2. rewrite <- I1 in I2. destruct H as [->|[(-> & l & I)|(-> & I & W)]].
      + exact (accept_now _ _ _ _ _ _ _ fuel p p' P).
      + apply (shift_now _ _ _ _ _ _ _ fuel p l p' P). congruence.
      + apply (reduce_first _ _ _ _ _ _ _ fuel p p' P); [congruence|]. apply (will_shift_same _ W); congruence.
  Qed.

  (** ** The loop *)
  Lemma can_reduce_by_fun f f' terminal symbol e v b b' : can_reduce_by t f terminal symbol e v = Done b -> can_reduce_by t f' terminal symbol e v = Done b' -> b = b'.
  Proof.
    intros H H'. assert (X := le_done _ _ _ (can_reduce_by_more t f (Nat.max f f') terminal symbol e v (Nat.le_max_l _ _)) H). assert (Y := le_done _ _ _ (can_reduce_by_more t f' (Nat.max f f') terminal symbol e v (Nat.le_max_r _ _)) H'). congruence.
  Qed.
  Lemma from_stops terminal symbol la acts p : (forall fuel, exists p', choose fuel terminal symbol la acts p = Done (Rejected, p')) -> ~ from terminal symbol la acts p.
  Proof. intros H (fuel & r & p' & C & X). destruct (H fuel) as [p2 E]. rewrite E in C. injection C as <- <-. destruct X as [X|[[X _]|[X _]]]; discriminate X. Qed.
  Lemma from_reduces terminal symbol la acts p e d' : e_symbol e = symbol -> e_type e = Reduce \/ e_type e = WeakReduce /\ (exists f, can_reduce_by t f terminal symbol e (states p) = Done true) ->
    perform t L matched renamed (standard_actions t L V shift_value reduce_value) la e (p_run p) = Done (false, d') ->
    (from terminal symbol la (e :: acts) p <-> will_shift (mkParser d' (p_input p) (p_seen p))).
  Proof.
    intros ES T PF. assert (GO : exists f, forall f', (f <= f')%nat -> choose f' terminal symbol la (e :: acts) p = Done (More, mkParser d' (p_input p) (p_seen p))).
    { destruct T as [T|[T [f C]]]; [exists 0%nat|exists f]; intros f' LE; cbn [RunModel.choose]; rewrite ES, Z.eqb_refl, T; cbn [negb bind].
      - rewrite PF. reflexivity.
      - rewrite (le_done _ _ _ (can_reduce_by_more t f f' terminal symbol e _ LE) C). cbn [bind negb]. rewrite PF. reflexivity. }
    destruct GO as [f GO]. split.
    - intros (f2 & r & p' & C & H). assert (C2 := le_done _ _ _ (choose_more t L matched renamed V shift_value reduce_value f2 (Nat.max f f2) terminal symbol la (e :: acts) (Nat.le_max_r _ _) p) C). rewrite (GO _ (Nat.le_max_l _ _)) in C2. injection C2 as <- <-. cbn [p_input] in H.
      destruct H as [H|[(_ & l & H)|(_ & _ & W)]]; [discriminate H| |exact W]. exfalso. apply (f_equal (@length _)) in H. cbn in H. lia.
    - intros W. exists f, More. eexists. split; [apply GO; reflexivity|]. right. right. split; [reflexivity|]. split; [reflexivity|exact W].
  Qed.

  Lemma loop_exact fuel : forall terminal symbol q0 q acts b (p : parser L V), symbol_of_look t L matched (nth_error (p_input p) 0) = (terminal, symbol) ->
    (exists l0, (if terminal then In l0 (t_terminals t) else In l0 (t_nonterminals t)) /\ forall e, In e acts -> In e l0) ->
    can_reduce_loop t fuel terminal symbol q0 q acts (states p) = Done b -> (b = true <-> from terminal symbol (the_look p) acts p).
  Proof.
    induction fuel as [|fuel IH]; intros terminal symbol q0 q acts b p SL ROW H; [discriminate H|]. cbn [can_reduce_loop] in H. destruct acts as [|e acts].
    { destruct (q =? q0); [|discriminate H]. injection H as <-. split; [discriminate|]. intros F. exfalso. revert F. apply from_stops. intros f. eexists. reflexivity. }
    destruct (negb (e_symbol e =? symbol)) eqn:ES.
    { injection H as <-. split; [discriminate|]. intros F. exfalso. revert F. apply from_stops. intros f. cbn [RunModel.choose]. rewrite ES. eexists. reflexivity. }
    apply negb_false_iff, Z.eqb_eq in ES.
    assert (TY : (terminal = true /\ (e_type e = Shift \/ e_type e = ShiftStrong)) \/ e_type e = Reduce \/ e_type e = WeakReduce \/ e_type e = Accept).
    { destruct ROW as (l0 & I & J). specialize (J e (or_introl eq_refl)). destruct terminal; [destruct (sr_terminals _ SR l0 e I J) as [X|[X|[X|[X|X]]]]; auto|]. right. apply (sr_end _ SR l0 e I J). unfold symbol_of_look in SL. destruct (nth_error (p_input p) 0); [discriminate SL|]. injection SL as E. congruence. }
    assert (ROW' : exists l0, (if terminal then In l0 (t_terminals t) else In l0 (t_nonterminals t)) /\ forall e, In e acts -> In e l0) by (destruct ROW as (l0 & I & J); exists l0; split; [exact I|intros e0 E0; apply J; right; exact E0]).
    destruct TY as [[-> TY]|[TY|[TY|TY]]].
    - assert (b = true) as -> by (destruct TY as [TY|TY]; rewrite TY in H; injection H as <-; reflexivity). split; [|reflexivity]. intros _. unfold symbol_of_look in SL. unfold the_look. destruct (p_input p) as [|l rest] eqn:IN; [discriminate SL|]. cbn [nth_error] in *. destruct TY as [TY|TY]; exists 0%nat, More; eexists; (split;
        [cbn [RunModel.choose]; rewrite ES, Z.eqb_refl; cbn [negb]; rewrite TY; cbn [bind negb]; unfold perform; rewrite TY; cbn [bind]; unfold next_lexeme; cbn [p_input]; rewrite IN; reflexivity
        |right; left; split; [reflexivity|]; exists l; rewrite IN; reflexivity]).
    - rewrite TY in H. assert (RS := reduces_same e (p_run p) (the_look p) (or_introl TY)). destruct (fake_reduce t e (states p)) as [w| |]; [|discriminate H|discriminate H]. cbn [bind] in H. destruct RS as (d' & PF & EW). destruct (top w) as [q'| |] eqn:TP; [|discriminate H|discriminate H]. cbn [bind] in H. destruct (find_symbol t terminal q' symbol) as [l| |] eqn:F; [|discriminate H|discriminate H]. cbn [bind] in H.
      rewrite (from_reduces terminal symbol (the_look p) acts p e d' ES (or_introl TY) PF). set (p' := mkParser d' (p_input p) (p_seen p)). assert (E' : states p' = w) by exact EW. rewrite (will_shift_from p' terminal symbol q' l SL (eq_trans (f_equal top E') TP) F). apply (IH terminal symbol q0 q' l b p' SL (found_row _ _ _ _ F)). rewrite E'. exact H.
    - rewrite TY in H. assert (RS := reduces_same e (p_run p) (the_look p) (or_intror TY)). destruct (fake_reduce t e (states p)) as [w| |] eqn:FR; [|discriminate H|discriminate H]. cbn [bind] in H. destruct RS as (d' & PF & EW). destruct (top w) as [q'| |] eqn:TP; [|discriminate H|discriminate H]. cbn [bind] in H. destruct (find_symbol t terminal q' symbol) as [l| |] eqn:F; [|discriminate H|discriminate H]. cbn [bind] in H. destruct (can_reduce_loop t fuel terminal symbol q' q' l w) as [b'| |] eqn:IN; [|discriminate H|discriminate H]. cbn [bind] in H.
      assert (CB : can_reduce_by t fuel terminal symbol e (states p) = Done b') by (unfold can_reduce_by; rewrite TY, FR; cbn [bind]; unfold can_reduce; rewrite TP; cbn [bind]; rewrite F; exact IN).
      destruct b'.
      + injection H as <-. split; [|reflexivity]. intros _. rewrite (from_reduces terminal symbol (the_look p) acts p e d' ES (or_intror (conj TY (ex_intro _ fuel CB))) PF). set (p' := mkParser d' (p_input p) (p_seen p)). assert (E' : states p' = w) by exact EW. rewrite (will_shift_from p' terminal symbol q' l SL (eq_trans (f_equal top E') TP) F). apply (IH terminal symbol q' q' l true p' SL (found_row _ _ _ _ F)); [rewrite E'; exact IN|reflexivity].
      + rewrite (IH terminal symbol q0 q acts b p SL ROW' H). assert (CH : forall f, (fuel <= f)%nat -> choose f terminal symbol (the_look p) (e :: acts) p = choose f terminal symbol (the_look p) acts p).
        { intros f LE. cbn [RunModel.choose]. rewrite ES, Z.eqb_refl, TY. cbn [negb]. rewrite (le_done _ _ _ (can_reduce_by_more t fuel f terminal symbol e _ LE) CB). reflexivity. }
        split; intros (f & r & p' & C & X); exists (Nat.max fuel f), r, p'; (split; [|exact X]).
        * rewrite CH by apply Nat.le_max_l. exact (le_done _ _ _ (choose_more t L matched renamed V shift_value reduce_value f _ terminal symbol (the_look p) acts (Nat.le_max_r _ _) p) C).
        * rewrite <- CH by apply Nat.le_max_l. exact (le_done _ _ _ (choose_more t L matched renamed V shift_value reduce_value f _ terminal symbol (the_look p) (e :: acts) (Nat.le_max_r _ _) p) C).
    - rewrite TY in H. injection H as <-. split; [|reflexivity]. intros _. exists 0%nat, Accepted. eexists. split; [|left; reflexivity]. cbn [RunModel.choose]. rewrite ES, Z.eqb_refl, TY. cbn [negb bind]. reflexivity.
  Qed.
  Lemma can_reduce_exact fuel terminal symbol b (p : parser L V) : symbol_of_look t L matched (nth_error (p_input p) 0) = (terminal, symbol) -> can_reduce t fuel terminal symbol (states p) = Done b -> (b = true <-> will_shift p).
  Proof.
    intros SL H. unfold can_reduce in H. destruct (top (states p)) as [q| |] eqn:TP; [|discriminate H|discriminate H]. cbn [bind] in H. destruct (find_symbol t terminal q symbol) as [l| |] eqn:F; [|discriminate H|discriminate H]. cbn [bind] in H. rewrite (will_shift_from p terminal symbol q l SL TP F). exact (loop_exact fuel terminal symbol q q l b p SL (found_row _ _ _ _ F) H).
  Qed.

  (** ** It comes to an end where the parser does *)
  Lemma more_loop (X : outcome bool -> Prop) f f' terminal symbol q0 q acts v : ~ X OutOfFuel -> (f <= f')%nat -> X (can_reduce_loop t f terminal symbol q0 q acts v) -> X (can_reduce_loop t f' terminal symbol q0 q acts v).
  Proof. intros NX LE H. destruct (can_reduce_loop_more t f f' terminal symbol q0 q acts v LE) as [E|E]; [rewrite E in H; contradiction|rewrite <- E; exact H]. Qed.
  Definition loop_at (n : nat) (terminal : bool) (symbol q0 : Z) (v : list Z) : outcome bool := do q <- top v ;; do l <- find_symbol t terminal q symbol ;; can_reduce_loop t n terminal symbol q0 q l v.
  Lemma choose_loop (X : outcome bool -> Prop) f terminal symbol q0 q acts (p : parser L V) r p' : X (Done true) -> ~ X OutOfFuel -> (r = Rejected -> X (Done false) /\ X Undefined) ->
    symbol_of_look t L matched (nth_error (p_input p) 0) = (terminal, symbol) -> (exists l0, (if terminal then In l0 (t_terminals t) else In l0 (t_nonterminals t)) /\ forall e, In e acts -> In e l0) ->
    choose f terminal symbol (the_look p) acts p = Done (r, p') ->
    (r = More -> p_input p' = p_input p -> forall q0, exists n, X (loop_at n terminal symbol q0 (states p'))) ->
    exists n, X (can_reduce_loop t n terminal symbol q0 q acts (states p)).
  Proof.
    intros XT XO XR SL. induction acts as [|e acts IH]; intros ROW C NX.
    { cbn [RunModel.choose] in C. injection C as <- <-. destruct (XR eq_refl). exists 1%nat. cbn [can_reduce_loop]. destruct (q =? q0); assumption. }
    cbn [RunModel.choose] in C. destruct (negb (e_symbol e =? symbol)) eqn:ES.
    { injection C as <- <-. destruct (XR eq_refl). exists 1%nat. cbn [can_reduce_loop]. rewrite ES. assumption. }
    assert (EQ := ES). apply negb_false_iff, Z.eqb_eq in EQ.
    assert (TY : (e_type e = Shift \/ e_type e = ShiftStrong) \/ e_type e = Reduce \/ e_type e = WeakReduce \/ e_type e = Accept).
    { destruct ROW as (l0 & I & J). specialize (J e (or_introl eq_refl)). destruct terminal; [destruct (sr_terminals _ SR l0 e I J) as [Y|[Y|[Y|[Y|Y]]]]; auto|]. right. apply (sr_end _ SR l0 e I J). unfold symbol_of_look in SL. destruct (nth_error (p_input p) 0); [discriminate SL|]. injection SL as E. congruence. }
    assert (ROW' : exists l0, (if terminal then In l0 (t_terminals t) else In l0 (t_nonterminals t)) /\ forall e, In e acts -> In e l0) by (destruct ROW as (l0 & I & J); exists l0; split; [exact I|intros e0 E0; apply J; right; exact E0]).
    destruct TY as [TY|[TY|[TY|TY]]].
    - exists 1%nat. cbn [can_reduce_loop]. rewrite ES. destruct TY as [-> | ->]; exact XT.
    - rewrite TY in C. cbn [bind negb] in C. assert (RS := reduces_same e (p_run p) (the_look p) (or_introl TY)). destruct (fake_reduce t e (states p)) as [w| |] eqn:FR; [|rewrite RS in C; discriminate C|contradiction RS]. destruct RS as (d' & PF & EW). rewrite PF in C. cbn [bind] in C. injection C as <- <-. destruct (NX eq_refl eq_refl q0) as [n H]. exists (S n). cbn [can_reduce_loop]. rewrite ES, TY, FR. cbn [bind]. cbn [p_run] in H. rewrite EW in H. exact H.
    - rewrite TY in C. destruct (can_reduce_by t f terminal symbol e (states p)) as [go| |] eqn:CB; [|discriminate C|discriminate C]. cbn [bind] in C. unfold can_reduce_by in CB. rewrite TY in CB. destruct (fake_reduce t e (states p)) as [w| |] eqn:FR; [|discriminate CB|discriminate CB]. cbn [bind] in CB. unfold can_reduce in CB. destruct (top w) as [q'| |] eqn:TP; [|discriminate CB|discriminate CB]. cbn [bind] in CB. destruct (find_symbol t terminal q' symbol) as [l| |] eqn:F; [|discriminate CB|discriminate CB]. cbn [bind] in CB. destruct go; cbn [negb] in C.
      + exists (S f). cbn [can_reduce_loop]. rewrite ES, TY, FR. cbn [bind]. rewrite TP. cbn [bind]. rewrite F. cbn [bind]. rewrite CB. exact XT.
      + destruct (IH ROW' C NX) as [n H]. exists (S (Nat.max f n)). cbn [can_reduce_loop]. rewrite ES, TY, FR. cbn [bind]. rewrite TP. cbn [bind]. rewrite F. cbn [bind]. rewrite (le_done _ _ _ (can_reduce_loop_more t f _ terminal symbol q' q' l w (Nat.le_max_l f n)) CB). cbn [bind]. exact (more_loop X n _ _ _ _ _ _ _ XO (Nat.le_max_r f n) H).
    - exists 1%nat. cbn [can_reduce_loop]. rewrite ES, TY. exact XT.
  Qed.
  Lemma process_loop (X : outcome bool -> Prop) f terminal symbol q0 (p : parser L V) r p' : X (Done true) -> ~ X OutOfFuel -> (r = Rejected -> X (Done false) /\ X Undefined) ->
    symbol_of_look t L matched (nth_error (p_input p) 0) = (terminal, symbol) -> process f p = Done (r, p') ->
    (r = More -> p_input p' = p_input p -> forall q0, exists n, X (loop_at n terminal symbol q0 (states p'))) ->
    exists n, X (loop_at n terminal symbol q0 (states p)).
  Proof.
    intros XT XO XR SL PR NX. unfold RunModel.process in PR. rewrite SL in PR. cbn [p_run] in PR. unfold loop_at. destruct (top (states p)) as [q| |]; [|discriminate PR|discriminate PR]. cbn [bind] in PR |- *. destruct (find_symbol t terminal q symbol) as [l| |] eqn:F; [|discriminate PR|discriminate PR]. cbn [bind] in PR |- *.
    apply (choose_loop X f terminal symbol q0 q l (mkParser (p_run p) (p_input p) (Nat.max (p_seen p) (Nat.min 1 (length (p_input p))))) r p' XT XO XR SL (found_row _ _ _ _ F) PR NX).
  Qed.
  Lemma will_shift_loop p : will_shift p -> forall terminal symbol q0, symbol_of_look t L matched (nth_error (p_input p) 0) = (terminal, symbol) -> exists n, loop_at n terminal symbol q0 (states p) = Done true.
  Proof.
    assert (NO : OutOfFuel <> Done true) by discriminate.
    induction 1 as [fuel p l p' P I|fuel p p' P|fuel p p' P I W IH]; intros terminal symbol q0 SL; (refine (process_loop (fun x => x = Done true) fuel terminal symbol q0 p _ p' eq_refl NO _ SL P _); [discriminate|]).
    - intros _ I2. exfalso. rewrite I2 in I. apply (f_equal (@length _)) in I. cbn in I. lia.
    - discriminate.
    - intros _ _ q1. apply IH. rewrite I. exact SL.
  Qed.
  Lemma parse_loop fuel : forall p x terminal symbol q0, parse t L matched renamed V shift_value reduce_value fuel p = Done x -> symbol_of_look t L matched (nth_error (p_input p) 0) = (terminal, symbol) -> exists n, loop_at n terminal symbol q0 (states p) <> OutOfFuel.
  Proof.
    induction fuel as [|fuel IH]; intros p x terminal symbol q0 H SL; [discriminate H|]. cbn [parse] in H. destruct (process fuel p) as [[r p']| |] eqn:P; [|discriminate H|discriminate H]. cbn [bind] in H.
    apply (process_loop (fun x => x <> OutOfFuel) fuel terminal symbol q0 p r p'); [discriminate|intros X; apply X; reflexivity|intros _; split; discriminate|exact SL|exact P|]. intros -> I q1. apply (IH p' x terminal symbol q1 H). rewrite I. exact SL.
  Qed.
End Exact.
Lemma reached_first t L matched renamed V shift_value reduce_value fuel p0 r p1 p : process t L matched renamed V shift_value reduce_value fuel p0 = Done (r, p1) -> reached t L matched renamed V shift_value reduce_value p1 p -> reached t L matched renamed V shift_value reduce_value p0 p.
Proof. intros F R. induction R as [|f p r' p' R IH P]; eapply reached_step; [apply reached_here|exact F|exact IH|exact P]. Qed.

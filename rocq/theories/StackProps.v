(** C39: a parser stack and its copies. *)
From Verif Require Import Base OrdMap RunModel StackModel StackSpec StackProofs.
Local Open Scope Z_scope.

Section C39.
  Context (A : Type) (item0 : A) (state0 : Z) (depth : nat).
  Notation run := (run A item0 state0 depth).
  Notation get := (get A).
  Notation lifo_history := (history A item0 state0 (legal A)).
  Notation any_history := (history A item0 state0 (used_alive A)).

  (** C39, as far as it is true: when copies are destroyed in the order opposite to that in which they were made (and
      the initial depth is at least 2), whatever has been done to a stack and its copies, nothing undefined has
      happened, and every handle that lives shows what its own operations made of it: what a plain list would
      contain.  Missing: any other order of destruction (see C39_destroy_refuted and C39_lost_refuted). *)
  Theorem C39_contents_partial l a : (2 <= depth)%nat -> lifo_history l a ->
    exists w, run l = Done w /\ forall h st n, a_stacks a h = Some st -> exists x, get h n w = Done x /\ content A n st = Some x.
  Proof. intros D H. destruct (history_ok A item0 state0 depth D l a H) as (w & name & E & R). exists w. split; [exact E|]. intros h st n ES. exact (get_ok A depth name a w h st n R ES). Qed.

  (** No operation of one handle, except a change through the reference to the top, changes what another handle shows. *)
  Theorem C39_independent_partial l a o w w' : (2 <= depth)%nat -> lifo_history l a -> legal A o a -> ~ changes_entry A o -> run l = Done w -> run (l ++ [o]) = Done w' ->
    forall h n, live A a h -> subject A o <> Some h -> get h n w' = get h n w.
  Proof.
    intros D H LG NC E E' h n LH NS. destruct (history_ok A item0 state0 depth D l a H) as (w1 & name & E1 & R). rewrite E in E1. injection E1 as <-. destruct (history_ok A item0 state0 depth D _ _ (history_more A item0 state0 _ l a o H LG)) as (w2 & name' & E2 & R'). rewrite E' in E2. injection E2 as <-.
    assert (SAME : a_stacks (a_op A o a) h = a_stacks a h).
    { destruct o; cbn [a_op subject changes_entry] in *; try (now destruct NC).
      - cbn. unfold put. destruct (Nat.eqb_spec h (a_made a)) as [->|]; [|reflexivity]. destruct (rep_live A depth name a w _ R LH) as (st & x & _ & F & _). apply (rep_keys A depth _ _ _ R) in F. rewrite (rep_made A depth _ _ _ R) in F. lia.
      - cbn. unfold put. destruct (Nat.eqb_spec h h0); congruence.
      - cbn. unfold put. destruct (Nat.eqb_spec h h0); congruence.
      - destruct (a_stacks a h0); [|reflexivity]. cbn. unfold put. destruct (Nat.eqb_spec h h0); congruence.
      - destruct (a_stacks a h0) as [[|e [|e' st]]|]; try reflexivity. cbn. unfold put. destruct (Nat.eqb_spec h h0); congruence. }
    destruct (a_stacks a h) as [st|] eqn:ES; [|contradiction LH; reflexivity]. destruct (get_ok A depth name a w h st n R ES) as (x & G & C). destruct (get_ok A depth name' _ w' h st n R' SAME) as (x' & G' & C'). congruence.
  Qed.

  (** pop says whether there was anything to take away: the last entry always stays. *)
  Theorem C39_pop_partial l a h st w : (2 <= depth)%nat -> lifo_history l a -> run l = Done w -> a_stacks a h = Some st -> exists w', pop A h w = Done (Nat.ltb 1 (length st), w').
  Proof. intros D H E ES. destruct (history_ok A item0 state0 depth D l a H) as (w1 & name & E1 & R). rewrite E in E1. injection E1 as <-. destruct (pop_ok A depth D name a w h st R ES) as (w' & P & _). exists w'. exact P. Qed.
End C39.
Print Assumptions C39_contents_partial.
Print Assumptions C39_independent_partial.
Print Assumptions C39_pop_partial.

(** For concrete histories *)
Fixpoint all_ok {A} (ok : op A -> astate A -> Prop) (l : list (op A)) (a : astate A) : Prop := match l with [] => True | o :: l => ok o a /\ all_ok ok l (a_op A o a) end.
Lemma all_ok_history A item0 state0 ok l : forall l0 a, history A item0 state0 ok l0 a -> all_ok ok l a -> history A item0 state0 ok (l0 ++ l) (fold_left (fun a o => a_op A o a) l a).
Proof. induction l as [|o l IH]; intros l0 a H OK; [rewrite app_nil_r; exact H|]. destruct OK as [O OK]. replace (l0 ++ o :: l) with ((l0 ++ [o]) ++ l) by (rewrite <- app_assoc; reflexivity). cbn [fold_left]. apply IH; [apply history_more; assumption|exact OK]. Qed.
Fixpoint pushes (h : nat) (n : nat) : list (op Z) := match n with O => [] | S n => Push h (Z.of_nat n) 7 :: pushes h n end.

(** A history with two copies, which needs the collector and more entries than there were to begin with *)
Definition story : list (op Z) := [Push O 1 10; Copy O; Push O 2 20; Push 1%nat 3 30; Pop O; Push O 4 40; Push O 5 50; Copy 1%nat; Pop 2%nat; Push 2%nat 6 60; SetTop 1%nat 8 80; Destroy 2%nat; Push 1%nat 9 90; Push 1%nat 9 91].
Lemma story_history : history Z 0 0 (legal Z) story (fold_left (fun a o => a_op Z o a) story (start Z 0 0)).
Proof.
  apply (all_ok_history Z 0 0 (legal Z) story []); [constructor|]. cbn [story all_ok]. unfold legal, used_alive.
  repeat match goal with |- _ /\ _ => split | |- True => exact Logic.I | |- live _ _ _ => discriminate | |- forall h, _ = Destroy h -> _ => let E := fresh in intros ? E; (discriminate E || (injection E as <-; intros i; destruct i as [|[|[|i]]]; intros LI; [lia|lia|lia|contradiction LI; reflexivity])) end.
Qed.
Example C39_nontrivial : exists a w, history Z 0 0 (legal Z) story a /\ run Z 0 0 2 story = Done w /\ length (w_cells w) = 8%nat /\
  map (fun n => get Z O n w) [0; 1; 2; 3]%nat = [Done (5, 50); Done (4, 40); Done (1, 10); Done (0, 0)] /\ map (fun n => get Z 1 n w) [0; 2; 3; 4]%nat = [Done (9, 91); Done (8, 80); Done (1, 10); Done (0, 0)].
Proof. eexists. destruct (run Z 0 0 2 story) as [w| |] eqn:E; [|vm_compute in E; discriminate E|vm_compute in E; discriminate E]. exists w. split; [apply story_history|]. vm_compute in E. injection E as <-. repeat split. Qed.

(** * Where it is false *)
Ltac alive := apply (all_ok_history Z _ _ (used_alive Z) _ []); [constructor|]; cbn [all_ok used_alive]; repeat match goal with |- _ /\ _ => split | |- True => exact Logic.I | |- live _ _ _ => discriminate end.
(** After the handle a copy was made from has been destroyed (a stack that is copied and returned, say), every use of the copy is
    undefined: the entries have been deleted. *)
Theorem C39_destroy_refuted : forall depth, (2 <= depth)%nat -> exists l a st w, history Z 0 0 (used_alive Z) l a /\ a_stacks a 1%nat = Some st /\ run Z 0 0 depth l = Done w /\ forall n, get Z 1 n w = Undefined.
Proof.
  intros depth D. exists [Copy O; Destroy O]. destruct (create_ok Z 0 0 depth D) as (w0 & name & CR & R). assert (LV : live Z (start Z 0 0) O) by discriminate. destruct (copy_ok Z 0 depth D name _ w0 O R LV) as (w1 & CP & R1). eexists _, _.
  assert (E : exists w, run Z 0 0 depth [Copy O; Destroy O] = Done w /\ forall n, get Z 1 n w = Undefined).
  { unfold run. rewrite CR. cbn [bind do_ops do_op]. rewrite CP. cbn [bind]. unfold create in CR. destruct (get_new Z 0 0 depth (mkWorld (repeat (new_slot Z 0 0) depth) None 0 (Z.of_nat depth) [] 0 false)) as [[i w]| |] eqn:G; [|discriminate CR|discriminate CR]. cbn [bind] in CR. injection CR as <-. unfold copy in CP. cbn in CP. injection CP as <-.
    assert (RT : w_root w = None).
    { unfold get_new in G. cbn [w_free] in G. destruct (Z.leb_spec (Z.of_nat depth) 0); [lia|]. cbn [bind w_cells w_first] in G. destruct (find_free Z _ _ _); [|discriminate G|discriminate G]. cbn [bind] in G. destruct (cell_at _ _); [|discriminate G|discriminate G]. cbn [bind] in G. destruct (cell_set _ _ _); [|discriminate G|discriminate G]. cbn [bind] in G. injection G as <- <-. reflexivity. }
    unfold destroy. cbn. rewrite RT. cbn. eexists. split; [reflexivity|]. intros n. reflexivity. }
  destruct E as (w & E & G). exists w. split; [|split; [|split; [exact E|exact G]]]; [alive|]. reflexivity.
Qed.
Print Assumptions C39_destroy_refuted.

(** With the default depth: a stack and two copies.  The older copy is destroyed; then what the other copy contains is changed by
    pushing on the first stack. *)
Definition lost : list (op Z) := [Copy O; Copy O; Push 2%nat 100 5; Destroy 1%nat].
Theorem C39_lost_refuted : exists l o a w w', history Z 0 0 (used_alive Z) l a /\ used_alive Z o a /\ subject Z o = Some O /\ ~ changes_entry Z o /\ live Z a 2%nat /\
  run Z 0 0 64 l = Done w /\ run Z 0 0 64 (l ++ [o]) = Done w' /\ get Z 2 0 w = Done (100, 5) /\ get Z 2 0 w' = Done (0, 7).
Proof.
  exists (lost ++ pushes O 62), (Push O 0 7). eexists. destruct (run Z 0 0 64 (lost ++ pushes O 62)) as [w| |] eqn:E; [|vm_compute in E; discriminate E|vm_compute in E; discriminate E]. destruct (run Z 0 0 64 ((lost ++ pushes O 62) ++ [Push O 0 7])) as [w'| |] eqn:E'; [|vm_compute in E'; discriminate E'|vm_compute in E'; discriminate E']. exists w, w'.
  split; [unfold lost; cbn [pushes app]; alive|]. vm_compute in E. injection E as <-. vm_compute in E'. injection E' as <-. split; [discriminate|]. split; [reflexivity|]. split; [intros []|]. split; [discriminate|]. repeat split.
Qed.
Print Assumptions C39_lost_refuted.

(** A change through the reference to the top shows in a copy. *)
Theorem C39_modify_refuted : exists w w', run Z 0 0 64 [Copy O] = Done w /\ run Z 0 0 64 [Copy O; SetTop O 1 5] = Done w' /\ get Z 1 0 w = Done (0, 0) /\ get Z 1 0 w' = Done (1, 5).
Proof. destruct (run Z 0 0 64 [Copy O]) as [w| |] eqn:E; [|vm_compute in E; discriminate E|vm_compute in E; discriminate E]. destruct (run Z 0 0 64 [Copy O; SetTop O 1 5]) as [w'| |] eqn:E'; [|vm_compute in E'; discriminate E'|vm_compute in E'; discriminate E']. exists w, w'. vm_compute in E. injection E as <-. vm_compute in E'. injection E' as <-. repeat split. Qed.
Print Assumptions C39_modify_refuted.

(** With an initial depth of 1 the first push looks for ever for a free entry; with 0 making a stack is undefined. *)
Theorem C39_depth_refuted : (exists w, create Z 0 0 1 = Done w /\ length (w_cells w) = 1%nat /\ (forall fuel i, i = 0 -> find_free Z fuel (w_cells w) i = OutOfFuel) /\ forall s v, push Z 0 0 1 0 s v w = OutOfFuel) /\ create Z 0 0 0 = Undefined.
Proof.
  split; [|reflexivity]. destruct (create Z 0 0 1) as [w| |] eqn:E; [|vm_compute in E; discriminate E|vm_compute in E; discriminate E]. exists w. vm_compute in E. injection E as <-. split; [reflexivity|]. split; [reflexivity|]. split; [|reflexivity].
  intros fuel i ->. apply (find_free_endless Z 2 (le_n 2)); [|cbn; lia]. intros i c C. apply cell_iff in C. destruct C as [R C]. apply nth_error_In in C. destruct C as [<-|[]]. discriminate.
Qed.
Print Assumptions C39_depth_refuted.

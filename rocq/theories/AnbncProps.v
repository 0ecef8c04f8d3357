(** C96: the parser made for the example language Examples/ContextSensitive.tp accepts exactly the words
    a^n b^n c^n.  *)
From Verif Require Import Base OrdMap GrammarModel GrammarProofs FirstModel FirstProofs FollowModel FollowSpec FollowProofs FollowProps LrItemModel LrItemProofs ClosureModel ClosureSpec ClosureProofs ClosureTermProofs ClosureProps MachineModel MachineProofs BuilderModel BuilderSpec BuilderProofs BuilderLookProofs BuilderTermProofs BuilderProps ActionModel ActionSpec ActionProofs ActionProps TableModel TableProofs TableProps RunModel RunSpec RunProofs RunTableProofs RunTool RunProps AnbncModel AnbncProofs.
Local Open Scope Z_scope.

(** The parser accepts an input, for every way to number the symbols of the lexemes and for every kind of
    actions, exactly when the input is as many a as b as c, in this order and at least one of each: the
    language that is not context-free.  Partial: 'b'* is a nonterminal, and the tables are those of the
    builder before any rewriting of actions. *)
Theorem C96_exact_partial : forall L matched renamed V shift_value reduce_value v0 (input : list L),
  (exists fuel p, parse anbncn_tables L matched renamed V shift_value reduce_value fuel (start_parser L V 0 v0 input) = Done (true, p)) <->
  exists n, (0 < n)%nat /\ map matched input = repeat sym_a n ++ repeat sym_b n ++ repeat sym_c n.
Proof.
  intros L matched renamed V sv rv v0 input. split.
  - intros (fuel & p & H). unfold anbncn_tables in H. destruct (tool anbncn anbncn_items [INonterm 0]) as [[[m g] a]|] eqn:E; [|vm_compute in E; discriminate E].
    pose proof (tool_compiled _ _ _ (fun _ _ => False) (fun _ => False) _ _ _ E) as CO. assert (KQ : forall k, kernel m 0 k <-> k = language_start (INonterm 0)).
    { clear - E. vm_compute in E. injection E as <- _ _. intros k. split; [intros (s & S & K); vm_compute in S; injection S as <-; destruct K as [<-|[]]; reflexivity|intros ->; eexists; split; [vm_compute; reflexivity|left; reflexivity]]. }
    destruct (C37_derivation_partial _ _ _ _ _ _ _ _ _ _ _ _ _ _ _ _ _ _ CO KQ _ _ _ _ _ _ _ _ _ _ H) as (_ & tree & rs & word & PA & _). exact (sound _ _ _ _ _ PA).
  - intros (n & P & M). rewrite made_tables. destruct (complete L matched renamed V sv rv (eq guard_symbol) eq_refl (eq true) eq_refl n input (5 * n + 3) ltac:(intros g <-; left; reflexivity) P (le_n _) M [(0, v0)] [] 0%nat eq_refl) as (b & p & E & <-). eexists. exists p. exact E.
Qed.
Print Assumptions C96_exact_partial.

(** The parser decides the language: given a number of steps that is linear in the length of the input, it accepts
    or rejects, and meets no undefined behaviour, whatever the input is.  Partial as above. *)
Theorem C96_decides_partial : forall L matched renamed V shift_value reduce_value v0 (input : list L) fuel, (5 * length input + 4 <= fuel)%nat ->
  exists b p, parse anbncn_tables L matched renamed V shift_value reduce_value fuel (start_parser L V 0 v0 input) = Done (b, p) /\
    (b = true <-> exists n, (0 < n)%nat /\ map matched input = repeat sym_a n ++ repeat sym_b n ++ repeat sym_c n).
Proof.
  intros L matched renamed V sv rv v0 input fuel F. destruct fuel as [|fuel]; [lia|].
  destruct (all_end L matched renamed V sv rv (fun g => g = guard_symbol \/ g = -1) (or_introl eq_refl) (fun _ => True) Logic.I input fuel Logic.I ltac:(tauto) ltac:(lia) [(0, v0)] [] 0%nat eq_refl) as (b & p & E & _).
  rewrite <- made_tables in E. exists b, p. split; [exact E|]. split.
  - intros ->. apply (C96_exact_partial L matched renamed V sv rv v0 input). exists (S fuel), p. exact E.
  - intros (n & P & M). assert (LN : (n <= length input)%nat) by (rewrite <- (map_length matched), M, app_length, repeat_length; lia). rewrite made_tables in E.
    destruct (complete L matched renamed V sv rv (eq guard_symbol) eq_refl (eq true) eq_refl n input fuel ltac:(intros g <-; left; reflexivity) P ltac:(lia) M [(0, v0)] [] 0%nat eq_refl) as (b' & p' & E' & <-). unfold start_parser in E. rewrite E' in E. injection E as <- _. reflexivity.
Qed.
Print Assumptions C96_decides_partial.

Definition accepts (word : list Z) : outcome bool := do (b, _) <- parse anbncn_tables Z (fun x => x) (fun x _ => x) unit (fun _ => tt) (fun _ _ _ => tt) 60 (start_parser Z unit 0 tt word) ;; Done b.
(** aabbcc and abc are accepted; aabbc, aabbccc, abbc, aabcc and the empty word are not. *)
Example C96_example : map accepts [[4;4;5;5;6;6]; [4;5;6]; [4;4;5;5;6]; [4;4;5;5;6;6;6]; [4;5;5;6]; [4;4;5;6;6]; []] = [Done true; Done true; Done false; Done false; Done false; Done false; Done false].
Proof. vm_compute. reflexivity. Qed.

(** C85: the texts in which items, rules, LR items, states, actions, conflicts and syntax trees are shown
    can be read back: different things look different. *)
From Coq Require Import String.
From Verif Require Import Base GrammarModel LrItemModel ActionModel BuilderModel ConflictModel NamesModel FormatModel FormatSpec FormatProofs.
Local Open Scope Z_scope.

(** Names for the examples: terminals 0 to 3 and nonterminals 0 and 1, other symbols have words as names *)
Definition ex_T (s : Z) : str :=
  if s =? 0 then codes "id" else if s =? 1 then codes "'('" else if s =? 2 then codes """ ) \""]""" else if s =? 3 then codes "empty" else codes "t" ++ number s.
Definition ex_N (s : Z) : str := if s =? 0 then codes "<A>" else if s =? 1 then codes "<list>" else codes "<n" ++ number s ++ codes ">".

(** The full statement is false: the priority of a guard is not shown. *)
Theorem C85_exact_refuted : exists T N i j, told_apart T N /\ legible T N i /\ legible T N j /\ i <> j /\ show_item T N i = show_item T N j.
Proof.
  exists (fun s => 116 :: 45 :: number s), (fun s => 60 :: number s), (IGuard 0 []), (IGuard 1 []). repeat split; try discriminate; intros s t E; injection E as E; apply (number_same (fun _ => []) (fun _ => [])), E.
Qed.
Print Assumptions C85_exact_refuted.
(** An LR(1) item with an empty item at the end of its rule looks like one with a lookahead called "empty" *)
Theorem C85_lookahead_refuted : exists T N k m look look', legible_lr0 T N k /\ legible_lr0 T N m /\ (forall i, In i look -> legible T N i) /\ (forall i, In i look' -> legible T N i) /\
  see_lr0 T N k <> see_lr0 T N m /\ show_lr1 T N k look = show_lr1 T N m look'.
Proof.
  exists (fun _ => codes "empty"), (fun _ => codes "<A>"), (mkLr0 (mkRule (INonterm 0) []) 0), (mkLr0 (mkRule (INonterm 0) [IEmpty]) 0), [ITerm 0], [].
  assert (A : nonterminal_like (codes "<A>")) by (apply like_angles; repeat constructor; vm_compute; intuition discriminate).
  split; [split; [split; [exact A|intros i []]|vm_compute; lia]|]. split; [split; [split; [exact A|intros i [<-|[]]; exact Logic.I]|vm_compute; lia]|].
  split; [|split; [intros i []|split; [discriminate|vm_compute]]].
  - intros i [<-|[]]. cbn. apply like_word; [vm_compute; intuition discriminate|vm_compute; intuition discriminate|repeat constructor; vm_compute; intuition discriminate].
  - (* "<A> = ^ [empty]" against "<A> = ^ [empty]" *)
    reflexivity.
Qed.
Print Assumptions C85_lookahead_refuted.
(** Items: the structure and the names can be read back.  [_partial]: with names as in definition files
    ([legible]), up to the priorities of guards and to symbols that share a name (the weak copies of a symbol
    are shown with the name of the symbol). *)
Theorem C85_item_partial T N i j : legible T N i -> legible T N j -> show_item T N i = show_item T N j -> see T N i = see T N j.
Proof. intros L K E. apply (item_reads T N i j [] []); auto using delim_nil. rewrite !app_nil_r. exact E. Qed.
Print Assumptions C85_item_partial.
(** If in addition the names differ and the priorities are the same, the items are the same *)
Theorem C85_same_item_partial T N p i j : told_apart T N -> guards_at p i -> guards_at p j -> legible T N i -> legible T N j -> show_item T N i = show_item T N j -> i = j.
Proof. intros D G1 G2 L K E. apply (see_same T N i D j p G1 G2). apply C85_item_partial; assumption. Qed.
Print Assumptions C85_same_item_partial.
(** Sets of items *)
Theorem C85_set_partial T N l k : (forall i, In i l -> legible T N i) -> (forall i, In i k -> legible T N i) -> show_set T N l = show_set T N k -> map (see T N) l = map (see T N) k.
Proof. apply set_same. Qed.
Print Assumptions C85_set_partial.
(** Rules, as in the messages about conflicts *)
Theorem C85_rule_partial T N a b : legible_rule T N a -> legible_rule T N b -> show_rule T N a (-1) true = show_rule T N b (-1) true -> see_rule T N a = see_rule T N b.
Proof. intros L K E. apply paren_rule; [exact L|exact K|]. rewrite E. reflexivity. Qed.
Print Assumptions C85_rule_partial.
(** LR items: rule and place of the dot *)
Theorem C85_lr0_partial T N k m : legible_lr0 T N k -> legible_lr0 T N m -> show_lr0 T N k = show_lr0 T N m -> see_lr0 T N k = see_lr0 T N m.
Proof. intros L K E. apply (lr0_ended T N k m [] []); try assumption; [left; reflexivity|left; reflexivity|]. rewrite !app_nil_r. exact E. Qed.
Print Assumptions C85_lr0_partial.
(** LR items with lookahead; in a rule without empty items, as those of a definition file are *)
Theorem C85_lr1_partial T N k m look look' : legible_lr0 T N k -> legible_lr0 T N m -> (forall i, In i look -> legible T N i) -> (forall i, In i look' -> legible T N i) ->
  ~ In IEmpty (r_items (l_rule k)) -> ~ In IEmpty (r_items (l_rule m)) ->
  show_lr1 T N k look = show_lr1 T N m look' -> see_lr0 T N k = see_lr0 T N m /\ map (see T N) look = map (see T N) look'.
Proof. apply lr1_same. Qed.
Print Assumptions C85_lr1_partial.
(** States without their closure *)
Theorem C85_state_partial T N l k : (forall x, In x l -> legible_entry T N x) -> (forall x, In x k -> legible_entry T N x) ->
  show_state T N true l = show_state T N true k -> map (see_entry T N) l = map (see_entry T N) k.
Proof. apply state_same. Qed.
Print Assumptions C85_state_partial.
(** Actions *)
Theorem C85_action_partial T N a b : legible_action T N a -> legible_action T N b -> show_action T N a = show_action T N b -> same_action T N a b.
Proof. apply action_same. Qed.
Print Assumptions C85_action_partial.
(** Conflicts *)
Theorem C85_conflict_partial T N a b : legible_conflict T N a -> legible_conflict T N b -> show_conflict T N a = show_conflict T N b -> see_conflict T N a = see_conflict T N b.
Proof. apply conflict_same. Qed.
Print Assumptions C85_conflict_partial.
(** Syntax trees, with any text in their tokens *)
Theorem C85_tree_partial T N n m : legible_node T N n -> legible_node T N m -> show_node T N n = show_node T N m -> see_node T N n = see_node T N m.
Proof. apply node_same. Qed.
Print Assumptions C85_tree_partial.

(** ** Examples *)
Ltac words := repeat constructor; vm_compute; intuition discriminate.
Definition ex_items : list item := [INonterm 0; IEbnf RepeatZero [[ITerm 1; IEbnf Alternative [[ITerm 0]; []; [IGuard 0 [ITerm 2; INonterm 1]]]]]; ITerm 3; IEoi].
Lemma ex_legible i : In i ex_items -> legible ex_T ex_N i.
Proof.
  assert (A : terminal_like (ex_T 0)) by (apply like_word; [discriminate|words|words]).
  assert (B : terminal_like (ex_T 1)) by (apply like_char; discriminate).
  assert (C : terminal_like (ex_T 2)).
  { apply (like_string (codes " ) \""]")). cbv. repeat (apply body_plain; [discriminate|discriminate|discriminate|]). apply body_escape; [discriminate|]. apply body_plain; [discriminate|discriminate|discriminate|]. constructor. }
  assert (D : terminal_like (ex_T 3)) by (apply like_word; [discriminate|words|words]).
  assert (E : nonterminal_like (ex_N 0)) by (apply like_angles; words).
  assert (F : nonterminal_like (ex_N 1)) by (apply like_angles; words).
  intros [<-|[<-|[<-|[<-|[]]]]]; cbn; try assumption; repeat match goal with |- _ /\ _ => split | |- True => exact Logic.I end; try assumption; intros X; try reflexivity; destruct X; reflexivity.
Qed.
Example C85_nontrivial :
  (** The text of an item with everything in it *)
  (let k := mkLr0 (mkRule (INonterm 1) ex_items) 2 in
   legible_lr0 ex_T ex_N k /\ ~ In IEmpty (r_items (l_rule k)) /\
   show_lr1 ex_T ex_N k [ITerm 0; IEoi] = codes "<list> = <A> ( '(' ( id |  | [=> "" ) \""]"" <list>] ) )* ^ empty $ [id, $]") /\
  (** An action and a conflict *)
  show_action ex_T ex_N (mkAction Reduce (ITerm 1) 0 (mkRule (INonterm 1) [])) = codes "Reduce on '(' (<list> = )" /\
  show_action ex_T ex_N (mkAction Shift (ITerm 1) 12 no_rule) = codes "Shift to 12 on '('" /\
  show_conflict ex_T ex_N (mkConflict 7 (ITerm 0) [mkLr0 (mkRule (INonterm 0) [ITerm 0]) 0] [(mkLr0 (mkRule (INonterm 1) []) 0, [])]) =
    codes "Shift/reduce conflict in state 7 on id" ++ 10 :: codes "  Shift:" ++ 10 :: codes "    <A> = ^ id" ++ 10 :: codes "  Or reduce:" ++ 10 :: codes "    <list> = ^" /\
  (** A tree with a line break in a token *)
  (let n := Node (Some (INonterm 1)) None [Node (Some (INonterm 0)) None [Node None (Some (0, codes "x")) []]; Node None (Some (1, codes "(" ++ [10] ++ codes "y")) []] in
   legible_node ex_T ex_N n /\
   show_node ex_T ex_N n = codes "<list>" ++ 10 :: codes "+- <A>" ++ 10 :: codes "|  +- id ""x""" ++ 10 :: codes "+- '(' ""(" ++ 10 :: codes "   y""").
Proof.
  assert (E : nonterminal_like (ex_N 0)) by (apply like_angles; words).
  assert (F : nonterminal_like (ex_N 1)) by (apply like_angles; words).
  split; [split; [split; [split; [exact F|exact ex_legible]|cbv; lia]|split; [intros H; repeat (destruct H as [H|H]; [discriminate H|]); exact H|vm_compute; reflexivity]]|].
  split; [vm_compute; reflexivity|]. split; [vm_compute; reflexivity|]. split; [vm_compute; reflexivity|].
  split; [|vm_compute; reflexivity].
  apply legible_inner; [exact F|]. intros c [<-|[<-|[]]].
  - apply legible_inner; [exact E|]. intros c [<-|[]]. apply legible_leaf. apply like_word; [discriminate|words|words].
  - apply legible_leaf. apply like_char. discriminate.
Qed.

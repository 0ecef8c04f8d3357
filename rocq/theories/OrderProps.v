(** C89: the orders of lexemes, syntax trees, accepting actions, states and
    conflicts. *)

From Verif Require Import Base OrdMap DefCopyModel GrammarModel GrammarProofs FirstModel LrItemModel LrItemProofs BuilderModel BuilderLookProofs OrderModel OrderSpec OrderProofs.
From Coq Require Import Lia.
Local Open Scope Z_scope.

(** Positions and lexemes are ordered strictly and completely. *)
Theorem C89_lexemes : strict_total pos_ltb /\ strict_total lexeme_ltb /\ strict_total (pointer_ltb lexeme_ltb).
Proof. split; [apply pos_strict | split; [apply lexeme_strict | apply pointer_strict, lexeme_strict]]. Qed.
Print Assumptions C89_lexemes.

(** So are states and conflicts, if different rules have different numbers. *)
Theorem C89_states (rid : rule -> Z) : injective rid -> strict_total (state_ltb rid) /\ strict_total (conflict_ltb rid).
Proof. intros I. split; [now apply state_strict | now apply conflict_strict]. Qed.
Print Assumptions C89_states.

(** A state with fewer items comes first, and a conflict of an earlier state. *)
Theorem C89_first (rid : rule -> Z) :
  (forall a b, (length a < length b)%nat -> state_ltb rid a b = true)
  /\ (forall a b, c_state a < c_state b -> conflict_ltb rid a b = true)
  /\ (forall a b, w_matched a < w_matched b -> lexeme_ltb a b = true).
Proof.
  repeat (match goal with |- _ /\ _ => split end); intros a b L.
  - unfold state_ltb. now rewrite (proj2 (Nat.ltb_lt _ _) L).
  - unfold conflict_ltb. now rewrite (proj2 (Z.ltb_lt _ _) L).
  - unfold lexeme_ltb. now rewrite (proj2 (Z.ltb_lt _ _) L).
Qed.
Print Assumptions C89_first.

(** Trees of which no two pull in opposite directions are ordered, and trees
    which the order does not tell apart differ in the numbers of their rules
    at most. *)
Theorem C89_trees_partial : orders unopposed alike node_ltb.
Proof. exact nodes_ordered. Qed.
Print Assumptions C89_trees_partial.

(** That holds for trees without lexemes and for trees of the same outline, and
    what is smaller decides at the top: the item, or the lexeme, or the number
    of children. *)
Theorem C89_fine :
  (forall a b, bare a -> bare b -> unopposed a b)
  /\ (forall a b, outlined a b -> unopposed a b)
  /\ (forall i r l cs i' r' l' cs', i < i' -> node_ltb (Node i r l cs) (Node i' r' l' cs') = true)
  /\ (forall i r l cs i' r' l' cs', pointer_ltb lexeme_ltb l l' = true -> node_ltb (Node i r l cs) (Node i' r' l' cs') = true)
  /\ (forall i r l cs r' cs', (length cs < length cs')%nat -> node_ltb (Node i r l cs) (Node i r' l cs') = true).
Proof.
  repeat (match goal with |- _ /\ _ => split end).
  - intros a b. apply bare_unopposed.
  - apply outlined_unopposed.
  - intros. unfold node_ltb. rewrite both_eq. cbv zeta. cbn [fst]. now rewrite (proj2 (Z.ltb_lt _ _) H).
  - intros. unfold node_ltb. rewrite both_eq. cbv zeta. cbn [fst]. now rewrite H, orb_true_r.
  - intros. unfold node_ltb. rewrite both_eq. cbv zeta. cbn [fst].
    rewrite Z.ltb_irrefl, (st_irrefl _ (pointer_strict _ lexeme_strict)). cbn [orb]. now rewrite (proj2 (Nat.ltb_lt _ _) H).
Qed.
Print Assumptions C89_fine.

(** The order of all trees is none: the node of any lexeme and the node of any
    nonterminal are each smaller than the other, wherever they occur. *)
Theorem C89_trees_refuted : forall word r n r' cs cs', 0 <= n ->
  let leaf := Node (-1) r (Some word) cs in
  let inner := Node n r' None cs' in
  node_ltb leaf inner = true /\ node_ltb inner leaf = true.
Proof.
  intros word r n r' cs cs' N leaf inner. unfold node_ltb, leaf, inner. rewrite !both_eq. cbv zeta. cbn [fst pointer_ltb].
  rewrite (proj2 (Z.ltb_lt (-1) n)) by lia. rewrite orb_true_r. now split.
Qed.
Print Assumptions C89_trees_refuted.

(** Accepting actions of one kind are ordered by their importance, the smaller
    being the less important. *)
Theorem C89_actions_partial : orders one_kind equal_rank accept_ltb.
Proof. exact actions_ordered. Qed.
Print Assumptions C89_actions_partial.

(** Weak actions are the more important, then those of a lower unit type, then
    those of a lower symbol. *)
Theorem C89_importance : forall s t s' t',
  (accept_ltb (OfLanguage s t false) (OfLanguage s' t' true) = true)
  /\ (forall w, t' < t -> accept_ltb (OfLanguage s t w) (OfLanguage s' t' w) = true)
  /\ (forall w, s' < s -> accept_ltb (OfLanguage s t w) (OfLanguage s' t w) = true)
  /\ (forall e e', s' < s -> accept_ltb (Plain s e) (Plain s' e') = true).
Proof.
  intros s t s' t'. repeat (match goal with |- _ /\ _ => split end).
  - reflexivity.
  - intros w L. cbn. rewrite eqb_reflx. cbn. now rewrite (proj2 (Z.ltb_lt _ _) L).
  - intros w L. cbn. rewrite eqb_reflx, Z.ltb_irrefl. cbn. now rewrite (proj2 (Z.ltb_lt _ _) L).
  - intros e e' L. cbn. lia.
Qed.
Print Assumptions C89_importance.

(** Actions of both kinds together are not ordered: an action of a language is
    less important than each other action, although it is said to be more
    important, and the other action is less important than it if its symbol
    is the higher. *)
Theorem C89_actions_refuted : forall s t w s' e, s < s' ->
  accept_ltb (OfLanguage s t w) (Plain s' e) = true /\ accept_ltb (Plain s' e) (OfLanguage s t w) = true.
Proof. intros s t w s' e L. cbn. split; [reflexivity | lia]. Qed.
Print Assumptions C89_actions_refuted.

(** Two words, two sums of them and two states. *)
Definition ex_one : lexeme := mkWord 3 [49] (mkPos 0 0 0).
Definition ex_two : lexeme := mkWord 3 [50] (mkPos 4 0 4).
Definition ex_leaf (w : lexeme) : node := Node (-1) None (Some w) [].
Definition ex_sum (a b : node) : node := Node 2 (Some 1) None [a; b].

Example C89_nontrivial :
  lexeme_ltb ex_one ex_two = true
  /\ outlined (ex_sum (ex_leaf ex_one) (ex_leaf ex_two)) (ex_sum (ex_leaf ex_two) (ex_leaf ex_one))
  /\ node_ltb (ex_sum (ex_leaf ex_one) (ex_leaf ex_two)) (ex_sum (ex_leaf ex_two) (ex_leaf ex_one)) = true
  /\ node_ltb (ex_sum (ex_leaf ex_one) (ex_leaf ex_two)) (ex_sum (ex_leaf ex_one) (ex_leaf ex_one)) = false
  /\ (let nested := ex_sum (ex_sum (ex_leaf ex_one) (ex_leaf ex_two)) (ex_leaf ex_one) in
      let flat := ex_sum (ex_leaf ex_one) (ex_leaf ex_two) in
      node_ltb nested flat = true /\ node_ltb flat nested = true)
  /\ one_kind (OfLanguage 5 1 false) (OfLanguage 4 2 false).
Proof.
  repeat (match goal with |- _ /\ _ => split end); try (vm_compute; reflexivity).
  - repeat constructor; intros; discriminate.
  - split; vm_compute; reflexivity.
Qed.

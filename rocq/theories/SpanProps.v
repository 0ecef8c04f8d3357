(** C88: the positions of the objects of a definition file. *)

From Coq Require Import List ZArith Bool Lia.
From Verif Require Import DefCopyModel DefCopySpec DefCopyProofs SpanModel SpanSpec SpanProofs.
Import ListNotations.

(** Items that the reader makes: if the parts of the syntax tree lie inside the
    whole, then so do the parts of the item, all the way down, and the item
    lies where it was written. *)
Theorem C88_items : forall x, nested x -> covering (make_simple x) /\ inside (span_of (make_simple x)) (place_simple x).
Proof. intros x N. destruct (make_good x N) as (A & B & _). now split. Qed.
Print Assumptions C88_items.

(** Productions that the reader makes lie exactly where they were written. *)
Theorem C88_production : forall w items, proper w -> Forall nested items ->
  Forall (fun x => inside (place_simple x) w) items -> make_production w items = w.
Proof. exact production_span. Qed.
Print Assumptions C88_production.

(** A production without a position, to which items are added in the order of
    the text, runs from the start of the first to the end of the last.  Missing
    for the full claim: items in another order, and items that are empty
    ([C88_added_refuted]). *)
Theorem C88_in_order_partial : forall w n l, s_start w = s_end w -> in_order n l ->
  fold_left add_item (n :: l) w = mkSpan (s_start n) (s_end (last l n)).
Proof. exact ordered_first. Qed.
Print Assumptions C88_in_order_partial.

(** A file is exactly as long as its blocks say. *)
Theorem C88_file : forall f, made f -> f_blocks f <> [] -> least_around (f_span f) (map o_span (f_blocks f)).
Proof.
  intros f (here & l & ->) N. apply least_same. apply fold_least. left. split; [reflexivity |].
  intros ->. apply N. reflexivity.
Qed.
Print Assumptions C88_file.

(** Languages and imports know where they are; parsers and tests do not: their
    blocks always have the position of an object without one. *)
Theorem C88_blocks_partial :
  (forall here l, holds (of_language here l) = [o_span (of_language here l)])
  /\ (forall here i, holds (of_import here i) = [o_span (of_import here i)])
  /\ (forall here p, o_span (of_parser here p) = span0) /\ (forall here t, o_span (of_tests here t) = span0).
Proof. repeat (match goal with |- _ /\ _ => split end); reflexivity. Qed.
Print Assumptions C88_blocks_partial.

(** An item which has a position never gets another end, whatever is added to
    it. *)
Theorem C88_end_kept : forall l w cs, s_end w <> pos0 ->
  s_end (span_of (fold_left add_child l (Shape w cs))) = s_end w.
Proof.
  induction l as [| c r IH]; intros w cs P; [reflexivity |]. cbn [fold_left].
  assert (N : pos_eqb (s_end w) pos0 = false).
  { destruct (pos_eqb (s_end w) pos0) eqn:E; [| reflexivity]. apply pos_eqb_true in E. contradiction. }
  unfold add_child. rewrite N, andb_false_r. destruct (placed (span_of c)); [| now apply IH].
  cbv zeta. destruct (pos_ltb (s_end w) (s_end (span_of c))); rewrite IH; auto.
Qed.
Print Assumptions C88_end_kept.

(** The full claim fails: an item which ends before its second part does, a
    production which starts after its second part does, a production that
    forgets an empty first part, a file whose parser lies outside it. *)
Definition at_column (a b : Z) : span := mkSpan (mkPos a 0 a) (mkPos b 0 b).
Theorem C88_added_refuted :
  (exists x y, proper (span_of x) /\ proper (span_of y) /\ upto (s_end (span_of x)) (s_start (span_of y))
     /\ ~ covering (add_child (add_child (Shape span0 []) x) y))
  /\ (exists w n m, proper n /\ proper m /\ s_start w = s_end w /\ ~ inside m (add_item (add_item w n) m))
  /\ (exists w n m, proper n /\ proper m /\ s_start w = s_end w /\ upto (s_end n) (s_start m) /\ ~ inside n (add_item (add_item w n) m))
  /\ (exists i p, let f := fold_left add_block [of_import 1 i; of_parser 3 p] (empty_file 0) in
        proper (m_span i) /\ proper (r_span p) /\ upto (s_end (m_span i)) (s_start (r_span p)) /\ ~ inside (r_span p) (f_span f)
        /\ s_start (f_span f) <> s_start (m_span i)).
Proof.
  repeat (match goal with |- _ /\ _ => split end).
  - exists (Shape (at_column 3 4) []), (Shape (at_column 5 6) []).
    repeat (match goal with |- _ /\ _ => split end); try (unfold proper, upto; cbn; lia).
    intros C. vm_compute in C. inversion C as [w parts F _ E]. subst. inversion F as [| a b I F' E']. subst. inversion F' as [| a b I' F'' E']. subst.
    unfold inside, upto in I'. cbn in I'. lia.
  - exists span0, (at_column 5 9), (at_column 2 3).
    repeat (match goal with |- _ /\ _ => split end); try reflexivity; try (unfold proper, upto; cbn; lia).
    unfold inside, upto. cbn. lia.
  - exists span0, (at_column 3 3), (at_column 5 9).
    repeat (match goal with |- _ /\ _ => split end); try reflexivity; try (unfold proper, upto; cbn; lia).
    unfold inside, upto. cbn. lia.
  - exists (mkImport 2 [] (at_column 3 5)), (mkParser 4 [] [] [] (at_column 6 9)). cbv zeta.
    repeat (match goal with |- _ /\ _ => split end); try (unfold proper, upto; cbn; lia).
    + unfold inside, upto. cbn. lia.
    + cbn. discriminate.
Qed.
Print Assumptions C88_added_refuted.

(** The item [a (b | c)* \[=> d\]], character by character. *)
Example C88_nontrivial :
  let symbol a := Symbol (at_column a (a + 1)) in
  let choice := Ebnf (at_column 3 8) [symbol 3%Z] (Some (Ebnf (at_column 7 8) [symbol 7%Z] None)) in
  let whole := Paren (at_column 0 20) (Ebnf (at_column 0 20)
    [symbol 0%Z; Suffix (at_column 2 10) (Paren (at_column 2 9) choice); GuardOf (at_column 11 18) (Ebnf (at_column 15 16) [symbol 15%Z] None)] None) in
  nested whole
  /\ make_simple whole
     = Shape (at_column 0 20) [Shape (at_column 0 1) [];
         Shape (at_column 2 10) [Shape (at_column 3 8) [Shape (at_column 3 4) []; Shape (at_column 7 8) []]];
         Shape (at_column 15 16) [Shape (at_column 15 16) []]].
Proof.
  cbv zeta. split; [| vm_compute; reflexivity].
  repeat match goal with
  | |- nested _ => constructor
  | |- nested_ebnf _ => constructor
  | |- Forall _ _ => constructor
  | |- proper _ => unfold proper, upto; cbn; lia
  | |- inside _ _ => unfold inside, upto; cbn; lia
  | |- forall x, In x _ -> _ => intros x K; cbn in K; repeat (destruct K as [<- | K]); [.. | destruct K]
  | |- forall e, Some _ = Some e -> _ => intros e K; injection K as <-
  | |- forall e, None = Some e -> _ => intros e K; discriminate K
  end.
Qed.

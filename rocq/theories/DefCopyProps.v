(** C87: copying, assigning and destroying the objects of a definition file. *)

From Coq Require Import List ZArith Arith Bool Permutation Lia.
From Verif Require Import DefCopyModel DefCopySpec DefCopyProofs.
Import ListNotations.

(** Destroying an object deletes every object that belongs to it, each once. *)
Theorem C87_destroyed :
  (forall x, Permutation (destroy_item x) (below_item x))
  /\ (forall x, Permutation (destroy_production x) (below_production x))
  /\ (forall x, Permutation (destroy_nonterminal x) (below_nonterminal x))
  /\ (forall x, Permutation (destroy_grammar x) (below_grammar x))
  /\ (forall x, Permutation (destroy_lexer x) (below_lexer x))
  /\ (forall x, Permutation (destroy_precedence x) (below_precedence x))
  /\ (forall x, Permutation (destroy_unit x) (below_unit x))
  /\ (forall x, Permutation (destroy_language x) (below_language x))
  /\ (forall x, Permutation (destroy_tests x) (below_tests x))
  /\ (forall x, Permutation (destroy_toplevel x) (below_toplevel x))
  /\ (forall x, Permutation (destroy_file x) (below_file x)).
Proof.
  repeat (match goal with |- _ /\ _ => split end).
  - apply destroy_item_perm.
  - apply destroy_production_perm.
  - apply destroy_nonterminal_perm.
  - apply destroy_grammar_perm.
  - apply destroy_lexer_perm.
  - apply destroy_precedence_perm.
  - apply destroy_unit_perm.
  - apply destroy_language_perm.
  - apply destroy_tests_perm.
  - apply destroy_toplevel_perm.
  - apply destroy_file_perm.
Qed.
Print Assumptions C87_destroyed.

(** Every object can be copied: the copy is made of new objects and says what
    the original says, except for what [left_item], ..., [left_file] name.
    Missing for the full claim: those values ([C87_lost]), and precedence
    blocks which are not empty ([C87_memory]). *)
Theorem C87_copies_partial :
  copies copy_item i_at below_item content_item left_item (fun _ => True)
  /\ copies copy_production pr_at below_production content_production left_production (fun _ => True)
  /\ copies copy_nonterminal n_at below_nonterminal content_nonterminal left_nonterminal (fun _ => True)
  /\ copies copy_grammar g_at below_grammar content_grammar left_grammar (fun _ => True)
  /\ copies copy_lexeme l_at (fun _ => []) content_lexeme content_lexeme (fun _ => True)
  /\ copies copy_lexer x_at below_lexer content_lexer left_lexer (fun _ => True)
  /\ copies copy_precedence e_at below_precedence content_precedence content_precedence plain_precedence
  /\ copies copy_unit u_at below_unit content_unit left_unit plain_unit
  /\ copies copy_language b_at below_language content_language left_language plain_language
  /\ copies copy_import m_at (fun _ => []) content_import content_import (fun _ => True)
  /\ copies copy_parser r_at (fun _ => []) content_parser content_parser (fun _ => True)
  /\ copies copy_test t_at (fun _ => []) content_test content_test (fun _ => True)
  /\ copies copy_tests k_at below_tests content_tests left_tests (fun _ => True)
  /\ copies copy_toplevel o_at below_toplevel content_toplevel left_toplevel plain_toplevel
  /\ copies copy_file f_at below_file content_file left_file (fun x => plain_file x /\ made x).
Proof.
  repeat (match goal with |- _ /\ _ => split end).
  - apply copies_iff. intros x _. apply item_copies.
  - apply production_copies.
  - apply nonterminal_copies.
  - apply grammar_copies.
  - apply lexeme_copies.
  - apply lexer_copies.
  - apply precedence_copies.
  - apply unit_copies.
  - apply language_copies.
  - apply import_copies.
  - apply parser_copies.
  - apply test_copies.
  - apply tests_copies.
  - apply toplevel_copies.
  - apply file_copies.
Qed.
Print Assumptions C87_copies_partial.

(** Assigning one object to another deletes what belonged to the target, once.
    Missing for the full claim: the kind of an item and of a rule, the flags of
    a lexer block and the positions of a grammar and a block of tests stay
    those of the target; the conditions are needed ([C87_memory],
    [C87_kinds]). *)
Theorem C87_assigned_partial :
  assigns assign_item i_at below_item content_item mixed_item (fun _ _ => True)
  /\ assigns assign_production pr_at below_production content_production mixed_production (fun _ _ => True)
  /\ assigns assign_nonterminal n_at below_nonterminal content_nonterminal mixed_nonterminal (fun _ _ => True)
  /\ assigns assign_grammar g_at below_grammar content_grammar mixed_grammar (fun _ _ => True)
  /\ assigns assign_lexer x_at below_lexer content_lexer mixed_lexer (fun _ _ => True)
  /\ assigns assign_unit u_at below_unit content_unit (fun _ x => left_unit x) (fun _ x => plain_unit x)
  /\ assigns assign_language b_at below_language content_language (fun _ x => left_language x) (fun _ x => plain_language x)
  /\ assigns assign_tests k_at below_tests content_tests mixed_tests (fun _ _ => True)
  /\ assigns assign_toplevel o_at below_toplevel content_toplevel (fun _ x => left_toplevel x)
             (fun this x => covers this x /\ plain_toplevel x)
  /\ assigns assign_file f_at below_file content_file (fun _ x => left_file x) (fun _ x => plain_file x /\ made x).
Proof.
  repeat (match goal with |- _ /\ _ => split end).
  - apply item_assigned.
  - apply production_assigned.
  - apply nonterminal_assigned.
  - apply grammar_assigned.
  - apply lexer_assigned.
  - apply unit_assigned.
  - apply language_assigned.
  - apply tests_assigned.
  - apply toplevel_assigned.
  - apply file_assigned.
Qed.
Print Assumptions C87_assigned_partial.

(** A file and its copy can both be destroyed, with no object deleted twice,
    exactly if no precedence block of the file names a symbol. *)
Theorem C87_memory : forall here f h c h',
  made f -> NoDup (below_file f) -> (forall a, In a (below_file f) -> (a < next h)%nat) ->
  copy_file here f h = (c, h') -> (NoDup (destroy_file f ++ destroy_file c) <-> plain_file f).
Proof. exact memory. Qed.
Print Assumptions C87_memory.

(** A block which was assigned to can be destroyed, with no object deleted
    twice, exactly if the source has every kind of block that the target
    had. *)
Theorem C87_kinds : forall this x h r h',
  plain_toplevel x -> NoDup (below_toplevel this) -> (forall a, In a (below_toplevel this) -> (a < next h)%nat) ->
  freed h = [] -> assign_toplevel this (Some x) h = (r, h') ->
  (NoDup (freed h' ++ destroy_toplevel r) <-> covers this x).
Proof. exact kinds. Qed.
Print Assumptions C87_kinds.

(** What is lost is lost in every copy: an item with a kind, a rule with a kind,
    a lexer block with flags, a grammar or a block of tests with a position
    never has a copy that says the same. *)
Theorem C87_lost :
  (forall here x h, i_type x <> None -> content_item (fst (copy_item here x h)) <> content_item x)
  /\ (forall here x h, n_type x <> None -> content_nonterminal (fst (copy_nonterminal here x h)) <> content_nonterminal x)
  /\ (forall here x h, x_weak x <> None -> content_lexer (fst (copy_lexer here x h)) <> content_lexer x)
  /\ (forall here x h, g_span x <> span0 -> content_grammar (fst (copy_grammar here x h)) <> content_grammar x)
  /\ (forall here x h, k_span x <> span0 -> content_tests (fst (copy_tests here x h)) <> content_tests x).
Proof.
  repeat (match goal with |- _ /\ _ => split end); intros here x h D E.
  - destruct (copy_item here x h) as [c h'] eqn:C. destruct (item_copies _ _ _ _ _ C) as (_ & _ & _ & _ & S1).
    cbn in E. rewrite E in S1. destruct x as [a t s n at_ w cs]. cbn in D. apply (f_equal i_type) in S1. cbn in S1. contradiction.
  - destruct (copy_nonterminal here x h) as [c h'] eqn:C. destruct (nonterminal_copies _ _ _ _ _ Logic.I C) as (_ & _ & _ & _ & S1).
    cbn [fst] in E. rewrite E in S1. apply (f_equal n_type) in S1. cbn in S1. contradiction.
  - destruct (copy_lexer here x h) as [c h'] eqn:C. destruct (lexer_copies _ _ _ _ _ Logic.I C) as (_ & _ & _ & _ & S1).
    cbn [fst] in E. rewrite E in S1. apply (f_equal x_weak) in S1. cbn in S1. contradiction.
  - destruct (copy_grammar here x h) as [c h'] eqn:C. destruct (grammar_copies _ _ _ _ _ Logic.I C) as (_ & _ & _ & _ & S1).
    cbn [fst] in E. rewrite E in S1. apply (f_equal g_span) in S1. cbn in S1. contradiction.
  - destruct (copy_tests here x h) as [c h'] eqn:C. destruct (tests_copies _ _ _ _ _ Logic.I C) as (_ & _ & _ & _ & S1).
    cbn [fst] in E. rewrite E in S1. apply (f_equal k_span) in S1. cbn in S1. contradiction.
Qed.
Print Assumptions C87_lost.

(** The full claim fails: a file whose copy does not say the same, a file which
    cannot be destroyed together with its copy, two blocks which can not be
    assigned to each other, and a grammar which is empty after it was assigned
    to itself. *)
Definition word (x : Z) : item := Item 10 (Some 1%Z) [] [x] no_attributes (mkSpan (mkPos 5 0 5) (mkPos 6 0 6)) [].
Definition words : nonterminal :=
  mkNonterminal 8 (Some 2%Z) [65%Z] (mkSpan (mkPos 3 0 3) (mkPos 6 0 6))
    [mkProduction 9 (mkSpan (mkPos 5 0 5) (mkPos 6 0 6)) [word 66]].
Definition in_unit (g : option grammar) (e : option precedence) : unit_ :=
  mkUnit 6 (Some 3%Z) (mkSpan (mkPos 2 0 2) (mkPos 7 0 7)) g None e.
Definition in_block (u : unit_) : toplevel :=
  mkToplevel 4 (mkSpan (mkPos 1 0 1) (mkPos 8 0 8)) (Some (mkLanguage 5 [67%Z] [] (mkSpan (mkPos 1 0 1) (mkPos 8 0 8)) [u])) None None None.
Definition importing : toplevel :=
  mkToplevel 2 (mkSpan pos0 (mkPos 1 0 1)) None (Some (mkImport 3 [70%Z] (mkSpan pos0 (mkPos 1 0 1)))) None None.
Definition some_grammar : grammar := mkGrammar 7 (mkSpan (mkPos 2 0 2) (mkPos 7 0 7)) [words].
Definition some_precedence : precedence := mkPrecedence 7 (mkSpan (mkPos 2 0 2) (mkPos 7 0 7)) [mkLevel 0 [word 66]].
Definition some_file : file := fold_left add_block [importing; in_block (in_unit (Some some_grammar) None)] (empty_file 0).
Definition other_file : file := fold_left add_block [importing; in_block (in_unit None (Some some_precedence))] (empty_file 0).

Theorem C87_copy_refuted :
  (exists here f h, made f /\ plain_file f /\ content_file (fst (copy_file here f h)) <> content_file f)
  /\ (exists here f h, made f /\ NoDup (below_file f) /\ (forall a, In a (below_file f) -> (a < next h)%nat)
        /\ ~ NoDup (destroy_file f ++ destroy_file (fst (copy_file here f h))))
  /\ (exists this x h, NoDup (below_toplevel this) /\ (forall a, In a (below_toplevel this) -> (a < next h)%nat)
        /\ (let '(r, h') := assign_toplevel this (Some x) h in ~ NoDup (freed h' ++ destroy_toplevel r)))
  /\ (exists g h, content_grammar (fst (assign_grammar g None h)) <> content_grammar g).
Proof.
  repeat (match goal with |- _ /\ _ => split end).
  - exists 20%nat, some_file, (mkHeap 21 []). split; [now exists 0%nat, [importing; in_block (in_unit (Some some_grammar) None)] |]. split.
    + unfold plain_file. repeat (constructor || (intros l E; try discriminate; injection E as <-)).
    + vm_compute. discriminate.
  - exists 20%nat, other_file, (mkHeap 21 []). split; [now exists 0%nat, [importing; in_block (in_unit None (Some some_precedence))] |]. split; [| split].
    + vm_compute. repeat (constructor; [intros K; repeat (destruct K as [K | K]; [discriminate K |]); destruct K |]). constructor.
    + vm_compute. intros a K. repeat (destruct K as [<- | K]; [lia |]). destruct K.
    + apply (twice 10%nat); vm_compute; tauto.
  - exists importing, (in_block (in_unit (Some some_grammar) None)), (mkHeap 21 []). split; [| split].
    + vm_compute. repeat (constructor; [intros K; repeat (destruct K as [K | K]; [discriminate K |]); destruct K |]). constructor.
    + vm_compute. intros a K. repeat (destruct K as [<- | K]; [lia |]). destruct K.
    + cbn. apply (twice 3%nat [3%nat]); cbn; tauto.
  - exists some_grammar, (mkHeap 21 []). vm_compute. discriminate.
Qed.
Print Assumptions C87_copy_refuted.

(** A file with an import and a language, and its copy: nine new objects, at
    addresses 21 to 29, nothing deleted, and both files have a position. *)
Example C87_nontrivial :
  let '(c, h) := copy_file 20 some_file (mkHeap 21 []) in
  below_file some_file = [2; 3; 4; 5; 6; 7; 8; 9; 10]%nat
  /\ below_file c = [21; 22; 23; 24; 25; 26; 27; 28; 29]%nat /\ h = mkHeap 30 []
  /\ f_span c = mkSpan pos0 (mkPos 8 0 8)
  /\ content_file c = left_file some_file /\ NoDup (destroy_file some_file ++ destroy_file c).
Proof.
  vm_compute. repeat (match goal with |- _ /\ _ => split end); try reflexivity.
  repeat (constructor; [intros K; repeat (destruct K as [K | K]; [discriminate K |]); destruct K |]). constructor.
Qed.

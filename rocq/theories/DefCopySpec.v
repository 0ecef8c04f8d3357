(** What a copy of a definition object ought to be, said without the code that
    makes it: the objects which belong to an object, what an object says, and
    what is left of that in a copy. *)

From Coq Require Import List ZArith Arith Bool Permutation.
From Verif Require Import DefCopyModel.
Import ListNotations.

(** The objects that belong to an object: everything under it, by address. *)
Definition with_address {A} (at_ : A -> nat) (below : A -> list nat) (l : list A) : list nat :=
  flat_map (fun x => at_ x :: below x) l.
Definition with_address_of {A} (at_ : A -> nat) (below : A -> list nat) (o : option A) : list nat :=
  match o with None => [] | Some x => at_ x :: below x end.

Fixpoint below_item (x : item) : list nat :=
  let '(Item _ _ _ _ _ _ cs) := x in with_address i_at below_item cs.
Definition below_production (x : production) : list nat := with_address i_at below_item (pr_items x).
Definition below_nonterminal (x : nonterminal) : list nat := with_address pr_at below_production (n_productions x).
Definition below_grammar (x : grammar) : list nat := with_address n_at below_nonterminal (g_nonterminals x).
Definition below_lexer (x : lexer) : list nat := map l_at (x_lexemes x).
Definition below_precedence (x : precedence) : list nat :=
  flat_map (fun v => with_address i_at below_item (v_items v)) (e_levels x).
Definition below_unit (x : unit_) : list nat :=
  with_address_of g_at below_grammar (u_grammar x) ++ with_address_of x_at below_lexer (u_lexer x)
  ++ with_address_of e_at below_precedence (u_precedence x).
Definition below_language (x : language) : list nat := with_address u_at below_unit (b_units x).
Definition below_tests (x : tests) : list nat := map t_at (k_tests x).
Definition below_toplevel (x : toplevel) : list nat :=
  with_address_of b_at below_language (o_language x) ++ with_address_of m_at (fun _ => []) (o_import x)
  ++ with_address_of r_at (fun _ => []) (o_parser x) ++ with_address_of k_at below_tests (o_tests x).
Definition below_file (x : file) : list nat := with_address o_at below_toplevel (f_blocks x).

(** What an object says: all its values, but not the addresses. *)
Fixpoint content_item (x : item) : item :=
  let '(Item _ t s n a w cs) := x in Item 0 t s n a w (map content_item cs).
Definition content_production (x : production) : production := mkProduction 0 (pr_span x) (map content_item (pr_items x)).
Definition content_nonterminal (x : nonterminal) : nonterminal :=
  mkNonterminal 0 (n_type x) (n_name x) (n_span x) (map content_production (n_productions x)).
Definition content_grammar (x : grammar) : grammar := mkGrammar 0 (g_span x) (map content_nonterminal (g_nonterminals x)).
Definition content_lexeme (x : lexeme_definition) : lexeme_definition :=
  mkLexeme 0 (l_type x) (l_name x) (l_definition x) (l_add x) (l_replace x) (l_span x) (l_pos x).
Definition content_lexer (x : lexer) : lexer :=
  mkLexer 0 (x_weak x) (x_insensitive x) (x_sensitive x) (x_span x) (map content_lexeme (x_lexemes x)).
Definition content_precedence (x : precedence) : precedence :=
  mkPrecedence 0 (e_span x) (map (fun v => mkLevel (v_assoc v) (map content_item (v_items v))) (e_levels x)).
Definition content_unit (x : unit_) : unit_ :=
  mkUnit 0 (u_type x) (u_span x) (option_map content_grammar (u_grammar x)) (option_map content_lexer (u_lexer x))
         (option_map content_precedence (u_precedence x)).
Definition content_language (x : language) : language :=
  mkLanguage 0 (b_name x) (b_inherits x) (b_span x) (map content_unit (b_units x)).
Definition content_import (x : import) : import := mkImport 0 (m_file x) (m_span x).
Definition content_parser (x : parser) : parser := mkParser 0 (r_name x) (r_language x) (r_starts x) (r_span x).
Definition content_test (x : test) : test :=
  mkTest 0 (t_language x) (t_nonterminal x) (t_type x) (t_name x) (t_string x) (t_pos x) (t_span x).
Definition content_tests (x : tests) : tests := mkTests 0 (k_language x) (k_span x) (map content_test (k_tests x)).
Definition content_toplevel (x : toplevel) : toplevel :=
  mkToplevel 0 (o_span x) (option_map content_language (o_language x)) (option_map content_import (o_import x))
             (option_map content_parser (o_parser x)) (option_map content_tests (o_tests x)).
Definition content_file (x : file) : file := mkFile 0 (f_span x) (map content_toplevel (f_blocks x)).

(** What is left in a copy: the kind of an item and of a rule are not set, nor
    are the flags of a lexer block; the position of a grammar and of a block of
    tests is the one of an object without a position; all else is there. *)
Fixpoint left_item (x : item) : item :=
  let '(Item _ _ s n a w cs) := x in Item 0 None s n a w (map left_item cs).
Definition left_production (x : production) : production := mkProduction 0 (pr_span x) (map left_item (pr_items x)).
Definition left_nonterminal (x : nonterminal) : nonterminal :=
  mkNonterminal 0 None (n_name x) (n_span x) (map left_production (n_productions x)).
Definition left_grammar (x : grammar) : grammar := mkGrammar 0 span0 (map left_nonterminal (g_nonterminals x)).
Definition left_lexer (x : lexer) : lexer := mkLexer 0 None None None (x_span x) (map content_lexeme (x_lexemes x)).
Definition left_unit (x : unit_) : unit_ :=
  mkUnit 0 (u_type x) (u_span x) (option_map left_grammar (u_grammar x)) (option_map left_lexer (u_lexer x))
         (option_map content_precedence (u_precedence x)).
Definition left_language (x : language) : language :=
  mkLanguage 0 (b_name x) (b_inherits x) (b_span x) (map left_unit (b_units x)).
Definition left_tests (x : tests) : tests := mkTests 0 (k_language x) span0 (map content_test (k_tests x)).
Definition left_toplevel (x : toplevel) : toplevel :=
  mkToplevel 0 (o_span x) (option_map left_language (o_language x)) (option_map content_import (o_import x))
             (option_map content_parser (o_parser x)) (option_map left_tests (o_tests x)).
Definition left_file (x : file) : file := mkFile 0 (f_span x) (map left_toplevel (f_blocks x)).

(** No precedence block in the object has any symbols in it. *)
Definition plain_precedence (x : precedence) : Prop := Forall (fun v => v_items v = []) (e_levels x).
Definition plain_unit (x : unit_) : Prop := forall e, u_precedence x = Some e -> plain_precedence e.
Definition plain_language (x : language) : Prop := Forall plain_unit (b_units x).
Definition plain_toplevel (x : toplevel) : Prop := forall l, o_language x = Some l -> plain_language l.
Definition plain_file (x : file) : Prop := Forall plain_toplevel (f_blocks x).

(** A file is made by adding blocks to an empty one. *)
Definition made (f : file) : Prop := exists here l, f = fold_left add_block l (empty_file here).

(** Addresses are new: given out between two moments, and each only once. *)
Definition new_addresses (h h' : heap) (l : list nat) : Prop :=
  NoDup l /\ forall a, In a l -> (next h <= a < next h')%nat.

(** A copy: nothing is deleted, the copy lies where it was asked to, all that
    belongs to it is new, and it says what is left of the original. *)
Definition copies {A} (copy : nat -> A -> heap -> A * heap) (at_ : A -> nat) (below : A -> list nat)
    (content left : A -> A) (fine : A -> Prop) : Prop :=
  forall here x h c h', fine x -> copy here x h = (c, h') ->
    freed h' = freed h /\ (next h <= next h')%nat /\ at_ c = here
    /\ new_addresses h h' (below c) /\ content c = left x.

(** An assignment: all that belonged to the target is deleted once, nothing
    else is; all that belongs to it afterwards is new. *)
Definition assigns {A} (assign : A -> option A -> heap -> A * heap) (at_ : A -> nat) (below : A -> list nat)
    (content : A -> A) (mixed : A -> A -> A) (fine : A -> A -> Prop) : Prop :=
  forall this x h r h', fine this x -> assign this (Some x) h = (r, h') ->
    (exists gone, freed h' = freed h ++ gone /\ Permutation gone (below this))
    /\ (next h <= next h')%nat /\ at_ r = at_ this
    /\ new_addresses h h' (below r) /\ content r = mixed this x.

(** The kinds of the blocks of the target are among those of the source. *)
Definition covers (this x : toplevel) : Prop :=
  (o_language this <> None -> o_language x <> None) /\ (o_import this <> None -> o_import x <> None)
  /\ (o_parser this <> None -> o_parser x <> None) /\ (o_tests this <> None -> o_tests x <> None).

(** What the target of an assignment says afterwards. *)
Definition mixed_item (this x : item) : item :=
  let '(Item _ _ s n a w cs) := x in Item 0 (i_type this) s n a w (map left_item cs).
Definition mixed_production (this x : production) : production := left_production x.
Definition mixed_nonterminal (this x : nonterminal) : nonterminal :=
  mkNonterminal 0 (n_type this) (n_name x) (n_span x) (map left_production (n_productions x)).
Definition mixed_grammar (this x : grammar) : grammar := mkGrammar 0 (g_span this) (map left_nonterminal (g_nonterminals x)).
Definition mixed_lexer (this x : lexer) : lexer :=
  mkLexer 0 (x_weak this) (x_insensitive this) (x_sensitive this) (x_span x) (map content_lexeme (x_lexemes x)).
Definition mixed_tests (this x : tests) : tests := mkTests 0 (k_language x) (k_span this) (map content_test (k_tests x)).

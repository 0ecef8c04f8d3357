(** Specification side for the identifiers of a grammar: histories of calls and what they
    returned. *)
From Verif Require Import Base OrdMap GrammarModel.
Local Open Scope Z_scope.

(** The calls that hand out identifiers *)
Inductive id_call := ForName (n : name) | ForItem (i : item) | ForRule (r : rule).
Definition perform (c : id_call) (g : ids) : ids * Z :=
  match c with
  | ForName n => id_for_nonterminal n g
  | ForItem i => identifier_for_item i g
  | ForRule r => identifier_for_rule r g
  end.

(** [after allowed g log]: a new grammar went through the calls in [log] (the last one first),
    each with the result it returned, and is now [g].  [allowed] may restrict the calls. *)
Inductive after (allowed : list (id_call * Z) -> id_call -> Prop) : ids -> list (id_call * Z) -> Prop :=
| after_new : after allowed no_ids []
| after_call g log c : after allowed g log -> allowed log c -> after allowed (fst (perform c g)) ((c, snd (perform c g)) :: log).

Definition any_call (log : list (id_call * Z)) (c : id_call) : Prop := True.
(** Nonterminals are looked up only with identifiers that the grammar gave to a name. *)
Definition issued_nonterminals (log : list (id_call * Z)) (c : id_call) : Prop :=
  match c with
  | ForItem (INonterm n) => exists name, In (ForName name, n) log
  | _ => True
  end.

(** ** Rule objects shared by grammars: [World.grammars] are the grammars by address. *)
Record world := mkWorld { object : rule_object; grammars : nat -> ids }.
Inductive world_call := Identify (address : nat) | Other (address : nat) (c : id_call).
Definition set_grammar (address : nat) (g : ids) (gs : nat -> ids) : nat -> ids :=
  fun a => if Nat.eqb a address then g else gs a.
Definition world_step (c : world_call) (w : world) : world :=
  match c with
  | Identify a => let '(o, g, _) := rule_identifier a (object w) (grammars w a) in mkWorld o (set_grammar a g (grammars w))
  | Other a c => mkWorld (object w) (set_grammar a (fst (perform c (grammars w a))) (grammars w))
  end.
Definition world_after (calls : list world_call) (w : world) : world := fold_left (fun w c => world_step c w) calls w.
(** A rule object built item by item, not yet identified *)
Definition built_rule (nt : item) (items : list item) : rule_object := fold_left (fun o i => append_item i o) items (new_rule nt).

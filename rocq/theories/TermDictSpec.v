(** Specification side for the terminal dictionary: histories of calls with their results. *)
From Verif Require Import Base OrdMap TermDictModel.
Local Open Scope Z_scope.

Inductive call := Anonymous | Named (n : name) | Valued (n : name) (value : Z) | Split (s : Z).
Definition perform (c : call) (d : dict) : dict * Z :=
  match c with
  | Anonymous => add_symbol d
  | Named n => add_named n d
  | Valued n v => add_valued n v d
  | Split s => split_symbol s d
  end.
Definition log := list (call * Z).

(** [after allowed d l]: a new dictionary went through the calls in [l] (the last one first), with
    the symbols they returned, and is now [d]. *)
Inductive after (allowed : log -> call -> Prop) : dict -> log -> Prop :=
| after_new : after allowed new_dict []
| after_call d l c : after allowed d l -> allowed l c -> after allowed (fst (perform c d)) ((c, snd (perform c d)) :: l).

(** The symbols handed out, and the names given to them *)
Definition issued (s : Z) (l : log) : Prop := exists c, In (c, s) l.
Definition entry (n : name) (s : Z) (l : log) : Prop := In (Named n, s) l \/ In (Valued n s, s) l.
(** Every name is added once, a chosen value is not negative and not in use, and only symbols of
    the dictionary are split. *)
Definition sensible (l : log) (c : call) : Prop :=
  match c with
  | Anonymous => True
  | Named n => forall s, ~ entry n s l
  | Valued n v => (forall s, ~ entry n s l) /\ 0 <= v /\ ~ issued v l
  | Split s => issued s l
  end.
(** The same without the restriction on names *)
Definition names_again (l : log) (c : call) : Prop :=
  match c with
  | Valued n v => 0 <= v /\ ~ issued v l
  | Split s => issued s l
  | _ => True
  end.
(** The same without the restriction on split *)
Definition splits_any (l : log) (c : call) : Prop :=
  match c with
  | Split s => 0 <= s
  | _ => sensible l c
  end.

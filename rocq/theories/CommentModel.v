(** Model of the comments of the example language Ansi-C (Examples/AnsiC.tp 53-54 and 84). *)
From Coq Require Import String.
From Verif Require Import Base NamesModel RegexModel.
Local Open Scope string_scope.
Local Open Scope list_scope.
Local Open Scope Z_scope.

(** 53-54: comment-start and comment-end.  The other names of the language are left out. *)
Definition ansi_defs (name : list Z) : list (bool * bool * RegexModel.token) :=
  if str_eqb name (codes "comment-start") then [(false, false, Literal (codes "/*"))]
  else if str_eqb name (codes "comment-end") then [(false, false, Literal (codes "*/"))]
  else [].
(** 84: the expression for the ignored symbol comment *)
Definition comment_token : RegexModel.token := Regex (codes "{comment-start}([^*]|\*[^\/])*{comment-end}").

(** Model of the comments of the example language Pascal (Examples/Pascal.tp 71). *)
From Coq Require Import String.
From Verif Require Import Base NamesModel RegexModel.
Local Open Scope string_scope.
Local Open Scope list_scope.
Local Open Scope Z_scope.

(** 71: the expression for the ignored symbol commentary *)
Definition commentary_token : RegexModel.token := Regex (codes "(\{|\(\*)([^\}\*]|\*[^\)])*(\}|\*\))").

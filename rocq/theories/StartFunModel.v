(** Model of the functions in generated source that make parsers for the start symbols
    (TameParse/Compiler/OutputStages/cplusplus.cpp 868-903).  No proofs in this file. *)
From Coq Require Import String.
From Verif Require Import Base NamesModel.
Local Open Scope Z_scope.

(** The functions written for a start symbol have one name and differ in their parameters: the
    actions, a stream of lexemes, an istream, or something that is used like a stream. *)
Inductive parameters := TakesActions | TakesLexemes | TakesIstream | TakesStreamAlike.
(** What a function does: ast_parser.create_parser(..., state), or a call of a function *)
Inductive body := CreateParser (state : Z) | Calls (name : str) (p : parameters).
Record creator := mkCreator { cr_name : str; cr_parameters : parameters; cr_body : body }.

(** cplusplus.cpp 880-898 *)
Definition creators_for (start : str) (state : Z) : list creator :=
  let name := codes "create_" ++ get_identifier start in
  [mkCreator name TakesActions (CreateParser state); mkCreator name TakesLexemes (CreateParser state);
   mkCreator name TakesIstream (Calls name TakesLexemes); mkCreator name TakesStreamAlike (Calls name TakesLexemes)].
(** cplusplus.cpp 873-902: [state] counts the start symbols *)
Fixpoint start_creators (state : Z) (starts : list str) : list creator :=
  match starts with
  | [] => []
  | s :: starts => creators_for s state ++ start_creators (state + 1) starts
  end.
Definition header_start_symbols (starts : list str) : list creator := start_creators 0 starts.

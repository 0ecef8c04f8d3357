(** What running the tests of a language file should do. *)
From Coq Require Import String.
From Verif Require Import Base NamesModel TestModel.
Local Open Scope Z_scope.

(** What a parser accepts; a nonterminal that is not defined accepts nothing. *)
Definition accepted_by (parser : str -> str -> option (str -> bool)) (l n text : str) : bool :=
  match parser l n with Some f => f text | None => false end.

Section Spec.
  (** Which texts a nonterminal of a language accepts, and the files *)
  Context (accepts : str -> str -> str -> bool) (file_text : str -> option str).
  (** The verdict on a test; none if its file is missing *)
  Definition verdict (l : str) (t : test) : option bool :=
    match t_kind t with
    | Match => Some (accepts l (t_nonterminal t) (t_string t))
    | NoMatch => Some (negb (accepts l (t_nonterminal t) (t_string t)))
    | FromFile => match file_text (t_string t) with Some text => Some (accepts l (t_nonterminal t) text) | None => None end
    end.
  Definition verdicts (b : block) : list bool := flat_map (fun t => match verdict (b_language b) t with Some v => [v] | None => [] end) (b_tests b).
  (** The tests of a block that are run *)
  Definition tests_run (b : block) : list test := filter (fun t => match verdict (b_language b) t with Some _ => true | None => false end) (b_tests b).
End Spec.

(** The name of a line: language, identifier (or nonterminal, if there is none) and a number *)
Definition named (l : str) (t : test) (name : str) : Prop :=
  exists n, name = l ++ codes "."%string ++ (if match t_identifier t with [] => true | _ => false end then t_nonterminal t else t_identifier t) ++ codes "."%string ++ digits n.

(** What is seen on the console *)
Definition lines_of (es : list event) : list (str * list (str * bool)) := flat_map (fun e => match e with Lines _ l ls => [(l, ls)] | _ => [] end) es.
Definition summaries_of (es : list event) : list (str * nat * nat) := flat_map (fun e => match e with Summary l p n => [(l, p, n)] | _ => [] end) es.
Definition reports_of (es : list event) : list report := flat_map (fun e => match e with Report r => [r] | _ => [] end) es.
(** Reports of errors, as opposed to warnings and details *)
Definition is_error (r : report) : Prop :=
  match r with CantFindLanguage _ | TestFileNotFound _ | ThisTestFailed | TestsFailed _ _ | NoTestBlocks => True | TestSyntaxError _ | FailurePosition | NoTestsToRun => False end.
Definition passes (vs : list bool) : nat := length (filter (fun v => v) vs).

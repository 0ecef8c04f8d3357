(** Model of the stage that runs the tests of a language file (Compiler/test_stage.cpp 173-393) and of the
    exit code of the console (Compiler/std_console.cpp 82-85).  The languages, their lexers and parsers are
    section variables; what is reported while they are built is not modelled.  Positions of messages are left
    out, and counts (int in the program) do not overflow. *)
From Coq Require Import String.
From Verif Require Import Base OrdMap TermDictModel NamesModel.
Local Open Scope Z_scope.

(** Language/test_definition.h 41-50 *)
Inductive kind := Match | NoMatch | FromFile.
(** Language/test_definition.h 52-70.  [t_string] is the text or, for [FromFile], the name of a file.  The
    language of the nonterminal is not used by the stage. *)
Record test := mkTest { t_kind : kind; t_nonterminal : str; t_identifier : str; t_string : str }.
(** Language/test_block.h *)
Record block := mkBlock { b_language : str; b_tests : list test }.

(** What is reported, in the order of error.h *)
Inductive report :=
| CantFindLanguage (l : str) | TestFileNotFound (f : str) | TestSyntaxError (f : str) | ThisTestFailed | FailurePosition
| NoTestsToRun | TestsFailed (n : nat) (l : str) | NoTestBlocks.
(** Compiler/error.h 43-65: message, info, detail, warning, error, fatal, bug *)
Definition severity (r : report) : Z :=
  match r with
  | CantFindLanguage _ | TestFileNotFound _ | ThisTestFailed | TestsFailed _ _ | NoTestBlocks => 4
  | TestSyntaxError _ | NoTestsToRun => 3
  | FailurePosition => 2
  end.
(** std_console.cpp 82-85, starting from 0 (std_console.cpp 52-56) *)
Definition exit_code (rs : list report) : Z := fold_left (fun c r => if 4 <=? severity r then severity r else c) rs 0.

(** What goes to the console: a report, the lines for the tests of a block (to the verbose stream or to the
    message stream) and the summary of a block, with the tests that passed and the tests that were run *)
Inductive event := Report (r : report) | Lines (verbose : bool) (language : str) (lines : list (str * bool)) | Summary (language : str) (passed total : nat).
(** [Thrown]: an exception leaves the stage; [Crashed]: a null pointer is used.  With what went to the console
    before. *)
Inductive outcome A := Done (a : A) | Thrown (es : list event) | Crashed (es : list event).
Arguments Done {A}. Arguments Thrown {A}. Arguments Crashed {A}.

Section Tests.
  (** import_stage::language_with_name finds a language (ImportModel.v) *)
  Context (known : str -> bool).
  (** The lexer of the language could be built (test_stage.cpp 225-231) *)
  Context (has_lexer : str -> bool).
  (** test_stage::get_parser and get_tables (test_stage.cpp 131-170) with the parser that is run on them: language,
      nonterminal, text.  [None]: there are no tables, as the nonterminal is not defined
      (lr_parser_stage.cpp 299-303). *)
  Context (parser : str -> str -> option (str -> bool)).
  (** console::open_file and the characters that are read from it (test_stage.cpp 246-270).  [None]: not found *)
  Context (file_text : str -> option str).

  (** test_stage.cpp 293-306: the name of a test before the number *)
  Definition base_name (l : str) (t : test) : str :=
    l ++ codes "."%string ++ match t_identifier t with [] => t_nonterminal t | i => i end.
  (** test_stage.cpp 219-221, 234 and the console *)
  Record state := mkState { s_ids : list (str * nat); s_lines : list (str * bool); s_passed : nat; s_failed : nat; s_events : list event }.
  (** test_stage.cpp 242-274: the text of a test *)
  Definition text_of (t : test) : option str := match t_kind t with FromFile => file_text (t_string t) | _ => Some (t_string t) end.
  (** test_stage.cpp 320-349: what is reported for a failure *)
  Definition failure (t : test) : list report :=
    match t_kind t with
    | FromFile => [TestSyntaxError (t_string t)]
    | NoMatch => [ThisTestFailed]
    | Match => [ThisTestFailed; FailurePosition]
    end.
  (** test_stage.cpp 237-361: one test of the block.  The size of the name is taken from 54, and the result taken as the
      length of a string (316). *)
  Definition run_test (l : str) (st : state) (t : test) : outcome state :=
    match text_of t with
    | None => Done (mkState (s_ids st) (s_lines st) (s_passed st) (s_failed st) (s_events st ++ [Report (TestFileNotFound (t_string t))]))
    | Some text =>
        match parser l (t_nonterminal t) with
        | None => Crashed (s_events st)
        | Some parse =>
            let result := match t_kind t with NoMatch => negb (parse text) | _ => parse text end in
            let base := base_name l t in
            let number := S match mfind name_ltb base (s_ids st) with Some n => n | None => O end in
            let name := base ++ codes "."%string ++ digits number in
            if Nat.ltb 54 (length name) then Thrown (s_events st)
            else Done (mkState (mset name_ltb base number (s_ids st)) (s_lines st ++ [(name, result)])
                         (if result then S (s_passed st) else s_passed st) (if result then s_failed st else S (s_failed st))
                         (s_events st ++ if result then [] else map Report (failure t)))
        end
    end.
  Fixpoint run_tests (l : str) (st : state) (ts : list test) : outcome state :=
    match ts with
    | [] => Done st
    | t :: ts => match run_test l st t with Done st => run_tests l st ts | Thrown es => Thrown es | Crashed es => Crashed es end
    end.
  (** test_stage.cpp 190-387: one test block *)
  Definition run_block (es : list event) (b : block) : outcome (list event) :=
    let l := b_language b in
    if known l then
      if has_lexer l then
        match run_tests l (mkState [] [] O O es) (b_tests b) with
        | Done st =>
            let passed := s_passed st in let failed := s_failed st in
            Done (s_events st ++ [Lines (Nat.eqb failed 0) l (s_lines st); Summary l passed (passed + failed)]
                  ++ (if Nat.eqb passed 0 && Nat.eqb failed 0 then [Report NoTestsToRun] else [])
                  ++ (if Nat.eqb failed 0 then [] else [Report (TestsFailed failed l)]))
        | Thrown es => Thrown es
        | Crashed es => Crashed es
        end
      else Done es
    else Done (es ++ [Report (CantFindLanguage l)]).
  Fixpoint run_blocks (es : list event) (bs : list block) : outcome (list event) :=
    match bs with
    | [] => Done es
    | b :: bs => match run_block es b with Done es => run_blocks es bs | r => r end
    end.
  (** test_stage.cpp 173-393.  The definitions of a file, [None] for those that are not test blocks *)
  Definition compile (defs : list (option block)) : outcome (list event) :=
    let bs := flat_map (fun d => match d with Some b => [b] | None => [] end) defs in
    match run_blocks [] bs with
    | Done es => Done (es ++ match bs with [] => [Report NoTestBlocks] | _ => [] end)
    | r => r
    end.
End Tests.

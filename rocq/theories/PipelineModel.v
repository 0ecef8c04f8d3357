(** Model of the program itself (parsetool/main.cpp 46-384): which stages are run, with what, and the status it
    returns.  The stages are section variables: the severities of what each reports, or that an exception leaves
    it.  Streams, message texts, positions and the display of tables (233-288) are left out. *)
From Coq Require Import String.
From Verif Require Import Base OrdMap TermDictModel NamesModel.
Local Open Scope Z_scope.

(** The options of the command line (boost_console.cpp); an option that is not given is empty *)
Record options := mkOptions { o_compile_language : str; o_class_name : str; o_start_symbols : list str; o_output_language : str; o_output_file : str; o_namespace : str;
  o_run_tests : bool; o_test : bool; o_show_parser : bool }.
(** Language/parser_block.h *)
Record parser_block := mkParser { pb_name : str; pb_language : str; pb_start : list str }.
(** Language/toplevel_block.h: what main looks at *)
Inductive toplevel := TLanguage (n : str) | TParser (b : parser_block) | TOther.

(** What the last steps generate: the source files (316-318), or a verdict on standard input (319-365) *)
Inductive target := CPlusPlus (prefix class_name namespace : str) | TestInput (trace : bool).
(** The stages and what they are given *)
Inductive step :=
| ReadFile | ImportFiles | RunTests | BuildLanguages
| BuildLexer (language : str) | BuildParser (language : str) (start : list str) | Generate (t : target) (language : str) (start : list str).
(** What happens: a stage begins, or something of a severity (error.h 43-65) is reported *)
Inductive event := Begin (s : step) | Report (severity : Z).
(** [Thrown]: an exception leaves main *)
Inductive status := Exit (code : Z) | Thrown.

(** std_console.cpp 82-85, starting from 0 *)
Definition exit_code (es : list event) : Z := fold_left (fun c e => match e with Report v => if 4 <=? v then v else c | Begin _ => c end) es 0.

(** 129-142: the parser block, if there is one and no other.  [true]: MULTIPLE_PARSER_BLOCKS is reported *)
Fixpoint find_parser (ds : list toplevel) (found : option parser_block) : option parser_block * bool :=
  match ds with
  | [] => (found, false)
  | TParser b :: ds => match found with Some _ => (None, true) | None => find_parser ds (Some b) end
  | _ :: ds => find_parser ds found
  end.
(** 158-174: the language, if there is one and no other *)
Fixpoint find_language (ds : list toplevel) (found : option str) : str :=
  match ds with
  | [] => match found with Some n => n | None => [] end
  | TLanguage n :: ds => match found with Some _ => [] | None => find_language ds (Some n) end
  | _ :: ds => find_language ds found
  end.
Definition is_empty {X} (l : list X) : bool := match l with [] => true | _ => false end.
(** 111-192: language, class, start symbols, and what is reported on the way *)
Definition choose (o : options) (ds : list toplevel) : str * str * list str * list event :=
  let '(block, multiple) := find_parser ds None in
  let es := if multiple then [Report 1] else [] in
  let '(lang, class, start) :=
    match block with
    | Some b => if is_empty (o_compile_language o) && is_empty (o_start_symbols o)
                then (pb_language b, if is_empty (o_class_name o) then pb_name b else o_class_name o, pb_start b)
                else (o_compile_language o, o_class_name o, o_start_symbols o)
    | None => (o_compile_language o, o_class_name o, o_start_symbols o)
    end in
  let '(lang, es) := if is_empty lang then let l := find_language ds None in (l, if is_empty l then es else es ++ [Report 1]) else (lang, es) in
  (lang, if is_empty class then lang else class, start, es).
(** Comparison of strings *)
Definition str_eqb (a b : str) : bool := if list_eq_dec Z.eq_dec a b then true else false.
(** 295-318, 338, 365: what to generate.  [None]: the output language is not known *)
Definition find_target (o : options) (input class : str) : option target :=
  let lang := if o_test o then codes "test"%string else o_output_language o in
  let lang := if is_empty lang then codes "cplusplus"%string else lang in
  if str_eqb lang (codes "cplusplus"%string) then Some (CPlusPlus (if is_empty (o_output_file o) then input else o_output_file o) class (o_namespace o))
  else if str_eqb lang (codes "test"%string) then Some (TestInput false)
  else if str_eqb lang (codes "test-trace"%string) then Some (TestInput true)
  else None.

Section Program.
  (** What a stage reports: severities.  [None]: an exception leaves it *)
  Context (reports : step -> option (list Z)).
  (** What the first stage read; [None]: nothing *)
  Context (definitions : option (list toplevel)).
  (** Both import_stage and language_builder_stage have the language *)
  Context (known : str -> bool).
  (** language_stage::report_unused_symbols: severities *)
  Context (unused : str -> list Z).

  (** Runs a stage and goes on if there is no error. *)
  Definition stage (s : step) (es : list event) (next : list event -> list event * status) : list event * status :=
    match reports s with
    | None => (es ++ [Begin s; Report 6], Thrown)
    | Some vs => let es := es ++ Begin s :: map Report vs in if exit_code es =? 0 then next es else (es, Exit (exit_code es))
    end.
  (** 103-379: from the languages to what is generated *)
  Definition build (o : options) (input : str) (ds : list toplevel) (es : list event) : list event * status :=
    stage BuildLanguages es (fun es =>
    let '(lang, class, start, more) := choose o ds in
    let es := es ++ more in
    if is_empty lang then (es ++ [Report 4], Exit 4)
    else if negb (known lang) then (es ++ [Report 4], Exit 4)
    else
      let es := es ++ map Report (unused lang) in
      if is_empty start then (es ++ [Report 4], Exit 4)
      else
        stage (BuildLexer lang) es (fun es =>
        stage (BuildParser lang start) es (fun es =>
        match find_target o input class with
        | None => (es ++ [Report 4], Exit 4)
        | Some t => stage (Generate t lang start) es (fun es => (es, Exit (exit_code es)))
        end))).
  (** 46-384.  [input]: the input file; [None]: no input file was given *)
  Definition main (o : options) (input : option str) : list event * status :=
    match input with
    | None => ([], Exit 1)
    | Some input =>
        stage ReadFile [] (fun es =>
        match definitions with
        | None => (es ++ [Report 6], Exit 6)
        | Some ds =>
            stage ImportFiles es (fun es =>
            if o_run_tests o
            then stage RunTests es (fun es =>
                 if is_empty (o_output_file o) && is_empty (o_start_symbols o) && is_empty (o_output_language o) && negb (o_test o) && negb (o_show_parser o)
                 then (es, Exit (exit_code es)) else build o input ds es)
            else build o input ds es)
        end)
    end.
End Program.

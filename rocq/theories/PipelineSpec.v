(** What the program should do with the options and the blocks of a file. *)
From Coq Require Import String.
From Verif Require Import Base TermDictModel NamesModel PipelineModel.
Local Open Scope Z_scope.

(** Something that keeps a parser from being generated was reported. *)
Definition no_errors (es : list event) : Prop := forall v, In (Report v) es -> v < 4.

(** The parser blocks and the languages of a file *)
Definition parsers (ds : list toplevel) : list parser_block := flat_map (fun d => match d with TParser b => [b] | _ => [] end) ds.
Definition languages (ds : list toplevel) : list str := flat_map (fun d => match d with TLanguage n => [n] | _ => [] end) ds.

(** The first of two strings, or the second if the first is empty *)
Definition or_else (a b : str) : str := match a with [] => b | _ => a end.
(** Where language, start symbols and class come from: the options, or the only parser block if the options name
    neither a language nor start symbols. *)
Inductive named (o : options) (ds : list toplevel) : str -> str -> list str -> Prop :=
| named_options : o_compile_language o <> [] \/ o_start_symbols o <> [] \/ (forall b, parsers ds <> [b]) ->
    named o ds (o_compile_language o) (o_class_name o) (o_start_symbols o)
| named_block b class : o_compile_language o = [] -> o_start_symbols o = [] -> parsers ds = [b] ->
    class = or_else (o_class_name o) (pb_name b) -> named o ds (pb_language b) class (pb_start b).
(** If no language is named it is the only language of the file; without a class name the class gets the name
    of the language. *)
Inductive wanted (o : options) (ds : list toplevel) : str -> str -> list str -> Prop :=
| wanted_named lang class start : named o ds lang class start -> lang <> [] -> wanted o ds lang (or_else class lang) start
| wanted_only lang class start : named o ds [] class start -> languages ds = [lang] -> lang <> [] -> wanted o ds lang (or_else class lang) start.

(** What is to be generated *)
Definition cplusplus : str := codes "cplusplus"%string.
Inductive target_for (o : options) (input class : str) : target -> Prop :=
| target_test : o_test o = true -> target_for o input class (TestInput false)
| target_cplusplus prefix : o_test o = false -> o_output_language o = [] \/ o_output_language o = cplusplus -> prefix = or_else (o_output_file o) input ->
    target_for o input class (CPlusPlus prefix class (o_namespace o))
| target_stdin : o_test o = false -> o_output_language o = codes "test"%string -> target_for o input class (TestInput false)
| target_trace : o_test o = false -> o_output_language o = codes "test-trace"%string -> target_for o input class (TestInput true).

(** With --run-tests, and no option that asks for something to be generated, the tests are all that is run. *)
Definition tests_only (o : options) : Prop :=
  o_run_tests o = true /\ o_output_file o = [] /\ o_start_symbols o = [] /\ o_output_language o = [] /\ o_test o = false /\ o_show_parser o = false.
(** The stages that come before something is generated *)
Definition stages (o : options) (lang : str) (start : list str) : list step :=
  [ReadFile; ImportFiles] ++ (if o_run_tests o then [RunTests] else []) ++ [BuildLanguages; BuildLexer lang; BuildParser lang start].
Definition begun (es : list event) : list step := flat_map (fun e => match e with Begin s => [s] | Report _ => [] end) es.

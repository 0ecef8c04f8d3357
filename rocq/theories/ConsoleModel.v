(** Model of the console of the program (Compiler/std_console.cpp 53-176, parsetool/boost_console.cpp 184-187):
    the text that appears for the messages reported, and the exit code.  Streams are the text written to them.
    Characters that a stream cannot write in the current locale are left out, and so is the overflow of the
    line or column after the largest [int]. *)
From Coq Require Import String.
From Verif Require Import Base NamesModel.
Local Open Scope string_scope.
Local Open Scope list_scope.
Local Open Scope Z_scope.

(** error.h 44-65 *)
Inductive severity := SevMessage | SevInfo | SevDetail | SevWarning | SevError | SevFatal | SevBug.
(** error.h 46-64: the number of an enumerator *)
Definition sev_number (s : severity) : Z :=
  match s with SevMessage => 0 | SevInfo => 1 | SevDetail => 2 | SevWarning => 3 | SevError => 4 | SevFatal => 5 | SevBug => 6 end.
(** error.h 72-84, position.h 69-72 *)
Record message := mkMessage { m_sev : severity; m_file : str; m_id : str; m_text : str; m_line : Z; m_column : Z }.
(** boost_console.cpp 76-95, 204-233: the options that have a value that is not empty *)
Record settings := mkSettings { o_suppress_warnings : bool; o_show_codes : bool; o_verbose : bool }.
(** What was written to [wcerr] and to [wcout], and [m_ExitCode] (std_console.cpp 55) *)
Record console := mkConsole { c_err : str; c_out : str; c_exit : Z }.

(** std_console.cpp 53-56 *)
Definition new_console : console := mkConsole [] [] 0.

(** 96-105: a line or a column, counted from 1 *)
Definition show_place (n : Z) : str := if 0 <=? n then digits (Z.to_nat (n + 1)) ++ [58] else [58].
(** 108-135 *)
Definition show_sev (s : severity) : str :=
  match s with
  | SevInfo | SevMessage => []
  | SevDetail => codes "    "
  | SevWarning => codes " warning:"
  | SevError => codes " error:"
  | SevFatal => codes " failure:"
  | SevBug => codes " compiler failure:"
  end.
(** 88-143: what is written for a message *)
Definition show_message (o : settings) (m : message) : str :=
  (match m_file m with [] => [58] | f => f ++ [58] end) ++ show_place (m_line m) ++ show_place (m_column m) ++ show_sev (m_sev m)
  ++ (if o_show_codes o then codes " [" ++ m_id m ++ codes "]" else []) ++ codes " " ++ m_text m ++ [10].

(** 67-144 *)
Definition report_error (o : settings) (m : message) (c : console) : console :=
  (* 72-75 *)
  if negb (sev_number (m_sev m) =? 2) && (sev_number (m_sev m) <=? 3) && o_suppress_warnings o then c
  else
    (* 83-85 *)
    let code := if 4 <=? sev_number (m_sev m) then sev_number (m_sev m) else c_exit c in
    (* 78-80, 161-169 *)
    if sev_number (m_sev m) <? 2
    then mkConsole (c_err c) (if o_verbose o then c_out c ++ show_message o m else c_out c) code
    else mkConsole (c_err c ++ show_message o m) (c_out c) code.

(** The messages of a run, in order *)
Definition report_all (o : settings) (ms : list message) : console := fold_left (fun c m => report_error o m c) ms new_console.

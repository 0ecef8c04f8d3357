(** What a user may expect of the console: which messages appear, what can be read off a line, and the exit code. *)
From Coq Require Import String.
From Verif Require Import Base NamesModel ConsoleModel.
Local Open Scope string_scope.
Local Open Scope list_scope.
Local Open Scope Z_scope.

(** Messages that are about something wrong, and those that are not *)
Definition problem (s : severity) : Prop := s = SevDetail \/ s = SevWarning \/ s = SevError \/ s = SevFatal \/ s = SevBug.
Definition remark (s : severity) : Prop := s = SevMessage \/ s = SevInfo.
(** Messages after which there is no result *)
Definition serious (s : severity) : Prop := s = SevError \/ s = SevFatal \/ s = SevBug.

(** What a line is meant to tell.  Lines and columns are counted from 1; [None]: there is none *)
Record shown := mkShown { s_sev : severity; s_file : str; s_line : option Z; s_column : option Z; s_id : option str; s_text : str }.
Definition place (n : Z) : option Z := if n <? 0 then None else Some (n + 1).
Definition told (codes : bool) (m : message) : shown := mkShown (m_sev m) (m_file m) (place (m_line m)) (place (m_column m)) (if codes then Some (m_id m) else None) (m_text m).

(** A number in decimal digits, without zeros in front *)
Definition decimal (k : Z) (s : str) : Prop :=
  Forall (fun c => 48 <= c <= 57) s /\ fold_left (fun v c => 10 * v + (c - 48)) s 0 = k /\ hd 0 s <> 48.
Definition place_text (k : option Z) (s : str) : Prop := match k with Some k => decimal k s | None => s = [] end.
(** How a line says what it is: a detail is indented, a remark says nothing *)
Inductive marked : severity -> string -> Prop :=
| mark_message : marked SevMessage "" | mark_info : marked SevInfo "" | mark_detail : marked SevDetail "    "
| mark_warning : marked SevWarning " warning:" | mark_error : marked SevError " error:"
| mark_fatal : marked SevFatal " failure:" | mark_bug : marked SevBug " compiler failure:".
(** The line for a message: file:line:column:, what it is, the identifier in brackets if wanted, and the text *)
Definition line_text (w : shown) (s : str) : Prop := exists line column mark,
  place_text (s_line w) line /\ place_text (s_column w) column /\ marked (s_sev w) mark /\
  s = s_file w ++ codes ":" ++ line ++ codes ":" ++ column ++ codes ":" ++ codes mark ++
      match s_id w with Some i => codes " [" ++ i ++ codes "]" | None => [] end ++ codes " " ++ s_text w ++ [10].

(** [picks P ms l]: [l] has the messages of [ms] with [P], in the same order *)
Inductive picks (P : message -> Prop) : list message -> list message -> Prop :=
| picks_nil : picks P [] []
| picks_take m ms l : P m -> picks P ms l -> picks P (m :: ms) (m :: l)
| picks_leave m ms l : ~ P m -> picks P ms l -> picks P (m :: ms) l.

(** A text with the piece [a b] in it *)
Definition has_pair (a b : Z) (s : str) : Prop := exists x y, s = x ++ a :: b :: y.
(** Messages that fit on a line: nothing has a line end, the name of the file has no ": ", and the identifier has
    no closing bracket *)
Definition plain (m : message) : Prop := ~ In 10 (m_file m) /\ ~ In 10 (m_id m) /\ ~ In 10 (m_text m) /\ ~ has_pair 58 32 (m_file m) /\ ~ In 93 (m_id m).

(** What the option to suppress warnings is for: warnings and the details about them are not shown.  [hidden] is
    whether the last message that is not a detail was a warning *)
Fixpoint without_warnings (hidden : bool) (ms : list message) : list message :=
  match ms with
  | [] => []
  | m :: ms =>
    match m_sev m with
    | SevDetail => if hidden then without_warnings hidden ms else m :: without_warnings hidden ms
    | SevWarning => without_warnings true ms
    | _ => m :: without_warnings false ms
    end
  end.

(** The severity of the last serious message, 0 without one *)
Definition last_serious (ms : list message) (code : Z) : Prop :=
  (code = 0 /\ forall m, In m ms -> ~ serious (m_sev m)) \/
  exists a m b, ms = a ++ m :: b /\ serious (m_sev m) /\ (forall x, In x b -> ~ serious (m_sev x)) /\ code = sev_number (m_sev m).

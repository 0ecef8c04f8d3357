(** Model of TameParse/Dfa/basic_lexer.h (lexeme streams), TameParse/Dfa/position.h,
    the order of accept actions, and TameParse/Util/stringreader.h as a source of symbols.
    No proofs in this file. *)
From Verif Require Import Base OrdMap SymbolSetModel SymbolMapModel NdfaModel SymbolTableModel StateMachineModel.
Local Open Scope Z_scope.

(** ** Positions *)

(** position.h 35-88 *)
Record position := mkPos { p_offset : Z; p_line : Z; p_column : Z }.
Definition pos_new : position := mkPos 0 0 0.
Definition increment (p : position) : position := mkPos (p_offset p + 1) (p_line p) (p_column p + 1).
Definition increment_offset (p : position) : position := mkPos (p_offset p + 1) (p_line p) (p_column p).
Definition newline (p : position) : position := mkPos (p_offset p) (p_line p + 1) 0.

(** position.h 91-122 *)
Definition pos_eqb (a b : position) : bool :=
  if negb (p_line a =? p_line b) then false
  else if negb (p_column a =? p_column b) then false
  else p_offset a =? p_offset b.
Definition pos_ltb (a b : position) : bool :=
  if p_line a <? p_line b then true
  else if p_line b <? p_line a then false
  else if p_column a <? p_column b then true
  else if p_column b <? p_column a then false
  else p_offset a <? p_offset b.

(** position.h 128-157: the current position and whether the last symbol was a return *)
Definition tracker : Type := position * bool.
Definition tracker_new : tracker := (pos_new, false).

(** position.h 160-193.  Positions are unbounded integers here: texts of 2^31 characters and
    more, whose positions overflow an [int], are not modelled. *)
Definition update_symbol (t : tracker) (symbol : Z) : tracker :=
  let '(p, seenReturn) := t in
  if symbol =? 10 then
    (if negb seenReturn then newline (increment p) else increment_offset p, false)
  else if symbol =? 13 then (newline p, true)
  else if (symbol =? 11) || (symbol =? 12) || (symbol =? 133) || (symbol =? 8232) || (symbol =? 8233) then (newline p, false)
  else (increment p, false).

(** position.h 196-202 *)
Definition update_position (t : tracker) (symbols : list Z) : tracker := fold_left update_symbol symbols t.

(** ** Choosing accept actions *)

(** basic_lexer.h 150-168; [less] is the virtual [operator<] of the actions *)
Definition fill_accept {A} (less : A -> A -> bool) (symbol : A -> Z) (actions : list A) : Z :=
  match actions with
  | [] => -1
  | first :: _ => symbol (fold_left (fun highest a => if less highest a then a else highest) actions first)
  end.

(** accept_action.cpp: [operator<] of the base class *)
Definition action_less (a b : Z) : bool := b <? a.

(** lexer_stage.cpp 44-99: actions of a language block, and [operator<] between them *)
Record language_action := mkLA { la_symbol : Z; la_unit : Z; la_weak : bool }.
Definition la_less (a b : language_action) : bool :=
  if negb (Bool.eqb (la_weak b) (la_weak a)) then la_weak b
  else if la_unit b <? la_unit a then true
  else if la_unit a <? la_unit b then false
  else la_symbol b <? la_symbol a.

(** Actions of both classes in one lexer: the virtual [operator<] of the left operand decides;
    a base action compares only symbols. *)
Inductive any_action := Base_action (symbol : Z) | Lang_action (a : language_action).
Definition any_symbol (a : any_action) : Z := match a with Base_action s => s | Lang_action l => la_symbol l end.
Definition any_less (a b : any_action) : bool :=
  match a, b with
  | Base_action s, _ => any_symbol b <? s
  | Lang_action _, Base_action _ => true
  | Lang_action a, Lang_action b => la_less a b
  end.

(** ** Lexeme streams *)

(** lexeme.h: contents, position and matched symbol *)
Record lexeme := mkLexeme { lx_content : list Z; lx_pos : position; lx_matched : Z }.

(** symbol_set.h: the symbol that marks the end of the input *)
Definition end_of_input : Z := -3.

(** basic_lexer.h 211-236.  The symbol stream is given by the values its reads will return;
    once they are used up every read returns [end_of_input]. *)
Record dfa_stream := mkStream { ds_input : list Z; ds_buffer : list Z; ds_position : tracker; ds_initial : Z }.
Definition stream_new (first : Z) (input : list Z) : dfa_stream := mkStream input [] tracker_new first.
(** basic_lexer.h 249-251 *)
Definition set_initial_state (s : Z) (st : dfa_stream) : dfa_stream :=
  mkStream (ds_input st) (ds_buffer st) (ds_position st) s.

Inductive lex_result := Undefined | NoLexeme (st : dfa_stream) | Lexeme (l : lexeme) (st : dfa_stream).

Section Lexer.
  (** The state machine's [run_unsafe] and the accept table; [None] is a read outside the
      tables.  [newlineState] is the template argument. *)
  Variable run : Z -> Z -> option Z.
  Variable accept : Z -> option Z.
  Variable newlineState : Z.

  (** The loop of basic_lexer.h 262-299 in two parts: first over what is left of the buffer,
      then over symbols read from the stream.  The last accepted symbol and position are a
      pair; the position before the first accept is 0 here and -1 in the code (both become
      1 in line 308). *)
  Inductive scan := ScanUndefined | ScanStop (acc : Z * nat) (pushed rest : list Z) | ScanMore (state : Z) (pos : nat) (acc : Z * nat).

  Definition note (acc : Z * nat) (a : Z) (pos : nat) : Z * nat := if 0 <=? a then (a, pos) else acc.

  Fixpoint scan_buffer (todo : list Z) (state : Z) (pos : nat) (acc : Z * nat) : scan :=
    match todo with
    | [] => ScanMore state pos acc
    | c :: todo =>
        match run state c with
        | None => ScanUndefined
        | Some s => if s <? 0 then ScanStop acc [] []
                    else match accept s with
                         | None => ScanUndefined
                         | Some a => scan_buffer todo s (S pos) (note acc a (S pos))
                         end
        end
    end.

  Fixpoint scan_input (input : list Z) (state : Z) (pos : nat) (acc : Z * nat) : scan :=
    match input with
    | [] => ScanStop acc [] []
    | c :: input =>
        if c =? end_of_input then ScanStop acc [] input
        else match run state c with
             | None => ScanUndefined
             | Some s => if s <? 0 then ScanStop acc [c] input
                         else match accept s with
                              | None => ScanUndefined
                              | Some a => match scan_input input s (S pos) (note acc a (S pos)) with
                                          | ScanStop acc' pushed rest => ScanStop acc' (c :: pushed) rest
                                          | other => other
                                          end
                              end
             end
    end.

  Definition newline_char (c : Z) : bool :=
    (c =? 10) || (c =? 11) || (c =? 12) || (c =? 13) || (c =? 133) || (c =? 8232) || (c =? 8233).

  (** basic_lexer.h 301-333 *)
  Definition finish (acc : Z * nat) (buffer input : list Z) (position : tracker) (initial : Z) : lex_result :=
    match buffer with
    | [] => NoLexeme (mkStream input buffer position initial)
    | first :: _ =>
        let acceptPos := match snd acc with O => 1%nat | S _ => snd acc end in
        let content := firstn acceptPos buffer in
        let initial' := if negb (newlineState =? 0) && newline_char (nth (acceptPos - 1) buffer 0) then newlineState else 0 in
        Lexeme (mkLexeme content (fst position) (fst acc))
               (mkStream input (skipn acceptPos buffer) (update_position position content) initial')
    end.

  (** basic_lexer.h 254-334 *)
  Definition next_lexeme (st : dfa_stream) : lex_result :=
    match scan_buffer (ds_buffer st) (ds_initial st) 0 (-1, 0%nat) with
    | ScanUndefined => Undefined
    | ScanStop acc _ _ => finish acc (ds_buffer st) (ds_input st) (ds_position st) (ds_initial st)
    | ScanMore s pos acc =>
        match scan_input (ds_input st) s pos acc with
        | ScanStop acc' pushed rest => finish acc' (ds_buffer st ++ pushed) rest (ds_position st) (ds_initial st)
        | _ => Undefined
        end
    end.

  (** Reading lexemes until NULL.  Before each read the client may call [set_initial_state]
      with a state that depends on the lexemes read so far (latest first).  [None]: out of
      fuel, or a read outside the tables. *)
  Fixpoint read_all (fuel : nat) (client : list lexeme -> option Z) (st : dfa_stream) (seen : list lexeme) : option (list lexeme * dfa_stream) :=
    match fuel with
    | O => None
    | S fuel =>
        let st := match client seen with Some s => set_initial_state s st | None => st end in
        match next_lexeme st with
        | Undefined => None
        | NoLexeme st' => Some (rev seen, st')
        | Lexeme l st' => read_all fuel client st' (l :: seen)
        end
    end.
End Lexer.

(** basic_lexer.h 170-186: the accept table of a DFA, and a read from it *)
Definition accept_table {A} (less : A -> A -> bool) (symbol : A -> Z) (d : ndfa A) : list Z :=
  map (fun q => fill_accept less symbol (actions_for_state d q)) (seq 0 (count_states d)).
Definition accept_at (table : list Z) (q : Z) : option Z := if q <? 0 then None else nth_error table (Z.to_nat q).

(** basic_lexer.h 350-370: lexers over flat and compact tables *)
Definition flat_run {A} (k : char_kind) (d : ndfa A) (rows : list (list Z)) : Z -> Z -> option Z :=
  run_unsafe flat_get rows (set_for_symbol k (translator k (n_symbols d))).
Definition compact_run {A} (k : char_kind) (d : ndfa A) (rows : list (list transition)) : Z -> Z -> option Z :=
  run_unsafe (fun row set => Some (compact_get row set)) rows (set_for_symbol k (translator k (n_symbols d))).

(** The machine of a DFA, with flat or compact rows. *)
Definition machine_of {A} (k : char_kind) (d : ndfa A) (step : Z -> Z -> option Z) : Prop :=
  (exists rows, flat_machine d rows /\ step = flat_run k d rows) \/ (exists rows, compact_machine d rows /\ step = compact_run k d rows).

(** ** Sources of symbols *)

(** [(int)(unsigned)next] in basic_lexer.h 99: a [char] is signed on the usual platforms; a
    [wchar_t] of at most 31 bits is kept. *)
Definition symbol_of_char (c : Z) : Z := if c <? 128 then c else c - 256.
Definition symbol_of_wchar (c : Z) : Z := c.

(** stringreader.h 72-97: [get] and [good] on the string and the position in it *)
Definition sr_get (s : list Z) (pos : nat) : Z * nat :=
  if (length s <=? pos)%nat then (0, pos) else (nth pos s 0, S pos).
Definition sr_good (s : list Z) (pos : nat) : bool := (pos <? length s)%nat.

(** The same for [std::basic_istream] over the same text: [get] past the end sets the fail
    bit, and [good] is its absence.  The state is the position and the fail bit. *)
Definition is_get (s : list Z) (st : nat * bool) : Z * (nat * bool) :=
  let '(pos, failed) := st in
  if failed || (length s <=? pos)%nat then (0, (pos, true)) else (nth pos s 0, (S pos, false)).
Definition is_good (st : nat * bool) : bool := negb (snd st).

(** basic_lexer.h 92-102 *)
Definition stream_read {R} (get : R -> Z * R) (good : R -> bool) (conv : Z -> Z) (r : R) : Z * R :=
  let '(c, r') := get r in (if negb (good r') then end_of_input else conv c, r').

(** The values of the first [n] reads *)
Fixpoint reads {R} (read : R -> Z * R) (n : nat) (r : R) : list Z :=
  match n with O => [] | S n => let '(x, r') := read r in x :: reads read n r' end.

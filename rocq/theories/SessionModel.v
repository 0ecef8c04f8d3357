(** Model of a parser session: the symbols that several parser states read from one source.
    Lr/parser.h 183-223 (session), Lr/parser_state.h 34-148 (state: constructors, destructor, trim_lookahead, next, look).

    Simplified: a world is one session with its states: the one create_state makes, and copies.  The address of a
    state is a number that is not used again, so every use of a state after its destruction is found out.  Only
    what these functions use is modelled, so not the tables and the stack.  look gives a copy of the lexeme (in the code,
    a reference into the vector, which the next look might move).  Offsets given to look are not negative.
    Positions and counts are unbounded. *)
From Verif Require Import Base OrdMap RunModel StackModel.
Local Open Scope Z_scope.

Section Session.
  (** [T]: lexemes; [source n]: what the read function of the parser actions returns when it is called for the n-th time
      (counted from 0).  None is NULL, the end of the input. *)
  Context (T : Type) (source : nat -> option T).

  (** parser.h 246-252: m_LookaheadPos, m_LastState, m_NextState *)
  Record pstate := mkPstate { t_pos : Z; t_last : option nat; t_next : option nat }.
  (** parser.h 201-210.  [z_reads]: how often read has been called; [z_states]: the states that have not been destroyed;
      [z_made]: how many have been made; [z_deleted]: the session is gone. *)
  Record session := mkSession { z_look : list T; z_eof : bool; z_reads : nat; z_first : option nat; z_states : list (nat * pstate); z_made : nat; z_deleted : bool }.
  Definition state_at (z : session) (h : nat) : outcome pstate := defined (mfind Nat.ltb h (z_states z)).
  Definition set_state (h : nat) (s : pstate) (z : session) : session := mkSession (z_look z) (z_eof z) (z_reads z) (z_first z) (mset Nat.ltb h s (z_states z)) (z_made z) (z_deleted z).
  Definition set_first (r : option nat) (z : session) : session := mkSession (z_look z) (z_eof z) (z_reads z) r (z_states z) (z_made z) (z_deleted z).
  Definition set_look (l : list T) (z : session) : session := mkSession l (z_eof z) (z_reads z) (z_first z) (z_states z) (z_made z) (z_deleted z).
  (** Any use of m_Session *)
  Definition session_of (z : session) : outcome session := if z_deleted z then Undefined else Done z.
  Definition set_last (l : option nat) (s : pstate) : pstate := mkPstate (t_pos s) l (t_next s).
  Definition set_next (n : option nat) (s : pstate) : pstate := mkPstate (t_pos s) (t_last s) n.
  Definition set_pos (p : Z) (s : pstate) : pstate := mkPstate p (t_last s) (t_next s).
  Definition change (h : nat) (f : pstate -> pstate) (z : session) : outcome session := do s <- state_at z h ;; Done (set_state h (f s) z).

  (** parser_state.h 37-48, after parser.h 213-217: the first state, with number 0 *)
  Definition open : session := mkSession [] false 0 (Some O) [(O, mkPstate 0 None None)] 1 false.
  (** parser_state.h 53-63: the new state has the number [z_made] *)
  Definition clone (h : nat) (z : session) : outcome session :=
    do s <- state_at z h ;; do z <- session_of z ;;
    let next := z_first z in
    let z := mkSession (z_look z) (z_eof z) (z_reads z) (Some (z_made z)) (mset Nat.ltb (z_made z) (mkPstate (t_pos s) None next) (z_states z)) (S (z_made z)) (z_deleted z) in
    match next with None => Done z | Some n => change n (set_last (Some (Nat.pred (z_made z)))) z end.
  (** parser_state.h 68-83 *)
  Definition close (h : nat) (z : session) : outcome session :=
    do s <- state_at z h ;; do z <- session_of z ;;
    do z <- match t_last s with Some l => change l (set_next (t_next s)) z | None => Done (set_first (t_next s) z) end ;;
    do z <- match t_next s with Some n => change n (set_last (t_last s)) z | None => Done z end ;;
    Done (mkSession (z_look z) (z_eof z) (z_reads z) (z_first z) (merase Nat.ltb h (z_states z)) (z_made z) (match z_first z with None => true | Some _ => false end)).
  (** The states of the session, in the order of its list.  A list that does not end is out of fuel. *)
  Fixpoint walk (fuel : nat) (z : session) (r : option nat) : outcome (list (nat * pstate)) :=
    match r with
    | None => Done []
    | Some h => match fuel with O => OutOfFuel | S fuel => do s <- state_at z h ;; do l <- walk fuel z (t_next s) ;; Done ((h, s) :: l) end
    end.
  Fixpoint back (n : Z) (l : list (nat * pstate)) (z : session) : outcome session :=
    match l with [] => Done z | (h, _) :: l => do z <- change h (fun s => set_pos (t_pos s - n) s) z ;; back n l z end.
  (** parser_state.h 88-105.  Erasing more than there is is undefined. *)
  Definition trim_lookahead (pos : Z) (z : session) : outcome session :=
    do z <- session_of z ;;
    do l <- walk (S (length (z_states z))) z (z_first z) ;;
    let least := fold_left (fun m (s : nat * pstate) => if t_pos (snd s) <? m then t_pos (snd s) else m) l pos in
    if least =? 0 then Done z
    else if (0 <=? least) && (least <=? Z.of_nat (length (z_look z)))
      then back least l (set_look (skipn (Z.to_nat least) (z_look z)) z)
      else Undefined.
  (** parser_state.h 112-115 *)
  Definition next (h : nat) (z : session) : outcome session :=
    do s <- state_at z h ;; trim_lookahead (t_pos s + 1) (set_state h (set_pos (t_pos s + 1) s) z).
  (** parser_state.h 120-148.  None: the end of the file. *)
  Fixpoint fetch (fuel : nat) (pos : nat) (z : session) : outcome (option T * session) :=
    match nth_error (z_look z) pos with
    | Some t => Done (Some t, z)
    | None =>
        if z_eof z then Done (None, z)
        else match fuel with
             | O => OutOfFuel
             | S fuel =>
                 match source (z_reads z) with
                 | None => Done (None, mkSession (z_look z) true (S (z_reads z)) (z_first z) (z_states z) (z_made z) (z_deleted z))
                 | Some t => fetch fuel pos (mkSession (z_look z ++ [t]) false (S (z_reads z)) (z_first z) (z_states z) (z_made z) (z_deleted z))
                 end
             end
    end.
  Definition look (h : nat) (offset : nat) (z : session) : outcome (option T * session) :=
    do s <- state_at z h ;; do z <- session_of z ;; let pos := t_pos s + Z.of_nat offset in
    if pos <? 0 then Undefined else fetch (S (Z.to_nat pos)) (Z.to_nat pos) z.

  Inductive op := Clone (h : nat) | Close (h : nat) | Next (h : nat) | Look (h : nat) (offset : nat).
  Definition do_op (o : op) (z : session) : outcome session :=
    match o with Clone h => clone h z | Close h => close h z | Next h => next h z | Look h k => do (_, z) <- look h k z ;; Done z end.
  Fixpoint do_ops (l : list op) (z : session) : outcome session := match l with [] => Done z | o :: l => do z <- do_op o z ;; do_ops l z end.
End Session.
Arguments mkSession {T}. Arguments z_look {T}. Arguments z_eof {T}. Arguments z_reads {T}. Arguments z_first {T}. Arguments z_states {T}. Arguments z_made {T}. Arguments z_deleted {T}.

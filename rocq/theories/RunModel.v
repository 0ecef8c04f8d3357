(** Model of the parser that runs parser tables: Lr/parser.h 296-545 (the two sets of actions) and
    Lr/parser_state.h 160-724.

    Not modelled: the trace objects, the positions given to reduce, and the stack storage (parser_stack.h;
    see StackModel.v).  The lookahead of a session with several states is in SessionModel.v; here the
    remaining input is a list. *)
From Verif Require Import Base OrdMap GrammarModel FirstModel ActionModel TableModel.
Local Open Scope Z_scope.

(** The result of running some code: a value, undefined behaviour, or more steps than allowed *)
Inductive outcome (A : Type) := Done (a : A) | Undefined | OutOfFuel.
Arguments Done {A}. Arguments Undefined {A}. Arguments OutOfFuel {A}.
Definition bind {A B} (x : outcome A) (f : A -> outcome B) : outcome B :=
  match x with Done a => f a | Undefined => Undefined | OutOfFuel => OutOfFuel end.
Definition defined {A} (x : option A) : outcome A := match x with Some a => Done a | None => Undefined end.
Notation "'do' x <- a ;; b" := (bind a (fun x => b)) (at level 200, x pattern, a at level 100, b at level 200).

(** parser_stack.h 345-352: a pop of the last entry does nothing *)
Definition drop1 {A} (l : list A) : list A := match l with [] | [_] => l | _ :: l' => l' end.
Fixpoint drops {A} (n : nat) (l : list A) : list A := match n with O => l | S n => drops n (drop1 l) end.

Section Run.
  Context (t : tables).

  (** terminal_fetcher and nonterminal_fetcher (parser.h 590-625) *)
  Definition find_symbol (terminal : bool) (q symbol : Z) : outcome (list entry) := defined (if terminal then find_terminal t q symbol else find_nonterminal t q symbol).
  Definition top (l : list Z) : outcome Z := match l with [] => Undefined | q :: _ => Done q end.
  (** parser.h 346-362 and parser_state.h 388-396: the first goto from the place where the nonterminal
      would be *)
  Definition is_goto (e : entry) : bool := match e_type e with Goto => true | _ => false end.
  Definition find_goto (q nonterminal : Z) : outcome (option Z) :=
    do l <- find_symbol false q nonterminal ;; Done (match find is_goto l with Some e => Some (e_next e) | None => None end).

  (** parser_state.h 354-412.  The stack of pushed states and the place in the underlying stack are
      kept as one list of states, which ends in the state at the bottom of the underlying stack. *)
  Definition fake_reduce (e : entry) (v : list Z) : outcome (list Z) :=
    match e_type e with
    | Reduce | WeakReduce | Accept =>
        do r <- defined (rule_at t (e_next e)) ;;
        let v := drops (Z.to_nat (rr_length r)) v in
        do q <- top v ;;
        do g <- find_goto q (rr_identifier r) ;;
        Done (match g with Some n => n :: v | None => v end)
    | Divert => Done (e_next e :: drop1 v)
    | Shift | ShiftStrong => Done (e_next e :: v)
    | _ => Done v
    end.
  (** parser_state.h 430-499.  [acts]: what is left of the array of the state [q].  The loop ends where
      the array of the state [q0] ends: the declaration of another variable [state] in the case of
      act_reduce hides the one the test uses.  So, in another array, it reads the entry after the last.
      (That entry exists but has no value in tables made by the constructor; it does not exist in the
      tables written by the C++ output stage.) *)
  Fixpoint can_reduce_loop (fuel : nat) (terminal : bool) (symbol q0 q : Z) (acts : list entry) (v : list Z) : outcome bool :=
    match fuel with
    | O => OutOfFuel
    | S fuel =>
        match acts with
        | [] => if q =? q0 then Done false else Undefined
        | e :: acts' =>
            if negb (e_symbol e =? symbol) then Done false else
            match e_type e with
            | Shift | ShiftStrong | Accept => Done true
            | Divert => can_reduce_loop fuel terminal symbol q0 q acts (e_next e :: v)
            | Guard => can_reduce_loop fuel terminal symbol q0 q acts' v
            | WeakReduce =>
                do w <- fake_reduce e v ;;
                do q' <- top w ;;
                do l <- find_symbol terminal q' symbol ;;
                do b <- can_reduce_loop fuel terminal symbol q' q' l w ;;
                if b then Done true else can_reduce_loop fuel terminal symbol q0 q acts' v
            | Reduce =>
                do w <- fake_reduce e v ;;
                do q' <- top w ;;
                do l <- find_symbol terminal q' symbol ;;
                can_reduce_loop fuel terminal symbol q0 q' l w
            | _ => Done false
            end
        end
    end.
  (** parser_state.h 416-428 *)
  Definition can_reduce (fuel : nat) (terminal : bool) (symbol : Z) (v : list Z) : outcome bool :=
    do q <- top v ;; do l <- find_symbol terminal q symbol ;; can_reduce_loop fuel terminal symbol q q l v.
  (** can_reduce and can_reduce_nonterminal of the actions (parser.h 393-431 and 509-545) *)
  Definition can_reduce_by (fuel : nat) (terminal : bool) (symbol : Z) (e : entry) (v : list Z) : outcome bool :=
    match e_type e with
    | Shift | ShiftStrong | Accept => Done true
    | _ => do w <- fake_reduce e v ;; can_reduce fuel terminal symbol w
    end.

  (** Lexemes: [matched] is the symbol of a lexeme, [renamed s l] a lexeme like [l] with the symbol [s] *)
  Context (L : Type) (matched : L -> Z) (renamed : Z -> L -> L).
  (** A reference to the lookahead: a lexeme, the end of the input, or a lexeme that has moved *)
  Inductive lookahead := Lexeme (l : L) | End | Moved.
  Definition lexeme_of (la : lookahead) : option L := match la with Lexeme l => Some l | _ => None end.

  (** What a set of actions has to offer (the template parameter of perform_generic and others).
      [d_states]: the stack, the current state first.  [d_virtual]: the states fake_reduce works with.
      [d_shift] gets the lexeme, or None for the end of the input. *)
  Record delegate (D : Type) := mkDelegate {
    d_states : D -> list Z;
    d_virtual : D -> list Z;
    d_shift : Z -> option L -> D -> D;
    d_reduce : reduce_rule -> D -> outcome D;
    d_set : Z -> D -> D }.
  Arguments d_states {D}. Arguments d_virtual {D}. Arguments d_shift {D}. Arguments d_reduce {D}. Arguments d_set {D}.

  (** parser_state.h 160-213 *)
  Definition perform {D} (dl : delegate D) (la : lookahead) (e : entry) (d : D) : outcome (bool * D) :=
    match e_type e with
    | Ignore => Done (true, d)
    | Shift => Done (true, d_shift dl (e_next e) (lexeme_of la) d)
    | ShiftStrong =>
        match la with
        | Lexeme l => Done (true, d_shift dl (e_next e) (Some (renamed (strong_for_weak t (matched l)) l)) d)
        | _ => Undefined
        end
    | Divert => Done (false, d_shift dl (e_next e) (lexeme_of la) d)
    | Reduce | WeakReduce | Accept =>
        do r <- defined (rule_at t (e_next e)) ;; do d <- d_reduce dl r d ;; Done (false, d)
    | Goto => Done (false, d_set dl (e_next e) d)
    | Guard => Done (true, d)
    end.

  (** parser_state.h 636-656: can the guard symbol be used? *)
  Fixpoint guard_usable (fuel : nat) (symbol : Z) (acts : list entry) (v : list Z) : outcome bool :=
    match acts with
    | [] => Done false
    | e :: acts =>
        if negb (e_symbol e =? symbol) then Done false else
        match e_type e with
        | Reduce | WeakReduce => do b <- can_reduce_by fuel false symbol e v ;; if b then Done true else guard_usable fuel symbol acts v
        | Shift | ShiftStrong => Done true
        | _ => guard_usable fuel symbol acts v
        end
    end.
  (** parser_state.h 665-703 *)
  Fixpoint guard_perform {D} (dl : delegate D) (fuel : nat) (la : lookahead) (symbol : Z) (acts : list entry) (d : D) : outcome D :=
    match fuel with
    | O => OutOfFuel
    | S fuel =>
        match acts with
        | [] => Done d
        | e :: acts =>
            if negb (e_symbol e =? symbol) then Done d else
            do go <- match e_type e with WeakReduce => can_reduce_by fuel false symbol e (d_virtual dl d) | Guard => Done false | _ => Done true end ;;
            if negb go then guard_perform dl fuel la symbol acts d else
            do (finished, d) <- perform dl la e d ;;
            if finished then Done d else
            do q <- top (d_states dl d) ;;
            do l <- find_symbol false q symbol ;;
            guard_perform dl fuel la symbol l d
        end
    end.
  (** parser_state.h 615-707 *)
  Definition process_guard {D} (dl : delegate D) (fuel : nat) (la : lookahead) (symbol : Z) (d : D) : outcome (bool * D) :=
    do q <- top (d_states dl d) ;;
    do l <- find_symbol false q symbol ;;
    match l with
    | [] => Done (false, d)
    | e :: _ =>
        if negb (e_symbol e =? symbol) then Done (false, d) else
        do b <- guard_usable fuel symbol l (d_virtual dl d) ;;
        if negb b then Done (false, d) else
        do d <- guard_perform dl fuel la symbol l d ;; Done (true, d)
    end.

  (** guard_actions (parser.h 437-545): a stack of states.  [under]: the states of the parser's own
      stack. *)
  Definition guard_reduce (r : reduce_rule) (d : list Z) : outcome (list Z) :=
    let n := Z.to_nat (rr_length r) in
    if Nat.ltb (length d) n then Undefined else
    let d := skipn n d in
    do q <- top d ;;
    do g <- find_goto q (rr_identifier r) ;;
    Done (match g with Some n => n :: d | None => d end).
  Definition guard_actions (under : list Z) : delegate (list Z) :=
    mkDelegate _ (fun d => d) (fun d => d ++ under) (fun q _ d => q :: d) guard_reduce (fun q d => match d with [] => [] | _ :: d => q :: d end).

  (** What a lookahead is looked up as *)
  Definition symbol_of_look (la : option L) : bool * Z := match la with Some l => (true, matched l) | None => (false, t_eoi t) end.

  (** parser_state.h 227-350.  [input]: the input from the lookahead of the parser on; [seen]: how many of
      them are in the lookahead list.  When a guard that is checked inside adds to the list, a reference to
      a lexeme in it is no longer valid.  The answer: the guard symbol, or -1. *)
  Fixpoint check_loop (input : list L) (under : list Z) (fuel : nat) (offset : nat) (d : list Z) (seen : nat) : outcome (Z * nat) :=
    match fuel with
    | O => OutOfFuel
    | S fuel =>
        let la := nth_error input offset in
        let seen := Nat.max seen (Nat.min (S offset) (length input)) in
        let '(terminal, symbol) := symbol_of_look la in
        do q <- top d ;;
        do can_end <- (if has_end_of_guard t q then
                         do l <- find_symbol false q (t_eog t) ;;
                         match l with [] => Undefined | e :: _ => can_reduce_by fuel false (t_eog t) e (d ++ under) end
                       else Done false) ;;
        let '(terminal', symbol') := if can_end then (false, t_eog t) else (terminal, symbol) in
        do acts <- find_symbol terminal' q symbol' ;;
        (fix choose (acts : list entry) (la : lookahead) (seen : nat) : outcome (Z * nat) :=
           match acts with
           | [] => Done (-1, seen)
           | e :: acts =>
               if negb (e_symbol e =? symbol') then Done (-1, seen) else
               do go <- match e_type e, la with
                        | WeakReduce, Moved => Undefined
                        | WeakReduce, _ => can_reduce_by fuel terminal symbol e (d ++ under)
                        | _, _ => Done true
                        end ;;
               if negb go then choose acts la seen else
               match e_type e with
               | Accept => do r <- defined (rule_at t (e_next e)) ;; Done (rr_identifier r, seen)
               | Guard =>
                   do (g, seen') <- check_loop input under fuel offset [e_next e] seen ;;
                   let la := match la with Lexeme _ => if Nat.ltb seen seen' then Moved else la | _ => la end in
                   if g <? 0 then choose acts la seen' else
                   do (b, d') <- process_guard (guard_actions under) fuel la g d ;;
                   if b : bool then check_loop input under fuel offset d' seen' else choose acts la seen'
               | _ =>
                   do (b, d') <- perform (guard_actions under) la e d ;;
                   check_loop input under fuel (if b : bool then S offset else offset) d' seen
               end
           end) acts (match la with Some l => Lexeme l | None => End end) seen
    end.
  Definition check_guard (input : list L) (under : list Z) (fuel : nat) (q : Z) (offset : nat) (seen : nat) : outcome (Z * nat) := check_loop input under fuel offset [q] seen.

  (** standard_actions (parser.h 297-432).  [V]: the type of the items on the stack; [shift_value] and
      [reduce_value]: what the actions object makes of a lexeme and of the items of a rule (the last
      one first).  [s_calls]: the calls it has had, the last one first. *)
  Context (V : Type) (shift_value : option L -> V) (reduce_value : Z -> Z -> list V -> V).
  Inductive call := CallShift (l : option L) | CallReduce (nonterminal rule : Z) (items : list V).
  Record run := mkRun { s_stack : list (Z * V); s_calls : list call }.
  Fixpoint pop_items (n : nat) (l : list (Z * V)) : list V * list (Z * V) :=
    match n, l with
    | O, _ => ([], l)
    | S n, [] => ([], l)
    | S n, (_, v) :: _ => let '(vs, l) := pop_items n (drop1 l) in (v :: vs, l)
    end.
  Definition standard_reduce (r : reduce_rule) (d : run) : outcome run :=
    let '(items, l) := pop_items (Z.to_nat (rr_length r)) (s_stack d) in
    do q <- top (map fst l) ;;
    do g <- find_goto q (rr_identifier r) ;;
    Done (match g with
          | Some n => mkRun ((n, reduce_value (rr_identifier r) (rr_rule r) items) :: l) (CallReduce (rr_identifier r) (rr_rule r) items :: s_calls d)
          | None => mkRun l (s_calls d)
          end).
  Definition standard_actions : delegate run :=
    mkDelegate _ (fun d => map fst (s_stack d)) (fun d => map fst (s_stack d))
      (fun q l d => mkRun ((q, shift_value l) :: s_stack d) (CallShift l :: s_calls d))
      standard_reduce
      (fun q d => match s_stack d with [] => d | (_, v) :: l => mkRun ((q, v) :: l) (s_calls d) end).

  Inductive result := More | Accepted | Rejected.
  Record parser := mkParser { p_run : run; p_input : list L; p_seen : nat }.
  (** next (parser_state.h 112-115).  At the end of the input, it would remove a lexeme from an empty
      list *)
  Definition next_lexeme (p : parser) : outcome parser := match p_input p with [] => Undefined | _ :: l => Done (mkParser (p_run p) l (Nat.pred (p_seen p))) end.
  (** parser_state.h 511-571 *)
  Fixpoint choose (fuel : nat) (terminal : bool) (symbol : Z) (la : lookahead) (acts : list entry) (p : parser) : outcome (result * parser) :=
    match acts with
    | [] => Done (Rejected, p)
    | e :: acts =>
        if negb (e_symbol e =? symbol) then Done (Rejected, p) else
        let states := map fst (s_stack (p_run p)) in
        do go <- match e_type e with WeakReduce => can_reduce_by fuel terminal symbol e states | _ => Done true end ;;
        if negb go then choose fuel terminal symbol la acts p else
        match e_type e with
        | Guard =>
            do (g, seen) <- check_guard (p_input p) states fuel (e_next e) 0 (p_seen p) ;;
            let p := mkParser (p_run p) (p_input p) seen in
            if g <? 0 then choose fuel terminal symbol la acts p else
            do (b, d) <- process_guard standard_actions fuel la g (p_run p) ;;
            if b : bool then Done (More, mkParser d (p_input p) seen) else choose fuel terminal symbol la acts p
        | Accept => Done (Accepted, p)
        | _ =>
            do (b, d) <- perform standard_actions la e (p_run p) ;;
            let p := mkParser d (p_input p) (p_seen p) in
            if b : bool then do p <- next_lexeme p ;; Done (More, p) else Done (More, p)
        end
    end.
  (** parser_state.h 575-602 and parser.h 689-692 *)
  Definition process (fuel : nat) (p : parser) : outcome (result * parser) :=
    let la := nth_error (p_input p) 0 in
    let p := mkParser (p_run p) (p_input p) (Nat.max (p_seen p) (Nat.min 1 (length (p_input p)))) in
    let '(terminal, symbol) := symbol_of_look la in
    do q <- top (map fst (s_stack (p_run p))) ;;
    do acts <- find_symbol terminal q symbol ;;
    choose fuel terminal symbol (match la with Some l => Lexeme l | None => End end) acts p.
  (** parser.h 696-707 *)
  Fixpoint parse (fuel : nat) (p : parser) : outcome (bool * parser) :=
    match fuel with
    | O => OutOfFuel
    | S fuel =>
        do (r, p) <- process fuel p ;;
        match r with More => parse fuel p | Accepted => Done (true, p) | Rejected => Done (false, p) end
    end.
  (** A parser in its initial state (parser_state.h 36-47) and at the start of its input.  [v]: the item at
      the bottom of the stack, made by its default constructor *)
  Definition start_parser (q : Z) (v : V) (input : list L) : parser := mkParser (mkRun [(q, v)] []) input 0.
End Run.
Arguments d_states {L D}. Arguments d_virtual {L D}. Arguments d_shift {L D}. Arguments d_reduce {L D}. Arguments d_set {L D}.
Arguments s_stack {L V}. Arguments s_calls {L V}. Arguments mkRun {L V}. Arguments mkParser {L V}. Arguments p_run {L V}. Arguments p_input {L V}. Arguments p_seen {L V}.
Arguments Lexeme {L}. Arguments End {L}. Arguments Moved {L}. Arguments CallShift {L V}. Arguments CallReduce {L V}.

(** ast_parser_actions (Lr/ast_parser.h 82-108): nodes for lexemes (none at the end of the input), and for
    rules *)
Inductive ast (L : Type) := Leaf (l : option L) | Node (nonterminal rule : Z) (children : list (ast L)).
Arguments Leaf {L}. Arguments Node {L}.
Definition ast_shift {L} (l : option L) : ast L := Leaf l.
Definition ast_reduce {L} (nonterminal rule : Z) (items : list (ast L)) : ast L := Node nonterminal rule (rev items).
Definition ast_parse (t : tables) {L} (matched : L -> Z) (renamed : Z -> L -> L) (fuel : nat) := parse t L matched renamed (ast L) ast_shift ast_reduce fuel.

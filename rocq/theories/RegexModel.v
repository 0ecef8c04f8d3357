(** Model of the automaton builder (TameParse/Dfa/ndfa.h 202-379, ndfa.cpp 201-436) and of
    TameParse/Dfa/ndfa_regex.cpp.  No proofs in this file. *)
From Verif Require Import Base OrdMap SymbolSetModel SymbolMapModel NdfaModel TextModel CaseTables.
Local Open Scope Z_scope.

(** ndfa.cpp 204-215 *)
Definition surrogate_pair (ucs32 : Z) : Z * Z :=
  let lower := Z.lor 0xdc00 (Z.land ucs32 0x3ff) in
  let higher1 := Z.land (Z.shiftr ucs32 10) 0x3f in
  let higher2 := Z.shiftr ucs32 16 - 1 in
  let higher := Z.lor (Z.lor 0xd800 higher1) (Z.shiftl higher2 6) in
  (higher, lower).

(** ndfa.cpp 275-301: the split of a set into the part below 0x10000 and the part above *)
Definition split_surrogates (symbols : symbol_set) : symbol_set * symbol_set :=
  fold_left (fun acc r =>
    let '(surrogates, nonSurrogates) := acc in
    if hi r <=? lo r then acc
    else if 0x10000 <? hi r then
      if lo r <=? 0xffff then (union_range surrogates (mkR 0x10000 (hi r)), union_range nonSurrogates (mkR (lo r) 0x10000))
      else (union_range surrogates r, nonSurrogates)
    else (surrogates, union_range nonSurrogates r)) symbols ([], []).

(** A set of tokens, as lexers are defined: each is a regular expression or a literal. *)
Inductive token := Regex (text : list Z) | Literal (text : list Z).

(** lexer_stage.cpp 145-152: the case option for a definition that has to ignore case, that has
    to distinguish case, or that leaves it to what surrounds it *)
Definition item_case (outer insensitive sensitive : bool) : bool := if insensitive then true else if sensitive then false else outer.

Section Regex.
  Context {A : Type}.
  Implicit Types d : ndfa A.

  (** ndfa.cpp 218-263.  The range is clipped at 0x110000 first.  [range<int>] converts to the
      symbol set with that one range, even if it is empty. *)
  Definition add_surrogate_transition d (r : range) (cur target : nat) : ndfa A :=
    if 0x110000 <=? lo r then d
    else
      let upper := if 0x110000 <? hi r then 0x110000 else hi r in
      let '(h1, l1) := surrogate_pair (lo r) in
      let '(h2, l2) := surrogate_pair (upper - 1) in
      if h1 =? h2 then
        let '(tmp, d) := add_state d in
        let d := add_transition d cur [mkR h1 (h1 + 1)] tmp in
        add_transition d tmp [mkR l1 (l2 + 1)] target
      else
        let '(tmp1, d) := add_state d in
        let d := add_transition d cur [mkR h1 (h1 + 1)] tmp1 in
        let d := add_transition d tmp1 [mkR l1 0xdc00] target in
        let '(tmp2, d) := add_state d in
        let d := add_transition d cur [mkR h2 (h2 + 1)] tmp2 in
        let d := add_transition d tmp2 [mkR 0xd800 (l2 + 1)] target in
        if h1 <? h2 - 1 then
          let '(tmp3, d) := add_state d in
          let d := add_transition d cur [mkR (h1 + 1) h2] tmp3 in
          add_transition d tmp3 [mkR 0xdc00 0xe000] target
        else d.

  (** ndfa.h 202-235.  [b_next] is m_NextState ([None] is -1); the stack entries hold the
      initial state and the final state of an alternative ([None] is -1).  The C++ initial
      states are never negative (push stores the current state, begin_or stores 0). *)
  Record builder := mkB {
    b_nfa : ndfa A;
    b_cur : nat;
    b_next : option nat;
    b_prev : nat;
    b_surr : bool;
    b_lower : bool;
    b_upper : bool;
    b_stack : list (nat * option nat) }.

  Definition with_nfa (b : builder) (d : ndfa A) : builder :=
    mkB d (b_cur b) (b_next b) (b_prev b) (b_surr b) (b_lower b) (b_upper b) (b_stack b).
  Definition with_stack (b : builder) (st : list (nat * option nat)) : builder :=
    mkB (b_nfa b) (b_cur b) (b_next b) (b_prev b) (b_surr b) (b_lower b) (b_upper b) st.
  Definition at_state (b : builder) (cur : nat) (next : option nat) (prev : nat) : builder :=
    mkB (b_nfa b) cur next prev (b_surr b) (b_lower b) (b_upper b) (b_stack b).

  (** unicode.cpp to_lower and to_upper (modelled in TextModel): any functions here *)
  Context (to_lower to_upper : symbol_set -> symbol_set).

  (** ndfa.cpp 266-337.  The push (308) and pop (326) around the surrogate transitions leave the
      stack as it was and set the previous state to the state it is set to anyway. *)
  Definition add_with_surrogates (b : builder) (symbols : symbol_set) : builder :=
    let '(next, d) := match b_next b with
                      | Some q => (q, b_nfa b)
                      | None => add_state (b_nfa b)
                      end in
    let cur := b_cur b in
    let '(surrogates, nonSurrogates) := split_surrogates symbols in
    let d' :=
      if (b_surr b && negb (match surrogates with [] => true | _ => false end))%bool then
        let d := match nonSurrogates with [] => d | _ => add_transition d cur nonSurrogates next end in
        fold_left (fun d r => add_surrogate_transition d r cur next) surrogates d
      else add_transition d cur symbols next in
    mkB d' next None cur (b_surr b) (b_lower b) (b_upper b) (b_stack b).

  (** ndfa.cpp 340-361 *)
  Definition shift (b : builder) (symbols : symbol_set) : builder :=
    if (b_lower b || b_upper b)%bool then
      let t := if b_lower b then union_set symbols (to_lower symbols) else symbols in
      let t := if b_upper b then union_set t (to_upper symbols) else t in
      add_with_surrogates b t
    else add_with_surrogates b symbols.

  (** ndfa.h 258: [>> int] *)
  Definition shift_symbol (b : builder) (c : Z) : builder := shift b [mkR c (c + 1)].

  (** ndfa.h 263-266: [>> state] *)
  Definition set_next (b : builder) (q : nat) : builder := at_state b (b_cur b) (Some q) (b_prev b).

  (** ndfa.h 318-328 *)
  Definition goto1 (b : builder) (q : nat) : builder := at_state b q None (b_prev b).
  Definition goto2 (b : builder) (q prev : nat) : builder := at_state b q None prev.

  (** ndfa.h 297-300 *)
  Definition set_case (b : builder) (lower upper : bool) : builder :=
    mkB (b_nfa b) (b_cur b) (b_next b) (b_prev b) (b_surr b) lower upper (b_stack b).

  (** ndfa.h 337 *)
  Definition push (b : builder) : builder := with_stack b ((b_cur b, None) :: b_stack b).

  (** ndfa.cpp 368-387 *)
  Definition pop (b : builder) : builder :=
    match b_stack b with
    | [] => b
    | (first, second) :: st =>
        let b := match second with Some f => shift (set_next b f) [] | None => b end in
        with_stack (at_state b (b_cur b) (b_next b) first) st
    end.

  (** ndfa.cpp 390-418 *)
  Definition begin_or (b : builder) : builder :=
    let b := match b_stack b with [] => with_stack b [(0%nat, None)] | _ => b end in
    match b_stack b with
    | [] => b
    | (first, second) :: st =>
        let b := match second with
                 | None => let prev := b_prev b in
                           let b := shift b [] in
                           with_stack (at_state b (b_cur b) (b_next b) prev) ((first, Some (b_cur b)) :: st)
                 | Some f => with_nfa b (add_transition (b_nfa b) (b_cur b) [] f)
                 end in
        at_state b first (b_next b) (b_prev b)
    end.

  (** ndfa.cpp 421-436.  The entry is never popped: its first state is never -1. *)
  Definition rejoin (b : builder) : builder :=
    match b_stack b with
    | (first, Some f) :: st => with_stack (shift (set_next b f) []) ((first, None) :: st)
    | _ => b
    end.

  (** ndfa_regex.cpp 389-418.  The position is the list from it to the end; [hex] starts at
      the character before the digits. *)
  Definition is_hex (c : Z) : bool :=
    negb (((c <? 48) || (57 <? c)) && ((c <? 97) || (102 <? c)) && ((c <? 65) || (70 <? c)))%bool.
  Definition hex_value (c : Z) : Z :=
    if c <=? 57 then c - 48 else if c <=? 70 then c - 65 + 10 else if c <=? 102 then c - 97 + 10 else 0.
  Fixpoint hex (digits : nat) (pos : list Z) (result : Z) : Z * list Z :=
    match digits with
    | O => (result, pos)
    | S digits =>
        match pos with
        | _ :: (c :: _) as next => if is_hex c then hex digits next (result * 16 + hex_value c) else (result, pos)
        | _ => (result, pos)
        end
    end.

  (** ndfa_regex.cpp 421-447 *)
  Fixpoint oct (digits : nat) (pos : list Z) (result : Z) : Z * list Z :=
    match digits with
    | O => (result, pos)
    | S digits =>
        match pos with
        | _ :: (c :: _) as next =>
            if ((c <? 48) || (55 <? c))%bool then (result, pos) else oct digits next (result * 8 + (c - 48))
        | _ => (result, pos)
        end
    end.

  (** ndfa_regex.cpp 455-499: the symbol, and the position of its last character *)
  Definition symbol_for_sequence (pos : list Z) : Z * list Z :=
    match pos with
    | [] => (0, [])
    | c :: t =>
        if negb (c =? 92) then (c, pos)
        else match t with
             | [] => (92, [])
             | e :: _ =>
                 if e =? 97 then (7, t)
                 else if e =? 101 then (27, t)
                 else if e =? 110 then (10, t)
                 else if e =? 114 then (13, t)
                 else if e =? 102 then (12, t)
                 else if e =? 116 then (9, t)
                 else if e =? 117 then hex 4 t 0
                 else if e =? 120 then hex 2 t 0
                 else if e =? 111 then oct 6 t 0
                 else if ((48 <=? e) && (e <=? 57))%bool then oct 3 pos 0
                 else (e, t)
             end
    end.

  (** ndfa_regex.cpp 319-346: the loop over the members of a class; ends at the closing
      bracket or at the end *)
  Fixpoint class_loop (fuel : nat) (pos : list Z) (syms : symbol_set) : option (list Z * symbol_set) :=
    match pos with
    | [] => Some ([], syms)
    | c :: _ =>
        if c =? 93 then Some (pos, syms)
        else match fuel with
             | O => None
             | S fuel =>
                 let '(initial, pos) := symbol_for_sequence pos in
                 match pos with
                 | [] => Some ([], syms)
                 | _ :: pos =>
                     match pos with
                     | [] => Some ([], syms)
                     | c :: pos' =>
                         if c =? 45 then
                           match pos' with
                           | [] => Some ([], syms)
                           | _ => let '(final, pos) := symbol_for_sequence pos' in
                                  match pos with
                                  | [] => Some ([], syms)
                                  | _ :: pos => class_loop fuel pos (union_range syms (mkR initial (final + 1)))
                                  end
                           end
                         else class_loop fuel pos (union_range syms (mkR initial (initial + 1)))
                     end
                 end
             end
    end.

  (** ndfa_regex.cpp 302-355: a class, [pos] behind the opening bracket.  [None]: no
      transition is added. *)
  Definition compile_class (pos : list Z) : option (list Z * option symbol_set) :=
    let finish negate pos :=
      match class_loop (length pos) pos [] with
      | None => None
      | Some (pos, syms) => Some (pos, Some (if negate : bool then invert syms else syms))
      end in
    match pos with
    | [] => Some ([], None)
    | c :: t => if c =? 94 then match t with [] => Some ([], None) | _ => finish true t end else finish false pos
    end.

  (** ndfa_regex.cpp 135-144 *)
  Definition add_literal_at (b : builder) (literal : list Z) : builder := fold_left shift_symbol literal b.

  (** ndfa.h 238-246 with the options set as in ndfa_regex.cpp 152-155 *)
  Definition builder_at d (surr nocase : bool) (q : nat) : builder := mkB d q None 0 surr nocase nocase [].

  (** ndfa_regex.cpp 147-158 *)
  Definition add_literal d (surr nocase : bool) (init : nat) (literal : list Z) : nat * ndfa A :=
    if Nat.leb (count_states d) init then (init, d)
    else let b := add_literal_at (builder_at d surr nocase init) literal in (b_cur b, b_nfa b).

  (** m_ExpressionMap and m_LiteralExpressionMap (values of the names), and the unicode
      categories of util/unicode: any tables here.  [defined]: the definitions of a name in the
      lexer data (lexer_stage.cpp 124), with their flags case_insensitive and case_sensitive, for
      the subclass ndfa_lexer_compiler; none for ndfa_regex itself. *)
  Context (expressions literals : list Z -> option (list Z)) (category : list Z -> option symbol_set)
    (defined : list Z -> list (bool * bool * token)).

  (** The name up to the closing brace, and the rest from that brace on. *)
  Fixpoint span_brace (pos : list Z) : list Z * list Z :=
    match pos with
    | [] => ([], [])
    | c :: t => if c =? 125 then ([], pos) else let '(name, rest) := span_brace t in (c :: name, rest)
    end.

  (** [previous* ], [previous+], [previous?]: ndfa_regex.cpp 251-297 *)
  Definition star (b : builder) : builder :=
    let previous := b_prev b in
    let current := b_cur b in
    let b := shift (set_next (goto1 b previous) current) [] in
    let b := shift (set_next (goto1 b current) previous) [] in
    goto2 b current previous.
  Definition plus (b : builder) : builder :=
    let previous := b_prev b in
    let current := b_cur b in
    let b := shift (set_next (goto1 b current) previous) [] in
    goto2 b current previous.
  Definition opt (b : builder) : builder :=
    let previous := b_prev b in
    let current := b_cur b in
    let b := shift (set_next (goto1 b previous) current) [] in
    goto2 b current previous.

  (** ndfa_regex.cpp 178-197 (the loop) with 227-386 (compile) and 922-975 (the {} expressions
      that are defined in terms of others, with the add_regex of 174-200); lexer_stage.cpp
      122-174 for the names with definitions in the lexer data.  [None]: out of fuel
      (an expression that refers to itself recurses for ever in C++). *)
  Fixpoint run (fuel : nat) (pos : list Z) (b : builder) : option builder :=
    match pos with
    | [] => Some (rejoin b)
    | c :: t =>
        match fuel with
        | O => None
        | S fuel =>
            if c =? 40 then run fuel t (push b)
            else if c =? 41 then run fuel t (pop b)
            else if c =? 124 then run fuel t (begin_or b)
            else if c =? 42 then run fuel t (star b)
            else if c =? 43 then run fuel t (plus b)
            else if c =? 63 then run fuel t (opt b)
            else if c =? 46 then run fuel t (shift b [mkR 0 0x7fffffff])
            else if c =? 91 then
              match compile_class t with
              | None => None
              | Some (pos, syms) => run fuel (tl pos) (match syms with Some s => shift b s | None => b end)
              end
            else if c =? 123 then
              match t with
              | [] => run fuel [] b
              | _ =>
                  let '(name, pos) := span_brace t in
                  let b := push b in
                  match match defined name with
                        | [] =>
                            match expressions name with
                            | Some value => run fuel value (shift b [])
                            | None =>
                                match literals name with
                                | Some value =>
                                    let '(final, d) := add_literal (b_nfa b) (b_surr b) (b_lower b) (b_cur b) value in
                                    Some (goto1 (with_nfa b d) final)
                                | None => match category name with
                                          | Some s => Some (shift b s)
                                          | None => Some b
                                          end
                                end
                            end
                        | items =>
                            match fold_left (fun acc item =>
                                    match acc with
                                    | None => None
                                    | Some (first, b') =>
                                        let '(insensitive, sensitive, t) := item in
                                        let b' := if first : bool then b' else begin_or b' in
                                        let b' := set_case b' (item_case (b_lower b) insensitive sensitive) (item_case (b_upper b) insensitive sensitive) in
                                        match t with
                                        | Regex value => match run fuel value (shift b' []) with
                                                         | None => None
                                                         | Some b' => Some (false, b')
                                                         end
                                        | Literal value => Some (false, add_literal_at b' value)
                                        end
                                    end) items (Some (true, push b)) with
                            | None => None
                            | Some (_, b') => Some (pop (set_case b' (b_lower b) (b_upper b)))
                            end
                        end with
                  | None => None
                  | Some b => run fuel (tl pos) (pop b)
                  end
              end
            else
              let '(sym, pos) := symbol_for_sequence pos in
              run fuel (tl pos) (shift_symbol b sym)
        end
    end.

  (** ndfa_regex.cpp 161-200 *)
  Definition add_regex (fuel : nat) d (surr nocase : bool) (init : nat) (regex : list Z) : option (nat * ndfa A) :=
    if Nat.leb (count_states d) init then Some (init, d)
    else match run fuel regex (shift (builder_at d surr nocase init) []) with
         | None => None
         | Some b => Some (b_cur b, b_nfa b)
         end.
End Regex.

(** unicode.cpp 113-136 with the real tables ([None] does not happen: C20) *)
Definition lower_case (s : symbol_set) : symbol_set := match to_case lowercase_map s with Some r => r | None => [] end.
Definition upper_case (s : symbol_set) : symbol_set := match to_case uppercase_map s with Some r => r | None => [] end.

Section Tokens.
  Context {A : Type} (expressions literals : list Z -> option (list Z)) (category : list Z -> option symbol_set)
    (defined : list Z -> list (bool * bool * token)).

  (** ndfa_regex.h 101-106 and 139-144: both add the accept action to the final state. *)
  Definition add_token (fuel : nat) (d : ndfa A) (surr nocase : bool) (init : nat) (t : token) (a : A) : option (ndfa A) :=
    match t with
    | Regex regex => match add_regex lower_case upper_case expressions literals category defined fuel d surr nocase init regex with
                     | None => None
                     | Some (final, d) => Some (accept d final a)
                     end
    | Literal word => let '(final, d) := add_literal lower_case upper_case d surr nocase init word in Some (accept d final a)
    end.

  (** The loop over the symbols of a lexer (lexer_stage.cpp 307-384 without the ignored symbols
      that are combined; lexer_language.h): all of them start in state 0.  The flag says whether
      case is ignored. *)
  Fixpoint add_tokens (fuel : nat) (d : ndfa A) (surr : bool) (ts : list (bool * token * A)) : option (ndfa A) :=
    match ts with
    | [] => Some d
    | (nocase, t, a) :: ts => match add_token fuel d surr nocase 0 t a with
                              | None => None
                              | Some d => add_tokens fuel d surr ts
                              end
    end.
End Tokens.

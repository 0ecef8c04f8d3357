(** Model of the lexer side of weak symbols: TameParse/Lr/weak_symbols.cpp 74-170 and its call in
    TameParse/Compiler/lexer_stage.cpp 505-520.  No proofs in this file. *)
From Verif Require Import Base OrdMap SymbolSetModel SymbolMapModel NdfaModel NdfaReduceModel LexerModel TermDictModel GrammarModel FirstModel LrItemModel ActionModel TableModel RewriteModel LexStageModel.
Local Open Scope Z_scope.

(** The DFA of the lexer stage, with its actions among all kinds of actions *)
Definition lift_actions (d : ndfa language_action) : ndfa any_action :=
  mkN (n_states d) (n_symbols d) (map (fun p => (fst p, map Lang_action (snd p))) (n_accept d)).

Section Weak.
  (** weak_symbols.cpp 80-90: the weak terminals *)
  Context (weak : Z -> bool).

  Definition no_symbol : Z := 0x7fffffff.

  (** weak_symbols.cpp 105-124: the strongest symbol of a state, and its weak symbols *)
  Definition weak_scan (acts : list any_action) : Z * list Z :=
    fold_left (fun st a =>
      let '(strongest, found) := st in
      let sym := any_symbol a in
      if weak sym then (strongest, sins Z.ltb sym found)
      else (if sym <? strongest then sym else strongest, found)) acts (no_symbol, []).

  (** weak_symbols.cpp 133-149: one weak symbol of state [q].  The state of the loop is the DFA,
      [weakToStrong] and the terminal dictionary. *)
  Definition weak_symbol (q : nat) (strongest : Z) (st : ndfa any_action * list (Z * Z) * dict) (w : Z) : ndfa any_action * list (Z * Z) * dict :=
    let '(d, m, T) := st in
    match mfind Z.ltb w m with
    | None => (d, mset Z.ltb w strongest m, T)
    | Some s =>
        if s =? strongest then st
        else let '(T, c) := split_symbol w T in
             (accept (clear_accept d q) q (Base_action c), mset Z.ltb c strongest m, T)
    end.

  (** weak_symbols.cpp 97-150: one state.  The loop over no weak symbols does nothing (130). *)
  Definition weak_state (st : ndfa any_action * list (Z * Z) * dict) (q : nat) : ndfa any_action * list (Z * Z) * dict :=
    let '(d, m, T) := st in
    match NdfaModel.actions_for_state d q with
    | [] => st
    | acts =>
        let '(strongest, found) := weak_scan acts in
        if strongest =? no_symbol then st else fold_left (weak_symbol q strongest) found st
    end.

  Definition weak_dfa (d : ndfa any_action) (T : dict) : ndfa any_action * list (Z * Z) * dict :=
    fold_left weak_state (seq 0 (count_states d)) (d, [], T).
End Weak.

(** weak_symbols.cpp 154-169 *)
Definition weak_record (m : list (Z * Z)) (weak : iset) (w : weak_syms) : weak_syms :=
  mkWeak (fold_left (fun s p => mset item_ltb (ITerm (snd p)) (iinsert (ITerm (fst p)) (match mfind item_ltb (ITerm (snd p)) s with Some x => x | None => no_items end)) s) m (w_weak_for w))
    (imerge (w_weak w) weak).

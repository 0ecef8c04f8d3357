(** Independent specification of what a language block says about texts. *)
From Verif Require Import Base OrdMap RegexModel RegexSpec LexStageModel LexStageSpec TermDictModel LangModel LangSpec.
Local Open Scope Z_scope.

Section Texts.
  (** How the texts of regular expressions and of literals are read, and the definitions of a
      language *)
  Context (tree_of : token -> tree) (defs : list defn).

  (** The definition [e] matches [w]. *)
  Definition matches (e : defn) (w : list Z) : Prop := exists k, denotes (df_lexeme e) k /\ tree_matches false (df_insensitive e) (tree_of k) w.
  Definition takes (n : name) (e : defn) (w : list Z) : Prop := In e (live n defs) /\ matches e w.
  (** Keywords come before other lexer symbols and these before ignored ones; then the terminal
      counts that was defined first.  It does not matter which of several ignored ones counts. *)
  Definition defined_before (n k : name) : Prop := exists i j, nth_error (in_order (names defs)) i = Some n /\ nth_error (in_order (names defs)) j = Some k /\ (i < j)%nat.
  Definition preferred (n : name) (e : defn) (n' : name) (e' : defn) : Prop := df_unit e < df_unit e' \/ (df_unit e = df_unit e' /\ df_unit e <> unit_ignore /\ defined_before n n').
  (** [w] is read as the terminal [n]. *)
  Definition word (w : list Z) (n : name) : Prop := exists e, takes n e w /\ forall n' e', takes n' e' w -> ~ preferred n' e' n e.
  (** [p] is the longest word at the start of [text]. *)
  Definition longest (p text : list Z) : Prop := p <> [] /\ forall p' rest' n e, text = p' ++ rest' -> p' <> [] -> takes n e p' -> (length p' <= length p)%nat.
  Definition ignored_name (n : name) : Prop := exists e, In e (live n defs) /\ df_unit e = unit_ignore.
  (** [text] is a sequence of words that are the terminals [u], with ignored words between them. *)
  Inductive spells : list Z -> list name -> Prop :=
  | spells_end : spells [] []
  | spells_word p rest n u : longest p (p ++ rest) -> word p n -> ~ ignored_name n -> spells rest u -> spells (p ++ rest) (n :: u)
  | spells_skip p rest n u : longest p (p ++ rest) -> word p n -> ignored_name n -> spells rest u -> spells (p ++ rest) u.

  (** The kinds of a terminal's definitions agree, ignored terminals are not weak, and no text is
      matched by a weak and by a strong definition. *)
  Record clear_kinds : Prop := {
    ck_ignored : forall e e', In e defs -> In e' defs -> df_name e = df_name e' -> df_unit e = unit_ignore -> df_unit e' = unit_ignore;
    ck_weak : forall e e', In e defs -> In e' defs -> df_name e = df_name e' -> df_weak e = df_weak e';
    ck_strong : forall e, In e defs -> df_unit e = unit_ignore -> df_weak e = false;
    ck_clash : forall w n e n' e', takes n e w -> takes n' e' w -> df_weak e = df_weak e' }.
End Texts.

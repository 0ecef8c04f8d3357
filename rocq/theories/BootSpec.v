(** The texts of the bootstrap language: what a syntax tree of a grammar is and the words it stands for, and when
    words say the same as the tokens in which SourceSpec.v writes a definition file. *)
From Coq Require Import String.
From Verif Require Import Base TermDictModel LexStageModel LangModel NamesModel SourceModel SourceSpec BootModel.
Local Open Scope Z_scope.

(** A word of a text: its symbol and its characters *)
Definition word_of_text := (Z * name)%type.
(** Keywords and signs are spelled in one way; other words are not empty *)
Definition spelling (k : Z) : option name :=
  match find (fun x => fst x =? k)
    [(t_language, codes "language"); (t_grammar, codes "grammar"); (t_lexersymbols, codes "lexer-symbols"); (t_lexer, codes "lexer"); (t_weak, codes "weak");
     (t_ignore, codes "ignore"); (t_keywords, codes "keywords"); (t_parser, codes "parser"); (t_equals, codes "="); (t_question, codes "?"); (t_plus, codes "+");
     (t_star, codes "*"); (t_colon, codes ":"); (t_openparen, codes "("); (t_closeparen, codes ")"); (t_opencurly, codes "{"); (t_closecurly, codes "}");
     (t_dot, codes "."); (t_pipe, codes "|"); (t_openguard, codes "[=>"); (t_opensquare, codes "["); (t_closesquare, codes "]")] with
  | Some x => Some (snd x)
  | None => None
  end.
Definition spelled (k : Z) (x : name) : Prop := match spelling k with Some s => x = s | None => x <> [] end.

(** ** Syntax trees of a grammar *)
Section Trees.
  Context (G : list (Z * list sym)).
  (** [derives s n w]: n is a syntax tree for s made from the words w.  Repeated items are lists that grow to the
      right; a guard stands for no words, whatever its node is. *)
  Inductive derives : sym -> node -> list word_of_text -> Prop :=
  | d_tok k x : spelled k x -> derives (Tok k) (Node (-1) (Some (k, x)) []) [(k, x)]
  | d_nonterm n r l w : In (n, r) G -> derives_all r l w -> derives (Nonterm n) (Node n None l) w
  | d_opt_none i r : derives (Opt r) (Node i None []) []
  | d_opt_some i r l w : derives_all r l w -> derives (Opt r) (Node i None l) w
  | d_star_none i r : derives (Star r) (Node i None []) []
  | d_star_more i r c l u w : derives (Star r) c u -> derives_all r l w -> derives (Star r) (Node i None (c :: l)) (u ++ w)
  | d_plus_one i r l w : derives_all r l w -> derives (Plus r) (Node i None l) w
  | d_plus_more i r c l u w : derives (Plus r) c u -> derives_all r l w -> derives (Plus r) (Node i None (c :: l)) (u ++ w)
  | d_guard r n : derives (Guarded r) n []
  with derives_all : list sym -> list node -> list word_of_text -> Prop :=
  | d_nil : derives_all [] [] []
  | d_cons s r n l u w : derives s n u -> derives_all r l w -> derives_all (s :: r) (n :: l) (u ++ w).
End Trees.

(** ** Words and tokens *)
Definition says_one (w : word_of_text) (x : token) : Prop :=
  match x with
  | T s => snd w = s /\ ~ In (fst w) [t_nonterminal; t_regex; t_string; t_character]
  | Nt s => w = (t_nonterminal, s)
  | Term k s => w = (match k with TName => t_identifier | TString => t_string | TCharacter => t_character end, s)
  | Right k s => w = (match k with KLiteral => t_identifier | KString => t_string | KCharacter => t_character | KRegex => t_regex end, s)
  | Stands _ => False
  end.
Definition says (w : list word_of_text) (l : list token) : Prop := Forall2 says_one w l.

(** What the bootstrap language has but its reader does not take: a reference to a symbol of another language,
    and a language that inherits from another *)
Definition unsupported (w : list word_of_text) : Prop :=
  (exists x, In (t_dot, x) w) \/ exists u v a b c, w = u ++ [(t_language, a); (t_identifier, b); (t_colon, c)] ++ v.
(** The start symbols of parser blocks in the opposite order *)
Definition turned (b : d_block) : d_block := match b with DParser n l start => DParser n l (rev start) | _ => b end.

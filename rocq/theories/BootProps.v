(** C86: the definition made from a text of the bootstrap language says what was written. *)
From Coq Require Import String.
From Verif Require Import Base TermDictModel LexStageModel LangModel NamesModel SourceModel SourceSpec BootModel BootSpec BootProofs.
Local Open Scope Z_scope.

(** No child or lexeme that is not there is used *)
Theorem C86_safe n w : derives productions (Nonterm id_parser_language) n w -> get_definition n <> Bad.
Proof. intros D. destruct (definition_reads n w D) as [(E & _)|(d & E & _)]; rewrite E; discriminate. Qed.
Print Assumptions C86_safe.
(** A text is refused exactly if there is inheritance or a reference to another language in it *)
Theorem C86_refused n w : derives productions (Nonterm id_parser_language) n w -> (get_definition n = Null <-> unsupported w).
Proof.
  intros D. destruct (definition_reads n w D) as [(E & U)|(d & E & S & U)]; rewrite E; split; intros H; try reflexivity; try assumption; [discriminate H|contradiction].
Qed.
Print Assumptions C86_refused.
(** [_partial]: up to the order of the start symbols of a parser block, which is turned around *)
Theorem C86_written_partial n w : derives productions (Nonterm id_parser_language) n w -> ~ unsupported w ->
  exists d, get_definition n = Got d /\ says w (written (map turned d)).
Proof. intros D N. destruct (definition_reads n w D) as [(E & U)|(d & E & S & _)]; [contradiction|eauto]. Qed.
Print Assumptions C86_written_partial.
(** So the definition says what was written if no parser block has more than one start symbol *)
Theorem C86_one_start_partial n w d : derives productions (Nonterm id_parser_language) n w -> get_definition n = Got d ->
  (forall x y start, In (DParser x y start) d -> (length start <= 1)%nat) -> says w (written d).
Proof.
  intros D E O. destruct (definition_reads n w D) as [(E' & _)|(d' & E' & S & _)]; rewrite E in E'; [discriminate E'|]. injection E' as <-.
  replace (map turned d) with d in S; [exact S|]. symmetry. clear - O. induction d as [|b d IH]; [reflexivity|]. cbn [map]. f_equal.
  - destruct b as [| |x y start|]; try reflexivity. specialize (O x y start (or_introl eq_refl)). destruct start as [|? [|? ?]]; [reflexivity|reflexivity|cbn in O; lia].
  - apply IH. intros x y start H. apply (O x y start). right. exact H.
Qed.
Print Assumptions C86_one_start_partial.

(** ** Examples *)
Definition leaf (k : Z) (s : string) : node := Node (-1) (Some (k, codes s)) [].
Definition inner (i : Z) (l : list node) : node := Node i None l.
(** Nodes of EBNF items have other identifiers *)
Definition many (l : list node) : node := Node 30 None l.
Ltac pick := (left; reflexivity) + (right; pick).
Ltac tree := match goal with
  | |- derives _ (Tok _) _ _ => apply d_tok; vm_compute; (reflexivity || discriminate)
  | |- derives _ (Nonterm _) _ _ => eapply d_nonterm; [pick|trees]
  | |- derives _ (Opt _) (Node _ _ []) _ => apply d_opt_none
  | |- derives _ (Opt _) _ _ => apply d_opt_some; trees
  | |- derives _ (Star _) (Node _ _ []) _ => apply d_star_none
  | |- derives _ (Star _) _ _ => eapply d_star_more; [tree|trees]
  | |- derives _ (Plus _) _ _ => (eapply d_plus_more; [tree|trees]) + (apply d_plus_one; trees)
  | |- derives _ (Guarded _) _ _ => apply d_guard
  end
with trees := match goal with
  | |- derives_all _ [] _ _ => apply d_nil
  | |- derives_all _ (_ :: _) _ _ => eapply d_cons; [tree|trees]
  end.

Definition start (s : string) : node := inner id_parser_startsymbol [leaf t_nonterminal s].
Definition ex_parser : node :=
  inner id_toplevel_block [inner id_parser_block [leaf t_parser "parser"; leaf t_identifier "P"; leaf t_colon ":"; leaf t_identifier "L"; leaf t_opencurly "{";
    many [many [start "<A>"]; start "<B>"]; leaf t_closecurly "}"]].
(** The full statement is false: of two start symbols the second comes first *)
Theorem C86_start_refuted : exists n w d, derives productions (Nonterm id_parser_language) n w /\ get_definition n = Got d /\ ~ says w (written d).
Proof.
  exists (inner id_parser_language [many [many []; ex_parser]]). do 2 eexists. split; [unfold inner, many, ex_parser, leaf, start, inner, many; tree|]. split; [vm_compute; reflexivity|].
  intros H. do 5 (inversion H as [|? ? ? ? _ H']; subst; clear H; rename H' into H). inversion H as [|? ? ? ? E _]. discriminate E.
Qed.
Print Assumptions C86_start_refuted.

(** A language with weak keywords and a grammar with names, a repetition, an empty alternative and a guard *)
Definition simple (l : list node) : node := inner id_simple_ebnf_item l.
Definition none : node := many [].
Definition item_name (s : string) : node := many [inner id_item_name [leaf t_opensquare "["; leaf t_identifier s; leaf t_closesquare "]"]].
Definition nonterm (s : string) (nm : node) : node := simple [inner id_nonterminal [leaf t_nonterminal s]; nm].
Definition term (k : Z) (s : string) (nm : node) : node := simple [inner id_terminal [inner id_basic_terminal [leaf k s]]; nm].
Definition ex_language : node :=
  inner id_toplevel_block [inner id_language_block [leaf t_language "language"; leaf t_identifier "L"; none; leaf t_opencurly "{";
    many [many [none;
      inner id_language_definition [inner id_keywords_definition [many [leaf t_weak "weak"]; leaf t_keywords "keywords"; leaf t_opencurly "{";
        many [many [none; inner id_keyword_definition [leaf t_identifier "if"]]; inner id_keyword_definition [leaf t_identifier "then"; leaf t_equals "="; leaf t_string """then"""]]; leaf t_closecurly "}"]]];
      inner id_language_definition [inner id_grammar_definition [leaf t_grammar "grammar"; leaf t_opencurly "{";
        many [none; inner id_nonterminal_definition [leaf t_nonterminal "<A>"; leaf t_nonterminal "<A>"; leaf t_equals "=";
          inner id_production [many [many [none; term t_identifier "if" none];
            simple [simple [leaf t_openparen "("; inner id_ebnf_item [many [none; nonterm "<B>" (item_name "left")]; leaf t_pipe "|"; inner id_ebnf_item [none]]; leaf t_closeparen ")"]; leaf t_star "*"; item_name "list"]]];
          many [none; leaf t_pipe "|"; inner id_production [many [none; simple [inner id_guard [leaf t_openguard "[=>"; inner id_ebnf_item [many [none; term t_character "'x'" none]]; leaf t_closesquare "]"]]]]]]];
        leaf t_closecurly "}"]]];
    leaf t_closecurly "}"]].
Example C86_nontrivial : exists w, derives productions (Nonterm id_parser_language) (inner id_parser_language [many [many [none; ex_language]; ex_parser]]) w /\ ~ unsupported w /\
  map snd w = map codes ["language"; "L"; "{"; "weak"; "keywords"; "{"; "if"; "then"; "="; """then"""; "}"; "grammar"; "{"; "<A>"; "="; "if"; "("; "<B>"; "["; "left"; "]"; "|"; ")"; "*"; "["; "list"; "]";
    "|"; "[=>"; "'x'"; "]"; "}"; "}"; "parser"; "P"; ":"; "L"; "{"; "<A>"; "<B>"; "}"]%string /\
  get_definition (inner id_parser_language [many [many [none; ex_language]; ex_parser]]) = Got
    [DLanguage (codes "L") []
      [DLexer unit_keywords (mkBlock true false false [mkLexeme KLiteral (codes "if") false false (codes "if"); mkLexeme KString (codes "then") false false (codes """then""")]);
       DGrammar [mkNtDef Assignment (codes "<A>")
         [[Item ETerminal [] (codes "if") no_attributes [];
           Item ERepeatZero [] [] (mkAttr (codes "list") NotSpecified false)
             [Item EAlternative [] [] no_attributes [Item EParenthesized [] [] no_attributes [Item ENonterminal [] (codes "<B>") (mkAttr (codes "left") NotSpecified false) []]; Item EParenthesized [] [] no_attributes []]]];
          [Item EGuard [] [] no_attributes [Item EParenthesized [] [] no_attributes [Item ECharacter [] (codes "'x'") no_attributes []]]]]]];
     DParser (codes "P") (codes "L") [codes "<B>"; codes "<A>"]].
Proof.
  assert (D : exists w, derives productions (Nonterm id_parser_language) (inner id_parser_language [many [many [none; ex_language]; ex_parser]]) w /\
    map snd w = map codes ["language"; "L"; "{"; "weak"; "keywords"; "{"; "if"; "then"; "="; """then"""; "}"; "grammar"; "{"; "<A>"; "="; "if"; "("; "<B>"; "["; "left"; "]"; "|"; ")"; "*"; "["; "list"; "]";
    "|"; "[=>"; "'x'"; "]"; "}"; "}"; "parser"; "P"; ":"; "L"; "{"; "<A>"; "<B>"; "}"]%string).
  { eexists. split; [unfold inner, many, ex_parser, ex_language, simple, none, item_name, nonterm, term, leaf, start, simple, inner, many; tree|vm_compute; reflexivity]. }
  destruct D as (w & D & E). exists w. split; [exact D|]. split; [|split; [exact E|vm_compute; reflexivity]].
  rewrite <- (C86_refused _ _ D). vm_compute. discriminate.
Qed.

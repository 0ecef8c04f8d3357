(** Proofs about the reader of the bootstrap language. *)
From Coq Require Import String.
From Verif Require Import Base TermDictModel LexStageModel LangModel NamesModel SourceModel SourceSpec BootModel BootSpec.
Local Open Scope Z_scope.

Notation der := (derives productions).
Notation ders := (derives_all productions).

(** ** Inversion of trees *)
Lemma in_rules k r : In (k, r) productions -> In r (map snd (filter (fun x => fst x =? k) productions)).
Proof. intros H. apply in_map_iff. exists (k, r). split; [reflexivity|]. apply filter_In. split; [exact H|]. apply Z.eqb_refl. Qed.
Lemma der_nonterm k n w : der (Nonterm k) n w -> exists r l, n = Node k None l /\ In r (map snd (filter (fun x => fst x =? k) productions)) /\ ders r l w.
Proof. intros H. inversion H; subst. do 2 eexists. split; [reflexivity|]. split; [apply in_rules; eassumption|eassumption]. Qed.
Lemma der_tok k n w : der (Tok k) n w -> exists x, n = Node (-1) (Some (k, x)) [] /\ w = [(k, x)] /\ spelled k x.
Proof. intros H. inversion H; subst. eauto. Qed.
Lemma ders_nil l w : ders [] l w -> l = [] /\ w = [].
Proof. intros H. inversion H; auto. Qed.
Lemma ders_cons s r l w : ders (s :: r) l w -> exists n l' u v, l = n :: l' /\ w = u ++ v /\ der s n u /\ ders r l' v.
Proof. intros H. inversion H; subst. eauto 10. Qed.
Lemma der_star r n w : der (Star r) n w -> exists i, (n = Node i None [] /\ w = []) \/ exists c l u v, n = Node i None (c :: l) /\ w = u ++ v /\ der (Star r) c u /\ ders r l v.
Proof. intros H. inversion H; subst; eauto 12. Qed.
Lemma der_opt r n w : der (Opt r) n w -> exists i, (n = Node i None [] /\ w = []) \/ exists l, n = Node i None l /\ ders r l w.
Proof. intros H. inversion H; subst; eauto 12. Qed.
Lemma der_plus r n w : der (Plus r) n w -> exists i, (exists l, n = Node i None l /\ ders r l w) \/ exists c l u v, n = Node i None (c :: l) /\ w = u ++ v /\ der (Plus r) c u /\ ders r l v.
Proof. intros H. inversion H; subst; eauto 12. Qed.
Lemma der_guard r n w : der (Guarded r) n w -> w = [].
Proof. intros H. inversion H; auto. Qed.

Ltac break :=
  repeat match goal with
  | H : ders [] _ _ |- _ => apply ders_nil in H; destruct H as [? ?]; subst
  | H : ders (_ :: _) _ _ |- _ => let n := fresh "n" in let l := fresh "l" in let u := fresh "u" in let v := fresh "v" in let D := fresh "D" in let DS := fresh "DS" in
      apply ders_cons in H; destruct H as (n & l & u & v & ? & ? & D & DS); subst
  | H : der (Tok _) _ _ |- _ => let x := fresh "x" in let S := fresh "Sp" in apply der_tok in H; destruct H as (x & ? & ? & S); subst
  | H : der (Guarded _) _ _ |- _ => apply der_guard in H; subst
  end.
(** The rules of a nonterminal given by a number *)
Ltac rules H := let r := fresh "r" in let l := fresh "l" in let I := fresh "In" in let DS := fresh "DS" in
  apply der_nonterm in H; destruct H as (r & l & ? & I & DS); subst; cbn in I;
  repeat (destruct I as [I|I]; [subst r; break|]); [..|destruct I].
Ltac rules_for k := match goal with H : der (Nonterm k) _ _ |- _ => rules H end.

(** ** Words *)
Definition quiet (w : list word_of_text) : Prop := Forall (fun x => fst x <> t_dot /\ fst x <> t_language) w.
Lemma says_app u v a b : says u a -> says v b -> says (u ++ v) (a ++ b).
Proof. apply Forall2_app. Qed.
Lemma says_t k x s rest toks : spelled k x -> spelling k = Some (codes s) -> ~ In k [t_nonterminal; t_regex; t_string; t_character] ->
  says rest toks -> says ((k, x) :: rest) (t s :: toks).
Proof. intros H E N R. constructor; [|exact R]. unfold spelled in H. rewrite E in H. subst. split; [reflexivity|exact N]. Qed.
Ltac word := apply says_t; [eassumption|reflexivity|vm_compute; intuition discriminate|].
Ltac plain_word := constructor; [split; [reflexivity|vm_compute; intuition discriminate]|].
Lemma quiet_app u v : quiet u -> quiet v -> quiet (u ++ v).
Proof. intros A B. apply Forall_app. auto. Qed.
Lemma quiet_cons k x w : k <> t_dot -> k <> t_language -> quiet w -> quiet ((k, x) :: w).
Proof. intros A B C. constructor; auto. Qed.
Ltac loud := repeat (apply quiet_cons; [discriminate|discriminate|]).

Section Induct.
  Context (P : node -> Prop) (H : forall i x l, Forall P l -> P (Node i x l)).
  Fixpoint node_all (n : node) : P n :=
    match n with
    | Node i x l => H i x l ((fix go (l : list node) : Forall P l := match l with [] => Forall_nil P | c :: l => Forall_cons c (node_all c) (go l) end) l)
    end.
End Induct.

(** ** Items *)
Lemma name_reads o w : der (Opt [Nonterm id_item_name]) o w -> exists nm, name_of (Some o) = Got nm /\ says w (written_attributes (named nm)) /\ quiet w.
Proof.
  intros D. apply der_opt in D. destruct D as (i & [(-> & ->)|(l & -> & DS)]).
  - exists []. split; [reflexivity|]. split; constructor.
  - break. rules D. exists x0. split; [reflexivity|]. cbn [app].
    assert (N : x0 <> []) by exact Sp0. unfold written_attributes, named. cbn [a_name a_conflict]. destruct x0 as [|z x0]; [congruence|].
    split; [|loud; constructor].
    word. plain_word. word. constructor.
Qed.
Lemma nonterminal_reads n o u w : der (Nonterm id_nonterminal) n u -> der (Opt [Nonterm id_item_name]) o w ->
  exists i, get_ebnf_item n (Some o) = Got i /\ says (u ++ w) (written_item Full i) /\ quiet (u ++ w).
Proof.
  intros D O. destruct (name_reads o w O) as (nm & E & S & Q). rules D.
  cbn [get_ebnf_item]. rewrite E. cbn [bind]. cbn. eexists. split; [reflexivity|]. split; [|apply quiet_cons; [discriminate|discriminate|exact Q]].
  cbn. constructor; [reflexivity|exact S].
Qed.
Lemma terminal_reads n o u w : der (Nonterm id_terminal) n u -> der (Opt [Nonterm id_item_name]) o w ->
  exists i, get_ebnf_item n (Some o) = Got i /\ says (u ++ w) (written_item Full i) /\ quiet (u ++ w).
Proof.
  intros D O. destruct (name_reads o w O) as (nm & E & S & Q). rules D. rules_for id_basic_terminal;
  cbn [get_ebnf_item]; rewrite E; cbn [bind]; cbn; try rewrite E; cbn; eexists; (split; [reflexivity|]); (split; [|apply quiet_cons; [discriminate|discriminate|exact Q]]);
  cbn; (constructor; [reflexivity|exact S]).
Qed.

Definition readable (n : node) : Prop :=
  (forall w, der (Nonterm id_simple_ebnf_item) n w -> exists i, get_ebnf_item n None = Got i /\ says w (written_item Full i) /\ quiet w) /\
  (forall w, der (Nonterm id_ebnf_item) n w -> exists i, get_ebnf_item n None = Got i /\ says w (written_item Choice i) /\
    written_item Full i = [t "("] ++ written_item Choice i ++ [t ")"] /\ quiet w) /\
  (forall w, der (Star [Nonterm id_simple_ebnf_item]) n w -> exists l, get_ebnf_list n = Got l /\ says w (flat_map (written_item Full) l) /\ quiet w) /\
  (forall w, der (Nonterm id_guard) n w -> exists i, get_ebnf_item n None = Got i /\ says w (written_item Full i) /\ quiet w).
Lemma closed_reads c1 c2 closed k s u w x : get_ebnf_item c1 None = Got closed -> says u (written_item Full closed) -> quiet u -> der (Opt [Nonterm id_item_name]) c2 w ->
  spelled k x -> In (k, s) [(t_star, ("*", ERepeatZero)); (t_plus, ("+", ERepeatOne)); (t_question, ("?", EOptional))]%string ->
  exists i, closure closed [] (Node (-1) (Some (k, x)) []) c2 = Got i /\ says (u ++ (k, x) :: w) (written_item Full i) /\ quiet (u ++ (k, x) :: w).
Proof.
  intros E S Q O Sp I. destruct (name_reads c2 w O) as (nm & N & NS & NQ).
  assert (F : closure closed [] (Node (-1) (Some (k, x)) []) c2 =
    if k =? t_star then Got (Item ERepeatZero [] [] (named nm) [closed]) else if k =? t_plus then Got (Item ERepeatOne [] [] (named nm) [closed])
    else if k =? t_question then Got (Item EOptional [] [] (named nm) [closed]) else Null).
  { unfold closure. destruct c2 as [? ? [|? [|? ?]]]; [injection N as <-; reflexivity|rewrite N; reflexivity|injection N as <-; reflexivity]. }
  rewrite F.
  assert (QQ : k <> t_dot -> k <> t_language -> quiet (u ++ (k, x) :: w)) by (intros A B; apply quiet_app; [exact Q|]; apply quiet_cons; assumption).
  destruct I as [I|[I|[I|[]]]]; injection I as <- <-; cbn; eexists; (split; [reflexivity|]); (split; [|apply QQ; discriminate]);
  cbn [written_item flat_map]; rewrite app_nil_r; apply says_app; [exact S|word; exact NS|exact S|word; exact NS|exact S|word; exact NS].
Qed.
Ltac here := match goal with H : Node _ _ _ = Node _ _ _ |- _ => injection H as -> -> -> end;
  repeat match goal with H : Forall _ (_ :: _) |- _ => let R := fresh "R" in pose proof (Forall_inv H) as R; cbv beta in R; apply Forall_inv_tail in H end.
Lemma item_simple_3 c0 c1 c2 x : get_ebnf_item (Node id_simple_ebnf_item x [Node (-1) (Some (t_openparen, c0)) []; c1; c2]) None = get_ebnf_item c1 None.
Proof. reflexivity. Qed.
Lemma item_closure c0 c1 c2 x : (forall k y, match c0 with Node _ z _ => z end = Some (k, y) -> False) ->
  get_ebnf_item (Node id_simple_ebnf_item x [c0; c1; c2]) None = bind (get_ebnf_item c0 None) (fun closed => closure closed [] c1 c2).
Proof. intros H. destruct c0 as [i [[k y]|] l]; [destruct (H k y eq_refl)|reflexivity]. Qed.
Lemma all_readable n : readable n.
Proof.
  induction n as [i x l IH] using node_all. split; [|split; [|split]]; intros w D.
  - rules D.
    + here. destruct (nonterminal_reads n n0 u u0) as (j & E & S & Q); [assumption|assumption|].
      exists j. cbn [get_ebnf_item name_of bind]. rewrite app_nil_r. auto.
    + here. destruct (terminal_reads n n0 u u0) as (j & E & S & Q); [assumption|assumption|].
      exists j. cbn [get_ebnf_item name_of bind]. rewrite app_nil_r. auto.
    + here. destruct R as (R & _). destruct (R u) as (j & E & S & Q); [assumption|]. rewrite item_closure, E.
      2:{ match goal with H : der _ n u |- _ => inversion H; subst end. discriminate. }
      cbn [bind]. rewrite app_nil_r. eapply closed_reads; try eassumption. left. reflexivity.
    + here. destruct R as (R & _). destruct (R u) as (j & E & S & Q); [assumption|]. rewrite item_closure, E.
      2:{ match goal with H : der _ n u |- _ => inversion H; subst end. discriminate. }
      cbn [bind]. rewrite app_nil_r. eapply closed_reads; try eassumption. right. left. reflexivity.
    + here. destruct R as (R & _). destruct (R u) as (j & E & S & Q); [assumption|]. rewrite item_closure, E.
      2:{ match goal with H : der _ n u |- _ => inversion H; subst end. discriminate. }
      cbn [bind]. rewrite app_nil_r. eapply closed_reads; try eassumption. right. right. left. reflexivity.
    + here. rewrite item_simple_3. destruct R0 as (_ & R0 & _). destruct (R0 u0) as (j & E & S & F & Q); [assumption|].
      exists j. split; [exact E|]. rewrite F. cbn [app]. split; [word; apply says_app; [exact S|word; constructor]|].
      loud. apply quiet_app; [exact Q|]. loud. constructor.
    + here. destruct R as (_ & _ & _ & R). rewrite app_nil_r. destruct (R u) as (j & E & S & Q); [assumption|]. exists j. auto.
  - rules D.
    + here. destruct R as (_ & _ & R & _). destruct (R u) as (m & E & S & Q); [assumption|].
      cbn [get_ebnf_item name_of bind]. cbn. rewrite E. cbn [bind]. eexists. split; [reflexivity|]. rewrite app_nil_r. cbn [written_item].
      split; [exact S|]. split; [reflexivity|exact Q].
    + here. destruct R as (_ & _ & R & _). destruct (R u) as (m & E & S & Q); [assumption|].
      destruct R1 as (_ & R1 & _). destruct (R1 u1) as (j & E' & S' & F' & Q'); [assumption|].
      cbn [get_ebnf_item name_of bind]. cbn. rewrite E. cbn [bind]. rewrite E'. cbn [bind]. eexists. split; [reflexivity|]. rewrite app_nil_r. cbn [written_item].
      split; [|split; [reflexivity|]].
      * apply says_app; [exact S|]. word. exact S'.
      * apply quiet_app; [exact Q|]. loud. exact Q'.
  - apply der_star in D. destruct D as (k & [(E & ->)|(c & cs & u & v & E & -> & A & B)]).
    + here. exists []. split; [reflexivity|]. split; constructor.
    + break. here. destruct R as (_ & _ & R & _). destruct (R u) as (m & E & S & Q); [assumption|].
      destruct R0 as (R0 & _). destruct (R0 u0) as (j & E' & S' & Q'); [assumption|].
      exists (m ++ [j]). cbn [get_ebnf_list]. rewrite E. cbn [bind]. rewrite E'. split; [reflexivity|].
      rewrite app_nil_r, flat_map_app. cbn [flat_map]. rewrite app_nil_r. split; [apply says_app; assumption|apply quiet_app; assumption].
  - rules D. here. destruct R0 as (_ & R0 & _). destruct (R0 u0) as (j & E & S & F & Q); [assumption|].
    cbn [get_ebnf_item name_of bind]. cbn. rewrite E. cbn [bind]. eexists. split; [reflexivity|].
    cbn [written_item flat_map a_can_clash named app]. rewrite app_nil_r. split; [word; apply says_app; [exact S|word; constructor]|].
    loud. apply quiet_app; [exact Q|]. loud. constructor.
Qed.

(** ** Grammars *)
Lemma production_reads n w : der (Nonterm id_production) n w -> exists p, get_production_definition n = Got p /\ says w (flat_map (written_item Full) p) /\ quiet w.
Proof.
  intros D. rules D. match goal with H : der (Star _) ?n ?u |- _ => destruct (all_readable n) as (_ & _ & R & _); destruct (R u H) as (p & E & S & Q) end.
  exists p. rewrite app_nil_r. unfold get_production_definition. cbn. rewrite E. auto.
Qed.
Lemma production_list_reads n w : der (Star [Tok t_pipe; Nonterm id_production]) n w ->
  exists l, get_production_list n = Got l /\ says w (flat_map (fun p => t "|" :: flat_map (written_item Full) p) l) /\ quiet w.
Proof.
  revert w. induction n as [i x l IH] using node_all. intros w D. apply der_star in D. destruct D as (k & [(E & ->)|(c & cs & u & v & E & -> & A & B)]).
  - here. exists []. split; [reflexivity|]. split; constructor.
  - break. here. destruct (R u A) as (m & E & S & Q).
    match goal with H : der (Nonterm id_production) _ _ |- _ => apply production_reads in H; destruct H as (p & E' & S' & Q') end.
    exists (m ++ [p]). cbn [get_production_list]. rewrite E. cbn [bind]. rewrite E'. split; [reflexivity|].
    rewrite app_nil_r, flat_map_app. cbn [flat_map]. rewrite app_nil_r. split; [apply says_app; [exact S|]; word; exact S'|apply quiet_app; [exact Q|]; loud; exact Q'].
Qed.
Lemma nonterminal_definition_reads n w : der (Nonterm id_nonterminal_definition) n w -> exists d, get_nonterminal n = Got d /\ says w (written_nt d) /\ quiet w.
Proof.
  intros D. rules D.
  match goal with H : der (Nonterm id_production) _ _ |- _ => apply production_reads in H; destruct H as (p & E & S & Q) end.
  match goal with H : der (Star _) _ _ |- _ => apply production_list_reads in H; destruct H as (m & E' & S' & Q') end.
  unfold get_nonterminal. cbn. rewrite E. cbn [bind]. rewrite E'. cbn [bind]. eexists. split; [reflexivity|]. rewrite app_nil_r. unfold written_nt. cbn.
  split; [constructor; [reflexivity|]; word; apply says_app; assumption|loud; apply quiet_app; assumption].
Qed.
Lemma grammar_block_reads n w : der (Star [Nonterm id_nonterminal_definition]) n w -> exists l, get_grammar_block n = Got l /\ says w (flat_map written_nt l) /\ quiet w.
Proof.
  revert w. induction n as [i x l IH] using node_all. intros w D. apply der_star in D. destruct D as (k & [(E & ->)|(c & cs & u & v & E & -> & A & B)]).
  - here. exists []. split; [reflexivity|]. split; constructor.
  - break. here. destruct (R u A) as (m & E & S & Q).
    match goal with H : der (Nonterm id_nonterminal_definition) _ _ |- _ => apply nonterminal_definition_reads in H; destruct H as (p & E' & S' & Q') end.
    exists (m ++ [p]). cbn [get_grammar_block]. rewrite E. cbn [bind]. rewrite E'. split; [reflexivity|].
    rewrite app_nil_r, flat_map_app. cbn [flat_map]. rewrite app_nil_r. split; [apply says_app; assumption|apply quiet_app; assumption].
Qed.

(** ** Lexer blocks *)
(** What becomes of a tree: it is refused, and there is a dot in its text, or it is read *)
Definition fate {A} (r : res A) (w : list word_of_text) (ok : A -> Prop) : Prop :=
  (r = Null /\ exists x, In (t_dot, x) w) \/ (exists a, r = Got a /\ ok a /\ quiet w).
Lemma lexeme_reads n w : der (Nonterm id_lexeme_definition) n w -> fate (get_lexeme n) w (fun x => says w (written_lexeme x)).
Proof.
  intros D. rules D.
  - right. eexists. split; [reflexivity|]. split; [|loud; constructor]. cbn. plain_word. word. constructor; [reflexivity|constructor].
  - left. split; [reflexivity|]. exists x0. cbn. auto 10.
Qed.
Lemma keyword_reads n w : der (Nonterm id_keyword_definition) n w -> fate (get_lexeme n) w (fun x => says w (written_lexeme x)).
Proof.
  intros D. right. rules D; (eexists; split; [reflexivity|]; split; [|loud; constructor]).
  - plain_word. constructor.
  - cbn. plain_word. word. constructor; [reflexivity|constructor].
  - cbn. plain_word. word. constructor; [reflexivity|constructor].
  - cbn. plain_word. word. constructor; [reflexivity|constructor].
Qed.
Lemma lexer_block_reads s n w : s = id_lexeme_definition \/ s = id_keyword_definition -> der (Star [Nonterm s]) n w ->
  fate (get_lexer_block n) w (fun l => says w (flat_map written_lexeme l)).
Proof.
  intros O. revert w. induction n as [i x l IH] using node_all. intros w D. apply der_star in D. destruct D as (k & [(E & ->)|(c & cs & u & v & E & -> & A & B)]).
  - here. right. exists []. split; [reflexivity|]. split; constructor.
  - break. here. assert (F : fate (get_lexeme n) u0 (fun x => says u0 (written_lexeme x))) by (destruct O as [-> | ->]; [apply lexeme_reads|apply keyword_reads]; assumption).
    cbn [get_lexer_block]. rewrite app_nil_r. destruct (R u A) as [(E & y & Y)|(m & E & S & Q)].
    + left. rewrite E. split; [reflexivity|]. exists y. apply in_or_app. auto.
    + rewrite E. cbn [bind]. destruct F as [(E' & y & Y)|(p & E' & S' & Q')].
      * left. rewrite E'. split; [reflexivity|]. exists y. apply in_or_app. auto.
      * right. exists (m ++ [p]). rewrite E'. split; [reflexivity|]. rewrite flat_map_app. cbn [flat_map]. rewrite app_nil_r.
        split; [apply says_app; assumption|apply quiet_app; assumption].
Qed.
Lemma weak_reads o w : der (Opt [Tok t_weak]) o w -> exists b, match kids o with [] => false | _ => true end = b /\ says w (if b then [t "weak"] else []) /\ quiet w.
Proof.
  intros D. apply der_opt in D. destruct D as (i & [(-> & ->)|(l & -> & DS)]).
  - exists false. split; [reflexivity|]. split; constructor.
  - break. exists true. split; [reflexivity|]. cbn [app]. split; [word; constructor|loud; constructor].
Qed.
Lemma unit_reads n w : der (Nonterm id_language_definition) n w -> fate (get_language_defn n) w (fun x => says w (written_unit x)).
Proof.
  intros D. rules D.
  - rules_for id_lexer_symbols_definition.
    match goal with H : der (Star _) _ _ |- _ => apply lexer_block_reads in H; [|auto]; destruct H as [(E & y & Y)|(m & E & S & Q)] end; unfold get_language_defn, get_block; cbn; rewrite E; cbn [bind].
    + left. split; [reflexivity|]. exists y. rewrite !app_nil_r. right. right. apply in_or_app. auto.
    + right. eexists. split; [reflexivity|]. rewrite !app_nil_r. cbn. split; [word; word; apply says_app; [exact S|word; constructor]|loud; apply quiet_app; [exact Q|loud; constructor]].
  - rules_for id_lexer_definition.
    match goal with H : der (Opt _) _ _ |- _ => apply weak_reads in H; destruct H as (b & B & SB & QB) end.
    match goal with H : der (Star _) _ _ |- _ => apply lexer_block_reads in H; [|auto]; destruct H as [(E & y & Y)|(m & E & S & Q)] end; unfold get_language_defn, get_block; cbn; rewrite E, ?B; cbn [bind].
    + left. split; [reflexivity|]. exists y. rewrite !app_nil_r. apply in_or_app. right. right. right. apply in_or_app. auto.
    + right. eexists. split; [reflexivity|]. rewrite !app_nil_r. cbn.
      split; [apply says_app; [exact SB|word; word; apply says_app; [exact S|word; constructor]]|apply quiet_app; [exact QB|loud; apply quiet_app; [exact Q|loud; constructor]]].
  - rules_for id_ignore_definition.
    match goal with H : der (Star _) _ _ |- _ => apply lexer_block_reads in H; [|auto]; destruct H as [(E & y & Y)|(m & E & S & Q)] end; unfold get_language_defn, get_block; cbn; rewrite E; cbn [bind].
    + left. split; [reflexivity|]. exists y. rewrite !app_nil_r. right. right. apply in_or_app. auto.
    + right. eexists. split; [reflexivity|]. rewrite !app_nil_r. cbn. split; [word; word; apply says_app; [exact S|word; constructor]|loud; apply quiet_app; [exact Q|loud; constructor]].
  - rules_for id_keywords_definition.
    match goal with H : der (Opt _) _ _ |- _ => apply weak_reads in H; destruct H as (b & B & SB & QB) end.
    match goal with H : der (Star _) _ _ |- _ => apply lexer_block_reads in H; [|auto]; destruct H as [(E & y & Y)|(m & E & S & Q)] end; unfold get_language_defn, get_block; cbn; rewrite E, ?B; cbn [bind].
    + left. split; [reflexivity|]. exists y. rewrite !app_nil_r. apply in_or_app. right. right. right. apply in_or_app. auto.
    + right. eexists. split; [reflexivity|]. rewrite !app_nil_r. cbn.
      split; [apply says_app; [exact SB|word; word; apply says_app; [exact S|word; constructor]]|apply quiet_app; [exact QB|loud; apply quiet_app; [exact Q|loud; constructor]]].
  - rules_for id_grammar_definition.
    match goal with H : der (Star _) _ _ |- _ => apply grammar_block_reads in H; destruct H as (m & E & S & Q) end; unfold get_language_defn, get_block; cbn; rewrite E; cbn [bind].
    right. eexists. split; [reflexivity|]. rewrite !app_nil_r. cbn. split; [word; word; apply says_app; [exact S|word; constructor]|loud; apply quiet_app; [exact Q|loud; constructor]].
Qed.
Lemma unit_list_reads n w : der (Star [Nonterm id_language_definition]) n w -> fate (get_language_defn_list n) w (fun l => says w (flat_map written_unit l)).
Proof.
  revert w. induction n as [i x l IH] using node_all. intros w D. apply der_star in D. destruct D as (k & [(E & ->)|(c & cs & u & v & E & -> & A & B)]).
  - here. right. exists []. split; [reflexivity|]. split; constructor.
  - break. here. match goal with H : der (Nonterm id_language_definition) _ _ |- _ => apply unit_reads in H; rename H into F end.
    cbn [get_language_defn_list]. rewrite app_nil_r. destruct (R u A) as [(E & y & Y)|(m & E & S & Q)].
    + left. rewrite E. split; [reflexivity|]. exists y. apply in_or_app. auto.
    + rewrite E. cbn [bind]. destruct F as [(E' & y & Y)|(p & E' & S' & Q')].
      * left. rewrite E'. split; [reflexivity|]. exists y. apply in_or_app. auto.
      * right. exists (m ++ [p]). rewrite E'. split; [reflexivity|]. rewrite flat_map_app. cbn [flat_map]. rewrite app_nil_r.
        split; [apply says_app; assumption|apply quiet_app; assumption].
Qed.

(** ** Files *)
(** A text without dots, in which a bracket follows the name of a language *)
Inductive clean : list word_of_text -> Prop :=
| clean_nil : clean []
| clean_word k x w : k <> t_dot -> k <> t_language -> clean w -> clean ((k, x) :: w)
| clean_language a b c w : clean w -> clean ((t_language, a) :: (t_identifier, b) :: (t_opencurly, c) :: w).
Lemma clean_quiet w : quiet w -> clean w.
Proof. induction 1 as [|[k x] w [A B] H IH]; constructor; assumption. Qed.
Lemma clean_app u v : clean u -> clean v -> clean (u ++ v).
Proof. induction 1; intros V; cbn [app]; [exact V|apply clean_word; auto|apply clean_language; auto]. Qed.
Lemma clean_supported w : clean w -> ~ unsupported w.
Proof.
  induction 1 as [|k x w A B H IH|a b c w H IH]; intros [(y & Y)|(u & v & d & e & f & E)].
  - destruct Y.
  - destruct u; discriminate E.
  - destruct Y as [Y|Y]; [congruence|]. apply IH. left. eauto.
  - destruct u as [|p u]; [cbn in E; congruence|]. injection E as _ E. apply IH. right. exists u, v, d, e, f. exact E.
  - destruct Y as [Y|[Y|[Y|Y]]]; [discriminate Y|discriminate Y|discriminate Y|]. apply IH. left. eauto.
  - destruct u as [|p u]; [discriminate E|]. injection E as _ E. destruct u as [|q u]; [discriminate E|]. injection E as _ E.
    destruct u as [|r u]; [discriminate E|]. injection E as _ E. apply IH. right. exists u, v, d, e, f. exact E.
Qed.
Lemma unsupported_app u v : unsupported u \/ unsupported v -> unsupported (u ++ v).
Proof.
  intros [[(x & X)|(a & b & d & e & f & ->)]|[(x & X)|(a & b & d & e & f & ->)]].
  - left. exists x. apply in_or_app. auto.
  - right. exists a, (b ++ v), d, e, f. rewrite <- !app_assoc. reflexivity.
  - left. exists x. apply in_or_app. auto.
  - right. exists (u ++ a), b, d, e, f. rewrite <- !app_assoc. reflexivity.
Qed.
Lemma language_reads n w : der (Nonterm id_language_block) n w ->
  (get_language n = Null /\ unsupported w) \/ (exists b, get_language n = Got b /\ says w (written_top (turned b)) /\ clean w).
Proof.
  intros D. rules D.
  match goal with H : der (Star _) _ _ |- _ => apply unit_list_reads in H; rename H into F end.
  match goal with H : der (Opt _) _ _ |- _ => apply der_opt in H; destruct H as (i & [(-> & ->)|(l & -> & DS)]) end.
  - unfold get_language. cbn. destruct F as [(E & y & Y)|(m & E & S & Q)]; rewrite E; cbn [bind].
    + left. split; [reflexivity|]. left. exists y. right. right. right. apply in_or_app. auto.
    + right. eexists. split; [reflexivity|]. cbn. split.
      * word. plain_word. word. apply says_app; [exact S|]. word. constructor.
      * apply clean_language. apply clean_app; [apply clean_quiet, Q|]. apply clean_word; [discriminate|discriminate|constructor].
  - break. rules_for id_language_inherits. left. split; [reflexivity|]. right. exists []. cbn. do 4 eexists. reflexivity.
Qed.
Lemma start_reads n w : der (Plus [Nonterm id_parser_startsymbol]) n w -> exists l, start_symbols n = Got l /\ says w (map Nt (rev l)) /\ quiet w.
Proof.
  revert w. induction n as [i x l IH] using node_all. intros w D. apply der_plus in D. destruct D as (k & [(l' & E & B)|(c & cs & u & v & E & -> & A & B)]).
  - break. here. rules_for id_parser_startsymbol. eexists. split; [reflexivity|]. cbn. split; [constructor; [reflexivity|constructor]|loud; constructor].
  - break. here. destruct (R u A) as (m & E & S & Q). rules_for id_parser_startsymbol.
    cbn [start_symbols]. unfold start_symbol. cbn. rewrite E. cbn [bind]. eexists. split; [reflexivity|]. cbn [rev]. rewrite map_app.
    split; [apply says_app; [exact S|constructor; [reflexivity|constructor]]|apply quiet_app; [exact Q|loud; constructor]].
Qed.
Lemma parser_reads n w : der (Nonterm id_parser_block) n w -> exists b, get_parser_block n = Got b /\ says w (written_top (turned b)) /\ clean w.
Proof.
  intros D. rules D. match goal with H : der (Plus _) _ _ |- _ => apply start_reads in H; destruct H as (m & E & S & Q) end.
  unfold get_parser_block. cbn. rewrite E. cbn [bind]. eexists. split; [reflexivity|]. cbn. split.
  - word. plain_word. word. plain_word. word. apply says_app; [exact S|]. word. constructor.
  - apply clean_quiet. loud. apply quiet_app; [exact Q|]. loud. constructor.
Qed.
Lemma toplevel_reads n w : der (Nonterm id_toplevel_block) n w ->
  (get_toplevel n = Null /\ unsupported w) \/ (exists b, get_toplevel n = Got b /\ says w (written_top (turned b)) /\ clean w).
Proof.
  intros D. rules D; rewrite app_nil_r.
  - match goal with H : der _ ?n _ |- _ => assert (I : exists l, n = Node id_language_block None l) by (inversion H; eauto); apply language_reads in H; rename H into F end.
    destruct I as [l ->]. exact F.
  - match goal with H : der _ ?n _ |- _ => assert (I : exists l, n = Node id_parser_block None l) by (inversion H; eauto); apply parser_reads in H; rename H into F end.
    destruct I as [l ->]. right. exact F.
Qed.
Lemma toplevel_list_reads n w : der (Star [Nonterm id_toplevel_block]) n w ->
  (get_toplevel_list n = Null /\ unsupported w) \/ (exists d, get_toplevel_list n = Got d /\ says w (written (map turned d)) /\ clean w).
Proof.
  revert w. induction n as [i x l IH] using node_all. intros w D. apply der_star in D. destruct D as (k & [(E & ->)|(c & cs & u & v & E & -> & A & B)]).
  - here. right. exists []. split; [reflexivity|]. split; constructor.
  - break. here. match goal with H : der (Nonterm id_toplevel_block) _ _ |- _ => apply toplevel_reads in H; rename H into F end.
    cbn [get_toplevel_list]. rewrite app_nil_r. destruct (R u A) as [(E & U)|(m & E & S & Q)].
    + left. rewrite E. split; [reflexivity|]. apply unsupported_app. auto.
    + rewrite E. cbn [bind]. destruct F as [(E' & U)|(p & E' & S' & Q')].
      * left. rewrite E'. split; [reflexivity|]. apply unsupported_app. auto.
      * right. exists (m ++ [p]). rewrite E'. split; [reflexivity|]. unfold written. rewrite map_app, flat_map_app. cbn [map flat_map]. rewrite app_nil_r.
        split; [apply says_app; assumption|apply clean_app; assumption].
Qed.
Lemma definition_reads n w : der (Nonterm id_parser_language) n w ->
  (get_definition n = Null /\ unsupported w) \/ (exists d, get_definition n = Got d /\ says w (written (map turned d)) /\ ~ unsupported w).
Proof.
  intros D. rules D. rewrite app_nil_r.
  match goal with H : der (Star _) _ _ |- _ => apply toplevel_list_reads in H; destruct H as [F|(d & E & S & C)] end; [left; exact F|].
  right. exists d. split; [exact E|]. split; [exact S|]. apply clean_supported, C.
Qed.

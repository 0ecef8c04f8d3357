From Coq Require Import String.
From Verif Require Import Base TextModel RegexModel LexStageModel TermDictModel LangModel NamesModel SourceModel SourceSpec.
Local Open Scope Z_scope.

(** ** Induction over trees *)

Section TreeInd.
  Context (P : tree -> Prop).
  Context (HN : forall s n x, P (XNonterminal s n x)) (HT : forall k s n x, P (XTerminal k s n x)).
  Context (HG : forall c f m x, Forall P f -> Forall (Forall P) m -> P (XGuard c f m x)).
  Context (HS : forall y x, P y -> P (XStar y x)) (HP : forall y x, P y -> P (XPlus y x)) (HQ : forall y x, P y -> P (XQuestion y x)).
  Context (HX : forall f m x, Forall P f -> Forall (Forall P) m -> P (XParen f m x)).
  Fixpoint tree_ind2 (x : tree) : P x :=
    let fix all1 (l : list tree) : Forall P l := match l with [] => Forall_nil P | x :: l => Forall_cons x (tree_ind2 x) (all1 l) end in
    let fix all2 (l : list (list tree)) : Forall (Forall P) l := match l with [] => Forall_nil _ | x :: l => Forall_cons x (all1 x) (all2 l) end in
    match x with
    | XNonterminal s n x => HN s n x
    | XTerminal k s n x => HT k s n x
    | XGuard c f m x => HG c f m x (all1 f) (all2 m)
    | XStar y x => HS y x (tree_ind2 y)
    | XPlus y x => HP y x (tree_ind2 y)
    | XQuestion y x => HQ y x (tree_ind2 y)
    | XParen f m x => HX f m x (all1 f) (all2 m)
    end.
End TreeInd.

Lemma plain_all1 : forall l, (fix plains (l : list tree) : Prop := match l with [] => True | x :: l => plain x /\ plains l end) l <-> Forall plain l.
Proof.
  induction l; split; intro H; auto.
  - destruct H as [A B]. constructor; auto. apply IHl; auto.
  - inversion H; subst. split; auto. apply IHl; auto.
Qed.
Lemma plain_all2 : forall l, (fix plainss (l : list (list tree)) : Prop := match l with [] => True | x :: l =>
  (fix plains (l : list tree) : Prop := match l with [] => True | x :: l => plain x /\ plains l end) x /\ plainss l end) l <-> Forall (Forall plain) l.
Proof.
  induction l; split; intro H; auto.
  - destruct H as [A B]. constructor; [apply plain_all1; auto|apply IHl; auto].
  - inversion H; subst. split; [apply plain_all1; auto|apply IHl; auto].
Qed.
Lemma plain_guard : forall c f m s, plain (XGuard c f m s) <-> Forall plain f /\ Forall (Forall plain) m /\ choice_ok f m /\ plain_spec s.
Proof. intros. cbn [plain]. rewrite plain_all1, plain_all2. tauto. Qed.
Lemma plain_paren : forall f m s, plain (XParen f m s) <-> Forall plain f /\ Forall (Forall plain) m /\ parentheses_ok f m s /\ plain_spec s.
Proof. intros. cbn [plain]. rewrite plain_all1, plain_all2. tauto. Qed.

(** ** Attributes *)

Lemma written_spec : forall s, plain_spec s -> written_attributes (attributes_of s) = spec_text s.
Proof.
  intros [[[n| | |] [|y [|z l]]]|] H; cbn in H; try contradiction; try reflexivity.
  - destruct n; [destruct H; reflexivity|reflexivity].
  - destruct y, n; try contradiction; try (destruct H; reflexivity); reflexivity.
  - destruct y; contradiction.
Qed.
Lemma source_written : forall s, source_ok s -> written_source (source_of s) = source_text s.
Proof. intros [n|] H; [|reflexivity]. destruct n; [destruct H; reflexivity|reflexivity]. Qed.
Lemma modify_clash : forall a s, a_can_clash (modify_attribute a s) = a_can_clash a.
Proof. intros a []; reflexivity. Qed.
Lemma fold_clash : forall l a, a_can_clash (fold_left modify_attribute l a) = a_can_clash a.
Proof. induction l; intros; [reflexivity|]. cbn [fold_left]. rewrite IHl, modify_clash. reflexivity. Qed.
Lemma attributes_clash : forall s, a_can_clash (attributes_of s) = false.
Proof. intros [[x l]|]; [|reflexivity]. cbn [attributes_of]. rewrite fold_clash, modify_clash. reflexivity. Qed.
Lemma plain_none : forall s, plain_spec s -> plain_attributes (attributes_of s) = true -> s = None.
Proof.
  intros [[[n| | |] [|y [|z l]]]|] H E; cbn in H; try contradiction; try reflexivity; try discriminate E.
  - destruct n; [destruct H; reflexivity|discriminate E].
  - destruct y, n; try contradiction; try (destruct H; reflexivity); discriminate E.
  - destruct y; contradiction.
Qed.
Lemma written_with_clash : forall a, written_attributes (mkAttr (a_name a) (a_conflict a) true) = written_attributes a.
Proof. reflexivity. Qed.

(** ** Items *)

Definition right (x : tree) := plain x -> written_item Full (item_of x) = tree_text x.
Lemma right_all : forall l, Forall right l -> Forall plain l -> flat_map (written_item Full) (map item_of l) = concat (map tree_text l).
Proof.
  induction l; intros R P; [reflexivity|]. inversion R; inversion P; subst. cbn. rewrite IHl by assumption. f_equal. auto.
Qed.
Lemma no_paren : forall p x, (forall f m s, x <> XParen f m s) -> written_item p (item_of x) = written_item Full (item_of x).
Proof. intros p [] H; try reflexivity; try (destruct kind; reflexivity). exfalso; eapply H; reflexivity. Qed.

Lemma joined_right : forall (last : bool) l, Forall right l -> Forall plain l -> alone_ok last l ->
  written_item (if last then Choice else Sequence) (joined (map item_of l)) = concat (map tree_text l).
Proof.
  intros last l R P A. destruct l as [|x [|y l]].
  - destruct last; reflexivity.
  - cbn [map joined concat]. rewrite app_nil_r. inversion R; inversion P; subst. specialize (H1 H5).
    destruct x; try (rewrite no_paren by discriminate; exact H1).
    cbn [alone_ok] in A. destruct more as [|n more]; [cbn in A; destruct s; contradiction|].
    rewrite <- H1. destruct last; [|reflexivity].
    destruct s; [|discriminate A].
    cbn [item_of map alternatives written_item]. destruct (plain_attributes (attributes_of (Some p))) eqn:E; [|reflexivity].
    apply plain_paren in H5. destruct H5 as (_ & _ & _ & Q). exfalso. pose proof (plain_none _ Q E). discriminate.
  - rewrite <- (right_all (x :: y :: l) R P). destruct last; reflexivity.
Qed.
Lemma written_alternative : forall p a x y, written_item p (Item EAlternative [] [] a [x; y]) =
  match p with Choice => if plain_attributes a then written_item Sequence x ++ [t "|"] ++ written_item Choice y
                         else in_parentheses (written_item Sequence x ++ [t "|"] ++ written_item Choice y) a
  | _ => in_parentheses (written_item Sequence x ++ [t "|"] ++ written_item Choice y) a end.
Proof. reflexivity. Qed.
Lemma alternatives_right : forall m f, Forall right f -> Forall (Forall right) m -> Forall plain f -> Forall (Forall plain) m -> choice_ok f m ->
  written_item Choice (alternatives no_attributes (map item_of f) (map (map item_of) m)) = alternatives_text (map tree_text f) (map (map tree_text) m).
Proof.
  induction m as [|n m IH]; intros f R1 R2 P1 P2 C.
  - unfold alternatives_text. cbn [map flat_map alternatives]. rewrite app_nil_r. apply (joined_right true); assumption.
  - inversion R2; inversion P2; subst. destruct C as [C1 C2]. cbn [map alternatives]. rewrite written_alternative.
    replace (plain_attributes no_attributes) with true by reflexivity. cbn iota.
    rewrite IH by assumption. rewrite (joined_right false f) by assumption. reflexivity.
Qed.

Lemma item_right : forall x, right x.
Proof.
  induction x using tree_ind2; unfold right; intro P.
  - destruct P as [A B]. cbn [item_of written_item tree_text]. rewrite source_written, written_spec by assumption. reflexivity.
  - destruct P as [A B]. destruct k; cbn [item_of terminal_type written_item tree_text]; rewrite source_written, written_spec by assumption; reflexivity.
  - apply plain_guard in P. destruct P as (A & B & C & D). cbn [item_of written_item tree_text flat_map].
    rewrite alternatives_right by assumption. rewrite app_nil_r. destruct c.
    + cbn [a_can_clash]. rewrite written_with_clash, written_spec by assumption. reflexivity.
    + rewrite attributes_clash, written_spec by assumption. reflexivity.
  - destruct P as [A B]. cbn [item_of written_item tree_text flat_map]. rewrite app_nil_r, IHx, written_spec by assumption. reflexivity.
  - destruct P as [A B]. cbn [item_of written_item tree_text flat_map]. rewrite app_nil_r, IHx, written_spec by assumption. reflexivity.
  - destruct P as [A B]. cbn [item_of written_item tree_text flat_map]. rewrite app_nil_r, IHx, written_spec by assumption. reflexivity.
  - apply plain_paren in P. destruct P as (A & B & C & D). cbn [item_of tree_text]. destruct m as [|n m].
    + destruct C as [L ->]. unfold alternatives_text. cbn [map flat_map alternatives spec_text]. rewrite !app_nil_r.
      rewrite <- (right_all f H A). destruct f as [|x [|y f]]; [reflexivity|destruct L; reflexivity|reflexivity].
    + inversion H0; inversion B; subst. destruct C as [C1 C2]. cbn [map alternatives]. rewrite written_alternative.
      rewrite alternatives_right by assumption. rewrite (joined_right false f) by assumption.
      unfold in_parentheses. rewrite written_spec by assumption. reflexivity.
Qed.
Lemma items_right : forall l, Forall plain l -> flat_map (written_item Full) (map item_of l) = flat_map tree_text l.
Proof.
  intros l P. rewrite right_all; [symmetry; apply flat_map_concat_map| |assumption]. apply Forall_forall. intros; apply item_right.
Qed.

(** ** Units *)

Lemma flat_map_map : forall {A B C} (f : B -> list C) (g : A -> B) l, flat_map f (map g l) = flat_map (fun x => f (g x)) l.
Proof. intros. induction l; [reflexivity|]. cbn. rewrite IHl. reflexivity. Qed.
Lemma flat_map_eq : forall {A B} (P : A -> Prop) (f g : A -> list B) l, (forall x, P x -> f x = g x) -> Forall P l -> flat_map f l = flat_map g l.
Proof. intros A B P f g l E. induction 1; [reflexivity|]. cbn. rewrite E, IHForall by assumption. reflexivity. Qed.

Lemma nt_right : forall n, plain_nt n -> written_nt (nonterminal_of n) = nt_text n.
Proof.
  intros n [A B]. unfold written_nt, nt_text, nonterminal_of. cbn [nd_kind nd_name nd_productions]. f_equal.
  unfold written_productions, productions_text. rewrite items_right by assumption. f_equal.
  rewrite flat_map_map. eapply flat_map_eq; [|exact B]. intros x P. cbn beta. rewrite items_right by exact P. reflexivity.
Qed.
Lemma precedence_right : forall p, plain_precedence p -> written_precedence (precedence_of p) = precedence_text p.
Proof.
  intros [w e] [A B]. unfold written_precedence, precedence_of, precedence_text. cbn [fst snd] in *. f_equal.
  - destruct w; try reflexivity. destruct A; reflexivity.
  - destruct e as [x|l]; [apply item_right; exact B|]. destruct B as [B L]. destruct l as [|x [|y l]]; [reflexivity|destruct L; reflexivity|].
    cbn [map]. f_equal. f_equal. apply (items_right (x :: y :: l)); assumption.
Qed.

Lemma all_spec : forall {A B} (f : A -> option B) l r, all f l = Some r <-> Forall2 (fun x y => f x = Some y) l r.
Proof.
  intros A B f. induction l; intro r; cbn.
  - split; [intro E; injection E as <-; constructor|inversion 1; reflexivity].
  - destruct (f a) eqn:E; [|split; [discriminate|inversion 1; congruence]].
    destruct (all f l) as [r0|] eqn:E2.
    + split; [intro H; injection H as <-; constructor; [assumption|apply IHl; reflexivity]|].
      inversion 1; subst. apply IHl in H4. congruence.
    + split; [discriminate|]. inversion 1; subst. apply IHl in H4. discriminate.
Qed.
Lemma all_none : forall {A B} (f : A -> option B) l, all f l = None <-> Exists (fun x => f x = None) l.
Proof.
  intros A B f. induction l; cbn.
  - split; [discriminate|inversion 1].
  - destruct (f a) eqn:E; [|split; [intros; constructor; assumption|reflexivity]].
    destruct (all f l).
    + split; [discriminate|]. inversion 1; subst; [congruence|]. apply IHl in H1. discriminate.
    + split; [|reflexivity]. intros _. apply Exists_cons_tl. apply IHl. reflexivity.
Qed.
(** A list of things that each translate and are written right *)
Lemma all_right : forall {A B} (P : A -> Prop) (f : A -> option B) (w : B -> list token) (g : A -> list token) l,
  (forall x, P x -> exists y, f x = Some y /\ w y = g x) -> Forall P l -> exists r, all f l = Some r /\ flat_map w r = flat_map g l.
Proof.
  intros A B P f w g l H. induction 1 as [|x l PX PL (r & E & W)]; [exists []; auto|].
  destruct (H x PX) as (y & E1 & W1). exists (y :: r). cbn. rewrite E1, E, W1, W. auto.
Qed.

Lemma lexeme_right : forall l, plain_lexeme l -> exists y, lexeme_of l = Some y /\ written_lexeme y = lexeme_text l.
Proof.
  intros [n add k x|n k x|] P; cbn in P; [| |contradiction]; eexists; (split; [reflexivity|]); unfold written_lexeme; cbn;
  destruct k; try reflexivity; destruct P; reflexivity.
Qed.
Lemma keyword_right : forall k, plain_keyword k -> exists y, keyword_of k = Some y /\ written_lexeme y = keyword_text k.
Proof. intros [n|l] P; [eexists; split; reflexivity|apply lexeme_right; exact P]. Qed.
Lemma lexer_right : forall type m (l : list lexeme) body, plain_modifiers m -> flat_map written_lexeme l = body ->
  exists u, lexer_unit type m (Some l) = Some u /\ written_unit u = flat_map modifier_text m ++ t (unit_word type) :: braces body.
Proof.
  intros type m l body (a & b & c & ->) <-. destruct a, b, c; eexists; (split; [reflexivity|]); reflexivity.
Qed.
Lemma unit_right : forall u, plain_unit u -> exists y, unit_of u = Some y /\ written_unit y = unit_text u.
Proof.
  intros [m l|m l|l|m l|l|l] P; cbn [unit_of unit_text].
  - destruct P as [A B]. destruct (all_right _ lexeme_of written_lexeme lexeme_text l lexeme_right B) as (r & -> & W). exact (lexer_right _ _ _ _ A W).
  - destruct P as [A B]. destruct (all_right _ lexeme_of written_lexeme lexeme_text l lexeme_right B) as (r & -> & W). exact (lexer_right _ _ _ _ A W).
  - destruct (all_right _ keyword_of written_lexeme keyword_text l keyword_right P) as (r & -> & W).
    exact (lexer_right unit_ignore [] _ _ (ex_intro _ false (ex_intro _ false (ex_intro _ false eq_refl))) W).
  - destruct P as [A B]. destruct (all_right _ keyword_of written_lexeme keyword_text l keyword_right B) as (r & -> & W). exact (lexer_right _ _ _ _ A W).
  - eexists; split; [reflexivity|]. cbn [written_unit]. do 2 f_equal. rewrite flat_map_map. exact (flat_map_eq _ _ _ l nt_right P).
  - eexists; split; [reflexivity|]. cbn [written_unit]. do 2 f_equal. rewrite flat_map_map. exact (flat_map_eq _ _ _ l precedence_right P).
Qed.

Lemma test_right : forall x, plain_test x -> exists y, tests_of x = Some y /\ flat_map written_test y = test_text dequote_string x.
Proof.
  intros x (A & B & C). unfold tests_of, test_text. destruct (tt_specs x) as [|s l]; [destruct B; reflexivity|]. eexists; split; [reflexivity|].
  rewrite flat_map_map. eapply flat_map_eq; [|exact C]. intros [o v] S. cbn in S. unfold written_test, test_spec_text. cbn.
  rewrite source_written by assumption. f_equal. destruct o as [n|]; cbn.
  - destruct n; [destruct S; reflexivity|]. destruct (tt_word x); reflexivity.
  - destruct (tt_word x); reflexivity.
Qed.
Lemma block_right : forall b, plain_block b -> exists y, block_of b = Some y /\ written_top y = block_text dequote_string b.
Proof.
  intros [n i units|s|n l start|l tests] P; cbn [block_of block_text].
  - destruct (all_right _ unit_of written_unit unit_text units unit_right P) as (r & -> & W). eexists; split; [reflexivity|].
    cbn [written_top]. rewrite W. destruct i; reflexivity.
  - eexists; split; reflexivity.
  - eexists; split; [reflexivity|]. cbn [written_top]. cbn in P. do 2 f_equal. clear n l. induction P as [|[s x] start E P IH]; [reflexivity|]. cbn in *. subst. cbn. f_equal. exact IH.
  - destruct (all_right _ tests_of (flat_map written_test) (test_text dequote_string) tests test_right P) as (r & -> & W). eexists; split; [reflexivity|].
    cbn [written_top]. rewrite <- W. do 3 f_equal. clear W. induction r; [reflexivity|]. cbn. rewrite flat_map_app, IHr. reflexivity.
Qed.
Lemma file_right : forall f, plain_file f -> exists d, definition_of f = Some d /\ written d = file_text dequote_string f.
Proof. intros f P. exact (all_right _ block_of written_top (block_text dequote_string) f block_right P). Qed.

(** ** Strings *)

Lemma quoted_escape : forall c, escape c (quoted_char c).
Proof.
  intro c. unfold quoted_char, escape.
  repeat (match goal with |- context [c =? ?k] => destruct (Z.eqb_spec c k); [subst; repeat (try (left; reflexivity); right); fail|] end).
  repeat right. split; [|reflexivity]. cbn. intros [<-|[<-|[<-|[<-|[<-|[<-|[]]]]]]]; congruence.
Qed.
Lemma escape_unique : forall c d, escape c d -> d = quoted_char c.
Proof.
  intros c d H. unfold quoted_char. destruct H as [E|[E|[E|[E|[E|[E|[N ->]]]]]]]; try (injection E as -> ->; reflexivity).
  repeat (match goal with |- context [c =? ?k] => destruct (Z.eqb_spec c k); [subst; exfalso; apply N; cbn; tauto|] end). reflexivity.
Qed.
Lemma dequote_plain : forall c r x, c <> 92 -> dequote (c :: r ++ [x]) = c :: dequote (r ++ [x]).
Proof. intros c r x N. destruct (r ++ [x]) eqn:E; [destruct r; discriminate|]. cbn. destruct (Z.eqb_spec c 92); [contradiction|]. reflexivity. Qed.
Lemma dequote_unquoted : forall body v q, unquoted body v -> dequote (body ++ [q]) = v.
Proof.
  intros body v q H. induction H.
  - reflexivity.
  - cbn [app]. rewrite dequote_plain by assumption. rewrite IHunquoted. reflexivity.
  - cbn [app dequote]. rewrite IHunquoted. apply escape_unique in H. subst. reflexivity.
Qed.
Lemma stands_dequote : forall s v, stands_for s v -> dequote_string s = v.
Proof. intros s v (b & -> & U). cbn [dequote_string app]. apply dequote_unquoted. exact U. Qed.
(** Every body without a lone backslash at its end stands for something. *)
Lemma unquoted_exists : forall n body, (length body <= n)%nat -> (forall b, body <> b ++ [92]) -> exists v, unquoted body v.
Proof.
  induction n as [|n IH]; intros body L N.
  - destruct body; [|cbn in L; lia]. exists []. constructor.
  - destruct body as [|c [|d s]].
    + exists []; constructor.
    + destruct (Z.eq_dec c 92) as [->|X]; [exfalso; exact (N [] eq_refl)|]. exists [c]. constructor; [assumption|constructor].
    + destruct (Z.eq_dec c 92) as [->|X].
      * cbn in L. destruct s as [|e s].
        -- exists [quoted_char d]. constructor; [apply quoted_escape|constructor].
        -- destruct (IH (e :: s)) as [v U]; [cbn in *; lia|intros b E; apply (N (92 :: d :: b)); cbn; rewrite <- E; reflexivity|].
           exists (quoted_char d :: v). constructor; [apply quoted_escape|assumption].
      * destruct (IH (d :: s)) as [v U]; [cbn in *; lia|intros b E; apply (N (c :: b)); cbn; rewrite <- E; reflexivity|].
        exists (c :: v). constructor; assumption.
Qed.

(** ** What is translated at all *)

Lemma lexeme_none : forall l, lexeme_of l = None <-> lexeme_refers l.
Proof. intros []; cbn; split; try discriminate; try contradiction; auto. Qed.
Lemma keyword_none : forall k, keyword_of k = None <-> keyword_refers k.
Proof. intros [n|l]; [cbn; split; [discriminate|contradiction]|apply lexeme_none]. Qed.
Lemma exists_iff : forall {A} (P Q : A -> Prop) l, (forall x, P x <-> Q x) -> (Exists P l <-> Exists Q l).
Proof. intros A P Q l H. split; intro E; eapply Exists_impl; try exact E; intros a; apply H. Qed.
Lemma lexer_none : forall type m l, lexer_unit type m l = None <-> l = None.
Proof. intros. unfold lexer_unit. destruct (flags m) as [[a b] c]. destruct l; split; congruence. Qed.
Lemma unit_none : forall u, unit_of u = None <-> unit_refers u.
Proof.
  intros [m l|m l|l|m l|l|l]; cbn [unit_of unit_refers]; try (split; [discriminate|contradiction]);
  rewrite lexer_none, all_none; apply exists_iff; (apply lexeme_none || apply keyword_none).
Qed.
Lemma file_none : forall f, tests_have_strings f -> (definition_of f = None <-> refers f).
Proof.
  intros f T. unfold refers. transitivity (Exists (fun b => block_of b = None) f); [apply all_none|]. induction T as [|b f B T IH]; [split; inversion 1|].
  rewrite !Exists_cons, IH. apply or_iff_compat_r. destruct b as [n i units|s|n l start|l tests]; cbn [block_of].
  - destruct (all unit_of units) eqn:E.
    + split; [discriminate|]. intro X. assert (N : all unit_of units = None) by (apply all_none; apply (exists_iff _ _ _ unit_none); exact X). congruence.
    + split; [|reflexivity]. intros _. apply all_none in E. apply (exists_iff _ _ _ unit_none). exact E.
  - split; [discriminate|contradiction].
  - split; [discriminate|contradiction].
  - destruct (all tests_of tests) eqn:E; [split; [discriminate|contradiction]|].
    apply all_none in E. exfalso. apply Exists_exists in E. destruct E as (x & I & N). rewrite Forall_forall in B. specialize (B x I).
    unfold tests_of in N. destruct (tt_specs x); [contradiction|discriminate].
Qed.

(** ** Modifiers and attributes *)

Lemma flags_fold : forall m w i s, fold_left with_modifier m (w, i, s) =
  (w || existsb (fun x => match x with Weak => true | _ => false end) m,
   i || existsb (fun x => match x with Case CaseInsensitive => true | _ => false end) m,
   s || existsb (fun x => match x with Case CaseSensitive => true | _ => false end) m)%bool.
Proof.
  induction m as [|x m IH]; intros; [cbn; rewrite !orb_false_r; reflexivity|]. cbn [fold_left existsb].
  destruct x as [|[|]]; cbn [with_modifier]; rewrite IH; destruct w, i, s; reflexivity.
Qed.
Lemma flags_in : forall m w i s, flags m = (w, i, s) ->
  (w = true <-> In Weak m) /\ (i = true <-> In (Case CaseInsensitive) m) /\ (s = true <-> In (Case CaseSensitive) m).
Proof.
  intros m w i s E. unfold flags in E. rewrite flags_fold in E. cbn [orb] in E. injection E as <- <- <-.
  repeat split; intro H; try (apply existsb_exists in H; destruct H as ([|[|]] & I & X); try discriminate X; exact I);
  apply existsb_exists; eexists; (split; [exact H|reflexivity]).
Qed.

Lemma attributes_snoc : forall x l s, attributes_of (Some (x, l ++ [s])) = modify_attribute (attributes_of (Some (x, l))) s.
Proof. intros. cbn. rewrite fold_left_app. reflexivity. Qed.
Lemma attributes_list : forall s, attributes_of s = fold_left modify_attribute (spec_list s) no_attributes.
Proof. intros [[x l]|]; reflexivity. Qed.
Lemma attributes_last : forall s, last_name s (a_name (attributes_of s)) /\ last_action s (a_conflict (attributes_of s)).
Proof.
  intro s. rewrite attributes_list. unfold last_name, last_action. induction (spec_list s) as [|x l IH] using rev_ind.
  - split; left; (split; [reflexivity|intros ? []]).
  - rewrite fold_left_app. cbn [fold_left]. destruct IH as [A B]. generalize dependent (fold_left modify_attribute l no_attributes). intros q A B. split.
    + destruct x as [n| | |]; cbn [modify_attribute a_name]; [right; exists l, []; split; [reflexivity|intros ? []]| | | ];
      (destruct A as [[A1 A2]|(b & a & A1 & A2)];
       [left; split; [exact A1|]; intros m I; apply in_app_or in I; destruct I as [I|[I|[]]]; [exact (A2 m I)|discriminate I]
       |right; exists b; eexists (a ++ [_]); split; [rewrite A1, <- app_assoc; reflexivity|]; intros m I; apply in_app_or in I; destruct I as [I|[I|[]]]; [exact (A2 m I)|discriminate I]]).
    + destruct x as [n| | |]; cbn [modify_attribute a_conflict];
      try (right; eexists l, _, []; split; [reflexivity|]; split; [reflexivity|intros ? []]).
      destruct B as [[B1 B2]|(b & x & a & B1 & B2 & B3)].
      * left; split; [exact B1|]. intros y I. apply in_app_or in I. destruct I as [I|[<-|[]]]; [exact (B2 y I)|reflexivity].
      * right. exists b, x, (a ++ [SemName n]). split; [rewrite B1, <- app_assoc; reflexivity|]. split; [exact B2|].
        intros y I. apply in_app_or in I. destruct I as [I|[<-|[]]]; [exact (B3 y I)|reflexivity].
Qed.

(** ** Strings of a file *)

Lemma flat_map_in_ext : forall {A B} (f g : A -> list B) l, (forall x, In x l -> f x = g x) -> flat_map f l = flat_map g l.
Proof. intros A B f g. induction l; intro H; [reflexivity|]. cbn. rewrite H, IHl; [reflexivity|intros; apply H; right; assumption|left; reflexivity]. Qed.
Lemma file_text_ext : forall u v f, (forall s, In s (file_strings f) -> u s = v s) -> file_text u f = file_text v f.
Proof.
  intros u v f H. unfold file_text. apply flat_map_in_ext. intros b I.
  assert (HB : forall s, In s (block_strings b) -> u s = v s) by (intros s J; apply H; apply in_flat_map; exists b; auto).
  destruct b as [n i units|s|n l start|l tests]; cbn [block_text]; try reflexivity.
  - rewrite HB; [reflexivity|left; reflexivity].
  - do 2 f_equal. apply flat_map_in_ext. intros x J. unfold test_text. apply flat_map_in_ext. intros y K. f_equal. f_equal. unfold test_spec_text.
    rewrite HB; [reflexivity|]. cbn [block_strings]. apply in_flat_map. exists x. split; [exact J|]. apply in_map. exact K.
Qed.

(** ** Productions without brackets *)

Lemma bare_joined : forall l, bare_item (joined l) = one_item (map bare_item l).
Proof. intros [|x [|y l]]; reflexivity. Qed.
Lemma bare_alternatives : forall m a f, bare_item (alternatives a f m) = with_or (map bare_item f) (map (map bare_item) m).
Proof. induction m; intros; [apply bare_joined|]. cbn [alternatives bare_item map with_or]. rewrite bare_joined, IHm. reflexivity. Qed.
Lemma map_map_eq : forall {A B C} (f : B -> C) (g : A -> B) (h : A -> C) l, Forall (fun x => f (g x) = h x) l -> map f (map g l) = map h l.
Proof. induction 1; [reflexivity|]. cbn. rewrite H, IHForall. reflexivity. Qed.
Lemma map_map2_eq : forall {A B C} (f : B -> C) (g : A -> B) (h : A -> C) l, Forall (Forall (fun x => f (g x) = h x)) l -> map (map f) (map (map g) l) = map (map h) l.
Proof. induction 1; [reflexivity|]. cbn. rewrite (map_map_eq _ _ _ _ H), IHForall. reflexivity. Qed.
Lemma bare_item_of : forall x, bare_item (item_of x) = ebnf_of (bare x).
Proof.
  induction x using tree_ind2; try (cbn; rewrite IHx; reflexivity); try reflexivity.
  - cbn [item_of bare_item map bare ebnf_of]. rewrite bare_alternatives, !map_map2_eq with (h := fun x => ebnf_of (bare x)) by assumption.
    rewrite map_map_eq with (h := fun x => ebnf_of (bare x)) by assumption. rewrite map_map.
    replace (map (map ebnf_of) (map (map bare) m)) with (map (map (fun x0 => ebnf_of (bare x0))) m); [reflexivity|].
    symmetry. apply map_map2_eq. apply Forall_forall; intros; apply Forall_forall; reflexivity.
  - cbn [item_of bare ebnf_of]. rewrite bare_alternatives, !map_map2_eq with (h := fun x => ebnf_of (bare x)) by assumption.
    rewrite map_map_eq with (h := fun x => ebnf_of (bare x)) by assumption. rewrite map_map.
    replace (map (map ebnf_of) (map (map bare) m)) with (map (map (fun x0 => ebnf_of (bare x0))) m); [reflexivity|].
    symmetry. apply map_map2_eq. apply Forall_forall; intros; apply Forall_forall; reflexivity.
Qed.
Lemma bare_nonterminal : forall n, bare_def (nonterminal_of n) = parse_def (bare_nt n).
Proof.
  intro n. unfold bare_def, nonterminal_of, parse_def, bare_nt. cbn [nd_kind nd_name nd_productions]. f_equal.
  change (map item_of (n_first n) :: map (map item_of) (n_more n)) with (map (map item_of) (n_first n :: n_more n)).
  rewrite (map_map2_eq bare_item item_of (fun x => ebnf_of (bare x))) by (apply Forall_forall; intros; apply Forall_forall; intros; apply bare_item_of).
  symmetry. apply (map_map2_eq ebnf_of bare). apply Forall_forall; intros; apply Forall_forall; reflexivity.
Qed.

(** ** All files *)

Lemma unit_same : forall u v, unit_of u = Some v -> same_productions u v.
Proof.
  intros [m l|m l|l|m l|l|l] v E; cbn [unit_of] in E;
  try (unfold lexer_unit in E; destruct (flags _) as [[a b] c] in E; match type of E with match ?x with _ => _ end = _ => destruct x; [injection E as <-; exact Logic.I|discriminate E] end).
  - injection E as <-. cbn. rewrite !map_map. apply map_ext. apply bare_nonterminal.
  - injection E as <-. exact Logic.I.
Qed.
Lemma file_same : forall f d, definition_of f = Some d -> Forall2 same_grammar f d.
Proof.
  intros f d E. apply all_spec in E. induction E as [|b y f d B E IH]; constructor; [|exact IH].
  destruct b as [n i units|s|n l start|l tests]; cbn [block_of] in B.
  - destruct (all unit_of units) eqn:U; [|discriminate]. injection B as <-. cbn. split; [reflexivity|]. split; [reflexivity|].
    apply all_spec in U. induction U; constructor; [apply unit_same; assumption|assumption].
  - injection B as <-. exact Logic.I.
  - injection B as <-. exact Logic.I.
  - destruct (all tests_of tests); [|discriminate]. injection B as <-. exact Logic.I.
Qed.
Lemma all_length : forall {A B} (f : A -> option B) l r, all f l = Some r -> length r = length l.
Proof. intros A B f l r E. apply all_spec in E. symmetry. eapply Forall2_length. exact E. Qed.
Lemma lexer_inv : forall {A} type m (f : A -> option lexeme) l v, lexer_unit type m (all f l) = Some v ->
  exists w i s ls, v = DLexer type (mkBlock w i s ls) /\ flags m = (w, i, s) /\ length ls = length l.
Proof.
  intros A type m f l v E. unfold lexer_unit in E. destruct (flags m) as [[w i] s]. destruct (all f l) eqn:F; [|discriminate]. injection E as <-.
  exists w, i, s, l0. repeat split. eapply all_length. exact F.
Qed.
Lemma unit_modified : forall u v m n, unit_of u = Some v -> unit_modifiers u = Some (m, n) ->
  exists type b, v = DLexer type b /\ length (lb_lexemes b) = n /\
    (lb_weak b = true <-> In Weak m) /\ (lb_insensitive b = true <-> In (Case CaseInsensitive) m) /\ (lb_sensitive b = true <-> In (Case CaseSensitive) m).
Proof.
  intros [m0 l|m0 l|l|m0 l|l|l] v m n E M; cbn [unit_modifiers] in M; try discriminate M; injection M as <- <-; cbn [unit_of] in E;
  destruct (lexer_inv _ _ _ _ _ E) as (w & i & s & ls & -> & F & L); apply flags_in in F; eexists; eexists; (split; [reflexivity|]); (split; [exact L|exact F]).
Qed.

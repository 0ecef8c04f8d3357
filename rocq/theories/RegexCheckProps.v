(** C83: the faults reported for a regular expression are the faults it has. *)
From Coq Require Import String.
From Verif Require Import Base SymbolSetModel LexerModel TextModel RegexModel RegexSpec NamesModel LexStageModel RegexCheckModel RegexCheckSpec RegexCheckProofs.
Local Open Scope Z_scope.

(** The full statement, without [harmless], is false: a quoted bracket counts in the search for the partner
    of a bracket.  Nothing is wrong with the first expression, and an error is reported (the build fails);
    the bracket of the second one is not closed, and nothing is reported. *)
Theorem C83_exact_refuted : exists ps qs : list piece,
  pieces_text ps = codes "(\(a)"%string /\ pieces_text qs = codes "(a\)"%string /\
  Forall piece_ok ps /\ Forall piece_ok qs /\
  (forall known b f, ~ wrong known ps Whole b f) /\ (forall known, check_regex known (regex_text ps Whole) = Some [(MissingRound, pos_new)]) /\
  (forall known, wrong known qs Whole [] MissingRound) /\ (forall known, check_regex known (regex_text qs Whole) = Some []).
Proof.
  exists [Open; Quote 40; Plain 97; Close], [Open; Plain 97; Quote 41].
  split; [reflexivity|]. split; [reflexivity|]. split; [repeat constructor; cbn; lia|]. split; [repeat constructor; cbn; lia|]. split.
  { intros known b f W. destruct W as [b a E N|? ? E|? E|b n a E _]; try discriminate E.
    - destruct b as [|? b]; [injection E as <-; apply N; exists [Quote 40; Plain 97], []; split; [reflexivity|]; repeat (apply balanced_piece; [discriminate|discriminate|]); constructor|]. do 3 (destruct b as [|? b]; [discriminate E|]). destruct b; discriminate E.
    - do 4 (destruct b as [|? b]; [discriminate E|]). destruct b; discriminate E. }
  split; [reflexivity|]. split; [|reflexivity]. intros known. eapply wrong_round with (before := []); [reflexivity|]. intros (inner & rest & E & _). do 2 (destruct inner as [|? inner]; [discriminate E|]). destruct inner; discriminate E.
Qed.
Print Assumptions C83_exact_refuted.

(** A bracket without a partner in front of it is not reported at all *)
Theorem C83_unbalanced_refuted : exists ps : list piece, Forall piece_ok ps /\ harmless 0 ps Whole /\ pieces_text ps = codes "a)"%string /\ ~ balanced ps /\ forall known, check_regex known (regex_text ps Whole) = Some [].
Proof.
  exists [Plain 97; Close]. split; [repeat constructor; cbn; lia|]. split; [exact Logic.I|]. split; [reflexivity|]. split; [|reflexivity].
  intros B. pose proof (closedb_balanced _ B 0%nat []) as X. discriminate X.
Qed.
Print Assumptions C83_unbalanced_refuted.

(** A name that stands for a literal (define_expression_literal) is reported as unknown, although it can be
    used *)
Theorem C83_literals_refuted : exists (literals : list Z -> option (list Z)) (r : re),
  well_formed (fun _ => None) literals (fun _ => None) (fun _ => []) false false low up case_safe 0 r /\
  check_regex (check_expression (fun _ => None) (fun _ => None) (fun _ => [])) (text r) = Some [(MissingExpression (codes "if"%string), pos_new)].
Proof.
  exists (fun _ => Some [105; 102]), (RWord (codes "if"%string) [105; 102]). split; [|reflexivity]. cbn [well_formed_in]. split; [cbn; lia|]. split; [reflexivity|]. split; [reflexivity|]. split; [reflexivity|]. unfold word_ok, chars_ok, c_MaxSymbol.
  apply Forall_cons; [|apply Forall_cons; [|apply Forall_nil]]; (split; [lia|]; split; intros X; discriminate X).
Qed.
Print Assumptions C83_literals_refuted.

(** The faults reported are exactly the faults of the expression, each with its place, and no place is
    reported twice *)
Theorem C83_exact_partial (known : list Z -> bool) (ps : list piece) (e : ending) :
  Forall piece_ok ps -> ending_ok e -> harmless 0 ps e ->
  exists errors, check_regex known (regex_text ps e) = Some errors /\
    (forall f p, In (f, p) errors <-> exists before, wrong known ps e before f /\ p = place before) /\ NoDup (map snd errors).
Proof.
  intros PO EO H. exists (faults known (pos_new, false) ps e). split; [apply (check_exact known e EO ps 0); [exact PO|exact H|apply le_n]|]. split; [|apply faults_once]. intros f p. exact (faults_in known ps e [] _ f p eq_refl).
Qed.
Print Assumptions C83_exact_partial.

(** Every text can be cut into pieces *)
Theorem C83_every_text (text : list Z) : exists ps e, Forall piece_ok ps /\ ending_ok e /\ text = regex_text ps e.
Proof. exact (cut_pieces (length text) text (le_n _)). Qed.
Print Assumptions C83_every_text.

(** The check ends for every text *)
Theorem C83_ends (known : list Z -> bool) (text : list Z) : check_regex known text <> None.
Proof. apply check_ends, le_n. Qed.
Print Assumptions C83_ends.

(** Nothing is reported for an expression that is well formed in the sense of C11 *)
Theorem C83_no_false_alarm_partial (expressions literals : list Z -> option (list Z)) (category : list Z -> option symbol_set) (defined : list Z -> list (bool * bool * token)) (surr nocase : bool) (r : re) :
  well_formed expressions literals category defined surr nocase low up case_safe 0 r -> clear_quotes false r ->
  check_regex (check_expression expressions category defined) (text r) = Some [].
Proof. apply check_tree. Qed.
Print Assumptions C83_no_false_alarm_partial.

(** The errors of the lexer stage: exactly the faults of the regular expressions it was given, with their
    positions in the file *)
Theorem C83_stage_partial (known : list Z -> bool) (exprs : list (token * position)) (items : list (lex_item * position)) :
  let given d at_ := In (d, at_) exprs \/ exists i, In (i, at_) items /\ li_token i = d /\ li_unit i <> unit_null in
  let cut text ps e := Forall piece_ok ps /\ ending_ok e /\ harmless 0 ps e /\ text = regex_text ps e in
  (forall text at_, given (Regex text) at_ -> exists ps e, cut text ps e) ->
  exists errors, stage_errors known exprs items = Some errors /\
    forall f p, In (f, p) errors <-> exists text at_ ps e before, given (Regex text) at_ /\ cut text ps e /\ wrong known ps e before f /\ p = file_place at_ before.
Proof.
  intros given cut. unfold stage_errors. set (ds := exprs ++ _). assert (G : forall d at_, In (d, at_) ds <-> given d at_).
  { intros d at_. unfold ds, given. rewrite in_app_iff, in_map_iff. split.
    - intros [X|((i & p) & E & X)]; [left; exact X|right]. injection E as E1 E2. subst p. apply filter_In in X. destruct X as [X U]. exists i. split; [exact X|]. split; [exact E1|]. apply negb_true_iff, Z.eqb_neq in U. exact U.
    - intros [X|(i & X & E & U)]; [left; exact X|right]. exists (i, at_). split; [rewrite E; reflexivity|]. apply filter_In. split; [exact X|]. apply negb_true_iff, Z.eqb_neq, U. }
  intros H. assert (H' : forall text at_, In (Regex text, at_) ds -> exists ps e, cut text ps e) by (intros text at_ X; apply (H text at_), G, X). 
  enough (R : exists errors, report_all known ds = Some errors /\ forall f p, In (f, p) errors <-> exists text at_ ps e before, In (Regex text, at_) ds /\ cut text ps e /\ wrong known ps e before f /\ p = file_place at_ before).
  { destruct R as (errors & E & R). exists errors. split; [exact E|]. intros f p. rewrite R. split; intros (text & at_ & ps & e & b & X & Y); exists text, at_, ps, e, b; (split; [apply G, X|exact Y]). }
  clear G H. clearbody ds. induction ds as [|(d & at_) ds IH]; [exists []; split; [reflexivity|]; intros f p; split; [intros []|intros (? & ? & ? & ? & ? & [] & _)]|].
  destruct IH as (errors & E & R); [intros text at' X; apply (H' text at'); right; exact X|]. cbn [report_all]. rewrite E. destruct d as [w|w]; unfold report_regex; cbn [fst snd option_map]; [|].
  2: {
    exists errors. split; [reflexivity|]. intros f p. rewrite R. split; intros (text & at' & ps & e & b & X & Y); exists text, at', ps, e, b; (split; [|exact Y]); [right; exact X|destruct X as [X|X]; [discriminate X|exact X]]. }
  - destruct (H' w at_ (or_introl eq_refl)) as (ps & e & PO & EO & HL & ->). destruct (C83_exact_partial known ps e PO EO HL) as (errs & EC & RC & _). rewrite EC. cbn [option_map]. eexists. split; [reflexivity|]. intros f p. rewrite in_app_iff, R, in_map_iff. split.
    + intros [((f' & q) & X & Y)|(text & at' & ps' & e' & b & X & Y)].
      * injection X as -> <-. apply RC in Y. destruct Y as (b & W & ->). exists (regex_text ps e), at_, ps, e, b. split; [left; reflexivity|]. split; [repeat split; assumption|]. split; [exact W|apply file_place_error].
      * exists text, at', ps', e', b. split; [right; exact X|exact Y].
    + intros (text & at' & ps' & e' & b & [X|X] & C & W & ->); [left|right; exists text, at', ps', e', b; repeat split; try assumption; apply C]. injection X as <- <-. destruct C as (PO' & EO' & HL' & T). destruct (C83_exact_partial known ps' e' PO' EO' HL') as (errs' & EC' & RC' & _). rewrite <- T, EC in EC'. injection EC' as <-.
      exists (f, place b). split; [rewrite file_place_error; reflexivity|]. apply RC'. exists b. split; [exact W|reflexivity].
Qed.
Print Assumptions C83_stage_partial.

(** An unknown name, a bracket that is not closed, a class with brackets in it and a class that is not
    closed, over two lines *)
Example C83_nontrivial :
  let ps := [Name (codes "x"%string); Open; Class [Itself 40; Behind 91]; Plain 10; Open; Plain 97; Close; Quote 42] in let e := CutClass [Itself 98; Itself 41] true in
  Forall piece_ok ps /\ ending_ok e /\ harmless 0 ps e /\
  check_regex (fun _ => false) (regex_text ps e) = Some [(MissingExpression [120], mkPos 0 0 0); (MissingRound, mkPos 3 0 3); (MissingSquare, mkPos 15 1 5)] /\
  regex_text ps e = codes "{x}([(\[]"%string ++ [10] ++ codes "(a)\*[b)\"%string /\
  map (fun '(_, p) => error_position (mkPos 100 7 20) p) [(MissingRound, mkPos 3 0 3); (MissingSquare, mkPos 15 1 5)] = [mkPos 104 7 24; mkPos 116 8 5].
Proof.
  cbn zeta. split; [repeat constructor; cbn; lia|]. split; [repeat constructor; cbn; lia|]. split.
  { cbn [harmless]. split; [repeat constructor; discriminate|]. split; [right; cbn; lia|]. repeat constructor; discriminate. }
  repeat split; reflexivity.
Qed.
Print Assumptions C83_nontrivial.
Example C83_tree_example :
  let r := RCat (RGroup (ROr (RAtom (AClass true [One (Raw 40); Between (Raw 97) (Raw 122)])) (RName (codes "d"%string) (RAtom AAny)))) (RStar (RAtom (AChr (Quoted 40)))) in
  well_formed (fun _ => Some [46]) (fun _ => None) (fun _ => None) (fun _ => []) false false low up case_safe 0 r /\ clear_quotes false r /\ text r = codes "([^(a-z]|{d})\(*"%string.
Proof.
  cbn zeta. split; [|split; [|reflexivity]].
  - assert (CO : forall P, chars_ok false false low up case_safe P) by (intros P; split; intros X; discriminate X). assert (RO : forall c, 0 <= c < 128 -> ~ In c class_special -> chr_ok class_special (Raw c)) by (intros c B N; split; [unfold c_MaxSymbol; lia|exact N]).
    cbn [well_formed_in]. split; [lia|]. split; [split; [lia|]; split|].
    + split; [|apply CO]. cbn [atom_ok]. split; [|split; [discriminate|]].
      * apply Forall_cons; [|apply Forall_cons; [|apply Forall_nil]]; cbn [member_ok chr_value]; [|split; [|split; [|lia]]]; (apply RO; [lia|cbn; lia]).
      * exists 65. split; [unfold c_MaxSymbol; lia|]. intros m [<-|[<-|[]]]; cbn; lia.
    + split; [cbn; lia|]. split; [reflexivity|]. split; [reflexivity|]. split; [exact Logic.I|apply CO].
    + split; [|apply CO]. cbn. unfold c_MaxSymbol. lia.
  - cbn. split; [split; [|exact Logic.I]|left; reflexivity]. repeat constructor; discriminate.
Qed.
Print Assumptions C83_tree_example.

(** C73, C74 and C75: syntax tree classes and objects in generated source. *)
From Coq Require Import String.
From Verif Require Import Base GrammarModel GrammarProofs ClosureSpec NamesModel NamesSpec NamesProofs RunModel RunSpec AstGenModel AstGenSpec AstGenProofs.
Local Open Scope Z_scope.

(** ** C73.  Classes *)
(** In any language: no two variables of a class have the same name, and every item of a rule that is not a
    guard (or the list itself) has a variable. *)
Theorem C73_variables : forall terminal_name nonterminal_name all given x,
  let vars := map fst (variables terminal_name nonterminal_name all given x) in
  NoDup vars /\ forall r p, In r all -> r_nonterminal r = x -> In p (parts_of terminal_name nonterminal_name given r) -> is_guard (p_item p) = false -> p_repetition p = false -> In (variable p) vars.
Proof.
  intros tn nn all given x. destruct (variables_spec tn nn all given x) as (A & B & _). split; [exact A|]. intros r p R N I G F. apply (B r p); [apply own_rules_in; auto|]. unfold fields_of. apply filter_In. split; [exact I|]. unfold kept. rewrite G, F. reflexivity.
Qed.
Print Assumptions C73_variables.

(** The class of an item is C++ if two rules of a nonterminal differ in more than guards (part of
    [good_language]), the elements of lists have items that are not guards, the variables of a rule are
    different from each other and from the class, and variables with the same name in two rules have the
    same class.  Missing from the full property: languages where this is not so. *)
Theorem C73_valid_partial : forall terminal_name nonterminal_name all rid given symbols rules u terminals,
  good_language rules u all rid given symbols terminals -> forall x name, u x -> is_guard x = false ->
  let fields := fields_of terminal_name nonterminal_name given in
  (forall k rs, x = IEbnf k rs -> repeats x = true -> without_guards (nth 0 rs []) <> []) ->
  (forall r, In r all -> r_nonterminal r = x -> ~ In name (map variable (fields r)) /\ NoDup (map variable (fields r))) ->
  (forall r r' p p', In r all -> In r' all -> r_nonterminal r = x -> r_nonterminal r' = x -> In p (fields r) -> In p' (fields r') -> variable p = variable p' -> p_item p = p_item p') ->
  exists c, class_for terminal_name nonterminal_name all rid given x = Some c /\ valid_class name c.
Proof.
  intros tn nn all rid given symbols rules u terminals GL x name U G fields NC NV TY. eapply class_valid; eauto.
  - intros r R. apply own_rules_in in R. apply NV; tauto.
  - intros r r' p p' R R'. apply own_rules_in in R. apply own_rules_in in R'. apply TY; tauto.
Qed.
Print Assumptions C73_valid_partial.

(** The functions for positions use variables that are declared, and m_Position only where it is declared,
    if no list has elements with a list of the same kind. *)
Theorem C73_functions_partial : forall terminal_name nonterminal_name all rid given symbols rules u terminals,
  good_language rules u all rid given symbols terminals -> forall x r f, u x -> is_guard x = false -> not_nested x -> In r all -> r_nonterminal r = x ->
  f = pos_variable terminal_name nonterminal_name given x r \/ f = final_variable terminal_name nonterminal_name given x r ->
  match f with
  | Some v => In v (map fst (variables terminal_name nonterminal_name all given x))
  | None => (0 < positions terminal_name nonterminal_name all given x)%nat
  end.
Proof. intros tn nn all rid given symbols rules u terminals GL x r f U G NN R N F. eapply functions_valid; eauto. apply own_rules_in. auto. Qed.
Print Assumptions C73_functions_partial.

(** ** C74.  Objects *)
(** For the parse tree of any text the generated actions make the object that shows the tree, if no guard is
    passed at the end of the input.  Missing from the full property: that case, and the languages excluded by
    [good_language]. *)
Theorem C74_tree_partial : forall terminal_name nonterminal_name all rid given symbols rules u terminals,
  good_language rules u all rid given symbols terminals ->
  forall L P (matched : L -> Z) (lexeme_pos : L -> P) zero (renamed : Z -> L -> L) weak ignorable ident, (forall s l, matched (renamed s l) = s) ->
  forall x t w rest after, parses rules rid ident L matched renamed weak ignorable x t w rest -> u x -> is_guard x = false -> ~ In None (leaves L t) ->
  exists v, tree_value terminal_name nonterminal_name all rid given symbols L P matched lexeme_pos zero terminals after t = Some v /\
    shows rules rid (var_names terminal_name nonterminal_name given) L P matched zero (fun xs ts => position_of L P lexeme_pos (tokens_of all rid L xs ts)) after x t v /\
    reads L matched renamed weak ignorable (map Some (tokens all rid L t)) w.
Proof.
  intros tn nn all rid given symbols rules u terminals GL L P matched lpos zero renamed weak ignorable ident RN x t w rest after PX U G F.
  destruct (proj1 (tree_shown tn nn all rid given symbols L P matched lpos lpos zero terminals rules u GL renamed RN weak ignorable ident) x t w rest PX U F after) as (v & V & S). exists v. split; [exact V|]. split; [apply S, G|].
  eapply (proj1 (tokens_read _ _ _ _ _ _ _ _ _ GL _ _ _ ident)); eassumption.
Qed.
Print Assumptions C74_tree_partial.

(** ** C75.  Positions *)
(** The position of an object is that of its first lexeme, or of what follows if it has none, unless it
    begins with an empty list; the final position is that of its last lexeme, unless it ends with something
    empty.  Missing from the full property: what begins or ends so, and nested lists of the same kind. *)
Theorem C75_start_partial : forall terminal_name nonterminal_name all rid given symbols rules u terminals,
  good_language rules u all rid given symbols terminals -> (forall x, u x -> not_nested x) ->
  forall L P (matched : L -> Z) (lexeme_pos : L -> P) zero unknown (renamed : Z -> L -> L) weak ignorable ident, (forall s l, matched (renamed s l) = s) ->
  forall x t w rest after v, parses rules rid ident L matched renamed weak ignorable x t w rest -> u x -> is_guard x = false -> ~ In None (leaves L t) ->
  tree_value terminal_name nonterminal_name all rid given symbols L P matched lexeme_pos zero terminals after t = Some v -> ~ begins_empty v ->
  node_pos terminal_name nonterminal_name all rid given L P lexeme_pos unknown v = Some (match tokens all rid L t with l :: _ => lexeme_pos l | [] => after end).
Proof.
  intros tn nn all rid given symbols rules u terminals GL NN L P matched lpos zero unknown renamed weak ignorable ident RN x t w rest after v PX U G F V B.
  destruct (C74_tree_partial tn nn all rid given symbols rules u terminals GL L P matched lpos zero renamed weak ignorable ident RN x t w rest after PX U G F) as (v' & V' & S & _). rewrite V in V'. injection V' as <-.
  exact (proj1 (shown_positions tn nn all rid given symbols L P matched lpos zero unknown terminals rules u GL weak ignorable ident NN) after x t v S U B).
Qed.
Print Assumptions C75_start_partial.
Theorem C75_final_partial : forall terminal_name nonterminal_name all rid given symbols rules u terminals,
  good_language rules u all rid given symbols terminals -> (forall x, u x -> not_nested x) ->
  (forall x r, u x -> expands rules x r -> NoDup (variables_of r (var_names terminal_name nonterminal_name given (mkRule x r)))) ->
  forall L P (matched : L -> Z) (lexeme_pos lexeme_final : L -> P) zero unknown (renamed : Z -> L -> L) weak ignorable ident, (forall s l, matched (renamed s l) = s) ->
  forall x t w rest after v, parses rules rid ident L matched renamed weak ignorable x t w rest -> u x -> is_guard x = false -> ~ In None (leaves L t) ->
  tree_value terminal_name nonterminal_name all rid given symbols L P matched lexeme_pos zero terminals after t = Some v -> ~ ends_empty v ->
  exists first l, tokens all rid L t = first ++ [l] /\ node_final terminal_name nonterminal_name all rid given L P lexeme_final unknown v = Some (lexeme_final l).
Proof.
  intros tn nn all rid given symbols rules u terminals GL NN DV L P matched lpos lfinal zero unknown renamed weak ignorable ident RN x t w rest after v PX U G F V B.
  destruct (C74_tree_partial tn nn all rid given symbols rules u terminals GL L P matched lpos zero renamed weak ignorable ident RN x t w rest after PX U G F) as (v' & V' & S & _). rewrite V in V'. injection V' as <-.
  exact (proj1 (shown_ends tn nn all rid given symbols L P matched lpos lfinal zero unknown terminals rules u GL weak ignorable ident NN DV) after x t v S U B).
Qed.
Print Assumptions C75_final_partial.

(** ** A language: statements with lists of numbers, some beginning with a guard, and a part that may be
    empty *)
Fixpoint index_of (all : list rule) (r : rule) : Z := match all with [] => 0 | a :: all => if rule_eqb a r then 0 else 1 + index_of all r end.
Definition unnamed (r : rule) : list str := map (fun _ => []) (r_items r).
Definition ex_terminal (s : Z) : str := nth (Z.to_nat s) (map codes ["id"; "'='"; "num"; "';'"; "'!'"]%string) [].
Definition ex_nonterminal (s : Z) : str := nth (Z.to_nat s) (map codes ["<program>"; "<stmt>"; "<end>"]%string) [].
Definition ex_stmts : item := IEbnf RepeatZero [[INonterm 1; ITerm 3]].
Definition ex_nums : item := IEbnf Repeat [[ITerm 2]].
Definition ex_guard : item := IGuard 1 [ITerm 0].
Definition ex_rules (n : Z) : list (list item) := nth (Z.to_nat n) [[[ex_stmts; INonterm 2]]; [[ITerm 0; ITerm 1; ex_nums]; [ex_guard; ITerm 0]]; [[]; [ITerm 4]]] [].
Definition ex_all : list rule :=
  [mkRule (INonterm 0) [ex_stmts; INonterm 2]; mkRule (INonterm 1) [ITerm 0; ITerm 1; ex_nums]; mkRule (INonterm 1) [ex_guard; ITerm 0]; mkRule (INonterm 2) []; mkRule (INonterm 2) [ITerm 4];
   mkRule ex_stmts []; mkRule ex_stmts [ex_stmts; INonterm 1; ITerm 3]; mkRule ex_nums [ITerm 2]; mkRule ex_nums [ex_nums; ITerm 2]; mkRule ex_guard [ITerm 0]].
Definition ex_symbols : list item := [INonterm 0; INonterm 1; INonterm 2; ex_stmts; ex_nums; ex_guard].
Definition ex_items : list item := ex_symbols ++ map ITerm [0; 1; 2; 3; 4].
Definition ex_rid : rule -> Z := index_of ex_all.
Definition ex_ident (i : item) : Z := match i with INonterm n => n | IEbnf RepeatZero _ => 3 | IEbnf _ _ => 4 | _ => 5 end.
Ltac in_list := repeat (first [left; reflexivity | right]).
Lemma ex_good : good_language ex_rules (fun i => In i ex_items) ex_all ex_rid unnamed ex_symbols 5.
Proof.
  assert (EX : forall x r, In x ex_items -> expands ex_rules x r -> In (mkRule x r) (removelast ex_all)).
  { assert (NT : forall n r, expands ex_rules (INonterm n) r -> In r (ex_rules n)) by (intros n r E; inversion E; assumption).
    intros x r U E. cbn in U. repeat (destruct U as [<-|U]; [|]); try destruct U; try (inversion E; fail).
    1-3: apply NT in E; cbn in E; repeat (destruct E as [<-|E]; [in_list|]); destruct E.
    - apply zero_rules in E. destruct E as [-> | ->]; in_list.
    - apply repeat_rules in E. destruct E as [-> | ->]; in_list. }
  constructor.
  - intros x r U E. pose proof (EX x r U E) as I. split; [|split].
    + cbn in I. repeat (destruct I as [<-|I]; [in_list|]). destruct I.
    + cbn in I. repeat (destruct I as [I|I]; [injection I as <- _; in_list|]). destruct I.
    + cbn in I. repeat (destruct I as [I|I]; [injection I as _ <-; repeat (apply Forall_cons; [in_list|]); apply Forall_nil|]). destruct I.
  - intros x r _ G I. cbn in I. repeat (destruct I as [I|I]; [injection I as <- <-; try discriminate G; first [apply expands_rule; in_list; fail | apply expands_none; auto; fail | apply (expands_more ex_rules _ [[INonterm 1; ITerm 3]]); auto; fail | apply (expands_more ex_rules _ [[ITerm 2]]); auto; fail | apply (expands_once ex_rules _ [[ITerm 2]]); auto; fail]|]). destruct I.
  - repeat constructor; cbn; intuition discriminate.
  - intros a b A B E. cbn in A, B. repeat (destruct A as [<-|A]; [repeat (destruct B as [<-|B]; [try reflexivity; vm_compute in E; discriminate E|]); destruct B|]). destruct A.
  - intros r _. unfold unnamed. apply map_length.
  - intros s I. cbn in I. intuition (try discriminate; match goal with H : ITerm _ = ITerm _ |- _ => injection H as <- end; lia).
  - intros x r r' U R E E' W. pose proof (EX _ _ U E) as I. pose proof (EX _ _ U E') as I'. clear E E' U. cbn in I, I'.
    repeat (destruct I as [I|I]; [injection I as <- <-; try discriminate R; repeat (destruct I' as [I'|I']; [try discriminate I'; injection I' as <-; try reflexivity; cbn in W; discriminate W|]); destruct I'|]). destruct I.
  - intros rs I. cbn in I. repeat (destruct I as [I|I]; [try discriminate I; injection I as <-; discriminate|]). destruct I.
Qed.

(** The class of statements and the class of the elements of the list of numbers *)
Definition ex_class (x : item) : option ast_class := class_for ex_terminal ex_nonterminal ex_all ex_rid unnamed x.
Example C73_nontrivial :
  ex_class (INonterm 1) = Some (mkClass [(codes "yy_id", ITerm 0); (codes "yy__equals_", ITerm 1); (codes "yy_list_of_num", ex_nums)] 0
    [mkCtor 1 [ITerm 0; ITerm 1; ex_nums] [codes "yy_id"; codes "yy__equals_"; codes "yy_list_of_num"]; mkCtor 2 [ITerm 0] [codes "yy_id"]]) /\
  (exists c, ex_class (INonterm 1) = Some c /\ valid_class (codes "yy_stmt_n") c) /\
  ex_class ex_stmts = Some (mkClass [(codes "yy_stmt", INonterm 1); (codes "yy__semicolon_", ITerm 3)] 1 [mkCtor 6 [INonterm 1; ITerm 3] [codes "yy_stmt"; codes "yy__semicolon_"]]) /\
  ex_class (INonterm 2) = Some (mkClass [(codes "yy__exclamation_", ITerm 4)] 1 [mkCtor 3 [] []; mkCtor 4 [ITerm 4] [codes "yy__exclamation_"]]).
Proof.
  split; [vm_compute; reflexivity|]. split; [|split; vm_compute; reflexivity].
  apply (C73_valid_partial ex_terminal ex_nonterminal ex_all ex_rid unnamed ex_symbols ex_rules (fun i => In i ex_items) 5 ex_good); [in_list|reflexivity|discriminate| |].
  - intros r R N. cbn in R. repeat (destruct R as [<-|R]; [vm_compute in N; first [discriminate N|split; [intros X; vm_compute in X; repeat (destruct X as [X|X]; [discriminate X|]); exact X|vm_compute; repeat (apply NoDup_cons; [intros X; repeat (destruct X as [X|X]; [discriminate X|]); exact X|]); apply NoDup_nil]]|]). destruct R.
  - intros r r' p p' R R' N N' I I' V. cbn in R, R'. repeat (destruct R as [<-|R]; [try discriminate N; repeat (destruct R' as [<-|R']; [try discriminate N'; vm_compute in I, I'; repeat (destruct I as [<-|I]; [repeat (destruct I' as [<-|I']; [try reflexivity; vm_compute in V; discriminate V|]); destruct I'|]); destruct I|]); destruct R'|]). destruct R.
Qed.

(** The text id = num num ; id ; with the symbols of its lexemes and their numbers; the lexeme n is at
    10 n and ends at 10 n + 5. *)
Definition lx (s n : Z) : ast (Z * Z) := Leaf (Some (s, n)).
Definition nd (x : item) (r : list item) (ts : list (ast (Z * Z))) : ast (Z * Z) := Node (ex_ident x) (ex_rid (mkRule x r)) ts.
Definition ex_text : list (Z * Z) := [(0, 0); (1, 1); (2, 2); (2, 3); (3, 4); (0, 5); (3, 6)].
Definition ex_one : ast (Z * Z) := nd (INonterm 1) [ITerm 0; ITerm 1; ex_nums] [lx 0 0; lx 1 1; nd ex_nums [ex_nums; ITerm 2] [nd ex_nums [ITerm 2] [lx 2 2]; lx 2 3]].
Definition ex_two : ast (Z * Z) := nd (INonterm 1) [ex_guard; ITerm 0] [lx 0 5; lx 0 5].
Definition ex_tree : ast (Z * Z) := nd (INonterm 0) [ex_stmts; INonterm 2]
  [nd ex_stmts [ex_stmts; INonterm 1; ITerm 3] [nd ex_stmts [ex_stmts; INonterm 1; ITerm 3] [nd ex_stmts [] []; ex_one; lx 3 4]; ex_two; lx 3 6]; nd (INonterm 2) [] []].
Definition ex_parses := parses ex_rules ex_rid ex_ident (Z * Z) fst (fun s l => (s, snd l)) (fun _ _ => False) (fun _ => False).
Lemma all_cons rules rid ident L matched renamed weak ignorable x xs t ts w1 w2 w rest : parses rules rid ident L matched renamed weak ignorable x t w1 (w2 ++ rest) -> parses_all rules rid ident L matched renamed weak ignorable xs ts w2 rest -> w = w1 ++ w2 ->
  parses_all rules rid ident L matched renamed weak ignorable (x :: xs) (t :: ts) w rest.
Proof. intros A B ->. apply all_next; assumption. Qed.
Ltac leaf := unfold ex_parses, lx; match goal with |- parses _ _ _ _ _ _ _ _ (ITerm ?s) (Leaf (Some ?l)) _ _ => exact (parses_term _ _ _ _ fst _ _ _ l _) end.
Lemma ex_parsed : ex_parses (INonterm 0) ex_tree ex_text [].
Proof.
  assert (N : forall rest, ex_parses ex_nums (nd ex_nums [ex_nums; ITerm 2] [nd ex_nums [ITerm 2] [lx 2 2]; lx 2 3]) [(2, 2); (2, 3)] rest).
  { intros rest. apply parses_rule; [apply (expands_more ex_rules _ [[ITerm 2]]); auto|]. eapply all_cons; [|eapply all_cons; [leaf|apply all_none|reflexivity]|].
    - apply parses_rule; [apply (expands_once ex_rules _ [[ITerm 2]]); auto|]. eapply all_cons; [leaf|apply all_none|reflexivity].
    - reflexivity. }
  assert (O : forall rest, ex_parses (INonterm 1) ex_one [(0, 0); (1, 1); (2, 2); (2, 3)] rest).
  { intros rest. apply parses_rule; [apply expands_rule; in_list|]. eapply all_cons; [leaf| |reflexivity]. eapply all_cons; [leaf| |reflexivity]. eapply all_cons; [apply N|apply all_none|reflexivity]. }
  assert (T : forall rest, ex_parses (INonterm 1) ex_two [(0, 5)] rest).
  { intros rest. apply parses_rule; [apply expands_rule; in_list|]. eapply all_cons with (w1 := []); [|eapply all_cons; [leaf|apply all_none|reflexivity]|reflexivity].
    apply (parses_guard ex_rules ex_rid ex_ident (Z * Z) fst (fun s l => (s, snd l)) (fun _ _ => False) (fun _ => False) 1 [ITerm 0] [lx 0 5] [(0, 5)] rest). eapply all_cons; [leaf|apply all_none|reflexivity]. }
  apply parses_rule; [apply expands_rule; in_list|]. eapply all_cons with (w1 := ex_text); [| |reflexivity].
  - apply parses_rule; [apply (expands_more ex_rules _ [[INonterm 1; ITerm 3]]); auto|]. eapply all_cons with (w1 := [(0, 0); (1, 1); (2, 2); (2, 3); (3, 4)]); [|eapply all_cons; [apply T|eapply all_cons; [leaf|apply all_none|reflexivity]|reflexivity]|reflexivity].
    apply parses_rule; [apply (expands_more ex_rules _ [[INonterm 1; ITerm 3]]); auto|]. eapply all_cons with (w1 := []); [|eapply all_cons; [apply O|eapply all_cons; [leaf|apply all_none|reflexivity]|reflexivity]|reflexivity].
    apply parses_rule; [apply expands_none; auto|apply all_none].
  - eapply all_cons with (w1 := []); [|apply all_none|reflexivity]. apply parses_rule; [apply expands_rule; in_list|apply all_none].
Qed.

Definition ex_value := tree_value ex_terminal ex_nonterminal ex_all ex_rid unnamed ex_symbols (Z * Z) Z fst (fun l => 10 * snd l) 0 5.
Definition ex_object : node (Z * Z) Z :=
  let term s n := NTerm (Some (ITerm s)) (s, n) in
  NObj (INonterm 0) 0 None
    [(codes "yy_list_of_stmt__semicolon_",
      NList ex_stmts 0
        [NObj ex_stmts 6 None [(codes "yy_stmt", NObj (INonterm 1) 1 None [(codes "yy_id", term 0 0); (codes "yy__equals_", term 1 1);
            (codes "yy_list_of_num", NList ex_nums 30 [NObj ex_nums 7 None [(codes "yy_num", term 2 2)]; NObj ex_nums 7 None [(codes "yy_num", term 2 3)]])]); (codes "yy__semicolon_", term 3 4)];
         NObj ex_stmts 6 None [(codes "yy_stmt", NObj (INonterm 1) 2 None [(codes "yy_id", term 0 5)]); (codes "yy__semicolon_", term 3 6)]]);
     (codes "yy_end", NObj (INonterm 2) 3 (Some (-1)) [])].
Example C74_nontrivial : ex_value (-1) ex_tree = Some ex_object /\ ~ In None (leaves (Z * Z) ex_tree) /\
  shows ex_rules ex_rid (var_names ex_terminal ex_nonterminal unnamed) (Z * Z) Z fst 0 (fun xs ts => position_of (Z * Z) Z (fun l => 10 * snd l) (tokens_of ex_all ex_rid (Z * Z) xs ts)) (-1) (INonterm 0) ex_tree ex_object.
Proof.
  assert (V : ex_value (-1) ex_tree = Some ex_object) by (vm_compute; reflexivity). assert (F : ~ In None (leaves (Z * Z) ex_tree)) by (vm_compute; intuition discriminate). split; [exact V|]. split; [exact F|].
  destruct (C74_tree_partial ex_terminal ex_nonterminal ex_all ex_rid unnamed ex_symbols ex_rules (fun i => In i ex_items) 5 ex_good (Z * Z) Z fst (fun l => 10 * snd l) 0 (fun s l => (s, snd l)) (fun _ _ => False) (fun _ => False) ex_ident (fun s l => eq_refl) (INonterm 0) ex_tree ex_text [] (-1) ex_parsed (or_introl eq_refl) eq_refl F) as (v & V' & S & _).
  unfold ex_value in V. rewrite V in V'. injection V' as <-. exact S.
Qed.

(** Positions in the same text.  The program ends with an empty part: its final position is the one after the
    text, here -1. *)
Definition ex_pos := node_pos ex_terminal ex_nonterminal ex_all ex_rid unnamed (Z * Z) Z (fun l => 10 * snd l) (-2).
Definition ex_final := node_final ex_terminal ex_nonterminal ex_all ex_rid unnamed (Z * Z) Z (fun l => 10 * snd l + 5) (-2).
Example C75_nontrivial :
  (exists v, ex_value 40 ex_one = Some v /\ ~ begins_empty v /\ ~ ends_empty v /\ ex_pos v = Some 0 /\ ex_final v = Some 35) /\
  (exists v, ex_value 60 ex_two = Some v /\ ~ begins_empty v /\ ~ ends_empty v /\ ex_pos v = Some 50 /\ ex_final v = Some 55) /\
  (forall x, In x ex_items -> not_nested x) /\
  ex_pos ex_object = Some 0.
Proof.
  assert (BT : forall c l, ~ @begins_empty (Z * Z) Z (NTerm c l)) by (intros c l B; inversion B).
  assert (ET : forall c l, ~ @ends_empty (Z * Z) Z (NTerm c l)) by (intros c l B; inversion B).
  assert (EF : forall x r p (fs : list (str * node (Z * Z) Z)) n v, ~ ends_empty v -> ~ ends_empty (NObj x r p (fs ++ [(n, v)]))).
  { intros x r p fs n v N B. inversion B as [| |? ? ? ? B'|x' r' p' fs' n' v' B' E]; subst; [destruct fs; discriminate|]. match goal with H : _ ++ [_] = _ ++ [_] |- _ => apply app_inj_tail in H; destruct H as [_ H]; injection H as -> -> end. exact (N B'). }
  assert (EL : forall x p (vs : list (node (Z * Z) Z)) v, ~ ends_empty v -> ~ ends_empty (NList x p (vs ++ [v]))).
  { intros x p vs v N B. inversion B as [| |? ? vs' v' B' E|]; subst; [destruct vs; discriminate|]. match goal with H : _ ++ [_] = _ ++ [_] |- _ => apply app_inj_tail in H; destruct H as [_ ->] end. exact (N B'). }
  assert (BF : forall x r p (fs : list (str * node (Z * Z) Z)) n v, ~ begins_empty v -> ~ begins_empty (NObj x r p ((n, v) :: fs))) by (intros x r p fs n v N B; inversion B; auto).
  split; [|split; [|split]].
  - eexists. split; [vm_compute; reflexivity|]. split; [apply BF, BT|]. split; [|split; vm_compute; reflexivity].
    match goal with |- ~ ends_empty (NObj ?x ?r ?p [?a; ?b; (?n, ?v)]) => apply (EF x r p [a; b] n v) end. match goal with |- ~ ends_empty (NList ?x ?p [?a; ?v]) => apply (EL x p [a] v) end. match goal with |- ~ ends_empty (NObj ?x ?r ?p [(?n, ?v)]) => apply (EF x r p [] n v), ET end.
  - eexists. split; [vm_compute; reflexivity|]. split; [apply BF, BT|]. split; [|split; vm_compute; reflexivity]. match goal with |- ~ ends_empty (NObj ?x ?r ?p [(?n, ?v)]) => apply (EF x r p [] n v), ET end.
  - intros x I k rs rs' E K N. subst x. cbn in I. unfold ex_stmts, ex_nums, ex_guard in I. repeat (destruct I as [I|I]; [first [discriminate I|injection I as <- <-; cbn in N; intuition discriminate]|]). destruct I.
  - vm_compute. reflexivity.
Qed.

(** ** Refutations of the full properties *)
(** A nonterminal whose rules are guard id and id: there are two constructors for the same parameters.  So the
    program that is generated is not C++. *)
Definition twice_all : list rule := [mkRule (INonterm 1) [ex_guard; ITerm 0]; mkRule (INonterm 1) [ITerm 0]; mkRule ex_guard [ITerm 0]].
Theorem C73_guards_refuted : exists c, class_for ex_terminal ex_nonterminal twice_all (index_of twice_all) unnamed (INonterm 1) = Some c /\ forall name, ~ valid_class name c.
Proof.
  eexists. split; [vm_compute; reflexivity|]. intros name V. pose proof (valid_ctors _ _ V 0%nat 1%nat _ _ eq_refl eq_refl eq_refl) as E. discriminate E.
Qed.
Print Assumptions C73_guards_refuted.
(** The same for two items that are given the same name in two rules: <stmt> = id[x] | '=' '='[x].  The second
    rule makes the variable x with a '=', but it is declared for an id. *)
Definition named (r : rule) : list str := match r_items r with [ITerm 0] => [codes "x"] | [ITerm 1; ITerm 1] => [[]; codes "x"] | l => map (fun _ => []) l end.
Definition named_all : list rule := [mkRule (INonterm 1) [ITerm 0]; mkRule (INonterm 1) [ITerm 1; ITerm 1]].
Theorem C73_types_refuted : exists c, class_for ex_terminal ex_nonterminal named_all (index_of named_all) named (INonterm 1) = Some c /\ forall name, ~ valid_class name c.
Proof.
  eexists. split; [vm_compute; reflexivity|]. intros name V. destruct (valid_inits _ _ V _ (or_intror (or_introl eq_refl))) as [_ F]. cbn in F. inversion F as [|? ? ? ? _ F']; subst. inversion F' as [|? ? ? ? I _]; subst.
  cbn in I. repeat (destruct I as [I|I]; [discriminate I|]). exact I.
Qed.
Print Assumptions C73_types_refuted.
(** A list of guards only: ([=> id])+ declares m_Position twice. *)
Definition guards_item : item := IEbnf Repeat [[ex_guard]].
Definition guards_all : list rule := [mkRule guards_item [ex_guard]; mkRule guards_item [guards_item; ex_guard]; mkRule ex_guard [ITerm 0]].
Theorem C73_position_refuted : exists c, class_for ex_terminal ex_nonterminal guards_all (index_of guards_all) unnamed guards_item = Some c /\ c_positions c = 2%nat /\ forall name, ~ valid_class name c.
Proof. eexists. split; [vm_compute; reflexivity|]. split; [reflexivity|]. intros name V. pose proof (valid_position _ _ V) as L. cbn in L. lia. Qed.
Print Assumptions C73_position_refuted.
(** A list of nothing, ()+: the generator reads past the end of an empty vector. *)
Definition none_item : item := IEbnf Repeat [[]].
Definition none_all : list rule := [mkRule none_item []; mkRule none_item [none_item]].
Theorem C73_content_refuted : class_for ex_terminal ex_nonterminal none_all (index_of none_all) unnamed none_item = None.
Proof. vm_compute. reflexivity. Qed.
Print Assumptions C73_content_refuted.
(** A list of lists, ((id)+)+: the function for the position uses m_Position, which is not declared. *)
Definition inner_item : item := IEbnf Repeat [[ITerm 0]].
Definition outer_item : item := IEbnf Repeat [[inner_item]].
Definition nested_all : list rule := [mkRule outer_item [inner_item]; mkRule outer_item [outer_item; inner_item]; mkRule inner_item [ITerm 0]; mkRule inner_item [inner_item; ITerm 0]].
Theorem C73_nested_refuted : exists r, In r nested_all /\ r_nonterminal r = outer_item /\ pos_variable ex_terminal ex_nonterminal unnamed outer_item r = None /\ positions ex_terminal ex_nonterminal nested_all unnamed outer_item = 0%nat.
Proof. exists (mkRule outer_item [inner_item]). split; [in_list|]. split; [reflexivity|]. split; vm_compute; reflexivity. Qed.
Print Assumptions C73_nested_refuted.

(** A guard for something that may be empty, at the end of the input: <program> = id [=> id?].  The tree is
    parsed, but the generated parser asks for the symbol of a lexeme that is not there. *)
Definition maybe_item : item := IEbnf Optional [[ITerm 0]].
Definition maybe_guard : item := IGuard 1 [maybe_item].
Definition maybe_rules (n : Z) : list (list item) := if n =? 0 then [[ITerm 0; maybe_guard]] else [].
Definition maybe_all : list rule := [mkRule (INonterm 0) [ITerm 0; maybe_guard]; mkRule maybe_item []; mkRule maybe_item [ITerm 0]; mkRule maybe_guard [maybe_item]].
Theorem C74_end_refuted : exists t : ast (Z * Z),
  parses maybe_rules (index_of maybe_all) ex_ident (Z * Z) fst (fun s l => (s, snd l)) (fun _ _ => False) (fun _ => False) (INonterm 0) t [(0, 0)] [] /\
  tree_value ex_terminal ex_nonterminal maybe_all (index_of maybe_all) unnamed [INonterm 0; maybe_item; maybe_guard] (Z * Z) Z fst (fun l => 10 * snd l) 0 5 (-1) t = None.
Proof.
  exists (Node 0 0 [lx 0 0; Leaf None]). split; [|vm_compute; reflexivity].
  apply (parses_rule maybe_rules (index_of maybe_all) ex_ident (Z * Z) fst (fun s l => (s, snd l)) (fun _ _ => False) (fun _ => False) (INonterm 0) [ITerm 0; maybe_guard]); [apply expands_rule; left; reflexivity|].
  eapply all_cons with (w1 := [(0, 0)]); [leaf| |reflexivity]. eapply all_cons with (w1 := []); [|apply all_none|reflexivity].
  apply (parses_guard maybe_rules (index_of maybe_all) ex_ident (Z * Z) fst (fun s l => (s, snd l)) (fun _ _ => False) (fun _ => False) 1 [maybe_item] [Node (ex_ident maybe_item) (index_of maybe_all (mkRule maybe_item [])) []] [] []).
  eapply all_cons with (w1 := []); [|apply all_none|reflexivity]. apply parses_rule; [apply expands_none; auto|apply all_none].
Qed.
Print Assumptions C74_end_refuted.

(** An empty list is at the beginning of the file, wherever it is: in the text of C74_nontrivial the list of
    statements, if it is empty, has position zero although it comes at the end, -1.  An object that ends with
    something empty has as its final position where the next lexeme begins, not where its own last lexeme ends. *)
Theorem C75_empty_refuted : exists (t : ast (Z * Z)) v, ex_parses ex_stmts t [] [(4, 7)] /\ ex_value 70 t = Some v /\ tokens ex_all ex_rid (Z * Z) t = [] /\ ex_pos v = Some 0.
Proof. exists (nd ex_stmts [] []). eexists. split; [apply parses_rule; [apply expands_none; auto|apply all_none]|]. repeat split; vm_compute; reflexivity. Qed.
Print Assumptions C75_empty_refuted.
Theorem C75_end_refuted : exists (t : ast (Z * Z)) v first l, ex_parses (INonterm 0) t ex_text [] /\ ex_value (-1) t = Some v /\ tokens ex_all ex_rid (Z * Z) t = first ++ [l] /\ ex_final v = Some (-1) /\ 10 * snd l + 5 = 65.
Proof. exists ex_tree, ex_object, (removelast ex_text), (3, 6). split; [exact ex_parsed|]. repeat split; vm_compute; reflexivity. Qed.
Print Assumptions C75_end_refuted.
(** Lists in lists, (id+ '=')+: an element has the position of its second item. *)
Definition pairs_item : item := IEbnf Repeat [[inner_item; ITerm 1]].
Definition pairs_all : list rule := [mkRule pairs_item [inner_item; ITerm 1]; mkRule pairs_item [pairs_item; inner_item; ITerm 1]; mkRule inner_item [ITerm 0]; mkRule inner_item [inner_item; ITerm 0]].
Theorem C75_nested_refuted : exists (t : ast (Z * Z)) v,
  parses ex_rules (index_of pairs_all) ex_ident (Z * Z) fst (fun s l => (s, snd l)) (fun _ _ => False) (fun _ => False) pairs_item t [(0, 1); (1, 2)] [] /\
  tree_value ex_terminal ex_nonterminal pairs_all (index_of pairs_all) unnamed [pairs_item; inner_item] (Z * Z) Z fst (fun l => 10 * snd l) 0 5 (-1) t = Some v /\ ~ begins_empty v /\
  node_pos ex_terminal ex_nonterminal pairs_all (index_of pairs_all) unnamed (Z * Z) Z (fun l => 10 * snd l) (-2) v = Some 20.
Proof.
  exists (Node 4 0 [Node 4 2 [lx 0 1]; lx 1 2]). eexists. split; [|split; [vm_compute; reflexivity|split]].
  - apply (parses_rule ex_rules (index_of pairs_all) ex_ident (Z * Z) fst (fun s l => (s, snd l)) (fun _ _ => False) (fun _ => False) pairs_item [inner_item; ITerm 1]); [apply (expands_once ex_rules _ [[inner_item; ITerm 1]]); auto|].
    eapply all_cons with (w1 := [(0, 1)]); [| |reflexivity].
    + apply (parses_rule ex_rules (index_of pairs_all) ex_ident (Z * Z) fst (fun s l => (s, snd l)) (fun _ _ => False) (fun _ => False) inner_item [ITerm 0]); [apply (expands_once ex_rules _ [[ITerm 0]]); auto|]. eapply all_cons; [leaf|apply all_none|reflexivity].
    + eapply all_cons; [leaf|apply all_none|reflexivity].
  - intros B. inversion B as [|? ? ? ? B1|]; subst. inversion B1 as [| |? ? ? ? ? ? B2]; subst. inversion B2 as [|? ? ? ? B3|]; subst. inversion B3 as [| |? ? ? ? ? ? B4]; subst. inversion B4.
  - vm_compute. reflexivity.
Qed.
Print Assumptions C75_nested_refuted.

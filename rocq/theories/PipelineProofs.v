(** Proofs about the program. *)
From Coq Require Import String.
From Verif Require Import Base TermDictModel NamesModel PipelineModel PipelineSpec.
Local Open Scope Z_scope.

Lemma exit_app a b : exit_code (a ++ b) = fold_left (fun c e => match e with Report v => if 4 <=? v then v else c | Begin _ => c end) b (exit_code a).
Proof. apply fold_left_app. Qed.
Lemma fold_zero es : forall c, fold_left (fun c e => match e with Report v => if 4 <=? v then v else c | Begin _ => c end) es c = 0 <-> c = 0 /\ no_errors es \/ (c <> 0 /\ False).
Proof.
  unfold no_errors. induction es as [|e es IH]; intros c; cbn [fold_left]; [cbn; intuition|]. rewrite IH. destruct e as [s|v].
  - split; [intros [[A B]|[_ []]]|intros [[A B]|[_ []]]]; left; (split; [exact A|]); intros v I; apply B; [destruct I as [I|I]; [discriminate I|exact I]|right; exact I].
  - destruct (Z.leb_spec 4 v); split.
    + intros [[A B]|[_ []]]; lia.
    + intros [[A B]|[_ []]]. specialize (B v (or_introl eq_refl)). lia.
    + intros [[A B]|[_ []]]. left. split; [exact A|]. intros w [I|I]; [injection I as <-; lia|auto].
    + intros [[A B]|[_ []]]. left. split; [exact A|]. intros w I. apply B. right. exact I.
Qed.
Lemma exit_zero es : exit_code es = 0 <-> no_errors es. Proof. unfold exit_code. rewrite fold_zero. intuition lia. Qed.
Lemma no_errors_app a b : no_errors (a ++ b) <-> no_errors a /\ no_errors b.
Proof. unfold no_errors. split; [intros H; split; intros v I; apply H, in_app_iff; auto|intros [A B] v I; apply in_app_iff in I; destruct I; auto]. Qed.
Lemma begun_app a b : begun (a ++ b) = begun a ++ begun b. Proof. apply flat_map_app. Qed.
Lemma begun_reports vs : begun (map Report vs) = []. Proof. induction vs; [reflexivity|assumption]. Qed.
Lemma begun_in es s : In s (begun es) <-> In (Begin s) es.
Proof. unfold begun. rewrite in_flat_map. split; [intros ([x|v] & I & J); [destruct J as [->|[]]; exact I|destruct J]|intros I; exists (Begin s); split; [exact I|left; reflexivity]]. Qed.

Lemma find_parser_spec ds : forall found, fst (find_parser ds found) = match match found with Some b => b :: parsers ds | None => parsers ds end with [b] => Some b | _ => None end.
Proof.
  induction ds as [|d ds IH]; intros found; cbn [find_parser]; [destruct found; reflexivity|]. destruct d as [n|b|]; cbn [parsers flat_map app]; try apply IH. destruct found as [a|]; [reflexivity|]. rewrite IH. reflexivity.
Qed.
Lemma find_language_spec ds : forall found, find_language ds found = match match found with Some b => b :: languages ds | None => languages ds end with [b] => b | _ => [] end.
Proof.
  induction ds as [|d ds IH]; intros found; cbn [find_language]; [destruct found; reflexivity|]. destruct d as [n|b|]; cbn [languages flat_map app]; try apply IH. destruct found as [a|]; [reflexivity|]. rewrite IH. reflexivity.
Qed.
Lemma empty_if (l m : str) : (if is_empty l then m else l) = or_else l m. Proof. destruct l; reflexivity. Qed.
Lemma named_fun o ds l1 c1 s1 l2 c2 s2 : named o ds l1 c1 s1 -> named o ds l2 c2 s2 -> l1 = l2 /\ c1 = c2 /\ s1 = s2.
Proof.
  intros [H|b c A B C D] H2; inversion H2 as [H'|b' c' A' B' C' D']; subst; auto.
  - exfalso. destruct H as [H|[H|H]]; [contradiction|contradiction|exact (H _ C')].
  - exfalso. destruct H' as [H'|[H'|H']]; [contradiction|contradiction|exact (H' _ C)].
  - rewrite C in C'. injection C' as <-. auto.
Qed.
(** What is chosen is named, and reports no errors. *)
Lemma choose_ok o ds lang class start es : choose o ds = (lang, class, start, es) -> no_errors es /\ begun es = [] /\
  (lang = [] -> forall l c s, ~ wanted o ds l c s) /\ (lang <> [] -> wanted o ds lang class start) /\ (forall l c s, wanted o ds l c s -> l = lang /\ c = class /\ s = start).
Proof.
  unfold choose. pose proof (find_parser_spec ds None) as FP. destruct (find_parser ds None) as [block multiple]. cbn [fst] in FP. cbv zeta.
  assert (NM : exists l c s, named o ds l c s /\ match block with
    | Some b => if is_empty (o_compile_language o) && is_empty (o_start_symbols o)
                then (pb_language b, if is_empty (o_class_name o) then pb_name b else o_class_name o, pb_start b)
                else (o_compile_language o, o_class_name o, o_start_symbols o)
    | None => (o_compile_language o, o_class_name o, o_start_symbols o)
    end = (l, c, s)).
  { destruct block as [b|].
    - assert (P : parsers ds = [b]) by (destruct (parsers ds) as [|x [|y k]]; try discriminate FP; injection FP as ->; reflexivity).
      destruct (o_compile_language o) as [|x k] eqn:EL; [destruct (o_start_symbols o) as [|y m] eqn:ES|]; cbn [is_empty andb]; eexists; eexists; eexists; (split; [|reflexivity]).
      + apply named_block; auto. apply empty_if.
      + rewrite <- EL, <- ES. apply named_options. right. left. rewrite ES. discriminate.
      + rewrite <- EL. apply named_options. left. rewrite EL. discriminate.
    - eexists; eexists; eexists; (split; [|reflexivity]). apply named_options. right. right. intros b P. rewrite P in FP. discriminate FP. }
  destruct NM as (l & c & s & NM & ->). pose proof (find_language_spec ds None) as FL. intros H.
  assert (E1 : no_errors (if multiple then [Report 1] else [])) by (destruct multiple; [intros v [I|[]]; injection I as <-; lia|intros v []]).
  assert (B1 : begun (if multiple then [Report 1] else []) = []) by (destruct multiple; reflexivity).
  destruct l as [|x l]; cbn [is_empty] in H.
  - set (only := find_language ds None) in *. destruct only as [|y only'] eqn:EO; cbn [is_empty] in H; injection H as <- <- <- <-.
    + split; [exact E1|]. split; [exact B1|].
      assert (W : forall l c s, ~ wanted o ds l c s).
      { intros l' c' s' W. inversion W as [? ? ? N' NE|? ? ? N' L NE]; subst; [destruct (named_fun _ _ _ _ _ _ _ _ NM N') as [<- _]; congruence|]. rewrite L in FL. congruence. }
      split; [intros _; exact W|]. split; [congruence|]. intros l' c' s' X. destruct (W _ _ _ X).
    + assert (L : languages ds = [y :: only']) by (destruct (languages ds) as [|a [|b k]]; try discriminate FL; rewrite FL; reflexivity).
      split; [apply no_errors_app; split; [exact E1|intros v [I|[]]; injection I as <-; lia]|]. split; [rewrite begun_app, B1; reflexivity|].
      split; [discriminate|]. rewrite empty_if. split; [intros _; apply wanted_only; [exact NM|exact L|discriminate]|].
      intros l' c' s' W. inversion W as [? ? ? N' NE|? ? ? N' L' NE]; subst; destruct (named_fun _ _ _ _ _ _ _ _ NM N') as (E & <- & <-); [congruence|]. rewrite L in L'. injection L' as <-. auto.
  - injection H as <- <- <- <-. split; [exact E1|]. split; [exact B1|]. split; [discriminate|]. rewrite empty_if. split; [intros _; apply wanted_named; [exact NM|discriminate]|].
    intros l' c' s' W. inversion W as [? ? ? N' NE|? ? ? N' L' NE]; subst; destruct (named_fun _ _ _ _ _ _ _ _ NM N') as (E & <- & <-); [subst; auto|discriminate E].
Qed.
Lemma str_eqb_eq a b : str_eqb a b = true <-> a = b. Proof. unfold str_eqb. destruct (list_eq_dec Z.eq_dec a b); intuition congruence. Qed.
Lemma find_target_ok o input class t : find_target o input class = Some t <-> target_for o input class t.
Proof.
  unfold find_target. cbv zeta. rewrite (empty_if (o_output_file o)). destruct (o_test o) eqn:T.
  - change (str_eqb (codes "test"%string) (codes "cplusplus"%string)) with false. change (str_eqb (codes "test"%string) (codes "test"%string)) with true. cbn [is_empty codes]. cbv iota.
    split; [intros H; injection H as <-; apply target_test, T|intros H; inversion H; subst; try reflexivity; congruence].
  - destruct (o_output_language o) as [|x l] eqn:L.
    + change (str_eqb (codes "cplusplus"%string) (codes "cplusplus"%string)) with true. cbn [is_empty]. cbv iota. change (str_eqb (codes "cplusplus"%string) (codes "cplusplus"%string)) with true. cbv iota.
      split; [intros H; injection H as <-; apply target_cplusplus; [exact T|left; exact L|reflexivity]|]. intros H; inversion H as [|? ? D ->|? D|? D]; subst; try reflexivity; try congruence. all: rewrite L in D; discriminate D.
    + cbn [is_empty]. cbv iota. destruct (str_eqb (x :: l) (codes "cplusplus"%string)) eqn:A; [|destruct (str_eqb (x :: l) (codes "test"%string)) eqn:B; [|destruct (str_eqb (x :: l) (codes "test-trace"%string)) eqn:C]].
      * apply str_eqb_eq in A. split; [intros H; injection H as <-; apply target_cplusplus; [exact T|right; rewrite L; exact A|reflexivity]|]. intros H; inversion H as [|? ? D ->|? D|? D]; subst; try reflexivity; try congruence. all: rewrite L, A in D; discriminate D.
      * apply str_eqb_eq in B. split; [intros H; injection H as <-; apply target_stdin; [exact T|rewrite L; exact B]|]. intros H; inversion H as [|? ? D ->|? D|? D]; subst; try reflexivity; try congruence. all: rewrite L, B in D; try discriminate D. destruct D as [D|D]; discriminate D.
      * apply str_eqb_eq in C. split; [intros H; injection H as <-; apply target_trace; [exact T|rewrite L; exact C]|]. intros H; inversion H as [|? ? D ->|? D|? D]; subst; try reflexivity; try congruence. all: rewrite L, C in D; try discriminate D. destruct D as [D|D]; discriminate D.
      * split; [discriminate|]. intros H; inversion H as [|? ? D ->|? D|? D]; subst; try reflexivity; try congruence; rewrite L in D.
        -- destruct D as [D|D]; [discriminate D|]. apply str_eqb_eq in D. unfold cplusplus in D. congruence.
        -- apply str_eqb_eq in D. congruence.
        -- apply str_eqb_eq in D. congruence.
Qed.

Section Program.
  Context (reports : step -> option (list Z)) (definitions : option (list toplevel)) (known : str -> bool) (unused : str -> list Z).
  Notation stage := (stage reports). Notation main := (main reports definitions known unused).

  Lemma stage_inv s es next es' st : stage s es next = (es', st) ->
    (reports s = None /\ es' = es ++ [Begin s; Report 6] /\ st = Thrown) \/
    (exists vs, reports s = Some vs /\ ~ no_errors (es ++ Begin s :: map Report vs) /\ es' = es ++ Begin s :: map Report vs /\ st = Exit (exit_code es')) \/
    (exists vs, reports s = Some vs /\ no_errors (es ++ Begin s :: map Report vs) /\ next (es ++ Begin s :: map Report vs) = (es', st)).
  Proof.
    unfold PipelineModel.stage. destruct (reports s) as [vs|]; [|intros H; injection H as <- <-; auto]. cbv zeta. destruct (Z.eqb_spec (exit_code (es ++ Begin s :: map Report vs)) 0) as [E|E]; intros H; right; [right|left]; exists vs.
    - apply exit_zero in E. auto.
    - injection H as <- <-. rewrite exit_zero in E. auto.
  Qed.
  Lemma begun_stage es s vs : begun (es ++ Begin s :: map Report vs) = begun es ++ [s].
  Proof. rewrite begun_app. cbn [begun flat_map app]. change (flat_map _ (map Report vs)) with (begun (map Report vs)). rewrite begun_reports. reflexivity. Qed.
  Lemma begun_report es v : begun (es ++ [Report v]) = begun es. Proof. rewrite begun_app. apply app_nil_r. Qed.
  Lemma exit_last es v : 4 <= v -> exit_code (es ++ [Report v]) = v.
  Proof. intros H. rewrite exit_app. cbn [fold_left]. destruct (Z.leb_spec 4 v); lia. Qed.

  (** A stage that is the last one *)
  Inductive course_of : step -> list event -> list event -> status -> Prop :=
  | course_thrown s es : reports s = None -> course_of s es (es ++ [Begin s; Report 6]) Thrown
  | course_error s es vs : reports s = Some vs -> ~ no_errors (es ++ Begin s :: map Report vs) -> course_of s es (es ++ Begin s :: map Report vs) (Exit (exit_code (es ++ Begin s :: map Report vs))).
  (** How far the program gets *)
  Inductive course (o : options) (input : str) : list event -> status -> Prop :=
  | at_read es st : course_of ReadFile [] es st -> course o input es st
  | at_nothing es : no_errors es -> begun es = [ReadFile] -> definitions = None -> course o input (es ++ [Report 6]) (Exit 6)
  | at_import es0 es st : no_errors es0 -> begun es0 = [ReadFile] -> definitions <> None -> course_of ImportFiles es0 es st -> course o input es st
  | at_tests es0 es st : no_errors es0 -> begun es0 = [ReadFile; ImportFiles] -> definitions <> None -> o_run_tests o = true -> course_of RunTests es0 es st -> course o input es st
  | at_tests_only es : no_errors es -> begun es = [ReadFile; ImportFiles; RunTests] -> definitions <> None -> tests_only o -> course o input es (Exit 0)
  | at_build es0 es st : no_errors es0 -> begun es0 = [ReadFile; ImportFiles] ++ (if o_run_tests o then [RunTests] else []) -> definitions <> None -> ~ tests_only o -> course_of BuildLanguages es0 es st -> course o input es st
  | at_choice ds es : no_errors es -> begun es = [ReadFile; ImportFiles] ++ (if o_run_tests o then [RunTests] else []) ++ [BuildLanguages] -> definitions = Some ds -> ~ tests_only o ->
      (forall l c s, wanted o ds l c s -> known l = false) -> course o input (es ++ [Report 4]) (Exit 4)
  | at_start ds lang class es more : no_errors es -> begun es = [ReadFile; ImportFiles] ++ (if o_run_tests o then [RunTests] else []) ++ [BuildLanguages] -> definitions = Some ds -> ~ tests_only o ->
      wanted o ds lang class [] -> known lang = true -> more = map Report (unused lang) -> course o input ((es ++ more) ++ [Report 4]) (Exit 4)
  | at_lexer ds lang class start es0 more es st : no_errors es0 -> begun es0 = [ReadFile; ImportFiles] ++ (if o_run_tests o then [RunTests] else []) ++ [BuildLanguages] -> definitions = Some ds -> ~ tests_only o ->
      wanted o ds lang class start -> known lang = true -> start <> [] -> more = map Report (unused lang) -> course_of (BuildLexer lang) (es0 ++ more) es st -> course o input es st
  | at_parser ds lang class start es0 es st : no_errors es0 -> begun es0 = [ReadFile; ImportFiles] ++ (if o_run_tests o then [RunTests] else []) ++ [BuildLanguages; BuildLexer lang] -> definitions = Some ds -> ~ tests_only o ->
      wanted o ds lang class start -> known lang = true -> start <> [] -> course_of (BuildParser lang start) es0 es st -> course o input es st
  | at_target ds lang class start es : no_errors es -> begun es = stages o lang start -> definitions = Some ds -> ~ tests_only o ->
      wanted o ds lang class start -> known lang = true -> start <> [] -> (forall t, ~ target_for o input class t) -> course o input (es ++ [Report 4]) (Exit 4)
  | at_generate ds lang class start t es0 es st : no_errors es0 -> begun es0 = stages o lang start -> definitions = Some ds -> ~ tests_only o ->
      wanted o ds lang class start -> known lang = true -> start <> [] -> target_for o input class t -> course_of (Generate t lang start) es0 es st -> course o input es st
  | at_end ds lang class start t es0 vs : no_errors es0 -> begun es0 = stages o lang start -> definitions = Some ds -> ~ tests_only o ->
      wanted o ds lang class start -> known lang = true -> start <> [] -> target_for o input class t -> reports (Generate t lang start) = Some vs -> no_errors (es0 ++ Begin (Generate t lang start) :: map Report vs) ->
      course o input (es0 ++ Begin (Generate t lang start) :: map Report vs) (Exit 0).
  Lemma stage_course s es next es' st : stage s es next = (es', st) -> course_of s es es' st \/ (exists vs, reports s = Some vs /\ no_errors (es ++ Begin s :: map Report vs) /\ next (es ++ Begin s :: map Report vs) = (es', st)).
  Proof. intros H. apply stage_inv in H. destruct H as [(A & -> & ->)|[(vs & A & B & -> & ->)|H]]; [left; constructor; exact A|left; constructor; assumption|right; exact H]. Qed.

  Lemma main_course o input es st : main o (Some input) = (es, st) -> course o input es st.
  Proof.
    cbn [PipelineModel.main]. intros H. apply stage_course in H. destruct H as [H|(v1 & R1 & N1 & H)]; [apply at_read, H|].
    assert (B1 : begun ([] ++ Begin ReadFile :: map Report v1) = [ReadFile]) by apply begun_stage. revert N1 B1 H. generalize ([] ++ Begin ReadFile :: map Report v1) as e1. clear v1 R1. intros e1 N1 B1 H.
    destruct definitions as [ds|] eqn:D; [|injection H as <- <-; apply at_nothing; assumption]. assert (DN : definitions <> None) by (rewrite D; discriminate).
    apply stage_course in H. destruct H as [H|(v2 & R2 & N2 & H)]; [eapply at_import; eassumption|].
    assert (B2 : begun (e1 ++ Begin ImportFiles :: map Report v2) = [ReadFile; ImportFiles]) by (rewrite begun_stage, B1; reflexivity). revert N2 B2 H. generalize (e1 ++ Begin ImportFiles :: map Report v2) as e2. clear v2 R2. intros e2 N2 B2 H. cbv zeta in H.
    assert (K : forall e3, no_errors e3 -> begun e3 = [ReadFile; ImportFiles] ++ (if o_run_tests o then [RunTests] else []) -> ~ tests_only o -> PipelineModel.build reports known unused o input ds e3 = (es, st) -> course o input es st).
    { clear e1 N1 B1 e2 N2 B2 H. intros e3 N3 B3 NT H. unfold PipelineModel.build in H. apply stage_course in H. destruct H as [H|(v4 & R4 & N4 & H)]; [eapply at_build; eassumption|].
      assert (B4 : begun (e3 ++ Begin BuildLanguages :: map Report v4) = [ReadFile; ImportFiles] ++ (if o_run_tests o then [RunTests] else []) ++ [BuildLanguages]) by (rewrite begun_stage, B3, app_assoc; reflexivity).
      revert N4 B4 H. generalize (e3 ++ Begin BuildLanguages :: map Report v4) as e4. clear v4 R4 e3 N3 B3. intros e4 N4 B4 H.
      destruct (choose o ds) as [[[lang class] start] more] eqn:C. destruct (choose_ok _ _ _ _ _ _ C) as (NE & BE & W0 & W1 & W2).
      assert (N5 : no_errors (e4 ++ more)) by (apply no_errors_app; auto). assert (B5 : begun (e4 ++ more) = begun e4) by (rewrite begun_app, BE; apply app_nil_r). rewrite B4 in B5.
      revert N5 B5 H. generalize (e4 ++ more) as e5. clear e4 N4 B4. intros e5 N5 B5 H.
      destruct lang as [|x l].
      { cbn [is_empty] in H. injection H as <- <-. eapply at_choice; try eassumption. intros l c s W. destruct (W0 eq_refl _ _ _ W). }
      cbn [is_empty] in H. set (lang := x :: l) in *. assert (W : wanted o ds lang class start) by (apply W1; discriminate). destruct (known lang) eqn:KN; cbn [negb] in H.
      2:{ injection H as <- <-. eapply at_choice; try eassumption. intros l' c' s' W'. destruct (W2 _ _ _ W') as [-> _]. exact KN. }
      destruct start as [|y start']; cbn [is_empty] in H; [injection H as <- <-; eapply at_start; try eassumption; reflexivity|]. set (start := y :: start') in *. assert (SN : start <> []) by discriminate.
      apply stage_course in H. destruct H as [H|(v6 & R6 & N6 & H)]; [eapply at_lexer; try eassumption; reflexivity|].
      assert (B6 : begun ((e5 ++ map Report (unused lang)) ++ Begin (BuildLexer lang) :: map Report v6) = [ReadFile; ImportFiles] ++ (if o_run_tests o then [RunTests] else []) ++ [BuildLanguages; BuildLexer lang]).
      { rewrite begun_stage, begun_app, begun_reports, app_nil_r, B5, <- !app_assoc. reflexivity. }
      revert N6 B6 H. generalize ((e5 ++ map Report (unused lang)) ++ Begin (BuildLexer lang) :: map Report v6) as e6. clear v6 R6 e5 N5 B5. intros e6 N6 B6 H.
      apply stage_course in H. destruct H as [H|(v7 & R7 & N7 & H)]; [eapply at_parser; eassumption|].
      assert (B7 : begun (e6 ++ Begin (BuildParser lang start) :: map Report v7) = stages o lang start) by (rewrite begun_stage, B6; unfold stages; rewrite <- !app_assoc; reflexivity).
      revert N7 B7 H. generalize (e6 ++ Begin (BuildParser lang start) :: map Report v7) as e7. clear v7 R7 e6 N6 B6. intros e7 N7 B7 H.
      destruct (find_target o input class) as [t|] eqn:T.
      - apply find_target_ok in T. apply stage_course in H. destruct H as [H|(v8 & R8 & N8 & H)]; [eapply at_generate; eassumption|]. injection H as <- <-. pose proof N8 as Z8. apply exit_zero in Z8. rewrite Z8. eapply at_end; eassumption.
      - injection H as <- <-. eapply at_target; try eassumption. intros t X. apply find_target_ok in X. congruence. }
    destruct (o_run_tests o) eqn:RT.
    - apply stage_course in H. destruct H as [H|(v3 & R3 & N3 & H)]; [eapply at_tests; eassumption|].
      assert (B3 : begun (e2 ++ Begin RunTests :: map Report v3) = [ReadFile; ImportFiles; RunTests]) by (rewrite begun_stage, B2; reflexivity).
      destruct (is_empty (o_output_file o) && is_empty (o_start_symbols o) && is_empty (o_output_language o) && negb (o_test o) && negb (o_show_parser o)) eqn:TO.
      + injection H as <- <-. pose proof N3 as Z3. apply exit_zero in Z3. rewrite Z3. apply at_tests_only; try assumption. unfold tests_only. rewrite RT. destruct (o_output_file o), (o_start_symbols o), (o_output_language o), (o_test o), (o_show_parser o); try discriminate TO. auto 10.
      + eapply K; [exact N3|exact B3| |exact H]. intros (_ & A1 & A2 & A3 & A4 & A5). rewrite A1, A2, A3, A4, A5 in TO. discriminate TO.
    - eapply K; [exact N2|exact B2| |exact H]. intros (A & _). congruence.
  Qed.
End Program.

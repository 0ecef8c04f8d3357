(** C79: the status of the program and what it generates. *)
From Coq Require Import String.
From Verif Require Import Base TermDictModel NamesModel PipelineModel PipelineSpec PipelineProofs.
Local Open Scope Z_scope.

Ltac in_begun H B := apply begun_in in H; rewrite ?begun_app in H; rewrite ?B in H.

(** The status is zero exactly if no error was reported; otherwise it is the severity of the last error. *)
Theorem C79_status : forall reports definitions known unused o input es n, main reports definitions known unused o (Some input) = (es, Exit n) ->
  (n = 0 <-> no_errors es) /\ (n <> 0 -> 4 <= n /\ exists a b, es = a ++ Report n :: b /\ no_errors b).
Proof.
  intros reports definitions known unused o input es n H. assert (E : n = exit_code es).
  { apply main_course in H. assert (K : forall s e, course_of reports s e es (Exit n) -> n = exit_code es) by (intros s e C; inversion C; subst; reflexivity).
    inversion H; subst; try (rewrite exit_last by lia; reflexivity); try (eapply K; eassumption); symmetry; apply exit_zero; assumption. }
  clear H. subst n. split; [apply exit_zero|]. induction es as [|e es IH] using rev_ind; [cbn; congruence|]. rewrite exit_app. cbn [fold_left]. destruct e as [s|v].
  - intros Z. destruct (IH Z) as (L & a & b & E & N). split; [exact L|]. exists a, (b ++ [Begin s]). split; [rewrite E at 1; rewrite <- app_assoc; reflexivity|]. apply no_errors_app. split; [exact N|]. intros v [I|[]]. discriminate I.
  - destruct (Z.leb_spec 4 v) as [V|V]; intros Z; [split; [exact V|]; exists es, []; split; [reflexivity|intros w []]|].
    destruct (IH Z) as (L & a & b & E & N). split; [exact L|]. exists a, (b ++ [Report v]). split; [rewrite E at 1; rewrite <- app_assoc; reflexivity|]. apply no_errors_app. split; [exact N|]. intros w [I|[]]. injection I as <-. exact V.
Qed.
Print Assumptions C79_status.

(** Nothing is generated unless every stage before has been run without an error, and what is generated is what
    the options and the file ask for. *)
Theorem C79_generates : forall reports definitions known unused o input es st t lang start, main reports definitions known unused o (Some input) = (es, st) -> In (Begin (Generate t lang start)) es ->
  exists ds class before after, definitions = Some ds /\ wanted o ds lang class start /\ start <> [] /\ known lang = true /\ target_for o input class t /\
    es = before ++ Begin (Generate t lang start) :: after /\ no_errors before /\ begun before = stages o lang start /\ begun after = [].
Proof.
  intros reports definitions known unused o input es st t lang start H I. apply main_course in H.
  assert (ST : forall l s, ~ In (Generate t lang start) (stages o l s)) by (intros l s X; unfold stages in X; destruct (o_run_tests o); cbn in X; intuition discriminate).
  assert (K : forall s e, course_of reports s e es st -> In (Generate t lang start) (begun e) \/ s = Generate t lang start /\ exists after, es = e ++ Begin s :: after /\ begun after = []).
  { intros s e C. apply begun_in in I. inversion C; subst; [rewrite begun_app in I|rewrite begun_stage in I]; apply in_app_iff in I; cbn in I; destruct I as [I|I]; auto; destruct I as [I|[]]; right; (split; [exact I|]); eexists; (split; [reflexivity|]); [reflexivity|apply begun_reports]. }
  assert (K2 : forall s e, course_of reports s e es st -> (In (Generate t lang start) (begun e) -> False) -> s <> Generate t lang start -> False) by (intros s e C A B; destruct (K s e C) as [X|[X _]]; auto).
  destruct H as [es st C|es N B D|e0 es st N B D C|e0 es st N B D R C|es N B D TO|e0 es st N B D NT C|ds es N B D NT W|ds l c es more N B D NT W KN M|ds l c s e0 more es st N B D NT W KN SN M C|ds l c s e0 es st N B D NT W KN SN C|ds l c s es N B D NT W KN SN T
    |ds l c s t' e0 es st N B D NT W KN SN T C|ds l c s t' e0 vs N B D NT W KN SN T R NE].
  - exfalso. eapply K2; [exact C|intros []|discriminate].
  - exfalso. apply begun_in in I. rewrite begun_report, B in I. cbn in I. intuition discriminate.
  - exfalso. eapply K2; [exact C|rewrite B; cbn; intuition discriminate|discriminate].
  - exfalso. eapply K2; [exact C|rewrite B; cbn; intuition discriminate|discriminate].
  - exfalso. apply begun_in in I. rewrite B in I. cbn in I. intuition discriminate.
  - exfalso. eapply K2; [exact C|rewrite B; destruct (o_run_tests o); cbn; intuition discriminate|discriminate].
  - exfalso. apply begun_in in I. rewrite begun_report, B in I. destruct (o_run_tests o); cbn in I; intuition discriminate.
  - exfalso. apply begun_in in I. rewrite M, begun_report, begun_app, begun_reports, app_nil_r, B in I. destruct (o_run_tests o); cbn in I; intuition discriminate.
  - exfalso. eapply K2; [exact C|rewrite M, begun_app, begun_reports, app_nil_r, B; destruct (o_run_tests o); cbn; intuition discriminate|discriminate].
  - exfalso. eapply K2; [exact C|rewrite B; destruct (o_run_tests o); cbn; intuition discriminate|discriminate].
  - exfalso. apply begun_in in I. rewrite begun_report, B in I. exact (ST _ _ I).
  - destruct (K _ _ C) as [X|[X (after & -> & A)]]; [rewrite B in X; destruct (ST _ _ X)|]. injection X as -> -> ->. exists ds, c, e0, after. auto 12.
  - apply begun_in in I. rewrite begun_stage, B in I. apply in_app_iff in I. destruct I as [I|[I|[]]]; [destruct (ST _ _ I)|]. injection I as -> -> ->. exists ds, c, e0, (map Report vs). rewrite begun_reports. auto 12.
Qed.
Print Assumptions C79_generates.

(** Success means that something was generated, or that only tests were asked for and all were run. *)
Theorem C79_success : forall reports definitions known unused o input es, main reports definitions known unused o (Some input) = (es, Exit 0) ->
  (tests_only o /\ begun es = [ReadFile; ImportFiles; RunTests]) \/ (~ tests_only o /\ exists t lang start, begun es = stages o lang start ++ [Generate t lang start]).
Proof.
  intros reports definitions known unused o input es H. pose proof H as Z. apply C79_status in Z. destruct Z as [[Z _] _]. specialize (Z eq_refl). apply main_course in H.
  assert (K : forall s e, ~ course_of reports s e es (Exit 0)) by (intros s e C; inversion C; subst; contradiction).
  inversion H; subst; try (exfalso; eapply K; eassumption); [left; auto|]. right. split; [assumption|]. eexists. eexists. eexists. rewrite begun_stage. f_equal. eassumption.
Qed.
Print Assumptions C79_success.

(** If every stage succeeds and what to generate is clear, it is generated, and the status is that of the stage
    that does it. *)
Definition silent (reports : step -> option (list Z)) (s : step) : Prop := exists vs, reports s = Some vs /\ Forall (fun v => v < 4) vs.
Theorem C79_complete : forall reports definitions known unused o input ds lang class start t, definitions = Some ds -> wanted o ds lang class start -> start <> [] -> known lang = true -> target_for o input class t ->
  ~ tests_only o -> Forall (fun v => v < 4) (unused lang) -> Forall (silent reports) (stages o lang start) ->
  exists es st, main reports definitions known unused o (Some input) = (es, st) /\ In (Begin (Generate t lang start)) es /\ (st = Exit 0 <-> silent reports (Generate t lang start)).
Proof.
  intros reports definitions known unused o input ds lang class start t D W SN KN T NT U S.
  assert (NR : forall vs, Forall (fun v => v < 4) vs -> no_errors (map Report vs)) by (intros vs F v I; apply in_map_iff in I; destruct I as (w & E & I); injection E as <-; rewrite Forall_forall in F; auto).
  assert (NS : forall e s vs, no_errors e -> Forall (fun v => v < 4) vs -> no_errors (e ++ Begin s :: map Report vs)). { intros e s vs N F. apply no_errors_app. split; [exact N|]. intros v [I|I]; [discriminate I|]. exact (NR vs F v I). }
  assert (GO : forall s, silent reports s -> exists vs, reports s = Some vs /\ forall e next, no_errors e -> stage reports s e next = next (e ++ Begin s :: map Report vs) /\ no_errors (e ++ Begin s :: map Report vs)).
  { intros s (vs & R & F). exists vs. split; [exact R|]. intros e next N. pose proof (NS e s vs N F) as N2. split; [|exact N2]. unfold stage. rewrite R. cbv zeta. apply exit_zero in N2. rewrite N2. reflexivity. }
  assert (ALL : forall s, In s (stages o lang start) -> silent reports s) by (apply Forall_forall, S).
  assert (BU : forall e, no_errors e -> exists es st, build reports known unused o input ds e = (es, st) /\ In (Begin (Generate t lang start)) es /\ (st = Exit 0 <-> silent reports (Generate t lang start))).
  { intros e N. unfold build. destruct (GO BuildLanguages) as (v1 & _ & G1); [apply ALL; unfold stages; apply in_app_iff; right; apply in_app_iff; right; left; reflexivity|]. edestruct G1 as [-> N1]; [exact N|].
    destruct (choose o ds) as [[[l c] s] more] eqn:C. destruct (choose_ok _ _ _ _ _ _ C) as (NE & _ & W0 & _ & W2). destruct (W2 _ _ _ W) as (-> & -> & ->). cbv zeta. destruct l as [|x l]; [destruct (W0 eq_refl _ _ _ W)|]. cbn [is_empty]. rewrite KN. cbn [negb]. destruct s as [|y s]; [congruence|]. cbn [is_empty].
    set (lang := x :: l) in *. set (start := y :: s) in *. set (e1 := e ++ Begin BuildLanguages :: map Report v1) in *. assert (N2 : no_errors ((e1 ++ more) ++ map Report (unused lang))) by (apply no_errors_app; split; [apply no_errors_app; auto|apply NR, U]).
    destruct (GO (BuildLexer lang)) as (v2 & _ & G2); [apply ALL; unfold stages; apply in_app_iff; right; apply in_app_iff; right; right; left; reflexivity|]. edestruct G2 as [-> N3]; [exact N2|].
    destruct (GO (BuildParser lang start)) as (v3 & _ & G3); [apply ALL; unfold stages; apply in_app_iff; right; apply in_app_iff; right; right; right; left; reflexivity|]. edestruct G3 as [-> N4]; [exact N3|].
    apply find_target_ok in T. rewrite T. unfold stage. match goal with |- context [match reports (Generate t lang start) with _ => _ end] => destruct (reports (Generate t lang start)) as [vs|] eqn:R end.
    - cbv zeta. match goal with |- context [exit_code ?x] => set (e4 := x) end.
      assert (IN : In (Begin (Generate t lang start)) e4) by (unfold e4; apply in_app_iff; right; left; reflexivity).
      assert (Q : exit_code e4 = 0 <-> silent reports (Generate t lang start)).
      { rewrite exit_zero. split.
        - intros N5. exists vs. split; [exact R|]. apply Forall_forall. intros v I. apply N5. unfold e4. apply in_app_iff. right. right. apply in_map, I.
        - intros (vs' & R' & F). rewrite R in R'. injection R' as <-. unfold e4. apply NS; assumption. }
      destruct (Z.eqb_spec (exit_code e4) 0) as [E|E]; eexists; eexists; (split; [reflexivity|]); (split; [exact IN|]); rewrite <- Q; split; congruence.
    - eexists. eexists. split; [reflexivity|]. split; [apply in_app_iff; right; left; reflexivity|]. split; [discriminate|]. intros (vs & R' & _). congruence. }
  cbn [main]. destruct (GO ReadFile) as (v1 & _ & G1); [apply ALL; left; reflexivity|]. edestruct G1 as [-> N1]; [intros v []|]. rewrite D.
  destruct (GO ImportFiles) as (v2 & _ & G2); [apply ALL; right; left; reflexivity|]. edestruct G2 as [-> N2]; [exact N1|]. destruct (o_run_tests o) eqn:RT; [|apply BU, N2].
  destruct (GO RunTests) as (v3 & _ & G3); [apply ALL; unfold stages; rewrite RT; right; right; left; reflexivity|]. edestruct G3 as [-> N3]; [exact N2|].
  destruct (is_empty (o_output_file o) && is_empty (o_start_symbols o) && is_empty (o_output_language o) && negb (o_test o) && negb (o_show_parser o)) eqn:TO; [|apply BU, N3].
  exfalso. apply NT. unfold tests_only. rewrite RT. destruct (o_output_file o), (o_start_symbols o), (o_output_language o), (o_test o), (o_show_parser o); try discriminate TO. auto 10.
Qed.
Print Assumptions C79_complete.

(** No stage begins after an error, if looking for unused symbols reports none. *)
Theorem C79_stops_partial : forall reports definitions known unused o input es st before s after, (forall l v, In v (unused l) -> v < 4) ->
  main reports definitions known unused o (Some input) = (es, st) -> es = before ++ Begin s :: after -> no_errors before.
Proof.
  intros reports definitions known unused o input es st before s after U H E. apply main_course in H.
  assert (A1 : forall e, no_errors e -> forall b t a, e = b ++ Begin t :: a -> no_errors b) by (intros e N b t a ->; apply no_errors_app in N; tauto).
  assert (A2 : forall e v, no_errors e -> forall b t a, e ++ [Report v] = b ++ Begin t :: a -> no_errors b).
  { intros e v N b t a X. destruct a as [|y a _] using rev_ind; [apply app_inj_tail in X; destruct X as [_ X]; discriminate X|]. rewrite app_comm_cons, app_assoc in X. apply app_inj_tail in X. destruct X as [X _]. exact (A1 _ N _ _ _ X). }
  assert (A3 : forall e t0 vs, no_errors e -> forall b t a, e ++ Begin t0 :: map Report vs = b ++ Begin t :: a -> no_errors b).
  { intros e t0 vs N b t a. revert a. induction vs as [|v vs IH] using rev_ind; intros a X.
    - destruct a as [|y a _] using rev_ind; [apply app_inj_tail in X; destruct X as [<- _]; exact N|]. rewrite app_comm_cons, app_assoc in X. apply app_inj_tail in X. destruct X as [X _]. exact (A1 _ N _ _ _ X).
    - rewrite map_app, app_comm_cons, app_assoc in X. destruct a as [|y a _] using rev_ind; [apply app_inj_tail in X; destruct X as [_ X]; discriminate X|]. rewrite app_comm_cons, app_assoc in X. apply app_inj_tail in X. destruct X as [X _]. eapply IH; eassumption. }
  assert (A4 : forall e t0, no_errors e -> forall b t a, e ++ [Begin t0; Report 6] = b ++ Begin t :: a -> no_errors b) by (intros e t0 N b t a X; exact (A3 e t0 [6] N b t a X)).
  assert (K : forall t0 e, no_errors e -> course_of reports t0 e es st -> no_errors before) by (intros t0 e N C; destruct C as [t0 e R|t0 e vs R NE]; [exact (A4 _ _ N _ _ _ E)|exact (A3 _ _ _ N _ _ _ E)]).
  assert (MU : forall l, no_errors (map Report (unused l))) by (intros l v I; apply in_map_iff in I; destruct I as (w & X & I); injection X as <-; eapply U, I).
  destruct H as [es st C|es N B D|e0 es st N B D C|e0 es st N B D R C|es N B D TO|e0 es st N B D NT C|ds es N B D NT W|ds l c es more N B D NT W KN M|ds l c s0 e0 more es st N B D NT W KN SN M C|ds l c s0 e0 es st N B D NT W KN SN C|ds l c s0 es N B D NT W KN SN T
    |ds l c s0 t' e0 es st N B D NT W KN SN T C|ds l c s0 t' e0 vs N B D NT W KN SN T R NE]; try (eapply K; [|exact C]; exact N); try (eapply A2; [|exact E]; exact N).
  - eapply K; [|exact C]. intros v [].
  - eapply A1; [exact N|exact E].
  - eapply A2; [|exact E]. apply no_errors_app. subst more. auto.
  - eapply K; [|exact C]. apply no_errors_app. subst more. auto.
  - eapply A1; [exact NE|exact E].
Qed.
Print Assumptions C79_stops_partial.
(** Otherwise the lexer is still built. *)
Definition one_language : list toplevel := [TOther; TLanguage (codes "L"%string); TParser (mkParser (codes "P"%string) (codes "L"%string) [codes "S"%string])].
Definition no_options : options := mkOptions [] [] [] [] [] [] false false false.
Theorem C79_late_refuted : exists reports unused o input es before s after, main reports (Some one_language) (fun _ => true) unused o (Some input) = (es, Exit 6) /\ es = before ++ Begin s :: after /\ In (Report 6) before.
Proof.
  exists (fun _ => Some []), (fun _ => [6]), no_options, [120]. eexists. exists [Begin ReadFile; Begin ImportFiles; Begin BuildLanguages; Report 6], (BuildLexer (codes "L"%string)), []. split; [vm_compute; reflexivity|]. split; [reflexivity|]. cbn. auto.
Qed.
Print Assumptions C79_late_refuted.

(** The parser block names language, class and start symbol; a warning of the parser stage does not matter. *)
Definition ex_reports (s : step) : option (list Z) := match s with BuildParser _ _ => Some [3; 2] | _ => Some [] end.
Example C79_nontrivial : let lang := codes "L"%string in let start := [codes "S"%string] in let t := CPlusPlus (codes "in"%string) (codes "P"%string) [] in
  wanted no_options one_language lang (codes "P"%string) start /\ target_for no_options (codes "in"%string) (codes "P"%string) t /\ ~ tests_only no_options /\
  Forall (silent ex_reports) (stages no_options lang start) /\
  main ex_reports (Some one_language) (fun _ => true) (fun _ => [3]) no_options (Some (codes "in"%string)) =
    ([Begin ReadFile; Begin ImportFiles; Begin BuildLanguages; Report 3; Begin (BuildLexer lang); Begin (BuildParser lang start); Report 3; Report 2; Begin (Generate t lang start)], Exit 0).
Proof.
  cbv zeta. split; [|split; [|split; [|split]]].
  - apply (wanted_named no_options one_language (codes "L"%string) (codes "P"%string) [codes "S"%string]); [|discriminate]. apply (named_block no_options one_language (mkParser (codes "P"%string) (codes "L"%string) [codes "S"%string]) (codes "P"%string)); reflexivity.
  - apply target_cplusplus; [reflexivity|left; reflexivity|reflexivity].
  - intros (X & _). discriminate X.
  - repeat constructor; eexists; (split; [reflexivity|]); repeat constructor; lia.
  - vm_compute. reflexivity.
Qed.
(** An error in an imported file ends the program; with two languages and no block there is nothing to build;
    tests alone are run if nothing else is asked for. *)
Example C79_ends_early :
  main (fun s => match s with ImportFiles => Some [5; 3] | _ => Some [] end) (Some one_language) (fun _ => true) (fun _ => []) no_options (Some []) = ([Begin ReadFile; Begin ImportFiles; Report 5; Report 3], Exit 5) /\
  main (fun _ => Some []) (Some [TLanguage [65]; TLanguage [66]]) (fun _ => true) (fun _ => []) no_options (Some []) = ([Begin ReadFile; Begin ImportFiles; Begin BuildLanguages; Report 4], Exit 4) /\
  main (fun _ => Some []) (Some one_language) (fun _ => true) (fun _ => []) (mkOptions [76] [] [] [] [] [] true false false) (Some []) = ([Begin ReadFile; Begin ImportFiles; Begin RunTests], Exit 0).
Proof. vm_compute. auto. Qed.

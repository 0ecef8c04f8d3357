(** C94: what the console shows of the messages reported, and its exit code. *)
From Coq Require Import String.
From Verif Require Import Base NamesModel NamesProofs ConsoleModel ConsoleSpec ConsoleProofs.
Local Open Scope string_scope.
Local Open Scope list_scope.
Local Open Scope Z_scope.

(** Every problem is written to the error stream, in order and once, as a line of the form described, except warnings if these are suppressed;
    remarks go to the output stream, if this was asked for. *)
Theorem C94_shown : forall o ms, exists err out,
  picks (fun m => problem (m_sev m) /\ (o_suppress_warnings o = true -> m_sev m <> SevWarning)) ms err /\
  picks (fun m => remark (m_sev m) /\ o_verbose o = true /\ o_suppress_warnings o = false) ms out /\
  (exists lines, Forall2 line_text (map (told (o_show_codes o)) err) lines /\ c_err (report_all o ms) = concat lines) /\
  (exists lines, Forall2 line_text (map (told (o_show_codes o)) out) lines /\ c_out (report_all o ms) = concat lines).
Proof.
  intros o ms. destruct (report_lemma o ms new_console) as (err & out & PE & PO & E & O). fold (report_all o ms) in E, O. exists err, out. split; [exact PE|]. split; [exact PO|].
  rewrite E, O. split; apply shown_lemma.
Qed.
Print Assumptions C94_shown.

(** The text of the error stream determines what was shown: files, lines, columns, severities, identifiers if
    they are shown, and descriptions.  Missing: texts with line ends, names of files with ": " in them, and
    identifiers with a closing bracket. *)
Theorem C94_read_partial : forall o ms1 ms2 err1 err2, Forall plain ms1 -> Forall plain ms2 ->
  let P := fun m => problem (m_sev m) /\ (o_suppress_warnings o = true -> m_sev m <> SevWarning) in
  picks P ms1 err1 -> picks P ms2 err2 -> c_err (report_all o ms1) = c_err (report_all o ms2) ->
  map (told (o_show_codes o)) err1 = map (told (o_show_codes o)) err2.
Proof.
  intros o ms1 ms2 err1 err2 F1 F2 P P1 P2 E. destruct (report_lemma o ms1 new_console) as (e1 & _ & Q1 & _ & T1 & _), (report_lemma o ms2 new_console) as (e2 & _ & Q2 & _ & T2 & _). fold (report_all o ms1) in T1. fold (report_all o ms2) in T2. cbn [c_err new_console app] in T1, T2.
  rewrite (picks_same _ _ _ _ P1 Q1), (picks_same _ _ _ _ P2 Q2). rewrite T1, T2 in E.
  pose proof (picks_from _ _ _ _ Q1 F1) as G1. pose proof (picks_from _ _ _ _ Q2 F2) as G2. apply lines_split in E; [|exact G1|exact G2].
  apply picks_all in Q1, Q2. clear P1 P2 T1 T2 F1 F2. induction E as [|a b l k E _ IH]; [reflexivity|].
  apply Forall_cons_iff in G1 as (GA & G1). apply Forall_cons_iff in G2 as (GB & G2). apply Forall_cons_iff in Q1 as ((SA & _) & Q1). apply Forall_cons_iff in Q2 as ((SB & _) & Q2).
  cbn [map]. f_equal; [|apply IH; assumption]. destruct (line_split _ a b GA GB E) as ((A & B & C) & R). destruct (rest_told _ a b GA GB SA SB R) as (S & I & T).
  unfold told. rewrite A, B, C, S, T. destruct (o_show_codes o); [rewrite I by reflexivity|]; reflexivity.
Qed.
Print Assumptions C94_read_partial.

(** The exit code is the severity of the last message that is serious, and 0 exactly if there is none. *)
Theorem C94_exit : forall o ms, last_serious ms (c_exit (report_all o ms)) /\ (c_exit (report_all o ms) = 0 <-> forall m, In m ms -> ~ serious (m_sev m)).
Proof.
  intros o ms. destruct (exit_lemma o ms new_console) as [[E N]|(a & m & b & -> & S & N & E)]; fold (report_all o ms) in E || fold (report_all o (a ++ m :: b)) in E.
  - split; [left; split; [exact E|exact N]|]. split; [intros _; exact N|intros _; exact E].
  - split; [right; exists a, m, b; auto|]. split.
    + intros Z0. rewrite Z0 in E. destruct S as [S|[S|S]]; rewrite S in E; discriminate E.
    + intros X. exfalso. apply (X m); [apply in_app_iff; right; left; reflexivity|exact S].
Qed.
Print Assumptions C94_exit.

(** The exit code does not depend on the options. *)
Theorem C94_options : forall o1 o2 ms, c_exit (report_all o1 ms) = c_exit (report_all o2 ms).
Proof.
  intros o1 o2 ms. unfold report_all.
  enough (K : forall c1 c2, c_exit c1 = c_exit c2 -> c_exit (fold_left (fun c m => report_error o1 m c) ms c1) = c_exit (fold_left (fun c m => report_error o2 m c) ms c2)) by (apply K; reflexivity).
  induction ms as [|m ms IH]; intros c1 c2 E; [exact E|]. cbn [fold_left]. apply IH.
  destruct (report_cases o1 m c1) as (_ & _ & [[A ->]|[A ->]]), (report_cases o2 m c2) as (_ & _ & [[B ->]|[B ->]]); try contradiction; auto.
Qed.
Print Assumptions C94_options.

(** Suppressing warnings hides the warnings and the details about them, and nothing else, if no warning has
    details and remarks are not asked for.  Missing: the other cases, in which this is false. *)
Theorem C94_suppress_partial : forall codes ms, (forall a w d b, ms = a ++ w :: d :: b -> m_sev w = SevWarning -> m_sev d <> SevDetail) ->
  let quiet := mkSettings true codes false in let normal := mkSettings false codes false in
  c_err (report_all quiet ms) = c_err (report_all normal (without_warnings false ms)) /\ c_out (report_all quiet ms) = c_out (report_all normal (without_warnings false ms)).
Proof.
  intros codes ms H quiet normal.
  assert (SH : forall m, show_message quiet m = show_message normal m) by (intros m; reflexivity).
  enough (K : forall ms h c1 c2, (forall a w d b, ms = a ++ w :: d :: b -> m_sev w = SevWarning -> m_sev d <> SevDetail) -> (h = true -> match ms with m :: _ => m_sev m <> SevDetail | [] => True end) ->
    c_err c1 = c_err c2 -> c_out c1 = c_out c2 ->
    c_err (fold_left (fun c m => report_error quiet m c) ms c1) = c_err (fold_left (fun c m => report_error normal m c) (without_warnings h ms) c2) /\
    c_out (fold_left (fun c m => report_error quiet m c) ms c1) = c_out (fold_left (fun c m => report_error normal m c) (without_warnings h ms) c2)).
  { apply K; [exact H|discriminate|reflexivity|reflexivity]. }
  clear ms H. induction ms as [|m ms IH]; intros h c1 c2 H HH E1 E2; [auto|]. cbn [fold_left without_warnings].
  assert (HT : forall a w d b, ms = a ++ w :: d :: b -> m_sev w = SevWarning -> m_sev d <> SevDetail) by (intros a w d b ->; apply (H (m :: a) w d b); reflexivity).
  assert (HN : m_sev m = SevWarning -> match ms with x :: _ => m_sev x <> SevDetail | [] => True end) by (intros W; destruct ms as [|x ms]; [exact Logic.I|]; apply (H [] m x ms); [reflexivity|exact W]).
  destruct (m_sev m) eqn:S.
  3: destruct h; [exfalso; apply (HH eq_refl); reflexivity|].
  4: { apply IH; [exact HT|intros _; apply HN; reflexivity| |]; unfold report_error; rewrite S; cbn; assumption. }
  all: cbn [fold_left]; apply IH; [exact HT|discriminate| |]; unfold report_error; rewrite S; cbn; rewrite ?SH, ?E1, ?E2; reflexivity.
Qed.
Print Assumptions C94_suppress_partial.

Definition warn := mkMessage SevWarning (codes "g.tp") (codes "UNUSED") (codes "Unused symbol") 11 2.
Definition about := mkMessage SevDetail (codes "g.tp") (codes "SEE") (codes "Defined here") 3 0.
Definition info := mkMessage SevInfo (codes "g.tp") (codes "INFERRED_LANGUAGE") (codes "Language: x") (-1) (-1).
Definition fail := mkMessage SevError (codes "C:\g.tp") (codes "MISSING") (codes "Missing: x") 0 0.
Definition bug := mkMessage SevBug [] (codes "BUG") (codes "Malfunction") (-1) (-1).

(** The details of a warning that was suppressed are shown. *)
Theorem C94_details_refuted : exists ms, c_err (report_all (mkSettings true false false) ms) = codes "g.tp:4:1:     Defined here" ++ [10] /\ without_warnings false ms = [].
Proof. exists [warn; about]. split; reflexivity. Qed.
Print Assumptions C94_details_refuted.

(** Suppressing warnings hides remarks that were asked for. *)
Theorem C94_remarks_refuted : exists ms, c_out (report_all (mkSettings true false true) ms) = [] /\ c_out (report_all (mkSettings false false true) ms) = codes "g.tp::: Language: x" ++ [10] /\ without_warnings false ms = ms.
Proof. exists [info]. repeat split; reflexivity. Qed.
Print Assumptions C94_remarks_refuted.

(** The exit code is not that of the worst message. *)
Theorem C94_worst_refuted : exists ms m, In m ms /\ m_sev m = SevBug /\ forall o, c_exit (report_all o ms) = sev_number SevError.
Proof. exists [bug; fail], bug. split; [left; reflexivity|]. split; [reflexivity|]. intros o. rewrite (C94_options o (mkSettings false false false)). reflexivity. Qed.
Print Assumptions C94_worst_refuted.

(** Not every text can be read back: one message may look like two, and a name of a file like a message. *)
Theorem C94_forged_refuted : exists m1 m2 m3, c_err (report_all (mkSettings false false false) [m1]) = c_err (report_all (mkSettings false false false) [m2; m3]) /\
  serious (m_sev m1) /\ serious (m_sev m2) /\ serious (m_sev m3).
Proof.
  exists (mkMessage SevError (codes "a") [] (codes "x" ++ 10 :: codes "b:2:2: error: y") 0 0), (mkMessage SevError (codes "a") [] (codes "x") 0 0), (mkMessage SevError (codes "b") [] (codes "y") 1 1).
  repeat split; try (left; reflexivity).
Qed.
Print Assumptions C94_forged_refuted.
Theorem C94_file_refuted : exists m1 m2, c_err (report_all (mkSettings false false false) [m1]) = c_err (report_all (mkSettings false false false) [m2]) /\
  m_file m1 <> m_file m2 /\ place (m_line m1) <> place (m_line m2) /\ serious (m_sev m1) /\ serious (m_sev m2).
Proof.
  exists (mkMessage SevError (codes "a") [] (codes "b:2:2: error: y") 0 0), (mkMessage SevError (codes "a:1:1: error: b") [] (codes "y") 1 1).
  repeat split; try (left; reflexivity); discriminate.
Qed.
Print Assumptions C94_file_refuted.

(** The conditions hold for messages with a drive in the name of the file and colons in the text. *)
Example C94_nontrivial : Forall plain [warn; about; fail; bug] /\
  c_err (report_all (mkSettings false true false) [warn; about; fail; bug]) =
    codes "g.tp:12:3: warning: [UNUSED] Unused symbol" ++ [10] ++ codes "g.tp:4:1:     [SEE] Defined here" ++ [10] ++
    codes "C:\g.tp:1:1: error: [MISSING] Missing: x" ++ [10] ++ codes "::: compiler failure: [BUG] Malfunction" ++ [10] /\
  c_exit (report_all (mkSettings false true false) [warn; about; fail; bug]) = 6 /\
  (forall a w d b, [warn; fail; about] = a ++ w :: d :: b -> m_sev w = SevWarning -> m_sev d <> SevDetail) /\ without_warnings false [warn; fail; about] = [fail; about].
Proof.
  split; [|split; [reflexivity|split; [reflexivity|split; [|reflexivity]]]].
  - assert (N : forall s, (fix f (s : str) := match s with 58 :: ((32 :: _) as t) => true | _ :: t => f t | [] => false end) s = false -> ~ has_pair 58 32 s).
    { intros s E (a & b & ->). induction a as [|x a IH]; [discriminate E|]. apply IH. cbn [app] in E.
      destruct (Z.eq_dec x 58) as [->|NE].
      - destruct (a ++ 58 :: 32 :: b) as [|y t]; [exact E|]. destruct (Z.eq_dec y 32) as [->|NY]; [discriminate E|]. destruct y as [|p|p]; try exact E. do 6 (destruct p as [p|p|]; try exact E); congruence.
      - destruct x as [|p|p]; try exact E. do 6 (destruct p as [p|p|]; try exact E); congruence. }
    repeat constructor; try (apply N; reflexivity); vm_compute; intros H; repeat (destruct H as [H|H]; [discriminate H|]); exact H.
  - intros a w d b E W. destruct a as [|x [|y [|z a]]]; cbn in E; injection E; intros; subst; try discriminate. destruct a; discriminate.
Qed.

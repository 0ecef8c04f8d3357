(** C77: running the tests of a language file. *)
From Coq Require Import String.
From Verif Require Import Base OrdMap TermDictModel NamesModel TestModel TestSpec TestProofs.
Local Open Scope Z_scope.

(** Where the stage comes to its end, each block of a known
    language with a lexer has a line for each of its tests but those with missing files, with the right verdict
    and a name of its own, and a summary with the right counts; an error is reported, and the exit code not
    zero, if and only if there are no test blocks, a language is not known or a test does not have the verdict
    true.  Missing from the full property: that the stage comes to its end (see C77_ends). *)
Theorem C77_tests_partial : forall known has_lexer parser file_text defs es,
  TestModel.compile known has_lexer parser file_text defs = Done es ->
  let accepts := accepted_by parser in
  let blocks := flat_map (fun d => match d with Some b => [b] | None => [] end) defs in
  let run := filter (fun b => known (b_language b) && has_lexer (b_language b)) blocks in
  Forall2 (fun b x => fst x = b_language b /\ map snd (snd x) = verdicts accepts file_text b /\ NoDup (map fst (snd x)) /\
                      Forall2 (named (b_language b)) (tests_run accepts file_text b) (map fst (snd x))) run (lines_of es) /\
  summaries_of es = map (fun b => (b_language b, passes (verdicts accepts file_text b), length (verdicts accepts file_text b))) run /\
  ((exists r, In r (reports_of es) /\ is_error r) <->
   blocks = [] \/ (exists b, In b blocks /\ known (b_language b) = false) \/ (exists b t, In b run /\ In t (b_tests b) /\ verdict accepts file_text (b_language b) t <> Some true)) /\
  (exit_code (reports_of es) = 0 <-> ~ exists r, In r (reports_of es) /\ is_error r).
Proof.
  intros known has_lexer parser file_text defs es E. cbv zeta. unfold TestModel.compile in E. set (blocks := flat_map _ defs) in *.
  destruct (run_blocks known has_lexer parser file_text [] blocks) as [e1|?|?] eqn:R; try discriminate E. injection E as <-. destruct (run_blocks_ok _ _ _ _ _ _ _ R) as (new & -> & A & B & C). cbn [app].
  rewrite lines_app, summaries_app. assert (L : lines_of (match blocks with [] => [Report NoTestBlocks] | _ => [] end) = [] /\ summaries_of (match blocks with [] => [Report NoTestBlocks] | _ => [] end) = []) by (destruct blocks; split; reflexivity).
  destruct L as [-> ->]. rewrite !app_nil_r. split; [exact A|]. split; [exact B|]. split; [|apply exit_code_ok].
  change (says_error (new ++ match blocks with [] => [Report NoTestBlocks] | _ => [] end) <-> blocks = [] \/ (exists b, In b blocks /\ known (b_language b) = false) \/
    (exists b t, In b (filter (runnable known has_lexer) blocks) /\ In t (b_tests b) /\ verdict (accepted_by parser) file_text (b_language b) t <> Some true)).
  rewrite says_app, C. clear. split.
  - intros [(b & I & [W|(W & t & J & T)])|X].
    + right. left. exists b. auto.
    + right. right. exists b, t. split; [apply filter_In; auto|auto].
    + left. destruct blocks; [reflexivity|destruct X as (r & [] & _)].
  - intros [->|[(b & I & W)|(b & t & I & J & T)]].
    + right. exists NoTestBlocks. cbn. auto.
    + left. exists b. split; [exact I|left; exact W].
    + left. apply filter_In in I. exists b. split; [apply I|]. right. split; [apply I|]. exists t. auto.
Qed.
Print Assumptions C77_tests_partial.

(** The stage comes to its end if the nonterminals of the tests that are run are defined and the names of the
    tests are not longer than 54 characters, whatever number not above that of the tests is put to them. *)
Theorem C77_ends : forall known has_lexer parser file_text defs,
  (forall b t, In (Some b) defs -> In t (b_tests b) -> known (b_language b) = true -> parser (b_language b) (t_nonterminal t) <> None) ->
  (forall b t k, In (Some b) defs -> In t (b_tests b) -> (k <= length (b_tests b))%nat ->
    (length (b_language b) + 1 + length (match t_identifier t with [] => t_nonterminal t | i => i end) + 1 + length (digits k) <= 54)%nat) ->
  exists es, TestModel.compile known has_lexer parser file_text defs = Done es.
Proof.
  intros known has_lexer parser file_text defs P L. unfold TestModel.compile. set (blocks := flat_map _ defs).
  assert (K : forall b, In b blocks -> In (Some b) defs). { intros b I. apply in_flat_map in I. destruct I as ([x|] & I & X); [destruct X as [->|[]]; exact I|destruct X]. }
  destruct (run_blocks_done known has_lexer parser file_text blocks) with (es := @nil event) as (es & ->).
  - intros b t I R J _. apply andb_prop in R. split; [apply (P b t); [auto|exact J|apply R]|]. intros k KL. specialize (L b t k (K b I) J KL). unfold base_name. rewrite !app_length. change (length (codes ".")) with 1%nat. lia.
  - eexists. reflexivity.
Qed.
Print Assumptions C77_ends.

(** Tests of two languages: the file [b.txt] is there, [c.txt] is not. *)
Definition tests_parser (l n : str) : option (str -> bool) :=
  if str_eq_dec n (codes "<as>") then Some (fun text => forallb (fun c => c =? 97) text) else if str_eq_dec n (codes "<b>") then Some (fun text => if str_eq_dec text (codes "b") then true else false) else None.
Definition tests_file (f : str) : option str := if str_eq_dec f (codes "b.txt") then Some (codes "b") else None.
Definition tests_defs : list (option block) :=
  [None; Some (mkBlock (codes "letters") [mkTest Match (codes "<as>") [] (codes "aaa"); mkTest NoMatch (codes "<as>") [] (codes "aba"); mkTest FromFile (codes "<b>") (codes "file") (codes "b.txt"); mkTest Match (codes "<b>") [] (codes "a")]);
   Some (mkBlock (codes "others") []); Some (mkBlock (codes "letters") [mkTest FromFile (codes "<b>") [] (codes "c.txt")])]%string.
Example C77_nontrivial : exists es, TestModel.compile (fun l => if str_eq_dec l (codes "letters") then true else false) (fun _ => true) tests_parser tests_file tests_defs = Done es /\
  lines_of es = [(codes "letters", [(codes "letters.<as>.1", true); (codes "letters.<as>.2", true); (codes "letters.file.1", true); (codes "letters.<b>.1", false)]); (codes "letters", [])]%string /\
  summaries_of es = [(codes "letters", 3%nat, 4%nat); (codes "letters", O, O)]%string /\
  reports_of es = [ThisTestFailed; FailurePosition; TestsFailed 1 (codes "letters"); CantFindLanguage (codes "others"); TestFileNotFound (codes "c.txt"); NoTestsToRun]%string /\ exit_code (reports_of es) = 4.
Proof. eexists. split; [vm_compute; reflexivity|]. repeat split; vm_compute; reflexivity. Qed.
Example C77_ends_nontrivial : forall b t, In (Some b) tests_defs -> In t (b_tests b) -> tests_parser (b_language b) (t_nonterminal t) <> None /\
  forall k, (k <= length (b_tests b))%nat -> (length (b_language b) + 1 + length (match t_identifier t with [] => t_nonterminal t | i => i end) + 1 + length (digits k) <= 54)%nat.
Proof.
  intros b t B T. unfold tests_defs in B. cbn [In] in B.
  repeat (destruct B as [B|B]; [try discriminate B; injection B as <-; cbn [b_tests In] in T; repeat (destruct T as [<-|T]; [split; [vm_compute; discriminate|]; intros k K; cbn [b_tests length] in K; do 5 (destruct k as [|k]; [vm_compute; repeat constructor|]); lia|]); destruct T|]). destruct B.
Qed.

(** A language with a long name: there is an exception at the first test, whatever its result. *)
Theorem C77_long_name_refuted : exists b, TestModel.compile (fun _ => true) (fun _ => true) (fun _ _ => Some (fun _ => true)) (fun _ => None) [Some b] = Thrown [] /\
  verdicts (fun _ _ _ => true) (fun _ => None) b = [true].
Proof. exists (mkBlock (repeat 97 40) [mkTest Match (repeat 98 20) [] []]). split; vm_compute; reflexivity. Qed.
Print Assumptions C77_long_name_refuted.
(** A test for a nonterminal that is not defined: the stage crashes, also after tests that passed. *)
Theorem C77_undefined_refuted : exists defs, TestModel.compile (fun _ => true) (fun _ => true) tests_parser tests_file defs = Crashed [] /\
  exists b t ts, defs = [Some b] /\ b_tests b = t :: ts /\ verdict (accepted_by tests_parser) tests_file (b_language b) t = Some true.
Proof.
  exists [Some (mkBlock (codes "letters") [mkTest Match (codes "<as>") [] (codes "a"); mkTest Match (codes "<c>") [] (codes "a")])]%string. split; [vm_compute; reflexivity|]. do 3 eexists. split; [reflexivity|]. split; [reflexivity|]. vm_compute. reflexivity.
Qed.
Print Assumptions C77_undefined_refuted.


(** Proofs about running the tests of a language file. *)
From Coq Require Import String.
From Verif Require Import Base OrdMap TermDictModel GrammarProofs NamesModel NamesProofs TestModel TestSpec.
Local Open Scope Z_scope.

(** A name with a number after a full stop can be taken apart in one way only. *)
Lemma dot_split (a b : str) n m : a ++ 46 :: digits n = b ++ 46 :: digits m -> a = b /\ n = m.
Proof.
  intros E. assert (K : forall (a b u v : str), a ++ 46 :: u = b ++ 46 :: v -> (forall c, In c u -> 48 <= c <= 57) -> (forall c, In c v -> 48 <= c <= 57) -> a = b /\ u = v).
  { clear. induction a as [|x a IH]; intros [|y b] u v E U V; cbn in E.
    - injection E as ->. auto.
    - exfalso. injection E as <- ->. specialize (U 46). rewrite in_app_iff in U. cbn in U. lia.
    - exfalso. injection E as -> <-. specialize (V 46). rewrite in_app_iff in V. cbn in V. lia.
    - injection E as -> E. destruct (IH _ _ _ E U V) as [-> ->]. auto. }
  destruct (K _ _ _ _ E (digits_digit n) (digits_digit m)) as [-> D]. split; [reflexivity|]. apply digits_inj, D.
Qed.

(** ** The exit code *)
Lemma exit_code_from rs : forall c, 0 <= c -> 0 <= fold_left (fun c r => if 4 <=? severity r then severity r else c) rs c /\
  (fold_left (fun c r => if 4 <=? severity r then severity r else c) rs c = 0 <-> c = 0 /\ ~ exists r, In r rs /\ is_error r).
Proof.
  induction rs as [|r rs IH]; intros c C; cbn [fold_left].
  - split; [exact C|]. split; [intros ->; split; [reflexivity|intros (r & [] & _)]|tauto].
  - assert (D : 0 <= (if 4 <=? severity r then severity r else c)) by (destruct r; cbn; lia). destruct (IH _ D) as [A B]. split; [exact A|]. rewrite B.
    assert (K : (if 4 <=? severity r then severity r else c) = 0 <-> c = 0 /\ ~ is_error r) by (destruct r; cbn; intuition lia). rewrite K. split.
    + intros ((X & Y) & Z). split; [exact X|]. intros (q & [<-|I] & Q); [exact (Y Q)|apply Z; exists q; auto].
    + intros (X & Z). split; [split; [exact X|intros Q; apply Z; exists r; cbn; auto]|]. intros (q & I & Q). apply Z. exists q. cbn. auto.
Qed.
Lemma exit_code_ok rs : exit_code rs = 0 <-> ~ exists r, In r rs /\ is_error r.
Proof. unfold exit_code. destruct (exit_code_from rs 0 (Z.le_refl 0)) as [_ ->]. tauto. Qed.

(** ** What is on the console *)
Lemma lines_app a b : lines_of (a ++ b) = lines_of a ++ lines_of b. Proof. apply flat_map_app. Qed.
Lemma summaries_app a b : summaries_of (a ++ b) = summaries_of a ++ summaries_of b. Proof. apply flat_map_app. Qed.
Lemma reports_app a b : reports_of (a ++ b) = reports_of a ++ reports_of b. Proof. apply flat_map_app. Qed.
Lemma lines_reports rs : lines_of (map Report rs) = []. Proof. induction rs; [reflexivity|assumption]. Qed.
Lemma summaries_reports rs : summaries_of (map Report rs) = []. Proof. induction rs; [reflexivity|assumption]. Qed.
Lemma reports_reports rs : reports_of (map Report rs) = rs. Proof. induction rs; [reflexivity|]. cbn. f_equal. assumption. Qed.
Lemma passes_app a b : passes (a ++ b) = (passes a + passes b)%nat. Proof. unfold passes. rewrite filter_app, app_length. reflexivity. Qed.
Lemma passes_le vs : (passes vs <= length vs)%nat. Proof. unfold passes. induction vs as [|[] vs IH]; cbn; lia. Qed.
Lemma passes_all vs : passes vs = length vs <-> Forall (fun v => v = true) vs.
Proof.
  induction vs as [|v vs IH]; [split; [constructor|reflexivity]|]. pose proof (passes_le vs). unfold passes in *. destruct v; cbn.
  - split; [intros E; constructor; [reflexivity|apply IH; lia]|]. intros E. inversion E as [|? ? _ F]. apply IH in F. lia.
  - split; [intros E; lia|intros E; inversion E; discriminate].
Qed.

Section Tests.
  Context (known has_lexer : str -> bool) (parser : str -> str -> option (str -> bool)) (file_text : str -> option str).
  Local Notation accepts := (accepted_by parser).
  Local Notation verdict := (verdict accepts file_text).
  Local Notation run_test := (run_test parser file_text).
  Local Notation run_tests := (run_tests parser file_text).
  Local Notation run_block := (run_block known has_lexer parser file_text).
  Local Notation run_blocks := (run_blocks known has_lexer parser file_text).

  Definition id_of (base : str) (ids : list (str * nat)) : nat := match mfind name_ltb base ids with Some n => n | None => O end.
  (** The names of the lines so far have numbers up to the last given *)
  Record fine (ids : list (str * nat)) (lines : list (str * bool)) : Prop := {
    f_sorted : msorted name_ltb ids;
    f_distinct : NoDup (map fst lines);
    f_numbers : forall name, In name (map fst lines) -> exists base n, name = base ++ 46 :: digits n /\ (n <= id_of base ids)%nat }.

  Definition bad (l : str) (t : test) : Prop := verdict l t <> Some true.
  Lemma run_tests_ok l ts : forall st st', run_tests l st ts = Done st' -> fine (s_ids st) (s_lines st) ->
    fine (s_ids st') (s_lines st') /\ exists ls rs,
    s_lines st' = s_lines st ++ ls /\ s_events st' = s_events st ++ map Report rs /\
    map snd ls = verdicts accepts file_text (mkBlock l ts) /\ Forall2 (named l) (tests_run accepts file_text (mkBlock l ts)) (map fst ls) /\
    s_passed st' = (s_passed st + passes (map snd ls))%nat /\ (s_failed st' + passes (map snd ls) = s_failed st + length ls)%nat /\
    (forall r, In r rs -> is_error r -> exists t, In t ts /\ bad l t) /\ (forall t, In t ts -> verdict l t = None -> exists r, In r rs /\ is_error r).
  Proof.
    induction ts as [|t ts IH]; intros st st' E F; cbn [TestModel.run_tests] in E.
    - injection E as <-. split; [exact F|]. exists [], []. rewrite !app_nil_r. cbn. repeat split; try constructor; try lia; intros _ [].
    - destruct (run_test l st t) as [s1|es|es] eqn:R; try discriminate E.
      assert (K : fine (s_ids s1) (s_lines s1) /\ exists ls rs, s_lines s1 = s_lines st ++ ls /\ s_events s1 = s_events st ++ map Report rs /\
        ((verdict l t = None /\ ls = [] /\ s_passed s1 = s_passed st /\ s_failed s1 = s_failed st /\ exists r, In r rs /\ is_error r) \/
         (exists v name, verdict l t = Some v /\ ls = [(name, v)] /\ named l t name /\ s_passed s1 = (if v then S (s_passed st) else s_passed st) /\ s_failed s1 = (if v then s_failed st else S (s_failed st)) /\ (v = true -> rs = [])))).
      { clear IH E. unfold TestModel.run_test in R.
        assert (TV : verdict l t = match text_of file_text t with Some text => Some (match t_kind t with NoMatch => negb (accepts l (t_nonterminal t) text) | _ => accepts l (t_nonterminal t) text end) | None => None end)
          by (unfold TestSpec.verdict, text_of; destruct (t_kind t); reflexivity).
        destruct (text_of file_text t) as [text|].
        2:{ injection R as <-. cbn [s_ids s_lines s_events s_passed s_failed]. split; [exact F|]. exists [], [TestFileNotFound (t_string t)]. rewrite app_nil_r. split; [reflexivity|]. split; [reflexivity|]. left. split; [exact TV|]. repeat split. eexists. split; [left; reflexivity|exact I]. }
        unfold accepted_by in TV. destruct (parser l (t_nonterminal t)) as [f|]; [|discriminate R]. cbv zeta in R.
        set (v := match t_kind t with NoMatch => negb (f text) | _ => f text end) in *. set (base := base_name l t) in *. change (match mfind name_ltb base (s_ids st) with Some n => n | None => O end) with (id_of base (s_ids st)) in R.
        destruct (Nat.ltb 54 _); [discriminate R|]. injection R as <-. cbn [s_ids s_lines s_events s_passed s_failed]. change (codes "." ++ digits (S (id_of base (s_ids st)))) with (46 :: digits (S (id_of base (s_ids st)))).
        destruct F as [F1 F2 F3]. split.
        - constructor.
          + apply mset_sorted; [exact name_strict|exact F1].
          + rewrite map_app. cbn [map fst]. apply NoDup_Add with (a := base ++ 46 :: digits (S (id_of base (s_ids st)))) (l := map fst (s_lines st)); [rewrite <- (app_nil_r (map fst (s_lines st))) at 1; apply Add_app|]. split; [exact F2|].
            intros X. destruct (F3 _ X) as (b & n & Y & LE). apply dot_split in Y. destruct Y as [<- <-]. lia.
          + intros name X. rewrite map_app in X. apply in_app_iff in X. cbn [map fst In] in X. destruct X as [X|[<-|[]]].
            * destruct (F3 _ X) as (b & n & -> & LE). exists b, n. split; [reflexivity|]. destruct (list_eq_dec Z.eq_dec b base) as [->|NE]; unfold id_of in *.
              -- rewrite (mfind_mset_same name_ltb name_strict) by exact F1. lia.
              -- rewrite (mfind_mset_other name_ltb name_strict) by assumption. exact LE.
            * exists base. eexists. split; [reflexivity|]. unfold id_of. rewrite (mfind_mset_same name_ltb name_strict) by exact F1. reflexivity.
        - eexists. exists (if v then [] else failure t). split; [reflexivity|]. split; [destruct v; reflexivity|]. right. exists v. eexists. split; [exact TV|]. split; [reflexivity|]. split; [|repeat split; intros ->; reflexivity].
          exists (S (id_of base (s_ids st))). unfold base, base_name. rewrite <- !app_assoc. destruct (t_identifier t); reflexivity. }
      destruct K as (F1 & ls1 & rs1 & L1 & E1 & C). destruct (IH _ _ E F1) as (F2 & ls2 & rs2 & L2 & E2 & V & N & P & Q & A & B). split; [exact F2|].
      exists (ls1 ++ ls2), (rs1 ++ rs2). rewrite L2, L1, E2, E1, <- !app_assoc, <- map_app. split; [reflexivity|]. split; [reflexivity|].
      unfold verdicts, tests_run in *. cbn [b_language b_tests flat_map filter] in *. rewrite !map_app, !passes_app, app_length, <- V.
      destruct C as [(VN & -> & C1 & C2 & r & RI & RE)|(v & name & VS & -> & NM & C1 & C2 & C3)].
      + rewrite VN. cbn [map app length passes filter]. split; [reflexivity|]. split; [exact N|]. split; [unfold passes in *; cbn [filter length app map snd] in *; lia|]. split; [unfold passes in *; cbn [filter length app map snd] in *; lia|]. split.
        * intros q X Y. apply in_app_iff in X. destruct X as [X|X]; [exists t; split; [left; reflexivity|unfold bad; rewrite VN; discriminate]|]. destruct (A q X Y) as (u & U & W). exists u. cbn. auto.
        * intros u _ _. exists r. split; [apply in_app_iff; auto|exact RE].
      + rewrite VS. cbn [map app length fst snd]. split; [reflexivity|]. split; [constructor; [exact NM|exact N]|]. split; [rewrite P, C1; unfold passes in *; destruct v; cbn [filter length app map snd] in *; lia|]. split; [rewrite C2 in Q; unfold passes in *; destruct v; cbn [filter length app map snd] in *; lia|]. split.
        * intros q X Y. apply in_app_iff in X. destruct X as [X|X].
          -- exists t. split; [left; reflexivity|]. unfold bad. rewrite VS. intros H. injection H as ->. rewrite (C3 eq_refl) in X. destruct X.
          -- destruct (A q X Y) as (u & U & W). exists u. cbn. auto.
        * intros u [<-|U] W; [congruence|]. destruct (B u U W) as (q & X & Y). exists q. split; [apply in_app_iff; auto|exact Y].
  Qed.

  (** One block *)
  Definition runnable (b : block) : bool := known (b_language b) && has_lexer (b_language b).
  Definition line_ok (b : block) (x : str * list (str * bool)) : Prop :=
    fst x = b_language b /\ map snd (snd x) = verdicts accepts file_text b /\ NoDup (map fst (snd x)) /\ Forall2 (named (b_language b)) (tests_run accepts file_text b) (map fst (snd x)).
  Definition summary (b : block) : str * nat * nat := let vs := verdicts accepts file_text b in (b_language b, passes vs, length vs).
  Definition wrong (b : block) : Prop := known (b_language b) = false \/ runnable b = true /\ exists t, In t (b_tests b) /\ bad (b_language b) t.
  Definition says_error (es : list event) : Prop := exists r, In r (reports_of es) /\ is_error r.
  Lemma says_app a b : says_error (a ++ b) <-> says_error a \/ says_error b.
  Proof.
    unfold says_error. rewrite reports_app. split.
    - intros (r & I & E). apply in_app_iff in I. destruct I; [left|right]; exists r; auto.
    - intros [(r & I & E)|(r & I & E)]; exists r; (split; [apply in_app_iff; auto|exact E]).
  Qed.
  Lemma verdicts_in b v : In v (verdicts accepts file_text b) <-> exists t, In t (b_tests b) /\ verdict (b_language b) t = Some v.
  Proof.
    unfold verdicts. rewrite in_flat_map. split; intros (t & I & E); exists t; (split; [exact I|]).
    - destruct (verdict (b_language b) t); [destruct E as [->|[]]; reflexivity|destruct E].
    - rewrite E. left. reflexivity.
  Qed.
  Lemma run_block_ok es b es' : run_block es b = Done es' -> exists new, es' = es ++ new /\
    Forall2 line_ok (if runnable b then [b] else []) (lines_of new) /\ summaries_of new = (if runnable b then [summary b] else []) /\ (says_error new <-> wrong b).
  Proof.
    unfold TestModel.run_block, runnable, wrong. destruct (known (b_language b)) eqn:KN; cbn [andb].
    2:{ intros E. injection E as <-. eexists. split; [reflexivity|]. cbn. split; [constructor|]. split; [reflexivity|]. split; [auto|]. intros _. eexists. split; [left; reflexivity|exact I]. }
    destruct (has_lexer (b_language b)) eqn:HL.
    2:{ intros E. injection E as <-. exists []. rewrite app_nil_r. cbn. split; [reflexivity|]. split; [constructor|]. split; [reflexivity|]. unfold runnable. rewrite KN, HL. split; [intros (r & [] & _)|intros [X|[X _]]; discriminate X]. }
    destruct (run_tests (b_language b) (mkState [] [] 0 0 es) (b_tests b)) as [st|?|?] eqn:R; intros E; try discriminate E. cbv zeta in E. injection E as <-.
    destruct (run_tests_ok _ _ _ _ R) as (F & ls & rs & L & EV & V & N & P & Q & A & B). { constructor; cbn; [constructor|constructor|intros _ []]. }
    cbn [s_ids s_lines s_events s_passed s_failed app] in *. replace (mkBlock (b_language b) (b_tests b)) with b in * by (destruct b; reflexivity).
    rewrite EV, <- !app_assoc. eexists. split; [reflexivity|]. rewrite lines_app, summaries_app, lines_reports, summaries_reports, !says_app. cbn [app].
    assert (T : forall c (x y : list event), lines_of x = [] -> lines_of y = [] -> lines_of (if c : bool then x else y) = []) by (intros []; auto).
    assert (U : forall c (x y : list event), summaries_of x = [] -> summaries_of y = [] -> summaries_of (if c : bool then x else y) = []) by (intros []; auto).
    cbn [lines_of summaries_of flat_map app]. fold (lines_of). change (flat_map (fun e => match e with Lines _ l ls0 => [(l, ls0)] | _ => [] end)) with lines_of. change (flat_map (fun e => match e with Summary l p n => [(l, p, n)] | _ => [] end)) with summaries_of.
    rewrite lines_app, summaries_app, !T, !U by reflexivity. cbn [app]. split; [|split].
    - constructor; [|constructor]. split; [reflexivity|]. cbn [snd]. rewrite L. split; [exact V|]. split; [rewrite <- L; apply F|exact N].
    - f_equal. unfold summary. rewrite <- V, P, map_length. cbn [Nat.add]. do 2 f_equal. lia.
    - unfold wrong, runnable. rewrite KN, HL. split.
      + intros X. right. split; [reflexivity|]. destruct X as [(r & X & Y)|X].
        * rewrite reports_reports in X. exact (A r X Y).
        * assert (NF : s_failed st <> O).
          { intros Z. rewrite Z in X. cbn [Nat.eqb] in X. destruct X as (r & X & Y). unfold reports_of in X. destruct (Nat.eqb (s_passed st) 0); cbn in X; [destruct X as [<-|[]]; exact Y|exact X]. }
          assert (NV : ~ Forall (fun v => v = true) (map snd ls)). { rewrite <- passes_all, map_length. lia. }
          assert (DV : Forall (fun v => v = true) (map snd ls) \/ exists v, In v (map snd ls) /\ v = false).
          { clear. induction (map snd ls) as [|[] l [IH|(v & I & E)]]; [left; constructor|left; constructor; auto|right; exists v; cbn; auto|right; exists false; cbn; auto|right; exists v; cbn; auto]. }
          destruct DV as [DV|(v & IV & ->)]; [contradiction|]. rewrite V in IV. apply verdicts_in in IV. destruct IV as (t & I & E). exists t. split; [exact I|]. unfold bad. congruence.
      + intros [X|(_ & t & I & BT)]; [discriminate X|]. unfold bad in BT. destruct (verdict (b_language b) t) as [v|] eqn:VT.
        * right. assert (v = false) as -> by (destruct v; [congruence|reflexivity]). assert (NF : s_failed st <> O).
          { intros Z. assert (AL : Forall (fun v => v = true) (map snd ls)) by (apply passes_all; rewrite map_length; lia). rewrite V in AL. rewrite Forall_forall in AL. specialize (AL false). discriminate AL. apply verdicts_in. exists t. auto. }
          destruct (Nat.eqb (s_failed st) 0) eqn:Z; [apply Nat.eqb_eq in Z; contradiction|]. exists (TestsFailed (s_failed st) (b_language b)). split; [|exact Logic.I]. rewrite andb_false_r. cbn. auto.
        * left. destruct (B t I VT) as (r & X & Y). exists r. rewrite reports_reports. auto.
  Qed.
  Lemma run_blocks_ok bs : forall es es', run_blocks es bs = Done es' -> exists new, es' = es ++ new /\
    Forall2 line_ok (filter runnable bs) (lines_of new) /\ summaries_of new = map summary (filter runnable bs) /\ (says_error new <-> exists b, In b bs /\ wrong b).
  Proof.
    induction bs as [|b bs IH]; intros es es' E; cbn [TestModel.run_blocks] in E.
    - injection E as <-. exists []. rewrite app_nil_r. repeat split; [constructor|intros (r & [] & _)|intros (b & [] & _)].
    - destruct (run_block es b) as [e1|?|?] eqn:R; try discriminate E. destruct (run_block_ok _ _ _ R) as (n1 & -> & A1 & B1 & C1). destruct (IH _ _ E) as (n2 & -> & A2 & B2 & C2).
      exists (n1 ++ n2). rewrite app_assoc, lines_app, summaries_app, says_app, B1, B2, C1, C2. split; [reflexivity|]. cbn [filter]. split; [|split].
      + destruct (runnable b); [apply (Forall2_app A1 A2)|inversion A1; exact A2].
      + destruct (runnable b); reflexivity.
      + split; [intros [W|(x & I & W)]; [exists b|exists x]; cbn; auto|intros (x & [<-|I] & W); [auto|right; exists x; auto]].
  Qed.

  (** No exception and no crash *)
  Definition can_run (l : str) (n : nat) (t : test) : Prop :=
    text_of file_text t <> None -> parser l (t_nonterminal t) <> None /\ forall k, (k <= n)%nat -> (length (base_name l t) + 1 + length (digits k) <= 54)%nat.
  Lemma run_tests_done l ts : forall st n, (forall t, In t ts -> can_run l (n + length ts) t) -> (forall base, id_of base (s_ids st) <= n)%nat -> msorted name_ltb (s_ids st) -> exists st', run_tests l st ts = Done st'.
  Proof.
    induction ts as [|t ts IH]; intros st n C LE SO; cbn [TestModel.run_tests]; [eexists; reflexivity|]. pose proof (C t (or_introl eq_refl)) as CT. cbn [length] in C. rewrite <- Nat.add_succ_comm in C.
    unfold TestModel.run_test. destruct (text_of file_text t) as [text|] eqn:T.
    - destruct CT as [P LN]; [rewrite T; discriminate|]. destruct (parser l (t_nonterminal t)) as [f|]; [|congruence]. cbv zeta. set (base := base_name l t) in *. change (match mfind name_ltb base (s_ids st) with Some k => k | None => O end) with (id_of base (s_ids st)).
      pose proof (LE base) as LB. destruct (Nat.ltb 54 _) eqn:LT.
      + apply Nat.ltb_lt in LT. specialize (LN (S (id_of base (s_ids st)))). rewrite !app_length in LT. cbn [codes length] in LT. change (length (codes ".")) with 1%nat in LT. cbn [length] in LN. lia.
      + apply (IH _ (S n)); [intros u U; apply C; right; exact U| |cbn; apply mset_sorted; [exact name_strict|exact SO]].
        intros b. cbn [s_ids]. destruct (list_eq_dec Z.eq_dec b base) as [->|NE]; unfold id_of in *; [rewrite (mfind_mset_same name_ltb name_strict) by exact SO; lia|rewrite (mfind_mset_other name_ltb name_strict) by assumption; specialize (LE b); lia].
    - apply (IH _ (S n)); [intros u U; apply C; right; exact U|intros b; cbn [s_ids]; specialize (LE b); lia|exact SO].
  Qed.
  Lemma run_blocks_done bs : (forall b t, In b bs -> runnable b = true -> In t (b_tests b) -> can_run (b_language b) (length (b_tests b)) t) -> forall es, exists es', run_blocks es bs = Done es'.
  Proof.
    induction bs as [|b bs IH]; intros C es; cbn [TestModel.run_blocks]; [eexists; reflexivity|].
    assert (K : exists es', run_block es b = Done es').
    { unfold TestModel.run_block. pose proof (fun t => C b t (or_introl eq_refl)) as CB. unfold runnable in CB. destruct (known (b_language b)); [|eexists; reflexivity]. destruct (has_lexer (b_language b)); [|eexists; reflexivity].
      destruct (run_tests_done (b_language b) (b_tests b) (mkState [] [] 0 0 es) 0) as (st & ->); [intros t I; apply CB; [reflexivity|exact I]|intros base; cbn; lia|constructor|]. eexists. reflexivity. }
    destruct K as (e1 & ->). apply IH. intros b' t I. apply C. right. exact I.
  Qed.
End Tests.

(** C93: the functions that make parsers for the start symbols. *)
From Coq Require Import String.
From Verif Require Import Base OrdMap GrammarModel GrammarProofs FirstModel FirstSpec FirstProofs FirstProps FollowSpec FollowProofs FollowProps LrItemModel LrItemProofs ClosureModel ClosureSpec ClosureProofs ClosureProps MachineModel BuilderModel BuilderSpec BuilderProps ActionModel ActionSpec ActionProps TableModel TableProofs TableProps RunModel RunSpec RunProps RunTool RunFuelProofs RewriteModel RewriteSpec RewriteProps ConflictModel ConflictSpec ConflictProps CompleteProps TerminateProps StageModel StageSpec StageProofs StageProps NamesModel NamesSpec NamesProofs NamesProps StartFunModel StartFunSpec StartFunProofs.
Local Open Scope Z_scope.

(** The name of the functions for a start symbol *)
Definition function_for (start : str) : str := codes "create_"%string ++ get_identifier start.

(** The n-th start symbol starts in state n, for each n, exactly if no start symbol is given twice. *)
Theorem C93_states : forall rid first_of rules busy sources can_clash o rewriters fuel languages ms d, injective rid ->
  make_parser rid first_of rules busy sources can_clash o rewriters fuel languages = Some (ms, d) ->
  (NoDup languages <-> forall n, (n < length languages)%nat -> nth_error (d_initial d) n = Some (Z.of_nat n)).
Proof.
  intros rid first_of rules busy sources can_clash o rewriters fuel languages ms d RI. unfold make_parser. destruct (complete_parser _ _ _ _ _ _ _ _ _) as [[[[m g] p] c]|]; [|discriminate]. destruct (find_conflicts _ _ _ _ _ _ _ _ _ _) as [[found c1]|]; [|discriminate].
  destruct (all_actions _ _ _ _ _ _ _ _ _ _) as [[actss c2]|]; [|discriminate]. intros H. injection H as <- <-. cbn [d_initial]. rewrite (initial_states_lemma rid RI languages).
  assert (LEN : forall ls m0, length (initial_states rid ls m0) = length ls) by (induction ls as [|l ls IH]; intros m0; cbn [initial_states]; [reflexivity|]; destruct (add_initial_state rid l m0); cbn [length]; rewrite IH; reflexivity). split.
  - intros -> n L. rewrite nth_error_map. rewrite (nth_error_nth' (seq 0 (length languages)) 0%nat) by (rewrite seq_length; exact L). rewrite seq_nth by exact L. reflexivity.
  - intros H. apply nth_error_same. intros n. destruct (Nat.lt_ge_cases n (length languages)) as [L|L].
    + rewrite (H n L), nth_error_map, (nth_error_nth' (seq 0 (length languages)) 0%nat) by (rewrite seq_length; exact L). rewrite seq_nth by exact L. reflexivity.
    + rewrite (proj2 (nth_error_None _ n)) by (rewrite LEN; exact L). symmetry. apply nth_error_None. rewrite map_length, seq_length. exact L.
Qed.
Print Assumptions C93_states.

(** The functions are valid (no function is defined twice) exactly if the start symbols have different
    identifiers. *)
Theorem C93_valid : forall starts, one_definition (header_start_symbols starts) <-> NoDup (map get_identifier starts).
Proof. exact one_definition_lemma. Qed.
Print Assumptions C93_valid.

(** No function has the name of a class of a syntax tree, of the class of the language or of one of its
    members, and all names are identifiers. *)
Theorem C93_names : forall terminal_name nonterminal_name ident language items names st starts f,
  class_names_for terminal_name nonterminal_name ident items (mkClasses [] (reserved language)) = Some (names, st) -> In f (header_start_symbols starts) ->
  valid_identifier (cr_name f) /\ ~ In (cr_name f) (reserved language) /\
  forall n i s x, nth_error items n = Some i -> nth_error names n = Some s -> In x (classes_of i s) -> cr_name f <> x.
Proof.
  intros tn nn ident language items names st starts f E I. apply in_creators in I as (k & s0 & _ & I). apply for_name in I. rewrite I. split; [|split].
  - change (creator_name s0) with ([99; 114; 101; 97; 116; 101; 95] ++ get_identifier s0). split; [lia|]. apply Forall_app. split; [apply chars_ok; reflexivity|]. pose proof (C70_identifier s0) as V. destruct (get_identifier s0); [destruct V|apply V].
  - unfold reserved, creator_name. cbn [In]. intros X. repeat (destruct X as [X|X]; [discriminate X|]). destruct X as [X|[]]. destruct language as [|c language]; discriminate X.
  - intros n i s x NI NS X. assert (Y : exists rest, s = codes "yy_"%string ++ rest).
    { clear X I. assert (INV : forall items st names st', (forall z t, In (z, t) (cn_items st) -> exists rest, t = codes "yy_"%string ++ rest) -> class_names_for tn nn ident items st = Some (names, st') -> Forall (fun s => exists rest, s = codes "yy_"%string ++ rest) names).
      { clear. induction items as [|i items IH]; intros st names st' IV H; cbn [class_names_for] in H; [injection H as <- _; constructor|]. destruct (class_name tn nn ident i st) as [[s st1]|] eqn:C; [|discriminate]. destruct (class_names_for tn nn ident items st1) as [[ss st2]|] eqn:R; [|discriminate]. injection H as <- _.
        unfold class_name in C. destruct (lookup (ident i) (cn_items st)) as [t|] eqn:L.
        - injection C as <- <-. constructor; [|eapply IH; eassumption]. assert (IN : exists z, In (z, t) (cn_items st)). { clear -L. induction (cn_items st) as [|[z t'] l IHl]; [discriminate L|]. cbn in L. destruct (z =? ident i); [injection L as <-; exists z; left; reflexivity|]. destruct (IHl L) as (z' & X). exists z'. right. exact X. }
          destruct IN as (z & IN). exact (IV z t IN).
        - destruct (free_variant _ _ _ _) as [t|] eqn:F; [|discriminate C]. injection C as <- <-. destruct (free_variant_prefix _ _ _ _ _ F) as (rest & ET).
          assert (NE : name_for_item tn nn i <> []) by (destruct i; cbn [name_for_item]; unfold nonempty; match goal with |- context [match ?x with [] => _ | _ => _ end] => destruct x end; discriminate).
          destruct (C70_prefix _ NE) as (r2 & E2). assert (T : exists rest, t = codes "yy_"%string ++ rest) by (exists (r2 ++ rest); rewrite ET, E2, <- app_assoc; reflexivity).
          constructor; [exact T|]. eapply IH; [|exact R]. cbn [cn_items]. intros z t' [X|X]; [injection X as _ <-; exact T|exact (IV z t' X)]. }
      specialize (INV items (mkClasses [] (reserved language)) names st (fun z t X => match X with end) E). rewrite Forall_forall in INV. apply INV. eapply nth_error_In, NS. }
    destruct Y as (rest & ->). apply classes_of_name in X. destruct X as [-> | ->]; discriminate.
Qed.
Print Assumptions C93_names.

(** The parser that the functions for a start symbol make decides the language of this symbol.  [number]:
    the number of a nonterminal in the grammar. *)
Theorem C93_language_partial : forall rid rule_of ident sort sort_weak first_of rules us rank number starts busy width sources can_clash o closures lr1 ignored fuel ms d,
  injective rid -> (forall i j : item, ident i = ident j -> i = j) -> sorts entry_ltb sort ->
  let languages := map (fun s => INonterm (number s)) starts in
  workable rules us rank languages -> answered rules (fun i => In i us) first_of ->
  (forall n stack i, (width <= count_occ item_dec stack i)%nat -> busy n stack i = true) -> o_lr1 o = false ->
  (forall s, In s ignored -> ~ In (ITerm s) us) ->
  make_parser rid first_of rules busy sources can_clash o (simple_stage o closures lr1 ignored) fuel languages = Some (ms, d) ->
  (forall g, In g ms -> reports_conflict g = false) -> clear_end (d_actions d) -> fits rid rule_of (d_actions d) ->
  NoDup (map get_identifier starts) -> (forall a b, In a starts -> In b starts -> number a = number b -> a = b) ->
  one_definition (header_start_symbols starts) /\
  forall start p, In start starts -> exists q, (forall q', starts_in (header_start_symbols starts) (function_for start) p q' <-> q' = q) /\
  forall (L : Type) (matched : L -> Z) (renamed : Z -> L -> L) (V : Type) (shift_value : option L -> V) (reduce_value : Z -> Z -> list V -> V) (v0 : V) (input : list L),
  exists steps b p,
    (forall more, (steps <= more)%nat -> parse (make_tables rid rule_of ident sort sort_weak (d_actions d) []) L matched renamed V shift_value reduce_value more (start_parser L V q v0 input) = Done (b, p)) /\
    (b = true <-> exists rs, rightmost rules rs [INonterm (number start)] (map (fun x => ITerm (matched x)) (filter (fun x => negb (existsb (Z.eqb (matched x)) ignored)) input))).
Proof.
  intros rid rule_of ident sort sort_weak first_of rules us rank number starts busy width sources can_clash o closures lr1 ignored fuel ms d RI IN SO languages WK AN BB L1 IG MK NR CE FI ND NI. split; [apply C93_valid, ND|].
  intros start p IS. apply In_nth_error in IS as (n & NS). exists (Z.of_nat n). split; [apply (creators_starts_in starts ND n start NS)|].
  assert (NL : nth_error languages n = Some (INonterm (number start))) by (unfold languages; rewrite nth_error_map, NS; reflexivity).
  destruct (C59_language_partial _ rule_of ident sort sort_weak _ _ _ _ _ _ _ _ _ _ _ _ _ _ _ _ RI IN SO WK AN BB L1 IG MK NR CE FI n _ NL) as (q & Q & H).
  assert (NDL : NoDup languages).
  { unfold languages. assert (NDS : NoDup starts) by (apply NoDup_map_inv in ND; exact ND). clear -NDS NI. induction starts as [|a l IH]; [constructor|]. apply NoDup_cons_iff in NDS as (N & NDS). cbn [map]. constructor; [|apply IH; [intros x y X Y; apply NI; right; assumption|exact NDS]].
    intros X. apply in_map_iff in X as (b & E & I). injection E as E. apply N. rewrite (NI a b (or_introl eq_refl) (or_intror I)); [exact I|congruence]. }
  assert (LT : (n < length languages)%nat) by (apply nth_error_Some; congruence). rewrite (proj1 (C93_states _ _ _ _ _ _ _ _ _ _ _ _ RI MK) NDL n LT) in Q. injection Q as <-. exact H.
Qed.
Print Assumptions C93_language_partial.

(** A grammar with two start symbols, first and second-part: first -> t1, second-part -> t2 *)
Definition two_rules (n : Z) : list (list item) := if n =? 0 then [[ITerm 1]] else if n =? 1 then [[ITerm 2]] else [].
Definition two_make (languages : list item) : option (list message * made_parser) :=
  make_parser rule_number (first_by two_rules 20) two_rules one_object no_sources (fun _ _ => false) quiet (simple_stage quiet no_closures keep []) 300 languages.

(** The full statement fails in two ways, both without a message.  A start symbol that is given twice: the
    functions are defined twice, and the third start symbol starts in state 1, not in state 2 *)
Theorem C93_repeated_refuted : exists d, two_make [INonterm 0; INonterm 0; INonterm 1] = Some ([], d) /\ d_initial d = [0; 0; 1] /\
  starts_in (header_start_symbols (map codes ["first"; "first"; "second-part"]%string)) (function_for (codes "second-part"%string)) TakesActions 2 /\
  ~ one_definition (header_start_symbols (map codes ["first"; "first"; "second-part"]%string)).
Proof.
  destruct (two_make [INonterm 0; INonterm 0; INonterm 1]) as [[ms d]|] eqn:E; [|vm_compute in E; discriminate E]. exists d. vm_compute in E. injection E as <- <-. split; [reflexivity|]. split; [reflexivity|]. split.
  - apply starts_here. vm_compute. tauto.
  - rewrite C93_valid. vm_compute. intros N. apply NoDup_cons_iff in N as (N & _). apply N. left. reflexivity.
Qed.
Print Assumptions C93_repeated_refuted.
(** and different start symbols with the same identifier, a-b and a_b: the functions are defined twice. *)
Theorem C93_clash_refuted : exists d a b, two_make [INonterm 0; INonterm 1] = Some ([], d) /\ a <> b /\ function_for a = function_for b /\ ~ one_definition (header_start_symbols [a; b]).
Proof.
  destruct (two_make [INonterm 0; INonterm 1]) as [[ms d]|] eqn:E; [|vm_compute in E; discriminate E]. exists d, (codes "a-b"%string), (codes "a_b"%string). vm_compute in E. injection E as <- <-. split; [reflexivity|]. split; [discriminate|]. split; [reflexivity|].
  rewrite C93_valid. vm_compute. intros N. apply NoDup_cons_iff in N as (N & _). apply N. left. reflexivity.
Qed.
Print Assumptions C93_clash_refuted.

Definition two_items : list item := [INonterm 0; INonterm 1; ITerm 1; ITerm 2].
Definition two_rank (i : item) : nat := match i with INonterm _ => 1 | _ => 0 end.
Lemma two_bodies n r : In r (two_rules n) -> (n = 0 /\ r = [ITerm 1]) \/ (n = 1 /\ r = [ITerm 2]).
Proof. unfold two_rules. destruct (Z.eqb_spec n 0) as [->|]; [cbn; intuition auto|]. destruct (Z.eqb_spec n 1) as [->|]; cbn; intuition auto. Qed.
Lemma two_nullable i : nullable two_rules i -> match i with INonterm _ | ITerm _ => False | _ => True end.
Proof.
  set (P := fun i : item => match i with INonterm _ | ITerm _ => False | _ => True end). change (nullable two_rules i -> P i).
  apply (nullable_ind2 two_rules P (Forall P)); try constructor; try assumption. clear i. intros i r B _ F.
  destruct i as [| | |t|n|p l|k rs]; try exact Logic.I; [destruct B|]. cbn [has_body] in B. apply two_bodies in B. destruct B as [(-> & ->)|(-> & ->)]; inversion F; assumption.
Qed.
Lemma two_cases i r : In i two_items -> has_body two_rules i r -> exists n t, i = INonterm n /\ r = [ITerm t] /\ In (ITerm t) two_items.
Proof.
  intros U B. destruct i as [| | |t|n|p l|k rs]; try (destruct B; fail); try (unfold two_items, In in U; repeat (destruct U as [U|U]; [discriminate U|]); destruct U; fail).
  cbn [has_body] in B. apply two_bodies in B. destruct B as [(-> & ->)|(-> & ->)]; do 2 eexists; (split; [reflexivity|]); (split; [reflexivity|]); unfold two_items; cbn; auto.
Qed.
Lemma two_workable : workable two_rules two_items two_rank [INonterm 0; INonterm 1].
Proof.
  split.
  - intros i U. unfold two_items, In in U. repeat (destruct U as [<-|U]; [exact Logic.I|]). destruct U.
  - intros i r j U B J. destruct (two_cases i r U B) as (n & t & _ & -> & I). destruct J as [<-|[]]. exact I.
  - intros k rs r U. unfold two_items, In in U. repeat (destruct U as [U|U]; [discriminate U|]). destruct U.
  - intros rs U. unfold two_items, In in U. repeat (destruct U as [U|U]; [discriminate U|]). destruct U.
  - intros i pre y post U B N. destruct (two_cases i _ U B) as (n & t & -> & E & _). destruct pre as [|a pre]; [injection E as -> ->; left; cbn; lia|]. destruct pre; discriminate E.
  - intros n a r b i k c U E NR NI. assert (Bi : In (i :: k) (two_rules n)) by (rewrite E; apply in_app_iff; right; right; apply in_elt). destruct (two_cases (INonterm n) _ U Bi) as (? & ? & _ & X & _). injection X as -> ->. destruct (two_nullable _ NI).
  - intros l [<-|[<-|[]]]; unfold two_items; cbn; auto.
Qed.
Lemma two_answered : answered two_rules (fun i => In i two_items) (first_by two_rules 20).
Proof.
  split.
  - intros i. unfold first_by. destruct (first two_rules 20 i []) as [[c' s]|] eqn:E; [|constructor]. eapply (first_set_ok _ 20 i [] c' s); [split; [constructor|intros j t []]|exact E].
  - intros i U. exists [], 20%nat. unfold two_items, In in U. repeat (destruct U as [<-|U]; [eexists; split; [constructor|vm_compute; reflexivity]|]). destruct U.
Qed.
(** The conditions of C93_language_partial are met. *)
Example C93_nontrivial : exists d, two_make [INonterm 0; INonterm 1] = Some ([], d) /\ d_initial d = [0; 1] /\
  workable two_rules two_items two_rank [INonterm 0; INonterm 1] /\ answered two_rules (fun i => In i two_items) (first_by two_rules 20) /\
  clear_end (d_actions d) /\ fits rule_number (rule_in (made_rules d)) (d_actions d) /\
  NoDup (map get_identifier (map codes ["first"; "second-part"]%string)) /\
  (forall p, starts_in (header_start_symbols (map codes ["first"; "second-part"]%string)) (codes "create_yy_second_part"%string) p 1).
Proof.
  destruct (two_make [INonterm 0; INonterm 1]) as [[ms d]|] eqn:E; [|vm_compute in E; discriminate E]. exists d.
  assert (F : fits_check (made_rules d) (d_actions d) = true /\ accept_check (d_actions d) = true /\ ms = [] /\ d_initial d = [0; 1]) by (vm_compute in E; injection E as <- <-; split; [vm_compute; reflexivity|split; [vm_compute; reflexivity|split; reflexivity]]).
  destruct F as (F1 & F2 & -> & F3). split; [reflexivity|]. split; [exact F3|]. split; [apply two_workable|]. split; [apply two_answered|]. split; [apply clear_checked, F2|]. split; [apply fits_checked, F1|].
  assert (ND : NoDup (map get_identifier (map codes ["first"; "second-part"]%string))) by (vm_compute; repeat constructor; cbn; intuition discriminate).
  split; [exact ND|]. intros p. apply (creators_starts_in _ ND 1 (codes "second-part"%string) eq_refl). reflexivity.
Qed.

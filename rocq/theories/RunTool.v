(** A whole parser generator, from a grammar without EBNF items to the tables, used in examples. *)
From Verif Require Import Base OrdMap GrammarModel GrammarProofs FirstModel FirstProofs FollowModel FollowSpec FollowProofs FollowProps LrItemModel LrItemProofs ClosureModel ClosureSpec ClosureProofs ClosureTermProofs ClosureProps MachineModel MachineProofs BuilderModel BuilderSpec BuilderProofs BuilderLookProofs BuilderTermProofs BuilderProps ActionModel ActionSpec ActionProofs ActionProps TableModel TableProofs TableProps RunModel RunSpec RunProofs RunTableProofs.
Local Open Scope Z_scope.

Definition grammar_of := list (Z * list (list item)).
Definition in_items (us : list item) (i : item) : bool := existsb (item_eqb i) us.
Lemma in_items_spec us i : in_items us i = true <-> In i us.
Proof. unfold in_items. rewrite existsb_exists. split; [intros (j & J & E); apply item_eqb_spec in E; subst j; exact J|intros I; exists i; split; [exact I|apply item_eqb_spec; reflexivity]]. Qed.
(** All the items that are needed, and no others *)
Definition item_check (nts : grammar_of) (us : list item) (i : item) : bool :=
  match i with
  | INonterm n => forallb (forallb (in_items us)) (rules_of nts n)
  | ITerm _ => true
  | IGuard _ l => forallb (in_items us) l
  | _ => false
  end && negb (in_items (first_by (rules_of nts) 20 i) IEoi).
Definition tool_fuel : nat := 100.
Definition start_states (languages : list item) : machine := fold_left (fun m l => fst (add_initial_state rule_number l m)) languages new_machine.
Definition all_rules (nts : grammar_of) (us languages : list item) : list rule :=
  flat_map (fun i => match i with INonterm n => map (mkRule i) (rules_of nts n) | IGuard _ l => [mkRule i l] | _ => [] end) us ++ map (fun l => mkRule IEmpty [l]) languages.
Definition rule_in (rs : list rule) (id : Z) : rule := match find (fun r => rule_number r =? id) rs with Some r => r | None => no_rule end.
Definition fits_check (rs : list rule) (actss : list action_set) : bool :=
  (Z.of_nat (length rs) <=? 2 ^ 24) && forallb (forallb (fun a => if is_reduction (a_type a) then existsb (fun r => rule_eqb r (a_rule a)) rs else (0 <=? a_next a) && (a_next a <? 2 ^ 24))) actss.
Fixpoint collect {A} (l : list (option A)) : option (list A) := match l with [] => Some [] | x :: l => match x, collect l with Some a, Some l => Some (a :: l) | _, _ => None end end.
Definition tool (nts : grammar_of) (us languages : list item) : option (machine * guard_states * list action_set) :=
  if forallb (item_check nts us) us && forallb (in_items us) languages then
    match complete_parser rule_number (first_by (rules_of nts) 20) (rules_of nts) one_object tool_fuel tool_fuel (start_states languages) [] ([], 0%nat) with
    | Some (m, guards, _, _) =>
        match collect (map (fun q => option_map fst (plain_actions rule_number (first_by (rules_of nts) 20) (rules_of nts) one_object tool_fuel m guards (Z.of_nat q) ([], 0%nat))) (seq 0 (Z.to_nat (count_states m)))) with
        | Some actss => if fits_check (all_rules nts us languages) actss then Some (m, guards, actss) else None
        | None => None
        end
    | None => None
    end
  else None.
Definition tool_tables (nts : grammar_of) (us languages : list item) (actss : list action_set) (weaks : list (item * iset)) : tables :=
  make_tables rule_number (rule_in (all_rules nts us languages)) item_number (insertion_sort entry_ltb) (insertion_sort weak_ltb) actss weaks.

Lemma tool_first nts i : set_ok (first_by (rules_of nts) 20 i).
Proof. unfold first_by. destruct (first (rules_of nts) 20 i []) as [[c' s]|] eqn:E; [|constructor]. eapply (first_set_ok _ 20 i [] c' s); [split; [constructor|intros j t []]|exact E]. Qed.
Lemma collect_nth {A} (l : list (option A)) : forall xs n x, collect l = Some xs -> nth_error xs n = Some x -> nth_error l n = Some (Some x).
Proof.
  induction l as [|o l IH]; intros xs n x C N; cbn [collect] in C; [injection C as <-; destruct n; discriminate N|]. destruct o as [a|]; [|discriminate C]. destruct (collect l) as [l'|]; [|discriminate C]. injection C as <-. destruct n as [|n]; cbn in *; [congruence|]. eapply IH; [reflexivity|exact N].
Qed.
Lemma collect_length {A} (l : list (option A)) xs : collect l = Some xs -> length xs = length l.
Proof. revert xs. induction l as [|o l IH]; intros xs C; cbn [collect] in C; [injection C as <-; reflexivity|]. destruct o; [|discriminate C]. destruct (collect l) eqn:E; [|discriminate C]. injection C as <-. cbn. f_equal. apply IH. reflexivity. Qed.
Lemma rule_in_spec rs r : In r rs -> rule_in rs (rule_number r) = r.
Proof.
  intros I. unfold rule_in. destruct (find _ rs) as [r'|] eqn:F.
  - apply find_some in F. destruct F as [_ E]. apply Z.eqb_eq in E. apply rule_number_injective in E. exact E.
  - apply (List.find_none _ _ F) in I. rewrite Z.eqb_refl in I. discriminate I.
Qed.
Lemma nonempty_states m : 0 <= count_states m.
Proof. unfold count_states. lia. Qed.

Lemma fits_checked rs actss : fits_check rs actss = true -> fits rule_number (rule_in rs) actss.
Proof.
  unfold fits_check. intros FC. apply andb_true_iff in FC. destruct FC as [F1 F2]. apply Z.leb_le in F1. rewrite forallb_forall in F2.
  assert (X : forall acts a, In acts actss -> In a acts -> (if is_reduction (a_type a) then existsb (fun r => rule_eqb r (a_rule a)) rs else (0 <=? a_next a) && (a_next a <? 2 ^ 24)) = true) by (intros acts a A I; specialize (F2 acts A); rewrite forallb_forall in F2; apply F2, I).
  assert (R : forall acts a, In acts actss -> In a acts -> is_reduction (a_type a) = true -> In (a_rule a) rs) by (intros acts a A I T; specialize (X acts a A I); rewrite T in X; apply existsb_exists in X; destruct X as (r & RI & E); apply rule_eqb_spec in E; subst r; exact RI).
  split.
  - intros acts a A I T. specialize (X acts a A I). rewrite T in X. apply andb_true_iff in X. destruct X as [X1 X2]. apply Z.leb_le in X1. apply Z.ltb_lt in X2. lia.
  - exists rs. split; [exact F1|exact R].
  - intros acts a A I T. apply rule_in_spec. eapply R; eassumption.
Qed.

Record tool_result nts us languages m guards actss : Prop := {
  tr_buildable : buildable rule_number (first_by (rules_of nts) 20) (rules_of nts) (fun i => In i us) languages;
  tr_plain : forall i, In i us -> (exists n, i = INonterm n) \/ (exists s, i = ITerm s) \/ exists p g, i = IGuard p g;
  tr_built : built rule_number (first_by (rules_of nts) 20) (rules_of nts) (fun i => In i us) one_object languages m guards;
  tr_length : Z.of_nat (length actss) = count_states m;
  tr_actions : forall q acts, nth_error actss q = Some acts -> exists fuel c c', any_calls rule_number (first_by (rules_of nts) 20) (rules_of nts) (fun i => In i us) one_object c /\ plain_actions rule_number (first_by (rules_of nts) 20) (rules_of nts) one_object fuel m guards (Z.of_nat q) c = Some (acts, c');
  tr_fits : fits rule_number (rule_in (all_rules nts us languages)) actss }.
Lemma tool_ok nts us languages m guards actss : tool nts us languages = Some (m, guards, actss) -> tool_result nts us languages m guards actss.
Proof.
  unfold tool. destruct (forallb (item_check nts us) us && forallb (in_items us) languages) eqn:CK; [|discriminate]. apply andb_true_iff in CK. destruct CK as [IC LC]. rewrite forallb_forall in IC, LC.
  destruct (complete_parser _ _ _ _ _ _ _ _ _) as [[[[m' guards'] p'] c']|] eqn:CP; [|discriminate]. destruct (collect _) as [actss'|] eqn:CO; [|discriminate]. destruct (fits_check _ _) eqn:FC; [|discriminate]. intros E. injection E as <- <- <-.
  assert (IK : forall i, In i us -> ((exists n, i = INonterm n) \/ (exists s, i = ITerm s) \/ exists p g, i = IGuard p g) /\ ~ In IEoi (first_by (rules_of nts) 20 i) /\ (forall n r j, i = INonterm n -> In r (rules_of nts n) -> In j r -> In j us) /\ forall p g j, i = IGuard p g -> In j g -> In j us).
  { intros i I. apply IC in I. unfold item_check in I. apply andb_true_iff in I. destruct I as [I1 I2]. apply negb_true_iff in I2. assert (N : ~ In IEoi (first_by (rules_of nts) 20 i)) by (intros X; apply in_items_spec in X; congruence).
    destruct i as [| | |s|n|p g|k rs]; try discriminate I1; (split; [eauto|]); (split; [exact N|]); split; intros; try discriminate.
    - injection H as ->. rewrite forallb_forall in I1. specialize (I1 _ H0). rewrite forallb_forall in I1. apply in_items_spec, I1, H1.
    - injection H as -> ->. rewrite forallb_forall in I1. apply in_items_spec, I1, H0. }
  split.
  - split; [apply rule_number_injective|apply tool_first| | |intros l LI; apply in_items_spec, LC, LI].
    + intros i I. destruct (IK i I) as (T & N & R & _). split; [intros ->; destruct T as [[? X]|[[? X]|(? & ? & X)]]; discriminate X|]. split; [exact N|]. intros r j X J. inversion X; subst; try (destruct T as [[? T]|[[? T]|(? & ? & T)]]; discriminate T). eapply R; [reflexivity|eassumption|exact J].
    + intros p l I j J. destruct (IK _ I) as (_ & _ & _ & G). eapply G; [reflexivity|exact J].
  - intros i I. apply (IK i I).
  - exists tool_fuel, tool_fuel, ([], 0%nat), p', c'. split; [constructor|exact CP].
  - rewrite (collect_length _ _ CO), map_length, seq_length. pose proof (nonempty_states m'). lia.
  - intros q acts N. pose proof (collect_nth _ _ _ _ CO N) as X. rewrite nth_error_map in X. destruct (nth_error (seq 0 _) q) as [q'|] eqn:SQ; [|discriminate X]. assert (q' = q). { assert (q < length (seq 0 (Z.to_nat (count_states m'))))%nat by (apply nth_error_Some; congruence). rewrite seq_length in H. apply (nth_error_nth _ _ 0%nat) in SQ. rewrite seq_nth in SQ by exact H. lia. } subst q'.
    cbn [option_map] in X. destruct (plain_actions _ _ _ _ _ _ _ _ _) as [[acts' c1]|] eqn:PA; [|discriminate X]. cbn in X. injection X as <-. exists tool_fuel, ([], 0%nat), c1. split; [constructor; constructor|exact PA].
  - apply fits_checked, FC.
Qed.

(** Lexemes of examples: a symbol and a position *)
Definition lex := (Z * Z)%type.
Definition lex_renamed (s : Z) (l : lex) : lex := (s, snd l).
Definition lexemes (w : list Z) : list lex := combine w (map Z.of_nat (seq 0 (length w))).
Definition tool_ast (t : tables) (fuel : nat) (q : Z) (w : list Z) : outcome (bool * parser lex (ast lex)) := ast_parse t fst lex_renamed fuel (start_parser lex (ast lex) q (Leaf None) (lexemes w)).

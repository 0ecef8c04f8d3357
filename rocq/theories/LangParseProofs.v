(** Lemmas that join the language stage to the stage that makes a parser. *)
From Verif Require Import Base OrdMap GrammarModel FirstModel FirstSpec LrItemModel ClosureModel ClosureSpec MachineModel BuilderModel ActionModel TableModel RunModel RunSpec RewriteModel RewriteProps ConflictModel CompleteProps StageModel StageSpec StageProofs StageProps LangModel LangSpec LangItemProofs LangWordProofs.
Local Open Scope Z_scope.

(** ** Rewriters that do the same *)
Section Alike.
  Context (rid : rule -> Z) (first_of : item -> iset) (rules : Z -> list (list item)) (busy : nat -> list item -> item -> bool).
  Definition alike (rw rw' : list rewriter) : Prop := forall q acts, fold_left (fun s w => w q s) rw acts = fold_left (fun s w => w q s) rw' acts.
  Context (rw rw' : list rewriter) (AL : alike rw rw').
  Lemma actions_alike fuel m guards q c : ActionModel.actions_for_state rid first_of rules busy fuel m guards rw q c = ActionModel.actions_for_state rid first_of rules busy fuel m guards rw' q c.
  Proof. unfold ActionModel.actions_for_state. destruct (ActionModel.plain_actions _ _ _ _ _ _ _ _ _) as [[acts c']|]; [|reflexivity]. rewrite AL. reflexivity. Qed.
  Lemma conflicts_alike sources fuel m guards qs : forall c, conflicts_in rid first_of rules busy sources fuel m guards rw qs c = conflicts_in rid first_of rules busy sources fuel m guards rw' qs c.
  Proof.
    induction qs as [|q qs IH]; intros c; [reflexivity|]. cbn [conflicts_in]. rewrite actions_alike. destruct (ActionModel.actions_for_state _ _ _ _ _ _ _ _ _ _) as [[acts c']|]; [|reflexivity].
    destruct (state_conflicts _ _ _ _ _ _ _ _ _ _) as [[found c'']|]; [|reflexivity]. rewrite IH. reflexivity.
  Qed.
  Lemma all_actions_alike fuel m guards qs : forall c, all_actions rid first_of rules busy fuel m guards rw qs c = all_actions rid first_of rules busy fuel m guards rw' qs c.
  Proof. induction qs as [|q qs IH]; intros c; [reflexivity|]. cbn [all_actions]. rewrite actions_alike. destruct (ActionModel.actions_for_state _ _ _ _ _ _ _ _ _ _) as [[acts c']|]; [|reflexivity]. rewrite IH. reflexivity. Qed.
End Alike.
Lemma make_parser_alike rid first_of rules busy sources can_clash o rw rw' fuel languages : (forall m, alike (rw m) (rw' m)) ->
  make_parser rid first_of rules busy sources can_clash o rw fuel languages = make_parser rid first_of rules busy sources can_clash o rw' fuel languages.
Proof.
  intros AL. unfold make_parser. destruct (complete_parser _ _ _ _ _ _ _ _ _) as [[[[m g] p] c]|]; [|reflexivity]. unfold find_conflicts. rewrite (conflicts_alike _ _ _ _ _ _ (AL m)). destruct (conflicts_in _ _ _ _ _ _ _ _ _ _ _) as [[found c']|]; [|reflexivity]. rewrite (all_actions_alike _ _ _ _ _ _ (AL m)). reflexivity.
Qed.
(** Weak symbols that stand for no strong symbol change nothing. *)
Lemma none_strong w acts : w_weak_for w = [] -> has_strong w acts = false.
Proof. intros E. apply Bool.not_true_iff_false. intros H. apply existsb_exists in H. destruct H as (a & _ & H). unfold weak_for_strong in H. rewrite E in H. cbn in H. rewrite Bool.andb_false_r in H. discriminate. Qed.
Lemma weak_alike o w closures lr1 ignored m : w_weak_for w = [] ->
  alike (stage_rewriters o (fun _ => []) w closures (fun _ _ => NotSpecified) lr1 ignored m) (simple_stage o closures lr1 ignored m).
Proof.
  intros E q acts. unfold simple_stage, stage_rewriters. cbn [app fold_left]. f_equal. f_equal. rewrite weak_none. unfold weak_rewrite. rewrite none_strong by exact E. reflexivity.
Qed.

(** ** Parse trees and rightmost derivations *)
Section Derive.
  Context (rules : Z -> list (list item)) (u : item -> Prop) (NG : forall i, u i -> match i with IGuard _ _ => False | _ => True end)
    (CL : forall i r j, u i -> expands rules i r -> In j r -> u j).
  Context (rid : rule -> Z) (ident : item -> Z) (L : Type) (matched : L -> Z) (renamed : Z -> L -> L).
  Local Notation terms w := (map (fun x => ITerm (matched x)) w).
  Lemma terms_shiftable (w : list L) : Forall shiftable (terms w).
  Proof. apply Forall_forall. intros i I. apply in_map_iff in I. destruct I as (x & <- & _). left. eexists. reflexivity. Qed.
  Lemma parses_derive :
    (forall x t w rest, parses rules rid ident L matched renamed (fun _ _ => False) (fun _ => False) x t w rest -> u x ->
      forall a v rs b, Forall shiftable v -> rightmost rules rs (a ++ terms w ++ v) b -> exists rs, rightmost rules rs (a ++ x :: v) b) /\
    (forall xs ts w rest, parses_all rules rid ident L matched renamed (fun _ _ => False) (fun _ => False) xs ts w rest -> Forall u xs ->
      forall a v rs b, Forall shiftable v -> rightmost rules rs (a ++ terms w ++ v) b -> exists rs, rightmost rules rs (a ++ xs ++ v) b).
  Proof.
    apply parses_both.
    - intros l rest U a v rs b _ R. exists rs. exact R.
    - intros l s rest [].
    - intros x r ts w rest E _ IH U a v rs b FV R. destruct (IH (proj2 (Forall_forall _ _) (fun j J => CL _ _ _ U E J)) a v rs b FV R) as [rs' R']. exists (mkRule x r :: rs'). apply (rightmost_step rules (mkRule x r) rs' a v b); assumption.
    - intros p g ts w rest _ _ U. destruct (NG _ U).
    - intros rest _ a v rs b _ R. exists rs. exact R.
    - intros xs ts l w rest [].
    - intros x xs t ts w1 w2 rest _ IH1 _ IH2 FU a v rs b FV R. inversion FU as [|? ? U1 U2]; subst. rewrite map_app, <- app_assoc in R.
      destruct (IH1 U1 a (terms w2 ++ v) rs b) as [rs1 R1]; [apply Forall_app; split; [apply terms_shiftable|exact FV]|exact R|].
      destruct (IH2 U2 (a ++ [x]) v rs1 b FV) as [rs2 R2]; [rewrite <- app_assoc; exact R1|]. exists rs2. rewrite <- app_assoc in R2. exact R2.
  Qed.
  Lemma derivation_words l (w : list L) : u l -> (exists rs, rightmost rules rs [l] (terms w)) <-> says rules l (map matched w) [].
  Proof.
    intros U. split.
    - intros [rs R]. destruct (derived_parses rules rid ident L matched renamed rs [l] _ R w eq_refl) as [ts P]. apply parses_says in P. apply says_all_one in P. exact P.
    - intros S. destruct (proj1 (says_parses rules rid ident L matched renamed) _ _ _ S w [] eq_refl eq_refl) as [t P]. destruct (proj1 parses_derive _ _ _ _ P U [] [] [] (terms w) (Forall_nil _)) as [rs R]; [cbn [app]; rewrite app_nil_r; constructor|]. exists rs. exact R.
  Qed.
End Derive.

(** ** The words of items are words of terminals *)
Section Image.
  Context (rules : Z -> list (list item)) (productions : name -> list (list simple)) (nt tm : name -> Z) (K T : name -> Prop).
  Local Notation good := (good K T).
  Context (RULES : forall n, K n -> rules (nt n) = map (tr_all nt tm) (productions n)) (GOOD : forall n p, K n -> In p (productions n) -> Forall good p).
  Local Notation item_of := (item_of nt tm K T).
  Definition word_of (w : list Z) : Prop := exists u, w = map tm u /\ Forall T u.
  Lemma word_app a b : word_of a -> word_of b -> word_of (a ++ b).
  Proof. intros (u & -> & U) (v & -> & V). exists (u ++ v). split; [rewrite map_app; reflexivity|apply Forall_app; auto]. Qed.
  Lemma word_nil : word_of [].
  Proof. exists []. auto. Qed.
  Lemma says_image : (forall x w rest, says rules x w rest -> forall s, item_of s x -> word_of w) /\ (forall xs w rest, says_all rules xs w rest -> forall ss, Forall2 item_of ss xs -> word_of w).
  Proof.
    apply says_both.
    - intros z rest s (F & G & E). destruct s as [src n|k src n|a more|s|s|s|a [|m more]]; try discriminate E; [|destruct F]. injection E as <-. exists [n]. split; [reflexivity|]. constructor; [|constructor]. apply (proj2 G k src). left. reflexivity.
    - intros z r w rest IR _ IH s (F & G & E). destruct s as [src n|k src n|a more|s|s|s|a [|m more]]; try discriminate E; [|destruct F]. injection E as <-. assert (KN : K n) by (apply G; left; reflexivity). rewrite (RULES n KN) in IR. apply in_map_iff in IR. destruct IR as (p & <- & IP).
      eapply IH. apply (all_items nt tm K T). eapply GOOD; eassumption.
    - intros. apply word_nil.
    - intros. apply word_nil.
    - intros rs w rest _ IH s (F & G & E). destruct s as [src n|k src n|a more|s|s|s|a [|m more]]; try discriminate E; [|destruct F]. injection E as <-. eapply IH. apply (flat_items nt tm K T). exact G.
    - intros. apply word_nil.
    - intros rs w1 w2 rest _ IH1 _ IH2 s IS. apply word_app; [|eapply IH2; exact IS]. destruct IS as (F & G & E). destruct s as [src n|k src n|a more|s|s|s|a [|m more]]; try discriminate E; [|destruct F]. injection E as <-. eapply IH1. apply (flat_items nt tm K T). exact G.
    - intros rs w rest _ IH s (F & G & E). destruct s as [src n|k src n|a more|s|s|s|a [|m more]]; try discriminate E; [|destruct F]. injection E as <-. eapply IH. apply (flat_items nt tm K T). exact G.
    - intros rs w1 w2 rest _ IH1 _ IH2 s IS. apply word_app; [|eapply IH2; exact IS]. destruct IS as (F & G & E). destruct s as [src n|k src n|a more|s|s|s|a [|m more]]; try discriminate E; [|destruct F]. injection E as <-. eapply IH1. apply (flat_items nt tm K T). exact G.
    - intros rs r w rest IR _ IH s (F & G & E). destruct s as [src n|k src n|a more|s|s|s|a [|m more]]; try discriminate E; [destruct F|]. rewrite tr_paren in E. injection E as <-. destruct IR as [<-|[<-|[]]].
      + eapply IH. apply (all_items nt tm K T). eapply good_paren; [exact G|left; reflexivity].
      + eapply IH. rewrite <- tr_paren. apply (flat_items nt tm K T). split; [intros n IN; apply (proj1 G)|intros k src n IN; apply (proj2 G k src)]; cbn [nonterminals_in terminals_in flat_map] in *; rewrite !in_app_iff in *; tauto.
    - intros. apply word_nil.
    - intros x xs w1 w2 rest _ IH1 _ IH2 ss F. inversion F as [|s ? ss' ? F1 F2]; subst. apply word_app; [eapply IH1, F1|eapply IH2, F2].
  Qed.
End Image.

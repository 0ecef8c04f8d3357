(** Tables made from the actions of a machine are those of the machine. *)
From Verif Require Import Base OrdMap GrammarModel GrammarProofs FirstModel LrItemModel ClosureSpec BuilderSpec MachineModel ActionModel ActionSpec TableModel TableProofs TableProps RunModel RunSpec RunProofs.
From Coq Require Import Permutation.
Local Open Scope Z_scope.

(** Actions that go with a machine.  [strong]: the symbol a weak symbol may be read as. *)
Section Faithful.
  Context (rules : Z -> list (list item)) (kernel : Z -> lr0 -> Prop) (step : Z -> item -> Z -> Prop) (weak : Z -> Z -> Prop) (strong : Z -> Z) (ignorable : Z -> Prop).
  Inductive sound_action (q : Z) : action -> Prop :=
  | sound_shift x n r : step q x n -> (exists s, x = ITerm s) \/ (exists p g, x = IGuard p g) -> sound_action q (mkAction Shift x n r)
  | sound_goto x n r : step q x n -> (forall s, x <> ITerm s) -> (forall p g, x <> IGuard p g) -> sound_action q (mkAction Goto x n r)
  | sound_reduce ty x n k : ty = Reduce \/ ty = WeakReduce -> closure_item rules (kernel q) k -> after_dot k = [] -> ~ top_rule (l_rule k) -> sound_action q (mkAction ty x n (l_rule k))
  | sound_accept x n k : x = IEoi \/ x = IEog -> closure_item rules (kernel q) k -> after_dot k = [] -> top_rule (l_rule k) -> sound_action q (mkAction Accept x n (l_rule k))
  | sound_guard s n p g r : (forall k, kernel n k <-> k = guard_start p g) -> sound_action q (mkAction Guard (ITerm s) n r)
  | sound_strong w n r : weak w (strong w) -> step q (ITerm (strong w)) n -> sound_action q (mkAction ShiftStrong (ITerm w) n r)
  | sound_ignore s n r : ignorable s -> sound_action q (mkAction Ignore (ITerm s) n r).
  (** The actions of each state are sound and include its gotos. *)
  Record faithful (actss : list action_set) : Prop := {
    fa_sound : forall q acts a, nth_error actss q = Some acts -> In a acts -> sound_action (Z.of_nat q) a;
    fa_goto : forall q x n, step q x n -> (forall s, x <> ITerm s) -> (forall p g, x <> IGuard p g) ->
      0 <= q /\ exists acts, nth_error actss (Z.to_nat q) = Some acts /\ exists a, In a acts /\ a_type a = Goto /\ a_item a = x }.
End Faithful.

Section Justified.
  Context (rules : Z -> list (list item)) (kernel : Z -> lr0 -> Prop) (step : Z -> item -> Z -> Prop) (weak : Z -> Z -> Prop) (ignorable : Z -> Prop).
  Context (FN : forall q x n1 n2, step q x n1 -> step q x n2 -> n1 = n2).
  Context (PL : forall q x n, step q x n -> x <> IEoi /\ x <> IEog).
  Context (rid : rule -> Z) (rule_of : Z -> rule) (ident : item -> Z) (sort : list entry -> list entry) (sort_weak : list (Z * Z) -> list (Z * Z)).
  Context (actss : list action_set) (weaks : list (item * iset)).
  Context (II : forall i j, ident i = ident j -> i = j) (SO : sorts entry_ltb sort) (FI : fits rid rule_of actss).
  Let t := make_tables rid rule_of ident sort sort_weak actss weaks.

  Lemma row_entry (terminal : bool) q l e : row q (if terminal then t_terminals t else t_nonterminals t) = Some l -> In e l ->
    exists acts a, 0 <= q /\ nth_error actss (Z.to_nat q) = Some acts /\ In a acts /\ is_terminal (a_item a) = terminal /\ describes rid ident t a e /\ e_symbol e = symbol_of ident (a_item a).
  Proof.
    intros R I. unfold row in R. destruct (Z.ltb_spec q 0); [discriminate R|]. destruct (made rid rule_of ident sort sort_weak actss weaks SO) as (ids & OK & FR & T & N & _ & _ & TR & _).
    assert (X : exists acts ts, nth_error actss (Z.to_nat q) = Some acts /\ l = sort ts /\ Forall2 (coded rid ident ids) (filter (if terminal then fun a => is_terminal (a_item a) else not_terminal) acts) ts).
    { destruct terminal; [destruct (Forall2_nth' _ _ _ T _ _ R) as (acts & A & ts & -> & C)|destruct (Forall2_nth' _ _ _ N _ _ R) as (acts & A & ts & -> & C)]; exists acts, ts; auto. }
    destruct X as (acts & ts & A & -> & C). destruct (table_rows rid rule_of ident sort sort_weak actss weaks ids acts _ ts (e_symbol e) SO OK FR TR FI (nth_error_In _ _ A) C) as (m & P & D & _). fold t in D.
    rewrite find_action_filter in D by (apply sorted_by_symbol, SO). assert (IE : In e (filter (fun e0 => e_symbol e0 =? e_symbol e) (sort ts))) by (apply filter_In; split; [exact I|apply Z.eqb_refl]).
    assert (Y : exists a, In a m /\ describes rid ident t a e). { clear -D IE. induction D as [|a e0 m l DE F IH]; [destruct IE|]. destruct IE as [->|IE]; [exists a; split; [left; reflexivity|exact DE]|]. destruct (IH IE) as (b & B & E). exists b. split; [right; exact B|exact E]. }
    destruct Y as (a & AM & DE). apply (Permutation_in _ P) in AM. apply filter_In in AM. destruct AM as [AM E]. apply Z.eqb_eq in E. apply filter_In in AM. destruct AM as [AM PA]. exists acts, a. repeat (split; [assumption|]). split; [|split; [exact DE|symmetry; exact E]].
    destruct terminal; [exact PA|]. unfold not_terminal in PA. destruct (is_terminal (a_item a)); [discriminate PA|reflexivity].
  Qed.
  Lemma table_goto q acts x a : nth_error actss q = Some acts -> In a acts -> a_type a = Goto -> a_item a = x -> is_terminal x = false ->
    exists l e, find_nonterminal t (Z.of_nat q) (ident x) = Some l /\ find is_goto l = Some e /\ exists b, In b acts /\ a_type b = Goto /\ a_item b = x /\ e_next e = a_next b.
  Proof.
    intros Q I T X NT. destruct (C31_nonterminals_partial rid rule_of ident sort sort_weak actss weaks q acts x SO II FI Q NT) as (l & m & F & P & D & _). fold t in F, D. exists l.
    assert (AM : In a m). { apply (Permutation_in _ (Permutation_sym P)), filter_In. split; [exact I|]. rewrite X. apply item_eqb_spec. reflexivity. }
    assert (MA : forall b, In b m -> In b acts /\ a_item b = x). { intros b B. apply (Permutation_in _ P) in B. apply filter_In in B. destruct B as [B E]. apply item_eqb_spec in E. auto. }
    assert (G : exists e b, find is_goto l = Some e /\ In b m /\ a_type b = Goto /\ e_next e = a_next b).
    { clear -D AM T. revert m AM D. induction l as [|e l IH]; intros m AM D; cbn [scan] in D; [inversion D; subst; destruct AM|]. destruct (e_symbol e =? ident x); [|inversion D; subst; destruct AM].
      inversion D as [|b e' m' l' [DT DN] D']; subst. cbn [find]. unfold is_goto at 1. rewrite DT. destruct (a_type b) eqn:TB; try (destruct AM as [->|AM]; [congruence|]; destruct (IH _ AM D') as (e1 & b1 & F1 & B1 & R); exists e1, b1; split; [exact F1|]; split; [right; exact B1|exact R]).
      exists e, b. split; [reflexivity|]. split; [left; reflexivity|]. split; [exact TB|]. cbn in DN. exact DN. }
    destruct G as (e & b & F1 & B & TB & NB). exists e. split; [exact F|]. split; [exact F1|]. destruct (MA b B). exists b. auto.
  Qed.

  Context (FA : faithful rules kernel step weak (strong_for_weak t) ignorable actss).
  Lemma made_justified : justified rules kernel step rid ident t weak ignorable.
  Proof.
    split.
    - intros q l e R I. destruct (row_entry true q l e R I) as (acts & a & Q & A & AI & TE & [DT DN] & SY). apply (fa_sound _ _ _ _ _ _ _ FA _ _ _ A) in AI. rewrite Z2Nat.id in AI by exact Q. unfold terminal_entry. rewrite DT. destruct AI; cbn [a_type a_item a_next a_rule is_reduction] in *.
      + rewrite DN. destruct H0 as [(s & ->)|(p & g & ->)]; [|discriminate TE]. cbn in SY. rewrite SY. exact H.
      + destruct x as [| | |s| | |]; try discriminate TE. exfalso. apply (H0 s). reflexivity.
      + destruct H as [-> | ->]; cbn [is_reduction] in DN; exists (l_rule k); (split; [split; [exact DN|exists k; auto]|assumption]).
      + destruct H as [-> | ->]; discriminate TE.
      + rewrite DN. exists p, g. exact H.
      + cbn in SY. rewrite SY, DN. auto.
      + cbn in SY. rewrite SY. exact H.
    - intros q l e R I. destruct (row_entry false q l e R I) as (acts & a & Q & A & AI & TE & [DT DN] & SY). apply (fa_sound _ _ _ _ _ _ _ FA _ _ _ A) in AI. rewrite Z2Nat.id in AI by exact Q. unfold nonterminal_entry. rewrite DT. destruct AI; cbn [a_type a_item a_next a_rule is_reduction] in *; try discriminate TE.
      + rewrite DN. destruct H0 as [(s & ->)|(p & g & ->)]; [discriminate TE|]. exists p, g. auto.
      + exists x. destruct (PL _ _ _ H). split; [|auto]. rewrite SY. destruct x; try reflexivity. discriminate TE.
      + destruct H as [-> | ->]; cbn [is_reduction] in DN; exists (l_rule k); (split; [split; [exact DN|exists k; auto]|assumption]).
      + exists (l_rule k). split; [split; [exact DN|exists k; auto]|assumption].
    - intros q x q' ST _ _ NT NG. destruct (fa_goto _ _ _ _ _ _ _ FA _ _ _ ST NT NG) as (Q & acts & A & a & AI & T & X). assert (TE : is_terminal x = false) by (destruct x; try reflexivity; exfalso; eapply NT; reflexivity).
      destruct (table_goto _ _ _ _ A AI T X TE) as (l & e & F & FG & b & BI & TB & XB & NB). rewrite Z2Nat.id in F by exact Q. unfold find_goto, find_symbol. rewrite F. cbn [defined bind]. rewrite FG, NB. apply (fa_sound _ _ _ _ _ _ _ FA _ _ _ A) in BI. rewrite Z2Nat.id in BI by exact Q.
      destruct BI; try discriminate TB; [|destruct H as [-> | ->]; discriminate TB]. cbn [a_item a_next] in *. subst x0. rewrite (FN _ _ _ _ H ST). reflexivity.
    - destruct (made rid rule_of ident sort sort_weak actss weaks SO) as (ids & _ & _ & _ & _ & _ & _ & _ & _ & E & _). exact E.
    - destruct (made rid rule_of ident sort sort_weak actss weaks SO) as (ids & _ & _ & _ & _ & _ & _ & _ & _ & _ & E). exact E.
  Qed.
  Lemma made_no_accept q l e p g : row q (t_nonterminals t) = Some l -> In e l -> e_symbol e = ident (IGuard p g) -> e_type e = Accept -> False.
  Proof.
    intros R I S T. destruct (row_entry false q l e R I) as (acts & a & Q & A & AI & TE & [DT DN] & SY). apply (fa_sound _ _ _ _ _ _ _ FA _ _ _ A) in AI. destruct AI; cbn [a_type a_item symbol_of] in *; try congruence; [destruct H as [-> | ->]; congruence|].
    assert (E : ident x = ident (IGuard p g)) by (destruct H as [-> | ->]; cbn in SY; congruence). apply II in E. destruct H as [-> | ->]; discriminate E.
  Qed.
End Justified.

(** Proofs about copies of definition objects. *)

From Coq Require Import List ZArith Arith Bool Permutation Lia.
From Verif Require Import DefCopyModel DefCopySpec.
Import ListNotations.

Definition copies1 {A} (copy : nat -> A -> heap -> A * heap) (at_ : A -> nat) (below : A -> list nat)
    (content left : A -> A) (x : A) : Prop :=
  forall here h c h', copy here x h = (c, h') ->
    freed h' = freed h /\ (next h <= next h')%nat /\ at_ c = here
    /\ new_addresses h h' (below c) /\ content c = left x.

Lemma copies_iff {A} copy at_ below content left (fine : A -> Prop) :
  copies copy at_ below content left fine <-> (forall x, fine x -> copies1 copy at_ below content left x).
Proof.
  split.
  - intros H x F here h c h' E. eapply H; eauto.
  - intros H here x h c h' F E. eapply (H x F); eauto.
Qed.

Lemma NoDup_two {A} (l r : list A) : NoDup l -> NoDup r -> (forall a, In a l -> In a r -> False) -> NoDup (l ++ r).
Proof.
  induction l as [| x l IH]; intros N M D; [exact M |].
  inversion N; subst. cbn. constructor.
  - rewrite in_app_iff. intros [I | I]; [contradiction | apply (D x); [now left | exact I]].
  - apply IH; auto. intros a I J. apply (D a); [now right | exact J].
Qed.

Lemma new_app h1 h2 h3 l r :
  (next h1 <= next h2)%nat -> (next h2 <= next h3)%nat ->
  new_addresses h1 h2 l -> new_addresses h2 h3 r -> new_addresses h1 h3 (l ++ r).
Proof.
  intros L M [N F] [N' F']. split.
  - apply NoDup_two; auto. intros a I J. specialize (F a I). specialize (F' a J). lia.
  - intros a. rewrite in_app_iff. intros [I | I]; [specialize (F a I) | specialize (F' a I)]; lia.
Qed.

Lemma new_nil h h' : new_addresses h h' [].
Proof. split; [constructor | intros a []]. Qed.

Lemma new_take h h' (below : list nat) :
  (S (next h) <= next h')%nat -> new_addresses (mkHeap (S (next h)) (freed h)) h' below ->
  new_addresses h h' (next h :: below).
Proof.
  intros L [N F]. cbn in F. split.
  - constructor; auto. intros I. specialize (F _ I). lia.
  - intros a [<- | I]; [lia |]. specialize (F a I). lia.
Qed.

Lemma copy_all_good {A} copy at_ below content left (l : list A) :
  Forall (copies1 copy at_ below content left) l ->
  forall h l' h', copy_all copy l h = (l', h') ->
    freed h' = freed h /\ (next h <= next h')%nat
    /\ new_addresses h h' (with_address at_ below l') /\ map content l' = map left l.
Proof.
  induction 1 as [| x r C F IH]; intros h l' h' E; cbn in E.
  - injection E as <- <-. split; [reflexivity |]. split; [lia |]. split; [apply new_nil | reflexivity].
  - destruct (copy (next h) x (mkHeap (S (next h)) (freed h))) as [x' h2] eqn:E1.
    destruct (copy_all copy r h2) as [r' h3] eqn:E2. injection E as <- <-.
    destruct (C _ _ _ _ E1) as (F1 & L1 & A1 & N1 & S1). cbn in F1, L1.
    destruct (IH _ _ _ E2) as (F2 & L2 & N2 & S2).
    split; [congruence |]. split; [lia |]. split.
    + cbn. unfold with_address in *. cbn. rewrite A1.
      apply (new_app h h2 h3 (next h :: below x')); try lia; [| exact N2].
      now apply new_take.
    + cbn. congruence.
Qed.

Lemma copy_some_good {A} copy at_ below content left (o : option A) :
  (forall x, o = Some x -> copies1 copy at_ below content left x) ->
  forall h o' h', copy_some copy o h = (o', h') ->
    freed h' = freed h /\ (next h <= next h')%nat
    /\ new_addresses h h' (with_address_of at_ below o') /\ option_map content o' = option_map left o.
Proof.
  intros C h o' h' E. destruct o as [x |]; cbn in E.
  - destruct (copy (next h) x (mkHeap (S (next h)) (freed h))) as [x' h2] eqn:E1. injection E as <- <-.
    destruct (C x eq_refl _ _ _ _ E1) as (F1 & L1 & A1 & N1 & S1). cbn in F1, L1.
    split; [congruence |]. split; [lia |]. split.
    + cbn. rewrite A1. now apply new_take.
    + cbn. congruence.
  - injection E as <- <-. split; [reflexivity |]. split; [lia |]. split; [apply new_nil | reflexivity].
Qed.

(** Items. *)
Lemma copy_item_eq here a t s n at_ w cs h :
  copy_item here (Item a t s n at_ w cs) h
  = let '(cs', h') := copy_all copy_item cs h in (Item here None s n at_ w cs', h').
Proof.
  cbn [copy_item].
  match goal with |- (let '(_, _) := ?f cs h in _) = _ => assert (E : forall l h, f l h = copy_all copy_item l h) end.
  { induction l as [| x r IH]; intros h0; [reflexivity |]. cbn [copy_all take].
    destruct (copy_item (next h0) x (mkHeap (S (next h0)) (freed h0))) as [x' h2].
    rewrite <- IH. reflexivity. }
  rewrite E. reflexivity.
Qed.

Lemma item_rect_all (P : item -> Prop) :
  (forall a t s n at_ w cs, Forall P cs -> P (Item a t s n at_ w cs)) -> forall x, P x.
Proof.
  intros H. fix IH 1. intros [a t s n at_ w cs]. apply H.
  induction cs as [| c cs IHcs]; constructor; [apply IH | exact IHcs].
Qed.

Lemma item_copies x : copies1 copy_item i_at below_item content_item left_item x.
Proof.
  induction x as [a t s n at_ w cs IH] using item_rect_all. intros here h c h' E.
  rewrite copy_item_eq in E. destruct (copy_all copy_item cs h) as [cs' h1] eqn:E1. injection E as <- <-.
  destruct (copy_all_good _ _ _ _ _ _ IH _ _ _ E1) as (F & L & N & S1).
  repeat (match goal with |- _ /\ _ => split end); auto. cbn. now rewrite S1.
Qed.

Lemma items_copied l h l' h' : copy_all copy_item l h = (l', h') ->
  freed h' = freed h /\ (next h <= next h')%nat
  /\ new_addresses h h' (with_address i_at below_item l') /\ map content_item l' = map left_item l.
Proof. apply copy_all_good. apply Forall_forall. intros x _. apply item_copies. Qed.

(** The list that [delete] writes is the list of what belongs to the object. *)
Lemma delete_all_perm {A} (delete : A -> list nat) at_ below (l : list A) :
  Forall (fun x => Permutation (delete x) (at_ x :: below x)) l ->
  Permutation (delete_all delete l) (with_address at_ below l).
Proof.
  unfold delete_all, with_address. induction 1 as [| x r P F IH]; [reflexivity |]. cbn [flat_map]. now apply Permutation_app.
Qed.

Lemma delete_some_perm {A} (delete : A -> list nat) at_ below (o : option A) :
  (forall x, o = Some x -> Permutation (delete x) (at_ x :: below x)) ->
  Permutation (delete_some delete o) (with_address_of at_ below o).
Proof. destruct o; cbn; auto. Qed.

Lemma perm_last {A} (l r : list A) x : Permutation l r -> Permutation (l ++ [x]) (x :: r).
Proof. intros P. rewrite Permutation_app_comm. cbn. now constructor. Qed.

Lemma delete_item_perm x : Permutation (delete_item x) (i_at x :: below_item x).
Proof.
  induction x as [a t s n at_ w cs IH] using item_rect_all. cbn. apply perm_last. now apply delete_all_perm.
Qed.

Lemma delete_items_perm l : Permutation (delete_all delete_item l) (with_address i_at below_item l).
Proof. apply delete_all_perm. apply Forall_forall. intros x _. apply delete_item_perm. Qed.

Lemma destroy_item_perm x : Permutation (destroy_item x) (below_item x).
Proof. destruct x. apply delete_items_perm. Qed.

Lemma destroy_production_perm x : Permutation (destroy_production x) (below_production x).
Proof. apply delete_items_perm. Qed.

Lemma destroy_nonterminal_perm x : Permutation (destroy_nonterminal x) (below_nonterminal x).
Proof. apply delete_all_perm. apply Forall_forall. intros p _. apply perm_last, destroy_production_perm. Qed.

Lemma destroy_grammar_perm x : Permutation (destroy_grammar x) (below_grammar x).
Proof. apply delete_all_perm. apply Forall_forall. intros p _. apply perm_last, destroy_nonterminal_perm. Qed.

Lemma flat_single {A B} (f : A -> B) l : flat_map (fun x => [f x]) l = map f l.
Proof. induction l; cbn; congruence. Qed.

Lemma destroy_lexer_perm x : Permutation (destroy_lexer x) (below_lexer x).
Proof. unfold destroy_lexer, delete_all, below_lexer, delete_lexeme. rewrite flat_single. reflexivity. Qed.

Lemma destroy_tests_perm x : Permutation (destroy_tests x) (below_tests x).
Proof. unfold destroy_tests, delete_all, below_tests, delete_test. rewrite flat_single. reflexivity. Qed.

Lemma destroy_precedence_perm x : Permutation (destroy_precedence x) (below_precedence x).
Proof.
  unfold destroy_precedence, below_precedence. generalize (e_levels x). induction l as [| v r IH]; cbn; [reflexivity |].
  apply Permutation_app; [apply delete_items_perm | exact IH].
Qed.

Lemma destroy_unit_perm x : Permutation (destroy_unit x) (below_unit x).
Proof.
  unfold destroy_unit, below_unit. repeat apply Permutation_app; apply delete_some_perm; intros y _; apply perm_last.
  - apply destroy_grammar_perm.
  - apply destroy_lexer_perm.
  - apply destroy_precedence_perm.
Qed.

Lemma destroy_language_perm x : Permutation (destroy_language x) (below_language x).
Proof. apply delete_all_perm. apply Forall_forall. intros p _. apply perm_last, destroy_unit_perm. Qed.

Lemma destroy_toplevel_perm x : Permutation (destroy_toplevel x) (below_toplevel x).
Proof.
  unfold destroy_toplevel, below_toplevel. rewrite Permutation_app_swap_app.
  repeat apply Permutation_app; apply delete_some_perm; intros y _.
  - apply perm_last, destroy_language_perm.
  - reflexivity.
  - reflexivity.
  - apply perm_last, destroy_tests_perm.
Qed.

Lemma destroy_file_perm x : Permutation (destroy_file x) (below_file x).
Proof. apply delete_all_perm. apply Forall_forall. intros p _. apply perm_last, destroy_toplevel_perm. Qed.

(** Assignments. *)
Lemma new_free h h' gone l : new_addresses (free gone h) h' l -> new_addresses h h' l.
Proof. intros [N F]. split; auto. Qed.

Lemma item_assigned : assigns assign_item i_at below_item content_item mixed_item (fun _ _ => True).
Proof.
  intros this x h r h' _ E. destruct x as [a t s n at_ w cs]. cbn in E.
  destruct (copy_all copy_item cs (free (destroy_item this) h)) as [cs' h1] eqn:E1. injection E as <- <-.
  destruct (items_copied _ _ _ _ E1) as (F & L & N & S1). cbn in F, L.
  split; [eexists; split; [exact F | apply destroy_item_perm] |]. split; [exact L |]. split; [reflexivity |].
  split; [now apply new_free in N |]. cbn. now rewrite S1.
Qed.

Lemma production_assigned : assigns assign_production pr_at below_production content_production mixed_production (fun _ _ => True).
Proof.
  intros this x h r h' _ E. cbn in E.
  destruct (copy_all copy_item (pr_items x) (free (destroy_production this) h)) as [cs' h1] eqn:E1. injection E as <- <-.
  destruct (items_copied _ _ _ _ E1) as (F & L & N & S1). cbn in F, L.
  split; [eexists; split; [exact F | apply destroy_production_perm] |]. split; [exact L |]. split; [reflexivity |].
  split; [now apply new_free in N |]. unfold content_production, mixed_production, left_production. cbn. now rewrite S1.
Qed.

(** A copy constructor which is an assignment to an object that owns
    nothing. *)
Lemma copy_of_assign {A} (assign : A -> option A -> heap -> A * heap) at_ below content mixed (left : A -> A) (fine : A -> Prop) blank :
  assigns assign at_ below content mixed (fun this x => below this = [] /\ fine x) ->
  (forall here, below (blank here) = [] /\ at_ (blank here) = here) ->
  (forall here x, mixed (blank here) x = left x) ->
  copies (fun here x h => assign (blank here) (Some x) h) at_ below content left fine.
Proof.
  intros H B M here x h c h' F E. destruct (B here) as [B1 B2].
  destruct (H _ _ _ _ _ (conj B1 F) E) as ((gone & G & P) & L & A1 & N & S1).
  rewrite B1 in P. apply Permutation_sym, Permutation_nil in P. subst gone. rewrite app_nil_r in G.
  split; [exact G |]. split; [exact L |]. split; [congruence |]. split; [exact N |]. now rewrite S1, M.
Qed.

Lemma assigns_weaken {A} (assign : A -> option A -> heap -> A * heap) at_ below content mixed (p q : A -> A -> Prop) :
  (forall a b, q a b -> p a b) -> assigns assign at_ below content mixed p -> assigns assign at_ below content mixed q.
Proof. intros I H this x h r h' F E. eapply H; eauto. Qed.

Lemma production_copies : copies copy_production pr_at below_production content_production left_production (fun _ => True).
Proof.
  apply (copy_of_assign assign_production _ _ _ mixed_production _ _ (fun here => mkProduction here span0 [])).
  - eapply assigns_weaken; [| apply production_assigned]. cbn. auto.
  - intros here. now split.
  - reflexivity.
Qed.

Lemma all_copied {A} copy at_ below content left (l : list A) h l' h' :
  copies copy at_ below content left (fun _ => True) -> copy_all copy l h = (l', h') ->
  freed h' = freed h /\ (next h <= next h')%nat
  /\ new_addresses h h' (with_address at_ below l') /\ map content l' = map left l.
Proof. intros C. apply copy_all_good. apply Forall_forall. intros x _. now apply (proj1 (copies_iff _ _ _ _ _ _) C). Qed.

Lemma nonterminal_assigned : assigns assign_nonterminal n_at below_nonterminal content_nonterminal mixed_nonterminal (fun _ _ => True).
Proof.
  intros this x h r h' _ E. cbn in E.
  destruct (copy_all copy_production (n_productions x) (free (destroy_nonterminal this) h)) as [cs' h1] eqn:E1. injection E as <- <-.
  destruct (all_copied _ _ _ _ _ _ _ _ _ production_copies E1) as (F & L & N & S1). cbn in F, L.
  split; [eexists; split; [exact F | apply destroy_nonterminal_perm] |]. split; [exact L |]. split; [reflexivity |].
  split; [now apply new_free in N |]. unfold content_nonterminal, mixed_nonterminal. cbn. now rewrite S1.
Qed.

Lemma nonterminal_copies : copies copy_nonterminal n_at below_nonterminal content_nonterminal left_nonterminal (fun _ => True).
Proof.
  apply (copy_of_assign assign_nonterminal _ _ _ mixed_nonterminal _ _ (fun here => mkNonterminal here None [] span0 [])).
  - eapply assigns_weaken; [| apply nonterminal_assigned]. cbn. auto.
  - intros here. now split.
  - reflexivity.
Qed.

Lemma grammar_assigned : assigns assign_grammar g_at below_grammar content_grammar mixed_grammar (fun _ _ => True).
Proof.
  intros this x h r h' _ E. unfold assign_grammar in E.
  destruct (copy_all copy_nonterminal (g_nonterminals x) (free (destroy_grammar this) h)) as [cs' h1] eqn:E1. injection E as <- <-.
  destruct (all_copied _ _ _ _ _ _ _ _ _ nonterminal_copies E1) as (F & L & N & S1). cbn in F, L.
  split; [eexists; split; [exact F | apply destroy_grammar_perm] |]. split; [exact L |]. split; [reflexivity |].
  split; [now apply new_free in N |]. unfold content_grammar, mixed_grammar. cbn. now rewrite S1.
Qed.

Lemma grammar_copies : copies copy_grammar g_at below_grammar content_grammar left_grammar (fun _ => True).
Proof.
  apply (copy_of_assign assign_grammar _ _ _ mixed_grammar _ _ (fun here => mkGrammar here span0 [])).
  - eapply assigns_weaken; [| apply grammar_assigned]. cbn. auto.
  - intros here. now split.
  - reflexivity.
Qed.

Lemma lexeme_copies : copies copy_lexeme l_at (fun _ => []) content_lexeme content_lexeme (fun _ => True).
Proof. intros here x h c h' _ E. injection E as <- <-. repeat (match goal with |- _ /\ _ => split end); auto using new_nil. Qed.

Lemma test_copies : copies copy_test t_at (fun _ => []) content_test content_test (fun _ => True).
Proof. intros here x h c h' _ E. injection E as <- <-. repeat (match goal with |- _ /\ _ => split end); auto using new_nil. Qed.

Lemma import_copies : copies copy_import m_at (fun _ => []) content_import content_import (fun _ => True).
Proof. intros here x h c h' _ E. injection E as <- <-. repeat (match goal with |- _ /\ _ => split end); auto using new_nil. Qed.

Lemma parser_copies : copies copy_parser r_at (fun _ => []) content_parser content_parser (fun _ => True).
Proof. intros here x h c h' _ E. injection E as <- <-. repeat (match goal with |- _ /\ _ => split end); auto using new_nil. Qed.

Lemma lexer_assigned : assigns assign_lexer x_at below_lexer content_lexer mixed_lexer (fun _ _ => True).
Proof.
  intros this x h r h' _ E. cbn in E.
  destruct (copy_all copy_lexeme (x_lexemes x) (free (destroy_lexer this) h)) as [cs' h1] eqn:E1. injection E as <- <-.
  destruct (all_copied _ _ _ _ _ _ _ _ _ lexeme_copies E1) as (F & L & N & S1). cbn in F, L.
  split; [eexists; split; [exact F | apply destroy_lexer_perm] |]. split; [exact L |]. split; [reflexivity |].
  split.
  - apply new_free in N. unfold below_lexer. cbn. unfold with_address in N. now rewrite flat_single in N.
  - unfold content_lexer, mixed_lexer. cbn. now rewrite S1.
Qed.

Lemma lexer_copies : copies copy_lexer x_at below_lexer content_lexer left_lexer (fun _ => True).
Proof.
  apply (copy_of_assign assign_lexer _ _ _ mixed_lexer _ _ (fun here => mkLexer here None None None span0 [])).
  - eapply assigns_weaken; [| apply lexer_assigned]. cbn. auto.
  - intros here. now split.
  - reflexivity.
Qed.

Lemma tests_assigned : assigns assign_tests k_at below_tests content_tests mixed_tests (fun _ _ => True).
Proof.
  intros this x h r h' _ E. cbn in E.
  destruct (copy_all copy_test (k_tests x) (free (destroy_tests this) h)) as [cs' h1] eqn:E1. injection E as <- <-.
  destruct (all_copied _ _ _ _ _ _ _ _ _ test_copies E1) as (F & L & N & S1). cbn in F, L.
  split; [eexists; split; [exact F | apply destroy_tests_perm] |]. split; [exact L |]. split; [reflexivity |].
  split.
  - apply new_free in N. unfold below_tests. cbn. unfold with_address in N. now rewrite flat_single in N.
  - unfold content_tests, mixed_tests. cbn. now rewrite S1.
Qed.

Lemma tests_copies : copies copy_tests k_at below_tests content_tests left_tests (fun _ => True).
Proof.
  apply (copy_of_assign assign_tests _ _ _ mixed_tests _ _ (fun here => mkTests here [] span0 [])).
  - eapply assigns_weaken; [| apply tests_assigned]. cbn. auto.
  - intros here. now split.
  - reflexivity.
Qed.

Lemma plain_below x : plain_precedence x -> below_precedence x = [].
Proof.
  unfold plain_precedence, below_precedence. induction 1 as [| v r E F IH]; [reflexivity |]. cbn. rewrite E, IH. reflexivity.
Qed.

Lemma precedence_copies : copies copy_precedence e_at below_precedence content_precedence content_precedence plain_precedence.
Proof.
  intros here x h c h' P E. injection E as <- <-. repeat (match goal with |- _ /\ _ => split end); auto.
  apply plain_below in P. unfold below_precedence in *. cbn. rewrite P. apply new_nil.
Qed.

Lemma one {A} copy at_ below content left (fine : A -> Prop) x :
  copies copy at_ below content left fine -> fine x -> copies1 copy at_ below content left x.
Proof. intros C F. now apply (proj1 (copies_iff _ _ _ _ _ _) C). Qed.

Lemma unit_assigned : assigns assign_unit u_at below_unit content_unit (fun _ x => left_unit x) (fun _ x => plain_unit x).
Proof.
  intros this x h r h' PL E. cbn in E.
  destruct (copy_some copy_grammar (u_grammar x) (free (destroy_unit this) h)) as [g h1] eqn:E1.
  destruct (copy_some copy_lexer (u_lexer x) h1) as [l h2] eqn:E2.
  destruct (copy_some copy_precedence (u_precedence x) h2) as [e h3] eqn:E3. injection E as <- <-.
  destruct (copy_some_good _ _ _ _ _ _ (fun y _ => one _ _ _ _ _ _ y grammar_copies Logic.I) _ _ _ E1) as (F1 & L1 & N1 & S1).
  destruct (copy_some_good _ _ _ _ _ _ (fun y _ => one _ _ _ _ _ _ y lexer_copies Logic.I) _ _ _ E2) as (F2 & L2 & N2 & S2).
  destruct (copy_some_good _ _ _ _ _ _ (fun y H => one _ _ _ _ _ _ y precedence_copies (PL y H)) _ _ _ E3) as (F3 & L3 & N3 & S3).
  cbn in F1, L1.
  split; [exists (destroy_unit this); split; [congruence | apply destroy_unit_perm] |]. split; [lia |]. split; [reflexivity |].
  split.
  - apply new_free in N1. unfold below_unit. cbn.
    apply (new_app h h1 h3); try lia; [exact N1 |]. apply (new_app h1 h2 h3); try lia; [exact N2 | exact N3].
  - unfold content_unit, left_unit. cbn. congruence.
Qed.

Lemma unit_copies : copies copy_unit u_at below_unit content_unit left_unit plain_unit.
Proof.
  apply (copy_of_assign assign_unit _ _ _ (fun _ x => left_unit x) _ _ (fun here => mkUnit here None span0 None None None)).
  - eapply assigns_weaken; [| apply unit_assigned]. intros a b [_ F]. exact F.
  - intros here. now split.
  - reflexivity.
Qed.

Lemma language_assigned : assigns assign_language b_at below_language content_language (fun _ x => left_language x) (fun _ x => plain_language x).
Proof.
  intros this x h r h' PL E. cbn in E.
  destruct (copy_all copy_unit (b_units x) (free (destroy_language this) h)) as [cs' h1] eqn:E1. injection E as <- <-.
  assert (PL' : Forall (copies1 copy_unit u_at below_unit content_unit left_unit) (b_units x)).
  { eapply Forall_impl; [| exact PL]. intros u. apply one, unit_copies. }
  destruct (copy_all_good _ _ _ _ _ _ PL' _ _ _ E1) as (F & L & N & S1). cbn in F, L.
  split; [eexists; split; [exact F | apply destroy_language_perm] |]. split; [exact L |]. split; [reflexivity |].
  split; [now apply new_free in N |]. unfold content_language, left_language. cbn. now rewrite S1.
Qed.

Lemma language_copies : copies copy_language b_at below_language content_language left_language plain_language.
Proof.
  apply (copy_of_assign assign_language _ _ _ (fun _ x => left_language x) _ _ (fun here => mkLanguage here [] [] span0 [])).
  - eapply assigns_weaken; [| apply language_assigned]. intros a b [_ F]. exact F.
  - intros here. now split.
  - reflexivity.
Qed.

Lemma or_old_same {A} (o o' old : option A) (f g : A -> A) :
  option_map f o' = option_map g o -> (old <> None -> o <> None) -> or_old o' old = o'.
Proof.
  intros E C. destruct o' as [y |]; [reflexivity |]. cbn. destruct old as [z |]; [| reflexivity].
  destruct o as [u |]; [discriminate |]. exfalso. apply C; [discriminate | reflexivity].
Qed.

Lemma toplevel_assigned :
  assigns assign_toplevel o_at below_toplevel content_toplevel (fun _ x => left_toplevel x)
          (fun this x => covers this x /\ plain_toplevel x).
Proof.
  intros this x h r h' [(C1 & C2 & C3 & C4) PL] E. cbn in E.
  destruct (copy_some copy_language (o_language x) (free (destroy_toplevel this) h)) as [l h1] eqn:E1.
  destruct (copy_some copy_import (o_import x) h1) as [i h2] eqn:E2.
  destruct (copy_some copy_parser (o_parser x) h2) as [p h3] eqn:E3.
  destruct (copy_some copy_tests (o_tests x) h3) as [t h4] eqn:E4. injection E as <- <-.
  destruct (copy_some_good _ _ _ _ _ _ (fun y H => one _ _ _ _ _ _ y language_copies (PL y H)) _ _ _ E1) as (F1 & L1 & N1 & S1).
  destruct (copy_some_good _ _ _ _ _ _ (fun y _ => one _ _ _ _ _ _ y import_copies Logic.I) _ _ _ E2) as (F2 & L2 & N2 & S2).
  destruct (copy_some_good _ _ _ _ _ _ (fun y _ => one _ _ _ _ _ _ y parser_copies Logic.I) _ _ _ E3) as (F3 & L3 & N3 & S3).
  destruct (copy_some_good _ _ _ _ _ _ (fun y _ => one _ _ _ _ _ _ y tests_copies Logic.I) _ _ _ E4) as (F4 & L4 & N4 & S4).
  cbn in F1, L1.
  rewrite (or_old_same _ _ _ _ _ S1 C1), (or_old_same _ _ _ _ _ S2 C2), (or_old_same _ _ _ _ _ S3 C3), (or_old_same _ _ _ _ _ S4 C4).
  split; [exists (destroy_toplevel this); split; [congruence | apply destroy_toplevel_perm] |]. split; [lia |]. split; [reflexivity |].
  split.
  - apply new_free in N1. unfold below_toplevel. cbn.
    apply (new_app h h1 h4); try lia; [exact N1 |]. apply (new_app h1 h2 h4); try lia; [exact N2 |].
    apply (new_app h2 h3 h4); try lia; [exact N3 | exact N4].
  - unfold content_toplevel, left_toplevel. cbn. congruence.
Qed.

Lemma toplevel_copies : copies copy_toplevel o_at below_toplevel content_toplevel left_toplevel plain_toplevel.
Proof.
  pose proof toplevel_assigned as H.
  intros here x h c h' F E.
  assert (C : covers (mkToplevel here span0 None None None None) x) by (repeat split; intros K; now destruct K).
  destruct (H _ _ _ _ _ (conj C F) E) as ((gone & G & P) & L & A1 & N & S1).
  change (below_toplevel _) with (@nil nat) in P at 1. apply Permutation_sym, Permutation_nil in P. subst gone.
  rewrite app_nil_r in G. now repeat (match goal with |- _ /\ _ => split end).
Qed.

(** Files. *)
Lemma add_copies_eq l : forall f h, add_copies f l h
  = let '(l', h') := copy_all copy_toplevel l h in (fold_left add_block l' f, h').
Proof.
  induction l as [| b r IH]; intros f h; [reflexivity |]. cbn [add_copies copy_all take].
  destruct (copy_toplevel (next h) b (mkHeap (S (next h)) (freed h))) as [b' h2]. rewrite IH.
  now destruct (copy_all copy_toplevel r h2).
Qed.

Lemma fold_blocks l : forall f, f_blocks (fold_left add_block l f) = f_blocks f ++ l /\ f_at (fold_left add_block l f) = f_at f.
Proof.
  induction l as [| b r IH]; intros f; cbn; [now rewrite app_nil_r |].
  destruct (IH (add_block f b)) as [I J]. rewrite I, J. cbn. rewrite <- app_assoc. now split.
Qed.

Lemma fold_span l : forall l' f f', map o_span l = map o_span l' -> f_span f = f_span f' ->
  length (f_blocks f) = length (f_blocks f') -> f_span (fold_left add_block l f) = f_span (fold_left add_block l' f').
Proof.
  induction l as [| b r IH]; intros [| b' r'] f f' E S1 L; try discriminate; [exact S1 |].
  cbn in E. injection E as E1 E2. cbn. apply IH; [exact E2 | |].
  - unfold add_block. cbn. rewrite E1, S1. destruct (f_blocks f), (f_blocks f'); try discriminate; reflexivity.
  - cbn. rewrite !app_length. cbn. lia.
Qed.

Lemma spans_left l l' : map content_toplevel l' = map left_toplevel l -> map o_span l' = map o_span l.
Proof.
  revert l'. induction l as [| b r IH]; intros [| b' r'] E; try discriminate; [reflexivity |].
  cbn [map] in E. inversion E as [[E1 E2 E3 E4 E5 E6]]. cbn. now rewrite E1, (IH r').
Qed.

Lemma file_assigned :
  assigns assign_file f_at below_file content_file (fun _ x => left_file x) (fun _ x => plain_file x /\ made x).
Proof.
  intros this x h r h' (PL & here & l & M) E. cbn in E. rewrite add_copies_eq in E.
  destruct (copy_all copy_toplevel (f_blocks x) (free (destroy_file this) h)) as [l' h1] eqn:E1. injection E as <- <-.
  assert (PL' : Forall (copies1 copy_toplevel o_at below_toplevel content_toplevel left_toplevel) (f_blocks x)).
  { eapply Forall_impl; [| exact PL]. intros u. apply one, toplevel_copies. }
  destruct (copy_all_good _ _ _ _ _ _ PL' _ _ _ E1) as (F & L & N & S1). cbn in F, L.
  destruct (fold_blocks l' (mkFile (f_at this) span0 [])) as [B A1]. cbn in B, A1.
  split; [eexists; split; [exact F | apply destroy_file_perm] |]. split; [exact L |]. split; [exact A1 |].
  split.
  - unfold below_file. rewrite B. now apply new_free in N.
  - unfold content_file, left_file. rewrite B, S1. f_equal.
    destruct (fold_blocks l (empty_file here)) as [B2 _]. cbn in B2. rewrite <- M in B2.
    apply spans_left in S1. rewrite B2 in S1. rewrite M.
    apply fold_span; [exact S1 | reflexivity | reflexivity].
Qed.

Lemma file_copies : copies copy_file f_at below_file content_file left_file (fun x => plain_file x /\ made x).
Proof.
  apply (copy_of_assign assign_file _ _ _ (fun _ x => left_file x) _ _ empty_file).
  - eapply assigns_weaken; [| apply file_assigned]. intros a b [_ F]. exact F.
  - intros here. now split.
  - reflexivity.
Qed.

(** What a copy shares with its original. *)
Definition kept {A} (copy : nat -> A -> heap -> A * heap) (below : A -> list nat) (a : nat) (x : A) : Prop :=
  forall here h c h', copy here x h = (c, h') -> In a (below c).

Lemma kept_all {A} copy (at_ : A -> nat) below a x l :
  In x l -> kept copy below a x -> forall h l' h', copy_all copy l h = (l', h') -> In a (with_address at_ below l').
Proof.
  intros I K. induction l as [| y r IH]; [destruct I |]. intros h l' h' E. cbn [copy_all take] in E.
  destruct (copy (next h) y (mkHeap (S (next h)) (freed h))) as [y' h2] eqn:E1.
  destruct (copy_all copy r h2) as [r' h3] eqn:E2. injection E as <- <-.
  unfold with_address. cbn [flat_map]. rewrite in_app_iff. destruct I as [-> | I].
  - left. right. eapply K; eauto.
  - right. eapply IH; eauto.
Qed.

Lemma kept_some {A} copy (at_ : A -> nat) below a x :
  kept copy below a x -> forall h l' h', copy_some copy (Some x) h = (l', h') -> In a (with_address_of at_ below l').
Proof.
  intros K h l' h' E. cbn in E.
  destruct (copy (next h) x (mkHeap (S (next h)) (freed h))) as [y' h2] eqn:E1. injection E as <- <-.
  cbn. right. eapply K; eauto.
Qed.

Lemma unit_keeps a e u : u_precedence u = Some e -> In a (below_precedence e) -> kept copy_unit below_unit a u.
Proof.
  intros E I here h c h' C. cbn in C. rewrite E in C.
  destruct (copy_some copy_grammar (u_grammar u) _) as [g h1].
  destruct (copy_some copy_lexer (u_lexer u) h1) as [l h2]. cbn in C. injection C as <- <-.
  unfold below_unit. cbn. rewrite !in_app_iff. right. right. right. exact I.
Qed.

Lemma language_keeps a u l : In u (b_units l) -> kept copy_unit below_unit a u -> kept copy_language below_language a l.
Proof.
  intros I K here h c h' C. cbn in C.
  destruct (copy_all copy_unit (b_units l) _) as [us h1] eqn:E1. injection C as <- <-.
  unfold below_language. cbn. eapply kept_all; eauto.
Qed.

Lemma toplevel_keeps a l b : o_language b = Some l -> kept copy_language below_language a l -> kept copy_toplevel below_toplevel a b.
Proof.
  intros E K here h c h' C. unfold copy_toplevel, assign_toplevel in C. rewrite E in C.
  destruct (copy_some copy_language (Some l) _) as [y h1] eqn:E1.
  apply (kept_some _ b_at _ _ _ K) in E1.
  destruct (copy_some copy_import _ h1) as [i h2], (copy_some copy_parser _ h2) as [p h3], (copy_some copy_tests _ h3) as [t h4].
  injection C as <- <-. unfold below_toplevel. cbn. rewrite in_app_iff. left. destruct y as [y |]; [exact E1 | destruct E1].
Qed.

Lemma file_keeps a b f : In b (f_blocks f) -> kept copy_toplevel below_toplevel a b -> kept copy_file below_file a f.
Proof.
  intros I K here h c h' C. cbn in C. rewrite add_copies_eq in C.
  destruct (copy_all copy_toplevel (f_blocks f) _) as [l' h1] eqn:E1. injection C as <- <-.
  unfold below_file. rewrite (proj1 (fold_blocks _ _)). cbn. eapply kept_all; eauto.
Qed.

Lemma in_below {A} (at_ : A -> nat) below a x l : In x l -> In a (below x) -> In a (with_address at_ below l).
Proof. intros I J. unfold with_address. apply in_flat_map. exists x. split; [exact I | now right]. Qed.

Lemma twice {A} (a : A) l r : In a l -> In a r -> ~ NoDup (l ++ r).
Proof.
  intros I J N. induction l as [| x l IH]; [destruct I |]. inversion N; subst.
  destruct I as [-> | I]; [apply H1; rewrite in_app_iff; now right | now apply IH].
Qed.

Lemma memory here f h c h' : made f -> NoDup (below_file f) -> (forall a, In a (below_file f) -> (a < next h)%nat) ->
  copy_file here f h = (c, h') -> (NoDup (destroy_file f ++ destroy_file c) <-> plain_file f).
Proof.
  intros M N B C.
  assert (P : Permutation (destroy_file f ++ destroy_file c) (below_file f ++ below_file c))
    by (apply Permutation_app; apply destroy_file_perm).
  split.
  - intros D. apply (Permutation_NoDup P) in D.
    unfold plain_file. apply Forall_forall. intros b Ib l El. unfold plain_language. apply Forall_forall.
    intros u Iu e Ee. unfold plain_precedence. apply Forall_forall. intros v Iv.
    destruct (v_items v) as [| i r] eqn:Ei; [reflexivity | exfalso].
    assert (Ia : In (i_at i) (below_precedence e)).
    { unfold below_precedence. apply in_flat_map. exists v. split; [exact Iv |]. rewrite Ei. cbn. now left. }
    refine (twice (i_at i) _ _ _ _ D).
    + apply (in_below _ _ _ b); [exact Ib |]. unfold below_toplevel. rewrite El. cbn. right. rewrite in_app_iff. left.
      apply (in_below _ _ _ u); [exact Iu |]. unfold below_unit. rewrite Ee, !in_app_iff. right. right. right. exact Ia.
    + eapply file_keeps; [exact Ib | | exact C]. eapply toplevel_keeps; [exact El |].
      eapply language_keeps; [exact Iu |]. eapply unit_keeps; eauto.
  - intros PL. apply (Permutation_NoDup (Permutation_sym P)).
    destruct (file_copies _ _ _ _ _ (conj PL M) C) as (_ & _ & _ & [N2 F2] & _).
    apply NoDup_two; auto. intros a I J. specialize (B a I). specialize (F2 a J). lia.
Qed.

Lemma kinds this x h r h' : plain_toplevel x -> NoDup (below_toplevel this) ->
  (forall a, In a (below_toplevel this) -> (a < next h)%nat) -> freed h = [] ->
  assign_toplevel this (Some x) h = (r, h') -> (NoDup (freed h' ++ destroy_toplevel r) <-> covers this x).
Proof.
  intros PL N B F E. split.
  - intros D.
    assert (P : Permutation (freed h' ++ destroy_toplevel r) (below_toplevel this ++ below_toplevel r)).
    { apply Permutation_app; [| apply destroy_toplevel_perm]. clear D. cbn in E.
      destruct (copy_some copy_language (o_language x) (free (destroy_toplevel this) h)) as [l h1] eqn:E1.
      destruct (copy_some copy_import (o_import x) h1) as [i h2] eqn:E2.
      destruct (copy_some copy_parser (o_parser x) h2) as [p h3] eqn:E3.
      destruct (copy_some copy_tests (o_tests x) h3) as [t h4] eqn:E4. injection E as <- <-.
      destruct (copy_some_good _ _ _ _ _ _ (fun y H => one _ _ _ _ _ _ y language_copies (PL y H)) _ _ _ E1) as (F1 & _).
      destruct (copy_some_good _ _ _ _ _ _ (fun y _ => one _ _ _ _ _ _ y import_copies Logic.I) _ _ _ E2) as (F2 & _).
      destruct (copy_some_good _ _ _ _ _ _ (fun y _ => one _ _ _ _ _ _ y parser_copies Logic.I) _ _ _ E3) as (F3 & _).
      destruct (copy_some_good _ _ _ _ _ _ (fun y _ => one _ _ _ _ _ _ y tests_copies Logic.I) _ _ _ E4) as (F4 & _).
      cbn in F1. rewrite F4, F3, F2, F1, F. apply destroy_toplevel_perm. }
    apply (Permutation_NoDup P) in D. clear P.
    cbn in E.
    destruct (copy_some copy_language (o_language x) (free (destroy_toplevel this) h)) as [l h1] eqn:E1.
    destruct (copy_some copy_import (o_import x) h1) as [i h2] eqn:E2.
    destruct (copy_some copy_parser (o_parser x) h2) as [p h3] eqn:E3.
    destruct (copy_some copy_tests (o_tests x) h3) as [t h4] eqn:E4. injection E as <- <-.
    unfold covers. repeat (match goal with |- _ /\ _ => split end).
    + destruct (o_language this) as [y |] eqn:Y; [| congruence]. intros _ Q. rewrite Q in E1. injection E1 as <- <-.
      refine (twice (b_at y) _ _ _ _ D); unfold below_toplevel; cbn; rewrite ?Y; cbn; now left.
    + destruct (o_import this) as [y |] eqn:Y; [| congruence]. intros _ Q. rewrite Q in E2. injection E2 as <- <-.
      refine (twice (m_at y) _ _ _ _ D); unfold below_toplevel; cbn; rewrite ?Y, !in_app_iff; cbn; tauto.
    + destruct (o_parser this) as [y |] eqn:Y; [| congruence]. intros _ Q. rewrite Q in E3. injection E3 as <- <-.
      refine (twice (r_at y) _ _ _ _ D); unfold below_toplevel; cbn; rewrite ?Y, !in_app_iff; cbn; tauto.
    + destruct (o_tests this) as [y |] eqn:Y; [| congruence]. intros _ Q. rewrite Q in E4. injection E4 as <- <-.
      refine (twice (k_at y) _ _ _ _ D); unfold below_toplevel; cbn; rewrite ?Y, !in_app_iff; cbn; tauto.
  - intros C. destruct (toplevel_assigned _ _ _ _ _ (conj C PL) E) as ((gone & G & P) & L & _ & [N2 F2] & _).
    rewrite F in G. cbn in G. rewrite G.
    assert (Q : Permutation (below_toplevel this ++ below_toplevel r) (gone ++ destroy_toplevel r))
      by (apply Permutation_app; apply Permutation_sym; [exact P | apply destroy_toplevel_perm]).
    apply (Permutation_NoDup Q). apply NoDup_two; auto. intros a I J. specialize (B a I). specialize (F2 a J). lia.
Qed.

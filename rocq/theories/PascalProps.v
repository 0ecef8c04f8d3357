(** C98: the comments of the example language Pascal. *)
From Coq Require Import String.
From Verif Require Import Base SymbolSetModel SymbolSetSpec NdfaModel NdfaSpec TextModel TextSpec CaseTables NamesModel
  RegexModel RegexSpec RegexProofs RegexDefsProofs RegexTokenProofs RegexProps CommentSpec CommentProofs PascalModel PascalSpec PascalProofs.
Local Open Scope string_scope.
Local Open Scope list_scope.
Local Open Scope Z_scope.

(** [d] is the automaton made for the symbol commentary, with the action 5, by as much fuel as it takes. *)
Definition commentary_lexer (d : ndfa Z) : Prop :=
  exists fuel0, forall fuel, (fuel0 <= fuel)%nat -> add_tokens no_names no_names no_category no_defs fuel ndfa_new false [(false, commentary_token, 5)] = Some d.
Lemma commentary_accepts : exists d, commentary_lexer d /\ forall w, accepts d 0 w 5 <-> exists o b c, opens o /\ closes c /\ texts b /\ w = o ++ b ++ c.
Proof.
  destruct (C11_tokens_partial Z no_names no_names no_category no_defs false [(false, TRegex commentary_re, 5)]) as (d & k & E & _ & AC); [constructor; [exact commentary_ok|constructor]|].
  exists d. split; [exists k; intros fuel F; rewrite commentary_text; exact (E fuel F)|]. intros w. rewrite AC, <- commentary_words. split; [intros (n & t & [I|[]] & M); injection I as <- <-; exact M|intros M; exists false, (TRegex commentary_re); split; [left; reflexivity|exact M]].
Qed.

(** What the lexer takes for a comment begins and ends like one.  Among the texts in which, behind the beginning, no
    star stands before a star or a curly bracket, it takes exactly the comments of Pascal.  Missing from the full
    property: texts with such stars, see below. *)
Theorem C98_comments_partial : exists d, commentary_lexer d /\
  (forall w, accepts d 0 w 5 -> exists o b c, opens o /\ closes c /\ w = o ++ b ++ c) /\
  forall o t, opens o -> Forall (fun c => 0 <= c < c_MaxSymbol) t -> ~ adjacent 42 42 t -> ~ adjacent 42 125 t ->
    (accepts d 0 (o ++ t) 5 <-> pascal_comment (o ++ t)).
Proof.
  destruct commentary_accepts as (d & D & AC). exists d. split; [exact D|]. split; [intros w H; apply AC in H; destruct H as (o & b & c & O & C & _ & ->); exists o, b, c; auto|].
  intros o t O R A1 A2. rewrite AC. split.
  - intros (o' & b & c & O' & C & B & E). destruct (opens_inj _ _ _ _ O O' E) as [<- ->]. destruct (texts_plain _ _ B A1 A2) as [I A]. exists o, b, c. auto.
  - intros (o' & b & c & O' & C & E & I & A). destruct (opens_inj _ _ _ _ O O' E) as [<- ->]. apply Forall_app in R. exists o, b, c. split; [exact O|]. split; [exact C|]. split; [exact (plain_texts c _ C b (le_n _) (proj1 R) A1 A2 I A)|reflexivity].
Qed.
Print Assumptions C98_comments_partial.

(** Not every comment is one: the lexer does not take a comment with a star before the closing curly bracket. *)
Theorem C98_missed_refuted : exists d, commentary_lexer d /\ pascal_comment (codes "{*}") /\ ~ accepts d 0 (codes "{*}") 5.
Proof.
  destruct commentary_accepts as (d & D & AC). exists d. split; [exact D|]. split.
  - exists [123], [42], [125]. split; [left; reflexivity|]. split; [left; reflexivity|]. split; [reflexivity|]. split; [intros [E|[]]; discriminate E|apply adjacent_none].
  - intros H. apply AC in H. destruct H as (o & b & c & O & C & B & E). change (codes "{*}") with ([123] ++ [42] ++ [125]) in E. destruct (opens_inj [123] o _ _ (or_introl eq_refl) O E) as [<- E']. destruct C as [->| ->].
    + apply app_inv_tail in E'. subst b. inversion B; subst; congruence.
    + destruct b as [|x [|y b]]; cbn in E'; try discriminate E'. injection E' as _ _ E'. destruct b; discriminate E'.
Qed.
Print Assumptions C98_missed_refuted.

(** Code is taken for a comment: two comments and the statement between them are one comment for the lexer. *)
Theorem C98_swallows_refuted : exists d a code b, commentary_lexer d /\ pascal_comment a /\ code = codes " x := 1; " /\ pascal_comment b /\
  accepts d 0 (a ++ code ++ b) 5 /\ ~ pascal_comment (a ++ code ++ b).
Proof.
  destruct commentary_accepts as (d & D & AC). exists d, (codes "(* a **)"), (codes " x := 1; "), (codes "{ b }"). split; [exact D|].
  split.
  { exists [40; 42], (codes " a *"), [42; 41]. split; [right; reflexivity|]. split; [right; reflexivity|]. split; [reflexivity|]. split; [vm_compute; intuition discriminate|]. cbn. rewrite !adjacent_cons. intros H. repeat match type of H with _ \/ _ => destruct H as [(E & v & F)|H]; [discriminate E || discriminate F|] end. destruct H as ([|? ?] & ? & H); discriminate H. }
  split; [reflexivity|]. split.
  { exists [123], (codes " b "), [125]. split; [left; reflexivity|]. split; [left; reflexivity|]. split; [reflexivity|]. split; [vm_compute; intuition discriminate|]. cbn. rewrite !adjacent_cons. intros H. repeat match type of H with _ \/ _ => destruct H as [(E & v & F)|H]; [discriminate E || discriminate F|] end. destruct H as ([|? ?] & ? & H); discriminate H. }
  split.
  - apply AC. exists [40; 42], (codes " a **) x := 1; { b "), [125]. split; [right; reflexivity|]. split; [left; reflexivity|]. split; [|reflexivity]. vm_compute. repeat (first [apply texts_none|apply texts_other; [unfold c_MaxSymbol; lia|discriminate|discriminate|]|apply texts_star; [unfold c_MaxSymbol; lia|discriminate|]]).
  - intros (o & b & c & O & C & E & I & A). change (codes "(* a **)" ++ codes " x := 1; " ++ codes "{ b }") with ([40; 42] ++ codes " a **) x := 1; { b " ++ [125]) in E. destruct (opens_inj [40; 42] o _ _ (or_intror eq_refl) O E) as [<- E']. destruct C as [->| ->].
    + apply app_inv_tail in E'. subst b. apply A. exists (codes " a *"), (codes " x := 1; { b "). reflexivity.
    + change [42; 41] with ([42] ++ [41]) in E'. rewrite app_assoc in E'. apply app_inj_tail in E'. destruct E' as [_ E']. discriminate E'.
Qed.
Print Assumptions C98_swallows_refuted.

(** A comment that begins with one kind of bracket, ends with the other, and has stars in it *)
Example C98_nontrivial : opens [40; 42] /\ Forall (fun c => 0 <= c < c_MaxSymbol) (codes " 2*3 {*x }") /\ ~ adjacent 42 42 (codes " 2*3 {*x }") /\ ~ adjacent 42 125 (codes " 2*3 {*x }") /\ pascal_comment (codes "(* 2*3 {*x }").
Proof.
  split; [right; reflexivity|]. split; [repeat (constructor; [vm_compute; split; [discriminate|reflexivity]|]); constructor|].
  assert (AP : forall y, y = 42 \/ y = 125 -> ~ adjacent 42 y (codes " 2*3 {*x }")).
  { intros y [->| ->]; cbn; rewrite !adjacent_cons; intros H; repeat match type of H with _ \/ _ => destruct H as [(E & v & F)|H]; [discriminate E || discriminate F|] end; destruct H as ([|? ?] & ? & H); discriminate H. }
  split; [auto|]. split; [auto|]. exists [40; 42], (codes " 2*3 {*x "), [125]. split; [right; reflexivity|]. split; [left; reflexivity|]. split; [reflexivity|]. split; [vm_compute; intuition discriminate|].
  cbn. rewrite !adjacent_cons. intros H. repeat match type of H with _ \/ _ => destruct H as [(E & v & F)|H]; [discriminate E || discriminate F|] end. destruct H as ([|? ?] & ? & H); discriminate H.
Qed.

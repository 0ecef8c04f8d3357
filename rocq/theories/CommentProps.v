(** C97: the comments of the example language Ansi-C. *)
From Coq Require Import String.
From Verif Require Import Base SymbolSetModel SymbolSetSpec NdfaModel NdfaSpec TextModel TextSpec CaseTables NamesModel
  RegexModel RegexSpec RegexProofs RegexDefsProofs RegexTokenProofs RegexProps CommentModel CommentSpec CommentProofs.
Local Open Scope string_scope.
Local Open Scope list_scope.
Local Open Scope Z_scope.

(** [d] is the automaton made for the symbol comment, with the action 5, by as much fuel as it takes. *)
Definition comment_lexer (d : ndfa Z) : Prop :=
  exists fuel0, forall fuel, (fuel0 <= fuel)%nat -> add_tokens no_names no_names no_category ansi_defs fuel ndfa_new false [(false, comment_token, 5)] = Some d.
Lemma comment_accepts : exists d, comment_lexer d /\ forall w, accepts d 0 w 5 <-> exists body, bodies body /\ w = 47 :: 42 :: body ++ [42; 47].
Proof.
  destruct (C11_tokens_partial Z no_names no_names no_category ansi_defs false [(false, TRegex comment_re, 5)]) as (d & k & E & _ & AC); [constructor; [exact comment_ok|constructor]|].
  exists d. split; [exists k; intros fuel F; rewrite comment_text; exact (E fuel F)|]. intros w. rewrite AC, <- comment_words. split; [intros (n & t & [I|[]] & M); injection I as <- <-; exact M|intros M; exists false, (TRegex comment_re); split; [left; reflexivity|exact M]].
Qed.
(** There is one such automaton only. *)
Lemma lexer_unique d d' : comment_lexer d -> comment_lexer d' -> d = d'.
Proof. intros (k & E) (k' & E'). specialize (E (k + k')%nat ltac:(lia)). specialize (E' (k + k')%nat ltac:(lia)). congruence. Qed.

Ltac apart := cbn; rewrite !adjacent_cons; let H := fresh in intros H; repeat match type of H with _ \/ _ => let E := fresh in let F := fresh in destruct H as [(E & ? & F)|H]; [discriminate E || discriminate F|] end; destruct H as ([|? ?] & ? & H); discriminate H.

(** What the lexer takes for a comment begins and ends like one.  Among the texts in which no two stars stand
    next to each other, before the end of the comment or with it, it takes exactly the comments of C.
    Missing from the full property: comments with such stars, see below. *)
Theorem C97_comments_partial : exists d, comment_lexer d /\
  (forall w, accepts d 0 w 5 -> exists body, w = 47 :: 42 :: body ++ [42; 47]) /\
  forall body, Forall (fun c => 0 <= c < c_MaxSymbol) body -> ~ adjacent 42 42 (body ++ [42]) ->
    (accepts d 0 (47 :: 42 :: body ++ [42; 47]) 5 <-> c_comment (47 :: 42 :: body ++ [42; 47])).
Proof.
  destruct comment_accepts as (d & D & AC). exists d. split; [exact D|]. split; [intros w H; apply AC in H; destruct H as (b & _ & ->); exists b; reflexivity|].
  intros body R A. rewrite AC. split.
  - intros (b & B & E). injection E as E. apply app_inv_tail in E. subst b. exists body. split; [reflexivity|]. exact (bodies_end _ B A).
  - intros (b & E & N). injection E as E. apply app_inv_tail in E. subst b. exists body. split; [exact (end_bodies _ _ (le_n _) R A N)|reflexivity].
Qed.
Print Assumptions C97_comments_partial.

(** Not every comment is one: the lexer does not take [/***/], which is a comment of C. *)
Theorem C97_missed_refuted : exists d, comment_lexer d /\ c_comment (codes "/***/") /\ ~ accepts d 0 (codes "/***/") 5.
Proof.
  destruct comment_accepts as (d & D & AC). exists d. split; [exact D|]. split.
  - exists [42]. split; [reflexivity|]. cbn [app]. rewrite adjacent_cons. intros [(_ & v & E)|X]; [discriminate E|exact (adjacent_none _ _ _ X)].
  - intros H. apply AC in H. destruct H as (b & B & E). change (codes "/***/") with (47 :: 42 :: [42] ++ [42; 47]) in E. injection E as E. change [42; 42; 47] with ([42] ++ [42; 47]) in E. apply app_inv_tail in E. subst b. inversion B; subst; congruence.
Qed.
Print Assumptions C97_missed_refuted.

(** Code is taken for a comment: two comments, the first of which ends with two stars, and the statement between
    them are one comment for the lexer. *)
Theorem C97_swallows_refuted : exists d a code b, comment_lexer d /\ c_comment a /\ code = codes " x = 1; " /\ c_comment b /\
  accepts d 0 (a ++ code ++ b) 5 /\ ~ c_comment (a ++ code ++ b).
Proof.
  destruct comment_accepts as (d & D & AC). exists d, (codes "/* a **/"), (codes " x = 1; "), (codes "/* b */"). split; [exact D|].
  split; [exists (codes " a *"); split; [reflexivity|apart]|]. split; [reflexivity|].
  split; [exists (codes " b "); split; [reflexivity|apart]|].
  split.
  - apply AC. exists (codes " a **/ x = 1; /* b "). split; [|reflexivity]. vm_compute. repeat (first [apply bodies_none|apply bodies_other; [unfold c_MaxSymbol; lia|discriminate|]|apply bodies_star; [unfold c_MaxSymbol; lia|discriminate|]]).
  - intros (b & E & A). apply A. change (codes "/* a **/" ++ codes " x = 1; " ++ codes "/* b */") with (47 :: 42 :: codes " a **/ x = 1; /* b " ++ [42; 47]) in E. injection E as E. change (codes " a **/ x = 1; /* b " ++ [42; 47] = b ++ [42; 47]) in E. apply app_inv_tail in E. subst b. exists (codes " a *"), (codes " x = 1; /* b " ++ [42]). reflexivity.
Qed.
Print Assumptions C97_swallows_refuted.

(** A comment with single stars and slashes in it *)
Example C97_nontrivial : Forall (fun c => 0 <= c < c_MaxSymbol) (codes " 2*3 / 4 // *x ") /\ ~ adjacent 42 42 (codes " 2*3 / 4 // *x " ++ [42]) /\ c_comment (codes "/* 2*3 / 4 // *x */").
Proof.
  split; [repeat (constructor; [vm_compute; split; [discriminate|reflexivity]|]); constructor|]. split.
  - apart.
  - exists (codes " 2*3 / 4 // *x "). split; [reflexivity|]. apart.
Qed.

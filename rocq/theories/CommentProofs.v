(** Proofs about the comments of the example language Ansi-C. *)
From Coq Require Import String.
From Verif Require Import Base SymbolSetModel SymbolSetSpec NdfaModel NdfaSpec TextModel TextSpec CaseTables NamesModel
  RegexModel RegexSpec RegexProofs RegexDefsProofs RegexTokenProofs RegexProps CommentModel CommentSpec.
Local Open Scope string_scope.
Local Open Scope list_scope.
Local Open Scope Z_scope.

(** The tree of the expression *)
Definition not_star : atom := AClass true [One (Raw 42)].
Definition not_slash : atom := AClass true [One (Quoted 47)].
Definition body_re : re := ROr (RAtom not_star) (RCat (RAtom (AChr (Quoted 42))) (RAtom not_slash)).
Definition comment_re : re :=
  RCat (RDefs (codes "comment-start") (DOne false false (TLiteral (codes "/*")))) (RCat (RStar (RGroup body_re)) (RDefs (codes "comment-end") (DOne false false (TLiteral (codes "*/"))))).
Lemma comment_text : comment_token = Regex (text comment_re).
Proof. reflexivity. Qed.
Lemma small_word word : Forall (fun c => 0 <= c < 128) word -> word_ok false false low up case_safe word.
Proof. intros F. eapply Forall_impl; [|exact F]. intros c H. cbn beta in H. split; [unfold c_MaxSymbol; lia|split; discriminate]. Qed.
Lemma comment_ok : tree_ok no_names no_names no_category ansi_defs false false (TRegex comment_re).
Proof.
  assert (C : forall c, atom_ok (AClass true [One c]) <-> chr_ok class_special c /\ exists x, atom_has (AClass true [One c]) x).
  { intros c. split; [intros (F & _ & X); inversion F; auto|intros (A & X); split; [constructor; [exact A|constructor]|split; [discriminate|exact X]]]. }
  assert (W : exists x, 0 <= x < c_MaxSymbol /\ x <> 42 /\ x <> 47) by (exists 0; unfold c_MaxSymbol; lia). destruct W as (x & X & X1 & X2).
  split; [|reflexivity]. cbn [comment_re well_formed_in]. split; [lia|]. split.
  { split; [vm_compute; intuition discriminate|]. split; [reflexivity|]. cbn [well_formed_all well_formed_tree]. apply small_word. repeat constructor; vm_compute; intuition discriminate. }
  split; [lia|]. split.
  - cbn [body_re well_formed_in]. split; [lia|]. split; [|split; [lia|split]].
    + split; [apply C|split; discriminate]. split; [split; [unfold c_MaxSymbol; lia|cbn; lia]|]. exists x. split; [exact X|]. intros m [<-|[]]. exact X1.
    + split; [split; [unfold c_MaxSymbol; lia|cbn; lia]|split; discriminate].
    + split; [apply C|split; discriminate]. split; [split; [unfold c_MaxSymbol; lia|cbn; lia]|]. exists x. split; [exact X|]. intros m [<-|[]]. exact X2.
  - split; [vm_compute; intuition discriminate|]. split; [reflexivity|]. cbn [well_formed_all well_formed_tree]. apply small_word. repeat constructor; vm_compute; intuition discriminate.
Qed.

(** ** The words of the expression *)
Definition in_range (w : list Z) : Prop := Forall (fun c => 0 <= c < c_MaxSymbol) w.
Inductive bodies : list Z -> Prop :=
| bodies_none : bodies []
| bodies_other c w : 0 <= c < c_MaxSymbol -> c <> 42 -> bodies w -> bodies (c :: w)
| bodies_star c w : 0 <= c < c_MaxSymbol -> c <> 47 -> bodies w -> bodies (42 :: c :: w).
Lemma one_unit (P : Z -> Prop) w : units false (any_case false low up P) w <-> exists c, P c /\ w = [c].
Proof.
  split.
  - intros (x & (y & H & [->|[N _]]) & ->); [exists y; auto|discriminate N].
  - intros (c & H & ->). exists c. split; [exists c; split; [exact H|left; reflexivity]|reflexivity].
Qed.
Lemma body_words w : matches false false low up body_re w <-> (exists c, 0 <= c < c_MaxSymbol /\ c <> 42 /\ w = [c]) \/ exists c, 0 <= c < c_MaxSymbol /\ c <> 47 /\ w = [42; c].
Proof.
  cbn [body_re matches]. unfold l_cat. split.
  - intros [H|(u & v & -> & HU & HV)].
    + apply (proj1 (one_unit _ _)) in H. destruct H as (c & (R & H) & ->). left. exists c. split; [exact R|]. split; [exact (H _ (or_introl eq_refl))|reflexivity].
    + apply (proj1 (one_unit _ _)) in HU; apply (proj1 (one_unit _ _)) in HV. destruct HU as (s & -> & ->). destruct HV as (c & (R & H) & ->). right. exists c. split; [exact R|]. split; [exact (H _ (or_introl eq_refl))|reflexivity].
  - intros [(c & R & N & ->)|(c & R & N & ->)].
    + left. apply (proj2 (one_unit _ _)). exists c. split; [|reflexivity]. split; [exact R|]. intros m [<-|[]]. exact N.
    + right. exists [42], [c]. split; [reflexivity|]. split; apply (proj2 (one_unit _ _)); eexists; (split; [|reflexivity]); [reflexivity|]. split; [exact R|]. intros m [<-|[]]. exact N.
Qed.
Lemma star_bodies w : l_star (matches false false low up body_re) w <-> bodies w.
Proof.
  split.
  - induction 1 as [|u v U S IH]; [constructor|]. apply body_words in U. destruct U as [(c & R & N & ->)|(c & R & N & ->)]; [apply bodies_other; assumption|apply (bodies_star c v); assumption].
  - induction 1 as [|c w R N B IH|c w R N B IH]; [constructor| |].
    + apply (star_step _ [c] w); [apply body_words; left; exists c; auto|exact IH].
    + apply (star_step _ [42; c] w); [apply body_words; right; exists c; auto|exact IH].
Qed.
Lemma comment_words w : matches false false low up comment_re w <-> exists body, bodies body /\ w = 47 :: 42 :: body ++ [42; 47].
Proof.
  change (matches false false low up comment_re w) with (l_cat (l_word false false low up [47; 42]) (l_cat (l_star (matches false false low up body_re)) (l_word false false low up [42; 47])) w). unfold l_cat at 1 2. split.
  - intros (a & r & -> & HA & b & e & -> & B & HE). apply C12_exact in HA, HE. subst a e. apply star_bodies in B. exists b. auto.
  - intros (body & B & ->). exists [47; 42], (body ++ [42; 47]). split; [reflexivity|]. split; [apply C12_exact; reflexivity|]. exists body, [42; 47]. split; [reflexivity|]. split; [apply star_bodies, B|apply C12_exact; reflexivity].
Qed.

(** ** Neighbours *)
Lemma adjacent_none x y c : ~ adjacent x y [c].
Proof. intros ([|a [|b u]] & v & E); discriminate E. Qed.
Lemma adjacent_cons x y c w : adjacent x y (c :: w) <-> (c = x /\ exists v, w = y :: v) \/ adjacent x y w.
Proof.
  split.
  - intros ([|a u] & v & E); cbn in E; injection E as -> ->; [left; eauto|right; exists u, v; reflexivity].
  - intros [(-> & v & ->)|(u & v & ->)]; [exists [], v; reflexivity|exists (c :: u), v; reflexivity].
Qed.
Lemma bodies_end b : bodies b -> ~ adjacent 42 42 (b ++ [42]) -> ~ adjacent 42 47 (b ++ [42]).
Proof.
  induction 1 as [|c w R N B IH|c w R N B IH]; intros A; cbn [app] in *.
  - apply adjacent_none.
  - rewrite adjacent_cons in *. intros [(E & _)|X]; [exact (N E)|]. exact (IH ltac:(tauto) X).
  - rewrite !adjacent_cons in *. assert (NC : c <> 42) by (intros ->; apply A; left; split; [reflexivity|eexists; reflexivity]). intros [(_ & v & E)|[(E & _)|X]]; [injection E as E _; exact (N E)|exact (NC E)|exact (IH ltac:(tauto) X)].
Qed.
Lemma end_bodies n : forall b, (length b <= n)%nat -> in_range b -> ~ adjacent 42 42 (b ++ [42]) -> ~ adjacent 42 47 (b ++ [42]) -> bodies b.
Proof.
  induction n as [|n IH]; intros [|c b] LE R A1 A2; cbn in LE; try lia; try (apply bodies_none); inversion R as [|? ? RC RB]; subst.
  cbn [app] in *. rewrite adjacent_cons in A1, A2. destruct (Z.eq_dec c 42) as [->|N].
  - destruct b as [|d b]; cbn [app] in *; [exfalso; apply A1; left; split; [reflexivity|eexists; reflexivity]|]. inversion RB as [|? ? RD RB']; subst. rewrite adjacent_cons in A1, A2. cbn in LE.
    apply bodies_star; [exact RD|intros ->; apply A2; left; split; [reflexivity|eexists; reflexivity]|]. apply IH; [lia|exact RB'|tauto|tauto].
  - apply bodies_other; [exact RC|exact N|]. apply IH; [lia|exact RB|tauto|tauto].
Qed.

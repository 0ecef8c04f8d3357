(** Proofs about the comments of the example language Pascal. *)
From Coq Require Import String.
From Verif Require Import Base SymbolSetModel SymbolSetSpec NdfaModel NdfaSpec TextModel TextSpec CaseTables NamesModel
  RegexModel RegexSpec RegexProofs RegexDefsProofs RegexTokenProofs RegexProps CommentSpec CommentProofs PascalModel PascalSpec.
Local Open Scope string_scope.
Local Open Scope list_scope.
Local Open Scope Z_scope.

Definition quoted (c : Z) : re := RAtom (AChr (Quoted c)).
Definition plain_class : atom := AClass true [One (Quoted 125); One (Quoted 42)].
Definition no_bracket : atom := AClass true [One (Quoted 41)].
Definition open_re : re := ROr (quoted 123) (RCat (quoted 40) (quoted 42)).
Definition unit_re : re := ROr (RAtom plain_class) (RCat (quoted 42) (RAtom no_bracket)).
Definition close_re : re := ROr (quoted 125) (RCat (quoted 42) (quoted 41)).
Definition commentary_re : re := RCat (RGroup open_re) (RCat (RStar (RGroup unit_re)) (RGroup close_re)).
Lemma commentary_text : commentary_token = Regex (text commentary_re).
Proof. reflexivity. Qed.
Lemma quoted_ok level c : In c [40; 41; 42; 123; 125] -> well_formed no_names no_names no_category no_defs false false low up case_safe level (quoted c).
Proof. intros I. split; [split; [unfold c_MaxSymbol; cbn in I; lia|cbn in *; lia]|split; discriminate]. Qed.
Lemma commentary_ok : tree_ok no_names no_names no_category no_defs false false (TRegex commentary_re).
Proof.
  assert (W : exists x, 0 <= x < c_MaxSymbol /\ x <> 42 /\ x <> 41 /\ x <> 125) by (exists 0; unfold c_MaxSymbol; lia). destruct W as (x & X & X1 & X2 & X3).
  assert (QC : forall c, In c [41; 42; 125] -> member_ok (One (Quoted c))) by (intros c I; split; [unfold c_MaxSymbol; cbn in I; lia|cbn in *; lia]).
  split; [|reflexivity]. change (well_formed no_names no_names no_category no_defs false false low up case_safe 0 commentary_re). cbn [commentary_re open_re unit_re close_re well_formed_in].
  split; [lia|]. split; [split; [lia|]; split; [apply quoted_ok; cbn; auto 6|]; split; [lia|]; split; apply quoted_ok; cbn; auto 6|].
  split; [lia|]. split; [|split; [lia|]; split; [apply quoted_ok; cbn; auto 6|]; split; [lia|]; split; apply quoted_ok; cbn; auto 6].
  split; [lia|]. split; [|split; [lia|]; split; [apply quoted_ok; cbn; auto 6|]].
  - split; [|split; discriminate]. split; [constructor; [apply QC; cbn; auto|constructor; [apply QC; cbn; auto|constructor]]|]. split; [discriminate|]. exists x. split; [exact X|]. intros m [<-|[<-|[]]]; [exact X3|exact X1].
  - split; [|split; discriminate]. split; [constructor; [apply QC; cbn; auto|constructor]|]. split; [discriminate|]. exists x. split; [exact X|]. intros m [<-|[]]. exact X2.
Qed.

(** ** The words of the expression *)
Inductive texts : list Z -> Prop :=
| texts_none : texts []
| texts_other c w : 0 <= c < c_MaxSymbol -> c <> 125 -> c <> 42 -> texts w -> texts (c :: w)
| texts_star c w : 0 <= c < c_MaxSymbol -> c <> 41 -> texts w -> texts (42 :: c :: w).
Lemma quoted_words c w : matches false false low up (quoted c) w <-> w = [c].
Proof. split; [intros H; apply (proj1 (one_unit _ _)) in H; destruct H as (x & -> & ->); reflexivity|intros ->; apply (proj2 (one_unit _ _)); exists c; split; reflexivity]. Qed.
Lemma pair_words c e w : matches false false low up (RCat (quoted c) (quoted e)) w <-> w = [c; e].
Proof.
  change (matches false false low up (RCat (quoted c) (quoted e)) w) with (exists u v, w = u ++ v /\ matches false false low up (quoted c) u /\ matches false false low up (quoted e) v). split.
  - intros (u & v & -> & HU & HV). apply quoted_words in HU, HV. subst. reflexivity.
  - intros ->. exists [c], [e]. split; [reflexivity|]. split; apply quoted_words; reflexivity.
Qed.
Lemma open_words w : matches false false low up open_re w <-> opens w.
Proof. change (matches false false low up open_re w) with (matches false false low up (quoted 123) w \/ matches false false low up (RCat (quoted 40) (quoted 42)) w). rewrite quoted_words, pair_words. reflexivity. Qed.
Lemma close_words w : matches false false low up close_re w <-> closes w.
Proof. change (matches false false low up close_re w) with (matches false false low up (quoted 125) w \/ matches false false low up (RCat (quoted 42) (quoted 41)) w). rewrite quoted_words, pair_words. reflexivity. Qed.
Lemma unit_words w : matches false false low up unit_re w <-> (exists c, 0 <= c < c_MaxSymbol /\ c <> 125 /\ c <> 42 /\ w = [c]) \/ exists c, 0 <= c < c_MaxSymbol /\ c <> 41 /\ w = [42; c].
Proof.
  change (matches false false low up unit_re w) with (units false (any_case false low up (atom_has plain_class)) w \/ exists u v, w = u ++ v /\ matches false false low up (quoted 42) u /\ units false (any_case false low up (atom_has no_bracket)) v). split.
  - intros [H|(u & v & -> & HU & HV)].
    + apply (proj1 (one_unit _ _)) in H. destruct H as (c & (R & H) & ->). left. exists c. split; [exact R|]. split; [exact (H _ (or_introl eq_refl))|]. split; [exact (H _ (or_intror (or_introl eq_refl)))|reflexivity].
    + apply quoted_words in HU. subst u. apply (proj1 (one_unit _ _)) in HV. destruct HV as (c & (R & H) & ->). right. exists c. split; [exact R|]. split; [exact (H _ (or_introl eq_refl))|reflexivity].
  - intros [(c & R & N1 & N2 & ->)|(c & R & N & ->)].
    + left. apply (proj2 (one_unit _ _)). exists c. split; [|reflexivity]. split; [exact R|]. intros m [<-|[<-|[]]]; [exact N1|exact N2].
    + right. exists [42], [c]. split; [reflexivity|]. split; [apply quoted_words; reflexivity|]. apply (proj2 (one_unit _ _)). exists c. split; [|reflexivity]. split; [exact R|]. intros m [<-|[]]. exact N.
Qed.
Lemma star_texts w : l_star (matches false false low up unit_re) w <-> texts w.
Proof.
  split.
  - induction 1 as [|u v U S IH]; [constructor|]. apply unit_words in U. destruct U as [(c & R & N1 & N2 & ->)|(c & R & N & ->)]; [apply texts_other; assumption|apply (texts_star c v); assumption].
  - induction 1 as [|c w R N1 N2 B IH|c w R N B IH]; [constructor| |].
    + apply (star_step _ [c] w); [apply unit_words; left; exists c; auto|exact IH].
    + apply (star_step _ [42; c] w); [apply unit_words; right; exists c; auto|exact IH].
Qed.
Lemma commentary_words w : matches false false low up commentary_re w <-> exists o b c, opens o /\ closes c /\ texts b /\ w = o ++ b ++ c.
Proof.
  change (matches false false low up commentary_re w) with (exists o r, w = o ++ r /\ matches false false low up open_re o /\ exists b c, r = b ++ c /\ l_star (matches false false low up unit_re) b /\ matches false false low up close_re c). split.
  - intros (o & r & -> & O & b & c & -> & B & C). exists o, b, c. split; [apply open_words, O|]. split; [apply close_words, C|]. split; [apply star_texts, B|reflexivity].
  - intros (o & b & c & O & C & B & ->). exists o, (b ++ c). split; [reflexivity|]. split; [apply open_words, O|]. exists b, c. split; [reflexivity|]. split; [apply star_texts, B|apply close_words, C].
Qed.

Lemma opens_inj o o' t t' : opens o -> opens o' -> o ++ t = o' ++ t' -> o = o' /\ t = t'.
Proof. intros [->| ->] [->| ->] E; cbn in E; try discriminate E; injection E as ->; auto. Qed.
Lemma texts_plain b c : texts b -> ~ adjacent 42 42 (b ++ c) -> ~ adjacent 42 125 (b ++ c) -> ~ In 125 b /\ ~ adjacent 42 41 b.
Proof.
  induction 1 as [|x w R N1 N2 B IH|x w R N B IH]; cbn [app]; intros A1 A2.
  - split; [intros []|]. intros ([|? ?] & ? & E); discriminate E.
  - rewrite adjacent_cons in A1, A2. destruct (IH ltac:(tauto) ltac:(tauto)) as [I A]. split; [intros [E|E]; auto|]. rewrite adjacent_cons. intros [(E & _)|E]; [exact (N2 E)|exact (A E)].
  - rewrite !adjacent_cons in A1, A2. destruct (IH ltac:(tauto) ltac:(tauto)) as [I A].
    assert (X1 : x <> 42) by (intros ->; apply A1; left; split; [reflexivity|eexists; reflexivity]). assert (X2 : x <> 125) by (intros ->; apply A2; left; split; [reflexivity|eexists; reflexivity]).
    split; [intros [E|[E|E]]; [discriminate E|exact (X2 E)|exact (I E)]|]. rewrite !adjacent_cons. intros [(_ & v & E)|[(E & _)|E]]; [injection E as E _; exact (N E)|exact (X1 E)|exact (A E)].
Qed.
Lemma plain_texts c n : closes c -> forall b, (length b <= n)%nat -> in_range b -> ~ adjacent 42 42 (b ++ c) -> ~ adjacent 42 125 (b ++ c) -> ~ In 125 b -> ~ adjacent 42 41 b -> texts b.
Proof.
  intros C. induction n as [|n IH]; intros [|x b] LE R A1 A2 I A; cbn in LE; try lia; try (apply texts_none); inversion R as [|? ? RC RB]; subst.
  cbn [app] in *. destruct (Z.eq_dec x 42) as [->|N].
  - destruct b as [|d b]; cbn [app] in *.
    + exfalso. destruct C as [->| ->]; [apply A2; exists [], []; reflexivity|apply A1; exists [], [41]; reflexivity].
    + inversion RB as [|? ? RD RB']; subst. rewrite !adjacent_cons in A1, A2, A. cbn in LE, I. apply texts_star; [exact RD|intros ->; apply A; left; split; [reflexivity|eexists; reflexivity]|]. apply IH; [lia|exact RB'|tauto|tauto|tauto|tauto].
  - rewrite adjacent_cons in A1, A2, A. cbn in I. apply texts_other; [exact RC|intros ->; apply I; left; reflexivity|exact N|]. apply IH; [lia|exact RB|tauto|tauto|tauto|tauto].
Qed.

(** Properties C21 and C22: item sets. *)
From Verif Require Import Base OrdMap ItemSetModel ItemSetSpec ItemSetProofs.
Local Open Scope Z_scope.

(** ** C21: for every way to build a set, contains, size, empty and iteration describe the set
    that is meant, and insert, erase and merge tell whether they changed it. *)
Theorem C21_contents (b : build) : build_ok b ->
  (forall x, contains x (built b) = true <-> member b x) /\
  exists l, lists b l /\ iterate (built b) = Some l /\ size (built b) = Z.of_nat (length l) /\
            (is_empty (built b) = true <-> forall x, ~ member b x).
Proof.
  intros OK. destruct (built_holds b OK) as (l & H & E). split; [intros x; rewrite (contains_holds _ l x H); apply E|].
  exists l. pose proof H as (F & S & M & N). split; [split; [apply sorted_ltb, S|exact E]|]. split; [apply iterate_spec, H|]. split; [exact N|].
  unfold is_empty. rewrite N, Z.eqb_eq. split.
  - intros Z x X. apply E in X. destruct l; [destruct X|cbn in Z; lia].
  - intros X. destruct l as [|a l]; [reflexivity|]. exfalso. apply (X a), E. left. reflexivity.
Qed.
Print Assumptions C21_contents.

Theorem C21_changes (b c : build) (id : Z) : build_ok b -> build_ok c -> 0 <= id ->
  (snd (insert id (built b)) = true <-> ~ member b id) /\
  (snd (erase id (built b)) = true <-> member b id) /\
  (snd (merge (built b) (built c)) = true <-> exists x, member c x /\ ~ member b x).
Proof.
  intros OB OC H. destruct (built_holds b OB) as (l & HL & EL). destruct (built_holds c OC) as (k & HK & EK).
  split; [|split].
  - destruct (insert_holds _ _ id HL H) as [_ ->]. rewrite Bool.negb_true_iff, <- EL. split; [intros X I; apply in_existsb in I; congruence|].
    intros X. destruct (existsb (Z.eqb id) l) eqn:E; [|reflexivity]. apply in_existsb in E. destruct (X E).
  - destruct (erase_holds _ _ id HL H) as [_ ->]. rewrite in_existsb. apply EL.
  - destruct (merge_holds _ _ _ _ HL HK) as (_ & _ & _ & ->). split; intros (x & X1 & X2); exists x; rewrite EL, EK in *; auto.
Qed.
Print Assumptions C21_changes.

Example C21_nontrivial :
  let b := Merge (Erase 3 (Insert 3 (Insert 64 (Insert 31 Empty)))) (Insert 100 (Insert 31 (Insert 0 Empty))) in
  build_ok b /\ iterate (built b) = Some [0; 31; 64; 100] /\ size (built b) = 4 /\ contains 3 (built b) = false.
Proof. split; [cbn; lia|]. vm_compute. auto. Qed.

(** ** C22 is false as stated: a set that has once had the member 40 is not equal to one that
    has not, and is greater. *)
Theorem C22_equality_refuted : exists b c : build,
  build_ok b /\ build_ok c /\ (forall x, member b x <-> member c x) /\ set_eqb (built b) (built c) = false /\ set_ltb (built c) (built b) = true.
Proof.
  exists (Erase 40 (Insert 40 Empty)), Empty. split; [cbn; lia|]. split; [exact I|]. split; [|split; reflexivity].
  intros x. cbn [member]. split; [|intros []]. intros (N & [E|[]]). apply N, E.
Qed.
Print Assumptions C22_equality_refuted.

(** The part that holds: sets with arrays of equal length are equal exactly if they have the
    same members. *)
Theorem C22_equality_partial (b c : build) : build_ok b -> build_ok c -> max_item (built b) = max_item (built c) ->
  (set_eqb (built b) (built c) = true <-> forall x, member b x <-> member c x).
Proof.
  intros OB OC L. destruct (built_holds b OB) as (l & HL & EL). destruct (built_holds c OC) as (k & HK & EK).
  unfold set_eqb. rewrite L, Z.eqb_refl. cbn [andb]. unfold max_item in L. rewrite words_eqb_spec by lia.
  pose proof HL as (FL & SL & ML & NL). pose proof HK as (FK & SK & MK & NK). split.
  - intros E x. rewrite <- EL, <- EK, ML, MK, E. reflexivity.
  - intros E. apply (holds_words _ k HK); [exact FL|lia|]. intros x. rewrite EK, <- E, <- EL. apply ML.
Qed.
Print Assumptions C22_equality_partial.

(** [<] is a strict order whose equivalence is [==], and the other operators go with it: item
    sets can be the keys of maps (where those with different histories are different keys). *)
Lemma words_ltb_irrefl a : words_ltb a a = false.
Proof. induction a as [|x a IH]; cbn [words_ltb]; [reflexivity|]. rewrite Z.ltb_irrefl. exact IH. Qed.
Lemma words_ltb_trans a : forall b c, length a = length b -> length b = length c -> words_ltb a b = true -> words_ltb b c = true -> words_ltb a c = true.
Proof.
  induction a as [|x a IH]; intros [|y b] [|z c] L1 L2; try discriminate; cbn [words_ltb]; try discriminate. injection L1 as L1. injection L2 as L2.
  destruct (Z.ltb_spec x y), (Z.ltb_spec y z); intros H1 H2.
  - destruct (Z.ltb_spec x z); [reflexivity|lia].
  - destruct (Z.ltb_spec z y); [discriminate H2|]. assert (y = z) by lia. subst. destruct (Z.ltb_spec x z); [reflexivity|lia].
  - destruct (Z.ltb_spec y x); [discriminate H1|]. assert (x = y) by lia. subst. destruct (Z.ltb_spec y z); [reflexivity|lia].
  - destruct (Z.ltb_spec y x); [discriminate H1|]. destruct (Z.ltb_spec z y); [discriminate H2|]. assert (x = y) by lia. assert (y = z) by lia. subst.
    rewrite Z.ltb_irrefl. eapply IH; eassumption.
Qed.
Lemma words_ltb_total a : forall b, length a = length b -> words_eqb a b = negb (words_ltb a b) && negb (words_ltb b a) /\ (words_ltb a b = true -> words_ltb b a = false).
Proof.
  induction a as [|x a IH]; intros [|y b] L; try discriminate L; cbn [words_ltb words_eqb]; [split; auto|]. injection L as L. destruct (IH b L) as [E A].
  destruct (Z.ltb_spec x y), (Z.ltb_spec y x), (Z.eqb_spec x y); try lia; cbn [negb andb]; split; auto; try discriminate.
Qed.
Theorem C22_order (s t u : item_set) :
  set_ltb s s = false /\ (set_ltb s t = true -> set_ltb t u = true -> set_ltb s u = true) /\
  (set_eqb s t = true <-> set_ltb s t = false /\ set_ltb t s = false) /\
  set_gtb s t = set_ltb t s /\ set_geb s t = negb (set_ltb s t) /\ set_leb s t = negb (set_ltb t s).
Proof.
  unfold set_ltb, set_eqb, set_gtb, set_geb, set_leb, max_item. split; [rewrite Z.ltb_irrefl; apply words_ltb_irrefl|].
  split; [|split; [|split; [reflexivity|split; reflexivity]]].
  - destruct (Z.ltb_spec (Z.of_nat (length (words s))) (Z.of_nat (length (words t)))), (Z.ltb_spec (Z.of_nat (length (words t))) (Z.of_nat (length (words u))));
      destruct (Z.ltb_spec (Z.of_nat (length (words t))) (Z.of_nat (length (words s)))), (Z.ltb_spec (Z.of_nat (length (words u))) (Z.of_nat (length (words t))));
      destruct (Z.ltb_spec (Z.of_nat (length (words s))) (Z.of_nat (length (words u)))), (Z.ltb_spec (Z.of_nat (length (words u))) (Z.of_nat (length (words s))));
      try lia; try discriminate; auto. apply words_ltb_trans; lia.
  - destruct (Z.eqb_spec (Z.of_nat (length (words t))) (Z.of_nat (length (words s)))) as [E|E]; cbn [andb].
    + rewrite E, Z.ltb_irrefl. destruct (words_ltb_total (words s) (words t) ltac:(lia)) as [-> _]. rewrite Bool.andb_true_iff, !Bool.negb_true_iff. reflexivity.
    + destruct (Z.ltb_spec (Z.of_nat (length (words s))) (Z.of_nat (length (words t)))), (Z.ltb_spec (Z.of_nat (length (words t))) (Z.of_nat (length (words s)))); try lia; split; intros X; (discriminate X || (destruct X; discriminate)).
Qed.
Print Assumptions C22_order.

Example C22_nontrivial :
  let b := Insert 5 (Insert 40 Empty) in let c := Erase 7 (Insert 40 (Insert 5 (Insert 7 Empty))) in
  max_item (built b) = max_item (built c) /\ (forall x, member b x <-> member c x) /\ set_eqb (built b) (built c) = true.
Proof. split; [reflexivity|]. split; [intros x; cbn [member]; lia|reflexivity]. Qed.

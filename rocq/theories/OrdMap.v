(** Ordered containers in the style of [std::map] / [std::set]: association lists kept
    strictly sorted by a comparator.  Used by the models for every C++ ordered container;
    the functions only ever look at keys through the comparator, as the C++ ones do. *)
From Verif Require Import Base.

(** A comparator that is a strict total order with equality as its equivalence. *)
Record strict_total {K} (ltb : K -> K -> bool) : Prop := {
  st_irrefl : forall a, ltb a a = false;
  st_trans : forall a b c, ltb a b = true -> ltb b c = true -> ltb a c = true;
  st_total : forall a b, a = b \/ ltb a b = true \/ ltb b a = true }.

Section Map.
  Context {K V : Type} (ltb : K -> K -> bool).

  (** [std::map::find] *)
  Fixpoint mfind (k : K) (m : list (K * V)) : option V :=
    match m with
    | [] => None
    | (k', v) :: t => if ltb k' k then mfind k t else if ltb k k' then None else Some v
    end.

  (** [std::map::insert]: keeps an existing entry. *)
  Fixpoint minsert (k : K) (v : V) (m : list (K * V)) : list (K * V) :=
    match m with
    | [] => [(k, v)]
    | (k', v') :: t => if ltb k' k then (k', v') :: minsert k v t
                       else if ltb k k' then (k, v) :: m else m
    end.

  (** [map[k] = v]: overwrites the value of an existing entry (the key object stays). *)
  Fixpoint mset (k : K) (v : V) (m : list (K * V)) : list (K * V) :=
    match m with
    | [] => [(k, v)]
    | (k', v') :: t => if ltb k' k then (k', v') :: mset k v t
                       else if ltb k k' then (k, v) :: m else (k', v) :: t
    end.

  (** [std::map::erase(key)] *)
  Fixpoint merase (k : K) (m : list (K * V)) : list (K * V) :=
    match m with
    | [] => []
    | (k', v') :: t => if ltb k' k then (k', v') :: merase k t
                       else if ltb k k' then m else t
    end.

  Definition msorted (m : list (K * V)) : Prop :=
    StronglySorted (fun a b => ltb (fst a) (fst b) = true) m.

  Context (ST : strict_total ltb).

  Lemma ltb_asym a b : ltb a b = true -> ltb b a = false.
  Proof.
    intros H. destruct (ltb b a) eqn:E; [|reflexivity].
    pose proof (st_trans _ ST _ _ _ H E). rewrite (st_irrefl _ ST) in H0. discriminate.
  Qed.

  Lemma ltb_eq a b : ltb a b = false -> ltb b a = false -> a = b.
  Proof. intros H1 H2. destruct (st_total _ ST a b) as [H|[H|H]]; congruence. Qed.

  Lemma msorted_cons p m : msorted (p :: m) <-> msorted m /\ (forall q, In q m -> ltb (fst p) (fst q) = true).
  Proof. apply SS_cons. Qed.

  Lemma mfind_in m : msorted m -> forall k v, mfind k m = Some v <-> In (k, v) m.
  Proof.
    induction m as [|[k' v'] m IH]; intros Hs k v; cbn [mfind].
    - split; [discriminate|intros []].
    - apply msorted_cons in Hs as [Hs Hl]. cbn [fst] in Hl.
      destruct (ltb k' k) eqn:E1; [|destruct (ltb k k') eqn:E2].
      + rewrite IH by assumption. split; [cbn; auto|]. intros [H|H]; [|exact H].
        inv H. rewrite (st_irrefl _ ST) in E1. discriminate.
      + split; [discriminate|]. intros [H|H].
        * inv H. rewrite (st_irrefl _ ST) in E2. discriminate.
        * specialize (Hl _ H). cbn [fst] in Hl. rewrite (ltb_asym _ _ Hl) in E2. discriminate.
      + pose proof (ltb_eq _ _ E1 E2) as ->. split.
        * intros H; inv H. cbn; auto.
        * intros [H|H]; [congruence|]. specialize (Hl _ H). cbn [fst] in Hl.
          rewrite (st_irrefl _ ST) in Hl. discriminate.
  Qed.

  Lemma mfind_none m : msorted m -> forall k, mfind k m = None <-> (forall v, ~ In (k, v) m).
  Proof.
    intros Hs k. split.
    - intros H v Hv. apply (mfind_in _ Hs) in Hv. congruence.
    - intros H. destruct (mfind k m) as [v|] eqn:E; [|reflexivity].
      apply (mfind_in _ Hs) in E. destruct (H _ E).
  Qed.

  Lemma msorted_unique m : msorted m -> forall k v v', In (k, v) m -> In (k, v') m -> v = v'.
  Proof.
    intros Hs k v v' H1 H2. apply (mfind_in _ Hs) in H1, H2. congruence.
  Qed.

  Lemma minsert_in m : msorted m -> forall k v p, In p (minsert k v m) <->
    In p m \/ (p = (k, v) /\ mfind k m = None).
  Proof.
    induction m as [|[k' v'] m IH]; intros Hs k v p; cbn [minsert mfind].
    - cbn. intuition congruence.
    - apply msorted_cons in Hs as [Hs Hl].
      destruct (ltb k' k) eqn:E1; [|destruct (ltb k k') eqn:E2].
      + cbn [In]. rewrite IH by assumption. tauto.
      + cbn [In]. intuition congruence.
      + intuition congruence.
  Qed.

  Lemma minsert_sorted m : msorted m -> forall k v, msorted (minsert k v m).
  Proof.
    induction m as [|[k' v'] m IH]; intros Hs k v; cbn [minsert].
    - apply msorted_cons. split; [constructor|intros ? []].
    - pose proof Hs as Hs'. apply msorted_cons in Hs as [Hs Hl]. cbn [fst] in Hl.
      destruct (ltb k' k) eqn:E1; [|destruct (ltb k k') eqn:E2].
      + apply msorted_cons. split; [auto|]. intros q Hq.
        apply (minsert_in _ Hs) in Hq as [Hq|[-> _]]; cbn [fst]; auto.
      + apply msorted_cons. split; [exact Hs'|]. intros q [<-|Hq]; cbn [fst]; [exact E2|].
        eapply (st_trans _ ST); [exact E2|]. auto.
      + exact Hs'.
  Qed.

  Lemma mset_in m : msorted m -> forall k v p, In p (mset k v m) <->
    p = (k, v) \/ (In p m /\ fst p <> k).
  Proof.
    induction m as [|[k' v'] m IH]; intros Hs k v p; cbn [mset].
    - cbn. intuition congruence.
    - apply msorted_cons in Hs as [Hs Hl]. cbn [fst] in Hl.
      destruct (ltb k' k) eqn:E1; [|destruct (ltb k k') eqn:E2].
      + cbn [In]. rewrite IH by assumption.
        assert (k' <> k) by (intros ->; rewrite (st_irrefl _ ST) in E1; discriminate).
        split.
        * intros [<-|[->|[H1 H2]]]; cbn [fst]; auto.
        * intros [->|[[<-|H1] H2]]; auto.
      + cbn [In]. split.
        * intros [<-|[<-|H]]; auto.
          -- right. split; [auto|]. cbn [fst]. intros ->. rewrite (st_irrefl _ ST) in E2; discriminate.
          -- right. split; [auto|]. intros <-. specialize (Hl _ H).
             rewrite (ltb_asym _ _ Hl) in E2. discriminate.
        * intros [->|[H1 H2]]; auto.
      + pose proof (ltb_eq _ _ E1 E2) as ->. cbn [In]. split.
        * intros [<-|H]; auto. right. split; [auto|]. intros <-.
          specialize (Hl _ H). rewrite (st_irrefl _ ST) in Hl; discriminate.
        * intros [->|[[<-|H1] H2]]; auto. cbn [fst] in H2. congruence.
  Qed.

  Lemma mset_sorted m : msorted m -> forall k v, msorted (mset k v m).
  Proof.
    induction m as [|[k' v'] m IH]; intros Hs k v; cbn [mset].
    - apply msorted_cons. split; [constructor|intros ? []].
    - pose proof Hs as Hs'. apply msorted_cons in Hs as [Hs Hl]. cbn [fst] in Hl.
      destruct (ltb k' k) eqn:E1; [|destruct (ltb k k') eqn:E2].
      + apply msorted_cons. split; [auto|]. intros q Hq.
        apply (mset_in _ Hs) in Hq as [->|[Hq _]]; cbn [fst]; auto.
      + apply msorted_cons. split; [exact Hs'|]. intros q [<-|Hq]; cbn [fst]; [exact E2|].
        eapply (st_trans _ ST); [exact E2|]. auto.
      + apply msorted_cons. split; [exact Hs|]. intros q Hq. cbn [fst]. auto.
  Qed.

  Lemma merase_in m : msorted m -> forall k p, In p (merase k m) <-> In p m /\ fst p <> k.
  Proof.
    induction m as [|[k' v'] m IH]; intros Hs k p; cbn [merase].
    - cbn. tauto.
    - apply msorted_cons in Hs as [Hs Hl]. cbn [fst] in Hl.
      destruct (ltb k' k) eqn:E1; [|destruct (ltb k k') eqn:E2].
      + cbn [In]. rewrite IH by assumption.
        assert (k' <> k) by (intros ->; rewrite (st_irrefl _ ST) in E1; discriminate).
        split.
        * intros [<-|[H1 H2]]; cbn [fst]; auto.
        * intros [[<-|H1] H2]; auto.
      + split; [|tauto]. intros H. split; [exact H|]. intros <-. destruct H as [<-|H].
        * cbn [fst] in E2. rewrite (st_irrefl _ ST) in E2; discriminate.
        * specialize (Hl _ H). rewrite (ltb_asym _ _ Hl) in E2. discriminate.
      + pose proof (ltb_eq _ _ E1 E2) as ->. cbn [In]. split.
        * intros H. split; [auto|]. intros <-. specialize (Hl _ H).
          rewrite (st_irrefl _ ST) in Hl; discriminate.
        * intros [[<-|H1] H2]; [cbn [fst] in H2; congruence|exact H1].
  Qed.

  Lemma merase_sorted m : msorted m -> forall k, msorted (merase k m).
  Proof.
    induction m as [|[k' v'] m IH]; intros Hs k; cbn [merase].
    - constructor.
    - pose proof Hs as Hs'. apply msorted_cons in Hs as [Hs Hl]. cbn [fst] in Hl.
      destruct (ltb k' k) eqn:E1; [|destruct (ltb k k') eqn:E2].
      + apply msorted_cons. split; [auto|]. intros q Hq.
        apply (merase_in _ Hs) in Hq as [Hq _]; auto.
      + exact Hs'.
      + exact Hs.
  Qed.

  Lemma mfind_mset m : msorted m -> forall k v k', mfind k' (mset k v m) =
    if (if ltb k k' then true else ltb k' k) then mfind k' m else Some v.
  Proof.
    intros Hs k v k'.
    pose proof (mset_sorted _ Hs k v) as Hs2.
    destruct (ltb k k') eqn:E1; [|destruct (ltb k' k) eqn:E2].
    - assert (k' <> k) by (intros ->; rewrite (st_irrefl _ ST) in E1; discriminate).
      destruct (mfind k' m) as [w|] eqn:E.
      + apply (mfind_in _ Hs2). apply (mset_in _ Hs). right.
        split; [apply (mfind_in _ Hs); exact E|]. exact H.
      + apply (mfind_none _ Hs2). intros w Hw. apply (mset_in _ Hs) in Hw as [Hw|[Hw _]]; [congruence|].
        apply (mfind_in _ Hs) in Hw. congruence.
    - assert (k' <> k) by (intros ->; rewrite (st_irrefl _ ST) in E2; discriminate).
      destruct (mfind k' m) as [w|] eqn:E.
      + apply (mfind_in _ Hs2). apply (mset_in _ Hs). right.
        split; [apply (mfind_in _ Hs); exact E|]. exact H.
      + apply (mfind_none _ Hs2). intros w Hw. apply (mset_in _ Hs) in Hw as [Hw|[Hw _]]; [congruence|].
        apply (mfind_in _ Hs) in Hw. congruence.
    - pose proof (ltb_eq _ _ E1 E2) as ->. apply (mfind_in _ Hs2). apply (mset_in _ Hs). auto.
  Qed.

  Lemma mfind_mset_same m : msorted m -> forall k v, mfind k (mset k v m) = Some v.
  Proof. intros Hs k v. rewrite (mfind_mset _ Hs). rewrite !(st_irrefl _ ST). reflexivity. Qed.

  Lemma mfind_mset_other m : msorted m -> forall k v k', k' <> k -> mfind k' (mset k v m) = mfind k' m.
  Proof.
    intros Hs k v k' Hn. rewrite (mfind_mset _ Hs).
    destruct (ltb k k') eqn:E1; [reflexivity|]. destruct (ltb k' k) eqn:E2; [reflexivity|].
    pose proof (ltb_eq _ _ E1 E2). congruence.
  Qed.

  Lemma mfind_minsert m : msorted m -> forall k v k', mfind k' (minsert k v m) =
    match mfind k' m with Some w => Some w | None => if (if ltb k k' then true else ltb k' k) then None else Some v end.
  Proof.
    intros Hs k v k'. pose proof (minsert_sorted _ Hs k v) as Hs2.
    destruct (mfind k' m) as [w|] eqn:E.
    - apply (mfind_in _ Hs2). apply (minsert_in _ Hs). left. apply (mfind_in _ Hs). exact E.
    - assert (D : (if ltb k k' then true else ltb k' k) = false -> k = k').
      { destruct (ltb k k') eqn:E1; [discriminate|]. intros E2. apply ltb_eq; auto. }
      destruct (if ltb k k' then true else ltb k' k) eqn:E2.
      + apply (mfind_none _ Hs2). intros w Hw. apply (minsert_in _ Hs) in Hw as [Hw|[Hw _]].
        * apply (mfind_in _ Hs) in Hw. congruence.
        * inv Hw. rewrite (st_irrefl _ ST) in E2. discriminate.
      + rewrite <- (D eq_refl) in *. apply (mfind_in _ Hs2). apply (minsert_in _ Hs). auto.
  Qed.
End Map.

(** [std::set] as sorted lists of keys. *)
Section OSet.
  Context {K : Type} (ltb : K -> K -> bool).

  Fixpoint sins (k : K) (s : list K) : list K :=
    match s with
    | [] => [k]
    | a :: t => if ltb a k then a :: sins k t else if ltb k a then k :: s else s
    end.

  Fixpoint serase (k : K) (s : list K) : list K :=
    match s with
    | [] => []
    | a :: t => if ltb a k then a :: serase k t else if ltb k a then s else t
    end.

  Fixpoint smem (k : K) (s : list K) : bool :=
    match s with
    | [] => false
    | a :: t => if ltb a k then smem k t else if ltb k a then false else true
    end.

  (** lexicographic comparison of [std::set]s ([std::lexicographical_compare]) *)
  Fixpoint lex_ltb (s t : list K) : bool :=
    match s, t with
    | _, [] => false
    | [], _ :: _ => true
    | a :: s', b :: t' => if ltb a b then true else if ltb b a then false else lex_ltb s' t'
    end.

  Definition ssorted (s : list K) : Prop := StronglySorted (fun a b => ltb a b = true) s.

  Context (ST : strict_total ltb).

  Lemma ssorted_cons p m : ssorted (p :: m) <-> ssorted m /\ (forall q, In q m -> ltb p q = true).
  Proof. apply SS_cons. Qed.

  Lemma sins_in s : forall k p, In p (sins k s) <-> p = k \/ In p s.
  Proof.
    induction s as [|a s IH]; intros k p; cbn [sins].
    - cbn. intuition congruence.
    - destruct (ltb a k) eqn:E1; [|destruct (ltb k a) eqn:E2].
      + cbn [In]. rewrite IH. tauto.
      + cbn [In]. intuition congruence.
      + pose proof (ltb_eq ltb ST _ _ E1 E2) as ->. cbn [In]. intuition congruence.
  Qed.

  Lemma sins_sorted s : ssorted s -> forall k, ssorted (sins k s).
  Proof.
    induction s as [|a s IH]; intros Hs k; cbn [sins].
    - apply ssorted_cons. split; [constructor|intros ? []].
    - pose proof Hs as Hs'. apply ssorted_cons in Hs as [Hs Hl].
      destruct (ltb a k) eqn:E1; [|destruct (ltb k a) eqn:E2].
      + apply ssorted_cons. split; [auto|]. intros q Hq. apply sins_in in Hq as [->|Hq]; auto.
      + apply ssorted_cons. split; [exact Hs'|]. intros q [<-|Hq]; [exact E2|].
        eapply (st_trans _ ST); [exact E2|]. auto.
      + exact Hs'.
  Qed.

  Lemma smem_in s : ssorted s -> forall k, smem k s = true <-> In k s.
  Proof.
    induction s as [|a s IH]; intros Hs k; cbn [smem].
    - split; [discriminate|intros []].
    - apply ssorted_cons in Hs as [Hs Hl].
      destruct (ltb a k) eqn:E1; [|destruct (ltb k a) eqn:E2].
      + rewrite IH by assumption. cbn. split; [auto|]. intros [->|H]; [|exact H].
        rewrite (st_irrefl _ ST) in E1. discriminate.
      + split; [discriminate|]. intros [->|H].
        * rewrite (st_irrefl _ ST) in E2. discriminate.
        * specialize (Hl _ H). rewrite (ltb_asym ltb ST _ _ Hl) in E2. discriminate.
      + pose proof (ltb_eq ltb ST _ _ E1 E2) as ->. cbn. tauto.
  Qed.

  Lemma serase_in s : ssorted s -> forall k p, In p (serase k s) <-> In p s /\ p <> k.
  Proof.
    induction s as [|a s IH]; intros Hs k p; cbn [serase].
    - cbn. tauto.
    - apply ssorted_cons in Hs as [Hs Hl].
      destruct (ltb a k) eqn:E1; [|destruct (ltb k a) eqn:E2].
      + cbn [In]. rewrite IH by assumption.
        assert (a <> k) by (intros ->; rewrite (st_irrefl _ ST) in E1; discriminate).
        split; [intros [<-|[H1 H2]]; auto | intros [[<-|H1] H2]; auto].
      + split; [|tauto]. intros H. split; [exact H|]. intros ->. destruct H as [<-|H].
        * rewrite (st_irrefl _ ST) in E2; discriminate.
        * specialize (Hl _ H). rewrite (ltb_asym ltb ST _ _ Hl) in E2. discriminate.
      + pose proof (ltb_eq ltb ST _ _ E1 E2) as ->. cbn [In]. split.
        * intros H. split; [auto|]. intros ->. specialize (Hl _ H).
          rewrite (st_irrefl _ ST) in Hl; discriminate.
        * intros [[<-|H1] H2]; [congruence|exact H1].
  Qed.

  Lemma serase_sorted s : ssorted s -> forall k, ssorted (serase k s).
  Proof.
    induction s as [|a s IH]; intros Hs k; cbn [serase].
    - constructor.
    - pose proof Hs as Hs'. apply ssorted_cons in Hs as [Hs Hl].
      destruct (ltb a k) eqn:E1; [|destruct (ltb k a) eqn:E2].
      + apply ssorted_cons. split; [auto|]. intros q Hq. apply (serase_in _ Hs) in Hq as [Hq _]; auto.
      + exact Hs'.
      + exact Hs.
  Qed.

  Lemma ssorted_ext s : forall t, ssorted s -> ssorted t -> (forall k, In k s <-> In k t) -> s = t.
  Proof.
    induction s as [|a s IH]; intros [|b t] Hs Ht He.
    - reflexivity.
    - exfalso. apply (He b). left; reflexivity.
    - exfalso. apply (He a). left; reflexivity.
    - apply ssorted_cons in Hs as [Hs Ha]. apply ssorted_cons in Ht as [Ht Hb].
      assert (a = b).
      { destruct (proj1 (He a) (or_introl eq_refl)) as [H|H]; [auto|].
        destruct (proj2 (He b) (or_introl eq_refl)) as [H'|H']; [auto|].
        pose proof (Hb _ H). pose proof (Ha _ H').
        rewrite (ltb_asym ltb ST _ _ H0) in H1. discriminate. }
      subst b. f_equal. apply IH; auto. intros k. split; intros Hk.
      + destruct (proj1 (He k) (or_intror Hk)) as [<-|H]; [|exact H].
        specialize (Ha _ Hk). rewrite (st_irrefl _ ST) in Ha. discriminate.
      + destruct (proj2 (He k) (or_intror Hk)) as [<-|H]; [|exact H].
        specialize (Hb _ Hk). rewrite (st_irrefl _ ST) in Hb. discriminate.
  Qed.

  Lemma lex_strict_total : strict_total lex_ltb.
  Proof.
    constructor.
    - induction a as [|x a IH]; cbn [lex_ltb]; [reflexivity|].
      rewrite (st_irrefl _ ST). exact IH.
    - induction a as [|x a IH]; intros [|y b] [|z c]; cbn [lex_ltb]; try congruence.
      destruct (ltb x y) eqn:E1.
      + intros _. destruct (ltb y z) eqn:E2.
        * rewrite (st_trans _ ST _ _ _ E1 E2). auto.
        * destruct (ltb z y) eqn:E3; [discriminate|].
          pose proof (ltb_eq ltb ST _ _ E2 E3) as ->. rewrite E1. auto.
      + destruct (ltb y x) eqn:E2; [discriminate|].
        pose proof (ltb_eq ltb ST _ _ E1 E2) as ->.
        destruct (ltb y z) eqn:E3; [auto|]. destruct (ltb z y) eqn:E4; [discriminate|].
        apply IH.
    - induction a as [|x a IH]; intros [|y b]; cbn [lex_ltb]; auto.
      destruct (st_total _ ST x y) as [->|[H|H]].
      + rewrite (st_irrefl _ ST). destruct (IH b) as [->|[H|H]]; auto.
      + rewrite H. auto.
      + rewrite H. destruct (ltb x y); auto.
  Qed.
End OSet.

Lemma Zltb_strict : strict_total Z.ltb.
Proof.
  constructor.
  - intros a. apply Z.ltb_irrefl.
  - intros a b c H1 H2. lia.
  - intros a b. lia.
Qed.

Lemma natltb_strict : strict_total Nat.ltb.
Proof.
  constructor.
  - intros a. apply Nat.ltb_irrefl.
  - intros a b c H1 H2. lia.
  - intros a b. lia.
Qed.

(** The container operations on a list split at the key. *)
Section Mid.
  Context {K V : Type} (ltb : K -> K -> bool) (ST : strict_total ltb).
  Implicit Types (pre post : list (K * V)).

  Definition below (k : K) pre := forall p, In p pre -> ltb (fst p) k = true.
  Definition above (k : K) post := forall p, In p post -> ltb k (fst p) = true.

  Lemma below_cons k p pre : below k (p :: pre) <-> ltb (fst p) k = true /\ below k pre.
  Proof. unfold below. cbn. split; [intros H; auto|]. intros [H1 H2] q [<-|Hq]; auto. Qed.

  Lemma mfind_mid k v pre post : below k pre -> mfind ltb k (pre ++ (k, v) :: post) = Some v.
  Proof.
    induction pre as [|[k' v'] pre IH]; intros Hb; cbn [app mfind].
    - rewrite (st_irrefl _ ST). reflexivity.
    - apply below_cons in Hb as [H1 H2]. cbn [fst] in H1. rewrite H1. auto.
  Qed.

  Lemma mset_mid k v w pre post : below k pre -> mset ltb k w (pre ++ (k, v) :: post) = pre ++ (k, w) :: post.
  Proof.
    induction pre as [|[k' v'] pre IH]; intros Hb; cbn [app mset].
    - rewrite (st_irrefl _ ST). reflexivity.
    - apply below_cons in Hb as [H1 H2]. cbn [fst] in H1. rewrite H1. f_equal. auto.
  Qed.

  Lemma merase_mid k v pre post : below k pre -> merase ltb k (pre ++ (k, v) :: post) = pre ++ post.
  Proof.
    induction pre as [|[k' v'] pre IH]; intros Hb; cbn [app merase].
    - rewrite (st_irrefl _ ST). reflexivity.
    - apply below_cons in Hb as [H1 H2]. cbn [fst] in H1. rewrite H1. f_equal. auto.
  Qed.

  Lemma above_head k post : above k post ->
    match post with [] => True | (k', _) :: _ => ltb k k' = true /\ ltb k' k = false end.
  Proof.
    destruct post as [|[k' v'] post]; [auto|]. intros H.
    pose proof (H _ (or_introl eq_refl)) as H1. cbn [fst] in H1. split; [exact H1|].
    apply (ltb_asym ltb ST). exact H1.
  Qed.

  Lemma mfind_absent k pre post : below k pre -> above k post -> mfind ltb k (pre ++ post) = None.
  Proof.
    induction pre as [|[k' v'] pre IH]; intros Hb Ha; cbn [app].
    - apply above_head in Ha. destruct post as [|[k' v'] post]; [reflexivity|].
      destruct Ha as [H1 H2]. cbn [mfind]. rewrite H1, H2. reflexivity.
    - cbn [mfind]. apply below_cons in Hb as [H1 H2]. cbn [fst] in H1. rewrite H1. auto.
  Qed.

  Lemma mset_absent k w pre post : below k pre -> above k post -> mset ltb k w (pre ++ post) = pre ++ (k, w) :: post.
  Proof.
    induction pre as [|[k' v'] pre IH]; intros Hb Ha; cbn [app].
    - apply above_head in Ha. destruct post as [|[k' v'] post]; [reflexivity|].
      destruct Ha as [H1 H2]. cbn [mset]. rewrite H1, H2. reflexivity.
    - cbn [mset]. apply below_cons in Hb as [H1 H2]. cbn [fst] in H1. rewrite H1. f_equal. auto.
  Qed.

  Lemma minsert_absent k w pre post : below k pre -> above k post -> minsert ltb k w (pre ++ post) = pre ++ (k, w) :: post.
  Proof.
    induction pre as [|[k' v'] pre IH]; intros Hb Ha; cbn [app].
    - apply above_head in Ha. destruct post as [|[k' v'] post]; [reflexivity|].
      destruct Ha as [H1 H2]. cbn [minsert]. rewrite H1, H2. reflexivity.
    - cbn [minsert]. apply below_cons in Hb as [H1 H2]. cbn [fst] in H1. rewrite H1. f_equal. auto.
  Qed.
End Mid.

(** Shared imports and general list lemmas.  Nothing in this file models code. *)
From Coq Require Export List Arith ZArith Lia Bool Sorting.Sorted.
From Coq Require Export ZifyBool ZifyNat.
Export ListNotations.

(** [StronglySorted] over an append, element-wise. *)
Lemma SS_app {A} (R : A -> A -> Prop) (l1 l2 : list A) :
  StronglySorted R (l1 ++ l2) <->
  StronglySorted R l1 /\ StronglySorted R l2 /\ (forall a b, In a l1 -> In b l2 -> R a b).
Proof.
  induction l1 as [|a l1 IH]; cbn [app].
  - split.
    + intros H; repeat split; [constructor | exact H | intros ? ? []].
    + intros (_ & H & _); exact H.
  - split.
    + intros H. apply StronglySorted_inv in H as [H1 H2].
      apply IH in H1 as (Ha & Hb & Hc). rewrite Forall_app in H2. destruct H2 as [H2 H3].
      repeat split.
      * constructor; assumption.
      * assumption.
      * intros x y [->|Hx] Hy.
        -- rewrite Forall_forall in H3. auto.
        -- auto.
    + intros (H1 & H2 & H3). apply StronglySorted_inv in H1 as [H1 H1'].
      constructor.
      * apply IH. repeat split; auto. intros; apply H3; cbn; auto.
      * rewrite Forall_app. split; [assumption|]. rewrite Forall_forall.
        intros; apply H3; cbn; auto.
Qed.

Lemma SS_cons {A} (R : A -> A -> Prop) (a : A) (l : list A) :
  StronglySorted R (a :: l) <-> StronglySorted R l /\ (forall b, In b l -> R a b).
Proof.
  split.
  - intros H. apply StronglySorted_inv in H as [H1 H2]. rewrite Forall_forall in H2. auto.
  - intros [H1 H2]. constructor; [assumption|]. rewrite Forall_forall. auto.
Qed.

Lemma last_split {A} (l : list A) :
  l = [] \/ exists l' x, l = l' ++ [x].
Proof.
  induction l as [|a l IH] using rev_ind; [left; reflexivity | right; eauto].
Qed.

Ltac inv H := inversion H; subst; clear H.

Lemma Forall2_length {A B} (P : A -> B -> Prop) l l' : Forall2 P l l' -> length l = length l'.
Proof. induction 1; cbn; auto. Qed.

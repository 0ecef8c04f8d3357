(** C44, C45: property theorems for containers. *)
From Verif Require Import Base ContainerModel ContainerSpec ContainerProofs.
Local Open Scope Z_scope.

(** C44 is false as stated: [p = p->member] reads the member after the item it belongs to has
    been deleted, for both classes, although [p] and its member are in the client's reach. *)
Theorem C44_assign_refuted : forall sptr, exists m dst src,
  history sptr m /\ reach m None dst /\ reach m None src /\ step sptr m (OAssign dst src) = None.
Proof.
  intros sptr.
  exists (mkM [mkC true (Some 1) (Some []); mkC true (Some 1) (Some [1%nat])] [mkH None None; mkH (Some 0%nat) (Some 1%nat); mkH (Some 1%nat) None]), 2%nat, 1%nat.
  assert (R2 : reach (mkM [mkC true (Some 1) (Some []); mkC true (Some 1) (Some [1%nat])] [mkH None None; mkH (Some 0%nat) (Some 1%nat); mkH (Some 1%nat) None]) None 2)
    by (eapply reach_own; cbn; [reflexivity|reflexivity|discriminate]).
  split; [|split; [exact R2|split; [eapply reach_member; [exact R2|reflexivity|reflexivity|left; reflexivity|discriminate]|destruct sptr; vm_compute; reflexivity]]].
  (* h0 = new B; h2 = new A(h0); h0 is destroyed *)
  assert (H1 : history sptr (mkM [mkC true (Some 1) (Some [])] [mkH (Some 0%nat) None])).
  { apply (history_step sptr (mkM [] []) (ONew true [])); [apply history_start|intros h []|reflexivity]. }
  assert (H2 : history sptr (mkM [mkC true (Some 2) (Some []); mkC true (Some 1) (Some [1%nat])]
    [mkH (Some 0%nat) None; mkH (Some 0%nat) (Some 1%nat); mkH (Some 1%nat) None])).
  { apply (history_step sptr _ (ONew true [0%nat]) _ H1); [|reflexivity].
    cbn. intros h [<-|[]]. eapply reach_own; cbn; [reflexivity|reflexivity|discriminate]. }
  apply (history_step sptr _ (ODestroy 0) _ H2); [split; cbn; [reflexivity|discriminate]|reflexivity].
Qed.
Print Assumptions C44_assign_refuted.

(** C44, the part that holds, for both classes and every history of allowed operations (see
    ContainerSpec; items may refer to each other in any way).  Missing from the full
    property: assignments whose source is only in reach through the target.

    No operation ever uses freed memory or deletes an item twice ... *)
Theorem C44_safe_partial (sptr : bool) (m : memory) (o : op) : history sptr m -> allowed m o ->
  exists m', step sptr m o = Some m' /\ history sptr m'.
Proof.
  intros H A. destruct (step_spec sptr m o (history_inv _ _ H) A) as (m' & E & _). exists m'. split; [exact E|]. exact (history_step sptr m o m' H A E).
Qed.
Print Assumptions C44_safe_partial.

(** ... an owned item exists exactly as long as some container refers to it ... *)
Theorem C44_lifetime_partial (sptr : bool) (m : memory) (r : nat) : history sptr m -> c_owned (cell_at m r) = true ->
  item_exists m r <-> referred m r.
Proof. exact (fun H => inv_exists m r (history_inv _ _ H)). Qed.
Print Assumptions C44_lifetime_partial.

(** ... a deleted item never exists again ... *)
Theorem C44_once_partial (sptr : bool) (m m' : memory) (o : op) (r : nat) : step sptr m o = Some m' ->
  (r < length (m_cells m))%nat -> ~ item_exists m r -> ~ item_exists m' r.
Proof. exact (gone_lemma sptr m o m' r). Qed.
Print Assumptions C44_once_partial.

(** ... and copies and assignments refer to the item of their source. *)
Theorem C44_copy_partial (sptr : bool) (m m' : memory) (src : nat) : history sptr m -> allowed m (OCopy src) ->
  step sptr m (OCopy src) = Some m' ->
  h_ref (handle_at m' (length (m_handles m))) = h_ref (handle_at m src) /\ h_in (handle_at m' (length (m_handles m))) = None.
Proof. exact (copy_value_lemma sptr m src m'). Qed.
Print Assumptions C44_copy_partial.

Theorem C44_assign_partial (sptr : bool) (m m' : memory) (dst src : nat) : history sptr m -> allowed m (OAssign dst src) ->
  step sptr m (OAssign dst src) = Some m' -> h_ref (handle_at m' dst) = h_ref (handle_at m src).
Proof. exact (assign_value_lemma sptr m dst src m'). Qed.
Print Assumptions C44_assign_partial.

(** A history: a list of two items (0 in 1), a copy of the handle of 1, an assignment that
    makes a cycle 0 -> none, and the destruction of both handles of 1, which deletes 1 but
    not 0, still held by the first handle. *)
Definition run_ops (sptr : bool) (ops : list op) : option memory :=
  fold_left (fun m o => match m with Some m => step sptr m o | None => None end) ops (Some (mkM [] [])).
Example C44_nontrivial :
  option_map (fun m => map (fun c => (c_count c, c_kids c)) (m_cells m))
    (run_ops true [ONew true []; ONew true [0%nat]; OCopy 2; ODestroy 2]) =
    Some [(Some 2, Some []); (Some 1, Some [1%nat])] /\
  option_map (fun m => map (fun c => (c_count c, c_kids c)) (m_cells m))
    (run_ops true [ONew true []; ONew true [0%nat]; OCopy 2; ODestroy 2; ODestroy 3]) =
    Some [(Some 1, Some []); (None, None)] /\
  option_map (fun m => map (fun c => (c_count c, c_kids c)) (m_cells m))
    (run_ops false [ONew true []; ONew true [0%nat]; ONew true []; OAssign 2 3]) =
    Some [(Some 1, Some []); (None, None); (Some 2, Some [])].
Proof. repeat split; vm_compute; reflexivity. Qed.

(** C45 is false as stated: the container of 2 is [<=] the container of 1, and the container
    of 1 is [>=] the container of 2. *)
Definition int_less (a b : option Z) : bool :=
  match a, b with Some x, Some y => x <? y | None, Some _ => true | _, None => false end.
Theorem C45_compare_refuted :
  c_le int_less (Some 2) (Some 1) = true /\ c_lt int_less (Some 1) (Some 2) = true /\ c_ge int_less (Some 1) (Some 2) = true.
Proof. exact (conj eq_refl (conj eq_refl eq_refl)). Qed.
Print Assumptions C45_compare_refuted.

(** For every irreflexive order of the items both operators are always true. *)
Theorem C45_always_refuted (X : Type) (less : option X -> option X -> bool) (a b : option X) :
  (forall x, less x x = false) -> c_le less a b = true /\ c_ge less a b = true.
Proof. exact (fun H => conj (f_equal negb (H a)) (f_equal negb (H a))). Qed.
Print Assumptions C45_always_refuted.

(** C45, the part that holds: [<], [>] and [==] compare the contents.  Missing: [<=], [>=]. *)
Theorem C45_compare_partial (X : Type) (less : option X -> option X -> bool) (eqb : X -> X -> bool) (a b : option X) (same : bool) :
  (forall x y, eqb x y = true <-> x = y) -> (same = true -> a = b) ->
  c_lt less a b = less a b /\ c_gt less a b = less b a /\ (c_eq eqb same a b = true <-> a = b).
Proof.
  intros E S. split; [reflexivity|]. split; [reflexivity|]. destruct same; [tauto|]. cbn. destruct a, b; try (split; congruence).
  rewrite E. split; congruence.
Qed.
Print Assumptions C45_compare_partial.

(** C24: the terminal dictionary. *)
From Verif Require Import Base OrdMap TermDictModel TermDictSpec TermDictProofs.
Local Open Scope Z_scope.

Definition run_calls (cs : list call) : dict * log :=
  fold_left (fun '(d, l) c => (fst (perform c d), (c, snd (perform c d)) :: l)) cs (new_dict, []).

(** The full statement fails for a name that is added twice: its first symbol still shows the
    name, but the name leads to the second. *)
Theorem C24_inverse_refuted : exists d l n s fuel, after names_again d l /\ entry n s l /\
  name_for_symbol fuel s d = Some n /\ symbol_for_name n d <> s.
Proof.
  exists (fst (run_calls [Named [97]; Named [97]])), (snd (run_calls [Named [97]; Named [97]])), [97], 0, 1%nat. split.
  - unfold run_calls. cbn [fold_left fst snd]. repeat (apply after_call; [|exact I]). apply after_new.
  - vm_compute. split; [auto 10|]. split; [reflexivity|discriminate].
Qed.
Print Assumptions C24_inverse_refuted.
(** When symbols are split that are not in the dictionary yet, name_for_symbol can follow parents
    for ever. *)
Definition cyclic_calls : list call := [Split 2; Split 5; Split 1; Anonymous; Anonymous; Split 0].
Theorem C24_name_ends_refuted : exists d l s, after splits_any d l /\ issued s l /\ forall fuel, name_for_symbol fuel s d = None.
Proof.
  exists (fst (run_calls cyclic_calls)), (snd (run_calls cyclic_calls)), 0. split; [|split].
  - unfold cyclic_calls, run_calls. cbn [fold_left fst snd]. repeat (apply after_call; [|cbn [splits_any sensible]; first [lia|exact I]]). apply after_new.
  - exists (Split 2). vm_compute. auto 10.
  - set (d := fst (run_calls cyclic_calls)).
    assert (G : forall fuel, name_for_symbol fuel 2 d = None /\ name_for_symbol fuel 5 d = None).
    { induction fuel as [|fuel [IH2 IH5]]; [auto|]. split.
      - change (name_for_symbol (S fuel) 2 d) with (name_for_symbol fuel 5 d). exact IH5.
      - change (name_for_symbol (S fuel) 5 d) with (name_for_symbol fuel 2 d). exact IH2. }
    intros [|fuel]; [reflexivity|]. change (name_for_symbol (S fuel) 0 d) with (name_for_symbol fuel 2 d). apply G.
Qed.
Print Assumptions C24_name_ends_refuted.

(** C24 for histories in which every name is added once, chosen values are unused and only symbols
    of the dictionary are split (the documented use).  Missing for the full statement: the
    histories refuted above. *)
(** Every call but add_symbol(name, value) returns a symbol that was not in use. *)
Theorem C24_fresh_partial : forall d l c, after sensible d l -> sensible l c -> 0 <= snd (perform c d) /\ ~ issued (snd (perform c d)) l.
Proof.
  intros d l c A OK. pose proof (inv_step d l c (inv_after _ _ A) OK) as I. split; [eapply (i_fresh _ _ I), issued_cons; left; reflexivity|].
  pose proof (i_once _ _ I) as N. cbn [map snd] in N. apply NoDup_cons_iff in N. rewrite issued_in. apply N.
Qed.
Print Assumptions C24_fresh_partial.
(** Names and symbols lead to each other, at once and after any later calls; the number of symbols
    reported is the number of names. *)
Theorem C24_names_partial : forall d l, after sensible d l ->
  (forall n s, entry n s l -> symbol_for_name n d = s /\ (forall fuel, name_for_symbol (S fuel) s d = Some n) /\ parent_of s d = s) /\
  (forall n, (forall s, ~ entry n s l) -> symbol_for_name n d = -1) /\
  (forall s, In (Anonymous, s) l -> (forall fuel, name_for_symbol (S fuel) s d = Some []) /\ parent_of s d = s).
Proof.
  intros d l A. pose proof (inv_after _ _ A) as I. split; [|split].
  - intros n s E. split; [|split].
    + unfold symbol_for_name. apply (i_entry_name _ _ I) in E. rewrite (proj2 (mfind_in _ name_strict _ (i_names _ _ I) _ _) E). reflexivity.
    + intros fuel. eapply name_found; eassumption.
    + eapply parent_root; [exact I|]. intros q Q. destruct E as [E|E]; pose proof (log_unique l _ _ s (i_once _ _ I) Q E) as X; discriminate X.
  - intros n H. unfold symbol_for_name. rewrite (proj2 (mfind_none _ name_strict _ (i_names _ _ I) _)); [reflexivity|]. intros s Hs. apply (i_entry_name _ _ I) in Hs. eapply H, Hs.
  - intros s H. assert (P : parent_of s d = s).
    { eapply parent_root; [exact I|]. intros q Q. pose proof (log_unique l _ _ s (i_once _ _ I) Q H) as X. discriminate X. }
    split; [|exact P]. intros fuel. rewrite (name_of_root d l) by assumption. rewrite name_missing with (l := l); [reflexivity|exact I|].
    intros n [E|E]; pose proof (log_unique l _ _ s (i_once _ _ I) H E) as X; discriminate X.
Qed.
Print Assumptions C24_names_partial.
(** A split symbol has the parent and the name of the symbol it was split from, and the children
    of a symbol are the symbols split from it or from its children. *)
Theorem C24_split_partial : forall d l, after sensible d l ->
  (forall q s, In (Split q, s) l -> parent_of s d = parent_of q d /\ parent_of s d <> s /\ (forall fuel, name_for_symbol (S (S fuel)) s d = name_for_symbol (S (S fuel)) q d)) /\
  (forall s p, In s (children_of p d) <-> exists q, In (Split q, s) l /\ parent_of q d = p) /\
  (forall s, parent_of (parent_of s d) d = parent_of s d).
Proof.
  intros d l A. pose proof (inv_after _ _ A) as I. split; [|split].
  - intros q s H. split; [eapply parent_split; eassumption|]. split; [|intros fuel; eapply name_split; eassumption].
    rewrite (parent_split d l s q I H). intros E. destruct (i_split_parent _ _ I _ _ H) as [P _]. rewrite E in P. destruct (i_root _ _ I _ _ P) as [_ R]. eapply R, P.
  - intros s p. rewrite (i_child _ _ I). split.
    + intros H. destruct (i_split _ _ I _ _ H) as [q Q]. exists q. split; [exact Q|]. destruct (i_split_parent _ _ I _ _ Q) as [P _]. eapply (msorted_unique _ Zltb_strict); [apply I|exact P|exact H].
    + intros (q & Q & <-). apply (i_split_parent _ _ I), Q.
  - intros s. eapply parent_is_root, I.
Qed.
Print Assumptions C24_split_partial.
Definition ex_calls : list call := [Named [97]; Valued [98] 7; Named [99]; Split 0; Anonymous; Split 9; Valued [100] 3; Split 10].
Example C24_nontrivial : let d := fst (run_calls ex_calls) in let l := snd (run_calls ex_calls) in after sensible d l /\
  map snd (rev l) = [0; 7; 8; 9; 10; 11; 3; 12] /\ children_of 0 d = [9; 11] /\ name_for_symbol 2 11 d = Some [97] /\ symbol_for_name [100] d = 3 /\ parent_of 12 d = 10.
Proof.
  split; [|vm_compute; auto 10]. unfold ex_calls, run_calls. cbn [fold_left fst snd].
  Local Ltac no_entry := intros ? H; destruct H as [H|H]; vm_compute in H; repeat (destruct H as [H|H]; [discriminate H|]); exact H.
  Local Ltac no_issue := intros (? & H); vm_compute in H; repeat (destruct H as [H|H]; [discriminate H|]); exact H.
  repeat (apply after_call; [|cbn [sensible]; first [exact I|split; [no_entry|split; [lia|no_issue]]|no_entry|eexists; vm_compute; auto 10]]). apply after_new.
Qed.

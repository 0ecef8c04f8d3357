(** C05, C06: property theorems for character lookup tables. *)
From Verif Require Import Base OrdMap SymbolSetModel SymbolSetSpec SymbolMapModel SymbolMapSpec.
From Verif Require Import SymbolTableModel SymbolTableSpec SymbolTableProofs HardTableProofs.
Local Open Scope Z_scope.

(** C05 is false as stated: with the sets [0,256) and [256,512) the character 300 is in
    none of the sets according to the table. *)
Theorem C05_lookup_refuted : exists reqs, Forall normal reqs /\ disjoint_map (sm_of reqs) /\
  contains (sm_get (sm_of reqs) 1) 300 = true /\
  set_for_symbol Kwchar (translator Kwchar (sm_of reqs)) 300 = -1 /\
  set_for_symbol Kint (translator Kint (sm_of reqs)) 300 = -1.
Proof. exact boundary_lemma. Qed.
Print Assumptions C05_lookup_refuted.

(** The same happens if the large range is added first. *)
Theorem C05_lookup_order_refuted : exists reqs, Forall normal reqs /\ disjoint_map (sm_of reqs) /\
  contains (sm_get (sm_of reqs) 0) 300 = true /\
  set_for_symbol Kwchar (translator Kwchar (sm_of reqs)) 300 = -1.
Proof. exact boundary_order_lemma. Qed.
Print Assumptions C05_lookup_order_refuted.

(** A [wchar_t] beyond 16 bits is looked up by its low 16 bits. *)
Theorem C05_lookup_alias_refuted : exists reqs, Forall normal reqs /\ disjoint_map (sm_of reqs) /\
  (forall i, contains (sm_get (sm_of reqs) i) 65633 = false) /\
  set_for_symbol Kwchar (translator Kwchar (sm_of reqs)) 65633 = 0.
Proof. exact alias_lemma. Qed.
Print Assumptions C05_lookup_alias_refuted.

(** C05, the part that holds: for every map of disjoint sets, the lookup of every
    character the table is made for is exact.  Missing from the full property: maps with a
    range of 256 or more characters that starts, at a multiple of 256, where another range
    ends; characters above the limit of the table. *)
Theorem C05_lookup_partial (reqs : list symbol_set) (k : char_kind) (c : Z) :
  Forall normal reqs -> disjoint_map (sm_of reqs) -> no_block_after_range (sm_of reqs) -> fits k (sm_of reqs) ->
  0 <= c < kind_limit k ->
  lookup_exact (sm_of reqs) c (set_for_symbol k (translator k (sm_of reqs)) c).
Proof. intros NR DJ NB HF Hc. exact (translator_lemma reqs NR DJ NB k c HF Hc). Qed.
Print Assumptions C05_lookup_partial.

(** The hypotheses hold for a map with several levels of tables: *)
Definition C05_ex := [[mkR 97 123; mkR 512 1024]; [mkR 48 58]; [mkR 65 91; mkR 8192 70000]; [mkR 124 200]].
Lemma C05_ex_ranges i r : In r (sm_get (sm_of C05_ex) i) -> In r (concat C05_ex).
Proof.
  intros H. assert (0 <= i < 4) as Hi.
  { destruct (Z_lt_dec i 0); [|destruct (Z_lt_dec i 4); [lia|]]; (rewrite SymbolMapProofs.sm_get_out in H; [destruct H|]); change (sm_count (sm_of C05_ex)) with 4; lia. }
  assert (i = 0 \/ i = 1 \/ i = 2 \/ i = 3) as [-> | [-> | [-> | ->]]] by lia; cbn in H |- *; repeat (destruct H as [<-|H]; [auto 12|]); destruct H.
Qed.
Example C05_nontrivial :
  Forall normal C05_ex /\ disjoint_map (sm_of C05_ex) /\ no_block_after_range (sm_of C05_ex) /\ fits Kchar (sm_of [[mkR 97 123]]) /\
  map (fun c => set_for_symbol Kint (translator Kint (sm_of C05_ex)) c) [96; 97; 123; 124; 511; 512; 1023; 1024; 8191; 69999; 70000; 90]
  = [-1; 0; -1; 3; -1; 0; 0; -1; -1; 2; -1; 2].
Proof.
  assert (N : Forall normal C05_ex) by (apply normal_sets; vm_compute; reflexivity).
  split; [exact N|]. split; [apply disjoint_of; [exact N|vm_compute; reflexivity]|]. split; [|split].
  - intros i j r r' Hr Hr' E D. apply C05_ex_ranges in Hr, Hr'. cbn in Hr, Hr'. destruct D as [x D].
    repeat (destruct Hr as [<-|Hr]; [cbn in *; repeat (destruct Hr' as [<-|Hr']; [cbn in *; try lia|]); destruct Hr'|]); destruct Hr.
  - intros _ i r. destruct (Z.eq_dec i 0) as [->|]; [cbn; intros [<-|[]]; cbn; lia|]. rewrite SymbolMapProofs.sm_get_out; [intros []|].
    change (sm_count (sm_of [[mkR 97 123]])) with 1. lia.
  - vm_compute. reflexivity.
Qed.

(** C06 is false as stated: from 256 on the compiled-in table finds no set where the
    dynamic one finds one. *)
Theorem C06_hard_coded_refuted : exists reqs h, Forall normal reqs /\ disjoint_map (sm_of reqs) /\
  no_end_at_block (sm_of reqs) /\ starts_in Kwchar (sm_of reqs) /\
  to_hard (kind_depth Kwchar) (translator Kwchar (sm_of reqs)) = Some h /\
  set_for_symbol Kwchar (translator Kwchar (sm_of reqs)) 257 = 1 /\
  hard_coded_lookup Kwchar h 257 = Some (-1).
Proof. exact hard_upper_lemma. Qed.
Print Assumptions C06_hard_coded_refuted.

(** And with the set [0,256) the table is not written at all: its size wraps around. *)
Theorem C06_hard_coded_missing_refuted : exists reqs, Forall normal reqs /\ disjoint_map (sm_of reqs) /\
  no_block_after_range (sm_of reqs) /\ starts_in Kwchar (sm_of reqs) /\
  to_hard (kind_depth Kwchar) (translator Kwchar (sm_of reqs)) = None.
Proof. exact hard_alloc_lemma. Qed.
Print Assumptions C06_hard_coded_missing_refuted.

(** C06, the part that holds.  Whenever a table is written, no lookup reads outside it;
    below 256 the result is exact; from 256 on it is the set that contains the whole block
    of 256 characters, and only that.  Missing from the full property: exact results from
    256 on, and the maps excluded in C05. *)
Theorem C06_hard_coded_partial (reqs : list symbol_set) (k : char_kind) (h : list Z) :
  Forall normal reqs -> disjoint_map (sm_of reqs) -> no_block_after_range (sm_of reqs) -> fits k (sm_of reqs) ->
  to_hard (kind_depth k) (translator k (sm_of reqs)) = Some h ->
  forall c, 0 <= c < kind_limit k -> exists id, hard_coded_lookup k h c = Some id /\
    (c < 256 -> lookup_exact (sm_of reqs) c id) /\ (256 <= c -> block_exact (sm_of reqs) c id).
Proof. intros NR DJ. exact (hard_table_lemma reqs NR DJ k h). Qed.
Print Assumptions C06_hard_coded_partial.

(** The table is written if no range ends at a multiple of 256. *)
Theorem C06_hard_coded_exists_partial (reqs : list symbol_set) (k : char_kind) :
  Forall normal reqs -> disjoint_map (sm_of reqs) -> no_end_at_block (sm_of reqs) -> starts_in k (sm_of reqs) ->
  exists h, to_hard (kind_depth k) (translator k (sm_of reqs)) = Some h.
Proof. intros NR DJ. exact (hard_exists_lemma reqs NR DJ k). Qed.
Print Assumptions C06_hard_coded_exists_partial.

Example C06_nontrivial :
  exists h, to_hard (kind_depth Kint) (translator Kint (sm_of [[mkR 97 123; mkR 130 1100]; [mkR 48 58]])) = Some h /\
  map (hard_coded_lookup Kint h) [47; 48; 57; 58; 97; 122; 123; 255; 256; 1000; 1050; 2000] =
  map Some [-1; 1; 1; -1; 0; 0; -1; 0; 0; 0; -1; -1].
Proof. eexists. split; [vm_compute; reflexivity|]. vm_compute. reflexivity. Qed.

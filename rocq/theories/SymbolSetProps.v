(** C01, C02: property theorems for symbol sets. *)
From Verif Require Import Base SymbolSetModel SymbolSetSpec SymbolSetProofs.
Local Open Scope Z_scope.

(** C01: whatever sequence of operations built the set, [operator[]] answers membership
    in the mathematical set. *)
Theorem C01_symbol_set_semantics (e : expr) (x : Z) :
  valid e -> contains (eval e) x = true <-> denote e x.
Proof. exact (symbol_set_semantics_lemma e x). Qed.
Print Assumptions C01_symbol_set_semantics.

Example C01_nontrivial :
  let e := EAnd (EExclR (EUnionR (EUnionR (ERange (mkR 97 123)) (mkR 65 91)) (mkR 48 58)) (mkR 100 110))
                (EInv (ERange (mkR 50 70))) in
  valid e /\ eval e = [mkR 48 50; mkR 70 91; mkR 97 100; mkR 110 123].
Proof.
  split; [|vm_compute; reflexivity].
  repeat split; cbn; try lia; unfold c_MaxSymbol; lia.
Qed.

(** C01: the single operations, stated as one step on any normal set. *)
Theorem C01_union_range_step (s : symbol_set) (r : range) :
  normal s -> valid_range r ->
  forall x, contains (union_range s r) x = true <-> contains s x = true \/ in_range x r.
Proof. exact (union_range_step s r). Qed.
Print Assumptions C01_union_range_step.

Example C01_union_range_step_nontrivial :
  normal [mkR 1 3; mkR 5 7; mkR 9 11] /\ valid_range (mkR 3 6) /\
  union_range [mkR 1 3; mkR 5 7; mkR 9 11] (mkR 3 6) = [mkR 1 7; mkR 9 11].
Proof.
  split; [|split; [|vm_compute; reflexivity]]; unfold normal, valid_range, c_MaxSymbol;
    repeat (constructor; cbn); try lia.
Qed.

(** C02: iteration yields sorted, disjoint, non-touching, non-empty ranges. *)
Theorem C02_symbol_set_normal (e : expr) : valid e -> normal (eval e).
Proof. exact (symbol_set_normal_lemma e). Qed.
Print Assumptions C02_symbol_set_normal.

Example C02_normal_nontrivial :
  let e := EExclR (EUnionR (EUnionR (ERange (mkR 5 9)) (mkR 1 5)) (mkR 20 30)) (mkR 4 22) in
  valid e /\ eval e = [mkR 1 4; mkR 22 30].
Proof.
  cbv zeta. split; [|vm_compute; reflexivity]. cbn [valid]. unfold valid_range, c_MaxSymbol. cbn [lo hi]. lia.
Qed.

(** C02: [==] is extensional equality. *)
Theorem C02_symbol_set_eq (e f : expr) : valid e -> valid f ->
  set_eqb (eval e) (eval f) = true <-> (forall x, denote e x <-> denote f x).
Proof. exact (symbol_set_eq_lemma e f). Qed.
Print Assumptions C02_symbol_set_eq.

Example C02_nontrivial :
  let e := EUnionR (EUnionR (ERange (mkR 5 7)) (mkR 1 3)) (mkR 3 5) in
  let f := EInv (EInv (ERange (mkR 1 7))) in
  valid e /\ valid f /\ set_eqb (eval e) (eval f) = true.
Proof.
  cbv zeta. split; [|split; [|vm_compute; reflexivity]];
    repeat split; cbn; try lia; unfold c_MaxSymbol; lia.
Qed.

(** C02: [<] is a strict total order whose equivalence is equality (no hypotheses). *)
Theorem C02_symbol_set_order :
  (forall s, set_ltb s s = false) /\
  (forall s t u, set_ltb s t = true -> set_ltb t u = true -> set_ltb s u = true) /\
  (forall s t, s = t \/ set_ltb s t = true \/ set_ltb t s = true) /\
  (forall s t, set_leb s t = true <-> set_ltb s t = true \/ s = t).
Proof. exact (conj set_ltb_irrefl (conj set_ltb_trans (conj set_ltb_total set_leb_spec))). Qed.
Print Assumptions C02_symbol_set_order.

(** C02 fails without the non-emptiness hypothesis: excluding an empty range splits a
    range, so a set with unchanged members no longer equals its original. *)
Theorem C02_empty_exclusion_refuted :
  exists (e : expr) (r : range), valid e /\ lo r = hi r /\
    (forall x, contains (exclude_range (eval e) r) x = contains (eval e) x) /\
    set_eqb (exclude_range (eval e) r) (eval e) = false.
Proof. exact empty_exclusion_lemma. Qed.
Print Assumptions C02_empty_exclusion_refuted.

(** C01/C02 at the top of the [int] range: [&=] performs a signed overflow
    ([range(INT_MAX)] computes [INT_MAX + 1]) on perfectly ordinary sets. *)
Theorem C01_and_overflow_refuted :
  exists e f, valid e /\ valid f /\ exclude_set_overflows (eval e) (invert (eval f)) = true.
Proof. exact and_overflow_lemma. Qed.
Print Assumptions C01_and_overflow_refuted.

(** ... and it happens only for a range whose upper bound is INT_MAX. *)
Theorem C01_overflow_only_at_max (s : symbol_set) (r : range) :
  key_overflows s r = true -> hi r = 0x7fffffff.
Proof. exact (key_overflows_iff s r). Qed.
Print Assumptions C01_overflow_only_at_max.

Example C01_overflow_nontrivial : key_overflows [mkR 5 c_MaxSymbol] (mkR 8 c_MaxSymbol) = true.
Proof. vm_compute. reflexivity. Qed.

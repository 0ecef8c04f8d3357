(** Independent specification of character lookup. *)
From Verif Require Import Base OrdMap SymbolSetModel SymbolSetSpec SymbolMapModel SymbolMapSpec SymbolTableModel.
Local Open Scope Z_scope.

(** The characters a table for a kind of characters is made for. *)
Definition kind_limit (k : char_kind) : Z := match k with Kchar => 256 | Kwchar => 65536 | Kint => 2147483648 end.

(** No character in two sets of the map. *)
Definition disjoint_map (m : symbol_map) : Prop :=
  forall i j x, contains (sm_get m i) x = true -> contains (sm_get m j) x = true -> i = j.

(** What a lookup has to return: the identifier of the set containing the character, or -1. *)
Definition lookup_exact (m : symbol_map) (c id : Z) : Prop :=
  (0 <= id < sm_count m /\ contains (sm_get m id) c = true) \/
  (id = -1 /\ forall i, contains (sm_get m i) c = false).

(** The map never has a range of 256 or more characters that starts, at a multiple of 256,
    exactly where another range ends. *)
Definition no_block_after_range (m : symbol_map) : Prop :=
  forall i j r r', In r (sm_get m i) -> In r' (sm_get m j) ->
    hi r = lo r' -> Z.divide 256 (lo r') -> hi r' < lo r' + 256.

(** For 8-bit characters the ranges must start below 256. *)
Definition fits (k : char_kind) (m : symbol_map) : Prop :=
  k = Kchar -> forall i r, In r (sm_get m i) -> lo r < 256.

(** No range of the map ends at a multiple of 256. *)
Definition no_end_at_block (m : symbol_map) : Prop :=
  forall i r, In r (sm_get m i) -> ~ Z.divide 256 (hi r).

(** All ranges of the map start at characters the table is made for. *)
Definition starts_in (k : char_kind) (m : symbol_map) : Prop :=
  forall i r, In r (sm_get m i) -> lo r < kind_limit k.

(** What the compiled-in tables return for characters from 256 on: the identifier of the
    set that contains all 256 characters which agree with [c] apart from the lowest byte
    as part of one range; -1 if there is no such set. *)
Definition block_exact (m : symbol_map) (c id : Z) : Prop :=
  let whole i := exists r, In r (sm_get m i) /\ lo r <= 256 * (c / 256) /\ 256 * (c / 256) + 256 <= hi r in
  (0 <= id < sm_count m /\ whole id) \/ (id = -1 /\ forall i, ~ whole i).

(** Model of TameParse/Dfa/symbol_map.h/.cpp and remapped_symbol_map.h/.cpp.
    No proofs in this file. *)
From Verif Require Import Base OrdMap SymbolSetModel.
Local Open Scope Z_scope.

(** symbol_map.h 40-50: the vector of sets by identifier and the [std::map] from sets to
    identifiers.  The containers hold the sets by reference count; as nothing ever writes
    to a contained set, sharing is not observable and the model stores the sets. *)
Record symbol_map := mkSM { sm_sets : list symbol_set; sm_ids : list (symbol_set * Z) }.

(** symbol_map.cpp 36-37 *)
Definition sm_empty : symbol_map := mkSM [] [].

(** symbol_map.cpp 51-71 *)
Definition sm_identifier (m : symbol_map) (s : symbol_set) : Z * symbol_map :=
  match mfind set_ltb s (sm_ids m) with
  | Some i => (i, m)
  | None => let i := Z.of_nat (length (sm_sets m)) in
            (i, mkSM (sm_sets m ++ [s]) (minsert set_ltb s i (sm_ids m)))
  end.

(** symbol_map.cpp 74-85 *)
Definition sm_find (m : symbol_map) (s : symbol_set) : Z :=
  match mfind set_ltb s (sm_ids m) with Some i => i | None => -1 end.

(** symbol_map.h 75 *)
Definition sm_count (m : symbol_map) : Z := Z.of_nat (length (sm_sets m)).

(** symbol_map.cpp 88-91 *)
Definition sm_get (m : symbol_map) (id : Z) : symbol_set :=
  if (id <? 0) || (Z.of_nat (length (sm_sets m)) <=? id) then []
  else nth (Z.to_nat id) (sm_sets m) [].

(** symbol_map.cpp 94-113.  Iterators are positions in the map's iteration order. *)
Definition sm_has_duplicates (m : symbol_map) : bool :=
  let sets := map fst (sm_ids m) in
  existsb (fun i =>
    existsb (fun check =>
      existsb (fun j =>
        if Nat.eqb j i then false
        else existsb (fun against => overlaps against check) (nth j sets []))
      (seq 0 (length sets)))
    (nth i sets []))
  (seq 0 (length sets)).

(** remapped_symbol_map.h 46-56 *)
Record remapped := mkRM { rm_map : symbol_map; rm_new : list (Z * list Z) }.

Definition rm_empty : remapped := mkRM sm_empty [].

(** remapped_symbol_map.cpp 46-48: the copy constructor initialises [m_OldToNew] only;
    the [symbol_map] base is default-constructed. *)
Definition rm_copy (m : remapped) : remapped := mkRM sm_empty (rm_new m).

(** remapped_symbol_map.cpp 57-59: [m_OldToNew[old].insert(setId)] *)
Definition rm_add_new (new : list (Z * list Z)) (old setId : Z) : list (Z * list Z) :=
  let cur := match mfind Z.ltb old new with Some c => c | None => [] end in
  mset Z.ltb old (sins Z.ltb setId cur) new.

(** remapped_symbol_map.cpp 52-63 *)
Definition rm_identifier (m : remapped) (s : symbol_set) (olds : list Z) : Z * remapped :=
  let '(setId, sm) := sm_identifier (rm_map m) s in
  (setId, mkRM sm (fold_left (fun n o => rm_add_new n o setId) olds (rm_new m))).

(** remapped_symbol_map.h 69-73 *)
Definition rm_new_symbols (m : remapped) (old : Z) : list Z :=
  match mfind Z.ltb old (rm_new m) with Some c => c | None => [] end.

(** remapped_symbol_map.cpp 69: [map<symbol_range, set<int>, sort_by_lower>].  Keys are
    compared by lower bound only, so the model keys the map by the lower bound and keeps
    the upper bound (part of the C++ key object) with the value. *)
Definition cells := list (Z * (Z * list Z)).

(** iterators: the lower bound of the element pointed at, [None] for [end()] *)
Definition cell_lower_bound (k : Z) (c : cells) : option Z :=
  match find (fun p => k <=? fst p) c with Some p => Some (fst p) | None => None end.
Definition cell_next (k : Z) (c : cells) : option Z :=
  match find (fun p => k <? fst p) c with Some p => Some (fst p) | None => None end.
(** the element before the iterator ([None] if the iterator is [begin()]) *)
Definition cell_prev (it : option Z) (c : cells) : option (Z * (Z * list Z)) :=
  let before := match it with
                | Some k => filter (fun p => fst p <? k) c
                | None => c
                end in
  match rev before with p :: _ => Some p | [] => None end.

(** remapped_symbol_map.cpp 75-86.  [sets[original]] finds the entry with the same lower
    bound; the later [sets[..] = values] keeps the key object of an existing entry (same
    lower bound) and so its upper bound; [insert] keeps an existing entry. *)
Definition cell_values (c : cells) (k : Z) : list Z :=
  match mfind Z.ltb k c with Some (_, v) => v | None => [] end.
Definition cell_assign (c : cells) (l u : Z) (v : list Z) : cells :=
  match mfind Z.ltb l c with
  | Some (u', _) => mset Z.ltb l (u', v) c
  | None => mset Z.ltb l (u, v) c
  end.
Definition cell_split (c : cells) (l u p : Z) : cells * option Z :=
  let values := cell_values c l in
  let c1 := merase Z.ltb l c in
  let c2 := cell_assign c1 p u values in
  (minsert Z.ltb l (p, values) c2, Some l).

(** [sets[range].insert(identifier)], remapped_symbol_map.cpp 112 *)
Definition cell_add (c : cells) (l u id : Z) : cells :=
  match mfind Z.ltb l c with
  | Some (u', v) => mset Z.ltb l (u', sins Z.ltb id v) c
  | None => mset Z.ltb l (u, [id]) c
  end.

(** remapped_symbol_map.cpp 122-167: the loop.  [None] means that the fuel ran out or
    that an end iterator would be dereferenced. *)
Fixpoint cell_loop (fuel : nat) (c : cells) (it : option Z) (rlo rhi id : Z) : option cells :=
  match fuel with
  | O => None
  | S fuel =>
    if rhi =? rlo then Some c else
    match it with
    | None => Some (cell_assign c rlo rhi [id])
    | Some k =>
      match mfind Z.ltb k c with
      | None => None
      | Some (u, _) =>
        if rlo <? k then
          (* fill the gap: 130-145 *)
          let c1 := minsert Z.ltb rlo (k, [id]) c in
          cell_loop fuel c1 (cell_next rlo c1) k rhi id
        else
          (* 148-152 *)
          let '(c1, it1) := if k <? rlo
                            then let '(c', _) := cell_split c k u rlo in (c', cell_next k c')
                            else (c, Some k) in
          match it1 with
          | None => None
          | Some k1 =>
            match mfind Z.ltb k1 c1 with
            | None => None
            | Some (u1, _) =>
              (* 155-157 *)
              let '(c2, k2) := if rhi <? u1 then (fst (cell_split c1 k1 u1 rhi), k1) else (c1, k1) in
              match mfind Z.ltb k2 c2 with
              | None => None
              | Some (u2, v2) =>
                (* 160-166 *)
                let c3 := mset Z.ltb k2 (u2, sins Z.ltb id v2) c2 in
                cell_loop fuel c3 (cell_next k2 c3) u2 rhi id
              end
            end
          end
      end
    end
  end.

(** remapped_symbol_map.cpp 91-168: one iteration of the outer loop. *)
Definition cell_add_range (fuel : nat) (c : cells) (r : range) (id : Z) : option cells :=
  let it0 := cell_lower_bound (lo r) c in
  let it := match cell_prev it0 c with
            | Some (l, (u, _)) => if lo r <? u then Some l else it0
            | None => it0
            end in
  match it with
  | None => Some (cell_add c (lo r) (hi r) id)
  | Some k =>
    match mfind Z.ltb k c with
    | None => None
    | Some (u, _) =>
      if negb (overlaps (mkR k u) r) || range_eqb (mkR k u) r
      then Some (cell_add c (lo r) (hi r) id)
      else cell_loop fuel c (Some k) (lo r) (hi r) id
    end
  end.

(** remapped_symbol_map.cpp 89-169.  The fuel handed to each loop is what a run on
    disjoint cells needs: every iteration passes or fills one cell. *)
Definition cell_fuel (c : cells) : nat := (2 * length c + 4)%nat.

Fixpoint cell_add_set (c : cells) (s : symbol_set) (id : Z) : option cells :=
  match s with
  | [] => Some c
  | r :: t => match cell_add_range (cell_fuel c) c r id with
              | Some c' => cell_add_set c' t id
              | None => None
              end
  end.

(** remapped_symbol_map.cpp 180-183 *)
Fixpoint cells_of (c : cells) (src : list (symbol_set * Z)) : option cells :=
  match src with
  | [] => Some c
  | (s, id) :: t => match cell_add_set c s id with
                    | Some c' => cells_of c' t
                    | None => None
                    end
  end.

(** remapped_symbol_map.cpp 197-200: [setsForSets[range->second] |= range->first] *)
Definition group (c : cells) : list (list Z * symbol_set) :=
  fold_left (fun g p =>
    let '(l, (u, ids)) := p in
    let cur := match mfind (lex_ltb Z.ltb) ids g with Some s => s | None => [] end in
    mset (lex_ltb Z.ltb) ids (union_range cur (mkR l u)) g) c [].

(** remapped_symbol_map.cpp 175-209; [epsilon()] is the empty symbol set (epsilon.h). *)
Definition deduplicate (src : symbol_map) : option remapped :=
  match cells_of [] (sm_ids src) with
  | None => None
  | Some c =>
    let eps := sm_find src [] in
    let m0 := if 0 <=? eps then snd (rm_identifier rm_empty [] [eps]) else rm_empty in
    Some (fold_left (fun m p => snd (rm_identifier m (snd p) (fst p))) (group c) m0)
  end.

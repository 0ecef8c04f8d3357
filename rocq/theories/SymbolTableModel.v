(** Model of TameParse/Dfa/symbol_table.h, symbol_translator.h and
    hard_coded_symbol_table.h.  No proofs in this file. *)
From Verif Require Import Base OrdMap SymbolSetModel SymbolMapModel.
Local Open Scope Z_scope.

(** symbol_table.h 49-62 and 250-260: [symbol_level<next_level, mask, shift>].  A table of
    depth 0 is the specialisation for [int]; depth [S l] has tables of depth [l] below it.
    Depth [l] has [shift = 8*l].  [Symbols] is [None] for NULL.  The number of entries is
    [2^sb]: 256 ([sb = 8]) except at the top of the table for [int], where it is 128
    ([sb = 7], mask 0x7f000000). *)
Fixpoint table (l : nat) : Type :=
  match l with
  | O => (Z * option (list Z))%type
  | S l => (Z * option (list (option (table l))))%type
  end.

Definition shift (l : nat) : Z := 8 * Z.of_nat l.
(** c_MaxIndex = (mask>>shift)+1 *)
Definition max_index (sb : Z) : Z := 2 ^ sb.

(** symbol_table.h 64-68, 262-265 *)
Definition empty_table (l : nat) : table l :=
  match l with O => (-1, None) | S l => (-1, None) end.

(** a for loop over the indices s..e of an array *)
Fixpoint for_range {X} (f : Z -> X -> X) (s e i : Z) (l : list X) : list X :=
  match l with
  | [] => []
  | x :: t => (if (s <=? i) && (i <=? e) then f i x else x) :: for_range f s e (i + 1) t
  end.

(** symbol_table.h 105-144 and 268-303.  The base table fills [startIndex <= index <
    endIndex], the others visit [startIndex <= index <= endIndex]. *)
Fixpoint add_range (l : nat) (sb : Z) (base : Z) (r : range) (symbol : Z) : table l -> table l :=
  let start := let s := lo r - base in if s <? 0 then 0 else s in
  let startOffset := Z.land start (Z.shiftl 1 (shift l) - 1) in
  let startIndex := Z.shiftr start (shift l) in
  let endIndex := let e := hi r - base in Z.shiftr (if e <? 0 then 0 else e) (shift l) in
  match l return table l -> table l with
  | O => fun t =>
    let '(def, symbols) := t in
    if (startOffset =? 0) && (startIndex =? 0) && (max_index sb <=? endIndex) then (symbol, symbols)
    else
      let e := if max_index sb <? endIndex then max_index sb else endIndex in
      let syms := match symbols with Some s => s | None => repeat (-1) (Z.to_nat (max_index sb)) end in
      (def, Some (for_range (fun _ _ => symbol) startIndex (e - 1) 0 syms))
  | S l' => fun t =>
    let '(def, symbols) := t in
    if (startOffset =? 0) && (startIndex =? 0) && (max_index sb <=? endIndex) then (symbol, symbols)
    else
      let e := if max_index sb - 1 <? endIndex then max_index sb - 1 else endIndex in
      let syms := match symbols with Some s => s | None => repeat None (Z.to_nat (max_index sb)) end in
      (def, Some (for_range (fun index sub =>
                    let cur := match sub with Some u => u | None => empty_table l' end in
                    Some (add_range l' 8 (base + Z.shiftl index (shift (S l'))) r symbol cur))
                  startIndex e 0 syms))
  end.

(** (val&mask)>>shift *)
Definition entry_index (l : nat) (sb val : Z) : Z :=
  Z.shiftr (Z.land val (Z.shiftl (max_index sb - 1) (shift l))) (shift l).

(** symbol_table.h 147-153, 306-309 *)
Fixpoint lookup (l : nat) (sb val : Z) : table l -> Z :=
  match l return table l -> Z with
  | O => fun t => let '(def, symbols) := t in
         match symbols with
         | None => def
         | Some s => nth (Z.to_nat (entry_index O sb val)) s (-1)
         end
  | S l' => fun t => let '(def, symbols) := t in
         match symbols with
         | None => def
         | Some s => match nth (Z.to_nat (entry_index (S l') sb val)) s None with
                     | None => def
                     | Some next => lookup l' 8 val next
                     end
         end
  end.

(** symbol_table.h 349-364: the tables for [char], [wchar_t] and [int] *)
Inductive char_kind := Kchar | Kwchar | Kint.
Definition kind_depth (k : char_kind) : nat := match k with Kchar => 0 | Kwchar => 1 | Kint => 3 end.
Definition kind_bits (k : char_kind) : Z := match k with Kint => 7 | _ => 8 end.

(** symbol_translator.h 56-65: a translator from a map, and its lookup (74-76) *)
Definition additions (m : symbol_map) : list (range * Z) :=
  flat_map (fun p => map (fun r => (r, snd p)) (fst p)) (sm_ids m).
Definition add_all (l : nat) (sb : Z) (adds : list (range * Z)) : table l :=
  fold_left (fun t p => add_range l sb 0 (fst p) (snd p) t) adds (empty_table l).
Definition translator (k : char_kind) (m : symbol_map) : table (kind_depth k) :=
  add_all (kind_depth k) (kind_bits k) (additions m).
Definition set_for_symbol (k : char_kind) (t : table (kind_depth k)) (symbol : Z) : Z :=
  lookup (kind_depth k) (kind_bits k) symbol t.

(** ** to_hard_coded_table, symbol_table.h 170-237 and 322-364 *)

(** The loops that find the lowest used index and one more than the highest used one. *)
Fixpoint lowest_used (i n : Z) (used : list bool) : Z :=
  match used with [] => n | u :: t => if u then i else lowest_used (i + 1) n t end.
Fixpoint highest_used (i : Z) (used : list bool) : Z :=
  match used with
  | [] => 0
  | u :: t => let h := highest_used (i + 1) t in if h =? 0 then (if u then i + 1 else 0) else h
  end.

(** the sub-tables of the indices, [None] for a failed allocation *)
Fixpoint all_some {X} (l : list (option X)) : option (list X) :=
  match l with
  | [] => Some []
  | None :: _ => None
  | Some x :: t => match all_some t with Some r => Some (x :: r) | None => None end
  end.

(** 212-237: the offsets of the sub-tables *)
Fixpoint offsets (copyPos : Z) (subs : list (option (list Z))) : list Z :=
  match subs with
  | [] => []
  | None :: t => -1 :: offsets copyPos t
  | Some s :: t => copyPos :: offsets (copyPos + Z.of_nat (length s)) t
  end.
Definition sub_data (subs : list (option (list Z))) : list Z :=
  flat_map (fun s => match s with Some s => s | None => [] end) subs.

Definition slice {X} (from to : Z) (l : list X) : list X :=
  firstn (Z.to_nat (to - from)) (skipn (Z.to_nat from) l).

(** [None]: the size of the table wraps around (nothing is used, so that it is 2 plus a
    negative number converted to [size_t]) and [new] throws. *)
Fixpoint to_hard (l : nat) : table l -> option (list Z) :=
  match l return table l -> option (list Z) with
  | O => fun t => let '(def, symbols) := t in
    match symbols with
    | None => Some [def; 0]
    | Some s =>
      let used := map (fun x => negb (x =? def)) s in
      let low := lowest_used 0 (Z.of_nat (length s)) used in
      let high := highest_used 0 used in
      if 2 + (high - low) <? 0 then None
      else Some (def :: Z.lor low (Z.shiftl high 8) :: slice low high s)
    end
  | S l' => fun t => let '(def, symbols) := t in
    match symbols with
    | None => Some [def; 0]
    | Some s =>
      let used := map (fun x => match x with Some _ => true | None => false end) s in
      let low := lowest_used 0 (Z.of_nat (length s)) used in
      let high := highest_used 0 used in
      match all_some (map (fun x => match x with
                                    | Some u => match to_hard l' u with Some h => Some (Some h) | None => None end
                                    | None => Some None end) s) with
      | None => None
      | Some subs =>
        if 2 + (high - low) <? 0 then None
        else Some (def :: Z.lor low (Z.shiftl high 8) :: offsets (2 + (high - low)) (slice low high subs) ++ sub_data subs)
      end
    end
  end.

(** hard_coded_symbol_table.h 37-84.  Reading outside the table is [None].  [symbol] is the
    value as an [unsigned int]; [(int) symbol] is the same number for the symbols below
    2^31 considered here. *)
Definition tget (t : list Z) (i : Z) : option Z := if i <? 0 then None else nth_error t (Z.to_nat i).

Fixpoint hcst_lookup (level : nat) (t : list Z) (offset symbol : Z) : option Z :=
  match tget t offset, tget t (offset + 1) with
  | Some def, Some lowHigh =>
    let lowest := Z.land lowHigh 255 in
    let highest := Z.shiftr lowHigh 8 in
    match level with
    | O =>
      if (symbol <? lowest) || (highest <=? symbol) then Some def
      else match tget t (offset + 2 + (Z.land symbol 255 - lowest)) with
           | None => None
           | Some symbolSet => Some (if symbolSet =? -1 then def else symbolSet)
           end
    | S level' =>
      let pos := Z.land (Z.shiftr symbol (shift level)) 255 in
      if (pos <? lowest) || (highest <=? pos) then Some def
      else match tget t (offset + 2 + (pos - lowest)) with
           | None => None
           | Some nextOffset => if nextOffset =? -1 then Some def
                                else hcst_lookup level' t (offset + nextOffset) symbol
           end
    end
  | _, _ => None
  end.

(** hard_coded_symbol_table.h 113: [hard_coded_symbol_table<char_type, char_size>::lookup] *)
Definition hard_coded_lookup (k : char_kind) (t : list Z) (symbol : Z) : option Z :=
  hcst_lookup (kind_depth k) t 0 symbol.

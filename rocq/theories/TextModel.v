(** Model of TameParse/Util/utf8reader.cpp, the case conversion in TameParse/Util/unicode.cpp
    and dequote_string in TameParse/Language/process.cpp.  No proofs in this file. *)
From Verif Require Import Base BinSearch SymbolSetModel.
Local Open Scope Z_scope.

(** ** utf8reader *)

(** utf8reader.h 48-60.  The input stream is the bytes not yet read and its fail bit; it is
    never NULL here (utf8reader.cpp 68-72). *)
Record u8reader := mkU { u_in : list Z; u_failed : bool; u_bad : bool; u_pair : Z }.

(** utf8reader.cpp 36-43 *)
Definition u8_new (bytes : list Z) : u8reader := mkU bytes false false 0.

(** [(byte) m_InputStream->get()]: EOF is -1, 255 as a byte, and sets the fail bit *)
Definition byte_get (r : u8reader) : Z * u8reader :=
  match u_in r with
  | b :: t => if u_failed r then (255, r) else (b, mkU t false (u_bad r) (u_pair r))
  | [] => (255, mkU [] true (u_bad r) (u_pair r))
  end.
Definition in_good (r : u8reader) : bool := negb (u_failed r).
Definition set_bad (r : u8reader) : u8reader := mkU (u_in r) (u_failed r) true (u_pair r).

(** (c & 0xc0) != 0x80 *)
Definition not_follow (c : Z) : bool := negb (Z.land c 0xc0 =? 0x80).

(** utf8reader.cpp 58-170.  The result is the new value of [target]. *)
Definition u8_get (target : Z) (r : u8reader) : Z * u8reader :=
  if negb (u_pair r =? 0) then (u_pair r, mkU (u_in r) (u_failed r) (u_bad r) 0)
  else if negb (in_good r) || u_bad r then (0, r)
  else
    let '(firstChar, r1) := byte_get r in
    if negb (in_good r1) then (0, set_bad r1)
    else if firstChar <? 0x80 then (firstChar, r1)
    else if Z.land target 0xe0 =? 0xc0 then
      let '(secondChar, r2) := byte_get r1 in
      if negb (in_good r2) || not_follow secondChar then (0, set_bad r2)
      else (Z.lor (Z.shiftl (Z.land firstChar 0x1f) 6) (Z.land secondChar 0x3f), r2)
    else if Z.land target 0xf0 =? 0xe0 then
      let '(secondChar, r2) := byte_get r1 in
      let '(thirdChar, r3) := byte_get r2 in
      if negb (in_good r3) || not_follow secondChar || not_follow thirdChar then (0, set_bad r3)
      else (Z.lor (Z.lor (Z.shiftl (Z.land firstChar 0xf) 12) (Z.shiftl (Z.land secondChar 0x3f) 6))
                  (Z.land thirdChar 0x3f), r3)
    else if Z.land target 0xf8 =? 0xf0 then
      let '(secondChar, r2) := byte_get r1 in
      let '(thirdChar, r3) := byte_get r2 in
      let '(fourthChar, r4) := byte_get r3 in
      if negb (in_good r4) || not_follow secondChar || not_follow thirdChar || not_follow fourthChar then (0, set_bad r4)
      else
        let ucs4 := Z.lor (Z.lor (Z.lor (Z.shiftl (Z.land firstChar 0x7) 18) (Z.shiftl (Z.land secondChar 0x3f) 12))
                                 (Z.shiftl (Z.land thirdChar 0x3f) 6)) (Z.land secondChar 0x3f) in
        if 0x110000 <=? ucs4 then (0, set_bad r4)
        else
          (* unsigned int *)
          let u := (ucs4 - 0x10000) mod 2 ^ 32 in
          (0xd800 + Z.land (Z.shiftr u 10) 0x3ff,
           mkU (u_in r4) (u_failed r4) (u_bad r4) (0xdc00 + Z.land u 0x3ff))
    else (0, set_bad r1).

(** utf8reader.cpp 173-175 *)
Definition u8_good (r : u8reader) : bool := negb (u_bad r) && in_good r.

(** [n] calls of [get] with the same variable: after each, its value and [good()]. *)
Fixpoint u8_run (n : nat) (target : Z) (r : u8reader) : list (Z * bool) :=
  match n with
  | O => []
  | S n => let '(c, r') := u8_get target r in (c, u8_good r') :: u8_run n c r'
  end.

(** ** Case conversion *)

(** unicode.h 60-64 *)
Record map_entry := mkE { e_lower : Z; e_upper : Z; e_to : Z }.
Definition no_entry : map_entry := mkE 0 0 0.

(** unicode.cpp 61-62: [upper_bound] with [compare_map_entries] (45-48), a binary search for
    the first entry with an upper bound above [lowerChar] *)
Definition first_entry (map : list map_entry) (lowerChar : Z) : nat :=
  lower_bound_pos (fun i => negb (lowerChar <? e_upper (nth i map no_entry))) (length map).

(** unicode.cpp 66-107: [cur] are the entries from [curItem] on.  [None]: fuel ran out. *)
Fixpoint convert_loop (fuel : nat) (cur : list map_entry) (lowerChar upperChar : Z) (result : symbol_set) : option symbol_set :=
  match fuel with
  | O => None
  | S fuel =>
    if negb (lowerChar <? upperChar) then Some result
    else match cur with
    | [] => Some (union_range result (mkR lowerChar upperChar))
    | e :: rest =>
      if lowerChar <? e_lower e then
        let endChar := if upperChar <? e_lower e then upperChar else e_lower e in
        convert_loop fuel cur endChar upperChar (union_range result (mkR lowerChar endChar))
      else
        let initialChar := e_to e + (lowerChar - e_lower e) in
        let n := e_upper e - e_lower e in
        let numChars := if upperChar - lowerChar <? n then upperChar - lowerChar else n in
        convert_loop fuel rest (lowerChar + numChars) upperChar
          (union_range result (mkR initialChar (initialChar + numChars)))
    end
  end.

(** unicode.cpp 52-110.  Every second iteration passes an entry, so this fuel is enough. *)
Definition convert_range (map : list map_entry) (r : range) : option symbol_set :=
  let cur := skipn (first_entry map (lo r)) map in
  convert_loop (2 * length cur + 2) cur (lo r) (hi r) [].

(** unicode.cpp 113-136: [to_upper] and [to_lower], with the table as a parameter *)
Fixpoint convert_ranges (map : list map_entry) (source : list range) (result : symbol_set) : option symbol_set :=
  match source with
  | [] => Some result
  | r :: t => match convert_range map r with
              | None => None
              | Some c => convert_ranges map t (union_set result c)
              end
  end.
Definition to_case (map : list map_entry) (source : symbol_set) : option symbol_set := convert_ranges map source [].

(** ** dequote_string *)

(** [string[pos]]: the terminator at [pos == size()], undefined behind it *)
Definition str_at (s : list Z) (pos : nat) : option Z :=
  if Nat.ltb pos (length s) then Some (nth pos s 0) else if Nat.eqb pos (length s) then Some 0 else None.

(** process.cpp 46-61: a, e, n, r, f, t *)
Definition escape (c : Z) : Z :=
  if c =? 97 then 7 else if c =? 101 then 27 else if c =? 110 then 10
  else if c =? 114 then 13 else if c =? 102 then 12 else if c =? 116 then 9 else c.

(** process.cpp 39-66.  [size()-1] is a [size_t].  [None]: undefined behaviour, or the fuel
    ran out. *)
Fixpoint dequote_loop (fuel : nat) (s : list Z) (pos : nat) (result : list Z) : option (list Z) :=
  match fuel with
  | O => None
  | S fuel =>
    if negb (Z.of_nat pos <? (Z.of_nat (length s) - 1) mod 2 ^ 64) then Some result
    else match str_at s pos with
    | None => None
    | Some c =>
      if c =? 92 then
        match str_at s (S pos) with
        | None => None
        | Some c' => dequote_loop fuel s (S (S pos)) (result ++ [escape c'])
        end
      else dequote_loop fuel s (S pos) (result ++ [c])
    end
  end.

(** process.cpp 34-70 *)
Definition dequote_string (s : list Z) : option (list Z) := dequote_loop (S (length s)) s 1 [].

(** Model of TameParse/Dfa/range.h and TameParse/Dfa/symbol_set.h/.cpp.
    No proofs in this file. *)
From Verif Require Import Base.
Local Open Scope Z_scope.

(** range.h 35-42: a half-open range [m_Lower, m_Upper).  C++ [int] bounds are [Z]. *)
Record range := mkR { lo : Z; hi : Z }.

(** range.h 57-60: [range(T value)].  The C++ addition overflows for value = INT_MAX
    (signed overflow); see [key_overflows] below, which tracks exactly that. *)
Definition range_of_value (v : Z) : range := mkR v (v + 1).

(** range.h 89-93 *)
Definition range_has (r : range) (v : Z) : bool :=
  if v <? lo r then false else if hi r <=? v then false else true.

(** range.h 96-98 *)
Definition range_eqb (a b : range) : bool := (lo b =? lo a) && (hi b =? hi a).

(** range.h 104-110 *)
Definition range_ltb (a b : range) : bool :=
  if lo a <? lo b then true else if lo b <? lo a then false else hi a <? hi b.

(** range.h 113-115 *)
Definition range_leb (a b : range) : bool :=
  (lo a <? lo b) || ((lo a =? lo b) && (hi a <=? hi b)).

(** range.h 124-128 *)
Definition overlaps (a b : range) : bool :=
  if hi b <=? lo a then false else if hi a <=? lo b then false else true.

(** range.h 131-135 *)
Definition neighbours (a b : range) : bool :=
  if hi b =? lo a then true else if lo b =? hi a then true else false.

(** range.h 138-142 *)
Definition can_merge (a b : range) : bool :=
  if hi b <? lo a then false else if hi a <? lo b then false else true.

(** range.h 145-153 *)
Definition merge (a b : range) : range :=
  mkR (if lo b <? lo a then lo b else lo a) (if hi a <? hi b then hi b else hi a).

(** symbol_set.h 53-70 *)
Definition sym_null : Z := -1.
Definition start_of_input : Z := -2.
Definition end_of_input : Z := -3.
Definition start_of_line : Z := -4.
Definition end_of_line : Z := -5.
Definition c_MaxSymbol : Z := 0x7fffffff.

(** symbol_set.h 73-76: [std::set<symbol_range, sort_by_lower>], as the list of its
    elements in iteration order.  The comparator (range.h 48-53) looks at the lower
    bound only, so the list is strictly sorted by [lo]. *)
Definition symbol_set := list range.

(** [std::set::lower_bound] / [upper_bound] with that comparator, as a split of the
    iteration order at the returned iterator. *)
Fixpoint lower_bound (k : Z) (s : symbol_set) : list range * list range :=
  match s with
  | [] => ([], [])
  | r :: t => if lo r <? k then let '(p, q) := lower_bound k t in (r :: p, q) else ([], s)
  end.

Fixpoint upper_bound (k : Z) (s : symbol_set) : list range * list range :=
  match s with
  | [] => ([], [])
  | r :: t => if lo r <=? k then let '(p, q) := upper_bound k t in (r :: p, q) else ([], s)
  end.

(** [std::set::insert]: does nothing if an element with the same lower bound exists. *)
Fixpoint set_insert (r : range) (s : symbol_set) : symbol_set :=
  match s with
  | [] => [r]
  | a :: t => if lo a <? lo r then a :: set_insert r t
              else if lo r <? lo a then r :: s
              else s
  end.

(** symbol_set.cpp 72-85 and 123-136 (the same code twice): [lower_bound], then one
    step back if the preceding range reaches [lo r]. *)
Definition find_first (r : range) (s : symbol_set) : list range * list range :=
  let '(pre, post) := lower_bound (lo r) s in
  match rev pre with
  | [] => (pre, post)
  | p :: rp => if lo r <=? hi p then (rev rp, p :: post) else (pre, post)
  end.

(** symbol_set.cpp 68-109.  [upper_bound] is taken on the tail starting at
    [firstGreaterThan]: since [can_merge] holds, [lo f <= hi r], so in the sorted set
    the C++ [finalValue] is always behind [firstGreaterThan] and the two agree. *)
Definition union_range (s : symbol_set) (r : range) : symbol_set :=
  let '(pre, post) := find_first r s in
  match post with
  | [] => set_insert r s
  | f :: _ =>
      if negb (can_merge r f) then set_insert r s
      else let '(mid, rest) := upper_bound (lo (range_of_value (hi r))) post in
           let merged := fold_left merge mid r in
           set_insert merged (pre ++ rest)
  end.

(** symbol_set.cpp 57-65.  (Calling it with an alias of itself is undefined in C++: the
    loop iterator is invalidated by the erase.  The model takes the argument by value.) *)
Definition union_set (s t : symbol_set) : symbol_set := fold_left union_range t s.

(** symbol_set.cpp 121-167.  [finalValue--] is safe because [mid] is never empty. *)
Definition exclude_range (s : symbol_set) (e : range) : symbol_set :=
  let '(pre, post) := find_first e s in
  match post with
  | [] => s
  | f :: _ =>
      if negb (can_merge e f) then s
      else let '(mid, rest) := upper_bound (lo (range_of_value (hi e))) post in
           let final := last mid f in
           let s1 := pre ++ rest in
           let s2 := if lo f <? lo e then set_insert (mkR (lo f) (lo e)) s1 else s1 in
           if hi e <? hi final then set_insert (mkR (hi e) (hi final)) s2 else s2
  end.

(** symbol_set.cpp 112-118 *)
Definition exclude_set (s t : symbol_set) : symbol_set := fold_left exclude_range t s.

(** symbol_set.cpp 170-193: the loop, with [last] and [newRanges] as accumulators. *)
Fixpoint invert_loop (last : range) (s newRanges : symbol_set) : symbol_set * range :=
  match s with
  | [] => (newRanges, last)
  | r :: t =>
      let nr := if lo r =? hi last then newRanges
                else set_insert (mkR (hi last) (lo r)) newRanges in
      invert_loop r t nr
  end.

Definition invert (s : symbol_set) : symbol_set :=
  let '(nr, last) := invert_loop (mkR 0 0) s [] in
  if hi last <? c_MaxSymbol then set_insert (mkR (hi last) c_MaxSymbol) nr else nr.

(** symbol_set.h 112-115 *)
Definition and_set (s t : symbol_set) : symbol_set := exclude_set s (invert t).

(** symbol_set.h 118-123; the constructor (symbol_set.cpp 38-40) inserts the range. *)
Definition and_range (s : symbol_set) (r : range) : symbol_set := exclude_set s (invert [r]).

(** symbol_set.cpp 196-208 *)
Definition contains (s : symbol_set) (x : Z) : bool :=
  let '(pre, _) := upper_bound (lo (range_of_value x)) s in
  match rev pre with
  | [] => false
  | p :: _ => range_has p x
  end.

(** symbol_set.cpp 211-225 *)
Fixpoint ranges_eqb (s t : symbol_set) : bool :=
  match s, t with
  | a :: s', b :: t' => if negb (range_eqb a b) then false else ranges_eqb s' t'
  | _, _ => true
  end.

Definition set_eqb (s t : symbol_set) : bool :=
  if negb (Nat.eqb (length t) (length s)) then false else ranges_eqb s t.

(** symbol_set.cpp 228-245 *)
Fixpoint ranges_ltb (dflt : bool) (s t : symbol_set) : bool :=
  match s, t with
  | a :: s', b :: t' => if range_eqb a b then ranges_ltb dflt s' t' else range_ltb a b
  | _, _ => dflt
  end.

Definition set_ltb (s t : symbol_set) : bool :=
  if Nat.ltb (length s) (length t) then true
  else if Nat.ltb (length t) (length s) then false
  else ranges_ltb false s t.

(** symbol_set.cpp 248-264 *)
Definition set_leb (s t : symbol_set) : bool :=
  if Nat.ltb (length s) (length t) then true
  else if Nat.ltb (length t) (length s) then false
  else ranges_ltb true s t.

(** Does evaluating [s.exclude(e)] (or [s |= e]) construct [range(INT_MAX)], that is
    perform the signed overflow [INT_MAX + 1] of range.h 59?  symbol_set.cpp 88-96 and
    139-146: the conversion of [hi] to a range happens only past the early return. *)
Definition key_overflows (s : symbol_set) (r : range) : bool :=
  let '(_, post) := find_first r s in
  match post with
  | [] => false
  | f :: _ => can_merge r f && (hi r =? 0x7fffffff)
  end.

(** The same for a whole [exclude(set)] / [|= set] loop. *)
Fixpoint exclude_set_overflows (s t : symbol_set) : bool :=
  match t with
  | [] => false
  | e :: t' => key_overflows s e || exclude_set_overflows (exclude_range s e) t'
  end.

(** Model of contextfree::item_set (TameParse/ContextFree/item_set.cpp, item_set.h): sets of
    item identifiers as bits in an array of 32-bit words.  The grammar an item set belongs to,
    which only turns items into identifiers (GrammarIdModel.v), is left out here. *)
From Verif Require Import Base.
Local Open Scope Z_scope.

(** item_set.h 46-56.  [words] is the array m_Items with its m_MaxItem entries (unsigned int:
    values from 0 to 2^32 - 1), [size] is m_Size.  The copy constructor and the assignment
    (item_set.cpp 60-94) copy both. *)
Record item_set := mkIS { words : list Z; size : Z }.

(** item_set.cpp 36-57: the constructors *)
Definition empty_set : item_set := mkIS [] 0.

Definition max_item (s : item_set) : Z := Z.of_nat (length (words s)).
Definition word_at (ws : list Z) (i : Z) : Z := nth (Z.to_nat i) ws 0.
Fixpoint set_word (ws : list Z) (i : nat) (w : Z) : list Z :=
  match ws, i with
  | [], _ => []
  | _ :: t, O => w :: t
  | a :: t, S i => a :: set_word t i w
  end.
(** realloc and the zeroing loop (138-143, 193-199): the array never shrinks. *)
Definition resize (ws : list Z) (n : nat) : list Z := ws ++ repeat 0 (n - length ws).

(** item_set.cpp 105-119, one word: Kernighan's method.  A 32-bit word needs 32 rounds at most. *)
Fixpoint count_bits (fuel : nat) (bits : Z) : Z :=
  match fuel with
  | O => 0
  | S fuel => if bits =? 0 then 0 else 1 + count_bits fuel (Z.land bits (bits - 1))
  end.
(** item_set.cpp 105-119 *)
Definition count_size (ws : list Z) : Z := fold_left (fun n w => n + count_bits 32 w) ws 0.

(** item_set.cpp 129-156.  Identifiers are not negative (a negative one would write in front of
    the array). *)
Definition insert (id : Z) (s : item_set) : item_set * bool :=
  let set := Z.shiftr id 5 in
  let bit := Z.land id 0x1f in
  let ws := if max_item s <=? set then resize (words s) (Z.to_nat (set + 1)) else words s in
  let mask := Z.shiftl 1 bit in
  if Z.land (word_at ws set) mask =? 0
  then (mkIS (set_word ws (Z.to_nat set) (Z.lor (word_at ws set) mask)) (size s + 1), true)
  else (mkIS ws (size s), false).

(** item_set.cpp 159-180; [Z.land w (Z.lnot mask)] is [w & ~mask] *)
Definition erase (id : Z) (s : item_set) : item_set * bool :=
  let set := Z.shiftr id 5 in
  let bit := Z.land id 0x1f in
  if max_item s <=? set then (s, false)
  else
    let mask := Z.shiftl 1 bit in
    if Z.land (word_at (words s) set) mask =? 0 then (s, false)
    else (mkIS (set_word (words s) (Z.to_nat set) (Z.land (word_at (words s) set) (Z.lnot mask))) (size s - 1), true).

(** The loop of merge (205-219) over both arrays: the new words and sizeChanged *)
Fixpoint merge_words (ws ms : list Z) : list Z * bool :=
  match ws, ms with
  | w :: ws, bits :: ms =>
      let '(rest, changed) := merge_words ws ms in
      if (bits =? 0) || (Z.land bits (Z.lnot w) =? 0) then (w :: rest, changed)
      else (Z.lor w bits :: rest, true)
  | _, _ => (ws, false)
  end%bool.
(** item_set.cpp 191-227 *)
Definition merge (s t : item_set) : item_set * bool :=
  let ws := if max_item s <? max_item t then resize (words s) (length (words t)) else words s in
  let '(ws', changed) := merge_words ws (words t) in
  (mkIS ws' (if changed then count_size ws' else size s), changed).

(** item_set.cpp 230-243.  (1<<31 is taken to be the highest bit.) *)
Definition contains (id : Z) (s : item_set) : bool :=
  let set := Z.shiftr id 5 in
  let bit := Z.land id 0x1f in
  if (max_item s <=? set) || (set <? 0) then false
  else negb (Z.land (word_at (words s) set) (Z.shiftl 1 bit) =? 0).

(** item_set.h 113, 116 *)
Definition is_empty (s : item_set) : bool := size s =? 0.

(** item_set.cpp 270-314: the loop.  [mask] is 1<<bit throughout and not kept separately.
    [None]: out of fuel. *)
Fixpoint next_loop (fuel : nat) (ws : list Z) (set bit : Z) : option Z :=
  match fuel with
  | O => None
  | S fuel =>
      let max := Z.of_nat (length ws) in
      if max <=? set then Some (Z.shiftl max 5)
      else if (bit =? 0) && (word_at ws set =? 0)
      then let set := set + 1 in
           if (set <? max) && negb (Z.land (word_at ws set) 1 =? 0) then Some (Z.shiftl set 5)
           else next_loop fuel ws set bit
      else
        let '(set, bit) := if 0x20 <=? bit + 1 then (set + 1, 0) else (set, bit + 1) in
        if max <=? set then Some (Z.shiftl set 5)
        else if negb (Z.land (word_at ws set) (Z.shiftl 1 bit) =? 0) then Some (Z.lor (Z.shiftl set 5) bit)
        else next_loop fuel ws set bit
  end%bool.
Definition next_item_id (s : item_set) (id : Z) : option Z :=
  next_loop (32 * length (words s) + 1) (words s) (Z.shiftr id 5) (Z.land id 0x1f).

(** item_set.cpp 252-264 *)
Definition begin (s : item_set) : option Z :=
  if max_item s =? 0 then Some 0
  else if negb (Z.land (word_at (words s) 0) 1 =? 0) then Some 0
  else next_item_id s 0.
(** item_set.h 225-227 *)
Definition end_ (s : item_set) : Z := Z.shiftl (max_item s) 5.

(** for (it = begin(); it != end(); ++it): the identifiers visited *)
Fixpoint visit (fuel : nat) (s : item_set) (it : option Z) : option (list Z) :=
  match it with
  | None => None
  | Some id =>
      if id =? end_ s then Some []
      else match fuel with
           | O => None
           | S fuel => match visit fuel s (next_item_id s id) with
                       | None => None
                       | Some l => Some (id :: l)
                       end
           end
  end.
Definition iterate (s : item_set) : option (list Z) := visit (32 * length (words s) + 1) s (begin s).

(** item_set.h 126-137 *)
Fixpoint words_eqb (a b : list Z) : bool :=
  match a, b with
  | x :: a, y :: b => (x =? y) && words_eqb a b
  | _, _ => true
  end%bool.
Definition set_eqb (s t : item_set) : bool := (max_item t =? max_item s) && words_eqb (words s) (words t).

(** item_set.h 143-156 *)
Fixpoint words_ltb (a b : list Z) : bool :=
  match a, b with
  | x :: a, y :: b => if x <? y then true else if y <? x then false else words_ltb a b
  | _, _ => false
  end.
Definition set_ltb (s t : item_set) : bool :=
  if max_item s <? max_item t then true
  else if max_item t <? max_item s then false
  else words_ltb (words s) (words t).
(** item_set.h 159-165 *)
Definition set_gtb (s t : item_set) : bool := set_ltb t s.
Definition set_geb (s t : item_set) : bool := negb (set_ltb s t).
Definition set_leb (s t : item_set) : bool := negb (set_ltb t s).

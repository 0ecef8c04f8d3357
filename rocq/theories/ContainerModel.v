(** Model of TameParse/Util/container.h and TameParse/Util/syntax_ptr.h.  No proofs in this
    file. *)
From Verif Require Import Base.
Local Open Scope Z_scope.

(** ** Comparisons, container.h 141-168 and 180-191

    [None] is a NULL item.  [less] is [ItemType::compare] (on pointers, possibly NULL) and
    [eqb] is the [==] of the items. *)
Section Compare.
  Context {X : Type} (less : option X -> option X -> bool) (eqb : X -> X -> bool).
  Definition c_lt (a b : option X) : bool := less a b.
  Definition c_gt (a b : option X) : bool := c_lt b a.
  Definition c_ge (a b : option X) : bool := negb (c_lt a a).
  Definition c_le (a b : option X) : bool := negb (c_gt a a).
  (** [same]: both refer to the same object *)
  Definition c_eq (same : bool) (a b : option X) : bool :=
    if same then true
    else match a, b with
         | None, None => true
         | Some x, Some y => eqb x y
         | _, _ => false
         end.
End Compare.

(** ** Reference counting

    A cell is a [reference] object (container.h 55-91; syntax_ptr.h 38-62) together with the
    item it refers to.  [c_owned] is m_WillDelete (always true for syntax_ptr).  [c_count] is
    the reference count, [None] once the reference object is freed.  [c_kids] are the handles
    (containers) that are members of the item, [None] once the item is deleted. *)
Record cell := mkC { c_owned : bool; c_count : option Z; c_kids : option (list nat) }.

(** A handle is a container or syntax_ptr: the cell of its m_Ref ([None] once destroyed) and
    the item it is a member of ([None] for the client's own variables). *)
Record handle := mkH { h_ref : option nat; h_in : option nat }.

Record memory := mkM { m_cells : list cell; m_handles : list handle }.

Definition dead_cell : cell := mkC false None None.
Definition dead_handle : handle := mkH None None.
Definition cell_at (m : memory) (r : nat) : cell := nth r (m_cells m) dead_cell.
Definition handle_at (m : memory) (h : nat) : handle := nth h (m_handles m) dead_handle.

Fixpoint upd {X} (k : nat) (x : X) (l : list X) : list X :=
  match l, k with
  | [], _ => []
  | _ :: t, O => x :: t
  | a :: t, S k => a :: upd k x t
  end.
Definition set_cell (m : memory) (r : nat) (c : cell) : memory := mkM (upd r c (m_cells m)) (m_handles m).
Definition set_ref (m : memory) (h : nat) (r : option nat) : memory :=
  mkM (m_cells m) (upd h (mkH r (h_in (handle_at m h))) (m_handles m)).

(** container.h 88-90 [retain], [++usageCount].  [None] in the results below: freed memory
    is used. *)
Definition retain (m : memory) (r : nat) : option memory :=
  match c_count (cell_at m r) with
  | None => None
  | Some n => Some (set_cell m r (mkC (c_owned (cell_at m r)) (Some (n + 1)) (c_kids (cell_at m r))))
  end.

(** container.h 253-256, 73-86; syntax_ptr.h 125-133: the destructor of the handles [work],
    one after the other.  When a count reaches 0 the item is deleted, which runs the
    destructors of its members before the remaining work, and the reference is freed.
    Simplification: the handle, the item and the reference are marked as gone before the
    destructors of the members run, not after (stricter than the code). *)
Fixpoint destroy (fuel : nat) (work : list nat) (m : memory) : option memory :=
  match work with
  | [] => Some m
  | h :: rest =>
    match fuel with
    | O => None
    | S fuel =>
      match h_ref (handle_at m h) with
      | None => None
      | Some r =>
        let m1 := set_ref m h None in
        let c := cell_at m r in
        match c_count c with
        | None => None
        | Some n =>
          if n <=? 1 then
            if c_owned c then
              match c_kids c with
              | None => None
              | Some kids => destroy fuel (kids ++ rest) (set_cell m1 r (mkC (c_owned c) None None))
              end
            else destroy fuel rest (set_cell m1 r (mkC (c_owned c) None (c_kids c)))
          else destroy fuel rest (set_cell m1 r (mkC (c_owned c) (Some (n - 1)) (c_kids c)))
        end
      end
    end
  end.
Definition destroy_all (work : list nat) (m : memory) : option memory :=
  destroy (S (length (m_handles m))) work m.

(** The handle is constructed and not destroyed. *)
Definition constructed (m : memory) (h : nat) : bool := match h_ref (handle_at m h) with Some _ => true | None => false end.

(** A new handle with the reference of [src], as a member of [owner] (container.h 236-239,
    syntax_ptr.h 94-99) *)
Definition copy_handle (m : memory) (src : nat) (owner : option nat) : option memory :=
  match h_ref (handle_at m src) with
  | None => None
  | Some r => match retain m r with
              | None => None
              | Some m1 => Some (mkM (m_cells m1) (m_handles m1 ++ [mkH (Some r) owner]))
              end
  end.
Fixpoint copy_handles (m : memory) (srcs : list nat) (owner : nat) : option memory :=
  match srcs with
  | [] => Some m
  | s :: t => match copy_handle m s (Some owner) with
              | None => None
              | Some m1 => copy_handles m1 t owner
              end
  end.

(** A new item whose members are copies of the handles [srcs], and a new handle for it
    (container.h 206-234, syntax_ptr.h 84-92) *)
Definition new_handle (m : memory) (owned : bool) (srcs : list nat) : option memory :=
  let r := length (m_cells m) in
  let first := length (m_handles m) in
  match copy_handles m srcs r with
  | None => None
  | Some m1 => Some (mkM (m_cells m1 ++ [mkC owned (Some 1) (Some (seq first (length srcs)))])
                         (m_handles m1 ++ [mkH (Some r) None]))
  end.

(** Assignment, container.h 242-250 and (with [sptr] true) syntax_ptr.h 102-122.  The old
    reference is moved to a temporary handle, the target gets its new reference, and the
    temporary is destroyed; afterwards the source is read again (container.h 247,
    syntax_ptr.h 118) and the target is written, so both must still be there. *)
Definition assign (sptr : bool) (m : memory) (dst src : nat) : option memory :=
  match h_ref (handle_at m dst), h_ref (handle_at m src) with
  | Some old, Some new =>
    if Nat.eqb dst src then Some m
    else if sptr && Nat.eqb old new then Some m
    else match retain m new with
    | None => None
    | Some m1 =>
      let temp := length (m_handles m1) in
      let m2 := mkM (m_cells m1) (m_handles m1 ++ [mkH (Some old) None]) in
      let m3 := set_ref m2 dst (Some new) in
      match destroy_all [temp] m3 with
      | None => None
      | Some m4 => if constructed m4 src && constructed m4 dst then Some m4 else None
      end
    end
  | _, _ => None
  end.

(** What a client can do. *)
Inductive op :=
| ONew (owned : bool) (members : list nat)
| OCopy (src : nat)
| OAssign (dst src : nat)
| ODestroy (h : nat).

Definition step (sptr : bool) (m : memory) (o : op) : option memory :=
  match o with
  | ONew owned srcs => new_handle m owned srcs
  | OCopy src => copy_handle m src None
  | OAssign dst src => assign sptr m dst src
  | ODestroy h => destroy_all [h] m
  end.

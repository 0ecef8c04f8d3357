(** Model of the parser stack: Lr/parser_stack.h 66-356.

    Objects of the class parser_stack (called handles here) share an internal_stack, which is deleted with the
    last of them.  A world is one internal_stack with the handles made for it: the one made by the
    constructor, and copies.  Stacks from different calls of the constructor share nothing.

    Simplified: the address of a handle is a number that is not used again, so every use of a handle after its
    destruction is found out; what the new of the C++ library does is left out.  Indices and counts are
    unbounded.  The item given to push is a value (in the code, a reference, which would be lost if it
    referred to an entry of the same stack and the entries were moved).  The private constructor
    (parser_stack.h 243-249), which does not compile when used, is left out. *)
From Verif Require Import Base OrdMap RunModel.
Local Open Scope Z_scope.

(** Arrays with an index that might be out of range *)
Definition cell_at {X} (l : list X) (i : Z) : outcome X := if i <? 0 then Undefined else defined (nth_error l (Z.to_nat i)).
Fixpoint set_nth {X} (n : nat) (x : X) (l : list X) : list X := match l, n with [], _ => [] | _ :: l, O => x :: l | y :: l, S n => y :: set_nth n x l end.
Definition cell_set {X} (l : list X) (i : Z) (x : X) : outcome (list X) := do _ <- cell_at l i ;; Done (set_nth (Z.to_nat i) x l).

Section Stack.
  (** [A]: item_type; [item0]: what its default constructor makes; [state0]: the value of an int that has not been
      given one; [depth]: the template parameter initial_depth. *)
  Context (A : Type) (item0 : A) (state0 : Z) (depth : nat).

  (** parser_stack.h 81-101 *)
  Record slot := mkSlot { c_prev : Z; c_state : Z; c_item : A }.
  Definition head : Z := -1.
  Definition empty : Z := -2.
  Definition new_slot : slot := mkSlot empty state0 item0.
  (** parser_stack.h 230-240 (without m_Stack) *)
  Record handle := mkHandle { h_index : Z; h_last : option nat; h_next : option nat }.
  (** parser_stack.h 105-118.  [w_handles]: the handles that have not been destroyed; [w_made]: how many have
      been made; [w_deleted]: the internal_stack is gone. *)
  Record world := mkWorld { w_cells : list slot; w_root : option nat; w_first : Z; w_free : Z; w_handles : list (nat * handle); w_made : nat; w_deleted : bool }.
  Definition handle_at (w : world) (h : nat) : outcome handle := defined (mfind Nat.ltb h (w_handles w)).
  Definition set_handle (h : nat) (x : handle) (w : world) : world := mkWorld (w_cells w) (w_root w) (w_first w) (w_free w) (mset Nat.ltb h x (w_handles w)) (w_made w) (w_deleted w).
  Definition set_cells (l : list slot) (w : world) : world := mkWorld l (w_root w) (w_first w) (w_free w) (w_handles w) (w_made w) (w_deleted w).
  Definition set_root (r : option nat) (w : world) : world := mkWorld (w_cells w) r (w_first w) (w_free w) (w_handles w) (w_made w) (w_deleted w).
  (** Any use of m_Stack *)
  Definition stack_of (w : world) : outcome world := if w_deleted w then Undefined else Done w.

  (** parser_stack.h 148-155.  A list that does not end is out of fuel. *)
  Fixpoint listed (fuel : nat) (w : world) (r : option nat) : outcome (list Z) :=
    match r with
    | None => Done []
    | Some h => match fuel with O => OutOfFuel | S fuel => do x <- handle_at w h ;; do l <- listed fuel w (h_next x) ;; Done (h_index x :: l) end
    end.
  (** parser_stack.h 157-173 *)
  Fixpoint mark (fuel : nat) (cells : list slot) (waiting : list Z) (marks : list bool) : outcome (list bool) :=
    match waiting with
    | [] => Done marks
    | next :: waiting =>
        match fuel with
        | O => OutOfFuel
        | S fuel =>
            do marks <- cell_set marks next true ;;
            do c <- cell_at cells next ;;
            do more <- (if 0 <=? c_prev c then do b <- cell_at marks (c_prev c) ;; Done (negb b) else Done false) ;;
            mark fuel cells (if more : bool then c_prev c :: waiting else waiting) marks
        end
    end.
  (** parser_stack.h 175-182 *)
  Fixpoint sweep (cells : list slot) (marks : list bool) : list slot :=
    match cells, marks with
    | c :: cells, b :: marks => (if b : bool then c else mkSlot empty (c_state c) (c_item c)) :: sweep cells marks
    | _, _ => cells
    end.
  Definition unmarked (marks : list bool) : Z := Z.of_nat (length (filter negb marks)).
  (** parser_stack.h 143-183.  The fuel is enough (see StackProofs.v): a chain that does not end marks no more
      entries. *)
  Definition collect (w : world) : outcome world :=
    do refs <- listed (S (length (w_handles w))) w (w_root w) ;;
    let n := length (w_cells w) in
    do marks <- mark (2 * length refs + 4 * n + 2) (w_cells w) (rev refs) (repeat false n) ;;
    Done (mkWorld (sweep (w_cells w) marks) (w_root w) (w_first w) (unmarked marks) (w_handles w) (w_made w) (w_deleted w)).
  (** parser_stack.h 186-194 *)
  Definition grow_stack (w : world) : world :=
    let n := Nat.min (length (w_cells w)) (depth * 8) in
    mkWorld (w_cells w ++ repeat new_slot n) (w_root w) (w_first w) (w_free w + Z.of_nat n) (w_handles w) (w_made w) (w_deleted w).
  Definition next_index (n : nat) (i : Z) : Z := if Z.of_nat n <=? i + 1 then 0 else i + 1.
  (** parser_stack.h 208-211.  When all entries have been looked at and none is empty, it does not end (see
      StackProofs.v). *)
  Fixpoint find_free (fuel : nat) (cells : list slot) (i : Z) : outcome Z :=
    match fuel with
    | O => OutOfFuel
    | S fuel => do c <- cell_at cells i ;; if c_prev c =? empty then Done i else find_free fuel cells (next_index (length cells) i)
    end.
  (** parser_stack.h 198-225 *)
  Definition get_new (w : world) : outcome (Z * world) :=
    do w <- (if w_free w <=? 0 then do w <- collect w ;; Done (if w_free w <? Z.of_nat depth / 2 then grow_stack w else w) else Done w) ;;
    do i <- find_free (S (length (w_cells w))) (w_cells w) (w_first w) ;;
    do c <- cell_at (w_cells w) i ;;
    do cells <- cell_set (w_cells w) i (mkSlot head (c_state c) (c_item c)) ;;
    Done (i, mkWorld cells (w_root w) (next_index (length cells) i) (w_free w - 1) (w_handles w) (w_made w) (w_deleted w)).

  (** parser_stack.h 252-258 and 127-132: the first handle, with number 0 *)
  Definition create : outcome world :=
    do (i, w) <- get_new (mkWorld (repeat new_slot depth) None 0 (Z.of_nat depth) [] 0 false) ;;
    Done (mkWorld (w_cells w) (Some O) (w_first w) (w_free w) [(O, mkHandle i None (w_root w))] 1 false).
  (** parser_stack.h 261-267: the new handle has the number [w_made] *)
  Definition copy (h : nat) (w : world) : outcome world :=
    do x <- handle_at w h ;; do w <- stack_of w ;;
    Done (mkWorld (w_cells w) (Some (w_made w)) (w_first w) (w_free w) (mset Nat.ltb (w_made w) (mkHandle (h_index x) None (w_root w)) (w_handles w)) (S (w_made w)) false).
  (** parser_stack.h 270-275: h = from *)
  Definition assign (h from : nat) (w : world) : outcome world :=
    do x <- handle_at w h ;; do y <- handle_at w from ;; Done (set_handle h (mkHandle (h_index y) (h_last x) (h_next x)) w).
  (** parser_stack.h 278-292 *)
  Definition destroy (h : nat) (w : world) : outcome world :=
    do x <- handle_at w h ;; do w <- stack_of w ;;
    do w <- match h_next x with None => Done w | Some n => do y <- handle_at w n ;; Done (set_handle n (mkHandle (h_index y) (h_last x) (h_next y)) w) end ;;
    do w <- match h_last x with Some l => do y <- handle_at w l ;; Done (set_handle l (mkHandle (h_index y) (h_last y) (h_next x)) w) | None => Done (set_root (h_next x) w) end ;;
    Done (mkWorld (w_cells w) (w_root w) (w_first w) (w_free w) (merase Nat.ltb h (w_handles w)) (w_made w) (match w_root w with None => true | Some _ => false end)).
  (** parser_stack.h 313-332 (and 294-308, for n = 0): the state and the item [n] entries below the top *)
  Fixpoint below (n : nat) (cells : list slot) (i : Z) : outcome Z :=
    match n with O => Done i | S n => do c <- cell_at cells i ;; below n cells (if 0 <=? c_prev c then c_prev c else i) end.
  Definition get (h : nat) (n : nat) (w : world) : outcome (Z * A) :=
    do x <- handle_at w h ;; do w <- stack_of w ;; do i <- below n (w_cells w) (h_index x) ;; do c <- cell_at (w_cells w) i ;; Done (c_state c, c_item c).
  (** A change through the reference operator* gives (parser_stack.h 294-296) *)
  Definition set_top (h : nat) (state : Z) (item : A) (w : world) : outcome world :=
    do x <- handle_at w h ;; do w <- stack_of w ;; do c <- cell_at (w_cells w) (h_index x) ;; do cells <- cell_set (w_cells w) (h_index x) (mkSlot (c_prev c) state item) ;; Done (set_cells cells w).
  (** parser_stack.h 335-345 *)
  Definition push (h : nat) (state : Z) (item : A) (w : world) : outcome world :=
    do x <- handle_at w h ;; do w <- stack_of w ;;
    do (i, w) <- get_new w ;;
    do cells <- cell_set (w_cells w) i (mkSlot (h_index x) state item) ;;
    Done (set_handle h (mkHandle i (h_last x) (h_next x)) (set_cells cells w)).
  (** parser_stack.h 350-355 *)
  Definition pop (h : nat) (w : world) : outcome (bool * world) :=
    do x <- handle_at w h ;; do w <- stack_of w ;; do c <- cell_at (w_cells w) (h_index x) ;;
    if c_prev c =? -1 then Done (false, w) else Done (true, set_handle h (mkHandle (c_prev c) (h_last x) (h_next x)) w).

  (** What can be done with a stack and its copies, in any order *)
  Inductive op := Copy (h : nat) | Assign (h from : nat) | Destroy (h : nat) | SetTop (h : nat) (state : Z) (item : A) | Push (h : nat) (state : Z) (item : A) | Pop (h : nat).
  Definition do_op (o : op) (w : world) : outcome world :=
    match o with
    | Copy h => copy h w
    | Assign h f => assign h f w
    | Destroy h => destroy h w
    | SetTop h s a => set_top h s a w
    | Push h s a => push h s a w
    | Pop h => do (_, w) <- pop h w ;; Done w
    end.
  Fixpoint do_ops (l : list op) (w : world) : outcome world := match l with [] => Done w | o :: l => do w <- do_op o w ;; do_ops l w end.
  Definition run (l : list op) : outcome world := do w <- create ;; do_ops l w.
End Stack.
Arguments mkSlot {A}. Arguments c_prev {A}. Arguments c_state {A}. Arguments c_item {A}.
Arguments mkWorld {A}. Arguments w_cells {A}. Arguments w_root {A}. Arguments w_first {A}. Arguments w_free {A}. Arguments w_handles {A}. Arguments w_made {A}. Arguments w_deleted {A}.
Arguments Copy {A}. Arguments Assign {A}. Arguments Destroy {A}. Arguments SetTop {A}. Arguments Push {A}. Arguments Pop {A}.

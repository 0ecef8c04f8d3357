(** What programs that use parser tables expect of them: tables are values. *)

From Verif Require Import Base MachineModel TableModel TableOwnModel.
Local Open Scope nat_scope.

(** A value: what the tables say, whether they have an array of weak symbols,
    and whether the class has to release them. *)
Record value := mkValue { v_tables : tables; v_weak : bool; v_owned : bool }.

(** Tables for which arrays can be made: the states have terminals and
    nonterminals, and weak symbols need an array. *)
Definition proper (o : op) : Prop :=
  match o with
  | Build t weak | Wrap t weak => length (t_nonterminals t) = length (t_terminals t) /\ (weak = false -> t_weak t = [])
  | _ => True
  end.

Definition held (s : list (option value)) (x : nat) : option value := match nth_error s x with Some (Some v) => Some v | _ => None end.

(** The values of the variables.  [None]: a variable which holds no tables is
    used. *)
Definition value_step (s : list (option value)) (o : op) : option (list (option value)) :=
  match o with
  | Build t weak => Some (s ++ [Some (mkValue t weak true)])
  | Wrap t weak => Some (s ++ [Some (mkValue t weak false)])
  | Copy y => match held s y with Some v => Some (s ++ [Some v]) | None => None end
  | Assign x y => match held s x, held s y with Some _, Some v => Some (vset x (Some v) s) | _, _ => None end
  | Destroy x => match held s x with Some _ => Some (vset x None s) | None => None end
  end.

Fixpoint values (s : list (option value)) (l : list op) : option (list (option value)) :=
  match l with
  | [] => Some s
  | o :: l => match value_step s o with Some s => values s l | None => None end
  end.

(** The number of arrays of some tables: two for each state and five, or six,
    others. *)
Definition arrays (v : value) : nat := 2 * length (t_terminals (v_tables v)) + 5 + (if v_weak v then 1 else 0).

(** How many arrays a step adds, and how many it releases. *)
Definition added (s : list (option value)) (o : op) : nat :=
  match o with
  | Build t weak | Wrap t weak => arrays (mkValue t weak true)
  | Copy y => match held s y with Some v => arrays v | None => 0 end
  | Assign x y => if x =? y then 0 else match held s y with Some v => arrays v | None => 0 end
  | Destroy _ => 0
  end.
Definition given_back (s : list (option value)) (x : nat) : nat :=
  match held s x with Some v => if v_owned v then arrays v else 0 | None => 0 end.
Definition removed (s : list (option value)) (o : op) : nat :=
  match o with
  | Assign x y => if x =? y then 0 else given_back s x
  | Destroy x => given_back s x
  | _ => 0
  end.

(** The sums of both over a history. *)
Fixpoint total (count : list (option value) -> op -> nat) (s : list (option value)) (l : list op) : nat :=
  match l with
  | [] => 0
  | o :: l => count s o + match value_step s o with Some s => total count s l | None => 0 end
  end.

(** The arrays which have not been released. *)
Definition alive (m : memory) : nat := length (filter (fun c => match c with Some _ => true | None => false end) m).

Definition wraps (o : op) : bool := match o with Wrap _ _ => true | _ => false end.

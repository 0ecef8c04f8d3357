(** Independent specification: every item of every rule carries its own attributes, and
    copying a rule copies the attributes of its items. *)
From Verif Require Import Base RuleDataModel.

Section Spec.
  Context {attrs : Type}.

  (** The attributes of an item, if any were set, and whether the item has been copied (or is
      a copy) since it got attributes. *)
  Record ritem := mkI { i_attrs : option attrs; i_copied : bool }.
  Definition copied (x : ritem) : ritem :=
    match i_attrs x with Some a => mkI (Some a) true | None => x end.

  Definition srules := list (list ritem).
  Definition items (s : srules) (r : nat) : list ritem := nth r s [].
  Definition mark (s : srules) (r : nat) : srules := upd_at r (map copied) s.

  Definition sstep (s : srules) (o : rop (attrs := attrs)) : srules :=
    match o with
    | RNew => s ++ [[]]
    | RAppend r => upd_at r (fun l => l ++ [mkI None false]) s
    | RAppendRule dst src => upd_at dst (fun l => l ++ map copied (items s src)) (mark s src)
    | RCopy src => mark s src ++ [map copied (items s src)]
    | RAssign dst src => if Nat.eqb dst src then s else upd_at dst (fun _ => map copied (items s src)) (mark s src)
    | RSet r i a => upd_at r (upd_at i (fun x => mkI (Some a) (i_copied x))) s
    end.
  Definition srun (s : srules) (ops : list rop) : srules := fold_left sstep ops s.

  (** What the item reports. *)
  Definition reported (default : attrs) (s : srules) (r i : nat) : attrs :=
    match nth_error (items s r) i with
    | Some (mkI (Some a) _) => a
    | _ => default
    end.

  (** No operation of the history sets attributes on an item that already has some and has
      been copied since. *)
  Fixpoint sets_before_copies (s : srules) (ops : list rop) : Prop :=
    match ops with
    | [] => True
    | o :: t =>
        match o with
        | RSet r i _ => match nth_error (items s r) i with Some x => i_copied x = false | None => True end
        | _ => True
        end /\ sets_before_copies (sstep s o) t
    end.
End Spec.

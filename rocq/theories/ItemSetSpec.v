(** Specification of item sets: what they contain, for every way to build one. *)
From Verif Require Import Base ItemSetModel.
Local Open Scope Z_scope.

(** The ways to build an item set *)
Inductive build :=
| Empty
| Insert (id : Z) (b : build)
| Erase (id : Z) (b : build)
| Merge (b c : build).

Fixpoint built (b : build) : item_set :=
  match b with
  | Empty => empty_set
  | Insert id b => fst (insert id (built b))
  | Erase id b => fst (erase id (built b))
  | Merge b c => fst (merge (built b) (built c))
  end.

(** Identifiers are not negative *)
Fixpoint build_ok (b : build) : Prop :=
  match b with
  | Empty => True
  | Insert id b | Erase id b => 0 <= id /\ build_ok b
  | Merge b c => build_ok b /\ build_ok c
  end.

(** The set that is meant *)
Fixpoint member (b : build) (x : Z) : Prop :=
  match b with
  | Empty => False
  | Insert id b => x = id \/ member b x
  | Erase id b => x <> id /\ member b x
  | Merge b c => member b x \/ member c x
  end.

(** The members in increasing order *)
Definition lists (b : build) (l : list Z) : Prop := StronglySorted Z.lt l /\ forall x, In x l <-> member b x.

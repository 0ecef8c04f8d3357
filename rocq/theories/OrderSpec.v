(** When two syntax trees can be ordered. *)

From Verif Require Import Base OrdMap DefCopyModel OrderModel.
Local Open Scope Z_scope.

(** A comparison is good for sets and maps of some things: it is irreflexive and
    transitive, and things which it does not tell apart are the same for
    it. *)
Definition orders {A} (fine : A -> A -> Prop) (same : A -> A -> Prop) (ltb : A -> A -> bool) : Prop :=
  (forall a, ltb a a = false)
  /\ (forall a b, fine a b -> ltb a b = true -> ltb b a = false)
  /\ (forall a b c, fine a b -> fine b c -> fine a c -> ltb a b = true -> ltb b c = true -> ltb a c = true)
  /\ (forall a b, fine a b -> (ltb a b = false /\ ltb b a = false <-> same a b)).

(** Two trees are the same but for the numbers of their rules. *)
Inductive alike : node -> node -> Prop :=
| Alike : forall i r r' l cs cs', Forall2 alike cs cs' -> alike (Node i r l cs) (Node i r' l cs').

(** Two trees pull in opposite directions: somewhere, at the same place with the
    same nodes above, one has the smaller item and the other the smaller
    lexeme, where no lexeme is smaller than any. *)
Inductive opposed : node -> node -> Prop :=
| opposed_here : forall i r l cs i' r' l' cs',
    (i < i' /\ pointer_ltb lexeme_ltb l' l = true) \/ (i' < i /\ pointer_ltb lexeme_ltb l l' = true) ->
    opposed (Node i r l cs) (Node i' r' l' cs')
| opposed_child : forall i r l cs r' cs' x y, In (x, y) (combine cs cs') -> opposed x y ->
    opposed (Node i r l cs) (Node i r' l cs').

Definition unopposed (a b : node) : Prop := ~ opposed a b.

(** Trees without lexemes. *)
Inductive bare : node -> Prop :=
| Bare : forall i r cs, Forall bare cs -> bare (Node i r None cs).

(** Trees of the same outline: they differ only in what their lexemes are. *)
Inductive outlined : node -> node -> Prop :=
| Outlined : forall i r l cs r' l' cs', (l = None <-> l' = None) -> Forall2 outlined cs cs' ->
    outlined (Node i r l cs) (Node i r' l' cs').

(** Both actions are from the library, or both are from a language. *)
Definition one_kind (a b : accept) : Prop :=
  match a, b with
  | Plain _ _, Plain _ _ | OfLanguage _ _ _, OfLanguage _ _ _ => True
  | _, _ => False
  end.

(** Two actions are equally important. *)
Definition equal_rank (a b : accept) : Prop :=
  match a, b with
  | Plain s _, Plain s' _ => s = s'
  | OfLanguage s t w, OfLanguage s' t' w' => s = s' /\ t = t' /\ w = w'
  | _, _ => False
  end.

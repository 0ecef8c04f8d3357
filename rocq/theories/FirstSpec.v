(** Specification of FIRST sets. *)
From Verif Require Import Base OrdMap GrammarModel FirstModel.
Local Open Scope Z_scope.

Section Grammar.
  Context (rules : Z -> list (list item)).

  (** The sequences that an item stands for.  (A repetition stands for further copies of its
      sequence, which can start with nothing new.) *)
  Definition has_body (i : item) (r : list item) : Prop :=
    match i with
    | INonterm n => In r (rules n)
    | IEbnf Alternative rs => In r rs
    | IEbnf _ rs => exists rs', rs = r :: rs'
    | _ => False
    end.
  (** Items that can stand for the empty sequence *)
  Inductive nullable : item -> Prop :=
  | null_empty : nullable IEmpty
  | null_optional rs : nullable (IEbnf Optional rs)
  | null_repeat rs : nullable (IEbnf RepeatZero rs)
  | null_body i r : has_body i r -> nullables r -> nullable i
  with nullables : list item -> Prop :=
  | null_nil : nullables []
  | null_cons i r : nullable i -> nullables r -> nullables (i :: r).

  (** The symbols of sentential forms *)
  Definition symbol (i : item) : Prop := match i with IEmpty | IEbnf _ _ => False | _ => True end.
  (** [starts i s]: some sequence derived from [i] starts with the symbol [s]. *)
  Inductive starts : item -> item -> Prop :=
  | starts_self s : symbol s -> starts s s
  | starts_body i pre y post s : has_body i (pre ++ y :: post) -> nullables pre -> starts y s -> starts i s.

  (** What FIRST(i) should be *)
  Definition first_set (i : item) (s : iset) : Prop := forall x, In x s <-> (x = IEmpty /\ nullable i) \/ starts i x.
  Definition first_sound (i : item) (s : iset) : Prop := forall x, In x s -> (x = IEmpty /\ nullable i) \/ starts i x.
  (** FIRST of a sequence *)
  Definition sequence_starts (l : list item) (x : item) : Prop := exists pre y post, l = pre ++ y :: post /\ nullables pre /\ starts y x.
  Definition first_set_of (l : list item) (s : iset) : Prop := forall x, In x s <-> (x = IEmpty /\ nullables l) \/ sequence_starts l x.

  (** A set of items that contains the parts of its items, such as all items of a grammar *)
  Definition closed (u : item -> Prop) : Prop := forall i r j, u i -> has_body i r -> In j r -> u j.

  (** EBNF items whose sequences have at most one item or start with an item that cannot be
      empty *)
  Definition plain_ebnf (u : item -> Prop) : Prop := forall k rs r, u (IEbnf k rs) -> has_body (IEbnf k rs) r ->
    match r with i :: _ :: _ => ~ nullable i | _ => True end.
  (** A repetition is a repetition of something *)
  Definition no_empty_repeat (u : item -> Prop) : Prop := forall rs, u (IEbnf Repeat rs) -> exists i r rs', rs = (i :: r) :: rs'.
  (** No left recursion, except directly: an item that can start a sequence for another one has a
      lower rank, or it is the same item, which then cannot be empty. *)
  Definition left_ranked (u : item -> Prop) (rank : item -> nat) : Prop := forall i pre y post, u i -> has_body i (pre ++ y :: post) -> nullables pre ->
    (rank y < rank i)%nat \/ (y = i /\ ~ nullable i).
  (** A rule that starts with an item that may be empty but cannot be empty as a whole does not
      come after a rule that can be empty. *)
  Definition empty_rules_last (u : item -> Prop) : Prop := forall n a r b i k c, u (INonterm n) -> rules n = a ++ r :: b ++ (i :: k) :: c -> nullables r -> nullable i -> nullables k.

  (** A cache that earlier calls left behind, whatever they were asked for *)
  Inductive earlier (u : item -> Prop) : first_cache -> Prop :=
  | earlier_none : earlier u []
  | earlier_call c fuel i c' s : earlier u c -> u i -> first rules fuel i c = Some (c', s) -> earlier u c'.
  (** [later u c c']: further calls turned the cache [c] into [c']. *)
  Inductive later (u : item -> Prop) (c : first_cache) : first_cache -> Prop :=
  | later_none : later u c c
  | later_call d fuel i d' s : later u c d -> u i -> first rules fuel i d = Some (d', s) -> later u c d'.
End Grammar.

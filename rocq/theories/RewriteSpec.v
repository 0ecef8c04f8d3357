(** Specification of the rewriters of parser actions. *)
From Verif Require Import Base OrdMap GrammarModel FirstModel LrItemModel ActionModel RewriteModel.
Local Open Scope Z_scope.

(** [a] is the same action as [b] but reduces weakly *)
Definition weakened (b a : action) : Prop := a = mkAction WeakReduce (a_item b) (a_next b) (a_rule b).

(** With the ignored symbols [ignored], the state [q] that had the actions [acts] has the action [a] *)
Inductive with_ignored (ignored : iset) (q : Z) (acts : action_set) (a : action) : Prop :=
| ignored_kept : In a acts -> ~ (a_type a = Reduce /\ In (a_item a) ignored) -> with_ignored ignored q acts a
| ignored_weaker b : In b acts -> a_type b = Reduce -> In (a_item b) ignored -> weakened b a -> with_ignored ignored q acts a
| ignored_new i : In i ignored -> (forall b, In b acts -> a_item b = i -> a_type b <> Shift /\ a_type b <> Ignore) -> a = mkAction Ignore i q no_rule -> with_ignored ignored q acts a.

(** Weak symbols, by the declarations made: [weak_symbol s w] if the symbol [w] was declared as a weak
    version of [s] *)
Section Weak.
  Context (weak_symbol : Z -> Z -> Prop).
  Definition weak_one (w : Z) : Prop := exists s, weak_symbol s w.
  (** The weak symbol [w] is used by the state itself *)
  Definition has_own (acts : action_set) (w : Z) : Prop := exists b, In b acts /\ a_item b = ITerm w /\ a_type b <> Guard.
  (** The action [a] for the weak symbol [w] does what [b] does for the strong one *)
  Definition as_strong (w : Z) (b a : action) : Prop := a = mkAction (match a_type b with Shift => ShiftStrong | t => t end) (ITerm w) (a_next b) (a_rule b).
  Inductive with_weak (acts : action_set) (a : action) : Prop :=
  | weak_other : In a acts -> (forall w, a_item a = ITerm w -> ~ weak_one w) -> with_weak acts a
  | weak_kept : In a acts -> a_type a <> Reduce -> a_type a <> WeakReduce -> a_type a <> Goto -> a_type a <> Divert -> with_weak acts a
  | weak_weaker b w : In b acts -> a_item b = ITerm w -> weak_one w -> a_type b = Reduce \/ a_type b = WeakReduce -> weakened b a -> with_weak acts a
  | weak_strong b s w : In b acts -> a_item b = ITerm s -> ~ weak_one s -> weak_symbol s w -> ~ has_own acts w -> as_strong w b a -> with_weak acts a.
End Weak.
(** Declarations made by calls of add_symbols *)
Inductive declared : weak_syms -> (Z -> Z -> Prop) -> Prop :=
| declared_none : declared no_weak (fun _ _ => False)
| declared_add w D s ws : declared w D -> ssorted item_ltb ws -> (forall i, In i ws -> exists x, i = ITerm x) -> declared (weak_add (ITerm s) ws w) (fun s' x => D s' x \/ s' = s /\ In (ITerm x) ws).

(** Operator precedence.  [precedence i]: that of a symbol, as far as it is declared *)
Section Precedence.
  Context (precedence : item -> option Z) (assoc : item -> associativity).
  (** [i] is the only symbol of the rule with a precedence *)
  Definition operator (r : rule) (i : item) : Prop :=
    exists before after, r_items r = before ++ i :: after /\ (exists s, i = ITerm s) /\ precedence i <> None /\
    forall j, In j (before ++ after) -> (exists s, j = ITerm s) -> precedence j = None.
  (** The state's only action of the type [t] for [i] *)
  Definition only_one (acts : action_set) (t : action_type) (i : item) (a : action) : Prop :=
    In a acts /\ a_type a = t /\ a_item a = i /\ forall b, In b acts -> a_type b = t -> a_item b = i -> b = a.
  (** The action that is not wanted.  [shift_precedence i]: that of the symbol to be shifted *)
  Inductive loses (shift_precedence : item -> option Z) (acts : action_set) : action -> Prop :=
  | shift_loses s i sh re o sp rp : i = ITerm s -> only_one acts Shift i sh -> only_one acts Reduce i re -> operator (a_rule re) o -> shift_precedence i = Some sp -> precedence o = Some rp ->
      sp < rp \/ (sp = rp /\ assoc o = Left_assoc) -> loses shift_precedence acts sh
  | reduce_loses s i sh re o sp rp : i = ITerm s -> only_one acts Shift i sh -> only_one acts Reduce i re -> operator (a_rule re) o -> shift_precedence i = Some sp -> precedence o = Some rp ->
      rp < sp \/ (sp = rp /\ assoc o = Right_assoc) -> loses shift_precedence acts re.
End Precedence.
(** The level [n] (counted from 1) is the last one of the block that lists the symbol [s] *)
Definition last_level (b : precedence_block) (s : Z) (n : nat) (a : associativity) : Prop :=
  (1 <= n)%nat /\ (exists symbols, nth_error b (n - 1) = Some (a, symbols) /\ In s symbols) /\
  forall n' a' symbols, (n <= n')%nat -> nth_error b n' = Some (a', symbols) -> ~ In s symbols.

(** Conflict attributes: the resolution of a conflict on [i] is the last one that is specified among
    those of the items that shift [i] *)
Section Attributes.
  Context (attribute : rule -> nat -> conflict_action).
  Definition shifts (i : item) (k : lr0) : Prop := exists rest, after_dot k = i :: rest.
  Inductive resolved (i : item) : list lr0 -> conflict_action -> Prop :=
  | resolved_none l : (forall k, In k l -> shifts i k -> attribute (l_rule k) (l_offset k) = NotSpecified) -> resolved i l NotSpecified
  | resolved_by l k l' : shifts i k -> attribute (l_rule k) (l_offset k) <> NotSpecified -> (forall k', In k' l' -> shifts i k' -> attribute (l_rule k') (l_offset k') = NotSpecified) ->
      resolved i (l ++ k :: l') (attribute (l_rule k) (l_offset k)).
  (** There is a conflict on [i] that is to be resolved by [r]: one between a shift and a reduce, with one
      reduce only unless that is what is to be done *)
  Definition shift_type (t : action_type) : Prop := t = Shift \/ t = ShiftStrong.
  Definition conflict_on (closure : list lr0) (acts : action_set) (i : item) (r : conflict_action) : Prop :=
    (exists s, i = ITerm s) /\ (exists a, In a acts /\ a_item a = i /\ shift_type (a_type a)) /\ (exists a, In a acts /\ a_item a = i /\ a_type a = Reduce) /\
    resolved i closure r /\ (r = ResolveReduce \/ forall a b, In a acts -> In b acts -> a_item a = i -> a_item b = i -> a_type a = Reduce -> a_type b = Reduce -> a = b).
  Inductive with_attributes (closure : list lr0) (acts : action_set) (a : action) : Prop :=
  | attribute_kept : In a acts ->
      ~ (a_type a = Reduce /\ conflict_on closure acts (a_item a) ResolveShift) ->
      ~ (shift_type (a_type a) /\ conflict_on closure acts (a_item a) ResolveReduce) ->
      ~ (a_type a = Reduce /\ conflict_on closure acts (a_item a) ResolveWeak) -> with_attributes closure acts a
  | attribute_weaker b : In b acts -> a_type b = Reduce -> conflict_on closure acts (a_item b) ResolveWeak -> weakened b a -> with_attributes closure acts a.
End Attributes.

(** Reduce/reduce conflicts that the states to return to tell apart *)
Section Lr1.
  Context (state_looks : Z -> list (lr0 * iset)) (sources : Z -> nat -> item -> list (Z * nat)).
  (** When [x] follows, the state [t] is one that the item [n] of the state [q] may be reduced in *)
  Definition returns_to (q : Z) (n : nat) (x : item) (t : Z) : Prop :=
    exists k la m k' la' rest, nth_error (state_looks q) n = Some (k, la) /\ after_dot k = [] /\ In x la /\
    In (t, m) (sources q n x) /\ nth_error (state_looks t) m = Some (k', la') /\ after_dot k' = r_nonterminal (l_rule k) :: rest.
  Definition told_apart (q : Z) (x : item) : Prop := forall n n' t, returns_to q n x t -> returns_to q n' x t -> n = n'.
  (** One of several reductions on a terminal, and not the first of them *)
  Definition later_reduce (acts : action_set) (a : action) : Prop :=
    In a acts /\ a_type a = Reduce /\ (exists s, a_item a = ITerm s) /\ exists b, In b acts /\ a_type b = Reduce /\ a_item b = a_item a /\ action_ltb b a = true.
  Inductive with_lr1 (q : Z) (acts : action_set) (a : action) : Prop :=
  | lr1_kept : In a acts -> ~ (later_reduce acts a /\ told_apart q (a_item a)) -> with_lr1 q acts a
  | lr1_weaker b : later_reduce acts b -> told_apart q (a_item b) -> weakened b a -> with_lr1 q acts a.
End Lr1.

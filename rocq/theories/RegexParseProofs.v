(** Reading the text of a regular expression. *)
From Verif Require Import Base OrdMap SymbolSetModel SymbolSetSpec SymbolSetProofs SymbolMapModel SymbolMapSpec SymbolMapProofs
  NdfaModel NdfaSpec NdfaProofs TextSpec RegexModel RegexSpec RegexGraph RegexBuildProofs.
Local Open Scope Z_scope.

(** ** Characters *)
Lemma digit_facts c : is_digit c -> is_hex c = true /\ hex_value c = digit c /\ 0 <= digit c < 16.
Proof.
  assert (B : forallb (fun c => is_hex c && (hex_value c =? digit c) && (0 <=? digit c) && (digit c <? 16))%bool (map fst hex_digits) = true) by (vm_compute; reflexivity).
  rewrite forallb_forall in B. intros H. specialize (B c H). rewrite !Bool.andb_true_iff in B. destruct B as [[[B1 B2] B3] B4].
  apply Z.eqb_eq in B2. apply Z.leb_le in B3. apply Z.ltb_lt in B4. auto.
Qed.

Lemma hex_step n p c t v : is_digit c -> hex (S n) (p :: c :: t) v = hex n (c :: t) (v * 16 + digit c).
Proof. intros H. destruct (digit_facts c H) as (A & B & _). cbn [hex]. rewrite A, B. reflexivity. Qed.
Lemma oct_step n p c t v : is_octal c -> oct (S n) (p :: c :: t) v = oct n (c :: t) (v * 8 + (c - 48)).
Proof.
  unfold is_octal. intros H. cbn [oct]. destruct (Z.ltb_spec c 48); [lia|]. destruct (Z.ltb_spec 55 c); [lia|]. reflexivity.
Qed.

Lemma control_lookup c : In c (map fst control) -> exists v, lookup c control = Some v /\ 0 <= v < 128.
Proof. intros [<-|[<-|[<-|[<-|[<-|[<-|[]]]]]]]; eexists; (split; [reflexivity|lia]). Qed.

Lemma chr_value_ok sp c : chr_ok sp c -> 0 <= chr_value c < c_MaxSymbol.
Proof.
  unfold c_MaxSymbol. destruct c; cbn [chr_ok chr_value].
  - unfold c_MaxSymbol. tauto.
  - unfold c_MaxSymbol. tauto.
  - intros H. destruct (control_lookup c H) as (v & -> & B). lia.
  - intros (H1 & H2 & H3 & H4). apply digit_facts in H1 as (_ & _ & H1), H2 as (_ & _ & H2), H3 as (_ & _ & H3), H4 as (_ & _ & H4). lia.
  - intros (H1 & H2). apply digit_facts in H1 as (_ & _ & H1), H2 as (_ & _ & H2). lia.
  - unfold is_octal. lia.
Qed.

Lemma sequence_spec sp c t : In 92 sp -> chr_ok sp c -> exists p, symbol_for_sequence (chr_text c ++ t) = (chr_value c, p :: t).
Proof.
  intros IS. destruct c; cbn [chr_ok chr_value chr_text app]; unfold symbol_for_sequence.
  - intros [_ N]. destruct (Z.eqb_spec c 92) as [->|_]; [contradiction|]. cbn [negb]. eauto.
  - intros (_ & N1 & N2 & N3). rewrite Z.eqb_refl. cbn [negb]. cbn [map fst control In] in N1, N2.
    repeat match goal with |- context [c =? ?k] => destruct (Z.eqb_spec c k); [exfalso; auto 10; fail|] end.
    destruct (Z.leb_spec 48 c); destruct (Z.leb_spec c 57); cbn [andb]; try lia; eauto.
  - intros [<-|[<-|[<-|[<-|[<-|[<-|[]]]]]]]; cbn [Z.eqb Pos.eqb negb]; vm_compute; eauto.
  - intros (H1 & H2 & H3 & H4). cbn [Z.eqb Pos.eqb negb]. rewrite !hex_step by assumption. cbn [hex]. exists d. f_equal. lia.
  - intros (H1 & H2). cbn [Z.eqb Pos.eqb negb]. rewrite !hex_step by assumption. cbn [hex]. exists b. f_equal.
  - intros (H1 & H2 & H3). cbn [Z.eqb Pos.eqb negb]. unfold is_octal in H1.
    repeat match goal with |- context [a =? ?k] => destruct (Z.eqb_spec a k); [lia|] end.
    destruct (Z.leb_spec 48 a); [|lia]. destruct (Z.leb_spec a 57); [|lia]. cbn [andb]. rewrite !oct_step by assumption. cbn [oct]. exists c. f_equal. lia.
Qed.

Lemma chr_text_first sp c : chr_ok sp c -> exists a t, chr_text c = a :: t /\ (a = 92 \/ ~ In a sp).
Proof. destruct c; cbn [chr_ok chr_text]; intros H; eexists; eexists; (split; [reflexivity|]); tauto. Qed.

(** ** Classes *)
Lemma member_text_first m : member_ok m -> exists a t, member_text m = a :: t /\ a <> 93 /\ a <> 94 /\ a <> 45.
Proof.
  intros H. assert (E : exists c t, member_text m = chr_text c ++ t /\ chr_ok class_special c).
  { destruct m as [c|c e]; cbn [member_ok] in H; [exists c, []|exists c, (45 :: chr_text e)]; cbn [member_text]; rewrite ?app_nil_r; tauto. }
  destruct E as (c & t & E & O). destruct (chr_text_first _ c O) as (a & t' & E2 & B). rewrite E2 in E. exists a, (t' ++ t). split; [exact E|].
  destruct B as [->|B]; [lia|]. unfold class_special in B. cbn [In] in B. repeat split; intros ->; auto 10.
Qed.

Lemma class_loop_spec ms tail : Forall member_ok ms -> forall fuel syms, (length ms <= fuel)%nat -> normal syms ->
  exists syms', class_loop fuel (flat_map member_text ms ++ 93 :: tail) syms = Some (93 :: tail, syms') /\ normal syms' /\
    forall x, mem syms' x <-> mem syms x \/ exists m, In m ms /\ member_has m x.
Proof.
  induction ms as [|m ms IH]; intros F fuel syms L N.
  - exists syms. split; [destruct fuel; reflexivity|]. split; [exact N|]. intros x. split; [auto|]. intros [X|(m & [] & _)]. exact X.
  - apply Forall_cons_iff in F as [O F]. cbn [length] in L. destruct fuel as [|fuel]; [lia|]. cbn [flat_map]. rewrite <- app_assoc.
    set (rest := flat_map member_text ms ++ 93 :: tail) in *.
    assert (RF : exists a t, rest = a :: t /\ a <> 45).
    { unfold rest. destruct ms as [|m2 ms2]; [exists 93, tail; split; [reflexivity|lia]|]. apply Forall_cons_iff in F as [O2 _].
      destruct (member_text_first m2 O2) as (a & t & E & B). cbn [flat_map]. rewrite E. exists a, ((t ++ flat_map member_text ms2) ++ 93 :: tail). split; [reflexivity|tauto]. }
    destruct RF as (a & t & ER & NA). destruct (member_text_first m O) as (a0 & t0 & E0 & NA0 & _).
    assert (ST : class_loop (S fuel) (member_text m ++ rest) syms =
      match m with
      | One c => class_loop fuel rest (union_range syms (mkR (chr_value c) (chr_value c + 1)))
      | Between c e => class_loop fuel rest (union_range syms (mkR (chr_value c) (chr_value e + 1)))
      end).
    { rewrite E0. cbn [app class_loop]. destruct (Z.eqb_spec a0 93) as [X|_]; [contradiction|].
      change (a0 :: t0 ++ rest) with ((a0 :: t0) ++ rest). rewrite <- E0. destruct m as [c|c e]; cbn [member_text member_ok] in *.
      - destruct (sequence_spec class_special c rest ltac:(cbn; auto) O) as (p & ->). rewrite ER. destruct (Z.eqb_spec a 45); [contradiction|]. reflexivity.
      - destruct O as (O1 & O2 & _). rewrite <- app_assoc. cbn [app].
        destruct (sequence_spec class_special c (45 :: chr_text e ++ rest) ltac:(cbn; auto) O1) as (p & ->). cbn [Z.eqb Pos.eqb].
        destruct (chr_text_first _ e O2) as (a1 & t1 & E1 & _). destruct (sequence_spec class_special e rest ltac:(cbn; auto) O2) as (p2 & E2).
        rewrite E1 in *. cbn [app] in *. rewrite E2. reflexivity. }
    rewrite ST.
    assert (V : exists r, match m with One c => mkR (chr_value c) (chr_value c + 1) | Between c e => mkR (chr_value c) (chr_value e + 1) end = r /\
      valid_range r /\ forall x, in_range x r <-> member_has m x).
    { destruct m as [c|c e]; cbn [member_ok] in O; eexists; (split; [reflexivity|]); unfold valid_range, in_range; cbn [lo hi member_has].
      - pose proof (chr_value_ok _ _ O). split; [lia|intros x; lia].
      - destruct O as (O1 & O2 & O3). pose proof (chr_value_ok _ _ O1). pose proof (chr_value_ok _ _ O2). split; [lia|intros x; lia]. }
    destruct V as (r & ER2 & V & M). destruct (union_range_normal syms r N V) as (N2 & M2).
    destruct (IH F fuel (union_range syms r) ltac:(lia) N2) as (syms' & E & N3 & M3).
    exists syms'. split; [destruct m; rewrite ER2; exact E|]. split; [exact N3|]. intros x. rewrite M3, M2, M. split.
    + intros [[X|X]|(m' & X & Y)]; [auto|right; exists m; split; [left; reflexivity|exact X]|right; exists m'; split; [right; exact X|exact Y]].
    + intros [X|(m' & [<-|X] & Y)]; [auto|auto|]. right. exists m'. auto.
Qed.

Lemma invert_normal s : normal s -> normal (invert s) /\ forall x, mem (invert s) x <-> universe x /\ ~ mem s x.
Proof.
  intros N. destruct (invert_spec s (normal_wf s N) (proj1 N)) as (W & M). split; [|exact M]. apply normal_of_wf; [exact W|]. intros x X. apply M, X.
Qed.

Lemma compile_class_spec (neg : bool) ms tail : Forall member_ok ms -> ms <> [] ->
  exists s, compile_class ((if neg then [94] else []) ++ flat_map member_text ms ++ 93 :: tail) = Some (93 :: tail, Some s) /\ normal s /\
    forall x, contains s x = true <-> atom_has (AClass neg ms) x.
Proof.
  intros F NE. destruct ms as [|m ms]; [congruence|]. pose proof F as F0. apply Forall_cons_iff in F0 as [O _].
  destruct (member_text_first m O) as (a & t & E & _ & NA & _).
  set (body := flat_map member_text (m :: ms) ++ 93 :: tail).
  assert (EB : exists t', body = a :: t') by (unfold body; cbn [flat_map]; rewrite E; cbn [app]; eauto). destruct EB as (t' & EB).
  assert (LEN : (length (m :: ms) <= length body)%nat).
  { unfold body. rewrite app_length. clear - F. induction (m :: ms) as [|x l IH]; cbn [length flat_map]; [lia|]. apply Forall_cons_iff in F as [O F]. specialize (IH F).
    destruct (member_text_first x O) as (a & t & E & _). rewrite E, app_length. cbn [length]. cbn [length] in IH. lia. }
  destruct (class_loop_spec (m :: ms) tail F (length body) [] LEN nil_normal) as (syms & EL & N & M).
  assert (FIN : match class_loop (length body) body [] with None => None | Some (pos, syms) => Some (pos, Some (if neg then invert syms else syms)) end = Some (93 :: tail, Some (if neg then invert syms else syms))).
  { fold body in EL. rewrite EL. reflexivity. }
  exists (if neg then invert syms else syms). split.
  - unfold compile_class. destruct neg; cbn [app].
    + rewrite Z.eqb_refl. fold body. rewrite EB. rewrite EB in FIN. exact FIN.
    + fold body. rewrite EB. destruct (Z.eqb_spec a 94); [contradiction|]. rewrite EB in FIN. exact FIN.
  - destruct neg.
    + destruct (invert_normal syms N) as (N2 & M2). split; [exact N2|]. intros x. rewrite (contains_spec _ _ (normal_wf _ N2)), M2, M. cbn [atom_has].
      unfold universe. rewrite mem_nil. split; [intros (X & Y); split; [exact X|]; intros m' I1 I2; apply Y; right; eauto|].
      intros (X & Y). split; [exact X|]. intros [[]|(m' & I1 & I2)]. apply (Y m' I1 I2).
    + split; [exact N|]. intros x. rewrite (contains_spec _ _ (normal_wf _ N)), M, mem_nil. cbn [atom_has]. tauto.
Qed.

(** ** Names *)
Lemma span_brace_spec name tail : ~ In 125 name -> span_brace (name ++ 125 :: tail) = (name, 125 :: tail).
Proof.
  induction name as [|c name IH]; intros N; [reflexivity|]. cbn [app span_brace]. destruct (Z.eqb_spec c 125) as [->|_]; [exfalso; apply N; left; reflexivity|].
  rewrite IH by (intros X; apply N; right; exact X). reflexivity.
Qed.

(** ** Evaluation *)
Section Eval.
  Context {A : Type} (to_lower to_upper : symbol_set -> symbol_set) (expressions literals : list Z -> option (list Z)) (category : list Z -> option symbol_set)
    (defined : list Z -> list (bool * bool * token)).
  Notation run := (run (A := A) to_lower to_upper expressions literals category defined).
  Notation shift := (shift (A := A) to_lower to_upper).
  Notation pop := (pop (A := A) to_lower to_upper).

  Notation begin_or := (begin_or (A := A) to_lower to_upper).
  (** The loop over the definitions of a name *)
  Definition run_items (k : nat) (lower upper : bool) (items : list (bool * bool * token)) (acc : option (bool * builder (A := A))) :=
    fold_left (fun acc item =>
      match acc with
      | None => None
      | Some (first, b') =>
          let '(insensitive, sensitive, t) := item in
          let b' := if first : bool then b' else begin_or b' in
          let b' := set_case b' (item_case lower insensitive sensitive) (item_case upper insensitive sensitive) in
          match t with
          | Regex value => match run k value (shift b' []) with
                           | None => None
                           | Some b' => Some (false, b')
                           end
          | Literal value => Some (false, add_literal_at to_lower to_upper b' value)
          end
      end) items acc.
  Lemma run_items_none k lower upper items : run_items k lower upper items None = None.
  Proof. induction items as [|i items IH]; [reflexivity|exact IH]. Qed.
  Lemma run_items_more k k' lower upper : (forall pos b r, run k pos b = Some r -> run k' pos b = Some r) ->
    forall items acc r, run_items k lower upper items acc = Some r -> run_items k' lower upper items acc = Some r.
  Proof.
    intros IH items. induction items as [|[[i s] t] items IHi]; intros acc r H; [exact H|]. cbn [run_items fold_left] in *. destruct acc as [[first b]|].
    - destruct t as [v|v]; [|apply IHi, H].
      destruct (run k v _) as [b2|] eqn:E; [rewrite (IH _ _ _ E); apply IHi, H|]. fold (run_items k lower upper items None) in H. rewrite run_items_none in H. discriminate H.
    - apply IHi, H.
  Qed.

  Lemma run_more k : forall k' pos b r, (k <= k')%nat -> run k pos b = Some r -> run k' pos b = Some r.
  Proof.
    induction k as [|k IH]; intros k' pos b r L; destruct pos as [|c t]; try (destruct k'; exact (fun H => H)); [discriminate|].
    destruct k' as [|k']; [lia|]. assert (L' : (k <= k')%nat) by lia.
    cbn [RegexModel.run]. repeat match goal with |- (if ?x then _ else _) = _ -> _ => destruct x; [apply IH, L'|] end.
    destruct (c =? 91).
    { destruct (compile_class t) as [[pos syms]|]; [apply IH, L'|discriminate]. }
    destruct (c =? 123).
    { destruct t as [|c2 t]; [apply IH, L'|]. destruct (span_brace (c2 :: t)) as [name pos].
      destruct (defined name) as [|it its].
      2: {
        intros H. fold (run_items k (b_lower (push b)) (b_upper (push b)) (it :: its) (Some (true, push (push b)))) in H.
        fold (run_items k' (b_lower (push b)) (b_upper (push b)) (it :: its) (Some (true, push (push b)))).
        destruct (run_items k (b_lower (push b)) (b_upper (push b)) (it :: its) (Some (true, push (push b)))) as [[x b2]|] eqn:E; [|discriminate H].
        rewrite (run_items_more k k' _ _ (fun pos b r => IH k' pos b r L') _ _ _ E). apply (IH k' _ _ _ L'), H. }
      destruct (expressions name) as [v|].
      - destruct (run k v (shift (push b) [])) as [b2|] eqn:E; [|discriminate]. rewrite (IH k' _ _ _ L' E). apply IH, L'.
      - destruct (literals name) as [v|].
        + destruct (add_literal _ _ _ _ _ _ _) as [final d]. apply IH, L'.
        + destruct (category name); apply IH, L'. }
    destruct (symbol_for_sequence (c :: t)) as [sym pos]. apply IH, L'.
  Qed.

  Definition eval (pos : list Z) (b res : builder (A := A)) : Prop := exists k, run k pos b = Some res.

  Lemma eval_end b : eval [] b (rejoin to_lower to_upper b).
  Proof. exists O. reflexivity. Qed.
  Lemma eval_open t b res : eval t (push b) res -> eval (40 :: t) b res.
  Proof. intros (k & H). exists (S k). exact H. Qed.
  Lemma eval_close t b res : eval t (pop b) res -> eval (41 :: t) b res.
  Proof. intros (k & H). exists (S k). exact H. Qed.
  Lemma eval_bar t b res : eval t (begin_or b) res -> eval (124 :: t) b res.
  Proof. intros (k & H). exists (S k). exact H. Qed.
  Lemma eval_star t b res : eval t (star to_lower to_upper b) res -> eval (42 :: t) b res.
  Proof. intros (k & H). exists (S k). exact H. Qed.
  Lemma eval_plus t b res : eval t (plus to_lower to_upper b) res -> eval (43 :: t) b res.
  Proof. intros (k & H). exists (S k). exact H. Qed.
  Lemma eval_opt t b res : eval t (opt to_lower to_upper b) res -> eval (63 :: t) b res.
  Proof. intros (k & H). exists (S k). exact H. Qed.

  Lemma eval_name name value t b mid res : ~ In 125 name -> defined name = [] -> expressions name = Some value ->
    eval value (shift (push b) []) mid -> eval t (pop mid) res -> eval (123 :: name ++ 125 :: t) b res.
  Proof.
    intros N ED E (k1 & H1) (k2 & H2). exists (S (max k1 k2)). cbn [RegexModel.run Z.eqb Pos.eqb]. 
    destruct (name ++ 125 :: t) as [|x l] eqn:EN; [destruct name; discriminate|]. rewrite <- EN, span_brace_spec by exact N.
    rewrite ED, E. rewrite (run_more k1 (max k1 k2) _ _ _ ltac:(lia) H1). cbn [tl]. apply (run_more k2); [lia|exact H2].
  Qed.

  Lemma eval_word name word t b res final d : ~ In 125 name -> defined name = [] -> expressions name = None -> literals name = Some word ->
    add_literal to_lower to_upper (b_nfa b) (b_surr b) (b_lower b) (b_cur b) word = (final, d) ->
    eval t (pop (goto1 (with_nfa (push b) d) final)) res -> eval (123 :: name ++ 125 :: t) b res.
  Proof.
    intros N ED E1 E2 E3 (k & H). exists (S k). cbn [RegexModel.run Z.eqb Pos.eqb].
    destruct (name ++ 125 :: t) as [|x l] eqn:EN; [destruct name; discriminate|]. rewrite <- EN, span_brace_spec by exact N.
    rewrite ED, E1, E2. cbn [push with_stack b_nfa b_surr b_lower b_cur]. rewrite E3. exact H.
  Qed.

  Lemma eval_chars name s t b res : ~ In 125 name -> defined name = [] -> expressions name = None -> literals name = None -> category name = Some s ->
    eval t (pop (shift (push b) s)) res -> eval (123 :: name ++ 125 :: t) b res.
  Proof.
    intros N ED E1 E2 E3 (k & H). exists (S k). cbn [RegexModel.run Z.eqb Pos.eqb].
    destruct (name ++ 125 :: t) as [|x l] eqn:EN; [destruct name; discriminate|]. rewrite <- EN, span_brace_spec by exact N.
    rewrite ED, E1, E2, E3. exact H.
  Qed.

  (** The definitions of a name, one by one *)
  Inductive items_done (lower upper : bool) : list (bool * bool * token) -> bool -> builder (A := A) -> builder (A := A) -> Prop :=
  | items_end first b : items_done lower upper [] first b b
  | items_regex i s v items first b b1 res :
      eval v (shift (set_case (if first : bool then b else begin_or b) (item_case lower i s) (item_case upper i s)) []) b1 ->
      items_done lower upper items false b1 res -> items_done lower upper ((i, s, Regex v) :: items) first b res
  | items_literal i s v items first b res :
      items_done lower upper items false (add_literal_at to_lower to_upper (set_case (if first : bool then b else begin_or b) (item_case lower i s) (item_case upper i s)) v) res ->
      items_done lower upper ((i, s, Literal v) :: items) first b res.
  Lemma items_run lower upper items first b res : items_done lower upper items first b res -> exists k x, run_items k lower upper items (Some (first, b)) = Some (x, res).
  Proof.
    induction 1 as [first b|i s v items first b b1 res (k1 & E1) _ (k2 & x & E2)|i s v items first b res _ (k & x & E)].
    - exists O, first. reflexivity.
    - exists (max k1 k2), x. cbn [run_items fold_left]. rewrite (run_more k1 (max k1 k2) _ _ _ ltac:(lia) E1).
      apply (run_items_more k2); [intros pos b0 r; apply run_more; lia|exact E2].
    - exists k, x. exact E.
  Qed.
  Lemma eval_defs name t b mid res : ~ In 125 name -> defined name <> [] -> items_done (b_lower b) (b_upper b) (defined name) true (push (push b)) mid ->
    eval t (pop (pop (set_case mid (b_lower b) (b_upper b)))) res -> eval (123 :: name ++ 125 :: t) b res.
  Proof.
    intros N NE I (k2 & H2). destruct (items_run _ _ _ _ _ _ I) as (k1 & x & H1). exists (S (max k1 k2)). cbn [RegexModel.run Z.eqb Pos.eqb].
    destruct (name ++ 125 :: t) as [|y l] eqn:EN; [destruct name; discriminate|]. rewrite <- EN, span_brace_spec by exact N.
    destruct (defined name) as [|it its]; [congruence|].
    fold (run_items (max k1 k2) (b_lower (push b)) (b_upper (push b)) (it :: its) (Some (true, push (push b)))).
    change (b_lower (push b)) with (b_lower b). change (b_upper (push b)) with (b_upper b).
    rewrite (run_items_more k1 (max k1 k2) _ _ (fun pos b r => run_more k1 (max k1 k2) pos b r ltac:(lia)) _ _ _ H1).
    cbn [tl]. apply (run_more k2); [lia|exact H2].
  Qed.

  Lemma eval_atom a t : atom_ok a -> exists s, normal s /\ (forall x, contains s x = true <-> atom_has a x) /\ 
    forall b res, eval t (shift b s) res -> eval (atom_text a ++ t) b res.
  Proof.
    destruct a as [c| |neg ms]; cbn [atom_ok atom_text].
    - intros O. pose proof (chr_value_ok _ _ O) as V. exists [mkR (chr_value c) (chr_value c + 1)]. split; [apply single_normal; unfold c_MaxSymbol in *; lia|]. split.
      { intros x. rewrite contains_single by lia. cbn [atom_has]. lia. }
      intros b res (k & H). exists (S k).
      destruct (sequence_spec regex_special c t ltac:(cbn; auto 20) O) as (p & E). destruct (chr_text_first _ _ O) as (a & t' & ET & B).
      rewrite ET in *. cbn [app] in *. cbn [RegexModel.run].
      assert (NS : a <> 40 /\ a <> 41 /\ a <> 124 /\ a <> 42 /\ a <> 43 /\ a <> 63 /\ a <> 46 /\ a <> 91 /\ a <> 123).
      { destruct B as [->|B]; [lia|]. unfold regex_special in B. cbn [In] in B. repeat split; intros ->; apply B; auto 20. }
      destruct NS as (N1 & N2 & N3 & N4 & N5 & N6 & N7 & N8 & N9). apply Z.eqb_neq in N1, N2, N3, N4, N5, N6, N7, N8, N9.
      rewrite N1, N2, N3, N4, N5, N6, N7, N8, N9, E. exact H.
    - intros _. exists [mkR 0 0x7fffffff]. split; [apply single_normal; unfold c_MaxSymbol; lia|]. split.
      { intros x. rewrite contains_single by lia. cbn [atom_has]. unfold c_MaxSymbol. lia. }
      intros b res (k & H). exists (S k). exact H.
    - intros (F & NE & _). destruct (compile_class_spec neg ms t F NE) as (s & E & N & M). exists s. split; [exact N|]. split; [exact M|].
      intros b res (k & H). exists (S k). cbn [app]. cbn [RegexModel.run Z.eqb Pos.eqb]. rewrite <- !app_assoc. cbn [app]. rewrite E. exact H.
  Qed.
End Eval.

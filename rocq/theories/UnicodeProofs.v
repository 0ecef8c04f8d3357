(** Proofs about the unicode categories of regular expressions. *)
From Coq Require Import String.
From Verif Require Import Base SymbolSetModel SymbolSetSpec SymbolSetProofs NamesModel UnicodeTables UnicodeModel UnicodeSpec.
Local Open Scope Z_scope.

(** ** Sets *)
Lemma union_normal s r : normal s -> valid_range r -> normal (union_range s r) /\ forall x, contains (union_range s r) x = true <-> contains s x = true \/ in_range x r.
Proof.
  intros N V. pose proof (union_range_step s r N V) as C. split; [|exact C]. destruct (union_range_spec s r (normal_wf s N) (valid_ne r V)) as [W M].
  split; [|apply W]. apply wf_bounded_valid; [exact W|]. intros x X. apply M in X. destruct X as [(r' & I & X)|X].
  - destruct N as [N _]. rewrite Forall_forall in N. specialize (N r' I). unfold universe, valid_range, in_range in *. lia.
  - unfold universe, valid_range, in_range in *. lia.
Qed.
Lemma union_ranges rs : Forall valid_range rs -> forall s, normal s -> normal (fold_left union_range rs s) /\ forall x, contains (fold_left union_range rs s) x = true <-> contains s x = true \/ exists r, In r rs /\ in_range x r.
Proof.
  induction 1 as [|r rs V _ IH]; intros s N; cbn [fold_left].
  - split; [exact N|]. intros x. split; [auto|]. intros [X|(r & [] & _)]; exact X.
  - destruct (union_normal s r N V) as [N1 C1]. destruct (IH _ N1) as [N2 C2]. split; [exact N2|]. intros x. rewrite C2, C1. split.
    + intros [[X|X]|(r' & I & X)]; [auto|right; exists r; split; [left; reflexivity|exact X]|right; exists r'; split; [right; exact I|exact X]].
    + intros [X|(r' & [<-|I] & X)]; [auto|auto|right; exists r'; auto].
Qed.

(** ** The table *)
Definition valid_rangeb (r : range) : bool := (0 <=? lo r) && (lo r <? hi r) && (hi r <=? 0x110000).
Lemma table_valid : forallb (fun b => forallb valid_rangeb (snd b)) blocks = true.
Proof. vm_compute. reflexivity. Qed.
Lemma block_valid b : In b blocks -> Forall valid_range (snd b).
Proof.
  intros I. pose proof table_valid as T. rewrite forallb_forall in T. specialize (T b I). rewrite Forall_forall. intros r R. rewrite forallb_forall in T. specialize (T r R). unfold valid_rangeb in T. unfold valid_range, c_MaxSymbol. lia.
Qed.
Definition chosen (major : Z) (minor : list Z) (ty : Z * Z) : Prop := fst ty = major /\ match minor with m :: _ => snd ty = m | [] => True end.
Lemma symbols_of_spec major minor : normal (symbols_of major minor) /\ forall x, contains (symbols_of major minor) x = true <-> exists ty, has_type ty x /\ chosen major minor ty.
Proof.
  unfold symbols_of, has_type. pose proof block_valid as BV. revert BV. generalize blocks as bs. intros bs BV.
  assert (G : forall s, normal s -> let s' := fold_left (fun s b => if negb (fst (fst b) =? major) then s else if match minor with m :: _ => negb (snd (fst b) =? m) | [] => false end then s else fold_left union_range (snd b) s) bs s in
      normal s' /\ forall x, contains s' x = true <-> contains s x = true \/ exists ty, (exists rs r, In (ty, rs) bs /\ In r rs /\ lo r <= x < hi r) /\ chosen major minor ty).
  { induction bs as [|[ty rs] bs IH]; intros s N; cbn [fold_left].
    - split; [exact N|]. intros x. split; [auto|]. intros [X|(ty & (rs & r & [] & _) & _)]; exact X.
    - specialize (IH (fun b I => BV b (or_intror I))). cbn [fst snd].
      assert (SK : ~ chosen major minor ty -> forall s', (forall x, contains s' x = true <-> contains s x = true \/ exists ty', (exists rs' r, In (ty', rs') bs /\ In r rs' /\ lo r <= x < hi r) /\ chosen major minor ty') ->
        forall x, contains s' x = true <-> contains s x = true \/ exists ty', (exists rs' r, In (ty', rs') ((ty, rs) :: bs) /\ In r rs' /\ lo r <= x < hi r) /\ chosen major minor ty').
      { intros NC s' H x. rewrite H. split.
        - intros [X|(ty' & (rs' & r & I & R) & C)]; [auto|right; exists ty'; split; [exists rs', r; split; [right; exact I|exact R]|exact C]].
        - intros [X|(ty' & (rs' & r & [I|I] & R) & C)]; [auto|injection I as <- <-; contradiction|right; exists ty'; split; [exists rs', r; auto|exact C]]. }
      destruct (fst ty =? major) eqn:E1; cbn [negb].
      2: { destruct (IH s N) as [N' H]. split; [exact N'|]. apply SK; [|exact H]. intros [X _]. apply Z.eqb_neq in E1. contradiction. }
      destruct (match minor with m :: _ => negb (snd ty =? m) | [] => false end) eqn:E2.
      { destruct (IH s N) as [N' H]. split; [exact N'|]. apply SK; [|exact H]. intros [_ X]. destruct minor as [|m minor]; [discriminate E2|]. apply negb_true_iff, Z.eqb_neq in E2. contradiction. }
      assert (C : chosen major minor ty). { split; [apply Z.eqb_eq, E1|]. destruct minor as [|m minor]; [exact Logic.I|]. apply negb_false_iff, Z.eqb_eq in E2. exact E2. }
      destruct (union_ranges rs (BV _ (or_introl eq_refl)) s N) as [N1 H1]. destruct (IH _ N1) as [N2 H2]. split; [exact N2|]. intros x. rewrite H2, H1. split.
      + intros [[X|(r & I & X)]|(ty' & (rs' & r & I & R) & C')]; [auto|right; exists ty; split; [exists rs, r; split; [left; reflexivity|split; [exact I|exact X]]|exact C]|right; exists ty'; split; [exists rs', r; split; [right; exact I|exact R]|exact C']].
      + intros [X|(ty' & (rs' & r & [I|I] & R) & C')]; [auto|injection I as <- <-; left; right; exists r; exact R|right; exists ty'; split; [exists rs', r; auto|exact C']]. }
  destruct (G [] ltac:(split; constructor)) as [N H]. split; [exact N|]. intros x. rewrite H. split; [intros [X|X]; [discriminate X|exact X]|auto].
Qed.

(** ** Names *)
Lemma match_prefix_spec p : forall s rest, match_prefix p s = Some rest <-> s = p ++ rest.
Proof.
  induction p as [|a p IH]; intros s rest; cbn; [split; congruence|]. destruct s as [|c s]; [split; discriminate|]. destruct (a =? c) eqn:E.
  - apply Z.eqb_eq in E. subst c. rewrite IH. split; [intros ->; reflexivity|intros X; injection X; auto].
  - apply Z.eqb_neq in E. split; [discriminate|]. intros X. injection X. congruence.
Qed.
Lemma modifiers_result ms : forall expr result r, modifiers ms expr result = ([], r) -> (expr = [] /\ r = result) \/ exists word letter rest more, In (word, letter) ms /\ expr = word ++ rest /\ r = result ++ letter :: more.
Proof.
  induction ms as [|[word letter] ms IH]; intros expr result r H; cbn [modifiers] in H; [injection H as -> ->; auto|]. destruct (match_prefix word expr) as [rest|] eqn:E.
  - apply match_prefix_spec in E. right. exists word, letter, rest. destruct (IH _ _ _ H) as [[_ ->]|(w & l & rs & more & _ & _ & ->)]; [exists []|exists (l :: more)]; rewrite <- ?app_assoc; (split; [left; reflexivity|split; [exact E|reflexivity]]).
  - destruct (IH _ _ _ H) as [X|(w & l & rs & more & I & X)]; [auto|]. right. exists w, l, rs, more. split; [right; exact I|exact X].
Qed.
Lemma narrow_id name : Forall (fun c => 0 <= c) name -> forall a b, map narrow name = a ++ b -> Forall (fun c => c <> 46) a -> exists rest, name = a ++ rest /\ map narrow rest = b.
Proof.
  intros F a. revert name F. induction a as [|x a IH]; intros name F b E N; [exists name; auto|]. destruct name as [|c name]; [discriminate E|]. injection E as E1 E2. inversion F; subst. inversion N; subst.
  destruct (IH name H2 b E2 H4) as (rest & -> & R). exists rest. split; [|exact R]. cbn [app]. f_equal. unfold narrow in *. destruct (255 <? c) eqn:B; [congruence|]. apply Z.ltb_ge in B. rewrite Z.mod_small by lia. reflexivity.
Qed.
Definition no_dotb (s : list Z) : bool := forallb (fun c => negb (c =? 46)) s.
Lemma no_dot s : no_dotb s = true -> Forall (fun c => c <> 46) s.
Proof. intros H. apply Forall_forall. intros c I. unfold no_dotb in H. rewrite forallb_forall in H. specialize (H c I). apply negb_true_iff, Z.eqb_neq in H. exact H. Qed.

Definition entry_eqb (a b : list Z * Z * option Z) : bool :=
  let '(n, c, m) := a in let '(n', c', m') := b in str_eqb n n' && (c =? c') && match m, m' with Some x, Some y => x =? y | None, None => true | _, _ => false end.
Lemma entry_eqb_eq a b : entry_eqb a b = true -> a = b.
Proof.
  destruct a as [[n c] m], b as [[n' c'] m']. cbn. rewrite !andb_true_iff. intros [[A B] C]. unfold str_eqb in A. destruct (str_eq_dec n n') as [-> |]; [|discriminate A]. apply Z.eqb_eq in B. subst. destruct m, m'; try discriminate C; [apply Z.eqb_eq in C; subst|]; reflexivity.
Qed.
Lemma in_documented n c m : existsb (entry_eqb (n, c, m)) documented = true -> In (n, c, m) documented.
Proof. intros H. apply existsb_exists in H. destruct H as (e & I & E). apply entry_eqb_eq in E. rewrite E. exact I. Qed.
Lemma classes_documented : forallb (fun '(word, c, ms) => existsb (entry_eqb (word, c, None)) documented && no_dotb word && forallb (fun '(w, l) => existsb (entry_eqb (word ++ 45 :: w, c, Some l)) documented && no_dotb w) ms) classes = true.
Proof. vm_compute. reflexivity. Qed.
Lemma class_result cs expr r : class_of cs expr = ([], r) -> r = [] \/ exists word c ms, In (word, c, ms) cs /\
  ((r = [c] /\ (expr = word \/ expr = word ++ [45])) \/ exists w l rest more, In (w, l) ms /\ expr = word ++ 45 :: w ++ rest /\ r = c :: l :: more).
Proof.
  induction cs as [|[[word c] ms] cs IH]; intros H; cbn [class_of] in H; [injection H as _ <-; auto|]. destruct (match_prefix word expr) as [rest|] eqn:E.
  - right. apply match_prefix_spec in E. exists word, c, ms. split; [left; reflexivity|]. destruct (match_prefix [45] rest) as [rest'|] eqn:E'.
    + apply match_prefix_spec in E'. subst. destruct (modifiers_result _ _ _ _ H) as [[-> ->]|(w & l & rs & more & I & -> & ->)]; [left; auto|right]. exists w, l, rs, more. auto.
    + injection H as -> <-. left. split; [reflexivity|]. left. rewrite E, app_nil_r. reflexivity.
  - destruct (IH H) as [X|(w & c' & ms' & I & X)]; [auto|]. right. exists w, c', ms'. split; [right; exact I|exact X].
Qed.
Lemma strip_result expr rest : strip expr = Some rest -> exists start, In start name_starts /\ expr = start ++ rest.
Proof.
  unfold strip. destruct (match_prefix _ expr) as [x|] eqn:E1; [intros X; injection X as ->; apply match_prefix_spec in E1; exists (codes "u-"%string); split; [left; reflexivity|exact E1]|].
  destruct (match_prefix (codes "uni-"%string) expr) as [x|] eqn:E2; [intros X; injection X as ->; apply match_prefix_spec in E2; exists (codes "uni-"%string); split; [right; left; reflexivity|exact E2]|].
  intros X. apply match_prefix_spec in X. exists (codes "unicode-"%string). split; [right; right; left; reflexivity|exact X].
Qed.
Lemma starts_no_dot start : In start name_starts -> Forall (fun c => c <> 46) start.
Proof. intros I. apply no_dot. assert (B : forallb no_dotb name_starts = true) by reflexivity. rewrite forallb_forall in B. apply B, I. Qed.

(** A name that is accepted starts with a documented name, and means that. *)
Lemma accepted name major minor : Forall (fun c => 0 <= c) name -> unicode_for_expression name = major :: minor ->
  exists known rest, name = known ++ rest /\ is_category known major (hd_error minor).
Proof.
  intros F. unfold unicode_for_expression. destruct (strip (map narrow name)) as [expr|] eqn:ES; [|discriminate]. apply strip_result in ES. destruct ES as (start & IS & E). destruct (class_of classes expr) as [[|] r] eqn:EC; [|discriminate]. intros ->.
  destruct (class_result _ _ _ EC) as [X|(word & c & ms & IC & CASE)]; [discriminate X|]. pose proof classes_documented as CD. rewrite forallb_forall in CD. specialize (CD _ IC). cbn beta iota in CD. rewrite !andb_true_iff in CD. destruct CD as [[D1 D2] D3].
  destruct CASE as [[R CASE]|(w & l & rest & more & I & -> & R)].
  - injection R as -> ->. assert (X : exists tail, map narrow name = (start ++ word) ++ tail) by (destruct CASE as [-> | ->]; [exists []; rewrite app_nil_r; exact E|exists [45]; rewrite <- app_assoc; exact E]). destruct X as (tail & X).
    apply narrow_id in X; [|exact F|apply Forall_app; split; [apply starts_no_dot, IS|apply no_dot, D2]]. destruct X as (rest & -> & _). exists (start ++ word), rest. split; [reflexivity|]. exists start, word. split; [reflexivity|]. split; [exact IS|apply in_documented, D1].
  - injection R as -> ->. rewrite forallb_forall in D3. specialize (D3 _ I). cbn beta iota in D3. apply andb_prop in D3. destruct D3 as [D3 D4].
    assert (X : map narrow name = (start ++ word ++ 45 :: w) ++ rest) by (rewrite E, <- !app_assoc; reflexivity).
    apply narrow_id in X; [|exact F|apply Forall_app; split; [apply starts_no_dot, IS|apply Forall_app; split; [apply no_dot, D2|constructor; [discriminate|apply no_dot, D4]]]]. destruct X as (rest' & -> & _). exists (start ++ word ++ 45 :: w), rest'. split; [reflexivity|]. exists start, (word ++ 45 :: w). split; [reflexivity|]. split; [exact IS|]. apply in_documented, D3.
Qed.
Definition option_list (m : option Z) : list Z := match m with Some x => [x] | None => [] end.
Lemma documented_names : forallb (fun start => forallb (fun '(n, c, m) => str_eqb (unicode_for_expression (start ++ n)) (c :: option_list m)) documented) name_starts = true.
Proof. vm_compute. reflexivity. Qed.
Lemma documented_name name major minor : is_category name major minor -> unicode_for_expression name = major :: option_list minor.
Proof.
  intros (start & rest & -> & IS & ID). pose proof documented_names as D. rewrite forallb_forall in D. specialize (D _ IS). rewrite forallb_forall in D. specialize (D _ ID). cbn beta iota in D. unfold str_eqb in D. destruct (str_eq_dec _ _) as [E|]; [exact E|discriminate D].
Qed.

(** ** Deciding categories *)
Definition in_categoryb (major : Z) (minor : option Z) (x : Z) : bool :=
  existsb (fun b => (fst (fst b) =? major) && match minor with Some m => snd (fst b) =? m | None => true end && existsb (fun r => (lo r <=? x) && (x <? hi r)) (snd b)) blocks.
Lemma in_categoryb_spec major minor x : in_categoryb major minor x = true <-> in_category major minor x.
Proof.
  unfold in_categoryb, in_category, has_type. rewrite existsb_exists. split.
  - intros ((ty & rs) & I & H). cbn [fst snd] in H. rewrite !andb_true_iff in H. destruct H as [[A B] C]. apply existsb_exists in C. destruct C as (r & R & C). exists ty. split; [exists rs, r; split; [exact I|split; [exact R|lia]]|]. split; [apply Z.eqb_eq, A|]. destruct minor; [apply Z.eqb_eq, B|exact Logic.I].
  - intros (ty & (rs & r & I & R & X) & A & B). exists (ty, rs). split; [exact I|]. cbn [fst snd]. rewrite !andb_true_iff. split; [split; [apply Z.eqb_eq, A|]|]; [destruct minor; [apply Z.eqb_eq, B|reflexivity]|]. apply existsb_exists. exists r. split; [exact R|lia].
Qed.
Lemma below n (P : Z -> bool) : forallb P (map Z.of_nat (seq 0 n)) = true -> forall x, 0 <= x < Z.of_nat n -> P x = true.
Proof. intros H x X. rewrite forallb_forall in H. apply H. apply in_map_iff. exists (Z.to_nat x). split; [lia|]. apply in_seq. lia. Qed.

(** ** Each character has at most one type *)
Definition typed : list ((Z * Z) * range) := flat_map (fun b => map (pair (fst b)) (snd b)) blocks.
Definition apart (a b : (Z * Z) * range) : bool :=
  ((fst (fst a) =? fst (fst b)) && (snd (fst a) =? snd (fst b))) || (hi (snd a) <=? lo (snd b)) || (hi (snd b) <=? lo (snd a)).
Lemma typed_apart : forallb (fun a => forallb (apart a) typed) typed = true.
Proof. vm_compute. reflexivity. Qed.
Lemma one_type x t1 t2 : has_type t1 x -> has_type t2 x -> t1 = t2.
Proof.
  intros (rs1 & r1 & I1 & R1 & X1) (rs2 & r2 & I2 & R2 & X2). assert (J1 : In (t1, r1) typed) by (apply in_flat_map; exists (t1, rs1); split; [exact I1|apply in_map, R1]). assert (J2 : In (t2, r2) typed) by (apply in_flat_map; exists (t2, rs2); split; [exact I2|apply in_map, R2]).
  pose proof typed_apart as T. rewrite forallb_forall in T. specialize (T _ J1). rewrite forallb_forall in T. specialize (T _ J2). unfold apart in T. cbn [fst snd] in T. destruct t1 as [a b], t2 as [c d]. cbn [fst snd] in T. f_equal; lia.
Qed.
(** A gap in the table *)
Definition outside_gap (l h : Z) (r : range) : bool := (hi r <=? l) || (h <=? lo r).
Lemma gap_types l h : forallb (fun b => forallb (outside_gap l h) (snd b)) blocks = true -> forall x ty, l <= x < h -> ~ has_type ty x.
Proof.
  intros T x ty X (rs & r & I & R & Y). rewrite forallb_forall in T. specialize (T _ I). rewrite forallb_forall in T. specialize (T _ R). unfold outside_gap in T. lia.
Qed.

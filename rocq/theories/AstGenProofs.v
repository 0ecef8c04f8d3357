(** Proofs about generated syntax tree classes and objects. *)
From Verif Require Import Base GrammarModel GrammarProofs ClosureSpec NamesModel NamesSpec NamesProofs RunModel RunSpec AstGenModel AstGenSpec.
Local Open Scope Z_scope.

(** * Items *)
Fixpoint isize (i : item) : nat :=
  match i with
  | IGuard _ l => S (list_sum (map isize l))
  | IEbnf _ ls => S (list_sum (map (fun l => list_sum (map isize l)) ls))
  | _ => 1%nat
  end.
Lemma sum_in {A} (f : A -> nat) a l : In a l -> (f a <= list_sum (map f l))%nat.
Proof. induction l as [|b l IH]; intros I; [destruct I|]. cbn. destruct I as [->|I]; [lia|]. specialize (IH I). unfold list_sum in IH |- *. lia. Qed.
Lemma not_in_content k rs : ~ In (IEbnf k rs) (nth 0 rs []).
Proof.
  intros I. destruct rs as [|r rs]; [destruct I|]. cbn [nth] in I. pose proof (sum_in isize _ _ I) as A. cbn [isize map list_sum fold_right] in A. unfold list_sum in A. cbn [map fold_right] in A. lia.
Qed.

Lemma items_eqb_refl l : items_eqb l l = true.
Proof. induction l as [|i l IH]; [reflexivity|]. cbn [items_eqb]. rewrite (proj2 (item_eqb_spec i i) eq_refl). exact IH. Qed.
Lemma items_eqb_eq l : forall k, items_eqb l k && Nat.eqb (length l) (length k) = true <-> l = k.
Proof.
  induction l as [|i l IH]; intros [|j k]; cbn [items_eqb length Nat.eqb andb]; try (split; discriminate); [tauto|]. rewrite <- andb_assoc, andb_true_iff, item_eqb_spec, IH.
  split; [intros [-> ->]; reflexivity|intros E; injection E; auto].
Qed.
Lemma filter_one {A} (f : A -> bool) a l : NoDup l -> In a l -> f a = true -> (forall b, In b l -> f b = true -> b = a) -> filter f l = [a].
Proof.
  induction l as [|c l IH]; intros ND I FA U; [destruct I|]. inversion ND as [|? ? N1 N2]; subst. cbn [filter]. destruct I as [->|I].
  - rewrite FA. f_equal. assert (X : forall b, In b l -> f b = false). { intros b B. destruct (f b) eqn:E; [|reflexivity]. rewrite (U b (or_intror B) E) in B. contradiction. }
    clear -X. induction l as [|b l IH]; [reflexivity|]. cbn. rewrite (X b (or_introl eq_refl)). apply IH. intros c C. apply X. right. exact C.
  - destruct (f c) eqn:E; [rewrite (U c (or_introl eq_refl) E) in N1; contradiction|]. apply IH; auto. intros b B. apply U. right. exact B.
Qed.
Lemma filter_map {A B} (f : B -> bool) (g : A -> B) l : filter f (map g l) = map g (filter (fun a => f (g a)) l).
Proof. induction l as [|a l IH]; [reflexivity|]. cbn. rewrite IH. destruct (f (g a)); reflexivity. Qed.

Section Language.
  Context (terminal_name nonterminal_name : Z -> str).
  Context (all : list rule) (rid : rule -> Z) (given : rule -> list str) (symbols : list item).
  Local Notation parts_of := (parts_of terminal_name nonterminal_name given).
  Local Notation fields_of := (fields_of terminal_name nonterminal_name given).
  Local Notation part_names := (part_names terminal_name nonterminal_name given).
  Local Notation ctor_of := (ctor_of terminal_name nonterminal_name rid given).
  Local Notation has_ctor := (has_ctor terminal_name nonterminal_name given).
  Local Notation class_for := (class_for terminal_name nonterminal_name all rid given).
  Local Notation ctors_from := (ctors_from terminal_name nonterminal_name rid given).
  Local Notation args_of := (args_of terminal_name nonterminal_name given).
  Local Notation own_rules := (own_rules all).
  Definition var_names (r : rule) : list str := map get_identifier (part_names r).

  Lemma own_rules_in x r : In r (own_rules x) <-> In r all /\ r_nonterminal r = x.
  Proof using all. unfold AstGenModel.own_rules. rewrite filter_In, item_eqb_spec. reflexivity. Qed.

  (** * Parts *)
  Lemma part_names_length r : length (given r) = length (r_items r) -> length (part_names r) = length (r_items r).
  Proof.
    intros L. unfold AstGenModel.part_names. unfold names_of_rule. destruct (unique_names_lemma terminal_name nonterminal_name (combine (r_items r) (given r)) []) as (names & E & _ & _ & _ & Q). rewrite E.
    apply Forall2_length in Q. rewrite <- Q, combine_length. lia.
  Qed.
  Definition plain (i : item * str) : part := let '(i, n) := i in mkPart i n false.
  Lemma parts_of_shape r : length (given r) = length (r_items r) ->
    match r_items r with
    | [] => parts_of r = [] /\ part_names r = []
    | i :: is => exists n ns, part_names r = n :: ns /\ length ns = length is /\ parts_of r = mkPart i n (flag_first (r_nonterminal r) i) :: map plain (combine is ns)
    end.
  Proof.
    intros L. pose proof (part_names_length r L) as N. unfold AstGenModel.parts_of. destruct (r_items r) as [|i is].
    - split; [reflexivity|]. destruct (part_names r); [reflexivity|discriminate N].
    - destruct (part_names r) as [|n ns]; [discriminate N|]. exists n, ns. injection N as N. split; [reflexivity|]. split; [exact N|]. cbn [combine]. reflexivity.
  Qed.
  Lemma plain_items is : forall ns, length ns = length is -> map p_item (map plain (combine is ns)) = is /\ map variable (map plain (combine is ns)) = map get_identifier ns.
  Proof. induction is as [|i is IH]; intros [|n ns] L; try discriminate L; [auto|]. injection L as L. cbn. destruct (IH ns L) as [-> ->]. auto. Qed.
  Lemma parts_of_items r : length (given r) = length (r_items r) -> map p_item (parts_of r) = r_items r /\ map variable (parts_of r) = var_names r.
  Proof.
    intros L. pose proof (parts_of_shape r L) as H. unfold var_names. destruct (r_items r) as [|i is]; [destruct H as [-> ->]; auto|]. destruct H as (n & ns & -> & LN & ->). cbn [map]. destruct (plain_items is ns LN) as [-> ->]. auto.
  Qed.

  (** * Reduced values *)
  Section Run.
    Context (L P : Type) (matched : L -> Z) (lexeme_pos lexeme_final : L -> P) (zero unknown : P) (terminals : Z).
    Local Notation node := (node L P).
    Local Notation values := (values L P).
    Fixpoint pick (ps : list part) (vs : list node) : list (str * node) :=
      match ps, vs with
      | p :: ps, v :: vs => if kept p then (variable p, v) :: pick ps vs else pick ps vs
      | _, _ => []
      end.
    Lemma values_pick ps : forall pre vs, length ps = length vs -> Forall2 (fun p v => kept p = true -> is_of L P (p_item p) v = true) ps vs ->
      values (rev (pre ++ vs)) (arguments (length (pre ++ vs)) (length pre) ps) = Some (map snd (pick ps vs)) /\
      map snd (arguments (length (pre ++ vs)) (length pre) ps) = map p_item (filter kept ps) /\ map fst (pick ps vs) = map variable (filter kept ps).
    Proof.
      induction ps as [|p ps IH]; intros pre vs LN F; [destruct vs; [auto|discriminate LN]|]. destruct vs as [|v vs]; [discriminate LN|]. injection LN as LN. inversion F as [|? ? ? ? F1 F2]; subst.
      specialize (IH (pre ++ [v]) vs LN F2). rewrite <- app_assoc in IH. cbn [app] in IH. rewrite (app_length pre [v]) in IH. cbn [length] in IH. rewrite Nat.add_1_r in IH. destruct IH as (IH1 & IH2 & IH3).
      cbn [arguments pick filter]. destruct (kept p) eqn:K; [|auto]. cbn [AstGenModel.values map snd fst].
      assert (N : nth_error (rev (pre ++ v :: vs)) (length (pre ++ v :: vs) - length pre - 1) = Some v).
      { rewrite rev_app_distr. cbn [rev]. rewrite <- app_assoc. rewrite nth_error_app2 by (rewrite rev_length, app_length; cbn; lia). rewrite rev_length, app_length. cbn [length]. replace (length pre + S (length vs) - length pre - 1 - length vs)%nat with 0%nat by lia. reflexivity. }
      rewrite N, IH1, (F1 eq_refl). split; [reflexivity|]. split; f_equal; assumption.
    Qed.

    (** * Constructors *)
    Definition makes x r : bool := match has_ctor x r with Some true => true | _ => false end.
    Lemma ctors_from_some x rs : (forall r, In r rs -> has_ctor x r <> None) -> ctors_from x rs = Some (map ctor_of (filter (makes x) rs)).
    Proof.
      induction rs as [|r rs IH]; intros H; [reflexivity|]. cbn [AstGenModel.ctors_from filter]. rewrite IH by (intros; apply H; right; assumption). unfold makes. pose proof (H r (or_introl eq_refl)) as N.
      destruct (has_ctor x r) as [[]|]; [reflexivity|reflexivity|congruence].
    Qed.
    Lemma construct_one x r0 params vs look : NoDup all -> (forall r, In r (own_rules x) -> has_ctor x r <> None) -> In r0 (own_rules x) -> makes x r0 = true -> params = map p_item (fields_of r0) ->
      (forall r, In r (own_rules x) -> makes x r = true -> map p_item (fields_of r) = params -> r = r0) ->
      construct terminal_name nonterminal_name all rid given L P x params vs look =
      Some (NObj x (rid r0) (match params with [] => Some look | _ => None end) (combine (map variable (fields_of r0)) vs)).
    Proof.
      intros ND HC I0 M0 PE U. unfold construct, AstGenModel.class_for. rewrite ctors_from_some by exact HC. cbn [c_ctors]. rewrite filter_map.
      rewrite (filter_one (fun a => items_eqb (ct_params (ctor_of a)) params && Nat.eqb (length (ct_params (ctor_of a))) (length params)) r0).
      - reflexivity.
      - apply NoDup_filter, NoDup_filter, ND.
      - apply filter_In. auto.
      - apply items_eqb_eq. symmetry. exact PE.
      - intros r R E. apply filter_In in R. destruct R as [R1 R2]. apply items_eqb_eq in E. apply U; auto.
    Qed.

    (** * The switch *)
    Local Notation cases := (cases all rid symbols).
    Lemma cases_in n x r : In (n, (x, r)) cases <-> n = rid r /\ In x symbols /\ In r (own_rules x).
    Proof.
      unfold AstGenModel.cases. rewrite in_flat_map. split.
      - intros (y & Y & I). apply in_map_iff in I. destruct I as (r' & E & I). injection E as <- <- <-. auto.
      - intros (-> & X & R). exists x. split; [exact X|]. apply in_map_iff. eauto.
    Qed.
    Local Notation run_switch := (run_switch terminal_name nonterminal_name all rid given L P zero).
    Local Notation case_for := (case_for terminal_name nonterminal_name given).
    Local Notation run_case := (run_case terminal_name nonterminal_name all rid given L P zero).
    Lemma switch_found reduce look x r : (forall a b, In a all -> In b all -> rid a = rid b -> a = b) -> In r (own_rules x) -> is_guard x = false ->
      forall cs, (forall c, In c cs -> In c cases) -> In (rid r, (x, r)) cs -> run_switch cs (rid r) reduce look = match case_for x r with Some c => run_case x c reduce look | None => None end.
    Proof.
      intros INJ R G. assert (NC : case_for x r <> Some CaseNothing). { unfold AstGenModel.case_for. rewrite G. destruct (is_repeat x); [destruct (parts_of r); discriminate|]. destruct (is_repeat_zero x); [destruct (parts_of r); discriminate|discriminate]. }
      induction cs as [|[n [x' r']] cs IH]; intros SUB I; [destruct I|]. cbn [AstGenModel.run_switch]. destruct (Z.eqb_spec n (rid r)) as [E|E].
      - pose proof (SUB _ (or_introl eq_refl)) as C. apply cases_in in C. destruct C as (-> & _ & R'). apply own_rules_in in R. apply own_rules_in in R'. destruct R as [R1 R2], R' as [R1' R2']. pose proof (INJ _ _ R1' R1 E) as ->.
        rewrite R2 in R2'. subst x'. cbn [run_from]. destruct (case_for x r) as [[]|]; try reflexivity. congruence.
      - destruct I as [I|I]; [injection I as -> -> ->; congruence|]. apply IH; [intros c C; apply SUB; right; exact C|exact I].
    Qed.

    (** * Trees *)
    Context (rules : Z -> list (list item)) (u : item -> Prop) (GL : good_language rules u all rid given symbols terminals).
    Local Notation tokens := (tokens all rid L).
    Local Notation tokens_of := (tokens_of all rid L).
    Local Notation tree_value := (tree_value terminal_name nonterminal_name all rid given symbols L P matched lexeme_pos zero terminals).
    Local Notation gen_reduce := (gen_reduce terminal_name nonterminal_name all rid given symbols L P zero).
    Local Notation construct := (construct terminal_name nonterminal_name all rid given L P).
    Definition position xs ts after := position_of L P lexeme_pos (tokens_of xs ts) after.
    Definition values_of (after : P) : list item -> list (ast L) -> option (list node) :=
      fix go (xs : list item) (ts : list (ast L)) {struct ts} : option (list node) :=
        match xs, ts with
        | x :: xs, t :: ts => match tree_value (position_of L P lexeme_pos (tokens_of xs ts) after) t, go xs ts with
                              | Some v, Some vs => Some (v :: vs)
                              | _, _ => None
                              end
        | _, _ => Some []
        end.
    Lemma items_of_rule r : In r all -> items_of all rid (rid r) = r_items r.
    Proof.
      intros I. unfold items_of. destruct (find (fun r0 => rid r0 =? rid r) all) as [r'|] eqn:F.
      - apply find_some in F. destruct F as [F1 F2]. apply Z.eqb_eq in F2. rewrite (gl_ids _ _ _ _ _ _ _ GL _ _ F1 I F2). reflexivity.
      - pose proof (find_none _ _ F r I) as X. cbn in X. rewrite Z.eqb_refl in X. discriminate X.
    Qed.
    Lemma tree_value_node after n r ts : In r all -> tree_value after (Node n (rid r) ts) =
      match values_of after (r_items r) ts with Some vs => gen_reduce (rid r) (rev vs) after | None => None end.
    Proof.
      intros I. change (tree_value after (Node n (rid r) ts)) with (match values_of after (items_of all rid (rid r)) ts with Some vs => gen_reduce (rid r) (rev vs) after | None => None end).
      rewrite (items_of_rule _ I). reflexivity.
    Qed.

    Fixpoint named (xs : list item) (ns : list str) (vs : list node) : list (str * node) :=
      match xs, ns, vs with
      | x :: xs, n :: ns, v :: vs => if is_guard x then named xs ns vs else (n, v) :: named xs ns vs
      | _, _, _ => []
      end.
    Lemma pick_plain xs : forall ns vs, length ns = length xs -> pick (map plain (combine xs ns)) vs = named xs (map get_identifier ns) vs.
    Proof.
      induction xs as [|x xs IH]; intros [|n ns] vs LN; try discriminate LN; [reflexivity|]. injection LN as LN. cbn [combine map pick named]. destruct vs as [|v vs]; [reflexivity|]. rewrite IH by exact LN.
      unfold kept, plain. cbn [p_item p_repetition negb andb]. rewrite andb_true_r. destruct (is_guard x); reflexivity.
    Qed.
    Lemma kept_plain xs : forall ns, length ns = length xs -> map p_item (filter kept (map plain (combine xs ns))) = without_guards xs.
    Proof.
      induction xs as [|x xs IH]; intros [|n ns] LN; try discriminate LN; [reflexivity|]. injection LN as LN. cbn [combine map filter without_guards]. unfold kept at 1. unfold plain at 1. cbn [p_item p_repetition negb]. rewrite andb_true_r. unfold without_guards in *. cbn [filter].
      destruct (is_guard x); cbn [negb map]; [|f_equal]; auto.
    Qed.
    (** A rule whose first item is not the list itself *)
    Lemma parts_plain r : length (given r) = length (r_items r) -> (repeats (r_nonterminal r) = true -> hd_error (r_items r) <> Some (r_nonterminal r)) -> parts_of r = map plain (combine (r_items r) (part_names r)).
    Proof.
      intros LG N. pose proof (parts_of_shape r LG) as H. destruct (r_items r) as [|i is]; [destruct H as [-> ->]; reflexivity|]. destruct H as (n & ns & -> & LN & ->). cbn [combine map plain]. f_equal. f_equal. unfold flag_first.
      destruct (repeats (r_nonterminal r)); [|reflexivity]. cbn [andb]. destruct (item_eqb i (r_nonterminal r)) eqn:E; [|reflexivity]. apply item_eqb_spec in E. subst i. exfalso. apply N; reflexivity.
    Qed.
    (** A rule whose first item is the list itself *)
    Lemma parts_list x xs : repeats x = true -> length (given (mkRule x (x :: xs))) = S (length xs) -> exists n ns, part_names (mkRule x (x :: xs)) = n :: ns /\ length ns = length xs /\
      parts_of (mkRule x (x :: xs)) = mkPart x n true :: map plain (combine xs ns).
    Proof.
      intros R LG. destruct (parts_of_shape (mkRule x (x :: xs)) LG) as (n & ns & A & B & C). exists n, ns. split; [exact A|]. split; [exact B|]. rewrite C. unfold flag_first. cbn [r_nonterminal]. rewrite R, (proj2 (item_eqb_spec x x) eq_refl). reflexivity.
    Qed.
    Lemma is_of_parts xs : forall ns vs, length ns = length xs -> Forall2 (fun x v => is_guard x = false -> is_of L P x v = true) xs vs ->
      Forall2 (fun p v => kept p = true -> is_of L P (p_item p) v = true) (map plain (combine xs ns)) vs.
    Proof.
      induction xs as [|x xs IH]; intros [|n ns] vs LN F; try discriminate LN; inversion F; subst; [constructor|]. injection LN as LN. cbn [combine map plain]. constructor; [|auto]. cbn. unfold kept. cbn [p_item p_repetition negb]. rewrite andb_true_r. intros K. apply negb_true_iff in K. auto.
    Qed.
    Lemma combine_split {A B} (l : list (A * B)) : combine (map fst l) (map snd l) = l.
    Proof. induction l as [|[a b] l IH]; [reflexivity|]. cbn. rewrite IH. reflexivity. Qed.

    (** The rules of a list *)
    Lemma repeat_rules rs r : expands rules (IEbnf Repeat rs) r -> r = nth 0 rs [] \/ r = IEbnf Repeat rs :: nth 0 rs [].
    Proof. intros E. inversion E as [|? ? [K|K]| | | |]; subst; auto; discriminate. Qed.
    Lemma zero_rules rs r : expands rules (IEbnf RepeatZero rs) r -> r = [] \/ r = IEbnf RepeatZero rs :: nth 0 rs [].
    Proof. intros E. inversion E as [| |? ? [K|K]| | |]; subst; auto; discriminate. Qed.
    Lemma own_expands x r : u x -> is_guard x = false -> In r (own_rules x) -> r_nonterminal r = x /\ In r all /\ expands rules x (r_items r).
    Proof.
      intros U G R. apply own_rules_in in R. destruct R as [R1 R2]. split; [exact R2|]. split; [exact R1|]. destruct r as [y l]. cbn in R2. subst y. apply (gl_only _ _ _ _ _ _ _ GL _ _ U G R1).
    Qed.
    Lemma expands_own x r : u x -> expands rules x r -> In (mkRule x r) (own_rules x) /\ length (given (mkRule x r)) = length r.
    Proof.
      intros U E. destruct (gl_rules _ _ _ _ _ _ _ GL _ _ U E) as (I & _). split; [apply own_rules_in; auto|]. apply (gl_given _ _ _ _ _ _ _ GL _ I).
    Qed.
    Lemma named_params xs : forall ns vs, length ns = length xs -> length vs = length xs -> named xs ns vs = [] <-> without_guards xs = [].
    Proof.
      induction xs as [|x xs IH]; intros [|n ns] [|v vs] A B; try discriminate; [tauto|]. injection A as A. injection B as B. cbn [named without_guards filter]. unfold without_guards in *. cbn [filter]. destruct (is_guard x); cbn [negb]; [auto|split; discriminate].
    Qed.
    Lemma placed_params xs ns vs (after : P) : length ns = length xs -> length vs = length xs -> match without_guards xs with [] => Some after | _ => None end = placed L P (named xs ns vs) after.
    Proof.
      intros A B. unfold placed. pose proof (named_params xs ns vs A B) as [E F]. destruct (without_guards xs), (named xs ns vs); try reflexivity; [specialize (F eq_refl)|specialize (E eq_refl)]; discriminate.
    Qed.

    (** Objects of a nonterminal *)
    Lemma object_reduce x r vs after : u x -> repeats x = false -> expands rules x r -> Forall2 (fun x v => is_guard x = false -> is_of L P x v = true) r vs ->
      gen_reduce (rid (mkRule x r)) (rev vs) after = Some (NObj x (rid (mkRule x r)) (placed L P (named r (var_names (mkRule x r)) vs) after) (named r (var_names (mkRule x r)) vs)).
    Proof.
      intros U R E F. destruct (expands_own x r U E) as [I LG]. destruct (gl_rules _ _ _ _ _ _ _ GL _ _ U E) as (_ & SX & _).
      assert (G : is_guard x = false) by (inversion E; reflexivity). assert (NR : is_repeat x = false /\ is_repeat_zero x = false) by (destruct x as [| | | | | |[]]; try discriminate R; auto). destruct NR as [NR NZ].
      unfold AstGenModel.gen_reduce. rewrite (switch_found _ _ x) ; [|apply (gl_ids _ _ _ _ _ _ _ GL)|exact I|exact G|auto|apply cases_in; auto].
      unfold AstGenModel.case_for. rewrite NR, NZ, G. cbn [AstGenModel.run_case].
      assert (PP : forall r', expands rules x r' -> parts_of (mkRule x r') = map plain (combine r' (part_names (mkRule x r')))). { intros r' E'. destruct (expands_own x r' U E') as [_ LG']. apply parts_plain; [exact LG'|]. cbn. congruence. }
      assert (LN : length (part_names (mkRule x r)) = length r) by (apply part_names_length; exact LG). assert (LV : length r = length vs) by (eapply Forall2_length; exact F).
      assert (V := values_pick (parts_of (mkRule x r)) [] vs). rewrite PP in V by exact E. destruct V as (V1 & V2 & V3).
      { rewrite map_length, combine_length. lia. } { apply is_of_parts; assumption. }
      cbn [app length] in V1, V2. unfold AstGenModel.args_of. rewrite PP by exact E. replace (length (map plain (combine r (part_names (mkRule x r))))) with (length vs) by (rewrite map_length, combine_length; lia). rewrite V1, V2.
      rewrite (construct_one x (mkRule x r)); [| | |exact I| | |].
      - rewrite kept_plain by exact LN. rewrite (placed_params r (var_names (mkRule x r)) vs) by (unfold var_names; rewrite ?map_length; lia). do 3 f_equal. unfold AstGenModel.fields_of. rewrite PP by exact E. rewrite <- V3, combine_split, pick_plain by exact LN. reflexivity.
      - apply (gl_distinct _ _ _ _ _ _ _ GL).
      - intros r' _. unfold AstGenModel.has_ctor. rewrite NR, NZ. discriminate.
      - unfold makes, AstGenModel.has_ctor. rewrite NR, NZ. reflexivity.
      - unfold AstGenModel.fields_of. rewrite PP by exact E. reflexivity.
      - intros r' R' _ EQ. destruct (own_expands x r' U G R') as (N' & _ & E'). destruct r' as [y l]. cbn in N', E'. subst y. unfold AstGenModel.fields_of in EQ. rewrite (PP l E') in EQ. rewrite !kept_plain in EQ; [|exact LN|apply part_names_length; apply (expands_own x l U E')].
        f_equal. apply (gl_apart _ _ _ _ _ _ _ GL x); auto.
    Qed.

    (** Which rules have a constructor *)
    Lemma ctor_defined x r : u x -> is_guard x = false -> In r (own_rules x) -> has_ctor x r <> None.
    Proof.
      intros U G R. destruct (own_expands x r U G R) as (N & IA & E). unfold AstGenModel.has_ctor. destruct (is_repeat x) eqn:Q.
      - destruct x as [| | | | | |[] rs]; try discriminate Q. pose proof (parts_of_items r (gl_given _ _ _ _ _ _ _ GL _ IA)) as [PI _]. destruct (parts_of r) as [|p ps]; [|discriminate]. cbn in PI. exfalso. rewrite <- PI in E. apply repeat_rules in E. destruct E as [E|E]; [|discriminate E]. apply (gl_content _ _ _ _ _ _ _ GL rs); [exact U|symmetry; exact E].
      - destruct (is_repeat_zero x); [destruct (parts_of r); discriminate|discriminate].
    Qed.
    Lemma makes_element k rs r : u (IEbnf k rs) -> k = Repeat \/ k = RepeatZero -> In r (own_rules (IEbnf k rs)) -> makes (IEbnf k rs) r = true -> r = element_rule k rs.
    Proof.
      intros U K R M. set (c := nth 0 rs []). destruct (own_expands _ r U eq_refl R) as (N & IA & E). destruct r as [y l]. cbn in N, E. subst y. unfold element_rule. fold c. unfold makes, AstGenModel.has_ctor in M. destruct K as [-> | ->]; cbn [is_repeat is_repeat_zero] in M.
      - destruct (repeat_rules _ _ E) as [-> | ->]; [reflexivity|]. exfalso. destruct (parts_list (IEbnf Repeat rs) c eq_refl) as (n & ns & _ & _ & E2); [apply (gl_given _ _ _ _ _ _ _ GL _ IA)|]. fold c in M. rewrite E2 in M. discriminate M.
      - destruct (zero_rules _ _ E) as [-> | ->]; [|reflexivity]. exfalso. pose proof (parts_of_shape (mkRule (IEbnf RepeatZero rs) []) (gl_given _ _ _ _ _ _ _ GL _ IA)) as [PE _]. rewrite PE in M. discriminate M.
    Qed.

    (** Elements of a list *)
    Lemma element_construct k rs vs after : u (IEbnf k rs) -> k = Repeat \/ k = RepeatZero -> length vs = length (nth 0 rs []) ->
      let fs := named (nth 0 rs []) (element_names var_names k rs) vs in
      construct (IEbnf k rs) (without_guards (nth 0 rs [])) (map snd fs) after = Some (NObj (IEbnf k rs) (rid (element_rule k rs)) (placed L P fs after) fs).
    Proof.
      intros U K LV fs. set (x := IEbnf k rs) in *. set (c := nth 0 rs []) in *.
      assert (CL : length (element_names var_names k rs) = length c). { unfold element_names, element_rule, var_names. fold c. fold x. destruct K as [-> | ->]; rewrite ?map_length.
        - apply part_names_length. apply (expands_own x c U). apply expands_once. auto.
        - destruct (parts_list x c eq_refl) as (n & ns & E & LN & _); [apply (expands_own x (x :: c) U); apply expands_more; auto|]. rewrite E. cbn [map tl]. rewrite map_length. exact LN. }
      assert (FE : forall r, r = element_rule k rs -> map p_item (fields_of r) = without_guards c /\ makes x r = true /\ In r (own_rules x) /\ map variable (fields_of r) = map fst fs).
      { intros r ->. unfold element_rule. fold c. fold x. assert (NF : forall ns, length ns = length c -> map variable (filter kept (map plain (combine c ns))) = map fst (named c (map get_identifier ns) vs)).
        { intros ns LN. rewrite <- pick_plain by exact LN. assert (LX : length (map plain (combine c ns)) = length vs) by (rewrite map_length, combine_length; lia). revert LX. generalize (map plain (combine c ns)). intros ps. clear. revert vs. induction ps as [|p ps IH]; intros [|v vs] LX; try discriminate LX; [reflexivity|]. injection LX as LX. cbn [filter pick]. destruct (kept p); cbn [map fst]; rewrite ?IH by exact LX; [f_equal|]; auto. }
        destruct K as [KE | KE]; rewrite KE at 1 2 3 4; cbn iota.
        - assert (E : expands rules x c) by (unfold x; apply expands_once; auto). destruct (expands_own x c U E) as [I LG]. assert (LN : length (part_names (mkRule x c)) = length c) by (apply part_names_length; exact LG).
          assert (PP : parts_of (mkRule x c) = map plain (combine c (part_names (mkRule x c)))). { apply parts_plain; [exact LG|]. cbn. intros _ H. apply (not_in_content k rs). fold c. destruct c; [discriminate H|]. injection H as ->. left. reflexivity. }
          unfold AstGenModel.fields_of. rewrite PP, kept_plain by exact LN. split; [reflexivity|]. split; [|split; [exact I|]].
          + unfold makes, AstGenModel.has_ctor. assert (Q : is_repeat x = true) by (unfold x; rewrite KE; auto). rewrite Q, PP. destruct c as [|i c'] eqn:EC; [exfalso; apply (gl_content _ _ _ _ _ _ _ GL rs); [rewrite <- KE; exact U|exact EC]|]. destruct (part_names (mkRule x (i :: c'))); [discriminate LN|]. reflexivity.
          + rewrite NF by exact LN. unfold fs, element_names, element_rule, var_names. fold c. fold x. clear -KE. destruct k; try discriminate KE. reflexivity.
        - assert (E : expands rules x (x :: c)) by (unfold x; apply expands_more; auto). destruct (expands_own x (x :: c) U E) as [I LG]. assert (RX : repeats x = true) by (unfold x; rewrite KE; reflexivity). destruct (parts_list x c RX LG) as (n & ns & E1 & LN & E2).
          unfold AstGenModel.fields_of. rewrite E2. assert (KF : kept (mkPart x n true) = false) by (unfold kept; apply andb_false_r). cbn [filter]. rewrite KF. rewrite kept_plain by exact LN. split; [reflexivity|]. split; [|split; [exact I|]].
          + unfold makes, AstGenModel.has_ctor. assert (Q : is_repeat x = false /\ is_repeat_zero x = true) by (unfold x; rewrite KE; auto). rewrite (proj1 Q), (proj2 Q), E2. reflexivity.
          + rewrite NF by exact LN. unfold fs, element_names, element_rule, var_names. fold c. fold x. clear -KE E1. destruct k; try discriminate KE. rewrite E1. reflexivity. }
      destruct (FE _ eq_refl) as (F1 & F2 & F3 & F4). rewrite (construct_one x (element_rule k rs)); auto.
      - rewrite (placed_params c (element_names var_names k rs) vs) by auto. rewrite F4, combine_split. reflexivity.
      - apply (gl_distinct _ _ _ _ _ _ _ GL).
      - intros r R. apply ctor_defined; auto.
      - intros r R M _. apply makes_element; auto.
    Qed.

    Lemma gen_reduce_case x r vs after : u x -> expands rules x r ->
      gen_reduce (rid (mkRule x r)) vs after = match AstGenModel.case_for terminal_name nonterminal_name given x (mkRule x r) with Some c => AstGenModel.run_case terminal_name nonterminal_name all rid given L P zero x c vs after | None => None end.
    Proof.
      intros U E. destruct (expands_own x r U E) as [I LG]. destruct (gl_rules _ _ _ _ _ _ _ GL _ _ U E) as (_ & SX & _). assert (G : is_guard x = false) by (inversion E; reflexivity).
      unfold AstGenModel.gen_reduce. apply (switch_found _ _ x); [apply (gl_ids _ _ _ _ _ _ _ GL)|exact I|exact G|auto|apply cases_in; auto].
    Qed.
    Lemma none_reduce rs vs after : u (IEbnf RepeatZero rs) -> gen_reduce (rid (mkRule (IEbnf RepeatZero rs) [])) vs after = Some (NList (IEbnf RepeatZero rs) zero []).
    Proof.
      intros U. assert (E : expands rules (IEbnf RepeatZero rs) []) by (apply expands_none; auto). rewrite gen_reduce_case by assumption. unfold AstGenModel.case_for. cbn [is_repeat is_repeat_zero].
      destruct (expands_own _ _ U E) as [_ LG]. pose proof (parts_of_shape (mkRule (IEbnf RepeatZero rs) []) LG) as [-> _]. reflexivity.
    Qed.
    Lemma first_reduce rs vs after : u (IEbnf Repeat rs) -> Forall2 (fun x v => is_guard x = false -> is_of L P x v = true) (nth 0 rs []) vs ->
      let fs := named (nth 0 rs []) (element_names var_names Repeat rs) vs in
      gen_reduce (rid (mkRule (IEbnf Repeat rs) (nth 0 rs []))) (rev vs) after = Some (NList (IEbnf Repeat rs) after [NObj (IEbnf Repeat rs) (rid (element_rule Repeat rs)) (placed L P fs after) fs]).
    Proof.
      intros U F fs. assert (LV : length (nth 0 rs []) = length vs) by (eapply Forall2_length; exact F). pose proof (element_construct Repeat rs vs after U (or_introl eq_refl) (eq_sym LV)) as EC. cbv zeta in EC. fold fs in EC. set (x := IEbnf Repeat rs) in *. set (c := nth 0 rs []) in *. assert (E : expands rules x c) by (apply expands_once; auto). rewrite gen_reduce_case by assumption. unfold AstGenModel.case_for. change (is_repeat x) with true. cbn iota.
      destruct (expands_own _ _ U E) as [_ LG]. assert (LN : length (part_names (mkRule x c)) = length c) by (apply part_names_length; exact LG).
      assert (PP : parts_of (mkRule x c) = map plain (combine c (part_names (mkRule x c)))). { apply parts_plain; [exact LG|]. cbn. intros _ H. apply (not_in_content Repeat rs). fold c. destruct c; [discriminate H|]. injection H as ->. left. reflexivity. }
      assert (V := values_pick (parts_of (mkRule x c)) [] vs). rewrite PP in V. destruct V as (V1 & V2 & V3). { rewrite map_length, combine_length. lia. } { apply is_of_parts; assumption. }
      cbn [app length] in V1, V2. unfold AstGenModel.args_of. rewrite PP. replace (length (map plain (combine c (part_names (mkRule x c))))) with (length vs) by (rewrite map_length, combine_length; lia).
      assert (HP : match map plain (combine c (part_names (mkRule x c))) with [] => None | p :: _ => Some (CaseAdd (arguments (length vs) 0 (map plain (combine c (part_names (mkRule x c))))) (if p_repetition p then Some (length vs - 1)%nat else None)) end = Some (CaseAdd (arguments (length vs) 0 (map plain (combine c (part_names (mkRule x c))))) None)).
      { destruct c as [|i c'] eqn:EQ; [exfalso; apply (gl_content _ _ _ _ _ _ _ GL rs U); exact EQ|]. destruct (part_names (mkRule x (i :: c'))); [discriminate LN|]. reflexivity. }
      rewrite HP. cbn [AstGenModel.run_case]. rewrite V1, V2, kept_plain by exact LN. rewrite pick_plain by exact LN. change (map get_identifier (part_names (mkRule x c))) with (element_names var_names Repeat rs). fold fs. rewrite EC. reflexivity.
    Qed.
    Lemma more_reduce k rs p data vs after : u (IEbnf k rs) -> k = Repeat \/ k = RepeatZero -> Forall2 (fun x v => is_guard x = false -> is_of L P x v = true) (nth 0 rs []) vs ->
      let fs := named (nth 0 rs []) (element_names var_names k rs) vs in
      gen_reduce (rid (mkRule (IEbnf k rs) (IEbnf k rs :: nth 0 rs []))) (rev (NList (IEbnf k rs) p data :: vs)) after = Some (NList (IEbnf k rs) p (data ++ [NObj (IEbnf k rs) (rid (element_rule k rs)) (placed L P fs after) fs])).
    Proof.
      intros U K F fs. assert (LV : length (nth 0 rs []) = length vs) by (eapply Forall2_length; exact F). pose proof (element_construct k rs vs after U K (eq_sym LV)) as EC. cbv zeta in EC. fold fs in EC. set (x := IEbnf k rs) in *. set (c := nth 0 rs []) in *. assert (E : expands rules x (x :: c)) by (apply expands_more; auto). rewrite gen_reduce_case by assumption.
      destruct (expands_own _ _ U E) as [_ LG]. assert (RX : repeats x = true) by (unfold x; destruct K as [-> | ->]; reflexivity). destruct (parts_list x c RX LG) as (n & ns & E1 & LN & E2).
      assert (CF : AstGenModel.case_for terminal_name nonterminal_name given x (mkRule x (x :: c)) = Some (CaseAdd (args_of (mkRule x (x :: c))) (Some (length vs)))).
      { unfold AstGenModel.case_for. rewrite E2. cbn [p_repetition length]. rewrite map_length, combine_length. replace (S (Nat.min (length c) (length ns)) - 1)%nat with (length vs) by lia. unfold x. destruct K as [-> | ->]; reflexivity. }
      rewrite CF. cbn [AstGenModel.run_case]. unfold AstGenModel.args_of. rewrite E2. cbn [length arguments]. assert (KF : kept (mkPart x n true) = false) by (unfold kept; apply andb_false_r). rewrite KF.
      assert (V := values_pick (map plain (combine c ns)) [NList x p data] vs). destruct V as (V1 & V2 & V3). { rewrite map_length, combine_length. lia. } { apply is_of_parts; assumption. }
      cbn [app length] in V1, V2. replace (length (map plain (combine c ns))) with (length vs) by (rewrite map_length, combine_length; lia). rewrite V1, V2, kept_plain by exact LN. rewrite pick_plain by exact LN.
      assert (NR : without_guards c = without_guards c /\ map snd (named c (map get_identifier ns) vs) = map snd fs).
      { split; [reflexivity|]. unfold fs. assert (G : forall xs n1 n2 vs', length n1 = length xs -> length n2 = length xs -> map snd (named xs n1 vs') = map snd (named xs n2 vs')).
        { induction xs as [|y xs IH]; intros [|a n1] [|b n2] vs' A B; try discriminate; [reflexivity|]. destruct vs' as [|v vs']; [reflexivity|]. injection A as A. injection B as B. cbn [named]. destruct (is_guard y); cbn [map snd]; rewrite ?(IH n1 n2) by assumption; reflexivity. }
        apply G; [rewrite map_length; exact LN|]. unfold element_names, element_rule, var_names. fold c. fold x. destruct K as [-> | ->]; rewrite ?map_length.
        - apply part_names_length. apply (expands_own x c U). apply expands_once. auto.
        - fold x. rewrite E1. cbn [map tl]. rewrite map_length. exact LN. }
      rewrite (proj2 NR), EC. cbn [rev]. rewrite nth_error_app2 by (rewrite rev_length; lia). rewrite rev_length, Nat.sub_diag. cbn [nth_error]. rewrite (proj2 (item_eqb_spec x x) eq_refl). reflexivity.
    Qed.

    (** * The theorem *)
    Context (renamed : Z -> L -> L) (RN : forall s l, matched (renamed s l) = s) (weak : Z -> Z -> Prop) (ignorable : Z -> Prop) (ident : item -> Z).
    Local Notation parses := (parses rules rid ident L matched renamed weak ignorable).
    Local Notation parses_all := (parses_all rules rid ident L matched renamed weak ignorable).
    Local Notation shows := (shows rules rid var_names L P matched zero position).
    Local Notation fields := (fields rules rid var_names L P matched zero position).
    Local Notation elements := (elements rules rid var_names L P matched zero position).
    Scheme parses_ind2 := Minimality for RunSpec.parses Sort Prop with parses_all_ind2 := Minimality for RunSpec.parses_all Sort Prop.
    Combined Scheme parses_both from parses_ind2, parses_all_ind2.
    Definition full (t : ast L) : Prop := ~ In None (leaves L t).
    Lemma full_node n r ts : full (Node n r ts) <-> Forall full ts.
    Proof.
      unfold full. cbn [leaves]. split.
      - intros F. apply Forall_forall. intros t T X. apply F. apply in_flat_map. eauto.
      - intros F X. apply in_flat_map in X. destruct X as (t & T & X). rewrite Forall_forall in F. exact (F t T X).
    Qed.
    Lemma shows_is_of after x t v : shows after x t v -> is_of L P x v = true.
    Proof.
      intros S. inversion S; subst; cbn [is_of]; rewrite ?(proj2 (item_eqb_spec _ _) eq_refl); try reflexivity. match goal with H : repeats _ = false |- _ => rewrite H end. reflexivity.
    Qed.
    Lemma shift_some l : 0 <= matched l < terminals -> gen_shift L P matched terminals (Some l) = Some (NTerm (Some (ITerm (matched l))) l).
    Proof. intros H. unfold gen_shift. rewrite (proj2 (Z.leb_le 0 _)), (proj2 (Z.ltb_lt _ _)) by lia. reflexivity. Qed.
    Lemma tree_shown :
      (forall x t w rest, parses x t w rest -> u x -> full t -> forall after, exists v, tree_value after t = Some v /\ (is_guard x = false -> shows after x t v)) /\
      (forall xs ts w rest, parses_all xs ts w rest -> Forall u xs -> Forall full ts -> forall after, exists vs, values_of after xs ts = Some vs /\
        Forall2 (fun x v => is_guard x = false -> is_of L P x v = true) xs vs /\ forall ns, length ns = length xs -> fields after xs ns ts (named xs ns vs)).
    Proof.
      apply (parses_both rules rid ident L matched renamed weak ignorable
        (fun x t w rest => u x -> full t -> forall after, exists v, tree_value after t = Some v /\ (is_guard x = false -> shows after x t v))
        (fun xs ts w rest => Forall u xs -> Forall full ts -> forall after, exists vs, values_of after xs ts = Some vs /\
          Forall2 (fun x v => is_guard x = false -> is_of L P x v = true) xs vs /\ forall ns, length ns = length xs -> fields after xs ns ts (named xs ns vs))).
      - intros l rest U _ after. exists (NTerm (Some (ITerm (matched l))) l). split; [apply shift_some, (gl_terminals _ _ _ _ _ _ _ GL), U|]. intros _. constructor.
      - intros l s rest _ U _ after. pose proof (RN s l) as E. revert E. generalize (renamed s l). intros l' <-. exists (NTerm (Some (ITerm (matched l'))) l'). split; [apply shift_some, (gl_terminals _ _ _ _ _ _ _ GL), U|]. intros _. constructor.
      - intros x r ts w rest E _ IH U F after. destruct (gl_rules _ _ _ _ _ _ _ GL _ _ U E) as (I & _ & UR). apply full_node in F. destruct (IH UR F after) as (vs & VS & IO & FS). rewrite (tree_value_node _ _ _ _ I). cbn [r_items]. rewrite VS.
        assert (LG := gl_given _ _ _ _ _ _ _ GL _ I). cbn [r_items] in LG. assert (LN := part_names_length _ LG). cbn [r_items] in LN. assert (LVN : length (var_names (mkRule x r)) = length r) by (unfold var_names; rewrite map_length; exact LN).
        destruct (repeats x) eqn:R.
        + destruct x as [| | | | | |[| | |] rs]; try discriminate R.
          * destruct (repeat_rules _ _ E) as [-> | ->].
            -- rewrite first_reduce by assumption. eexists. split; [reflexivity|]. intros _. apply shows_list. apply elements_one. apply FS. exact LVN.
            -- destruct vs as [|v vs]; [inversion IO|]. inversion IO as [|? ? ? ? IO1 IO2]; subst. destruct ts as [|t ts]; [discriminate VS|].
               specialize (FS (var_names (mkRule (IEbnf Repeat rs) (IEbnf Repeat rs :: nth 0 rs []))) LVN) as FS0. destruct (var_names (mkRule (IEbnf Repeat rs) (IEbnf Repeat rs :: nth 0 rs []))) as [|n0 ns0] eqn:VN; [discriminate LVN|]. cbn [named is_guard] in FS0. inversion FS0 as [| |? ? ? ? ? ? ? ? ? _ SH _]; subst.
               inversion SH as [|? ? ? ? ? ? RF|? ? ? ? pl el EL]; subst; [discriminate RF|]. rewrite more_reduce by auto. eexists. split; [reflexivity|]. intros _. apply shows_list. apply elements_more; [exact EL|].
               assert (LE : length (element_names var_names Repeat rs) = length (nth 0 rs [])). { unfold element_names, element_rule, var_names. rewrite map_length. apply part_names_length. apply (expands_own _ (nth 0 rs []) U). apply expands_once. auto. }
               specialize (FS (n0 :: element_names var_names Repeat rs)). cbn [length named is_guard] in FS. rewrite LE in FS. specialize (FS eq_refl). inversion FS; subst. assumption.
          * destruct (zero_rules _ _ E) as [-> | ->].
            -- inversion IO; subst. rewrite none_reduce by assumption. eexists. split; [reflexivity|]. intros _. specialize (FS [] eq_refl). inversion FS; subst. apply shows_list. constructor.
            -- destruct vs as [|v vs]; [inversion IO|]. inversion IO as [|? ? ? ? IO1 IO2]; subst. destruct ts as [|t ts]; [discriminate VS|].
               specialize (FS _ LVN). destruct (var_names (mkRule (IEbnf RepeatZero rs) (IEbnf RepeatZero rs :: nth 0 rs []))) as [|n0 ns0] eqn:VN; [discriminate LVN|]. cbn [named is_guard] in FS. inversion FS as [| |? ? ? ? ? ? ? ? ? _ SH FS1]; subst.
               inversion SH as [|? ? ? ? ? ? RF|? ? ? ? pl el EL]; subst; [discriminate RF|]. rewrite more_reduce by auto. eexists. split; [reflexivity|]. intros _. apply shows_list. apply elements_more; [exact EL|].
               unfold element_names, element_rule. rewrite VN. exact FS1.
        + rewrite object_reduce by assumption. eexists. split; [reflexivity|]. intros _. apply shows_object; auto.
      - intros p g ts w rest _ _ _ F after. destruct (hd_error (w ++ rest)) as [l|] eqn:H; [|exfalso; apply F; left; reflexivity]. eexists. split; [reflexivity|]. discriminate.
      - intros rest _ _ after. exists []. split; [reflexivity|]. split; [constructor|]. intros [|n ns] LN; [constructor|discriminate LN].
      - intros xs ts l w rest _ _ IH. exact IH.
      - intros x xs t ts w1 w2 rest _ IH1 _ IH2 UX F after. inversion UX as [|? ? U1 U2]; subst. inversion F as [|? ? F1 F2]; subst. destruct (IH1 U1 F1 (position xs ts after)) as (v & V & S). destruct (IH2 U2 F2 after) as (vs & VS & IO & FS). exists (v :: vs). split.
        + cbn [values_of]. fold (position xs ts after). rewrite V. fold (values_of after). rewrite VS. reflexivity.
        + split; [constructor; [intros G; eapply shows_is_of, S, G|exact IO]|]. intros [|n ns] LN; [discriminate LN|]. injection LN as LN. cbn [named]. destruct (is_guard x) eqn:G; [destruct x; try discriminate G; apply fields_guard; auto|apply fields_more; auto].
    Qed.

    (** * Positions *)
    Local Notation rule_with := (rule_with all rid).
    Local Notation positioned := positioned.
    Local Notation pos_variable := (pos_variable terminal_name nonterminal_name given).
    Local Notation final_variable := (final_variable terminal_name nonterminal_name given).
    Local Notation node_pos := (node_pos terminal_name nonterminal_name all rid given L P lexeme_pos unknown).
    Local Notation node_final := (node_final terminal_name nonterminal_name all rid given L P lexeme_final unknown).
    Local Notation position_of := (position_of L P lexeme_pos).
    Scheme shows_ind2 := Minimality for AstGenSpec.shows Sort Prop with fields_ind2 := Minimality for AstGenSpec.fields Sort Prop with elements_ind2 := Minimality for AstGenSpec.elements Sort Prop.
    Combined Scheme shows_all from shows_ind2, fields_ind2, elements_ind2.
    Context (NN : forall x, u x -> not_nested x).

    Lemma rule_with_own x r : In r (own_rules x) -> rule_with x (rid r) = Some r.
    Proof.
      intros I. unfold AstGenModel.rule_with. destruct (find (fun r0 => rid r0 =? rid r) (own_rules x)) as [r'|] eqn:F.
      - apply find_some in F. destruct F as [F1 F2]. apply Z.eqb_eq in F2. f_equal. apply own_rules_in in I. apply own_rules_in in F1. apply (gl_ids _ _ _ _ _ _ _ GL); tauto.
      - pose proof (find_none _ _ F r I) as X. cbn in X. rewrite Z.eqb_refl in X. discriminate X.
    Qed.
    Lemma positioned_plain x xs : (forall i, In i xs -> repeats x && (kind_of i =? kind_of x) && (symbol_of i =? symbol_of x) = false) -> forall ns, length ns = length xs ->
      map variable (filter (positioned x) (map plain (combine xs ns))) = variables_of xs (map get_identifier ns).
    Proof.
      induction xs as [|i xs IH]; intros H [|n ns] LN; try discriminate LN; [reflexivity|]. injection LN as LN. cbn [combine map filter variables_of]. unfold AstGenModel.positioned at 1. cbn [plain p_item]. rewrite (H i (or_introl eq_refl)). cbn [negb]. rewrite andb_true_r.
      destruct (is_guard i); cbn [negb map]; [|unfold plain at 1, variable at 1; cbn [p_name]; f_equal]; (apply IH; [intros j J; apply H; right; exact J|exact LN]).
    Qed.
    Lemma hd_map {A B} (f : A -> B) l : option_map f (hd_error l) = hd_error (map f l).
    Proof. destruct l; reflexivity. Qed.
    Lemma filter_rev' {A} (f : A -> bool) l : filter f (rev l) = rev (filter f l).
    Proof. induction l as [|a l IH]; [reflexivity|]. cbn [rev filter]. rewrite filter_app, IH. cbn [filter]. destruct (f a); [reflexivity|apply app_nil_r]. Qed.
    Lemma object_variables x r : u x -> repeats x = false -> expands rules x r ->
      map variable (filter (positioned x) (parts_of (mkRule x r))) = variables_of r (var_names (mkRule x r)).
    Proof.
      intros U R E. destruct (expands_own x r U E) as [_ LG]. rewrite parts_plain; [|exact LG|cbn; congruence]. cbn [r_items]. apply positioned_plain; [intros i _; rewrite R; reflexivity|apply part_names_length; exact LG].
    Qed.
    Lemma same_kind k rs i : k = Repeat \/ k = RepeatZero -> kind_of i =? kind_of (IEbnf k rs) = true -> exists rs', i = IEbnf k rs'.
    Proof. intros K E. apply Z.eqb_eq in E. destruct K as [-> | ->], i as [| | | | | |[]]; cbn in E; try discriminate E; eauto. Qed.
    Lemma element_variables k rs : u (IEbnf k rs) -> k = Repeat \/ k = RepeatZero ->
      map variable (filter (positioned (IEbnf k rs)) (parts_of (element_rule k rs))) = variables_of (nth 0 rs []) (element_names var_names k rs) /\ In (element_rule k rs) (own_rules (IEbnf k rs)).
    Proof.
      intros U K. set (c := nth 0 rs []).
      assert (H : forall i, In i c -> repeats (IEbnf k rs) && (kind_of i =? kind_of (IEbnf k rs)) && (symbol_of i =? symbol_of (IEbnf k rs)) = false).
      { intros i I. destruct (kind_of i =? kind_of (IEbnf k rs)) eqn:E; [|rewrite andb_false_r; reflexivity]. destruct (same_kind _ _ _ K E) as (rs' & ->). exfalso. apply (NN _ U k rs rs' eq_refl K). exact I. }
      assert (NF : forall ns, length ns = length c -> map variable (filter (positioned (IEbnf k rs)) (map plain (combine c ns))) = variables_of c (map get_identifier ns)) by (apply positioned_plain; exact H). clear H. unfold element_names, element_rule. fold c. destruct K as [-> | ->].
      - assert (E : expands rules (IEbnf Repeat rs) c) by (apply expands_once; auto). destruct (expands_own _ c U E) as [I LG]. split; [|exact I]. rewrite parts_plain; [|exact LG|].
        + cbn [r_items]. apply NF. apply part_names_length. exact LG.
        + cbn. intros _ H. apply (not_in_content Repeat rs). fold c. destruct c; [discriminate H|]. injection H as ->. left. reflexivity.
      - assert (E : expands rules (IEbnf RepeatZero rs) (IEbnf RepeatZero rs :: c)) by (apply expands_more; auto). destruct (expands_own _ _ U E) as [I LG]. split; [|exact I]. destruct (parts_list (IEbnf RepeatZero rs) c eq_refl LG) as (n & ns & E1 & LN & E2). rewrite E2. unfold var_names. rewrite E1. cbn [filter map tl].
        assert (X : positioned (IEbnf RepeatZero rs) (mkPart (IEbnf RepeatZero rs) n true) = false) by reflexivity. rewrite X. apply NF, LN.
    Qed.
    Lemma fields_names after xs ns ts fs : fields after xs ns ts fs -> map fst fs = variables_of xs ns.
    Proof. induction 1 as [|after p g xs n ns t ts fs F IH|after x xs n ns t ts v fs G S F IH]; cbn [variables_of is_guard map fst]; [reflexivity|exact IH|]. rewrite G, IH. reflexivity. Qed.
    Lemma str_eqb_refl n : str_eqb n n = true.
    Proof. unfold str_eqb. destruct (str_eq_dec n n); congruence. Qed.
    Lemma assoc_app {A} n (a : A) l k : ~ In n (map fst l) -> assoc n (l ++ (n, a) :: k) = Some a.
    Proof.
      induction l as [|[m b] l IH]; intros N; cbn [app assoc map fst]; [rewrite str_eqb_refl; reflexivity|]. destruct (str_eqb m n) eqn:E; [|apply IH; intros X; apply N; right; exact X].
      unfold str_eqb in E. destruct (str_eq_dec m n) as [->|]; [|discriminate E]. exfalso. apply N. left. reflexivity.
    Qed.
    (** The position of an object whose variables are those that the functions look at *)
    Lemma pos_object x r after fs : rule_with x (rid r) = Some r -> map variable (filter (positioned x) (parts_of r)) = map fst fs ->
      node_pos (NObj x (rid r) (placed L P fs after) fs) = match fs with [] => Some after | (_, v) :: _ => node_pos v end.
    Proof.
      intros R E. cbn [AstGenModel.node_pos]. rewrite R. unfold AstGenModel.pos_variable. rewrite hd_map, E. destruct fs as [|[n v] fs]; [reflexivity|]. cbn [map fst hd_error assoc]. rewrite str_eqb_refl. reflexivity.
    Qed.
    Lemma final_object x r after fs : rule_with x (rid r) = Some r -> map variable (filter (positioned x) (parts_of r)) = map fst fs -> NoDup (map fst fs) ->
      forall fs' n v, fs = fs' ++ [(n, v)] -> node_final (NObj x (rid r) (placed L P fs after) fs) = node_final v.
    Proof.
      intros R E ND fs' n v ->. cbn [AstGenModel.node_final]. rewrite R. unfold AstGenModel.final_variable. rewrite filter_rev', hd_map, map_rev, E, map_app, rev_app_distr. cbn [map fst rev app hd_error]. rewrite map_app. cbn [map]. rewrite assoc_app; [reflexivity|].
      rewrite map_app in ND. cbn [map fst] in ND. apply NoDup_remove_2 in ND. rewrite app_nil_r in ND. rewrite map_map. replace (map (fun x0 : str * node => fst (let '(k, n0) := x0 in (k, node_final n0))) fs') with (map fst fs'); [exact ND|]. apply map_ext. intros [k m]. reflexivity.
    Qed.
    Lemma tokens_node n r ts : In r all -> tokens (Node n (rid r) ts) = tokens_of (r_items r) ts.
    Proof. intros I. change (tokens (Node n (rid r) ts)) with (tokens_of (items_of all rid (rid r)) ts). rewrite (items_of_rule _ I). reflexivity. Qed.
    Lemma tokens_cons x xs t ts : tokens_of (x :: xs) (t :: ts) = (if is_guard x then [] else tokens t) ++ tokens_of xs ts.
    Proof. reflexivity. Qed.
    Lemma position_app a b after : position_of (a ++ b) after = position_of a (position_of b after).
    Proof. destruct a; reflexivity. Qed.
    Lemma elements_kind after k rs t p vs : elements after k rs t p vs -> k = Repeat \/ k = RepeatZero.
    Proof. induction 1; auto. Qed.

    Definition begins_at (v : node) (p : P) : Prop := ~ begins_empty v -> node_pos v = Some p.
    Lemma shown_positions :
      (forall after x t v, shows after x t v -> u x -> begins_at v (position_of (tokens t) after)) /\
      (forall after xs ns ts fs, fields after xs ns ts fs -> Forall u xs -> match fs with [] => tokens_of xs ts = [] | (n, v) :: _ => begins_at v (position_of (tokens_of xs ts) after) end) /\
      (forall after k rs t p vs, elements after k rs t p vs -> u (IEbnf k rs) -> match vs with [] => tokens t = [] | v :: _ => begins_at v (position_of (tokens t) after) end).
    Proof.
      apply (shows_all rules rid var_names L P matched zero position
        (fun after x t v => u x -> begins_at v (position_of (tokens t) after))
        (fun after xs ns ts fs => Forall u xs -> match fs with [] => tokens_of xs ts = [] | (n, v) :: _ => begins_at v (position_of (tokens_of xs ts) after) end)
        (fun after k rs t p vs => u (IEbnf k rs) -> match vs with [] => tokens t = [] | v :: _ => begins_at v (position_of (tokens t) after) end)).
      - intros after l U _. reflexivity.
      - intros after x n r ts fs R E F IH U NB. destruct (gl_rules _ _ _ _ _ _ _ GL _ _ U E) as (I & _ & UR). specialize (IH UR). rewrite pos_object; [|apply rule_with_own, expands_own; assumption|rewrite object_variables by assumption; symmetry; eapply fields_names; exact F].
        rewrite (tokens_node _ _ _ I). cbn [r_items]. destruct fs as [|[m v] fs]; [rewrite IH; reflexivity|]. apply IH. intros X. apply NB. constructor. exact X.
      - intros after k rs t p vs EL IH U NB. specialize (IH U). cbn [AstGenModel.node_pos]. destruct vs as [|v vs]; [exfalso; apply NB; constructor|]. apply IH. intros X. apply NB. constructor. exact X.
      - intros after _. reflexivity.
      - intros after p g xs n ns t ts fs F IH UX. inversion UX; subst. rewrite tokens_cons. cbn [is_guard app]. apply IH. assumption.
      - intros after x xs n ns t ts v fs G S IH1 F IH2 UX NB. inversion UX; subst. rewrite tokens_cons, G, position_app. apply IH1; assumption.
      - intros after n rs U. rewrite tokens_node; [reflexivity|]. apply (gl_rules _ _ _ _ _ _ _ GL _ _ U). apply expands_none. auto.
      - intros after n rs ts fs F IH U NB. assert (E : expands rules (IEbnf Repeat rs) (nth 0 rs [])) by (apply expands_once; auto). destruct (gl_rules _ _ _ _ _ _ _ GL _ _ U E) as (I & _ & UR). specialize (IH UR). destruct (element_variables Repeat rs U (or_introl eq_refl)) as [EV EO].
        rewrite pos_object; [|apply rule_with_own; exact EO|rewrite EV; symmetry; eapply fields_names; exact F]. rewrite (tokens_node _ _ _ I). cbn [r_items]. destruct fs as [|[m v] fs]; [rewrite IH; reflexivity|]. apply IH. intros X. apply NB. constructor. exact X.
      - intros after k n rs t ts p vs fs EL IH1 F IH2 U. pose proof (elements_kind _ _ _ _ _ _ EL) as K. assert (E : expands rules (IEbnf k rs) (IEbnf k rs :: nth 0 rs [])) by (apply expands_more; auto). destruct (gl_rules _ _ _ _ _ _ _ GL _ _ U E) as (I & _ & UR). inversion UR as [|? ? _ UC]; subst. specialize (IH1 U). specialize (IH2 UC). destruct (element_variables k rs U K) as [EV EO].
        rewrite (tokens_node _ _ _ I). cbn [r_items]. rewrite tokens_cons. cbn [is_guard]. destruct vs as [|v vs]; cbn [app].
        + rewrite IH1. cbn [app]. intros NB. rewrite pos_object; [|apply rule_with_own; exact EO|rewrite EV; symmetry; eapply fields_names; exact F]. destruct fs as [|[m v] fs]; [rewrite IH2; reflexivity|]. apply IH2. intros X. apply NB. constructor. exact X.
        + intros NB. rewrite position_app. apply IH1. exact NB.
    Qed.

    (** * Final positions *)
    Context (DV : forall x r, u x -> expands rules x r -> NoDup (variables_of r (var_names (mkRule x r)))).
    Definition ends_at (v : node) (ls : list L) : Prop := ~ ends_empty v -> exists pre l, ls = pre ++ [l] /\ node_final v = Some (lexeme_final l).
    Definition fields_end (fs : list (str * node)) (ls : list L) : Prop := (fs = [] /\ ls = []) \/ exists fs' n v, fs = fs' ++ [(n, v)] /\ ends_at v ls.
    Lemma ends_app v a b : ends_at v b -> ends_at v (a ++ b).
    Proof. intros E N. destruct (E N) as (pre & l & -> & F). exists (a ++ pre), l. rewrite app_assoc. auto. Qed.
    Lemma object_ends x r after fs ls : rule_with x (rid r) = Some r -> map variable (filter (positioned x) (parts_of r)) = map fst fs -> NoDup (map fst fs) -> fields_end fs ls ->
      ends_at (NObj x (rid r) (placed L P fs after) fs) ls.
    Proof.
      intros R E ND [[-> _]|(fs' & n & v & EF & V)] N; [exfalso; apply N; constructor|]. rewrite (final_object x r after fs R E ND fs' n v EF). apply V. intros X. apply N. rewrite EF. constructor. exact X.
    Qed.
    Lemma element_distinct k rs : u (IEbnf k rs) -> k = Repeat \/ k = RepeatZero -> NoDup (variables_of (nth 0 rs []) (element_names var_names k rs)).
    Proof.
      intros U K. unfold element_names, element_rule. destruct K as [-> | ->]; [apply DV; [exact U|apply expands_once; auto]|]. assert (E : expands rules (IEbnf RepeatZero rs) (IEbnf RepeatZero rs :: nth 0 rs [])) by (apply expands_more; auto). pose proof (DV _ _ U E) as H.
      destruct (var_names (mkRule (IEbnf RepeatZero rs) (IEbnf RepeatZero rs :: nth 0 rs []))) as [|n ns]; [destruct (nth 0 rs []); constructor|]. cbn [variables_of is_guard tl] in H |- *. inversion H. assumption.
    Qed.
    Lemma shown_ends :
      (forall after x t v, shows after x t v -> u x -> ends_at v (tokens t)) /\
      (forall after xs ns ts fs, fields after xs ns ts fs -> Forall u xs -> fields_end fs (tokens_of xs ts)) /\
      (forall after k rs t p vs, elements after k rs t p vs -> u (IEbnf k rs) -> vs = [] \/ exists vs' v, vs = vs' ++ [v] /\ ends_at v (tokens t)).
    Proof.
      apply (shows_all rules rid var_names L P matched zero position
        (fun after x t v => u x -> ends_at v (tokens t))
        (fun after xs ns ts fs => Forall u xs -> fields_end fs (tokens_of xs ts))
        (fun after k rs t p vs => u (IEbnf k rs) -> vs = [] \/ exists vs' v, vs = vs' ++ [v] /\ ends_at v (tokens t))).
      - intros after l U _. exists [], l. auto.
      - intros after x n r ts fs R E F IH U. destruct (gl_rules _ _ _ _ _ _ _ GL _ _ U E) as (I & _ & UR). rewrite (tokens_node _ _ _ I). apply object_ends; [apply rule_with_own, expands_own; assumption|rewrite object_variables by assumption; symmetry; eapply fields_names; exact F| |apply IH; exact UR].
        rewrite (fields_names _ _ _ _ _ F). apply DV; assumption.
      - intros after k rs t p vs EL IH U N. destruct (IH U) as [->|(vs' & v & -> & V)]; [exfalso; apply N; constructor|]. cbn [AstGenModel.node_final]. rewrite map_app. cbn [map]. rewrite last_last. apply V. intros X. apply N. constructor. exact X.
      - intros after _. left. auto.
      - intros after p g xs n ns t ts fs F IH UX. inversion UX; subst. rewrite tokens_cons. cbn [is_guard app]. apply IH. assumption.
      - intros after x xs n ns t ts v fs G S IH1 F IH2 UX. inversion UX; subst. rewrite tokens_cons, G. right. destruct IH2 as [[-> E]|(fs' & m & v' & -> & V)]; [assumption| |].
        + exists [], n, v. split; [reflexivity|]. rewrite E, app_nil_r. apply IH1. assumption.
        + exists ((n, v) :: fs'), m, v'. split; [reflexivity|]. apply ends_app. exact V.
      - intros after n rs U. left. reflexivity.
      - intros after n rs ts fs F IH U. right. exists []. eexists. split; [reflexivity|]. assert (E : expands rules (IEbnf Repeat rs) (nth 0 rs [])) by (apply expands_once; auto). destruct (gl_rules _ _ _ _ _ _ _ GL _ _ U E) as (I & _ & UR). destruct (element_variables Repeat rs U (or_introl eq_refl)) as [EV EO].
        rewrite (tokens_node _ _ _ I). apply object_ends; [apply rule_with_own; exact EO|rewrite EV; symmetry; eapply fields_names; exact F| |apply IH; exact UR]. rewrite (fields_names _ _ _ _ _ F). apply element_distinct; auto.
      - intros after k n rs t ts p vs fs EL IH1 F IH2 U. pose proof (elements_kind _ _ _ _ _ _ EL) as K. assert (E : expands rules (IEbnf k rs) (IEbnf k rs :: nth 0 rs [])) by (apply expands_more; auto). destruct (gl_rules _ _ _ _ _ _ _ GL _ _ U E) as (I & _ & UR). inversion UR as [|? ? _ UC]; subst. destruct (element_variables k rs U K) as [EV EO].
        right. exists vs. eexists. split; [reflexivity|]. rewrite (tokens_node _ _ _ I). cbn [r_items]. rewrite tokens_cons. apply ends_app. apply object_ends; [apply rule_with_own; exact EO|rewrite EV; symmetry; eapply fields_names; exact F| |apply IH2; exact UC]. rewrite (fields_names _ _ _ _ _ F). apply element_distinct; auto.
    Qed.

    (** * Lexemes *)
    Local Notation reads := (reads L matched renamed weak ignorable).
    Lemma reads_app' a b v w : reads a v -> reads b w -> reads (a ++ b) (v ++ w).
    Proof. intros A B. induction A; cbn [app]; [exact B| | |]; constructor; auto. Qed.
    Lemma tokens_read :
      (forall x t w rest, parses x t w rest -> u x -> is_guard x = false -> reads (map Some (tokens t)) w) /\
      (forall xs ts w rest, parses_all xs ts w rest -> Forall u xs -> reads (map Some (tokens_of xs ts)) w).
    Proof.
      apply (parses_both rules rid ident L matched renamed weak ignorable (fun x t w rest => u x -> is_guard x = false -> reads (map Some (tokens t)) w) (fun xs ts w rest => Forall u xs -> reads (map Some (tokens_of xs ts)) w)).
      - intros l rest U _. cbn. repeat constructor.
      - intros l s rest W U _. cbn. apply reads_weak; [exact W|constructor].
      - intros x r ts w rest E _ IH U _. destruct (gl_rules _ _ _ _ _ _ _ GL _ _ U E) as (I & _ & UR). rewrite (tokens_node _ _ _ I). apply IH. exact UR.
      - intros p g ts w rest _ _ _ G. discriminate G.
      - intros rest _. constructor.
      - intros xs ts l w rest I _ IH UX. apply reads_ignored; auto.
      - intros x xs t ts w1 w2 rest PX IH1 _ IH2 UX. inversion UX; subst. rewrite tokens_cons, map_app. destruct (is_guard x) eqn:G; [|apply reads_app'; auto]. destruct x; try discriminate G. inversion PX; subst; [match goal with H : expands _ (IGuard _ _) _ |- _ => inversion H end|]. cbn [app map]. auto.
    Qed.
  End Run.

  (** * Classes *)
  Section Classes.
    Context (rules : Z -> list (list item)) (u : item -> Prop) (terminals : Z) (GL : good_language rules u all rid given symbols terminals).
    Local Notation variables := (variables terminal_name nonterminal_name all given).
    Local Notation positions := (positions terminal_name nonterminal_name all given).
    Local Notation add_all := (fold_left add_variable).
    Lemma fold_concat {A B} (f : A -> B -> A) (g : rule -> list B) l : forall a, fold_left (fun a r => fold_left f (g r) a) l a = fold_left f (flat_map g l) a.
    Proof. induction l as [|r l IH]; intros a; [reflexivity|]. cbn [fold_left flat_map]. rewrite fold_left_app. apply IH. Qed.
    Lemma variables_flat x : variables x = add_all (flat_map fields_of (own_rules x)) [].
    Proof. unfold AstGenModel.variables. apply fold_concat. Qed.
    Lemma add_all_spec ps : forall vars, NoDup (map fst vars) -> let out := add_all ps vars in
      NoDup (map fst out) /\ incl vars out /\ (forall p, In p ps -> In (variable p) (map fst out)) /\ forall v i, In (v, i) out -> In (v, i) vars \/ exists p, In p ps /\ v = variable p /\ i = p_item p.
    Proof.
      induction ps as [|p ps IH]; intros vars ND; cbn [fold_left]; [split; [exact ND|]; split; [intros y Y; exact Y|]; split; [intros p []|auto]|].
      assert (ND' : NoDup (map fst (add_variable vars p))). { unfold add_variable. destruct (used (variable p) (map fst vars)) eqn:E; [exact ND|]. rewrite map_app. cbn [map fst]. apply NoDup_Add with (a := variable p) (l := map fst vars ++ []); [apply (Add_app (variable p) (map fst vars) [])|].
        rewrite app_nil_r. split; [exact ND|]. intros X. apply used_in in X. congruence. }
      assert (IN : In (variable p) (map fst (add_variable vars p))). { unfold add_variable. destruct (used (variable p) (map fst vars)) eqn:E; [apply used_in, E|]. rewrite map_app. apply in_app_iff. right. left. reflexivity. }
      destruct (IH _ ND') as (A & B & C & D). split; [exact A|]. split; [|split].
      - intros y Y. apply B. unfold add_variable. destruct (used (variable p) (map fst vars)); [exact Y|apply in_app_iff; auto].
      - intros q [<-|Q]; [|auto]. apply in_map_iff in IN. destruct IN as (y & E & Y). apply in_map_iff. exists y. auto.
      - intros v i I. destruct (D v i I) as [I'|(q & Q & E)]; [|right; exists q; split; [right; exact Q|exact E]]. unfold add_variable in I'. destruct (used (variable p) (map fst vars)); [auto|]. apply in_app_iff in I'. destruct I' as [I'|[I'|[]]]; [auto|]. injection I' as <- <-. right. exists p. split; [left; reflexivity|auto].
    Qed.
    Lemma variables_spec x : NoDup (map fst (variables x)) /\ (forall r p, In r (own_rules x) -> In p (fields_of r) -> In (variable p) (map fst (variables x))) /\
      forall v i, In (v, i) (variables x) -> exists r p, In r (own_rules x) /\ In p (fields_of r) /\ v = variable p /\ i = p_item p.
    Proof.
      rewrite variables_flat. destruct (add_all_spec (flat_map fields_of (own_rules x)) [] (NoDup_nil _)) as (A & _ & C & D). split; [exact A|]. split.
      - intros r p R Q. apply C. apply in_flat_map. eauto.
      - intros v i I. destruct (D v i I) as [[]|(p & Q & E & F)]. apply in_flat_map in Q. destruct Q as (r & R & Q). exists r, p. auto.
    Qed.
    Lemma class_for_some x : u x -> is_guard x = false -> class_for x = Some (mkClass (variables x) (positions x) (map ctor_of (filter (makes x) (own_rules x)))).
    Proof. intros U G. unfold AstGenModel.class_for. rewrite ctors_from_some; [reflexivity|]. intros r R. apply (ctor_defined terminals rules u GL x r U G R). Qed.

    (** The items of the variables of a rule *)
    Lemma fields_items x r : u x -> is_guard x = false -> In r (own_rules x) -> map p_item (fields_of r) = without_guards (match x with IEbnf Repeat rs | IEbnf RepeatZero rs => match r_items r with [] => [] | _ => nth 0 rs [] end | _ => r_items r end).
    Proof.
      intros U G R. destruct (own_expands terminals rules u GL x r U G R) as (N & IA & E). assert (LG := gl_given _ _ _ _ _ _ _ GL _ IA). unfold AstGenModel.fields_of. destruct (repeats x) eqn:RX.
      - assert (C : r_items r = [] \/ (r_items r = match x with IEbnf _ rs => nth 0 rs [] | _ => [] end /\ hd_error (r_items r) <> Some x) \/ r_items r = x :: match x with IEbnf _ rs => nth 0 rs [] | _ => [] end).
        { destruct x as [| | | | | |[] rs]; try discriminate RX; [destruct (repeat_rules rules _ _ E) as [X|X]|destruct (zero_rules rules _ _ E) as [X|X]]; auto.
          right. left. split; [exact X|]. rewrite X. intros H. apply (not_in_content Repeat rs). destruct (nth 0 rs []); [discriminate H|]. injection H as ->. left. reflexivity. }
        destruct C as [C|[[C H]|C]].
        + rewrite C. assert (PE : parts_of r = []) by (pose proof (parts_of_shape r LG) as S; rewrite C in S; tauto). rewrite PE. destruct x as [| | | | | |[] rs]; try discriminate RX; reflexivity.
        + rewrite parts_plain; [|exact LG|rewrite N; intros _; exact H]. rewrite kept_plain by (apply part_names_length; exact LG). rewrite C. destruct x as [| | | | | |[] rs]; try discriminate RX; destruct (nth 0 rs []); reflexivity.
        + destruct r as [y l]. cbn in C, N. subst y l. destruct (parts_list x (match x with IEbnf _ rs => nth 0 rs [] | _ => [] end) RX LG) as (n & ns & E1 & LN & E2). rewrite E2. assert (KF : kept (mkPart x n true) = false) by (unfold kept; apply andb_false_r). cbn [filter]. rewrite KF, kept_plain by exact LN. destruct x as [| | | | | |[] rs]; try discriminate RX; reflexivity.
      - rewrite parts_plain; [|exact LG|rewrite N, RX; discriminate]. rewrite kept_plain by (apply part_names_length; exact LG). destruct x as [| | | | | |[] rs]; try discriminate RX; reflexivity.
    Qed.
    Definition counts r : bool := match fields_of r with [] => true | _ => false end.
    Lemma count_le {A} (f : A -> bool) l : NoDup l -> (forall a b, In a l -> In b l -> f a = true -> f b = true -> a = b) -> (length (filter f l) <= 1)%nat.
    Proof.
      intros ND U. pose proof (NoDup_filter f ND) as NF. assert (U' : forall a b, In a (filter f l) -> In b (filter f l) -> a = b) by (intros a b AI BI; apply filter_In in AI; apply filter_In in BI; apply U; tauto).
      destruct (filter f l) as [|a [|b k]]; cbn; try lia. exfalso. inversion NF as [|? ? X _]; subst. apply X. left. apply U'; cbn; auto.
    Qed.
    Lemma map_nil {A B} (f : A -> B) l : map f l = [] <-> l = [].
    Proof. destruct l; cbn; split; congruence. Qed.
    Lemma positions_one x : u x -> is_guard x = false -> (forall k rs, x = IEbnf k rs -> repeats x = true -> without_guards (nth 0 rs []) <> []) -> (positions x <= 1)%nat.
    Proof.
      intros U G NC. unfold AstGenModel.positions. apply count_le; [apply NoDup_filter, (gl_distinct _ _ _ _ _ _ _ GL)|]. intros a b A B CA CB.
      assert (X : forall r, In r (own_rules x) -> (match fields_of r with [] => true | _ => false end) = true -> map p_item (fields_of r) = []) by (intros r R C; destruct (fields_of r); [reflexivity|discriminate C]).
      pose proof (X a A CA) as XA. pose proof (X b B CB) as XB. rewrite (fields_items x) in XA, XB by assumption. destruct (own_expands terminals rules u GL x a U G A) as (NA & _ & EA). destruct (own_expands terminals rules u GL x b U G B) as (NB & _ & EB).
      destruct a as [ya la], b as [yb lb]. cbn in NA, NB, EA, EB, XA, XB. subst ya yb. f_equal. destruct (repeats x) eqn:RX.
      - destruct x as [| | | | | |[] rs]; try discriminate RX; specialize (NC _ rs eq_refl eq_refl); destruct la, lb; try reflexivity; try (exfalso; apply NC; assumption).
      - apply (gl_apart _ _ _ _ _ _ _ GL x); auto. destruct x as [| | | | | |[] rs]; try discriminate RX; congruence.
    Qed.
    Lemma makes_apart x r r' : u x -> is_guard x = false -> In r (own_rules x) -> In r' (own_rules x) -> makes x r = true -> makes x r' = true -> map p_item (fields_of r) = map p_item (fields_of r') -> r = r'.
    Proof.
      intros U G R R' M M' E. destruct (repeats x) eqn:RX.
      - destruct x as [| | | | | |k rs]; try discriminate RX. assert (K : k = Repeat \/ k = RepeatZero) by (destruct k; try discriminate RX; auto). rewrite (makes_element terminals rules u GL k rs r U K R M), (makes_element terminals rules u GL k rs r' U K R' M'). reflexivity.
      - rewrite !(fields_items x) in E by assumption. destruct (own_expands terminals rules u GL x r U G R) as (N & _ & EX). destruct (own_expands terminals rules u GL x r' U G R') as (N' & _ & EX'). destruct r as [y l], r' as [y' l']. cbn in N, N', EX, EX', E. subst y y'. f_equal. apply (gl_apart _ _ _ _ _ _ _ GL x); auto. destruct x as [| | | | | |[] rs]; try discriminate RX; exact E.
    Qed.
    Lemma nth_map_inj {A B} (f : A -> B) l : NoDup l -> (forall a b, In a l -> In b l -> f a = f b -> a = b) -> forall n m x y, nth_error (map f l) n = Some x -> nth_error (map f l) m = Some y -> x = y -> n = m.
    Proof.
      intros ND IJ n m x y N M E. rewrite nth_error_map in N, M. destruct (nth_error l n) as [a|] eqn:EA; [|discriminate N]. destruct (nth_error l m) as [b|] eqn:EB; [|discriminate M]. cbn in N, M. injection N as <-. injection M as <-.
      assert (AB : a = b) by (apply IJ; [eapply nth_error_In; eassumption|eapply nth_error_In; eassumption|exact E]). subst b. apply (proj1 (NoDup_nth_error l) ND); [apply nth_error_Some; congruence|congruence].
    Qed.
    Lemma class_valid x name : u x -> is_guard x = false ->
      (forall k rs, x = IEbnf k rs -> repeats x = true -> without_guards (nth 0 rs []) <> []) ->
      (forall r, In r (own_rules x) -> ~ In name (map variable (fields_of r)) /\ NoDup (map variable (fields_of r))) ->
      (forall r r' p p', In r (own_rules x) -> In r' (own_rules x) -> In p (fields_of r) -> In p' (fields_of r') -> variable p = variable p' -> p_item p = p_item p') ->
      exists c, class_for x = Some c /\ valid_class name c.
    Proof.
      intros U G NC NV TY. eexists. split; [apply class_for_some; assumption|]. destruct (variables_spec x) as (V1 & V2 & V3). constructor; cbn [c_variables c_positions c_ctors].
      - exact V1.
      - intros X. apply in_map_iff in X. destruct X as ([v i] & E & X). cbn in E. subst v. destruct (V3 _ _ X) as (r & p & R & Q & E & _). apply (proj1 (NV r R)). apply in_map_iff. exists p. auto.
      - intros v pr g X. destruct (V3 _ _ X) as (r & p & _ & Q & _ & E). unfold AstGenModel.fields_of in Q. apply filter_In in Q. destruct Q as [_ Q]. unfold kept in Q. rewrite <- E in Q. cbn in Q. rewrite ?andb_false_r in Q. discriminate Q.
      - apply positions_one; assumption.
      - intros n m k k' N M E. apply (nth_map_inj (fun r => ct_params (ctor_of r)) (filter (makes x) (own_rules x))) with (x := ct_params k) (y := ct_params k').
        + apply NoDup_filter, NoDup_filter, (gl_distinct _ _ _ _ _ _ _ GL).
        + intros a b A B AB. apply filter_In in A. apply filter_In in B. cbn in AB. apply (makes_apart x); tauto.
        + rewrite nth_error_map in N |- *. destruct (nth_error (filter (makes x) (own_rules x)) n); [|discriminate N]. cbn in N |- *. injection N as <-. reflexivity.
        + rewrite nth_error_map in M |- *. destruct (nth_error (filter (makes x) (own_rules x)) m); [|discriminate M]. cbn in M |- *. injection M as <-. reflexivity.
        + exact E.
      - intros k K. apply in_map_iff in K. destruct K as (r & <- & R). apply filter_In in R. destruct R as [R _]. cbn [AstGenModel.ctor_of ct_inits ct_params]. split; [apply NV; exact R|].
        assert (H : forall p, In p (fields_of r) -> In (variable p, p_item p) (variables x)). { intros p Q. pose proof (V2 r p R Q) as I. apply in_map_iff in I. destruct I as ([v i] & E & I). cbn in E. subst v. destruct (V3 _ _ I) as (r' & p' & R' & Q' & E & ->). rewrite (TY r r' p p') by assumption. exact I. }
        clear -H. induction (fields_of r) as [|p ps IH]; cbn [map]; constructor; [apply H; left; reflexivity|]. apply IH. intros q Q. apply H. right. exact Q.
      - intros k K E. apply in_map_iff in K. destruct K as (r & <- & R). apply filter_In in R. destruct R as [R _]. cbn [AstGenModel.ctor_of ct_params] in E. apply map_nil in E. pose proof (positions_one x U G NC) as LE.
        assert (GE : In r (filter (fun r => match fields_of r with [] => true | _ => false end) (own_rules x))) by (apply filter_In; rewrite E; auto). unfold AstGenModel.positions in LE |- *. destruct (filter _ (own_rules x)) as [|a [|b l]]; cbn in LE |- *; [destruct GE|reflexivity|lia].
    Qed.
    (** The variables that the position functions use *)
    Lemma positioned_kept x r p : u x -> is_guard x = false -> not_nested x -> In r (own_rules x) -> In p (parts_of r) -> positioned x p = kept p.
    Proof.
      intros U G NN R I. destruct (own_expands terminals rules u GL x r U G R) as (N & IA & E). assert (LG := gl_given _ _ _ _ _ _ _ GL _ IA). unfold positioned, kept. destruct (repeats x) eqn:RX.
      - destruct x as [| | | | | |k rs]; try discriminate RX. assert (K : k = Repeat \/ k = RepeatZero) by (destruct k; try discriminate RX; auto).
        assert (PL : forall ns, length ns = length (nth 0 rs []) -> In p (map plain (combine (nth 0 rs []) ns)) -> p_repetition p = false /\ (kind_of (p_item p) =? kind_of (IEbnf k rs)) = false).
        { intros ns LN X. apply in_map_iff in X. destruct X as ([i n] & <- & X). apply in_combine_l in X. cbn [plain p_item p_repetition]. split; [reflexivity|]. destruct (kind_of i =? kind_of (IEbnf k rs)) eqn:EK; [|reflexivity]. destruct (same_kind _ _ _ K EK) as (rs' & ->). exfalso. apply (NN k rs rs' eq_refl K X). }
        assert (C : r_items r = [] \/ (r_items r = nth 0 rs [] /\ hd_error (r_items r) <> Some (IEbnf k rs)) \/ r_items r = IEbnf k rs :: nth 0 rs []).
        { destruct K as [-> | ->]; [destruct (repeat_rules rules _ _ E) as [X|X]|destruct (zero_rules rules _ _ E) as [X|X]]; auto. right. left. split; [exact X|]. rewrite X. intros H. apply (not_in_content Repeat rs). destruct (nth 0 rs []); [discriminate H|]. injection H as ->. left. reflexivity. }
        destruct C as [C|[[C H]|C]].
        + assert (PE : parts_of r = []) by (pose proof (parts_of_shape r LG) as S; rewrite C in S; tauto). rewrite PE in I. destruct I.
        + rewrite parts_plain in I; [|exact LG|rewrite N; intros _; exact H]. rewrite C in I. destruct (PL _ (eq_trans (part_names_length r LG) (f_equal (@length _) C)) I) as [-> ->]. reflexivity.
        + destruct r as [y l]. cbn in C, N. subst y l. destruct (parts_list (IEbnf k rs) (nth 0 rs []) RX LG) as (n & ns & E1 & LN & E2). rewrite E2 in I. destruct I as [<-|I]; [cbn [p_item p_repetition]; rewrite !Z.eqb_refl; destruct K as [-> | ->]; reflexivity|]. destruct (PL _ LN I) as [-> ->]. reflexivity.
      - rewrite parts_plain in I; [|exact LG|rewrite N, RX; discriminate]. apply in_map_iff in I. destruct I as ([i n] & <- & _). reflexivity.
    Qed.
    Lemma functions_valid x r : u x -> is_guard x = false -> not_nested x -> In r (own_rules x) -> forall f, f = pos_variable terminal_name nonterminal_name given x r \/ f = final_variable terminal_name nonterminal_name given x r ->
      match f with Some v => In v (map fst (variables x)) | None => (0 < positions x)%nat end.
    Proof.
      intros U G NN R f F. assert (EF : filter (positioned x) (parts_of r) = fields_of r). { unfold AstGenModel.fields_of. apply filter_ext_in. intros p Q. apply (positioned_kept x r); assumption. }
      destruct (variables_spec x) as (_ & V2 & _). assert (H : exists l, f = hd_error (map variable l) /\ (forall p, In p l -> In p (fields_of r)) /\ (l = [] -> fields_of r = [])).
      { destruct F as [-> | ->].
        - exists (fields_of r). unfold pos_variable. rewrite EF, hd_map. auto.
        - exists (rev (fields_of r)). unfold final_variable. rewrite filter_rev', EF, hd_map. split; [reflexivity|]. split; [intros p Q; apply in_rev; exact Q|]. intros E. destruct (fields_of r) as [|p ps]; [reflexivity|]. cbn in E. destruct (rev ps); discriminate E. }
      destruct H as ([|p l] & -> & H1 & H2); cbn [map hd_error].
      - assert (GE : In r (filter (fun r => match fields_of r with [] => true | _ => false end) (own_rules x))) by (apply filter_In; rewrite (H2 eq_refl); auto). unfold AstGenModel.positions. destruct (filter _ (own_rules x)); [destruct GE|cbn; lia].
      - apply (V2 r); [exact R|]. apply H1. left. reflexivity.
    Qed.
  End Classes.
End Language.

(** Proofs about the rules that a language block is compiled to. *)
From Verif Require Import Base OrdMap GrammarModel GrammarSpec GrammarProofs LangModel LangSpec LangItemProofs.
Local Open Scope Z_scope.

Lemma name_eqb_true n k : name_eqb n k = true <-> n = k.
Proof. unfold name_eqb. destruct (list_eq_dec Z.eq_dec n k); split; congruence. Qed.
Lemma name_eqb_refl n : name_eqb n n = true.
Proof. apply name_eqb_true. reflexivity. Qed.
Lemma name_eqb_false n k : name_eqb n k = false <-> n <> k.
Proof. unfold name_eqb. destruct (list_eq_dec Z.eq_dec n k); split; congruence. Qed.
Lemma name_eqb_sym n k : name_eqb n k = name_eqb k n.
Proof. unfold name_eqb. destruct (list_eq_dec Z.eq_dec n k), (list_eq_dec Z.eq_dec k n); congruence. Qed.

Lemma nonterminals_parse l : nonterminals (parse_language l) = map parse_def (nonterminals l).
Proof.
  unfold nonterminals, parse_language. induction l as [|u l IH]; [reflexivity|]. cbn [map flat_map]. rewrite map_app, IH. f_equal. destruct u; reflexivity.
Qed.

(** ** Productions in force *)
Lemma live_productions_none n defs : ~ In n (map nd_name defs) -> live_productions n defs = [].
Proof.
  induction defs as [|d defs IH]; intros H; [reflexivity|]. cbn [live_productions map] in *. destruct (name_eqb (nd_name d) n) eqn:E.
  - apply name_eqb_true in E. exfalso. apply H. left. exact E.
  - apply IH. intros K. apply H. right. exact K.
Qed.
Lemma live_productions_snoc n defs d : live_productions n (defs ++ [d]) =
  (if name_eqb (nd_name d) n then (if match nd_kind d with Replace => true | _ => false end then [] else live_productions n defs) ++ nd_productions d else live_productions n defs).
Proof.
  induction defs as [|e defs IH]; cbn [app live_productions].
  - cbn [existsb negb]. rewrite andb_true_r. destruct (name_eqb (nd_name d) n); rewrite ?app_nil_r; [|reflexivity]. destruct (nd_kind d); reflexivity.
  - rewrite IH, existsb_app. cbn [existsb]. rewrite orb_false_r. unfold replaces_nt at 2. destruct (name_eqb (nd_name d) n); cbn [andb].
    + destruct (nd_kind d); rewrite ?orb_false_r, ?orb_true_r; cbn [negb andb]; rewrite ?andb_false_r, ?app_assoc; reflexivity.
    + rewrite orb_false_r. reflexivity.
Qed.
Lemma live_productions_in n p defs : In p (live_productions n defs) -> exists d, In d defs /\ nd_name d = n /\ In p (nd_productions d).
Proof.
  induction defs as [|d defs IH]; cbn [live_productions]; [intros []|]. intros H. apply in_app_or in H. destruct H as [H|H].
  - destruct (name_eqb (nd_name d) n) eqn:E; [|destruct H]. destruct (existsb (replaces_nt n) defs); [destruct H|]. apply name_eqb_true in E. exists d. repeat split; [left; reflexivity|exact E|exact H].
  - destruct (IH H) as (e & H1 & H2 & H3). exists e. repeat split; [right; exact H1|exact H2|exact H3].
Qed.

(** ** The state of the grammar *)
Section Invariant.
  Context (tm : name -> Z).
  Definition items_for (g : ids) (p : list simple) : list item := tr_all (nt_of g) tm p.

  (** [prods] are the productions of each name, [mentioned] the names mentioned. *)
  Record gram_inv (prods : name -> list (list simple)) (mentioned : name -> Prop) (g : gram_state) : Prop := {
    gm_ids : ids_ok (g_ids g);
    gm_sorted : msorted Z.ltb (g_rules g);
    gm_rules : forall n, known (g_ids g) n -> rules_of (g_rules g) (nt_of (g_ids g) n) = map (items_for (g_ids g)) (prods n);
    gm_only : forall id, rules_of (g_rules g) id <> [] -> exists n, known (g_ids g) n /\ id = nt_of (g_ids g) n;
    gm_nts : forall n p k, In p (prods n) -> In k (nts_all p) -> known (g_ids g) k;
    gm_unknown : forall n, ~ known (g_ids g) n -> prods n = [];
    gm_known : forall n, known (g_ids g) n <-> mentioned n }.

  Lemma rules_of_set m id l k : msorted Z.ltb m -> rules_of (mset Z.ltb id l m) k = if k =? id then l else rules_of m k.
  Proof.
    intros S. unfold rules_of. destruct (k =? id) eqn:E.
    - apply Z.eqb_eq in E. subst k. rewrite (mfind_mset_same _ Zltb_strict _ S). reflexivity.
    - apply Z.eqb_neq in E. rewrite (mfind_mset_other _ Zltb_strict _ S) by exact E. reflexivity.
  Qed.

  (** New identifiers do not change the rules. *)
  Lemma gram_inv_extends prods mentioned g names i guards m : gram_inv prods mentioned g -> extends names (g_ids g) i ->
    gram_inv prods (fun n => mentioned n \/ In n names) (mkGram i (g_rules g) guards m).
  Proof.
    intros I E. pose proof (gm_ids _ _ _ I) as O. constructor; cbn [g_ids g_rules].
    - apply E.
    - apply I.
    - intros n K. destruct (known_dec (g_ids g) n O) as [Kn|Kn].
      + rewrite (nt_of_grows (g_ids g) i n O (e_ok _ _ _ E) (e_grows _ _ _ E) Kn), (gm_rules _ _ _ I n Kn). apply map_ext_in. intros p Hp. unfold items_for. apply tr_all_ext; [|reflexivity].
        intros k Hk. symmetry. apply nt_of_grows; [exact O|apply E|apply E|eapply (gm_nts _ _ _ I); eassumption].
      + rewrite (gm_unknown _ _ _ I n Kn). cbn [map]. destruct (rules_of (g_rules g) (nt_of i n)) as [|r l] eqn:R; [reflexivity|]. exfalso.
        destruct (gm_only _ _ _ I (nt_of i n)) as (k & Kk & Ek); [rewrite R; discriminate|]. rewrite <- (nt_of_grows (g_ids g) i k O (e_ok _ _ _ E) (e_grows _ _ _ E) Kk) in Ek.
        apply (nt_of_inj i n k (e_ok _ _ _ E) K) in Ek. subst k. exact (Kn Kk).
    - intros id H. destruct (gm_only _ _ _ I id H) as (k & Kk & ->). exists k. split; [eapply grows_known; [apply E|exact Kk]|]. symmetry. apply nt_of_grows; [exact O|apply E|apply E|exact Kk].
    - intros n p k Hp Hk. eapply grows_known; [apply E|]. eapply (gm_nts _ _ _ I); eassumption.
    - intros n H. apply (gm_unknown _ _ _ I). intros K. apply H. eapply grows_known; [apply E|exact K].
    - intros n. split.
      + intros K. apply (e_only _ _ _ E) in K. destruct K as [K|K]; [left; apply (gm_known _ _ _ I), K|right; exact K].
      + intros [K|K]; [eapply grows_known; [apply E|]; apply (gm_known _ _ _ I), K|apply E, K].
  Qed.
  (** Setting the rules of a known nonterminal *)
  Definition put (n : name) (l : list (list simple)) (prods : name -> list (list simple)) (k : name) : list (list simple) := if name_eqb n k then l else prods k.
  Lemma gram_inv_set prods mentioned i rules guards m n l :
    gram_inv prods mentioned (mkGram i rules guards m) -> known i n -> (forall p k, In p l -> In k (nts_all p) -> known i k) ->
    gram_inv (put n l prods) mentioned (mkGram i (mset Z.ltb (nt_of i n) (map (items_for i) l) rules) guards m).
  Proof.
    intros I K L. pose proof (gm_ids _ _ _ I) as O. pose proof (gm_sorted _ _ _ I) as S. cbn [g_ids g_rules] in O, S. constructor; cbn [g_ids g_rules].
    - exact O.
    - apply (mset_sorted _ Zltb_strict _ S).
    - intros k Kk. rewrite (rules_of_set _ _ _ _ S). unfold put. destruct (nt_of i k =? nt_of i n) eqn:E.
      + apply Z.eqb_eq in E. apply (nt_of_inj i k n O Kk) in E. subst k. rewrite name_eqb_refl. reflexivity.
      + apply Z.eqb_neq in E. destruct (name_eqb n k) eqn:EN; [apply name_eqb_true in EN; congruence|]. apply (gm_rules _ _ _ I k Kk).
    - intros id H. rewrite (rules_of_set _ _ _ _ S) in H. destruct (id =? nt_of i n) eqn:E; [apply Z.eqb_eq in E; exists n; auto|]. apply (gm_only _ _ _ I id H).
    - intros k p q Hp Hq. unfold put in Hp. destruct (name_eqb n k); [eapply L; eassumption|]. eapply (gm_nts _ _ _ I); eassumption.
    - intros k H. unfold put. destruct (name_eqb n k) eqn:EN; [apply name_eqb_true in EN; subst k; contradiction|]. apply (gm_unknown _ _ _ I k H).
    - apply I.
  Qed.
  Lemma gram_inv_ext prods prods' (mentioned mentioned' : name -> Prop) g : (forall n, prods n = prods' n) -> (forall n, mentioned n <-> mentioned' n) -> gram_inv prods mentioned g -> gram_inv prods' mentioned' g.
  Proof.
    intros E M I. constructor; try apply I.
    - intros n K. rewrite <- E. apply I, K.
    - intros n p k H. rewrite <- E in H. apply (gm_nts _ _ _ I n p k H).
    - intros n H. rewrite <- E. apply I, H.
    - intros n. rewrite <- M. apply I.
  Qed.

  (** ** One production *)
  Lemma define_production_spec prods mentioned g n p : gram_inv prods mentioned g -> known (g_ids g) n ->
    exists g', define_production tm (nt_of (g_ids g) n) g (map ebnf_of p) = Some g' /\ g_messages g' = g_messages g /\ grows (g_ids g) (g_ids g') /\
    gram_inv (put n (prods n ++ [p]) prods) (fun k => mentioned k \/ In k (nts_all p)) g'.
  Proof.
    intros I K. pose proof (gm_ids _ _ _ I) as O. unfold define_production. destruct (compiles_production tm p (g_ids g) (g_guards g) O) as (i & guards & E & X). rewrite E.
    set (r := tr_all (nt_of i) tm p). set (ru := mkRule (INonterm (nt_of (g_ids g) n)) r).
    destruct (identifier_for_rule_spec i ru (e_ok _ _ _ X)) as [O2 NE]. destruct (identifier_for_rule ru i) as [i2 id2]. cbn [fst] in O2, NE. eexists. split; [reflexivity|]. cbn [g_messages g_ids]. split; [reflexivity|].
    assert (X2 : extends (nts_all p) (g_ids g) i2).
    { constructor; [exact O2| | |].
      - intros k id H. rewrite NE. apply X, H.
      - intros k H. unfold known. rewrite NE. apply X, H.
      - intros k H. unfold known in H. rewrite NE in H. apply X, H. }
    split; [apply X2|].
    assert (NT : nt_of i2 = nt_of i) by (unfold nt_of; rewrite NE; reflexivity).
    pose proof (gram_inv_extends prods mentioned g (nts_all p) i2 guards (g_messages g) I X2) as I2.
    assert (K2 : known i2 n) by (eapply grows_known; [apply X2|exact K]).
    pose proof (gm_rules _ _ _ I2 n K2) as R. cbn [g_ids g_rules] in R.
    assert (EN : nt_of (g_ids g) n = nt_of i2 n) by (symmetry; apply nt_of_grows; [exact O|exact O2|apply X2|exact K]).
    rewrite EN. rewrite R. replace (map (items_for i2) (prods n) ++ [r]) with (map (items_for i2) (prods n ++ [p])).
    - apply gram_inv_set; [exact I2|exact K2|]. intros q k Hq Hk. apply in_app_or in Hq. destruct Hq as [Hq|[<-|[]]]; [eapply (gm_nts _ _ _ I2); eassumption|apply X2, Hk].
    - rewrite map_app. cbn [map]. unfold items_for at 2. rewrite NT. reflexivity.
  Qed.
  Lemma define_productions_spec n ps : forall prods mentioned g, gram_inv prods mentioned g -> known (g_ids g) n ->
    exists g', each (define_production tm (nt_of (g_ids g) n)) (map (map ebnf_of) ps) g = Some g' /\ g_messages g' = g_messages g /\ grows (g_ids g) (g_ids g') /\
    gram_inv (put n (prods n ++ ps) prods) (fun k => mentioned k \/ In k (flat_map nts_all ps)) g'.
  Proof.
    induction ps as [|p ps IH]; intros prods mentioned g I K; cbn [map each].
    - exists g. split; [reflexivity|]. split; [reflexivity|]. split; [apply grows_refl|]. eapply gram_inv_ext; [| |exact I].
      + intros k. unfold put. destruct (name_eqb n k) eqn:E; [apply name_eqb_true in E; subst k; rewrite app_nil_r; reflexivity|reflexivity].
      + intros k. cbn [flat_map In]. tauto.
    - destruct (define_production_spec prods mentioned g n p I K) as (g1 & E1 & M1 & G1 & I1). rewrite E1.
      assert (K1 : known (g_ids g1) n) by (eapply grows_known; eassumption).
      destruct (IH _ _ g1 I1 K1) as (g2 & E2 & M2 & G2 & I2). rewrite (nt_of_grows (g_ids g) (g_ids g1) n (gm_ids _ _ _ I) (gm_ids _ _ _ I1) G1 K) in E2.
      exists g2. split; [exact E2|]. split; [congruence|]. split; [eapply grows_trans; eassumption|]. eapply gram_inv_ext; [| |exact I2].
      + intros k. unfold put. rewrite name_eqb_refl, <- app_assoc. destruct (name_eqb n k); reflexivity.
      + intros k. cbn [flat_map]. rewrite in_app_iff. tauto.
  Qed.

  (** ** One nonterminal *)
  (** The message about a definition, when [prods] were the productions before *)
  Definition def_messages (prods : name -> list (list simple)) (d : nt_def simple) : list message :=
    match nd_kind d, prods (nd_name d) with Assignment, _ :: _ => [DuplicateNonterminal (nd_name d)] | _, _ => [] end.
  Definition with_def (prods : name -> list (list simple)) (d : nt_def simple) : name -> list (list simple) :=
    put (nd_name d) ((match nd_kind d with Replace => [] | _ => prods (nd_name d) end) ++ nd_productions d) prods.
  Lemma define_nonterminal_spec prods mentioned g d : gram_inv prods mentioned g ->
    exists g', define_nonterminal tm g (parse_def d) = Some g' /\ g_messages g' = g_messages g ++ def_messages prods d /\ grows (g_ids g) (g_ids g') /\
    gram_inv (with_def prods d) (fun k => mentioned k \/ mentions d k) g'.
  Proof.
    intros I. unfold define_nonterminal. cbn [parse_def nd_name nd_kind nd_productions]. set (n := nd_name d).
    destruct (id_for_nonterminal_spec (g_ids g) n (gm_ids _ _ _ I)) as (O & G & IN & ONLY). destruct (id_for_nonterminal n (g_ids g)) as [i id]. cbn [fst snd] in *.
    assert (X : extends [n] (g_ids g) i).
    { constructor; [exact O|exact G| |].
      - intros k [<-|[]]. exists id. exact IN.
      - intros k H. destruct (ONLY k H) as [->|H2]; [right; left; reflexivity|left; exact H2]. }
    assert (K : known i n) by (exists id; exact IN). assert (EI : id = nt_of i n) by (symmetry; apply nt_of_in; assumption).
    pose proof (fun m => gram_inv_extends prods mentioned g [n] i (g_guards g) m I X) as I1.
    assert (R : rules_of (g_rules g) id = map (items_for i) (prods n)) by (rewrite EI; apply (gm_rules _ _ _ (I1 []) n K)).
    cbn [g_rules]. rewrite R.
    assert (STEP : forall g1 l, g_ids g1 = i -> gram_inv (put n l prods) (fun k => mentioned k \/ In k [n]) g1 ->
      exists g', each (define_production tm (nt_of i n)) (map (map ebnf_of) (nd_productions d)) g1 = Some g' /\ g_messages g' = g_messages g1 /\ grows (g_ids g) (g_ids g') /\
      gram_inv (put n (l ++ nd_productions d) prods) (fun k => mentioned k \/ mentions d k) g').
    { intros g1 l Ei Ig. assert (K1 : known (g_ids g1) n) by (rewrite Ei; exact K). destruct (define_productions_spec n (nd_productions d) _ _ g1 Ig K1) as (g2 & E2 & M2 & G2 & I2). rewrite Ei in E2, G2.
      exists g2. split; [exact E2|]. split; [exact M2|]. split; [eapply grows_trans; [exact G|exact G2]|]. eapply gram_inv_ext; [| |exact I2].
      - intros k. unfold put. rewrite name_eqb_refl. destruct (name_eqb n k); reflexivity.
      - intros k. unfold mentions. fold n. cbn [In]. split; [intros [[H|[H|[]]]|H]; auto|intros [H|[H|H]]; auto]. }
    assert (SAME : forall m, gram_inv (put n (prods n) prods) (fun k => mentioned k \/ In k [n]) (mkGram i (g_rules g) (g_guards g) m)).
    { intros m. eapply gram_inv_ext; [| |apply (I1 m)].
      - intros k. unfold put. destruct (name_eqb n k) eqn:E; [apply name_eqb_true in E; subst k; reflexivity|reflexivity].
      - reflexivity. }
    unfold with_def, def_messages. fold n. destruct (nd_kind d) eqn:KD.
    - destruct (prods n) as [|p ps] eqn:PN; cbn [map].
      + destruct (STEP (mkGram i (g_rules g) (g_guards g) (g_messages g)) [] eq_refl (SAME (g_messages g))) as (g' & E & M & GG & I2). exists g'. rewrite EI. split; [exact E|]. split; [rewrite app_nil_r; exact M|]. split; [exact GG|exact I2].
      + destruct (STEP (mkGram i (g_rules g) (g_guards g) (g_messages g ++ [DuplicateNonterminal n])) (p :: ps) eq_refl (SAME (g_messages g ++ [DuplicateNonterminal n]))) as (g' & E & M & GG & I2). exists g'. rewrite EI. split; [exact E|]. split; [exact M|]. split; [exact GG|exact I2].
    - destruct (STEP (mkGram i (g_rules g) (g_guards g) (g_messages g)) (prods n) eq_refl (SAME (g_messages g))) as (g' & E & M & GG & I2). exists g'. rewrite EI. split; [exact E|]. split; [rewrite app_nil_r; exact M|]. split; [exact GG|exact I2].
    - destruct (prods n) as [|p ps] eqn:PN; cbn [map].
      + destruct (STEP (mkGram i (g_rules g) (g_guards g) (g_messages g)) [] eq_refl (SAME (g_messages g))) as (g' & E & M & GG & I2). exists g'. rewrite EI. split; [exact E|]. split; [rewrite app_nil_r; exact M|]. split; [exact GG|exact I2].
      + assert (I0 : gram_inv (put n [] prods) (fun k => mentioned k \/ In k [n]) (set_rules (nt_of i n) [] (mkGram i (g_rules g) (g_guards g) (g_messages g)))).
        { unfold set_rules. cbn [g_ids g_rules g_guards g_messages]. apply (gram_inv_set prods _ i (g_rules g) (g_guards g) (g_messages g) n []); [apply I1|exact K|intros q k []]. }
        rewrite EI. destruct (STEP (set_rules (nt_of i n) [] (mkGram i (g_rules g) (g_guards g) (g_messages g))) [] eq_refl I0) as (g' & E & M & GG & I2). exists g'. split; [exact E|]. split; [rewrite app_nil_r; exact M|]. split; [exact GG|exact I2].
  Qed.

  (** ** All of them *)
  Fixpoint defs_messages (before : list (nt_def simple)) (defs : list (nt_def simple)) : list message :=
    match defs with
    | [] => []
    | d :: defs => def_messages (fun n => live_productions n before) d ++ defs_messages (before ++ [d]) defs
    end.
  Lemma live_with_def before d n : live_productions n (before ++ [d]) = with_def (fun n => live_productions n before) d n.
  Proof.
    rewrite live_productions_snoc. unfold with_def, put. destruct (name_eqb (nd_name d) n) eqn:E; [|reflexivity]. apply name_eqb_true in E. subst n. destruct (nd_kind d); reflexivity.
  Qed.
  Lemma define_nonterminals_spec defs : forall before g, gram_inv (fun n => live_productions n before) (mentioned_in before) g ->
    exists g', each (define_nonterminal tm) (map parse_def defs) g = Some g' /\ g_messages g' = g_messages g ++ defs_messages before defs /\
    gram_inv (fun n => live_productions n (before ++ defs)) (mentioned_in (before ++ defs)) g'.
  Proof.
    induction defs as [|d defs IH]; intros before g I; cbn [map each defs_messages].
    - exists g. rewrite !app_nil_r. auto.
    - destruct (define_nonterminal_spec _ _ g d I) as (g1 & E1 & M1 & _ & I1). rewrite E1. destruct (IH (before ++ [d]) g1) as (g2 & E2 & M2 & I2).
      + eapply gram_inv_ext; [| |exact I1].
        * intros n. symmetry. apply live_with_def.
        * intros n. unfold mentioned_in. split.
          -- intros [(e & H1 & H2)|H]; [exists e; split; [apply in_or_app; left; exact H1|exact H2]|exists d; split; [apply in_or_app; right; left; reflexivity|exact H]].
          -- intros (e & H1 & H2). apply in_app_or in H1. destruct H1 as [H1|[<-|[]]]; [left; exists e; auto|right; exact H2].
      + exists g2. split; [exact E2|]. split; [rewrite M2, M1, app_assoc; reflexivity|]. rewrite <- app_assoc in I2. exact I2.
  Qed.
End Invariant.

(** A dictionary that agrees on the terminals mentioned *)
Lemma gram_inv_terms tm tm' prods mentioned g : (forall n p k, In p (prods n) -> In k (tms_all p) -> tm k = tm' k) -> gram_inv tm prods mentioned g -> gram_inv tm' prods mentioned g.
Proof.
  intros T I. constructor; try apply I. intros n K. rewrite (gm_rules _ _ _ _ I n K). apply map_ext_in. intros p Hp. apply tr_all_ext; [reflexivity|]. intros k Hk. eapply T; eassumption.
Qed.
Lemma gram_inv_new tm : gram_inv tm (fun _ => []) (fun _ => False) new_gram.
Proof.
  constructor; cbn [new_gram g_ids g_rules].
  - exists []. constructor.
  - constructor.
  - intros n [id []].
  - intros id H. exfalso. apply H. reflexivity.
  - intros n p k [].
  - reflexivity.
  - intros n. split; [intros [id []]|intros []].
Qed.

(** ** Checks that only add messages *)
Definition with_g_messages m (g : gram_state) := mkGram (g_ids g) (g_rules g) (g_guards g) m.
Lemma gram_inv_messages tm prods mentioned g m : gram_inv tm prods mentioned g -> gram_inv tm prods mentioned (with_g_messages m g).
Proof. intros I. constructor; apply I. Qed.
Definition undefined_names (names : list name) (d : TermDictModel.dict) : list message :=
  flat_map (fun n => if TermDictModel.symbol_for_name n d <? 0 then [UndefinedTerminal n] else []) names.
Lemma check_precedence_spec {X} (l : language X) d : forall g, check_precedence l d g = with_g_messages (g_messages g ++ undefined_names (precedence_names l) d) g.
Proof.
  assert (ONE : forall names g, fold_left (fun g n => if TermDictModel.symbol_for_name n d <? 0 then g_report (UndefinedTerminal n) g else g) names g = with_g_messages (g_messages g ++ undefined_names names d) g).
  { induction names as [|n names IH]; intros g; cbn [fold_left undefined_names flat_map]; [rewrite app_nil_r; destruct g; reflexivity|]. rewrite IH. destruct (_ <? 0); cbn [app]; [|reflexivity].
    unfold with_g_messages, g_report. cbn [g_ids g_rules g_guards g_messages]. rewrite <- app_assoc. reflexivity. }
  unfold check_precedence. induction l as [|u l IH]; intros g; cbn [fold_left precedence_names flat_map]; [unfold undefined_names; cbn [flat_map]; rewrite app_nil_r; destruct g; reflexivity|].
  rewrite IH. destruct u as [ty b|defs|names]; [reflexivity|reflexivity|]. rewrite ONE. unfold with_g_messages. cbn [g_ids g_rules g_guards g_messages]. unfold undefined_names. rewrite flat_map_app, app_assoc. reflexivity.
Qed.
Definition undefined_nonterminal (g : gram_state) (id : Z) : list message :=
  match item_with_identifier id (g_ids g) with
  | INonterm s => match rules_of (g_rules g) id with [] => [UndefinedNonterminal (name_for_nonterminal s (g_ids g))] | _ => [] end
  | _ => []
  end.
Lemma check_nonterminals_spec g : check_nonterminals g = with_g_messages (g_messages g ++ flat_map (undefined_nonterminal g) (map Z.of_nat (seq 0 (length (item_id (g_ids g)))))) g.
Proof.
  unfold check_nonterminals. set (l := map Z.of_nat _). clearbody l.
  assert (H : forall l m, fold_left (fun g id => match item_with_identifier id (g_ids g) with INonterm s => match rules_of (g_rules g) id with [] => g_report (UndefinedNonterminal (name_for_nonterminal s (g_ids g))) g | _ => g end | _ => g end) l (with_g_messages m g)
    = with_g_messages (m ++ flat_map (undefined_nonterminal g) l) g).
  { clear l. induction l as [|id l IH]; intros m; cbn [fold_left flat_map]; [rewrite app_nil_r; reflexivity|]. cbn [with_g_messages g_ids g_rules]. unfold undefined_nonterminal at 1.
    destruct (item_with_identifier id (g_ids g)); try exact (IH m). destruct (rules_of (g_rules g) id); [|exact (IH m)]. unfold g_report. cbn [with_g_messages g_ids g_rules g_guards g_messages]. rewrite app_assoc. exact (IH _). }
  specialize (H l (g_messages g)). replace (with_g_messages (g_messages g) g) with g in H by (destruct g; reflexivity). exact H.
Qed.

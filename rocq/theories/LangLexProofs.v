(** Proofs about the terminals that a language block defines. *)
From Verif Require Import Base OrdMap TextSpec TextModel TextProofs RegexModel LexStageModel TermDictModel TermDictSpec TermDictProofs LangModel LangSpec.
From Verif Require LangGramProofs.
Local Open Scope Z_scope.

Local Notation name_eqb_true := LangGramProofs.name_eqb_true.
Local Notation name_eqb_refl := LangGramProofs.name_eqb_refl.
Local Notation name_eqb_sym := LangGramProofs.name_eqb_sym.
Local Notation name_eqb_false := LangGramProofs.name_eqb_false.

(** ** Texts of definitions *)
Lemma token_denotes x : well_written x -> exists t, token_of x = Some t /\ denotes x t.
Proof.
  intros [[t D] [L _]]. unfold token_of, denotes in *. destruct (lx_kind x).
  - exists t. subst t. split; reflexivity.
  - destruct D as (p & body & q & s & E & R & ->). exists (Literal s). split; [|exists p, body, q, s; auto]. rewrite E. rewrite (dequote_lemma p q body s R); [reflexivity|]. rewrite E in L. cbn [length] in L. rewrite app_length in L. cbn [length] in L. lia.
  - destruct D as (p & body & q & s & E & R & ->). exists (Literal s). split; [|exists p, body, q, s; auto]. rewrite E. rewrite (dequote_lemma p q body s R); [reflexivity|]. rewrite E in L. cbn [length] in L. rewrite app_length in L. cbn [length] in L. lia.
  - destruct D as (p & r & q & E & ->). exists (Regex r). split; [|exists p, r, q; auto]. rewrite E. cbn [without_slashes option_map length]. rewrite app_length. cbn [length].
    replace (S (length r + 1) - 2)%nat with (length r + 0)%nat by lia. rewrite firstn_app_2. cbn [firstn]. rewrite app_nil_r. reflexivity.
Qed.

(** ** Lists of definitions *)
Lemma existsb_name n l : existsb (name_eqb n) l = true <-> In n l.
Proof.
  rewrite existsb_exists. split; [intros (k & H & E); apply name_eqb_true in E; subst k; exact H|intros H; exists n; split; [exact H|apply name_eqb_refl]].
Qed.
Lemma live_snoc n l e : live n (l ++ [e]) = (if name_eqb (df_name e) n then (if lx_replace (df_lexeme e) then [] else live n l) ++ [e] else live n l).
Proof.
  induction l as [|d l IH]; cbn [app live].
  - cbn [existsb negb]. rewrite andb_true_r. destruct (name_eqb (df_name e) n); [|reflexivity]. destruct (lx_replace _); reflexivity.
  - rewrite IH, existsb_app. cbn [existsb]. rewrite orb_false_r. unfold replaces at 2. destruct (name_eqb (df_name e) n); cbn [andb].
    + destruct (lx_replace (df_lexeme e)); rewrite ?orb_false_r, ?orb_true_r; cbn [negb]; rewrite ?andb_false_r; [reflexivity|]. destruct (name_eqb (df_name d) n && _); reflexivity.
    + rewrite orb_false_r. reflexivity.
Qed.
Lemma live_in n l e : In e (live n l) -> In e l /\ df_name e = n.
Proof.
  induction l as [|d l IH]; cbn [live]; [intros []|]. destruct (name_eqb (df_name d) n) eqn:E; cbn [andb].
  - destruct (negb _); [|intros H; destruct (IH H); split; [right|]; assumption]. intros [<-|H]; [split; [left; reflexivity|apply name_eqb_true, E]|destruct (IH H); split; [right|]; assumption].
  - intros H; destruct (IH H); split; [right|]; assumption.
Qed.
Lemma live_exists n l : In n (map df_name l) -> exists e, In e (live n l).
Proof.
  induction l as [|e l IH] using rev_ind; [intros []|]. rewrite map_app, in_app_iff, live_snoc. intros H. destruct (name_eqb (df_name e) n) eqn:E.
  - exists e. apply in_or_app. right. left. reflexivity.
  - destruct H as [H|[H|[]]]; [exact (IH H)|]. exfalso. cbn [map] in H. subst n. rewrite name_eqb_refl in E. discriminate E.
Qed.
Lemma live_none n l : ~ In n (map df_name l) -> live n l = [].
Proof.
  intros H. destruct (live n l) as [|e k] eqn:E; [reflexivity|]. exfalso. apply H. destruct (live_in n l e) as [A B]; [rewrite E; left; reflexivity|]. subst n. apply in_map, A.
Qed.
Lemma in_order_in n l : In n (in_order l) <-> In n l.
Proof.
  induction l as [|k l IH]; [reflexivity|]. cbn [in_order In]. rewrite filter_In, IH. split.
  - intros [H|[H _]]; auto.
  - intros [H|H]; [auto|]. destruct (name_eqb k n) eqn:E; [left; apply name_eqb_true, E|right; auto].
Qed.
Lemma in_order_snoc l n : in_order (l ++ [n]) = if existsb (name_eqb n) l then in_order l else in_order l ++ [n].
Proof.
  induction l as [|k l IH]; [reflexivity|]. cbn [app in_order existsb]. rewrite IH, (name_eqb_sym n k). destruct (name_eqb k n) eqn:E; cbn [orb].
  - destruct (existsb (name_eqb n) l); [reflexivity|]. rewrite filter_app. cbn [filter]. rewrite E. cbn [negb]. rewrite app_nil_r. reflexivity.
  - destruct (existsb (name_eqb n) l); [reflexivity|]. rewrite filter_app. cbn [filter]. rewrite E. reflexivity.
Qed.

(** ** The dictionary *)
Definition numbered (ns : list name) (n : name) (s : Z) : Prop := exists k, nth_error ns k = Some n /\ s = Z.of_nat k.
Record dict_inv (ns : list name) (d : dict) : Prop := {
  di_once : NoDup ns;
  di_max : max_symbol d = Z.of_nat (length ns);
  di_names : msorted name_ltb (name_symbol d);
  di_symbols : msorted Z.ltb (symbol_name d);
  di_in : forall n s, In (n, s) (name_symbol d) <-> numbered ns n s;
  di_back : forall n s, In (s, n) (symbol_name d) <-> numbered ns n s;
  di_log : exists l, after sensible d l /\ forall n s, entry n s l <-> numbered ns n s }.
Lemma numbered_in ns n : In n ns <-> exists s, numbered ns n s.
Proof.
  split; [intros H; apply In_nth_error in H; destruct H as [k H]; exists (Z.of_nat k), k; auto|intros (s & k & H & _); eapply nth_error_In, H].
Qed.
Lemma numbered_symbol ns d n s : dict_inv ns d -> numbered ns n s -> symbol_for_name n d = s.
Proof. intros I H. apply (di_in _ _ I) in H. unfold symbol_for_name. rewrite (proj2 (mfind_in _ name_strict _ (di_names _ _ I) _ _) H). reflexivity. Qed.
Lemma symbol_numbered ns d n : dict_inv ns d -> In n ns -> numbered ns n (symbol_for_name n d).
Proof. intros I H. apply numbered_in in H. destruct H as [s H]. rewrite (numbered_symbol ns d n s I H). exact H. Qed.
Lemma symbol_known ns d n : dict_inv ns d -> In n ns <-> 0 <= symbol_for_name n d.
Proof.
  intros I. split.
  - intros H. destruct (symbol_numbered ns d n I H) as (k & _ & ->). lia.
  - intros H. apply numbered_in. unfold symbol_for_name in H. destruct (mfind name_ltb n (name_symbol d)) as [s|] eqn:F; [|lia]. exists s. apply (di_in _ _ I), (mfind_in _ name_strict _ (di_names _ _ I)), F.
Qed.
Lemma symbol_unknown ns d n : dict_inv ns d -> ~ In n ns -> symbol_for_name n d = -1.
Proof.
  intros I H. unfold symbol_for_name. destruct (mfind name_ltb n (name_symbol d)) as [s|] eqn:F; [|reflexivity]. exfalso. apply H, numbered_in. exists s. apply (di_in _ _ I), (mfind_in _ name_strict _ (di_names _ _ I)), F.
Qed.
Lemma symbol_inj ns d n k : dict_inv ns d -> In n ns -> symbol_for_name n d = symbol_for_name k d -> n = k.
Proof.
  intros I H E. pose proof (symbol_numbered ns d n I H) as (i & Hi & Ei). assert (K : In k ns) by (apply (symbol_known ns d k I); lia). destruct (symbol_numbered ns d k I K) as (j & Hj & Ej). assert (i = j) by lia. subst j. congruence.
Qed.
Lemma numbered_snoc ns n k s : numbered (ns ++ [n]) k s <-> numbered ns k s \/ (k = n /\ s = Z.of_nat (length ns)).
Proof.
  unfold numbered. split.
  - intros (i & H & ->). destruct (Nat.lt_ge_cases i (length ns)) as [L|L].
    + rewrite nth_error_app1 in H by exact L. left. exists i. auto.
    + rewrite nth_error_app2 in H by exact L. destruct (i - length ns)%nat as [|j] eqn:E; [|destruct j; discriminate H]. injection H as ->. right. split; [reflexivity|]. f_equal. lia.
  - intros [(i & H & ->)|[-> ->]].
    + exists i. split; [|reflexivity]. rewrite nth_error_app1; [exact H|]. apply nth_error_Some. congruence.
    + exists (length ns). split; [|reflexivity]. rewrite nth_error_app2 by lia. rewrite Nat.sub_diag. reflexivity.
Qed.
Lemma dict_inv_new : dict_inv [] new_dict.
Proof.
  constructor; try (constructor; fail).
  - intros n s. split; [intros []|]. intros (k & H & _). destruct k; discriminate H.
  - intros n s. split; [intros []|]. intros (k & H & _). destruct k; discriminate H.
  - exists []. split; [constructor|]. intros n s. split; [intros [[]|[]]|]. intros (k & H & _). destruct k; discriminate H.
Qed.
Lemma NoDup_snoc {X} (l : list X) x : NoDup l -> ~ In x l -> NoDup (l ++ [x]).
Proof.
  induction 1 as [|y l Hy N IH]; intros H; cbn [app]; [constructor; [intros []|constructor]|]. constructor.
  - intros K. apply in_app_or in K. destruct K as [K|[K|[]]]; [exact (Hy K)|]. subst x. apply H. left. reflexivity.
  - apply IH. intros K. apply H. right. exact K.
Qed.
Lemma dict_inv_add ns d n : dict_inv ns d -> ~ In n ns -> dict_inv (ns ++ [n]) (fst (add_named n d)) /\ snd (add_named n d) = Z.of_nat (length ns) /\
  (forall k, k <> n -> symbol_for_name k (fst (add_named n d)) = symbol_for_name k d) /\ symbol_for_name n (fst (add_named n d)) = Z.of_nat (length ns).
Proof.
  intros I H. assert (J : dict_inv (ns ++ [n]) (fst (add_named n d))).
  { destruct I as [I1 I2 I3 I4 I5 I6 I7]. constructor; cbn [add_named add_symbol fst max_symbol name_symbol symbol_name].
    - apply NoDup_snoc; assumption.
    - rewrite app_length. cbn [length]. lia.
    - apply (mset_sorted _ name_strict _ I3).
    - apply (mset_sorted _ Zltb_strict _ I4).
    - intros k s. rewrite (mset_in _ name_strict _ I3), numbered_snoc, I5, I2. split.
      + intros [E|[K _]]; [injection E as -> ->; auto|auto].
      + intros [K|[-> ->]]; [right; split; [exact K|]|left; reflexivity]. cbn [fst]. intros ->. apply H, numbered_in. exists s. exact K.
    - intros k s. rewrite (mset_in _ Zltb_strict _ I4), numbered_snoc, I6, I2. split.
      + intros [E|[K _]]; [injection E as -> ->; auto|auto].
      + intros [K|[-> ->]]; [right; split; [exact K|]|left; reflexivity]. cbn [fst]. destruct K as (i & Hi & ->). assert (i < length ns)%nat by (apply nth_error_Some; congruence). lia.
    - destruct I7 as (l & AF & EN). exists ((Named n, Z.of_nat (length ns)) :: l). split.
      + pose proof (after_call sensible d l (Named n) AF) as A. cbn [perform add_named add_symbol fst snd] in A. rewrite <- I2. apply A. intros s E. apply H, numbered_in. exists s. apply EN, E.
      + intros k s. rewrite numbered_snoc, <- EN. unfold entry. cbn [In]. split.
        * intros [[E|E]|[E|E]]; [injection E as <- <-; auto|auto|discriminate E|auto].
        * intros [[E|E]|[-> ->]]; auto. }
  split; [exact J|]. split; [cbn [add_named add_symbol snd]; apply I|]. split.
  - intros k Hk. unfold symbol_for_name. cbn [add_named add_symbol fst name_symbol]. rewrite (mfind_mset_other _ name_strict _ (di_names _ _ I)) by exact Hk. reflexivity.
  - apply (numbered_symbol _ _ _ _ J). apply numbered_snoc. right. auto.
Qed.

(** ** The state of the stage *)
Definition sym (st : lex_state) (n : name) : Z := symbol_for_name n (x_terms st).
(** [evs] are the definitions of terminals so far, [explicit] those in lexer blocks, [unused] the
    names that are in the set of unused symbols. *)
Record lex_inv (evs explicit : list defn) (unused : name -> Prop) (st : lex_state) : Prop := {
  li_dict : dict_inv (in_order (map df_name evs)) (x_terms st);
  li_explicit : forall n, In n (map df_name explicit) -> In n (map df_name evs);
  li_sorted : msorted name_ltb (x_defs st);
  li_defs : forall n, Forall2 (describes (sym st n)) (live n evs) (entries n (x_defs st));
  li_types : msorted Z.ltb (x_type st);
  li_type : forall n e, In e (live n evs) -> mfind Z.ltb (sym st n) (x_type st) = Some (df_unit e);
  li_weak_set : forall s, In s (x_weak st) <-> exists e, In e evs /\ df_weak e = true /\ s = sym st (df_name e);
  li_weak_sorted : ssorted Z.ltb (x_weak st);
  li_ignored_set : forall s, In s (x_ignored st) <-> exists e, In e evs /\ df_unit e = unit_ignore /\ s = sym st (df_name e);
  li_ignored_sorted : ssorted Z.ltb (x_ignored st);
  li_unused_known : forall n, unused n -> In n (map df_name evs);
  li_unused : forall s, In s (x_unused st) <-> exists n, unused n /\ s = sym st n;
  li_unused_sorted : ssorted Z.ltb (x_unused st);
  li_where : forall s, In s (x_where st) <-> exists n, In n (map df_name explicit) /\ s = sym st n;
  li_where_sorted : ssorted Z.ltb (x_where st) }.
Lemma lex_inv_known evs explicit unused st n : lex_inv evs explicit unused st -> In n (map df_name evs) <-> 0 <= sym st n.
Proof. intros I. rewrite <- in_order_in. apply symbol_known, I. Qed.
Lemma lex_inv_inj evs explicit unused st n k : lex_inv evs explicit unused st -> In n (map df_name evs) -> sym st n = sym st k -> n = k.
Proof. intros I H. apply (symbol_inj _ _ n k (li_dict _ _ _ _ I)), in_order_in, H. Qed.
Lemma lex_inv_new : lex_inv [] [] (fun _ => False) new_lex.
Proof.
  constructor; try (constructor; fail).
  - apply dict_inv_new.
  - intros n [].
  - intros n e [].
  - intros s. split; [intros []|intros (e & [] & _)].
  - intros s. split; [intros []|intros (e & [] & _)].
  - intros n [].
  - intros s. split; [intros []|intros (e & [] & _)].
  - intros s. split; [intros []|intros (e & [] & _)].
Qed.
Lemma lex_inv_messages evs explicit unused st m : lex_inv evs explicit unused st -> lex_inv evs explicit unused (mkLex (x_terms st) (x_defs st) (x_exprs st) (x_weak st) (x_ignored st) (x_unused st) (x_type st) (x_where st) m).
Proof. intros I. constructor; apply I. Qed.

Lemma entries_add {V} n (v : V) m k : msorted name_ltb m -> entries k (add_entry n v m) = if name_eqb n k then entries k m ++ [v] else entries k m.
Proof.
  intros S. unfold entries at 1, add_entry. destruct (name_eqb n k) eqn:E.
  - apply name_eqb_true in E. subst k. rewrite (mfind_mset_same _ name_strict _ S). reflexivity.
  - apply name_eqb_false in E. rewrite (mfind_mset_other _ name_strict _ S) by congruence. reflexivity.
Qed.
Lemma entries_erase {V} n (m : list (name * list V)) k : msorted name_ltb m -> entries k (merase name_ltb n m) = if name_eqb n k then [] else entries k m.
Proof.
  intros S. unfold entries. pose proof (merase_sorted _ name_strict _ S n) as S2. destruct (name_eqb n k) eqn:E.
  - apply name_eqb_true in E. subst k. destruct (mfind name_ltb n (merase name_ltb n m)) as [l|] eqn:F; [|reflexivity]. apply (mfind_in _ name_strict _ S2), (merase_in _ name_strict _ S) in F. destruct F as [_ F]. exfalso. apply F. reflexivity.
  - apply name_eqb_false in E. destruct (mfind name_ltb k m) as [l|] eqn:F.
    + apply (mfind_in _ name_strict _ S) in F. rewrite (proj2 (mfind_in _ name_strict _ S2 k l)); [reflexivity|]. apply (merase_in _ name_strict _ S). split; [exact F|]. cbn [fst]. congruence.
    + destruct (mfind name_ltb k (merase name_ltb n m)) as [l|] eqn:F2; [|reflexivity]. apply (mfind_in _ name_strict _ S2), (merase_in _ name_strict _ S) in F2. destruct F2 as [F2 _]. apply (mfind_in _ name_strict _ S) in F2. congruence.
Qed.

(** ** One definition *)
Definition defined_state (e : defn) (d : dict) (s : Z) (i : lex_item) (ex : bool) (msgs : list message) (st : lex_state) : lex_state :=
  let n := df_name e in
  mkLex d (add_entry n i (if lx_replace (df_lexeme e) then merase name_ltb n (x_defs st) else x_defs st)) (x_exprs st)
    (if df_weak e then sins Z.ltb s (x_weak st) else x_weak st)
    (if df_unit e =? unit_ignore then sins Z.ltb s (x_ignored st) else x_ignored st)
    (if negb (df_unit e =? unit_ignore) then sins Z.ltb s (x_unused st) else x_unused st)
    (mset Z.ltb s (df_unit e) (x_type st))
    (if ex then sins Z.ltb s (if lx_replace (df_lexeme e) then serase Z.ltb s (x_where st) else x_where st) else x_where st)
    msgs.
Lemma lex_inv_def evs explicit unused st e d s i (ex : bool) msgs : lex_inv evs explicit unused st ->
  ((~ In (df_name e) (map df_name evs) /\ add_named (df_name e) (x_terms st) = (d, s) /\ lx_replace (df_lexeme e) = false) \/
   (In (df_name e) (map df_name evs) /\ d = x_terms st /\ s = sym st (df_name e) /\ (lx_replace (df_lexeme e) = true \/ forall e', In e' (live (df_name e) evs) -> df_unit e' = df_unit e))) ->
  describes s e i ->
  lex_inv (evs ++ [e]) (if ex then explicit ++ [e] else explicit) (fun k => unused k \/ (k = df_name e /\ df_unit e <> unit_ignore)) (defined_state e d s i ex msgs st) /\
  (forall k, In k (map df_name evs) -> sym (defined_state e d s i ex msgs st) k = sym st k).
Proof.
  intros I H D. set (n := df_name e) in *. set (st' := defined_state e d s i ex msgs st).
  assert (F : dict_inv (in_order (map df_name (evs ++ [e]))) d /\ (forall k, In k (map df_name evs) -> symbol_for_name k d = sym st k) /\ symbol_for_name n d = s /\ (forall k, k <> n -> symbol_for_name k d = sym st k)).
  { rewrite map_app. cbn [map]. fold n. rewrite in_order_snoc. destruct H as [(N & A & _)|(N & -> & -> & _)].
    - destruct (existsb (name_eqb n) (map df_name evs)) eqn:E; [apply existsb_name in E; contradiction|].
      destruct (dict_inv_add _ _ n (li_dict _ _ _ _ I)) as (J & S1 & S2 & S3); [rewrite in_order_in; exact N|]. rewrite A in J, S1, S2, S3. cbn [fst snd] in *. split; [exact J|]. split; [|split; [congruence|exact S2]].
      intros k Hk. apply S2. intros ->. contradiction.
    - rewrite (proj2 (existsb_name n (map df_name evs)) N). split; [apply I|]. split; [reflexivity|]. split; reflexivity. }
  destruct F as (DI & OLD & NEW & OTHER).
  assert (SY : forall k, sym st' k = if name_eqb n k then s else sym st k).
  { intros k. destruct (name_eqb n k) eqn:E; [apply name_eqb_true in E; subst k; exact NEW|apply name_eqb_false in E; apply OTHER; congruence]. }
  assert (SN : forall k, In k (map df_name evs) -> sym st' k = sym st k) by exact OLD.
  assert (INJ : forall k, In k (map df_name evs) -> sym st k = s -> k = n).
  { intros k Hk E. rewrite <- (SN k Hk) in E. eapply (symbol_inj _ _ k n DI); [|rewrite NEW; exact E]. rewrite in_order_in, map_app, in_app_iff. left. exact Hk. }
  assert (NEWR : ~ In n (map df_name evs) \/ (In n (map df_name evs) /\ s = sym st n)) by (destruct H as [(N & _)|(N & _ & E & _)]; auto).
  split; [|exact SN]. constructor.
  - exact DI.
  - intros k Hk. rewrite map_app, in_app_iff. cbn [map In]. fold n. destruct ex; [|left; apply (li_explicit _ _ _ _ I), Hk]. rewrite map_app, in_app_iff in Hk. destruct Hk as [Hk|Hk]; [left; apply (li_explicit _ _ _ _ I), Hk|right; exact Hk].
  - cbn [st' defined_state x_defs]. apply (mset_sorted _ name_strict). destruct (lx_replace _); [apply (merase_sorted _ name_strict)|]; apply I.
  - intros k. rewrite live_snoc. fold n. cbn [st' defined_state x_defs]. fold n. rewrite entries_add by (destruct (lx_replace _); [apply (merase_sorted _ name_strict)|]; apply I). rewrite SY. destruct (name_eqb n k) eqn:E.
    + apply name_eqb_true in E. subst k. apply Forall2_app; [|constructor; [exact D|constructor]]. destruct (lx_replace (df_lexeme e)) eqn:R.
      * rewrite entries_erase by apply I. rewrite name_eqb_refl. constructor.
      * destruct NEWR as [N|[N ->]]; [|apply I]. pose proof (li_defs _ _ _ _ I n) as L. rewrite (live_none n evs N) in *. inversion L. constructor.
    + destruct (lx_replace (df_lexeme e)); [rewrite entries_erase by apply I; rewrite E|]; apply I.
  - cbn [st' defined_state x_type]. apply (mset_sorted _ Zltb_strict), I.
  - intros k e' He. cbn [st' defined_state x_type]. rewrite live_snoc in He. fold n in He. rewrite SY. destruct (name_eqb n k) eqn:E.
    + apply name_eqb_true in E. subst k. rewrite (mfind_mset_same _ Zltb_strict _ (li_types _ _ _ _ I)). f_equal. apply in_app_or in He. destruct He as [He|[<-|[]]]; [|reflexivity].
      destruct H as [(N & _ & R)|(N & _ & _ & [R|R])].
      * rewrite R in He. rewrite (live_none n evs N) in He. destruct He.
      * rewrite R in He. destruct He.
      * destruct (lx_replace (df_lexeme e)); [destruct He|]. symmetry. apply R, He.
    + rewrite (mfind_mset_other _ Zltb_strict _ (li_types _ _ _ _ I)); [apply (li_type _ _ _ _ I), He|]. destruct (live_in k evs e' He) as [H1 H2]. assert (Hk : In k (map df_name evs)) by (subst k; apply in_map, H1).
      intros Es. apply (INJ k Hk) in Es. apply name_eqb_false in E. congruence.
  - intros x. cbn [st' defined_state x_weak].
    assert (EQ : (exists e0, In e0 (evs ++ [e]) /\ df_weak e0 = true /\ x = sym st' (df_name e0)) <-> (In x (x_weak st) \/ (df_weak e = true /\ x = s))).
    { rewrite (li_weak_set _ _ _ _ I). split.
      - intros (e0 & H0 & W & ->). apply in_app_or in H0. destruct H0 as [H0|[<-|[]]].
        + left. exists e0. rewrite SN by (apply in_map, H0). auto.
        + right. fold n. rewrite SY, name_eqb_refl. auto.
      - intros [(e0 & H0 & W & ->)|[W ->]].
        + exists e0. rewrite SN by (apply in_map, H0). split; [apply in_or_app; left; exact H0|auto].
        + exists e. fold n. rewrite SY, name_eqb_refl. split; [apply in_or_app; right; left; reflexivity|auto]. }
    rewrite EQ. destruct (df_weak e); [rewrite (sins_in _ Zltb_strict)|]; intuition congruence.
  - cbn [st' defined_state x_weak]. destruct (df_weak e); [apply (sins_sorted _ Zltb_strict)|]; apply I.
  - intros x. cbn [st' defined_state x_ignored].
    assert (EQ : (exists e0, In e0 (evs ++ [e]) /\ df_unit e0 = unit_ignore /\ x = sym st' (df_name e0)) <-> (In x (x_ignored st) \/ (df_unit e = unit_ignore /\ x = s))).
    { rewrite (li_ignored_set _ _ _ _ I). split.
      - intros (e0 & H0 & W & ->). apply in_app_or in H0. destruct H0 as [H0|[<-|[]]].
        + left. exists e0. rewrite SN by (apply in_map, H0). auto.
        + right. fold n. rewrite SY, name_eqb_refl. auto.
      - intros [(e0 & H0 & W & ->)|[W ->]].
        + exists e0. rewrite SN by (apply in_map, H0). split; [apply in_or_app; left; exact H0|auto].
        + exists e. fold n. rewrite SY, name_eqb_refl. split; [apply in_or_app; right; left; reflexivity|auto]. }
    rewrite EQ. destruct (Z.eqb_spec (df_unit e) unit_ignore) as [U|U]; [rewrite (sins_in _ Zltb_strict)|]; intuition congruence.
  - cbn [st' defined_state x_ignored]. destruct (df_unit e =? unit_ignore); [apply (sins_sorted _ Zltb_strict)|]; apply I.
  - intros k Hk. rewrite map_app, in_app_iff. cbn [map In]. fold n. destruct Hk as [Hk|[-> _]]; [left; apply (li_unused_known _ _ _ _ I), Hk|auto].
  - intros x. cbn [st' defined_state x_unused].
    assert (EQ : (exists k, (unused k \/ (k = n /\ df_unit e <> unit_ignore)) /\ x = sym st' k) <-> (In x (x_unused st) \/ (df_unit e <> unit_ignore /\ x = s))).
    { rewrite (li_unused _ _ _ _ I). split.
      - intros (k & [W|[-> W]] & ->).
        + left. exists k. rewrite SN by (apply (li_unused_known _ _ _ _ I), W). auto.
        + right. rewrite SY, name_eqb_refl. auto.
      - intros [(k & W & ->)|[W ->]].
        + exists k. rewrite SN by (apply (li_unused_known _ _ _ _ I), W). auto.
        + exists n. rewrite SY, name_eqb_refl. auto. }
    rewrite EQ. destruct (Z.eqb_spec (df_unit e) unit_ignore) as [U|U]; cbn [negb]; [|rewrite (sins_in _ Zltb_strict)]; intuition congruence.
  - cbn [st' defined_state x_unused]. destruct (df_unit e =? unit_ignore); cbn [negb]; [|apply (sins_sorted _ Zltb_strict)]; apply I.
  - intros x. cbn [st' defined_state x_where]. destruct ex.
    + rewrite (sins_in _ Zltb_strict).
      assert (EQ : (exists k, In k (map df_name (explicit ++ [e])) /\ x = sym st' k) <-> (In x (x_where st) \/ x = s)).
      { rewrite (li_where _ _ _ _ I). split.
        - intros (k & H0 & ->). rewrite map_app, in_app_iff in H0. cbn [map In] in H0. fold n in H0. destruct H0 as [H0|[<-|[]]].
          + left. exists k. rewrite SN by (apply (li_explicit _ _ _ _ I), H0). auto.
          + right. rewrite SY, name_eqb_refl. auto.
        - intros [(k & H0 & ->)| ->].
          + exists k. rewrite SN by (apply (li_explicit _ _ _ _ I), H0). split; [rewrite map_app; apply in_or_app; left; exact H0|reflexivity].
          + exists n. rewrite SY, name_eqb_refl. split; [rewrite map_app; apply in_or_app; right; left; reflexivity|reflexivity]. }
      rewrite EQ. destruct (lx_replace _); [rewrite (serase_in _ Zltb_strict _ (li_where_sorted _ _ _ _ I))|]; destruct (Z.eq_dec x s); intuition congruence.
    + rewrite (li_where _ _ _ _ I). split; intros (k & H0 & ->); exists k; rewrite SN by (apply (li_explicit _ _ _ _ I), H0); auto.
  - cbn [st' defined_state x_where]. destruct ex; [|apply I]. apply (sins_sorted _ Zltb_strict). destruct (lx_replace _); [apply (serase_sorted _ Zltb_strict)|]; apply I.
Qed.

(** *** in a lexer block *)
Lemma define_lexeme_state ty b st x t (d : dict) (s : Z) (msgs : list message) :
  token_of x = Some t -> 0 <= s ->
  let e := mkDefn ty (lb_weak b) (lb_insensitive b) (lb_sensitive b) x in
  forall st1, (if negb (lx_add x) then
      if negb (lx_replace x) then
        let st := if 0 <=? symbol_for_name (lx_name x) (x_terms st) then report (DuplicateSymbol (lx_name x)) st else st in
        let '(d, sym) := add_named (lx_name x) (x_terms st) in (with_terms d st, sym)
      else
        let sym := symbol_for_name (lx_name x) (x_terms st) in
        if sym <? 0 then (report (MissingForReplacing (lx_name x)) st, sym)
        else (with_defs (merase TermDictModel.name_ltb (lx_name x) (x_defs st)) (with_where (serase Z.ltb sym (x_where st)) st), sym)
    else
      let sym := symbol_for_name (lx_name x) (x_terms st) in
      if sym <? 0 then (report (MissingForAdding (lx_name x)) st, sym)
      else if negb ((match mfind Z.ltb sym (x_type st) with Some t => t | None => unit_null end) =? ty) then (report (DifferentType (lx_name x)) st, sym)
      else (st, sym)) = (st1, s) ->
  mkLex d (if lx_replace x then merase name_ltb (lx_name x) (x_defs st) else x_defs st) (x_exprs st) (x_weak st) (x_ignored st) (x_unused st) (x_type st) (if lx_replace x then serase Z.ltb s (x_where st) else x_where st) msgs = st1 ->
  define_lexeme ty b st x = Some (defined_state e d s (mkItem t (lb_insensitive b) s ty (lb_weak b)) true msgs st).
Proof.
  intros T P e st1 E1 E2. unfold define_lexeme. cbv zeta in E1 |- *. rewrite E1. assert (L : (s <? 0) = false) by (apply Z.ltb_ge; exact P). rewrite L, T. subst st1. unfold defined_state, e. cbn [df_name df_lexeme df_weak df_unit].
  destruct (ty =? unit_ignore), (lb_weak b); reflexivity.
Qed.
Definition error_in (l : list message) : Prop := exists m, In m l /\ is_error m = true.
Definition lexeme_messages (ty : Z) (st : lex_state) (x : lexeme) : list message :=
  let s := symbol_for_name (lx_name x) (x_terms st) in
  if lx_add x then
    if s <? 0 then [MissingForAdding (lx_name x)]
    else if negb ((match mfind Z.ltb s (x_type st) with Some t => t | None => unit_null end) =? ty) then [DifferentType (lx_name x)] else []
  else if lx_replace x then if s <? 0 then [MissingForReplacing (lx_name x)] else []
  else if 0 <=? s then [DuplicateSymbol (lx_name x)] else [].
Lemma define_lexeme_defined ty b st x : well_written x -> exists st', define_lexeme ty b st x = Some st' /\ x_messages st' = x_messages st ++ lexeme_messages ty st x /\ x_exprs st' = x_exprs st.
Proof.
  intros W. destruct (token_denotes x W) as (t & T & _). unfold define_lexeme. rewrite T.
  assert (FIN : forall st0 s m, x_messages st0 = x_messages st ++ m -> x_exprs st0 = x_exprs st -> exists st', (if s <? 0 then Some st0 else
    let st := with_type (mset Z.ltb s ty (x_type st0)) st0 in
    let st := if negb (ty =? unit_ignore) then with_unused (sins Z.ltb s (x_unused st)) st else st in
    let st := with_where (sins Z.ltb s (x_where st)) st in
        let st := with_defs (add_entry (lx_name x) (mkItem t (lb_insensitive b) s ty (lb_weak b)) (x_defs st)) st in
        let st := if ty =? unit_ignore then with_ignored_set (sins Z.ltb s (x_ignored st)) st else st in
        Some (if lb_weak b then with_weak_set (sins Z.ltb s (x_weak st)) st else st)) = Some st' /\ x_messages st' = x_messages st ++ m /\ x_exprs st' = x_exprs st).
  { intros st0 s m M X. destruct (s <? 0); [exists st0; auto|]. destruct (ty =? unit_ignore), (lb_weak b); eexists; (split; [reflexivity|split; [exact M|exact X]]). }
  unfold lexeme_messages. destruct (lx_add x); cbn [negb].
  - destruct (symbol_for_name _ _ <? 0) eqn:E; [apply FIN; reflexivity|]. destruct (negb (match mfind _ _ _ with Some t => t | None => _ end =? _)); [apply FIN; reflexivity|]. apply FIN; [rewrite app_nil_r; reflexivity|reflexivity].
  - destruct (lx_replace x); cbn [negb].
    + destruct (symbol_for_name _ _ <? 0) eqn:E; [apply FIN; reflexivity|]. apply FIN; [rewrite app_nil_r; reflexivity|reflexivity].
    + destruct (0 <=? _); destruct (add_named _ _) as [d s]; apply FIN; try reflexivity. rewrite app_nil_r; reflexivity.
Qed.
Lemma lexeme_messages_spec ty b x evs explicit unused st : lex_inv evs explicit unused st ->
  let e := mkDefn ty (lb_weak b) (lb_insensitive b) (lb_sensitive b) x in
  (allowed_def true evs e /\ lexeme_messages ty st x = []) \/ (~ allowed_def true evs e /\ error_in (lexeme_messages ty st x)).
Proof.
  intros I e. set (n := lx_name x). pose proof (lex_inv_known _ _ _ _ n I) as KN. unfold sym in KN.
  unfold allowed_def, lexeme_messages. cbn [e df_lexeme]. change (df_name e) with n. fold e. fold n.
  assert (ERR : forall m, is_error m = true -> error_in [m]) by (intros m H; exists m; split; [left; reflexivity|exact H]).
  destruct (lx_add x).
  - destruct (Z.ltb_spec (symbol_for_name n (x_terms st)) 0) as [E|E].
    + right. split; [intros [H _]; apply KN in H; lia|apply ERR; reflexivity].
    + pose proof (proj2 KN E) as IN. destruct (live_exists n evs IN) as [e0 L0]. pose proof (li_type _ _ _ _ I n e0 L0) as TY. unfold sym in TY. rewrite TY.
      destruct (Z.eqb_spec (df_unit e0) ty) as [U|U]; cbn [negb].
      * left. split; [|reflexivity]. split; [exact IN|]. intros _ e' H'. pose proof (li_type _ _ _ _ I n e' H') as T2. unfold sym in T2. rewrite TY in T2. injection T2 as T2. rewrite <- T2. exact U.
      * right. split; [|apply ERR; reflexivity]. intros [_ H]. apply U. exact (H eq_refl e0 L0).
  - destruct (lx_replace x).
    + destruct (Z.ltb_spec (symbol_for_name n (x_terms st)) 0) as [E|E].
      * right. split; [intros H; apply KN in H; lia|apply ERR; reflexivity].
      * left. split; [apply KN, E|reflexivity].
    + destruct (Z.leb_spec 0 (symbol_for_name n (x_terms st))) as [E|E].
      * right. split; [intros H; apply H, KN, E|apply ERR; reflexivity].
      * left. split; [intros H; apply KN in H; lia|reflexivity].
Qed.
Lemma define_lexeme_allowed ty b x evs explicit unused st : well_written x -> lex_inv evs explicit unused st ->
  let e := mkDefn ty (lb_weak b) (lb_insensitive b) (lb_sensitive b) x in
  allowed_def true evs e ->
  exists st', define_lexeme ty b st x = Some st' /\ x_exprs st' = x_exprs st /\ x_messages st' = x_messages st /\
  lex_inv (evs ++ [e]) (explicit ++ [e]) (fun k => unused k \/ (k = df_name e /\ df_unit e <> unit_ignore)) st' /\ (forall k, In k (map df_name evs) -> sym st' k = sym st k).
Proof.
  intros W I e AL. destruct (token_denotes x W) as (t & T & D). destruct W as (_ & _ & EXC). set (n := lx_name x).
  assert (DE : forall s, describes s e (mkItem t (lb_insensitive b) s ty (lb_weak b))) by (intros s; repeat split; exact D).
  pose proof (lex_inv_known _ _ _ _ n I) as KN. unfold sym in KN.
  unfold allowed_def in AL. cbn [e df_lexeme] in AL. change (df_name e) with n in AL. fold e in AL. destruct (lx_add x) eqn:A.
  - assert (R : lx_replace x = false) by (destruct (lx_replace x); [discriminate EXC|reflexivity]).
    destruct AL as [IN AL]. specialize (AL eq_refl). pose proof (proj1 KN IN) as E. destruct (live_exists n evs IN) as [e0 L0]. pose proof (li_type _ _ _ _ I n e0 L0) as TY. unfold sym in TY.
    assert (U : df_unit e0 = ty) by (apply (AL e0 L0)).
    destruct (lex_inv_def evs explicit unused st e (x_terms st) (symbol_for_name n (x_terms st)) _ true (x_messages st) I (or_intror (conj IN (conj eq_refl (conj eq_refl (or_intror AL))))) (DE _)) as [J S].
    eexists. split; [|split; [|split; [|split; [exact J|exact S]]]]; [|reflexivity|reflexivity].
    apply (define_lexeme_state ty b st x t (x_terms st) (symbol_for_name n (x_terms st)) (x_messages st) T E st).
    + rewrite A. cbn [negb]. fold n. rewrite (proj2 (Z.ltb_ge _ _) E), TY, U, Z.eqb_refl. reflexivity.
    + rewrite R. destruct st; reflexivity.
  - destruct (lx_replace x) eqn:R.
    + pose proof (proj1 KN AL) as E.
      destruct (lex_inv_def evs explicit unused st e (x_terms st) (symbol_for_name n (x_terms st)) _ true (x_messages st) I (or_intror (conj AL (conj eq_refl (conj eq_refl (or_introl R))))) (DE _)) as [J S].
      eexists. split; [|split; [|split; [|split; [exact J|exact S]]]]; [|reflexivity|reflexivity].
      apply (define_lexeme_state ty b st x t (x_terms st) (symbol_for_name n (x_terms st)) (x_messages st) T E (with_defs (merase TermDictModel.name_ltb n (x_defs st)) (with_where (serase Z.ltb (symbol_for_name n (x_terms st)) (x_where st)) st))).
      * rewrite A, R. cbn [negb]. fold n. rewrite (proj2 (Z.ltb_ge _ _) E). reflexivity.
      * rewrite R. reflexivity.
    + assert (E : symbol_for_name n (x_terms st) < 0) by (destruct (Z.lt_ge_cases (symbol_for_name n (x_terms st)) 0) as [L|L]; [exact L|exfalso; apply AL, KN, L]).
      destruct (add_named n (x_terms st)) as [d s] eqn:AD.
      destruct (lex_inv_def evs explicit unused st e d s _ true (x_messages st) I (or_introl (conj AL (conj AD R))) (DE _)) as [J S].
      eexists. split; [|split; [|split; [|split; [exact J|exact S]]]]; [|reflexivity|reflexivity].
      assert (P : 0 <= s) by (cbn [add_named add_symbol] in AD; injection AD as _ <-; rewrite (di_max _ _ (li_dict _ _ _ _ I)); lia).
      apply (define_lexeme_state ty b st x t d s (x_messages st) T P (with_terms d st)).
      * rewrite A, R. cbn [negb]. fold n. destruct (0 <=? symbol_for_name n (x_terms st)) eqn:L; [apply Z.leb_le in L; lia|]. rewrite AD. reflexivity.
      * rewrite R. reflexivity.
Qed.

(** *** in the grammar *)
Definition implicit_step (st : lex_state) (t : term_kind * name * name) : option lex_state :=
  let '(k, source, n) := t in
  match k with
  | TName => match source with [] => implicit_symbol n (Some (Regex n)) [ImplicitSymbol n] st | _ => Some st end
  | TString | TCharacter => implicit_symbol n (option_map Literal (dequote_string n)) [] st
  end.
Lemma each_app {S X} (f : S -> X -> option S) l k : forall st, each f (l ++ k) st = match each f l st with None => None | Some st => each f k st end.
Proof. induction l as [|x l IH]; intros st; cbn [app each]; [reflexivity|]. destruct (f st x); [apply IH|reflexivity]. Qed.
Lemma each_flat {S X Y} (f : S -> Y -> option S) (h : X -> list Y) l : forall st, each f (flat_map h l) st = each (fun st x => each f (h x) st) l st.
Proof. induction l as [|x l IH]; intros st; cbn [flat_map each]; [reflexivity|]. rewrite each_app. destruct (each f (h x) st); [apply IH|reflexivity]. Qed.
Lemma each_ext {S X} (f g : S -> X -> option S) l : Forall (fun x => forall st, f st x = g st x) l -> forall st, each f l st = each g l st.
Proof. induction 1 as [|x l H F IH]; intros st; cbn [each]; [reflexivity|]. rewrite H. destruct (g st x); [apply IH|reflexivity]. Qed.
Lemma each_map {S X Y} (f : S -> Y -> option S) (h : X -> Y) l : forall st, each f (map h l) st = each (fun st x => f st (h x)) l st.
Proof. induction l as [|x l IH]; intros st; cbn [map each]; [reflexivity|]. destruct (f st (h x)); [apply IH|reflexivity]. Qed.
Lemma lexer_items_children source n l k st : match k with EGuard | EAlternative | ERepeatZero | ERepeatOne | EOptional | EParenthesized => True | _ => False end -> add_ebnf_lexer_items st (Ebnf k source n l) = each add_ebnf_lexer_items l st.
Proof.
  intros K. assert (H : forall l st, (fix all (l : list ebnf) (st : lex_state) : option lex_state := match l with [] => Some st | e :: l => match add_ebnf_lexer_items st e with None => None | Some st => all l st end end) l st = each add_ebnf_lexer_items l st).
  { clear. induction l as [|e l IH]; intros st; cbn [each]; [reflexivity|]. destruct (add_ebnf_lexer_items st e); [apply IH|reflexivity]. }
  destruct k; try destruct K; cbn [add_ebnf_lexer_items]; apply H.
Qed.
Lemma lexer_items_one l st : add_ebnf_lexer_items st (one_item l) = each add_ebnf_lexer_items l st.
Proof.
  destruct l as [|x [|y l]]; [reflexivity| |apply lexer_items_children; exact Logic.I]. cbn [one_item each]. destruct (add_ebnf_lexer_items st x); reflexivity.
Qed.
Lemma lexer_items_or more : Forall (Forall (fun s => forall st, add_ebnf_lexer_items st (ebnf_of s) = each implicit_step (terminals_in s) st)) more -> forall a, Forall (fun s => forall st, add_ebnf_lexer_items st (ebnf_of s) = each implicit_step (terminals_in s) st) a -> forall st,
  add_ebnf_lexer_items st (with_or (map ebnf_of a) (map (map ebnf_of) more)) = each implicit_step (flat_map (flat_map terminals_in) (a :: more)) st.
Proof.
  assert (ALL : forall a, Forall (fun s => forall st, add_ebnf_lexer_items st (ebnf_of s) = each implicit_step (terminals_in s) st) a -> forall st, each add_ebnf_lexer_items (map ebnf_of a) st = each implicit_step (flat_map terminals_in a) st).
  { intros a H st. rewrite each_map, each_flat. apply each_ext, H. }
  induction 1 as [|m more H F IH]; intros a Ha st; cbn [map with_or].
  - rewrite lexer_items_one, ALL by exact Ha. cbn [flat_map]. rewrite app_nil_r. reflexivity.
  - rewrite lexer_items_children by exact Logic.I. cbn [each]. rewrite lexer_items_one, ALL by exact Ha. change (flat_map (flat_map terminals_in) (a :: m :: more)) with (flat_map terminals_in a ++ flat_map (flat_map terminals_in) (m :: more)). rewrite each_app.
    destruct (each implicit_step (flat_map terminals_in a) st) as [st1|]; [|reflexivity]. rewrite IH by exact H. destruct (each _ _ _); reflexivity.
Qed.
Lemma lexer_items_of s : forall st, add_ebnf_lexer_items st (ebnf_of s) = each implicit_step (terminals_in s) st.
Proof.
  induction s as [src n|k src n|a more Ha Hm|s IH|s IH|s IH|a more Ha Hm] using LangItemProofs.simple_rect'; intros st; cbn [ebnf_of terminals_in].
  - reflexivity.
  - cbn [each implicit_step]. destruct k; cbn [terminal_type add_ebnf_lexer_items]; try destruct src; try reflexivity; destruct (implicit_symbol _ _ _ _); reflexivity.
  - rewrite lexer_items_children by exact Logic.I. cbn [each]. rewrite lexer_items_or by assumption. destruct (each _ _ _); reflexivity.
  - rewrite lexer_items_children by exact Logic.I. cbn [each]. rewrite IH. destruct (each _ _ _); reflexivity.
  - rewrite lexer_items_children by exact Logic.I. cbn [each]. rewrite IH. destruct (each _ _ _); reflexivity.
  - rewrite lexer_items_children by exact Logic.I. cbn [each]. rewrite IH. destruct (each _ _ _); reflexivity.
  - apply lexer_items_or; assumption.
Qed.
Lemma define_implicit_each l st : define_implicit (parse_language l) st = each implicit_step (terminals_of l) st.
Proof.
  unfold define_implicit, terminals_of, productions_of. rewrite LangGramProofs.nonterminals_parse, each_map, !each_flat. apply each_ext. rewrite Forall_forall. intros d _ st1. cbn [parse_def nd_productions]. rewrite each_map. apply each_ext. rewrite Forall_forall. intros p _ st2.
  rewrite each_map, each_flat. apply each_ext. rewrite Forall_forall. intros s _ st3. apply lexer_items_of.
Qed.

(** ** Sequences of definitions *)
Definition event (st : lex_state) (e : defn) : option lex_state := define_lexeme (df_unit e) (mkBlock (df_weak e) (df_insensitive e) (df_sensitive e) []) st (df_lexeme e).
Lemma define_lexemes_each l st : define_lexemes (parse_language l) st = each event (explicit_defs l) st.
Proof.
  assert (BLOCK : forall ty weak l st, each (fun st u => match u with ULexer ty' b => if (ty' =? ty) && eqb (lb_weak b) weak then each (define_lexeme ty' b) (lb_lexemes b) st else Some st | _ => Some st end) (parse_language l) st
    = each event (defs_where (fun ty' b => (ty' =? ty) && eqb (lb_weak b) weak) l) st).
  { clear. intros ty weak l st. unfold parse_language, defs_where. rewrite each_map, each_flat. apply each_ext. rewrite Forall_forall. intros u _ st1. destruct u as [ty' b|d|p]; [|reflexivity|reflexivity].
    cbn [parse_unit block_defs]. destruct (_ && _); [|reflexivity]. rewrite each_map. reflexivity. }
  unfold define_lexemes, passes, explicit_defs. rewrite !each_flat. apply each_ext. rewrite Forall_forall. intros weak _ st1. rewrite each_map, each_flat. apply each_ext. rewrite Forall_forall. intros ty _ st2. apply BLOCK.
Qed.

Fixpoint consistent_from (same_unit : bool) (before l : list defn) : Prop :=
  match l with
  | [] => True
  | e :: l => allowed_def same_unit before e /\ consistent_from same_unit (before ++ [e]) l
  end.
Lemma consistent_split su l : forall before, consistent_from su before l <-> (forall pre e post, l = pre ++ e :: post -> allowed_def su (before ++ pre) e).
Proof.
  induction l as [|d l IH]; intros before; cbn [consistent_from].
  - split; [intros _ pre e post H; destruct pre; discriminate H|auto].
  - rewrite IH. split.
    + intros [A B] pre e post H. destruct pre as [|x pre]; [injection H as -> ->; rewrite app_nil_r; exact A|]. injection H as -> ->. specialize (B pre e post eq_refl). rewrite <- app_assoc in B. exact B.
    + intros H. split; [specialize (H [] d l eq_refl); rewrite app_nil_r in H; exact H|]. intros pre e post ->. rewrite <- app_assoc. apply (H (d :: pre) e post). reflexivity.
Qed.
Lemma consistent_iff su l : consistent su l <-> consistent_from su [] l.
Proof. rewrite consistent_split. reflexivity. Qed.
Lemma consistent_app su l k : forall before, consistent_from su before (l ++ k) <-> consistent_from su before l /\ consistent_from su (before ++ l) k.
Proof.
  induction l as [|e l IH]; intros before; cbn [app consistent_from]; [rewrite app_nil_r; tauto|]. rewrite IH, <- app_assoc. cbn [app]. tauto.
Qed.

Lemma run_defined l : Forall (fun e => well_written (df_lexeme e)) l -> forall st, exists st' m, each event l st = Some st' /\ x_messages st' = x_messages st ++ m /\ x_exprs st' = x_exprs st.
Proof.
  induction 1 as [|e l W F IH]; intros st; cbn [each]; [exists st, []; rewrite app_nil_r; auto|].
  destruct (define_lexeme_defined (df_unit e) (mkBlock (df_weak e) (df_insensitive e) (df_sensitive e) []) st (df_lexeme e) W) as (st1 & E1 & M1 & X1). unfold event at 1. rewrite E1.
  destruct (IH st1) as (st2 & m & E2 & M2 & X2). exists st2, (lexeme_messages (df_unit e) st (df_lexeme e) ++ m). split; [exact E2|]. split; [rewrite M2, M1, app_assoc; reflexivity|congruence].
Qed.
Lemma lex_inv_ext evs explicit U U' st : (forall n, U n <-> U' n) -> lex_inv evs explicit U st -> lex_inv evs explicit U' st.
Proof.
  intros E I. constructor; try apply I.
  - intros n H. apply E in H. apply (li_unused_known _ _ _ _ I), H.
  - intros s. rewrite (li_unused _ _ _ _ I). split; intros (n & H & K); exists n; (split; [apply E, H|exact K]).
Qed.
Definition adds (l : list defn) (n : name) : Prop := exists e, In e l /\ n = df_name e /\ df_unit e <> unit_ignore.
Lemma run_explicit l : Forall (fun e => well_written (df_lexeme e)) l -> forall evs explicit U st, lex_inv evs explicit U st ->
  exists st' m, each event l st = Some st' /\ x_messages st' = x_messages st ++ m /\ x_exprs st' = x_exprs st /\
  ((consistent_from true evs l /\ m = [] /\ lex_inv (evs ++ l) (explicit ++ l) (fun k => U k \/ adds l k) st' /\ (forall k, In k (map df_name evs) -> sym st' k = sym st k)) \/
   (~ consistent_from true evs l /\ error_in m)).
Proof.
  induction 1 as [|e l W F IH]; intros evs explicit U st I; cbn [each].
  - exists st, []. rewrite !app_nil_r. split; [reflexivity|]. split; [reflexivity|]. split; [reflexivity|]. left. split; [exact Logic.I|]. split; [reflexivity|]. split; [|reflexivity].
    eapply lex_inv_ext; [|exact I]. intros n. split; [auto|intros [H|(e & [] & _)]; exact H].
  - set (b := mkBlock (df_weak e) (df_insensitive e) (df_sensitive e) []).
    assert (EE : mkDefn (df_unit e) (lb_weak b) (lb_insensitive b) (lb_sensitive b) (df_lexeme e) = e) by (destruct e; reflexivity).
    destruct (lexeme_messages_spec (df_unit e) b (df_lexeme e) evs explicit U st I) as [[A M]|[A M]]; rewrite EE in A.
    + pose proof (define_lexeme_allowed (df_unit e) b (df_lexeme e) evs explicit U st W I) as D. cbv zeta in D. rewrite EE in D. destruct (D A) as (st1 & E1 & X1 & M1 & I1 & S1). unfold event at 1. fold b. rewrite E1.
      destruct (IH _ _ _ st1 I1) as (st2 & m & E2 & M2 & X2 & R). exists st2, m. split; [exact E2|]. split; [congruence|]. split; [congruence|]. cbn [consistent_from]. destruct R as [(C & -> & I2 & S2)|(C & ER)].
      * left. split; [split; assumption|]. split; [reflexivity|]. split.
        -- rewrite <- !app_assoc in I2. cbn [app] in I2. eapply lex_inv_ext; [|exact I2]. intros n. unfold adds. split.
           ++ intros [[H|[H1 H2]]|(e' & H1 & H2 & H3)]; [auto|right; exists e; split; [left; reflexivity|auto]|right; exists e'; split; [right; exact H1|auto]].
           ++ intros [H|(e' & [<-|H1] & H2 & H3)]; [auto|left; right; auto|right; exists e'; auto].
        -- intros k Hk. rewrite S2 by (rewrite map_app; apply in_or_app; left; exact Hk). apply S1, Hk.
      * right. split; [intros [_ H]; exact (C H)|exact ER].
    + destruct (define_lexeme_defined (df_unit e) b st (df_lexeme e) W) as (st1 & E1 & M1 & X1). unfold event at 1. fold b. rewrite E1. destruct (run_defined l F st1) as (st2 & m & E2 & M2 & X2).
      exists st2, (lexeme_messages (df_unit e) st (df_lexeme e) ++ m). split; [exact E2|]. split; [rewrite M2, M1, app_assoc; reflexivity|]. split; [congruence|]. right. cbn [consistent_from]. split; [intros [H _]; exact (A H)|].
      destruct M as (x & H1 & H2). exists x. split; [apply in_or_app; left; exact H1|exact H2].
Qed.

(** ** Symbols that the grammar defines *)
Lemma implicit_defs_ext ts : forall k k', (forall n, In n k <-> In n k') -> implicit_defs k ts = implicit_defs k' ts.
Proof.
  induction ts as [|[[kd src] n] ts IH]; intros k k' H; cbn [implicit_defs]; [reflexivity|].
  assert (E : existsb (name_eqb n) k = existsb (name_eqb n) k') by (apply eq_true_iff_eq; rewrite !existsb_name; apply H).
  rewrite E. destruct (_ || _); [apply IH, H|]. f_equal. apply IH. intros m. cbn [In]. rewrite H. reflexivity.
Qed.
(** Warnings for names that were not defined *)
Definition warns (e : defn) : list message := match lx_kind (df_lexeme e) with KRegex => [ImplicitSymbol (df_name e)] | _ => [] end.
Definition implicit_ok (t : term_kind * name * name) : Prop := let '(k, _, n) := t in well_written (df_lexeme (implicit_def k n)).
Lemma implicit_token k n : well_written (df_lexeme (implicit_def k n)) -> exists t, match k with TName => Some (Regex n) | TString | TCharacter => option_map Literal (dequote_string n) end = Some t /\ denotes (df_lexeme (implicit_def k n)) t.
Proof.
  intros W. destruct k.
  - exists (Regex n). split; [reflexivity|]. exists 47, n, 47. split; reflexivity.
  - destruct (token_denotes _ W) as (t & T & D). exists t. split; [exact T|exact D].
  - destruct (token_denotes _ W) as (t & T & D). exists t. split; [exact T|exact D].
Qed.
Lemma implicit_symbol_new evs explicit U st k n : lex_inv evs explicit U st -> ~ In n (map df_name evs) -> well_written (df_lexeme (implicit_def k n)) ->
  exists st', implicit_symbol n (match k with TName => Some (Regex n) | TString | TCharacter => option_map Literal (dequote_string n) end) (warns (implicit_def k n)) st = Some st' /\
  x_messages st' = x_messages st ++ warns (implicit_def k n) /\ x_exprs st' = x_exprs st /\
  lex_inv (evs ++ [implicit_def k n]) explicit (fun m => U m \/ m = n) st' /\ (forall m, In m (map df_name evs) -> sym st' m = sym st m).
Proof.
  intros I N W. destruct (implicit_token k n W) as (t & T & D). rewrite T. set (e := implicit_def k n) in *. assert (EN : df_name e = n) by (destruct k; reflexivity). assert (ER : lx_replace (df_lexeme e) = false) by (destruct k; reflexivity).
  unfold implicit_symbol. assert (L : (0 <=? symbol_for_name n (x_terms st)) = false) by (apply Z.leb_gt; destruct (Z.lt_ge_cases (symbol_for_name n (x_terms st)) 0) as [L|L]; [exact L|exfalso; apply N, (lex_inv_known _ _ _ _ n I), L]).
  rewrite L. set (st0 := fold_left _ _ st). assert (S0 : st0 = mkLex (x_terms st) (x_defs st) (x_exprs st) (x_weak st) (x_ignored st) (x_unused st) (x_type st) (x_where st) (x_messages st ++ warns e)).
  { unfold st0, warns, e. destruct k; cbn [implicit_def df_lexeme lx_kind fold_left report]; rewrite ?app_nil_r; destruct st; reflexivity. }
  rewrite S0. cbn [x_terms]. destruct (add_named n (x_terms st)) as [d s] eqn:AD. rewrite <- EN in AD, N.
  assert (DE : describes s e (mkItem t false s unit_keywords true)) by (unfold e, implicit_def; destruct k; repeat split; exact D).
  destruct (lex_inv_def evs explicit U st e d s _ false (x_messages st ++ warns e) I (or_introl (conj N (conj AD ER))) DE) as [J S].
  eexists. split; [reflexivity|]. assert (EQ : forall A (a b : A), a = b -> a = b) by auto.
  match goal with |- context [with_weak_set ?a ?b] => set (st' := with_weak_set a b) end.
  assert (E : st' = defined_state e d s (mkItem t false s unit_keywords true) false (x_messages st ++ warns e) st).
  { unfold st', defined_state. rewrite EN, ER. assert (WK : df_weak e = true) by (destruct k; reflexivity). assert (UK : df_unit e = unit_keywords) by (destruct k; reflexivity). rewrite WK, UK. reflexivity. }
  rewrite E. split; [reflexivity|]. split; [reflexivity|]. split; [|exact S]. eapply lex_inv_ext; [|exact J]. intros m. rewrite EN. split; [intros [H|[H _]]; auto|]. intros [H|H]; [auto|]. right. split; [exact H|]. assert (UK : df_unit e = unit_keywords) by (destruct k; reflexivity). rewrite UK. discriminate.
Qed.
Lemma implicit_step_eq st k src n : implicit_step st (k, src, n) =
  if match k, src with TName, _ :: _ => true | _, _ => false end then Some st
  else implicit_symbol n (match k with TName => Some (Regex n) | TString | TCharacter => option_map Literal (dequote_string n) end) (warns (implicit_def k n)) st.
Proof. destruct k, src; reflexivity. Qed.
Lemma run_implicit ts : Forall implicit_ok ts -> forall evs explicit U st, lex_inv evs explicit U st ->
  let new := implicit_defs (map df_name evs) ts in
  exists st', each implicit_step ts st = Some st' /\ x_messages st' = x_messages st ++ flat_map warns new /\ x_exprs st' = x_exprs st /\
  lex_inv (evs ++ new) explicit (fun k => U k \/ adds new k) st' /\ (forall k, In k (map df_name evs) -> sym st' k = sym st k).
Proof.
  induction 1 as [|[[k src] n] ts W F IH]; intros evs explicit U st I; cbn [each implicit_defs].
  - exists st. cbn [flat_map]. rewrite !app_nil_r. split; [reflexivity|]. split; [reflexivity|]. split; [reflexivity|]. split; [|reflexivity]. eapply lex_inv_ext; [|exact I]. intros m. split; [auto|intros [H|(e & [] & _)]; exact H].
  - rewrite implicit_step_eq. destruct (match k, src with TName, _ :: _ => true | _, _ => false end) eqn:Q.
    + rewrite orb_true_r. apply (IH evs explicit U st I).
    + rewrite orb_false_r. destruct (existsb (name_eqb n) (map df_name evs)) eqn:E.
      * apply existsb_name in E. unfold implicit_symbol. pose proof (proj1 (lex_inv_known _ _ _ _ n I) E) as P. unfold sym in P. rewrite (proj2 (Z.leb_le _ _) P). apply (IH evs explicit U st I).
      * assert (N : ~ In n (map df_name evs)) by (intros H; apply existsb_name in H; congruence). cbn [implicit_ok] in W.
        destruct (implicit_symbol_new evs explicit U st k n I N W) as (st1 & E1 & M1 & X1 & I1 & S1). rewrite E1. destruct (IH _ _ _ st1 I1) as (st2 & E2 & M2 & X2 & I2 & S2).
        assert (EN : df_name (implicit_def k n) = n) by (destruct k; reflexivity).
        rewrite (implicit_defs_ext ts (map df_name (evs ++ [implicit_def k n])) (n :: map df_name evs)) in M2, I2 by (intros m; rewrite map_app, in_app_iff; cbn [map In]; rewrite EN; tauto).
        set (new := implicit_defs (n :: map df_name evs) ts) in *. exists st2. split; [exact E2|]. split; [rewrite M2, M1, <- app_assoc; reflexivity|]. split; [congruence|]. split.
        -- rewrite <- app_assoc in I2. eapply lex_inv_ext; [|exact I2]. intros m. unfold adds. split.
           ++ intros [[H| ->]|(e' & H1 & H2 & H3)]; [auto|right; exists (implicit_def k n); split; [left; reflexivity|split; [auto|destruct k; discriminate]]|right; exists e'; split; [right; exact H1|auto]].
           ++ intros [H|(e' & [<-|H1] & H2 & H3)]; [auto|left; right; congruence|right; exists e'; auto].
        -- intros m Hm. rewrite S2 by (rewrite map_app; apply in_or_app; left; exact Hm). apply S1, Hm.
Qed.
Lemma run_implicit_defined ts : Forall implicit_ok ts -> forall st, exists st' m, each implicit_step ts st = Some st' /\ x_messages st' = x_messages st ++ m /\ x_exprs st' = x_exprs st.
Proof.
  induction 1 as [|[[k src] n] ts W F IH]; intros st; cbn [each]; [exists st, []; rewrite app_nil_r; auto|]. rewrite implicit_step_eq. destruct (match k, src with TName, _ :: _ => true | _, _ => false end); [apply IH|].
  cbn [implicit_ok] in W. destruct (implicit_token k n W) as (t & T & _). rewrite T. unfold implicit_symbol. destruct (0 <=? _); [apply IH|]. set (st0 := fold_left _ _ st). assert (M0 : x_messages st0 = x_messages st ++ warns (implicit_def k n) /\ x_exprs st0 = x_exprs st).
  { unfold st0, warns. destruct k; cbn [implicit_def df_lexeme lx_kind fold_left report x_messages x_exprs]; rewrite ?app_nil_r; auto. }
  destruct (add_named n (x_terms st0)) as [d s]. match goal with |- context [each implicit_step ts ?x] => destruct (IH x) as (st2 & m & E2 & M2 & X2) end. exists st2, (warns (implicit_def k n) ++ m). split; [exact E2|]. split; [rewrite M2; cbn; rewrite (proj1 M0), app_assoc; reflexivity|rewrite X2; apply M0].
Qed.
Lemma warns_no_error l m : In m (flat_map warns l) -> is_error m = false.
Proof. intros H. apply in_flat_map in H. destruct H as (e & _ & H). unfold warns in H. destruct (lx_kind _); try destruct H as [<-|[]]; try destruct H; reflexivity. Qed.

(** ** Expressions: lexer-symbols blocks *)
Definition expr_inv (sevs : list defn) (st : lex_state) : Prop :=
  msorted name_ltb (x_exprs st) /\ forall n, Forall2 describes_symbol (live n sevs) (entries n (x_exprs st)).
Definition expr_event (st : lex_state) (e : defn) : option lex_state := define_expression (mkBlock (df_weak e) (df_insensitive e) (df_sensitive e) []) st (df_lexeme e).
Lemma define_expressions_each l st : define_expressions (parse_language l) st = each expr_event (symbol_defs l) st.
Proof.
  unfold define_expressions, parse_language, symbol_defs, defs_where. rewrite each_map, each_flat. apply each_ext. rewrite Forall_forall. intros u _ st1. destruct u as [ty' b|d|p]; [|reflexivity|reflexivity].
  cbn [parse_unit block_defs]. destruct (_ =? _); [|reflexivity]. rewrite each_map. reflexivity.
Qed.
Definition expr_messages (st : lex_state) (x : lexeme) : list message :=
  match entries (lx_name x) (x_exprs st) with
  | _ :: _ => if negb (lx_add x) && negb (lx_replace x) then [DuplicateSymbol (lx_name x)] else []
  | [] => if lx_add x then [MissingForAdding (lx_name x)] else if lx_replace x then [MissingForReplacing (lx_name x)] else []
  end.
Definition with_x_messages m x := mkLex (x_terms x) (x_defs x) (x_exprs x) (x_weak x) (x_ignored x) (x_unused x) (x_type x) (x_where x) m.
Lemma define_expression_eq b st x t : token_of x = Some t ->
  define_expression b st x = Some (with_x_messages (x_messages st ++ expr_messages st x) (with_exprs (add_entry (lx_name x) (lb_insensitive b, lb_sensitive b, t) (if lx_replace x then merase name_ltb (lx_name x) (x_exprs st) else x_exprs st)) st)).
Proof.
  intros T. unfold define_expression, expr_messages. rewrite T. destruct (entries (lx_name x) (x_exprs st)), (lx_add x), (lx_replace x); cbn [negb andb]; unfold with_x_messages, with_exprs, report; cbn [x_terms x_defs x_exprs x_weak x_ignored x_unused x_type x_where x_messages]; rewrite ?app_nil_r; reflexivity.
Qed.
Lemma expr_inv_step e sevs st t : token_of (df_lexeme e) = Some t -> denotes (df_lexeme e) t -> expr_inv sevs st ->
  expr_inv (sevs ++ [e]) (with_exprs (add_entry (df_name e) (df_insensitive e, df_sensitive e, t) (if lx_replace (df_lexeme e) then merase name_ltb (df_name e) (x_exprs st) else x_exprs st)) st).
Proof.
  intros T D [S F]. assert (S2 : msorted name_ltb (if lx_replace (df_lexeme e) then merase name_ltb (df_name e) (x_exprs st) else x_exprs st)) by (destruct (lx_replace _); [apply (merase_sorted _ name_strict)|]; exact S).
  split; [apply (mset_sorted _ name_strict), S2|]. intros n. cbn [with_exprs x_exprs]. rewrite live_snoc, entries_add by exact S2. destruct (name_eqb (df_name e) n) eqn:E.
  - apply Forall2_app; [|constructor; [split; [exact D|reflexivity]|constructor]]. destruct (lx_replace _); [rewrite entries_erase by exact S; rewrite E; constructor|apply F].
  - destruct (lx_replace _); [rewrite entries_erase by exact S; rewrite E|]; apply F.
Qed.
Lemma expr_messages_spec e sevs st : expr_inv sevs st -> lx_add (df_lexeme e) && lx_replace (df_lexeme e) = false ->
  (allowed_def false sevs e /\ expr_messages st (df_lexeme e) = []) \/ (~ allowed_def false sevs e /\ error_in (expr_messages st (df_lexeme e))).
Proof.
  intros [S F] EXC. unfold allowed_def, expr_messages. change (lx_name (df_lexeme e)) with (df_name e). set (n := df_name e). specialize (F n).
  assert (KN : In n (map df_name sevs) <-> entries n (x_exprs st) <> []).
  { split.
    - intros H. destruct (live_exists n sevs H) as [d L]. destruct F; [destruct L|discriminate].
    - intros H. destruct (in_dec (list_eq_dec Z.eq_dec) n (map df_name sevs)) as [Y|N]; [exact Y|]. exfalso. apply H. rewrite (live_none n sevs N) in F. inversion F. reflexivity. }
  assert (ERR : forall m, is_error m = true -> error_in [m]) by (intros m H; exists m; split; [left; reflexivity|exact H]).
  destruct (entries n (x_exprs st)) as [|x xs] eqn:E.
  - destruct (lx_add _); [right; split; [intros [H _]; apply KN in H; congruence|apply ERR; reflexivity]|]. destruct (lx_replace _); [right; split; [intros H; apply KN in H; congruence|apply ERR; reflexivity]|].
    left. split; [intros H; apply KN in H; congruence|reflexivity].
  - assert (IN : In n (map df_name sevs)) by (apply KN; discriminate). destruct (lx_add _); cbn [negb andb]; [left; split; [split; [exact IN|discriminate]|reflexivity]|]. destruct (lx_replace _); cbn [negb]; [left; split; [exact IN|reflexivity]|].
    right. split; [intros H; exact (H IN)|apply ERR; reflexivity].
Qed.
(** Nothing but the expressions and the messages changes. *)
Definition only_exprs (st st' : lex_state) : Prop := exists x m, st' = with_x_messages m (with_exprs x st).
Lemma only_exprs_inv st st' evs explicit U : only_exprs st st' -> lex_inv evs explicit U st -> lex_inv evs explicit U st'.
Proof. intros (x & m & ->) I. constructor; apply I. Qed.
Lemma only_exprs_sym st st' n : only_exprs st st' -> sym st' n = sym st n.
Proof. intros (x & m & ->). reflexivity. Qed.
Lemma run_exprs_defined l : Forall (fun e => well_written (df_lexeme e)) l -> forall st, exists st' m, each expr_event l st = Some st' /\ x_messages st' = x_messages st ++ m /\ only_exprs st st'.
Proof.
  induction 1 as [|e l W F IH]; intros st; cbn [each].
  - exists st, []. rewrite app_nil_r. split; [reflexivity|]. split; [reflexivity|]. exists (x_exprs st), (x_messages st). destruct st; reflexivity.
  - destruct (token_denotes _ W) as (t & T & D). unfold expr_event at 1. rewrite (define_expression_eq _ st _ t T). match goal with |- context [each expr_event l ?x] => destruct (IH x) as (st2 & m & E2 & M2 & (x2 & m2 & X2)) end.
    eexists st2, _. split; [exact E2|]. split; [rewrite M2; cbn [with_x_messages x_messages]; rewrite <- app_assoc; reflexivity|]. rewrite X2. exists x2, m2. reflexivity.
Qed.
Lemma run_exprs l : Forall (fun e => well_written (df_lexeme e)) l -> forall sevs st, expr_inv sevs st ->
  exists st' m, each expr_event l st = Some st' /\ x_messages st' = x_messages st ++ m /\ only_exprs st st' /\
  ((consistent_from false sevs l /\ m = [] /\ expr_inv (sevs ++ l) st') \/ (~ consistent_from false sevs l /\ error_in m)).
Proof.
  induction 1 as [|e l W F IH]; intros sevs st I; cbn [each].
  - exists st, []. rewrite !app_nil_r. split; [reflexivity|]. split; [reflexivity|]. split; [exists (x_exprs st), (x_messages st); destruct st; reflexivity|]. left. split; [exact Logic.I|auto].
  - destruct (token_denotes _ W) as (t & T & D). unfold expr_event at 1. rewrite (define_expression_eq _ st _ t T). cbn [lb_insensitive lb_sensitive]. change (lx_name (df_lexeme e)) with (df_name e).
    set (st1 := with_x_messages _ _). assert (I1 : expr_inv (sevs ++ [e]) st1) by (destruct (expr_inv_step e sevs st t T D I) as [S1 F1]; split; assumption).
    assert (M1 : x_messages st1 = x_messages st ++ expr_messages st (df_lexeme e)) by reflexivity. assert (O1 : only_exprs st st1) by (eexists _, _; reflexivity). clearbody st1.
    destruct (IH (sevs ++ [e]) st1 I1) as (st2 & m & E2 & M2 & O2 & R). exists st2, (expr_messages st (df_lexeme e) ++ m). split; [exact E2|]. split; [rewrite M2, M1, app_assoc; reflexivity|].
    split; [destruct O1 as (x1 & m1 & ->), O2 as (x2 & m2 & ->); exists x2, m2; reflexivity|]. cbn [consistent_from]. destruct (expr_messages_spec e sevs st I (proj2 (proj2 W))) as [[A ME]|[A ME]].
    + rewrite ME. destruct R as [(C & -> & I2)|(C & ER)]; [left; split; [split; assumption|]; split; [reflexivity|]; rewrite <- app_assoc in I2; exact I2|right; split; [intros [_ H]; exact (C H)|exact ER]].
    + right. split; [intros [H _]; exact (A H)|]. destruct ME as (x & H1 & H2). exists x. split; [apply in_or_app; left; exact H1|exact H2].
Qed.

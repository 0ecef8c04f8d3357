(** Regular expressions and literals with the real case tables, and sets of tokens. *)
From Verif Require Import Base OrdMap SymbolSetModel SymbolSetSpec SymbolSetProofs SymbolMapModel SymbolMapSpec SymbolMapProofs
  NdfaModel NdfaSpec NdfaProofs TextModel TextSpec CaseTables TextProofs RegexModel RegexSpec RegexGraph RegexBuildProofs RegexParseProofs RegexProofs RegexDefsProofs.
Local Open Scope Z_scope.
Local Opaque lowercase_map uppercase_map.

(** ** The tables *)
Lemma table_images t : t = uppercase_map \/ t = lowercase_map -> forall x, universe x -> universe (case_of t x).
Proof.
  intros T x U. assert (B : forallb (fun e => (0 <=? e_to e) && (e_to e + (e_upper e - e_lower e) <=? 0x20000))%bool t = true) by (destruct T as [ -> | -> ]; vm_compute; reflexivity).
  rewrite forallb_forall in B. clear T. induction t as [|e t IH]; cbn [case_of]; [exact U|].
  destruct (Z.leb_spec (e_lower e) x); destruct (Z.ltb_spec x (e_upper e)); cbn [andb]; try (apply IH; intros y Y; apply B; right; exact Y).
  specialize (B e (or_introl eq_refl)). rewrite Bool.andb_true_iff in B. destruct B as [B1 B2]. apply Z.leb_le in B1, B2. unfold universe, c_MaxSymbol in *. lia.
Qed.

Lemma case_safe_straddle s t : normal s -> t = uppercase_map \/ t = lowercase_map -> case_safe (fun x => contains s x = true) -> no_straddle t s.
Proof.
  intros N T C r e IR IE (H1 & H2). pose proof (normal_wf s N) as W.
  assert (IE2 : In e (lowercase_map ++ uppercase_map)) by (apply in_or_app; destruct T as [ -> | -> ]; auto).
  apply (C e (lo r) IE2 H1).
  - rewrite (contains_spec s _ W). intros (r2 & I2 & R2). unfold in_range in R2. destruct W as [Wn Ws].
    assert (SEP : r = r2 \/ sep r r2 \/ sep r2 r).
    { clear - Ws IR I2. induction Ws as [|a l Ws IH F]; [destruct IR|]. rewrite Forall_forall in F. destruct IR as [->|IR]; destruct I2 as [->|I2]; auto. }
    rewrite Forall_forall in Wn. pose proof (Wn r IR) as Nr. pose proof (Wn r2 I2) as Nr2. unfold sep, ne in *. destruct SEP as [ <- | [SEP|SEP]]; lia.
  - intros y Y. apply (contains_spec s y W). exists r. split; [exact IR|]. unfold in_range. lia.
Qed.

Lemma case_table s t : normal s -> t = uppercase_map \/ t = lowercase_map -> case_safe (fun x => contains s x = true) ->
  exists res, to_case t s = Some res /\ normal res /\ forall y, contains res y = true <-> exists x, contains s x = true /\ y = case_of t x.
Proof.
  intros N T C. pose proof (case_safe_straddle s t N T C) as NS. pose proof (normal_wf s N) as W.
  destruct (convert_ranges_spec t (table_sorted t T) s [] wf_nil (Forall_valid_ne _ (proj1 N)) NS) as (res & E & Wr & M).
  exists res. split; [exact E|].
  assert (MM : forall y, contains res y = true <-> exists x, contains s x = true /\ y = case_of t x).
  { intros y. rewrite (contains_spec res y Wr), M, mem_nil. split.
    - intros [[]|(x & X & <-)]. exists x. split; [apply contains_spec; assumption|reflexivity].
    - intros (x & X & ->). right. exists x. split; [apply contains_spec; assumption|reflexivity]. }
  split; [|exact MM]. apply normal_of_wf; [exact Wr|]. intros y Y. apply (contains_spec res y Wr), MM in Y as (x & X & ->).
  apply (table_images t T). apply (normal_universe s x N). apply contains_spec; assumption.
Qed.

Lemma case_safe_ext P Q : (forall x, P x <-> Q x) -> case_safe P -> case_safe Q.
Proof. intros E C e x I1 I2 NP A. apply (C e x I1 I2); [rewrite E; exact NP|]. intros y Y. apply E, A, Y. Qed.

Lemma lower_facts s : normal s -> case_safe (fun x => contains s x = true) ->
  normal (lower_case s) /\ forall x, contains (lower_case s) x = true <-> exists y, contains s y = true /\ x = low y.
Proof. intros N C. destruct (case_table s lowercase_map N (or_intror eq_refl) C) as (res & E & X). unfold lower_case. rewrite E. exact X. Qed.
Lemma upper_facts s : normal s -> case_safe (fun x => contains s x = true) ->
  normal (upper_case s) /\ forall x, contains (upper_case s) x = true <-> exists y, contains s y = true /\ x = up y.
Proof. intros N C. destruct (case_table s uppercase_map N (or_introl eq_refl) C) as (res & E & X). unfold upper_case. rewrite E. exact X. Qed.

(** ** Single characters *)
Lemma single_safe c : case_safe (fun x => x = c).
Proof. intros e x _ B _ A. pose proof (A x ltac:(lia)). pose proof (A (e_upper e) ltac:(lia)). lia. Qed.

(** Beyond 0xffff the tables never move a character by one, and no character is in both. *)
Lemma high_case t c : t = uppercase_map \/ t = lowercase_map ->
  case_of t c = c \/ (c < 0x10000 /\ case_of t c < 0x10000) \/ (0x10000 <= c /\ 0x10000 <= case_of t c /\ (case_of t c < c - 1 \/ c + 1 < case_of t c) /\
    exists e, In e t /\ e_lower e <= c < e_upper e).
Proof.
  intros T. assert (B : forallb (fun e => ((e_upper e <=? 0x10000) && (e_to e + (e_upper e - e_lower e) <=? 0x10000)) ||
    ((0x10000 <=? e_lower e) && (0x10000 <=? e_to e) && ((e_to e <? e_lower e - 1) || (e_lower e + 1 <? e_to e))))%bool t = true) by (destruct T as [ -> | -> ]; vm_compute; reflexivity).
  rewrite forallb_forall in B. clear T. induction t as [|e t IH]; cbn [case_of]; [auto|].
  destruct (Z.leb_spec (e_lower e) c); destruct (Z.ltb_spec c (e_upper e)); cbn [andb];
    try (destruct (IH (fun y Y => B y (or_intror Y))) as [?|[?|(? & ? & ? & e' & I' & ?)]]; [auto|auto|right; right; repeat split; auto; exists e'; split; [right; exact I'|lia]]).
  specialize (B e (or_introl eq_refl)). rewrite Bool.orb_true_iff, !Bool.andb_true_iff, Bool.orb_true_iff in B. rewrite !Z.leb_le, !Z.ltb_lt in B.
  destruct B as [B|B]; [right; left; lia|]. right; right. split; [lia|]. split; [lia|]. split; [lia|]. exists e. split; [left; reflexivity|lia].
Qed.

Lemma high_disjoint c e f : 0x10000 <= c -> In e lowercase_map -> In f uppercase_map -> e_lower e <= c < e_upper e -> e_lower f <= c < e_upper f -> False.
Proof.
  assert (B : forallb (fun e => if e_upper e <=? 0x10000 then true else forallb (fun f => (e_upper f <=? e_lower e) || (e_upper e <=? e_lower f))%bool uppercase_map) lowercase_map = true) by (vm_compute; reflexivity).
  rewrite forallb_forall in B. intros H I1 I2 C1 C2. specialize (B e I1). destruct (Z.leb_spec (e_upper e) 0x10000); [lia|]. rewrite forallb_forall in B.
  specialize (B f I2). rewrite Bool.orb_true_iff, !Z.leb_le in B. lia.
Qed.

Lemma single_unsplit nocase c : unsplit (any_case nocase low up (fun x => x = c)).
Proof.
  intros x (y1 & -> & S1) (y2 & -> & S2) H1 H2. unfold same_char in S1, S2. exfalso.
  assert (LL := high_case lowercase_map c (or_intror eq_refl)). assert (UU := high_case uppercase_map c (or_introl eq_refl)). change (case_of lowercase_map c) with (low c) in LL. change (case_of uppercase_map c) with (up c) in UU.
  assert (D : low c = c \/ up c = c \/ c < 0x10000 \/ False).
  { destruct LL as [E|[L|(L1 & _ & _ & e & I1 & C1)]]; [left; exact E|right; right; left; exact (proj1 L)|].
    destruct UU as [E|[U|(U1 & _ & _ & f & I2 & C2)]]; [right; left; exact E|right; right; left; exact (proj1 U)|].
    exfalso. apply (high_disjoint c e f L1 I1 I2 C1 C2). }
  assert (LX : low c = c \/ (c < 0x10000 /\ low c < 0x10000) \/ (0x10000 <= c /\ (low c < c - 1 \/ c + 1 < low c))) by (destruct LL as [X|[X|(X1 & X2 & X3 & _)]]; [left; exact X|right; left; exact X|right; right; exact (conj X1 X3)]).
  assert (UX : up c = c \/ (c < 0x10000 /\ up c < 0x10000) \/ (0x10000 <= c /\ (up c < c - 1 \/ c + 1 < up c))) by (destruct UU as [X|[X|(X1 & X2 & X3 & _)]]; [left; exact X|right; left; exact X|right; right; exact (conj X1 X3)]).
  clear LL UU. revert S1 S2 D LX UX H1 H2. generalize (low c) (up c). intros l u S1 S2 D LX UX H1 H2. destruct S1 as [S1|(_ & [S1|S1])]; destruct S2 as [S2|(_ & [S2|S2])]; lia.
Qed.

Lemma single_chars surr nocase c : chars_ok surr nocase low up case_safe (fun x => x = c).
Proof. split; intros _; [apply single_safe|apply single_unsplit]. Qed.

(** ** Accept actions *)
Section Accept.
  Context {A : Type}.

  Lemma actions_accept (d : ndfa A) q a q' : ndfa_ok d -> (q < count_states d)%nat ->
    forall x, In x (actions_for_state (accept d q a) q') <-> In x (actions_for_state d q') \/ (q' = q /\ x = a).
  Proof.
    intros OK L x. unfold actions_for_state, accept. cbn [n_accept]. change (count_states (mkN (n_states d) (n_symbols d) (acc_push (n_accept d) q a))) with (count_states d).
    unfold acc_push. destruct (Nat.leb_spec (count_states d) q') as [X|X]; [split; [intros []|intros [[]|[-> _]]; lia]|].
    destruct (Nat.eq_dec q' q) as [->|NE].
    - rewrite (mfind_mset_same _ natltb_strict) by apply OK. rewrite in_app_iff. cbn [In]. intuition congruence.
    - rewrite (mfind_mset_other _ natltb_strict) by (try apply OK; exact NE). intuition congruence.
  Qed.

  Lemma accept_path (d : ndfa A) f a q w q' : path (accept d f a) q w q' <-> path d q w q'.
  Proof. rewrite !path_gpath. reflexivity. Qed.

  Lemma accept_range (d : ndfa A) q a : ndfa_ok d -> accept_in_range d -> (q < count_states d)%nat -> accept_in_range (accept d q a).
  Proof.
    intros [_ _ _ OA] R L x H. change (count_states (accept d q a)) with (count_states d). cbn [accept n_accept] in H. unfold acc_push in H.
    apply in_map_iff in H as ([k v] & <- & H). cbn [fst]. apply (mset_in _ natltb_strict) in H; [|exact OA]. destruct H as [E|[H _]]; [injection E as -> _; exact L|]. apply R. apply (in_map fst) in H. exact H.
  Qed.

  (** What a token adds. *)
  Lemma added_accepts (d d' : ndfa A) final a (L : lang) (init : nat) : ndfa_ok d -> ndfa_ok d' -> accept_in_range d -> n_accept d' = n_accept d ->
    (count_states d <= count_states d')%nat -> (final < count_states d')%nat ->
    (forall q w, (q < count_states d)%nat -> path d' q w final <-> exists u v, w = u ++ v /\ path d q u init /\ L v) ->
    (forall q q' w, (q < count_states d)%nat -> (q' < count_states d)%nat -> path d' q w q' <-> path d q w q') ->
    forall q w x, (q < count_states d)%nat ->
      accepts (accept d' final a) q w x <-> accepts d q w x \/ (x = a /\ exists u v, w = u ++ v /\ path d q u init /\ L v).
  Proof.
    intros OK OK' R EA LC LF P1 P2 q w x Lq. unfold accepts. split.
    - intros (q' & P & I). rewrite accept_path in P. apply (actions_accept d' final a q' OK' LF) in I as [I|(-> & ->)].
      + left. assert (AC : In x (match mfind Nat.ltb q' (n_accept d) with Some l => l | None => [] end)).
        { unfold actions_for_state in I. rewrite EA in I. destruct (Nat.leb (count_states d') q'); [destruct I|exact I]. }
        assert (Lq' : (q' < count_states d)%nat).
        { destruct (mfind Nat.ltb q' (n_accept d)) as [l|] eqn:E; [|destruct AC]. apply R. apply (mfind_in _ natltb_strict) in E; [|apply OK]. apply (in_map fst) in E. exact E. }
        exists q'. split; [apply P2; assumption|]. unfold actions_for_state. destruct (Nat.leb_spec (count_states d) q'); [lia|exact AC].
      + right. split; [reflexivity|]. apply P1; assumption.
    - intros [(q' & P & I)|(-> & E)].
      + assert (Lq' : (q' < count_states d)%nat).
        { unfold actions_for_state in I. destruct (Nat.leb_spec (count_states d) q') as [X|X]; [destruct I|exact X]. }
        exists q'. rewrite accept_path. split; [apply P2; assumption|]. apply (actions_accept d' final a q' OK' LF). left.
        unfold actions_for_state in *. rewrite EA. destruct (Nat.leb_spec (count_states d) q') as [X|X]; [destruct I|]. destruct (Nat.leb_spec (count_states d') q'); [lia|exact I].
      + exists final. rewrite accept_path. split; [apply P1; assumption|]. apply (actions_accept d' final a final OK' LF). auto.
  Qed.
End Accept.

(** ** Tokens *)
Section Tokens.
  Context {A : Type} (expressions literals : list Z -> option (list Z)) (category : list Z -> option symbol_set)
    (defined : list Z -> list (bool * bool * token)) (surr : bool).
  Notation add_token := (add_token (A := A) expressions literals category defined).
  Notation add_tokens := (add_tokens (A := A) expressions literals category defined).
  Notation tree_ok := (tree_ok expressions literals category defined surr).
  Notation tree_matches := (tree_matches surr).

  Definition top_or (t : tree) : bool := match t with TRegex r => is_or r | TLiteral _ => false end.

  Lemma accept_ok (d : ndfa A) q a : ndfa_ok d -> ndfa_ok (accept d q a).
  Proof. intros OK. exact (do_op_ok d (OpAccept q a) I OK). Qed.

  (** With one more token, the automaton accepts its words behind whatever leads to the initial
      state, and otherwise what it accepted before. *)
  Lemma token_lemma nocase (t : tree) (a : A) (d : ndfa A) (init : nat) :
    ndfa_ok d -> accept_in_range d -> (init < count_states d)%nat -> tree_ok nocase t -> (init = 0%nat \/ top_or t = false) ->
    exists d' fuel0, (forall fuel, (fuel0 <= fuel)%nat -> add_token fuel d surr nocase init (tree_text t) a = Some d') /\
      ndfa_ok d' /\ accept_in_range d' /\ (count_states d <= count_states d')%nat /\
      (forall q q' w, (q < count_states d)%nat -> (q' < count_states d)%nat -> path d' q w q' <-> path d q w q') /\
      forall q w x, (q < count_states d)%nat ->
        accepts d' q w x <-> accepts d q w x \/ (x = a /\ exists u v, w = u ++ v /\ path d q u init /\ tree_matches nocase t v).
  Proof.
    intros OK R LI TO TOP. destruct t as [r|word]; cbn [tree_text RegexSpec.tree_matches RegexSpec.tree_ok top_or] in *.
    - destruct TO as (W & S).
      destruct (regex_lemma lower_case upper_case expressions literals category defined surr low up case_safe ltac:(vm_compute; reflexivity) ltac:(vm_compute; reflexivity)
        case_safe_ext lower_facts upper_facts nocase r d init OK LI W S TOP) as (d' & final & k & E & OK' & EA & LF & P1 & P2).
      exists (accept d' final a), k. split.
      { intros fuel L. cbn [RegexModel.add_token]. rewrite (E fuel L). reflexivity. }
      split; [apply accept_ok, OK'|]. assert (R' : accept_in_range d') by (intros q Q; rewrite EA in Q; specialize (R q Q); lia).
      split; [apply accept_range; [exact OK'|exact R'|lia]|]. split; [change (count_states (accept d' final a)) with (count_states d'); lia|]. split.
      + intros q q' w Q1 Q2. rewrite accept_path. apply P2; assumption.
      + apply (added_accepts d d' final a _ init OK OK' R EA); [lia|lia|exact P1|exact P2].
    - destruct word as [|c word].
      + exists (accept d init a), O. split.
        { intros fuel _. cbn [RegexModel.add_token]. unfold add_literal. destruct (Nat.leb_spec (count_states d) init); [lia|]. reflexivity. }
        split; [apply accept_ok, OK|]. split; [apply accept_range; [exact OK|exact R|exact LI]|]. split; [apply le_n|]. split; [intros; apply accept_path|].
        apply (added_accepts d d init a _ init OK OK R eq_refl); [lia|exact LI| |tauto]. intros q w Q. cbn [l_word]. split.
        * intros P. exists w, []. rewrite app_nil_r. auto.
        * intros (u & v & -> & P & ->). rewrite app_nil_r. exact P.
      + assert (FW : Forall (fun c => 0 <= c < c_MaxSymbol /\ chars_ok surr nocase low up case_safe (fun x => x = c)) (c :: word)).
        { apply Forall_forall. intros x X. rewrite Forall_forall in TO. split; [apply TO, X|apply single_chars]. }
        destruct (literal_lemma lower_case upper_case expressions literals category defined surr nocase low up case_safe case_safe_ext lower_facts upper_facts (c :: word) d init OK LI ltac:(discriminate) FW)
          as (final & d' & E & OK' & EA & LF & P1 & P2).
        exists (accept d' final a), O. split.
        { intros fuel _. cbn [RegexModel.add_token]. rewrite E. reflexivity. }
        split; [apply accept_ok, OK'|]. assert (R' : accept_in_range d') by (intros q Q; rewrite EA in Q; specialize (R q Q); lia).
        split; [apply accept_range; [exact OK'|exact R'|lia]|]. split; [change (count_states (accept d' final a)) with (count_states d'); lia|]. split.
        * intros q q' w Q1 Q2. rewrite accept_path. apply P2; assumption.
        * apply (added_accepts d d' final a _ init OK OK' R EA); [lia|lia|exact P1|exact P2].
  Qed.

  (** A set of tokens *)
  Lemma tokens_lemma (ts : list (bool * tree * A)) : Forall (fun t => tree_ok (fst (fst t)) (snd (fst t))) ts -> forall d : ndfa A, ndfa_ok d -> accept_in_range d -> (0 < count_states d)%nat ->
    (forall w, path d 0 w 0 -> w = []) ->
    exists d' fuel0, (forall fuel, (fuel0 <= fuel)%nat -> add_tokens fuel d surr (map (fun t => (fst (fst t), tree_text (snd (fst t)), snd t)) ts) = Some d') /\
      ndfa_ok d' /\ accept_in_range d' /\ forall w x, accepts d' 0 w x <-> accepts d 0 w x \/ exists nocase t, In (nocase, t, x) ts /\ tree_matches nocase t w.
  Proof.
    induction ts as [|[[nc t] a] ts IH]; intros F d OK R L0 P0.
    - exists d, O. split; [reflexivity|]. split; [exact OK|]. split; [exact R|]. intros w x. split; [auto|]. intros [X|(nc & t & [] & _)]. exact X.
    - apply Forall_cons_iff in F as [TO F]. cbn [fst snd] in TO.
      destruct (token_lemma nc t a d 0%nat OK R L0 TO (or_introl eq_refl)) as (d1 & k1 & E1 & OK1 & R1 & LC & P1 & A1).
      destruct (IH F d1 OK1 R1 ltac:(lia)) as (d2 & k2 & E2 & OK2 & R2 & A2).
      { intros w P. apply P0. apply P1; assumption. }
      exists d2, (max k1 k2). split.
      { intros fuel LF. cbn [map fst snd RegexModel.add_tokens]. rewrite E1 by lia. apply E2. lia. }
      split; [exact OK2|]. split; [exact R2|]. intros w x. rewrite A2, (A1 0%nat w x L0). split.
      + intros [[X|(-> & u & v & -> & P & M)]|(nc' & t' & I & M)]; [auto| |right; exists nc', t'; split; [right; exact I|exact M]].
        right. exists nc, t. apply P0 in P. subst u. split; [left; reflexivity|exact M].
      + intros [X|(nc' & t' & [E|I] & M)]; [auto| |right; exists nc', t'; auto]. injection E as -> -> ->. left. right. split; [reflexivity|].
        exists [], w. split; [reflexivity|]. split; [constructor|exact M].
  Qed.

  Lemma lexer_tokens_lemma (ts : list (bool * tree * A)) : Forall (fun t => tree_ok (fst (fst t)) (snd (fst t))) ts ->
    exists d fuel0, (forall fuel, (fuel0 <= fuel)%nat -> add_tokens fuel ndfa_new surr (map (fun t => (fst (fst t), tree_text (snd (fst t)), snd t)) ts) = Some d) /\
      ndfa_ok d /\ forall w x, accepts d 0 w x <-> exists nocase t, In (nocase, t, x) ts /\ tree_matches nocase t w.
  Proof.
    intros F. destruct (tokens_lemma ts F ndfa_new ndfa_new_ok) as (d & k & E & OK & _ & AC).
    - intros q [].
    - cbn. lia.
    - intros w P. inversion P as [|? ? ? ? ? X|? ? ? ? ? ? X]; [reflexivity|destruct X|destruct X].
    - exists d, k. split; [exact E|]. split; [exact OK|]. intros w x. rewrite AC. split; [|auto]. intros [(q & _ & X)|X]; [|exact X].
      unfold actions_for_state in X. destruct (Nat.leb _ _); destruct X.
  Qed.
End Tokens.

(** ** One transition, and a bound for the states that are reached *)
Section Bound.
  Context {A : Type}.
  Definition inside (s : list nat) (q : nat) : bool := existsb (Nat.eqb q) s.
  Definition closed (d : ndfa A) (s : list nat) : bool :=
    forallb (fun q => forallb (fun tr => match sm_get (n_symbols d) (fst tr) with [] => inside s (snd tr) | _ => true end) (get_state d q)) s.
  Definition steps (d : ndfa A) (s : list nat) (x : Z) (s' : list nat) : bool :=
    forallb (fun q => forallb (fun tr => negb (contains (sm_get (n_symbols d) (fst tr)) x) || inside s' (snd tr))%bool (get_state d q)) s.
  Fixpoint bounds (d : ndfa A) (s : list nat) (w : list Z) (ss : list (list nat)) : bool :=
    match w, ss with
    | [], [] => closed d s
    | x :: w, s' :: ss => closed d s && steps d s x s' && bounds d s' w ss
    | _, _ => false
    end.

  Lemma inside_spec s q : inside s q = true <-> In q s.
  Proof. unfold inside. rewrite existsb_exists. split; [intros (x & I & E); apply Nat.eqb_eq in E; subst; exact I|intros I; exists q; split; [exact I|apply Nat.eqb_refl]]. Qed.

  Lemma bounds_spec (d : ndfa A) q w q' : path d q w q' -> forall s ss, In q s -> bounds d s w ss = true -> In q' (last ss s).
  Proof.
    induction 1 as [q|q id r w q' I E P IH|q id r x w q' I E P IH]; intros s ss IQ B.
    - destruct ss; [exact IQ|discriminate B].
    - apply IH; [|exact B]. assert (C : closed d s = true) by (destruct w, ss; cbn [bounds] in B; try discriminate B; [exact B|rewrite !Bool.andb_true_iff in B; tauto]).
      unfold closed in C. rewrite forallb_forall in C. specialize (C q IQ). rewrite forallb_forall in C. specialize (C (id, r) I). cbn [fst snd] in C. rewrite E in C. apply inside_spec, C.
    - destruct ss as [|s' ss]; [discriminate B|]. cbn [bounds] in B. rewrite !Bool.andb_true_iff in B. destruct B as [[B1 B2] B3].
      replace (last (s' :: ss) s) with (last ss s') by (destruct ss as [|s2 ss2]; [reflexivity|]; cbn [last]; clear; revert s2; induction ss2 as [|y l IHl]; intros s2; [reflexivity|]; exact (IHl y)).
      apply (IH s' ss); [|exact B3]. unfold steps in B2. rewrite forallb_forall in B2. specialize (B2 q IQ). rewrite forallb_forall in B2. specialize (B2 (id, r) I). cbn [fst snd] in B2.
      rewrite E in B2. apply inside_spec, B2.
  Qed.

  Lemma rejects (d : ndfa A) w s ss : inside s 0 = true -> bounds d s w ss = true ->
    forallb (fun q => match actions_for_state d q with [] => true | _ => false end) (last ss s) = true -> forall a, ~ accepts d 0 w a.
  Proof.
    intros I0 B F a (q & P & I). pose proof (bounds_spec d _ _ _ P s ss (proj1 (inside_spec s 0) I0) B) as IQ. rewrite forallb_forall in F. specialize (F q IQ). 
    destruct (actions_for_state d q); [destruct I|discriminate F].
  Qed.

  (** A path given by the numbers of the transitions *)
  Fixpoint walk (d : ndfa A) (q : nat) (w : list Z) (cert : list nat) : option nat :=
    match cert with
    | [] => match w with [] => Some q | _ => None end
    | i :: cert => match nth_error (get_state d q) i with
                   | None => None
                   | Some (id, r) => match sm_get (n_symbols d) id, w with
                                     | [], _ => walk d r w cert
                                     | s, x :: w => if contains s x then walk d r w cert else None
                                     | _, [] => None
                                     end
                   end
    end.
  Lemma walk_path (d : ndfa A) cert : forall q w q', walk d q w cert = Some q' -> path d q w q'.
  Proof.
    induction cert as [|i cert IH]; intros q w q' H; cbn [walk] in H.
    - destruct w; [|discriminate H]. injection H as <-. constructor.
    - destruct (nth_error (get_state d q) i) as [[id r]|] eqn:E; [|discriminate H]. apply nth_error_In in E.
      destruct (sm_get (n_symbols d) id) as [|r0 s] eqn:ES; [eapply path_eps; eauto|]. destruct w as [|x w]; [discriminate H|].
      destruct (contains (r0 :: s) x) eqn:C; [|discriminate H]. eapply path_sym; [exact E|rewrite ES; exact C|apply IH, H].
  Qed.
End Bound.

Section Surrogates.
  Context {A : Type}.
  Lemma surrogates_lemma (s : symbol_set) (d : ndfa A) (init : nat) : ndfa_ok d -> (init < count_states d)%nat -> normal s -> s <> [] ->
    unsplit (fun x => contains s x = true) ->
    let b := shift lower_case upper_case (builder_at d true false init) s in
    (count_states d <= b_cur b)%nat /\
    (forall q w, (q < count_states d)%nat -> path (b_nfa b) q w (b_cur b) <->
       exists u x, w = u ++ utf16 x /\ path d q u init /\ contains s x = true /\ x < 0x110000) /\
    (forall q q' w, (q < count_states d)%nat -> (q' < count_states d)%nat -> path (b_nfa b) q w q' <-> path d q w q').
  Proof.
    intros OK LI N NE US b.
    destruct (add_symbols_grows (builder_at d true false init) s OK N NE LI eq_refl (fun _ => US)) as (F & d' & E & GR & LT & FR). cbn [builder_at b_nfa b_cur] in GR, LT, FR.
    assert (EB : b = mkB d' (count_states d) None init true false false []) by exact E. rewrite EB. 
    destruct (added_paths d (mkB d' (count_states d) None init true false false []) F init _ _ _ OK LI GR FR eq_refl) as (LE & P1 & P2). split; [apply LE|]. split; [|exact P2].
    intros q w Lq. rewrite (P1 q w Lq). unfold units. split.
    - intros (u & v & -> & P & x & C & L & ->). exists u, x. auto.
    - intros (u & x & -> & P & C & L). exists u, (utf16 x). split; [reflexivity|]. split; [exact P|]. exists x. split; [exact C|]. split; [exact L|reflexivity].
  Qed.
End Surrogates.

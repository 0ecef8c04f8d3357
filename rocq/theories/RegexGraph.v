(** Graphs whose edges carry symbol sets, and fragments of them that read a language. *)
From Verif Require Import Base SymbolSetModel TextSpec RegexSpec.
Local Open Scope Z_scope.

Definition graph := nat -> symbol_set -> nat -> Prop.

Inductive gpath (G : graph) : nat -> list Z -> nat -> Prop :=
| gp_nil q : gpath G q [] q
| gp_eps q r w q' : G q [] r -> gpath G r w q' -> gpath G q w q'
| gp_sym q t r x w q' : G q t r -> contains t x = true -> gpath G r w q' -> gpath G q (x :: w) q'.

Definition gsub (F G : graph) : Prop := forall q t r, F q t r -> G q t r.
Definition gunion (F G : graph) : graph := fun q t r => F q t r \/ G q t r.
Definition gempty : graph := fun _ _ _ => False.
Definition gedge (a : nat) (s : symbol_set) (b : nat) : graph := fun q t r => q = a /\ t = s /\ r = b.

Lemma gpath_mono F G : gsub F G -> forall q w r, gpath F q w r -> gpath G q w r.
Proof. intros S q w r H. induction H; [constructor|eapply gp_eps; eauto|eapply gp_sym; eauto]. Qed.

Lemma gpath_app (G : graph) q u r v s : gpath G q u r -> gpath G r v s -> gpath G q (u ++ v) s.
Proof. intros H. revert v s. induction H; intros v s H2; cbn; [exact H2|eapply gp_eps; eauto|eapply gp_sym; eauto]. Qed.

(** One edge: the word it reads. *)
Definition reads (t : symbol_set) (u : list Z) : Prop := (t = [] /\ u = []) \/ exists x, contains t x = true /\ u = [x].

Lemma gpath_step (G : graph) q t u r v s : G q t r -> reads t u -> gpath G r v s -> gpath G q (u ++ v) s.
Proof. intros E [[-> ->]|(x & C & ->)] P; cbn; [eapply gp_eps; eauto|eapply gp_sym; eauto]. Qed.

Lemma gpath_ind2 (G : graph) (q' : nat) (P : nat -> list Z -> Prop) :
  P q' [] ->
  (forall q t u r w, G q t r -> reads t u -> gpath G r w q' -> P r w -> P q (u ++ w)) ->
  forall q w, gpath G q w q' -> P q w.
Proof.
  intros H0 HS q w H. remember q' as e eqn:E. revert E. induction H; intros ->.
  - exact H0.
  - apply (HS q [] [] r w); auto. left. auto.
  - apply (HS q t [x] r w); auto. right. exists x. auto.
Qed.

(** [F] reads [L] from [s] to [e]; its other nodes are those of [I].  The flags promise that no
    edge enters [s], no edge leaves [e], and that [s] and [e] differ (when [no] is false). *)
Record frag (F : graph) (I : nat -> Prop) (s e : nat) (L : lang) (bf ef no : bool) : Prop := {
  fr_s : ~ I s;
  fr_e : e = s \/ I e;
  fr_edge : forall q t r, F q t r -> (q = s \/ I q) /\ (r = s \/ I r);
  fr_in : bf = true -> forall q t, ~ F q t s;
  fr_out : ef = true -> forall t r, ~ F e t r;
  fr_same : no = false -> e <> s;
  fr_lang : forall w, gpath F s w e <-> L w }.

Lemma frag_ext F I s e L bf ef no F' I' L' : frag F I s e L bf ef no ->
  (forall q t r, F' q t r <-> F q t r) -> (forall q, I' q <-> I q) -> (forall w, L' w <-> L w) -> frag F' I' s e L' bf ef no.
Proof.
  intros [A B C D E G H] EF EI EL. constructor.
  - rewrite EI. exact A.
  - rewrite EI. exact B.
  - intros q t r X. apply EF in X. rewrite !EI. exact (C q t r X).
  - intros X q t Y. apply EF in Y. exact (D X q t Y).
  - intros X t r Y. apply EF in Y. exact (E X t r Y).
  - exact G.
  - intros w. rewrite EL, <- H. split; apply gpath_mono; intros q t r; apply EF.
Qed.

(** Flags may be weakened. *)
Lemma frag_weak F I s e L bf ef no bf' ef' no' : frag F I s e L bf ef no ->
  (bf' = true -> bf = true) -> (ef' = true -> ef = true) -> (no' = false -> no = false) -> frag F I s e L bf' ef' no'.
Proof. intros [A B C D E G H] X Y Z. constructor; auto. Qed.

Lemma frag_empty s : frag gempty (fun _ => False) s s (fun w => w = []) true true true.
Proof.
  constructor.
  - intros [].
  - auto.
  - intros q t r [].
  - intros _ q t [].
  - intros _ t r [].
  - discriminate.
  - intros w. split; [|intros ->; constructor]. intros H. inversion H as [|? ? ? ? []|? ? ? ? ? ? []]. reflexivity.
Qed.

(** One edge to a new node. *)
Lemma frag_edge s t n : s <> n -> frag (gedge s t n) (fun q => q = n) s n (reads t) true true false.
Proof.
  intros N. constructor.
  - exact N.
  - auto.
  - intros q t' r (-> & _ & ->). auto.
  - intros _ q t' (_ & _ & ->). congruence.
  - intros _ t' r (-> & _). congruence.
  - congruence.
  - intros w. split.
    + intros H. inversion H as [|? r ? ? E P|? u r x ? ? E C P]; subst; [congruence| |]; destruct E as (_ & <- & ->);
        (inversion P as [|? ? ? ? (X & _)|? ? ? ? ? ? (X & _)]; [|congruence|congruence]); [left; auto|right; exists x; auto].
    + intros H. replace w with (w ++ []) by apply app_nil_r. eapply gpath_step; [split; [reflexivity|split; reflexivity]|exact H|constructor].
Qed.

(** Concatenation. *)
Lemma frag_cat F1 I1 s m L1 bf1 ef1 no1 F2 I2 e L2 bf2 ef2 no2 :
  frag F1 I1 s m L1 bf1 ef1 no1 -> frag F2 I2 m e L2 bf2 ef2 no2 ->
  (forall q, I1 q -> I2 q -> False) -> ~ I2 s -> (ef1 || bf2)%bool = true ->
  frag (gunion F1 F2) (fun q => I1 q \/ I2 q) s e (l_cat L1 L2)
       (bf1 && (negb no1 || bf2))%bool (ef2 && (negb no2 || ef1))%bool (no1 && no2)%bool.
Proof.
  intros [S1 E1 G1 N1 O1 Q1 P1] [S2 E2 G2 N2 O2 Q2 P2] D DS FL.
  assert (V1 : forall q, q = s \/ I1 q -> q = m \/ I2 q -> q = m).
  { intros q [->|X] [Y|Y]; auto; [contradiction|destruct (D q X Y)]. }
  constructor.
  - intros [X|X]; auto.
  - destruct E2 as [->|X]; [destruct E1 as [->|Y]; auto|auto].
  - intros q t r [X|X]; [destruct (G1 q t r X) as [[->|Y] [->|Z]]; auto|].
    destruct (G2 q t r X) as [Y Z]. split; [destruct Y as [->|Y]|destruct Z as [->|Z]]; auto; destruct E1 as [->|W]; auto.
  - intros X q t [Y|Y]; apply andb_prop in X as [X1 X2]; [exact (N1 X1 q t Y)|].
    destruct (G2 q t s Y) as [_ [Z|Z]]; [|contradiction]. apply orb_prop in X2 as [X2|X2].
    + apply Bool.negb_true_iff in X2. apply (Q1 X2). congruence.
    + apply (N2 X2 q t). rewrite <- Z. exact Y.
  - intros X t r [Y|Y]; apply andb_prop in X as [X1 X2]; [|exact (O2 X1 t r Y)].
    assert (Z : e = m) by (apply V1; [apply (G1 e t r Y)|exact E2]). apply orb_prop in X2 as [X2|X2].
    + apply Bool.negb_true_iff in X2. exact (Q2 X2 Z).
    + apply (O1 X2 t r). rewrite <- Z. exact Y.
  - intros X Y. subst e. apply Bool.andb_false_iff in X as [X|X].
    + apply (Q1 X). destruct E2 as [Z|Z]; [congruence|contradiction].
    + apply (Q2 X). apply V1; [auto|exact E2].
  - intros w. split.
    + intros H.
      assert (J : exists u v, w = u ++ v /\ gpath F1 s u m /\ gpath F2 m v e).
      { apply orb_prop in FL as [FL|FL].
        - (* nothing leaves m inside F1 *)
          assert (A : forall q w, gpath (gunion F1 F2) q w e -> q = m \/ I2 q -> gpath F2 q w e).
          { refine (gpath_ind2 _ e (fun q w => q = m \/ I2 q -> gpath F2 q w e) (fun _ => gp_nil F2 e) _).
            intros q t u r w' [Y|Y] R P IH V.
            - assert (Z : q = m) by (apply V1; [apply (G1 q t r Y)|exact V]). subst q. destruct (O1 FL t r Y).
            - eapply gpath_step; [exact Y|exact R|]. apply IH. apply (G2 q t r Y). }
          assert (B : forall q w, gpath (gunion F1 F2) q w e -> q = s \/ I1 q ->
            exists u v, w = u ++ v /\ gpath F1 q u m /\ gpath F2 m v e).
          { refine (gpath_ind2 _ e (fun q w => q = s \/ I1 q -> exists u v, w = u ++ v /\ gpath F1 q u m /\ gpath F2 m v e) _ _).
            - intros V. assert (Z : e = m) by (apply V1; [exact V|exact E2]). subst e. exists [], []. repeat split; constructor.
            - intros q t u r w' Y R P IH V. destruct (Nat.eq_dec q m) as [->|NE].
              + exists [], (u ++ w'). split; [reflexivity|]. split; [constructor|]. apply A; [|auto]. eapply gpath_step; eauto.
              + destruct Y as [Y|Y].
                * destruct IH as (u' & v & -> & P3 & P4); [apply (G1 q t r Y)|]. exists (u ++ u'), v. rewrite app_assoc.
                  split; [reflexivity|]. split; [eapply gpath_step; eauto|exact P4].
                * destruct NE. apply V1; [exact V|apply (G2 q t r Y)]. }
          apply B; auto.
        - (* nothing enters m inside F2 *)
          assert (A : forall q w, gpath (gunion F1 F2) q w e -> I2 q -> gpath F2 q w e).
          { refine (gpath_ind2 _ e (fun q w => I2 q -> gpath F2 q w e) (fun _ => gp_nil F2 e) _).
            intros q t u r w' [Y|Y] R P IH V.
            - destruct (G1 q t r Y) as [[->|Z] _]; [contradiction|destruct (D q Z V)].
            - eapply gpath_step; [exact Y|exact R|]. apply IH. destruct (G2 q t r Y) as [_ [->|Z]]; [destruct (N2 FL q t Y)|exact Z]. }
          assert (B : forall q w, gpath (gunion F1 F2) q w e -> q = s \/ I1 q ->
            exists u v, w = u ++ v /\ gpath F1 q u m /\ gpath F2 m v e).
          { refine (gpath_ind2 _ e (fun q w => q = s \/ I1 q -> exists u v, w = u ++ v /\ gpath F1 q u m /\ gpath F2 m v e) _ _).
            - intros V. assert (Z : e = m) by (apply V1; [exact V|exact E2]). subst e. exists [], []. repeat split; constructor.
            - intros q t u r w' [Y|Y] R P IH V.
              + destruct IH as (u' & v & -> & P3 & P4); [apply (G1 q t r Y)|]. exists (u ++ u'), v. rewrite app_assoc.
                split; [reflexivity|]. split; [eapply gpath_step; eauto|exact P4].
              + assert (Z : q = m) by (apply V1; [exact V|apply (G2 q t r Y)]). subst q. exists [], (u ++ w').
                split; [reflexivity|]. split; [constructor|]. eapply gpath_step; [exact Y|exact R|]. apply A; [exact P|].
                destruct (G2 m t r Y) as [_ [->|Z]]; [destruct (N2 FL m t Y)|exact Z]. }
          apply B; auto. }
      destruct J as (u & v & -> & X & Y). exists u, v. rewrite <- P1, <- P2. auto.
    + intros (u & v & -> & X & Y). eapply gpath_app.
      * apply (gpath_mono F1); [intros ? ? ? ?; left; assumption|]. apply P1, X.
      * apply (gpath_mono F2); [intros ? ? ? ?; right; assumption|]. apply P2, Y.
Qed.

(** Adding a silent edge to a final node. *)
Lemma frag_close F I s c L bf ef no f : frag F I s c L bf ef no -> ~ I f -> f <> s ->
  frag (gunion F (gedge c [] f)) (fun q => I q \/ q = f) s f L bf true false.
Proof.
  intros [S E G N O Q P] NI NS.
  assert (NF : forall t r, ~ F f t r) by (intros t r X; destruct (G f t r X) as [[Y|Y] _]; auto).
  assert (NC : c <> f) by (intros ->; destruct E; auto).
  constructor; auto.
  - intros [X|X]; auto.
  - intros q t r [X|(-> & _ & ->)]; [destruct (G q t r X) as [[Y|Y] [Z|Z]]; auto|]. split; [destruct E; auto|auto].
  - intros X q t [Y|(_ & _ & Y)]; [exact (N X q t Y)|congruence].
  - intros _ t r [X|(X & _)]; [exact (NF t r X)|congruence].
  - intros w. rewrite <- P. split.
    + intros H. enough (J : forall q w, gpath (gunion F (gedge c [] f)) q w f -> q = f /\ w = [] \/ gpath F q w c).
      { destruct (J s w H) as [[X _]|X]; [congruence|exact X]. }
      refine (gpath_ind2 _ f (fun q w => q = f /\ w = [] \/ gpath F q w c) _ _).
      * auto.
      * intros q t u r w' [Y|(-> & -> & ->)] R P' [[X1 X2]|IH].
        -- rewrite X1 in Y. destruct (G q t f Y) as [_ [Z|Z]]; [congruence|contradiction].
        -- right. eapply gpath_step; eauto.
        -- rewrite X2. right. destruct R as [[_ ->]|(x & C & _)]; [constructor|discriminate].
        -- exfalso. inversion IH as [|? ? ? ? X|? ? ? ? ? ? X]; [subst; destruct E; auto|exact (NF _ _ X)|exact (NF _ _ X)].
    + intros H. replace w with (w ++ []) by apply app_nil_r. eapply gpath_app.
      * apply (gpath_mono F); [intros ? ? ? ?; left; assumption|]. exact H.
      * apply (gp_eps _ c f); [right; repeat split|constructor].
Qed.

(** Alternatives between the same two nodes. *)
Lemma frag_par F1 I1 s f L1 F2 I2 L2 :
  frag F1 I1 s f L1 true true false -> frag F2 I2 s f L2 true true false ->
  (forall q, I1 q -> I2 q -> q = f) ->
  frag (gunion F1 F2) (fun q => I1 q \/ I2 q) s f (fun w => L1 w \/ L2 w) true true false.
Proof.
  intros [S1 E1 G1 N1 O1 Q1 P1] [S2 E2 G2 N2 O2 Q2 P2] D.
  specialize (N1 eq_refl). specialize (N2 eq_refl). specialize (O1 eq_refl). specialize (O2 eq_refl). specialize (Q1 eq_refl).
  constructor; auto.
  - intros [X|X]; auto.
  - destruct E1; auto.
  - intros q t r [X|X]; [destruct (G1 q t r X) as [[Y|Y] [Z|Z]]; auto|destruct (G2 q t r X) as [[Y|Y] [Z|Z]]; auto].
  - intros _ q t [X|X]; [exact (N1 q t X)|exact (N2 q t X)].
  - intros _ t r [X|X]; [exact (O1 t r X)|exact (O2 t r X)].
  - intros w. rewrite <- P1, <- P2. split.
    + intros H.
      assert (A1 : forall q w, gpath (gunion F1 F2) q w f -> I1 q -> gpath F1 q w f).
      { refine (gpath_ind2 _ f (fun q w => I1 q -> gpath F1 q w f) (fun _ => gp_nil F1 f) _).
        intros q t u r w' [Y|Y] R P IH V.
        - eapply gpath_step; [exact Y|exact R|]. apply IH. destruct (G1 q t r Y) as [_ [->|Z]]; [destruct (N1 q t Y)|exact Z].
        - destruct (G2 q t r Y) as [[->|Z] _]; [contradiction|]. assert (q = f) by auto. subst q. destruct (O2 t r Y). }
      assert (A2 : forall q w, gpath (gunion F1 F2) q w f -> I2 q -> gpath F2 q w f).
      { refine (gpath_ind2 _ f (fun q w => I2 q -> gpath F2 q w f) (fun _ => gp_nil F2 f) _).
        intros q t u r w' [Y|Y] R P IH V.
        - destruct (G1 q t r Y) as [[->|Z] _]; [contradiction|]. assert (q = f) by auto. subst q. destruct (O1 t r Y).
        - eapply gpath_step; [exact Y|exact R|]. apply IH. destruct (G2 q t r Y) as [_ [->|Z]]; [destruct (N2 q t Y)|exact Z]. }
      inversion H as [|? r ? ? [X|X] P|? t r x ? ? [X|X] C P]; subst.
      * congruence.
      * left. eapply gp_eps; [exact X|]. apply A1; [exact P|]. destruct (G1 _ _ _ X) as [_ [->|Z]]; [destruct (N1 _ _ X)|exact Z].
      * right. eapply gp_eps; [exact X|]. apply A2; [exact P|]. destruct (G2 _ _ _ X) as [_ [->|Z]]; [destruct (N2 _ _ X)|exact Z].
      * left. eapply gp_sym; [exact X|exact C|]. apply A1; [exact P|]. destruct (G1 _ _ _ X) as [_ [->|Z]]; [destruct (N1 _ _ X)|exact Z].
      * right. eapply gp_sym; [exact X|exact C|]. apply A2; [exact P|]. destruct (G2 _ _ _ X) as [_ [->|Z]]; [destruct (N2 _ _ X)|exact Z].
    + intros [H|H]; (eapply gpath_mono; [|exact H]); intros ? ? ? ?; [left|right]; assumption.
Qed.

(** Repetition. *)
Lemma star_one (L : lang) u : L u -> l_star L u.
Proof. intros H. rewrite <- (app_nil_r u). apply star_step; [exact H|constructor]. Qed.

Lemma frag_star F I s e L no : frag F I s e L true true no ->
  frag (gunion F (gunion (gedge s [] e) (gedge e [] s))) I s e (l_star L) false false no.
Proof.
  intros [S E G N O Q P]. specialize (N eq_refl). specialize (O eq_refl). constructor; auto; try discriminate.
  - intros q t r [X|[(-> & _ & ->)|(-> & _ & ->)]]; [exact (G q t r X)| |]; destruct E; auto.
  - intros w. split.
    + intros H.
      assert (J : forall q w, gpath (gunion F (gunion (gedge s [] e) (gedge e [] s))) q w e ->
        ((q = s \/ q = e) -> l_star L w) /\ (q <> s -> exists u v, w = u ++ v /\ gpath F q u e /\ l_star L v)).
      { refine (gpath_ind2 _ e (fun q w => ((q = s \/ q = e) -> l_star L w) /\ (q <> s -> exists u v, w = u ++ v /\ gpath F q u e /\ l_star L v)) _ _).
        - split; [constructor|]. intros _. exists [], []. repeat split; constructor.
        - intros q t u r w' Y R PR [IH1 IH2]. destruct Y as [Y|[(-> & -> & ->)|(-> & -> & ->)]].
          + assert (RS : r <> s) by (intros ->; exact (N q t Y)). destruct (IH2 RS) as (u' & v & -> & P3 & P4). split.
            * intros [ -> | -> ]; [|destruct (O t r Y)]. rewrite app_assoc. apply star_step; [|exact P4]. apply P. eapply gpath_step; eauto.
            * intros _. exists (u ++ u'), v. rewrite app_assoc. split; [reflexivity|]. split; [eapply gpath_step; eauto|exact P4].
          + destruct R as [[_ ->]|(x & C & _)]; [|discriminate]. cbn [app]. split; [auto|congruence].
          + destruct R as [[_ ->]|(x & C & _)]; [|discriminate]. cbn [app]. split; [auto|]. intros _. exists [], w'.
            split; [reflexivity|]. split; [constructor|auto]. }
      apply (proj1 (J s w H)). auto.
    + intros H. assert (J : gpath (gunion F (gunion (gedge s [] e) (gedge e [] s))) s w s).
      { induction H as [|u v HL _ IH]; [constructor|]. eapply gpath_app; [|exact IH].
        replace u with (u ++ []) by apply app_nil_r. eapply gpath_app.
        - apply (gpath_mono F); [intros ? ? ? ?; left; assumption|]. apply P, HL.
        - apply (gp_eps _ e s); [right; right; repeat split|constructor]. }
      replace w with (w ++ []) by apply app_nil_r. eapply gpath_app; [exact J|]. apply (gp_eps _ s e); [right; left; repeat split|constructor].
Qed.

Lemma frag_plus F I s e L bf ef no : frag F I s e L bf ef no ->
  frag (gunion F (gedge e [] s)) I s e (l_cat L (l_star L)) false false no.
Proof.
  intros [S E G N O Q P]. constructor; auto; try discriminate.
  - intros q t r [X|(-> & _ & ->)]; [exact (G q t r X)|]; destruct E; auto.
  - intros w. split.
    + intros H.
      assert (J : forall q w, gpath (gunion F (gedge e [] s)) q w e -> exists u v, w = u ++ v /\ gpath F q u e /\ l_star L v).
      { refine (gpath_ind2 _ e (fun q w => exists u v, w = u ++ v /\ gpath F q u e /\ l_star L v) _ _).
        - exists [], []. repeat split; constructor.
        - intros q t u r w' Y R PR (u' & v & -> & P3 & P4). destruct Y as [Y|(-> & -> & ->)].
          + exists (u ++ u'), v. rewrite app_assoc. split; [reflexivity|]. split; [eapply gpath_step; eauto|exact P4].
          + destruct R as [[_ ->]|(x & C & _)]; [|discriminate]. exists [], (u' ++ v). split; [reflexivity|]. split; [constructor|].
            apply star_step; [apply P, P3|exact P4]. }
      destruct (J s w H) as (u & v & -> & X & Y). exists u, v. rewrite <- P. auto.
    + intros (u & v & -> & HL & HS). apply P in HL.
      assert (K : forall x, gpath F s x e -> gpath (gunion F (gedge e [] s)) s x e) by (intros x; apply gpath_mono; intros ? ? ? ?; left; assumption).
      revert u HL. induction HS as [|u' v HL' _ IH]; intros u HL.
      * rewrite app_nil_r. apply K, HL.
      * eapply gpath_app; [apply K, HL|]. apply (gp_eps _ e s); [right; repeat split|]. apply IH. apply P, HL'.
Qed.

Lemma frag_opt F I s e L no : frag F I s e L true true no ->
  frag (gunion F (gedge s [] e)) I s e (fun w => w = [] \/ L w) (negb no) (negb no) no.
Proof.
  intros [S E G N O Q P]. specialize (N eq_refl). specialize (O eq_refl). constructor; auto.
  - intros q t r [X|(-> & _ & ->)]; [exact (G q t r X)|]; destruct E; auto.
  - intros X q t [Y|(_ & _ & Y)]; [exact (N q t Y)|]. apply Bool.negb_true_iff in X. exact (Q X (eq_sym Y)).
  - intros X t r [Y|(Y & _ & _)]; [exact (O t r Y)|]. apply Bool.negb_true_iff in X. exact (Q X Y).
  - intros w. rewrite <- P. split.
    + intros H.
      assert (J : forall q w, gpath (gunion F (gedge s [] e)) q w e -> (q <> s -> gpath F q w e) /\ (q = s -> w = [] \/ gpath F q w e)).
      { refine (gpath_ind2 _ e (fun q w => (q <> s -> gpath F q w e) /\ (q = s -> w = [] \/ gpath F q w e)) _ _).
        - split; [constructor|auto].
        - intros q t u r w' Y R PR [IH1 IH2]. destruct Y as [Y|(-> & -> & ->)].
          + assert (RS : r <> s) by (intros ->; exact (N q t Y)). split; intros _; [|right]; (eapply gpath_step; [exact Y|exact R|auto]).
          + destruct R as [[_ ->]|(x & C & _)]; [|discriminate]. cbn [app]. split; [congruence|]. intros _.
            destruct (Nat.eq_dec e s) as [->|NE]; [apply IH2; reflexivity|]. left. specialize (IH1 NE).
            inversion IH1 as [|? ? ? ? X|? ? ? ? ? ? X]; [reflexivity|destruct (O _ _ X)|destruct (O _ _ X)]. }
      apply (proj2 (J s w H) eq_refl).
    + intros [->|H]; [apply (gp_eps _ s e); [right; repeat split|constructor]|]. eapply gpath_mono; [|exact H]. intros ? ? ? ?. left. assumption.
Qed.

(** A fragment that is not entered again, added to a graph on other nodes. *)
Lemma frag_added (G F : graph) I s e L ef no : frag F I s e L true ef no -> e <> s ->
  (forall q t r, G q t r -> ~ I q /\ ~ I r) ->
  (forall q w, ~ I q -> gpath (gunion G F) q w e <-> exists u v, w = u ++ v /\ gpath G q u s /\ L v) /\
  (forall q r w, ~ I q -> ~ I r -> gpath (gunion G F) q w r <-> gpath G q w r).
Proof.
  intros [S E GE N O Q P] NE GO. specialize (N eq_refl). assert (IE : I e) by (destruct E; [congruence|assumption]).
  assert (TGT : forall q t r, F q t r -> I r) by (intros q t r X; destruct (GE q t r X) as [_ [->|Y]]; [destruct (N q t X)|exact Y]).
  assert (A : forall z q w, gpath (gunion G F) q w z -> I q -> gpath F q w z /\ I z).
  { intros z q w H. induction H as [q|q r w z X H IH|q t r x w z X C H IH]; intros V.
    - split; [constructor|exact V].
    - destruct X as [X|X]; [destruct (proj1 (GO _ _ _ X) V)|]. destruct (IH (TGT _ _ _ X)). split; [eapply gp_eps; eauto|assumption].
    - destruct X as [X|X]; [destruct (proj1 (GO _ _ _ X) V)|]. destruct (IH (TGT _ _ _ X)). split; [eapply gp_sym; eauto|assumption]. }
  split.
  - intros q w NQ. split.
    + intros H.
      assert (J : forall q w, gpath (gunion G F) q w e -> ~ I q -> exists u v, w = u ++ v /\ gpath G q u s /\ gpath F s v e).
      { refine (gpath_ind2 _ e (fun q w => ~ I q -> exists u v, w = u ++ v /\ gpath G q u s /\ gpath F s v e) _ _).
        - contradiction.
        - intros q' t u r w' [Y|Y] R PR IH V.
          + destruct IH as (u' & v & -> & P3 & P4); [apply (GO _ _ _ Y)|]. exists (u ++ u'), v. rewrite app_assoc.
            split; [reflexivity|]. split; [eapply gpath_step; eauto|exact P4].
          + assert (q' = s) by (destruct (GE _ _ _ Y) as [[->|Z] _]; [reflexivity|contradiction]). subst q'. exists [], (u ++ w').
            split; [reflexivity|]. split; [constructor|]. eapply gpath_step; [exact Y|exact R|]. apply (A e r w' PR). eapply TGT; eauto. }
      destruct (J q w H NQ) as (u & v & -> & X & Y). exists u, v. rewrite <- P. auto.
    + intros (u & v & -> & X & Y). eapply gpath_app.
      * apply (gpath_mono G); [intros ? ? ? ?; left; assumption|exact X].
      * apply (gpath_mono F); [intros ? ? ? ?; right; assumption|apply P, Y].
  - intros q r w NQ NR. split.
    + intros H. induction H as [q|q q1 w z X H IH|q t q1 x w z X C H IH].
      * constructor.
      * destruct X as [X|X]; [eapply gp_eps; [exact X|]; apply IH; [apply (GO _ _ _ X)|exact NR]|].
        destruct (A _ _ _ H (TGT _ _ _ X)). contradiction.
      * destruct X as [X|X]; [eapply gp_sym; [exact X|exact C|]; apply IH; [apply (GO _ _ _ X)|exact NR]|].
        destruct (A _ _ _ H (TGT _ _ _ X)). contradiction.
    + apply gpath_mono. intros ? ? ? ?. left. assumption.
Qed.

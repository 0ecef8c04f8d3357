(** Proofs about parser sessions. *)
From Verif Require Import Base OrdMap RunModel StackModel StackProofs SessionModel SessionSpec.
Local Open Scope Z_scope.

(** * Lists of states *)
(** From the link [r] (of the state [p]) through [l] to the link [e] of the state [q] *)
Fixpoint seg (f : nat -> option pstate) (p r : option nat) (l : list nat) (q e : option nat) : Prop :=
  match l with [] => p = q /\ r = e | h :: l => r = Some h /\ exists s, f h = Some s /\ t_last s = p /\ seg f (Some h) (t_next s) l q e end.
Lemma seg_app f l1 : forall p r l2 q e, seg f p r (l1 ++ l2) q e <-> exists q1 e1, seg f p r l1 q1 e1 /\ seg f q1 e1 l2 q e.
Proof.
  induction l1 as [|h l1 IH]; intros p r l2 q e; cbn [app seg].
  - split; [intros H; exists p, r; auto|intros (q1 & e1 & [-> ->] & H); exact H].
  - split.
    + intros (E & s & F & L & H). apply IH in H. destruct H as (q1 & e1 & H1 & H2). exists q1, e1. split; [|exact H2]. split; [exact E|]. exists s. auto.
    + intros (q1 & e1 & (E & s & F & L & H1) & H2). split; [exact E|]. exists s. split; [exact F|]. split; [exact L|]. apply IH. exists q1, e1. auto.
Qed.
Lemma seg_ext f g l : (forall h s, In h l -> f h = Some s -> exists s', g h = Some s' /\ t_last s' = t_last s /\ t_next s' = t_next s) -> forall p r q e, seg f p r l q e -> seg g p r l q e.
Proof.
  induction l as [|h l IH]; intros X p r q e H; [exact H|]. destruct H as (E & s & F & L & H). split; [exact E|]. destruct (X h s (or_introl eq_refl) F) as (s' & G & L' & N'). exists s'. split; [exact G|]. split; [congruence|]. rewrite N'. apply IH; [|exact H]. intros k t I. apply X. right. exact I.
Qed.
Definition upd (h : nat) (g : pstate -> pstate) (f : nat -> option pstate) : nat -> option pstate := fun k => if Nat.eqb k h then option_map g (f k) else f k.
Lemma seg_last f l : forall p r q e, seg f p r l q e -> q = match rev l with [] => p | h :: _ => Some h end.
Proof.
  induction l as [|h l IH]; intros p r q e H; [destruct H as [-> _]; reflexivity|]. destruct H as (_ & s & _ & _ & H). apply IH in H. rewrite H. cbn [rev]. destruct (rev l); reflexivity.
Qed.
(** Taking a state out *)
Lemma seg_remove f r l1 h l2 s q : NoDup (l1 ++ h :: l2) -> seg f None r (l1 ++ h :: l2) q None -> f h = Some s ->
  exists q', seg (match t_next s with Some n => upd n (set_last (t_last s)) (match t_last s with Some l => upd l (set_next (t_next s)) f | None => f end) | None => match t_last s with Some l => upd l (set_next (t_next s)) f | None => f end end)
      None (match t_last s with Some _ => r | None => t_next s end) (l1 ++ l2) q' None /\
    (forall n, t_next s = Some n -> In n l2) /\ (forall l, t_last s = Some l -> In l l1).
Proof.
  intros ND H F. apply seg_app in H. destruct H as (q1 & e1 & H1 & H2). cbn [seg] in H2. destruct H2 as (-> & s' & F' & L & H2). rewrite F in F'. injection F' as <-.
  assert (N2 : match l2 with [] => t_next s = None | n :: _ => t_next s = Some n end) by (destruct l2; cbn in H2; tauto).
  set (g := match t_last s with Some l => upd l (set_next (t_next s)) f | None => f end).
  (* The part before *)
  assert (B : seg g None (match t_last s with Some _ => r | None => t_next s end) l1 (t_last s) (t_next s) /\ forall l, t_last s = Some l -> In l l1).
  { pose proof (seg_last _ _ _ _ _ _ H1) as LE. destruct l1 as [|x l1] using rev_ind.
    - cbn in LE. rewrite <- L in LE. rewrite LE. cbn. split; [auto|discriminate].
    - clear IHl1. rewrite rev_app_distr in LE. cbn in LE. rewrite <- L in LE. unfold g. rewrite LE. split; [|intros l E; injection E as <-; apply in_or_app; right; left; reflexivity].
      apply seg_app in H1. destruct H1 as (q2 & e2 & H1 & H3). apply seg_app. exists q2, e2. split.
      + apply (seg_ext f); [|exact H1]. intros k t I FK. exists t. unfold upd. destruct (Nat.eqb_spec k x) as [->|]; [|auto]. exfalso. rewrite <- app_assoc in ND. apply NoDup_remove_2 in ND. apply ND. apply in_or_app. auto.
      + cbn [seg] in H3. destruct H3 as (-> & t & FX & LX & _ & EN). cbn [seg]. split; [reflexivity|]. exists (set_next (t_next s) t). unfold upd. rewrite Nat.eqb_refl, FX. cbn. auto. }
  destruct B as [B BL].
  assert (G2 : seg g (Some h) (t_next s) l2 q None).
  { apply (seg_ext f); [|exact H2]. intros k t I FK. exists t. unfold g. destruct (t_last s) as [l|] eqn:EL; [|auto]. unfold upd. destruct (Nat.eqb_spec k l) as [->|]; [|auto]. exfalso. specialize (BL l eq_refl). apply in_split in BL. destruct BL as (b1 & b2 & ->). rewrite <- app_assoc in ND. cbn in ND. apply NoDup_remove_2 in ND. apply ND. apply in_or_app. right. apply in_or_app. right. right. exact I. }
  destruct l2 as [|n l2].
  - rewrite N2 in *. rewrite app_nil_r. exists (t_last s). split; [exact B|]. split; [discriminate|exact BL].
  - rewrite N2 in *. cbn [seg] in G2. destruct G2 as (_ & t & GN & LN & G2). eexists. split; [|split; [intros n' E; injection E as <-; left; reflexivity|exact BL]]. apply seg_app. exists (t_last s), (Some n). split.
    + apply (seg_ext g); [|exact B]. intros k u I GK. exists u. unfold upd. destruct (Nat.eqb_spec k n) as [->|]; [|auto]. exfalso. apply in_split in I. destruct I as (b1 & b2 & ->). rewrite <- app_assoc in ND. cbn in ND. apply NoDup_remove_2 in ND. apply ND. apply in_or_app. right. apply in_or_app. right. right. left. reflexivity.
    + cbn [seg]. split; [reflexivity|]. exists (set_last (t_last s) t). unfold upd at 1. rewrite Nat.eqb_refl, GN. split; [reflexivity|]. split; [reflexivity|]. cbn [set_last t_next]. apply (seg_ext g); [|exact G2]. intros k u I GK. exists u. unfold upd. destruct (Nat.eqb_spec k n) as [->|]; [|auto]. exfalso. apply NoDup_remove_1 in ND. apply NoDup_remove_2 in ND. apply ND. apply in_or_app. auto.
Qed.

Section Session.
  Context (T : Type) (source : nat -> option T).
  Notation session := (session T).
  Notation ended := (ended T source).
  Notation symbol := (symbol T source).
  Notation symbols := (symbols T source).
  Notation reads_for := (reads_for T source).

  (** * The symbols *)
  Lemma ended_more n m : (n <= m)%nat -> ended n = true -> ended m = true.
  Proof. intros L. induction L as [|m L IH]; intros E; [exact E|]. cbn. rewrite (IH E). reflexivity. Qed.
  Lemma symbol_there n valid : ended valid = false -> (n < valid)%nat -> exists t, symbol n = Some t /\ source n = Some t.
  Proof.
    intros E L. assert (EN : ended n = false) by (destruct (ended n) eqn:X; [|reflexivity]; rewrite (ended_more n valid) in E; [discriminate E|lia|exact X]). assert (ES : ended (S n) = false) by (destruct (ended (S n)) eqn:X; [|reflexivity]; rewrite (ended_more (S n) valid) in E; [discriminate E|lia|exact X]).
    unfold SessionSpec.symbol. rewrite EN. cbn in ES. rewrite EN in ES. destruct (source n) as [t|]; [eauto|discriminate ES].
  Qed.
  Lemma symbol_gone n valid : source valid = None -> (valid <= n)%nat -> symbol n = None.
  Proof. intros E L. unfold SessionSpec.symbol. destruct (Nat.eq_dec n valid) as [->|]; [destruct (ended valid); auto|]. rewrite (ended_more (S valid) n); [reflexivity|lia|]. cbn. rewrite E. apply orb_true_r. Qed.
  Lemma symbols_length : forall n from, ended (from + n) = false -> length (symbols from n) = n.
  Proof.
    induction n as [|n IH]; intros from E; [reflexivity|]. cbn [SessionSpec.symbols]. destruct (symbol_there from (from + S n) E) as (t & -> & _); [lia|]. cbn. rewrite IH; [reflexivity|]. rewrite <- E. f_equal. lia.
  Qed.
  Lemma symbols_nth : forall n from k, ended (from + n) = false -> (k < n)%nat -> nth_error (symbols from n) k = symbol (from + k).
  Proof.
    induction n as [|n IH]; intros from k E L; [lia|]. cbn [SessionSpec.symbols]. destruct (symbol_there from (from + S n) E) as (t & EF & _); [lia|]. rewrite EF. destruct k as [|k]; cbn [nth_error]; [rewrite Nat.add_0_r, EF; reflexivity|]. rewrite IH; [f_equal; lia| |lia]. rewrite <- E. f_equal. lia.
  Qed.
  Lemma symbols_more : forall n from t, ended (from + n) = false -> symbol (from + n) = Some t -> symbols from (S n) = symbols from n ++ [t].
  Proof.
    induction n as [|n IH]; intros from t E ES.
    - cbn [SessionSpec.symbols]. rewrite Nat.add_0_r in ES. rewrite ES. reflexivity.
    - destruct (symbol_there from (from + S n) E) as (u & EF & _); [lia|]. change (symbols from (S (S n))) with (match symbol from with Some t => t :: symbols (S from) (S n) | None => [] end). change (symbols from (S n)) with (match symbol from with Some t => t :: symbols (S from) n | None => [] end). rewrite EF. cbn [app]. f_equal. apply IH; [rewrite <- E; f_equal; lia|rewrite <- ES; f_equal; lia].
  Qed.
  Lemma symbols_skip : forall k n from, ended (from + n) = false -> (k <= n)%nat -> skipn k (symbols from n) = symbols (from + k) (n - k).
  Proof.
    induction k as [|k IH]; intros n from E L; [rewrite Nat.add_0_r, Nat.sub_0_r; reflexivity|]. destruct n as [|n]; [lia|]. cbn [SessionSpec.symbols]. destruct (symbol_there from (from + S n) E) as (u & EF & _); [lia|]. rewrite EF. cbn [skipn]. rewrite IH; [|rewrite <- E; f_equal; lia|lia]. f_equal; lia.
  Qed.
  Lemma reads_all n : ended n = false -> reads_for n = n.
  Proof. induction n as [|n IH]; intros E; [reflexivity|]. cbn [SessionSpec.reads_for]. destruct (ended n) eqn:EN; [rewrite (ended_more n (S n)) in E; [discriminate E|lia|exact EN]|]. rewrite IH by reflexivity. reflexivity. Qed.
  Lemma reads_end valid n : ended valid = false -> source valid = None -> (valid < n)%nat -> reads_for n = S valid.
  Proof.
    intros E N L. induction L as [|n L IH]; [cbn [SessionSpec.reads_for]; rewrite E, reads_all by exact E; reflexivity|]. cbn [SessionSpec.reads_for]. rewrite (ended_more (S valid) n); [exact IH|lia|]. cbn. rewrite N. apply orb_true_r.
  Qed.

  (** * What represents what *)
  Definition find (z : session) (h : nat) : option pstate := mfind Nat.ltb h (z_states z).
  Record rep (base valid : nat) (a : astate) (z : session) : Prop := {
    rp_made : z_made z = a_made a;
    rp_sorted : msorted Nat.ltb (z_states z);
    rp_keys : forall h s, find z h = Some s -> (h < z_made z)%nat;
    rp_at : forall h, match a_at a h, find z h with Some p, Some s => Z.of_nat p = Z.of_nat base + t_pos s /\ 0 <= t_pos s /\ (p <= valid)%nat | None, None => True | _, _ => False end;
    rp_list : exists ids q, NoDup ids /\ (forall h, In h ids <-> find z h <> None) /\ seg (find z) None (z_first z) ids q None;
    rp_deleted : z_deleted z = match z_first z with None => true | Some _ => false end;
    rp_ended : ended valid = false;
    rp_base : (base <= valid)%nat;
    rp_look : z_look z = symbols base (valid - base);
    rp_eof : if z_eof z then source valid = None /\ z_reads z = S valid /\ (valid < a_far a)%nat else z_reads z = valid /\ a_far a = valid }.
  Lemma rp_live base valid a z h : rep base valid a z -> live a h -> exists p s, a_at a h = Some p /\ find z h = Some s /\ Z.of_nat p = Z.of_nat base + t_pos s /\ 0 <= t_pos s /\ (p <= valid)%nat.
  Proof. intros R L. pose proof (rp_at _ _ _ _ R h) as X. unfold live in L. destruct (a_at a h) as [p|]; [|contradiction L; reflexivity]. destruct (find z h) as [s|]; [|contradiction]. exists p, s. tauto. Qed.
  Lemma rp_there base valid a z h : rep base valid a z -> live a h -> session_of T z = Done z.
  Proof.
    intros R L. destruct (rp_live _ _ _ _ _ R L) as (p & s & _ & F & _). destruct (rp_list _ _ _ _ R) as (ids & q & _ & IN & SG). unfold session_of. rewrite (rp_deleted _ _ _ _ R). destruct ids as [|i ids]; [exfalso; apply (proj2 (IN h)); congruence|]. cbn in SG. destruct SG as [-> _]. reflexivity.
  Qed.
  Lemma find_set z h s k : msorted Nat.ltb (z_states z) -> find (set_state T h s z) k = if Nat.eqb k h then Some s else find z k.
  Proof. intros SO. unfold find, set_state. cbn. destruct (Nat.eqb_spec k h) as [->|NE]; [apply mfind_mset_same; [exact natltb_strict|exact SO]|apply mfind_mset_other; [exact natltb_strict|exact SO|exact NE]]. Qed.
  Lemma change_done z h s g : find z h = Some s -> change T h g z = Done (set_state T h (g s) z).
  Proof. intros F. unfold change, state_at. unfold find in F. rewrite F. reflexivity. Qed.
  Lemma find_change z h s g k : msorted Nat.ltb (z_states z) -> find z h = Some s -> find (set_state T h (g s) z) k = upd h g (find z) k.
  Proof. intros SO F. rewrite find_set by exact SO. unfold upd. destruct (Nat.eqb_spec k h) as [->|]; [rewrite F|]; reflexivity. Qed.

  (** * Looking *)
  Definition same_states (z z' : session) : Prop := z_states z' = z_states z /\ z_first z' = z_first z /\ z_made z' = z_made z /\ z_deleted z' = z_deleted z.
  Lemma fetch_ok base pos far : forall fuel valid z, ended valid = false -> (base <= valid)%nat -> z_look z = symbols base (valid - base) -> (base + pos + 1 - valid <= fuel)%nat ->
    (if z_eof z then source valid = None /\ z_reads z = S valid /\ (valid < far)%nat else z_reads z = valid /\ (far <= valid <= Nat.max far (S (base + pos)))%nat) ->
    exists z' valid', fetch T source fuel pos z = Done (symbol (base + pos), z') /\ same_states z z' /\ ended valid' = false /\ (valid <= valid')%nat /\ z_look z' = symbols base (valid' - base) /\
      (if z_eof z' then source valid' = None /\ z_reads z' = S valid' /\ (valid' < Nat.max far (S (base + pos)))%nat else z_reads z' = valid' /\ Nat.max far (S (base + pos)) = valid').
  Proof.
    induction fuel as [|fuel IH]; intros valid z EN BV LK FU EO.
    - assert (N : nth_error (z_look z) pos = symbol (base + pos)) by (rewrite LK; apply symbols_nth; [replace (base + (valid - base))%nat with valid by lia; exact EN|lia]). destruct (symbol_there (base + pos) valid EN) as (t & ES & _); [lia|]. cbn [fetch]. rewrite N, ES. exists z, valid. split; [reflexivity|]. split; [repeat split|]. split; [exact EN|]. split; [lia|]. split; [exact LK|]. destruct (z_eof z); [destruct EO as (E1 & E2 & E3)|destruct EO as (E1 & E2)]; repeat split; auto; lia.
    - cbn [fetch]. destruct (Nat.ltb_spec (base + pos) valid) as [L|L].
      + assert (N : nth_error (z_look z) pos = symbol (base + pos)) by (rewrite LK; apply symbols_nth; [replace (base + (valid - base))%nat with valid by lia; exact EN|lia]). destruct (symbol_there (base + pos) valid EN) as (t & ES & _); [lia|]. rewrite N, ES. exists z, valid. split; [reflexivity|]. split; [repeat split|]. split; [exact EN|]. split; [lia|]. split; [exact LK|]. destruct (z_eof z); [destruct EO as (E1 & E2 & E3)|destruct EO as (E1 & E2)]; repeat split; auto; lia.
      + assert (N : nth_error (z_look z) pos = None) by (apply nth_error_None; rewrite LK, symbols_length; [lia|replace (base + (valid - base))%nat with valid by lia; exact EN]). rewrite N. destruct (z_eof z) eqn:EF.
        * destruct EO as (E1 & E2 & E3). exists z, valid. rewrite (symbol_gone (base + pos) valid E1) by lia. split; [reflexivity|]. split; [repeat split|]. rewrite EF. repeat split; auto; lia.
        * destruct EO as (E1 & E2). rewrite E1. destruct (source valid) as [t|] eqn:ES.
          -- assert (SY : symbol valid = Some t) by (unfold SessionSpec.symbol; rewrite EN; exact ES).
             destruct (IH (S valid) (mkSession (z_look z ++ [t]) false (S valid) (z_first z) (z_states z) (z_made z) (z_deleted z))) as (z' & valid' & FE & (S1 & S2 & S3 & S4) & EN' & L' & LK' & EO').
             ++ cbn. rewrite EN, ES. reflexivity.
             ++ lia.
             ++ cbn [z_look]. replace (S valid - base)%nat with (S (valid - base)) by lia. rewrite (symbols_more _ _ t); [rewrite LK; reflexivity| |]; replace (base + (valid - base))%nat with valid by lia; assumption.
             ++ lia.
             ++ cbn [z_eof z_reads]. lia.
             ++ exists z', valid'. split; [exact FE|]. split; [repeat split; assumption|]. split; [exact EN'|]. split; [lia|]. split; [exact LK'|exact EO'].
          -- exists (mkSession (z_look z) true (S valid) (z_first z) (z_states z) (z_made z) (z_deleted z)), valid. rewrite (symbol_gone (base + pos) valid ES) by lia. split; [reflexivity|]. split; [repeat split|]. cbn [z_eof z_reads z_look]. repeat split; auto; lia.
  Qed.
  Lemma same_rep base valid valid' a z z' far : rep base valid a z -> same_states z z' -> (valid <= valid')%nat -> ended valid' = false -> z_look z' = symbols base (valid' - base) ->
    (if z_eof z' then source valid' = None /\ z_reads z' = S valid' /\ (valid' < far)%nat else z_reads z' = valid' /\ far = valid') -> rep base valid' (mkAstate (a_at a) (a_made a) far) z'.
  Proof.
    intros R (S1 & S2 & S3 & S4) L E LK EO. assert (FE : forall h, find z' h = find z h) by (intros h; unfold find; rewrite S1; reflexivity). pose proof (rp_base _ _ _ _ R). constructor; cbn [a_made a_at a_far].
    - rewrite S3. apply (rp_made _ _ _ _ R).
    - rewrite S1. apply (rp_sorted _ _ _ _ R).
    - intros h s. rewrite FE, S3. apply (rp_keys _ _ _ _ R).
    - intros h. rewrite FE. pose proof (rp_at _ _ _ _ R h) as X. destruct (a_at a h), (find z h); auto. split; [tauto|]. split; [tauto|lia].
    - destruct (rp_list _ _ _ _ R) as (ids & q & ND & IN & SG). exists ids, q. split; [exact ND|]. split; [intros h; rewrite FE; apply IN|]. rewrite S2. apply (seg_ext (find z)); [|exact SG]. intros h s _ F. exists s. rewrite FE. auto.
    - rewrite S2, S4. apply (rp_deleted _ _ _ _ R).
    - exact E.
    - lia.
    - exact LK.
    - exact EO.
  Qed.
  Lemma look_ok base valid a z h p k : rep base valid a z -> a_at a h = Some p -> exists z' valid', look T source h k z = Done (symbol (p + k), z') /\ rep base valid' (a_op (Look h k) a) z'.
  Proof.
    intros R EP. assert (L : live a h) by (unfold live; congruence). destruct (rp_live _ _ _ _ _ R L) as (p' & s & EP' & F & E1 & E2 & E3). rewrite EP in EP'. injection EP' as <-. unfold look, state_at. unfold find in F. rewrite F. cbn [defined bind]. rewrite (rp_there _ _ _ _ _ R L). cbn [bind]. destruct (Z.ltb_spec (t_pos s + Z.of_nat k) 0); [lia|]. set (pos := Z.to_nat (t_pos s + Z.of_nat k)). assert (EB : (base + pos = p + k)%nat) by (unfold pos; lia).
    destruct (fetch_ok base pos (a_far a) (S pos) valid z (rp_ended _ _ _ _ R) (rp_base _ _ _ _ R) (rp_look _ _ _ _ R)) as (z' & valid' & FE & SS & EN' & L' & LK' & EO').
    - pose proof (rp_base _ _ _ _ R). lia.
    - pose proof (rp_eof _ _ _ _ R) as EO. destruct (z_eof z); [exact EO|]. destruct EO as [O1 O2]. split; [exact O1|lia].
    - exists z', valid'. rewrite <- EB. split; [exact FE|]. cbn [a_op]. rewrite EP. rewrite EB in EO'. apply (same_rep base valid valid' a z z' _ R SS L' EN' LK' EO').
  Qed.

  (** * Copies and destruction *)
  Lemma clone_ok base valid a z h : rep base valid a z -> live a h -> exists z', clone T h z = Done z' /\ rep base valid (a_op (Clone h) a) z'.
  Proof.
    intros R L. destruct (rp_live _ _ _ _ _ R L) as (p & s & EP & F & E1 & E2 & E3). pose proof (rp_sorted _ _ _ _ R) as SO. unfold clone, state_at. unfold find in F. rewrite F. cbn [defined bind]. rewrite (rp_there _ _ _ _ _ R L). cbn [bind].
    destruct (rp_list _ _ _ _ R) as (ids & q & ND & IN & SG). assert (FR : ~ In (z_made z) ids). { intros I. apply IN in I. destruct (find z (z_made z)) as [u|] eqn:FM; [|contradiction]. apply (rp_keys _ _ _ _ R) in FM. lia. }
    destruct ids as [|n ids]; [exfalso; apply (proj2 (IN h)); unfold find; congruence|]. cbn [seg] in SG. destruct SG as (FI & u & FN & LU & SG). rewrite FI.
    set (z1 := mkSession (z_look z) (z_eof z) (z_reads z) (Some (z_made z)) (mset Nat.ltb (z_made z) (mkPstate (t_pos s) None (Some n)) (z_states z)) (S (z_made z)) (z_deleted z)). assert (SO1 : msorted Nat.ltb (z_states z1)) by (apply mset_sorted; [exact natltb_strict|exact SO]).
    assert (NM : n <> z_made z) by (intros ->; apply FR; left; reflexivity).
    assert (F1 : forall k, find z1 k = if Nat.eqb k (z_made z) then Some (mkPstate (t_pos s) None (Some n)) else find z k). { intros k. unfold find, z1. cbn [z_states]. destruct (Nat.eqb_spec k (z_made z)) as [->|NE]; [apply mfind_mset_same; [exact natltb_strict|exact SO]|apply mfind_mset_other; [exact natltb_strict|exact SO|exact NE]]. }
    assert (FN1 : find z1 n = Some u) by (rewrite F1; destruct (Nat.eqb_spec n (z_made z)); [contradiction|exact FN]). rewrite (change_done _ _ _ _ FN1). eexists. split; [reflexivity|]. cbn [z1 z_made Nat.pred]. fold z1. set (g := set_last (Some (z_made z))).
    assert (F2 : forall k, find (set_state T n (g u) z1) k = upd n g (find z1) k) by (intros k; apply find_change; [exact SO1|exact FN1]).
    constructor; cbn [a_op a_made a_at a_far set_state z_made z_first z_deleted z_eof z_reads z_look z1].
    - f_equal. apply (rp_made _ _ _ _ R).
    - apply mset_sorted; [exact natltb_strict|exact SO1].
    - intros k t FK. fold z1 in FK. rewrite F2 in FK. unfold upd in FK. rewrite F1 in FK. destruct (Nat.eqb_spec k (z_made z)) as [->|NE]; [lia|]. assert (FZ : exists t', find z k = Some t') by (destruct (Nat.eqb k n); destruct (find z k); eauto; discriminate FK). destruct FZ as (t' & FZ). apply (rp_keys _ _ _ _ R) in FZ. lia.
    - intros k. fold z1. rewrite F2. unfold upd. rewrite F1. unfold put. rewrite <- (rp_made _ _ _ _ R). destruct (Nat.eqb_spec k (z_made z)) as [->|NE].
      + destruct (Nat.eqb_spec (z_made z) n) as [E|_]; [congruence|]. rewrite EP. cbn. auto.
      + pose proof (rp_at _ _ _ _ R k) as X. destruct (Nat.eqb k n); destruct (a_at a k), (find z k); cbn; auto.
    - exists (z_made z :: n :: ids), q. split; [constructor; assumption|]. split.
      + intros k. fold z1. rewrite F2. unfold upd. rewrite F1. specialize (IN k). destruct (Nat.eqb_spec k (z_made z)) as [->|NE]; [destruct (Nat.eqb (z_made z) n); split; intros; [discriminate|left; reflexivity|discriminate|left; reflexivity]|]. destruct (Nat.eqb_spec k n) as [->|]; [rewrite FN; split; intros; [discriminate|right; left; reflexivity]|]. cbn [In] in *. intuition congruence.
      + fold z1. cbn [seg]. split; [reflexivity|]. exists (mkPstate (t_pos s) None (Some n)). split; [rewrite F2; unfold upd; rewrite F1, Nat.eqb_refl; destruct (Nat.eqb_spec (z_made z) n); [congruence|reflexivity]|]. split; [reflexivity|]. split; [reflexivity|]. exists (g u). split; [rewrite F2; unfold upd; rewrite Nat.eqb_refl, FN1; reflexivity|]. split; [reflexivity|]. cbn [g set_last t_next]. apply (seg_ext (find z)); [|exact SG]. intros k t I FK. exists t. rewrite F2. unfold upd. rewrite F1. inversion ND; subst. destruct (Nat.eqb_spec k n) as [->|]; [contradiction|]. destruct (Nat.eqb_spec k (z_made z)) as [->|]; [exfalso; apply FR; right; exact I|auto].
    - rewrite (rp_deleted _ _ _ _ R), FI. reflexivity.
    - apply (rp_ended _ _ _ _ R).
    - apply (rp_base _ _ _ _ R).
    - apply (rp_look _ _ _ _ R).
    - apply (rp_eof _ _ _ _ R).
  Qed.
  Lemma close_ok base valid a z h : rep base valid a z -> live a h -> exists z', close T h z = Done z' /\ rep base valid (a_op (Close h) a) z'.
  Proof.
    intros R L. destruct (rp_live _ _ _ _ _ R L) as (p & s & EP & F & E1 & E2 & E3). pose proof (rp_sorted _ _ _ _ R) as SO. unfold close, state_at. pose proof F as F0. unfold find in F0. rewrite F0. cbn [defined bind]. rewrite (rp_there _ _ _ _ _ R L). cbn [bind].
    destruct (rp_list _ _ _ _ R) as (ids & q & ND & IN & SG). assert (IH : In h ids) by (apply IN; congruence). apply in_split in IH. destruct IH as (l1 & l2 & ->). destruct (seg_remove _ _ _ _ _ _ _ ND SG F) as (q' & SG' & N2 & N1).
    assert (LH : forall l, t_last s = Some l -> l <> h) by (intros l E ->; apply NoDup_remove_2 in ND; apply ND, in_or_app; left; apply N1, E). assert (NH : forall n, t_next s = Some n -> n <> h) by (intros n E ->; apply NoDup_remove_2 in ND; apply ND, in_or_app; right; apply N2, E).
    set (f1 := match t_last s with Some l => upd l (set_next (t_next s)) (find z) | None => find z end) in *. set (r1 := match t_last s with Some _ => z_first z | None => t_next s end) in *.
    assert (X1 : exists z1, match t_last s with Some l => change T l (set_next (t_next s)) z | None => Done (set_first T (t_next s) z) end = Done z1 /\ msorted Nat.ltb (z_states z1) /\ (forall k, find z1 k = f1 k) /\ z_first z1 = r1 /\ z_look z1 = z_look z /\ z_eof z1 = z_eof z /\ z_reads z1 = z_reads z /\ z_made z1 = z_made z).
    { unfold f1, r1. destruct (t_last s) as [l|] eqn:EL; [|eexists; split; [reflexivity|]; repeat split; exact SO]. destruct (find z l) as [t|] eqn:FL; [|exfalso; apply (proj1 (IN l)); [apply in_or_app; left; apply N1; reflexivity|exact FL]]. rewrite (change_done _ _ _ _ FL). eexists. split; [reflexivity|]. split; [apply mset_sorted; [exact natltb_strict|exact SO]|]. split; [intros k; apply find_change; [exact SO|exact FL]|]. repeat split. }
    destruct X1 as (z1 & EQ1 & SO1 & F1 & R1 & K1 & K2 & K3 & K4). rewrite EQ1. cbn [bind].
    assert (SOME1 : forall k, find z k <> None -> f1 k <> None). { intros k FK. unfold f1. destruct (t_last s); [|exact FK]. unfold upd. destruct (Nat.eqb k n); [destruct (find z k); [discriminate|exact FK]|exact FK]. }
    assert (SOME1' : forall k, f1 k <> None -> find z k <> None). { intros k FK. unfold f1 in FK. destruct (t_last s); [|exact FK]. unfold upd in FK. destruct (Nat.eqb k n); [destruct (find z k); [discriminate|exact FK]|exact FK]. }
    set (f2 := match t_next s with Some n => upd n (set_last (t_last s)) f1 | None => f1 end) in *.
    assert (X2 : exists z2, match t_next s with Some n => change T n (set_last (t_last s)) z1 | None => Done z1 end = Done z2 /\ msorted Nat.ltb (z_states z2) /\ (forall k, find z2 k = f2 k) /\ z_first z2 = r1 /\ z_look z2 = z_look z /\ z_eof z2 = z_eof z /\ z_reads z2 = z_reads z /\ z_made z2 = z_made z).
    { unfold f2. destruct (t_next s) as [n|] eqn:EN; [|exists z1; auto 10]. destruct (find z1 n) as [t|] eqn:FL; [|exfalso; rewrite F1 in FL; apply (SOME1 n); [apply (proj1 (IN n)), in_or_app; right; right; apply N2; reflexivity|exact FL]]. rewrite (change_done _ _ _ _ FL). eexists. split; [reflexivity|]. split; [apply mset_sorted; [exact natltb_strict|exact SO1]|]. split; [intros k; rewrite find_change by assumption; unfold upd; rewrite F1; reflexivity|]. repeat split; assumption. }
    destruct X2 as (z2 & EQ2 & SO2 & F2 & R2 & J1 & J2 & J3 & J4). rewrite EQ2. cbn [bind]. eexists. split; [reflexivity|].
    assert (SAME : forall k, match f2 k, find z k with Some t, Some t' => t_pos t = t_pos t' | None, None => True | _, _ => False end).
    { intros k. unfold f2, f1, upd. destruct (t_next s) as [n|]; destruct (t_last s) as [l|]; repeat (destruct (Nat.eqb _ _)); destruct (find z k); cbn; auto. }
    assert (FE : forall k, mfind Nat.ltb k (merase Nat.ltb h (z_states z2)) = if Nat.eqb k h then None else f2 k).
    { intros k. destruct (Nat.eqb_spec k h) as [->|NE].
      - apply mfind_none; [exact natltb_strict|apply merase_sorted; [exact natltb_strict|exact SO2]|]. intros v I. apply merase_in in I; [|exact natltb_strict|exact SO2]. cbn [fst] in I. destruct I as [_ I]. apply I. reflexivity.
      - rewrite <- F2. unfold find. destruct (mfind Nat.ltb k (z_states z2)) as [t|] eqn:FK.
        + apply mfind_in; [exact natltb_strict|apply merase_sorted; [exact natltb_strict|exact SO2]|]. apply merase_in; [exact natltb_strict|exact SO2|]. split; [|exact NE]. apply mfind_in in FK; [exact FK|exact natltb_strict|exact SO2].
        + apply mfind_none; [exact natltb_strict|apply merase_sorted; [exact natltb_strict|exact SO2]|]. intros v I. apply merase_in in I; [|exact natltb_strict|exact SO2]. destruct I as [I _]. apply (proj1 (mfind_none Nat.ltb natltb_strict _ SO2 k) FK v I). }
    constructor; cbn [a_op a_made a_at a_far z_made z_first z_deleted z_eof z_reads z_look z_states]; rewrite ?J1, ?J2, ?J3, ?J4, ?R2.
    - apply (rp_made _ _ _ _ R).
    - apply merase_sorted; [exact natltb_strict|exact SO2].
    - intros k t. unfold find. cbn [z_states]. rewrite FE. destruct (Nat.eqb k h); [discriminate|]. intros FK. specialize (SAME k). rewrite FK in SAME. destruct (find z k) as [t'|] eqn:FZ; [|contradiction]. apply (rp_keys _ _ _ _ R) in FZ. exact FZ.
    - intros k. unfold find. cbn [z_states]. rewrite FE. unfold put. destruct (Nat.eqb k h); [exact Logic.I|]. pose proof (rp_at _ _ _ _ R k) as X. specialize (SAME k). destruct (f2 k), (find z k); try contradiction; destruct (a_at a k); auto. rewrite SAME. exact X.
    - exists (l1 ++ l2), q'. split; [apply NoDup_remove_1 in ND; exact ND|]. split.
      + intros k. unfold find. cbn [z_states]. rewrite FE. destruct (Nat.eqb_spec k h) as [->|NE]; [split; intros X; [apply NoDup_remove_2 in ND; contradiction|contradiction X; reflexivity]|]. specialize (SAME k). specialize (IN k). rewrite in_app_iff in *. cbn [In] in IN. destruct (f2 k), (find z k); try contradiction; intuition congruence.
      + apply (seg_ext f2); [|exact SG']. intros k t I FK. exists t. unfold find. cbn [z_states]. rewrite FE. destruct (Nat.eqb_spec k h) as [->|]; [apply NoDup_remove_2 in ND; contradiction|auto].
    - reflexivity.
    - apply (rp_ended _ _ _ _ R).
    - apply (rp_base _ _ _ _ R).
    - apply (rp_look _ _ _ _ R).
    - apply (rp_eof _ _ _ _ R).
  Qed.

  (** * Moving on *)
  Lemma walk_ok z ids : forall fuel p r q, seg (find z) p r ids q None -> (length ids <= fuel)%nat -> exists l, walk T fuel z r = Done l /\ map fst l = ids /\ forall h s, In (h, s) l -> find z h = Some s.
  Proof.
    induction ids as [|h ids IH]; intros fuel p r q SG F.
    - destruct SG as [_ ->]. exists []. split; [destruct fuel; reflexivity|]. split; [reflexivity|]. intros h s [].
    - destruct SG as (-> & s & FH & _ & SG). cbn [length] in F. destruct fuel as [|fuel]; [lia|]. destruct (IH fuel _ _ _ SG ltac:(lia)) as (l & W & M & X). exists ((h, s) :: l). cbn [walk]. unfold state_at. unfold find in FH. rewrite FH. cbn [defined bind]. rewrite W. cbn [bind]. split; [reflexivity|]. split; [cbn; rewrite M; reflexivity|]. intros k t [E|I]; [injection E as <- <-; exact FH|apply X, I].
  Qed.
  Lemma least_ok (l : list (nat * pstate)) : forall m, let r := fold_left (fun m (s : nat * pstate) => if t_pos (snd s) <? m then t_pos (snd s) else m) l m in r <= m /\ (forall h s, In (h, s) l -> r <= t_pos s) /\ (r = m \/ exists h s, In (h, s) l /\ r = t_pos s).
  Proof.
    induction l as [|[h s] l IH]; intros m; cbn [fold_left snd]; [split; [lia|]; split; [intros h s []|auto]|]. destruct (IH (if t_pos s <? m then t_pos s else m)) as (A1 & A2 & A3). destruct (Z.ltb_spec (t_pos s) m) as [LT|GE]; (split; [lia|]; split; [intros k t [E|I]; [injection E as <- <-; lia|apply (A2 k t I)]|]); destruct A3 as [A3|(k & t & I & A3)].
    - right. exists h, s. split; [left; reflexivity|exact A3].
    - right. exists k, t. split; [right; exact I|exact A3].
    - left. exact A3.
    - right. exists k, t. split; [right; exact I|exact A3].
  Qed.
  Lemma back_ok n : forall l z, msorted Nat.ltb (z_states z) -> NoDup (map fst l) -> (forall h, In h (map fst l) -> find z h <> None) ->
    exists z', back T n l z = Done z' /\ msorted Nat.ltb (z_states z') /\ (forall h, In h (map fst l) -> find z' h = option_map (fun s => set_pos (t_pos s - n) s) (find z h)) /\ (forall h, ~ In h (map fst l) -> find z' h = find z h) /\
      z_look z' = z_look z /\ z_eof z' = z_eof z /\ z_reads z' = z_reads z /\ z_made z' = z_made z /\ z_first z' = z_first z /\ z_deleted z' = z_deleted z.
  Proof.
    induction l as [|[h s0] l IH]; intros z SO ND IN; cbn [back].
    - exists z. split; [reflexivity|]. split; [exact SO|]. split; [intros h []|]. auto 10.
    - cbn [map fst] in ND, IN. inversion ND as [|? ? NI ND']; subst. destruct (find z h) as [s|] eqn:F; [|exfalso; apply (IN h); [left; reflexivity|exact F]]. rewrite (change_done _ _ _ (fun s => set_pos (t_pos s - n) s) F). cbn [bind]. set (z1 := set_state T h (set_pos (t_pos s - n) s) z).
      assert (F1 : forall k, find z1 k = if Nat.eqb k h then Some (set_pos (t_pos s - n) s) else find z k) by (intros k; apply find_set; exact SO).
      destruct (IH z1) as (z' & B & SO' & IN' & OUT' & K); [apply mset_sorted; [exact natltb_strict|exact SO]|exact ND'|intros k I; rewrite F1; destruct (Nat.eqb k h); [discriminate|apply IN; right; exact I]|].
      exists z'. split; [exact B|]. split; [exact SO'|]. split; [|split; [|exact K]].
      + intros k I. cbn [map fst] in I. destruct I as [<-|I]; [rewrite OUT', F1, Nat.eqb_refl, F by exact NI; reflexivity|]. rewrite IN' by exact I. rewrite F1. destruct (Nat.eqb_spec k h) as [->|]; [contradiction|reflexivity].
      + intros k NK. cbn [map fst In] in NK. rewrite OUT' by tauto. rewrite F1. destruct (Nat.eqb_spec k h) as [->|]; [tauto|reflexivity].
  Qed.
  (** trim_lookahead drops exactly what is before all states. *)
  Lemma trim_ok base valid a z h s : rep base valid a z -> find z h = Some s -> exists z' base', trim_lookahead T (t_pos s) z = Done z' /\ rep base' valid a z' /\ (exists k p, a_at a k = Some p /\ p = base').
  Proof.
    intros R F. pose proof (rp_sorted _ _ _ _ R) as SO. assert (L : live a h) by (pose proof (rp_at _ _ _ _ R h) as X; rewrite F in X; unfold live; destruct (a_at a h); [discriminate|contradiction]). unfold trim_lookahead. rewrite (rp_there _ _ _ _ _ R L). cbn [bind].
    destruct (rp_list _ _ _ _ R) as (ids & q & ND & IN & SG).
    assert (LEN : (length ids <= S (length (z_states z)))%nat). { rewrite <- (map_length fst (z_states z)). transitivity (length (map fst (z_states z))); [|lia]. apply NoDup_incl_length; [exact ND|]. intros k I. apply IN in I. destruct (find z k) as [t|] eqn:FK; [|contradiction]. apply mfind_in in FK; [|exact natltb_strict|exact SO]. apply in_map_iff. exists (k, t). auto. }
    destruct (walk_ok z ids _ _ _ _ SG LEN) as (l & W & M & FL). rewrite W. cbn [bind]. destruct (least_ok l (t_pos s)) as (A1 & A2 & A3). set (least := fold_left _ l (t_pos s)) in *.
    assert (ALL : forall k t, find z k = Some t -> In (k, t) l). { intros k t FK. assert (I : In k (map fst l)) by (rewrite M; apply IN; congruence). apply in_map_iff in I. destruct I as ([k' t'] & E & I). cbn in E. subst k'. pose proof (FL _ _ I) as X. congruence. }
    assert (MIN : exists k t, find z k = Some t /\ least = t_pos t). { destruct A3 as [A3|(k & t & I & A3)]; [exists h, s; auto|exists k, t; split; [apply FL, I|exact A3]]. } destruct MIN as (km & tm & FM & EM).
    pose proof (rp_at _ _ _ _ R km) as XM. rewrite FM in XM. destruct (a_at a km) as [pm|] eqn:EPM; [|contradiction]. destruct XM as (M1 & M2 & M3). pose proof (rp_base _ _ _ _ R) as BV.
    assert (LL : length (z_look z) = (valid - base)%nat) by (rewrite (rp_look _ _ _ _ R); apply symbols_length; replace (base + (valid - base))%nat with valid by lia; apply (rp_ended _ _ _ _ R)).
    destruct (Z.eqb_spec least 0) as [Z0|NZ].
    - exists z, base. split; [reflexivity|]. split; [exact R|]. exists km, pm. split; [exact EPM|lia].
    - destruct (Z.leb_spec 0 least); [|lia]. destruct (Z.leb_spec least (Z.of_nat (length (z_look z)))); [|lia]. cbn [andb].
      destruct (back_ok least l (set_look T (skipn (Z.to_nat least) (z_look z)) z)) as (z' & B & SO' & IN' & OUT' & K1 & K2 & K3 & K4 & K5 & K6); [exact SO|rewrite M; exact ND|intros k I; rewrite M in I; apply IN, I|]. cbn [set_look z_look z_eof z_reads z_made z_first z_deleted] in *.
      assert (FE : forall k, find z' k = option_map (fun s => set_pos (t_pos s - least) s) (find z k)). { intros k. change (find z k) with (find (set_look T (skipn (Z.to_nat least) (z_look z)) z) k). destruct (in_dec Nat.eq_dec k (map fst l)) as [I|NI]; [apply IN', I|]. rewrite OUT' by exact NI. assert (FN : find z k = None) by (destruct (find z k) eqn:FK; [|reflexivity]; exfalso; apply NI; rewrite M; apply IN; congruence). change (find (set_look T (skipn (Z.to_nat least) (z_look z)) z) k) with (find z k). rewrite FN. reflexivity. }
      exists z', (base + Z.to_nat least)%nat. split; [exact B|]. split; [|exists km, pm; split; [exact EPM|lia]]. constructor.
      + rewrite K4. apply (rp_made _ _ _ _ R).
      + exact SO'.
      + intros k t. rewrite FE, K4. destruct (find z k) as [t'|] eqn:FK; [|discriminate]. intros _. apply (rp_keys _ _ _ _ R _ _ FK).
      + intros k. rewrite FE. pose proof (rp_at _ _ _ _ R k) as X. destruct (a_at a k) as [pk|]; destruct (find z k) as [t|] eqn:FK; cbn; auto. specialize (A2 k t (ALL k t FK)). lia.
      + exists ids, q. split; [exact ND|]. split; [intros k; rewrite FE, IN; destruct (find z k); cbn; split; congruence|]. rewrite K5. apply (seg_ext (find z)); [|exact SG]. intros k t _ FK. rewrite FE, FK. eexists. split; [reflexivity|]. auto.
      + rewrite K5, K6. apply (rp_deleted _ _ _ _ R).
      + apply (rp_ended _ _ _ _ R).
      + lia.
      + rewrite K1, (rp_look _ _ _ _ R), symbols_skip; [f_equal; lia|replace (base + (valid - base))%nat with valid by lia; apply (rp_ended _ _ _ _ R)|lia].
      + rewrite K2, K3. apply (rp_eof _ _ _ _ R).
  Qed.
  Lemma next_ok base valid a z h : rep base valid a z -> legal T source (Next h) a -> exists z' base', next T h z = Done z' /\ rep base' valid (a_op (Next h) a) z' /\ (exists k p, a_at (a_op (Next h) a) k = Some p /\ p = base').
  Proof.
    intros R (p & EP & LF & NS). assert (L : live a h) by (unfold live; congruence). destruct (rp_live _ _ _ _ _ R L) as (p' & s & EP' & F & E1 & E2 & E3). rewrite EP in EP'. injection EP' as <-. pose proof (rp_sorted _ _ _ _ R) as SO.
    assert (PV : (p < valid)%nat). { pose proof (rp_eof _ _ _ _ R) as EO. destruct (z_eof z); [|lia]. destruct EO as (O1 & _ & _). destruct (Nat.ltb_spec p valid); [assumption|]. exfalso. apply NS. apply (symbol_gone p valid); assumption. }
    unfold next, state_at. pose proof F as F0. unfold find in F0. rewrite F0. cbn [defined bind]. set (z1 := set_state T h (set_pos (t_pos s + 1) s) z).
    assert (F1 : forall k, find z1 k = if Nat.eqb k h then Some (set_pos (t_pos s + 1) s) else find z k) by (intros k; apply find_set; exact SO).
    assert (R1 : rep base valid (a_op (Next h) a) z1).
    { constructor; cbn [a_op a_made a_at a_far z1 set_state z_made z_first z_deleted z_eof z_reads z_look z_states].
      - apply (rp_made _ _ _ _ R).
      - apply mset_sorted; [exact natltb_strict|exact SO].
      - intros k t. fold z1. rewrite F1. destruct (Nat.eqb_spec k h) as [->|]; [intros _; apply (rp_keys _ _ _ _ R _ _ F)|apply (rp_keys _ _ _ _ R)].
      - intros k. fold z1. rewrite F1. unfold put. rewrite EP. destruct (Nat.eqb k h); [cbn; lia|apply (rp_at _ _ _ _ R)].
      - destruct (rp_list _ _ _ _ R) as (ids & q & ND & IN & SG). exists ids, q. split; [exact ND|]. split; [intros k; fold z1; rewrite F1, IN; destruct (Nat.eqb_spec k h) as [->|]; [rewrite F; split; discriminate|reflexivity]|]. fold z1. apply (seg_ext (find z)); [|exact SG]. intros k t _ FK. rewrite F1. destruct (Nat.eqb_spec k h) as [->|]; [rewrite F in FK; injection FK as <-; eexists; split; [reflexivity|]; auto|]. exists t. auto.
      - apply (rp_deleted _ _ _ _ R).
      - apply (rp_ended _ _ _ _ R).
      - apply (rp_base _ _ _ _ R).
      - apply (rp_look _ _ _ _ R).
      - apply (rp_eof _ _ _ _ R). }
    apply (trim_ok base valid _ z1 h (set_pos (t_pos s + 1) s) R1). rewrite F1, Nat.eqb_refl. reflexivity.
  Qed.

  (** * Histories *)
  Lemma open_ok : rep 0 0 start (open T).
  Proof.
    constructor; cbn.
    - reflexivity.
    - apply SSorted_cons; constructor.
    - intros [|h] s E; [lia|discriminate E].
    - intros [|h]; cbn; [lia|exact Logic.I].
    - exists [O], (Some O). split; [constructor; [intros []|constructor]|]. split; [intros [|h]; cbn; split; intros X; [discriminate|auto|destruct X as [X|[]]; discriminate X|contradiction X; reflexivity]|]. cbn. split; [reflexivity|]. eexists. split; [reflexivity|]. auto.
    - reflexivity.
    - reflexivity.
    - lia.
    - reflexivity.
    - auto.
  Qed.
  Lemma op_ok base valid a z o : rep base valid a z -> legal T source o a -> exists z' base' valid', do_op T source o z = Done z' /\ rep base' valid' (a_op o a) z'.
  Proof.
    intros R LG. destruct o; cbn [do_op].
    - destruct (clone_ok _ _ _ _ _ R LG) as (z' & E & R'). eauto.
    - destruct (close_ok _ _ _ _ _ R LG) as (z' & E & R'). eauto.
    - destruct (next_ok _ _ _ _ _ R LG) as (z' & base' & E & R' & _). eauto.
    - destruct (rp_live _ _ _ _ _ R LG) as (p & s & EP & _). destruct (look_ok _ _ _ _ _ _ offset R EP) as (z' & valid' & E & R'). rewrite E. cbn [bind]. eauto.
  Qed.
  Lemma do_ops_app l1 : forall l2 z, do_ops T source (l1 ++ l2) z = do z <- do_ops T source l1 z ;; do_ops T source l2 z.
  Proof. induction l1 as [|o l1 IH]; intros l2 z; cbn [app do_ops bind]; [reflexivity|]. destruct (do_op T source o z); cbn [bind]; [apply IH|reflexivity|reflexivity]. Qed.
  Lemma history_ok l a : history T source l a -> exists z base valid, do_ops T source l (open T) = Done z /\ rep base valid a z.
  Proof.
    intros H. induction H as [|l a o H IH LG]; [exists (open T), O, O; split; [reflexivity|apply open_ok]|]. destruct IH as (z & base & valid & E & R). destruct (op_ok _ _ _ _ _ R LG) as (z' & base' & valid' & E' & R'). exists z', base', valid'. split; [|exact R']. rewrite do_ops_app, E. cbn [bind do_ops]. rewrite E'. reflexivity.
  Qed.
End Session.

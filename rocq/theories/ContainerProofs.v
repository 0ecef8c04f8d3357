(** Proofs about reference counting. *)
From Verif Require Import Base ContainerModel ContainerSpec.
Local Open Scope Z_scope.

Lemma upd_length {X} k (x : X) l : length (upd k x l) = length l.
Proof. revert k. induction l as [|a l IH]; intros [|k]; cbn; auto. Qed.
Lemma nth_upd {X} k (x : X) l j d : (k < length l)%nat -> nth j (upd k x l) d = if Nat.eqb j k then x else nth j l d.
Proof.
  revert k j. induction l as [|a l IH]; intros k j H; [cbn in H; lia|]. destruct k as [|k], j as [|j]; cbn [upd nth Nat.eqb]; try reflexivity.
  apply IH. cbn in H. lia.
Qed.

Definition pts (r : nat) (h : handle) : bool := match h_ref h with Some x => Nat.eqb x r | None => false end.
Definition cnt (r : nat) (hs : list handle) : Z := Z.of_nat (length (filter (pts r) hs)).
Definition b2z (b : bool) : Z := if b then 1 else 0.

Lemma cnt_cons r h hs : cnt r (h :: hs) = b2z (pts r h) + cnt r hs.
Proof. unfold cnt, b2z. cbn [filter]. destruct (pts r h); cbn [length]; lia. Qed.
Lemma cnt_app r a c : cnt r (a ++ c) = cnt r a + cnt r c.
Proof. unfold cnt. rewrite filter_app, app_length. lia. Qed.
Lemma cnt_nonneg r hs : 0 <= cnt r hs. Proof. unfold cnt. lia. Qed.
Lemma cnt_upd r k x hs : (k < length hs)%nat -> cnt r (upd k x hs) = cnt r hs - b2z (pts r (nth k hs dead_handle)) + b2z (pts r x).
Proof.
  revert k. induction hs as [|h hs IH]; intros k H; [cbn in H; lia|]. destruct k as [|k]; cbn [upd nth]; rewrite !cnt_cons; [lia|].
  rewrite IH by (cbn in H; lia). lia.
Qed.
Lemma cnt_pos r hs k : h_ref (nth k hs dead_handle) = Some r -> 1 <= cnt r hs.
Proof.
  revert k. induction hs as [|h hs IH]; intros k H; [destruct k; discriminate|]. rewrite cnt_cons. pose proof (cnt_nonneg r hs).
  destruct k as [|k]; cbn [nth] in H.
  - unfold pts at 1. rewrite H, Nat.eqb_refl. cbn [b2z]. lia.
  - specialize (IH k H). unfold b2z. destruct (pts r h); lia.
Qed.
Lemma cnt_zero r hs : cnt r hs <= 0 -> forall k, h_ref (nth k hs dead_handle) <> Some r.
Proof. intros H k E. pose proof (cnt_pos r hs k E). lia. Qed.

(** live handles: those constructed and not destroyed *)
Definition livecount (hs : list handle) : nat := length (filter (fun h => match h_ref h with Some _ => true | None => false end) hs).
Lemma livecount_le hs : (livecount hs <= length hs)%nat.
Proof. unfold livecount. induction hs as [|h t IH]; [reflexivity|]. cbn [filter]. destruct (h_ref h); cbn [length]; lia. Qed.
Lemma livecount_upd k hs r i : (k < length hs)%nat -> h_ref (nth k hs dead_handle) = Some r ->
  S (livecount (upd k (mkH None i) hs)) = livecount hs.
Proof.
  unfold livecount. revert k. induction hs as [|h hs IH]; intros k H E; [cbn in H; lia|]. destruct k as [|k]; cbn [upd nth filter] in *.
  - rewrite E. cbn [h_ref length]. reflexivity.
  - specialize (IH k ltac:(cbn in H; lia) E). destruct (h_ref h); cbn [length]; lia.
Qed.

Record Inv (m : memory) (P : list nat) : Prop := mkInv {
  i_ref : forall h r, h_ref (handle_at m h) = Some r -> c_count (cell_at m r) <> None;
  i_cnt : forall r n, c_count (cell_at m r) = Some n -> n = cnt r (m_handles m) /\ 1 <= n /\ c_kids (cell_at m r) <> None;
  i_kids : forall r kids, c_kids (cell_at m r) = Some kids ->
             NoDup kids /\ forall k, In k kids -> h_ref (handle_at m k) <> None /\ h_in (handle_at m k) = Some r /\ ~ In k P;
  i_pend : NoDup P;
  i_pend2 : forall h, In h P -> h_ref (handle_at m h) <> None;
  i_in : forall h r, h_ref (handle_at m h) <> None -> h_in (handle_at m h) = Some r -> ~ In h P ->
             exists kids, c_kids (cell_at m r) = Some kids /\ In h kids;
  i_own : forall r, c_owned (cell_at m r) = true -> c_kids (cell_at m r) <> None -> c_count (cell_at m r) <> None }.

Lemma live_lt m h : h_ref (handle_at m h) <> None -> (h < length (m_handles m))%nat.
Proof.
  intros H. destruct (Nat.lt_ge_cases h (length (m_handles m))); [assumption|]. exfalso. apply H. unfold handle_at. rewrite nth_overflow by assumption. reflexivity.
Qed.
Lemma cell_lt m r n : c_count (cell_at m r) = Some n -> (r < length (m_cells m))%nat.
Proof.
  intros H. destruct (Nat.lt_ge_cases r (length (m_cells m))); [assumption|]. exfalso. unfold cell_at in H. rewrite nth_overflow in H by assumption. discriminate.
Qed.

Lemma handle_set_ref m h r k : (h < length (m_handles m))%nat ->
  handle_at (set_ref m h r) k = if Nat.eqb k h then mkH r (h_in (handle_at m h)) else handle_at m k.
Proof. intros H. unfold handle_at at 1, set_ref. cbn [m_handles]. apply nth_upd. exact H. Qed.
Lemma cell_set_cell m r c k : (r < length (m_cells m))%nat ->
  cell_at (set_cell m r c) k = if Nat.eqb k r then c else cell_at m k.
Proof. intros H. unfold cell_at at 1, set_cell. cbn [m_cells]. apply nth_upd. exact H. Qed.

(** What destroying handles may change. *)
Record shrinks (P : list nat) (m m' : memory) : Prop := mkS {
  s_handles : length (m_handles m') = length (m_handles m);
  s_cells : length (m_cells m') = length (m_cells m);
  s_in : forall h, h_in (handle_at m' h) = h_in (handle_at m h);
  s_ref : forall h, h_ref (handle_at m' h) = h_ref (handle_at m h) \/ h_ref (handle_at m' h) = None;
  s_own : forall h, h_in (handle_at m h) = None -> ~ In h P -> h_ref (handle_at m' h) = h_ref (handle_at m h);
  s_owned : forall r, c_owned (cell_at m' r) = c_owned (cell_at m r);
  s_kids : forall r, c_kids (cell_at m' r) = c_kids (cell_at m r) \/ c_kids (cell_at m' r) = None;
  s_kids2 : forall r, c_owned (cell_at m r) = false -> c_kids (cell_at m' r) = c_kids (cell_at m r) }.

Lemma shrinks_refl P m : shrinks P m m.
Proof. constructor; auto. Qed.

Lemma destroy_step m h r n P : Inv m (h :: P) -> h_ref (handle_at m h) = Some r -> c_count (cell_at m r) = Some n ->
  (h < length (m_handles m))%nat -> (r < length (m_cells m))%nat ->
  forall c' P', c_owned c' = c_owned (cell_at m r) ->
  ((n = 1 /\ c_owned c' = true /\ c_count c' = None /\ c_kids c' = None /\ exists kids, c_kids (cell_at m r) = Some kids /\ P' = kids ++ P) \/
   (n = 1 /\ c_owned c' = false /\ c_count c' = None /\ c_kids c' = c_kids (cell_at m r) /\ P' = P) \/
   (1 < n /\ c_count c' = Some (n - 1) /\ c_kids c' = c_kids (cell_at m r) /\ P' = P)) ->
  Inv (set_cell (set_ref m h None) r c') P'.
Proof.
  intros IN E N LH LR c' P' OW CASES. set (m1 := set_ref m h None).
  assert (HA : forall k, handle_at (set_cell m1 r c') k = if Nat.eqb k h then mkH None (h_in (handle_at m h)) else handle_at m k).
  { intros k. change (handle_at (set_cell m1 r c') k) with (handle_at m1 k). apply handle_set_ref, LH. }
  assert (CA : forall k, cell_at (set_cell m1 r c') k = if Nat.eqb k r then c' else cell_at m k).
  { intros k. rewrite cell_set_cell by exact LR. reflexivity. }
  assert (CN : forall x, cnt x (m_handles (set_cell m1 r c')) = cnt x (m_handles m) - b2z (Nat.eqb r x)).
  { intros x. change (m_handles (set_cell m1 r c')) with (upd h (mkH None (h_in (handle_at m h))) (m_handles m)). rewrite cnt_upd by exact LH.
    unfold handle_at in E. unfold pts at 1. rewrite E. unfold pts. cbn [h_ref b2z]. lia. }
  destruct (i_cnt _ _ IN r n N) as (C1 & C2 & C3).
  assert (KS : forall k, In k P -> k <> h). { intros k Hk ->. pose proof (i_pend _ _ IN) as ND. inversion ND; subst. contradiction. }
  assert (PK : forall k, In k P' -> In k P \/ exists kids, c_kids (cell_at m r) = Some kids /\ In k kids).
  { intros k Hk. destruct CASES as [(_ & _ & _ & _ & kids & K1 & ->)|[(_ & _ & _ & _ & ->)|(_ & _ & _ & ->)]]; auto.
    apply in_app_or in Hk. destruct Hk; [right; eauto|auto]. }
  assert (PP : forall k, In k P -> In k P').
  { intros k Hk. destruct CASES as [(_ & _ & _ & _ & kids & K1 & ->)|[(_ & _ & _ & _ & ->)|(_ & _ & _ & ->)]]; auto. apply in_or_app. auto. }
  constructor.
  - intros k x. rewrite HA. destruct (Nat.eqb_spec k h); [discriminate|]. intros Ek. rewrite CA. destruct (Nat.eqb_spec x r) as [->|].
    + destruct CASES as [(N1 & _)|[(N1 & _)|(N1 & -> & _)]]; [| |discriminate].
      * exfalso. assert (Q : cnt r (m_handles (set_cell m1 r c')) <= 0) by (rewrite CN, Nat.eqb_refl; cbn; lia).
        apply (cnt_zero _ _ Q k). specialize (HA k). unfold handle_at at 1 in HA. rewrite HA. destruct (Nat.eqb_spec k h); [contradiction|exact Ek].
      * exfalso. assert (Q : cnt r (m_handles (set_cell m1 r c')) <= 0) by (rewrite CN, Nat.eqb_refl; cbn; lia).
        apply (cnt_zero _ _ Q k). specialize (HA k). unfold handle_at at 1 in HA. rewrite HA. destruct (Nat.eqb_spec k h); [contradiction|exact Ek].
    + apply (i_ref _ _ IN k). exact Ek.
  - intros x n' Hx. rewrite CN. rewrite CA in Hx |- *. destruct (Nat.eqb_spec x r) as [->|NE].
    + destruct CASES as [(N1 & _ & Z & _)|[(N1 & _ & Z & _)|(N1 & Z & K & _)]]; rewrite Z in Hx; [discriminate|discriminate|].
      injection Hx as <-. rewrite Nat.eqb_refl, K. cbn. split; [lia|]. split; [lia|exact C3].
    + destruct (Nat.eqb_spec r x); [congruence|]. cbn. destruct (i_cnt _ _ IN x n' Hx) as (D1 & D2 & D3). split; [lia|]. auto.
  - intros x kids. rewrite CA. destruct (Nat.eqb_spec x r) as [->|NE].
    + intros K. assert (KM : c_kids (cell_at m r) = Some kids /\ P' = P).
      { destruct CASES as [(_ & _ & _ & Z & _)|[(_ & _ & _ & Z & ->)|(_ & _ & Z & ->)]]; rewrite Z in K; [discriminate|auto|auto]. }
      destruct KM as [KM ->]. destruct (i_kids _ _ IN r kids KM) as (D1 & D2). split; [exact D1|]. intros k Hk. destruct (D2 k Hk) as (F1 & F2 & F3).
      rewrite HA. destruct (Nat.eqb_spec k h) as [->|]; [exfalso; apply F3; left; reflexivity|]. split; [exact F1|]. split; [exact F2|]. intros Hp. apply F3. right. exact Hp.
    + intros K. destruct (i_kids _ _ IN x kids K) as (D1 & D2). split; [exact D1|]. intros k Hk. destruct (D2 k Hk) as (F1 & F2 & F3).
      rewrite HA. destruct (Nat.eqb_spec k h) as [->|]; [exfalso; apply F3; left; reflexivity|]. split; [exact F1|]. split; [exact F2|].
      intros Hp. destruct (PK k Hp) as [Hp'|(kids' & K' & Hk')]; [apply F3; right; exact Hp'|].
      destruct (i_kids _ _ IN r kids' K') as (_ & D2'). destruct (D2' k Hk') as (_ & F2' & _). congruence.
  - pose proof (i_pend _ _ IN) as ND. inversion ND as [|? ? ND1 ND2]; subst.
    destruct CASES as [(_ & _ & _ & _ & kids & K1 & ->)|[(_ & _ & _ & _ & ->)|(_ & _ & _ & ->)]]; auto.
    destruct (i_kids _ _ IN r kids K1) as (D1 & D2). clear - D1 D2 ND2. induction kids as [|k kids IH]; cbn [app]; [exact ND2|].
    inversion D1; subst. constructor.
    + intros H. apply in_app_or in H. destruct H; [contradiction|]. destruct (D2 k (or_introl eq_refl)) as (_ & _ & F). apply F. right. assumption.
    + apply IH; [assumption|]. intros k' Hk'. apply D2. right. exact Hk'.
  - intros k Hk. rewrite HA. destruct (PK k Hk) as [Hp|(kids & K & Hkk)].
    + destruct (Nat.eqb_spec k h); [exfalso; eapply KS; eauto|]. apply (i_pend2 _ _ IN). right. exact Hp.
    + destruct (i_kids _ _ IN r kids K) as (_ & D2). destruct (D2 k Hkk) as (F1 & _ & F3).
      destruct (Nat.eqb_spec k h) as [->|]; [exfalso; apply F3; left; reflexivity|exact F1].
  - intros k x. rewrite !HA. destruct (Nat.eqb_spec k h) as [->|NE]; [intros H; exfalso; apply H; reflexivity|]. intros F1 F2 F3.
    destruct (i_in _ _ IN k x F1 F2) as (kids & K & Hk); [intros [->|H]; [contradiction|apply F3, PP, H]|].
    rewrite CA. destruct (Nat.eqb_spec x r) as [->|]; [|eauto].
    destruct CASES as [(_ & _ & _ & _ & kids' & K1 & ->)|[(_ & _ & _ & Z & ->)|(_ & _ & Z & ->)]].
    + exfalso. apply F3. apply in_or_app. left. congruence.
    + rewrite Z. eauto.
    + rewrite Z. eauto.
  - intros x. rewrite CA. destruct (Nat.eqb_spec x r) as [->|].
    + destruct CASES as [(_ & _ & _ & Z & _)|[(_ & Z & _)|(_ & Z & _)]]; rewrite Z; congruence.
    + apply (i_own _ _ IN).
Qed.

Lemma destroy_shrinks_step m h r c' P P' m' : (h < length (m_handles m))%nat -> (r < length (m_cells m))%nat ->
  c_owned c' = c_owned (cell_at m r) -> (c_kids c' = c_kids (cell_at m r) \/ (c_kids c' = None /\ c_owned c' = true)) ->
  (forall k, In k P' -> In k P \/ h_in (handle_at m k) <> None) ->
  shrinks P' (set_cell (set_ref m h None) r c') m' -> shrinks (h :: P) m m'.
Proof.
  intros LH LR OW KK PP [A B C D E F G G2]. set (m1 := set_ref m h None) in *.
  assert (HA : forall k, handle_at (set_cell m1 r c') k = if Nat.eqb k h then mkH None (h_in (handle_at m h)) else handle_at m k).
  { intros k. change (handle_at (set_cell m1 r c') k) with (handle_at m1 k). apply handle_set_ref, LH. }
  assert (CA : forall k, cell_at (set_cell m1 r c') k = if Nat.eqb k r then c' else cell_at m k).
  { intros k. rewrite cell_set_cell by exact LR. reflexivity. }
  constructor.
  - rewrite A. cbn. apply upd_length.
  - rewrite B. cbn. apply upd_length.
  - intros k. rewrite C, HA. destruct (Nat.eqb_spec k h) as [->|]; reflexivity.
  - intros k. specialize (D k). rewrite HA in D. destruct (Nat.eqb_spec k h); [right; destruct D as [D|D]; exact D|exact D].
  - intros k K1 K2. specialize (E k). rewrite HA in E. destruct (Nat.eqb_spec k h) as [Qk|Qk]; [exfalso; apply K2; left; congruence|].
    apply E; [exact K1|]. intros H. destruct (PP k H); [apply K2; right; assumption|contradiction].
  - intros x. rewrite F, CA. destruct (Nat.eqb_spec x r) as [Qx|Qx]; [subst x|]; [exact OW|reflexivity].
  - intros x. specialize (G x). rewrite CA in G. destruct (Nat.eqb_spec x r) as [Qx|Qx]; [subst x|]; [|exact G]. destruct G as [G|G]; [|auto]. rewrite G. destruct KK as [KK|[KK _]]; auto.
  - intros x K. specialize (G2 x). rewrite CA in G2. destruct (Nat.eqb_spec x r) as [Qx|Qx]; [subst x|]; [|apply G2, K].
    rewrite OW in G2. rewrite (G2 K). destruct KK as [KK|[_ KK]]; congruence.
Qed.

Lemma destroy_spec fuel : forall work m, Inv m work -> (livecount (m_handles m) < fuel)%nat ->
  exists m', destroy fuel work m = Some m' /\ Inv m' [] /\ shrinks work m m' /\ (forall h, In h work -> h_ref (handle_at m' h) = None).
Proof.
  induction fuel as [|fuel IH]; intros work m IN F; [lia|]. destruct work as [|h rest].
  - exists m. split; [reflexivity|]. split; [exact IN|]. split; [apply shrinks_refl|]. intros h [].
  - cbn [destroy]. destruct (h_ref (handle_at m h)) as [r|] eqn:E; [|exfalso; apply (i_pend2 _ _ IN h (or_introl eq_refl)); exact E].
    destruct (c_count (cell_at m r)) as [n|] eqn:N; [|exfalso; apply (i_ref _ _ IN h r E); exact N].
    assert (LH : (h < length (m_handles m))%nat) by (apply live_lt; congruence).
    assert (LR : (r < length (m_cells m))%nat) by (eapply cell_lt; eauto).
    destruct (i_cnt _ _ IN r n N) as (C1 & C2 & C3). cbv zeta.
    assert (LC : forall c, (livecount (m_handles (set_cell (set_ref m h None) r c)) < fuel)%nat).
    { intros c. cbn [set_cell set_ref m_handles]. pose proof (livecount_upd h (m_handles m) r (h_in (handle_at m h)) LH E) as Q. lia. }
    assert (FIN : forall c' P', c_owned c' = c_owned (cell_at m r) -> (c_kids c' = c_kids (cell_at m r) \/ (c_kids c' = None /\ c_owned c' = true)) ->
      (forall k, In k rest -> In k P') -> (forall k, In k P' -> In k rest \/ h_in (handle_at m k) <> None) ->
      Inv (set_cell (set_ref m h None) r c') P' ->
      exists m', destroy fuel P' (set_cell (set_ref m h None) r c') = Some m' /\ Inv m' [] /\ shrinks (h :: rest) m m' /\
        (forall k, In k (h :: rest) -> h_ref (handle_at m' k) = None)).
    { intros c' P' OW KK P1 P2 I'. destruct (IH P' _ I' (LC c')) as (m' & D1 & D2 & D3 & D4). exists m'. split; [exact D1|]. split; [exact D2|].
      split; [eapply destroy_shrinks_step; eauto|]. intros k [<-|Hk]; [|apply D4, P1, Hk].
      destruct (s_ref _ _ _ D3 h) as [Q|Q]; [|exact Q]. rewrite Q. change (handle_at (set_cell (set_ref m h None) r c') h) with (handle_at (set_ref m h None) h).
      rewrite handle_set_ref by exact LH. rewrite Nat.eqb_refl. reflexivity. }
    destruct (Z.leb_spec n 1) as [Le|Gt].
    + destruct (c_owned (cell_at m r)) eqn:O.
      * destruct (c_kids (cell_at m r)) as [kids|] eqn:K; [|congruence]. apply FIN; cbn; auto.
        -- intros k Hk. apply in_or_app. auto.
        -- intros k Hk. apply in_app_or in Hk. destruct Hk as [Hk|Hk]; [right|auto]. destruct (i_kids _ _ IN r kids K) as (_ & D). destruct (D k Hk) as (_ & Q & _). congruence.
        -- apply (destroy_step m h r n rest IN E N LH LR); [cbn; congruence|]. left. cbn. split; [lia|]. split; [reflexivity|]. split; [reflexivity|]. split; [reflexivity|]. exists kids. auto.
      * apply FIN; cbn; auto.
        apply (destroy_step m h r n rest IN E N LH LR); [cbn; congruence|]. right. left. cbn. split; [lia|]. auto.
    + apply FIN; cbn; auto. apply (destroy_step m h r n rest IN E N LH LR); [reflexivity|]. right. right. cbn. auto.
Qed.

(** Taking a reference *)
Lemma retain_spec m r : c_count (cell_at m r) <> None ->
  exists n, c_count (cell_at m r) = Some n /\
    retain m r = Some (set_cell m r (mkC (c_owned (cell_at m r)) (Some (n + 1)) (c_kids (cell_at m r)))).
Proof. unfold retain. destruct (c_count (cell_at m r)) as [n|]; [|congruence]. intros _. eauto. Qed.

(** A new handle with an existing reference.  As a member of an item that is being made it
    counts as pending. *)
Lemma copy_handle_spec m src r P owner : Inv m P -> h_ref (handle_at m src) = Some r ->
  exists m', copy_handle m src owner = Some m' /\
   Inv m' (match owner with None => P | Some _ => P ++ [length (m_handles m)] end) /\
   length (m_handles m') = S (length (m_handles m)) /\ length (m_cells m') = length (m_cells m) /\
   (forall k, handle_at m' k = if Nat.eqb k (length (m_handles m)) then mkH (Some r) owner else handle_at m k) /\
   (forall k, c_kids (cell_at m' k) = c_kids (cell_at m k) /\ c_owned (cell_at m' k) = c_owned (cell_at m k)).
Proof.
  intros IN E. unfold copy_handle. rewrite E. destruct (retain_spec m r (i_ref _ _ IN src r E)) as (n & N & ->).
  assert (LR : (r < length (m_cells m))%nat) by (eapply cell_lt; eauto).
  eexists. split; [reflexivity|]. cbn [m_cells m_handles set_cell].
  set (m' := mkM (upd r (mkC (c_owned (cell_at m r)) (Some (n + 1)) (c_kids (cell_at m r))) (m_cells m)) (m_handles m ++ [mkH (Some r) owner])).
  assert (HA : forall k, handle_at m' k = if Nat.eqb k (length (m_handles m)) then mkH (Some r) owner else handle_at m k).
  { intros k. unfold handle_at, m'. cbn [m_handles]. destruct (Nat.eqb_spec k (length (m_handles m))) as [->|NE].
    - rewrite app_nth2, Nat.sub_diag by lia. reflexivity.
    - destruct (Nat.lt_ge_cases k (length (m_handles m))); [apply app_nth1; assumption|]. rewrite !nth_overflow; [reflexivity|assumption|rewrite app_length; cbn; lia]. }
  assert (CA : forall k, cell_at m' k = if Nat.eqb k r then mkC (c_owned (cell_at m r)) (Some (n + 1)) (c_kids (cell_at m r)) else cell_at m k).
  { intros k. unfold cell_at at 1, m'. cbn [m_cells]. apply nth_upd. exact LR. }
  assert (CN : forall x, cnt x (m_handles m') = cnt x (m_handles m) + b2z (Nat.eqb r x)).
  { intros x. unfold m'. cbn [m_handles]. rewrite cnt_app, cnt_cons. unfold pts, cnt. cbn. lia. }
  assert (NL : forall k, h_ref (handle_at m k) <> None -> k <> length (m_handles m)) by (intros k Hk ->; apply live_lt in Hk; lia).
  destruct (i_cnt _ _ IN r n N) as (C1 & C2 & C3).
  split; [|split; [rewrite app_length; cbn; lia|split; [apply upd_length|split; [exact HA|]]]].
  2:{ intros k. rewrite CA. destruct (Nat.eqb_spec k r) as [->|]; auto. }
  set (P' := match owner with None => P | Some _ => P ++ [length (m_handles m)] end).
  assert (PP : forall k, In k P -> In k P') by (intros k Hk; unfold P'; destruct owner; [apply in_or_app; auto|exact Hk]).
  assert (PP' : forall k, In k P' -> In k P \/ k = length (m_handles m)).
  { intros k Hk. unfold P' in Hk. destruct owner; [|auto]. apply in_app_or in Hk. destruct Hk as [|[|[]]]; auto. }
  constructor.
  - intros k x. rewrite HA, CA. destruct (Nat.eqb_spec k (length (m_handles m))) as [->|].
    + intros H. cbn in H. injection H as <-. rewrite Nat.eqb_refl. discriminate.
    + intros H. destruct (Nat.eqb_spec x r); [discriminate|]. apply (i_ref _ _ IN k). exact H.
  - intros x n'. rewrite CN, CA. destruct (Nat.eqb_spec x r) as [->|NE].
    + intros H. injection H as <-. rewrite Nat.eqb_refl. cbn. split; [lia|]. split; [lia|exact C3].
    + intros H. destruct (Nat.eqb_spec r x); [congruence|]. cbn. destruct (i_cnt _ _ IN x n' H) as (D1 & D2 & D3). split; [lia|]. auto.
  - intros x kids K. assert (K' : c_kids (cell_at m x) = Some kids) by (rewrite CA in K; destruct (Nat.eqb_spec x r) as [->|]; exact K).
    destruct (i_kids _ _ IN x kids K') as (D1 & D2). split; [exact D1|]. intros k Hk. destruct (D2 k Hk) as (F1 & F2 & F3).
    rewrite HA. destruct (Nat.eqb_spec k (length (m_handles m))) as [->|]; [exfalso; apply (NL _ F1); reflexivity|]. split; [exact F1|]. split; [exact F2|].
    intros Hp. destruct (PP' k Hp); [contradiction|]. subst. apply (NL _ F1). reflexivity.
  - unfold P'. destruct owner; [|apply (i_pend _ _ IN)].
    pose proof (i_pend _ _ IN) as ND. assert (NI : ~ In (length (m_handles m)) P) by (intros H; apply (i_pend2 _ _ IN) in H; apply (NL _ H); reflexivity).
    clear - ND NI. induction P as [|a P IH]; cbn [app]; [repeat constructor; intros []|]. inversion ND; subst. constructor.
    + intros H. apply in_app_or in H. destruct H as [H|[H|[]]]; [contradiction|]. apply NI. left. congruence.
    + apply IH; [assumption|]. intros H. apply NI. right. exact H.
  - intros k Hk. rewrite HA. destruct (Nat.eqb_spec k (length (m_handles m))); [discriminate|]. destruct (PP' k Hk); [|contradiction]. apply (i_pend2 _ _ IN). assumption.
  - intros k x. rewrite HA. destruct (Nat.eqb_spec k (length (m_handles m))) as [->|].
    + cbn. intros _ H H2. exfalso. apply H2. unfold P'. rewrite H. apply in_or_app. right. left. reflexivity.
    + intros F1 F2 F3.
      destruct (i_in _ _ IN k x F1 F2) as (kids & K & Hk); [intros H; apply F3, PP, H|]. exists kids. split; [|exact Hk]. rewrite CA. destruct (Nat.eqb_spec x r) as [->|]; exact K.
  - intros x. rewrite CA. destruct (Nat.eqb_spec x r); [discriminate|]. apply (i_own _ _ IN).
Qed.

Lemma copy_handles_spec owner : forall srcs m P, Inv m P -> (forall s, In s srcs -> h_ref (handle_at m s) <> None) ->
  exists m', copy_handles m srcs owner = Some m' /\ Inv m' (P ++ seq (length (m_handles m)) (length srcs)) /\
   length (m_handles m') = (length (m_handles m) + length srcs)%nat /\ length (m_cells m') = length (m_cells m) /\
   (forall k, (k < length (m_handles m))%nat -> handle_at m' k = handle_at m k) /\
   (forall k, (length (m_handles m) <= k < length (m_handles m) + length srcs)%nat -> h_in (handle_at m' k) = Some owner /\ h_ref (handle_at m' k) <> None).
Proof.
  induction srcs as [|s srcs IH]; intros m P IN L; cbn [copy_handles length seq].
  - exists m. rewrite app_nil_r. split; [reflexivity|]. split; [exact IN|]. split; [lia|]. split; [reflexivity|]. split; [reflexivity|]. intros k H. lia.
  - destruct (h_ref (handle_at m s)) as [r|] eqn:E; [|exfalso; apply (L s (or_introl eq_refl)); exact E].
    destruct (copy_handle_spec m s r P (Some owner) IN E) as (m1 & -> & I1 & L1 & L2 & H1 & _).
    destruct (IH m1 _ I1) as (m2 & E2 & I2 & L3 & L4 & H2 & H3).
    { intros x Hx. rewrite H1. destruct (Nat.eqb_spec x (length (m_handles m))); [discriminate|]. apply L. right. exact Hx. }
    exists m2. split; [exact E2|]. rewrite L1, <- app_assoc in I2. split; [exact I2|]. split; [lia|]. split; [lia|]. split.
    + intros k Hk. rewrite H2 by lia. rewrite H1. destruct (Nat.eqb_spec k (length (m_handles m))); [lia|reflexivity].
    + intros k Hk. destruct (Nat.eq_dec k (length (m_handles m))) as [->|].
      * rewrite H2, H1, Nat.eqb_refl by lia. cbn. split; [reflexivity|discriminate].
      * apply H3. lia.
Qed.

Lemma new_handle_spec m owned srcs : Inv m [] -> (forall s, In s srcs -> h_ref (handle_at m s) <> None) ->
  exists m', new_handle m owned srcs = Some m' /\ Inv m' [].
Proof.
  intros IN L. unfold new_handle. cbv zeta. destruct (copy_handles_spec (length (m_cells m)) srcs m [] IN L) as (m1 & -> & I1 & L1 & L2 & H2 & H3).
  eexists. split; [reflexivity|]. cbn [app] in I1. rewrite <- L2. set (r := length (m_cells m1)). set (kids := seq (length (m_handles m)) (length srcs)) in *.
  set (m' := mkM (m_cells m1 ++ [mkC owned (Some 1) (Some kids)]) (m_handles m1 ++ [mkH (Some r) None])).
  assert (HA : forall k, handle_at m' k = if Nat.eqb k (length (m_handles m1)) then mkH (Some r) None else handle_at m1 k).
  { intros k. unfold handle_at, m'. cbn [m_handles]. destruct (Nat.eqb_spec k (length (m_handles m1))) as [->|NE].
    - rewrite app_nth2, Nat.sub_diag by lia. reflexivity.
    - destruct (Nat.lt_ge_cases k (length (m_handles m1))); [apply app_nth1; assumption|]. rewrite !nth_overflow; [reflexivity|assumption|rewrite app_length; cbn; lia]. }
  assert (CA : forall k, cell_at m' k = if Nat.eqb k r then mkC owned (Some 1) (Some kids) else cell_at m1 k).
  { intros k. unfold cell_at, m'. cbn [m_cells]. destruct (Nat.eqb_spec k r) as [->|NE].
    - unfold r. rewrite app_nth2, Nat.sub_diag by lia. reflexivity.
    - destruct (Nat.lt_ge_cases k (length (m_cells m1))); [apply app_nth1; assumption|]. rewrite !nth_overflow; [reflexivity|assumption|rewrite app_length; cbn; unfold r in NE; lia]. }
  assert (CN : forall x, cnt x (m_handles m') = cnt x (m_handles m1) + b2z (Nat.eqb r x)).
  { intros x. unfold m'. cbn [m_handles]. rewrite cnt_app, cnt_cons. unfold pts, cnt. cbn. lia. }
  assert (DEAD : forall k, h_ref (handle_at m1 k) <> Some r).
  { intros k Hk. pose proof (i_ref _ _ I1 k r Hk) as Q. destruct (c_count (cell_at m1 r)) eqn:N; [|congruence]. apply cell_lt in N. unfold r in N. lia. }
  assert (Z0 : cnt r (m_handles m1) = 0).
  { pose proof (cnt_nonneg r (m_handles m1)). destruct (Z.eq_dec (cnt r (m_handles m1)) 0); [assumption|]. exfalso.
    unfold cnt in n. destruct (filter (pts r) (m_handles m1)) as [|h t] eqn:Q; [cbn in n; lia|].
    assert (Hh : In h (filter (pts r) (m_handles m1))) by (rewrite Q; left; reflexivity). apply filter_In in Hh as [Hh1 Hh2].
    apply (In_nth _ _ dead_handle) in Hh1 as (k & _ & Hk). apply (DEAD k). unfold handle_at. rewrite Hk. unfold pts in Hh2. destruct (h_ref h); [|discriminate]. apply Nat.eqb_eq in Hh2. congruence. }
  assert (KI : forall k, In k kids <-> (length (m_handles m) <= k < length (m_handles m) + length srcs)%nat) by (intros k; unfold kids; rewrite in_seq; lia).
  constructor.
  - intros k x. rewrite HA, CA. destruct (Nat.eqb_spec k (length (m_handles m1))) as [->|].
    + intros H. cbn in H. injection H as <-. rewrite Nat.eqb_refl. discriminate.
    + intros H. destruct (Nat.eqb_spec x r) as [->|]; [discriminate|]. apply (i_ref _ _ I1 k). exact H.
  - intros x n'. rewrite CN, CA. destruct (Nat.eqb_spec x r) as [->|NE].
    + intros H. cbn in H. injection H as <-. rewrite Nat.eqb_refl. cbn [b2z]. split; [lia|]. split; [lia|discriminate].
    + intros H. destruct (Nat.eqb_spec r x); [congruence|]. cbn. destruct (i_cnt _ _ I1 x n' H) as (D1 & D2 & D3). split; [lia|]. auto.
  - intros x kk. rewrite CA. destruct (Nat.eqb_spec x r) as [->|].
    + intros H. cbn in H. injection H as <-. split; [apply seq_NoDup|]. intros k Hk. apply KI in Hk. rewrite HA.
      destruct (Nat.eqb_spec k (length (m_handles m1))); [lia|]. destruct (H3 k Hk) as [Q1 Q2]. unfold r. rewrite L2. split; [exact Q2|]. split; [exact Q1|intros []].
    + intros K. destruct (i_kids _ _ I1 x kk K) as (D1 & D2). split; [exact D1|]. intros k Hk. destruct (D2 k Hk) as (F1 & F2 & F3).
      rewrite HA. destruct (Nat.eqb_spec k (length (m_handles m1))) as [->|]; [apply live_lt in F1; lia|]. auto.
  - constructor.
  - intros k [].
  - intros k x. rewrite HA. destruct (Nat.eqb_spec k (length (m_handles m1))); [discriminate|]. intros F1 F2 _. rewrite CA.
    destruct (in_dec Nat.eq_dec k kids) as [I|NI].
    + pose proof I as I'. apply KI in I'. destruct (H3 k I') as [Q _]. rewrite F2 in Q. injection Q as ->. unfold r. rewrite L2, Nat.eqb_refl. exists kids. split; [reflexivity|exact I].
    + destruct (i_in _ _ I1 k x F1 F2 NI) as (kk & K & Hk). destruct (Nat.eqb_spec x r) as [->|]; [|eauto]. exfalso.
      unfold cell_at in K. rewrite nth_overflow in K by (unfold r; lia). discriminate.
  - intros x. rewrite CA. destruct (Nat.eqb_spec x r); [discriminate|]. apply (i_own _ _ I1).
Qed.

Lemma reach_live m avoid h : Inv m [] -> reach m avoid h -> h_ref (handle_at m h) <> None.
Proof.
  intros IN H. induction H as [h r A B C|h r kids k H IH E K I _]; [congruence|]. destruct (i_kids _ _ IN r kids K) as (_ & D); apply (D k I).
Qed.

Lemma destroy_all_spec m h : Inv m [] -> h_in (handle_at m h) = None -> h_ref (handle_at m h) <> None ->
  exists m', destroy_all [h] m = Some m' /\ Inv m' [] /\ shrinks [h] m m' /\ h_ref (handle_at m' h) = None.
Proof.
  intros IN A B. assert (I' : Inv m [h]).
  { destruct IN as [F1 F2 F3 F4 F5 F6 F7]. constructor; auto.
    - intros r kids K. destruct (F3 r kids K) as (D1 & D2). split; [exact D1|]. intros k Hk. destruct (D2 k Hk) as (G1 & G2 & _). split; [exact G1|]. split; [exact G2|].
      intros [->|[]]. congruence.
    - repeat constructor. intros [].
    - intros k [<-|[]]. exact B. }
  unfold destroy_all. destruct (destroy_spec (S (length (m_handles m))) [h] m I') as (m' & D1 & D2 & D3 & D4).
  { pose proof (livecount_le (m_handles m)). lia. }
  exists m'. split; [exact D1|]. split; [exact D2|]. split; [exact D3|]. apply D4. left. reflexivity.
Qed.

(** What the client can reach without a handle survives the destruction of that handle's
    old reference. *)
Lemma reach_survives m0 m m' dst temp : Inv m' [] -> shrinks [temp] m m' ->
  h_in (handle_at m dst) = h_in (handle_at m0 dst) ->
  (length (m_handles m0) <= temp)%nat -> Inv m0 [] ->
  (forall k, k <> dst -> (k < length (m_handles m0))%nat -> handle_at m k = handle_at m0 k) ->
  (forall k, c_kids (cell_at m k) = c_kids (cell_at m0 k)) ->
  forall k, reach m0 (Some dst) k -> h_ref (handle_at m' k) = h_ref (handle_at m0 k) /\ h_ref (handle_at m' k) <> None.
Proof.
  intros I' SH DI TL I0 HS CS k R. pose proof R as R0. induction R as [h r A B C|h r kids k R IH E K I C].
  - assert (h <> dst) by congruence. assert (HL : (h < length (m_handles m0))%nat) by (apply live_lt; congruence).
    assert (Q : h_ref (handle_at m' h) = h_ref (handle_at m h)).
    { apply (s_own _ _ _ SH h); [rewrite (HS h) by assumption; exact A|]. intros [<-|[]]. lia. }
    rewrite Q, (HS h) by assumption. split; congruence.
  - destruct (IH R) as [E1 E2]. assert (k <> dst) by congruence. rewrite E in E1.
    assert (CC : c_count (cell_at m' r) <> None) by (apply (i_ref _ _ I' h); exact E1).
    destruct (c_count (cell_at m' r)) as [n|] eqn:N; [|congruence]. destruct (i_cnt _ _ I' r n N) as (_ & _ & KK).
    assert (K' : c_kids (cell_at m' r) = Some kids) by (destruct (s_kids _ _ _ SH r) as [Q|Q]; [rewrite Q, CS; exact K|contradiction]).
    destruct (i_kids _ _ I' r kids K') as (_ & D). destruct (D k I) as (F1 & _ & _). split; [|exact F1].
    destruct (s_ref _ _ _ SH k) as [Q|Q]; [|contradiction]. rewrite Q, HS; [reflexivity|assumption|].
    destruct (i_kids _ _ I0 r kids K) as (_ & D0). apply live_lt. apply D0, I.
Qed.

(** Whatever can be reached avoids some handle on a path; a path to [dst] itself does not
    need [dst]'s own reference. *)
Lemma reach_target m dst : reach m None dst -> h_in (handle_at m dst) = None \/
  exists h r kids, reach m (Some dst) h /\ h_ref (handle_at m h) = Some r /\ c_kids (cell_at m r) = Some kids /\ In dst kids.
Proof.
  intros R. assert (G : forall k, reach m None k -> reach m (Some dst) k \/ h_in (handle_at m dst) = None \/
    exists h r kids, reach m (Some dst) h /\ h_ref (handle_at m h) = Some r /\ c_kids (cell_at m r) = Some kids /\ In dst kids).
  { intros k H. induction H as [h r A B C|h r kids k H IH E K I _].
    - destruct (Nat.eq_dec h dst) as [->|]; [auto|]. left. eapply reach_own; eauto. congruence.
    - destruct IH as [IH|IH]; [|auto]. destruct (Nat.eq_dec k dst) as [->|]; [right; right; eauto 8|]. left. eapply reach_member; eauto. congruence. }
  destruct (G dst R) as [H|H]; [|exact H]. exfalso. clear - H. remember (Some dst) as a. induction H; congruence.
Qed.

Lemma assign_spec sptr m dst src : Inv m [] -> reach m None dst -> (dst = src \/ reach m (Some dst) src) ->
  exists m', assign sptr m dst src = Some m' /\ Inv m' [] /\ h_ref (handle_at m' dst) = h_ref (handle_at m src).
Proof.
  intros IN RD RS. unfold assign.
  destruct (h_ref (handle_at m dst)) as [old|] eqn:ED; [|exfalso; apply (reach_live m None dst IN RD); exact ED].
  assert (LS : h_ref (handle_at m src) <> None) by (destruct RS as [<-|RS]; [congruence|apply (reach_live m (Some dst) src IN RS)]).
  destruct (h_ref (handle_at m src)) as [new|] eqn:ES; [|congruence].
  destruct (Nat.eqb_spec dst src) as [->|NE]; [exists m; split; [reflexivity|split; [exact IN|congruence]]|].
  destruct RS as [|RS]; [contradiction|].
  destruct (sptr && (old =? new)%nat) eqn:SP; [apply andb_true_iff in SP as [_ SP]; apply Nat.eqb_eq in SP; subst; exists m; split; [reflexivity|split; [exact IN|congruence]]|].
  destruct (retain_spec m new (i_ref _ _ IN src new ES)) as (n & N & ->). cbn [m_cells m_handles set_cell].
  set (temp := length (m_handles m)).
  set (m3 := set_ref _ dst (Some new)).
  assert (LD : (dst < length (m_handles m))%nat) by (apply live_lt; congruence).
  assert (LR : (new < length (m_cells m))%nat) by (eapply cell_lt; eauto).
  assert (HA : forall k, handle_at m3 k = if Nat.eqb k dst then mkH (Some new) (h_in (handle_at m dst)) else if Nat.eqb k temp then mkH (Some old) None else handle_at m k).
  { intros k. unfold m3. rewrite handle_set_ref by (cbn [m_handles]; rewrite app_length; cbn; lia).
    assert (H2 : forall j cs, handle_at (mkM cs (m_handles m ++ [mkH (Some old) None])) j = if Nat.eqb j temp then mkH (Some old) None else handle_at m j).
    { intros j cs. unfold handle_at, temp. cbn [m_handles]. destruct (Nat.eqb_spec j (length (m_handles m))) as [->|Nj].
      - rewrite app_nth2, Nat.sub_diag by lia. reflexivity.
      - destruct (Nat.lt_ge_cases j (length (m_handles m))); [apply app_nth1; assumption|]. rewrite !nth_overflow; [reflexivity|assumption|rewrite app_length; cbn; lia]. }
    rewrite !H2. destruct (Nat.eqb_spec dst temp); [unfold temp in *; lia|]. reflexivity. }
  assert (CA : forall k, cell_at m3 k = if Nat.eqb k new then mkC (c_owned (cell_at m new)) (Some (n + 1)) (c_kids (cell_at m new)) else cell_at m k).
  { intros k. unfold m3, cell_at at 1. cbn [m_cells set_ref]. apply nth_upd. exact LR. }
  assert (CN : forall x, cnt x (m_handles m3) = cnt x (m_handles m) + b2z (Nat.eqb new x)).
  { intros x. unfold m3. cbn [m_handles set_ref]. rewrite cnt_upd by (rewrite app_length; cbn; lia). rewrite app_nth1 by exact LD. fold (handle_at m dst).
    assert (PS : forall h y, h_ref h = Some y -> pts x h = Nat.eqb y x) by (intros h y E; unfold pts; rewrite E; reflexivity).
    rewrite cnt_app, cnt_cons, (PS _ _ ED), (PS (mkH (Some old) None) old eq_refl), (PS (mkH (Some new) _) new eq_refl). unfold cnt at 2. cbn [filter length]. lia. }
  assert (KA : forall k, c_kids (cell_at m3 k) = c_kids (cell_at m k)) by (intros k; rewrite CA; destruct (Nat.eqb_spec k new) as [->|]; reflexivity).
  destruct (i_cnt _ _ IN new n N) as (C1 & C2 & C3).
  assert (NT : forall k, h_ref (handle_at m k) <> None -> k <> temp) by (intros k Hk ->; apply live_lt in Hk; unfold temp in Hk; lia).
  assert (I3 : Inv m3 []).
  { constructor.
    - intros k x. rewrite HA, CA. destruct (Nat.eqb_spec k dst) as [->|].
      + intros H. cbn in H. injection H as <-. rewrite Nat.eqb_refl. discriminate.
      + destruct (Nat.eqb_spec k temp) as [->|].
        * intros H. cbn in H. injection H as <-. destruct (Nat.eqb_spec old new); [discriminate|]. apply (i_ref _ _ IN dst). exact ED.
        * intros H. destruct (Nat.eqb_spec x new); [discriminate|]. apply (i_ref _ _ IN k). exact H.
    - intros x n'. rewrite CN, CA. destruct (Nat.eqb_spec x new) as [->|NX].
      + intros H. cbn in H. injection H as <-. rewrite Nat.eqb_refl. cbn. split; [lia|]. split; [lia|exact C3].
      + intros H. destruct (Nat.eqb_spec new x); [congruence|]. cbn. destruct (i_cnt _ _ IN x n' H) as (D1 & D2 & D3). split; [lia|]. auto.
    - intros x kids. rewrite KA. intros K. destruct (i_kids _ _ IN x kids K) as (D1 & D2). split; [exact D1|]. intros k Hk. destruct (D2 k Hk) as (F1 & F2 & F3).
      rewrite HA. destruct (Nat.eqb_spec k dst) as [->|]; [cbn; split; [discriminate|]; auto|]. destruct (Nat.eqb_spec k temp) as [->|]; [exfalso; apply (NT _ F1); reflexivity|]. auto.
    - constructor.
    - intros k [].
    - intros k x. rewrite HA, KA. destruct (Nat.eqb_spec k dst) as [->|]; [|destruct (Nat.eqb_spec k temp); [discriminate|]].
      + cbn. intros _ H _. apply (i_in _ _ IN dst x); [congruence|exact H|intros []].
      + apply (i_in _ _ IN).
    - intros x. rewrite KA, CA. destruct (Nat.eqb_spec x new); [discriminate|]. apply (i_own _ _ IN). }
  assert (DT : dst <> temp) by (unfold temp; lia).
  change (length (m_handles (set_cell m new _))) with temp.
  destruct (destroy_all_spec m3 temp I3) as (m4 & D1 & D2 & D3 & D4).
  { rewrite HA. destruct (Nat.eqb_spec temp dst); [congruence|]. rewrite Nat.eqb_refl. reflexivity. }
  { rewrite HA. destruct (Nat.eqb_spec temp dst); [congruence|]. rewrite Nat.eqb_refl. discriminate. }
  rewrite D1.
  pose proof (reach_survives m m3 m4 dst temp D2 D3) as SV.
  assert (SV' : forall k, reach m (Some dst) k -> h_ref (handle_at m4 k) = h_ref (handle_at m k) /\ h_ref (handle_at m4 k) <> None).
  { apply SV; [rewrite HA, Nat.eqb_refl; reflexivity|unfold temp; lia|exact IN| |exact KA].
    intros k K1 K2. rewrite HA. destruct (Nat.eqb_spec k dst); [contradiction|]. destruct (Nat.eqb_spec k temp); [unfold temp in *; lia|reflexivity]. }
  destruct (SV' src RS) as [S1 S2]. rewrite ES in S1.
  assert (DL : h_ref (handle_at m4 dst) <> None).
  { destruct (reach_target m dst RD) as [H|(h & r & kids & R & E & K & I)].
    - rewrite (s_own _ _ _ D3 dst); [rewrite HA, Nat.eqb_refl; discriminate|rewrite HA, Nat.eqb_refl; exact H|intros [H'|[]]; congruence].
    - destruct (SV' h R) as [E1 E2]. rewrite E in E1. assert (CC : c_count (cell_at m4 r) <> None) by (apply (i_ref _ _ D2 h); exact E1).
      destruct (c_count (cell_at m4 r)) as [n4|] eqn:N4; [|congruence]. destruct (i_cnt _ _ D2 r n4 N4) as (_ & _ & KK).
      assert (K' : c_kids (cell_at m4 r) = Some kids) by (destruct (s_kids _ _ _ D3 r) as [Q|Q]; [rewrite Q, KA; exact K|contradiction]).
      destruct (i_kids _ _ D2 r kids K') as (_ & D). apply D, I. }
  unfold constructed. rewrite S1. destruct (h_ref (handle_at m4 dst)) as [z|] eqn:Z4; [|congruence]. cbn [andb].
  exists m4. split; [reflexivity|]. split; [exact D2|]. destruct (s_ref _ _ _ D3 dst) as [Q|Q]; [|congruence].
  rewrite Q, HA, Nat.eqb_refl. reflexivity.
Qed.

Lemma inv_start : Inv (mkM [] []) [].
Proof.
  assert (H0 : forall h, handle_at (mkM [] []) h = dead_handle) by (intros [|h]; reflexivity).
  assert (C0 : forall r, cell_at (mkM [] []) r = dead_cell) by (intros [|r]; reflexivity).
  constructor; intros *; rewrite ?H0, ?C0; cbn; try discriminate; try (intros []); try constructor; try congruence.
Qed.

Lemma step_spec sptr m o : Inv m [] -> allowed m o -> exists m', step sptr m o = Some m' /\ Inv m' [].
Proof.
  intros IN AL. destruct o as [owned srcs|src|dst src|h]; cbn [step allowed] in *.
  - apply new_handle_spec; [exact IN|]. intros s Hs. apply (reach_live m None s IN), AL, Hs.
  - pose proof (reach_live m None src IN AL) as L. destruct (h_ref (handle_at m src)) as [r|] eqn:E; [|congruence].
    destruct (copy_handle_spec m src r [] None IN E) as (m' & Q & I' & _). eauto.
  - destruct AL as [A B]. destruct (assign_spec sptr m dst src IN A B) as (m' & Q & I' & _). eauto.
  - destruct AL as [A B]. destruct (destroy_all_spec m h IN A B) as (m' & Q & I' & _). eauto.
Qed.

Lemma history_inv sptr m : history sptr m -> Inv m [].
Proof.
  induction 1 as [|m o m' H IH AL E]; [apply inv_start|]. destruct (step_spec sptr m o IH AL) as (m2 & E2 & I2). congruence.
Qed.

Lemma inv_exists m r : Inv m [] -> c_owned (cell_at m r) = true -> item_exists m r <-> referred m r.
Proof.
  intros IN O. unfold item_exists, referred. split.
  - intros K. pose proof (i_own _ _ IN r O K) as C. destruct (c_count (cell_at m r)) as [n|] eqn:N; [|congruence].
    destruct (i_cnt _ _ IN r n N) as (C1 & C2 & _). unfold cnt in C1.
    destruct (filter (pts r) (m_handles m)) as [|h t] eqn:Q; [cbn in C1; lia|].
    assert (Hh : In h (filter (pts r) (m_handles m))) by (rewrite Q; left; reflexivity). apply filter_In in Hh as [Hh1 Hh2].
    apply (In_nth _ _ dead_handle) in Hh1 as (k & _ & Hk). exists k. unfold handle_at. rewrite Hk. unfold pts in Hh2. destruct (h_ref h); [|discriminate].
    apply Nat.eqb_eq in Hh2. congruence.
  - intros (h & E). pose proof (i_ref _ _ IN h r E) as C. destruct (c_count (cell_at m r)) as [n|] eqn:N; [|congruence].
    apply (i_cnt _ _ IN r n N).
Qed.

(** ** Deleted items stay deleted, other items keep their members *)
Lemma copy_handle_cells m src owner m' : copy_handle m src owner = Some m' ->
  length (m_cells m') = length (m_cells m) /\ forall r, c_kids (cell_at m' r) = c_kids (cell_at m r).
Proof.
  unfold copy_handle, retain. destruct (h_ref (handle_at m src)) as [x|]; [|discriminate]. destruct (c_count (cell_at m x)) eqn:N; [|discriminate].
  intros H. injection H as <-. cbn [set_cell m_cells m_handles]. split; [apply upd_length|]. intros r.
  unfold cell_at at 1. cbn [m_cells]. rewrite nth_upd by (eapply cell_lt; eauto). destruct (Nat.eqb_spec r x) as [->|]; reflexivity.
Qed.

Lemma copy_handles_cells owner : forall srcs m m', copy_handles m srcs owner = Some m' ->
  length (m_cells m') = length (m_cells m) /\ forall r, c_kids (cell_at m' r) = c_kids (cell_at m r).
Proof.
  induction srcs as [|s t IH]; intros m m' H; cbn [copy_handles] in H; [injection H as <-; auto|].
  destruct (copy_handle m s (Some owner)) as [m1|] eqn:E; [|discriminate]. apply copy_handle_cells in E as [E1 E2]. apply IH in H as [H1 H2].
  split; [congruence|]. intros r. rewrite H2. apply E2.
Qed.

Lemma destroy_cells fuel : forall work m m', destroy fuel work m = Some m' ->
  length (m_cells m') = length (m_cells m) /\ forall r, c_kids (cell_at m' r) = c_kids (cell_at m r) \/ c_kids (cell_at m' r) = None.
Proof.
  induction fuel as [|fuel IH]; intros [|h rest] m m' H; cbn [destroy] in H; try discriminate; try (injection H as <-; auto).
  destruct (h_ref (handle_at m h)) as [x|]; [|discriminate]. cbv zeta in H. destruct (c_count (cell_at m x)) as [n|] eqn:N; [|discriminate].
  assert (LR : (x < length (m_cells m))%nat) by (eapply cell_lt; eauto).
  assert (G : forall c work', (c_kids c = c_kids (cell_at m x) \/ c_kids c = None) -> destroy fuel work' (set_cell (set_ref m h None) x c) = Some m' ->
    length (m_cells m') = length (m_cells m) /\ forall r, c_kids (cell_at m' r) = c_kids (cell_at m r) \/ c_kids (cell_at m' r) = None).
  { intros c work' K D. apply IH in D as [D1 D2]. split; [rewrite D1; cbn; apply upd_length|]. intros r. destruct (D2 r) as [Q|Q]; [|auto].
    rewrite Q. rewrite cell_set_cell by exact LR. destruct (Nat.eqb_spec r x) as [->|]; [exact K|left; reflexivity]. }
  destruct (n <=? 1); [destruct (c_owned (cell_at m x)); [destruct (c_kids (cell_at m x)) eqn:K; [|discriminate]|]|];
    (eapply G; [|exact H]); cbn; auto.
Qed.

Lemma step_cells sptr m o m' : step sptr m o = Some m' ->
  (length (m_cells m) <= length (m_cells m'))%nat /\
  forall r, (r < length (m_cells m))%nat -> c_kids (cell_at m' r) = c_kids (cell_at m r) \/ c_kids (cell_at m' r) = None.
Proof.
  destruct o as [owned srcs|src|dst src|h]; cbn [step]; intros H.
  - unfold new_handle in H. cbv zeta in H. destruct (copy_handles m srcs (length (m_cells m))) as [m1|] eqn:E; [|discriminate].
    apply copy_handles_cells in E as [E1 E2]. injection H as <-. cbn [m_cells]. rewrite app_length. split; [lia|]. intros r Hr. left. rewrite <- E2.
    unfold cell_at. cbn [m_cells]. rewrite app_nth1 by lia. reflexivity.
  - apply copy_handle_cells in H as [H1 H2]. split; [lia|]. intros r _. left. apply H2.
  - unfold assign in H. destruct (h_ref (handle_at m dst)) as [old|]; [|discriminate]. destruct (h_ref (handle_at m src)) as [new|]; [|discriminate].
    destruct (Nat.eqb dst src); [injection H as <-; auto|]. destruct (sptr && Nat.eqb old new)%bool; [injection H as <-; auto|].
    unfold retain in H. destruct (c_count (cell_at m new)) as [n|] eqn:N; [|discriminate]. cbn [m_cells m_handles set_cell] in H.
    destruct (destroy_all _ _) as [m4|] eqn:D; [|discriminate]. destruct (constructed m4 src && constructed m4 dst)%bool; [|discriminate]. injection H as <-.
    unfold destroy_all in D. apply destroy_cells in D as [D1 D2]. cbn [m_cells set_ref] in D1. rewrite upd_length in D1. split; [lia|]. intros r _.
    destruct (D2 r) as [Q|Q]; [left|auto]. rewrite Q. unfold cell_at at 1. cbn [m_cells set_ref]. rewrite nth_upd by (eapply cell_lt; eauto).
    destruct (Nat.eqb_spec r new) as [->|]; reflexivity.
  - unfold destroy_all in H. apply destroy_cells in H as [D1 D2]. split; [lia|]. intros r _. apply D2.
Qed.

Lemma gone_lemma sptr m o m' r : step sptr m o = Some m' -> (r < length (m_cells m))%nat -> ~ item_exists m r -> ~ item_exists m' r.
Proof.
  intros H L N. apply step_cells in H as [_ H]. unfold item_exists in *. intros K. apply N. destruct (H r L) as [Q|Q]; congruence.
Qed.

(** Copies and assignments refer to the item of their source. *)
Lemma copy_value_lemma sptr m src m' : history sptr m -> allowed m (OCopy src) -> step sptr m (OCopy src) = Some m' ->
  h_ref (handle_at m' (length (m_handles m))) = h_ref (handle_at m src) /\ h_in (handle_at m' (length (m_handles m))) = None.
Proof.
  intros H AL E. cbn in *. pose proof (history_inv _ _ H) as IN. pose proof (reach_live m None src IN AL) as L.
  destruct (h_ref (handle_at m src)) as [r|] eqn:Q; [|congruence]. destruct (copy_handle_spec m src r [] None IN Q) as (m2 & E2 & _ & _ & _ & HA & _).
  assert (m2 = m') by congruence. subst. rewrite HA, Nat.eqb_refl. split; reflexivity.
Qed.

Lemma assign_value_lemma sptr m dst src m' : history sptr m -> allowed m (OAssign dst src) -> step sptr m (OAssign dst src) = Some m' ->
  h_ref (handle_at m' dst) = h_ref (handle_at m src).
Proof.
  intros H [A B] E. cbn in E. destruct (assign_spec sptr m dst src (history_inv _ _ H) A B) as (m2 & E2 & _ & Q). congruence.
Qed.

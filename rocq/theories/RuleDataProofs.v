From Verif Require Import Base OrdMap RuleDataModel RuleDataSpec.
Local Open Scope Z_scope.

Lemma nth_upd_at {X} k (f : X -> X) l d j : (k < length l)%nat ->
  nth j (upd_at k f l) d = if Nat.eqb j k then f (nth k l d) else nth j l d.
Proof.
  revert k j. induction l as [|x l IH]; intros k j Hk; cbn in *; [lia|]. destruct k, j; cbn; try reflexivity. apply IH. lia.
Qed.
Lemma upd_at_length {X} k (f : X -> X) l : length (upd_at k f l) = length l.
Proof. revert k; induction l; intros [|k]; cbn; auto. Qed.

Section Proofs.
  Context {attrs : Type} (default : attrs).
  Notation world := (world (attrs := attrs)).
  Notation rop := (rop (attrs := attrs)).
  Notation ritem := (ritem (attrs := attrs)).
  Notation srules := (srules (attrs := attrs)).

  Definition dflt : ritem := mkI None false.
  Definition key (K : list (list Z)) (p : nat * nat) : Z := nth (snd p) (nth (fst p) K []) 0.
  Definition itm (s : srules) (p : nat * nat) : ritem := nth (snd p) (nth (fst p) s []) dflt.

  (** [K] rules' keys, [s] the specified rules. *)
  Definition related (n : Z) (m : list (Z * attrs)) (k : Z) (x : ritem) : Prop :=
    match i_attrs x with
    | None => k = 0 /\ i_copied x = false
    | Some a => 0 < k < n /\ mfind Z.ltb k m = Some a
    end.
  Definition shape (K : list (list Z)) (s : srules) : Prop :=
    length K = length s /\ forall r, length (nth r K []) = length (nth r s []).
  Definition Inv (K : list (list Z)) (n : Z) (m : list (Z * attrs)) (s : srules) : Prop :=
    0 < n /\ msorted Z.ltb m /\ shape K s /\
    (forall p, related n m (key K p) (itm s p)) /\
    (forall p q, p <> q -> key K p = key K q -> 0 < key K p -> i_copied (itm s p) = true /\ i_copied (itm s q) = true).

  Lemma copied_attrs (x : ritem) : i_attrs (copied x) = i_attrs x.
  Proof. unfold copied. destruct x as [[a|] c]; reflexivity. Qed.
  Lemma copied_copied (x : ritem) : i_copied x = true -> i_copied (copied x) = true.
  Proof. unfold copied. destruct x as [[a|] c]; cbn; auto. Qed.
  Lemma copied_some (x : ritem) : i_attrs x <> None -> i_copied (copied x) = true.
  Proof. unfold copied. destruct x as [[a|] c]; cbn; congruence. Qed.
  Lemma copied_none (x : ritem) : i_attrs x = None -> copied x = x.
  Proof. unfold copied. destruct x as [[a|] c]; cbn; congruence. Qed.
  Lemma copied_dflt : copied dflt = dflt. Proof. reflexivity. Qed.

  Lemma related_copied n m k x : related n m k x -> related n m k (copied x).
  Proof. unfold related. rewrite copied_attrs. destruct (i_attrs x) eqn:E; [auto|]. rewrite (copied_none x E). auto. Qed.
  Lemma related_pos n m k x : related n m k x -> 0 < k -> i_attrs x <> None.
  Proof. unfold related. destruct (i_attrs x); [congruence|lia]. Qed.

  (** Every position of the new rules comes from one of the old rules. *)
  Lemma inv_origin K n m s K' s' (o : nat * nat -> option (nat * nat)) (c : nat * nat -> bool) :
    Inv K n m s -> shape K' s' ->
    (forall p, match o p with
               | Some q => key K' p = key K q /\ itm s' p = (if c p then copied (itm s q) else itm s q)
               | None => key K' p = 0 /\ itm s' p = dflt end) ->
    (forall p p', p <> p' -> o p = o p' -> o p <> None -> c p = true /\ c p' = true) ->
    Inv K' n m s'.
  Proof.
    intros (N & M & _ & R & U) SH O C. split; [exact N|]. split; [exact M|]. split; [exact SH|]. split.
    - intros p. specialize (O p). destruct (o p) as [q|]; destruct O as [-> ->]; [|split; reflexivity].
      destruct (c p); [apply related_copied|]; apply R.
    - intros p p' D E G. pose proof (O p) as Op. pose proof (O p') as Op'. specialize (C p p' D).
      destruct (o p) as [q|]; [|lia]. destruct (o p') as [q'|]; [|lia]. destruct Op as [K1 ->], Op' as [K2 ->].
      destruct (Nat.eq_dec (fst q) (fst q')) as [E1|E1]; [destruct (Nat.eq_dec (snd q) (snd q')) as [E2|E2]|].
      + assert (q = q') by (destruct q, q'; cbn in *; congruence). subst q'. destruct C as [-> ->]; [reflexivity|discriminate|].
        assert (i_attrs (itm s q) <> None) by (eapply related_pos; [apply R|lia]). split; apply copied_some; assumption.
      + destruct (U q q') as [U1 U2]; [congruence|congruence|lia|]. split; [destruct (c p)|destruct (c p')]; auto using copied_copied.
      + destruct (U q q') as [U1 U2]; [congruence|congruence|lia|]. split; [destruct (c p)|destruct (c p')]; auto using copied_copied.
  Qed.

  Lemma key_out K p : (length K <= fst p)%nat \/ (length (nth (fst p) K []) <= snd p)%nat -> key K p = 0.
  Proof.
    unfold key. intros [H|H]; [|apply nth_overflow, H]. rewrite (nth_overflow K) by exact H. destruct (snd p); reflexivity.
  Qed.
  Lemma itm_out s p : (length s <= fst p)%nat \/ (length (nth (fst p) s []) <= snd p)%nat -> itm s p = dflt.
  Proof.
    unfold itm. intros [H|H]; [|apply nth_overflow, H]. rewrite (nth_overflow s) by exact H. destruct (snd p); reflexivity.
  Qed.

  Lemma shape_upd K s r (f : list Z -> list Z) (g : list ritem -> list ritem) : shape K s -> (r < length K)%nat ->
    length (f (nth r K [])) = length (g (nth r s [])) -> shape (upd_at r f K) (upd_at r g s).
  Proof.
    intros [L E] Hr H. split; [rewrite !upd_at_length; exact L|]. intros r'. rewrite !nth_upd_at by lia.
    destruct (Nat.eqb_spec r' r) as [->|]; [exact H|apply E].
  Qed.
  Lemma shape_mark K s r : shape K s -> shape K (mark s r).
  Proof.
    intros [L E]. unfold mark. split; [rewrite upd_at_length; exact L|]. intros r'. destruct (Nat.lt_ge_cases r (length s)) as [H|H].
    - rewrite nth_upd_at by exact H. destruct (Nat.eqb_spec r' r) as [->|]; [rewrite map_length|]; apply E.
    - replace (upd_at r (map copied) s) with s; [apply E|]. clear L E. revert r H. induction s as [|x s IH]; intros [|r] H; cbn in *; try reflexivity; try lia.
      f_equal. apply IH. lia.
  Qed.
  Lemma shape_app K s k l : shape K s -> length k = length l -> shape (K ++ [k]) (s ++ [l]).
  Proof.
    intros [L E] H. split; [rewrite !app_length; cbn; lia|]. intros r. destruct (Nat.lt_ge_cases r (length K)) as [G|G].
    - rewrite !app_nth1 by lia. apply E.
    - rewrite !app_nth2 by lia. rewrite L. destruct (r - length s)%nat as [|[|x]]; cbn; auto.
  Qed.

  Lemma itm_mark s r p : (r < length s)%nat -> itm (mark s r) p = if Nat.eqb (fst p) r then copied (itm s p) else itm s p.
  Proof.
    intros H. unfold itm, mark. rewrite nth_upd_at by exact H. destruct (Nat.eqb_spec (fst p) r) as [->|]; [|reflexivity].
    rewrite <- copied_dflt at 1. apply map_nth.
  Qed.

  Lemma attrs_spec K n m s r i : Inv K n m s -> attributes_for default (mkW K n m) r i = reported default s r i.
  Proof.
    intros (_ & _ & SH & R & _). specialize (R (r, i)). unfold attributes_for, keys_of, reported, items. cbn [w_rules w_attrs].
    unfold key, itm, related in R. cbn [fst snd] in R.
    destruct (nth_error (nth r s []) i) as [[a c]|] eqn:E.
    - apply (nth_error_nth _ _ dflt) in E. rewrite E in R. cbn [i_attrs] in R. destruct a as [a|].
      + destruct R as [R1 R2]. destruct (Z.leb_spec (nth i (nth r K []) 0) 0); [lia|]. rewrite R2. reflexivity.
      + destruct R as [-> _]. reflexivity.
    - apply nth_error_None in E. rewrite (nth_overflow (nth r s [])) in R by exact E. destruct R as [-> _]. reflexivity.
  Qed.

  Definition set_ok (s : srules) (o : rop) : Prop :=
    match o with
    | RSet r i _ => match nth_error (items s r) i with Some x => i_copied x = false | None => True end
    | _ => True
    end.

  Lemma pair_eq (p q : nat * nat) : fst p = fst q -> snd p = snd q -> p = q.
  Proof. destruct p, q; cbn; congruence. Qed.

  Lemma rstep_inv K n m s o w' : Inv K n m s -> set_ok s o -> rstep (mkW K n m) o = Some w' ->
    Inv (w_rules w') (w_next w') (w_attrs w') (sstep s o).
  Proof.
    intros IN OK E. pose proof IN as (N & M & SH & R & U). pose proof SH as [L EL].
    destruct o as [|r|dst src|src|dst src|r i a]; cbn [rstep] in E.
    - injection E as <-. cbn [w_rules w_next w_attrs with_rules]. cbn [sstep].
      refine (inv_origin K n m s _ _ (fun p => Some p) (fun _ => false) IN (shape_app K s [] [] SH eq_refl) _ ltac:(cbn; intros; congruence)).
      intros p. destruct (Nat.lt_ge_cases (fst p) (length K)) as [G|G].
      + unfold key, itm. rewrite !app_nth1 by lia. auto.
      + split; [rewrite (key_out K) by auto; apply key_out|rewrite (itm_out s) by lia; apply itm_out];
          (right; rewrite app_nth2 by lia; destruct (_ - _)%nat as [|[|x]]; cbn; lia).
    - destruct (Nat.ltb_spec r (length (w_rules (mkW K n m)))) as [Hr|]; [|discriminate]. cbn [w_rules] in Hr. injection E as <-.
      cbn [w_rules w_next w_attrs with_rules]. cbn [sstep].
      refine (inv_origin K n m s _ _ (fun p => Some p) (fun _ => false) IN (shape_upd K s r _ _ SH Hr _) _ ltac:(cbn; intros; congruence)).
      { rewrite !app_length, EL. reflexivity. }
      intros p. unfold key, itm. rewrite !nth_upd_at by lia. destruct (Nat.eqb_spec (fst p) r) as [->|]; [|auto].
      specialize (EL r). split; (destruct (Nat.lt_ge_cases (snd p) (length (nth r K []))) as [G|G]; [rewrite app_nth1 by lia; reflexivity|]);
        [rewrite (nth_overflow (nth r K [])) by lia|rewrite (nth_overflow (nth r s [])) by lia]; rewrite app_nth2 by lia; destruct (_ - _)%nat as [|[|x]]; reflexivity.
    - destruct (Nat.ltb_spec dst (length (w_rules (mkW K n m)))) as [Hd|]; [|discriminate]. destruct (Nat.ltb_spec src (length (w_rules (mkW K n m)))) as [Hs|]; [|discriminate].
      cbn [w_rules] in Hd, Hs. destruct (Nat.eqb_spec dst src) as [|D]; [discriminate|]. injection E as <-. cbn [w_rules w_next w_attrs with_rules]. cbn [sstep].
      set (len := length (nth dst K [])).
      refine (inv_origin K n m s _ _ (fun p => if (Nat.eqb (fst p) dst && negb (Nat.ltb (snd p) len))%bool then Some (src, (snd p - len)%nat) else Some p)
        (fun p => (Nat.eqb (fst p) src || (Nat.eqb (fst p) dst && negb (Nat.ltb (snd p) len)))%bool) IN _ _ _).
      + apply shape_upd; [apply shape_mark, SH|exact Hd|]. rewrite !app_length, map_length. unfold keys_of, items. cbn [w_rules].
        rewrite (proj2 (shape_mark K s src SH) dst), EL. reflexivity.
      + intros p. unfold key, itm at 1. rewrite !nth_upd_at by (unfold mark; rewrite ?upd_at_length; lia).
        destruct (Nat.eqb_spec (fst p) dst) as [Ed|Nd]; cbn [andb].
        * assert (Es : Nat.eqb (fst p) src = false) by (apply Nat.eqb_neq; congruence).
          assert (LM : length (nth dst (mark s src) []) = len) by (unfold len; symmetry; apply (proj2 (shape_mark K s src SH))).
          destruct (Nat.ltb_spec (snd p) len) as [G|G]; cbn [negb fst snd]; rewrite Es; cbn [orb].
          -- rewrite Ed. rewrite !app_nth1 by (unfold len in *; lia). split; [reflexivity|].
             pose proof (itm_mark s src p ltac:(lia)) as I. rewrite Es in I. unfold itm in I. rewrite Ed in I. rewrite I. unfold itm. rewrite Ed. reflexivity.
          -- rewrite !app_nth2 by (unfold len in *; lia). split; [reflexivity|]. rewrite LM. unfold itm. cbn [fst snd].
             rewrite <- copied_dflt at 1. unfold items. apply map_nth.
        * split; [reflexivity|]. rewrite Bool.orb_false_r. apply (itm_mark s src p). lia.
      + intros p p' D1 E1 _. destruct (Nat.eqb_spec (fst p) dst) as [Ed|Nd], (Nat.eqb_spec (fst p') dst) as [Ed'|Nd']; cbn [andb] in E1 |- *.
        * destruct (Nat.ltb_spec (snd p) len), (Nat.ltb_spec (snd p') len); cbn [negb] in E1 |- *; rewrite ?Bool.orb_true_r; try (split; reflexivity).
          -- congruence.
          -- injection E1. intros. subst p. cbn in *. lia.
          -- injection E1. intros. subst p'. cbn in *. lia.
        * destruct (Nat.ltb_spec (snd p) len); cbn [negb] in E1 |- *; [congruence|]. injection E1 as E1. rewrite Bool.orb_true_r. split; [reflexivity|].
          rewrite <- E1. cbn [fst]. rewrite Nat.eqb_refl. reflexivity.
        * destruct (Nat.ltb_spec (snd p') len); cbn [negb] in E1 |- *; [congruence|]. injection E1 as E1. rewrite Bool.orb_true_r. split; [|reflexivity].
          rewrite E1. cbn [fst]. rewrite Nat.eqb_refl. reflexivity.
        * congruence.
    - destruct (Nat.ltb_spec src (length (w_rules (mkW K n m)))) as [Hs|]; [|discriminate]. cbn [w_rules] in Hs. injection E as <-.
      cbn [w_rules w_next w_attrs with_rules]. cbn [sstep]. unfold keys_of. cbn [w_rules].
      refine (inv_origin K n m s _ _ (fun p => if Nat.eqb (fst p) (length K) then Some (src, snd p) else if Nat.ltb (fst p) (length K) then Some p else None)
        (fun p => (Nat.eqb (fst p) src || Nat.eqb (fst p) (length K))%bool) IN _ _ _).
      + apply shape_app; [apply shape_mark, SH|]. rewrite map_length. apply EL.
      + assert (LM : length (mark s src) = length K) by (unfold mark; rewrite upd_at_length; auto).
        intros p. unfold key, itm at 1 3. destruct (Nat.eqb_spec (fst p) (length K)) as [Ed|Nd].
        * rewrite Ed. rewrite !app_nth2 by lia. rewrite LM, Nat.sub_diag. cbn [nth]. split; [reflexivity|]. rewrite Bool.orb_true_r.
          unfold itm. cbn [fst snd]. rewrite <- copied_dflt at 1. apply map_nth.
        * destruct (Nat.ltb_spec (fst p) (length K)) as [G|G].
          -- rewrite !app_nth1 by lia. split; [reflexivity|]. rewrite Bool.orb_false_r. apply (itm_mark s src p). lia.
          -- split; [rewrite (nth_overflow (_ ++ _)) by (rewrite app_length; cbn; lia); destruct (snd p); reflexivity|apply itm_out; left; rewrite app_length; cbn; lia].
      + intros p p' D1 E1 N1. destruct (Nat.eqb_spec (fst p) (length K)) as [Ed|Nd], (Nat.eqb_spec (fst p') (length K)) as [Ed'|Nd']; cbn [andb] in E1 |- *.
        * exfalso. apply D1. apply pair_eq; [congruence|]. injection E1. auto.
        * rewrite Bool.orb_true_r. split; [reflexivity|]. destruct (Nat.ltb (fst p') (length K)); [|discriminate]. injection E1 as <-. cbn [fst]. rewrite Nat.eqb_refl. reflexivity.
        * rewrite Bool.orb_true_r. split; [|reflexivity]. destruct (Nat.ltb (fst p) (length K)); [|discriminate]. injection E1 as ->. cbn [fst]. rewrite Nat.eqb_refl. reflexivity.
        * destruct (Nat.ltb (fst p) (length K)); [|congruence]. destruct (Nat.ltb (fst p') (length K)); [|discriminate]. congruence.
    - destruct (Nat.ltb_spec dst (length (w_rules (mkW K n m)))) as [Hd|]; [|discriminate]. destruct (Nat.ltb_spec src (length (w_rules (mkW K n m)))) as [Hs|]; [|discriminate].
      cbn [w_rules] in Hd, Hs. injection E as <-. cbn [w_rules w_next w_attrs with_rules]. cbn [sstep]. unfold keys_of. cbn [w_rules].
      destruct (Nat.eqb_spec dst src) as [->|D].
      { refine (inv_origin K n m s _ _ (fun p => Some p) (fun _ => false) IN _ _ ltac:(cbn; intros; congruence)).
        - split; [rewrite upd_at_length; exact L|]. intros r. rewrite nth_upd_at by exact Hd. destruct (Nat.eqb_spec r src) as [->|]; apply EL.
        - intros p. split; [|reflexivity]. unfold key. rewrite nth_upd_at by exact Hd. destruct (Nat.eqb_spec (fst p) src) as [->|]; reflexivity. }
      refine (inv_origin K n m s _ _ (fun p => if Nat.eqb (fst p) dst then Some (src, snd p) else Some p)
        (fun p => (Nat.eqb (fst p) src || Nat.eqb (fst p) dst)%bool) IN _ _ _).
      + apply shape_upd; [apply shape_mark, SH|exact Hd|]. rewrite map_length. apply EL.
      + intros p. unfold key, itm at 1. rewrite !nth_upd_at by (unfold mark; rewrite ?upd_at_length; lia).
        destruct (Nat.eqb_spec (fst p) dst) as [Ed|Nd].
        * split; [reflexivity|]. rewrite Bool.orb_true_r. unfold itm. cbn [fst snd]. rewrite <- copied_dflt at 1. apply map_nth.
        * split; [reflexivity|]. rewrite Bool.orb_false_r. apply (itm_mark s src p). lia.
      + intros p p' D1 E1 _. destruct (Nat.eqb_spec (fst p) dst) as [Ed|Nd], (Nat.eqb_spec (fst p') dst) as [Ed'|Nd']; cbn [andb] in E1 |- *.
        * exfalso. apply D1. apply pair_eq; [congruence|]. injection E1. auto.
        * rewrite Bool.orb_true_r. split; [reflexivity|]. injection E1 as <-. cbn [fst]. rewrite Nat.eqb_refl. reflexivity.
        * rewrite Bool.orb_true_r. split; [|reflexivity]. injection E1 as ->. cbn [fst]. rewrite Nat.eqb_refl. reflexivity.
        * congruence.
    - destruct (Nat.ltb_spec r (length (w_rules (mkW K n m)))) as [Hr|]; [|discriminate]. unfold keys_of in E. cbn [w_rules] in Hr, E.
      destruct (Nat.ltb_spec i (length (nth r K []))) as [Hi|]; [|discriminate]. cbn [andb] in E.
      unfold set_attributes, keys_of in E. cbn [w_rules w_next w_attrs] in E. cbv zeta in E. cbn [sstep].
      assert (OC : i_copied (itm s (r, i)) = false).
      { cbn [set_ok] in OK. unfold items in OK. destruct (nth_error (nth r s []) i) eqn:Q; [|apply nth_error_None in Q; rewrite <- EL in Q; lia].
        unfold itm. cbn [fst snd]. rewrite (nth_error_nth _ _ dflt Q). exact OK. }
      assert (IT : forall p, itm (upd_at r (upd_at i (fun x => mkI (Some a) (i_copied x))) s) p =
        if (Nat.eqb (fst p) r && Nat.eqb (snd p) i)%bool then mkI (Some a) false else itm s p).
      { intros p. unfold itm at 1. rewrite nth_upd_at by lia. destruct (Nat.eqb_spec (fst p) r) as [E1|]; [|reflexivity]. cbn [andb].
        rewrite nth_upd_at by (rewrite <- EL; exact Hi). destruct (Nat.eqb_spec (snd p) i) as [E2|].
        - unfold itm in OC. cbn [fst snd] in OC. rewrite OC. reflexivity.
        - unfold itm. rewrite E1. reflexivity. }
      pose proof (R (r, i)) as Ri. unfold related in Ri.
      destruct (Z.leb_spec (nth i (nth r K []) 0) 0) as [G|G]; injection E as <-; cbn [w_rules w_next w_attrs].
      + assert (KT : forall p, key (upd_at r (upd_at i (fun _ => n)) K) p = if (Nat.eqb (fst p) r && Nat.eqb (snd p) i)%bool then n else key K p).
        { intros p. unfold key. rewrite nth_upd_at by lia. destruct (Nat.eqb_spec (fst p) r) as [E1|]; [|reflexivity]. cbn [andb]. rewrite E1.
          rewrite nth_upd_at by exact Hi. reflexivity. }
        assert (KB : forall p, key K p < n).
        { intros p. specialize (R p). unfold related in R. destruct (i_attrs (itm s p)); lia. }
        split; [lia|]. split; [apply mset_sorted; [apply Zltb_strict|exact M]|]. split; [|split].
        * apply shape_upd; [exact SH|exact Hr|]. rewrite !upd_at_length. apply EL.
        * intros p. rewrite KT, IT. destruct (Nat.eqb (fst p) r && Nat.eqb (snd p) i)%bool.
          -- split; [lia|]. apply mfind_mset_same; [apply Zltb_strict|exact M].
          -- specialize (R p). unfold related in *. destruct (i_attrs (itm s p)); [|exact R]. destruct R as [R1 R2]. split; [lia|].
             rewrite mfind_mset_other; [exact R2|apply Zltb_strict|exact M|lia].
        * intros p q D E1 P. rewrite KT in *. rewrite KT in E1. rewrite !IT.
          destruct (Nat.eqb (fst p) r && Nat.eqb (snd p) i)%bool eqn:Ep, (Nat.eqb (fst q) r && Nat.eqb (snd q) i)%bool eqn:Eq.
          -- apply andb_prop in Ep, Eq. exfalso. apply D. apply pair_eq; rewrite !Nat.eqb_eq in *; lia.
          -- specialize (KB q). lia.
          -- specialize (KB p). lia.
          -- apply U; auto.
      + assert (UQ : forall p, p <> (r, i) -> key K p <> key K (r, i)).
        { intros p D Q. destruct (U p (r, i) D Q) as [_ U2]; [rewrite Q; exact G|]. congruence. }
        split; [lia|]. split; [apply mset_sorted; [apply Zltb_strict|exact M]|]. split; [|split].
        * split; [rewrite upd_at_length; exact L|]. intros r'. rewrite nth_upd_at by lia. destruct (Nat.eqb_spec r' r) as [->|]; [rewrite upd_at_length|]; apply EL.
        * intros p. rewrite IT. destruct (Nat.eqb (fst p) r && Nat.eqb (snd p) i)%bool eqn:Ep.
          -- apply andb_prop in Ep as [E1 E2]. apply Nat.eqb_eq in E1, E2. assert (p = (r, i)) by (apply pair_eq; assumption). subst p. unfold related. cbn [i_attrs].
             split; [|apply mfind_mset_same; [apply Zltb_strict|exact M]]. destruct (i_attrs (itm s (r, i))); [tauto|]. unfold key in Ri. cbn in Ri. lia.
          -- specialize (R p). unfold related in *. destruct (i_attrs (itm s p)); [|exact R]. destruct R as [R1 R2]. split; [lia|].
             rewrite mfind_mset_other; [exact R2|apply Zltb_strict|exact M|]. intros Q. apply (UQ p); [|exact Q].
             intros ->. cbn [fst snd] in Ep. rewrite !Nat.eqb_refl in Ep. discriminate.
        * intros p q D E1 P. rewrite !IT.
          destruct (Nat.eqb (fst p) r && Nat.eqb (snd p) i)%bool eqn:Ep; [|destruct (Nat.eqb (fst q) r && Nat.eqb (snd q) i)%bool eqn:Eq].
          -- apply andb_prop in Ep as [E2 E3]. apply Nat.eqb_eq in E2, E3. assert (p = (r, i)) by (apply pair_eq; assumption). subst p.
             exfalso. apply (UQ q); congruence.
          -- apply andb_prop in Eq as [E2 E3]. apply Nat.eqb_eq in E2, E3. assert (q = (r, i)) by (apply pair_eq; assumption). subst q.
             exfalso. apply (UQ p); congruence.
          -- apply U; auto.
  Qed.

  Lemma rrun_inv : forall ops K n m s w', Inv K n m s -> sets_before_copies s ops -> rrun (mkW K n m) ops = Some w' ->
    Inv (w_rules w') (w_next w') (w_attrs w') (srun s ops).
  Proof.
    induction ops as [|o ops IH]; intros K n m s w' IN OK E; cbn [rrun] in E.
    - injection E as <-. exact IN.
    - destruct OK as [O1 O2]. destruct (rstep (mkW K n m) o) as [[K2 n2 m2]|] eqn:E2; [|discriminate].
      pose proof (rstep_inv K n m s o _ IN O1 E2) as IN2. cbn [w_rules w_next w_attrs] in IN2.
      exact (IH K2 n2 m2 _ w' IN2 O2 E).
  Qed.

  Lemma inv_empty : Inv [] 1 [] [].
  Proof.
    split; [lia|]. split; [constructor|]. split; [split; [reflexivity|intros [|]; reflexivity]|]. split.
    - intros p. unfold key, itm. destruct (fst p), (snd p); split; reflexivity.
    - intros p q _ _. unfold key. destruct (fst p), (snd p); cbn; lia.
  Qed.

  Lemma attributes_lemma ops w r i : sets_before_copies [] ops -> rrun start ops = Some w ->
    attributes_for default w r i = reported default (srun [] ops) r i.
  Proof.
    intros OK E. pose proof (rrun_inv ops [] 1 [] [] w inv_empty OK E) as IN. destruct w as [K n m]. apply attrs_spec, IN.
  Qed.
End Proofs.

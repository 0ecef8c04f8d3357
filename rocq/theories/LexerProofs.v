(** Proofs about lexing. *)
From Verif Require Import Base StateMachineModel StateMachineSpec StateMachineProofs LexerModel LexerSpec.
Local Open Scope Z_scope.

(** * Scanning *)
Section Scan.
  Variable run : Z -> Z -> option Z.
  Variable accept : Z -> option Z.

  Fixpoint best (text : list Z) (state : Z) (pos : nat) (acc : Z * nat) : option (Z * nat) :=
    match text with
    | [] => Some acc
    | c :: text =>
        match run state c with
        | None => None
        | Some s => if s <? 0 then Some acc
                    else match accept s with
                         | None => None
                         | Some a => best text s (S pos) (note acc a (S pos))
                         end
        end
    end.

  Lemma scan_buffer_best todo : forall s p acc,
    match scan_buffer run accept todo s p acc with
    | ScanUndefined => best todo s p acc = None
    | ScanStop acc' _ _ => forall x, best (todo ++ x) s p acc = Some acc'
    | ScanMore s' p' acc' => forall x, best (todo ++ x) s p acc = best x s' p' acc'
    end.
  Proof.
    induction todo as [|c todo IH]; intros s p acc; cbn; [reflexivity|]. destruct (run s c) as [s'|]; [|reflexivity].
    destruct (s' <? 0); [reflexivity|]. destruct (accept s') as [a|]; [apply IH|reflexivity].
  Qed.

  Lemma scan_input_best input : ~ In end_of_input input -> forall s p acc,
    match scan_input run accept input s p acc with
    | ScanUndefined => best input s p acc = None
    | ScanStop acc' pushed rest => best input s p acc = Some acc' /\ best pushed s p acc = Some acc' /\ input = pushed ++ rest /\ (pushed = [] -> input = [])
    | ScanMore _ _ _ => False
    end.
  Proof.
    induction input as [|c input IH]; intros NE s p acc; cbn; [auto|]. destruct (Z.eqb_spec c end_of_input) as [E|_]; [exfalso; apply NE; left; exact E|].
    destruct (run s c) as [s'|] eqn:R; [|reflexivity]. destruct (s' <? 0) eqn:N; [cbn; rewrite R, N; repeat split; auto; discriminate|].
    destruct (accept s') as [a|] eqn:Ac; [|reflexivity].
    specialize (IH ltac:(intros H; apply NE; right; exact H) s' (S p) (note acc a (S p))).
    destruct (scan_input run accept input s' (S p) (note acc a (S p))) as [|acc' pushed rest|]; [exact IH| |exact IH].
    destruct IH as (I1 & I2 & I3 & I4). repeat split; auto.
    - cbn. rewrite R, N, Ac. exact I2.
    - rewrite I3. reflexivity.
    - discriminate.
  Qed.

  Lemma matches_cons s c s' p a : run s c = Some s' -> 0 <= s -> 0 <= s' -> p <> [] -> matches run accept s' p a <-> matches run accept s (c :: p) a.
  Proof.
    intros R Hs Hs' NE. unfold matches. cbn [run_word]. replace (s <? 0) with false by lia. rewrite R. split; intros [_ H]; (split; [|exact H]); [discriminate|exact NE].
  Qed.

  Lemma matches_one s c s' a : run s c = Some s' -> 0 <= s -> matches run accept s [c] a <-> 0 <= s' /\ accept s' = Some a /\ 0 <= a.
  Proof.
    intros R Hs. unfold matches. cbn [run_word]. replace (s <? 0) with false by lia. rewrite R. split.
    - intros [_ (x & E & H)]. inversion E; subst x. exact H.
    - intros H. split; [discriminate|]. exists s'. auto.
  Qed.

  Lemma matches_stop s c s' p a : run s c = Some s' -> 0 <= s -> s' < 0 -> ~ matches run accept s (c :: p) a.
  Proof.
    intros R Hs N [_ (x & E & H & _)]. cbn [run_word] in E. replace (s <? 0) with false in E by lia. rewrite R in E.
    rewrite run_word_stop in E by exact N. inversion E; subst. lia.
  Qed.

  Lemma best_spec text : forall s p acc acc', 0 <= s -> best text s p acc = Some acc' ->
    (acc' = acc /\ forall q rest a, text = q ++ rest -> ~ matches run accept s q a) \/
    (exists q rest, text = q ++ rest /\ matches run accept s q (fst acc') /\ snd acc' = (p + length q)%nat /\
       forall q' rest' a', text = q' ++ rest' -> matches run accept s q' a' -> (length q' <= length q)%nat).
  Proof.
    induction text as [|c text IH]; intros s p acc acc' Hs H; cbn in H.
    - inversion H; subst. left. split; [reflexivity|]. intros q rest a E [NE _]. destruct q; [auto|discriminate].
    - destruct (run s c) as [s'|] eqn:R; [|discriminate]. destruct (Z.ltb_spec s' 0) as [N|N].
      + inversion H; subst. left. split; [reflexivity|]. intros [|c' q] rest a E M; [apply (proj1 M); reflexivity|].
        inversion E; subst c'. eapply matches_stop; eauto.
      + destruct (accept s') as [a|] eqn:Ac; [|discriminate]. destruct (IH _ _ _ _ N H) as [[E1 E2]|(q & rest & E1 & E2 & E3 & E4)].
        * assert (NO : forall q rest a', c :: text = q ++ rest -> matches run accept s q a' -> q = [c]).
          { intros [|c' q] rest a' E M; [exfalso; apply (proj1 M); reflexivity|]. inversion E; subst c'. destruct q as [|c2 q]; [reflexivity|].
            exfalso. eapply E2; [eassumption|]. eapply matches_cons; eauto. discriminate. }
          unfold note in E1. destruct (Z.leb_spec 0 a) as [Ha|Ha].
          -- right. exists [c], text. subst acc'. cbn [fst snd]. split; [reflexivity|]. split; [apply (proj2 (matches_one s c s' a R Hs)); auto|]. split; [cbn; lia|].
             intros q' rest' a' E M. rewrite (NO _ _ _ E M). lia.
          -- left. split; [exact E1|]. intros q rest a' E M. rewrite (NO _ _ _ E M) in M.
             apply (proj1 (matches_one s c s' a' R Hs)) in M. destruct M as (_ & M & M'). rewrite Ac in M. inversion M; subst. lia.
        * right. exists (c :: q), rest. split; [rewrite E1; reflexivity|]. split; [apply (proj1 (matches_cons s c s' q _ R Hs N (proj1 E2))); exact E2|].
          split; [cbn; lia|]. intros [|c' q'] rest' a' E M; [cbn; lia|]. inversion E; subst c'. cbn. destruct q' as [|c2 q']; [cbn; lia|].
          apply le_n_S. eapply E4; [eassumption|]. eapply matches_cons; eauto. discriminate.
  Qed.

  Lemma best_ok valid text0 : tables_ok run accept valid text0 -> forall text, incl text text0 -> forall s p acc, valid s -> exists acc', best text s p acc = Some acc'.
  Proof.
    intros T. induction text as [|c text IH]; intros HI s p acc V; cbn; [eauto|].
    destruct (T s c V (HI c (or_introl eq_refl))) as (r & -> & B). destruct (Z.ltb_spec r 0); [eauto|]. destruct (B ltac:(lia)) as (V' & a & ->).
    apply IH; [intros x Hx; apply HI; right; exact Hx|exact V'].
  Qed.

  Variable newlineState : Z.

  Lemma newline_char_break c : newline_char c = is_break_b c.
  Proof.
    unfold newline_char, is_break_b. cbn [existsb]. rewrite orb_false_r, !orb_assoc. reflexivity.
  Qed.

  Lemma last_firstn n (l : list Z) : (0 < n <= length l)%nat -> last (firstn n l) 0 = nth (n - 1) l 0.
  Proof.
    revert l. induction n as [|n IH]; intros [|x l] H; cbn in H; try lia. destruct n as [|n]; [reflexivity|]. destruct l as [|y l]; [cbn in H; lia|].
    replace (S (S n) - 1)%nat with (S (S n - 1)) by lia. change (nth (S (S n - 1)) (x :: y :: l) 0) with (nth (S n - 1) (y :: l) 0).
    rewrite <- IH by (cbn in *; lia). reflexivity.
  Qed.

  (** One lexeme. *)
  Lemma next_lexeme_spec valid st : let text := ds_buffer st ++ ds_input st in
    tables_ok run accept valid text -> valid (ds_initial st) -> 0 <= ds_initial st -> ~ In end_of_input (ds_input st) ->
    (text = [] /\ next_lexeme run accept newlineState st = NoLexeme st) \/
    (exists l st', next_lexeme run accept newlineState st = Lexeme l st' /\ lx_content l <> [] /\
       text = lx_content l ++ ds_buffer st' ++ ds_input st' /\ ~ In end_of_input (ds_input st') /\
       longest_match run accept (ds_initial st) text (lx_content l) (lx_matched l) /\
       lx_pos l = fst (ds_position st) /\ ds_position st' = update_position (ds_position st) (lx_content l) /\
       ds_initial st' = (if is_break_b (last (lx_content l) 0) then newlineState else 0)).
  Proof.
    intros text T V Hs NE.
    assert (F : forall acc buffer rest, best buffer (ds_initial st) 0 (-1, 0%nat) = Some acc -> best text (ds_initial st) 0 (-1, 0%nat) = Some acc ->
      text = buffer ++ rest -> (buffer = [] -> text = []) -> ~ In end_of_input rest ->
      next_lexeme run accept newlineState st = finish newlineState acc buffer rest (ds_position st) (ds_initial st) ->
      (text = [] /\ next_lexeme run accept newlineState st = NoLexeme (mkStream rest buffer (ds_position st) (ds_initial st))) \/
      (exists l st', next_lexeme run accept newlineState st = Lexeme l st' /\ lx_content l <> [] /\
         text = lx_content l ++ ds_buffer st' ++ ds_input st' /\ ~ In end_of_input (ds_input st') /\
         longest_match run accept (ds_initial st) text (lx_content l) (lx_matched l) /\
         lx_pos l = fst (ds_position st) /\ ds_position st' = update_position (ds_position st) (lx_content l) /\
         ds_initial st' = (if is_break_b (last (lx_content l) 0) then newlineState else 0))).
    { intros acc buffer rest B1 B2 ET EB NR EN. destruct buffer as [|b0 buffer].
      - left. split; [auto|]. exact EN.
      - right. unfold finish in EN. eexists _, _. split; [exact EN|]. cbn [lx_content lx_matched lx_pos ds_buffer ds_input ds_position ds_initial].
        set (ap := match snd acc with O => 1%nat | S _ => snd acc end).
        assert (AP : (0 < ap <= length (b0 :: buffer))%nat).
        { unfold ap. destruct (best_spec _ _ _ _ _ Hs B1) as [[E1' _]|(q1 & r1 & E1' & _ & E3' & _)]; [subst acc; cbn; lia|].
          apply (f_equal (@length Z)) in E1'. rewrite app_length in E1'. destruct (snd acc); cbn [length] in *; lia. }
        assert (HH : (exists c t, text = c :: t /\ firstn ap (b0 :: buffer) = [c] /\ fst acc = -1 /\ forall p' r' a', text = p' ++ r' -> ~ matches run accept (ds_initial st) p' a') \/
                     (matches run accept (ds_initial st) (firstn ap (b0 :: buffer)) (fst acc) /\ forall p' rest' a', text = p' ++ rest' -> matches run accept (ds_initial st) p' a' -> (length p' <= length (firstn ap (b0 :: buffer)))%nat)).
        { destruct (best_spec _ _ _ _ _ Hs B2) as [[E1 E2]|(q & r & E1 & E2 & E3 & E4)].
          - left. exists b0, (buffer ++ rest). split; [exact ET|]. unfold ap. subst acc. cbn [snd fst]. auto.
          - right. destruct (best_spec _ _ _ _ _ Hs B1) as [[E1' E2']|(q1 & r1 & E1' & E2' & E3' & E4')].
            + exfalso. subst acc. cbn [snd] in E3. destruct q; [apply (proj1 E2); reflexivity|discriminate].
            + assert (firstn ap (b0 :: buffer) = q1) as ->.
              { unfold ap. rewrite E3'. destruct q1 as [|x q1]; [exfalso; apply (proj1 E2'); reflexivity|]. cbn [Nat.add length]. rewrite E1'.
                change (S (length q1)) with (length (x :: q1)). rewrite firstn_app, firstn_all, Nat.sub_diag. cbn. rewrite app_nil_r. reflexivity. }
              split; [exact E2'|]. intros. rewrite E3' in E3. replace (length q1) with (length q) by lia. eapply E4; eauto. }
        split; [destruct ap; [lia|cbn; discriminate]|]. split; [rewrite ET, app_assoc, firstn_skipn; reflexivity|]. split; [exact NR|]. split.
        + split; [exists (skipn ap (b0 :: buffer) ++ rest); rewrite ET, app_assoc, firstn_skipn; reflexivity|].
          destruct HH as [(c & t & H1 & H2 & H3 & H4)|H]; [right|left; exact H]. rewrite H2. auto.
        + repeat split; auto. rewrite last_firstn by exact AP. rewrite newline_char_break.
          destruct (Z.eqb_spec newlineState 0) as [->|]; cbn [negb andb]; [destruct (is_break_b _); reflexivity|reflexivity]. }
    destruct (best_ok valid text T text (incl_refl _) (ds_initial st) 0 (-1, 0%nat) V) as [acc0 B].
    pose proof (scan_buffer_best (ds_buffer st) (ds_initial st) 0 (-1, 0%nat)) as SB. unfold next_lexeme in *.
    destruct (scan_buffer run accept (ds_buffer st) (ds_initial st) 0 (-1, 0%nat)) as [|acc pushed rest|s' p' acc'] eqn:ES.
    - destruct (best_ok valid text T (ds_buffer st) ltac:(intros x Hx; unfold text; apply in_or_app; auto) (ds_initial st) 0 (-1, 0%nat) V). congruence.
    - destruct (F acc (ds_buffer st) (ds_input st)) as [[E1 E2]|H]; auto.
      + specialize (SB []). rewrite app_nil_r in SB. exact SB.
      + unfold text. apply SB.
      + intros E. rewrite E in *. discriminate.
      + left. split; [exact E1|]. rewrite E2. destruct st; reflexivity.
    - pose proof (scan_input_best (ds_input st) NE s' p' acc') as SI.
      destruct (scan_input run accept (ds_input st) s' p' acc') as [|acc2 pushed rest|]; [| |destruct SI].
      + specialize (SB (ds_input st)). fold text in SB. congruence.
      + destruct SI as (S1 & S2 & S3 & S4). destruct (F acc2 (ds_buffer st ++ pushed) rest) as [[E1 E2]|H]; auto.
        * rewrite SB. exact S2.
        * unfold text. rewrite SB. exact S1.
        * unfold text. rewrite S3, app_assoc. reflexivity.
        * intros E. apply app_eq_nil in E as [E1 E2]. unfold text. rewrite E1, (S4 E2). reflexivity.
        * intros H. apply NE. rewrite S3. apply in_or_app. auto.
        * left. split; [exact E1|]. rewrite E2. unfold text in E1. apply app_eq_nil in E1 as [E3 E4]. rewrite E4 in S3. symmetry in S3. apply app_eq_nil in S3 as [-> ->].
          destruct st as [i b p ini]; cbn in *; subst; reflexivity.
  Qed.
End Scan.

(** * Whole streams *)
Section Stream.
  Variable run : Z -> Z -> option Z.
  Variable accept : Z -> option Z.
  Variables first newlineState : Z.
  Variable valid : Z -> Prop.
  Variable client : list lexeme -> option Z.
  Hypothesis V1 : valid first.
  Hypothesis V0 : valid 0.
  Hypothesis VN : valid newlineState.
  Hypothesis VC : forall seen s, client seen = Some s -> valid s.
  Hypothesis VP : forall s, valid s -> 0 <= s.

  (** Lexemes cut from the front of a text, after those in [seen]. *)
  Inductive cut : list lexeme -> tracker -> list Z -> list lexeme -> Prop :=
  | cut_nil seen t : cut seen t [] []
  | cut_cons seen t text l rest ls : lx_content l <> [] -> text = lx_content l ++ rest ->
      longest_match run accept (start_state first newlineState client seen) text (lx_content l) (lx_matched l) -> lx_pos l = fst t ->
      cut (l :: seen) (update_position t (lx_content l)) rest ls -> cut seen t text (l :: ls).

  Lemma read_all_spec n : forall st seen, let text := ds_buffer st ++ ds_input st in
    (length text < n)%nat -> tables_ok run accept valid text -> ds_initial st = default_state first newlineState seen -> ~ In end_of_input (ds_input st) ->
    exists ls st', read_all run accept newlineState n client st seen = Some (rev seen ++ ls, st') /\ cut seen (ds_position st) text ls /\
      ds_buffer st' = [] /\ ds_input st' = [].
  Proof.
    induction n as [|n IH]; intros st seen text L T V NE; [lia|]. cbn [read_all].
    set (st1 := match client seen with Some s => set_initial_state s st | None => st end).
    assert (E : ds_buffer st1 = ds_buffer st /\ ds_input st1 = ds_input st /\ ds_position st1 = ds_position st /\ ds_initial st1 = start_state first newlineState client seen).
    { unfold st1, start_state. destruct (client seen) eqn:E; cbn; auto. }
    destruct E as (E1 & E2 & E3 & E4).
    assert (V2 : valid (start_state first newlineState client seen)).
    { unfold start_state, default_state. destruct (client seen) eqn:E; [eapply VC; eauto|]. destruct seen; [exact V1|]. destruct (is_break_b _); assumption. }
    pose proof (next_lexeme_spec run accept newlineState valid st1) as N. cbv zeta in N. rewrite E1, E2, E3, E4 in N. fold text in N.
    destruct (N T V2 (VP _ V2) NE) as [[H1 ->]|(l & st' & -> & H1 & H2 & H3 & H4 & H5 & H6 & H7)].
    - exists [], st1. rewrite app_nil_r, H1. split; [reflexivity|]. split; [constructor|]. rewrite E1, E2.
      unfold text in H1. apply app_eq_nil in H1 as [-> ->]. auto.
    - destruct (IH st' (l :: seen)) as (ls & st2 & R1 & R2 & R3).
      + rewrite H2, app_length in L. destruct (lx_content l); [contradiction|]. cbn in L. lia.
      + intros q c Hq Hc. apply T; [exact Hq|]. rewrite H2. apply in_or_app. auto.
      + exact H7.
      + exact H3.
      + exists (l :: ls), st2. split; [rewrite R1; cbn [rev]; rewrite <- app_assoc; reflexivity|]. split; [|exact R3].
        eapply cut_cons; eauto. rewrite <- H6. exact R2.
  Qed.

  Lemma cut_contents seen t text ls : cut seen t text ls -> contents ls = text /\ Forall (fun l => lx_content l <> []) ls.
  Proof.
    intros H. induction H as [seen t|seen t text l rest ls H1 H2 H3 H4 H5 [IH1 IH2]]; [split; constructor|].
    unfold contents in *. cbn. rewrite IH1, <- H2. auto.
  Qed.

  Lemma cut_split ls1 : forall seen t text l ls2, cut seen t text (ls1 ++ l :: ls2) ->
    longest_match run accept (start_state first newlineState client (rev ls1 ++ seen)) (contents (l :: ls2)) (lx_content l) (lx_matched l) /\
    lx_pos l = fst (update_position t (contents ls1)).
  Proof.
    induction ls1 as [|l1 ls1 IH]; intros seen t text l ls2 H; cbn [app rev] in *.
    - pose proof (cut_contents _ _ _ _ H) as [E _]. rewrite E. inversion H; subst. auto.
    - inversion H as [|? ? ? ? ? ? ? ? ? ? HC]; subst. destruct (IH _ _ _ _ _ HC) as (X2 & X3). rewrite <- app_assoc. split; [exact X2|].
      rewrite X3. unfold contents, update_position. cbn. rewrite fold_left_app. reflexivity.
  Qed.

  Lemma lex_all_lemma input n : tables_ok run accept valid input -> ~ In end_of_input input -> (length input < n)%nat ->
    exists ls st', read_all run accept newlineState n client (stream_new first input) [] = Some (ls, st') /\
      contents ls = input /\ Forall (fun l => lx_content l <> []) ls /\
      (forall ls1 l ls2, ls = ls1 ++ l :: ls2 ->
         longest_match run accept (start_state first newlineState client (rev ls1)) (contents (l :: ls2)) (lx_content l) (lx_matched l) /\
         lx_pos l = fst (update_position tracker_new (contents ls1))) /\
      ds_buffer st' = [] /\ ds_input st' = [].
  Proof.
    intros T NE L. destruct (read_all_spec n (stream_new first input) []) as (ls & st' & R & C & E); cbn [stream_new ds_buffer ds_input app]; auto.
    exists ls, st'. split; [exact R|]. destruct (cut_contents _ _ _ _ C) as [C1 C2]. split; [exact C1|]. split; [exact C2|]. split; [|exact E].
    intros ls1 l ls2 EL. subst ls. apply cut_split in C. rewrite app_nil_r in C. exact C.
  Qed.

  (** Once the input is used up, every further read gives NULL. *)
  Lemma at_end_lemma st : ds_buffer st = [] -> ds_input st = [] -> next_lexeme run accept newlineState st = NoLexeme st.
  Proof. destruct st as [i b p s]. cbn. intros -> ->. reflexivity. Qed.
End Stream.

(** * Positions *)
Lemma break_b_spec c : is_break_b c = true <-> is_break c.
Proof.
  unfold is_break_b, is_break. rewrite existsb_exists. split; [intros (x & H & E); apply Z.eqb_eq in E; subst; exact H|].
  intros H. exists c. split; [exact H|apply Z.eqb_refl].
Qed.

Definition seen_return (text : list Z) : bool := match rev text with c :: _ => c =? 13 | [] => false end.

Lemma update_symbol_cases t c : update_symbol t c =
  if is_break_b c then
    if (c =? 10) && snd t then (increment_offset (fst t), false)
    else (newline (if c =? 10 then increment (fst t) else fst t), c =? 13)
  else (increment (fst t), false).
Proof.
  destruct t as [p b]. cbn [fst snd]. unfold update_symbol, is_break_b. cbn [existsb].
  destruct (Z.eqb_spec c 10) as [->|N10]; [destruct b; reflexivity|].
  destruct (Z.eqb_spec c 13) as [->|N13]; [reflexivity|]. cbn [orb andb].
  destruct (Z.eqb_spec c 11) as [->|N11]; [reflexivity|]. cbn [orb].
  destruct (Z.eqb_spec c 12) as [->|N12]; [reflexivity|]. cbn [orb].
  destruct (Z.eqb_spec c 133) as [->|]; [reflexivity|]. cbn [orb].
  destruct (Z.eqb_spec c 8232) as [->|]; [reflexivity|]. cbn [orb].
  destruct (Z.eqb_spec c 8233) as [->|]; reflexivity.
Qed.

Lemma starts_line_app text x i : (i < length text)%nat -> starts_line (text ++ [x]) i = starts_line text i.
Proof.
  intros H. unfold starts_line. rewrite nth_error_app1 by exact H. destruct (nth_error text i); [|reflexivity].
  destruct i as [|j]; [reflexivity|]. rewrite app_nth1 by lia. reflexivity.
Qed.

Lemma starts_line_last text c : starts_line (text ++ [c]) (length text) = is_break_b c && negb ((c =? 10) && seen_return text).
Proof.
  unfold starts_line. rewrite nth_error_app2, Nat.sub_diag by lia. cbn [nth_error]. f_equal. f_equal. f_equal.
  unfold seen_return. destruct text as [|x text] using rev_ind; [reflexivity|]. rewrite app_length, rev_app_distr. cbn [length rev app].
  rewrite Nat.add_1_r. rewrite app_nth1 by (rewrite app_length; cbn; lia). rewrite app_nth2, Nat.sub_diag by lia. reflexivity.
Qed.

Lemma line_of_snoc text c : line_of (text ++ [c]) = (line_of text + if is_break_b c && negb ((c =? 10)%Z && seen_return text) then 1 else 0)%nat.
Proof.
  unfold line_of. rewrite app_length. cbn [length]. rewrite Nat.add_1_r, seq_S, filter_app, app_length. cbn [Nat.add filter]. rewrite starts_line_last.
  f_equal; [|destruct (_ && _); reflexivity]. f_equal. apply filter_ext_in. intros i Hi. apply in_seq in Hi. apply starts_line_app. lia.
Qed.

Lemma position_lemma text : update_position tracker_new text =
  (mkPos (Z.of_nat (counted_of text)) (Z.of_nat (line_of text)) (Z.of_nat (column_of text)), seen_return text).
Proof.
  unfold update_position. induction text as [|c text IH] using rev_ind; [reflexivity|].
  rewrite fold_left_app. cbn [fold_left]. rewrite IH, update_symbol_cases, line_of_snoc. cbn [fst snd].
  unfold counted_of, column_of, seen_return. rewrite filter_app, app_length, rev_app_distr. cbn [rev app filter until_break]. fold (seen_return text).
  unfold uncounted. destruct (is_break_b c) eqn:B.
  - destruct (Z.eqb_spec c 10) as [->|N].
    + cbn [andb negb]. destruct (seen_return text) eqn:SR; cbn [andb negb length]; unfold increment_offset, newline, increment; cbn [p_offset p_line p_column].
      * f_equal. f_equal; [lia|lia|]. unfold column_of. unfold seen_return in SR. destruct (rev text) as [|x r]; [discriminate|]. cbn [until_break].
        replace x with 13 by lia. reflexivity.
      * f_equal. f_equal; lia.
    + cbn [andb negb length]. unfold newline. cbn [p_offset p_line p_column]. f_equal. f_equal; lia.
  - cbn [andb negb length]. unfold increment. cbn [p_offset p_line p_column]. destruct (Z.eqb_spec c 13) as [->|]; [discriminate|]. f_equal. f_equal; lia.
Qed.

(** Positions are ordered. *)
Lemma pos_order a b : (pos_ltb a b = true <-> (p_line a < p_line b \/ p_line a = p_line b /\ (p_column a < p_column b \/ p_column a = p_column b /\ p_offset a < p_offset b))) /\
  (pos_eqb a b = true <-> a = b).
Proof.
  unfold pos_ltb, pos_eqb. split.
  - destruct (Z.ltb_spec (p_line a) (p_line b)); [intuition|]. destruct (Z.ltb_spec (p_line b) (p_line a)); [split; [discriminate|lia]|].
    destruct (Z.ltb_spec (p_column a) (p_column b)); [split; [lia|auto]|]. destruct (Z.ltb_spec (p_column b) (p_column a)); [split; [discriminate|lia]|]. lia.
  - destruct a as [o1 l1 c1], b as [o2 l2 c2]; cbn. destruct (Z.eqb_spec l1 l2); cbn; [|split; congruence]. destruct (Z.eqb_spec c1 c2); cbn; [|split; congruence].
    rewrite Z.eqb_eq. split; congruence.
Qed.

(** * Accept actions *)
Section Actions.
  Context {A : Type}.
  Variable less : A -> A -> bool.
  Variable symbol : A -> Z.
  Hypothesis irrefl : forall a, less a a = false.
  Hypothesis trans : forall a b c, less a b = true -> less b c = true -> less a c = true.
  (** not higher is transitive (a strict weak order) *)
  Hypothesis weak : forall a b c, less a b = false -> less b c = false -> less a c = false.

  Lemma highest_fold l : forall h, let r := fold_left (fun h a => if less h a then a else h) l h in
    (r = h \/ In r l) /\ less r h = false /\ forall a, In a l -> less r a = false.
  Proof.
    induction l as [|x l IH]; intros h; cbn [fold_left]; cbv zeta; [split; [auto|split; [apply irrefl|intros a []]]|].
    destruct (IH (if less h x then x else h)) as (I1 & I2 & I3). set (r := fold_left _ l _) in *.
    destruct (less h x) eqn:E.
    - split; [destruct I1; cbn; auto|]. assert (NX : less x h = false). { destruct (less x h) eqn:F; [|reflexivity]. rewrite <- (irrefl h). symmetry. eapply trans; eauto. }
      split; [eapply weak; eauto|]. intros a [<-|H]; auto.
    - split; [destruct I1; cbn; auto|]. split; [exact I2|]. intros a [<-|H]; [|auto]. eapply weak; eauto.
  Qed.

  Lemma fill_accept_spec l : l <> [] -> exists h, In h l /\ fill_accept less symbol l = symbol h /\ forall a, In a l -> less h a = false.
  Proof.
    intros NE. destruct l as [|x l]; [contradiction|]. pose proof (highest_fold (x :: l) x) as H. cbv zeta in H. unfold fill_accept.
    set (r := fold_left _ (x :: l) x) in *. exists r. destruct H as (H1 & H2 & H3). split; [destruct H1 as [->|]; cbn; auto|]. auto.
  Qed.
End Actions.

Lemma base_action_lemma symbols : symbols <> [] ->
  In (fill_accept action_less (fun s => s) symbols) symbols /\ forall s, In s symbols -> fill_accept action_less (fun s => s) symbols <= s.
Proof.
  intros NE. destruct (fill_accept_spec action_less (fun s => s)) with (l := symbols) as (h & H1 & H2 & H3); unfold action_less in *; try lia; auto.
  rewrite H2. split; [exact H1|]. intros s Hs. specialize (H3 s Hs). lia.
Qed.

Lemma la_less_spec a b : la_less a b = true <-> better b a.
Proof.
  unfold la_less, better. destruct a as [sa ua wa], b as [sb ub wb]. cbn. destruct wa, wb; cbn;
  try (intuition congruence); (destruct (Z.ltb_spec ub ua); [intuition lia|]; destruct (Z.ltb_spec ua ub); [split; [discriminate|intuition lia]|]; rewrite Z.ltb_lt; intuition lia).
Qed.

Lemma language_action_lemma l : l <> [] -> exists h, In h l /\ fill_accept la_less la_symbol l = la_symbol h /\ forall a, In a l -> ~ better a h.
Proof.
  intros NE. destruct (fill_accept_spec la_less la_symbol) with (l := l) as (h & H1 & H2 & H3); auto.
  - intros a. destruct (la_less a a) eqn:E; [|reflexivity]. apply la_less_spec in E. unfold better in E. intuition (try congruence; lia).
  - intros a b c H1 H2. rewrite la_less_spec in *. unfold better in *. intuition (try congruence; try lia).
    all: destruct (la_weak a), (la_weak b), (la_weak c); try discriminate; auto; right; split; auto; lia.
  - intros a b c H1 H2. destruct (la_less a c) eqn:E; [|reflexivity]. apply la_less_spec in E.
    assert (N1 : ~ better b a) by (rewrite <- la_less_spec; congruence). assert (N2 : ~ better c b) by (rewrite <- la_less_spec; congruence).
    exfalso. unfold better in *. destruct (la_weak a), (la_weak b), (la_weak c); intuition (try congruence; lia).
  - exists h. split; [exact H1|]. split; [exact H2|]. intros a Ha. rewrite <- la_less_spec. rewrite (H3 a Ha). discriminate.
Qed.

(** * Sources *)
Lemma nth_removelast {X} (l : list X) d n : (S n < length l)%nat -> nth n (removelast l) d = nth n l d.
Proof.
  revert n. induction l as [|x l IH]; intros n H; [cbn in H; lia|]. destruct l as [|y l]; [cbn in H; lia|].
  change (removelast (x :: y :: l)) with (x :: removelast (y :: l)). destruct n as [|n]; [reflexivity|]. cbn [nth]. apply IH. cbn in *. lia.
Qed.
Lemma removelast_length {X} (l : list X) : length (removelast l) = (length l - 1)%nat.
Proof. destruct l as [|x l] using rev_ind; [reflexivity|]. rewrite removelast_last, app_length. cbn. lia. Qed.

Lemma nth_map_lt {X Y} (f : X -> Y) l n d d' : (n < length l)%nat -> nth n (map f l) d' = f (nth n l d).
Proof. revert n. induction l as [|x l IH]; intros n H; [cbn in H; lia|]. destruct n; cbn; [reflexivity|]. apply IH. cbn in H. lia. Qed.

(** The values read at and after the end. *)
Lemma nth_end (conv : Z -> Z) (s : list Z) i : (length s <= S i)%nat -> nth i (map conv (removelast s)) end_of_input = end_of_input.
Proof. intros H. apply nth_overflow. rewrite map_length, removelast_length. lia. Qed.

Lemma stringreader_reads (conv : Z -> Z) (s : list Z) n : reads (stream_read (sr_get s) (sr_good s) conv) n 0%nat =
  map (fun i => nth i (map conv (removelast s)) end_of_input) (seq 0 n).
Proof.
  assert (G : forall n pos k, k = Nat.min pos (length s) -> reads (stream_read (sr_get s) (sr_good s) conv) n k =
    map (fun i => nth i (map conv (removelast s)) end_of_input) (seq pos n)).
  { clear n. induction n as [|n IH]; intros pos k ->; [reflexivity|]. cbn [reads seq map]. unfold stream_read, sr_get, sr_good.
    destruct (Nat.leb_spec (length s) (Nat.min pos (length s))) as [H|H].
    - replace (Nat.min pos (length s) <? length s)%nat with false by (symmetry; apply Nat.ltb_ge; lia). cbn [negb]. f_equal; [rewrite nth_end by lia; reflexivity|]. apply IH. lia.
    - replace (Nat.min pos (length s)) with pos in * by lia. f_equal; [|apply IH; lia]. destruct (Nat.ltb_spec (S pos) (length s)) as [H'|H']; cbn [negb].
      + rewrite (nth_map_lt conv _ _ 0) by (rewrite removelast_length; lia). rewrite nth_removelast by lia. reflexivity.
      + rewrite nth_end by lia. reflexivity. }
  apply G. reflexivity.
Qed.

Lemma istream_reads (conv : Z -> Z) (s : list Z) n : reads (stream_read (is_get s) is_good conv) n (0%nat, false) =
  map (fun i => nth i (map conv s) end_of_input) (seq 0 n).
Proof.
  assert (G : forall n pos k b, k = Nat.min pos (length s) -> (b = true -> (length s <= pos)%nat) -> reads (stream_read (is_get s) is_good conv) n (k, b) =
    map (fun i => nth i (map conv s) end_of_input) (seq pos n)).
  { clear n. induction n as [|n IH]; intros pos k b -> HB; [reflexivity|]. cbn [reads seq map]. unfold stream_read, is_get, is_good.
    destruct (Nat.leb_spec (length s) (Nat.min pos (length s))) as [H|H].
    - rewrite orb_true_r. cbn [snd negb]. f_equal; [rewrite nth_overflow by (rewrite map_length; lia); reflexivity|]. apply IH; lia.
    - replace (Nat.min pos (length s)) with pos in * by lia. destruct b; [specialize (HB eq_refl); lia|]. cbn [orb snd negb]. f_equal; [|apply IH; [lia|discriminate]].
      rewrite (nth_map_lt conv _ _ 0) by lia. reflexivity. }
  apply G; [reflexivity|discriminate].
Qed.

(** * The property theorems *)
Lemma char_cut_lemma run accept nl first bytes :
  exists st, next_lexeme run accept nl (stream_new first (map symbol_of_char (253 :: bytes))) = NoLexeme st /\ ds_input st = map symbol_of_char bytes.
Proof. eexists. split; reflexivity. Qed.

Lemma position_new text : fst (update_position tracker_new text) =
  mkPos (Z.of_nat (counted_of text)) (Z.of_nat (line_of text)) (Z.of_nat (column_of text)).
Proof. rewrite position_lemma. reflexivity. Qed.

Lemma read_all_mono run accept newlineState client : forall a b st0 seen x, (a <= b)%nat ->
  read_all run accept newlineState a client st0 seen = Some x -> read_all run accept newlineState b client st0 seen = Some x.
Proof.
  induction a as [|a IH]; intros b st0 seen x Hab H; [discriminate|]. destruct b as [|b]; [lia|]. cbn [read_all] in *.
  destruct (next_lexeme run accept newlineState (match client seen with Some s => set_initial_state s st0 | None => st0 end)) as [|s1|l s1]; [discriminate|exact H|]. apply (IH b); [lia|exact H].
Qed.

Section PosLemma.
  Variable run : Z -> Z -> option Z.
  Variable accept : Z -> option Z.
  Variables first newlineState : Z.
  Variable valid : Z -> Prop.
  Variable client : list lexeme -> option Z.

  Lemma C15_lemma input : valid first -> valid 0 -> valid newlineState -> (forall seen s, client seen = Some s -> valid s) -> (forall s, valid s -> 0 <= s) ->
    tables_ok run accept valid input -> ~ In end_of_input input ->
    exists ls st, (forall n, (length input < n)%nat -> read_all run accept newlineState n client (stream_new first input) [] = Some (ls, st)) /\
      contents ls = input /\ Forall (fun l => lx_content l <> []) ls /\
      (forall s, next_lexeme run accept newlineState (set_initial_state s st) = NoLexeme (set_initial_state s st)).
  Proof.
    intros V1 V0 VN VC VP T NE.
    destruct (lex_all_lemma run accept first newlineState valid client V1 V0 VN VC VP input (S (length input)) T NE ltac:(lia)) as (ls & st & R & C & F & _ & B & I).
    exists ls, st. split; [|split; [exact C|split; [exact F|]]].
    - intros n Hn. destruct (lex_all_lemma run accept first newlineState valid client V1 V0 VN VC VP input n T NE Hn) as (ls' & st' & R' & _).
      apply (read_all_mono run accept newlineState client (S (length input)) n); [lia|exact R].
    - intros s. apply at_end_lemma; [exact B|exact I].
  Qed.

  Lemma C17_lemma input n ls st : valid first -> valid 0 -> valid newlineState -> (forall seen s, client seen = Some s -> valid s) -> (forall s, valid s -> 0 <= s) ->
    tables_ok run accept valid input -> ~ In end_of_input input ->
    read_all run accept newlineState n client (stream_new first input) [] = Some (ls, st) ->
    forall ls1 l ls2, ls = ls1 ++ l :: ls2 ->
      p_line (lx_pos l) = Z.of_nat (line_of (contents ls1)) /\ p_column (lx_pos l) = Z.of_nat (column_of (contents ls1)) /\
      p_offset (lx_pos l) = Z.of_nat (counted_of (contents ls1)).
  Proof.
    intros V1 V0 VN VC VP T NE R.
    destruct (lex_all_lemma run accept first newlineState valid client V1 V0 VN VC VP input (S (length input) + n) T NE ltac:(lia)) as (ls' & st' & R' & _ & _ & X & _).
    rewrite (read_all_mono run accept newlineState client n (S (length input) + n) _ _ _ ltac:(lia) R) in R'. inversion R'; subst ls' st'. intros ls1 l ls2 E. destruct (X _ _ _ E) as [_ P].
    rewrite P, position_new. auto.
  Qed.

  Lemma C16_lemma input n ls st : valid first -> valid 0 -> valid newlineState -> (forall seen s, client seen = Some s -> valid s) -> (forall s, valid s -> 0 <= s) ->
    tables_ok run accept valid input -> ~ In end_of_input input ->
    read_all run accept newlineState n client (stream_new first input) [] = Some (ls, st) ->
    forall ls1 l ls2, ls = ls1 ++ l :: ls2 ->
      longest_match run accept (start_state first newlineState client (rev ls1)) (contents (l :: ls2)) (lx_content l) (lx_matched l).
  Proof.
    intros V1 V0 VN VC VP T NE R.
    destruct (lex_all_lemma run accept first newlineState valid client V1 V0 VN VC VP input (S (length input) + n) T NE ltac:(lia)) as (ls' & st' & R' & _ & _ & X & _).
    rewrite (read_all_mono run accept newlineState client n (S (length input) + n) _ _ _ ltac:(lia) R) in R'. inversion R'; subst ls' st'. intros ls1 l ls2 E. destruct (X _ _ _ E) as [P _]. exact P.
  Qed.
End PosLemma.

Lemma C18_lemma (conv : Z -> Z) s c n :
  reads (stream_read (sr_get (s ++ [c])) (sr_good (s ++ [c])) conv) n 0%nat = reads (stream_read (is_get s) is_good conv) n (0%nat, false).
Proof. rewrite stringreader_reads, istream_reads, removelast_last. reflexivity. Qed.

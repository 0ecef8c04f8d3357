(** Proofs about the import of language files. *)
From Verif Require Import Base OrdMap TermDictModel GrammarProofs ImportModel ImportSpec.
Local Open Scope Z_scope.

Section Proofs.
  Context {block : Type} (real_path : name -> name) (load : name -> option (file block)).
  Context (root : name) (rootfile : option (file block)).
  Local Notation look_at := (look_at block real_path load).
  Local Notation process := (process block real_path load).
  Local Notation reached := (reached real_path load root rootfile).
  Local Notation file := (file block).
  Local Notation mfind_same := (mfind_mset_same name_ltb name_strict).
  Local Notation mfind_other := (mfind_mset_other name_ltb name_strict).

  (** ** Files *)
  (** What holds before each file that is looked at: [done] has the files before, [todo] is the stack. *)
  Record files_ok (st : imports block) (imported : list name) (done todo : list (name * option file)) : Prop := {
    fo_sorted : ssorted name_ltb imported;
    fo_paths : forall p, In p imported <-> In p (map fst (done ++ todo));
    fo_distinct : NoDup (map fst (done ++ todo));
    fo_reached : forall p f, In (p, f) (done ++ todo) -> reached p f;
    fo_root : In (real_path root) imported;
    fo_reads : NoDup (real_path root :: map real_path (i_reads st));
    fo_read : forall n, In n (i_reads st) -> In (real_path n) imported;
    fo_short_sorted : msorted name_ltb (i_short st);
    fo_short : forall p, In p imported -> exists n, mfind name_ltb p (i_short st) = Some n /\ real_path n = p /\ (n = root \/ In n (i_reads st)) }.
  (** The imports of a file are known. *)
  Definition known (imported : list name) (f : list (defn block)) : Prop := forall n, In (Import n) f -> In (real_path n) imported.

  Lemma smem_false k s : ssorted name_ltb s -> smem name_ltb k s = false -> ~ In k s.
  Proof. intros SS E H. apply (smem_in name_ltb name_strict s SS) in H. rewrite H in E. discriminate E. Qed.

  Lemma look_files p f done : (forall n, In (Import n) f -> reached (real_path n) (load n)) -> forall st imported todo, files_ok st imported done todo ->
    forall st' imported' todo', fold_left (look_at p) f (st, imported, todo) = (st', imported', todo') ->
    files_ok st' imported' done todo' /\ known imported' f /\ incl imported imported'.
  Proof.
    induction f as [|d f IH]; intros R st imported todo FO st' imported' todo' E.
    - cbn in E. injection E as <- <- <-. split; [exact FO|]. split; [intros n []|intros x; auto].
    - cbn [fold_left] in E. assert (R' : forall n, In (Import n) f -> reached (real_path n) (load n)) by (intros n I; apply R; right; exact I).
      destruct d as [n|n b|].
      + cbn [ImportModel.look_at] in E. destruct (smem name_ltb (real_path n) imported) eqn:M.
        * destruct (IH R' _ _ _ FO _ _ _ E) as (FO' & K & IC). split; [exact FO'|]. split; [|exact IC]. intros m [X|X]; [|apply K, X]. injection X as <-. apply IC. apply (smem_in _ name_strict _ (fo_sorted _ _ _ _ FO)), M.
        * pose proof (smem_false _ _ (fo_sorted _ _ _ _ FO) M) as N.
          assert (FO1 : files_ok (mkImports (mset name_ltb (real_path n) (load n) (i_files st)) (mset name_ltb (real_path n) n (i_short st)) (i_blocks st) (i_where st) (i_messages st) (i_reads st ++ [n])) (sins name_ltb (real_path n) imported) done ((real_path n, load n) :: todo)).
          { constructor; cbn [i_reads i_short].
            - apply sins_sorted; [apply name_strict|apply FO].
            - intros q. rewrite (sins_in name_ltb name_strict), (fo_paths _ _ _ _ FO), !map_app, !in_app_iff. cbn [map fst In]. intuition auto.
            - assert (NI : ~ In (real_path n) (map fst (done ++ todo))) by (rewrite <- (fo_paths _ _ _ _ FO); exact N). pose proof (fo_distinct _ _ _ _ FO) as ND. rewrite map_app in *. cbn [map fst]. apply NoDup_Add with (a := real_path n) (l := map fst done ++ map fst todo); [apply Add_app|split; assumption].
            - intros q g I. apply in_app_or in I. destruct I as [I|[I|I]]; [|injection I as <- <-; apply R; left; reflexivity|]; apply (fo_reached _ _ _ _ FO), in_or_app; auto.
            - apply (sins_in name_ltb name_strict). right. apply (fo_root _ _ _ _ FO).
            - rewrite map_app. cbn [map]. rewrite app_comm_cons. apply NoDup_Add with (a := real_path n) (l := real_path root :: map real_path (i_reads st)).
              + rewrite <- (app_nil_r (real_path root :: map real_path (i_reads st))) at 1. apply Add_app.
              + split; [apply FO|]. intros [X|X]; [apply N; rewrite <- X; apply (fo_root _ _ _ _ FO)|]. apply in_map_iff in X. destruct X as (m & X & Y). apply N. rewrite <- X. apply (fo_read _ _ _ _ FO), Y.
            - intros m I. apply (sins_in name_ltb name_strict). apply in_app_or in I. destruct I as [I|[<-|[]]]; [right; apply (fo_read _ _ _ _ FO), I|auto].
            - apply mset_sorted; [apply name_strict|apply FO].
            - intros q I. destruct (list_eq_dec Z.eq_dec q (real_path n)) as [->|NE].
              + exists n. rewrite mfind_same by apply FO. split; [reflexivity|]. split; [reflexivity|]. right. apply in_or_app. right. left. reflexivity.
              + apply (sins_in name_ltb name_strict) in I. destruct I as [I|I]; [contradiction|]. destruct (fo_short _ _ _ _ FO q I) as (m & F & RM & W). exists m. rewrite mfind_other by (auto; apply FO). split; [exact F|]. split; [exact RM|]. destruct W as [W|W]; [left; exact W|right; apply in_or_app; left; exact W]. }
          destruct (IH R' _ _ _ FO1 _ _ _ E) as (FO' & K & IC). split; [exact FO'|]. split.
          -- intros m [X|X]; [|apply K, X]. injection X as <-. apply IC, (sins_in name_ltb name_strict). auto.
          -- intros q I. apply IC, (sins_in name_ltb name_strict). auto.
      + assert (FO1 : files_ok (fst (fst (look_at p (st, imported, todo) (Language n b)))) imported done todo) by (cbn [ImportModel.look_at]; destruct (mfind name_ltb n (i_blocks st)); destruct FO; constructor; auto).
        assert (X : look_at p (st, imported, todo) (Language n b) = (fst (fst (look_at p (st, imported, todo) (Language n b))), imported, todo)) by (cbn [ImportModel.look_at]; destruct (mfind name_ltb n (i_blocks st)); reflexivity).
        rewrite X in E. destruct (IH R' _ _ _ FO1 _ _ _ E) as (FO' & K & IC). split; [exact FO'|]. split; [|exact IC]. intros m [Y|Y]; [discriminate Y|apply K, Y].
      + cbn [ImportModel.look_at] in E. destruct (IH R' _ _ _ FO _ _ _ E) as (FO' & K & IC). split; [exact FO'|]. split; [|exact IC]. intros m [Y|Y]; [discriminate Y|apply K, Y].
  Qed.

  (** ** Languages *)
  (** The languages after some definitions *)
  Definition blocks_seen (n : name) (ds : list (name * defn block)) : list (name * block) :=
    flat_map (fun x => match snd x with Language m b => if list_eq_dec Z.eq_dec m n then [(fst x, b)] else [] | _ => [] end) ds.
  Record langs_ok (st : imports block) (ds : list (name * defn block)) : Prop := {
    lo_sorted : msorted name_ltb (i_blocks st);
    lo_wsorted : msorted name_ltb (i_where st);
    lo_block : forall n, mfind name_ltb n (i_blocks st) = option_map snd (hd_error (blocks_seen n ds));
    lo_where : forall n, mfind name_ltb n (i_where st) = option_map fst (hd_error (blocks_seen n ds));
    lo_said : forall n, said_again n (i_messages st) = (length (blocks_seen n ds) - 1)%nat }.
  Lemma blocks_seen_app n a b : blocks_seen n (a ++ b) = blocks_seen n a ++ blocks_seen n b.
  Proof. unfold blocks_seen. apply flat_map_app. Qed.
  Lemma said_app n a b : said_again n (a ++ b) = (said_again n a + said_again n b)%nat.
  Proof. unfold said_again. rewrite filter_app, app_length. reflexivity. Qed.
  Lemma look_langs p f : forall st imported todo ds, langs_ok st ds -> langs_ok (fst (fst (fold_left (look_at p) f (st, imported, todo)))) (ds ++ map (pair p) f).
  Proof.
    induction f as [|d f IH]; intros st imported todo ds LO; [cbn; rewrite app_nil_r; exact LO|].
    cbn [fold_left map]. replace (ds ++ (p, d) :: map (pair p) f) with ((ds ++ [(p, d)]) ++ map (pair p) f) by (rewrite <- app_assoc; reflexivity).
    assert (SAME : match d with Language _ _ => False | _ => True end -> forall n, blocks_seen n (ds ++ [(p, d)]) = blocks_seen n ds).
    { intros D n. rewrite blocks_seen_app. unfold blocks_seen at 2. cbn. destruct d; [|contradiction|]; rewrite app_nil_r; reflexivity. }
    destruct d as [n|n b|].
    - cbn [ImportModel.look_at]. destruct (smem name_ltb (real_path n) imported); apply IH; destruct LO; constructor; cbn [i_blocks i_where i_messages]; auto; intros m; rewrite (SAME I); auto.
    - cbn [ImportModel.look_at]. clear SAME. assert (SEEN : forall m, blocks_seen m (ds ++ [(p, Language n b)]) = blocks_seen m ds ++ (if list_eq_dec Z.eq_dec n m then [(p, b)] else [])) by (intros m; rewrite blocks_seen_app; unfold blocks_seen at 2; cbn; rewrite app_nil_r; reflexivity).
      destruct LO as [S1 S2 B W M]. destruct (mfind name_ltb n (i_blocks st)) as [b'|] eqn:F; apply IH; constructor; cbn [i_blocks i_where i_messages]; auto; try (apply mset_sorted; [apply name_strict|assumption]); intros m; rewrite SEEN.
      + rewrite B in F |- *. destruct (list_eq_dec Z.eq_dec n m) as [->|]; [|rewrite app_nil_r; reflexivity]. destruct (blocks_seen m ds); [discriminate F|reflexivity].
      + rewrite B in F. rewrite W. destruct (list_eq_dec Z.eq_dec n m) as [->|]; [|rewrite app_nil_r; reflexivity]. destruct (blocks_seen m ds); [discriminate F|reflexivity].
      + rewrite said_app, M, app_length. unfold said_again. cbn [filter]. rewrite B in F. destruct (list_eq_dec Z.eq_dec n m) as [->|]; cbn [length]; [|lia]. destruct (blocks_seen m ds); [discriminate F|cbn [length]; lia].
      + rewrite B in F. destruct (list_eq_dec Z.eq_dec n m) as [->|NE]; [rewrite mfind_same by assumption|rewrite mfind_other by auto; rewrite B, app_nil_r; reflexivity]. destruct (blocks_seen m ds); [reflexivity|discriminate F].
      + rewrite B in F. destruct (list_eq_dec Z.eq_dec n m) as [->|NE]; [rewrite mfind_same by assumption|rewrite mfind_other by auto; rewrite W, app_nil_r; reflexivity]. destruct (blocks_seen m ds); [reflexivity|discriminate F].
      + rewrite M, app_length. rewrite B in F. destruct (list_eq_dec Z.eq_dec n m) as [->|NE]; [|cbn [length]; lia]. destruct (blocks_seen m ds); [reflexivity|discriminate F].
    - cbn [ImportModel.look_at]. apply IH. destruct LO; constructor; auto; intros m; rewrite (SAME I); auto.
  Qed.

  (** ** The loop *)
  Definition defs_of (fs : list (name * option file)) : list (name * defn block) := flat_map (fun x => match snd x with Some f => map (pair (fst x)) f | None => [] end) fs.
  Lemma process_ok fuel : forall st imported done todo r, files_ok st imported done todo -> langs_ok st (defs_of done) ->
    (forall p f, In (p, Some f) done -> known imported f) -> process fuel (st, imported, todo) = Some r ->
    exists all imported', files_ok r imported' all [] /\ langs_ok r (defs_of all) /\ forall p f, In (p, Some f) all -> known imported' f.
  Proof.
    induction fuel as [|fuel IH]; intros st imported done todo r FO LO K E; [discriminate E|]. cbn [ImportModel.process] in E. destruct todo as [|[p f] todo].
    - injection E as <-. exists done, imported. auto.
    - assert (FO1 : files_ok st imported (done ++ [(p, f)]) todo) by (replace (done ++ (p, f) :: todo) with ((done ++ [(p, f)]) ++ todo) in * by (rewrite <- app_assoc; reflexivity); destruct FO as [A B C D E1 E2 E3 E4 E5]; replace (done ++ (p, f) :: todo) with ((done ++ [(p, f)]) ++ todo) in * by (rewrite <- app_assoc; reflexivity); constructor; assumption).
      assert (DEFS : defs_of (done ++ [(p, f)]) = defs_of done ++ match f with Some f => map (pair p) f | None => [] end) by (unfold defs_of; rewrite flat_map_app; cbn; rewrite app_nil_r; reflexivity).
      destruct f as [f|].
      + destruct (fold_left (look_at p) f (st, imported, todo)) as [[st' imported'] todo'] eqn:F.
        assert (R : forall n, In (Import n) f -> reached (real_path n) (load n)).
        { intros n I. apply reached_import with (p := p) (g := f); [|exact I]. apply (fo_reached _ _ _ _ FO). apply in_or_app. right. left. reflexivity. }
        destruct (look_files p f _ R _ _ _ FO1 _ _ _ F) as (FO2 & K2 & IC). apply (IH st' imported' (done ++ [(p, Some f)]) todo' r FO2); [| |exact E].
        * rewrite DEFS. pose proof (look_langs p f st imported todo _ LO) as LO2. unfold ImportModel.stack, ImportModel.file in *. rewrite F in LO2. exact LO2.
        * intros q g I n X. apply in_app_or in I. destruct I as [I|[I|[]]]; [apply IC, (K q g I n X)|]. injection I as <- <-. apply K2, X.
      + apply (IH st imported (done ++ [(p, None)]) todo r FO1); [rewrite DEFS, app_nil_r; exact LO| |exact E]. intros q g I. apply in_app_or in I. destruct I as [I|[I|[]]]; [apply (K q g I)|discriminate I].
  Qed.
  Lemma blocks_seen_for n fs : map snd (blocks_seen n (defs_of fs)) = blocks_for n fs.
  Proof.
    induction fs as [|[p f] fs IH]; [reflexivity|]. cbn [defs_of flat_map blocks_for fst snd]. fold (defs_of fs). fold (@blocks_for block n fs). rewrite blocks_seen_app, map_app, IH. f_equal.
    destruct f as [f|]; [|reflexivity]. unfold blocks_seen, blocks_in. induction f as [|d f IHf]; [reflexivity|]. cbn [map flat_map fst snd]. rewrite map_app, IHf. f_equal. destruct d as [|m b|]; try reflexivity. destruct (list_eq_dec Z.eq_dec m n); reflexivity.
  Qed.
  Lemma blocks_seen_in n fs p b : In (p, b) (blocks_seen n (defs_of fs)) -> exists f, In (p, Some f) fs /\ In (Language n b) f.
  Proof.
    unfold blocks_seen, defs_of. intros I. apply in_flat_map in I. destruct I as ([q d] & I & J). apply in_flat_map in I. destruct I as ([q' f] & I & K). cbn [fst snd] in *. destruct f as [f|]; [|destruct K]. apply in_map_iff in K. destruct K as (d' & K & L). injection K as <- <-.
    destruct d' as [|m c|]; try (destruct J; fail). destruct (list_eq_dec Z.eq_dec m n) as [->|]; [|destruct J]. destruct J as [J|[]]. injection J as <- <-. exists f. auto.
  Qed.

  Theorem compile_ok fuel r : real_path (real_path root) = real_path root -> compile block real_path load fuel root rootfile = Some r ->
    exists all, NoDup (map fst all) /\ (forall p f, In (p, f) all -> reached p f) /\
      NoDup (real_path root :: map real_path (i_reads r)) /\
      (forall n, language_with_name block n r = hd_error (blocks_for n all) /\ said_again n (i_messages r) = (length (blocks_for n all) - 1)%nat) /\
      (forall n s, file_with_language block n r = Some s -> (s = root \/ In s (i_reads r)) /\ exists f b, In (real_path s, Some f) all /\ In (Language n b) f /\ language_with_name block n r = Some b) /\
      (forall n, In n (i_reads r) -> In (real_path n) (map fst all)) /\
      (forall p, In p (map fst all) -> exists n, (n = root \/ In n (i_reads r)) /\ real_path n = p) /\
      (same_files real_path load root rootfile -> forall p f, reached p f -> In (p, f) all).
  Proof.
    intros ID E. unfold compile in E. rewrite ID in E.
    assert (FO : files_ok (new_imports block real_path root rootfile) [real_path root] [] [(real_path root, rootfile)]).
    { constructor; cbn.
      - repeat constructor.
      - tauto.
      - repeat constructor. intros [].
      - intros p f [X|[]]. injection X as <- <-. apply reached_root.
      - auto.
      - repeat constructor. intros [].
      - intros n [].
      - repeat constructor.
      - intros p [<-|[]]. exists root. rewrite (st_irrefl _ name_strict). auto. }
    assert (LO : langs_ok (new_imports block real_path root rootfile) (defs_of [])) by (constructor; cbn; auto; constructor).
    destruct (process_ok fuel _ _ [] _ r FO LO ltac:(intros p f []) E) as (all & imported & FA & LA & KA). exists all.
    destruct FA as [F1 F2 F3 F4 F5 F6 F7 F8 F9]. rewrite app_nil_r in F2, F3, F4.
    assert (RE : same_files real_path load root rootfile -> forall p f, reached p f -> In (p, f) all).
    { intros (_ & SR & SL). assert (RC : forall p f, reached p f -> forall g, reached p g -> f = g).
      { intros p f R. destruct R as [|p g n R I]; intros h R'.
        - inversion R' as [X Y|p' g' n' _ _ X Y]; [reflexivity|]. symmetry. apply SR. exact X.
        - inversion R' as [X Y|p' g' n' _ _ X Y]; [rewrite <- Y; apply SR; symmetry; exact X|]. apply SL. symmetry. exact X. }
      assert (IN : forall p f, reached p f -> In p imported -> In (p, f) all).
      { intros p f R I. apply F2 in I. apply in_map_iff in I. destruct I as ([q g] & X & Y). cbn in X. subst q. rewrite (RC p f R g (F4 p g Y)). exact Y. }
      intros p f R. apply IN; [exact R|]. induction R as [|p g n R IR I]; [exact F5|]. apply (KA p g (IN p (Some g) R IR)), I. }
    destruct LA as [_ _ LB LW LS]. split; [exact F3|]. split; [exact F4|]. split; [exact F6|]. split.
    { intros n. split.
      - unfold language_with_name. rewrite LB, <- blocks_seen_for. destruct (blocks_seen n (defs_of all)); reflexivity.
      - rewrite LS, <- blocks_seen_for, map_length. reflexivity. }
    split.
    { intros n s F. unfold file_with_language in F. rewrite LW in F. destruct (blocks_seen n (defs_of all)) as [|[p b] l] eqn:B; [discriminate F|]. cbn in F. injection F as F.
      destruct (blocks_seen_in n all p b) as (f & I & J); [rewrite B; left; reflexivity|]. destruct (F9 p) as (m & FM & RM & W); [apply F2, in_map_iff; exists (p, Some f); auto|]. rewrite FM in F. subst s. split; [exact W|].
      exists f, b. rewrite RM. split; [exact I|]. split; [exact J|]. unfold language_with_name. rewrite LB, B. reflexivity. }
    split; [intros n I; apply F2, F7, I|]. split; [|exact RE]. intros p I. apply F2 in I. destruct (F9 p I) as (n & _ & RN & W). exists n. auto.
  Qed.

  (** ** The end of the loop *)
  Definition unknown (paths imported : list name) : nat := length (filter (fun p => negb (smem name_ltb p imported)) paths).
  Lemma unknown_sins paths imported p : ssorted name_ltb imported -> In p paths -> smem name_ltb p imported = false -> (unknown paths (sins name_ltb p imported) < unknown paths imported)%nat.
  Proof.
    intros SS I M. assert (LE : forall l, (unknown l (sins name_ltb p imported) <= unknown l imported)%nat /\ (In p l -> (unknown l (sins name_ltb p imported) < unknown l imported)%nat)).
    { unfold unknown. induction l as [|q l [IH1 IH2]]; [split; [apply Nat.le_refl|intros []]|]. cbn [filter].
      assert (W : smem name_ltb q imported = true -> smem name_ltb q (sins name_ltb p imported) = true).
      { intros X. apply (smem_in name_ltb name_strict _ (sins_sorted name_ltb name_strict _ SS p)), (sins_in name_ltb name_strict). right. apply (smem_in name_ltb name_strict _ SS), X. }
      assert (P : smem name_ltb p (sins name_ltb p imported) = true) by (apply (smem_in name_ltb name_strict _ (sins_sorted name_ltb name_strict _ SS p)), (sins_in name_ltb name_strict); auto).
      split.
      - destruct (smem name_ltb q imported); [rewrite W by reflexivity; cbn; exact IH1|]. destruct (smem name_ltb q (sins name_ltb p imported)); cbn; lia.
      - intros [->|J]; [rewrite M, P; cbn; lia|]. specialize (IH2 J). destruct (smem name_ltb q imported); [rewrite W by reflexivity; cbn; exact IH2|]. destruct (smem name_ltb q (sins name_ltb p imported)); cbn; lia. }
    apply LE, I.
  Qed.
  Context (names : list name).
  Context (closed : forall n f m, In n names -> load n = Some f -> In (Import m) f -> In m names).
  Definition in_names (f : option file) : Prop := forall g m, f = Some g -> In (Import m) g -> In m names.
  Lemma look_measure p f : forall st imported todo, ssorted name_ltb imported -> (forall m, In (Import m) f -> In m names) -> (forall q g, In (q, g) todo -> in_names g) ->
    forall st' imported' todo', fold_left (look_at p) f (st, imported, todo) = (st', imported', todo') ->
    ssorted name_ltb imported' /\ (forall q g, In (q, g) todo' -> in_names g) /\ (unknown (map real_path names) imported' + length todo' <= unknown (map real_path names) imported + length todo)%nat.
  Proof.
    induction f as [|d f IH]; intros st imported todo SS N T st' imported' todo' E; [cbn in E; injection E as <- <- <-; auto|]. cbn [fold_left] in E.
    assert (N' : forall m, In (Import m) f -> In m names) by (intros m I; apply N; right; exact I).
    destruct d as [n|n b|]; cbn [ImportModel.look_at] in E; [|destruct (mfind name_ltb n (i_blocks st)); exact (IH _ _ _ SS N' T _ _ _ E)|exact (IH _ _ _ SS N' T _ _ _ E)].
    destruct (smem name_ltb (real_path n) imported) eqn:M; [exact (IH _ _ _ SS N' T _ _ _ E)|].
    assert (NN : In n names) by (apply N; left; reflexivity).
    apply IH in E; [|apply sins_sorted; [apply name_strict|exact SS]|exact N'|].
    - destruct E as (A & B & C). split; [exact A|]. split; [exact B|]. pose proof (unknown_sins (map real_path names) imported (real_path n) SS (in_map _ _ _ NN) M). cbn [length] in C. lia.
    - intros q g [X|X]; [|apply (T q g X)]. injection X as <- <-. intros h m E1 I. apply (closed n h m NN E1 I).
  Qed.
  Lemma process_ends fuel : forall st imported todo, ssorted name_ltb imported -> (forall q g, In (q, g) todo -> in_names g) ->
    (unknown (map real_path names) imported + length todo < fuel)%nat -> process fuel (st, imported, todo) <> None.
  Proof.
    induction fuel as [|fuel IH]; intros st imported todo SS T L; [lia|]. cbn [ImportModel.process]. destruct todo as [|[p f] todo]; [discriminate|]. destruct f as [f|].
    - destruct (fold_left (look_at p) f (st, imported, todo)) as [[st' imported'] todo'] eqn:F.
      destruct (look_measure p f st imported todo SS (fun m I => T p (Some f) (or_introl eq_refl) f m eq_refl I) (fun q g I => T q g (or_intror I)) _ _ _ F) as (A & B & C). apply IH; [exact A|exact B|]. cbn [length] in L. lia.
    - apply IH; [exact SS|intros q g I; apply (T q g); right; exact I|]. cbn [length] in L. lia.
  Qed.
End Proofs.

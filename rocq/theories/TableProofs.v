From Verif Require Import Base OrdMap BinSearch GrammarModel GrammarProofs FirstModel FirstProofs MachineModel MachineProofs ActionModel TableModel.
From Coq Require Import Permutation Sorted.
Local Open Scope Z_scope.

(** * Lists *)
Lemma permutation_filter {A} (p : A -> bool) l l' : Permutation l l' -> Permutation (filter p l) (filter p l').
Proof.
  induction 1 as [|x l l' P IH|x y l|l l' l'' P1 IH1 P2 IH2]; cbn [filter].
  - constructor.
  - destruct (p x); [constructor|]; assumption.
  - destruct (p x), (p y); try apply Permutation_refl. apply perm_swap.
  - eapply perm_trans; eassumption.
Qed.
Lemma permutation_Forall2 {A B} (R : A -> B -> Prop) m m' : Permutation m m' -> forall l, Forall2 R l m -> exists l', Permutation l l' /\ Forall2 R l' m'.
Proof.
  induction 1 as [|x m m' P IH|x y m|m m' m'' P1 IH1 P2 IH2]; intros l F.
  - inversion F. exists []. split; constructor.
  - inversion F as [|a x' l0 m0 R0 F0]; subst. destruct (IH _ F0) as (l' & P' & F'). exists (a :: l'). split; constructor; assumption.
  - inversion F as [|a ? l0 ? R0 F0]; subst. inversion F0 as [|b ? l1 ? R1 F1]; subst. exists (b :: a :: l1). split; [apply perm_swap|repeat constructor; assumption].
  - destruct (IH1 _ F) as (l' & P' & F'). destruct (IH2 _ F') as (l'' & P'' & F''). exists l''. split; [eapply perm_trans; eassumption|exact F''].
Qed.
Lemma Forall2_filter {A B} (R : A -> B -> Prop) p q l m : Forall2 R l m -> (forall a b, R a b -> In a l -> p a = q b) -> Forall2 R (filter p l) (filter q m).
Proof.
  induction 1 as [|a b l m H F IH]; intros E; cbn [filter]; [constructor|]. rewrite (E a b H) by (left; reflexivity).
  assert (Forall2 R (filter p l) (filter q m)) by (apply IH; intros; apply E; [assumption|right; assumption]). destruct (q b); [constructor|]; assumption.
Qed.
Lemma sorted_filter {A} (R : A -> A -> Prop) p l : StronglySorted R l -> StronglySorted R (filter p l).
Proof.
  induction 1 as [|a l S IH F]; cbn [filter]; [constructor|]. destruct (p a); [|exact IH]. constructor; [exact IH|]. rewrite Forall_forall in F |- *. intros x X. apply F. apply filter_In in X. apply X.
Qed.
Lemma sorted_nth {A} (R : A -> A -> Prop) d l : StronglySorted R l -> forall i j, (i < j)%nat -> (j < length l)%nat -> R (nth i l d) (nth j l d).
Proof.
  induction 1 as [|a l S IH F]; intros i j I J; cbn [length] in J; [lia|]. destruct j as [|j]; [lia|]. destruct i as [|i]; cbn [nth].
  - rewrite Forall_forall in F. apply F, nth_In. lia.
  - apply IH; lia.
Qed.
Lemma nth_firstn' {A} (l : list A) n d i : (i < n)%nat -> nth i (firstn n l) d = nth i l d.
Proof. revert n i. induction l as [|a l IH]; intros n i H; [destruct n; reflexivity|]. destruct n; [lia|]. destruct i; [reflexivity|]. cbn [firstn nth]. apply IH. lia. Qed.
Lemma nth_skipn' {A} (l : list A) n d i : nth i (skipn n l) d = nth (n + i) l d.
Proof. revert l. induction n as [|n IH]; intros l; [reflexivity|]. destruct l; [destruct i; reflexivity|]. cbn [skipn]. rewrite IH. reflexivity. Qed.

(** * Sorting *)
Definition entry_le (a b : entry) : Prop := entry_ltb b a = false.
Lemma entry_le_spec a b : entry_le a b <-> e_symbol a < e_symbol b \/ e_symbol a = e_symbol b /\ action_score (e_type a) <= action_score (e_type b).
Proof. unfold entry_le, entry_ltb. destruct (Z.ltb_spec (e_symbol b) (e_symbol a)), (Z.ltb_spec (e_symbol a) (e_symbol b)), (Z.ltb_spec (action_score (e_type b)) (action_score (e_type a))); split; intros; try discriminate; try reflexivity; lia. Qed.
(** What std::sort promises *)
Definition sorts {A} (ltb : A -> A -> bool) (sort : list A -> list A) : Prop := forall l, Permutation l (sort l) /\ StronglySorted (fun a b => ltb b a = false) (sort l).

(** Insertion sort is one such function. *)
Fixpoint put {A} (ltb : A -> A -> bool) (a : A) (l : list A) : list A :=
  match l with [] => [a] | b :: l' => if ltb b a then b :: put ltb a l' else a :: l end.
Definition insertion_sort {A} (ltb : A -> A -> bool) (l : list A) : list A := fold_right (put ltb) [] l.
Lemma put_perm {A} (ltb : A -> A -> bool) a l : Permutation (a :: l) (put ltb a l).
Proof. induction l as [|b l IH]; cbn [put]; [apply Permutation_refl|]. destruct (ltb b a); [|apply Permutation_refl]. eapply perm_trans; [apply perm_swap|]. constructor. exact IH. Qed.
Lemma put_sorted {A} (ltb : A -> A -> bool) a l : (forall x y, ltb x y = true -> ltb y x = false) -> (forall x y z, ltb y x = false -> ltb z y = false -> ltb z x = false) ->
  StronglySorted (fun a b => ltb b a = false) l -> StronglySorted (fun a b => ltb b a = false) (put ltb a l).
Proof.
  intros AS TR. induction 1 as [|b l S IH F]; cbn [put]; [repeat constructor|]. destruct (ltb b a) eqn:E.
  - constructor; [exact IH|]. rewrite Forall_forall in F |- *. intros x X. apply (Permutation_in x (Permutation_sym (put_perm ltb a l))) in X. destruct X as [<-|X]; [apply AS, E|apply F, X].
  - constructor; [constructor; assumption|]. constructor; [exact E|]. rewrite Forall_forall in F |- *. intros x X. eapply TR; [exact E|apply F, X].
Qed.
Lemma insertion_sorts {A} (ltb : A -> A -> bool) : (forall x y, ltb x y = true -> ltb y x = false) -> (forall x y z, ltb y x = false -> ltb z y = false -> ltb z x = false) -> sorts ltb (insertion_sort ltb).
Proof.
  intros AS TR l. induction l as [|a l [P S]]; [split; constructor|]. cbn [insertion_sort fold_right]. split; [|apply put_sorted; assumption].
  eapply perm_trans; [apply perm_skip, P|]. apply put_perm.
Qed.
Lemma entry_sorts : sorts entry_ltb (insertion_sort entry_ltb).
Proof.
  apply insertion_sorts.
  - intros x y. unfold entry_ltb. destruct (Z.ltb_spec (e_symbol x) (e_symbol y)), (Z.ltb_spec (e_symbol y) (e_symbol x)); try reflexivity; try lia; try discriminate. destruct (Z.ltb_spec (action_score (e_type x)) (action_score (e_type y))), (Z.ltb_spec (action_score (e_type y)) (action_score (e_type x))); try reflexivity; try lia; discriminate.
  - intros x y z H1 H2. apply entry_le_spec in H1, H2. apply entry_le_spec. lia.
Qed.
Lemma weak_sorts : sorts weak_ltb (insertion_sort weak_ltb).
Proof. apply insertion_sorts; unfold weak_ltb; intros. - apply Z.ltb_ge. apply Z.ltb_lt in H. lia. - apply Z.ltb_ge in H, H0. apply Z.ltb_ge. lia. Qed.

(** * Looking up a symbol *)
Definition by_symbol (l : list entry) : Prop := StronglySorted (fun a b => e_symbol a <= e_symbol b) l.
Lemma sorted_by_symbol l : StronglySorted entry_le l -> by_symbol l.
Proof. induction 1 as [|a l S IH F]; constructor; [exact IH|]. rewrite Forall_forall in F |- *. intros x X. specialize (F x X). apply entry_le_spec in F. lia. Qed.
Lemma find_pos_spec s l : by_symbol l -> (find_pos s l <= length l)%nat /\ (forall i, (i < find_pos s l)%nat -> e_symbol (nth i l no_entry) < s) /\ (forall i, (find_pos s l <= i)%nat -> (i < length l)%nat -> s <= e_symbol (nth i l no_entry)).
Proof.
  intros S. destruct (lower_bound_pos_spec (fun i => e_symbol (nth i l no_entry) <? s) (length l)) as (A & B & C).
  - intros i j I J H. apply Z.ltb_lt in H. apply Z.ltb_lt. pose proof (sorted_nth _ no_entry l S i j I J) as X. cbv beta in X. lia.
  - fold (find_pos s l) in *. split; [exact A|]. split; intros i I; [apply Z.ltb_lt, B, I|]. intros J. apply Z.ltb_ge, C; assumption.
Qed.
Lemma scan_none s l : (forall e, In e l -> s < e_symbol e) -> scan s l = [] /\ filter (fun e => e_symbol e =? s) l = [].
Proof.
  intros H. split.
  - destruct l as [|e l]; [reflexivity|]. cbn [scan]. specialize (H e (or_introl eq_refl)). destruct (Z.eqb_spec (e_symbol e) s); [lia|reflexivity].
  - induction l as [|e l IH]; [reflexivity|]. cbn [filter]. pose proof (H e (or_introl eq_refl)). destruct (Z.eqb_spec (e_symbol e) s); [lia|]. apply IH. intros; apply H; right; assumption.
Qed.
Lemma scan_filter s l : by_symbol l -> (forall e, In e l -> s <= e_symbol e) -> scan s l = filter (fun e => e_symbol e =? s) l.
Proof.
  induction 1 as [|e l S IH F]; intros H; [reflexivity|]. cbn [scan filter]. destruct (Z.eqb_spec (e_symbol e) s) as [E|N].
  - f_equal. apply IH. intros; apply H; right; assumption.
  - symmetry. apply scan_none. intros x X. rewrite Forall_forall in F. specialize (F x X). specialize (H e (or_introl eq_refl)). lia.
Qed.
Lemma by_symbol_skipn l n : by_symbol l -> by_symbol (skipn n l).
Proof. revert l. induction n as [|n IH]; intros l S; [exact S|]. destruct l; [constructor|]. apply IH. inversion S; assumption. Qed.
Lemma find_action_filter s l : by_symbol l -> scan s (find_action s l) = filter (fun e => e_symbol e =? s) l.
Proof.
  intros S. destruct (find_pos_spec s l S) as (A & B & C). unfold find_action. rewrite scan_filter.
  - assert (E : forall p, filter p l = filter p (firstn (find_pos s l) l) ++ filter p (skipn (find_pos s l) l)) by (intros; rewrite <- filter_app, firstn_skipn; reflexivity). rewrite E. replace (filter _ (firstn _ l)) with (@nil entry); [reflexivity|].
    symmetry. assert (X : forall e, In e (firstn (find_pos s l) l) -> e_symbol e < s).
    { intros e X. apply (In_nth _ _ no_entry) in X. destruct X as (i & I & X). rewrite firstn_length in I. rewrite nth_firstn' in X by lia. subst e. apply B. lia. }
    clear -X. induction (firstn (find_pos s l) l) as [|e m IH]; [reflexivity|]. cbn [filter]. pose proof (X e (or_introl eq_refl)). destruct (Z.eqb_spec (e_symbol e) s); [lia|]. apply IH. intros; apply X; right; assumption.
  - apply by_symbol_skipn, S.
  - intros e E. apply (In_nth _ _ no_entry) in E. destruct E as (i & I & E). rewrite skipn_length in I. rewrite nth_skipn' in E. subst e. apply C; lia.
Qed.

(** * The numbers of the rules *)
Definition ids_ok (ids : list (Z * Z)) : Prop := msorted Z.ltb ids /\ (forall k n, In (k, n) ids -> 0 <= n < Z.of_nat (length ids)) /\ (forall k k' n, In (k, n) ids -> In (k', n) ids -> k = k').
Lemma mset_new_length {V} k (v : V) m : msorted Z.ltb m -> mfind Z.ltb k m = None -> length (mset Z.ltb k v m) = S (length m).
Proof.
  induction m as [|[k' v'] m IH]; intros S N; [reflexivity|]. cbn [mset mfind fst snd] in *. apply msorted_cons in S. destruct S as [S H].
  destruct (Z.ltb_spec k' k).
  - cbn [length]. rewrite IH; [reflexivity|exact S|]. destruct (Z.ltb_spec k k'); [lia|]. exact N.
  - destruct (Z.ltb_spec k k'); [reflexivity|]. discriminate N.
Qed.

Section Make.
  Context (rid : rule -> Z) (rule_of : Z -> rule) (ident : item -> Z).
  Context (sort : list entry -> list entry) (sort_weak : list (Z * Z) -> list (Z * Z)) (SO : sorts entry_ltb sort).
  Lemma rule_index_spec r ids n ids' : ids_ok ids -> rule_index rid r ids = (n, ids') -> ids_ok ids' /\ incl ids ids' /\ In (rid r, n) ids' /\ (forall k v, In (k, v) ids' -> In (k, v) ids \/ k = rid r).
  Proof.
    intros (S & R & I). unfold rule_index. destruct (mfind Z.ltb (rid r) ids) as [v|] eqn:F; intros H; injection H as <- <-.
    - apply (mfind_in _ Zltb_strict _ S) in F. split; [split; [exact S|split; assumption]|]. split; [intros x X; exact X|]. split; [exact F|]. auto.
    - assert (L := mset_new_length (rid r) (Z.of_nat (length ids)) ids S F). pose proof (proj1 (mfind_none _ Zltb_strict _ S _) F) as NF.
      assert (IN : forall p, In p (mset Z.ltb (rid r) (Z.of_nat (length ids)) ids) <-> p = (rid r, Z.of_nat (length ids)) \/ In p ids).
      { intros [k v]. rewrite (mset_in _ Zltb_strict _ S). cbn [fst]. split; [intros [E|[E _]]; auto|]. intros [E|E]; [left; exact E|]. right. split; [exact E|]. intros ->. eapply NF, E. }
      split; [split; [apply (mset_sorted _ Zltb_strict), S|split]|split; [|split]].
      + intros k n K. rewrite L. apply IN in K. destruct K as [K|K]; [injection K as -> ->; lia|]. apply R in K. lia.
      + intros k k' n K K'. apply IN in K, K'. destruct K as [K|K], K' as [K'|K']; try congruence.
        * injection K as -> ->. apply R in K'. lia.
        * injection K' as -> ->. apply R in K. lia.
        * eapply I; eassumption.
      + intros p P. apply IN. right. exact P.
      + apply IN. left. reflexivity.
      + intros k v K. apply IN in K. destruct K as [K|K]; [right; congruence|left; exact K].
  Qed.

  Definition symbol_of (i : item) : Z := match i with ITerm s => s | _ => ident i end.
  (** An entry codes an action. *)
  Definition coded (ids : list (Z * Z)) (a : action) (e : entry) : Prop :=
    e_type e = a_type a /\ e_symbol e = symbol_of (a_item a) /\ exists n, e_next e = bits24 n /\ if is_reduction (a_type a) then In (rid (a_rule a), n) ids else n = a_next a.
  Lemma coded_incl ids ids' a e : incl ids ids' -> coded ids a e -> coded ids' a e.
  Proof. intros I (T & S & n & N & C). split; [exact T|]. split; [exact S|]. exists n. split; [exact N|]. destruct (is_reduction _); auto. Qed.
  Lemma coded_all ids ids' l m : incl ids ids' -> Forall2 (coded ids) l m -> Forall2 (coded ids') l m.
  Proof. intros I. induction 1; constructor; [eapply coded_incl; eassumption|assumption]. Qed.
  Definition not_terminal (a : action) : bool := negb (is_terminal (a_item a)).
  Definition ends_guard (acts : action_set) : Prop := exists a, In a acts /\ is_terminal (a_item a) = false /\ ident (a_item a) = ident IEog.
  Definition from_rules (acts : action_set) (ids ids' : list (Z * Z)) : Prop := forall k v, In (k, v) ids' -> In (k, v) ids \/ exists a, In a acts /\ is_reduction (a_type a) = true /\ k = rid (a_rule a).
  Lemma fill_spec q acts : forall ids eogs ts ns ids' eogs', ids_ok ids -> fill rid ident q acts ids eogs = (ts, ns, ids', eogs') ->
    ids_ok ids' /\ incl ids ids' /\ from_rules acts ids ids' /\ Forall2 (coded ids') (filter (fun a => is_terminal (a_item a)) acts) ts /\ Forall2 (coded ids') (filter not_terminal acts) ns /\
    exists n, eogs' = eogs ++ repeat q n /\ ((0 < n)%nat <-> ends_guard acts).
  Proof.
    induction acts as [|a acts IH]; intros ids eogs ts ns ids' eogs' OK H; cbn [fill] in H.
    - injection H as <- <- <- <-. split; [exact OK|]. split; [apply incl_refl|]. split; [intros k v K; left; exact K|]. split; [constructor|]. split; [constructor|]. exists 0%nat. cbn. rewrite app_nil_r. split; [reflexivity|]. split; [lia|]. intros (a & [] & _).
    - destruct (if is_reduction (a_type a) then rule_index rid (a_rule a) ids else (a_next a, ids)) as [n ids1] eqn:RI.
      assert (R : ids_ok ids1 /\ incl ids ids1 /\ (forall k v, In (k, v) ids1 -> In (k, v) ids \/ is_reduction (a_type a) = true /\ k = rid (a_rule a)) /\ (if is_reduction (a_type a) then In (rid (a_rule a), n) ids1 else n = a_next a)).
      { destruct (is_reduction (a_type a)) eqn:RD.
        - apply (rule_index_spec _ _ _ _ OK) in RI. destruct RI as (A & B & C & D). split; [exact A|]. split; [exact B|]. split; [|exact C]. intros k v K. destruct (D k v K); auto.
        - injection RI as <- <-. split; [exact OK|]. split; [apply incl_refl|]. split; [auto|reflexivity]. }
      destruct R as (OK1 & I1 & F1 & C1). unfold not_terminal. cbn [filter]. destruct (is_terminal (a_item a)) eqn:T; cbn [negb].
      + destruct (fill rid ident q acts ids1 eogs) as [[[ts1 ns1] ids2] eogs2] eqn:FL. injection H as <- <- <- <-.
        destruct (IH _ _ _ _ _ _ OK1 FL) as (OK2 & I2 & F2 & TS & NS & m & EO & EI). split; [exact OK2|]. split; [eapply incl_tran; eassumption|]. split; [|split; [|split; [exact NS|]]].
        * intros k v K. destruct (F2 k v K) as [K1|(b & B & K1)]; [|right; exists b; split; [right; exact B|exact K1]]. destruct (F1 k v K1) as [K2|[K2 K3]]; [left; exact K2|]. right. exists a. split; [left; reflexivity|auto].
        * constructor; [|exact TS]. apply (coded_incl ids1); [exact I2|]. split; [reflexivity|]. split; [destruct (a_item a); try discriminate T; reflexivity|]. exists n. split; [reflexivity|exact C1].
        * exists m. split; [exact EO|]. rewrite EI. split; intros (b & B & X); [exists b; split; [right; exact B|exact X]|]. destruct B as [<-|B]; [destruct X as [X _]; congruence|exists b; split; assumption].
      + destruct (fill rid ident q acts ids1 (if ident (a_item a) =? ident IEog then eogs ++ [q] else eogs)) as [[[ts1 ns1] ids2] eogs2] eqn:FL. injection H as <- <- <- <-.
        destruct (IH _ _ _ _ _ _ OK1 FL) as (OK2 & I2 & F2 & TS & NS & m & EO & EI). split; [exact OK2|]. split; [eapply incl_tran; eassumption|]. split; [|split; [exact TS|split]].
        * intros k v K. destruct (F2 k v K) as [K1|(b & B & K1)]; [|right; exists b; split; [right; exact B|exact K1]]. destruct (F1 k v K1) as [K2|[K2 K3]]; [left; exact K2|]. right. exists a. split; [left; reflexivity|auto].
        * constructor; [|exact NS]. apply (coded_incl ids1); [exact I2|]. split; [reflexivity|]. split; [destruct (a_item a); try discriminate T; reflexivity|]. exists n. split; [reflexivity|exact C1].
        * destruct (Z.eqb_spec (ident (a_item a)) (ident IEog)) as [E|N].
          -- exists (S m). rewrite EO. rewrite <- app_assoc. split; [reflexivity|]. split; [|lia]. intros _. exists a. split; [left; reflexivity|auto].
          -- exists m. split; [exact EO|]. rewrite EI. split; intros (b & B & X); [exists b; split; [right; exact B|exact X]|]. destruct B as [<-|B]; [destruct X as [_ X]; congruence|exists b; split; assumption].
  Qed.
  Lemma fill_states_spec actss : forall q ids eogs tss nss ids' eogs', ids_ok ids -> fill_states rid ident sort q actss ids eogs = (tss, nss, ids', eogs') ->
    ids_ok ids' /\ incl ids ids' /\ from_rules (concat actss) ids ids' /\
    Forall2 (fun acts l => exists ts, l = sort ts /\ Forall2 (coded ids') (filter (fun a => is_terminal (a_item a)) acts) ts) actss tss /\
    Forall2 (fun acts l => exists ns, l = sort ns /\ Forall2 (coded ids') (filter not_terminal acts) ns) actss nss /\
    exists l, eogs' = eogs ++ l /\ StronglySorted Z.le l /\ forall x, In x l <-> exists k acts, nth_error actss k = Some acts /\ x = q + Z.of_nat k /\ ends_guard acts.
  Proof.
    induction actss as [|acts actss IH]; intros q ids eogs tss nss ids' eogs' OK H; cbn [fill_states] in H.
    - injection H as <- <- <- <-. split; [exact OK|]. split; [apply incl_refl|]. split; [intros k v K; left; exact K|]. split; [constructor|]. split; [constructor|]. exists []. rewrite app_nil_r. split; [reflexivity|]. split; [constructor|]. intros x. split; [intros []|]. intros (k & acts & K & _). destruct k; discriminate K.
    - destruct (fill rid ident q acts ids eogs) as [[[ts ns] ids1] eogs1] eqn:FL. destruct (fill_states rid ident sort (q + 1) actss ids1 eogs1) as [[[tss1 nss1] ids2] eogs2] eqn:FS. injection H as <- <- <- <-.
      destruct (fill_spec _ _ _ _ _ _ _ _ OK FL) as (OK1 & I1 & F1 & T1 & N1 & n & E1 & EI). destruct (IH _ _ _ _ _ _ _ OK1 FS) as (OK2 & I2 & F2 & T2 & N2 & l & E2 & SL & L).
      split; [exact OK2|]. split; [eapply incl_tran; eassumption|]. split; [|split; [|split]].
      + intros k v K. cbn [concat]. destruct (F2 k v K) as [K1|(a & A & K1)]; [|right; exists a; split; [apply in_app_iff; right; exact A|exact K1]]. destruct (F1 k v K1) as [K2|(a & A & K2)]; [left; exact K2|]. right. exists a. split; [apply in_app_iff; left; exact A|exact K2].
      + constructor; [|exact T2]. exists ts. split; [reflexivity|]. eapply coded_all; eassumption.
      + constructor; [|exact N2]. exists ns. split; [reflexivity|]. eapply coded_all; eassumption.
      + exists (repeat q n ++ l). rewrite E2, E1, app_assoc. split; [reflexivity|]. split.
        * assert (GE : forall x, In x l -> q <= x) by (intros x X; apply L in X; destruct X as (k & ? & _ & -> & _); lia). clear -SL GE. induction n as [|n IH]; [exact SL|]. cbn [repeat app]. constructor; [exact IH|]. apply Forall_forall. intros x X. apply in_app_iff in X. destruct X as [X|X]; [apply repeat_spec in X; lia|apply GE, X].
        * intros x. rewrite in_app_iff. split.
          -- intros [X|X].
             ++ pose proof (repeat_spec _ _ _ X) as ->. exists 0%nat, acts. split; [reflexivity|]. split; [lia|]. apply EI. destruct n; [destruct X|lia].
             ++ apply L in X. destruct X as (k & acts' & K & -> & G). exists (S k), acts'. split; [exact K|]. split; [lia|exact G].
          -- intros (k & acts' & K & -> & G). destruct k as [|k].
             ++ left. cbn in K. injection K as ->. apply EI in G. destruct n; [lia|]. left. lia.
             ++ right. apply L. exists k, acts'. split; [exact K|]. split; [lia|exact G].
  Qed.
  Lemma fill_rules_spec ids : ids_ok ids -> length (fill_rules rid rule_of ident ids) = length ids /\ forall k n, In (k, n) ids -> nth_error (fill_rules rid rule_of ident ids) (Z.to_nat n) = Some (reduce_rule_of rid rule_of ident k).
  Proof.
    intros (S & R & I). unfold fill_rules. set (l0 := repeat no_reduce (length ids)). assert (L0 : length l0 = length ids) by apply repeat_length.
    assert (G : forall todo l, incl todo ids -> length l = length ids -> let l' := fold_left (fun l '(id, n) => vset (Z.to_nat n) (reduce_rule_of rid rule_of ident id) l) todo l in
      length l' = length ids /\ forall k n, In (k, n) ids -> In (k, n) todo \/ nth_error l (Z.to_nat n) = Some (reduce_rule_of rid rule_of ident k) -> nth_error l' (Z.to_nat n) = Some (reduce_rule_of rid rule_of ident k)).
    { induction todo as [|[id m] todo IH]; intros l IN LN; cbn [fold_left]; [split; [exact LN|]; intros k n _ [[]|H]; exact H|].
      specialize (IH (vset (Z.to_nat m) (reduce_rule_of rid rule_of ident id) l) (fun x X => IN x (or_intror X))). rewrite vset_length in IH. destruct (IH LN) as [A B]. split; [exact A|]. intros k n K H. apply (B k n K).
      assert (M : In (id, m) ids) by (apply IN; left; reflexivity). pose proof (R _ _ K) as RK. pose proof (R _ _ M) as RM. destruct (Z.eq_dec n m) as [->|N].
      - right. assert (k = id) by (eapply I; eassumption). subst. rewrite nth_vset, Nat.eqb_refl. destruct (nth_error l (Z.to_nat m)) eqn:E; [reflexivity|]. apply nth_error_None in E. lia.
      - destruct H as [[H|H]|H]; [congruence|left; exact H|]. right. rewrite nth_vset. destruct (Nat.eqb_spec (Z.to_nat n) (Z.to_nat m)); [lia|exact H]. }
    destruct (G ids l0 (incl_refl _) L0) as [A B]. split; [exact A|]. intros k n K. apply (B k n K). left. exact K.
  Qed.
  Lemma nil_ok : ids_ok [].
  Proof. split; [constructor|]. split; intros; contradiction. Qed.
End Make.

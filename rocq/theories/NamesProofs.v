(** Proofs about the names in generated source. *)
From Coq Require Import String Ascii Decimal DecimalNat DecimalFacts.
From Verif Require Import Base GrammarModel NamesModel NamesSpec.
Local Open Scope Z_scope.

(** ** Numbers *)
Lemma uint_codes_inj u v : uint_codes u = uint_codes v -> u = v.
Proof. revert v. induction u; destruct v; cbn; intros E; try discriminate; try reflexivity; injection E as E; f_equal; auto. Qed.
Lemma digits_inj n m : digits n = digits m -> n = m.
Proof. intros E. apply Unsigned.to_uint_inj, uint_codes_inj, E. Qed.
Lemma digits_nonempty n : digits n <> [].
Proof.
  unfold digits. rewrite <- (Unsigned.of_to n), Unsigned.to_of. generalize (Nat.to_uint n). intros d. unfold unorm. destruct (nzhead d); discriminate.
Qed.
Lemma uint_codes_digit u c : In c (uint_codes u) -> 48 <= c <= 57.
Proof. induction u; cbn; intros [<-|I] || intros []; try lia; auto. Qed.
Lemma digits_digit n c : In c (digits n) -> 48 <= c <= 57.
Proof. apply uint_codes_digit. Qed.

(** A name with a number can be taken apart in one way only. *)
Lemma number_split a n b m : a ++ 95 :: digits n = b ++ 95 :: digits m -> a = b /\ n = m.
Proof.
  intros E. assert (K : forall (a b u v : str), a ++ 95 :: u = b ++ 95 :: v -> (forall c, In c u -> 48 <= c <= 57) -> (forall c, In c v -> 48 <= c <= 57) -> a = b /\ u = v).
  { clear. induction a as [|x a IH]; intros [|y b] u v E U V; cbn in E.
    - injection E as ->. auto.
    - exfalso. injection E as <- ->. specialize (U 95). rewrite in_app_iff in U. cbn in U. lia.
    - exfalso. injection E as -> <-. specialize (V 95). rewrite in_app_iff in V. cbn in V. lia.
    - injection E as -> E. destruct (IH _ _ _ E U V) as [-> ->]. auto. }
  destruct (K _ _ _ _ E (digits_digit n) (digits_digit m)) as [-> D]. split; [reflexivity|]. apply digits_inj, D.
Qed.

(** ** Identifiers *)
Lemma chars_ok s : forallb (fun c => is_letter c || is_digit c || (c =? 95)) s = true -> Forall name_char s.
Proof.
  rewrite forallb_forall. intros H. apply Forall_forall. intros c I. apply H in I. unfold is_letter, is_digit in I. unfold name_char. lia.
Qed.
Lemma spelled_chars alone c : Forall name_char (spelled alone c).
Proof.
  assert (D : Forall name_char (codes "_")) by (apply chars_ok; reflexivity).
  unfold spelled. repeat match goal with |- Forall _ (match ?x with _ => _ end) => destruct x end; try exact D; apply chars_ok; reflexivity.
Qed.
Lemma spell_chars alone c : Forall name_char (spell alone c).
Proof.
  unfold spell. destruct (is_letter c || is_digit c) eqn:E; [|apply spelled_chars]. constructor; [|constructor]. unfold is_letter, is_digit in E. unfold name_char. lia.
Qed.
Lemma get_identifier_valid_lemma name : valid_identifier (get_identifier name).
Proof.
  unfold get_identifier. destruct name as [|c name]; [change (codes "_") with [95]; split; [lia|repeat constructor; unfold name_char; lia]|].
  generalize (unquote (c :: name)). intros s. generalize (Nat.eqb (length s) 1). intros alone. change (codes "yy_") with [121; 121; 95]. cbn [app].
  split; [lia|]. apply (Forall_app name_char [121; 121; 95]). split; [repeat constructor; unfold name_char; lia|].
  induction s as [|x s IH]; cbn [flat_map]; [constructor|]. apply Forall_app. split; [apply spell_chars|exact IH].
Qed.
Lemma numbered_valid s n : valid_identifier s -> valid_identifier (s ++ 95 :: digits n).
Proof.
  destruct s as [|c s]; cbn [valid_identifier app]; [tauto|]. intros [A B]. split; [exact A|]. apply (Forall_app name_char (c :: s)). split; [exact B|].
  constructor; [unfold name_char; lia|]. apply Forall_forall. intros x I. apply digits_digit in I. unfold name_char. lia.
Qed.

(** ** Constants *)
Lemma times_pos name seen : Nat.ltb 0 (times name seen) = true <-> In name seen.
Proof. rewrite Nat.ltb_lt. unfold times. symmetry. apply count_occ_In. Qed.
Lemma choose_name_None fuel seen count : forall name, choose_name fuel seen count name = None ->
  exists l, length l = S fuel /\ NoDup l /\ incl l seen /\ forall x, In x l -> (length name <= length x)%nat.
Proof.
  induction fuel as [|fuel IH]; intros name; cbn [choose_name]; destruct (Nat.ltb 0 (times name seen)) eqn:T; try discriminate; apply times_pos in T.
  - intros _. exists [name]. split; [reflexivity|]. split; [repeat constructor; intros []|]. split; [intros x [<-|[]]; exact T|]. intros x [<-|[]]. lia.
  - intros E. destruct (IH _ E) as (l & L & ND & I & LE). exists (name :: l). split; [cbn; lia|]. split; [|split].
    + constructor; [|exact ND]. intros X. apply LE in X. rewrite app_length in X. cbn in X. lia.
    + intros x [<-|X]; auto.
    + intros x [<-|X]; [lia|]. apply LE in X. rewrite app_length in X. cbn in X. lia.
Qed.
Lemma choose_name_some seen count name : exists n, choose_name (length seen) seen count name = Some n.
Proof.
  destruct (choose_name (length seen) seen count name) as [n|] eqn:E; [eauto|]. exfalso. apply choose_name_None in E. destruct E as (l & L & ND & I & _).
  pose proof (NoDup_incl_length ND I). lia.
Qed.
Lemma choose_name_fresh fuel seen count : forall name n, choose_name fuel seen count name = Some n -> ~ In n seen.
Proof.
  induction fuel as [|fuel IH]; intros name n; cbn [choose_name]; destruct (Nat.ltb 0 (times name seen)) eqn:T; try discriminate; intros E.
  - injection E as <-. intros I. apply times_pos in I. congruence.
  - eapply IH, E.
  - injection E as <-. intros I. apply times_pos in I. congruence.
Qed.
Lemma choose_name_valid fuel seen count : forall name n, choose_name fuel seen count name = Some n -> valid_identifier name -> valid_identifier n.
Proof.
  induction fuel as [|fuel IH]; intros name n; cbn [choose_name]; destruct (Nat.ltb 0 (times name seen)); try discriminate; intros E V.
  - injection E as <-. exact V.
  - eapply IH; [exact E|]. apply numbered_valid, V.
  - injection E as <-. exact V.
Qed.
Lemma constants_some shorts : forall seen, exists names, constants seen shorts = Some names /\ length names = length shorts /\ (Forall valid_identifier shorts -> Forall valid_identifier names).
Proof.
  induction shorts as [|s shorts IH]; intros seen; cbn [constants].
  - exists []. auto.
  - destruct (choose_name_some seen (times s seen) s) as [n E]. destruct (IH (seen ++ [s])) as (ns & E' & L & V). rewrite E, E'. exists (n :: ns). split; [reflexivity|]. split; [cbn; congruence|].
    intros F. inversion F; subst. constructor; auto. eapply choose_name_valid; eassumption.
Qed.

(** With no short name that is another one with a number, a constant is the short name, with the number of
    those before it unless it is the first. *)
Definition constant (s : str) (k : nat) : str := match k with O => s | S _ => s ++ 95 :: digits k end.
Lemma choose_plain seen s (all : list str) : incl seen all -> In s all -> (forall a b, In a all -> In b all -> ~ numbered a b) ->
  choose_name (length seen) seen (times s seen) s = Some (constant s (times s seen)).
Proof.
  intros I SI NN. destruct (length seen) as [|fuel] eqn:L; cbn [choose_name].
  - destruct seen; [|discriminate]. reflexivity.
  - destruct (Nat.ltb 0 (times s seen)) eqn:T.
    + destruct (times s seen) as [|k] eqn:K; [discriminate|]. cbn [constant].
      assert (N : Nat.ltb 0 (times (s ++ 95 :: digits (S k)) seen) = false).
      { apply not_true_is_false. intros X. apply times_pos in X. apply (NN s (s ++ 95 :: digits (S k))); [exact SI|apply I, X|]. exists (S k). reflexivity. }
      destruct fuel; cbn [choose_name]; rewrite N; reflexivity.
    + destruct (times s seen); [reflexivity|discriminate].
Qed.
Lemma constants_in shorts : forall seen all names, incl (seen ++ shorts) all -> (forall a b, In a all -> In b all -> ~ numbered a b) ->
  constants seen shorts = Some names -> forall n, In n names -> exists s k, In s shorts /\ n = constant s k /\ (times s seen <= k)%nat.
Proof.
  induction shorts as [|s shorts IH]; intros seen all names I NN E n IN; cbn [constants] in E.
  - injection E as <-. destruct IN.
  - rewrite (choose_plain seen s all) in E; [|intros x X; apply I, in_app_iff; auto|apply I, in_app_iff; cbn; auto|exact NN].
    destruct (constants (seen ++ [s]) shorts) as [ns|] eqn:E'; [|discriminate]. injection E as <-. destruct IN as [<-|IN].
    + exists s, (times s seen). cbn. auto.
    + destruct (IH (seen ++ [s]) all ns) with (n := n) as (s' & k & A & B & C); auto.
      * rewrite <- app_assoc. exact I.
      * exists s', k. split; [cbn; auto|]. split; [exact B|]. unfold times in *. rewrite count_occ_app in C. lia.
Qed.
Lemma constant_inj s k s' k' : ~ numbered s s' -> ~ numbered s' s -> constant s k = constant s' k' -> s = s' /\ k = k'.
Proof.
  intros A B E. destruct k, k'; cbn [constant] in E.
  - auto.
  - exfalso. apply B. exists (S k'). exact E.
  - exfalso. apply A. exists (S k). auto.
  - apply number_split in E. exact E.
Qed.
Lemma constants_distinct shorts : forall seen all names, incl (seen ++ shorts) all -> (forall a b, In a all -> In b all -> ~ numbered a b) ->
  constants seen shorts = Some names -> NoDup names.
Proof.
  induction shorts as [|s shorts IH]; intros seen all names I NN E; cbn [constants] in E.
  - injection E as <-. constructor.
  - rewrite (choose_plain seen s all) in E; [|intros x X; apply I, in_app_iff; auto|apply I, in_app_iff; cbn; auto|exact NN].
    destruct (constants (seen ++ [s]) shorts) as [ns|] eqn:E'; [|discriminate]. injection E as <-.
    assert (I' : incl ((seen ++ [s]) ++ shorts) all) by (rewrite <- app_assoc; exact I).
    constructor; [|eapply IH; eassumption]. intros X. destruct (constants_in _ _ _ _ I' NN E' _ X) as (s' & k & A & B & C).
    assert (S1 : In s all) by (apply I, in_app_iff; cbn; auto). assert (S2 : In s' all) by (apply I, in_app_iff; cbn; auto).
    apply constant_inj in B; [|auto|auto]. destruct B as [<- <-]. unfold times in C. rewrite count_occ_app in C. cbn in C. destruct (str_eq_dec s s); [lia|congruence].
Qed.

(** ** Variants *)
Lemma variant_inj base v w : (1 <= v)%nat -> (1 <= w)%nat -> variant_of base v = variant_of base w -> v = w.
Proof.
  unfold variant_of. intros A B. destruct (Nat.ltb_spec 1 v), (Nat.ltb_spec 1 w); intros E; try lia.
  - apply app_inv_head in E. injection E as E. apply digits_inj, E.
  - exfalso. apply (f_equal (@length Z)) in E. rewrite app_length in E. cbn in E. lia.
  - exfalso. apply (f_equal (@length Z)) in E. rewrite app_length in E. cbn in E. lia.
Qed.
Lemma free_variant_None fuel taken base : forall v, (1 <= v)%nat -> free_variant fuel taken base v = None ->
  exists l, length l = S fuel /\ NoDup l /\ (forall x, In x l -> taken x = true /\ exists w, (v <= w)%nat /\ x = variant_of base w).
Proof.
  induction fuel as [|fuel IH]; intros v V; cbn [free_variant]; destruct (taken (variant_of base v)) eqn:T; try discriminate.
  - intros _. exists [variant_of base v]. split; [reflexivity|]. split; [repeat constructor; intros []|]. intros x [<-|[]]. eauto.
  - intros E. destruct (IH (S v)) as (l & L & ND & P); [lia|exact E|]. exists (variant_of base v :: l). split; [cbn; lia|]. split.
    + constructor; [|exact ND]. intros X. destruct (P _ X) as (_ & w & W & E'). apply variant_inj in E'; lia.
    + intros x [<-|X]; [eauto|]. destruct (P _ X) as (A & w & W & E'). split; [exact A|]. exists w. split; [lia|exact E'].
Qed.
Lemma free_variant_fresh fuel taken base : forall v n, free_variant fuel taken base v = Some n -> taken n = false /\ exists w, (v <= w)%nat /\ n = variant_of base w.
Proof.
  induction fuel as [|fuel IH]; intros v n; cbn [free_variant]; destruct (taken (variant_of base v)) eqn:T; try discriminate; intros E.
  - injection E as <-. eauto.
  - destruct (IH _ _ E) as (A & w & W & B). split; [exact A|]. exists w. split; [lia|exact B].
  - injection E as <-. eauto.
Qed.
Lemma used_in n l : used n l = true <-> In n l.
Proof.
  unfold used. rewrite existsb_exists. split.
  - intros (x & I & E). unfold str_eqb in E. destruct (str_eq_dec n x); [subst; exact I|discriminate].
  - intros I. exists n. split; [exact I|]. unfold str_eqb. destruct (str_eq_dec n n); congruence.
Qed.
Lemma variant_nonempty base w : base <> [] -> variant_of base w <> [].
Proof. unfold variant_of. intros N. destruct (Nat.ltb 1 w); [|exact N]. destruct base; discriminate. Qed.
Lemma free_variant_some taken l base : (forall w, taken (variant_of base w) = true -> In (variant_of base w) l) ->
  exists n, free_variant (S (length l)) taken base 1 = Some n /\ taken n = false /\ exists w, (1 <= w)%nat /\ n = variant_of base w.
Proof.
  intros T. destruct (free_variant (S (length l)) taken base 1) as [n|] eqn:E.
  - exists n. split; [reflexivity|]. eapply free_variant_fresh, E.
  - exfalso. apply free_variant_None in E; [|lia]. destruct E as (k & L & ND & P). assert (I : incl k l) by (intros x X; destruct (P x X) as (A & w & _ & ->); auto).
    pose proof (NoDup_incl_length ND I). lia.
Qed.

Section Items.
  Context (terminal_name nonterminal_name : Z -> str).
  Notation name_for_item := (name_for_item terminal_name nonterminal_name).
  Lemma nonempty_spec n : nonempty n <> [].
  Proof. destruct n; discriminate. Qed.
  Lemma name_for_item_nonempty i : name_for_item i <> [].
  Proof. destruct i; apply nonempty_spec. Qed.
  Definition base_name (x : item * str) : str := match snd x with [] => name_for_item (fst x) | _ :: _ => snd x end.
  Lemma unique_names_lemma items : forall taken, exists names, unique_names terminal_name nonterminal_name taken items = Some names /\ length names = length items /\
    NoDup names /\ (forall n, In n names -> n <> [] /\ ~ In n taken) /\
    Forall2 (fun x n => n = base_name x \/ numbered (base_name x) n) items names.
  Proof.
    induction items as [|[i given] items IH]; intros taken; cbn [unique_names].
    - exists []. split; [reflexivity|]. split; [reflexivity|]. split; [constructor|]. split; [intros n []|constructor].
    - set (base := match given with [] => name_for_item i | _ :: _ => given end).
      assert (B : base <> []) by (unfold base; destruct given; [apply name_for_item_nonempty|discriminate]).
      destruct (free_variant_some (fun n => used n taken || match n with [] => true | _ :: _ => false end) taken base) as (n & E & F & w & W & V).
      { intros w T. apply orb_true_iff in T. destruct T as [T|T]; [apply used_in, T|]. pose proof (variant_nonempty base w B). destruct (variant_of base w); congruence. }
      rewrite E. apply orb_false_iff in F. destruct F as [F1 F2]. assert (NI : ~ In n taken) by (intros X; apply used_in in X; congruence).
      destruct (IH (n :: taken)) as (ns & E' & L & ND & P & Q). rewrite E'. exists (n :: ns). split; [reflexivity|]. split; [cbn; congruence|]. split; [|split].
      + constructor; [|exact ND]. intros X. apply P in X. apply (proj2 X). left. reflexivity.
      + intros x [<-|X]; [split; [rewrite V; apply variant_nonempty, B|exact NI]|]. destruct (P x X) as [A C]. split; [exact A|]. intros Y. apply C. right. exact Y.
      + constructor; [|exact Q]. change (base_name (i, given)) with base. rewrite V. unfold variant_of. destruct (Nat.ltb 1 w); [right; exists w; reflexivity|left; reflexivity].
  Qed.

  (** ** Classes *)
  Context (ident : item -> Z).
  Notation class_name := (class_name terminal_name nonterminal_name ident). Notation class_names_for := (class_names_for terminal_name nonterminal_name ident).
  Record classes_ok (base : list str) (st : class_names) : Prop := {
    ok_used : forall n s, In (n, s) (cn_items st) -> In s (cn_used st) /\ ~ In s base /\ valid_identifier s;
    ok_base : incl base (cn_used st);
    ok_unique : forall n s n' s', In (n, s) (cn_items st) -> In (n', s') (cn_items st) -> n = n' <-> s = s' }.
  Lemma lookup_in n l s : lookup n l = Some s -> In (n, s) l.
  Proof. induction l as [|[k t] l IH]; cbn; [discriminate|]. destruct (Z.eqb_spec k n) as [->|]; [intros E; injection E as ->; auto|auto]. Qed.
  Lemma lookup_none n l : lookup n l = None -> forall s, ~ In (n, s) l.
  Proof. induction l as [|[k t] l IH]; cbn; [intros _ s []|]. destruct (Z.eqb_spec k n) as [->|N]; [discriminate|]. intros E s [X|X]; [congruence|eapply IH; eassumption]. Qed.
  Lemma variant_valid base w : valid_identifier base -> valid_identifier (variant_of base w).
  Proof. unfold variant_of. destruct (Nat.ltb 1 w); [apply numbered_valid|auto]. Qed.
  Lemma class_name_lemma base i st : classes_ok base st -> exists s st', class_name i st = Some (s, st') /\ classes_ok base st' /\
    In (ident i, s) (cn_items st') /\ incl (cn_items st) (cn_items st').
  Proof.
    intros OK. unfold NamesModel.class_name. destruct (lookup (ident i) (cn_items st)) as [s|] eqn:L.
    - exists s, st. split; [reflexivity|]. split; [exact OK|]. split; [apply lookup_in, L|apply incl_refl].
    - destruct (free_variant_some (fun n => used n (cn_used st)) (cn_used st) (get_identifier (name_for_item i))) as (s & E & F & w & W & V); [intros w T; apply used_in, T|].
      assert (NU : ~ In s (cn_used st)) by (intros X; apply used_in in X; congruence). pose proof (lookup_none _ _ L) as NL.
      rewrite E. exists s, (mkClasses ((ident i, s) :: cn_items st) (s :: cn_used st)). split; [reflexivity|]. split; [|split; [left; reflexivity|intros x X; right; exact X]].
      constructor; cbn [cn_items cn_used].
      + intros n t [X|X]; [injection X as <- <-|].
        * split; [left; reflexivity|]. split; [intros Y; apply NU, (ok_base _ _ OK), Y|]. rewrite V. apply variant_valid, get_identifier_valid_lemma.
        * destruct (ok_used _ _ OK _ _ X) as (A & B). split; [right; exact A|exact B].
      + intros x X. right. apply (ok_base _ _ OK), X.
      + intros n t n' t' [X|X] [Y|Y].
        * injection X as <- <-. injection Y as <- <-. tauto.
        * injection X as <- <-. split; intros <-; exfalso; [eapply NL, Y|apply NU, (ok_used _ _ OK _ _ Y)].
        * injection Y as <- <-. split; intros ->; exfalso; [eapply NL, X|apply NU, (ok_used _ _ OK _ _ X)].
        * apply (ok_unique _ _ OK); assumption.
  Qed.
  Lemma class_names_for_lemma base items : forall st, classes_ok base st -> exists names st', class_names_for items st = Some (names, st') /\ classes_ok base st' /\
    incl (cn_items st) (cn_items st') /\ Forall2 (fun i s => In (ident i, s) (cn_items st')) items names.
  Proof.
    induction items as [|i items IH]; intros st OK; cbn [NamesModel.class_names_for].
    - exists [], st. split; [reflexivity|]. split; [exact OK|]. split; [apply incl_refl|constructor].
    - destruct (class_name_lemma base i st OK) as (s & st1 & E & OK1 & I1 & J1). rewrite E. destruct (IH st1 OK1) as (ss & st2 & E2 & OK2 & J2 & F2). rewrite E2.
      exists (s :: ss), st2. split; [reflexivity|]. split; [exact OK2|]. split; [eapply incl_tran; eassumption|]. constructor; [apply J2, I1|exact F2].
  Qed.
  Lemma classes_start base : classes_ok base (mkClasses [] base).
  Proof. constructor; cbn; [intros n s []|apply incl_refl|intros n s n' s' []]. Qed.
End Items.

(** The suffixes *)
Lemma last_app_nonempty {A} (a b : list A) d : b <> [] -> last (a ++ b) d = last b d.
Proof. intros N. induction a as [|x a IH]; [reflexivity|]. cbn [app]. destruct (a ++ b) as [|y l] eqn:E; [destruct a; [cbn in E; congruence|discriminate]|]. cbn [last]. exact IH. Qed.
Lemma type_not_content a b : a ++ type_suffix = b ++ type_suffix ++ content_suffix -> False.
Proof. intros E. apply (f_equal (fun s => last s 0)) in E. rewrite last_app_nonempty in E by discriminate. rewrite app_assoc, last_app_nonempty in E by discriminate. vm_compute in E. discriminate. Qed.
Lemma classes_of_name i a x : In x (classes_of i a) -> x = a ++ type_suffix \/ x = a ++ type_suffix ++ content_suffix.
Proof. destruct i as [| | |s|n|p g|k rs]; [..|destruct k]; cbn [classes_of In]; intuition. Qed.
Lemma classes_of_disjoint i a j b x : In x (classes_of i a) -> In x (classes_of j b) -> a = b.
Proof.
  intros X Y. apply classes_of_name in X. apply classes_of_name in Y. destruct X as [-> | ->], Y as [E|E].
  - apply app_inv_tail in E. exact E.
  - exfalso. eapply type_not_content, E.
  - exfalso. eapply type_not_content. symmetry. exact E.
  - apply app_inv_tail in E. exact E.
Qed.
Lemma classes_of_nodup i a : NoDup (classes_of i a).
Proof.
  assert (D : a ++ type_suffix <> a ++ type_suffix ++ content_suffix) by (intros E; eapply type_not_content, E).
  destruct i as [| | |s|n|p g|k rs]; [..|destruct k]; cbn [classes_of]; repeat constructor; cbn; intuition.
Qed.
Lemma suffixed_valid a s : valid_identifier a -> Forall name_char s -> valid_identifier (a ++ s).
Proof. destruct a as [|c a]; cbn [valid_identifier app]; [tauto|]. intros [A B] S. split; [exact A|]. apply (Forall_app name_char (c :: a)). split; assumption. Qed.

(** Proofs about the console. *)
From Coq Require Import String.
From Verif Require Import Base NamesModel NamesProofs ConsoleModel ConsoleSpec.
Local Open Scope list_scope.
Local Open Scope Z_scope.

(** ** Taking texts apart *)
Lemma first_split (c : Z) : forall a b u v, ~ In c a -> ~ In c b -> a ++ c :: u = b ++ c :: v -> a = b /\ u = v.
Proof.
  induction a as [|x a IH]; intros [|y b] u v NA NB E; cbn in E.
  - injection E as ->. auto.
  - injection E as -> _. exfalso. apply NB. left. reflexivity.
  - injection E as -> _. exfalso. apply NA. left. reflexivity.
  - injection E as -> E. destruct (IH b u v) as [-> ->]; [intros I; apply NA; right; exact I|intros I; apply NB; right; exact I|exact E|auto].
Qed.
Lemma last_split (c : Z) : forall a b u v, ~ In c u -> ~ In c v -> a ++ c :: u = b ++ c :: v -> a = b /\ u = v.
Proof.
  induction a as [|x a IH]; intros [|y b] u v NU NV E; cbn in E.
  - injection E as ->. auto.
  - injection E as _ ->. exfalso. apply NU. apply in_app_iff. right. left. reflexivity.
  - injection E as _ <-. exfalso. apply NV. apply in_app_iff. right. left. reflexivity.
  - injection E as -> E. destruct (IH b u v NU NV E) as [-> ->]. auto.
Qed.
Lemma pair_split : forall q r u v, ~ has_pair 58 32 q -> ~ has_pair 58 32 r -> q ++ 58 :: 32 :: u = r ++ 58 :: 32 :: v -> q = r /\ u = v.
Proof.
  assert (T : forall x l, ~ has_pair 58 32 (x :: l) -> ~ has_pair 58 32 l) by (intros x l N (a & b & ->); apply N; exists (x :: a), b; reflexivity).
  induction q as [|x q IH]; intros [|y r] u v NQ NR E; cbn [app] in E.
  - injection E as ->. auto.
  - exfalso. injection E as <- E. destruct r as [|z r]; cbn in E; [discriminate|]. injection E as <- _. apply NR. exists [], r. reflexivity.
  - exfalso. injection E as -> E. destruct q as [|z q]; cbn in E; [discriminate|]. injection E as -> _. apply NQ. exists [], q. reflexivity.
  - injection E as -> E. destruct (IH r u v (T _ _ NQ) (T _ _ NR) E) as [-> ->]. auto.
Qed.
Lemma pair_app f y : ~ In 32 y -> has_pair 58 32 (f ++ y) -> has_pair 58 32 f.
Proof.
  intros N. induction f as [|x f IH]; intros (a & b & E).
  - cbn in E. exfalso. apply N. rewrite E. apply in_app_iff. right. right. left. reflexivity.
  - destruct a as [|z a]; cbn in E.
    + injection E as -> E. destruct f as [|z f]; cbn in E; [exfalso; apply N; rewrite E; left; reflexivity|]. injection E as -> _. exists [], f. reflexivity.
    + injection E as -> E. destruct IH as (a' & b' & ->); [exists a, b; exact E|]. exists (z :: a'), b'. reflexivity.
Qed.

(** ** The parts of a line *)
Definition number (n : Z) : str := if 0 <=? n then digits (Z.to_nat (n + 1)) else [].
Definition rest (codes : bool) (m : message) : str := show_sev (m_sev m) ++ (if codes then 32 :: 91 :: m_id m ++ [93] else []) ++ 32 :: m_text m.
Definition head (m : message) : str := (m_file m ++ 58 :: number (m_line m)) ++ 58 :: number (m_column m).
Lemma show_parts o m : show_message o m = (head m ++ 58 :: rest (o_show_codes o) m) ++ [10].
Proof.
  unfold show_message, head, rest. assert (F : match m_file m with [] => [58] | f => f ++ [58] end = m_file m ++ [58]) by (destruct (m_file m); reflexivity). rewrite F.
  assert (P : forall n, show_place n = number n ++ [58]) by (intros n; unfold show_place, number; destruct (0 <=? n); reflexivity). rewrite !P.
  destruct (o_show_codes o); cbn; repeat (rewrite <- !app_assoc; cbn [app]); reflexivity.
Qed.
Lemma number_digit n c : In c (number n) -> 48 <= c <= 57.
Proof. unfold number. destruct (0 <=? n); [apply digits_digit|intros []]. Qed.
Lemma number_place n k : number n = number k -> place n = place k.
Proof.
  unfold number, place. destruct (0 <=? n) eqn:A, (0 <=? k) eqn:B; intros E.
  - apply digits_inj in E. apply Z.leb_le in A, B. destruct (Z.ltb_spec n 0), (Z.ltb_spec k 0); try lia. f_equal. lia.
  - destruct (digits_nonempty _ E).
  - symmetry in E. destruct (digits_nonempty _ E).
  - apply Z.leb_gt in A, B. destruct (Z.ltb_spec n 0), (Z.ltb_spec k 0); try lia. reflexivity.
Qed.
Lemma rest_space codes m : exists t, rest codes m = 32 :: t.
Proof. unfold rest. destruct (m_sev m), codes; cbn; eexists; reflexivity. Qed.
Lemma line_free o m : plain m -> ~ In 10 (head m ++ 58 :: rest (o_show_codes o) m).
Proof.
  intros (A & B & C & _). unfold head, rest. intros I. repeat (rewrite in_app_iff in I || cbn [In] in I).
  destruct I as [[[I|[I|I]]|[I|I]]|[I|[I|[I|[I|I]]]]]; try discriminate; try contradiction; try (apply number_digit in I; lia).
  - destruct (m_sev m); cbn in I; repeat (destruct I as [I|I]; [discriminate|]); destruct I.
  - destruct (o_show_codes o); [|destruct I]. repeat (rewrite in_app_iff in I || cbn [In] in I). destruct I as [I|[I|[I|[I|[]]]]]; try discriminate. contradiction.
Qed.
Lemma head_pair m : plain m -> ~ has_pair 58 32 (head m).
Proof.
  intros (_ & _ & _ & A & _) H. unfold head in H. rewrite <- app_assoc in H. apply pair_app in H; [exact (A H)|].
  intros I. cbn in I. repeat (rewrite in_app_iff in I || cbn [In] in I). destruct I as [I|[I|[I|I]]]; try discriminate; apply number_digit in I; lia.
Qed.

(** What a line tells about a message, but for the severity *)
Definition same_place (a b : message) : Prop := m_file a = m_file b /\ place (m_line a) = place (m_line b) /\ place (m_column a) = place (m_column b).
Lemma line_split codes a b : plain a -> plain b -> head a ++ 58 :: rest codes a = head b ++ 58 :: rest codes b -> same_place a b /\ rest codes a = rest codes b.
Proof.
  intros PA PB E. destruct (rest_space codes a) as (ta & RA), (rest_space codes b) as (tb & RB). rewrite RA, RB in *.
  destruct (pair_split _ _ _ _ (head_pair a PA) (head_pair b PB) E) as [H ->]. split; [|reflexivity]. unfold head in H.
  assert (N : forall n, ~ In 58 (number n)) by (intros n I; apply number_digit in I; lia).
  apply last_split in H as [H C]; [|apply N|apply N]. apply last_split in H as [H L]; [|apply N|apply N]. repeat split; [exact H|apply number_place, L|apply number_place, C].
Qed.
Lemma rest_told codes a b : plain a -> plain b -> problem (m_sev a) -> problem (m_sev b) -> rest codes a = rest codes b ->
  m_sev a = m_sev b /\ (codes = true -> m_id a = m_id b) /\ m_text a = m_text b.
Proof.
  intros PA PB SA SB E. assert (S : m_sev a = m_sev b).
  { unfold rest in E. destruct SA as [SA|[SA|[SA|[SA|SA]]]], SB as [SB|[SB|[SB|[SB|SB]]]]; rewrite SA, SB in E |- *; try reflexivity; exfalso; destruct codes; cbn in E; discriminate E. }
  split; [exact S|]. unfold rest in E. rewrite S in E. apply app_inv_head in E. destruct codes; cbn [app] in E.
  - injection E as E. rewrite <- !app_assoc in E. cbn [app] in E. apply first_split in E as [E T]; [|apply PA|apply PB]. injection T as T. auto.
  - injection E as E. split; [discriminate|exact E].
Qed.

(** ** Numbers and lines as they should be *)
Lemma uint_value u : forall acc, fold_left (fun v c => 10 * v + (c - 48)) (uint_codes u) (Z.of_nat acc) = Z.of_nat (Nat.of_uint_acc u acc).
Proof.
  assert (M : forall acc, Z.of_nat (Nat.tail_mul 10 acc) = 10 * Z.of_nat acc) by (intros acc; pose proof (Nat.tail_mul_spec 10 acc) as X; rewrite X; lia).
  induction u; intros acc; [reflexivity|..]; cbn [uint_codes fold_left Nat.of_uint_acc]; rewrite <- IHu; f_equal; rewrite ?Nat2Z.inj_succ, M; lia.
Qed.
Lemma digits_decimal n : (0 < n)%nat -> decimal (Z.of_nat n) (digits n).
Proof.
  intros P. split; [|split].
  - apply Forall_forall. intros c. apply digits_digit.
  - unfold digits. etransitivity; [exact (uint_value (Nat.to_uint n) 0)|]. f_equal. apply DecimalNat.Unsigned.of_to.
  - unfold digits. assert (E : Decimal.unorm (Nat.to_uint n) = Nat.to_uint n).
    { rewrite <- DecimalNat.Unsigned.to_of, DecimalNat.Unsigned.of_to. reflexivity. }
    destruct (Nat.to_uint n) as [|u|u|u|u|u|u|u|u|u|u] eqn:U; cbn; try discriminate. exfalso.
    unfold Decimal.unorm in E. cbn in E. pose proof (DecimalFacts.nzhead_nonzero u) as NZ. destruct (Decimal.nzhead u) as [|v|v|v|v|v|v|v|v|v|v] eqn:V; try discriminate E.
    + injection E as <-. pose proof (DecimalNat.Unsigned.of_to n) as X. rewrite U in X. cbn in X. lia.
    + apply (NZ v). reflexivity.
Qed.
Lemma place_decimal n : exists d, show_place n = d ++ [58] /\ place_text (place n) d.
Proof.
  unfold show_place, place. destruct (Z.leb_spec 0 n), (Z.ltb_spec n 0); try lia.
  - exists (digits (Z.to_nat (n + 1))). split; [reflexivity|]. cbn. replace (n + 1) with (Z.of_nat (Z.to_nat (n + 1))) at 1 by lia. apply digits_decimal. lia.
  - exists []. split; reflexivity.
Qed.
Lemma show_lemma o m : line_text (told (o_show_codes o) m) (show_message o m).
Proof.
  unfold show_message. assert (F : match m_file m with [] => [58] | f => f ++ [58] end = m_file m ++ [58]) by (destruct (m_file m); reflexivity). rewrite F.
  destruct (place_decimal (m_line m)) as (l & -> & L), (place_decimal (m_column m)) as (c & -> & C).
  assert (K : exists mark, marked (m_sev m) mark /\ show_sev (m_sev m) = codes mark) by (destruct (m_sev m); eexists; (split; [constructor|reflexivity])). destruct K as (mark & K & ->).
  exists l, c, mark. split; [exact L|]. split; [exact C|]. split; [exact K|]. unfold told. cbn [s_file s_id s_text s_sev]. rewrite <- !app_assoc. destruct (o_show_codes o); reflexivity.
Qed.
Lemma shown_lemma o ms : exists lines, Forall2 line_text (map (told (o_show_codes o)) ms) lines /\ concat (map (show_message o) ms) = concat lines.
Proof.
  exists (map (show_message o) ms). split; [|reflexivity]. induction ms as [|m ms IH]; constructor; [apply show_lemma|exact IH].
Qed.

(** ** Texts of several lines *)
Lemma lines_split o : forall l k, Forall plain l -> Forall plain k -> concat (map (show_message o) l) = concat (map (show_message o) k) ->
  Forall2 (fun a b => head a ++ 58 :: rest (o_show_codes o) a = head b ++ 58 :: rest (o_show_codes o) b) l k.
Proof.
  induction l as [|a l IH]; intros [|b k] PL PK E; cbn [map concat] in E; rewrite ?show_parts in E.
  - constructor.
  - exfalso. destruct (head b); discriminate E.
  - exfalso. destruct (head a); discriminate E.
  - apply Forall_cons_iff in PL as (PA & PL). apply Forall_cons_iff in PK as (PB & PK). rewrite <- !(app_assoc _ [10]) in E. cbn [app] in E.
    apply first_split in E as [E F]; [|apply line_free, PA|apply line_free, PB]. constructor; [exact E|]. apply IH; [exact PL|exact PK|exact F].
Qed.

(** ** What is shown *)
Definition on_err (o : settings) (m : message) : Prop := problem (m_sev m) /\ (o_suppress_warnings o = true -> m_sev m <> SevWarning).
Definition on_out (o : settings) (m : message) : Prop := remark (m_sev m) /\ o_verbose o = true /\ o_suppress_warnings o = false.
Lemma report_cases o m c :
  let c' := report_error o m c in
  ((on_err o m /\ c_err c' = c_err c ++ show_message o m) \/ (~ on_err o m /\ c_err c' = c_err c)) /\
  ((on_out o m /\ c_out c' = c_out c ++ show_message o m) \/ (~ on_out o m /\ c_out c' = c_out c)) /\
  ((serious (m_sev m) /\ c_exit c' = sev_number (m_sev m)) \/ (~ serious (m_sev m) /\ c_exit c' = c_exit c)).
Proof.
  unfold report_error, on_err, on_out, problem, remark, serious. destruct (m_sev m), (o_suppress_warnings o), (o_verbose o); cbn; repeat split; intuition discriminate.
Qed.
Lemma report_lemma o : forall ms c, exists err out, picks (on_err o) ms err /\ picks (on_out o) ms out /\
  c_err (fold_left (fun c m => report_error o m c) ms c) = c_err c ++ concat (map (show_message o) err) /\
  c_out (fold_left (fun c m => report_error o m c) ms c) = c_out c ++ concat (map (show_message o) out).
Proof.
  induction ms as [|m ms IH]; intros c.
  - exists [], []. cbn. rewrite !app_nil_r. repeat split; constructor.
  - cbn [fold_left]. destruct (IH (report_error o m c)) as (err & out & PE & PO & -> & ->). destruct (report_cases o m c) as (E & O & _).
    destruct E as [[E ->]|[E ->]], O as [[O ->]|[O ->]].
    + exists (m :: err), (m :: out). cbn [map concat]. rewrite <- !app_assoc. split; [constructor; assumption|]. split; [constructor; assumption|]. auto.
    + exists (m :: err), out. cbn [map concat]. rewrite <- !app_assoc. split; [constructor; assumption|]. split; [apply picks_leave; assumption|]. auto.
    + exists err, (m :: out). cbn [map concat]. rewrite <- !app_assoc. split; [apply picks_leave; assumption|]. split; [constructor; assumption|]. auto.
    + exists err, out. split; [apply picks_leave; assumption|]. split; [apply picks_leave; assumption|]. auto.
Qed.
Lemma picks_all P ms l : picks P ms l -> Forall P l.
Proof. induction 1; auto. Qed.
Lemma picks_from P ms l Q : picks P ms l -> Forall Q ms -> Forall Q l.
Proof. induction 1; intros F; [constructor| |]; apply Forall_cons_iff in F as (A & B); auto. Qed.
Lemma picks_same P ms : forall l k, picks P ms l -> picks P ms k -> l = k.
Proof.
  induction ms as [|m ms IH]; intros l k A B.
  - inversion A; inversion B; reflexivity.
  - inversion A; inversion B; subst; try contradiction; try (f_equal; auto); auto.
Qed.

(** ** The exit code *)
Lemma exit_lemma o : forall ms c, (c_exit (fold_left (fun c m => report_error o m c) ms c) = c_exit c /\ forall m, In m ms -> ~ serious (m_sev m)) \/
  exists a m b, ms = a ++ m :: b /\ serious (m_sev m) /\ (forall x, In x b -> ~ serious (m_sev x)) /\ c_exit (fold_left (fun c m => report_error o m c) ms c) = sev_number (m_sev m).
Proof.
  induction ms as [|m ms IH]; intros c.
  - left. split; [reflexivity|]. intros m [].
  - cbn [fold_left]. destruct (IH (report_error o m c)) as [[E N]|(a & x & b & -> & S & N & E)].
    + destruct (report_cases o m c) as (_ & _ & [[S X]|[S X]]).
      * right. exists [], m, ms. rewrite E. auto.
      * left. rewrite E. split; [exact X|]. intros y [<-|I]; auto.
    + right. exists (m :: a), x, b. auto.
Qed.

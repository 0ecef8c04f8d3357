(** Proofs about the example that formats JSON. *)
From Coq Require Import String.
From Verif Require Import Base NamesModel JsonModel JsonSpec.
Local Open Scope list_scope.
Local Open Scope Z_scope.

Scheme value_mut := Induction for value Sort Prop with pairs_mut := Induction for pairs Sort Prop with vals_mut := Induction for vals Sort Prop.
Combined Scheme json_ind from value_mut, pairs_mut, vals_mut.

(** ** Strings end at one place *)
Lemma chars_split a : chars a -> forall b r r', chars b -> a ++ 34 :: r = b ++ 34 :: r' -> a = b.
Proof.
  induction 1 as [|c s N1 N2 C IH|c s I C IH|x y z u s H1 H2 H3 H4 C IH]; intros b r r' B E; inversion B as [|c' s' M1 M2 C' EB|c' s' I' C' EB|x' y' z' u' s' K1 K2 K3 K4 C' EB]; subst b; cbn [app] in E.
  all: try discriminate E; try reflexivity; try (exfalso; injection E; intros; congruence).
  - injection E as -> E. f_equal. exact (IH _ _ _ C' E).
  - injection E as -> E. do 2 f_equal. exact (IH _ _ _ C' E).
  - exfalso. injection E as -> _. vm_compute in I. intuition discriminate.
  - exfalso. injection E as <- _. vm_compute in I'. intuition discriminate.
  - injection E as -> -> -> -> E. do 6 f_equal. exact (IH _ _ _ C' E).
Qed.
Lemma string_split w w' r r' : string_text w -> string_text w' -> w ++ r = w' ++ r' -> w = w'.
Proof.
  intros (a & A & ->) (b & B & ->) E. cbn [app] in E. injection E as E. rewrite <- !app_assoc in E. cbn [app] in E. rewrite (chars_split a A b _ _ B E). reflexivity.
Qed.

(** ** Numbers: what can follow what *)
Definition next_to (a b : Z) : Prop := digit a \/ digit b \/ ((a = 101 \/ a = 69) /\ (b = 43 \/ b = 45)).
Fixpoint joined (s : str) : Prop := match s with a :: ((b :: _) as t) => next_to a b /\ joined t | _ => True end.
Lemma joined_digits ds s : Forall digit ds -> joined s -> joined (ds ++ s).
Proof.
  induction 1 as [|d ds D F IH]; intros J; [exact J|]. cbn [app]. destruct (ds ++ s) as [|b t] eqn:E; [exact Logic.I|]. split; [left; exact D|]. apply IH, J.
Qed.
Lemma joined_some c ds s : some_digits ds -> joined s -> joined (c :: ds ++ s).
Proof.
  intros (N & F) J. pose proof (joined_digits ds s F J) as K. destruct ds as [|d ds]; [congruence|]. cbn [app] in *. split; [right; left; inversion F; assumption|exact K].
Qed.
Lemma joined_number w : number_text w -> joined w.
Proof.
  intros (sg & ds & f & e & SG & DS & FR & EX & ->).
  assert (JE : joined e).
  { destruct EX as [->|(x & sign & k & X & SN & K & ->)]; [exact Logic.I|]. rewrite <- (app_nil_r k). destruct SN as [->|[->| ->]]; cbn [app].
    - apply joined_some; [exact K|exact Logic.I].
    - split; [right; right; auto|]. apply joined_some; [exact K|exact Logic.I].
    - split; [right; right; auto|]. apply joined_some; [exact K|exact Logic.I]. }
  assert (JF : joined (f ++ e)) by (destruct FR as [->|(c & k & K & ->)]; [exact JE|]; cbn [app]; apply joined_some; assumption).
  destruct SG as [->| ->]; cbn [app]; [apply joined_digits; [apply DS|exact JF]|apply joined_some; assumption].
Qed.
Lemma joined_at p a b q : joined (p ++ a :: b :: q) -> next_to a b.
Proof. induction p as [|x p IH]; cbn [app]; intros J; [apply J|]. apply IH. destruct (p ++ a :: b :: q) as [|y t] eqn:E; [exact Logic.I|apply J]. Qed.
Lemma digits_last ds : some_digits ds -> exists p d, ds = p ++ [d] /\ digit d.
Proof. intros (N & F). destruct (exists_last N) as (p & d & ->). exists p, d. split; [reflexivity|]. apply Forall_app in F as (_ & F). inversion F. assumption. Qed.
Lemma number_last w : number_text w -> exists p d, w = p ++ [d] /\ digit d.
Proof.
  intros (sg & ds & f & e & _ & DS & FR & EX & ->). destruct EX as [->|(x & sign & k & X & SN & K & ->)].
  - destruct FR as [->|(c & k & K & ->)].
    + destruct (digits_last ds DS) as (p & d & -> & D). exists (sg ++ p), d. rewrite !app_nil_r, app_assoc. auto.
    + destruct (digits_last k K) as (p & d & -> & D). exists (sg ++ ds ++ c :: p), d. rewrite app_nil_r, <- !app_assoc. auto.
  - destruct (digits_last k K) as (p & d & -> & D). exists (sg ++ ds ++ f ++ x :: sign ++ p), d. split; [|exact D]. rewrite <- !app_assoc. cbn [app]. rewrite <- !app_assoc. reflexivity.
Qed.

(** ** How tokens start *)
Definition begins (k : kind) (c : Z) : Prop :=
  match k with KSpace => space c | KString => c = 34 | KNumber => digit c \/ c = 45 | KFixed s => hd_error s = Some c /\ In s fixed_texts end.
Lemma text_begins k w : kind_text k w -> exists c t, w = c :: t /\ begins k c.
Proof.
  destruct k as [| | |s]; cbn [kind_text begins].
  - intros (N & F). destruct w as [|c t]; [congruence|]. exists c, t. inversion F. auto.
  - intros (s & _ & ->). eauto.
  - intros (sg & ds & f & e & SG & (N & F) & _ & _ & ->). destruct ds as [|d ds]; [congruence|]. inversion F. destruct SG as [->| ->]; cbn [app]; eauto 7.
  - intros (-> & I). vm_compute in I. repeat (destruct I as [<-|I]; [eexists; eexists; split; [reflexivity|split; [reflexivity|vm_compute; tauto]]|]). destruct I.
Qed.
Ltac fixed_cases I := vm_compute in I; repeat (destruct I as [<-|I]; [|]); [..|destruct I].
Lemma begins_same k k' c : begins k c -> begins k' c -> k = k'.
Proof.
  assert (A : forall s d, hd_error s = Some d /\ In s fixed_texts -> ~ space d /\ d <> 34 /\ ~ digit d /\ d <> 45).
  { intros s d (H & I). fixed_cases I; injection H as <-; unfold space, digit; repeat split; lia. }
  assert (B : forall s t d, (hd_error s = Some d /\ In s fixed_texts) -> hd_error t = Some d /\ In t fixed_texts -> s = t).
  { intros s t d (H & I) (H' & J). fixed_cases I; fixed_cases J; try reflexivity; exfalso; rewrite <- H in H'; discriminate H'. }
  destruct k as [| | |s], k' as [| | |t]; cbn [begins]; intros X Y; try reflexivity; try (f_equal; eapply B; eassumption); exfalso;
    try (apply A in X); try (apply A in Y); unfold space, digit in *; lia.
Qed.

(** ** Longest tokens *)
Definition quiet (rest : str) : Prop := match rest with c :: r => (c = 44 \/ c = 93 \/ c = 10) /\ (match r with d :: _ => ~ digit d | [] => True end) | [] => False end.
Lemma app_longer (w w' r r' : str) : w ++ r = w' ++ r' -> (length w < length w')%nat -> exists c x, w' = w ++ c :: x /\ r = c :: x ++ r'.
Proof.
  revert w'. induction w as [|a w IH]; intros [|b w'] E L; cbn in L; try lia.
  - cbn [app] in E. exists b, w'. auto.
  - cbn [app] in E. injection E as -> E. destruct (IH w' E) as (c & x & -> & ->); [lia|]. exists c, x. auto.
Qed.
Lemma first_kind k k' w w' r r' : kind_text k w -> kind_text k' w' -> w ++ r = w' ++ r' -> k = k'.
Proof.
  intros A B E. destruct (text_begins k w A) as (c & t & -> & X), (text_begins k' w' B) as (c' & t' & -> & Y). cbn [app] in E. injection E as <- _. exact (begins_same _ _ _ X Y).
Qed.
Lemma longest_fixed s rest : In s fixed_texts -> longest (s ++ rest) s.
Proof.
  intros I k w' r E T. assert (k = KFixed s) as -> by (symmetry; eapply first_kind; [|exact T|exact E]; split; [reflexivity|exact I]). destruct T as (-> & _). lia.
Qed.
Lemma longest_string w rest : string_text w -> longest (w ++ rest) w.
Proof.
  intros S k w' r E T. assert (k = KString) as -> by (symmetry; eapply first_kind; [|exact T|exact E]; exact S). rewrite (string_split _ _ _ _ S T E). lia.
Qed.
Lemma longest_number w rest : number_text w -> quiet rest -> longest (w ++ rest) w.
Proof.
  intros N Q k w' r E T. assert (k = KNumber) as -> by (symmetry; eapply first_kind; [|exact T|exact E]; exact N).
  destruct (le_lt_dec (length w') (length w)) as [L|L]; [exact L|exfalso]. destruct (app_longer _ _ _ _ E L) as (c & x & -> & ->). cbn [kind_text] in T.
  destruct Q as (C & D). assert (ND : ~ digit c) by (unfold digit; lia). destruct x as [|d x].
  - destruct (number_last _ T) as (p & d & E1 & DD). apply app_inj_tail in E1 as (_ & ->). contradiction.
  - cbn [app] in D. apply joined_number, joined_at in T. unfold next_to in T. destruct T as [T|[T|[T _]]]; try contradiction. lia.
Qed.
Lemma longest_space w rest : kind_text KSpace w -> match rest with c :: _ => ~ space c | [] => True end -> longest (w ++ rest) w.
Proof.
  intros N Q k w' r E T. assert (k = KSpace) as -> by (symmetry; eapply first_kind; [|exact T|exact E]; exact N).
  destruct (le_lt_dec (length w') (length w)) as [L|L]; [exact L|exfalso]. destruct (app_longer _ _ _ _ E L) as (c & x & -> & ->). destruct T as (_ & T). apply Forall_app in T as (_ & T). inversion T. contradiction.
Qed.

(** ** A text has one sequence of tokens *)
Lemma lexes_same text ts : lexes text ts -> forall ts', lexes text ts' -> ts = ts'.
Proof.
  assert (K : forall k k' w w' r r', kind_text k w -> kind_text k' w' -> longest (w ++ r) w -> longest (w' ++ r') w' -> w ++ r = w' ++ r' -> k = k' /\ w = w' /\ r = r').
  { intros k k' w w' r r' A B L L' E. split; [eapply first_kind; eassumption|]. assert (LE : length w = length w') by (apply Nat.le_antisymm; [apply (L' k w r (eq_sym E) A)|apply (L k' w' r' E B)]).
    clear -E LE. revert w' LE E. induction w as [|a w IH]; intros [|b w'] LE E; try discriminate LE; [auto|]. cbn [app] in E. injection E as -> E. destruct (IH w') as (-> & ->); auto. }
  assert (NE : forall k w, kind_text k w -> w <> []) by (intros k w T; destruct (text_begins k w T) as (c & t & -> & _); discriminate).
  induction 1 as [|w r ts T L X IH|k w r ts S T L X IH]; intros ts' Y.
  - inversion Y as [|w r t T L Y' E1 E2|k w r t S T L Y' E1 E2]; [reflexivity| |]; apply app_eq_nil in E1 as (-> & _); destruct (NE _ _ T eq_refl).
  - remember (w ++ r) as text eqn:E. destruct Y as [|w' r' t T' L' Y|k' w' r' t S' T' L' Y].
    + symmetry in E. apply app_eq_nil in E as (-> & _). destruct (NE _ _ T eq_refl).
    + rewrite E in L. destruct (K KSpace KSpace w' w r' r T' T L' L E) as (_ & _ & ->). apply IH, Y.
    + rewrite E in L. destruct (K k' KSpace w' w r' r T' T L' L E) as (-> & _). congruence.
  - remember (w ++ r) as text eqn:E. destruct Y as [|w' r' t T' L' Y|k' w' r' t S' T' L' Y].
    + symmetry in E. apply app_eq_nil in E as (-> & _). destruct (NE _ _ T eq_refl).
    + rewrite E in L. destruct (K KSpace k w' w r' r T' T L' L E) as (<- & _). congruence.
    + rewrite E in L. destruct (K k' k w' w r' r T' T L' L E) as (-> & -> & ->). f_equal. apply IH, Y.
Qed.

(** ** The tokens of the output *)
Lemma space_line n rest ts : match rest with c :: _ => ~ space c | [] => True end -> lexes rest ts -> lexes (new_line n ++ rest) ts.
Proof.
  intros S L. assert (K : kind_text KSpace (new_line n)).
  { split; [discriminate|]. constructor; [unfold space; lia|]. apply Forall_forall. intros c I. apply repeat_spec in I. subst. unfold space. lia. }
  apply lexes_space; [exact K|apply longest_space; assumption|exact L].
Qed.
Lemma fixed_lexes s rest ts : In (codes s) fixed_texts -> lexes rest ts -> lexes (codes s ++ rest) (fixed s :: ts).
Proof. intros I L. apply lexes_token; [discriminate|split; [reflexivity|exact I]|apply longest_fixed, I|exact L]. Qed.
Lemma string_lexes w rest ts : string_text w -> lexes rest ts -> lexes (w ++ rest) ((KString, w) :: ts).
Proof. intros I L. apply lexes_token; [discriminate|exact I|apply longest_string, I|exact L]. Qed.
Lemma string_visible w rest : string_text w -> match w ++ rest with c :: _ => ~ space c | [] => True end.
Proof. intros (s & _ & ->). cbn. unfold space. lia. Qed.
Lemma value_visible n v rest : proper v -> match print_value n v ++ rest with c :: _ => ~ space c | [] => True end.
Proof.
  destruct v as [w|w| | | |ps|vs]; intros P; try (cbn; unfold space; lia).
  - apply string_visible, P.
  - destruct (text_begins KNumber w P) as (c & t & -> & B). cbn [print_value app]. cbn [begins] in B. unfold space, digit in *. lia.
Qed.
Lemma new_line_quiet n rest : match rest with c :: _ => ~ digit c | [] => True end -> quiet (new_line n ++ rest).
Proof. intros R. unfold quiet, new_line. cbn [app]. split; [lia|]. destruct n; cbn; [exact R|unfold digit; lia]. Qed.
Lemma comma_quiet n rest : quiet (codes ","%string ++ new_line n ++ rest).
Proof. cbn. split; [lia|unfold digit; lia]. Qed.
Lemma quiet_next rest : quiet rest -> match rest with c :: _ => ~ digit c | [] => True end.
Proof. destruct rest as [|c r]; [intros []|]. intros (C & _). unfold digit. lia. Qed.

Lemma colon_lexes n v rest ts : proper v -> lexes (print_value n v ++ rest) ts -> lexes (codes ": "%string ++ print_value n v ++ rest) (fixed ":" :: ts).
Proof.
  intros P L. change (codes ": "%string) with (codes ":"%string ++ [32]). rewrite <- app_assoc. apply fixed_lexes; [vm_compute; tauto|].
  apply lexes_space; [split; [discriminate|repeat constructor; unfold space; lia]|apply longest_space; [split; [discriminate|repeat constructor; unfold space; lia]|apply value_visible, P]|exact L].
Qed.
Lemma print_lexes :
  (forall v, proper v -> forall n rest ts, quiet rest -> lexes rest ts -> lexes (print_value n v ++ rest) (tokens_of v ++ ts)) /\
  (forall ps, proper_pairs ps -> (forall n rest ts, quiet rest -> lexes rest ts -> lexes (print_pairs n ps ++ rest) (more_pairs ps ++ ts)) /\
    match ps with PNil => True | PCons name v ps => forall n rest ts, quiet rest -> lexes rest ts ->
      lexes (new_line (n + 2) ++ name ++ codes ": "%string ++ print_value (n + 2 + 2) v ++ print_pairs n ps ++ rest) ((KString, name) :: fixed ":" :: tokens_of v ++ more_pairs ps ++ ts) end) /\
  (forall vs, proper_vals vs -> (forall n rest ts, quiet rest -> lexes rest ts -> lexes (print_vals n vs ++ rest) (more_values vs ++ ts)) /\
    match vs with ANil => True | ACons v vs => forall n rest ts, quiet rest -> lexes rest ts -> lexes (new_line (n + 2) ++ print_value (n + 2) v ++ print_vals n vs ++ rest) (tokens_of v ++ more_values vs ++ ts) end).
Proof.
  assert (QP : forall n ps rest, quiet rest -> quiet (print_pairs n ps ++ rest)).
  { intros n [|name v ps] rest Q; [exact Q|]. cbn [print_pairs]. rewrite <- !app_assoc. apply comma_quiet. }
  assert (QV : forall n vs rest, quiet rest -> quiet (print_vals n vs ++ rest)).
  { intros n [|v vs] rest Q; [exact Q|]. cbn [print_vals]. rewrite <- !app_assoc. apply comma_quiet. }
  apply json_ind.
  - intros w P n rest ts Q L. apply string_lexes; assumption.
  - intros w P n rest ts Q L. apply lexes_token; [discriminate|exact P|apply longest_number; assumption|exact L].
  - intros _ n rest ts Q L. apply fixed_lexes; [vm_compute; tauto|exact L].
  - intros _ n rest ts Q L. apply fixed_lexes; [vm_compute; tauto|exact L].
  - intros _ n rest ts Q L. apply fixed_lexes; [vm_compute; tauto|exact L].
  - intros ps IH P n rest ts Q L. assert (C : lexes (codes "}"%string ++ rest) (fixed "}" :: ts)) by (apply fixed_lexes; [vm_compute; tauto|exact L]). destruct ps as [|name v ps].
    + change (print_value n (VObject PNil) ++ rest) with (codes "{"%string ++ codes "}"%string ++ rest). apply fixed_lexes; [vm_compute; tauto|exact C].
    + destruct (IH P) as (_ & F). cbn [print_value tokens_of]. rewrite <- !app_assoc. cbn [app]. rewrite <- !app_assoc. apply fixed_lexes; [vm_compute; tauto|].
      apply F; [apply new_line_quiet; cbn; unfold digit; lia|]. apply space_line; [cbn; unfold space; lia|]. exact C.
  - intros vs IH P n rest ts Q L. assert (C : lexes (codes "]"%string ++ rest) (fixed "]" :: ts)) by (apply fixed_lexes; [vm_compute; tauto|exact L]). destruct vs as [|v vs].
    + change (print_value n (VArray ANil) ++ rest) with (codes "["%string ++ codes "]"%string ++ rest). apply fixed_lexes; [vm_compute; tauto|exact C].
    + destruct (IH P) as (_ & F). cbn [print_value tokens_of]. rewrite <- !app_assoc. cbn [app]. rewrite <- !app_assoc. apply fixed_lexes; [vm_compute; tauto|].
      apply F; [|exact C]. cbn. split; [lia|]. exact (quiet_next rest Q).
  - intros _. split; [|exact Logic.I]. intros n rest ts Q L. exact L.
  - intros name v IV ps IP (SN & PV & PP).
    assert (F : forall n rest ts, quiet rest -> lexes rest ts ->
      lexes (new_line (n + 2) ++ name ++ codes ": "%string ++ print_value (n + 2 + 2) v ++ print_pairs n ps ++ rest) ((KString, name) :: fixed ":" :: tokens_of v ++ more_pairs ps ++ ts)).
    { intros n rest ts Q L. apply space_line; [apply string_visible, SN|]. apply string_lexes; [exact SN|]. apply colon_lexes; [exact PV|]. apply IV; [exact PV|apply QP, Q|]. apply (IP PP); assumption. }
    split; [|exact F]. intros n rest ts Q L. cbn [print_pairs more_pairs]. rewrite <- !app_assoc. cbn [app]. rewrite <- !app_assoc. apply fixed_lexes; [vm_compute; tauto|]. apply F; assumption.
  - intros _. split; [|exact Logic.I]. intros n rest ts Q L. exact L.
  - intros v IV vs IA (PV & PA).
    assert (F : forall n rest ts, quiet rest -> lexes rest ts -> lexes (new_line (n + 2) ++ print_value (n + 2) v ++ print_vals n vs ++ rest) (tokens_of v ++ more_values vs ++ ts)).
    { intros n rest ts Q L. apply space_line; [apply value_visible, PV|]. apply IV; [exact PV|apply QV, Q|]. apply (IA PA); assumption. }
    split; [|exact F]. intros n rest ts Q L. cbn [print_vals more_values]. rewrite <- !app_assoc. cbn [app]. rewrite <- !app_assoc. apply fixed_lexes; [vm_compute; tauto|]. apply F; assumption.
Qed.

(** ** Tokens are the tokens of one value *)
Lemma tokens_inj :
  (forall v v' r r', tokens_of v ++ r = tokens_of v' ++ r' -> v = v' /\ r = r') /\
  (forall ps, (forall ps' r r', more_pairs ps ++ fixed "}" :: r = more_pairs ps' ++ fixed "}" :: r' -> ps = ps' /\ r = r') /\
    forall name v qs, ps = PCons name v qs -> forall name' v' qs' r r', tokens_of v ++ more_pairs qs ++ fixed "}" :: r = tokens_of v' ++ more_pairs qs' ++ fixed "}" :: r' -> (name = name') -> ps = PCons name' v' qs' /\ r = r') /\
  (forall vs, (forall vs' r r', more_values vs ++ fixed "]" :: r = more_values vs' ++ fixed "]" :: r' -> vs = vs' /\ r = r') /\
    forall v qs, vs = ACons v qs -> forall v' qs' r r', tokens_of v ++ more_values qs ++ fixed "]" :: r = tokens_of v' ++ more_values qs' ++ fixed "]" :: r' -> vs = ACons v' qs' /\ r = r').
Proof.
  assert (H : forall v r t, tokens_of v ++ r <> fixed "]" :: t) by (intros [w|w| | | |[|]|[|]] r t; discriminate).
  apply json_ind.
  - intros w [w'|w'| | | |[|]|[|]] r r' E; cbn in E; try discriminate E. injection E as -> ->. auto.
  - intros w [w'|w'| | | |[|]|[|]] r r' E; cbn in E; try discriminate E. injection E as -> ->. auto.
  - intros [w'|w'| | | |[|]|[|]] r r' E; cbn in E; try discriminate E. injection E as ->. auto.
  - intros [w'|w'| | | |[|]|[|]] r r' E; cbn in E; try discriminate E. injection E as ->. auto.
  - intros [w'|w'| | | |[|]|[|]] r r' E; cbn in E; try discriminate E. injection E as ->. auto.
  - intros ps (_ & IH) v' r r' E. destruct ps as [|name v ps], v' as [w'|w'| | | |[|name' v' ps']|[|]]; cbn [tokens_of app] in E; try discriminate E.
    + injection E as ->. auto.
    + injection E as -> E. rewrite <- !app_assoc in E. cbn [app] in E. destruct (IH _ _ _ eq_refl _ _ _ _ _ E eq_refl) as (X & ->). injection X as -> ->. auto.
  - intros vs (_ & IH) v' r r' E. destruct vs as [|v vs], v' as [w'|w'| | | |[|name' v' ps']|[|v' vs']]; cbn [tokens_of app] in E; try discriminate E.
    + injection E as ->. auto.
    + exfalso. injection E as E. rewrite <- !app_assoc in E. symmetry in E. exact (H _ _ _ E).
    + exfalso. injection E as E. rewrite <- !app_assoc in E. exact (H _ _ _ E).
    + injection E as E. rewrite <- !app_assoc in E. cbn [app] in E. destruct (IH _ _ eq_refl _ _ _ _ E) as (X & ->). injection X as -> ->. auto.
  - split; [|discriminate]. intros [|name v ps] r r' E; cbn in E; [|discriminate E]. injection E as ->. auto.
  - intros name v IV ps (IP & _).
    assert (F : forall name' v' qs' r r', tokens_of v ++ more_pairs ps ++ fixed "}" :: r = tokens_of v' ++ more_pairs qs' ++ fixed "}" :: r' -> name = name' -> PCons name v ps = PCons name' v' qs' /\ r = r').
    { intros name' v' qs' r r' E <-. apply IV in E as (-> & E). apply IP in E as (-> & ->). auto. }
    split; [|intros ? ? ? X; injection X as <- <- <-; exact F]. intros [|name' v' ps'] r r' E; cbn [more_pairs app] in E; [discriminate E|]. injection E as -> E. rewrite <- !app_assoc in E. apply F; [exact E|reflexivity].
  - split; [|discriminate]. intros [|v vs] r r' E; cbn in E; [|discriminate E]. injection E as ->. auto.
  - intros v IV vs (IA & _).
    assert (F : forall v' qs' r r', tokens_of v ++ more_values vs ++ fixed "]" :: r = tokens_of v' ++ more_values qs' ++ fixed "]" :: r' -> ACons v vs = ACons v' qs' /\ r = r').
    { intros v' qs' r r' E. apply IV in E as (-> & E). apply IA in E as (-> & ->). auto. }
    split; [|intros ? ? X; injection X as <- <-; exact F]. intros [|v' vs'] r r' E; cbn [more_values app] in E; [discriminate E|]. injection E as E. rewrite <- !app_assoc in E. apply F; exact E.
Qed.

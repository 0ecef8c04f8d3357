(** C84: the unicode categories of regular expressions. *)
From Coq Require Import String.
From Verif Require Import Base SymbolSetModel SymbolSetSpec SymbolMapModel NdfaModel NdfaSpec TextModel TextSpec CaseTables RegexModel RegexSpec RegexProofs RegexDefsProofs RegexTokenProofs RegexProps NamesModel UnicodeTables UnicodeModel UnicodeSpec UnicodeProofs.
Local Open Scope string_scope.
Local Open Scope list_scope.
Local Open Scope Z_scope.

(** The full statement is false, see below.  The table lacks the characters that the Unicode data file gives by the
    first and the last one only: Chinese characters (U+4E01 to U+9FCA), Korean syllables (U+AC01 to U+D7A2),
    and others are letters, but no name of a category stands for them. *)
Theorem C84_gaps (name : list Z) (s : symbol_set) (x : Z) :
  unicode_category name = Some s -> 0x4e01 <= x < 0x9fcb \/ 0xac01 <= x < 0xd7a3 \/ 0x3401 <= x < 0x4db5 \/ 0x20001 <= x < 0x2a6d6 -> contains s x = false.
Proof.
  unfold unicode_category. destruct (unicode_for_expression name) as [|major minor]; [discriminate|]. intros E H. injection E as <-.
  destruct (contains (symbols_of major minor) x) eqn:C; [exfalso|reflexivity]. apply symbols_of_spec in C. destruct C as (ty & T & _). revert T.
  destruct H as [H|[H|[H|H]]]; [apply (gap_types 0x4e01 0x9fcb)|apply (gap_types 0xac01 0xd7a3)|apply (gap_types 0x3401 0x4db5)|apply (gap_types 0x20001 0x2a6d6)]; try exact H; vm_compute; reflexivity.
Qed.
Print Assumptions C84_gaps.
(** So the character U+4E2D, a letter, is not matched by any category *)
Theorem C84_letters_refuted : exists x, x = 0x4e2d /\ forall name s, unicode_category name = Some s -> contains s x = false.
Proof. exists 0x4e2d. split; [reflexivity|]. intros name s E. apply (C84_gaps name s _ E). lia. Qed.
Print Assumptions C84_letters_refuted.

(** Names that are not documented are accepted, too *)
Theorem C84_names_refuted : exists name s, unicode_category name = Some s /\ forall major minor, ~ is_category name major minor.
Proof.
  assert (E : unicode_for_expression (codes "u-letter-uppercaselowercase") = [76; 117; 108]) by (vm_compute; reflexivity).
  exists (codes "u-letter-uppercaselowercase"), (symbols_of 76 [117; 108]). split; [unfold unicode_category; rewrite E; reflexivity|]. intros major minor H. apply documented_name in H. rewrite E in H. destruct minor; discriminate H.
Qed.
Print Assumptions C84_names_refuted.

(** Each documented name stands for exactly the characters of its types in the table *)
Theorem C84_exact_partial (name : list Z) (major : Z) (minor : option Z) : is_category name major minor ->
  exists s, unicode_category name = Some s /\ normal s /\ forall x, contains s x = true <-> in_category major minor x.
Proof.
  intros C. apply documented_name in C. unfold unicode_category. rewrite C. exists (symbols_of major (option_list minor)). split; [reflexivity|]. destruct (symbols_of_spec major (option_list minor)) as [N H]. split; [exact N|]. intros x. rewrite H. unfold in_category, chosen. destruct minor; reflexivity.
Qed.
Print Assumptions C84_exact_partial.

Lemma symbols_first major m minor : symbols_of major [m] = symbols_of major (m :: minor).
Proof. unfold symbols_of. generalize blocks. intros bs. reflexivity. Qed.
(** Every name that is accepted starts with a documented name and means the same *)
Theorem C84_accepted (name : list Z) (s : symbol_set) : Forall (fun c => 0 <= c) name -> unicode_category name = Some s ->
  exists known rest major minor, name = known ++ rest /\ is_category known major minor /\ unicode_category known = Some s.
Proof.
  intros F. unfold unicode_category. destruct (unicode_for_expression name) as [|major minor] eqn:E; [discriminate|]. intros X. injection X as <-. destruct (accepted name major minor F E) as (known & rest & EQ & C). exists known, rest, major, (hd_error minor). split; [exact EQ|]. split; [exact C|]. apply documented_name in C. rewrite C. f_equal. destruct minor as [|m minor]; cbn [hd_error option_list]; [reflexivity|]. apply symbols_first.
Qed.
Print Assumptions C84_accepted.

(** No character has two types *)
Theorem C84_one_type (x : Z) (t1 t2 : Z * Z) : has_type t1 x -> has_type t2 x -> t1 = t2.
Proof. apply one_type. Qed.
Print Assumptions C84_one_type.

(** The categories of the ASCII characters *)
Theorem C84_ascii (x : Z) : 0 <= x < 128 ->
  (in_category 76 None x <-> 65 <= x <= 90 \/ 97 <= x <= 122) /\ (in_category 76 (Some 117) x <-> 65 <= x <= 90) /\ (in_category 76 (Some 108) x <-> 97 <= x <= 122) /\
  (in_category 78 None x <-> 48 <= x <= 57) /\ (in_category 90 None x <-> x = 32) /\ (in_category 67 None x <-> x < 32 \/ x = 127) /\
  (in_category 80 (Some 99) x <-> x = 95) /\ (in_category 80 (Some 100) x <-> x = 45) /\ exists major, In major [76; 78; 80; 83; 90; 67] /\ in_category major None x.
Proof.
  intros X. rewrite <- !in_categoryb_spec.
  assert (B : forall P, forallb P (map Z.of_nat (seq 0 128)) = true -> P x = true) by (intros P H; apply (below 128 P H x); exact X).
  assert (H1 := B (fun x => Bool.eqb (in_categoryb 76 None x) ((65 <=? x) && (x <=? 90) || (97 <=? x) && (x <=? 122))) ltac:(vm_compute; reflexivity)).
  assert (H2 := B (fun x => Bool.eqb (in_categoryb 76 (Some 117) x) ((65 <=? x) && (x <=? 90))) ltac:(vm_compute; reflexivity)).
  assert (H3 := B (fun x => Bool.eqb (in_categoryb 76 (Some 108) x) ((97 <=? x) && (x <=? 122))) ltac:(vm_compute; reflexivity)).
  assert (H4 := B (fun x => Bool.eqb (in_categoryb 78 None x) ((48 <=? x) && (x <=? 57))) ltac:(vm_compute; reflexivity)).
  assert (H5 := B (fun x => Bool.eqb (in_categoryb 90 None x) (x =? 32)) ltac:(vm_compute; reflexivity)).
  assert (H6 := B (fun x => Bool.eqb (in_categoryb 67 None x) ((x <? 32) || (x =? 127))) ltac:(vm_compute; reflexivity)).
  assert (H7 := B (fun x => Bool.eqb (in_categoryb 80 (Some 99) x) (x =? 95)) ltac:(vm_compute; reflexivity)).
  assert (H8 := B (fun x => Bool.eqb (in_categoryb 80 (Some 100) x) (x =? 45)) ltac:(vm_compute; reflexivity)).
  assert (H9 := B (fun x => existsb (fun m => in_categoryb m None x) [76; 78; 80; 83; 90; 67]) ltac:(vm_compute; reflexivity)).
  cbv beta in H1, H2, H3, H4, H5, H6, H7, H8, H9. apply Bool.eqb_prop in H1, H2, H3, H4, H5, H6, H7, H8. rewrite H1, H2, H3, H4, H5, H6, H7, H8.
  clear H1 H2 H3 H4 H5 H6 H7 H8 B. repeat (split; [clear H9; lia|]). apply existsb_exists in H9. destruct H9 as (m & I & H9). exists m. split; [exact I|]. apply in_categoryb_spec, H9.
Qed.
Print Assumptions C84_ascii.

Lemma documented_some : forallb (fun '(_, c, m) => existsb (fun b => (fst (fst b) =? c) && match m with Some x => snd (fst b) =? x | None => true end && match snd b with [] => false | _ => true end) blocks) documented = true.
Proof. vm_compute. reflexivity. Qed.
Lemma is_category_some name major minor : is_category name major minor -> exists x, in_category major minor x.
Proof.
  intros (start & rest & _ & _ & I). pose proof documented_some as D. rewrite forallb_forall in D. specialize (D _ I). cbn beta iota in D. apply existsb_exists in D. destruct D as ((ty & rs) & IB & D). cbn [fst snd] in D. rewrite !andb_true_iff in D. destruct D as [[D1 D2] D3]. destruct rs as [|r rs]; [discriminate D3|].
  pose proof (block_valid _ IB) as V. inversion V as [|? ? V1 _]; subst. exists (lo r), ty. split; [exists (r :: rs), r; split; [exact IB|]; split; [left; reflexivity|unfold valid_range in V1; lia]|]. split; [apply Z.eqb_eq, D1|]. destruct minor; [apply Z.eqb_eq, D2|exact Logic.I].
Qed.
Lemma is_category_plain name major minor : is_category name major minor -> ~ In 125 name.
Proof.
  intros (start & rest & -> & IS & I) X. apply in_app_iff in X.
  assert (D1 : forallb (fun s => forallb (fun c => negb (c =? 125)) s) name_starts = true) by (vm_compute; reflexivity). assert (D2 : forallb (fun '(s, _, _) => forallb (fun c => negb (c =? 125)) s) documented = true) by (vm_compute; reflexivity).
  rewrite forallb_forall in D1, D2. specialize (D1 _ IS). specialize (D2 _ I). cbn beta iota in D2. rewrite forallb_forall in D1, D2. destruct X as [X|X]; [specialize (D1 _ X); discriminate D1|specialize (D2 _ X); discriminate D2].
Qed.

(** In regular expressions: a documented name (which is not defined otherwise) is well formed, and so
    everything C11 says holds for expressions with such names *)
Theorem C84_well_formed (expressions literals : list Z -> option (list Z)) (defined : list Z -> list (bool * bool * token)) (surr nocase : bool) (level : nat) (name : list Z) (major : Z) (minor : option Z) :
  is_category name major minor -> defined name = [] -> expressions name = None -> literals name = None -> chars_ok surr nocase low up case_safe (in_category major minor) ->
  well_formed expressions literals unicode_category defined surr nocase low up case_safe level (RChars name (in_category major minor)).
Proof.
  intros C D E L K. cbn [well_formed_in]. split; [eapply is_category_plain, C|]. split; [exact D|]. split; [exact E|]. split; [exact L|]. split; [apply C84_exact_partial, C|]. split; [eapply is_category_some, C|exact K].
Qed.
Print Assumptions C84_well_formed.
(** The automaton for {name} accepts exactly the characters of the category *)
Theorem C84_token_partial (A : Type) (expressions literals : list Z -> option (list Z)) (defined : list Z -> list (bool * bool * token)) (name : list Z) (major : Z) (minor : option Z) (a : A) :
  is_category name major minor -> defined name = [] -> expressions name = None -> literals name = None ->
  exists d fuel0, (forall fuel, (fuel0 <= fuel)%nat -> add_tokens expressions literals unicode_category defined fuel ndfa_new false [(false, Regex ([123] ++ name ++ [125]), a)] = Some d) /\
    forall w x, accepts d 0 w x <-> x = a /\ exists c, w = [c] /\ in_category major minor c.
Proof.
  intros C D E L. set (r := RChars name (in_category major minor)).
  assert (K : chars_ok false false low up case_safe (in_category major minor)) by (split; intros X; discriminate X).
  destruct (C11_tokens_partial A expressions literals unicode_category defined false [(false, TRegex r, a)]) as (d & fuel0 & EQ & _ & AC).
  { constructor; [|constructor]. split; [|reflexivity]. apply C84_well_formed; assumption. }
  exists d, fuel0. split; [exact EQ|]. intros w x. rewrite AC. split.
  - intros (nc & t & [I|[]] & M). injection I as <- <- <-. split; [reflexivity|]. destruct M as (c & (y & P & [-> |(X & _)]) & ->); [|discriminate X]. exists y. auto.
  - intros (-> & c & -> & P). exists false, (TRegex r). split; [left; reflexivity|]. exists c. split; [|reflexivity]. exists c. split; [exact P|left; reflexivity].
Qed.
Print Assumptions C84_token_partial.

(** The identifiers of a language: {unicode-letter}({uni-letter}|{u-number-decimal})* *)
Example C84_nontrivial :
  let l := in_category 76 None in let n := in_category 78 (Some 100) in
  let r := RCat (RChars (codes "unicode-letter") l) (RStar (RGroup (ROr (RChars (codes "uni-letter") l) (RChars (codes "u-number-decimal") n)))) in
  text r = codes "{unicode-letter}({uni-letter}|{u-number-decimal})*" /\ tree_ok no_names no_names unicode_category no_defs false false (TRegex r) /\
  is_category (codes "unicode-letter") 76 None /\ l 233 /\ l 945 /\ ~ l 48 /\ n 0x669 /\ (* é, alpha, 0, Arabic nine *)
  unicode_category (codes "unicode-letters") = None.
Proof.
  cbn zeta. assert (C1 : is_category (codes "unicode-letter") 76 None) by (exists (codes "unicode-"), (codes "letter"); split; [reflexivity|split; [cbn; auto|left; reflexivity]]).
  assert (C2 : is_category (codes "uni-letter") 76 None) by (exists (codes "uni-"), (codes "letter"); split; [reflexivity|split; [cbn; auto|left; reflexivity]]).
  assert (C3 : is_category (codes "u-number-decimal") 78 (Some 100)) by (exists (codes "u-"), (codes "number-decimal"); split; [reflexivity|split; [cbn; auto|apply in_documented; vm_compute; reflexivity]]).
  assert (W : forall level name major minor, is_category name major minor -> well_formed no_names no_names unicode_category no_defs false false low up case_safe level (RChars name (in_category major minor))) by (intros level name major minor C; apply C84_well_formed; try reflexivity; [exact C|split; intros X; discriminate X]).
  split; [reflexivity|]. split; [|split; [exact C1|]].
  - split; [|reflexivity]. split; [lia|]. split; [apply (W 1%nat), C1|]. exact (conj (le_n 0) (conj (W 1%nat _ _ _ C2) (W 0%nat _ _ _ C3))).
  - rewrite <- !in_categoryb_spec. repeat split; try (vm_compute; reflexivity). vm_compute. discriminate.
Qed.
Print Assumptions C84_nontrivial.

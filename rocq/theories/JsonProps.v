(** C95: formatting JSON with the example does not change what it says. *)
From Coq Require Import String.
From Verif Require Import Base SymbolSetModel SymbolMapModel NdfaModel NdfaSpec NamesModel TextModel RegexModel RegexProps RegexOddProps JsonModel JsonSpec JsonProofs.
Local Open Scope string_scope.
Local Open Scope list_scope.
Local Open Scope Z_scope.

(** What the tokens of a text are, the trees made of them have *)
Lemma lexes_texts text ts : lexes text ts -> Forall (fun t => kind_text (fst t) (snd t)) ts.
Proof. induction 1; auto. Qed.
Lemma tokens_proper :
  (forall v, Forall (fun t => kind_text (fst t) (snd t)) (tokens_of v) -> proper v) /\
  (forall ps, Forall (fun t => kind_text (fst t) (snd t)) (more_pairs ps) -> proper_pairs ps) /\
  (forall vs, Forall (fun t => kind_text (fst t) (snd t)) (more_values vs) -> proper_vals vs).
Proof.
  apply json_ind; try (intros; exact Logic.I).
  - intros w F. inversion F. assumption.
  - intros w F. inversion F. assumption.
  - intros [|name v ps] IH F; [exact Logic.I|]. apply IH. cbn [tokens_of more_pairs] in *. apply Forall_cons_iff in F as (_ & F). apply Forall_cons_iff in F as (N & F). apply Forall_cons_iff in F as (C & F). rewrite app_assoc in F. apply Forall_app in F as (F & _).
    constructor; [split; [reflexivity|vm_compute; tauto]|]. constructor; [exact N|]. constructor; [exact C|exact F].
  - intros [|v vs] IH F; [exact Logic.I|]. apply IH. cbn [tokens_of more_values] in *. apply Forall_cons_iff in F as (_ & F). rewrite app_assoc in F. apply Forall_app in F as (F & _).
    constructor; [split; [reflexivity|vm_compute; tauto]|exact F].
  - intros name v IV ps IP F. cbn [more_pairs] in F. apply Forall_cons_iff in F as (_ & F). apply Forall_cons_iff in F as (N & F). apply Forall_cons_iff in F as (C & F). apply Forall_app in F as (F & G). split; [exact N|]. auto.
  - intros v IV vs IA F. cbn [more_values] in F. apply Forall_cons_iff in F as (_ & F). apply Forall_app in F as (F & G). split; auto.
Qed.

(** A text says one thing at most. *)
Theorem C95_one_meaning : forall text v v', is_json_for text v -> is_json_for text v' -> v = v'.
Proof.
  intros text v v' A B. assert (E := lexes_same _ _ A _ B). destruct tokens_inj as (K & _). apply (K v v' [] []). rewrite !app_nil_r. exact E.
Qed.
Print Assumptions C95_one_meaning.

(** The output for an object that was read says what the input says, and nothing else. *)
Theorem C95_same : forall input ps, is_json_for input (VObject ps) -> forall v, is_json_for (output ps) v <-> v = VObject ps.
Proof.
  intros input ps I. assert (P : proper (VObject ps)) by (destruct tokens_proper as (K & _); apply K; eapply lexes_texts, I).
  assert (O : is_json_for (output ps) (VObject ps)).
  { unfold is_json_for. change (output ps) with (new_line 0 ++ print_value 0 (VObject ps) ++ [10]). apply space_line; [apply value_visible, P|].
    rewrite <- (app_nil_r (tokens_of (VObject ps))). destruct print_lexes as (K & _). apply (K (VObject ps) P); [cbn; auto|]. apply (space_line 0 [] []); [exact Logic.I|constructor]. }
  intros v. split; [|intros ->; exact O]. intros V. exact (C95_one_meaning _ _ _ V O).
Qed.
Print Assumptions C95_same.

(** Formatting again changes nothing, and two objects never look alike. *)
Theorem C95_again : forall input ps ps', is_json_for input (VObject ps) -> is_json_for (output ps) (VObject ps') -> output ps' = output ps.
Proof. intros input ps ps' I O. apply (C95_same input ps I) in O. injection O as ->. reflexivity. Qed.
Print Assumptions C95_again.

(** ** Numbers with commas *)
(** json.tp 23-26: [digit], [int] and [frac] *)
Definition json_defs (name : list Z) : list (bool * bool * RegexModel.token) :=
  if str_eqb name (codes "digit") then [(false, false, Regex (codes "[0-9]"))]
  else if str_eqb name (codes "int") then [(false, false, Regex (codes "{digit}+")); (false, false, Regex (codes "-{digit}+"))]
  else if str_eqb name (codes "frac") then [(false, false, Regex (codes ".{digit}+"))]
  else [].
Definition one_comma_two : value := VObject (PCons (codes """a""") (VArray (ACons (VNumber (codes "1,2")) ANil)) PNil).
Ltac go id r := eapply (path_eps _ _ id r); [vm_compute; tauto|reflexivity|].
Ltac eat id r := eapply (path_sym _ _ id r); [vm_compute; tauto|reflexivity|].

(** The grammar of the example is not that of JSON: the array [1,2] has one element, the number "1,2", since the
    full stop in the expression for fractions stands for every character. *)
Theorem C95_comma_refuted :
  is_json_for (codes "{""a"":[1,2]}") one_comma_two /\
  (forall v, is_json_for (codes "{""a"":[1,2]}") v -> v = one_comma_two) /\
  exists d, add_token no_names no_names no_category json_defs 20 ndfa_new false false 0 (Regex (codes "{int}{frac}")) 5 = Some d /\ accepts d 0 (codes "1,2") 5.
Proof.
  assert (F : is_json_for (codes "{""a"":[1,2]}") one_comma_two).
  { assert (ST : string_text (codes """a""")) by (exists [97]; split; [apply chars_plain; [discriminate|discriminate|constructor]|reflexivity]).
    assert (NT : number_text (codes "1,2")).
    { exists [], [49], [44; 50], []. split; [auto|]. split; [split; [discriminate|repeat constructor; unfold digit; lia]|]. split; [|auto]. right. exists 44, [50]. split; [split; [discriminate|repeat constructor; unfold digit; lia]|reflexivity]. }
    unfold is_json_for, one_comma_two. change (lexes (codes "{" ++ codes """a""" ++ codes ":" ++ codes "[" ++ codes "1,2" ++ codes "]" ++ codes "}" ++ []) [fixed "{"; (KString, codes """a"""); fixed ":"; fixed "["; (KNumber, codes "1,2"); fixed "]"; fixed "}"]).
    apply fixed_lexes; [vm_compute; tauto|]. apply string_lexes; [exact ST|]. do 2 (apply fixed_lexes; [vm_compute; tauto|]).
    apply lexes_token; [discriminate|exact NT|apply longest_number; [exact NT|cbn; split; [lia|unfold digit; lia]]|]. do 2 (apply fixed_lexes; [vm_compute; tauto|]). constructor. }
  split; [exact F|]. split; [intros v V; exact (C95_one_meaning _ _ _ V F)|].
  eexists. split; [vm_compute; reflexivity|]. exists 13%nat. split; [|vm_compute; auto].
  go 0 1%nat. go 0 2%nat. go 0 3%nat. eat 1 4%nat. go 0 5%nat. go 0 10%nat. eat 3 11%nat. go 0 12%nat. eat 1 13%nat. constructor.
Qed.
Print Assumptions C95_comma_refuted.

(** An object with all kinds of values, and its text *)
Definition sample : pairs :=
  PCons (codes """a""") (VArray (ACons (VNumber (codes "-1.5e+3")) (ACons VTrue (ACons (VArray ANil) ANil))))
  (PCons (codes """b\n""") (VObject (PCons (codes """c""") VNull PNil)) (PCons (codes """""") (VObject PNil) PNil)).
Example C95_nontrivial : exists input, is_json_for input (VObject sample) /\
  output sample = 10 :: codes "{" ++ 10 :: codes "  ""a"": [" ++ 10 :: codes "      -1.5e+3," ++ 10 :: codes "      true," ++ 10 :: codes "      []]," ++
    10 :: codes "  ""b\n"": {" ++ 10 :: codes "      ""c"": null" ++ 10 :: codes "    }," ++ 10 :: codes "  """": {}" ++ 10 :: codes "}" ++ [10].
Proof.
  assert (P : proper (VObject sample)).
  { assert (S1 : string_text (codes """a""")) by (exists [97]; split; [apply chars_plain; [discriminate|discriminate|constructor]|reflexivity]).
    assert (S2 : string_text (codes """b\n""")) by (exists [98; 92; 110]; split; [apply chars_plain; [discriminate|discriminate|]; apply chars_escape; [vm_compute; tauto|constructor]|reflexivity]).
    assert (S3 : string_text (codes """c""")) by (exists [99]; split; [apply chars_plain; [discriminate|discriminate|constructor]|reflexivity]).
    assert (S4 : string_text (codes """""")) by (exists []; split; [constructor|reflexivity]).
    assert (D : forall d, digit d -> some_digits [d]) by (intros d X; split; [discriminate|repeat constructor; apply X]).
    assert (N : number_text (codes "-1.5e+3")).
    { exists [45], [49], [46; 53], [101; 43; 51]. split; [auto|]. split; [apply D; unfold digit; lia|]. split; [right; exists 46, [53]; split; [apply D; unfold digit; lia|reflexivity]|]. split; [|reflexivity].
      right. exists 101, [43], [51]. split; [auto|]. split; [auto|]. split; [apply D; unfold digit; lia|reflexivity]. }
    cbn [proper proper_pairs proper_vals sample]. tauto. }
  exists (output sample). split; [|reflexivity]. unfold is_json_for. change (output sample) with (new_line 0 ++ print_value 0 (VObject sample) ++ [10]). apply space_line; [apply value_visible, P|].
  rewrite <- (app_nil_r (tokens_of (VObject sample))). destruct print_lexes as (K & _). apply (K (VObject sample) P); [cbn; auto|]. apply (space_line 0 [] []); [exact Logic.I|constructor].
Qed.

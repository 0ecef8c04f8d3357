(** C70, C71 and C72: names in generated source. *)
From Coq Require Import String.
From Verif Require Import Base GrammarModel NamesModel NamesSpec NamesProofs.
Local Open Scope Z_scope.

(** C70.  Every symbol name gives a C++ identifier, *)
Theorem C70_identifier : forall name, valid_identifier (get_identifier name).
Proof. exact get_identifier_valid_lemma. Qed.
Print Assumptions C70_identifier.
(** and the identifier of a name that is not empty begins with yy_, so that it is not a word of C++ or a
    name of the library. *)
Theorem C70_prefix : forall name, name <> [] -> exists rest, get_identifier name = codes "yy_" ++ rest.
Proof. intros [|c name] N; [congruence|]. eexists. reflexivity. Qed.
Print Assumptions C70_prefix.

(** Every terminal gets a constant, whose name is an identifier: choosing the names always ends. *)
Theorem C70_constants_exist : forall names,
  (exists cs, terminal_constants names = Some cs /\ length cs = length names /\ Forall valid_identifier cs) /\
  (exists cs, nonterminal_constants names = Some cs /\ length cs = length names /\ Forall valid_identifier cs).
Proof.
  intros names. unfold terminal_constants, nonterminal_constants. split.
  - destruct (constants_some (map get_identifier names) []) as (cs & E & L & V). exists cs. rewrite map_length in L. split; [exact E|]. split; [exact L|]. apply V. apply Forall_forall. intros x X. apply in_map_iff in X. destruct X as (n & <- & _). apply C70_identifier.
  - destruct (constants_some (map nonterminal_short names) []) as (cs & E & L & V). exists cs. rewrite map_length in L. split; [exact E|]. split; [exact L|]. apply V. apply Forall_forall. intros x X. apply in_map_iff in X. destruct X as (n & <- & _).
    unfold nonterminal_short. destruct n; [|apply C70_identifier]. change (codes "_unnamed") with [95; 117; 110; 110; 97; 109; 101; 100]. split; [lia|apply chars_ok; reflexivity].
Qed.
Print Assumptions C70_constants_exist.

(** No two symbols get the same constant, if no identifier is that of another symbol with an underscore
    and a number.  Missing from the full property: languages where one is. *)
Theorem C70_constants_partial : forall names cs,
  (forall a b, In a names -> In b names -> ~ numbered (get_identifier a) (get_identifier b)) ->
  terminal_constants names = Some cs -> NoDup cs.
Proof.
  intros names cs NN E. eapply (constants_distinct (map get_identifier names) [] (map get_identifier names)); [apply incl_refl| |exact E].
  intros a b A B. apply in_map_iff in A. apply in_map_iff in B. destruct A as (a' & <- & A), B as (b' & <- & B). auto.
Qed.
Print Assumptions C70_constants_partial.
Theorem C70_nonterminals_partial : forall names cs,
  (forall a b, In a names -> In b names -> ~ numbered (nonterminal_short a) (nonterminal_short b)) ->
  nonterminal_constants names = Some cs -> NoDup cs.
Proof.
  intros names cs NN E. eapply (constants_distinct (map nonterminal_short names) [] (map nonterminal_short names)); [apply incl_refl| |exact E].
  intros a b A B. apply in_map_iff in A. apply in_map_iff in B. destruct A as (a' & <- & A), B as (b' & <- & B). auto.
Qed.
Print Assumptions C70_nonterminals_partial.

(** Symbols of a small language: the second name for an identifier that is used already gets a number. *)
Example C70_nontrivial :
  let names := map codes ["if"; "'if'"; "'+'"; "'-'"; "'<='"; "is-digit"; """if"""]%string in
  terminal_constants names = Some (map codes ["yy_if"; "yy_if_1"; "yy__plus_"; "yy__minus_"; "yy__lessthan__equals_"; "yy_is_digit"; "yy_if_2"]%string) /\
  forall a b, In a names -> In b names -> ~ numbered (get_identifier a) (get_identifier b).
Proof.
  cbv zeta. split; [vm_compute; reflexivity|]. intros a b A B (n & E).
  assert (L : forall x, In x (map codes ["if"; "'if'"; "'+'"; "'-'"; "'<='"; "is-digit"; """if"""]%string) -> ~ 48 <= last (get_identifier x) 0 <= 57).
  { cbn [map In]. intros x X. repeat (destruct X as [<-|X]; [vm_compute; intuition congruence|]). destruct X. }
  apply (L b B). rewrite E. pose proof (digits_nonempty n) as D. change (95 :: digits n) with ([95] ++ digits n). rewrite app_assoc, last_app_nonempty by exact D.
  apply (digits_digit n). destruct (last_split (digits n)) as [X|(u & v & X)]; [congruence|]. rewrite X, last_last. apply in_app_iff. cbn. auto.
Qed.

(** Two terminals with the same constant: a, 'a' and a-1 *)
Theorem C70_constants_refuted : exists names, NoDup names /\
  terminal_constants names = Some (map codes ["yy_a"; "yy_a_1"; "yy_a_1"]%string).
Proof.
  exists (map codes ["a"; "'a'"; "a-1"]%string). split; [|vm_compute; reflexivity].
  cbn [map]. repeat constructor; vm_compute; intuition congruence.
Qed.
Print Assumptions C70_constants_refuted.

(** C71.  Whatever items class names are asked for, and in whatever order, each gets one: the same for the
    same item, different ones for different items, and none of the reserved names. *)
Theorem C71_classes : forall terminal_name nonterminal_name ident reserved items, exists names st,
  class_names_for terminal_name nonterminal_name ident items (mkClasses [] reserved) = Some (names, st) /\
  Forall2 (fun i s => valid_identifier s /\ ~ In s reserved) items names /\
  forall n m i j s t, nth_error items n = Some i -> nth_error items m = Some j -> nth_error names n = Some s -> nth_error names m = Some t ->
    (ident i = ident j <-> s = t).
Proof.
  intros tn nn ident reserved items. destruct (class_names_for_lemma tn nn ident reserved items _ (classes_start reserved)) as (names & st & E & OK & _ & F).
  exists names, st. split; [exact E|]. split.
  - clear E. induction F as [|i s items names I F IH]; constructor; [|exact IH]. destruct (ok_used _ _ OK _ _ I) as (_ & A & B). auto.
  - assert (G : forall n i s, nth_error items n = Some i -> nth_error names n = Some s -> In (ident i, s) (cn_items st)).
    { clear E. induction F as [|x y items names I F IH]; intros [|n] i s A B; try discriminate; [injection A as <-; injection B as <-; exact I|eapply IH; eassumption]. }
    intros n m i j s t A B C D. apply (ok_unique _ _ OK); eauto.
Qed.
Print Assumptions C71_classes.

(** None of the names, as they are before the suffix, is that of the class of the language or one of the
    members that its class has already. *)
Theorem C71_reserved : forall terminal_name nonterminal_name ident language items names st,
  class_names_for terminal_name nonterminal_name ident items (mkClasses [] (reserved language)) = Some (names, st) ->
  forall s, In s names -> s <> get_identifier language /\ ~ In s (map codes ["lr_tables"; "lexer"; "number_of_lexer_states"; "number_of_symbol_sets"; "nt"; "t"]%string).
Proof.
  intros tn nn ident language items names st E s I. destruct (C71_classes tn nn ident (reserved language) items) as (names' & st' & E' & F & _). rewrite E in E'. injection E' as <- <-.
  assert (R : ~ In s (reserved language)). { clear E. induction F as [|i x items names [_ N] F IH]; [destruct I|]. destruct I as [<-|I]; [exact N|apply IH; exact I]. }
  split; intros X; apply R; [subst s; unfold reserved; cbn [In]; tauto|]. cbn [map In] in X. unfold reserved. cbn [In]. tauto.
Qed.
Print Assumptions C71_reserved.
Example C71_reserved_nontrivial : exists st,
  class_names_for (fun s => if s =? 0 then codes "language" else codes "'language'") (fun _ => []) (fun i => match i with ITerm s => s | _ => 9 end) [ITerm 0; ITerm 1] (mkClasses [] (reserved (codes "language"))) =
  Some (map codes ["yy_language_2"; "yy_language_3"]%string, st).
Proof. eexists. vm_compute. reflexivity. Qed.

(** With the suffixes the classes that are written out are also different from each other. *)
Theorem C71_written : forall terminal_name nonterminal_name ident reserved items names st,
  class_names_for terminal_name nonterminal_name ident items (mkClasses [] reserved) = Some (names, st) ->
  forall n m i j s t x, nth_error items n = Some i -> nth_error items m = Some j -> nth_error names n = Some s -> nth_error names m = Some t ->
  In x (classes_of i s) -> valid_identifier x /\ NoDup (classes_of i s) /\ (In x (classes_of j t) -> ident i = ident j).
Proof.
  intros tn nn ident reserved items names st E n m i j s t x A B C D X. destruct (C71_classes tn nn ident reserved items) as (names' & st' & E' & F & U). rewrite E in E'. injection E' as <- <-. split; [|split].
  - assert (V : valid_identifier s). { clear -A C F. revert n A C. induction F as [|a b items names [V _] F IH]; intros [|n] A C; try discriminate; [injection C as <-; exact V|eapply IH; eassumption]. }
    apply classes_of_name in X. destruct X as [-> | ->]; (apply suffixed_valid; [exact V|]).
    + change type_suffix with [95; 110]. apply chars_ok; reflexivity.
    + change (type_suffix ++ content_suffix) with [95; 110; 95; 99; 111; 110; 116; 101; 110; 116]. apply chars_ok; reflexivity.
  - apply classes_of_nodup.
  - intros Y. apply (U n m i j s t A B C D). eapply classes_of_disjoint; eassumption.
Qed.
Print Assumptions C71_written.

(** No class has the name of the class of the language they are all in, unless that ends in _n or in
    _n_content.  Missing from the full property: languages whose name does. *)
Theorem C71_language_partial : forall language i s x, In x (classes_of i s) ->
  (forall a, get_identifier language <> a ++ codes "_n") -> (forall a, get_identifier language <> a ++ codes "_n_content") -> x <> get_identifier language.
Proof. intros language i s x X A B E. apply classes_of_name in X. destruct X as [X|X]; rewrite X in E; [apply (A s)|apply (B s)]; symmetry; exact E. Qed.
Print Assumptions C71_language_partial.

(** Items of a rule with a list: an identifier, a string and a list of identifiers *)
Definition C71_terminals (s : Z) : str := if s =? 0 then codes "id" else codes "'id'".
Definition C71_nonterminals (s : Z) : str := codes "<list-of-id>".
Definition C71_ident (i : item) : Z := match i with ITerm s => s | INonterm s => 2 + s | _ => 9 end.
Example C71_nontrivial :
  let items := [ITerm 0; ITerm 1; INonterm 0; IEbnf Repeat [[ITerm 0]]; ITerm 1] in
  exists st, class_names_for C71_terminals C71_nonterminals C71_ident items (mkClasses [] (reserved (codes "language"))) =
  Some (map codes ["yy_id"; "yy_id_2"; "yy_list_of_id"; "yy_list_of_id_2"; "yy_id_2"]%string, st) /\
  classes_of (IEbnf Repeat [[ITerm 0]]) (codes "yy_list_of_id_2") = map codes ["yy_list_of_id_2_n"; "yy_list_of_id_2_n_content"]%string.
Proof. eexists. split; vm_compute; reflexivity. Qed.

(** The class of the language is written without the suffix that the classes in it have: the language
    simple-n has a class yy_simple_n in its class yy_simple_n, for a nonterminal simple. *)
Theorem C71_language_refuted : exists terminal_name nonterminal_name ident language i s st,
  class_name terminal_name nonterminal_name ident i (mkClasses [] (reserved language)) = Some (s, st) /\ In (get_identifier language) (classes_of i s).
Proof.
  exists (fun _ => []), (fun _ => codes "<simple>"), C71_ident, (codes "simple-n"), (INonterm 0). eexists. eexists. split; [vm_compute; reflexivity|]. left. vm_compute. reflexivity.
Qed.
Print Assumptions C71_language_refuted.

(** C72.  The items of a rule get names that are different from each other and not empty: the name given in
    the language or the name of the item, perhaps with a number. *)
Theorem C72_names : forall terminal_name nonterminal_name items, exists names,
  names_of_rule terminal_name nonterminal_name items = Some names /\ NoDup names /\ ~ In [] names /\
  Forall2 (fun x n => let base := match snd x with [] => name_for_item terminal_name nonterminal_name (fst x) | _ => snd x end in n = base \/ numbered base n) items names.
Proof.
  intros tn nn items. destruct (unique_names_lemma tn nn items []) as (names & E & _ & ND & P & Q). exists names. split; [exact E|]. split; [exact ND|]. split; [intros X; apply P in X; apply (proj1 X); reflexivity|exact Q].
Qed.
Print Assumptions C72_names.
Example C72_nontrivial :
  names_of_rule C71_terminals C71_nonterminals [(ITerm 0, []); (ITerm 1, codes "op"); (INonterm 0, []); (ITerm 0, []); (IEbnf Optional [[ITerm 0; ITerm 1]; []], []); (ITerm 1, codes "op")] =
  Some (map codes ["id"; "op"; "list-of-id"; "id_2"; "optional_id_id_or_empty"; "op_2"]%string).
Proof. vm_compute. reflexivity. Qed.

(** The name of a terminal or nonterminal is its own, and that without the quotes or brackets around it. *)
Theorem C72_own_name : forall terminal_name nonterminal_name n s, s <> [] ->
  (In (terminal_name n) [codes "'" ++ s ++ codes "'"; codes """" ++ s ++ codes """"] -> name_for_item terminal_name nonterminal_name (ITerm n) = s) /\
  (nonterminal_name n = codes "<" ++ s ++ codes ">" -> name_for_item terminal_name nonterminal_name (INonterm n) = s) /\
  (terminal_name n = s -> (forall q, In q [39; 34; 60] -> hd 0 s <> q) -> name_for_item terminal_name nonterminal_name (ITerm n) = s).
Proof.
  intros tn nn n s N. assert (K : nonempty s = s) by (destruct s; [congruence|reflexivity]).
  assert (Q : forall a b, ((a =? 39) && (b =? 39)) || ((a =? 34) && (b =? 34)) || ((a =? 60) && (b =? 62)) = true -> strip ([a] ++ s ++ [b]) = s).
  { intros a b T. unfold strip. rewrite !app_length. cbn [length]. replace (Nat.ltb _ 3) with false by (destruct s; [congruence|cbn [length]; symmetry; apply Nat.ltb_ge; lia]).
    unfold unquote. cbn [app hd tl]. replace (last (a :: s ++ [b]) 0) with b by (change (a :: s ++ [b]) with ((a :: s) ++ [b]); rewrite last_last; reflexivity). rewrite T, removelast_last. reflexivity. }
  cbn [name_for_item]. split; [|split].
  - cbn [In]. intros [<-|[<-|[]]]; (etransitivity; [|exact K]); apply f_equal; [exact (Q 39 39 eq_refl)|exact (Q 34 34 eq_refl)].
  - intros ->. etransitivity; [|exact K]. apply f_equal. exact (Q 60 62 eq_refl).
  - intros -> H. replace (strip s) with s; [exact K|]. unfold strip, unquote. destruct (Nat.ltb (length s) 3); [reflexivity|].
    rewrite (proj2 (Z.eqb_neq _ 39)), (proj2 (Z.eqb_neq _ 34)), (proj2 (Z.eqb_neq _ 60)) by (apply H; cbn; tauto). reflexivity.
Qed.
Print Assumptions C72_own_name.

(** The variables of the class are the identifiers of these names, and those need not be different: the
    items a-b and a_b of one rule get the same variable. *)
Theorem C72_variables_refuted : exists terminal_name nonterminal_name items names,
  names_of_rule terminal_name nonterminal_name items = Some names /\ NoDup names /\ map get_identifier names = [codes "yy_a_b"; codes "yy_a_b"].
Proof.
  exists (fun s => if s =? 0 then codes "a-b" else codes "a_b"), (fun _ => []), [(ITerm 0, []); (ITerm 1, [])]. eexists. split; [vm_compute; reflexivity|]. split; [|vm_compute; reflexivity].
  repeat constructor; cbn; intuition congruence.
Qed.
Print Assumptions C72_variables_refuted.

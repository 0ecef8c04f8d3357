(** C11: texts that the regular expression compiler accepts and that do not mean what they say.
    None of them is the text of a well formed expression ([well_formed], RegexSpec), which is why
    C11_regex_partial does not speak of them. *)
From Coq Require Import String.
From Verif Require Import Base SymbolSetModel SymbolSetSpec SymbolMapModel NdfaModel NdfaSpec TextModel TextSpec CaseTables NamesModel
  RegexModel RegexSpec RegexProofs RegexDefsProofs RegexTokenProofs RegexCheckModel RegexProps.
Local Open Scope string_scope.
Local Open Scope list_scope.
Local Open Scope Z_scope.

(** The automaton for an expression alone, and the words it accepts *)
Definition compiles_to (e : string) (words : list Z -> Prop) : Prop :=
  exists d : ndfa Z, (forall fuel, (20 <= fuel)%nat -> add_token no_names no_names no_category no_defs fuel ndfa_new false false 0 (Regex (codes e)) 5 = Some d) /\
    forall w, accepts d 0 w 5 <-> words w.

Definition odd_nfa (e : string) : ndfa Z :=
  match add_token no_names no_names no_category no_defs 20 ndfa_new false false 0 (Regex (codes e)) 5 with Some d => d | None => ndfa_new end.

Ltac same_fuel := let fuel := fresh "fuel" in let L := fresh "L" in intros fuel L; do 20 (destruct fuel as [|fuel]; [lia|]); vm_compute; destruct fuel; reflexivity.

(** The paths of an automaton whose states have one transition at most *)
Lemma path_end (d : ndfa Z) q w q' : get_state d q = [] -> path d q w q' -> w = [] /\ q' = q.
Proof. intros E P. inversion P as [|? ? ? ? ? I|? ? ? ? ? ? I]; subst; [auto|rewrite E in I; destruct I|rewrite E in I; destruct I]. Qed.
Lemma path_only (d : ndfa Z) q id r w q' : get_state d q = [(id, r)] -> path d q w q' -> (w = [] /\ q' = q) \/ (sm_get (n_symbols d) id = [] /\ path d r w q') \/
  exists x v, w = x :: v /\ contains (sm_get (n_symbols d) id) x = true /\ path d r v q'.
Proof.
  intros E P. inversion P as [|? ? ? ? ? I S P'|? ? ? ? ? ? I S P']; subst; [auto| |]; rewrite E in I; destruct I as [I|[]]; injection I as <- <-; [auto|]. right. right. eauto.
Qed.
Lemma one_range a b x : contains [mkR a b] x = true <-> a <= x < b.
Proof.
  unfold contains, range_of_value. cbn. destruct (Z.leb_spec a x) as [L|L]; cbn [rev app]; [|split; [discriminate|lia]].
  unfold range_has. cbn [lo hi]. destruct (Z.ltb_spec x a); [split; [discriminate|lia]|]. destruct (Z.leb_spec b x); split; (discriminate || lia || reflexivity).
Qed.


(** [[a-]b]: the class is a range up to its own closing bracket, and the rest of the expression is
    part of it; no word at all is accepted, and the checks of expressions find nothing. *)
Theorem C11_dash_refuted : compiles_to "[a-]b" (fun _ => False) /\ forall known, check_regex known (codes "[a-]b") = Some [].
Proof.
  split; [|intros known; reflexivity]. exists (odd_nfa "[a-]b"). split; [same_fuel|]. intros w. split; [|intros []]. intros (q & P & I).
  destruct (path_only (odd_nfa "[a-]b") 0%nat 0 1%nat _ _ ltac:(vm_compute; reflexivity) P) as [(-> & ->)|[(_ & P1)|(x & v & _ & X & _)]]; [vm_compute in I; exact I| |discriminate X].
  destruct (path_only (odd_nfa "[a-]b") 1%nat 1 2%nat _ _ ltac:(vm_compute; reflexivity) P1) as [(-> & ->)|[(E & _)|(x & v & _ & X & _)]]; [vm_compute in I; exact I|discriminate E|].
  change (contains [mkR 97 94] x = true) in X. apply one_range in X. lia.
Qed.
Print Assumptions C11_dash_refuted.

(** [[z-a]]: a range with its ends exchanged accepts nothing, silently. *)
Theorem C11_backwards_refuted : compiles_to "[z-a]" (fun _ => False) /\ forall known, check_regex known (codes "[z-a]") = Some [].
Proof.
  split; [|intros known; reflexivity]. exists (odd_nfa "[z-a]"). split; [same_fuel|]. intros w. split; [|intros []]. intros (q & P & I).
  destruct (path_only (odd_nfa "[z-a]") 0%nat 0 1%nat _ _ ltac:(vm_compute; reflexivity) P) as [(-> & ->)|[(_ & P1)|(x & v & _ & X & _)]]; [vm_compute in I; exact I| |discriminate X].
  destruct (path_only (odd_nfa "[z-a]") 1%nat 1 2%nat _ _ ltac:(vm_compute; reflexivity) P1) as [(-> & ->)|[(E & _)|(x & v & _ & X & _)]]; [vm_compute in I; exact I|discriminate E|].
  change (contains [mkR 122 98] x = true) in X. apply one_range in X. lia.
Qed.
Print Assumptions C11_backwards_refuted.

(** [[]]: a class without members accepts the empty word, because the empty set of symbols stands
    for a silent transition. *)
Theorem C11_no_members_refuted : compiles_to "[]" (fun w => w = []) /\ forall known, check_regex known (codes "[]") = Some [].
Proof.
  split; [|intros known; reflexivity]. exists (odd_nfa "[]"). split; [same_fuel|]. intros w. split.
  - intros (q & P & I).
    destruct (path_only (odd_nfa "[]") 0%nat 0 1%nat _ _ ltac:(vm_compute; reflexivity) P) as [(-> & ->)|[(_ & P1)|(x & v & _ & X & _)]]; [reflexivity| |discriminate X].
    destruct (path_only (odd_nfa "[]") 1%nat 0 2%nat _ _ ltac:(vm_compute; reflexivity) P1) as [(-> & ->)|[(_ & P2)|(x & v & _ & X & _)]]; [reflexivity| |discriminate X].
    apply (path_end (odd_nfa "[]") 2%nat _ _ ltac:(vm_compute; reflexivity)) in P2 as (-> & _). reflexivity.
  - intros ->. exists 2%nat. split; [|vm_compute; auto]. eapply path_eps; [vm_compute; left; reflexivity|vm_compute; reflexivity|]. eapply path_eps; [vm_compute; left; reflexivity|vm_compute; reflexivity|constructor].
Qed.
Print Assumptions C11_no_members_refuted.

(** [[\]]: a class that is not closed loses its last member; here it accepts the empty word. *)
Theorem C11_open_class_refuted : compiles_to "[\]" (fun w => w = []).
Proof.
  exists (odd_nfa "[\]"). split; [same_fuel|]. intros w. split.
  - intros (q & P & I).
    destruct (path_only (odd_nfa "[\]") 0%nat 0 1%nat _ _ ltac:(vm_compute; reflexivity) P) as [(-> & ->)|[(_ & P1)|(x & v & _ & X & _)]]; [reflexivity| |discriminate X].
    destruct (path_only (odd_nfa "[\]") 1%nat 0 2%nat _ _ ltac:(vm_compute; reflexivity) P1) as [(-> & ->)|[(_ & P2)|(x & v & _ & X & _)]]; [reflexivity| |discriminate X].
    apply (path_end (odd_nfa "[\]") 2%nat _ _ ltac:(vm_compute; reflexivity)) in P2 as (-> & _). reflexivity.
  - intros ->. exists 2%nat. split; [|vm_compute; auto]. eapply path_eps; [vm_compute; left; reflexivity|vm_compute; reflexivity|]. eapply path_eps; [vm_compute; left; reflexivity|vm_compute; reflexivity|constructor].
Qed.
Print Assumptions C11_open_class_refuted.

(** [\8]: taken for an octal number without digits; accepts the character 0 followed by an 8. *)
Theorem C11_octal_refuted : compiles_to "\8" (fun w => w = [0; 56]) /\ forall known, check_regex known (codes "\8") = Some [].
Proof.
  split; [|intros known; reflexivity]. exists (odd_nfa "\8"). split; [same_fuel|]. intros w. split.
  - intros (q & P & I).
    destruct (path_only (odd_nfa "\8") 0%nat 0 1%nat _ _ ltac:(vm_compute; reflexivity) P) as [(-> & ->)|[(_ & P1)|(x & v & _ & X & _)]]; [vm_compute in I; destruct I| |discriminate X].
    destruct (path_only (odd_nfa "\8") 1%nat 1 2%nat _ _ ltac:(vm_compute; reflexivity) P1) as [(-> & ->)|[(E & _)|(x & v & -> & X & P2)]]; [vm_compute in I; destruct I|discriminate E|].
    destruct (path_only (odd_nfa "\8") 2%nat 2 3%nat _ _ ltac:(vm_compute; reflexivity) P2) as [(-> & ->)|[(E & _)|(y & v' & -> & Y & P3)]]; [vm_compute in I; destruct I|discriminate E|].
    apply (path_end (odd_nfa "\8") 3%nat _ _ ltac:(vm_compute; reflexivity)) in P3 as (-> & _). change (contains [mkR 0 1] x = true) in X. change (contains [mkR 56 57] y = true) in Y. apply one_range in X, Y. f_equal; [lia|]. f_equal; lia.
  - intros ->. exists 3%nat. split; [|vm_compute; auto]. eapply path_eps; [vm_compute; left; reflexivity|vm_compute; reflexivity|]. eapply path_sym; [vm_compute; left; reflexivity|vm_compute; reflexivity|].
    eapply path_sym; [vm_compute; left; reflexivity|vm_compute; reflexivity|constructor].
Qed.
Print Assumptions C11_octal_refuted.

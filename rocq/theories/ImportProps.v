(** C76: import of language files. *)
From Verif Require Import Base OrdMap TermDictModel GrammarProofs ImportModel ImportSpec ImportProofs.
Local Open Scope Z_scope.

(** Where two names for one file have the same real path ([same_files]), the files that are used are exactly
    those that the first file brings in, directly or through others; each is read once (the first has been
    read before); a language is found if and only if one of these files has a block for it; it is reported
    once for each further block; and the file said to have it does have it.  [all] is the list of the files in
    the order they are looked at.  Missing from the full property: consoles that give two real paths to one
    file. *)
Theorem C76_imports_partial : forall block real_path load root (f : option (file block)) fuel r,
  same_files real_path load root f -> compile block real_path load fuel root f = Some r ->
  exists all : list (name * option (file block)),
    NoDup (map fst all) /\ (forall p g, In (p, g) all <-> reached real_path load root f p g) /\
    NoDup (map real_path (root :: i_reads r)) /\ (forall p, In p (map real_path (root :: i_reads r)) <-> In p (map fst all)) /\
    (forall n, language_with_name block n r = hd_error (blocks_for n all) /\ said_again n (i_messages r) = (length (blocks_for n all) - 1)%nat) /\
    (forall n s, file_with_language block n r = Some s -> exists g b, reached real_path load root f (real_path s) (Some g) /\ In (Language n b) g /\ language_with_name block n r = Some b).
Proof.
  intros block real_path load root f fuel r SF E. pose proof SF as (ID & _). destruct (compile_ok real_path load root f fuel r ID E) as (all & A & B & C & D & F & G & H & I). exists all.
  assert (BI : forall p g, In (p, g) all <-> reached real_path load root f p g) by (intros p g; split; [apply B|apply I, SF]).
  split; [exact A|]. split; [exact BI|]. split; [exact C|]. split.
  - intros p. cbn [map In]. split; [intros [<-|X]|intros X].
    + apply in_map_iff. exists (real_path root, f). split; [reflexivity|]. apply BI. apply reached_root.
    + apply in_map_iff in X. destruct X as (n & <- & X). apply G, X.
    + destruct (H p X) as (n & [->|W] & <-); [auto|]. right. apply in_map. exact W.
  - split; [exact D|]. intros n s X. destruct (F n s X) as (_ & g & b & Y & Z & W). exists g, b. split; [apply B, Y|auto].
Qed.
Print Assumptions C76_imports_partial.

(** The import ends, also for files that import each other, if there are finitely many names. *)
Theorem C76_ends : forall block real_path load root (f : option (file block)) names,
  (forall g m, f = Some g -> In (Import m) g -> In m names) -> (forall n g m, In n names -> load n = Some g -> In (Import m) g -> In m names) ->
  forall fuel, (length names + 1 < fuel)%nat -> compile block real_path load fuel root f <> None.
Proof.
  intros block real_path load root f names R C fuel L. unfold compile. apply (process_ends real_path load root f names C).
  - constructor; [constructor|constructor].
  - intros q g [X|[]] h m E I. injection X as _ <-. apply (R h m E I).
  - cbn [length]. assert (U : (unknown (map real_path names) [real_path (real_path root)] <= length names)%nat); [|lia].
    unfold unknown. rewrite <- (map_length real_path names). generalize (map real_path names) as l. induction l as [|x l IH]; [apply Nat.le_refl|]. cbn [filter]. destruct (negb _); cbn [length]; lia.
Qed.
Print Assumptions C76_ends.

(** Files 1 and 2 that import each other, and 3, which is missing; both have a language 7, 2 has a language 8 *)
Definition two_load (n : name) : option (file Z) :=
  match n with
  | [1] => Some [Import [2]; Language [7] 70; Import [3]; OtherDefn]
  | [2] => Some [Language [8] 80; Import [1]; Language [7] 71; Import [2]]
  | _ => None
  end.
Definition same (n : name) : name := n.
Example C76_nontrivial : same_files same two_load [1] (two_load [1]) /\
  exists r, compile Z same two_load 10 [1] (two_load [1]) = Some r /\ i_reads r = [[2]; [3]] /\ language_with_name Z [7] r = Some 70 /\ language_with_name Z [8] r = Some 80 /\
    i_messages r = [Ambiguous [2] [7]; Original [1] [7]] /\ file_with_language Z [8] r = Some [2] /\ language_with_name Z [9] r = None.
Proof.
  split; [|eexists; split; [vm_compute; reflexivity|repeat split; reflexivity]]. split; [reflexivity|]. split; unfold same; [intros n ->; reflexivity|intros n m ->; reflexivity].
Qed.
Example C76_ends_nontrivial : forall n g m, In n [[1]; [2]; [3]] -> two_load n = Some g -> In (Import m) g -> In m [[1]; [2]; [3]].
Proof. intros n g m [<-|[<-|[<-|[]]]] E I; cbn in E; try discriminate E; injection E as <-; cbn in I; intuition (try discriminate; match goal with H : Import _ = Import _ |- _ => injection H as <- end; cbn; auto). Qed.

(** console::real_path gives every name back as it is, and the console of the tool only puts the current
    directory in front.  Then a file that is imported by two names, a.tp and ./a.tp (here 4 and 46 4), is read
    twice, and its languages are said to be defined more than once. *)
Definition alias_load (n : name) : option (file Z) := match n with [4] | [46; 4] => Some [Language [7] 70] | _ => None end.
Theorem C76_alias_refuted : exists r, compile Z same alias_load 10 [1] (Some [Import [4]; Import [46; 4]]) = Some r /\
  alias_load [4] = alias_load [46; 4] /\ i_reads r = [[4]; [46; 4]] /\ said_again [7] (i_messages r) = 1%nat.
Proof. eexists. split; [vm_compute; reflexivity|]. repeat split; reflexivity. Qed.
Print Assumptions C76_alias_refuted.

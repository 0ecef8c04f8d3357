(** C19, C20, C46: property theorems for text conversion. *)
From Verif Require Import Base SymbolSetModel SymbolSetSpec TextModel TextSpec CaseTables TextProofs.
Local Open Scope Z_scope.

(** C19 is false as stated: whatever ASCII character (or 0) the caller's variable holds, the
    text of the single character U+00E9 is not decoded. *)
Theorem C19_utf8_refuted : exists cps, Forall scalar cps /\ forall target, 0 <= target < 128 -> ~ decodes target cps.
Proof. exact utf8_refuted_lemma. Qed.
Print Assumptions C19_utf8_refuted.

(** Even if the caller's variable happens to hold a byte of the right form, a character beyond
    U+FFFF is decoded to the wrong surrogate pair, the second byte being used twice. *)
Theorem C19_four_byte_refuted : exists c, scalar c /\ utf16 c = [0xd800; 0xdf48] /\
  u8_run 2 0xf0 (u8_new (encode c)) = [(0xd800, true); (0xdf50, true)].
Proof. exists 0x10348. split; [right; vm_compute; split; congruence|]. split; vm_compute; reflexivity. Qed.
Print Assumptions C19_four_byte_refuted.

(** C19, the part that holds: ASCII text is decoded, whatever the variable held before, and
    reads behind the end deliver 0, the reader not being good. *)
Theorem C19_ascii_partial (cps : list Z) (target : Z) (n : nat) : Forall (fun c => 0 <= c < 128) cps ->
  decodes target cps /\
  u8_run (length cps + n) target (u8_new (flat_map encode cps)) = map (fun u => (u, true)) cps ++ repeat (0, false) n.
Proof.
  intros F. split; [exact (decodes_ascii target cps F)|]. rewrite (encode_ascii cps F). exact (ascii_lemma n cps target F).
Qed.
Print Assumptions C19_ascii_partial.

(** What happens to any other text: it is decoded up to the first character that is not
    ASCII, where the reader goes bad.  Missing from the full property: all of those. *)
Theorem C19_stops_partial (cps rest : list Z) (c target : Z) (n : nat) :
  Forall (fun c => 0 <= c < 128) cps -> 0 <= target < 128 -> 128 <= c -> scalar c ->
  u8_run (length cps + n) target (u8_new (flat_map encode (cps ++ c :: rest)))
  = map (fun u => (u, true)) cps ++ repeat (0, false) n.
Proof. exact (fun F T C S => stops_lemma n cps target c rest F T C S). Qed.
Print Assumptions C19_stops_partial.

Example C19_nontrivial :
  u8_run 6 0 (u8_new (flat_map encode [104; 105; 0x20ac; 33])) =
    [(104, true); (105, true); (0, false); (0, false); (0, false); (0, false)] /\
  Forall scalar [104; 105; 0x20ac; 33] /\ flat_map encode [0x20ac; 0x10348] = [0xe2; 0x82; 0xac; 0xf0; 0x90; 0x8d; 0x88] /\
  flat_map utf16 [0x20ac; 0x10348] = [0x20ac; 0xd800; 0xdf48].
Proof.
  split; [vm_compute; reflexivity|]. split; [repeat constructor; unfold scalar; lia|]. split; vm_compute; reflexivity.
Qed.

(** C20 is false as stated: the uppercase equivalent of [b-{] contains 91 (an opening
    bracket), which is the image of none of its members, and lacks 123, which is its own
    image. *)
Theorem C20_case_refuted : exists s res, normal s /\ to_case uppercase_map s = Some res /\
  contains res 91 = true /\ (forall x, contains s x = true -> case_of uppercase_map x <> 91) /\
  contains s 123 = true /\ case_of uppercase_map 123 = 123 /\ contains res 123 = false.
Proof.
  exists [mkR 98 124]. eexists. split; [apply SymbolSetProofs.normal_b_sound; vm_compute; reflexivity|].
  split; [vm_compute; reflexivity|]. split; [vm_compute; reflexivity|]. split; [|split; [vm_compute; reflexivity|split; vm_compute; reflexivity]].
  intros x Hx. apply SymbolSetProofs.contains_spec in Hx; [|apply SymbolSetProofs.normal_wf, SymbolSetProofs.normal_b_sound; vm_compute; reflexivity].
  apply SymbolSetProofs.mem_cons in Hx. destruct Hx as [[H1 H2]|Hx]; [|apply SymbolSetProofs.mem_nil in Hx; destruct Hx]. cbn [lo hi] in H1, H2.
  destruct (Z.eq_dec x 123) as [->|]; [vm_compute; discriminate|].
  unfold uppercase_map. cbn [case_of e_lower e_upper e_to].
  destruct (Z.leb_spec 97 x); [|lia]. destruct (Z.ltb_spec x 123); [|lia]. cbn [andb]. lia.
Qed.
Print Assumptions C20_case_refuted.

(** C20, the part that holds: for both tables and every set without a range that starts
    inside an entry of the table and ends behind it, the result contains exactly the images.
    Missing from the full property: the sets with such a range. *)
Theorem C20_case_partial (s : symbol_set) (table : list map_entry) :
  table = uppercase_map \/ table = lowercase_map -> normal s -> no_straddle table s ->
  exists res, to_case table s = Some res /\
    forall y, contains res y = true <-> exists x, contains s x = true /\ case_of table x = y.
Proof.
  intros T N. exact (case_lemma table s (table_sorted table T) N).
Qed.
Print Assumptions C20_case_partial.

(** In particular single characters, from which case-insensitive literals and regular
    expressions are made. *)
Theorem C20_single_partial (c : Z) (table : list map_entry) :
  table = uppercase_map \/ table = lowercase_map -> 0 <= c < c_MaxSymbol ->
  exists res, to_case table [mkR c (c + 1)] = Some res /\ forall y, contains res y = true <-> y = case_of table c.
Proof.
  intros T. exact (single_case_lemma table c (table_sorted table T)).
Qed.
Print Assumptions C20_single_partial.

Example C20_nontrivial :
  length uppercase_map = 621%nat /\ length lowercase_map = 613%nat /\
  case_of uppercase_map 0x3b1 = 0x391 /\ case_of lowercase_map 0x391 = 0x3b1 /\
  to_case uppercase_map [mkR 48 58; mkR 97 103; mkR 940 965] =
    Some [mkR 48 58; mkR 65 71; mkR 902 903; mkR 904 907; mkR 913 930; mkR 931 933; mkR 944 945] /\
  no_straddle uppercase_map [mkR 48 58; mkR 97 103; mkR 940 965].
Proof.
  repeat split; try (vm_compute; reflexivity). intros r e Hr He.
  assert (F : forallb (fun e => forallb (fun r => negb ((e_lower e <? lo r) && (lo r <? e_upper e) && (e_upper e <? hi r)))
    [mkR 48 58; mkR 97 103; mkR 940 965]) uppercase_map = true) by (vm_compute; reflexivity).
  rewrite forallb_forall in F. specialize (F e He). rewrite forallb_forall in F. specialize (F r Hr). cbv beta in F. lia.
Qed.

(** C46: the characters between the first and the last character, with the escapes
    replaced.  [size_t] has 64 bits. *)
Theorem C46_dequote (p q : Z) (body s : list Z) : represents body s -> Z.of_nat (length body) + 2 < 2 ^ 64 ->
  dequote_string (p :: body ++ [q]) = Some s.
Proof. exact (dequote_lemma p q body s). Qed.
Print Assumptions C46_dequote.

Theorem C46_round_trip (s : list Z) : Z.of_nat (length (quote s)) < 2 ^ 64 -> dequote_string (quote s) = Some s.
Proof. exact (round_trip_lemma s). Qed.
Print Assumptions C46_round_trip.

(** A text has one meaning. *)
Theorem C46_unique (body s s' : list Z) : represents body s -> represents body s' -> s = s'.
Proof. exact (fun R => represents_unique body s R s'). Qed.
Print Assumptions C46_unique.

(** The call is defined for every string but the empty one. *)
Theorem C46_defined (s : list Z) : Z.of_nat (length s) < 2 ^ 64 -> dequote_string s = None <-> s = [].
Proof. exact (dequote_defined_lemma s). Qed.
Print Assumptions C46_defined.

Example C46_nontrivial :
  quote [97; 34; 92; 110] = [34; 97; 92; 34; 92; 92; 110; 34] /\
  dequote_string [34; 97; 92; 34; 92; 92; 110; 34] = Some [97; 34; 92; 110] /\
  dequote_string [34; 92; 110; 92; 120; 34] = Some [10; 120] /\ represents [92; 110; 92; 120] [10; 120].
Proof.
  split; [reflexivity|]. split; [reflexivity|]. split; [reflexivity|].
  apply R_control; [cbn; auto 8|]. apply R_escape; [cbn; lia|constructor].
Qed.

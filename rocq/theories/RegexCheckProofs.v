(** Proofs about the checks of regular expressions. *)
From Verif Require Import Base SymbolSetModel LexerModel TextModel RegexModel RegexSpec LexStageModel RegexCheckModel RegexCheckSpec.
Local Open Scope Z_scope.

(** ** Brackets *)
Fixpoint closedb (d : nat) (ps : list piece) : bool :=
  match ps with
  | [] => false
  | Open :: ps => closedb (S d) ps
  | Close :: ps => match d with O => true | S d => closedb d ps end
  | _ :: ps => closedb d ps
  end.
Lemma closedb_balanced inner : balanced inner -> forall d qs, closedb d (inner ++ qs) = closedb d qs.
Proof.
  induction 1 as [|p ps NO NC _ IH|inner ps _ IH1 _ IH2]; intros d qs; [reflexivity| |].
  - destruct p; try contradiction; cbn; apply IH.
  - cbn [closedb app]. rewrite <- app_assoc, IH1. cbn [closedb app]. apply IH2.
Qed.
Lemma closedb_split n : forall ps d, (length ps <= n)%nat -> closedb d ps = true -> exists inner rest, balanced inner /\ ps = inner ++ Close :: rest /\ match d with O => True | S d => closedb d rest = true end.
Proof.
  induction n as [|n IH]; intros ps d L H; (destruct ps as [|p ps]; [discriminate H|]); cbn [length] in L; [lia|].
  assert (PL : p <> Open -> p <> Close -> closedb d ps = true -> exists inner rest, balanced inner /\ p :: ps = inner ++ Close :: rest /\ match d with O => True | S d => closedb d rest = true end).
  { intros NO NC H'. destruct (IH ps d ltac:(lia) H') as (inner & rest & B & -> & R). exists (p :: inner), rest. split; [constructor; assumption|]. split; [reflexivity|exact R]. }
  destruct p; cbn [closedb] in H; try (apply PL; [discriminate|discriminate|exact H]).
  - destruct (IH ps (S d) ltac:(lia) H) as (inner & rest & B & -> & R). rewrite app_length in L. cbn [length] in L. destruct (IH rest d ltac:(lia) R) as (inner2 & rest2 & B2 & -> & R2).
    exists (Open :: inner ++ Close :: inner2), rest2. split; [apply balanced_group; assumption|]. split; [cbn; rewrite <- app_assoc; reflexivity|exact R2].
  - exists [], ps. split; [constructor|]. split; [reflexivity|]. destruct d; [exact Logic.I|exact H].
Qed.
Lemma closedb_spec ps : closedb 0 ps = true <-> closed ps.
Proof.
  split.
  - intros H. destruct (closedb_split (length ps) ps 0 (le_n _) H) as (inner & rest & B & E & _). exists inner, rest. auto.
  - intros (inner & rest & -> & B). rewrite closedb_balanced by exact B. reflexivity.
Qed.

(** ** The search for the partner of a bracket *)
Lemma step_inside c b : b <> 41 -> c <> b -> forall st, bracket_step c (b :: st) = b :: st.
Proof.
  intros NR NB st. unfold bracket_step, outside. rewrite (proj2 (Z.eqb_neq b 41) NR), (proj2 (Z.eqb_neq b c)) by congruence. destruct (c =? 123), (c =? 91), (c =? 40), ((c =? 41) || (c =? 93) || (c =? 125)); reflexivity.
Qed.
Lemma search_letters body st : Forall letter_ok body -> Forall harmless_letter body -> forall rest, bracket_search (flat_map letter_text body ++ rest) (93 :: st) = bracket_search rest (93 :: st).
Proof.
  induction 1 as [|l body O _ IH]; intros H rest; [reflexivity|]. inversion H as [|? ? H1 H2]; subst. cbn [flat_map]. rewrite <- app_assoc. destruct l as [c|c]; cbn [letter_text app].
  - cbn [bracket_search]. rewrite step_inside by (try lia; apply O). apply IH, H2.
  - cbn [bracket_search]. rewrite step_inside by lia. rewrite step_inside; [apply IH, H2|lia|]. intros ->. apply H1. reflexivity.
Qed.
Lemma search_name st name : ~ In 125 name -> forall rest, bracket_search (name ++ rest) (125 :: st) = bracket_search rest (125 :: st).
Proof.
  induction name as [|c name IH]; intros N rest; [reflexivity|]. cbn [app bracket_search]. rewrite step_inside; [apply IH; intros X; apply N; right; exact X|lia|]. intros ->. apply N. left. reflexivity.
Qed.
Lemma step_ordinary c st : ~ In c [40; 41; 91; 123] -> bracket_step c (41 :: st) = 41 :: st.
Proof.
  intros N. cbn [In] in N. unfold bracket_step. rewrite (proj2 (Z.eqb_neq c 123)), (proj2 (Z.eqb_neq c 91)), (proj2 (Z.eqb_neq c 40)) by lia. rewrite (proj2 (Z.eqb_neq 41 c)) by lia. destruct ((c =? 41) || (c =? 93) || (c =? 125)); reflexivity.
Qed.
Lemma ordinary_dec c : {In c [40; 41; 91; 123]} + {~ In c [40; 41; 91; 123]}.
Proof. apply in_dec, Z.eq_dec. Qed.
Lemma search_pieces e : ending_ok e -> forall ps d, Forall piece_ok ps -> harmless (S d) ps e -> snd (bracket_search (regex_text ps e) (repeat 41 (S d))) = closedb d ps.
Proof.
  intros EO ps. induction ps as [|p ps IH]; intros d PO H.
  - cbn [regex_text pieces_text flat_map app closedb harmless] in *. unfold regex_text, pieces_text. cbn [flat_map app repeat]. destruct e as [| |body b|name]; cbn [ending_text]; [reflexivity|reflexivity| |].
    + cbn [bracket_search]. change (bracket_step 91 (41 :: repeat 41 d)) with (93 :: 41 :: repeat 41 d). cbn iota. rewrite search_letters by assumption. destruct b; reflexivity.
    + cbn [bracket_search]. change (bracket_step 123 (41 :: repeat 41 d)) with (125 :: 41 :: repeat 41 d). cbn iota. rewrite <- (app_nil_r name), search_name by exact EO. reflexivity.
  - inversion PO as [|? ? P1 P2]; subst. unfold regex_text, pieces_text in *. cbn [flat_map]. rewrite <- !app_assoc. destruct p as [c|c|body|name| |]; cbn [piece_text app harmless closedb piece_ok] in *.
    + cbn [bracket_search repeat]. rewrite step_ordinary by (intros X; apply P1; cbn in *; tauto). apply IH; assumption.
    + cbn [bracket_search repeat]. change (bracket_step 92 (41 :: repeat 41 d)) with (41 :: repeat 41 d). cbn iota. destruct H as [[H|H] HH]; [discriminate H|]. rewrite step_ordinary by exact H. apply IH; assumption.
    + cbn [bracket_search repeat]. change (bracket_step 91 (41 :: repeat 41 d)) with (93 :: 41 :: repeat 41 d). cbn iota. rewrite <- app_assoc, search_letters by tauto. cbn [app bracket_search]. change (bracket_step 93 (93 :: 41 :: repeat 41 d)) with (41 :: repeat 41 d). apply IH; tauto.
    + cbn [bracket_search repeat]. change (bracket_step 123 (41 :: repeat 41 d)) with (125 :: 41 :: repeat 41 d). cbn iota. rewrite <- app_assoc, search_name by exact P1. cbn [app bracket_search]. change (bracket_step 125 (125 :: 41 :: repeat 41 d)) with (41 :: repeat 41 d). apply IH; assumption.
    + cbn [bracket_search repeat]. change (bracket_step 40 (41 :: repeat 41 d)) with (repeat 41 (S (S d))). cbn [repeat]. apply (IH (S d)); assumption.
    + cbn [bracket_search repeat]. change (bracket_step 41 (41 :: repeat 41 d)) with (repeat 41 d). cbn [pred] in H. destruct d as [|d]; [reflexivity|]. cbn [repeat]. apply (IH d); assumption.
Qed.
Lemma harmless_le ps e : forall d d', (d' <= d)%nat -> harmless d ps e -> harmless d' ps e.
Proof.
  induction ps as [|p ps IH]; intros d d' L H; [exact H|]. destruct p; cbn [harmless] in *; try (eapply IH; [|exact H]; lia).
  - destruct H as [H HH]. split; [|eapply IH; eassumption]. destruct H as [-> |H]; [left; lia|right; exact H].
  - destruct H as [H HH]. split; [exact H|]. eapply IH; eassumption.
Qed.

(** ** The errors *)
Section Check.
  Context (known : list Z -> bool).
  Fixpoint faults (t : tracker) (ps : list piece) (e : ending) : list regex_error :=
    match ps with
    | [] => match e with CutClass _ _ => [(MissingSquare, fst t)] | CutName _ => [(MissingCurly, fst t)] | _ => [] end
    | p :: ps =>
        match p with
        | Open => if closedb 0 ps then [] else [(MissingRound, fst t)]
        | Name n => if known n then [] else [(MissingExpression n, fst t)]
        | _ => []
        end ++ faults (update_position t (piece_text p)) ps e
    end.
  Lemma span_brace_name name rest : ~ In 125 name -> span_brace (name ++ 125 :: rest) = (name, 125 :: rest).
  Proof.
    induction name as [|c name IH]; intros N; [reflexivity|]. cbn [app span_brace]. rewrite (proj2 (Z.eqb_neq c 125)) by (intros ->; apply N; left; reflexivity). rewrite IH by (intros X; apply N; right; exact X). reflexivity.
  Qed.
  Lemma span_brace_cut name : ~ In 125 name -> span_brace name = (name, []).
  Proof.
    induction name as [|c name IH]; intros N; [reflexivity|]. cbn [span_brace]. rewrite (proj2 (Z.eqb_neq c 125)) by (intros ->; apply N; left; reflexivity). rewrite IH by (intros X; apply N; right; exact X). reflexivity.
  Qed.
  Lemma firstn_stop (a b : list Z) : firstn (length (a ++ b) - length b) (a ++ b) = a.
  Proof. rewrite app_length, Nat.add_sub, firstn_app, Nat.sub_diag, firstn_all, firstn_O, app_nil_r. reflexivity. Qed.
  Lemma check_exact e : ending_ok e -> forall ps d fuel t, Forall piece_ok ps -> harmless d ps e -> (length (regex_text ps e) <= fuel)%nat -> check_from known fuel t (regex_text ps e) = Some (faults t ps e).
  Proof.
    intros EO ps. induction ps as [|p ps IH]; intros d fuel t PO H F.
    - unfold regex_text, pieces_text in *. cbn [flat_map app] in *. destruct e as [| |body b|name]; cbn [ending_text] in *; [destruct fuel; reflexivity|destruct fuel; [cbn in F; lia|reflexivity]| |]; (destruct fuel as [|fuel]; [cbn [length] in F; lia|]); cbn [check_from].
      + change (91 =? 40) with false. change (91 =? 91) with true. cbn iota. cbn [bracket_search]. change (bracket_step 91 []) with [93]. cbn iota. cbn [harmless] in H. rewrite search_letters by assumption. destruct b; reflexivity.
      + change (123 =? 40) with false. change (123 =? 91) with false. change (123 =? 92) with false. change (123 =? 123) with true. cbn iota. rewrite span_brace_cut by exact EO. reflexivity.
    - inversion PO as [|? ? P1 P2]; subst. assert (E : regex_text (p :: ps) e = piece_text p ++ regex_text ps e) by (unfold regex_text, pieces_text; cbn [flat_map]; rewrite <- app_assoc; reflexivity). rewrite E in *. clear E. rewrite app_length in F.
      cbn [faults]. destruct p as [c|c|body|name| |]; cbn [piece_text app harmless piece_ok length] in *; (destruct fuel as [|fuel]; [lia|]); cbn [check_from].
      + cbn [In] in P1. rewrite (proj2 (Z.eqb_neq c 40)), (proj2 (Z.eqb_neq c 91)), (proj2 (Z.eqb_neq c 92)), (proj2 (Z.eqb_neq c 123)) by lia. apply (IH d); [assumption|assumption|lia].
      + change (92 =? 40) with false. change (92 =? 91) with false. change (92 =? 92) with true. cbn iota. apply (IH d); [assumption|apply H|lia].
      + change (91 =? 40) with false. change (91 =? 91) with true. cbn iota. cbn [bracket_search]. change (bracket_step 91 []) with [93]. cbn iota. rewrite <- app_assoc, search_letters by tauto. cbn [app bracket_search]. change (bracket_step 93 [93]) with (@nil Z). cbn iota.
        change (91 :: flat_map letter_text body ++ 93 :: regex_text ps e) with ((91 :: flat_map letter_text body) ++ (93 :: regex_text ps e)). rewrite firstn_stop. rewrite app_length in F. rewrite (IH d) by (try assumption; try apply H; lia). f_equal. f_equal. change (91 :: flat_map letter_text body ++ [93]) with ((91 :: flat_map letter_text body) ++ [93]). unfold update_position. rewrite fold_left_app. reflexivity.
      + change (123 =? 40) with false. change (123 =? 91) with false. change (123 =? 92) with false. change (123 =? 123) with true. cbn iota. rewrite <- app_assoc. cbn [app]. rewrite span_brace_name by exact P1. rewrite app_length in F. rewrite (IH d) by (try assumption; lia).
        change (update_position t (123 :: name ++ [125])) with (update_position (update_symbol t 123) (name ++ [125])). unfold update_position. rewrite fold_left_app. cbn [fold_left]. destruct (known name); reflexivity.
      + change (40 =? 40) with true. cbn iota. cbn [bracket_search]. change (bracket_step 40 []) with (repeat 41 1). cbn [repeat]. pose proof (search_pieces e EO ps 0 P2 ltac:(eapply harmless_le; [|exact H]; lia)) as SP. cbn [repeat] in SP. destruct (bracket_search (regex_text ps e) [41]) as [stop closed]. cbn [snd] in SP. subst closed. rewrite (IH (S d)) by (try assumption; lia). cbn [update_position fold_left]. destruct (closedb 0 ps); reflexivity.
      + change (41 =? 40) with false. change (41 =? 91) with false. change (41 =? 92) with false. change (41 =? 123) with false. cbn iota. apply (IH (pred d)); [assumption|assumption|lia].
  Qed.

  (** What [faults] says *)
  Lemma faults_in ps e : forall before t f p, t = update_position (pos_new, false) (pieces_text before) -> In (f, p) (faults t ps e) <-> exists b, wrong known ps e b f /\ p = place (before ++ b).
  Proof.
    induction ps as [|x ps IH]; intros before t f p T.
    - cbn [faults]. assert (PT : fst t = place (before ++ [])) by (rewrite app_nil_r, T; reflexivity). assert (NB : forall (b : list piece) y a, [] <> b ++ y :: a) by (intros [|] ? ? X; discriminate X). split.
      + destruct e as [| |body b|name]; [intros []|intros []| |]; (intros [X|[]]; injection X as <- <-; exists []; split; [|exact PT]); [eapply wrong_square|eapply wrong_curly]; reflexivity.
      + intros (b & W & ->). destruct W as [b a E _|body b E|name E|b n a E _]; [apply NB in E; contradiction| | |apply NB in E; contradiction]; subst e; left; rewrite PT; reflexivity.
    - cbn [faults]. rewrite in_app_iff. assert (T' : update_position t (piece_text x) = update_position (pos_new, false) (pieces_text (before ++ [x]))) by (unfold pieces_text; rewrite flat_map_app, T; unfold update_position; rewrite fold_left_app; cbn [flat_map]; rewrite app_nil_r; reflexivity).
      rewrite (IH (before ++ [x]) _ f p T'). assert (PT : fst t = place (before ++ [])) by (rewrite app_nil_r, T; reflexivity). split.
      + intros [X|(b & W & ->)].
        * destruct x as [c|c|body|name| |]; try destruct X.
          -- destruct (known name) eqn:K; [destruct X|]. destruct X as [X|[]]. injection X as <- <-. exists []. split; [eapply wrong_name; [reflexivity|exact K]|exact PT].
          -- destruct (closedb 0 ps) eqn:K; [destruct X|]. destruct X as [X|[]]. injection X as <- <-. exists []. split; [eapply wrong_round; [reflexivity|]|exact PT]. rewrite <- closedb_spec. congruence.
        * exists (x :: b). rewrite <- app_assoc. split; [|reflexivity]. destruct W as [b a -> N|body b ->|name ->|b n a -> K]; [eapply wrong_round; [reflexivity|exact N]|eapply wrong_square; reflexivity|eapply wrong_curly; reflexivity|eapply wrong_name; [reflexivity|exact K]].
      + intros (b & W & ->). destruct W as [b a E N|body b E|name E|b n a E K].
        * destruct b as [|y b]; injection E as -> ->; [left; rewrite PT|right; exists b; split; [eapply wrong_round; [reflexivity|exact N]|rewrite <- app_assoc; reflexivity]]. rewrite <- closedb_spec in N. destruct (closedb 0 a); [exfalso; apply N; reflexivity|left; reflexivity].
        * right. exists ps. split; [eapply wrong_square, E|rewrite <- app_assoc; reflexivity].
        * right. exists ps. split; [eapply wrong_curly, E|rewrite <- app_assoc; reflexivity].
        * destruct b as [|y b]; injection E as -> ->; [left; rewrite PT, K; left; reflexivity|right; exists b; split; [eapply wrong_name; [reflexivity|exact K]|rewrite <- app_assoc; reflexivity]].
  Qed.
  (** Positions only grow *)
  Definition weight (t : tracker) : Z := p_offset (fst t) + p_line (fst t).
  Lemma weight_symbol t c : weight t < weight (update_symbol t c).
  Proof. destruct t as [p r]. unfold weight, update_symbol. destruct (c =? 10); [destruct r; cbn; lia|]. destruct (c =? 13); [cbn; lia|]. destruct (_ || _); cbn; lia. Qed.
  Lemma weight_text cs : forall t, weight t <= weight (update_position t cs).
  Proof. induction cs as [|c cs IH]; intros t; [cbn; lia|]. cbn [update_position fold_left]. pose proof (weight_symbol t c). specialize (IH (update_symbol t c)). unfold update_position in IH. lia. Qed.
  Lemma weight_piece p t : weight t < weight (update_position t (piece_text p)).
  Proof.
    assert (C : forall c cs, weight t < weight (update_position t (c :: cs))). { intros c cs. pose proof (weight_symbol t c). pose proof (weight_text cs (update_symbol t c)). unfold update_position in *. cbn [fold_left]. lia. }
    destruct p; apply C.
  Qed.
  Lemma faults_later ps e : forall t f p, In (f, p) (faults t ps e) -> weight t <= p_offset p + p_line p.
  Proof.
    induction ps as [|x ps IH]; intros t f p H; cbn [faults] in H.
    - destruct e; cbn in H; try contradiction; destruct H as [H|[]]; injection H as <- <-; unfold weight; lia.
    - apply in_app_iff in H. destruct H as [H|H]; [|apply IH in H; pose proof (weight_piece x t); lia]. destruct x; try destruct H; [destruct (known name)|destruct (closedb 0 ps)]; try destruct H as [H|[]]; try contradiction; injection H as <- <-; unfold weight; lia.
  Qed.
  Lemma faults_once ps e : forall t, NoDup (map snd (faults t ps e)).
  Proof.
    induction ps as [|x ps IH]; intros t; cbn [faults].
    - destruct e; cbn; repeat constructor; intros [].
    - assert (L : forall f, ~ In (fst t) (map snd (faults (update_position t (piece_text x)) ps e)) /\ NoDup (map snd ([(f, fst t)] ++ faults (update_position t (piece_text x)) ps e))).
      { intros f. assert (NI : ~ In (fst t) (map snd (faults (update_position t (piece_text x)) ps e))). { intros X. apply in_map_iff in X. destruct X as ((f' & p) & E & X). cbn [snd] in E. subst p. apply faults_later in X. pose proof (weight_piece x t) as W. unfold weight in *. lia. } split; [exact NI|]. cbn. constructor; [exact NI|apply IH]. }
      destruct x as [c|c|body|name| |]; try apply IH; [destruct (known name)|destruct (closedb 0 ps)]; try apply IH; apply L.
  Qed.
End Check.

(** ** Every text is made of pieces *)
Lemma cut_letters n : forall text, (length text <= n)%nat -> (exists body rest, Forall letter_ok body /\ text = flat_map letter_text body ++ 93 :: rest) \/ exists body b, Forall letter_ok body /\ text = flat_map letter_text body ++ (if b : bool then [92] else []).
Proof.
  induction n as [|n IH]; intros text L; (destruct text as [|c text]; [right; exists [], false; auto|]); cbn [length] in L; [lia|].
  destruct (Z.eq_dec c 93) as [-> |N]; [left; exists [], text; auto|]. destruct (Z.eq_dec c 92) as [-> |N'].
  - destruct text as [|c text]; [right; exists [], true; auto|]. cbn [length] in L. destruct (IH text ltac:(lia)) as [(body & rest & F & ->)|(body & b & F & ->)]; [left; exists (Behind c :: body), rest|right; exists (Behind c :: body), b]; (split; [constructor; [exact Logic.I|exact F]|reflexivity]).
  - destruct (IH text ltac:(lia)) as [(body & rest & F & ->)|(body & b & F & ->)]; [left; exists (Itself c :: body), rest|right; exists (Itself c :: body), b]; (split; [constructor; [split; assumption|exact F]|reflexivity]).
Qed.
Lemma cut_name text : (exists name rest, ~ In 125 name /\ text = name ++ 125 :: rest) \/ ~ In 125 text.
Proof.
  induction text as [|c text IH]; [right; intros []|]. destruct (Z.eq_dec c 125) as [-> |N]; [left; exists [], text; split; [intros []|reflexivity]|]. destruct IH as [(name & rest & F & ->)|F]; [left; exists (c :: name), rest|right]; [split; [|reflexivity]|]; intros [X|X]; auto.
Qed.
Lemma cut_pieces n : forall text, (length text <= n)%nat -> exists ps e, Forall piece_ok ps /\ ending_ok e /\ text = regex_text ps e.
Proof.
  induction n as [|n IH]; intros text L; (destruct text as [|c text]; [exists [], Whole; repeat split; constructor|]); cbn [length] in L; [lia|].
  assert (GO : forall p rest, piece_ok p -> (length rest <= n)%nat -> exists ps e, Forall piece_ok ps /\ ending_ok e /\ piece_text p ++ rest = regex_text ps e).
  { intros p rest PO LR. destruct (IH rest LR) as (ps & e & F & E & ->). exists (p :: ps), e. split; [constructor; assumption|]. split; [exact E|]. unfold regex_text, pieces_text. cbn [flat_map]. rewrite <- app_assoc. reflexivity. }
  destruct (Z.eq_dec c 40) as [-> |N1]; [apply (GO Open text); [exact Logic.I|lia]|]. destruct (Z.eq_dec c 41) as [-> |N2]; [apply (GO Close text); [exact Logic.I|lia]|].
  destruct (Z.eq_dec c 91) as [-> |N3].
  { destruct (cut_letters (length text) text (le_n _)) as [(body & rest & F & ->)|(body & b & F & ->)].
    - rewrite app_length in L. cbn [length] in L. destruct (GO (Class body) rest F ltac:(lia)) as (ps & e & X & Y & E). exists ps, e. split; [exact X|]. split; [exact Y|]. rewrite <- E. cbn [piece_text app]. rewrite <- app_assoc. reflexivity.
    - exists [], (CutClass body b). repeat split; [constructor|exact F]. }
  destruct (Z.eq_dec c 92) as [-> |N4].
  { destruct text as [|c text]; [exists [], LoneBackslash; repeat split; constructor|]. cbn [length] in L. apply (GO (Quote c) text); [exact Logic.I|lia]. }
  destruct (Z.eq_dec c 123) as [-> |N5].
  { destruct (cut_name text) as [(name & rest & F & ->)|F].
    - rewrite app_length in L. cbn [length] in L. destruct (GO (Name name) rest F ltac:(lia)) as (ps & e & X & Y & E). exists ps, e. split; [exact X|]. split; [exact Y|]. rewrite <- E. cbn [piece_text app]. rewrite <- app_assoc. reflexivity.
    - exists [], (CutName text). repeat split; [constructor|exact F]. }
  apply (GO (Plain c) text); [cbn; intuition congruence|lia].
Qed.

(** ** It ends for every text *)
Lemma search_shorter pos : forall b, (length (fst (bracket_search pos b)) <= length pos)%nat.
Proof. induction pos as [|c pos IH]; intros b; cbn [bracket_search]; [cbn; lia|]. destruct (bracket_step c b); [cbn; lia|]. specialize (IH (z :: l)). cbn [length]. lia. Qed.
Lemma span_shorter pos : (length (snd (span_brace pos)) <= length pos)%nat.
Proof. induction pos as [|c pos IH]; cbn [span_brace]; [cbn; lia|]. destruct (c =? 125); [cbn; lia|]. destruct (span_brace pos) as [n r]. cbn in *. lia. Qed.
Lemma check_ends known fuel : forall t pos, (length pos <= fuel)%nat -> check_from known fuel t pos <> None.
Proof.
  induction fuel as [|fuel IH]; intros t pos L; (destruct pos as [|c pos]; [discriminate|]); cbn [length] in L; [lia|]. cbn [check_from].
  destruct (c =? 40). { destruct (bracket_search (c :: pos) []) as [? cl]. pose proof (IH (update_symbol t c) pos ltac:(lia)) as X. destruct (check_from known fuel _ pos); [discriminate|exact X]. }
  destruct (c =? 91). { pose proof (search_shorter (c :: pos) []) as SS. destruct (bracket_search (c :: pos) []) as [[|c' rest] cl]; [discriminate|]. cbn [fst length] in SS.
    match goal with |- match ?x with _ => _ end <> None => assert (X : x <> None) by (apply IH; lia); destruct x; [discriminate|exact X] end. }
  destruct (c =? 92). { destruct pos as [|c' pos]; [discriminate|]. cbn [length] in L. apply IH. lia. }
  destruct (c =? 123). { pose proof (span_shorter pos) as SS. destruct (span_brace pos) as [name [|c' rest]]; [discriminate|]. cbn [snd length] in SS.
    match goal with |- match ?x with _ => _ end <> None => assert (X : x <> None) by (apply IH; lia); destruct x; [discriminate|exact X] end. }
  apply IH. lia.
Qed.

(** ** Trees *)
Definition chr_pieces (c : chr) : list piece :=
  match c with
  | Raw c => [Plain c] | Quoted c => [Quote c] | Control c => [Quote c]
  | Unicode a b c d => [Quote 117; Plain a; Plain b; Plain c; Plain d]
  | Latin a b => [Quote 120; Plain a; Plain b]
  | Octal a b c => [Quote a; Plain b; Plain c]
  end.
Definition chr_letters (c : chr) : list letter :=
  match c with
  | Raw c => [Itself c] | Quoted c => [Behind c] | Control c => [Behind c]
  | Unicode a b c d => [Behind 117; Itself a; Itself b; Itself c; Itself d]
  | Latin a b => [Behind 120; Itself a; Itself b]
  | Octal a b c => [Behind a; Itself b; Itself c]
  end.
Definition member_letters (m : member) : list letter :=
  match m with One c => chr_letters c | Between a b => chr_letters a ++ [Itself 45] ++ chr_letters b end.
Definition atom_pieces (a : atom) : list piece :=
  match a with
  | AChr c => chr_pieces c
  | AAny => [Plain 46]
  | AClass negate ms => [Class ((if negate then [Itself 94] else []) ++ flat_map member_letters ms)]
  end.
Fixpoint re_pieces (r : re) : list piece :=
  match r with
  | REmpty => []
  | RAtom a => atom_pieces a
  | RCat r s => re_pieces r ++ re_pieces s
  | ROr r s => re_pieces r ++ Plain 124 :: re_pieces s
  | RStar r => re_pieces r ++ [Plain 42]
  | RPlus r => re_pieces r ++ [Plain 43]
  | ROpt r => re_pieces r ++ [Plain 63]
  | RGroup r => Open :: re_pieces r ++ [Close]
  | RName name _ | RWord name _ | RChars name _ | RDefs name _ => [Name name]
  end.
Lemma chr_letters_text c : flat_map letter_text (chr_letters c) = chr_text c.
Proof. destruct c; reflexivity. Qed.
Lemma member_letters_text m : flat_map letter_text (member_letters m) = member_text m.
Proof. destruct m; cbn [member_letters member_text]; rewrite ?flat_map_app, !chr_letters_text; reflexivity. Qed.
Lemma members_text ms : flat_map letter_text (flat_map member_letters ms) = flat_map member_text ms.
Proof. induction ms as [|m ms IH]; [reflexivity|]. cbn [flat_map]. rewrite flat_map_app, member_letters_text, IH. reflexivity. Qed.
Lemma re_pieces_text r : pieces_text (re_pieces r) = text r.
Proof.
  unfold pieces_text. induction r; cbn [re_pieces text]; rewrite ?flat_map_app; cbn [flat_map piece_text app]; rewrite ?flat_map_app, ?IHr, ?IHr1, ?IHr2; cbn [flat_map piece_text app]; rewrite ?app_nil_r; try reflexivity.
  destruct a as [c| |[] ms]; cbn [atom_pieces atom_text]; [destruct c; reflexivity|reflexivity| |]; cbn [flat_map piece_text]; rewrite flat_map_app, members_text, app_nil_r; reflexivity.
Qed.
Lemma digit_ordinary a : is_digit a -> ~ In a [40; 41; 91; 92; 93; 123].
Proof. unfold is_digit. cbn. intuition lia. Qed.
Lemma octal_ordinary a : is_octal a -> ~ In a [40; 41; 91; 92; 93; 123].
Proof. unfold is_octal. cbn. intuition lia. Qed.
Ltac ordinary := match goal with
  | H : is_digit ?a |- _ => apply digit_ordinary in H; cbn in H; cbn; intuition congruence
  | H : is_octal ?a |- _ => apply octal_ordinary in H; cbn in H; cbn; intuition congruence end.
Lemma chr_pieces_ok c : chr_ok regex_special c -> Forall piece_ok (chr_pieces c).
Proof.
  destruct c; cbn [chr_ok chr_pieces]; intros O.
  - constructor; [|constructor]. destruct O as [_ O]. cbn in *. intuition congruence.
  - repeat constructor.
  - repeat constructor.
  - destruct O as (? & ? & ? & ?). repeat apply Forall_cons; try apply Forall_nil; cbn [piece_ok]; try exact Logic.I; [clear - H|clear - H0|clear - H1|clear - H2]; ordinary.
  - destruct O as (? & ?). repeat apply Forall_cons; try apply Forall_nil; cbn [piece_ok]; try exact Logic.I; [clear - H|clear - H0]; ordinary.
  - destruct O as (? & ? & ?). repeat apply Forall_cons; try apply Forall_nil; cbn [piece_ok]; try exact Logic.I; [clear - H0|clear - H1]; ordinary.
Qed.
Lemma chr_letters_ok c : chr_ok class_special c -> Forall letter_ok (chr_letters c).
Proof.
  destruct c; cbn [chr_ok chr_letters]; intros O.
  - constructor; [|constructor]. destruct O as [_ O]. cbn in *. intuition congruence.
  - repeat constructor.
  - repeat constructor.
  - destruct O as (? & ? & ? & ?). repeat apply Forall_cons; try apply Forall_nil; cbn [letter_ok]; try exact Logic.I; [clear - H|clear - H0|clear - H1|clear - H2]; ordinary.
  - destruct O as (? & ?). repeat apply Forall_cons; try apply Forall_nil; cbn [letter_ok]; try exact Logic.I; [clear - H|clear - H0]; ordinary.
  - destruct O as (? & ? & ?). repeat apply Forall_cons; try apply Forall_nil; cbn [letter_ok]; try exact Logic.I; [clear - H0|clear - H1]; ordinary.
Qed.
Lemma chr_letters_harmless c sp : chr_ok sp c -> chr_clear c -> Forall harmless_letter (chr_letters c).
Proof.
  destruct c; cbn [chr_ok chr_letters]; intros O C; repeat apply Forall_cons; try apply Forall_nil; try discriminate.
  - intros X. injection X as ->. apply C. reflexivity.
  - intros X. injection X as ->. cbn in O. intuition discriminate.
  - intros X. injection X as ->. destruct O as [[]]. lia.
Qed.
Lemma members_ok ms : Forall member_ok ms -> Forall letter_ok (flat_map member_letters ms).
Proof.
  induction 1 as [|m ms O _ IH]; [constructor|]. cbn [flat_map]. apply Forall_app. split; [|exact IH]. destruct m; cbn [member_letters member_ok] in *; [apply chr_letters_ok, O|]. destruct O as (A & B & _). apply Forall_app. split; [apply chr_letters_ok, A|]. constructor; [cbn; lia|apply chr_letters_ok, B].
Qed.
Lemma members_harmless ms : Forall member_ok ms -> Forall member_clear ms -> Forall harmless_letter (flat_map member_letters ms).
Proof.
  induction 1 as [|m ms O _ IH]; intros C; [constructor|]. inversion C as [|? ? C1 C2]; subst. cbn [flat_map]. apply Forall_app. split; [|exact (IH C2)]. destruct m; cbn [member_letters member_ok member_clear] in *; [eapply chr_letters_harmless; eassumption|]. destruct O as (A & B & _). apply Forall_app. split; [eapply chr_letters_harmless; [exact A|apply C1]|]. constructor; [discriminate|eapply chr_letters_harmless; [exact B|apply C1]].
Qed.

Section Trees.
  Context (expressions literals : list Z -> option (list Z)) (category : list Z -> option symbol_set) (defined : list Z -> list (bool * bool * token)) (surr : bool) (lo hi : Z -> Z) (convertible : (Z -> Prop) -> Prop).
  Notation wf := (well_formed_in expressions literals category defined surr lo hi convertible).
  Notation known := (check_expression expressions category defined).
  Lemma plain_ok c : ~ In c [40; 41; 91; 92; 123] -> piece_ok (Plain c).
  Proof. exact (fun H => H). Qed.
  Lemma re_pieces_ok r : forall nocase level, wf nocase level r -> Forall piece_ok (re_pieces r).
  Proof.
    induction r; intros nocase level W; cbn [well_formed_in re_pieces] in *.
    - constructor.
    - destruct W as [O _]. destruct a as [c| |neg ms]; cbn [atom_pieces atom_ok] in *; [apply chr_pieces_ok, O|constructor; [apply plain_ok; cbn; lia|constructor]|]. constructor; [|constructor]. cbn [piece_ok]. apply Forall_app. split; [destruct neg; repeat constructor; cbn; lia|apply members_ok, O].
    - apply Forall_app. destruct W as (_ & A & B). eauto.
    - apply Forall_app. destruct W as (_ & A & B). split; [eauto|]. constructor; [apply plain_ok; cbn; lia|eauto].
    - apply Forall_app. split; [eauto|]. constructor; [apply plain_ok; cbn; lia|constructor].
    - apply Forall_app. split; [eauto|]. constructor; [apply plain_ok; cbn; lia|constructor].
    - apply Forall_app. split; [eauto|]. constructor; [apply plain_ok; cbn; lia|constructor].
    - constructor; [exact Logic.I|]. apply Forall_app. split; [eauto|]. repeat constructor.
    - constructor; [apply W|constructor].
    - constructor; [apply W|constructor].
    - constructor; [apply W|constructor].
    - constructor; [apply W|constructor].
  Qed.
  Lemma re_pieces_harmless r : forall nocase level d ps, wf nocase level r -> clear_quotes (negb (d =? 0)%nat) r -> harmless d ps Whole -> harmless d (re_pieces r ++ ps) Whole.
  Proof.
    induction r; intros nocase level d ps W C H; cbn [well_formed_in re_pieces clear_quotes] in *; rewrite <- ?app_assoc; cbn [app]; try exact H.
    - destruct W as [O _]. destruct a as [c| |neg ms]; cbn [atom_pieces atom_ok] in *; [|exact H|].
      + destruct c as [c|c|c|a b c e|a b|a b c]; cbn [chr_pieces app harmless]; try exact H; (split; [|exact H]).
        * destruct C as [C|C]; [left; destruct d; [reflexivity|discriminate C]|right; exact C].
        * right. cbn in O. cbn. intuition congruence.
        * right. cbn. lia.
        * right. cbn. lia.
        * right. destruct O as [O _]. unfold is_octal in O. cbn. lia.
      + cbn [app harmless]. split; [|exact H]. apply Forall_app. split; [destruct neg; repeat constructor; discriminate|]. apply members_harmless; [apply O|exact C].
    - destruct W as (_ & A & B). destruct C as [C1 C2]. eapply IHr1; [exact A|exact C1|]. eapply IHr2; eassumption.
    - destruct W as (_ & A & B). destruct C as [C1 C2]. eapply IHr1; [exact A|exact C1|]. cbn [harmless]. eapply IHr2; eassumption.
    - eapply IHr; [exact W|exact C|exact H].
    - eapply IHr; [exact W|exact C|exact H].
    - eapply IHr; [exact W|exact C|exact H].
    - cbn [harmless]. rewrite <- app_assoc. apply (IHr nocase 0%nat (S d)); [exact W|exact C|exact H].
  Qed.
  Lemma balanced_app ps qs : balanced ps -> balanced qs -> balanced (ps ++ qs).
  Proof. induction 1; intros Q; [exact Q|constructor; auto|]. cbn [app]. rewrite <- app_assoc. cbn [app]. apply balanced_group; auto. Qed.
  Lemma balanced_flat ps : Forall (fun p => p <> Open /\ p <> Close) ps -> balanced ps.
  Proof. induction 1 as [|p ps [A B] _ IH]; constructor; assumption. Qed.
  Lemma re_pieces_balanced r : balanced (re_pieces r).
  Proof.
    assert (ONE : forall c, balanced [Plain c]) by (intros c; apply balanced_flat; repeat constructor; discriminate). induction r; cbn [re_pieces]; try (apply balanced_app; auto; fail); try (apply balanced_flat; repeat constructor; discriminate).
    - destruct a as [c| |neg ms]; [destruct c| |]; apply balanced_flat; repeat constructor; discriminate.
    - apply balanced_app; [assumption|]. constructor; [discriminate|discriminate|assumption].
    - apply balanced_group; [assumption|constructor].
  Qed.
  Lemma re_pieces_known r : forall nocase level inside, wf nocase level r -> clear_quotes inside r -> Forall (fun p => match p with Name n => known n = true | _ => True end) (re_pieces r).
  Proof.
    induction r; intros nocase level inside W C; cbn [well_formed_in re_pieces clear_quotes] in *.
    - constructor.
    - destruct a as [c| |neg ms]; [destruct c| |]; repeat constructor.
    - apply Forall_app. destruct W as (_ & A & B), C. eauto.
    - apply Forall_app. destruct W as (_ & A & B), C. split; [eauto|]. constructor; [exact Logic.I|eauto].
    - apply Forall_app. split; [eauto|repeat constructor].
    - apply Forall_app. split; [eauto|repeat constructor].
    - apply Forall_app. split; [eauto|repeat constructor].
    - constructor; [exact Logic.I|]. apply Forall_app. split; [eauto|repeat constructor].
    - constructor; [|constructor]. destruct W as (_ & D & E & _). unfold check_expression. rewrite D, E. reflexivity.
    - destruct C.
    - constructor; [|constructor]. destruct W as (_ & D & E & _ & (s & CA & _) & _). unfold check_expression. rewrite D, E, CA. reflexivity.
    - constructor; [|constructor]. destruct W as (_ & D & _). unfold check_expression. rewrite D. destruct ds; reflexivity.
  Qed.
  Lemma faults_balanced kn ps : balanced ps -> Forall (fun p => match p with Name n => kn n = true | _ => True end) ps -> forall t qs e, exists t', faults kn t (ps ++ qs) e = faults kn t' qs e.
  Proof.
    induction 1 as [|p ps NO NC B IH|inner ps B1 IH1 B2 IH2]; intros K t qs e; [exists t; reflexivity| |].
    - inversion K as [|? ? K1 K2]; subst. destruct (IH K2 (update_position t (piece_text p)) qs e) as (t' & E). exists t'. cbn [app faults]. rewrite E. destruct p; try reflexivity; [rewrite K1; reflexivity|contradiction].
    - inversion K as [|? ? _ K']; subst. apply Forall_app in K'. destruct K' as [K1 K2]. inversion K2 as [|? ? _ K3]; subst. cbn [app faults]. rewrite <- app_assoc. rewrite closedb_balanced by exact B1. cbn [app closedb].
      destruct (IH1 K1 (update_position t (piece_text Open)) (Close :: ps ++ qs) e) as (t' & E). rewrite E. cbn [faults app]. apply IH2, K3.
  Qed.
  Lemma check_tree r nocase level : wf nocase level r -> clear_quotes false r -> check_regex known (text r) = Some [].
  Proof.
    intros W C. assert (T : text r = regex_text (re_pieces r) Whole) by (unfold regex_text; rewrite re_pieces_text; cbn [ending_text]; rewrite app_nil_r; reflexivity). unfold check_regex. rewrite T.
    assert (H : harmless 0 (re_pieces r) Whole) by (rewrite <- (app_nil_r (re_pieces r)); eapply re_pieces_harmless; [exact W|exact C|exact Logic.I]).
    rewrite (check_exact known Whole Logic.I (re_pieces r) 0 _ (pos_new, false) (re_pieces_ok r nocase level W) H (le_n _)).
    destruct (faults_balanced known (re_pieces r) (re_pieces_balanced r) (re_pieces_known r nocase level false W C) (pos_new, false) [] Whole) as (t' & E). rewrite app_nil_r in E. rewrite E. reflexivity.
  Qed.
End Trees.

(** ** Positions in the file *)
Definition shifted (at_ : position) (t t' : tracker) : Prop :=
  0 <= p_line (fst t) /\ fst t' = error_position at_ (fst t) /\ snd t' = snd t.
Lemma shifted_symbol at_ t t' c : shifted at_ t t' -> shifted at_ (update_symbol t c) (update_symbol t' c).
Proof.
  intros (L & P & R). destruct t as [p r], t' as [p' r']. cbn [fst snd] in *. subst r' p'. unfold shifted, error_position, update_symbol. cbn [fst snd]. rewrite (proj2 (Z.leb_le 0 (p_line p)) L).
  assert (X : p_line p + 1 >= 1) by lia.
  assert (N : forall q, newline q = mkPos (p_offset q) (p_line q + 1) 0) by reflexivity. assert (I1 : forall q, increment q = mkPos (p_offset q + 1) (p_line q) (p_column q + 1)) by reflexivity. assert (I2 : forall q, increment_offset q = mkPos (p_offset q + 1) (p_line q) (p_column q)) by reflexivity.
  assert (Y1 : (0 <=? p_line p + 1) = true) by (apply Z.leb_le; lia). assert (Y2 : (1 <=? p_line p + 1) = true) by (apply Z.leb_le; lia). assert (Y0 : (0 <=? p_line p) = true) by (apply Z.leb_le; lia).
  destruct (1 <=? p_line p) eqn:B; [|assert (Z0 : p_line p = 0) by (apply Z.leb_gt in B; lia)].
  - destruct (c =? 10); [destruct r|destruct (c =? 13); [|destruct (_ || _)]]; cbn [negb fst snd]; rewrite ?N, ?I1, ?I2; cbn [p_line p_offset p_column]; rewrite ?Y1, ?Y2, ?Y0, ?B; (split; [lia|split; [f_equal; lia|reflexivity]]).
  - destruct (c =? 10); [destruct r|destruct (c =? 13); [|destruct (_ || _)]]; cbn [negb fst snd]; rewrite ?N, ?I1, ?I2; cbn [p_line p_offset p_column]; rewrite ?Y1, ?Y2, ?Y0, ?B; (split; [lia|split; [f_equal; lia|reflexivity]]).
Qed.
Lemma shifted_text at_ cs : forall t t', shifted at_ t t' -> shifted at_ (update_position t cs) (update_position t' cs).
Proof. induction cs as [|c cs IH]; intros t t' S; [exact S|]. unfold update_position. cbn [fold_left]. apply IH, shifted_symbol, S. Qed.
Lemma file_place_error at_ before : error_position at_ (place before) = file_place at_ before.
Proof.
  unfold file_place, place. symmetry. change (update_position (at_, false) (47 :: pieces_text before)) with (update_position (update_symbol (at_, false) 47) (pieces_text before)).
  apply (shifted_text at_ (pieces_text before) (pos_new, false)). split; [cbn; lia|]. split; [|reflexivity]. cbn. unfold increment, error_position. cbn. f_equal; lia.
Qed.

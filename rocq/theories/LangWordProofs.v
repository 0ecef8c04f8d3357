(** What productions as written stand for, and what the items they are compiled to stand for. *)
From Verif Require Import Base OrdMap GrammarModel ClosureSpec RunSpec LangModel LangSpec LangItemProofs.
Local Open Scope Z_scope.

Lemma map_split {X Y} (f : X -> Y) l a b : map f l = a ++ b -> exists u v, l = u ++ v /\ a = map f u /\ b = map f v.
Proof. intros H. apply map_eq_app in H. destruct H as (u & v & -> & <- & <-). exists u, v. auto. Qed.

(** ** What items stand for, by their structure *)
Section Says.
  Context (rules : Z -> list (list item)).
  Inductive says : item -> list Z -> list Z -> Prop :=
  | says_term s rest : says (ITerm s) [s] rest
  | says_rule n r w rest : In r (rules n) -> says_all r w rest -> says (INonterm n) w rest
  | says_guard p g w rest : says_all g w rest -> says (IGuard p g) [] (w ++ rest)
  | says_no rs rest : says (IEbnf Optional rs) [] rest
  | says_yes rs w rest : says_all (nth 0 rs []) w rest -> says (IEbnf Optional rs) w rest
  | says_none rs rest : says (IEbnf RepeatZero rs) [] rest
  | says_more rs w1 w2 rest : says_all (nth 0 rs []) w1 (w2 ++ rest) -> says (IEbnf RepeatZero rs) w2 rest -> says (IEbnf RepeatZero rs) (w1 ++ w2) rest
  | says_one rs w rest : says_all (nth 0 rs []) w rest -> says (IEbnf Repeat rs) w rest
  | says_again rs w1 w2 rest : says_all (nth 0 rs []) w1 (w2 ++ rest) -> says (IEbnf Repeat rs) w2 rest -> says (IEbnf Repeat rs) (w1 ++ w2) rest
  | says_choice rs r w rest : In r rs -> says_all r w rest -> says (IEbnf Alternative rs) w rest
  with says_all : list item -> list Z -> list Z -> Prop :=
  | says_nil rest : says_all [] [] rest
  | says_cons x xs w1 w2 rest : says x w1 (w2 ++ rest) -> says_all xs w2 rest -> says_all (x :: xs) (w1 ++ w2) rest.
  Scheme says_ind' := Induction for says Sort Prop
  with says_all_ind' := Induction for says_all Sort Prop.
  Combined Scheme says_both from says_ind', says_all_ind'.

  Lemma says_all_one x w rest : says_all [x] w rest <-> says x w rest.
  Proof.
    split.
    - intros H. inversion H as [|? ? w1 w2 ? H1 H2]; subst. inversion H2; subst. rewrite app_nil_r. cbn [app] in H1. exact H1.
    - intros H. rewrite <- (app_nil_r w). constructor; [exact H|constructor].
  Qed.
  Lemma says_all_app a b : forall w rest, says_all (a ++ b) w rest <-> exists w1 w2, w = w1 ++ w2 /\ says_all a w1 (w2 ++ rest) /\ says_all b w2 rest.
  Proof.
    induction a as [|x a IH]; intros w rest; cbn [app].
    - split; [intros H; exists [], w; split; [reflexivity|split; [constructor|exact H]]|]. intros (w1 & w2 & -> & H1 & H2). inversion H1; subst. exact H2.
    - split.
      + intros H. inversion H as [|? ? u v ? H1 H2]; subst. apply IH in H2. destruct H2 as (v1 & v2 & -> & H3 & H4). exists (u ++ v1), v2. split; [rewrite app_assoc; reflexivity|]. split; [|exact H4]. constructor; [rewrite <- app_assoc in H1; exact H1|exact H3].
      + intros (w1 & w2 & -> & H1 & H2). inversion H1 as [|? ? u v ? H3 H4]; subst. rewrite <- app_assoc. constructor; [rewrite <- app_assoc; exact H3|]. apply IH. exists v, w2. auto.
  Qed.

  (** *** Trees *)
  Section Trees.
    Context (rid : rule -> Z) (ident : item -> Z) (L : Type) (matched : L -> Z) (renamed : Z -> L -> L).
    Local Notation parses := (parses rules rid ident L matched renamed (fun _ _ => False) (fun _ => False)).
    Local Notation parses_all := (parses_all rules rid ident L matched renamed (fun _ _ => False) (fun _ => False)).
    Scheme parses_ind' := Induction for RunSpec.parses Sort Prop with parses_all_ind' := Induction for RunSpec.parses_all Sort Prop.
    Combined Scheme parses_both from parses_ind', parses_all_ind'.
    Lemma star_snoc rs w1 v rest : says (IEbnf RepeatZero rs) w1 (v ++ rest) -> says_all (nth 0 rs []) v rest -> says (IEbnf RepeatZero rs) (w1 ++ v) rest.
    Proof.
      intros H B. remember (IEbnf RepeatZero rs) as x eqn:X. remember (v ++ rest) as R eqn:ER. induction H; try discriminate X; subst.
      - injection X as ->. cbn [app]. rewrite <- (app_nil_r v). apply says_more; [exact B|apply says_none].
      - injection X as ->. rewrite <- app_assoc. apply says_more; [rewrite <- app_assoc; assumption|]. apply IHsays; reflexivity.
    Qed.
    Lemma plus_snoc rs w1 v rest : says (IEbnf Repeat rs) w1 (v ++ rest) -> says_all (nth 0 rs []) v rest -> says (IEbnf Repeat rs) (w1 ++ v) rest.
    Proof.
      intros H B. remember (IEbnf Repeat rs) as x eqn:X. remember (v ++ rest) as R eqn:ER. induction H; try discriminate X; subst.
      - injection X as ->. apply says_again; [assumption|apply says_one, B].
      - injection X as ->. rewrite <- app_assoc. apply says_again; [rewrite <- app_assoc; assumption|]. apply IHsays; reflexivity.
    Qed.
    Lemma expands_says x r w rest : expands rules x r -> says_all r w rest -> says x w rest.
    Proof.
      intros E. revert w rest. induction E as [n r H|k rs [-> | ->]|k rs [-> | ->]|k rs [-> | ->]|rs r H _|rs rs' r H E IH]; intros w rest S.
      - eapply says_rule; eassumption.
      - inversion S; subst. apply says_no.
      - inversion S; subst. apply says_none.
      - apply says_yes, S.
      - apply says_one, S.
      - inversion S as [|? ? w1 w2 ? H1 H2]; subst. apply plus_snoc; assumption.
      - inversion S as [|? ? w1 w2 ? H1 H2]; subst. apply star_snoc; assumption.
      - eapply says_choice; eassumption.
      - eapply says_choice; [exact H|]. apply says_all_one, IH, S.
    Qed.
    Lemma parses_says : (forall x t w rest, parses x t w rest -> says x (map matched w) (map matched rest)) /\ (forall xs ts w rest, parses_all xs ts w rest -> says_all xs (map matched w) (map matched rest)).
    Proof.
      apply parses_both.
      - intros l rest. apply says_term.
      - intros l s rest [].
      - intros x r ts w rest E _ H. eapply expands_says; eassumption.
      - intros p g ts w rest _ H. rewrite map_app. apply says_guard, H.
      - intros rest. apply says_nil.
      - intros xs ts l w rest [].
      - intros x xs t ts w1 w2 rest _ H1 _ H2. rewrite map_app. rewrite map_app in H1. constructor; assumption.
    Qed.

    Lemma all_app_split a b : forall ts w rest, parses_all (a ++ b) ts w rest -> exists t1 t2 w1 w2, w = w1 ++ w2 /\ parses_all a t1 w1 (w2 ++ rest) /\ parses_all b t2 w2 rest.
    Proof.
      induction a as [|x a IH]; intros ts w rest H; cbn [app] in H.
      - exists [], ts, [], w. split; [reflexivity|]. split; [constructor|exact H].
      - inversion H as [|? ? ? ? ? F|? ? t ts' u v ? H1 H2]; subst; [destruct F|]. destruct (IH _ _ _ H2) as (t1 & t2 & v1 & v2 & -> & H3 & H4). exists (t :: t1), t2, (u ++ v1), v2. split; [rewrite app_assoc; reflexivity|]. split; [|exact H4]. constructor; [rewrite <- app_assoc in H1; exact H1|exact H3].
    Qed.
    Lemma star_cons k rs w2 t rest : k = RepeatZero \/ k = Repeat -> parses (IEbnf k rs) t w2 rest -> forall w1 ts, parses_all (nth 0 rs []) ts w1 (w2 ++ rest) -> exists t', parses (IEbnf k rs) t' (w1 ++ w2) rest.
    Proof.
      intros K H. remember (IEbnf k rs) as x eqn:X. revert k rs K X. 
      apply (parses_ind' rules rid ident L matched renamed (fun _ _ => False) (fun _ => False)
        (fun x t w2 rest _ => forall k rs, k = RepeatZero \/ k = Repeat -> x = IEbnf k rs -> forall w1 ts, parses_all (nth 0 rs []) ts w1 (w2 ++ rest) -> exists t', parses x t' (w1 ++ w2) rest)
        (fun xs ts w2 rest _ => forall x0 xs0, xs = x0 :: xs0 -> exists t0 ts0 u v, w2 = u ++ v /\ parses x0 t0 u (v ++ rest) /\ parses_all xs0 ts0 v rest /\ forall k rs, k = RepeatZero \/ k = Repeat -> x0 = IEbnf k rs -> forall w1 ts1, parses_all (nth 0 rs []) ts1 w1 (w2 ++ rest) -> exists t', parses x0 t' (w1 ++ u) (v ++ rest))) with (a := t); try assumption; clear.
      - intros l rest k rs _ X. discriminate X.
      - intros l s rest [].
      - intros x r ts w rest E H IH k rs K ->. intros w1 ts1 B. inversion E as [|k0 rs0 K0 E1 E2|k0 rs0 K0 E1 E2|k0 rs0 K0 E1 E2|? ? ? ? E1|? ? ? ? ? E1]; subst.
        + (* none *) inversion H; subst; [|contradiction]. destruct K0 as [-> | ->]; [destruct K; discriminate|]. eexists. eapply parses_rule; [apply expands_more; auto|]. rewrite app_nil_r. rewrite <- (app_nil_l w1). cbn [app] in B. eapply RunSpec.all_next; [|exact B]. eapply parses_rule; [apply expands_none; auto|constructor].
        + (* once *) destruct K0 as [-> | ->]; [destruct K; discriminate|]. eexists. eapply parses_rule; [apply expands_more; auto|]. eapply RunSpec.all_next; [|exact H]. eapply parses_rule; [apply expands_once; auto|exact B].
        + (* more *) destruct (IH _ _ eq_refl) as (t0 & ts0 & u & v & -> & H0 & H2 & H3). destruct (H3 k rs K eq_refl w1 ts1 B) as [t' P']. eexists. eapply parses_rule; [apply expands_more; exact K0|]. rewrite app_assoc. eapply RunSpec.all_next; [exact P'|exact H2].
        + destruct K; discriminate.
        + destruct K; discriminate.
      - intros p g ts w rest _ _ k rs _ X. discriminate X.
      - intros rest x0 xs0 X. discriminate X.
      - intros xs ts l w rest [].
      - intros x xs t ts w1 w2 rest H1 IH1 H2 _ x0 xs0 X. injection X as <- <-. exists t, ts, w1, w2. split; [reflexivity|]. split; [exact H1|]. split; [exact H2|]. intros k rs K E u ts1 B. apply (IH1 k rs K E u ts1). rewrite <- app_assoc in B. exact B.
    Qed.
    Lemma says_parses : (forall x w rest, says x w rest -> forall W R, w = map matched W -> rest = map matched R -> exists t, parses x t W R) /\ (forall xs w rest, says_all xs w rest -> forall W R, w = map matched W -> rest = map matched R -> exists ts, parses_all xs ts W R).
    Proof.
      apply says_both.
      - intros s rest W R E _. destruct W as [|l [|? ?]]; try discriminate E. injection E as ->. eexists. apply parses_term.
      - intros n r w rest H _ IH W R E1 E2. destruct (IH W R E1 E2) as [ts P]. eexists. eapply parses_rule; [apply expands_rule, H|exact P].
      - intros p g w rest _ IH W R E1 E2. destruct W; [|discriminate E1]. symmetry in E2. apply map_split in E2. destruct E2 as (u & v & -> & Eu & Ev). destruct (IH u v Eu Ev) as [ts P]. eexists. apply parses_guard with (ts := ts). exact P.
      - intros rs rest W R E1 E2. destruct W; [|discriminate E1]. eexists. eapply parses_rule; [apply expands_none; auto|constructor].
      - intros rs w rest _ IH W R E1 E2. destruct (IH W R E1 E2) as [ts P]. eexists. eapply parses_rule; [apply expands_once; auto|exact P].
      - intros rs rest W R E1 E2. destruct W; [|discriminate E1]. eexists. eapply parses_rule; [apply expands_none; auto|constructor].
      - intros rs w1 w2 rest _ IH1 _ IH2 W R E1 E2. symmetry in E1. apply map_split in E1. destruct E1 as (u & v & -> & Eu & Ev). destruct (IH2 v R Ev E2) as [t P]. destruct (IH1 u (v ++ R) Eu) as [ts B]; [rewrite map_app; congruence|]. eapply star_cons; [left; reflexivity|exact P|exact B].
      - intros rs w rest _ IH W R E1 E2. destruct (IH W R E1 E2) as [ts P]. eexists. eapply parses_rule; [apply expands_once; auto|exact P].
      - intros rs w1 w2 rest _ IH1 _ IH2 W R E1 E2. symmetry in E1. apply map_split in E1. destruct E1 as (u & v & -> & Eu & Ev). destruct (IH2 v R Ev E2) as [t P]. destruct (IH1 u (v ++ R) Eu) as [ts B]; [rewrite map_app; congruence|]. eapply star_cons; [right; reflexivity|exact P|exact B].
      - intros rs r w rest H _ IH W R E1 E2. destruct (IH W R E1 E2) as [ts P].
        assert (D : one_alternative r \/ ~ one_alternative r) by (destruct r as [|[| | | | | |[] rs'] [|? ?]]; try (right; intros [q Q]; discriminate Q); left; exists rs'; reflexivity).
        destruct D as [[rs' ->]|N].
        + inversion P as [|? ? ? ? ? F|? ? t ts' u v ? H1 H2]; subst; [destruct F|]. inversion H2; subst; [|contradiction]. rewrite app_nil_r. cbn [app] in H1. inversion H1 as [| |? r' ts' ? ? E' H'|]; subst; [].
          eexists. eapply parses_rule; [eapply expands_nested; eassumption|exact H'].
        + eexists. eapply parses_rule; [apply expands_choice; eassumption|exact P].
      - intros rest W R E1 E2. destruct W; [|discriminate E1]. exists []. constructor.
      - intros x xs w1 w2 rest _ IH1 _ IH2 W R E1 E2. symmetry in E1. apply map_split in E1. destruct E1 as (u & v & -> & Eu & Ev). destruct (IH1 u (v ++ R) Eu) as [t P]; [rewrite map_app; congruence|]. destruct (IH2 v R Ev E2) as [ts PS]. exists (t :: ts). constructor; assumption.
    Qed.
  End Trees.
End Says.

(** ** Productions as written and their items *)
Section Words.
  Context (rules : Z -> list (list item)) (productions : name -> list (list simple)) (nt tm : name -> Z) (K T : name -> Prop).
  Local Notation says := (says rules).
  Local Notation says_all := (says_all rules).
  Local Notation stands := (stands productions).
  Local Notation stands_all := (stands_all productions).
  Local Notation tr := (tr nt tm).
  Local Notation tr_all := (tr_all nt tm).
  Local Notation tr_alts := (tr_alts nt tm).
  Definition good (s : simple) : Prop := (forall n, In n (nonterminals_in s) -> K n) /\ (forall k source n, In (k, source, n) (terminals_in s) -> T n).
  Context (RULES : forall n, K n -> rules (nt n) = map tr_all (productions n)) (GOOD : forall n p, K n -> In p (productions n) -> Forall good p)
    (INJ : forall n k, T n -> tm n = tm k -> n = k).

  Lemma good_alts (c : list (list simple)) p : (forall n, In n (flat_map (flat_map nonterminals_in) c) -> K n) -> (forall k source n, In (k, source, n) (flat_map (flat_map terminals_in) c) -> T n) -> In p c -> Forall good p.
  Proof.
    intros HK HT IP. apply Forall_forall. intros s IS. split.
    - intros n IN. apply HK, in_flat_map. exists p. split; [exact IP|]. apply in_flat_map. exists s. auto.
    - intros k source n IN. apply (HT k source), in_flat_map. exists p. split; [exact IP|]. apply in_flat_map. exists s. auto.
  Qed.
  Lemma good_paren a more p : good (SParen a more) -> In p (a :: more) -> Forall good p.
  Proof. intros [HK HT]. apply good_alts; assumption. Qed.
  Lemma good_guard a more p : good (SGuard a more) -> In p (a :: more) -> Forall good p.
  Proof. intros [HK HT]. apply good_alts; assumption. Qed.

  Lemma says_alts more : forall a w rest, says_all (tr_alts a more) w rest <-> exists p, In p (a :: more) /\ says_all (tr_all p) w rest.
  Proof.
    induction more as [|m more IH]; intros a w rest; cbn [LangItemProofs.tr_alts].
    - split; [intros H; exists a; split; [left; reflexivity|exact H]|]. intros (p & [<-|[]] & H). exact H.
    - rewrite says_all_one. split.
      + intros H. inversion H as [| | | | | | | | |? r ? ? IR S]; subst. destruct IR as [<-|[<-|[]]]; [exists a; split; [left; reflexivity|exact S]|]. apply IH in S. destruct S as (p & IP & S). exists p. split; [right; exact IP|exact S].
      + intros (p & [<-|IP] & S); [apply says_choice with (r := tr_all a); [left; reflexivity|exact S]|]. apply says_choice with (r := tr_alts m more); [right; left; reflexivity|]. apply IH. exists p. auto.
  Qed.

  Scheme stands_min := Minimality for LangSpec.stands Sort Prop with stands_all_min := Minimality for LangSpec.stands_all Sort Prop.
  Combined Scheme stands_both from stands_min, stands_all_min.
  Lemma stands_says : (forall s w rest, stands s w rest -> good s -> says_all (tr s) (map tm w) (map tm rest)) /\ (forall l w rest, stands_all l w rest -> Forall good l -> says_all (tr_all l) (map tm w) (map tm rest)).
  Proof.
    apply stands_both.
    - intros source n p w rest IP _ IH [HK _]. assert (KN : K n) by (apply HK; left; reflexivity). cbn [LangSpec.tr]. apply says_all_one. eapply says_rule; [rewrite (RULES n KN); apply in_map; exact IP|]. apply IH. eapply GOOD; eassumption.
    - intros k source n rest _. cbn [LangSpec.tr map]. apply says_all_one, says_term.
    - intros a more p w rest IP _ IH G. rewrite tr_guard, map_app. apply says_all_one. cbn [map]. apply says_guard. apply says_alts. exists p. split; [exact IP|]. apply IH. eapply good_guard; eassumption.
    - intros a more p w rest IP _ IH G. rewrite tr_paren. apply says_alts. exists p. split; [exact IP|]. apply IH. eapply good_paren; eassumption.
    - intros s rest G. cbn [LangSpec.tr map]. apply says_all_one, says_no.
    - intros s w rest _ IH G. cbn [LangSpec.tr]. apply says_all_one, says_yes. exact (IH G).
    - intros s rest G. cbn [LangSpec.tr map]. apply says_all_one, says_none.
    - intros s w1 w2 rest _ IH1 _ IH2 G. specialize (IH2 G). cbn [LangSpec.tr] in *. rewrite map_app in *. apply says_all_one. apply says_all_one in IH2. apply says_more; [exact (IH1 G)|exact IH2].
    - intros s w rest _ IH G. cbn [LangSpec.tr]. apply says_all_one, says_one. exact (IH G).
    - intros s w1 w2 rest _ IH1 _ IH2 G. specialize (IH2 G). cbn [LangSpec.tr] in *. rewrite map_app in *. apply says_all_one. apply says_all_one in IH2. apply says_again; [exact (IH1 G)|exact IH2].
    - intros rest _. apply says_nil.
    - intros s l w1 w2 rest _ IH1 _ IH2 G. inversion G as [|? ? G1 G2]; subst. change (tr_all (s :: l)) with (tr s ++ tr_all l). rewrite map_app. apply says_all_app. exists (map tm w1), (map tm w2). split; [reflexivity|]. rewrite <- map_app. auto.
  Qed.

  (** *** Brackets around a single alternative leave no trace in the items. *)
  Fixpoint flat (s : simple) : list simple :=
    match s with
    | SParen a [] => flat_map flat a
    | s => [s]
    end.
  Definition is_flat (s : simple) : Prop := match s with SParen _ [] => False | _ => True end.
  Definition flats (l : list simple) : list simple := flat_map flat l.
  Lemma stands_all_app a b : forall w rest, stands_all (a ++ b) w rest <-> exists w1 w2, w = w1 ++ w2 /\ stands_all a w1 (w2 ++ rest) /\ stands_all b w2 rest.
  Proof.
    induction a as [|x a IH]; intros w rest; cbn [app].
    - split; [intros H; exists [], w; split; [reflexivity|split; [constructor|exact H]]|]. intros (w1 & w2 & -> & H1 & H2). inversion H1; subst. exact H2.
    - split.
      + intros H. inversion H as [|? ? u v ? H1 H2]; subst. apply IH in H2. destruct H2 as (v1 & v2 & -> & H3 & H4). exists (u ++ v1), v2. split; [rewrite app_assoc; reflexivity|]. split; [|exact H4]. constructor; [rewrite <- app_assoc in H1; exact H1|exact H3].
      + intros (w1 & w2 & -> & H1 & H2). inversion H1 as [|? ? u v ? H3 H4]; subst. rewrite <- app_assoc. constructor; [rewrite <- app_assoc; exact H3|]. apply IH. exists v, w2. auto.
  Qed.
  Lemma flats_stand l : (forall s, In s l -> forall w rest, stands_all (flat s) w rest -> stands s w rest) -> forall w rest, stands_all (flats l) w rest -> stands_all l w rest.
  Proof.
    induction l as [|s l IH]; intros HF w rest H; [exact H|]. unfold flats in H. cbn [flat_map] in H. apply stands_all_app in H. destruct H as (w1 & w2 & -> & H1 & H2). constructor.
    - apply HF; [left; reflexivity|exact H1].
    - apply IH; [intros s' IS; apply HF; right; exact IS|exact H2].
  Qed.
  Lemma one_stands s w rest : stands_all [s] w rest -> stands s w rest.
  Proof. intros H. inversion H as [|? ? u v ? H1 H2]; subst. inversion H2; subst. rewrite app_nil_r. exact H1. Qed.
  Lemma flat_stands s : forall w rest, stands_all (flat s) w rest -> stands s w rest.
  Proof.
    induction s using simple_rect'; intros w rest ST; try (apply one_stands, ST).
    destruct more as [|m more]; [|apply one_stands, ST]. cbn [flat] in ST. apply stands_paren with (p := a); [left; reflexivity|]. apply flats_stand; [|exact ST]. intros s IS. rewrite Forall_forall in H. exact (H s IS).
  Qed.
  Definition item_of (s : simple) (x : item) : Prop := is_flat s /\ good s /\ tr s = [x].
  Lemma items_app a b xs ys : Forall2 item_of a xs -> Forall2 item_of b ys -> Forall2 item_of (a ++ b) (xs ++ ys).
  Proof. intros. apply Forall2_app; assumption. Qed.
  Lemma flats_items l : (forall s, In s l -> good s -> Forall2 item_of (flat s) (tr s)) -> Forall good l -> Forall2 item_of (flats l) (tr_all l).
  Proof.
    induction l as [|s l IH]; intros HF G; [constructor|]. inversion G; subst. unfold flats. cbn [flat_map]. change (tr_all (s :: l)) with (tr s ++ tr_all l). apply items_app; [apply HF; [left; reflexivity|assumption]|]. apply IH; [intros s' IS; apply HF; right; exact IS|assumption].
  Qed.
  Lemma one_item s x : is_flat s -> good s -> tr s = [x] -> flat s = [s] -> Forall2 item_of (flat s) (tr s).
  Proof. intros F G E ->. rewrite E. constructor; [|constructor]. repeat split; try assumption; apply G. Qed.
  Lemma flat_items s : good s -> Forall2 item_of (flat s) (tr s).
  Proof.
    induction s using simple_rect'; intros G; try (eapply one_item; [exact Logic.I|exact G|reflexivity|reflexivity]).
    destruct more as [|m more].
    - rewrite tr_paren. cbn [flat LangItemProofs.tr_alts]. apply flats_items.
      + intros s IS. rewrite Forall_forall in H. exact (H s IS).
      + eapply good_paren; [exact G|left; reflexivity].
    - eapply one_item; [exact Logic.I|exact G|rewrite tr_paren; reflexivity|reflexivity].
  Qed.
  Lemma all_items l : Forall good l -> Forall2 item_of (flats l) (tr_all l).
  Proof. apply flats_items. intros s _. apply flat_items. Qed.
  Lemma all_stands l w rest : stands_all (flats l) w rest -> stands_all l w rest.
  Proof. apply flats_stand. intros s _. apply flat_stands. Qed.

  (** *** From the items to the productions *)
  Definition back (xs : list item) (w rest : list Z) : Prop := forall ss u v, Forall2 item_of ss xs -> w = map tm u -> rest = map tm v -> stands_all ss u v.
  Lemma back_all p w rest u v : back (tr_all p) w rest -> Forall good p -> w = map tm u -> rest = map tm v -> stands_all p u v.
  Proof. intros B G E1 E2. apply all_stands. apply B; [apply all_items, G|exact E1|exact E2]. Qed.
  Lemma back_one s w rest u v : back (tr s) w rest -> good s -> w = map tm u -> rest = map tm v -> stands s u v.
  Proof. intros B G E1 E2. apply flat_stands. apply B; [apply flat_items, G|exact E1|exact E2]. Qed.
  Lemma back_alts a more w rest u v : back (tr_alts a more) w rest -> good (SParen a more) -> w = map tm u -> rest = map tm v -> exists p, In p (a :: more) /\ stands_all p u v.
  Proof.
    intros B G E1 E2. rewrite <- tr_paren in B. pose proof (back_one _ _ _ _ _ B G E1 E2) as S. inversion S as [| | |? ? p ? ? IP SP| | | | | |]; subst. exists p. auto.
  Qed.
  Lemma says_stands : (forall x w rest, says x w rest -> forall s u v, item_of s x -> w = map tm u -> rest = map tm v -> stands s u v) /\ (forall xs w rest, says_all xs w rest -> back xs w rest).
  Proof.
    apply says_both.
    - intros z rest s u v (F & G & E) E1 E2. destruct s as [src n|k src n|a more|s|s|s|a [|m more]]; try discriminate E; [|destruct F]. injection E as <-. destruct u as [|n' [|? ?]]; try discriminate E1. injection E1 as E1.
      assert (X : n = n') by (apply INJ; [apply (proj2 G k src); left; reflexivity|exact E1]). subst n'. apply stands_terminal.
    - intros z r w rest IR _ IH s u v (F & G & E) E1 E2. destruct s as [src n|k src n|a more|s|s|s|a [|m more]]; try discriminate E; [|destruct F]. injection E as <-. assert (KN : K n) by (apply G; left; reflexivity). rewrite (RULES n KN) in IR. apply in_map_iff in IR. destruct IR as (p & <- & IP).
      apply stands_nonterminal with (p := p); [exact IP|]. eapply back_all; [exact IH|eapply GOOD; eassumption|exact E1|exact E2].
    - intros pr g w rest _ IH s u v (F & G & E) E1 E2. destruct s as [src n|k src n|a more|s|s|s|a [|m more]]; try discriminate E; [|destruct F]. rewrite tr_guard in E. injection E as _ <-. destruct u; [|discriminate E1]. symmetry in E2. apply map_split in E2. destruct E2 as (x & y & -> & Ex & Ey).
      destruct (back_alts _ _ _ _ _ _ IH G Ex Ey) as (p & IP & S). apply stands_guard with (p := p); assumption.
    - intros rs rest s u v (F & G & E) E1 E2. destruct s as [src n|k src n|a more|s|s|s|a [|m more]]; try discriminate E; [|destruct F]. destruct u; [|discriminate E1]. apply stands_no.
    - intros rs w rest _ IH s u v (F & G & E) E1 E2. destruct s as [src n|k src n|a more|s|s|s|a [|m more]]; try discriminate E; [|destruct F]. injection E as <-. apply stands_yes. eapply back_one; [exact IH|exact G|exact E1|exact E2].
    - intros rs rest s u v (F & G & E) E1 E2. destruct s as [src n|k src n|a more|s|s|s|a [|m more]]; try discriminate E; [|destruct F]. destruct u; [|discriminate E1]. apply stands_star_none.
    - intros rs w1 w2 rest _ IH1 _ IH2 s u v (F & G & E) E1 E2. destruct s as [src n|k src n|a more|s|s|s|a [|m more]]; try discriminate E; [|destruct F]. injection E as <-. symmetry in E1. apply map_split in E1. destruct E1 as (x & y & -> & Ex & Ey). apply stands_star_more.
      + eapply back_one; [exact IH1|exact G|exact Ex|]. rewrite map_app. congruence.
      + apply IH2; [split; [exact F|split; [exact G|reflexivity]]|exact Ey|exact E2].
    - intros rs w rest _ IH s u v (F & G & E) E1 E2. destruct s as [src n|k src n|a more|s|s|s|a [|m more]]; try discriminate E; [|destruct F]. injection E as <-. apply stands_plus_one. eapply back_one; [exact IH|exact G|exact E1|exact E2].
    - intros rs w1 w2 rest _ IH1 _ IH2 s u v (F & G & E) E1 E2. destruct s as [src n|k src n|a more|s|s|s|a [|m more]]; try discriminate E; [|destruct F]. injection E as <-. symmetry in E1. apply map_split in E1. destruct E1 as (x & y & -> & Ex & Ey). apply stands_plus_more.
      + eapply back_one; [exact IH1|exact G|exact Ex|]. rewrite map_app. congruence.
      + apply IH2; [split; [exact F|split; [exact G|reflexivity]]|exact Ey|exact E2].
    - intros rs r w rest IR _ IH s u v (F & G & E) E1 E2. destruct s as [src n|k src n|a more|s|s|s|a [|m more]]; try discriminate E; [destruct F|]. rewrite tr_paren in E. injection E as <-. destruct IR as [<-|[<-|[]]].
      + apply stands_paren with (p := a); [left; reflexivity|]. eapply back_all; [exact IH|eapply good_paren; [exact G|left; reflexivity]|exact E1|exact E2].
      + assert (G' : good (SParen m more)) by (split; [intros n IN; apply (proj1 G)|intros k src n IN; apply (proj2 G k src)]; cbn [nonterminals_in terminals_in flat_map] in *; rewrite !in_app_iff in *; tauto).
        destruct (back_alts _ _ _ _ _ _ IH G' E1 E2) as (p & IP & S). apply stands_paren with (p := p); [right; exact IP|exact S].
    - intros rest ss u v F E1 E2. inversion F; subst. destruct u; [|discriminate E1]. constructor.
    - intros x xs w1 w2 rest _ IH1 _ IH2 ss u v F E1 E2. inversion F as [|s ? ss' ? F1 F2]; subst. symmetry in E1. apply map_split in E1. destruct E1 as (y & z & -> & Ey & Ez). constructor.
      + apply IH1; [exact F1|exact Ey|]. rewrite map_app. congruence.
      + apply IH2; [exact F2|exact Ez|reflexivity].
  Qed.

  (** *** A nonterminal *)
  Lemma nonterminal_words (rid : rule -> Z) (ident : item -> Z) (L : Type) (matched : L -> Z) (renamed : Z -> L -> L) source n u v w rest :
    K n -> map matched w = map tm u -> map matched rest = map tm v ->
    stands (SNonterminal source n) u v <-> exists tree, parses rules rid ident L matched renamed (fun _ _ => False) (fun _ => False) (INonterm (nt n)) tree w rest.
  Proof.
    intros KN E1 E2. assert (G : good (SNonterminal source n)) by (split; [intros m [<-|[]]; exact KN|intros k s m []]). split.
    - intros H. apply (proj1 stands_says _ _ _ H) in G. apply says_all_one in G. eapply (proj1 (says_parses rules rid ident L matched renamed)); [exact G|symmetry; exact E1|symmetry; exact E2].
    - intros [tree P]. apply parses_says in P. eapply (proj1 says_stands); [exact P|split; [exact Logic.I|split; [exact G|reflexivity]]|exact E1|exact E2].
  Qed.
End Words.

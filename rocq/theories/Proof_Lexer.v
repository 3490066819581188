(** Proofs: the lexer and number parsing of the task parser. *)
From Coq Require Import Ascii String List.
From Verif Require Import Outcome Spec_Task Spec_Format Model_Axioms Model_Parser.
Local Open Scope nat_scope.
Import ListNotations.

(** *** Lines *)
Lemma getlines_nonempty t : getlines t <> [].
Proof. destruct t as [|c r]; cbn [getlines]; try discriminate. destruct (Ascii.eqb c newline); try discriminate.
       destruct (getlines r); discriminate. Qed.

Lemma lines_of_getlines t ls : lines_of t ls -> ls = getlines t.
Proof.
  assert (Hl : forall l, ~ In newline l -> getlines l = [l]).
  { induction l as [|c r IH]; intros H; cbn [getlines]; auto.
    destruct (Ascii.eqb_spec c newline) as [->|]; [exfalso; apply H; left; auto|].
    rewrite IH; auto. intros K; apply H; right; auto. }
  assert (Ha : forall l t, ~ In newline l -> getlines (l ++ newline :: t) = l :: getlines t).
  { induction l as [|c r IH]; intros u H; cbn [app getlines].
    - now rewrite Ascii.eqb_refl.
    - destruct (Ascii.eqb_spec c newline) as [->|]; [exfalso; apply H; left; auto|].
      rewrite IH; auto. intros K; apply H; right; auto. }
  induction 1; [now rewrite Hl|]. now rewrite Ha, IHlines_of.
Qed.

Lemma getlines_lines_of t : lines_of t (getlines t).
Proof.
  induction t as [|c r IH]; cbn [getlines].
  - constructor; auto.
  - destruct (Ascii.eqb_spec c newline) as [->|Hne].
    + apply (lines_more [] r); auto.
    + inversion IH as [l Hl E1 E2|l t ls Hl Ht E1 E2]; subst.
      * constructor. intros [K|K]; auto.
      * apply (lines_more (c :: l) t ls); auto. intros [K|K]; auto.
Qed.

(** *** Content *)
Definition nonblank (ls : list text) : list text := filter (fun l => negb (is_whitespace l)) ls.

Lemma is_whitespace_blank s : is_whitespace s = true <-> blank s.
Proof.
  induction s as [|c r IH]; cbn; split; intros H; auto.
  - intros x [].
  - destruct (is_space c) eqn:E; [|discriminate]. intros x [<-|K]; auto. now apply IH.
  - rewrite (H c) by (left; auto). apply IH. intros x K; apply H; right; auto.
Qed.

Lemma content_nonblank ls cs : content ls cs -> cs = nonblank ls.
Proof.
  induction 1 as [|l ls ls' Hb _ IH|l ls ls' Hb _ IH]; cbn; auto.
  - apply is_whitespace_blank in Hb. now rewrite Hb.
  - destruct (is_whitespace l) eqn:E; [now apply is_whitespace_blank in E|]. cbn. now f_equal.
Qed.

Lemma nonblank_content ls : content ls (nonblank ls).
Proof.
  induction ls as [|l ls IH]; cbn; [constructor|].
  destruct (is_whitespace l) eqn:E; cbn.
  - apply content_skip; auto. now apply is_whitespace_blank.
  - apply content_keep; auto. intros K; apply is_whitespace_blank in K; congruence.
Qed.

Lemma next_line_nil ls : nonblank ls = [] -> exists r, get_next_nonempty_line ls = ([], r) /\ nonblank r = [].
Proof.
  induction ls as [|l ls IH]; cbn; intros H; eauto.
  destruct (is_whitespace l); cbn in H; [auto|discriminate].
Qed.

Lemma next_line_cons ls s r : nonblank ls = s :: r ->
  is_whitespace s = false /\ exists ls', get_next_nonempty_line ls = (s, ls') /\ nonblank ls' = r.
Proof.
  induction ls as [|l ls IH]; cbn; intros H; [discriminate|].
  destruct (is_whitespace l) eqn:E; cbn in H; auto. injection H as -> <-. eauto.
Qed.

(** *** Words *)
Lemma tokenize_run w rest acc : (forall c, In c w -> is_space c = false) ->
  tokenize (w ++ rest) acc = tokenize rest (rev w ++ acc).
Proof.
  revert acc; induction w as [|c w IH]; intros acc H; cbn; auto.
  rewrite (H c) by (left; auto). rewrite IH by (intros; apply H; right; auto).
  now rewrite <- app_assoc.
Qed.

Lemma tokenize_blank b rest : blank b -> tokenize (b ++ rest) [] = tokenize rest [].
Proof.
  induction b as [|c b IH]; intros H; cbn; auto.
  rewrite (H c) by (left; auto). apply IH. intros x K; apply H; right; auto.
Qed.

Lemma words_tokenize s ws : words s ws -> ws = tokenize s [].
Proof.
  induction 1 as [s Hb|b w rest ws Hb Hw Hns Hr _ IH].
  - rewrite <- (app_nil_r s), tokenize_blank; auto.
  - rewrite tokenize_blank, tokenize_run, app_nil_r by auto.
    assert (Hrw : rev w <> []).
    { intros K. apply Hw. rewrite <- (rev_involutive w), K. reflexivity. }
    destruct Hr as [->|(c & r & -> & Hc)].
    + cbn in *. subst ws. destruct (rev w) eqn:E; [congruence|]. now rewrite <- E, rev_involutive.
    + cbn [tokenize]. rewrite Hc. cbn [tokenize] in IH. rewrite Hc in IH. subst ws.
      destruct (rev w) eqn:E; [congruence|]. now rewrite <- E, rev_involutive.
Qed.

Lemma span_space s : exists b r, s = b ++ r /\ blank b /\ (r = [] \/ exists c r', r = c :: r' /\ is_space c = false).
Proof.
  induction s as [|c s (b & r & -> & Hb & Hr)].
  - exists [], []; splits; auto. intros x [].
  - destruct (is_space c) eqn:E.
    + exists (c :: b), r; splits; auto. intros x [<-|K]; auto.
    + exists [], (c :: b ++ r); splits; auto; [intros x []|]. right; eauto.
Qed.

Lemma span_word s : exists w r, s = w ++ r /\ (forall c, In c w -> is_space c = false) /\
  (r = [] \/ exists c r', r = c :: r' /\ is_space c = true).
Proof.
  induction s as [|c s (w & r & -> & Hb & Hr)].
  - exists [], []; splits; auto. intros x [].
  - destruct (is_space c) eqn:E.
    + exists [], (c :: w ++ r); splits; auto; [intros x []|]. right; eauto.
    + exists (c :: w), r; splits; auto. intros x [<-|K]; auto.
Qed.

Lemma tokenize_words s : words s (tokenize s []).
Proof.
  assert (H : forall n s, length s <= n -> exists ws, words s ws).
  { induction n as [|n IH]; intros u Hu.
    - destruct u; [|cbn in Hu; lia]. exists []; constructor. intros x [].
    - destruct (span_space u) as (b & r & -> & Hb & [->|(c & r' & -> & Hc)]).
      + exists []. rewrite app_nil_r. now constructor.
      + destruct (span_word (c :: r')) as (w & rest & E & Hw & Hr).
        rewrite E in *. destruct w as [|c' w].
        { exfalso. cbn in E. subst rest. destruct Hr as [?|(c1 & r1 & E1 & H1)]; [discriminate|].
          injection E1 as <- <-. congruence. }
        destruct (IH rest) as (ws & Hws).
        { rewrite !app_length in Hu. cbn in Hu. lia. }
        exists ((c' :: w) :: ws). constructor; auto. discriminate. }
  destruct (H _ s (le_n _)) as (ws & Hws). now rewrite <- (words_tokenize _ _ Hws).
Qed.

Lemma words_nonempty s ws : is_whitespace s = false -> words s ws -> ws <> [].
Proof. intros H Hw ->. inv Hw. apply is_whitespace_blank in H0. congruence. Qed.

Lemma words_not_sentinel s ws t : words s ws -> In t ws -> t <> sentinel /\ t <> [].
Proof.
  induction 1 as [s Hb|b w rest ws Hb Hw Hns Hr _ IH]; intros K; [destruct K|].
  destruct K as [<-|K]; auto. split; auto. intros ->.
  specialize (Hns newline (or_introl eq_refl)). discriminate.
Qed.

(** *** Numbers *)
Lemma digit_value_digit d : d < 10 -> digit_value (digit d) = Some d.
Proof. intros H. do 10 (destruct d as [|d]; [reflexivity|]). lia. Qed.

Lemma digit_value_inv c d : digit_value c = Some d -> d < 10 /\ c = digit d.
Proof.
  unfold digit_value. destruct (Nat.leb_spec 48 (nat_of_ascii c)); [|discriminate].
  destruct (Nat.leb_spec (nat_of_ascii c) 57); [|discriminate]. cbn [andb]. intros E; injection E as <-.
  split; [lia|]. unfold digit. replace (48 + (nat_of_ascii c - 48)) with (nat_of_ascii c) by lia.
  now rewrite ascii_nat_embedding.
Qed.

Lemma digits_app s acc v s' : digits s acc = (v, []) -> digits (s ++ s') acc = digits s' v.
Proof.
  revert acc; induction s as [|c s IH]; intros acc H; cbn in *; [now injection H as ->|].
  destruct (digit_value c); auto. discriminate.
Qed.

Lemma decimal_digits s z : decimal s z ->
  digits s 0 = (z, []) /\ (0 <= z)%Z /\ exists d r, s = digit d :: r /\ d < 10.
Proof.
  induction 1 as [d Hd|s z d Hs (IH1 & IH2 & d' & r & -> & Hd') Hd].
  - cbn [digits]. rewrite digit_value_digit by auto. splits; eauto. lia.
  - split; [|split].
    + rewrite (digits_app _ _ _ _ IH1). cbn [digits]. now rewrite digit_value_digit.
    + lia.
    + exists d', (r ++ [digit d]); auto.
Qed.

Lemma digits_decimal s : forall s0 acc v, decimal s0 acc -> digits s acc = (v, []) -> decimal (s0 ++ s) v.
Proof.
  induction s as [|c s IH]; intros s0 acc v H0 H; cbn in H.
  - injection H as <-. now rewrite app_nil_r.
  - destruct (digit_value c) as [d|] eqn:E; [|discriminate].
    apply digit_value_inv in E as (Hd & ->).
    change (digit d :: s) with ([digit d] ++ s). rewrite app_assoc.
    eapply IH; [|exact H]. constructor; auto.
Qed.

Lemma digits_decimal_start c s d v : digit_value c = Some d -> digits (c :: s) 0 = (v, []) -> decimal (c :: s) v.
Proof.
  intros E H. cbn in H. rewrite E in H. apply digit_value_inv in E as (Hd & ->).
  change (digit d :: s) with ([digit d] ++ s).
  eapply digits_decimal; [|exact H]. now constructor.
Qed.

Lemma digit_sign d c : d < 10 -> nat_of_ascii c < 48 -> Ascii.eqb (digit d) c = false.
Proof.
  intros Hd Hc. apply Ascii.eqb_neq. intros <-. unfold digit in Hc.
  rewrite nat_ascii_embedding in Hc by lia. lia.
Qed.

Lemma parse_int_token s z : int_token s z -> parse_int s = ret z.
Proof.
  unfold int_min, int_max.
  destruct 1 as [s z H Hb|s z H Hb|s z H Hb];
    destruct (decimal_digits _ _ H) as (E & Hz & d & r & -> & Hd); unfold parse_int.
  - rewrite digit_sign, digit_sign by (auto; cbn; lia). rewrite digit_value_digit, E by auto.
    rewrite Z.mul_1_l. unfold int_min, int_max in *.
    destruct (Z.ltb_spec z (- 2 ^ 31)); [lia|]. destruct (Z.ltb_spec (2 ^ 31 - 1) z); [lia|]. reflexivity.
  - cbn [Ascii.eqb Bool.eqb]. rewrite digit_value_digit, E by auto.
    rewrite Z.mul_1_l. unfold int_min, int_max in *.
    destruct (Z.ltb_spec z (- 2 ^ 31)); [lia|]. destruct (Z.ltb_spec (2 ^ 31 - 1) z); [lia|]. reflexivity.
  - cbn [Ascii.eqb Bool.eqb]. rewrite digit_value_digit, E by auto.
    replace (-1 * z)%Z with (- z)%Z by lia. unfold int_min, int_max in *.
    destruct (Z.ltb_spec (- z) (- 2 ^ 31)); [lia|]. destruct (Z.ltb_spec (2 ^ 31 - 1) (- z)); [lia|]. reflexivity.
Qed.

Lemma parse_int_cases s : (exists z, int_token s z /\ parse_int s = ret z) \/ parse_int s = perror.
Proof.
  assert (G : forall r sign, (exists v, decimal r v /\ (int_min <= sign * v <= int_max)%Z) \/
    match r with
    | c :: _ =>
        match digit_value c with
        | Some _ => let (v, rest) := digits r 0 in
            let n := (sign * v)%Z in
            if ((n <? int_min) || (int_max <? n))%Z then perror
            else match rest with [] => ret n | _ => perror end
        | None => perror
        end
    | [] => perror
    end = perror).
  { intros [|c r] sign; [now right|]. destruct (digit_value c) as [d|] eqn:E; [|now right].
    destruct (digits (c :: r) 0) as [v rest] eqn:Ed.
    cbn zeta. destruct rest as [|x rest].
    - destruct (Z.ltb_spec (sign * v) int_min); [right; reflexivity|].
      destruct (Z.ltb_spec int_max (sign * v)); [right; reflexivity|].
      left. exists v; split; [eapply digits_decimal_start; eauto|lia].
    - right. destruct (_ || _)%bool; auto. }
  destruct s as [|c r]; [now right|].
  destruct (Ascii.eqb_spec c "+"%char) as [->|H1].
  - destruct (G r 1%Z) as [(v & Hv & Hb)|E].
    + left. exists v. assert (int_token ("+"%char :: r) v) by (constructor; auto; lia).
      split; auto. now apply parse_int_token.
    + right. exact E.
  - destruct (Ascii.eqb_spec c "-"%char) as [->|H2].
    + destruct (G r (-1)%Z) as [(v & Hv & Hb)|E].
      * left. exists (- v)%Z. assert (int_token ("-"%char :: r) (- v)) by (constructor; auto; lia).
        split; auto. now apply parse_int_token.
      * right. exact E.
    + destruct (G (c :: r) 1%Z) as [(v & Hv & Hb)|E].
      * left. exists v. assert (int_token (c :: r) v) by (constructor; auto; lia).
        split; auto. now apply parse_int_token.
      * right. unfold parse_int. apply Ascii.eqb_neq in H1, H2. rewrite H1, H2. exact E.
Qed.

Lemma int_token_fun s z z' : int_token s z -> int_token s z' -> z = z'.
Proof.
  intros H H'. apply parse_int_token in H, H'. rewrite H in H'.
  apply (f_equal (fun p => p {| lx_lines := []; lx_tokens := []; lx_pos := 0 |})) in H'. unfold ret in H'. now injection H' as ->.
Qed.

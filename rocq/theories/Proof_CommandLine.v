(** Proofs about the command line. *)
From Coq Require Import Ascii String List Sorting.
From Verif Require Import Outcome Spec_Format Spec_CommandLine Model_Parser Model_CommandLine.
Import ListNotations.
Local Open Scope nat_scope.

Lemma teq_spec a b : teq a b = true <-> a = str b.
Proof. unfold teq, text_eqb. destruct (list_eq_dec ascii_dec a (str b)); split; congruence. Qed.
Lemma teq_false a b : teq a b = false <-> a <> str b.
Proof. unfold teq, text_eqb. destruct (list_eq_dec ascii_dec a (str b)); split; congruence. Qed.
Lemma str_inj a b : str a = str b -> a = b.
Proof.
  unfold str. intros H. rewrite <- (string_of_list_ascii_of_string a), <- (string_of_list_ascii_of_string b). congruence.
Qed.

(** ** Filtering *)

Definition sel (u active : bool) (args : list text) (i : nat) (a : text) : Prop :=
  nth_error args i = Some a /\ (forall b, ~ switch u a b) /\
  ((active = true /\ forall j x b, j < i -> nth_error args j = Some x -> ~ switch u x b) \/
   exists j x, j < i /\ nth_error args j = Some x /\ switch u x true /\
     forall j' x' b, j < j' < i -> nth_error args j' = Some x' -> ~ switch u x' b).

Lemma switch_fun u x b b' : switch u x b -> switch u x b' -> b = b'.
Proof. intros [] H; inversion H; reflexivity || (exfalso; match goal with K : str _ = str _ |- _ => apply str_inj in K; discriminate end). Qed.

Lemma not_switch u a : teq a "--if-unit-cost" = false -> teq a "--if-non-unit-cost" = false -> teq a "--always" = false ->
  forall b, ~ switch u a b.
Proof. intros H1 H2 H3 b H. apply teq_false in H1, H2, H3. destruct H; congruence. Qed.

Lemma sel_switch u active x b rest i a : switch u x b -> sel u active (x :: rest) i a <-> exists k, i = S k /\ sel u b rest k a.
Proof.
  intros Hx. unfold sel. split.
  - intros (H1 & H2 & H3). destruct i as [|k]; [simpl in H1; injection H1 as ->; exfalso; eapply H2; eauto|].
    exists k. split; auto. split; [exact H1|]. split; auto.
    destruct H3 as [[_ H3]|([|j] & y & Hj & Hy & Hs & Hlast)].
    + exfalso. eapply (H3 0); [lia|reflexivity|exact Hx].
    + simpl in Hy. injection Hy as ->. left. split; [eapply switch_fun; eauto|].
      intros j z c Hj' Hz. eapply (Hlast (S j)); [lia|exact Hz].
    + right. exists j, y. splits; auto; [lia|]. intros j' z c Hj' Hz. eapply (Hlast (S j')); [lia|exact Hz].
  - intros (k & -> & H1 & H2 & H3). split; [exact H1|]. split; auto. right.
    destruct H3 as [[-> H3]|(j & y & Hj & Hy & Hs & Hlast)].
    + exists 0, x. splits; auto; [lia|]. intros [|j'] z c Hj' Hz; [lia|]. eapply (H3 j'); [lia|exact Hz].
    + exists (S j), y. splits; auto; [lia|]. intros [|j'] z c Hj' Hz; [lia|]. eapply (Hlast j'); [lia|exact Hz].
Qed.

Lemma sel_plain u active x rest i a : (forall b, ~ switch u x b) ->
  sel u active (x :: rest) i a <-> (i = 0 /\ a = x /\ active = true) \/ exists k, i = S k /\ sel u active rest k a.
Proof.
  intros Hx. unfold sel. split.
  - intros (H1 & H2 & H3). destruct i as [|k].
    + simpl in H1. injection H1 as ->. left. splits; auto. destruct H3 as [[H3 _]|(j & y & Hj & _)]; [auto|lia].
    + right. exists k. split; auto. split; [exact H1|]. split; auto.
      destruct H3 as [[-> H3]|([|j] & y & Hj & Hy & Hs & Hlast)].
      * left. split; auto. intros j z c Hj Hz. eapply (H3 (S j)); [lia|exact Hz].
      * simpl in Hy. injection Hy as ->. exfalso. eapply Hx; eauto.
      * right. exists j, y. splits; auto; [lia|]. intros j' z c Hj' Hz. eapply (Hlast (S j')); [lia|exact Hz].
  - intros [(-> & -> & ->)|(k & -> & H1 & H2 & H3)].
    + split; [reflexivity|]. split; auto. left. split; auto. intros; lia.
    + split; [exact H1|]. split; auto. destruct H3 as [[-> H3]|(j & y & Hj & Hy & Hs & Hlast)].
      * left. split; auto. intros [|j] z c Hj Hz; [simpl in Hz; injection Hz as <-; auto|]. eapply (H3 j); [lia|exact Hz].
      * right. exists (S j), y. splits; auto; [lia|]. intros [|j'] z c Hj' Hz; [lia|]. eapply (Hlast j'); [lia|exact Hz].
Qed.

Definition positions (ps : list nat) (P : nat -> text -> Prop) (r : list text) : Prop :=
  StronglySorted lt ps /\ Forall2 P ps r /\ forall i a, P i a -> In i ps.

Lemma shift_positions ps P r (Q : nat -> text -> Prop) :
  positions ps P r -> (forall i a, Q i a <-> exists k, i = S k /\ P k a) -> positions (map S ps) Q r.
Proof.
  intros (H1 & H2 & H3) HQ. split; [|split].
  - clear - H1. induction H1 as [|x l Hs IH Hx]; simpl; constructor; auto. rewrite Forall_forall in *.
    intros y Hy. apply in_map_iff in Hy as (z & <- & Hz). specialize (Hx z Hz). lia.
  - clear - H2 HQ. induction H2; simpl; constructor; auto. apply HQ. eauto.
  - intros i a H. apply HQ in H as (k & -> & H). apply in_map. eauto.
Qed.

Lemma filter_positions u args : forall active, exists ps, positions ps (sel u active args) (filter_args u active args).
Proof.
  induction args as [|x rest IH]; intros active.
  - exists []. split; [constructor|]. split; [constructor|]. intros i a (H & _). destruct i; discriminate.
  - cbn [filter_args].
    assert (SW : forall b, switch u x b -> exists ps, positions ps (sel u active (x :: rest)) (filter_args u b rest)).
    { intros b Hb. destruct (IH b) as (ps & H). exists (map S ps). eapply shift_positions; [exact H|]. intros i a. apply sel_switch; auto. }
    destruct (teq x "--if-unit-cost") eqn:E1; [apply teq_spec in E1; subst; apply SW; constructor|].
    destruct (teq x "--if-non-unit-cost") eqn:E2; [apply teq_spec in E2; subst; apply SW; constructor|].
    destruct (teq x "--always") eqn:E3; [apply teq_spec in E3; subst; apply SW; constructor|].
    pose proof (not_switch u x E1 E2 E3) as Hx. destruct (IH active) as (ps & H).
    assert (H' := shift_positions ps _ _ (fun i a => exists k, i = S k /\ sel u active rest k a) H (fun i a => iff_refl _)).
    destruct active.
    + exists (0 :: map S ps). destruct H' as (A & B & C). split; [|split].
      * constructor; auto. apply Forall_forall. intros y Hy. apply in_map_iff in Hy as (z & <- & _). lia.
      * constructor; [apply sel_plain; auto|]. clear - B Hx. induction B; constructor; auto. apply sel_plain; auto.
      * intros i a K. apply sel_plain in K as [(-> & _)|K]; auto; [left; auto|right; eauto].
    + exists (map S ps). destruct H' as (A & B & C). split; [|split]; auto.
      * clear - B Hx. induction B; constructor; auto. apply sel_plain; auto.
      * intros i a K. apply sel_plain in K as [(_ & _ & K)|K]; auto; [discriminate|eauto].
Qed.

(** ** Predefinitions *)

Lemma isalnum_spec c : isalnum c = true <-> alnum c.
Proof.
  unfold isalnum, alnum. rewrite !orb_true_iff, !andb_true_iff, !Nat.leb_le. lia.
Qed.
Lemma alpha_spec k : is_alpha_numeric k = true <-> Forall alnum k.
Proof. unfold is_alpha_numeric. rewrite forallb_forall, Forall_forall. split; intros H c Hc; apply isalnum_spec; auto. Qed.
Lemma split_once_spec sep s a b : split_once sep s = Some (a, b) <-> s = a ++ sep :: b /\ ~ In sep a.
Proof.
  revert a b. induction s as [|c r IH]; intros a b; simpl.
  - split; [discriminate|]. intros [H _]. destruct a; discriminate.
  - destruct (Ascii.eqb c sep) eqn:E.
    + apply Ascii.eqb_eq in E as ->. split.
      * intros [= <- <-]. split; auto.
      * intros [H K]. destruct a as [|x a]; simpl in H; inversion H; subst; auto. exfalso. apply K. left. auto.
    + apply Ascii.eqb_neq in E. split.
      * destruct (split_once sep r) as [[a' b']|] eqn:Er; [|discriminate]. intros [= <- <-].
        destruct (proj1 (IH a' b') eq_refl) as [-> K]. split; auto. intros [->|H]; auto.
      * intros [H K]. destruct a as [|x a]; simpl in H; injection H as H1 H2; [congruence|]. subst.
        rewrite (proj2 (IH a b)); auto. split; auto. intros H. apply K. right. auto.
Qed.
Lemma split_once_none sep s : split_once sep s = None <-> ~ In sep s.
Proof.
  split.
  - intros H K. apply in_split in K as (a & b & E).
    assert (exists a b, s = a ++ sep :: b /\ ~ In sep a) as (a' & b' & E').
    { clear - E. revert s E. induction a as [|x a IH]; intros s ->; simpl.
      - exists [], b. auto.
      - destruct (Ascii.ascii_dec x sep) as [->|N]; [exists [], (a ++ sep :: b); auto|].
        destruct (IH _ eq_refl) as (a' & b' & E' & K). exists (x :: a'), b'. rewrite E'. split; auto. intros [->|?]; auto. }
    apply split_once_spec in E'. congruence.
  - intros H. destruct (split_once sep s) as [[a b]|] eqn:E; auto. apply split_once_spec in E as [-> _].
    exfalso. apply H, in_or_app. right. left. auto.
Qed.

(** What the loop produces for items. *)
Definition prefix_of (k d : text) : text := str "let(" ++ k ++ str "," ++ d ++ str ",".
Fixpoint produce (its : list item) (buf : text) (num : nat) : list text :=
  match its with
  | [] => []
  | Predef _ k d :: r => produce r (buf ++ prefix_of k d) (S num)
  | Search s :: r => str "--search" :: (buf ++ s ++ repeat ")"%char num) :: produce r buf num
  | Other a :: r => a :: produce r buf num
  end.

Definition plain (it : item) : Prop := ~ is_predef it /\ ~ is_search it.
Definition arr (has : bool) (num : nat) (its : list item) : Prop :=
  Forall item_ok its /\
  if has then (forall it, In it its -> plain it)
  else (num = 0 /\ forall it, In it its -> plain it) \/
   exists before s after, its = before ++ Search s :: after /\
     (forall it, In it before -> ~ is_search it) /\ (forall it, In it after -> plain it).

Lemma predef_dec a : (teq a "--evaluator" || teq a "--heuristic" || teq a "--landmarks") = true <-> predef_option a.
Proof. unfold predef_option. rewrite !orb_true_iff, !teq_spec. tauto. Qed.
Lemma predef_not a : (teq a "--evaluator" || teq a "--heuristic" || teq a "--landmarks") = false <-> ~ predef_option a.
Proof. rewrite <- predef_dec. apply iff_sym. apply not_true_iff_false. Qed.
Lemma search_not_predef : ~ predef_option (str "--search").
Proof. intros [H|[H|H]]; apply str_inj in H; discriminate. Qed.

Lemma plain_arr its : (forall it, In it its -> plain it) -> forall s before after, its <> before ++ Search s :: after.
Proof. intros H s before after ->. destruct (H (Search s)) as [_ K]; [apply in_or_app; right; left; auto|]. apply K. exact I. Qed.

Lemma arr_cons_plain has num it its : item_ok it -> plain it -> arr has num its -> arr has num (it :: its).
Proof.
  intros Ho Hp (H1 & H2). split; [constructor; auto|]. destruct has.
  - intros x [<-|Hx]; auto.
  - destruct H2 as [[-> H2]|(b & s & a & -> & H3 & H4)].
    + left. split; auto. intros x [<-|Hx]; auto.
    + right. exists (it :: b), s, a. splits; auto. intros x [<-|Hx]; auto. apply Hp.
Qed.

Lemma replace_sound : forall n args new num has buf r, length args <= n -> replace_loop args new num has buf = Ok r ->
  exists its, args = render its /\ arr has num its /\ r = new ++ produce its buf num.
Proof.
  induction n as [|n IH]; intros args new num has buf r Hn E.
  - destruct args; [|simpl in Hn; lia]. simpl in E. destruct (negb has && (0 <? num)) eqn:K; [discriminate|]. injection E as <-.
    exists []. splits; auto; [|simpl; rewrite app_nil_r; auto]. split; auto. destruct has; [intros it []|].
    left. simpl in K. apply Nat.ltb_ge in K. split; [lia|intros it []].
  - destruct args as [|arg rest].
    { simpl in E. destruct (negb has && (0 <? num)) eqn:K; [discriminate|]. injection E as <-.
      exists []. splits; auto; [|simpl; rewrite app_nil_r; auto]. split; auto. destruct has; [intros it []|].
      left. simpl in K. apply Nat.ltb_ge in K. split; [lia|intros it []]. }
    cbn [replace_loop] in E. simpl in Hn.
    destruct (teq arg "--evaluator" || teq arg "--heuristic" || teq arg "--landmarks") eqn:E1.
    + apply predef_dec in E1. destruct has; [discriminate|]. destruct rest as [|a rest']; [discriminate|].
      destruct (split_once "="%char a) as [[key def]|] eqn:Es; [|discriminate].
      destruct (is_alpha_numeric key) eqn:Ek; [|discriminate]. cbn [negb] in E. apply alpha_spec in Ek.
      apply split_once_spec in Es as [-> _].
      apply IH in E as (its & -> & (Hi & Ha) & ->); [|simpl in Hn; lia].
      exists (Predef arg key def :: its). splits; auto.
      split; [constructor; auto; split; auto|]. destruct Ha as [[Hz _]|(b & s & a & -> & H3 & H4)]; [discriminate|].
      right. exists (Predef arg key def :: b), s, a. splits; auto. intros x [<-|Hx]; auto.
    + apply predef_not in E1. destruct (teq arg "--search") eqn:E2.
      * apply teq_spec in E2 as ->. destruct has; [discriminate|]. destruct rest as [|a rest']; [discriminate|].
        apply IH in E as (its & -> & (Hi & Ha) & ->); [|simpl in Hn; lia].
        exists (Search a :: its). splits; auto.
        -- split; [constructor; auto; exact I|]. right. exists [], a, its. splits; auto.
        -- rewrite <- app_assoc. f_equal. simpl. f_equal. f_equal.
           clear - Ha. revert num buf. induction its as [|it its IHi]; intros num buf; auto.
           assert (P := Ha it (or_introl eq_refl)). destruct it; [destruct P as [P _]; exfalso; apply P; exact I|destruct P as [_ P]; exfalso; apply P; exact I|].
           simpl. f_equal. apply IHi. intros x Hx. apply Ha. right. auto.
      * apply teq_false in E2. apply IH in E as (its & -> & Ha & ->); [|lia].
        exists (Other arg :: its). splits; auto.
        -- apply arr_cons_plain; auto; [split; auto|split; intros []].
        -- rewrite <- app_assoc. reflexivity.
Qed.

Lemma replace_complete its : forall new num has buf, arr has num its ->
  replace_loop (render its) new num has buf = Ok (new ++ produce its buf num).
Proof.
  induction its as [|it its IH]; intros new num has buf (Ho & Ha).
  - simpl. rewrite app_nil_r. destruct has; auto. destruct Ha as [[-> _]|(b & s & a & H & _)]; auto. destruct b; discriminate.
  - inversion Ho as [|? ? Hit Hits]; subst. destruct it as [o k d|s|a]; cbn [item_ok] in Hit.
    + destruct Hit as [Hopt Hk]. cbn [render flat_map render_item app replace_loop]. rewrite (proj2 (predef_dec o) Hopt).
      destruct has; [exfalso; destruct (Ha _ (or_introl eq_refl)) as [P _]; apply P; exact I|].
      rewrite (proj2 (split_once_spec "="%char (k ++ str "=" ++ d) k d)).
      2:{ split; auto. intros Hin. rewrite Forall_forall in Hk. apply Hk in Hin. revert Hin. unfold alnum. cbn. lia. }
      rewrite (proj2 (alpha_spec k) Hk). cbn [negb].
      change (flat_map render_item its) with (render its). rewrite IH; [reflexivity|].
      split; auto. right. destruct Ha as [[_ Ha]|(b & s & a & E & H3 & H4)].
      * exfalso. destruct (Ha _ (or_introl eq_refl)) as [P _]; apply P; exact I.
      * destruct b as [|x b]; [discriminate|]. injection E as <- ->. exists b, s, a. splits; auto. intros y Hy. apply H3. right. auto.
    + cbn [render flat_map render_item app replace_loop]. rewrite (proj2 (predef_not (str "--search")) search_not_predef).
      rewrite (proj2 (teq_spec (str "--search") "--search") eq_refl).
      destruct has; [exfalso; destruct (Ha _ (or_introl eq_refl)) as [_ P]; apply P; exact I|].
      assert (Ht : forall it, In it its -> plain it).
      { destruct Ha as [[_ Ha]|(b & s' & a & E & H3 & H4)].
        - exfalso. destruct (Ha _ (or_introl eq_refl)) as [_ P]; apply P; exact I.
        - destruct b as [|x b]; [injection E as <- <-; auto|]. injection E as <- ->. exfalso. eapply H3; [left; reflexivity|exact I]. }
      change (flat_map render_item its) with (render its). rewrite IH; [|split; auto].
      rewrite <- app_assoc. f_equal. simpl. f_equal. f_equal. f_equal.
      clear - Ht. revert num buf. induction its as [|it its IHi]; intros num buf; auto.
      assert (P := Ht it (or_introl eq_refl)). destruct it; [destruct P as [P _]; exfalso; apply P; exact I|destruct P as [_ P]; exfalso; apply P; exact I|].
      simpl. f_equal. apply IHi. intros x Hx. apply Ht. right. auto.
    + destruct Hit as [N1 N2]. cbn [render flat_map render_item app replace_loop].
      rewrite (proj2 (predef_not a) N1), (proj2 (teq_false a "--search") N2).
      change (flat_map render_item its) with (render its). rewrite IH; [rewrite <- app_assoc; reflexivity|].
      split; auto. destruct has; [intros x Hx; apply Ha; right; auto|].
      destruct Ha as [[-> Ha]|(b & s' & a' & E & H3 & H4)].
      * left. split; auto. intros x Hx. apply Ha. right. auto.
      * destruct b as [|x b]; [discriminate|]. injection E as <- ->. right. exists b, s', a'. splits; auto. intros y Hy. apply H3. right. auto.
Qed.

Lemma replace_total : forall n args new num has buf, length args <= n ->
  (exists r, replace_loop args new num has buf = Ok r) \/ replace_loop args new num has buf = Exit input_error.
Proof.
  induction n as [|n IH]; intros args new num has buf Hn; destruct args as [|arg rest]; try (simpl in Hn; lia); cbn [replace_loop].
  - destruct (_ && _); eauto.
  - destruct (_ && _); eauto.
  - simpl in Hn. destruct (_ || _ || _).
    + destruct has; auto. destruct rest; auto. destruct (split_once _ _) as [[? ?]|]; auto. destruct (negb _); auto. apply IH. simpl in Hn. lia.
    + destruct (teq _ _).
      * destruct has; auto. destruct rest; auto. apply IH. simpl in Hn. lia.
      * apply IH. lia.
Qed.

(** The produced arguments are the specified ones. *)
Fixpoint opening (defs : list (text * text)) : text :=
  match defs with [] => [] | (k, d) :: r => prefix_of k d ++ opening r end.
Lemma nested_opening defs s : nested_let defs s = opening defs ++ s ++ repeat ")"%char (length defs).
Proof.
  induction defs as [|[k d] r IH]; [simpl; rewrite app_nil_r; auto|]. cbn [nested_let opening length]. rewrite IH. unfold prefix_of.
  assert (R : repeat ")"%char (length r) ++ str ")" = repeat ")"%char (S (length r))) by (symmetry; exact (repeat_cons (length r) ")"%char)).
  rewrite <- R, <- !app_assoc. reflexivity.
Qed.
Lemma produce_before before s after buf num : (forall it, In it before -> ~ is_search it) -> (forall it, In it after -> plain it) ->
  produce (before ++ Search s :: after) buf num =
  flat_map (fun it => match it with Other a => [a] | _ => [] end) before ++
  str "--search" :: (buf ++ opening (defs_of before) ++ s ++ repeat ")"%char (num + length (defs_of before))) ::
  flat_map (fun it => match it with Other a => [a] | _ => [] end) after.
Proof.
  revert buf num. induction before as [|it before IH]; intros buf num Hb Ha.
  - simpl. rewrite Nat.add_0_r. f_equal. f_equal. clear - Ha. revert buf num. induction after as [|it after IH]; intros buf num; auto.
    assert (P := Ha it (or_introl eq_refl)). destruct it; [destruct P as [P _]; exfalso; apply P; exact I|destruct P as [_ P]; exfalso; apply P; exact I|].
    simpl. f_equal. apply IH. intros x Hx. apply Ha. right. auto.
  - assert (Hb' : forall it, In it before -> ~ is_search it) by (intros x Hx; apply Hb; right; auto).
    destruct it as [o k d|s'|a].
    + cbn [app produce]. rewrite IH by auto. change (defs_of (Predef o k d :: before)) with ((k, d) :: defs_of before).
      cbn [opening length flat_map app]. rewrite <- !app_assoc, Nat.add_succ_r. reflexivity.
    + exfalso. eapply Hb; [left; reflexivity|exact I].
    + simpl. rewrite IH by auto. reflexivity.
Qed.
Lemma defs_app a b : defs_of (a ++ b) = defs_of a ++ defs_of b.
Proof. unfold defs_of. apply flat_map_app. Qed.
Lemma defs_plain l : (forall it, In it l -> plain it) -> defs_of l = [].
Proof.
  induction l as [|it l IH]; intros H; auto. simpl. rewrite IH; [|intros x Hx; apply H; right; auto].
  assert (P := H it (or_introl eq_refl)). destruct it; auto. destruct P as [P _]. exfalso. apply P. exact I.
Qed.
Lemma flat_plain {A} (f g : item -> list A) l : (forall it, In it l -> f it = g it) -> flat_map f l = flat_map g l.
Proof. induction l; intros H; simpl; auto. rewrite IHl, (H a); auto; [left; auto|intros; apply H; right; auto]. Qed.

Lemma produce_rewritten its : arr false 0 its -> produce its [] 0 = rewritten its.
Proof.
  intros (_ & [[_ H]|(b & s & a & -> & Hb & Ha)]).
  - unfold rewritten. transitivity (flat_map (fun it => match it with Other a => [a] | _ => [] end) its).
    + assert (G : forall buf num, produce its buf num = flat_map (fun it => match it with Other a => [a] | _ => [] end) its).
      { induction its as [|it its IH]; intros buf num; auto.
        assert (P := H it (or_introl eq_refl)). destruct it; [destruct P as [P _]; exfalso; apply P; exact I|destruct P as [_ P]; exfalso; apply P; exact I|].
        simpl. f_equal. apply IH. intros x Hx. apply H. right. auto. }
      apply G.
    + apply flat_plain. intros it Hit. specialize (H it Hit). destruct it; auto. destruct H as [_ P]. exfalso. apply P. exact I.
  - rewrite produce_before by auto. unfold rewritten. rewrite flat_map_app. cbn [flat_map].
    assert (D : defs_of (b ++ Search s :: a) = defs_of b) by (rewrite defs_app; simpl; rewrite (defs_plain a Ha), app_nil_r; auto).
    rewrite D, nested_opening. cbn [app Nat.add]. f_equal; [|f_equal; f_equal].
    + apply flat_plain. intros it Hit. specialize (Hb it Hit). destruct it; auto. exfalso. apply Hb. exact I.
    + apply flat_plain. intros it Hit. specialize (Ha it Hit). destruct it; auto. destruct Ha as [_ P]. exfalso. apply P. exact I.
Qed.

Theorem replace_exact args r : replace_old_style_predefinitions args = Ok r <->
  exists its, args = render its /\ arrangement_ok its /\ r = rewritten its.
Proof.
  assert (AE : forall its, arrangement_ok its <-> arr false 0 its).
  { intros its. unfold arrangement_ok, arr, plain. split; intros [H1 [H2|H2]]; (split; [auto|]); auto. left. apply H2. }
  unfold replace_old_style_predefinitions. split.
  - intros E. eapply replace_sound in E as (its & -> & Ha & ->); [|apply le_n]. exists its. splits; auto; [apply AE; auto|].
    simpl. apply produce_rewritten. auto.
  - intros (its & -> & Ha & ->). apply AE in Ha. rewrite replace_complete by auto. simpl. f_equal. apply produce_rewritten. auto.
Qed.

(** Balanced parentheses *)
Lemma depth_app n s m s' p : depth n s m -> depth m s' p -> depth n (s ++ s') p.
Proof. induction 1; simpl; intros; try (constructor; auto; fail); auto. Qed.
Lemma depth_lift n s m k : depth n s m -> depth (n + k) s (m + k).
Proof. induction 1; simpl; constructor; auto. Qed.
Lemma depth_alnum k n : Forall alnum k -> depth n k n.
Proof.
  induction 1 as [|c k Hc Hk IH]; constructor; auto; intros ->; revert Hc; unfold alnum; cbn; lia.
Qed.
Lemma nested_balanced defs s : (forall k d, In (k, d) defs -> balanced k /\ balanced d) -> balanced s -> balanced (nested_let defs s).
Proof.
  intros H Hs. induction defs as [|[k d] r IH]; simpl; auto.
  destruct (H k d (or_introl eq_refl)) as [Hk Hd].
  assert (Hr : balanced (nested_let r s)) by (apply IH; intros; apply H; right; auto).
  do 3 (apply depth_other; [discriminate|discriminate|]). apply depth_open.
  eapply depth_app; [apply (depth_lift _ _ _ 1 Hk)|]. apply depth_other; [discriminate|discriminate|].
  eapply depth_app; [apply (depth_lift _ _ _ 1 Hd)|]. apply depth_other; [discriminate|discriminate|].
  eapply depth_app; [apply (depth_lift _ _ _ 1 Hr)|]. apply (depth_close 0). constructor.
Qed.

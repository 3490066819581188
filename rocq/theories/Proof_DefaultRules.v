(** Hitting sets and the rules for default values. *)
From Coq Require Import List Permutation.
From Verif Require Import Outcome Spec_Task Spec_Graph Model_Sccs Proof_Sccs Model_DefaultRules.
Import ListNotations.
Local Open Scope nat_scope.

Lemma fact_eqb_spec f g : fact_eqb f g = true <-> f = g.
Proof. destruct f, g. unfold fact_eqb. cbn [fst snd]. rewrite andb_true_iff, !Nat.eqb_eq. split; [intros []; congruence|intros H; inversion H; auto]. Qed.
Lemma fact_eqb_false f g : fact_eqb f g = false <-> f <> g.
Proof. rewrite <- fact_eqb_spec. destruct (fact_eqb f g); split; congruence. Qed.
Definition flt (f g : fact) : Prop := fst f < fst g \/ (fst f = fst g /\ snd f < snd g).
Lemma fact_ltb_spec f g : fact_ltb f g = true <-> flt f g.
Proof. unfold fact_ltb, flt. rewrite orb_true_iff, andb_true_iff, !Nat.ltb_lt, Nat.eqb_eq. tauto. Qed.
Lemma set_mem_spec f l : set_mem f l = true <-> In f l.
Proof. unfold set_mem. rewrite existsb_exists. split; [intros (x & H & E); apply fact_eqb_spec in E; congruence|intros; exists f; split; auto; apply fact_eqb_spec; auto]. Qed.
Lemma set_add_In f g l : In g (set_add f l) <-> g = f \/ In g l.
Proof.
  induction l as [|a l IH]; cbn [set_add]; [cbn; intuition|]. destruct (fact_eqb f a) eqn:E.
  - apply fact_eqb_spec in E. subst. cbn. intuition congruence.
  - destruct (fact_ltb f a); cbn [In]; rewrite ?IH; intuition congruence.
Qed.
Fixpoint fsorted (l : fset) : Prop := match l with [] => True | f :: r => (forall g, In g r -> flt f g) /\ fsorted r end.
Lemma flt_trans a b c : flt a b -> flt b c -> flt a c. Proof. unfold flt. lia. Qed.
Lemma flt_irrefl a : ~ flt a a. Proof. unfold flt. lia. Qed.
Lemma flt_total a b : flt a b \/ a = b \/ flt b a.
Proof. destruct a as [a1 a2], b as [b1 b2]. unfold flt. cbn. destruct (Nat.lt_trichotomy a1 b1) as [|[->|]]; [left; lia| |right; right; lia]. destruct (Nat.lt_trichotomy a2 b2) as [|[->|]]; [left; lia|right; left; auto|right; right; lia]. Qed.
Lemma set_add_sorted f l : fsorted l -> fsorted (set_add f l).
Proof.
  induction l as [|a l IH]; cbn [set_add fsorted]; [intros _; split; [intros ? []|exact Logic.I]|]. intros [H1 H2]. destruct (fact_eqb f a) eqn:E; [cbn; auto|]. apply fact_eqb_false in E.
  destruct (fact_ltb f a) eqn:L.
  - apply fact_ltb_spec in L. cbn [fsorted]. split; [|auto]. intros g [<-|Hg]; auto. eapply flt_trans; eauto.
  - cbn [fsorted]. split; [|auto]. intros g Hg. apply set_add_In in Hg as [->|Hg]; auto. destruct (flt_total f a) as [K|[K|K]]; try congruence. apply fact_ltb_spec in K. congruence.
Qed.
Lemma fsorted_NoDup l : fsorted l -> NoDup l.
Proof. induction l as [|a l IH]; intros H; constructor; destruct H as [H1 H2]; auto. intros Hin. apply (flt_irrefl a). auto. Qed.
Lemma fset_eqb_true a : forall b, fset_eqb a b = true -> a = b.
Proof. induction a as [|x a IH]; intros [|y b] H; try discriminate; auto. cbn in H. apply andb_true_iff in H as [H1 H2]. apply fact_eqb_spec in H1. f_equal; auto. Qed.
Lemma fset_eqb_refl a : fset_eqb a a = true.
Proof. induction a as [|x a IH]; auto. cbn. rewrite IH, andb_true_r. apply fact_eqb_spec. auto. Qed.

(** *** Hitting sets *)
Lemma add_result_In hs H res : In H (add_result hs res) <-> In H res \/ H = hs.
Proof.
  unfold add_result. destruct (existsb (fset_eqb hs) res) eqn:E.
  - apply existsb_exists in E as (r & Hr & Er). apply fset_eqb_true in Er. subst. intuition congruence.
  - rewrite in_app_iff. cbn. intuition congruence.
Qed.
Lemma uniquely_used_In sets : forall hs0 acc f, In f (fold_left (fun acc S => match filter (fun f => set_mem f hs0) S with
      | [f] => filter (fun g => negb (fact_eqb f g)) acc | _ => acc end) sets acc) <-> In f acc /\ ~ exists S, In S sets /\ filter (fun f => set_mem f hs0) S = [f].
Proof.
  intros hs0. induction sets as [|S sets IH]; intros acc f; cbn [fold_left].
  - split; [intros H; split; auto; intros (? & [] & _)|tauto].
  - rewrite IH. destruct (filter (fun f0 => set_mem f0 hs0) S) as [|a [|b l]] eqn:E.
    + split; intros [H1 H2]; split; auto; intros (S' & HS & ES); apply H2; [destruct HS as [<-|HS]; [congruence|eauto]|exists S'; split; [right|]; auto].
    + rewrite filter_In, negb_true_iff, fact_eqb_false. split.
      * intros [[H1 H3] H2]. split; auto. intros (S' & [<-|HS] & ES); [congruence|]. apply H2. eauto.
      * intros [H1 H2]. split; [split; auto|].
        -- intros ->. apply H2. exists S. split; [left; auto|auto].
        -- intros (S' & HS & ES). apply H2. exists S'. split; [right|]; auto.
    + split; intros [H1 H2]; split; auto; intros (S' & HS & ES); apply H2; [destruct HS as [<-|HS]; [congruence|eauto]|exists S'; split; [right|]; auto].
Qed.

Lemma fold_left_mono {X Y} (f : list Y -> X -> list Y) : (forall acc x H, In H acc -> In H (f acc x)) ->
  forall l acc H, In H acc -> In H (fold_left f l acc).
Proof. intros Hf. induction l as [|x l IH]; cbn; auto. Qed.
Lemma collect_mono sets rest : forall hs vars res H, In H res -> In H (collect sets rest hs vars res).
Proof.
  induction rest as [|S rest IH]; intros hs vars res H HH; cbn [collect].
  - destruct (uniquely_used sets hs); auto. apply add_result_In. auto.
  - destruct (existsb (fun f => set_mem f hs) S); auto. apply fold_left_mono; auto. intros acc x H' HH'. destruct (existsb (Nat.eqb (fst x)) vars); auto.
Qed.
Lemma collect_sound sets rest : forall hs vars res H, In H (collect sets rest hs vars res) ->
  In H res \/ (incl hs H /\ forall S, In S rest -> exists f, In f S /\ In f H).
Proof.
  induction rest as [|S rest IH]; intros hs vars res H HH; cbn [collect] in HH.
  - destruct (uniquely_used sets hs); auto. apply add_result_In in HH as [HH| ->]; auto. right. split; [apply incl_refl|intros ? []].
  - destruct (existsb (fun f => set_mem f hs) S) eqn:E.
    + destruct (IH _ _ _ _ HH) as [?|[Hi Hs]]; auto. right. split; auto. apply existsb_exists in E as (f & Hf & Hm). apply set_mem_spec in Hm.
      intros S' [<-|HS]; eauto.
    + assert (K : forall l res, incl l S -> In H (fold_left (fun results f => if existsb (Nat.eqb (fst f)) vars then results
             else collect sets rest (set_add f hs) (fst f :: vars) results) l res) -> In H res \/ (incl hs H /\ forall S', In S' (S :: rest) -> exists f, In f S' /\ In f H)).
      { induction l as [|f l IHl]; intros res0 Hl Hin; cbn [fold_left] in Hin; auto.
        apply IHl in Hin; [|intros x Hx; apply Hl; right; auto]. destruct Hin as [Hin|Hin]; auto. destruct (existsb (Nat.eqb (fst f)) vars); auto.
        destruct (IH _ _ _ _ Hin) as [?|[Hi Hs]]; auto. right. split.
        - intros x Hx. apply Hi, set_add_In. auto.
        - intros S' [<-|HS]; auto. exists f. split; [apply Hl; left; auto|]. apply Hi, set_add_In. auto. }
      eapply K; eauto. apply incl_refl.
Qed.

Definition hits (M : fset) (sets : list fset) : Prop := forall S, In S sets -> exists f, In f S /\ In f M.
Lemma fold_left_hit {X Y} (f : list Y -> X -> list Y) (P : Y -> Prop) x : (forall acc x H, In H acc -> In H (f acc x)) ->
  (forall acc, exists H, In H (f acc x) /\ P H) -> forall l acc, In x l -> exists H, In H (fold_left f l acc) /\ P H.
Proof.
  intros Hm Hx. induction l as [|y l IH]; intros acc Hin; [destruct Hin|]. cbn [fold_left]. destruct Hin as [->|Hin]; auto.
  destruct (Hx acc) as (H & H1 & H2). exists H. split; auto. apply fold_left_mono; auto.
Qed.
Lemma filter_single (S : fset) (p : fact -> bool) f : NoDup S -> In f S -> p f = true -> (forall g, In g S -> p g = true -> g = f) -> filter p S = [f].
Proof.
  induction S as [|a S IH]; intros ND Hf Hp Hu; [destruct Hf|]. inversion ND as [|? ? Hn ND']; subst. cbn [filter]. destruct (p a) eqn:Ea.
  - assert (a = f) by (apply Hu; [left|]; auto). subst. f_equal. destruct (filter p S) as [|b l] eqn:E; auto. exfalso.
    assert (Hb : In b (filter p S)) by (rewrite E; left; auto). apply filter_In in Hb as [Hb1 Hb2]. assert (b = f) by (apply Hu; [right|]; auto). congruence.
  - destruct Hf as [->|Hf]; [congruence|]. apply IH; auto. intros g Hg. apply Hu. right. auto.
Qed.

Lemma collect_complete (sets : list fset) (M : fset) : (forall S, In S sets -> NoDup S) ->
  (forall f g, In f M -> In g M -> fst f = fst g -> f = g) -> hits M sets ->
  (forall f, In f M -> exists S, In S sets /\ In f S /\ forall g, In g S -> In g M -> g = f) ->
  forall rest pre hs vars res, sets = pre ++ rest -> incl hs M -> (forall v, In v vars -> exists f, In f hs /\ fst f = v) -> hits hs pre ->
  exists H, In H (collect sets rest hs vars res) /\ forall f, In f H <-> In f M.
Proof.
  intros HND Hcons HM Hmin. induction rest as [|S rest IH]; intros pre hs vars res Hs Hi Hv Hh; cbn [collect].
  - rewrite app_nil_r in Hs. subst pre.
    assert (Heq : forall f, In f hs <-> In f M).
    { intros f. split; auto. intros Hf. destruct (Hmin f Hf) as (S & HS & HfS & Hu). destruct (Hh S HS) as (g & Hg & Hgh). rewrite <- (Hu g); auto. }
    assert (Hu : uniquely_used sets hs = []).
    { unfold uniquely_used. match goal with |- ?x = [] => destruct x as [|f l] eqn:E; auto end. exfalso. assert (Hf : In f (f :: l)) by (left; auto). rewrite <- E in Hf.
      apply uniquely_used_In in Hf as [Hf Hn]. apply Hn. destruct (Hmin f) as (S & HS & HfS & Hun); [apply Heq; auto|]. exists S. split; auto.
      apply filter_single; [auto|auto|apply set_mem_spec; auto|]. intros g Hg Hm. apply set_mem_spec in Hm. apply Hun; [auto|]. apply Heq; exact Hm. }
    rewrite Hu. exists hs. split; auto. apply add_result_In. auto.
  - destruct (existsb (fun f => set_mem f hs) S) eqn:E.
    + apply (IH (pre ++ [S])); auto; [rewrite <- app_assoc; auto|]. apply existsb_exists in E as (f & Hf & Hm). apply set_mem_spec in Hm.
      intros S' HS. apply in_app_iff in HS as [HS|[<-|[]]]; eauto.
    + assert (HS : In S sets) by (rewrite Hs; apply in_app_iff; right; left; auto). destruct (HM S HS) as (f & HfS & HfM).
      apply fold_left_hit with (x := f); auto.
      * intros acc x H HH. destruct (existsb (Nat.eqb (fst x)) vars); auto. apply collect_mono; auto.
      * intros acc. destruct (existsb (Nat.eqb (fst f)) vars) eqn:Ev.
        -- exfalso. apply existsb_exists in Ev as (v & Hv1 & Hv2). apply Nat.eqb_eq in Hv2. destruct (Hv v Hv1) as (g & Hg & Eg).
           assert (f = g) by (apply Hcons; auto; congruence). subst g. assert (Hx : existsb (fun f => set_mem f hs) S = true) by (apply existsb_exists; exists f; split; auto; apply set_mem_spec; auto). congruence.
        -- apply (IH (pre ++ [S])); [rewrite <- app_assoc; auto| | |].
           ++ intros x Hx. apply set_add_In in Hx as [->|Hx]; auto.
           ++ intros v [<-|Hv']; [exists f; split; auto; apply set_add_In; auto|]. destruct (Hv v Hv') as (g & Hg & Eg). exists g. split; auto. apply set_add_In. auto.
           ++ intros S' HS'. apply in_app_iff in HS' as [HS'|[<-|[]]].
              ** destruct (Hh S' HS') as (g & Hg & Hgh). exists g. split; auto. apply set_add_In. auto.
              ** exists f. split; auto. apply set_add_In. auto.
Qed.

Lemma minimal_exists (sets : list fset) : forall k M, length M <= k -> hits M sets ->
  exists M', incl M' M /\ hits M' sets /\ forall f, In f M' -> exists S, In S sets /\ In f S /\ forall g, In g S -> In g M' -> g = f.
Proof.
  induction k as [|k IH]; intros M Hk HM.
  - destruct M; [|cbn in Hk; lia]. exists []. split; [apply incl_refl|]. split; auto. intros f [].
  - set (bad f := forallb (fun S => existsb (fun g => set_mem g M && negb (fact_eqb g f)) S) sets).
    destruct (existsb bad M) eqn:E.
    + apply existsb_exists in E as (f & Hf & Hb). unfold bad in Hb. rewrite forallb_forall in Hb.
      destruct (IH (filter (fun g => negb (fact_eqb g f)) M)) as (M' & H1 & H2 & H3).
      * assert (L : forall l : fset, In f l -> length (filter (fun g => negb (fact_eqb g f)) l) < length l).
        { induction l as [|a l IHl]; intros Hin; [destruct Hin|]. cbn [filter length]. destruct (fact_eqb a f) eqn:Ea; cbn [negb].
          - assert (length (filter (fun g => negb (fact_eqb g f)) l) <= length l) by (clear; induction l as [|b l IH]; cbn; [lia|destruct (negb (fact_eqb b f)); cbn; lia]). lia.
          - destruct Hin as [->|Hin]; [apply fact_eqb_false in Ea; congruence|]. cbn. apply IHl in Hin. lia. }
        specialize (L M Hf). lia.
      * intros S HS. specialize (Hb S HS). apply existsb_exists in Hb as (g & Hg & Hc). apply andb_true_iff in Hc as [Hc1 Hc2]. apply set_mem_spec in Hc1.
        exists g. split; auto. apply filter_In. auto.
      * exists M'. split; [|split; auto]. intros x Hx. apply H1, filter_In in Hx. tauto.
    + exists M. split; [apply incl_refl|]. split; auto. intros f Hf.
      assert (Eb : bad f = false). { destruct (bad f) eqn:Eb; auto. assert (existsb bad M = true) by (apply existsb_exists; eauto). congruence. }
      unfold bad in Eb. assert (Hx : exists S, In S sets /\ existsb (fun g => set_mem g M && negb (fact_eqb g f)) S = false).
      { clear -Eb. induction sets as [|S sets IH]; cbn in Eb; [discriminate|]. destruct (existsb (fun g => set_mem g M && negb (fact_eqb g f)) S) eqn:E.
        - cbn in Eb. destruct (IH Eb) as (S' & H1 & H2). exists S'. split; [right|]; auto.
        - exists S. split; [left|]; auto. }
      destruct Hx as (S & HS & Hn). exists S. split; auto.
      assert (Hu : forall g, In g S -> In g M -> g = f).
      { intros g Hg HgM. destruct (fact_eqb g f) eqn:Eg; [apply fact_eqb_spec; auto|]. exfalso.
        assert (existsb (fun g => set_mem g M && negb (fact_eqb g f)) S = true) by (apply existsb_exists; exists g; split; auto; rewrite Eg, andb_true_r; apply set_mem_spec; auto). congruence. }
      split; auto. destruct (HM S HS) as (g & Hg & HgM). rewrite <- (Hu g); auto.
Qed.

(** Some collected set consists of facts of the state exactly if the state hits all sets. *)
Theorem collect_exact (sets : list fset) (s : state) : (forall S, In S sets -> NoDup S) ->
  ((exists H, In H (collect sets sets [] [] []) /\ all_hold s H) <-> forall S, In S sets -> exists f, In f S /\ holds s f).
Proof.
  intros HND. split.
  - intros (H & HH & Hs) S HS. destruct (collect_sound _ _ _ _ _ _ HH) as [[]|[_ Hh]]. destruct (Hh S HS) as (f & Hf & HfH). eauto.
  - intros Hs. set (holdsb f := match nth_error s (fst f) with Some x => x =? snd f | None => false end).
    assert (Hb : forall f, holdsb f = true <-> holds s f).
    { intros f. unfold holdsb, holds. destruct (nth_error s (fst f)) as [x|]; [rewrite Nat.eqb_eq; split; congruence|split; discriminate]. }
    destruct (minimal_exists sets _ (filter holdsb (concat sets)) (le_n _)) as (M & H1 & H2 & H3).
    { intros S HS. destruct (Hs S HS) as (f & Hf & Hh). exists f. split; auto. apply filter_In. split; [apply in_concat; eauto|apply Hb; auto]. }
    assert (HMs : forall f, In f M -> holds s f) by (intros f Hf; apply H1, filter_In in Hf as [_ Hf]; apply Hb; auto).
    destruct (collect_complete sets M HND) with (rest := sets) (pre := @nil fset) (hs := @nil fact) (vars := @nil nat) (res := @nil fset) as (H & HH & He); auto.
    + intros f g Hf Hg E. apply HMs in Hf, Hg. unfold holds in *. rewrite E in Hf. rewrite Hf in Hg. destruct f, g. cbn in *. congruence.
    + intros ? [].
    + intros ? [].
    + intros ? [].
    + exists H. split; auto. intros f Hf. apply HMs, He. auto.
Qed.

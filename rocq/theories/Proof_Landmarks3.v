(** A cycle of natural orderings makes the task unsolvable; the depth-first search reports a
    cycle only if there is one. *)
From Coq Require Import Relation_Operators.
From Verif Require Import Outcome Spec_Task Spec_Relaxation Spec_Landmarks Model_Task Model_Landmarks Proof_Task Proof_PerState2 Proof_Landmarks1 Proof_Landmarks2.
Local Open Scope nat_scope.

Definition zeros (b : list bool) : nat := length (filter negb b).
Lemma zeros_upd b i : i < length b -> bit b i = false -> S (zeros (upd b i true)) = zeros b.
Proof.
  unfold zeros, bit. revert i. induction b as [|x b IH]; intros [|i] Hl Hb; cbn [length] in *; try lia.
  - cbn in Hb. subst x. reflexivity.
  - cbn [nth] in Hb. change (upd (x :: b) (S i) true) with (x :: upd b i true). cbn [filter].
    specialize (IH i ltac:(lia) Hb). destruct (negb x); cbn [length]; lia.
Qed.
Lemma zeros_mono b b' : length b = length b' -> (forall i, bit b i = true -> bit b' i = true) -> zeros b' <= zeros b.
Proof.
  unfold zeros. revert b'. induction b as [|x b IH]; intros [|y b'] Hl H; cbn [length] in *; try discriminate; auto.
  cbn [filter]. assert (IH' : length (filter negb b') <= length (filter negb b)).
  { apply IH; [lia|]. intros i. exact (H (S i)). }
  specialize (H 0). cbn in H. destruct x, y; cbn [negb length]; try lia; specialize (H eq_refl); discriminate.
Qed.
Lemma zeros_repeat k : zeros (repeat false k) = k.
Proof. unfold zeros. induction k; cbn [repeat filter negb length]; auto. Qed.

Section graph.
Variable t : task.
Variable g : graph.
Hypothesis Hg : graph_ok t g.
Notation n := (length g).

Definition edge (a b : nat) : Prop :=
  exists l ty, nth_error g a = Some l /\ In (b, ty) (lm_children l) /\ at_least_natural ty = true.
Notation reach := (clos_trans nat edge).

Definition gray (cv : marks) (x : nat) : Prop := bit (fst cv) x = false /\ bit (snd cv) x = true.
Definition sized (cv : marks) : Prop := length (fst cv) = n /\ length (snd cv) = n.
Definition good (cv : marks) (b : bool) (cv' : marks) : Prop :=
  sized cv' /\ (b = true -> exists y, reach y y) /\ (b = false -> forall x, gray cv' x <-> gray cv x) /\
  (forall x, bit (snd cv) x = true -> bit (snd cv') x = true).

Lemma dfs_ok fuel : forall id cv, id < n -> sized cv -> zeros (snd cv) < fuel ->
  (forall x, gray cv x -> reach x id) ->
  exists b cv', dfs g fuel id cv = Ok (b, cv') /\ good cv b cv'.
Proof.
  induction fuel as [|fuel IH]; intros id cv Hid [L1 L2] Hz Hgr; [lia|]. cbn [dfs].
  rewrite (vget_bit (fst cv)) by lia. cbn [bind]. destruct (bit (fst cv) id) eqn:EC.
  { exists false, cv. splits; auto. unfold good, sized. splits; auto; try discriminate. intros _ x. tauto. }
  rewrite (vget_bit (snd cv)) by lia. cbn [bind]. destruct (bit (snd cv) id) eqn:EV.
  { exists true, cv. split; auto. unfold good, sized. splits; auto; try discriminate.
    intros _. exists id. apply Hgr. split; auto. }
  rewrite vset_bit by lia. cbn [bind]. destruct (nth_error g id) as [l|] eqn:El.
  2:{ apply nth_error_None in El. lia. }
  unfold vget at 1. rewrite El. cbn [bind].
  set (cv1 := (fst cv, upd (snd cv) id true)).
  assert (S1 : sized cv1) by (split; cbn [cv1 fst snd]; rewrite ?upd_length; auto).
  assert (G1 : forall x, gray cv1 x <-> gray cv x \/ x = id).
  { intros x. unfold gray, cv1. cbn [fst snd]. rewrite bit_upd by lia. destruct (Nat.eqb_spec x id) as [->|]; [|tauto].
    rewrite EC, EV. intuition. }
  assert (Z1 : zeros (snd cv1) < fuel).
  { unfold cv1. cbn [snd]. pose proof (zeros_upd (snd cv) id ltac:(lia) EV). lia. }
  match goal with |- exists b cv', bind (?k (lm_children l) cv1) _ = _ /\ _ => set (kids := k) end.
  assert (KS : forall cs, incl cs (lm_children l) -> forall c, sized c -> zeros (snd c) < fuel ->
     (forall x, gray c x <-> gray cv x \/ x = id) ->
     exists b c', kids cs c = Ok (b, c') /\ good c b c').
  { induction cs as [|[k ty] cs IHc]; intros Hin c Sc Zc Gc.
    - exists false, c. split; [reflexivity|]. unfold good. splits; auto; try discriminate. intros _ x. tauto.
    - assert (Hin' : incl cs (lm_children l)) by (intros y Hy; apply Hin; right; auto).
      change (kids ((k, ty) :: cs) c) with
        (if at_least_natural ty then let* r := dfs g fuel k c in if fst r then Ok (true, snd r) else kids cs (snd r) else kids cs c).
      destruct (at_least_natural ty) eqn:Ety; [|apply IHc; auto].
      assert (Hk : In (k, ty) (lm_children l)) by (apply Hin; left; auto).
      assert (Ek : edge id k) by (exists l, ty; auto).
      destruct (graph_ends t g Hg id l El k ty) as [HC _]. destruct (HC Hk) as (lb & Hlb & _). apply node_lt in Hlb.
      destruct (IH k c Hlb Sc Zc) as (b & c' & E & Sc' & HT & HF & HM).
      { intros x Hx. apply Gc in Hx as [Hx| ->]; [|apply t_step; auto]. eapply t_trans; [apply Hgr; eauto|apply t_step; auto]. }
      rewrite E. cbn [bind fst snd]. destruct b.
      + exists true, c'. split; auto. unfold good. splits; auto.
      + destruct (IHc Hin' c') as (b2 & c2 & E2 & Sc2 & HT2 & HF2 & HM2); auto.
        * destruct Sc, Sc'. pose proof (zeros_mono (snd c) (snd c') ltac:(congruence) HM). lia.
        * intros x. rewrite (HF eq_refl x). apply Gc.
        * exists b2, c2. split; auto. unfold good. splits; auto. intros Eb x. rewrite (HF2 Eb x). apply HF; auto. }
  destruct (KS (lm_children l) (incl_refl _) cv1 S1 Z1 G1) as (b & c' & E & Sc' & HT & HF & HM).
  rewrite E. cbn [bind fst snd].
  assert (HM' : forall x, bit (snd cv) x = true -> bit (snd c') x = true).
  { intros x Hx. apply HM. unfold cv1. cbn [snd]. rewrite bit_upd by lia. destruct (x =? id); auto. }
  destruct b.
  - exists true, c'. split; auto. unfold good. splits; auto. discriminate.
  - destruct Sc' as [Sc1 Sc2]. rewrite vset_bit by lia. cbn [bind]. eexists false, _. split; [reflexivity|].
    unfold good, sized. cbn [fst snd]. rewrite upd_length. splits; auto; try discriminate.
    intros _ x. unfold gray at 1. cbn [fst snd]. rewrite bit_upd by lia.
    specialize (HF eq_refl x). rewrite G1 in HF. destruct (Nat.eqb_spec x id) as [->|Hne].
    + split; [intros [? _]; discriminate|]. unfold gray. rewrite EV. intros [_ ?]; discriminate.
    + unfold gray in HF at 1. tauto.
Qed.

Lemma has_natural_cycle_ok : exists b, has_natural_cycle g = Ok b /\ (b = true -> exists y, reach y y).
Proof.
  unfold has_natural_cycle.
  assert (K : forall ids cv, (forall i, In i ids -> i < n) -> sized cv -> (forall x, ~ gray cv x) ->
     exists b, dfs_from g ids cv = Ok b /\ (b = true -> exists y, reach y y)).
  { induction ids as [|id ids IH]; intros cv Hi Hs Hn; cbn [dfs_from].
    - exists false. split; auto. discriminate.
    - destruct (dfs_ok (S n) id cv) as (b & cv' & E & Sc & HT & HF & _); auto.
      + apply Hi. left; auto.
      + destruct Hs as [_ Hs]. apply Nat.lt_succ_r. unfold zeros. rewrite <- Hs.
        clear. induction (snd cv) as [|x l IH]; cbn [filter length]; auto. destruct (negb x); cbn [length]; lia.
      + intros x Hx. destruct (Hn x Hx).
      + rewrite E. cbn [bind fst snd]. destruct b; [exists true; auto|]. apply IH; auto.
        * intros i Hin. apply Hi. right; auto.
        * intros x. rewrite (HF eq_refl x). apply Hn. }
  apply K.
  - intros i Hi. apply in_seq in Hi. lia.
  - split; apply repeat_length.
  - intros x [_ H]. cbn [snd] in H. unfold bit in H. clear -H. revert x H. induction n as [|k IH]; intros [|x] H; cbn in H; try discriminate; eauto.
Qed.

Lemma first_unique l ss i j : first_true l ss i -> first_true l ss j -> i = j.
Proof.
  intros [A B] [C D]. destruct (Nat.lt_trichotomy i j) as [H|[H|H]]; auto; exfalso.
  - exact (D i H A). - exact (B j H C).
Qed.
Lemma cycle_unsolvable y os ss : sound t g -> reach y y -> ~ plan_run t (t_init t) os ss.
Proof.
  intros Hs Hy P.
  assert (F : forall l, In l g -> exists i, first_true l ss i).
  { intros l Hl. destruct (sound_landmark t g Hs l os ss Hl P) as (i & Hi). apply first_exists in Hi as (j & _ & Hj). eauto. }
  assert (K : forall a b, reach a b -> exists la lb, nth_error g a = Some la /\ nth_error g b = Some lb /\
     forall i j, first_true la ss i -> first_true lb ss j -> i < j).
  { induction 1 as [a b (la & ty & Ha & Hin & Hn)|a b c _ (la & lb & Ha & Hb & H1) _ (lb' & lc & Hb' & Hc & H2)].
    - destruct (graph_ends t g Hg a la Ha b ty) as [HC _]. destruct (HC Hin) as (lb & Hb & Hpar).
      exists la, lb. splits; auto. intros i j Fi Fj.
      assert (HO : ordered g la lb ty) by (exists b; split; auto; exists a; auto).
      pose proof (sound_ordering t g Hs la lb ty os ss HO P) as R.
      assert (Hk : exists k, k < j /\ true_at la ss k).
      { destruct ty; try discriminate; cbn [respects] in R; destruct (R j Fj) as (k & Hk & Tk); exists k; split; auto; lia. }
      destruct Hk as (k & Hk & Tk). destruct Fi as [_ Fi]. destruct (Nat.lt_ge_cases i j); auto. exfalso. apply (Fi k); auto. lia.
    - assert (lb' = lb) by congruence. subst lb'. exists la, lc. splits; auto. intros i j Fi Fj.
      destruct (F lb) as (m & Fm). { eapply node_in; eauto. }
      specialize (H1 i m Fi Fm). specialize (H2 m j Fm Fj). lia. }
  destruct (K y y Hy) as (la & lb & Ha & Hb & H). assert (lb = la) by congruence. subst lb.
  destruct (F la) as (m & Fm). { eapply node_in; eauto. }
  specialize (H m m Fm Fm). lia.
Qed.
End graph.

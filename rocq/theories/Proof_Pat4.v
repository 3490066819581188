(** Systematic patterns: all patterns, and the normalisation of patterns. *)
From Coq Require Import Sorting Permutation.
From Verif Require Import Outcome Spec_Task Spec_Patterns Model_MAS Model_Patterns Proof_MAS1 Proof_MS6 Proof_MAA1 Proof_MAA6 Proof_Pat1 Proof_Pat3.
Import ListNotations.

(** * Normalisation *)
Lemma sorted_map_inj p : StronglySorted lt p -> StronglySorted Z.le (map Z.of_nat p).
Proof.
  induction 1 as [|a l S1 IH F]; cbn; constructor; auto. rewrite Forall_forall in *. intros y Hy. apply in_map_iff in Hy as (x & <- & Hx). apply F in Hx. lia.
Qed.
Lemma insert_z_sorted x l : StronglySorted Z.le l -> StronglySorted Z.le (insert Z.leb x l).
Proof.
  induction l as [|y l IH]; intros S1; cbn [insert]; [repeat constructor|]. destruct (Z.leb_spec x y).
  - constructor; auto. apply Forall_forall. intros z [<- |Hz]; auto. apply StronglySorted_inv in S1 as [_ F]. rewrite Forall_forall in F. apply F in Hz. lia.
  - apply StronglySorted_inv in S1 as [S1 F]. rewrite Forall_forall in F. constructor; auto. apply Forall_forall. intros z Hz.
    apply insert_In in Hz as [-> |Hz]; [lia|auto].
Qed.
Lemma sort_z_sorted l : StronglySorted Z.le (sort Z.leb l).
Proof. unfold sort. induction l as [|x l IH]; cbn; [constructor|]. now apply insert_z_sorted. Qed.
Lemma unique_In y : forall l, In y (unique_ints l) <-> In y l.
Proof.
  induction l as [|x l IH]; [tauto|]. cbn [unique_ints]. destruct l as [|z l]; [tauto|].
  destruct (Z.eqb_spec x z) as [-> |N]; cbn [In] in *; rewrite IH; tauto.
Qed.
Lemma unique_sorted : forall l, StronglySorted Z.le l -> StronglySorted Z.lt (unique_ints l).
Proof.
  induction l as [|x l IH]; intros S1; [constructor|]. apply StronglySorted_inv in S1 as [S1 F]. rewrite Forall_forall in F.
  cbn [unique_ints]. destruct l as [|z l]; [repeat constructor|]. destruct (Z.eqb_spec x z) as [-> |N]; [auto|].
  constructor; auto. apply Forall_forall. intros y Hy. rewrite unique_In in Hy. pose proof (F z (or_introl eq_refl)).
  apply StronglySorted_inv in S1 as [_ F']. rewrite Forall_forall in F'. destruct Hy as [<- |Hy]; [lia|]. apply F' in Hy. lia.
Qed.
Lemma last_max (l : list Z) d : StronglySorted Z.lt l -> l <> [] -> In (last l d) l /\ forall y, In y l -> (y <= last l d)%Z.
Proof.
  induction 1 as [|x l S1 IH F]; intros N; [contradiction|]. destruct l as [|z l].
  - cbn. split; [auto|]. intros y [<- |[]]. lia.
  - destruct IH as (A & B); [discriminate|]. rewrite Forall_forall in F. change (last (x :: z :: l) d) with (last (z :: l) d).
    split; [now right|]. intros y [<- |Hy]; [|auto]. pose proof (F _ A). lia.
Qed.
Lemma to_nat_sorted l : StronglySorted Z.lt l -> (forall y, In y l -> (0 <= y)%Z) -> StronglySorted lt (map Z.to_nat l).
Proof.
  induction 1 as [|x l S1 IH F]; intros H; cbn; constructor; [apply IH; intros; apply H; now right|].
  rewrite Forall_forall in *. intros y Hy. apply in_map_iff in Hy as (z & <- & Hz). pose proof (F z Hz). pose proof (H x (or_introl eq_refl)). lia.
Qed.

Lemma validate_spec n p :
  ((forall v, In v p -> (0 <= v < Z.of_nat n)%Z) ->
    exists q, validate_and_normalize_pattern n p = Ok q /\ StronglySorted lt q /\ forall v, In v q <-> In (Z.of_nat v) p) /\
  ((exists v, In v p /\ ~ (0 <= v < Z.of_nat n)%Z) -> validate_and_normalize_pattern n p = Exit 32).
Proof.
  unfold validate_and_normalize_pattern. set (u := unique_ints (sort Z.leb p)).
  assert (Hu : forall v, In v u <-> In v p) by (intros v; unfold u; now rewrite unique_In, sort_In).
  assert (Su : StronglySorted Z.lt u) by (apply unique_sorted, sort_z_sorted). clearbody u. destruct u as [|f r] eqn:E.
  - split; [|intros (v & Hv & _); apply Hu in Hv as []]. intros _. exists []. splits; [auto|constructor|]. intros v. split; [intros []|]. intros Hv. apply Hu in Hv as [].
  - rewrite <- E in *. assert (NE : u <> []) by (rewrite E; discriminate). destruct (last_max u 0%Z Su NE) as (A & B).
    assert (Hf : In f u) by (rewrite E; now left).
    assert (F : forall y, In y u -> (f <= y)%Z).
    { rewrite E in Su |- *. apply StronglySorted_inv in Su as [_ F]. rewrite Forall_forall in F. intros y [<- |Hy]; [lia|]. apply F in Hy. lia. }
    split.
    + intros H. pose proof (H f (proj1 (Hu f) Hf)). pose proof (H _ (proj1 (Hu _) A)).
      destruct (Z.ltb_spec f 0); [lia|]. destruct (Z.leb_spec (Z.of_nat n) (last u 0%Z)); [lia|].
      exists (map Z.to_nat u). splits; auto.
      * apply to_nat_sorted; auto. intros y Hy. apply F in Hy. lia.
      * intros v. rewrite in_map_iff. split.
        -- intros (z & <- & Hz). pose proof (F z Hz). rewrite Z2Nat.id by lia. now apply Hu.
        -- intros Hv. exists (Z.of_nat v). split; [apply Nat2Z.id|now apply Hu].
    + intros (v & Hv & Nv). apply Hu in Hv. destruct (Z.ltb_spec f 0); [auto|]. destruct (Z.leb_spec (Z.of_nat n) (last u 0%Z)); [auto|].
      exfalso. apply Nv. pose proof (F v Hv). pose proof (B v Hv). lia.
Qed.
Lemma validate_id n p : StronglySorted lt p -> (forall v, In v p -> v < n) -> validate_and_normalize_pattern n (map Z.of_nat p) = Ok p.
Proof.
  intros S1 L. destruct (validate_spec n (map Z.of_nat p)) as ((q & E & Sq & Hq) & _).
  - intros v Hv. apply in_map_iff in Hv as (x & <- & Hx). apply L in Hx. lia.
  - rewrite E. f_equal. apply sorted_ext; auto. intros v. rewrite Hq, in_map_iff. split; [intros (x & Ex & Hx); apply Nat2Z.inj in Ex; now subst|intros H; eauto].
Qed.
Lemma validate_all n : forall ps acc, (forall p, In p ps -> StronglySorted lt p /\ forall v, In v p -> v < n) ->
  fold_outcome (fun r p => let* p := validate_and_normalize_pattern n p in Ok (r ++ [p])) (map (map Z.of_nat) ps) acc = Ok (acc ++ ps).
Proof.
  induction ps as [|p ps IH]; intros acc H; cbn [map fold_outcome]; [now rewrite app_nil_r|].
  destruct (H p (or_introl eq_refl)) as (S1 & L). rewrite (validate_id n p S1 L). cbn [bind]. rewrite IH by (intros x Hx; apply H; now right). now rewrite <- app_assoc.
Qed.
Lemma validate_patterns_id t ps : (forall p, In p ps -> pattern_of t p) -> validate_and_normalize_patterns (length (t_vars t)) (map (map Z.of_nat) ps) = Ok ps.
Proof. intros H. unfold validate_and_normalize_patterns. rewrite validate_all; [auto|]. intros p Hp. destruct (H p Hp) as (_ & A & B). auto. Qed.

(** * All patterns *)
Definition of_size (n i : nat) (p : list nat) : Prop := length p = i /\ StronglySorted lt p /\ forall v, In v p -> v < n.
Definition follow (n i : nat) (p : list nat) : list (list nat) :=
  let first := if 0 <? i then S (nth (i - 1) p 0) else 0 in map (fun v => p ++ [v]) (seq first (n - first)).
Lemma round_ok n i : forall cur acc, (forall p, In p cur -> length p = i) ->
  fold_outcome (fun next p =>
    let* first := (if 0 <? i then let* m := vget p (length p - 1) in Ok (m + 1) else Ok 0) in
    Ok (next ++ map (fun v => p ++ [v]) (seq first (n - first)))) cur acc = Ok (acc ++ flat_map (follow n i) cur).
Proof.
  induction cur as [|p cur IH]; intros acc H; cbn [fold_outcome flat_map]; [now rewrite app_nil_r|].
  assert (E : (if 0 <? i then let* m := vget p (length p - 1) in Ok (m + 1) else Ok 0) = Ok (if 0 <? i then S (nth (i - 1) p 0) else 0)).
  { destruct (Nat.ltb_spec 0 i); [|auto]. pose proof (H p (or_introl eq_refl)) as L. unfold vget. rewrite L, (nth_error_nth' p 0) by lia. cbn [bind]. f_equal. lia. }
  rewrite E. cbn [bind]. rewrite IH by (intros x Hx; apply H; now right). rewrite <- app_assoc. reflexivity.
Qed.
Lemma snoc_inv (p : list nat) i : length p = S i -> exists q v, p = q ++ [v] /\ length q = i.
Proof.
  intros L. destruct (exists_last (l := p)) as (q & v & E); [intros ->; discriminate|]. exists q, v. split; auto. rewrite E, app_length in L. cbn in L. lia.
Qed.
Lemma snoc_sorted q v : StronglySorted lt (q ++ [v]) <-> StronglySorted lt q /\ forall x, In x q -> x < v.
Proof.
  split.
  - induction q as [|a q IH]; cbn [app]; intros H; [split; [constructor|intros x []]|].
    apply StronglySorted_inv in H as [H F]. destruct (IH H) as (A & B). rewrite Forall_forall in F. split.
    + constructor; auto. apply Forall_forall. intros x Hx. apply F, in_app_iff. auto.
    + intros x [<- |Hx]; [apply F, in_app_iff; right; now left|auto].
  - intros (A & B). apply sorted_snoc; auto.
Qed.
Lemma top_spec p i : length p = S i -> StronglySorted lt p -> forall v, (forall x, In x p -> x < v) <-> S (nth i p 0) <= v.
Proof.
  intros L S1 v. destruct (snoc_inv p i L) as (q & m & -> & Lq). apply snoc_sorted in S1 as (_ & B).
  assert (nth i (q ++ [m]) 0 = m) as -> by (rewrite app_nth2 by lia; now replace (i - length q) with 0 by lia). split.
  - intros H. apply H, in_app_iff. right. now left.
  - intros H x Hx. apply in_app_iff in Hx as [Hx|[<- |[]]]; [apply B in Hx; lia|lia].
Qed.
Lemma follow_In n i p x : of_size n i p -> (In x (follow n i p) <-> exists v, x = p ++ [v] /\ of_size n (S i) x).
Proof.
  intros (L & S1 & B). unfold follow. rewrite in_map_iff. split.
  - intros (v & <- & Hv). apply in_seq in Hv. exists v. split; auto. unfold of_size. splits.
    + rewrite app_length. cbn. lia.
    + apply snoc_sorted. split; auto. destruct (Nat.ltb_spec 0 i); [|destruct p; [intros y []|cbn in L; lia]].
      apply (top_spec p (i - 1)); auto; lia.
    + intros y Hy. apply in_app_iff in Hy as [Hy|[<- |[]]]; [auto|lia].
  - intros (v & -> & L' & S' & B'). exists v. split; auto. apply snoc_sorted in S' as (_ & T). assert (v < n) by (apply B', in_app_iff; right; now left).
    apply in_seq. destruct (Nat.ltb_spec 0 i); [|lia]. apply (top_spec p (i - 1)) in T; auto; lia.
Qed.
Lemma follow_nodup n i p : NoDup (follow n i p).
Proof.
  unfold follow. apply FinFun.Injective_map_NoDup; [|apply seq_NoDup]. intros x y H. now apply app_inj_tail in H.
Qed.
Lemma nodup_flat {A B} (f : A -> list B) l : NoDup l -> (forall a, In a l -> NoDup (f a)) -> (forall a b x, In a l -> In b l -> In x (f a) -> In x (f b) -> a = b) -> NoDup (flat_map f l).
Proof.
  induction 1 as [|a l Na N IH]; intros H1 H2; cbn [flat_map]; [constructor|].
  assert (G : forall (u w : list B), NoDup u -> NoDup w -> (forall x, In x u -> ~ In x w) -> NoDup (u ++ w)).
  { induction u as [|x u IHu]; intros w Nu Nw D; [auto|]. inversion Nu; subst. cbn. constructor.
    - rewrite in_app_iff. intros [|X]; [auto|]. exact (D x (or_introl eq_refl) X).
    - apply IHu; auto. intros y Hy. apply D. now right. }
  apply G; [apply H1; now left|apply IH; [intros; apply H1; now right|intros x y z Hx Hy; apply H2; now right]|].
  intros x Hx Hy. apply in_flat_map in Hy as (b & Hb & Hxb). assert (a = b) as <- by (apply (H2 a b x); auto; [now left|now right]). auto.
Qed.
(** The patterns of size [i]: exactly once each. *)
Definition layer_of_size (n i : nat) (cur : list (list nat)) : Prop := NoDup cur /\ forall p, In p cur <-> of_size n i p.
Lemma next_layer n i cur : layer_of_size n i cur -> layer_of_size n (S i) (flat_map (follow n i) cur).
Proof.
  intros (N & H). split.
  - apply nodup_flat; auto; [intros; apply follow_nodup|]. intros a b x Ha Hb Hxa Hxb. apply H in Ha, Hb.
    apply (follow_In n i a x Ha) in Hxa as (v & -> & _). apply (follow_In n i b _ Hb) in Hxb as (w & E & _). now apply app_inj_tail in E.
  - intros p. rewrite in_flat_map. split.
    + intros (q & Hq & Hp). apply H in Hq. apply (follow_In n i q p Hq) in Hp as (v & _ & X). auto.
    + intros Hp. destruct Hp as (L & S1 & B). destruct (snoc_inv p i L) as (q & v & -> & Lq). apply snoc_sorted in S1 as (Sq & T).
      assert (Q : of_size n i q) by (unfold of_size; splits; auto; intros x Hx; apply B, in_app_iff; auto).
      exists q. split; [now apply H|]. apply (follow_In n i q _ Q). exists v. split; auto. unfold of_size. splits; auto. apply snoc_sorted. auto.
Qed.
Lemma rounds_ok n : forall m i cur acc, layer_of_size n i cur ->
  NoDup acc -> (forall p, In p acc <-> exists j, 1 <= j <= i /\ of_size n j p) -> smaller_first acc ->
  exists cur' out, fold_outcome (fun (cp : list (list nat) * list (list nat)) i =>
      let* next := naive_round n i (fst cp) in Ok (next, snd cp ++ next)) (seq i m) (cur, acc) = Ok (cur', out) /\
    NoDup out /\ (forall p, In p out <-> exists j, 1 <= j <= i + m /\ of_size n j p) /\ smaller_first out.
Proof.
  induction m as [|m IH]; intros i cur acc Hc Na Ha Sa; cbn [seq fold_outcome].
  - exists cur, acc. rewrite Nat.add_0_r. auto.
  - cbn [fst snd]. unfold naive_round at 1. rewrite round_ok by (intros p Hp; now apply Hc in Hp as (L & _)). cbn [bind app].
    pose proof (next_layer n i cur Hc) as (Nn & Hn). set (next := flat_map (follow n i) cur) in *.
    destruct (IH (S i) next (acc ++ next)) as (cur' & out & E & N' & H' & S').
    + split; auto.
    + assert (G : forall (u w : list (list nat)), NoDup u -> NoDup w -> (forall x, In x u -> ~ In x w) -> NoDup (u ++ w)).
      { induction u as [|x u IHu]; intros w Nu Nw D; [auto|]. inversion Nu; subst. cbn. constructor.
        - rewrite in_app_iff. intros [|X]; [auto|]. exact (D x (or_introl eq_refl) X).
        - apply IHu; auto. intros y Hy. apply D. now right. }
      apply G; auto. intros x Hx Hy. apply Ha in Hx as (j & Hj & (L & _)). apply Hn in Hy as (L' & _). lia.
    + intros p. rewrite in_app_iff, Ha, Hn. split.
      * intros [(j & Hj & X)|X]; [exists j; split; [lia|auto]|exists (S i); split; [lia|auto]].
      * intros (j & Hj & X). destruct (Nat.eq_dec j (S i)) as [-> |]; [auto|left; exists j; split; [lia|auto]].
    + apply sorted_app; auto.
      * apply nth_sorted. intros a b x y _ Hx Hy. apply nth_error_In in Hx, Hy. apply Hn in Hx as (L1 & _), Hy as (L2 & _). lia.
      * intros x y Hx Hy. apply Ha in Hx as (j & Hj & (L & _)). apply Hn in Hy as (L' & _). lia.
    + exists cur', out. splits; auto. intros p. rewrite H'. replace (S i + m) with (i + S m) by lia. tauto.
Qed.
Theorem naive_ok t k : exists out, build_patterns_naive k t = Ok out /\ NoDup out /\ smaller_first out /\ forall p, In p out <-> pattern_of t p /\ length p <= k.
Proof.
  unfold build_patterns_naive. destruct (rounds_ok (length (t_vars t)) k 0 [[]] []) as (cur & out & E & N & H & S1).
  - split; [repeat constructor; auto|]. intros p. cbn. unfold of_size. split.
    + intros [<- |[]]. splits; [auto|constructor|intros v []].
    + intros (L & _). left. destruct p; [auto|discriminate].
  - constructor.
  - intros p. cbn. split; [intros []|intros (j & Hj & _); lia].
  - constructor.
  - rewrite E. cbn [bind snd]. exists out. splits; auto. intros p. rewrite H. unfold of_size, pattern_of. split.
    + intros (j & Hj & L & A & B). splits; auto; [|lia]. intros ->. cbn in L. lia.
    + intros ((NE & A & B) & L). exists (length p). splits; auto. destruct p; [contradiction|cbn; lia].
Qed.

(** Bron-Kerbosch lists every maximal clique exactly once. *)
From Verif Require Import Outcome Spec_Graph Model_MaxCliques.
From Coq Require Import Permutation Sorted.

Notation sorted := (StronglySorted lt).

Lemma sorted_cons x l : sorted (x :: l) <-> (forall y, In y l -> x < y) /\ sorted l.
Proof.
  split.
  - intros H. inv H. split; auto. intros y Hy. rewrite Forall_forall in H3. auto.
  - intros [H1 H2]. constructor; auto. apply Forall_forall. auto.
Qed.
Lemma sorted_nodup l : sorted l -> NoDup l.
Proof. induction l as [|x l IH]; intros H; constructor; apply sorted_cons in H; destruct H as [H1 H2]; auto. intros Hx. apply H1 in Hx. lia. Qed.
Lemma sorted_unique l : sorted l -> is_sorted_unique l = true.
Proof.
  induction l as [|x l IH]; intros H; auto. apply sorted_cons in H. destruct H as [H1 H2]. cbn [is_sorted_unique].
  destruct l as [|y l]; auto. apply andb_true_iff. split; auto. apply Nat.ltb_lt, H1. now left.
Qed.

Lemma inter_nil b : set_intersection [] b = [].
Proof. destruct b; reflexivity. Qed.
Lemma inter_cons x a y b : set_intersection (x :: a) (y :: b) =
  if x <? y then set_intersection a (y :: b) else if y <? x then set_intersection (x :: a) b else x :: set_intersection a b.
Proof. reflexivity. Qed.
Lemma inter_ok : forall a b, sorted a -> sorted b ->
  sorted (set_intersection a b) /\ forall x, In x (set_intersection a b) <-> In x a /\ In x b.
Proof.
  induction a as [|x a IHa]; intros b Ha.
  - intros _. rewrite inter_nil. split; [constructor|]. cbn. tauto.
  - pose proof Ha as Ha0. apply sorted_cons in Ha. destruct Ha as [Hxa Ha].
    induction b as [|y b IHb]; intros Hb; [cbn; split; [constructor|tauto]|].
    pose proof Hb as Hb0. apply sorted_cons in Hb. destruct Hb as [Hyb Hb]. rewrite inter_cons.
    destruct (Nat.ltb_spec x y) as [H1|H1]; [|destruct (Nat.ltb_spec y x) as [H2|H2]].
    + destruct (IHa (y :: b) Ha Hb0) as [Hs Hi]. split; auto. intros z. rewrite Hi. cbn [In].
      split; [tauto|]. intros [[<-|Hz] Hz']; auto. destruct Hz' as [->|Hz']; [lia|]. apply Hyb in Hz'. lia.
    + destruct (IHb Hb) as [Hs Hi]. split; auto. intros z. rewrite Hi. cbn [In].
      split; [tauto|]. intros [Hz [<-|Hz']]; auto. destruct Hz as [->|Hz]; [lia|]. apply Hxa in Hz. lia.
    + assert (x = y) by lia. subst y. destruct (IHa b Ha Hb) as [Hs Hi]. split.
      * apply sorted_cons. split; auto. intros z Hz. apply Hi in Hz. apply Hxa. tauto.
      * intros z. cbn [In]. rewrite Hi. split; [tauto|]. intros [[Hz|Hz] [Hz'|Hz']]; auto.
Qed.

Lemma diff_nil b : set_difference [] b = [].
Proof. destruct b; reflexivity. Qed.
Lemma diff_cons x a y b : set_difference (x :: a) (y :: b) =
  if x <? y then x :: set_difference a (y :: b) else if y <? x then set_difference (x :: a) b else set_difference a b.
Proof. reflexivity. Qed.
Lemma diff_ok : forall a b, sorted a -> sorted b ->
  sorted (set_difference a b) /\ forall x, In x (set_difference a b) <-> In x a /\ ~ In x b.
Proof.
  induction a as [|x a IHa]; intros b Ha.
  - intros _. rewrite diff_nil. split; [constructor|]. cbn. tauto.
  - pose proof Ha as Ha0. apply sorted_cons in Ha. destruct Ha as [Hxa Ha].
    induction b as [|y b IHb]; intros Hb; [cbn; split; [exact Ha0|tauto]|].
    pose proof Hb as Hb0. apply sorted_cons in Hb. destruct Hb as [Hyb Hb]. rewrite diff_cons.
    destruct (Nat.ltb_spec x y) as [H1|H1]; [|destruct (Nat.ltb_spec y x) as [H2|H2]].
    + destruct (IHa (y :: b) Ha Hb0) as [Hs Hi]. split.
      * apply sorted_cons. split; auto. intros z Hz. apply Hi in Hz. apply Hxa. tauto.
      * intros z. cbn [In]. rewrite Hi. cbn [In]. split; [|tauto]. intros [<-|Hz]; [|tauto]. split; auto. intros [->|Hz]; [lia|]. apply Hyb in Hz. lia.
    + destruct (IHb Hb) as [Hs Hi]. split; auto. intros z. rewrite Hi. cbn [In].
      split; [|tauto]. intros [Hz Hn]. split; auto. intros [<-|Hz']; auto. destruct Hz as [->|Hz]; [lia|]. apply Hxa in Hz. lia.
    + assert (x = y) by lia. subst y. destruct (IHa b Ha Hb) as [Hs Hi]. split; auto. intros z. cbn [In]. rewrite Hi.
      split; [|tauto]. intros [Hz Hn]. split; auto. intros [<-|Hz']; auto. apply Hxa in Hz. lia.
Qed.

Lemma erase_ok : forall l q, sorted l -> In q l -> exists l', erase_lower_bound l q = Ok l' /\ sorted l' /\ forall x, In x l' <-> In x l /\ x <> q.
Proof.
  induction l as [|x l IH]; intros q Hs Hq; [destruct Hq|]. apply sorted_cons in Hs. destruct Hs as [Hx Hs]. cbn [erase_lower_bound].
  destruct (Nat.ltb_spec x q) as [H|H].
  - destruct Hq as [->|Hq]; [lia|]. destruct (IH q Hs Hq) as (l' & -> & Hs' & Hi). cbn [bind]. exists (x :: l'). splits; auto.
    + apply sorted_cons. split; auto. intros y Hy. apply Hi in Hy. apply Hx. tauto.
    + intros y. cbn [In]. rewrite Hi. split; [|tauto]. intros [<-|Hy]; [split; auto; lia|tauto].
  - assert (x = q). { destruct Hq as [|Hq]; auto. apply Hx in Hq. lia. } subst x. exists l. splits; auto.
    intros y. cbn [In]. split; [|intuition congruence]. intros Hy. split; auto. apply Hx in Hy. lia.
Qed.

Section P.
Variable g : list (list nat).
Hypothesis Hg : undirected g.
Hypothesis Hsorted : forall l, In l g -> sorted l.

Definition ok (subg cand R : list nat) : Prop :=
  NoDup R /\ incl R cand /\ (forall x y, In x R -> In y R -> x <> y -> edge g x y) /\
  forall v, In v subg -> (forall x, In x R -> edge g v x) -> False.

Definition enumerates (P : list nat -> Prop) (Rs : list (list nat)) : Prop :=
  (forall R, In R Rs -> P R) /\ (forall R, P R -> exists R', In R' Rs /\ same_set R R') /\
  ForallOrdPairs (fun A B => ~ same_set A B) Rs.

Lemma edge_iff x adj y : nth_error g x = Some adj -> (edge g x y <-> In y adj).
Proof. intros H. split; [intros (l & Hl & Hy); congruence|exists adj; auto]. Qed.

Lemma FOP_app {A} (R : A -> A -> Prop) l1 l2 : ForallOrdPairs R l1 -> ForallOrdPairs R l2 ->
  (forall x y, In x l1 -> In y l2 -> R x y) -> ForallOrdPairs R (l1 ++ l2).
Proof.
  induction 1 as [|a l Ha Hl IH]; intros H2 Hc; cbn; auto. constructor.
  - apply Forall_app. split; auto. apply Forall_forall. intros y Hy. apply Hc; auto. now left.
  - apply IH; auto. intros x y Hx. apply Hc. now right.
Qed.
Lemma FOP_map {A B} (f : A -> B) (R : A -> A -> Prop) (S : B -> B -> Prop) l :
  (forall x y, In x l -> In y l -> R x y -> S (f x) (f y)) -> ForallOrdPairs R l -> ForallOrdPairs S (map f l).
Proof.
  intros H. induction 1 as [|a l Ha Hl IH]; cbn; constructor.
  - apply Forall_map. rewrite Forall_forall in *. intros x Hx. apply H; cbn; auto.
  - apply IH. intros x y Hx Hy. apply H; cbn; auto.
Qed.

Lemma max_vertex_ok subg cand : subg <> [] -> sorted subg -> sorted cand -> (forall x, In x subg -> x < length g) ->
  exists u, get_maximizing_vertex g subg cand = Ok u /\ In u subg.
Proof.
  intros Hne Hs Hc Hlt. unfold get_maximizing_vertex. rewrite !sorted_unique by auto. cbn [guard bind].
  destruct subg as [|v0 t]; [congruence|]. change (vget (v0 :: t) 0) with (Ok v0). cbn [bind].
  match goal with |- context [fold_outcome ?body _ _] => set (F := body) end.
  assert (H : forall l best max, In best (v0 :: t) -> incl l (v0 :: t) ->
    exists best' max', fold_outcome F l (best, max) = Ok (best', max') /\ In best' (v0 :: t)).
  { induction l as [|v l IH]; intros best max Hb Hi; cbn [fold_outcome]; [eauto|].
    unfold F at 1. cbv beta iota. destruct (vget_some g v) as (adj & _ & ->); [apply Hlt, Hi; now left|]. cbn [bind].
    assert (Hil : incl l (v0 :: t)) by (intros x Hx; apply Hi; now right).
    destruct (max <? length (set_intersection cand adj)); apply IH; auto. apply Hi. now left. }
  destruct (H (v0 :: t) v0 0) as (b & m & -> & Hb); [now left|apply incl_refl|]. cbn [bind]. eauto.
Qed.

Definition expand_spec (f : nat) : Prop := forall subg cand current out,
  length subg < f -> sorted subg -> sorted cand -> incl cand subg -> (forall x, In x subg -> x < length g) ->
  exists Rs, expand g f subg cand current out = Ok (out ++ map (app current) Rs) /\ enumerates (ok subg cand) Rs.

Lemma branch_ok f subg current : expand_spec f -> length subg < S f -> sorted subg -> (forall x, In x subg -> x < length g) ->
  forall ext cand out, NoDup ext -> incl ext cand -> sorted cand -> incl cand subg ->
  exists Rs, branch g (expand g f) subg ext cand current out = Ok (out ++ map (app current) Rs) /\
    enumerates (fun R => ok subg cand R /\ exists q, In q ext /\ In q R) Rs.
Proof.
  intros IHf Hlen Hs Hlt. destruct Hg as (Hwf & Hsym & Hirr).
  induction ext as [|q ext IH]; intros cand out Hnd Hinc Hcs Hci; cbn [branch].
  - exists []. cbn. rewrite app_nil_r. split; auto. unfold enumerates. splits.
    + intros R [].
    + intros R (_ & q & [] & _).
    + constructor.
  - assert (Hqc : In q cand) by (apply Hinc; now left). assert (Hqs : In q subg) by now apply Hci.
    destruct (vget_some g q (Hlt q Hqs)) as (adj & Eadj & ->). cbn [bind].
    assert (Hadj : sorted adj) by (apply Hsorted; eapply nth_error_In; eauto).
    destruct (inter_ok subg adj Hs Hadj) as [Hs1 Hi1]. destruct (inter_ok cand adj Hcs Hadj) as [Hs2 Hi2].
    assert (Hqn : ~ In q adj) by (intros Hq; apply (Hirr q); now apply (edge_iff q adj q Eadj)).
    assert (Hlt1 : length (set_intersection subg adj) < f).
    { assert (length (q :: set_intersection subg adj) <= length subg).
      { apply NoDup_incl_length.
        - constructor; [|now apply sorted_nodup]. intros Hq. apply Hi1 in Hq. tauto.
        - intros x [<-|Hx]; auto. apply Hi1 in Hx. tauto. }
      cbn in H. lia. }
    destruct (IHf (set_intersection subg adj) (set_intersection cand adj) (current ++ [q]) out) as (Rs1 & E1 & HR1 & HR2 & HR3); auto.
    { intros x Hx. apply Hi2 in Hx. apply Hi1. split; [apply Hci|]; tauto. }
    { intros x Hx. apply Hi1 in Hx. apply Hlt. tauto. }
    rewrite E1. cbn [bind]. destruct (erase_ok cand q Hcs Hqc) as (cand1 & -> & Hcs1 & Hci1). cbn [bind].
    inv Hnd. destruct (IH cand1 (out ++ map (app (current ++ [q])) Rs1)) as (Rs2 & E2 & HS1 & HS2 & HS3); auto.
    { intros x Hx. apply Hci1. split; [apply Hinc; now right|]. intros ->. contradiction. }
    { intros x Hx. apply Hci1 in Hx. apply Hci. tauto. }
    exists (map (cons q) Rs1 ++ Rs2). split.
    { rewrite E2, <- app_assoc, map_app, map_map. do 2 f_equal. f_equal. apply map_ext. intros R. now rewrite <- app_assoc. }
    assert (Hqe : forall x, In x adj <-> edge g q x) by (intros x; symmetry; now apply edge_iff).
    unfold enumerates. splits.
    + intros R HR. rewrite in_app_iff, in_map_iff in HR. destruct HR as [(R' & <- & HR)|HR].
      * destruct (HR1 R' HR) as (O1 & O2 & O3 & O4). split; [|exists q; cbn; auto]. unfold ok. splits.
        -- constructor; auto. intros Hq. apply O2, Hi2 in Hq. tauto.
        -- intros x [<-|Hx]; auto. apply O2, Hi2 in Hx. tauto.
        -- intros x y [<-|Hx] [<-|Hy] Hxy; auto; try congruence.
           ++ apply Hqe. apply O2, Hi2 in Hy. tauto.
           ++ apply Hsym, Hqe. apply O2, Hi2 in Hx. tauto.
        -- intros v Hv Hall. apply (O4 v).
           ++ apply Hi1. split; auto. apply Hqe, Hsym, Hall. now left.
           ++ intros x Hx. apply Hall. now right.
      * destruct (HS1 R HR) as [(O1 & O2 & O3 & O4) (q' & Hq' & HqR)]. split; [|exists q'; split; auto; now right].
        unfold ok. splits; auto. intros x Hx. apply O2, Hci1 in Hx. tauto.
    + intros R [(O1 & O2 & O3 & O4) (q' & Hq' & HqR)]. destruct (In_dec Nat.eq_dec q R) as [Hin|Hout].
      * set (R' := filter (fun x => negb (x =? q)) R).
        assert (HR' : forall x, In x R' <-> In x R /\ x <> q).
        { intros x. unfold R'. rewrite filter_In, negb_true_iff, Nat.eqb_neq. tauto. }
        destruct (HR2 R') as (R2 & HR2in & Hss).
        { unfold ok. splits.
          - now apply NoDup_filter.
          - intros x Hx. apply HR' in Hx. destruct Hx as [Hx Hxq]. apply Hi2. split; [now apply O2|]. apply Hqe. apply O3; auto.
          - intros x y Hx Hy. apply O3; [apply HR' in Hx|apply HR' in Hy]; tauto.
          - intros v Hv Hall. apply Hi1 in Hv. destruct Hv as [Hv1 Hv2]. apply (O4 v Hv1). intros x Hx.
            destruct (Nat.eq_dec x q) as [->|Hxq]; [apply Hsym, Hqe; auto|]. apply Hall, HR'. auto. }
        exists (q :: R2). split; [apply in_app_iff; left; apply in_map; auto|]. intros x. cbn [In]. specialize (Hss x). rewrite HR' in Hss.
        split; [intros Hx; destruct (Nat.eq_dec x q); [left; auto|right; apply Hss; auto]|]. intros [<-|Hx]; auto. apply Hss in Hx. tauto.
      * destruct (HS2 R) as (R2 & HR2in & Hss).
        { split.
          - unfold ok. splits; auto. intros x Hx. apply Hci1. split; auto. intros ->. contradiction.
          - exists q'. split; auto. destruct Hq' as [<-|]; auto. contradiction. }
        exists R2. split; auto. apply in_app_iff. auto.
    + apply FOP_app; auto.
      * eapply FOP_map; [|exact HR3]. intros A B HA HB Hn Hs'. apply Hn.
        assert (HqA : ~ In q A). { destruct (HR1 A HA) as (_ & O2 & _). intros Hq. apply O2, Hi2 in Hq. tauto. }
        assert (HqB : ~ In q B). { destruct (HR1 B HB) as (_ & O2 & _). intros Hq. apply O2, Hi2 in Hq. tauto. }
        intros x. specialize (Hs' x). cbn [In] in Hs'. split; intros Hx.
        -- destruct (proj1 Hs' (or_intror Hx)) as [<-|]; auto. contradiction.
        -- destruct (proj2 Hs' (or_intror Hx)) as [<-|]; auto. contradiction.
      * intros A B HA HB Hs'. rewrite in_map_iff in HA. destruct HA as (A' & <- & HA).
        destruct (HS1 B HB) as [(_ & O2 & _) _]. assert (HqB : In q B) by (apply Hs'; now left). apply O2, Hci1 in HqB. tauto.
Qed.

Lemma expand_ok : forall f, expand_spec f.
Proof.
  destruct Hg as (Hwf & Hsym & Hirr).
  induction f as [|f IHf]; intros subg cand current out Hlen Hs Hc Hi Hlt; [lia|]. cbn [expand].
  destruct subg as [|s0 t] eqn:Esub.
  - exists [[]]. cbn [map]. rewrite app_nil_r. split; auto. unfold enumerates. splits.
    + intros R [<-|[]]. unfold ok. splits; [constructor|intros x []|intros x y []|intros v []].
    + intros R (_ & HR & _). exists []. split; [now left|]. destruct R as [|x R]; [intros y; tauto|]. exfalso.
      specialize (HR x ltac:(now left)). apply Hi in HR. destruct HR.
    + repeat constructor.
  - rewrite <- Esub in *. assert (Hne : subg <> []) by (rewrite Esub; discriminate).
    destruct (max_vertex_ok subg cand Hne Hs Hc Hlt) as (u & -> & Hu). cbn [bind].
    destruct (vget_some g u (Hlt u Hu)) as (adj & Eadj & ->). cbn [bind].
    assert (Hadj : sorted adj) by (apply Hsorted; eapply nth_error_In; eauto).
    destruct (diff_ok cand adj Hc Hadj) as [Hds Hdi].
    destruct (branch_ok f subg current IHf Hlen Hs Hlt (rev (set_difference cand adj)) cand out) as (Rs & E & H1 & H2 & H3); auto.
    { apply NoDup_rev. now apply sorted_nodup. }
    { intros x Hx. apply in_rev in Hx. apply Hdi in Hx. tauto. }
    exists Rs. split; auto. unfold enumerates. splits; auto.
    + intros R HR. apply H1; auto.
    + intros R HR. apply H2. split; auto. destruct HR as (O1 & O2 & O3 & O4).
      destruct (existsb (fun q => negb (existsb (Nat.eqb q) adj)) R) eqn:Ex.
      * apply existsb_exists in Ex. destruct Ex as (q & Hq & Hn). exists q. split; auto. apply -> in_rev. apply Hdi. split; auto.
        intros Hin. apply negb_true_iff in Hn. assert (existsb (Nat.eqb q) adj = true); [|congruence].
        apply existsb_exists. exists q. split; auto. apply Nat.eqb_refl.
      * exfalso. apply (O4 u Hu). intros x Hx. apply (edge_iff u adj x Eadj).
        destruct (existsb (Nat.eqb x) adj) eqn:Ea.
        -- apply existsb_exists in Ea. destruct Ea as (y & Hy & E'). apply Nat.eqb_eq in E'. now subst.
        -- exfalso. assert (existsb (fun q => negb (existsb (Nat.eqb q) adj)) R = true); [|congruence].
           apply existsb_exists. exists x. split; auto. now rewrite Ea.
Qed.

Lemma seq_sorted a n : sorted (seq a n).
Proof. revert a. induction n as [|n IH]; intros a; cbn; constructor; auto. apply Forall_forall. intros x Hx. apply in_seq in Hx. lia. Qed.

Lemma max_cliques_correct : exists cs, compute_max_cliques g = Ok cs /\
  (forall K, In K cs -> maximal_clique g K) /\
  (forall K, maximal_clique g K -> exists K', In K' cs /\ same_set K K') /\
  ForallOrdPairs (fun A B => ~ same_set A B) cs.
Proof.
  unfold compute_max_cliques.
  destruct (expand_ok (S (length g)) (seq 0 (length g)) (seq 0 (length g)) [] []) as (Rs & -> & H1 & H2 & H3).
  - rewrite seq_length. lia.
  - apply seq_sorted.
  - apply seq_sorted.
  - apply incl_refl.
  - intros x Hx. apply in_seq in Hx. lia.
  - exists Rs. cbn [app]. rewrite map_id. split; auto.
    assert (Hiff : forall R, ok (seq 0 (length g)) (seq 0 (length g)) R <-> maximal_clique g R).
    { intros R. unfold ok, maximal_clique, clique. split.
      - intros (O1 & O2 & O3 & O4). splits; auto.
        + intros x Hx. apply O2, in_seq in Hx. lia.
        + intros v Hv. apply O4, in_seq. lia.
      - intros ((O1 & O2 & O3) & O4). splits; auto.
        + intros x Hx. apply in_seq. specialize (O2 x Hx). lia.
        + intros v Hv. apply O4. apply in_seq in Hv. lia. }
    splits; auto.
    + intros K HK. now apply Hiff, H1.
    + intros K HK. now apply H2, Hiff.
Qed.
End P.

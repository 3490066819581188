(** Distances of shrunk and pruned transition systems. *)
From Verif Require Import Outcome Spec_Relaxation Model_PQ Model_Graph Model_MAS Spec_FTS Proof_MAS1 Proof_MAS2 Proof_MAS3 Proof_MAS4 Proof_MAS6.

(** ** Images under groupings whose classes agree on the distances *)
Definition agree (d xs : list (option nat)) (cls : list (list nat)) : Prop :=
  length xs = length cls /\ forall k s, in_class cls k s -> nth k xs None = nth s d None.

Section IMAGE.
Variable lc : nat -> nat -> Prop.
Variable T T' : lts.
Variable cls : list (list nat).
Hypothesis HI : is_image lc T cls T'.
Hypothesis HG : grouping (l_n T) cls.
Hypothesis HU : only_useless_ungrouped lc T cls.

Lemma class_lt k s : in_class cls k s -> s < l_n T.
Proof. intros (c & H1 & H2). apply (proj2 (proj2 HG)). apply in_concat. exists c. split; auto. eapply nth_error_In; eauto. Qed.
Lemma class_member k : k < length cls -> exists s, in_class cls k s.
Proof.
  intros H. destruct (nth_error cls k) as [c|] eqn:E; [|apply nth_error_None in E; lia]. destruct c as [|s r].
  - exfalso. apply (proj1 (proj2 HG) []); auto. eapply nth_error_In; eauto.
  - exists s. exists (s :: r). split; auto. now left.
Qed.

Lemma image_path_goal s c g : lpath lc (l_step T) s c g -> l_goal T g -> forall k, in_class cls k s -> exists g', l_goal T' g' /\ lpath lc (l_step T') k c g'.
Proof.
  destruct HI as (_ & Hg & _ & Hst). induction 1 as [s|s a x s1 y s2 Ha Hs Hp IH]; intros Hgoal k Hk.
  - exists k. split; [apply Hg; eauto|constructor].
  - destruct (proj1 (proj2 HU) a x s s1 Ha Hs) as [k1 Hk1]; [exists k; auto|exists s2, y; auto|]. destruct (IH Hgoal k1 Hk1) as (g' & H1 & H2). exists g'. split; auto. econstructor; eauto. apply (Hst a x); eauto.
Qed.
Lemma image_goal_low d xs : goal_distances lc T d -> agree d xs cls -> forall k c g', lpath lc (l_step T') k c g' -> l_goal T' g' ->
  forall s, in_class cls k s -> exists c' g, c' <= c /\ l_goal T g /\ lpath lc (l_step T) s c' g.
Proof.
  intros [Hl Hd] [_ Ha]. destruct HI as (_ & Hg & _ & Hst).
  assert (Same : forall k s s' c, in_class cls k s -> in_class cls k s' -> (exists g, l_goal T g /\ lpath lc (l_step T) s c g) -> exists c' g, c' <= c /\ l_goal T g /\ lpath lc (l_step T) s' c' g).
  { intros k s s' c H1 H2 Hp. pose proof (Hd s (class_lt _ _ H1)) as D1. pose proof (Hd s' (class_lt _ _ H2)) as D2. rewrite <- (Ha k s H1) in D1. rewrite <- (Ha k s' H2) in D2.
    destruct (nth k xs None) as [v|]; [|exfalso; exact (D1 c Hp)]. destruct D1 as [_ D1]. specialize (D1 c Hp). destruct D2 as [(g & D2 & D3) _]. exists v, g. auto. }
  induction 1 as [k|k a x k1 y k2 Hla Hs Hp IH]; intros Hgoal s Hs'.
  - apply Hg in Hgoal as (s0 & H1 & H2). apply (Same k s0 s 0 H1 Hs'). exists s0. split; auto. constructor.
  - apply (Hst a x) in Hs; auto. destruct Hs as (s0 & t0 & A & B & C). destruct (IH Hgoal t0 B) as (c' & g & D & E & F).
    destruct (Same k s0 s (x + c') A Hs') as (c'' & g' & G1 & G2 & G3); [exists g; split; auto; econstructor; eauto|]. exists c'', g'. splits; auto. lia.
Qed.
Lemma image_goal_distances d xs : goal_distances lc T d -> agree d xs cls -> goal_distances lc T' xs.
Proof.
  intros Hd Ha. pose proof HI as (Hn & _). split; [rewrite Hn; apply Ha|]. intros k Hk. rewrite Hn in Hk. destruct (class_member k Hk) as [s Hs]. rewrite (proj2 Ha k s Hs).
  eapply least_transfer; [| |exact (proj2 Hd s (class_lt _ _ Hs))]; cbn beta.
  - intros c (g & H1 & H2). destruct (image_path_goal s c g H2 H1 k Hs) as (g' & H3 & H4). eauto.
  - intros c (g & H1 & H2). destruct (image_goal_low d xs Hd Ha k c g H2 H1 s Hs) as (c' & g' & H3 & H4 & H5). eauto.
Qed.

Variable i : nat.
Hypothesis Hi : l_init T = Some i.
Lemma image_path_init : forall c s, lpath lc (l_step T) i c s -> forall k, in_class cls k s -> exists i', l_init T' = Some i' /\ lpath lc (l_step T') i' c k.
Proof.
  destruct HI as (_ & _ & Hini & Hst).
  assert (G : forall s0 c s, lpath lc (l_step T) s0 c s -> forall c0, lpath lc (l_step T) i c0 s0 -> forall k, in_class cls k s -> exists k0, in_class cls k0 s0 /\ lpath lc (l_step T') k0 c k).
  { induction 1 as [s|s a x s1 y s2 Ha Hs Hp IH]; intros c0 H0 k Hk; [exists k; split; auto; constructor|].
    destruct (IH (c0 + x)) with (k := k) as (k1 & H1 & H2); auto; [eapply lpath_snoc; eauto|].
    destruct (proj2 (proj2 HU) a x s s1 Ha Hs) as [k0 Hk0]; [exists k1; auto|exists i, c0; auto|]. exists k0. split; auto. econstructor; eauto. apply (Hst a x); eauto. }
  intros c s H k Hk. destruct (G i c s H 0) with (k := k) as (k0 & H1 & H2); auto; [constructor|]. exists k0. split; auto. now apply (Hini i k0 Hi).
Qed.
Lemma image_init_low d xs i' : init_distances lc T d -> agree d xs cls -> l_init T' = Some i' -> forall c k, lpath lc (l_step T') i' c k ->
  forall s, in_class cls k s -> exists c', c' <= c /\ lpath lc (l_step T) i c' s.
Proof.
  intros [Hl Hd] [_ Ha] Hi'. destruct HI as (_ & _ & Hini & Hst).
  assert (Same : forall k s s' c, in_class cls k s -> in_class cls k s' -> lpath lc (l_step T) i c s -> exists c', c' <= c /\ lpath lc (l_step T) i c' s').
  { intros k s s' c H1 H2 Hp. pose proof (Hd s (class_lt _ _ H1)) as D1. pose proof (Hd s' (class_lt _ _ H2)) as D2. rewrite <- (Ha k s H1) in D1. rewrite <- (Ha k s' H2) in D2.
    destruct (nth k xs None) as [v|]; [|exfalso; apply (D1 c); eauto]. destruct D1 as [_ D1]. specialize (D1 c (ex_intro _ i (conj Hi Hp))). destruct D2 as [(i0 & E0 & D3) _].
    rewrite Hi in E0. inversion E0; subst i0. eauto. }
  assert (G : forall k0 c k, lpath lc (l_step T') k0 c k -> forall c0, (forall s, in_class cls k0 s -> exists c', c' <= c0 /\ lpath lc (l_step T) i c' s) ->
    forall s, in_class cls k s -> exists c', c' <= c0 + c /\ lpath lc (l_step T) i c' s).
  { induction 1 as [k|k a x k1 y k2 Hla Hs Hp IH]; intros c0 H0 s Hs'; [destruct (H0 s Hs') as (c' & H1 & H2); exists c'; split; auto; lia|].
    destruct (IH (c0 + x)) with (s := s) as (c' & H1 & H2); auto; [|exists c'; split; auto; lia].
    apply (Hst a x) in Hs; auto. destruct Hs as (s0 & t0 & A & B & C). intros t Ht. destruct (H0 s0 A) as (c1 & D1 & D2).
    destruct (Same k1 t0 t (c1 + x) B Ht) as (c2 & E1 & E2); [eapply lpath_snoc; eauto|]. exists c2. split; auto. lia. }
  intros c k H s Hs. apply (G i' c k H 0); auto. intros s0 Hs0. apply (Same i' i s0 0); auto; [|constructor]. now apply (Hini i i' Hi).
Qed.
Lemma image_init_distances d xs : init_distances lc T d -> agree d xs cls -> init_distances lc T' xs.
Proof.
  intros Hd Ha. pose proof HI as (Hn & _). split; [rewrite Hn; apply Ha|]. intros k Hk. rewrite Hn in Hk. destruct (class_member k Hk) as [s Hs]. rewrite (proj2 Ha k s Hs).
  eapply least_transfer; [| |exact (proj2 Hd s (class_lt _ _ Hs))]; cbn beta.
  - intros c (i0 & H1 & H2). rewrite Hi in H1. inversion H1; subst i0. destruct (image_path_init c s H2 k Hs) as (i' & H3 & H4). eauto.
  - intros c (i' & H1 & H2). destruct (image_init_low d xs i' Hd Ha H1 c k H2 s Hs) as (c' & H3 & H4). eauto.
Qed.
End IMAGE.

(** ** Reading the classes *)
Lemma oeqb_ok a b : oeqb a b = true <-> a = b.
Proof. destruct a as [x|], b as [y|]; cbn [oeqb]; split; try discriminate; auto; [intros H; apply Nat.eqb_eq in H; now subst|intros H; inversion H; apply Nat.eqb_refl]. Qed.
Lemma class_value_ok d cls : cls <> [] -> (forall s, In s cls -> s < length d) ->
  exists r, class_value d cls = Ok r /\ (forall x, r = Some x -> forall s, In s cls -> nth s d None = x) /\ (length cls = 1 -> r <> None).
Proof.
  destruct cls as [|s0 r0]; [congruence|]. intros _ H. unfold class_value. destruct (vget_some d s0) as (x & Hx & ->); [apply H; now left|]. cbn [bind].
  assert (G : forall r acc, (forall s, In s r -> s < length d) -> exists v, fold_outcome (fun acc s' => match acc with None => Ok None | Some x => let* y := vget d s' in Ok (if oeqb y x then Some x else None) end) r acc = Ok v /\
     (forall z, v = Some z -> acc = Some z /\ forall s, In s r -> nth s d None = z) /\ (r = [] -> v = acc)).
  { induction r as [|s r IH]; intros acc Hr; cbn [fold_outcome].
    - exists acc. splits; auto. intros z ->. split; auto. intros s [].
    - destruct acc as [x0|].
      + destruct (vget_some d s) as (y & Hy & ->); [apply Hr; now left|]. cbn [bind]. destruct (IH (if oeqb y x0 then Some x0 else None)) as (v & -> & Hv & _); [intros; apply Hr; now right|].
        exists v. splits; auto; [|discriminate]. intros z ->. destruct (Hv z eq_refl) as [E Hz]. destruct (oeqb y x0) eqn:Eo; [|discriminate]. inversion E; subst z. apply oeqb_ok in Eo. subst y. split; auto.
        intros s' [<-|Hs']; auto. now apply nth_error_nth.
      + cbn [bind]. destruct (IH None) as (v & -> & Hv & _); [intros; apply Hr; now right|]. exists v. splits; auto; [|discriminate]. intros z ->. destruct (Hv z eq_refl) as [E _]. discriminate. }
  destruct (G r0 (Some x)) as (v & -> & Hv & Hn); [intros; apply H; now right|]. exists v. splits; auto.
  - intros z ->. destruct (Hv z eq_refl) as [E Hz]. inversion E; subst z. intros s [<-|Hs]; auto. now apply nth_error_nth.
  - cbn [length]. intros Hlen. rewrite Hn by (destruct r0; auto; discriminate). discriminate.
Qed.
Lemma class_values_ok d : forall cls, (forall c, In c cls -> c <> [] /\ forall s, In s c -> s < length d) ->
  exists r, class_values d cls = Ok r /\ (forall xs, r = Some xs -> agree d xs cls) /\ ((forall c, In c cls -> length c = 1) -> r <> None).
Proof.
  induction cls as [|c cls IH]; intros H; cbn [class_values].
  - exists (Some []). splits; auto; [|discriminate]. intros xs E. inversion E; subst. split; auto. intros k s (c & Hc & _). destruct k; discriminate.
  - destruct (H c (or_introl eq_refl)) as [Hne Hlt]. destruct (class_value_ok d c Hne Hlt) as (r & -> & Hr & Hr1). cbn [bind].
    destruct IH as (rs & Ers & Hrs & Hrs1); [intros; apply H; now right|]. destruct r as [x|].
    + rewrite Ers. cbn [bind]. exists (option_map (cons x) rs). splits; auto.
      * intros xs E. destruct rs as [ys|]; [|discriminate]. inversion E; subst xs. destruct (Hrs ys eq_refl) as [L1 A1]. split; [cbn [length]; auto|].
        intros [|k] s (c' & Hc' & Hs); cbn [nth_error nth] in *; [inversion Hc'; subst c'; symmetry; now apply (Hr x eq_refl)|]. apply A1. exists c'. auto.
      * intros H1 E. destruct rs as [ys|]; [discriminate|]. apply Hrs1; auto. intros; apply H1; now right.
    + exists None. splits; auto; [discriminate|]. intros H1. exfalso. apply Hr1; auto. apply H1. now left.
Qed.

Lemma grouping_in n cls : grouping n cls -> forall c, In c cls -> c <> [] /\ forall s, In s c -> s < n.
Proof. intros (H1 & H2 & H3) c Hc. split; auto. intros s Hs. apply H3. apply in_concat. eauto. Qed.

Theorem abstract_distances_ok P bag q0 L maxl T T' cls ci cg D i : pq_contract P bag -> bag q0 = [] -> twf L maxl T -> twf L maxl T' ->
  grouping (ts_n T) cls -> is_image (active L) (the_lts T) cls (the_lts T') -> ts_init T = Some i -> only_useless_ungrouped (active L) (the_lts T) cls ->
  (ts_init T' <> None \/ forall c, In c cls -> length c = 1) ->
  dist_ok L T ci cg D -> exists D', abstract_distances P q0 T' cls ci cg D = Ok D' /\ dist_ok L T' ci cg D'.
Proof.
  intros HP Hq W W' HG HI Hi HU Hin [D1 D2]. unfold abstract_distances. pose proof (grouping_in _ _ HG) as Hcl.
  assert (G1 : exists r, (if ci then match d_init D with None => UB | Some d => let* x := class_values d cls in Ok (option_map Some x) end else Ok (Some None)) = Ok r /\
    (forall di, r = Some di -> ci = true -> exists d, di = Some d /\ init_distances (active L) (the_lts T') d) /\ ((forall c, In c cls -> length c = 1) -> r <> None)).
  { destruct ci; [|exists (Some None); splits; auto; discriminate]. destruct (D1 eq_refl) as (d & -> & Hd).
    destruct (class_values_ok d cls) as (r & -> & Hr & Hr1); [destruct Hd as [-> _]; exact Hcl|]. cbn [bind]. exists (option_map Some r). splits; auto.
    - intros di E _. destruct r as [xs|]; [|discriminate]. inversion E; subst di. exists xs. split; auto. eapply image_init_distances; eauto.
    - intros H1 E. destruct r; [discriminate|]. now apply Hr1. }
  assert (G2 : exists r, (if cg then match d_goal D with None => UB | Some d => let* x := class_values d cls in Ok (option_map Some x) end else Ok (Some None)) = Ok r /\
    (forall di, r = Some di -> cg = true -> exists d, di = Some d /\ goal_distances (active L) (the_lts T') d) /\ ((forall c, In c cls -> length c = 1) -> r <> None)).
  { destruct cg; [|exists (Some None); splits; auto; discriminate]. destruct (D2 eq_refl) as (d & -> & Hd).
    destruct (class_values_ok d cls) as (r & -> & Hr & Hr1); [destruct Hd as [-> _]; exact Hcl|]. cbn [bind]. exists (option_map Some r). splits; auto.
    - intros di E _. destruct r as [xs|]; [|discriminate]. inversion E; subst di. exists xs. split; auto. eapply image_goal_distances; eauto.
    - intros H1 E. destruct r; [discriminate|]. now apply Hr1. }
  destruct G1 as (r1 & -> & A1 & B1), G2 as (r2 & -> & A2 & B2). cbn [bind].
  assert (Hrec : r1 = None \/ r2 = None -> exists D', compute_distances P q0 T' ci cg no_distances = Ok D' /\ dist_ok L T' ci cg D').
  { intros Hn. destruct (compute_distances_ok P bag q0 L maxl T' ci cg no_distances HP Hq W') as (D' & E & HD & _); [|eauto]. intros _ _ Hx. destruct Hin as [Hin|Hin]; [contradiction|]. destruct Hn as [->| ->]; [now apply B1|now apply B2]. }
  destruct r1 as [di|]; [|apply Hrec; auto]. destruct r2 as [dg|]; [|apply Hrec; auto]. eexists. split; [reflexivity|]. split; cbn [d_init d_goal]; auto.
Qed.

(** ** Pruning *)
Definition kept (D : distances) (pu pi : bool) (s : nat) : bool :=
  negb ((pu && match d_init D with Some d => match nth s d None with None => true | _ => false end | None => false end) ||
        (pi && match d_goal D with Some d => match nth s d None with None => true | _ => false end | None => false end)).
Lemma is_inf_ok d n s : length d = n -> s < n -> is_inf (Some d) s = Ok (match nth s d None with None => true | _ => false end).
Proof. intros Hl Hs. unfold is_inf. rewrite <- Hl in Hs. destruct (vget_some d s Hs) as (x & Hx & ->). cbn [bind]. now rewrite (nth_error_nth d s None Hx). Qed.
Lemma prune_classes_ok D pu pi n : (pu = true -> exists d, d_init D = Some d /\ length d = n) -> (pi = true -> exists d, d_goal D = Some d /\ length d = n) ->
  prune_classes D pu pi n = Ok (map (fun s => [s]) (filter (kept D pu pi) (seq 0 n))).
Proof.
  intros H1 H2. unfold prune_classes.
  assert (G : forall l acc, (forall s, In s l -> s < n) -> fold_outcome (fun eq s =>
    let* a := if pu then is_inf (d_init D) s else Ok false in
    let* b := if pi then is_inf (d_goal D) s else Ok false in
    Ok (if a || b then eq else eq ++ [[s]])) l acc = Ok (acc ++ map (fun s => [s]) (filter (kept D pu pi) l))).
  { induction l as [|s l IH]; intros acc Hl; cbn [fold_outcome filter]; [now rewrite app_nil_r|].
    assert (Ea : (if pu then is_inf (d_init D) s else Ok false) = Ok (pu && match d_init D with Some d => match nth s d None with None => true | _ => false end | None => false end)).
    { destruct pu; auto. destruct (H1 eq_refl) as (d & -> & Hd). cbn [andb]. apply (is_inf_ok d n s Hd). apply Hl. now left. }
    assert (Eb : (if pi then is_inf (d_goal D) s else Ok false) = Ok (pi && match d_goal D with Some d => match nth s d None with None => true | _ => false end | None => false end)).
    { destruct pi; auto. destruct (H2 eq_refl) as (d & -> & Hd). cbn [andb]. apply (is_inf_ok d n s Hd). apply Hl. now left. }
    rewrite Ea, Eb. cbn [bind]. unfold kept at 1. match goal with |- context [negb ?b] => destruct b end; cbn [negb]; rewrite IH by (intros; apply Hl; now right); auto. cbn [map]. now rewrite <- app_assoc. }
  apply (G (seq 0 n) []). intros s Hs. apply in_seq in Hs. lia.
Qed.

Lemma singleton_class l k s : in_class (map (fun s : nat => [s]) l) k s <-> nth_error l k = Some s.
Proof.
  unfold in_class. split.
  - intros (c & H1 & H2). destruct (nth_error l k) as [x|] eqn:E.
    + rewrite (map_nth_error (fun s : nat => [s]) k l E) in H1. inversion H1; subst c. destruct H2 as [<-|[]]. auto.
    + apply nth_error_None in E. assert (nth_error (map (fun s : nat => [s]) l) k = None) by (apply nth_error_None; now rewrite map_length). congruence.
  - intros H. exists [s]. split; [exact (map_nth_error (fun s : nat => [s]) k l H)|now left].
Qed.
Lemma singleton_grouped l s : grouped (map (fun s : nat => [s]) l) s <-> In s l.
Proof. unfold grouped. split; [intros [k H]; apply singleton_class in H; eapply nth_error_In; eauto|]. intros H. apply In_nth_error in H as [k H]. exists k. now apply singleton_class. Qed.
Lemma concat_singletons (l : list nat) : concat (map (fun s => [s]) l) = l.
Proof. induction l as [|x r IH]; cbn [map concat app]; auto. now rewrite IH. Qed.

Theorem prune_useless L maxl T ci cg D pu pi : twf L maxl T -> dist_ok L T ci cg D -> (pu = true -> ci = true) -> (pi = true -> cg = true) ->
  exists cls, prune_classes D pu pi (ts_n T) = Ok cls /\ grouping (ts_n T) cls /\ (forall c, In c cls -> length c = 1) /\ only_useless_ungrouped (active L) (the_lts T) cls /\
    (forall s, s < ts_n T -> (grouped cls s <-> (pu = true -> from_init (active L) (the_lts T) s) /\ (pi = true -> reaches_goal (active L) (the_lts T) s))).
Proof.
  intros W [D1 D2] Hpu Hpi. rewrite (prune_classes_ok D pu pi (ts_n T)).
  - eexists. split; [reflexivity|]. set (ks := filter (kept D pu pi) (seq 0 (ts_n T))).
    assert (Hks : forall s, In s ks <-> s < ts_n T /\ kept D pu pi s = true) by (intros s; unfold ks; rewrite filter_In, in_seq; intuition lia).
    split; [|split].
    + split; [rewrite concat_singletons; apply NoDup_filter, seq_NoDup|split].
      * intros c Hc. apply in_map_iff in Hc as (s & <- & _). discriminate.
      * intros s. rewrite concat_singletons, Hks. tauto.
    + intros c Hc. apply in_map_iff in Hc as (s & <- & _). reflexivity.
    + assert (Hdrop : forall s, s < ts_n T -> kept D pu pi s = false -> (pu = true /\ ~ from_init (active L) (the_lts T) s) \/ (pi = true /\ ~ reaches_goal (active L) (the_lts T) s)).
      { intros s Hs Hk. unfold kept in Hk. apply negb_false_iff, orb_true_iff in Hk. destruct Hk as [Hk|Hk]; apply andb_true_iff in Hk as [Hp Hk]; [left|right]; split; auto.
        - destruct (D1 (Hpu Hp)) as (d & Ed & _ & Hd). rewrite Ed in Hk. specialize (Hd s Hs). destruct (nth s d None); [discriminate|]. intros (i & c & A & B). apply (Hd c). eauto.
        - destruct (D2 (Hpi Hp)) as (d & Ed & _ & Hd). rewrite Ed in Hk. specialize (Hd s Hs). destruct (nth s d None); [discriminate|]. intros (g & c & A & B). apply (Hd c). eauto. }
      assert (Hkeep1 : forall s, kept D pu pi s = true -> pu = true -> s < ts_n T -> from_init (active L) (the_lts T) s).
      { intros s Hk Hp Hs. destruct (D1 (Hpu Hp)) as (d & Ed & _ & Hd). unfold kept in Hk. rewrite Hp, Ed in Hk. apply negb_true_iff, orb_false_iff in Hk as [Hk _]. specialize (Hd s Hs).
        destruct (nth s d None) as [c|]; [|discriminate]. destruct Hd as [(i & A & B) _]. exists i, c. auto. }
      assert (Hkeep2 : forall s, kept D pu pi s = true -> pi = true -> s < ts_n T -> reaches_goal (active L) (the_lts T) s).
      { intros s Hk Hp Hs. destruct (D2 (Hpi Hp)) as (d & Ed & _ & Hd). unfold kept in Hk. rewrite Hp, Ed in Hk. apply negb_true_iff, orb_false_iff in Hk as [_ Hk]. specialize (Hd s Hs).
        destruct (nth s d None) as [c|]; [|discriminate]. destruct Hd as [(g & A & B) _]. exists g, c. auto. }
      assert (Hrange : forall a c s t, active L a c -> l_step (the_lts T) a s t -> s < ts_n T /\ t < ts_n T).
      { intros a c s t _ (k & i & _ & Hk & Hin). exact (g_trans _ _ _ _ (w_g _ _ _ W) k i s t Hk Hin). }
      split; [split; [|split]|].
      * intros s Hs Hn. rewrite singleton_grouped, Hks in Hn. destruct (kept D pu pi s) eqn:Ek; [exfalso; tauto|]. destruct (Hdrop s Hs Ek); tauto.
      * intros a c s t Ha Hst Hg Hr. rewrite singleton_grouped, Hks in *. destruct (Hrange a c s t Ha Hst) as [Hs Ht]. split; auto.
        destruct (kept D pu pi t) eqn:Ek; auto. exfalso. destruct (Hdrop t Ht Ek) as [[Hp Hn]|[_ Hn]]; [|contradiction]. apply Hn.
        destruct (Hkeep1 s (proj2 Hg) Hp Hs) as (i & c0 & A & B). exists i, (c0 + c). split; auto. eapply lpath_snoc; eauto.
      * intros a c s t Ha Hst Hg Hr. rewrite singleton_grouped, Hks in *. destruct (Hrange a c s t Ha Hst) as [Hs Ht]. split; auto.
        destruct (kept D pu pi s) eqn:Ek; auto. exfalso. destruct (Hdrop s Hs Ek) as [[_ Hn]|[Hp Hn]]; [contradiction|]. apply Hn.
        destruct (Hkeep2 t (proj2 Hg) Hp Ht) as (g & c0 & A & B). exists g, (c + c0). split; auto. econstructor; eauto.
      * intros s Hs. rewrite singleton_grouped, Hks. split; [intros [_ Hk]; auto|]. intros [A B]. split; auto. destruct (kept D pu pi s) eqn:Ek; auto. exfalso. destruct (Hdrop s Hs Ek) as [[X Y]|[X Y]]; auto.
  - intros H. destruct (D1 (Hpu H)) as (d & E & Hd & _). exists d. auto.
  - intros H. destruct (D2 (Hpi H)) as (d & E & Hd & _). exists d. auto.
Qed.

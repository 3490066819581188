(** What the invariant says about the view of an abstraction. *)
From Verif Require Import Outcome Spec_Task Spec_Cartesian Model_Task Model_Cartesian Proof_Task Proof_LMCut1 Proof_Cartesian1 Proof_Cartesian2 Proof_Cartesian3 Proof_Cartesian4 Proof_Cartesian5.

Section VIEW.
Variable t : task.
Hypothesis Ht : cartesian_task t.
Notation N := (length (t_vars t)).
Notation doms := (doms t).
Notation num A := (length (ab_states A)).

Lemma contains_has A i f : i < num A -> w_contains (view_of A) i f <-> has (csA A i) (fst f) (snd f).
Proof.
  intros Hi. cbn. unfold csA. split.
  - intros (a & Ha & Ht'). rewrite (nth_error_nth _ _ dflt Ha). now apply test_has.
  - intros H. exists (nth i (ab_states A) dflt). split; [now apply nth_error_nth'|now apply test_has].
Qed.
Lemma members_cset A i s : i < num A -> members t (view_of A) i s <-> state_ok t s /\ in_cset (csA A i) s.
Proof.
  intros Hi. unfold members, in_cset. split; intros [H1 H2]; split; auto; intros f Hf; specialize (H2 f Hf); now apply contains_has.
Qed.
Lemma some_member c (P : nat -> nat -> Prop) : shape c doms -> (forall y, y < N -> exists d, has c y d /\ P y d) -> exists s, state_ok t s /\ in_cset c s /\ forall y, y < N -> P y (nth y s 0).
Proof.
  intros Hs H. destruct (state_choice N (fun y d => has c y d /\ P y d) H) as (s & L & G). assert (S0 : state_ok t s).
  { apply state_of_list; auto. intros y Hy. rewrite L in Hy. destruct (G y Hy) as [G1 _]. destruct (has_lt _ _ _ G1) as [_ G2]. destruct Hs as [_ Hs]. now rewrite Hs in G2. }
  exists s. splits; auto.
  - intros [y d] Hf. destruct (holds_nth t s y d S0 Hf) as [Hy ->]. now apply G.
  - intros y Hy. now apply G.
Qed.

Section A.
Variables (m : bool) (A : abstraction).
Hypothesis HA : AI t m A.

Lemma lookup_right s i : state_ok t s -> i < num A -> in_cset (csA A i) s -> abstract_state_id (ab_nodes A) s = Ok i.
Proof.
  intros Hs Hi Hc. destruct (ai_cover t m A HA s Hs) as (j & k & Hj & Hk & Hw & Hcj). assert (j = i) by (apply (ai_disj t m A HA j i s); auto). subst j.
  pose proof (ai_leaf t m A HA i Hi) as Hl. unfold abstract_state_id. rewrite (node_of_ok _ s _ _ Hl k 0 Hw _ Hk). cbn [bind]. unfold vget. rewrite Hl. reflexivity.
Qed.
Lemma partition_ok : is_partition t (view_of A).
Proof.
  split.
  - intros s Hs. destruct (ai_cover t m A HA s Hs) as (i & k & Hi & Hk & Hw & Hc). exists i. splits; auto.
    + cbn. now rewrite (lookup_right s i).
    + now apply members_cset.
    + intros j Hj Hm. apply members_cset in Hm; auto. apply (ai_disj t m A HA j i s); auto. apply Hm.
  - intros i Hi. destruct (some_member (csA A i) (fun _ _ => True)) as (s & S1 & S2 & _).
    + now apply (ai_shape t m A HA).
    + intros y Hy. destruct (ai_ne t m A HA i y Hi Hy) as [d Hd]. eauto.
    + exists s. now apply members_cset.
Qed.
Lemma induced_edge u o v : u < num A -> v < num A -> induced t (view_of A) u o v <-> op_edge t o (csA A u) (csA A v).
Proof.
  intros Hu Hv. split.
  - intros (s & s' & M1 & Ha & Hp & M2). apply members_cset in M1 as [M1 C1]; auto. apply members_cset in M2 as [M2 C2]; auto.
    pose proof Ha as (op & Hop & _). exists op. split; auto. apply (edge_complete t Ht o op s s'); auto.
  - intros (op & Hop & E). destruct (edge_sound t Ht o op (csA A u) (csA A v) Hop) as (s & s' & B1 & B2 & B3 & B4 & B5 & B6); auto.
    + now apply (ai_shape t m A HA).
    + now apply (ai_shape t m A HA).
    + intros y Hy. now apply (ai_ne t m A HA).
    + exists s, s'. splits; auto; now apply members_cset.
Qed.
Lemma nth_list {B} (l : list (list B)) u (y : B) : (exists r, nth_error l u = Some r /\ In y r) <-> In y (nth u l []).
Proof.
  split.
  - intros (r & Hr & Hy). now rewrite (nth_error_nth _ _ [] Hr).
  - intros Hy. destruct (nth_error l u) as [r|] eqn:E; [exists r; split; auto; now rewrite (nth_error_nth _ _ [] E) in Hy|].
    apply nth_error_None in E. rewrite nth_overflow in Hy by auto. destruct Hy.
Qed.
Lemma transitions_ok : transitions_induced t (view_of A).
Proof.
  split.
  - intros u o v. cbn. rewrite nth_list. change (nth u (c_out (ab_ts A)) []) with (O (ab_ts A) u). rewrite (i_out _ _ _ _ (ai_ts t m A HA)). split; intros (H1 & H2 & H3 & H4); splits; auto; now apply induced_edge.
  - intros u o. cbn. rewrite nth_list. change (nth u (c_loops (ab_ts A)) []) with (Lp (ab_ts A) u). rewrite (i_loop _ _ _ _ (ai_ts t m A HA)). split; intros (H1 & H2); splits; auto; now apply induced_edge.
Qed.
Lemma init_view : init_right t (view_of A).
Proof. destruct (ai_init t m A HA) as [H1 H2]. split; auto. apply members_cset; auto. split; auto. now apply init_ok. Qed.
Lemma goals_cov : goals_covered t (view_of A).
Proof.
  intros i s Hi Hm Hg. apply members_cset in Hm as [Hs Hc]; auto. apply (ai_gcov t m A HA i Hi). intros f Hf. apply Hc. now apply Hg.
Qed.
Lemma goals_ex : m = false -> goals_exact t (view_of A).
Proof.
  intros Hm i Hi. cbn in Hi. pose proof (ai_glt t m A HA i Hi) as Hl. split; auto.
  destruct (some_member (csA A i) (fun y d => forall d', In (y, d') (t_goal t) -> d' = d)) as (s & S1 & S2 & S3).
  - now apply (ai_shape t m A HA).
  - intros y Hy. destruct (in_dec Nat.eq_dec y (map fst (t_goal t))) as [Hin|Hout].
    + apply in_map_iff in Hin as ([y' d] & E & Hd). cbn in E. subst y'. exists d. split; [apply (ai_gex t m A HA Hm i Hi (y, d) Hd)|].
      intros d' Hd'. destruct Ht as (_ & _ & _ & _ & Hn). eapply NoDup_fst_unique; eauto.
    + destruct (ai_ne t m A HA i y Hl Hy) as [d Hd]. exists d. split; auto. intros d' Hd'. destruct Hout. change y with (fst (y, d')). now apply in_map.
  - exists s. split; [now apply members_cset|]. intros [y d] Hf. pose proof (goal_ok t Ht _ Hf) as (x & Hx & _). cbn [fst] in Hx. assert (Hy : y < N) by (eapply nth_error_Some_lt; exact Hx).
    rewrite (S3 y Hy d Hf). exact (proj1 (state_holds t s y S1 Hy)).
Qed.
Lemma legal_view i x wanted : legal_split t (view_of A) i x wanted -> legal A i x wanted.
Proof.
  intros (H1 & H2 & H3 & H4 & d & H5 & H6). cbn in H1. split; [|split; [|split; [|split]]]; auto.
  - intros e He. apply H4 in He. now apply (contains_has A i (x, e)) in He.
  - exists d. split; auto. now apply (contains_has A i (x, d)) in H5.
Qed.
Lemma refine_view i x wanted : legal_split t (view_of A) i x wanted -> exists A', refine A i x wanted = Ok A' /\ AI t m A' /\ split_right t (view_of A) (view_of A') i x wanted.
Proof.
  intros Hl. pose proof (legal_view _ _ _ Hl) as Hl'. destruct (refine_ok t Ht m A i x wanted HA Hl') as (A' & E & HA' & Num & P1 & P2 & P3 & _). exists A'. splits; auto.
  assert (Hi : i < num A) by apply Hl'.
  assert (Hx : x < N).
  { destruct Hl' as (_ & _ & _ & _ & d & Hd & _). apply has_lt in Hd as [Hd _]. destruct (ai_shape t m A HA i Hi) as [Q _]. rewrite Q in Hd. unfold Proof_Cartesian2.doms in Hd. now rewrite map_length in Hd. }
  split; [exact Num|]. intros s. cbn [w_num view_of]. split; [|split].
  - rewrite !members_cset by lia. split.
    + intros [Hs Hc]. splits; auto.
      * intros f Hf. apply (P1 (fst f) (snd f)). now apply Hc.
      * intros (d & Hd & Hw). apply Hc in Hd. cbn [fst snd] in Hd. apply P1 in Hd. tauto.
    + intros [[Hs Hc] Hn]. split; auto. intros [y d] Hf. apply P1. split; [now apply (Hc (y, d))|]. cbn [fst snd]. intros [-> Hw]. apply Hn. eauto.
  - rewrite !members_cset by lia. split.
    + intros [Hs Hc]. splits; auto.
      * intros f Hf. apply (P2 (fst f) (snd f)). now apply Hc.
      * destruct (state_holds t s x Hs Hx) as [Hd _]. exists (nth x s 0). split; auto. apply Hc in Hd. cbn [fst snd] in Hd. apply P2 in Hd. tauto.
    + intros [[Hs Hc] (d & Hd & Hw)]. split; auto. intros [y d'] Hf. apply P2. split; [now apply (Hc (y, d'))|]. cbn [fst snd]. intros ->.
      unfold holds in *. cbn [fst snd] in *. congruence.
  - intros j Hj Hji. rewrite !members_cset by lia. now rewrite P3.
Qed.
End A.
End VIEW.

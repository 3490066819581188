(** The factored systems of merge-and-shrink: start, exactness, and the heuristic. *)
From Coq Require Import Permutation.
From Verif Require Import Outcome Spec_Task Spec_Relaxation Spec_Projection Model_PQ Model_Graph Model_MAS Spec_FTS Model_MASRun.
From Verif Require Import Model_Task Proof_Task Proof_RelaxHeur Proof_PDB3.
From Verif Require Import Proof_MAS1 Proof_MAS2 Proof_MAS3 Proof_MAS4 Proof_MAS5 Proof_MAS6 Proof_MAS7 Proof_MAS8 Proof_MAS9 Proof_MAS10 Proof_MAS11.

Section RUNS.
Variable P : pqueue.
Variable bag : PQ P -> list (nat * nat).
Hypothesis HP : pq_contract P bag.
Variable q0 : PQ P.
Hypothesis Hq0 : bag q0 = [].
Variable ord : list (nat * list nat) -> list (nat * list nat).
Hypothesis Hord : forall b, Permutation (ord b) b.
Variable ci cg : bool.
Variable t : task.
Hypothesis Ht : mas_task t.

Lemma goal_value_some v g : goal_value t v = Some g -> In (v, g) (t_goal t).
Proof. unfold goal_value. destruct (find (fun f => fst f =? v) (t_goal t)) as [[v' g']|] eqn:E; [|discriminate]. intros H. inversion H; subst. apply find_some in E as [A B]. cbn [fst snd] in *. apply Nat.eqb_eq in B. now subst. Qed.
Lemma goal_value_in v g : NoDup (map fst (t_goal t)) -> In (v, g) (t_goal t) -> goal_value t v = Some g.
Proof.
  intros Hn Hin. destruct (goal_value t v) as [g'|] eqn:E.
  - apply goal_value_some in E. f_equal. exact (NoDup_fst_eq _ _ _ _ Hn E Hin).
  - unfold goal_value in E. destruct (find (fun f => fst f =? v) (t_goal t)) eqn:Ef; [discriminate|]. pose proof (find_none _ _ Ef _ Hin) as X. cbn [fst] in X. rewrite Nat.eqb_refl in X. discriminate.
Qed.

(** *** The atomic systems *)
Definition atomic_of (v : nat) (f : factor) : Prop :=
  FI ci cg t (initial_labels t) (fun o => o) f /\
  (forall s, state_ok t s -> exists x, nth_error s v = Some x /\ abs f s (Some x)) /\
  (forall o op x y, nth_error (t_ops t) o = Some op -> (l_step (the_lts (f_ts f)) o x y <-> op_step (ts_n (f_ts f)) op v x y)) /\
  (forall x, l_goal (the_lts (f_ts f)) x -> match goal_value t v with None => True | Some g => x = g end) /\
  exists xv, nth_error (t_vars t) v = Some xv /\ ts_n (f_ts f) = vdom xv.
Lemma atomic_factor_ok v : v < length (t_vars t) -> exists f, atomic_factor P q0 ci cg t v = Ok f /\ atomic_of v f.
Proof.
  intros Hv. pose proof Ht as ((_ & Hops & _ & Hinit & Hgoal) & Hnd & Hcd). rewrite Forall_forall in Hops. unfold atomic_factor.
  destruct (vget_some (t_vars t) v Hv) as (xv & Hxv & ->). cbn [bind]. destruct (state_var t _ v xv Hinit Hxv) as (x0 & Hx0 & Hlt).
  destruct (atomic_ts_ok t v (vdom xv)) with (xv := xv) (x0 := x0) as (T & -> & WT & Hn & Hi & Hgo & Hst); auto.
  { intros op x y Hop Hxy. exact (op_trans_range t (vdom xv) op v xv x y (Hops op Hop) Hxv eq_refl Hxy). }
  cbn [bind].
  assert (HD : exists D, (if ci || cg then compute_distances P q0 T ci cg no_distances else Ok no_distances) = Ok D /\ dist_ok (initial_labels t) T ci cg D /\ no_goal_table ci cg T D).
  { destruct (ci || cg) eqn:E.
    - destruct (compute_distances_ok P bag q0 (initial_labels t) (max_labels t) T ci cg no_distances HP Hq0 WT) as (D & ED & HD & _); [rewrite Hi; discriminate|]. exists D. splits; auto. eapply compute_no_table; eauto.
    - apply orb_false_iff in E as [Ei Eg]. exists no_distances. split; auto. split; [split; congruence|]. intros _. left. reflexivity. }
  destruct HD as (D & -> & HD & HT). cbn [bind]. eexists. split; [reflexivity|].
  destruct (new_leaf_ok t v xv Hxv) as [Wr Hr].
  assert (Habs : forall s, state_ok t s -> exists x, nth_error s v = Some x /\ x < vdom xv /\ abs {| f_ts := T; f_rep := new_leaf v (vdom xv); f_dist := D |} s (Some x)).
  { intros s Hs. destruct (state_var t s v xv Hs Hxv) as (x & A & B). exists x. splits; auto. apply Hr; auto. }
  assert (Huniq : forall s x z, state_ok t s -> nth_error s v = Some x -> abs {| f_ts := T; f_rep := new_leaf v (vdom xv); f_dist := D |} s z -> z = Some x).
  { intros s x z Hs Hx Hz. destruct (Habs s Hs) as (x' & A & _ & B). unfold abs in *. rewrite B in Hz. congruence. }
  split; [|splits].
  - constructor; cbn [f_ts f_rep f_dist]; auto.
    + intros z Hz. rewrite (Huniq _ _ _ Hinit Hx0 Hz). auto.
    + intros s o s' x y Hs Ha Hp Hx Hy. pose proof Ha as (op & Hop & Hpre). apply (Hst o op); auto.
      assert (Hs' : state_ok t s') by (eapply progress_state; eauto). destruct (Habs s Hs) as (x' & A & B & C), (Habs s' Hs') as (y' & A' & B' & C').
      pose proof (Huniq _ _ _ Hs A Hx) as E1. pose proof (Huniq _ _ _ Hs' A' Hy) as E2. inversion E1; inversion E2; subst. eapply op_step_sound; eauto.
    + intros s x Hs Hg Hx. destruct (Habs s Hs) as (x' & A & B & C). pose proof (Huniq _ _ _ Hs A Hx) as E1. inversion E1; subst. apply Hgo. split; auto. destruct (goal_value t v) as [g|] eqn:E; auto.
      apply goal_value_some in E. specialize (Hg _ E). unfold holds in Hg. cbn [fst snd] in Hg. congruence.
    + intros s Hs Hx. destruct (Habs s Hs) as (x' & A & _). pose proof (Huniq _ _ _ Hs A Hx). discriminate.
  - intros s Hs. destruct (Habs s Hs) as (x & A & _ & C). eauto.
  - intros o op x y Ho. cbn [f_ts]. rewrite Hn. now apply Hst.
  - intros x Hx. now apply Hgo in Hx.
  - exists xv. auto.
Qed.
Lemma acts_initial : length (acts (initial_labels t)) <= length (t_ops t).
Proof.
  assert (G : forall (p : nat -> bool) l, length (filter p l) <= length l) by (induction l as [|x l IH]; cbn [filter length]; [auto|]; destruct (p x); cbn [length]; lia).
  unfold acts. etransitivity; [apply G|]. rewrite seq_length. unfold initial_labels. now rewrite map_length.
Qed.
Lemma create_ok : exists F, create_fts P q0 ci cg t = Ok F /\ F_labels F = initial_labels t /\ Inv ci cg t (fun o => o) F /\
  length (F_factors F) = length (t_vars t) /\ forall v f, nth_error (F_factors F) v = Some (Some f) -> atomic_of v f.
Proof.
  unfold create_fts. destruct (omap_ok (atomic_factor P q0 ci cg t) atomic_of (seq 0 (length (t_vars t)))) as (fs & -> & HF).
  { intros v Hv. apply in_seq in Hv. apply atomic_factor_ok. lia. }
  cbn [bind]. eexists. split; [reflexivity|]. cbn [F_labels F_factors].
  assert (Hnth : forall v f, nth_error (map Some fs) v = Some (Some f) -> atomic_of v f).
  { intros v f Hv. pose proof (Forall2_nth _ _ _ HF v) as Hn. rewrite nth_error_map in Hv. destruct (nth_error fs v) as [f'|] eqn:Ef; [|discriminate]. cbn [option_map] in Hv. inversion Hv; subst f'.
    destruct (nth_error (seq 0 (length (t_vars t))) v) as [w|] eqn:Ew; [|contradiction]. pose proof (nth_error_Some_lt _ _ _ Ew) as Hlt. rewrite seq_length in Hlt. apply nth_error_nth with (d := 0) in Ew. rewrite seq_nth in Ew by auto. cbn [Nat.add] in Ew. now subst w. }
  splits; auto.
  - constructor; cbn [F_labels F_max F_factors]; auto.
    + intros o op Ho. exists (op_cost op). split; auto. apply label_active. eauto.
    + pose proof acts_initial. unfold initial_labels at 1. rewrite map_length. lia.
    + intros i f Hi. apply (Hnth i f Hi).
  - rewrite map_length. rewrite (Forall2_len _ _ _ HF). apply seq_length.
Qed.

(** Every state of the computation satisfies the invariant. *)
Lemma built_inv e F : built P q0 ord ci cg t e F -> exists lab, Inv ci cg t lab F.
Proof.
  induction 1 as [F E|e F i j f g F' _ [lab HI] Hne Hf Hg Nf Ng E|e F i f x cls F' _ [lab HI] Hf Hx HG HU Hgr E|e F i f x cls F' _ [lab HI] Hf Hx HG HA _ E|e F i f pu pi F' _ [lab HI] Hf Hi Hpu Hpi E|e F mp comb F' _ [lab HI] HG Hloc E].
  - destruct create_ok as (F0 & E0 & _ & HI & _). rewrite E0 in E. inversion E; subst. eauto.
  - destruct (merge_sound P bag HP q0 Hq0 ord Hord ci cg t Ht lab F i j f g HI Hf Hg Nf Ng) as (T & D & E0 & _ & HI'). rewrite E0 in E. inversion E; subst. eauto.
  - destruct (abstraction_sound P bag HP q0 Hq0 ci cg t Ht lab F i f x cls HI Hf Hx HG HU (or_introl Hgr)) as (F0 & E0 & HI' & _). rewrite E0 in E. inversion E; subst. eauto.
  - assert (HU := all_grouped_useless t (F_labels F) (f_ts f) cls (fi_wf _ _ _ _ _ _ (in_fac _ _ _ _ _ HI i f (proj1 (get_factor_ok F i f) Hf))) HA).
    assert (Hgr : grouped cls x) by (apply HA; exact (w_init _ _ _ (fi_wf _ _ _ _ _ _ (in_fac _ _ _ _ _ HI i f (proj1 (get_factor_ok F i f) Hf))) x Hx)).
    destruct (abstraction_sound P bag HP q0 Hq0 ci cg t Ht lab F i f x cls HI Hf Hx HG HU (or_introl Hgr)) as (F0 & E0 & HI' & _). rewrite E0 in E. inversion E; subst. eauto.
  - destruct (prune_sound P bag HP q0 Hq0 ci cg t Ht lab F i f pu pi HI Hf Hi Hpu Hpi) as (cls & F0 & E0 & _ & _ & HI' & _). rewrite E0 in E. inversion E; subst. eauto.
  - destruct (reduce_sound ci cg t lab F mp comb HI HG Hloc) as (F0 & E0 & HI' & _). rewrite E0 in E. inversion E; subst. eauto.
Qed.

(** *** The heuristic *)
Lemma extract_ok L lab f : FI ci cg t L lab f -> exists r d, extract_factor P q0 f = Ok r /\ goal_distances (active L) (the_lts (f_ts f)) d /\
  forall s x, state_ok t s -> abs f s x -> get_value r s = Ok (match x with None => None | Some k => nth k d None end).
Proof.
  intros HF. unfold extract_factor.
  assert (HD : exists D d, match d_goal (f_dist f) with Some _ => Ok (f_dist f) | None => compute_distances P q0 (f_ts f) false true (f_dist f) end = Ok D /\ d_goal D = Some d /\ goal_distances (active L) (the_lts (f_ts f)) d).
  { destruct (d_goal (f_dist f)) as [d|] eqn:E.
    - exists (f_dist f), d. splits; auto. destruct (bool_dec cg true) as [Hc|Hc].
      + destruct (fi_dist _ _ _ _ _ _ HF) as [_ H]. destruct (H Hc) as (d' & E' & Hd). assert (d' = d) by congruence. now subst.
      + apply not_true_iff_false in Hc. destruct (fi_tab _ _ _ _ _ _ HF Hc) as [X|(_ & X & Y)]; [congruence|]. assert (d = []) by congruence. subst d. split; [cbn [length the_lts l_n]; auto|]. cbn [the_lts l_n]. intros s Hs. lia.
    - destruct (compute_distances_ok P bag q0 L (max_labels t) (f_ts f) false true (f_dist f) HP Hq0 (fi_wf _ _ _ _ _ _ HF)) as (D & -> & [_ H] & _); [discriminate|]. destruct (H eq_refl) as (d & Hd & Hg). exists D, d. auto. }
  destruct HD as (D & d & -> & Hd & Hg). cbn [bind]. rewrite Hd. unfold set_distances.
  destruct (abstract_rep_value t d (f_rep f) (fi_rep _ _ _ _ _ _ HF)) as (r & -> & Hr).
  { rewrite (fi_dom _ _ _ _ _ _ HF). destruct Hg as [Hl _]. cbn [the_lts l_n] in Hl. auto. }
  exists r, d. splits; auto.
Qed.
Lemma goal_path_abs L lab f s os x : (forall o op, nth_error (t_ops t) o = Some op -> exists c, active L (lab o) c /\ c <= op_cost op) -> FI ci cg t L lab f ->
  reachable t s -> task_plan_from t s os -> abs f s (Some x) -> exists g c, c <= plan_cost t os /\ l_goal (the_lts (f_ts f)) g /\ lpath (active L) (l_step (the_lts (f_ts f))) x c g.
Proof.
  intros Hlab HF Hr (g & Hos & Hg) Hx. assert (Hgs : state_ok t g) by (eapply (path_state t Ht); eauto; now apply reachable_state). assert (Hgso : solvable t g) by (exists [], g; split; auto; constructor).
  destruct (abs_total ci cg t L lab f g HF Hgs) as ([y|] & Hy & _).
  - destruct (path_abs ci cg t Ht L lab f Hlab HF _ _ _ Hos Hr Hgso x y Hx Hy) as (c & Hle & Hc). exists y, c. splits; auto. exact (fi_goal _ _ _ _ _ _ HF g y Hgs Hg Hy).
  - exfalso. apply (fi_lost _ _ _ _ _ _ HF _ Hgs Hy). split; auto. destruct Hr as [os0 Hr]. exists (os0 ++ os). eapply task_path_app; eauto.
Qed.
(** What the extracted tables give for one factor. *)
Definition bounds (s : state) (r : rep) : Prop := exists v, get_value r s = Ok v /\
  forall os, task_plan_from t s os -> exists c, v = Some c /\ c <= plan_cost t os.
Lemma extract_bounds L lab f s r : (forall o op, nth_error (t_ops t) o = Some op -> exists c, active L (lab o) c /\ c <= op_cost op) -> FI ci cg t L lab f ->
  reachable t s -> extract_factor P q0 f = Ok r -> bounds s r.
Proof.
  intros Hlab HF Hr E. assert (Hs : state_ok t s) by now apply reachable_state. destruct (extract_ok L lab f HF) as (r' & d & E' & [Hl Hd] & Hv). rewrite E' in E. inversion E; subst r'.
  destruct (abs_total ci cg t L lab f s HF Hs) as (x & Hx & Bx). eexists. split; [exact (Hv s x Hs Hx)|]. intros os Hos. destruct x as [x|].
  - destruct (goal_path_abs L lab f s os x Hlab HF Hr Hos Hx) as (g & c & Hle & Hg & Hp). specialize (Hd x (Bx x eq_refl)). destruct (nth x d None) as [c0|].
    + exists c0. split; auto. destruct Hd as [_ Hd]. specialize (Hd c). assert (c0 <= c); [|lia]. apply Hd. eauto.
    + exfalso. apply (Hd c). eauto.
  - exfalso. apply (fi_lost _ _ _ _ _ _ HF s Hs Hx). split; auto. exists os. auto.
Qed.
Lemma is_solvable_ok L lab f : FI ci cg t L lab f -> exists b, is_solvable f = Ok b.
Proof.
  intros HF. unfold is_solvable. destruct (ts_init (f_ts f)) as [x|] eqn:E; [|eauto]. destruct (d_goal (f_dist f)) as [d|] eqn:Ed; [|eauto].
  assert (Hx : x < ts_n (f_ts f)) by (eapply w_init; [exact (fi_wf _ _ _ _ _ _ HF)|auto]).
  assert (Hl : length d = ts_n (f_ts f)).
  { destruct (bool_dec cg true) as [Hc|Hc].
    - destruct (fi_dist _ _ _ _ _ _ HF) as [_ H]. destruct (H Hc) as (d' & E' & [Hd _]). assert (d' = d) by congruence. now subst.
    - apply not_true_iff_false in Hc. destruct (fi_tab _ _ _ _ _ _ HF Hc) as [X|(_ & X & Y)]; [congruence|]. lia. }
  destruct (vget_some d x) as (y & _ & ->); [lia|]. cbn [bind]. eauto.
Qed.
Lemma active_In F f : In f (active_factors F) <-> exists i, nth_error (F_factors F) i = Some (Some f).
Proof.
  unfold active_factors. rewrite in_flat_map. split.
  - intros ([g|] & A & B); [|destruct B]. destruct B as [->|[]]. apply In_nth_error in A. auto.
  - intros [i H]. exists (Some f). split; [eapply nth_error_In; eauto|now left].
Qed.
Lemma first_unsolvable_ok L lab : forall fs, (forall f, In f fs -> FI ci cg t L lab f) -> exists u, first_unsolvable fs = Ok u /\ forall f, u = Some f -> In f fs.
Proof.
  induction fs as [|f fs IH]; intros H; cbn [first_unsolvable]; [exists None; split; auto; discriminate|].
  destruct (is_solvable_ok L lab f) as [b ->]; [apply H; now left|]. cbn [bind]. destruct b; [|exists (Some f); split; auto; intros g E; inversion E; subst; now left].
  destruct IH as (u & E & Hu); [intros g Hg; apply H; now right|]. exists u. split; auto. intros g Eg. right. auto.
Qed.
Lemma extract_all e F : built P q0 ord ci cg t e F -> exists rs, extract_factors P q0 F = Ok rs /\
  forall s, reachable t s -> forall r, In r rs -> bounds s r.
Proof.
  intros HB. destruct (built_inv e F HB) as (lab & HI). pose proof (in_lab _ _ _ _ _ HI) as Hlab.
  assert (HF : forall f, In f (active_factors F) -> FI ci cg t (F_labels F) lab f) by (intros f Hf; apply active_In in Hf as [i Hi]; eapply in_fac; eauto).
  unfold extract_factors. destruct (first_unsolvable_ok (F_labels F) lab (active_factors F) HF) as (u & -> & Hu). cbn [bind]. destruct u as [f|].
  - specialize (HF f (Hu f eq_refl)). destruct (extract_ok _ _ _ HF) as (r & d & Er & _). rewrite Er. cbn [bind]. exists [r]. split; auto. intros s Hs r' [<-|[]]. eapply extract_bounds; eauto.
  - destruct (omap_ok (extract_factor P q0) (fun f r => forall s, reachable t s -> bounds s r) (filter (fun f => negb (is_trivial f)) (active_factors F))) as (rs & -> & HR).
    + intros f Hf. apply filter_In in Hf as [Hf _]. destruct (extract_ok _ _ _ (HF f Hf)) as (r & d & Er & _). exists r. split; auto. intros s Hs. eapply extract_bounds; eauto.
    + exists rs. split; auto. intros s Hs r Hr. destruct (Forall2_In_r _ _ _ _ HR Hr) as (f & _ & Hb). auto.
Qed.
Lemma compute_fold s : forall rs, (forall r, In r rs -> exists v, get_value r s = Ok v) -> forall h, exists v, fold_outcome (fun h r => match h with None => Ok None | Some h => let* c := get_value r s in Ok (match c with None => None | Some c => Some (Nat.max h c) end) end) rs h = Ok v /\
  forall b h0, h = Some h0 -> h0 <= b -> (forall r, In r rs -> exists c, get_value r s = Ok (Some c) /\ c <= b) -> exists k, v = Some k /\ h0 <= k <= b.
Proof.
  induction rs as [|r rs IH]; intros Hg h; cbn [fold_outcome].
  - exists h. split; auto. intros b h0 -> Hle _. exists h0. split; auto.
  - destruct (Hg r (or_introl eq_refl)) as [v0 Ev]. assert (Hg' : forall r', In r' rs -> exists v, get_value r' s = Ok v) by (intros r' Hr'; apply Hg; now right). destruct h as [h1|].
    + rewrite Ev. cbn [bind]. destruct (IH Hg' (match v0 with None => None | Some c => Some (Nat.max h1 c) end)) as (v & -> & Hv). exists v. split; auto. intros b h0 E0 Hle Hb. inversion E0; subst h1.
      destruct (Hb r (or_introl eq_refl)) as (c & Ec & Hc). rewrite Ec in Ev. inversion Ev; subst v0. destruct (Hv b (Nat.max h0 c) eq_refl) as (k & -> & Hk); [lia|intros r' Hr'; apply Hb; now right|]. exists k. split; auto. lia.
    + cbn [bind]. destruct (IH Hg' None) as (v & -> & _). exists v. split; auto. intros b h0 E0. discriminate.
Qed.
Lemma heuristic_admissible e F : built P q0 ord ci cg t e F -> exists rs, extract_factors P q0 F = Ok rs /\
  forall s, reachable t s -> exists v, compute_heuristic rs s = Ok v /\ forall os, task_plan_from t s os -> exists h, v = Some h /\ h <= plan_cost t os.
Proof.
  intros HB. destruct (extract_all e F HB) as (rs & E & Hrs). exists rs. split; auto. intros s Hs. unfold compute_heuristic.
  destruct (compute_fold s rs) with (h := Some 0) as (v & -> & Hv); [intros r Hr; destruct (Hrs s Hs r Hr) as (v & Ev & _); eauto|]. exists v. split; auto. intros os Hos.
  destruct (Hv (plan_cost t os) 0 eq_refl) as (k & -> & Hk); [lia| |exists k; split; auto; lia]. intros r Hr. destruct (Hrs s Hs r Hr) as (v0 & Ev & Hb). destruct (Hb os Hos) as (c & -> & Hc). eauto.
Qed.
End RUNS.

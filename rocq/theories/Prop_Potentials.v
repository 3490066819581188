(** C65: potential functions are computed by a correct linear program, and the heuristics made from
    them are admissible and consistent.
    C66: the single, sample-based and diverse potential heuristics. *)
From Coq Require Import QArith Qround Lqa.
From Verif Require Import Outcome Spec_Task Spec_Relaxation Spec_Projection Spec_LP Spec_OperatorCounting Spec_Generators Spec_Potentials Model_Task Model_LPSolver Model_Landmarks Model_OperatorCounting Model_Potentials
  Proof_Task Proof_TaskCheck Proof_Cartesian2 Prop_OperatorCounting Proof_OC1 Proof_OC3 Proof_OC14 Spec_PotentialOptimizer Proof_Pot1 Proof_Pot2 Proof_Pot3 Proof_Pot4 Proof_Pot5.
Local Open Scope nat_scope.

(** Maximum potentials are not negative (the option has the bounds 0 and infinity). *)
Definition max_potential_ok (mp : option Q) : Prop := forall b, mp = Some b -> (0 <= b)%Q.

(** The optimizer can be created and used: no access is out of bounds, all rows are well formed, and
    an optimal solution for all states exists if potentials are bounded. *)
Theorem C65_creation : forall t mp tol solve, plain_task t -> NoDup (map fst (t_goal t)) -> max_potential_ok mp -> (0 <= tol)%Q -> solver_ok tol t mp solve ->
  (exists o, new_optimizer t mp = Ok o) /\
  forall o, optimizer_object solve t mp o -> well_formed (po_vars o) (po_cons o) /\
    (forall samples, Forall (state_ok t) samples -> exists o', optimize_for_samples solve t samples o = Ok o') /\
    (if mp then exists o', optimize_for_all_states solve t o = Ok o' /\ po_optimal o' = true else optimize_for_all_states solve t o = Exit 33).
Proof.
  intros t mp tol solve Ht Hg Hmp Htol Hs. split; [destruct (new_ok t Ht Hg mp tol solve) as (o & E & _); eauto|].
  intros o Ho. pose proof (object_oinv t Ht Hg mp Hmp tol solve Hs o Ho) as HI. split; [|split].
  - destruct HI as ((lvs & cs & (_ & HP) & L & Ev) & Ec & _). rewrite Ev, Ec. apply (rows_well_formed t Ht mp). now apply program_set.
  - intros samples Hss. destruct (samples_ok t Ht mp Hmp tol solve Hs samples o HI Hss) as (o' & E & _). eauto.
  - destruct mp as [b|].
    + destruct (all_ok t Ht (Some b) Hmp tol solve Hs o HI) as (o' & E & _ & Eo); [discriminate|eauto].
    + unfold optimize_for_all_states, potentials_are_bounded. destruct HI as (_ & _ & -> & _). reflexivity.
Qed.
Print Assumptions C65_creation.

(** With a solver whose solutions violate constraints by at most [tol], and rounding errors of at
    most [u], the heuristics never exceed the cost of a plan as long as the total error is below
    9/1000 ([epsilon], which is subtracted before rounding up, is 1/100). *)
Theorem C65_admissible : forall t mp tol solve rnd u b ps s os, plain_task t -> NoDup (map fst (t_goal t)) -> max_potential_ok mp -> (0 <= tol)%Q -> solver_ok tol t mp solve ->
  Forall (obtained solve t mp) ps ->
  rounds u rnd -> (0 <= u)%Q -> (0 <= b)%Q -> (forall p r q, In p ps -> In r p -> In q r -> - b <= q <= b)%Q ->
  state_ok t s -> task_plan_from t s os ->
  let n := length (t_vars t) in let q k := inject_Z (Z.of_nat k) in
  (q n * b <= 2147483640 # 1)%Q -> (Z.of_nat (plan_cost t os) <= 2147483647)%Z ->
  (q (n + 1)%nat * (u * (q n * b + 3)) + q ((length os + 2) * (n + 1))%nat * tol <= 9 # 1000)%Q ->
  (exists v, potential_max_heuristic rnd ps s = Ok v /\ (0 <= v <= Z.of_nat (plan_cost t os))%Z) /\
  forall p, In p ps -> exists v, potential_heuristic rnd p s = Ok v /\ (0 <= v <= Z.of_nat (plan_cost t os))%Z.
Proof.
  intros t mp tol solve rnd u b ps s os Ht Hg Hmp Htol Hsv Hps Hr Hu Hb Hpb Hs Hp n q Hnb Hc He. rewrite Forall_forall in Hps.
  assert (HV : forall p, In p ps -> exists v, get_value rnd p s = Ok v /\ (v <= Z.of_nat (plan_cost t os))%Z).
  { intros p Hin. eapply (value_bound t Ht Hg mp tol Htol solve rnd u p b s os); eauto. eapply obtained_good; eauto. }
  split; [apply (max_value t); [exact HV|lia]|]. intros p Hin. destruct (HV p Hin) as (v & E & L). unfold potential_heuristic. rewrite E. cbn [bind]. eexists. split; [reflexivity|]. lia.
Qed.
Print Assumptions C65_admissible.

(** With exact solutions, the potentials are consistent and goal-aware... *)
Theorem C65_potentials : forall t mp solve p, plain_task t -> NoDup (map fst (t_goal t)) -> max_potential_ok mp -> solver_ok 0 t mp solve -> obtained solve t mp p ->
  consistent_potential t (weight p) /\ goal_aware_potential t (weight p).
Proof.
  intros t mp solve p Ht Hg Hmp Hsv Hp. destruct (obtained_good t Ht Hg mp Hmp 0 solve Hsv p Hp) as (y & Hy & Hf & _). destruct (exact_consistent t Ht Hg mp y Hy) as [H1 H2]. split.
  - intros s o op s' Hs Ho Ha Hpr. rewrite !(weight_fits t p y) by (auto; eapply (Proof_Cartesian2.next_ok t (pot_cartesian t Ht Hg)); eauto). eauto.
  - intros s Hs Hgs. rewrite (weight_fits t p y) by auto. auto.
Qed.
Print Assumptions C65_potentials.

(** ... and the values of the heuristics are consistent, and zero in goal states. *)
Lemma value_step t mp solve rnd p s o op s' v v' : plain_task t -> NoDup (map fst (t_goal t)) -> max_potential_ok mp -> solver_ok 0 t mp solve -> obtained solve t mp p -> (forall x, rnd x == x)%Q ->
  state_ok t s -> nth_error (t_ops t) o = Some op -> applicable t s o -> progress t s o s' -> get_value rnd p s = Ok v -> get_value rnd p s' = Ok v' -> (v <= Z.of_nat (op_cost op) + v')%Z.
Proof.
  intros Ht Hg Hmp Hsv Hp Hex Hs Ho Ha Hpr E E'. destruct (obtained_good t Ht Hg mp Hmp 0 solve Hsv p Hp) as (y & Hy & Hf & _). destruct (exact_consistent t Ht Hg mp y Hy) as [H1 _].
  assert (Hs' : state_ok t s') by (eapply (Proof_Cartesian2.next_ok t (pot_cartesian t Ht Hg)); eauto). specialize (H1 s o op s' Hs Ho Ha Hpr).
  rewrite (value_exact t rnd p y s Hex Hf Hs) in E. rewrite (value_exact t rnd p y s' Hex Hf Hs') in E'. apply to_int_inv in E as [-> _]. apply to_int_inv in E' as [-> _].
  rewrite Z.add_comm, <- ceil_add. apply Qceiling_resp_le. lra.
Qed.
Lemma value_goal t mp solve rnd p s v : plain_task t -> NoDup (map fst (t_goal t)) -> max_potential_ok mp -> solver_ok 0 t mp solve -> obtained solve t mp p -> (forall x, rnd x == x)%Q ->
  state_ok t s -> goal_state t s -> get_value rnd p s = Ok v -> (v <= 0)%Z.
Proof.
  intros Ht Hg Hmp Hsv Hp Hex Hs Hgs E. destruct (obtained_good t Ht Hg mp Hmp 0 solve Hsv p Hp) as (y & Hy & Hf & _). destruct (exact_consistent t Ht Hg mp y Hy) as [_ H2]. specialize (H2 s Hs Hgs).
  rewrite (value_exact t rnd p y s Hex Hf Hs) in E. apply to_int_inv in E as [-> _]. apply ceil_le. pose proof eps_bounds as [E1 _]. change (inject_Z 0) with 0%Q. lra.
Qed.
Lemma max_rel rnd (R : Z -> Z -> Prop) s s' : (forall a b a' b', R a b -> R a' b' -> R (Z.max a a') (Z.max b b')) -> forall ps a b v v', (forall p w w', In p ps -> get_value rnd p s = Ok w -> get_value rnd p s' = Ok w' -> R w w') -> R a b ->
  fold_outcome (fun v p => let* w := get_value rnd p s in Ok (Z.max v w)) ps a = Ok v -> fold_outcome (fun v p => let* w := get_value rnd p s' in Ok (Z.max v w)) ps b = Ok v' -> R v v'.
Proof.
  intros HR. induction ps as [|p r IH]; intros a b v v' H Hab E E'; cbn [fold_outcome] in *; [inv E; inv E'; auto|].
  apply bind_ok in E as (a1 & E1 & E). apply bind_ok in E1 as (w & Ew & E1). inv E1. apply bind_ok in E' as (b1 & E1 & E'). apply bind_ok in E1 as (w' & Ew' & E1). inv E1.
  eapply IH; [|apply HR; [exact Hab|eapply H; [now left|exact Ew|exact Ew']]|exact E|exact E']. intros q x x' Hq. apply H. now right.
Qed.
Lemma max_goal rnd s : forall ps v, (forall p w, In p ps -> get_value rnd p s = Ok w -> (w <= 0)%Z) -> fold_outcome (fun v p => let* w := get_value rnd p s in Ok (Z.max v w)) ps 0%Z = Ok v -> v = 0%Z.
Proof.
  induction ps as [|p r IH]; intros v H E; cbn [fold_outcome] in E; [now inv E|]. apply bind_ok in E as (a1 & E1 & E). apply bind_ok in E1 as (w & Ew & E1). inv E1. specialize (H p w (or_introl eq_refl) Ew) as Hw.
  rewrite Z.max_l in E by lia. apply IH; auto. intros q x Hq. apply H. now right.
Qed.
Theorem C65_consistent : forall t mp solve rnd ps s, plain_task t -> NoDup (map fst (t_goal t)) -> max_potential_ok mp -> solver_ok 0 t mp solve -> Forall (obtained solve t mp) ps -> (forall x, rnd x == x)%Q -> state_ok t s ->
  (forall o op s', nth_error (t_ops t) o = Some op -> applicable t s o -> progress t s o s' ->
    (forall v v', potential_max_heuristic rnd ps s = Ok v -> potential_max_heuristic rnd ps s' = Ok v' -> (v <= Z.of_nat (op_cost op) + v')%Z) /\
    forall p v v', In p ps -> potential_heuristic rnd p s = Ok v -> potential_heuristic rnd p s' = Ok v' -> (v <= Z.of_nat (op_cost op) + v')%Z) /\
  (goal_state t s -> (forall v, potential_max_heuristic rnd ps s = Ok v -> v = 0%Z) /\ forall p v, In p ps -> potential_heuristic rnd p s = Ok v -> v = 0%Z).
Proof.
  intros t mp solve rnd ps s Ht Hg Hmp Hsv Hps Hex Hs. rewrite Forall_forall in Hps. split.
  - intros o op s' Ho Ha Hpr. split.
    + intros v v' E E'. eapply (max_rel rnd (fun a b => (a <= Z.of_nat (op_cost op) + b)%Z) s s'); [| | |exact E|exact E']; [intros; lia| |lia]. intros p w w' Hin Ew Ew'. eapply (value_step t mp solve rnd p s o op s'); eauto.
    + intros p v v' Hin E E'. apply bind_ok in E as (w & Ew & E). apply bind_ok in E' as (w' & Ew' & E'). inv E. inv E'. pose proof (value_step t mp solve rnd p s o op s' w w' Ht Hg Hmp Hsv (Hps p Hin) Hex Hs Ho Ha Hpr Ew Ew'). lia.
  - intros Hgs. split.
    + intros v E. eapply max_goal; [|exact E]. intros p w Hin Ew. eapply (value_goal t mp solve rnd p s w); eauto.
    + intros p v Hin E. apply bind_ok in E as (w & Ew & E). inv E. pose proof (value_goal t mp solve rnd p s w Ht Hg Hmp Hsv (Hps p Hin) Hex Hs Hgs Ew). lia.
Qed.
Print Assumptions C65_consistent.

(** With unbounded potentials, the result of an optimization is the best potential function for the
    samples: no consistent, goal-aware potential function has a greater sum of potentials. *)
Theorem C65_best : forall t solve o samples o', plain_task t -> NoDup (map fst (t_goal t)) -> solver_ok 0 t None solve -> optimizer_object solve t None o -> Forall (state_ok t) samples ->
  optimize_for_samples solve t samples o = Ok o' -> po_optimal o' = true ->
  exists p, get_potential_function o' = Ok p /\ consistent_potential t (weight p) /\ goal_aware_potential t (weight p) /\
    forall W, consistent_potential t W -> goal_aware_potential t W -> (qsum (potential W) samples <= qsum (potential (weight p)) samples)%Q.
Proof.
  intros t solve o samples o' Ht Hg Hsv Ho Hs E Eo. assert (Hmp : max_potential_ok None) by (intros b Hb; discriminate).
  destruct (samples_ok t Ht None Hmp 0 solve Hsv samples o (object_oinv t Ht Hg None Hmp 0 solve Hsv o Ho) Hs) as (o2 & E2 & _ & HB & _). assert (o2 = o') by congruence. subst o2.
  destruct (HB Eo) as (y & Hy & Hf & _ & Hbest). exists (po_pots o'). assert (Eg : get_potential_function o' = Ok (po_pots o')) by (unfold get_potential_function; rewrite Eo; reflexivity).
  assert (Hob : obtained solve t None (po_pots o')) by (exists o'; split; [eapply sampled; eauto|exact Eg]). destruct (C65_potentials t None solve _ Ht Hg Hmp Hsv Hob) as [C1 C2]. splits; auto.
  intros W HW1 HW2. destruct (dominated t Ht Hg W HW1 HW2) as (z & Hz & Hd). specialize (Hbest z Hz). unfold sum_at in Hbest. rewrite Forall_forall in Hs.
  assert (A : (qsum (potential W) samples <= qsum (fun s => potential (wof t z) s) samples)%Q) by (apply qsum_le; auto).
  assert (B : (qsum (fun s => potential (wof t y) s) samples <= qsum (potential (weight (po_pots o'))) samples)%Q) by (apply qsum_le; intros s Hin; rewrite (weight_fits t _ y) by auto; lra). lra.
Qed.
Print Assumptions C65_best.

(** If there is no optimal solution for a state, the state has no plan. *)
Theorem C65_dead_end : forall t mp tol solve o s o', plain_task t -> NoDup (map fst (t_goal t)) -> max_potential_ok mp -> (0 <= tol)%Q -> solver_ok tol t mp solve -> optimizer_object solve t mp o -> state_ok t s ->
  optimize_for_state solve t s o = Ok o' -> po_optimal o' = false -> mp = None /\ forall os, ~ task_plan_from t s os.
Proof.
  intros t mp tol solve o s o' Ht Hg Hmp Htol Hsv Ho Hs E Eo.
  destruct (samples_ok t Ht mp Hmp tol solve Hsv [s] o (object_oinv t Ht Hg mp Hmp tol solve Hsv o Ho) ltac:(constructor; auto)) as (o2 & E2 & _ & HB). unfold optimize_for_state in E. assert (o2 = o') by congruence. subst o2.
  assert (K : ~ bounded_at t mp s). { intros K. assert (po_optimal o' = true); [|congruence]. apply (bounded_optimal t mp tol solve [s] o'); auto. intros s' [<-|[]]. exact K. }
  split.
  - destruct (opt_dec mp) as [H|H]; [exact H|]. destruct (opt_some mp H) as (b & Eb). exfalso. apply K. eapply mp_bounded; eauto.
  - intros os Hp. apply K. exists (qnat (plan_cost t os)). intros z Hz. eapply plan_bounded; eauto.
Qed.
Print Assumptions C65_dead_end.

(** ** C66 *)
(** The ways to make potential functions. *)
Inductive made (solve : nat -> list lpvar -> list lpcon -> option (list Q)) (rnd : Q -> Q) (t : task) (mp : option Q) : list pfunction -> Prop :=
| single : forall f p, create_potential_function solve t mp f = Ok p -> made solve rnd t mp [p]
| sample_based : forall samples ps, (forall smp, In smp samples -> Forall (state_ok t) smp) -> sample_based_functions solve rnd t mp samples = Ok ps -> made solve rnd t mp ps
| diverse : forall fuel pick max_num samples ps, Forall (state_ok t) samples -> diverse_functions solve rnd fuel t pick max_num mp samples = Ok ps -> made solve rnd t mp ps.
Lemma made_obtained solve rnd t mp ps : plain_task t -> made solve rnd t mp ps -> Forall (obtained solve t mp) ps.
Proof.
  intros ((_ & _ & _ & Hi & _) & _) [f p H|samples ps' Hs H|fuel pick maxn samples ps' Hs H].
  - constructor; [|constructor]. eapply create_obtained; eauto.
  - eapply sample_based_obtained; eauto.
  - eapply diverse_obtained; eauto.
Qed.
Theorem C66_admissible : forall t mp tol solve rnd u b ps s os, plain_task t -> NoDup (map fst (t_goal t)) -> max_potential_ok mp -> (0 <= tol)%Q -> solver_ok tol t mp solve ->
  made solve rnd t mp ps ->
  rounds u rnd -> (0 <= u)%Q -> (0 <= b)%Q -> (forall p r q, In p ps -> In r p -> In q r -> - b <= q <= b)%Q ->
  state_ok t s -> task_plan_from t s os ->
  let n := length (t_vars t) in let q k := inject_Z (Z.of_nat k) in
  (q n * b <= 2147483640 # 1)%Q -> (Z.of_nat (plan_cost t os) <= 2147483647)%Z ->
  (q (n + 1)%nat * (u * (q n * b + 3)) + q ((length os + 2) * (n + 1))%nat * tol <= 9 # 1000)%Q ->
  (exists v, potential_max_heuristic rnd ps s = Ok v /\ (0 <= v <= Z.of_nat (plan_cost t os))%Z) /\
  forall p, In p ps -> exists v, potential_heuristic rnd p s = Ok v /\ (0 <= v <= Z.of_nat (plan_cost t os))%Z.
Proof. intros t mp tol solve rnd u b ps s os Ht Hg Hmp Htol Hsv Hm. exact (C65_admissible t mp tol solve rnd u b ps s os Ht Hg Hmp Htol Hsv (made_obtained _ _ _ _ _ Ht Hm)). Qed.
Print Assumptions C66_admissible.

Theorem C66_consistent : forall t mp solve rnd ps s, plain_task t -> NoDup (map fst (t_goal t)) -> max_potential_ok mp -> solver_ok 0 t mp solve -> made solve rnd t mp ps -> (forall x, rnd x == x)%Q -> state_ok t s ->
  (forall o op s' v v', nth_error (t_ops t) o = Some op -> applicable t s o -> progress t s o s' ->
    potential_max_heuristic rnd ps s = Ok v -> potential_max_heuristic rnd ps s' = Ok v' -> (v <= Z.of_nat (op_cost op) + v')%Z) /\
  (goal_state t s -> forall v, potential_max_heuristic rnd ps s = Ok v -> v = 0%Z).
Proof.
  intros t mp solve rnd ps s Ht Hg Hmp Hsv Hm Hex Hs. destruct (C65_consistent t mp solve rnd ps s Ht Hg Hmp Hsv (made_obtained _ _ _ _ _ Ht Hm) Hex Hs) as [H1 H2]. split.
  - intros o op s' v v' Ho Ha Hp. destruct (H1 o op s' Ho Ha Hp). auto.
  - intros Hgs. destruct (H2 Hgs). auto.
Qed.
Print Assumptions C66_consistent.

(** For solvable tasks, the heuristics are created without failure: in particular an optimal solution
    exists whenever one is used, values can be converted, and the length of random walks is defined. *)
Theorem C66_creation : forall t mp solve rnd b os, plain_task t -> NoDup (map fst (t_goal t)) -> max_potential_ok mp -> solver_ok 0 t mp solve -> (forall x, rnd x == x)%Q ->
  solver_within b solve -> (inject_Z (Z.of_nat (length (t_vars t))) * b <= 2147483640 # 1)%Q ->
  task_plan_from t (t_init t) os -> (4 * (Z.of_nat (plan_cost t os) * Z.of_nat (length (t_ops t)) + 1) <= 2147483647)%Z ->
  (forall f, (f = ALL_STATES -> mp <> None) -> exists p, create_potential_function solve t mp f = Ok p) /\
  (forall samples, (forall smp, In smp samples -> Forall (state_ok t) smp) -> exists ps, sample_based_functions solve rnd t mp samples = Ok ps /\ length ps = length samples) /\
  (forall fuel pick max_num samples, Forall (state_ok t) samples -> length samples <= fuel ->
    exists ps, diverse_functions solve rnd fuel t pick max_num mp samples = Ok ps /\ length ps <= max_num).
Proof.
  intros t mp solve rnd b os Ht Hg Hmp Hsv Hex Hw Hnb Hp Hl. splits.
  - intros f Hf. eapply create_ok; eauto.
  - intros samples Hs. eapply sample_based_ok; eauto.
  - intros fuel pick maxn samples Hs Hfu. destruct (diverse_ok t Ht Hg mp Hmp solve Hsv rnd Hex b Hw Hnb os Hp Hl fuel pick maxn samples Hs Hfu) as (fs & E & L & _). eauto.
Qed.
Print Assumptions C66_creation.

(** If fewer diverse functions than allowed were made, then they cover all samples with plans: the value of
    each of these states is at least that of any other potential heuristic. *)
Theorem C66_diverse : forall t solve rnd b os fuel pick max_num samples ps s os', plain_task t -> NoDup (map fst (t_goal t)) -> solver_ok 0 t None solve -> (forall x, rnd x == x)%Q ->
  solver_within b solve -> (inject_Z (Z.of_nat (length (t_vars t))) * b <= 2147483640 # 1)%Q ->
  task_plan_from t (t_init t) os -> (4 * (Z.of_nat (plan_cost t os) * Z.of_nat (length (t_ops t)) + 1) <= 2147483647)%Z ->
  Forall (state_ok t) samples -> length samples <= fuel -> diverse_functions solve rnd fuel t pick max_num None samples = Ok ps -> length ps < max_num ->
  In s samples -> task_plan_from t s os' ->
  exists v, potential_max_heuristic rnd ps s = Ok v /\ forall W, consistent_potential t W -> goal_aware_potential t W -> (Z.max 0 (Qceiling (potential W s - epsilon)%Q) <= v)%Z.
Proof.
  intros t solve rnd b os fuel pick maxn samples ps s os' Ht Hg Hsv Hex Hw Hnb Hp Hl Hs Hfu E L Hin Hp'. assert (Hmp : max_potential_ok None) by (intros q Hq; discriminate).
  destruct (diverse_ok t Ht Hg None Hmp solve Hsv rnd Hex b Hw Hnb os Hp Hl fuel pick maxn samples Hs Hfu) as (fs & E2 & _ & HC). assert (fs = ps) by congruence. subst fs.
  assert (Hso : state_ok t s) by (rewrite Forall_forall in Hs; auto). destruct (HC L s Hin) as (f & p & Hf & (_ & _ & y & Hy & Hfit & Ha & Hbest) & Ev).
  { exists (qnat (plan_cost t os')). intros z Hz. eapply plan_bounded; eauto. }
  assert (Hv : forall p, In p ps -> exists w, get_value rnd p s = Ok w).
  { intros p' Hin'. pose proof (made_obtained solve rnd t None ps Ht (diverse _ _ _ _ _ _ _ _ _ Hs E)) as HO. rewrite Forall_forall in HO. destruct (obtained_good t Ht Hg None Hmp 0 solve Hsv p' (HO p' Hin')) as (y' & _ & Hf' & Ha'). eexists. eapply value_at; eauto. }
  rewrite (value_at t solve rnd Hex b Hw Hnb p y s Hfit Ha Hso) in Ev.
  assert (G : forall l a, (0 <= a)%Z -> (forall q, In q l -> In q ps) -> exists v, fold_outcome (fun v p => let* w := get_value rnd p s in Ok (Z.max v w)) l a = Ok v /\ (a <= v)%Z /\ (In f l -> Qceiling (potential (wof t y) s - epsilon)%Q <= v)%Z).
  { induction l as [|q r IH]; intros a Ha0 Hl'; cbn [fold_outcome]; [exists a; splits; auto; [lia|intros []]|]. destruct (Hv q (Hl' q (or_introl eq_refl))) as (w & Ew). rewrite Ew. cbn [bind].
    destruct (IH (Z.max a w)) as (v & Ev' & L1 & L2); [lia|intros q' Hq'; apply Hl'; now right|]. exists v. splits; auto; [lia|]. intros [->|K]; [|auto]. rewrite Ev in Ew. inv Ew. lia. }
  destruct (G ps 0%Z ltac:(lia) (fun _ H => H)) as (v & Ev' & L1 & L2). exists v. split; [exact Ev'|]. intros W W1 W2. specialize (L2 Hf). destruct (dominated t Ht Hg W W1 W2) as (z & Hz & Hd). specialize (Hd s Hso). specialize (Hbest z Hz).
  assert (Qceiling (potential W s - epsilon) <= Qceiling (potential (wof t y) s - epsilon))%Z by (apply Qceiling_resp_le; lra). lia.
Qed.
Print Assumptions C66_diverse.

(* ---- examples ---- *)
(** Checking a solution, and when it is an answer for all objective functions. *)
Definition within (tol : Q) (lo up : option Q) (q : Q) : bool := (match lo with Some a => Qle_bool a (q + tol) | None => true end) && (match up with Some a => Qle_bool (q - tol) a | None => true end).
Definition solution_okb (tol : Q) (lp : lprog) (sol : list Q) : bool :=
  forallb (fun iv => within tol (v_lo (snd iv)) (v_up (snd iv)) (nth (fst iv) sol 0%Q)) (numbered (lp_vars lp)) && forallb (fun c => within tol (c_lo c) (c_up c) (lin (fun i => nth i sol 0%Q) (c_terms c))) (lp_cons lp).
Lemma within_ok tol lo up q : within tol lo up q = true -> above lo (q + tol)%Q /\ below (q - tol)%Q up.
Proof. unfold within. intros H. apply andb_prop in H as [A B]. split; [destruct lo|destruct up]; cbn [above below]; auto; now apply Qle_bool_iff. Qed.
Lemma solution_okb_ok t mp tol sol : plain_task t -> NoDup (map fst (t_goal t)) -> match construct_lp t mp with Ok lp => solution_okb tol lp sol | _ => false end = true -> psol t mp tol (fun i => nth i sol 0%Q).
Proof.
  intros Ht Hg H. destruct (construct_ok t Ht Hg mp) as (lvs & E & HP). rewrite E in H. apply andb_prop in H as [A B]. cbn [lp_vars lp_cons] in *. rewrite forallb_forall in A, B.
  apply (near_psol t Ht mp tol lvs _ HP). split.
  - intros i v Hv. apply (within_ok tol (v_lo v) (v_up v)). apply (A (i, v)). apply numbered_in. exact Hv.
  - intros c Hc. apply (within_ok tol (c_lo c) (c_up c)). now apply B.
Qed.
Lemma asked_length t mp cs : asked t mp cs -> length cs = num_lp_vars (t_vars t).
Proof. intros [(samples & Hs & Ec)|[_ Ec]]; [destruct (sample_coefficients_ok t samples Hs) as (cs' & Ec' & Lc & _)|destruct (all_states_ok t) as (cs' & Ec' & Lc & _)]; congruence. Qed.
Lemma answer_ok t mp tol lvs cs sol : plain_task t -> program t mp lvs -> length cs = num_lp_vars (t_vars t) -> length sol = num_lp_vars (t_vars t) -> psol t mp tol (fun i => nth i sol 0%Q) ->
  (forall x, psol t mp 0 x -> (weigh cs x <= weigh cs (fun i => nth i sol 0) + tol)%Q) -> max_answer tol (set_objective lvs cs) (rows t) (Some sol).
Proof.
  intros Ht HP Lc L Hsol H. pose proof HP as [Ll _]. assert (Lq : length cs = length lvs) by congruence. unfold max_answer. rewrite set_objective_length by auto.
  splits; [congruence|apply (near_psol t Ht mp tol _ _ (program_set t mp lvs cs HP Lc)); exact Hsol|].
  intros x Hx. apply (feasible_psol t Ht mp _ x (program_set t mp lvs cs HP Lc)) in Hx. rewrite !objective_weigh by auto. now apply H.
Qed.
Lemma top_answer t mp sol : plain_task t -> NoDup (map fst (t_goal t)) -> length sol = num_lp_vars (t_vars t) -> psol t mp 0 (fun i => nth i sol 0%Q) ->
  (forall x f, psol t mp 0 x -> fact_ok t f -> (x (pid t f) <= nth (pid t f) sol 0)%Q) -> (mp <> None -> forall x f, psol t mp 0 x -> xfact t f -> (x (pid t f) <= nth (pid t f) sol 0)%Q) ->
  solver_ok 0 t mp (fun _ _ _ => Some sol).
Proof.
  intros Ht Hg L Hsol H1 H2 lp k cs E Ha. destruct (construct_ok t Ht Hg mp) as (lvs & E' & HP). rewrite E' in E. inv E. cbn [lp_vars lp_cons]. pose proof (asked_length t mp cs Ha) as Lc.
  eapply answer_ok; eauto. intros x Hx. rewrite Qplus_0_r. destruct Ha as [(samples & Hs & Ec)|[Hne Ec]].
  - destruct (sample_coefficients_ok t samples Hs) as (cs' & Ec' & _ & Hw & _). assert (cs' = cs) by congruence. subst cs'. rewrite !Hw. apply qsum_le. intros s Hin. rewrite Forall_forall in Hs. unfold potential. apply qsum_le. intros f Hf. unfold wof. apply H1; auto. eapply state_xfact; eauto.
  - destruct (all_states_ok t) as (cs' & Ec' & _ & HF). assert (cs' = cs) by congruence. subst cs'. apply weigh_le; [exact HF|]. intros i Hi. rewrite Lc in Hi. destruct (pid_surj t i Hi) as (f & Hf & ->). apply H2; auto.
Qed.
Lemma bounded_top t b sol : plain_task t -> NoDup (map fst (t_goal t)) -> (0 <= b)%Q -> length sol = num_lp_vars (t_vars t) -> psol t (Some b) 0 (fun i => nth i sol 0%Q) ->
  (forall f, xfact t f -> In f (t_goal t) \/ (b <= nth (pid t f) sol 0)%Q) -> solver_ok 0 t (Some b) (fun _ _ _ => Some sol).
Proof.
  intros Ht Hg Hb L Hsol Hall. assert (Hmp : max_potential_ok (Some b)) by (intros q K; inv K; exact Hb).
  assert (K : forall x f, psol t (Some b) 0 x -> xfact t f -> (x (pid t f) <= nth (pid t f) sol 0)%Q).
  { intros x f Hx Hf. destruct (Hall f Hf) as [Hin|Hle]; [|pose proof (bounded_y t (Some b) Hmp b x eq_refl Hx f Hf); lra]. destruct f as [v d]. destruct Hx as (G & _), Hsol as (G' & _). destruct Hf as (x' & Hx' & _). cbn [fst] in Hx'.
    assert (Hv : v < length (t_vars t)) by (eapply nth_error_Some_lt; eauto). specialize (G v d Hv (or_introl Hin)). specialize (G' v d Hv (or_introl Hin)). cbv beta in G'. lra. }
  apply top_answer; auto. intros x f Hx Hf. apply K; auto. now apply fact_x.
Qed.
Lemma xfact_in t f : xfact t f -> In f (flat_map (fun vx => map (pair (fst vx)) (seq 0 (S (vdom (snd vx))))) (numbered (t_vars t))).
Proof. destruct f as [v d]. intros (x & Hx & Hd). cbn [fst snd] in *. apply in_flat_map. exists (v, x). split; [now apply numbered_in|]. cbn [fst snd]. apply in_map, in_seq. lia. Qed.

Definition pot_ex : task := {|
  t_vars := [{| vdom := 2; vlayer := None; vdefault := 0 |}];
  t_ops := [{| op_pre := [(0, 0)]; op_effs := [{| eff_cond := []; eff_fact := (0, 1) |}]; op_cost := 2 |}];
  t_rules := []; t_init := [0]; t_goal := [(0, 1)] |}.
Ltac plain_tac := unfold plain_task; splits; [apply task_okb_ok; reflexivity|reflexivity| |]; cbn;
  [intros ? Hx; decompose [or] Hx; subst; try contradiction; reflexivity
  |intros ? Hx; decompose [or] Hx; clear Hx; subst; try contradiction; unfold op_plain; cbn; splits; [intros ? Hy; decompose [or] Hy; subst; try contradiction; reflexivity|repeat constructor; cbn; intuition discriminate..|reflexivity]].
Lemma pot_ex_plain : plain_task pot_ex. Proof. plain_tac. Qed.
Lemma pot_ex_goal : NoDup (map fst (t_goal pot_ex)). Proof. cbn. repeat constructor; cbn; intuition discriminate. Qed.
Lemma pot_ex_plan : task_plan_from pot_ex [0] [0].
Proof. exists [1]. split; [|facts_hold]. eapply (plain_step pot_ex pot_ex_plain pot_ex_goal); [apply state_okb_ok; reflexivity|reflexivity|facts_hold|cbn]. constructor. Qed.
Definition pot_solve : nat -> list lpvar -> list lpcon -> option (list Q) := fun _ _ _ => Some [2; 0; 2]%Q.
Lemma pot_ex_solver : solver_ok 0 pot_ex None pot_solve.
Proof.
  apply top_answer; [exact pot_ex_plain|exact pot_ex_goal|reflexivity| | |congruence].
  - apply solution_okb_ok; [exact pot_ex_plain|exact pot_ex_goal|vm_compute; reflexivity].
  - intros x [v d] Hx Hf. destruct Hf as (y & Hy & Hd). cbn [fst snd] in *. destruct v as [|v]; [|destruct v; discriminate]. cbn in Hy. inv Hy. cbn [vdom] in Hd.
    assert (A := plan_bounded pot_ex pot_ex_plain pot_ex_goal None [0] [0] (state_okb_ok pot_ex [0] eq_refl) pot_ex_plan x Hx).
    assert (Hp1 : task_plan_from pot_ex [1] []) by (exists [1]; split; [constructor|facts_hold]).
    assert (B := plan_bounded pot_ex pot_ex_plain pot_ex_goal None [1] [] (state_okb_ok pot_ex [1] eq_refl) Hp1 x Hx).
    change (x 0%nat + 0 <= 2)%Q in A. change (x 1%nat + 0 <= 0)%Q in B.
    destruct d as [|[|d]]; [change (x 0%nat <= 2)%Q|change (x 1%nat <= 0)%Q|lia]; lra.
Qed.

Example C65_nonvacuous :
  plain_task pot_ex /\ NoDup (map fst (t_goal pot_ex)) /\ max_potential_ok None /\ solver_ok 0 pot_ex None pot_solve /\ rounds (1 # 9007199254740992) exact_rounding /\
  task_plan_from pot_ex [0] [0] /\ plan_cost pot_ex [0] = 2 /\
  (inject_Z 2 * ((1 # 9007199254740992) * (inject_Z 1 * 2 + 3)) + inject_Z 6 * 0 <= 9 # 1000)%Q /\
  exists p, create_potential_function pot_solve pot_ex None INITIAL_STATE = Ok p /\ obtained pot_solve pot_ex None p /\ (forall r q, In r p -> In q r -> - 2 <= q <= 2)%Q /\
    potential_heuristic exact_rounding p [0] = Ok 2%Z /\ potential_heuristic exact_rounding p [1] = Ok 0%Z /\
    consistent_potential pot_ex (weight p) /\ (potential (weight p) [0%nat] == 2)%Q.
Proof.
  assert (Hmp : max_potential_ok None) by (intros b H; discriminate). assert (Hc : create_potential_function pot_solve pot_ex None INITIAL_STATE = Ok [[2; 0]%Q]) by (vm_compute; reflexivity).
  assert (Hob : obtained pot_solve pot_ex None [[2; 0]%Q]) by (eapply create_obtained; [apply state_okb_ok; reflexivity|exact Hc]).
  splits; auto using pot_ex_plain, pot_ex_goal, pot_ex_solver, exact_rounds, pot_ex_plan; [vm_compute; discriminate|]. exists [[2; 0]%Q]. splits; auto.
  - intros r q [<-|[]] [<-|[<-|[]]]; lra.
  - eapply C65_potentials; eauto using pot_ex_plain, pot_ex_goal, pot_ex_solver.
  - vm_compute. reflexivity.
Qed.
Example C66_nonvacuous :
  solver_within 2 pot_solve /\ (inject_Z 1 * 2 <= 2147483640 # 1)%Q /\ task_plan_from pot_ex (t_init pot_ex) [0] /\
  (4 * (Z.of_nat (plan_cost pot_ex [0%nat]) * Z.of_nat (length (t_ops pot_ex)) + 1) <= 2147483647)%Z /\ Forall (state_ok pot_ex) [[0]; [1]] /\ made pot_solve exact_rounding pot_ex None [[[2; 0]]]%Q /\
  sample_based_functions pot_solve exact_rounding pot_ex None [[[0]; [1]]; [[1]]] = Ok [[[2; 0]]; [[2; 0]]]%Q /\
  diverse_functions pot_solve exact_rounding 2 pot_ex (fun _ => 0) 5 None [[0]; [1]] = Ok [[[2; 0]]]%Q /\ potential_max_heuristic exact_rounding [[[2; 0]]]%Q [0] = Ok 2%Z.
Proof.
  assert (Hs : Forall (state_ok pot_ex) [[0]; [1]]) by (constructor; [|constructor; [|constructor]]; apply state_okb_ok; reflexivity).
  assert (Hd : diverse_functions pot_solve exact_rounding 2 pot_ex (fun _ => 0) 5 None [[0]; [1]] = Ok [[[2; 0]]]%Q) by (vm_compute; reflexivity).
  splits; auto; try (vm_compute; (reflexivity || discriminate)).
  - intros k vs cs sol E. inv E. repeat constructor; lra.
  - exact pot_ex_plan.
  - eapply diverse; eauto.
Qed.

(** The conversion to int is undefined for large potentials: with the default maximum potential,
    this happens for an unsolvable task with 22 variables. *)
Definition many_ex : task := {|
  t_vars := repeat {| vdom := 2; vlayer := None; vdefault := 0 |} 22; t_ops := []; t_rules := []; t_init := repeat 0 22; t_goal := map (fun v => (v, 1)) (seq 0 22) |}.
Definition max_default : Q := 100000000 # 1.
Lemma nodup_seq k : NoDup (map fst (map (fun v => (v, 1)) (seq 0 k))).
Proof. rewrite map_map. cbn. rewrite map_id. apply seq_NoDup. Qed.
Theorem C65_overflow_refuted : exists t solve p, plain_task t /\ NoDup (map fst (t_goal t)) /\ solver_ok 0 t (Some max_default) solve /\
  create_potential_function solve t (Some max_default) INITIAL_STATE = Ok p /\ potential_heuristic exact_rounding p (t_init t) = UB.
Proof.
  set (sol := concat (repeat [max_default; 0; max_default]%Q 22)). exists many_ex, (fun _ _ _ => Some sol).
  assert (Hp : plain_task many_ex). { unfold plain_task. splits; [apply task_okb_ok; vm_compute; reflexivity|reflexivity| |]; [|intros op []]. intros x Hx. apply repeat_spec in Hx. now subst. }
  assert (Hg : NoDup (map fst (t_goal many_ex))) by apply (nodup_seq 22).
  assert (Hs : solver_ok 0 many_ex (Some max_default) (fun _ _ _ => Some sol)).
  { apply bounded_top; auto; [vm_compute; discriminate|apply solution_okb_ok; auto; vm_compute; reflexivity|].
    assert (K : forallb (fun f => existsb (fun g => (fst f =? fst g) && (snd f =? snd g)) (t_goal many_ex) || Qle_bool max_default (nth (pid many_ex f) sol 0%Q)) (flat_map (fun vx => map (pair (fst vx)) (seq 0 (S (vdom (snd vx))))) (numbered (t_vars many_ex))) = true) by (vm_compute; reflexivity).
    intros f Hf. apply xfact_in in Hf. rewrite forallb_forall in K. specialize (K f Hf). apply orb_prop in K as [K|K].
    - left. apply existsb_exists in K as ([v d] & Hin & K). apply andb_prop in K as [A B]. apply Nat.eqb_eq in A. apply Nat.eqb_eq in B. destruct f. cbn in A, B. now subst.
    - right. now apply Qle_bool_iff. }
  exists (repeat [max_default; 0]%Q 22). split; [exact Hp|]. split; [exact Hg|]. split; [exact Hs|]. split; vm_compute; reflexivity.
Qed.
Print Assumptions C65_overflow_refuted.

(** Potential heuristics optimized for the initial state fail if potentials are not bounded and the
    initial state is unsolvable: there is no optimal solution, which is not checked. *)
Definition stuck_ex : task := {|
  t_vars := [{| vdom := 2; vlayer := None; vdefault := 0 |}]; t_ops := []; t_rules := []; t_init := [0]; t_goal := [(0, 1)] |}.
Lemma stuck_plain : plain_task stuck_ex.
Proof. unfold plain_task. splits; [apply task_okb_ok; reflexivity|reflexivity| |]; [|intros op []]. intros x [<-|[]]. reflexivity. Qed.
Lemma stuck_goal : NoDup (map fst (t_goal stuck_ex)). Proof. exact pot_ex_goal. Qed.
Lemma one_var t x s : t_vars t = [x] -> state_ok t s -> exists d, s = [d] /\ d < vdom x.
Proof. intros E H. unfold state_ok in H. rewrite E in H. inversion H as [|d ? l ? Hd Hl]; subst. inversion Hl; subst. eauto. Qed.
Lemma undef_zero t x samples cs : t_vars t = [x] -> Forall (state_ok t) samples -> sample_coefficients t samples = Ok cs -> (weigh cs (fun i => if i =? vdom x then 1 else 0) == 0)%Q.
Proof.
  intros Ex Hs Ec. destruct (sample_coefficients_ok t samples Hs) as (cs' & Ec' & _ & Hw & _). assert (cs' = cs) by congruence. subst cs'. rewrite Hw. apply qsum_zero. intros s Hin. rewrite Forall_forall in Hs.
  destruct (one_var t x s Ex (Hs s Hin)) as (d & -> & Hd). unfold potential. cbn [length seq combine qsum]. unfold wof, pid. cbn [fst snd]. change (off (t_vars t) 0) with 0. destruct (Nat.eqb_spec (0 + d) (vdom x)); [lia|lra].
Qed.
Definition ray (q : Q) (i : nat) : Q := if i =? 1 then 0%Q else q.
Lemma stuck_ray q : (0 <= q)%Q -> psol stuck_ex None 0 (ray q).
Proof.
  intros Hq. unfold psol. splits.
  - intros v d Hv Hd. cbn in Hv. assert (v = 0) by lia. subst v. assert (d = 1). { destruct Hd as [[K|[]]|[_ K]]; [congruence|]. exfalso. apply (K 1). now left. } subst d. change (- 0 <= 0 <= 0)%Q. lra.
  - intros f b _ _ E. discriminate.
  - intros [v d] (x & Hx & Hd). destruct v; [|destruct v; discriminate]. cbn in Hx. inv Hx. cbn in Hd. destruct d as [|[|d]]; [change (q <= q + 0)%Q|change (0 <= q + 0)%Q|lia]; lra.
  - intros op [].
Qed.
Theorem C65_unbounded_refuted : exists t, plain_task t /\ NoDup (map fst (t_goal t)) /\ (exists solve, solver_ok 0 t None solve) /\
  forall solve, solver_ok 0 t None solve -> create_potential_function solve t None INITIAL_STATE = UB.
Proof.
  exists stuck_ex. split; [exact stuck_plain|]. split; [exact stuck_goal|]. split.
  - exists (fun _ vs _ => match vs with v :: _ => if Qeq_bool (v_obj v) 0 then Some [0; 0; 0]%Q else None | [] => None end). intros lp k cs E Ha.
    destruct (construct_ok stuck_ex stuck_plain stuck_goal None) as (lvs & E' & HP). rewrite E' in E. inv E. cbn [lp_vars lp_cons]. pose proof (asked_length _ _ cs Ha) as Lc. destruct Ha as [(samples & Hs & Ec)|[K _]]; [|congruence].
    pose proof (undef_zero stuck_ex _ samples cs eq_refl Hs Ec) as Hu. destruct (sample_coefficients_ok stuck_ex samples Hs) as (cs' & Ec' & _ & _ & Hpos). assert (cs' = cs) by congruence. subst cs'.
    change (num_lp_vars (t_vars stuck_ex)) with 3 in Lc. destruct cs as [|c0 [|c1 [|c2 [|]]]]; try discriminate. unfold weigh in Hu. cbn in Hu. inversion Hpos as [|? ? Hc0 _]; subst.
    pose proof HP as [Ll _]. change (num_lp_vars (t_vars stuck_ex)) with 3 in Ll. destruct lvs as [|v0 [|v1 [|v2 [|]]]]; try discriminate. cbn [set_objective combine map fst snd v_obj]. destruct (Qeq_bool c0 0) eqn:Ez.
    + apply Qeq_bool_iff in Ez. apply (answer_ok stuck_ex None 0 [v0; v1; v2] [c0; c1; c2] [0; 0; 0]%Q stuck_plain HP eq_refl eq_refl).
      * apply solution_okb_ok; [exact stuck_plain|exact stuck_goal|vm_compute; reflexivity].
      * intros x (G & _). specialize (G 0 1 ltac:(cbn; lia) (or_introl (or_introl eq_refl))). change (- 0 <= x 1%nat <= 0)%Q in G. unfold weigh. cbn [numbered combine length seq qsum fst snd nth]. rewrite Ez. assert (x 1%nat == 0)%Q as -> by lra. assert (c2 == 0)%Q as -> by lra. lra.
    + right. intros b. assert (Hc : (0 < c0)%Q). { destruct (Qlt_le_dec 0 c0) as [K|K]; [exact K|]. assert (Z : (c0 == 0)%Q) by lra. apply Qeq_bool_iff in Z. congruence. }
      set (q := (Qabs.Qabs b / c0 + 1)%Q). assert (Hq : (0 <= q)%Q). { unfold q. pose proof (Qabs.Qabs_nonneg b). assert (0 <= Qabs.Qabs b / c0)%Q; [|lra]. apply Qle_shift_div_l; lra. }
      exists (ray q). split.
      * apply (feasible_psol stuck_ex stuck_plain None (set_objective [v0; v1; v2] [c0; c1; c2]) (ray q) (program_set stuck_ex None [v0; v1; v2] [c0; c1; c2] HP eq_refl)). now apply stuck_ray.
      * change (b < objective (set_objective [v0; v1; v2] [c0; c1; c2]) (ray q))%Q. rewrite objective_weigh by reflexivity. unfold weigh. cbn [numbered combine length seq qsum fst snd]. unfold ray. cbn [Nat.eqb]. assert (c2 == 0)%Q as -> by lra.
        assert (Eq : (c0 * q == Qabs.Qabs b + c0)%Q) by (unfold q; field; lra). rewrite Eq. pose proof (Qabs.Qle_Qabs b). lra.
  - intros solve Hsv. assert (Hmp : max_potential_ok None) by (intros b H; discriminate). assert (Hi : state_ok stuck_ex [0]) by (apply state_okb_ok; reflexivity).
    unfold create_potential_function. destruct (new_ok stuck_ex stuck_plain stuck_goal None 0 solve) as (o & E & Ho). rewrite E. cbn [bind]. unfold optimize_for_state. change (t_init stuck_ex) with [0%nat].
    destruct (samples_ok stuck_ex stuck_plain None Hmp 0 solve Hsv [[0]] o Ho ltac:(constructor; auto)) as (o' & E' & _ & HB). cbv beta iota. match goal with |- context[optimize_for_samples solve stuck_ex ?l o] => change l with [[0]] end. rewrite E'. cbn [bind]. unfold get_potential_function. destruct (po_optimal o') eqn:Eo; [|reflexivity].
    exfalso. destruct (optimal_bounded stuck_ex None 0 solve [0] o' HB Eo) as (b & Hb). specialize (Hb (ray (Qabs.Qabs b + 1)%Q)). assert (0 <= Qabs.Qabs b + 1)%Q by (pose proof (Qabs.Qabs_nonneg b); lra). specialize (Hb (stuck_ray _ H)).
    change (Qabs.Qabs b + 1 + 0 <= b)%Q in Hb. pose proof (Qabs.Qle_Qabs b). lra.
Qed.
Print Assumptions C65_unbounded_refuted.

(** If potentials are bounded but no operator has costs, sampling for an unsolvable task divides by
    zero and converts the result to int. *)
Theorem C66_walk_refuted : exists t solve, plain_task t /\ NoDup (map fst (t_goal t)) /\ solver_ok 0 t (Some max_default) solve /\
  sample_based_functions solve exact_rounding t (Some max_default) [[t_init t]] = UB /\ forall fuel pick, diverse_functions solve exact_rounding fuel t pick 5 (Some max_default) [t_init t] = UB.
Proof.
  exists stuck_ex, (fun _ _ _ => Some [max_default; 0; max_default]%Q). split; [exact stuck_plain|]. split; [exact stuck_goal|]. split; [|split; [vm_compute; reflexivity|intros; vm_compute; reflexivity]].
  apply bounded_top; [exact stuck_plain|exact stuck_goal|vm_compute; discriminate|reflexivity|apply solution_okb_ok; [exact stuck_plain|exact stuck_goal|vm_compute; reflexivity]|].
  intros f Hf. apply xfact_in in Hf. cbn in Hf. decompose [or] Hf; subst; try contradiction; [right; vm_compute; discriminate|left; now left|right; vm_compute; discriminate].
Qed.
Print Assumptions C66_walk_refuted.

(** The values are not consistent in general if the solution violates a constraint within the
    tolerance of the solver: here the value decreases by two along an operator of cost one. *)
Definition chain_ex : task := {|
  t_vars := [{| vdom := 3; vlayer := None; vdefault := 0 |}];
  t_ops := [{| op_pre := [(0, 0)]; op_effs := [{| eff_cond := []; eff_fact := (0, 1) |}]; op_cost := 1 |}; {| op_pre := [(0, 1)]; op_effs := [{| eff_cond := []; eff_fact := (0, 2) |}]; op_cost := 1 |}];
  t_rules := []; t_init := [0]; t_goal := [(0, 2)] |}.
Lemma chain_plain : plain_task chain_ex.
Proof.
  unfold plain_task. splits; [apply task_okb_ok; reflexivity|reflexivity| |]; cbn [t_vars t_ops chain_ex].
  - intros x [<-|[]]; reflexivity.
  - intros op [<-|[<-|[]]]; unfold op_plain; cbn; (splits; [intros e [<-|[]]; reflexivity|repeat constructor; cbn; intuition discriminate..|reflexivity]).
Qed.
Lemma chain_goal : NoDup (map fst (t_goal chain_ex)). Proof. cbn. repeat constructor; cbn; intuition discriminate. Qed.
Lemma chain_plan1 : task_plan_from chain_ex [1] [1].
Proof. exists [2]. split; [|facts_hold]. eapply (plain_step chain_ex chain_plain chain_goal); [apply state_okb_ok; reflexivity|reflexivity|facts_hold|cbn]. constructor. Qed.
Lemma chain_plan0 : task_plan_from chain_ex [0] [0; 1].
Proof. exists [2]. split; [|facts_hold]. do 2 (eapply (plain_step chain_ex chain_plain chain_goal); [apply state_okb_ok; reflexivity|reflexivity|facts_hold|cbn]). constructor. Qed.
Definition sloppy_tol : Q := 1 # 1000000.
Definition sloppy : nat -> list lpvar -> list lpcon -> option (list Q) := fun _ vs _ =>
  match vs with
  | v0 :: v1 :: _ => if Qeq_bool (v_obj v0) 0 && Qeq_bool (v_obj v1) 0 then Some [1 + epsilon + sloppy_tol; epsilon; 0; 2]%Q else Some [2; 1; 0; 2]%Q
  | _ => None
  end.
Lemma sloppy_ok : solver_ok sloppy_tol chain_ex None sloppy.
Proof.
  intros lp k cs E Ha. destruct (construct_ok chain_ex chain_plain chain_goal None) as (lvs & E' & HP). rewrite E' in E. inv E. cbn [lp_vars lp_cons]. pose proof (asked_length _ _ cs Ha) as Lc. destruct Ha as [(samples & Hs & Ec)|[K _]]; [|congruence].
  pose proof (undef_zero chain_ex _ samples cs eq_refl Hs Ec) as Hu. destruct (sample_coefficients_ok chain_ex samples Hs) as (cs' & Ec' & _ & _ & Hpos). assert (cs' = cs) by congruence. subst cs'.
  change (num_lp_vars (t_vars chain_ex)) with 4 in Lc. destruct cs as [|c0 [|c1 [|c2 [|c3 [|]]]]]; try discriminate. unfold weigh in Hu. cbn in Hu. assert (c3 == 0)%Q by lra.
  pose proof HP as [Ll _]. change (num_lp_vars (t_vars chain_ex)) with 4 in Ll. destruct lvs as [|v0 [|v1 [|v2 [|v3 [|]]]]]; try discriminate.
  assert (X2 : forall x, psol chain_ex None 0 x -> (x 2%nat == 0)%Q). { intros x (G & _). specialize (G 0 2 ltac:(cbn; lia) (or_introl (or_introl eq_refl))). change (- 0 <= x 2%nat <= 0)%Q in G. lra. }
  change (max_answer sloppy_tol (set_objective [v0; v1; v2; v3] [c0; c1; c2; c3]) (rows chain_ex) (if Qeq_bool c0 0 && Qeq_bool c1 0 then Some [1 + epsilon + sloppy_tol; epsilon; 0; 2]%Q else Some [2; 1; 0; 2]%Q)).
  assert (Ht0 : (0 <= sloppy_tol)%Q) by (vm_compute; discriminate).
  destruct (Qeq_bool c0 0 && Qeq_bool c1 0) eqn:Ez.
  - apply andb_prop in Ez as [Z0 Z1]. apply Qeq_bool_iff in Z0. apply Qeq_bool_iff in Z1. apply (answer_ok chain_ex None sloppy_tol [v0; v1; v2; v3] [c0; c1; c2; c3] [1 + epsilon + sloppy_tol; epsilon; 0; 2]%Q chain_plain HP eq_refl eq_refl).
    + apply solution_okb_ok; [exact chain_plain|exact chain_goal|vm_compute; reflexivity].
    + intros x Hx. specialize (X2 x Hx). unfold weigh. cbn [numbered combine length seq qsum fst snd nth]. rewrite Z0, Z1, X2, H. lra.
  - apply (answer_ok chain_ex None sloppy_tol [v0; v1; v2; v3] [c0; c1; c2; c3] [2; 1; 0; 2]%Q chain_plain HP eq_refl eq_refl).
    + apply solution_okb_ok; [exact chain_plain|exact chain_goal|vm_compute; reflexivity].
    + intros x Hx. specialize (X2 x Hx). assert (A := plan_bounded chain_ex chain_plain chain_goal None [0] [0; 1] (state_okb_ok chain_ex [0] eq_refl) chain_plan0 x Hx). assert (B := plan_bounded chain_ex chain_plain chain_goal None [1] [1] (state_okb_ok chain_ex [1] eq_refl) chain_plan1 x Hx).
      change (x 0%nat + 0 <= 2)%Q in A. change (x 1%nat + 0 <= 1)%Q in B. inversion Hpos as [|? ? P0 Hpos']; subst. inversion Hpos' as [|? ? P1 _]; subst. unfold weigh. cbn [numbered combine length seq qsum fst snd nth]. rewrite X2, H. 
      assert (c0 * x 0%nat <= c0 * 2)%Q by (rewrite !(Qmult_comm c0); apply Qmult_le_compat_r; lra). assert (c1 * x 1%nat <= c1 * 1)%Q by (rewrite !(Qmult_comm c1); apply Qmult_le_compat_r; lra). lra.
Qed.
Theorem C65_tolerance_refuted : exists t solve p s o op s' v v', plain_task t /\ NoDup (map fst (t_goal t)) /\ solver_ok (1 # 1000000) t None solve /\ obtained solve t None p /\
  state_ok t s /\ nth_error (t_ops t) o = Some op /\ applicable t s o /\ progress t s o s' /\ potential_heuristic exact_rounding p s = Ok v /\ potential_heuristic exact_rounding p s' = Ok v' /\ (Z.of_nat (op_cost op) + v' < v)%Z.
Proof.
  assert (Hs2 : Forall (state_ok chain_ex) [[2]]) by (constructor; [apply state_okb_ok; reflexivity|constructor]).
  destruct (new_ok chain_ex chain_plain chain_goal None sloppy_tol sloppy) as (o & Eo & _).
  destruct (C65_creation chain_ex None sloppy_tol sloppy chain_plain chain_goal ltac:(intros b H; discriminate) ltac:(vm_compute; discriminate) sloppy_ok) as [_ Hc]. destruct (Hc o (created _ _ _ _ Eo)) as (_ & Hc' & _). destruct (Hc' _ Hs2) as (o' & Eo').
  assert (Hv : match (let* o := new_optimizer chain_ex None in let* o := optimize_for_samples sloppy chain_ex [[2]] o in let* p := get_potential_function o in let* v := potential_heuristic exact_rounding p [0] in let* v' := potential_heuristic exact_rounding p [1] in Ok (v, v')) with Ok x => x = (2%Z, 0%Z) | _ => False end) by (vm_compute; reflexivity).
  rewrite Eo in Hv. cbn [bind] in Hv. rewrite Eo' in Hv. cbn [bind] in Hv. destruct (get_potential_function o') as [p| | |] eqn:Ep; try contradiction. cbn [bind] in Hv. destruct (potential_heuristic exact_rounding p [0]) as [v| | |] eqn:E0; try contradiction. cbn [bind] in Hv. destruct (potential_heuristic exact_rounding p [1]) as [v'| | |] eqn:E1; try contradiction. inv Hv.
  assert (Hpath : task_path chain_ex [0] [0] [1]) by (eapply (plain_step chain_ex chain_plain chain_goal); [apply state_okb_ok; reflexivity|reflexivity|facts_hold|constructor]).
  inversion Hpath as [|? ? s1 ? ? Hap Hpr Hnil]; subst. inversion Hnil; subst.
  exists chain_ex, sloppy, p, [0], 0. eexists. exists [1], 2%Z, 0%Z. splits; eauto using chain_plain, chain_goal, sloppy_ok; [|apply state_okb_ok; reflexivity|reflexivity|reflexivity].
  exists o'. split; [|exact Ep]. eapply sampled; [eapply created; exact Eo|exact Hs2|exact Eo'].
Qed.
Print Assumptions C65_tolerance_refuted.

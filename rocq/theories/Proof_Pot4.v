(** Proofs about potential heuristics, part 4: optimizations and the functions obtained. *)
From Coq Require Import QArith Qround Lqa.
From Verif Require Import Outcome Spec_Task Spec_Relaxation Spec_Projection Spec_Cartesian Spec_LP Spec_OperatorCounting Spec_Generators Spec_Potentials Model_Task Model_LPSolver Model_OperatorCounting Model_Potentials Spec_PotentialOptimizer
  Proof_Task Proof_OC1 Proof_OC3 Proof_OC14 Proof_Pot1 Proof_Pot2 Proof_Pot3.
Local Open Scope nat_scope.

Lemma opt_some {A} (o : option A) : o <> None -> exists b, o = Some b.
Proof. destruct o; [eauto|congruence]. Qed.
Lemma opt_dec {A} (o : option A) : o = None \/ o <> None.
Proof. destruct o; [right; discriminate|auto]. Qed.

Lemma to_int_ok z : (-2147483648 <= z <= 2147483647)%Z -> to_int z = Ok z.
Proof. intros H. unfold to_int. destruct (Z.leb_spec (-2147483648) z); [|lia]. destruct (Z.leb_spec z 2147483647); [|lia]. reflexivity. Qed.
Lemma ceil_le q z : (q <= inject_Z z)%Q -> (Qceiling q <= z)%Z.
Proof. intros H. rewrite <- (Qceiling_Z z). now apply Qceiling_resp_le. Qed.

Lemma to_int_inv z v : to_int z = Ok v -> v = z /\ (-2147483648 <= z <= 2147483647)%Z.
Proof. unfold to_int. destruct (Z.leb_spec (-2147483648) z); [|discriminate]. destruct (Z.leb_spec z 2147483647); [|discriminate]. intros K. inv K. split; auto. Qed.
Lemma ceil_add q z : Qceiling (q + inject_Z z)%Q = (Qceiling q + z)%Z.
Proof.
  apply Z.le_antisymm.
  - apply ceil_le. rewrite inject_Z_plus. pose proof (Qle_ceiling q). lra.
  - assert (Qceiling q <= Qceiling (q + inject_Z z) - z)%Z; [|lia]. apply ceil_le. unfold Z.sub. rewrite inject_Z_plus, inject_Z_opp. pose proof (Qle_ceiling (q + inject_Z z)%Q). lra.
Qed.

Section Task.
Variable t : task.
Hypothesis Ht : plain_task t.
Hypothesis Hg : NoDup (map fst (t_goal t)).
Variable mp : option Q.
Hypothesis Hmp : forall b, mp = Some b -> (0 <= b)%Q.
Variable tol : Q.
Hypothesis Htol : (0 <= tol)%Q.
Variable solve : nat -> list lpvar -> list lpcon -> option (list Q).
Hypothesis Hsolve : solver_ok tol t mp solve.
Let vs := t_vars t.
Let n := length vs.
Let pid := pid t.
Let rows := rows t.
Let psol := psol t mp.
Let wof := wof t.

Definition answered (y : nat -> Q) : Prop := exists k l c sol, solve k l c = Some sol /\ length sol = num_lp_vars vs /\ y = (fun i => nth i sol 0%Q).
Definition pgood (p : pfunction) : Prop := exists y, psol tol y /\ fits t p y /\ answered y.
Definition base_ok (lvs : list lpvar) : Prop := construct_lp t mp = Ok {| lp_vars := lvs; lp_cons := rows |} /\ program t mp lvs.
Definition oinv (o : optimizer) : Prop :=
  (exists lvs cs, base_ok lvs /\ length cs = num_lp_vars vs /\ po_vars o = set_objective lvs cs) /\ po_cons o = rows /\ po_max o = mp /\ shape t (po_pots o) /\
  (po_optimal o = true -> pgood (po_pots o)).

Lemma new_ok : exists o, new_optimizer t mp = Ok o /\ oinv o.
Proof.
  unfold new_optimizer. rewrite (supported t Ht). cbn [negb]. destruct (construct_ok t Ht Hg mp) as (lvs & E & HP). rewrite E. cbn [bind lp_vars lp_cons]. eexists. split; [reflexivity|].
  unfold oinv. cbn [po_vars po_cons po_max po_pots po_optimal]. splits; auto; [| |discriminate].
  - exists lvs, (map v_obj lvs). split; [split; auto|]. split; [rewrite map_length; apply HP|]. symmetry. apply set_objective_same.
  - split; [apply map_length|]. intros v x Hx. exists (repeat 0%Q (vdom x)). rewrite nth_error_map. unfold vs in *. rewrite Hx. split; [reflexivity|apply repeat_length].
Qed.

(** The result of an optimization. *)
Definition best_for (cs : list Q) (o : optimizer) : Prop :=
  (po_optimal o = true -> exists y, psol tol y /\ fits t (po_pots o) y /\ answered y /\ forall z, psol 0 z -> (weigh cs z <= weigh cs y + tol)%Q) /\
  (po_optimal o = false -> forall b, exists z, psol 0 z /\ (b < weigh cs z)%Q).
Lemma optimize_ok cs o : oinv o -> asked t mp cs -> length cs = num_lp_vars vs -> exists o', optimize_for solve t cs o = Ok o' /\ oinv o' /\ best_for cs o'.
Proof.
  intros ((lvs & cs0 & (Hb & HP) & L0 & Ev) & Ec & Em & Hsh & _) Ha L. unfold optimize_for. pose proof HP as [Ll _].
  assert (Es : set_objective (po_vars o) cs = set_objective lvs cs) by (rewrite Ev; apply set_objective_twice; unfold vs in *; lia). rewrite Es, Ec.
  pose proof (Hsolve _ (po_calls o) cs Hb Ha) as K. cbn [lp_vars lp_cons] in K. pose proof (program_set t mp lvs cs HP L) as HP'.
  assert (Lq : length cs = length lvs) by (unfold vs in *; lia).
  destruct (solve (po_calls o) (set_objective lvs cs) rows) as [sol|] eqn:Esolve; unfold max_answer in K.
  - destruct K as (Lsol & Hn & Hbest). assert (Ls : length sol = num_lp_vars vs) by (rewrite Lsol, set_objective_length; auto).
    destruct (extract_ok t sol (po_pots o) Hsh Ls) as (p' & Ep & Hsh' & Hf). rewrite Ep. cbn [bind]. apply (near_psol t Ht mp tol _ _ HP') in Hn.
    assert (Han : answered (fun i => nth i sol 0%Q)) by (repeat eexists; eauto).
    eexists. split; [reflexivity|]. split.
    + unfold oinv. cbn [po_vars po_cons po_max po_pots po_optimal]. splits; auto; [exists lvs, cs; split; [split|]; auto|]. intros _. exists (fun i => nth i sol 0%Q). auto.
    + split; cbn [po_optimal po_pots]; [|discriminate]. intros _. exists (fun i => nth i sol 0%Q). splits; auto. intros z Hz. apply (feasible_psol t Ht mp _ z HP') in Hz. specialize (Hbest z Hz).
      rewrite !objective_weigh in Hbest by auto. exact Hbest.
  - eexists. split; [reflexivity|]. split.
    + unfold oinv. cbn [po_vars po_cons po_max po_pots po_optimal]. splits; auto; [exists lvs, cs; split; [split|]; auto|discriminate].
    + split; cbn [po_optimal po_pots]; [discriminate|]. intros _ b. destruct K as [K|K].
      * exfalso. apply (K (fun _ => 0%Q)). apply (feasible_psol t Ht mp _ _ HP'). now apply zero_psol.
      * destruct (K b) as (x & Hx & Hlt). exists x. apply (feasible_psol t Ht mp _ x HP') in Hx. split; auto. now rewrite objective_weigh in Hlt by auto.
Qed.
Definition sum_at (samples : list state) (y : nat -> Q) : Q := qsum (fun s => potential (wof y) s) samples.
Definition best_at (samples : list state) (o : optimizer) : Prop :=
  (po_optimal o = true -> exists y, psol tol y /\ fits t (po_pots o) y /\ answered y /\ forall z, psol 0 z -> (sum_at samples z <= sum_at samples y + tol)%Q) /\
  (po_optimal o = false -> forall b, exists z, psol 0 z /\ (b < sum_at samples z)%Q).
Lemma samples_ok samples o : oinv o -> Forall (state_ok t) samples -> exists o', optimize_for_samples solve t samples o = Ok o' /\ oinv o' /\ best_at samples o'.
Proof.
  intros Ho Hs. unfold optimize_for_samples. destruct (sample_coefficients_ok t samples Hs) as (cs & E & L & Hw & _). rewrite E. cbn [bind].
  destruct (optimize_ok cs o Ho) as (o' & E' & Ho' & H1 & H2); [left; eauto|exact L|]. exists o'. split; [exact E'|]. split; [exact Ho'|]. split.
  - intros K. destruct (H1 K) as (y & A & B & A2 & C). exists y. splits; auto. intros z Hz. specialize (C z Hz). rewrite !Hw in C. exact C.
  - intros K b. destruct (H2 K b) as (z & A & B). exists z. rewrite Hw in B. auto.
Qed.
Lemma bounded_y b z : mp = Some b -> psol 0 z -> forall f, xfact t f -> (z (pid f) <= b)%Q.
Proof.
  clear Hsolve solve Htol tol. intros Eb (G & B & _) f Hf. specialize (Hmp b Eb). pose proof Hf as (x & Hx & _). destruct f as [v d]. cbn [fst snd] in *. assert (Hv : v < length (t_vars t)) by (eapply nth_error_Some_lt; eauto).
  assert (Dec : goal_value t v d \/ ~ goal_value t v d).
  { unfold goal_value. destruct (in_dec (fun a b : fact => ltac:(decide equality; apply Nat.eq_dec)) (v, d) (t_goal t)) as [K|K]; [auto|].
    destruct (in_dec Nat.eq_dec v (map fst (t_goal t))) as [K2|K2].
    - right. intros [K3|[_ K3]]; [auto|]. apply in_map_iff in K2 as ([v' d'] & E & Hin). cbn in E. subst. eapply K3; eauto.
    - destruct (Nat.eq_dec (snd (undef t v)) d) as [<-|Hne].
      + left. right. split; [reflexivity|]. intros d' Hd'. apply K2. apply in_map_iff. exists (v, d'). auto.
      + right. intros [K3|[K3 _]]; [auto|]. apply Hne. now rewrite K3. }
  destruct Dec as [D|D].
  - specialize (G v d Hv D). fold pid in G. lra.
  - specialize (B (v, d) b Hf D Eb). fold pid in B. lra.
Qed.
Lemma all_ok o : oinv o -> mp <> None -> exists o', optimize_for_all_states solve t o = Ok o' /\ oinv o' /\ po_optimal o' = true.
Proof.
  intros Ho Hb. unfold optimize_for_all_states, potentials_are_bounded. pose proof Ho as (_ & _ & Em & _). destruct (opt_some mp Hb) as (b & Emp). rewrite Em, Emp. cbn [negb].
  destruct (all_states_ok t) as (cs & E & L & HF). rewrite E. cbn [bind]. destruct (optimize_ok cs o Ho) as (o' & E' & Ho' & H1 & H2); [right; auto|exact L|]. rewrite E'. cbn [bind].
  destruct (po_optimal o') eqn:Eo; [eauto|]. exfalso. destruct (H2 eq_refl (weigh cs (fun _ => b))) as (z & Hz & K).
  assert (K2 : (weigh cs z <= weigh cs (fun _ => b))%Q). { apply weigh_le; [exact HF|]. intros i Hi. rewrite L in Hi. destruct (pid_surj t i Hi) as (f & Hf & ->). eapply bounded_y; eauto. }
  lra.
Qed.
Lemma object_oinv o : optimizer_object solve t mp o -> oinv o.
Proof.
  induction 1 as [o H|o samples o' _ IH Hs H|o o' _ IH H].
  - destruct new_ok as (o' & E & Ho). congruence.
  - destruct (samples_ok samples o IH Hs) as (o2 & E & Ho & _). congruence.
  - destruct (opt_dec mp) as [Emp|Emp].
    + unfold optimize_for_all_states, potentials_are_bounded in H. destruct IH as (_ & _ & Em & _). rewrite Em, Emp in H. discriminate.
    + destruct (all_ok o IH Emp) as (o2 & E & Ho & _). congruence.
Qed.
Lemma obtained_good p : obtained solve t mp p -> pgood p.
Proof. intros (o & Ho & E). apply object_oinv in Ho. unfold get_potential_function in E. apply bind_ok in E as ([] & G & E). apply guard_ok in G. inv E. now apply Ho. Qed.

(** ** Dead ends *)
Definition bounded_at (s : state) : Prop := exists b, forall z, psol 0 z -> (potential (wof z) s <= b)%Q.
Lemma plan_bounded s os : state_ok t s -> task_plan_from t s os -> forall z, psol 0 z -> (potential (wof z) s <= qnat (plan_cost t os))%Q.
Proof. intros Hs Hp z Hz. pose proof (plan_bound t Ht Hg mp 0 z ltac:(lra) Hz s os Hp Hs). unfold wof. lra. Qed.
Lemma mp_bounded b s : mp = Some b -> state_ok t s -> bounded_at s.
Proof.
  intros Eb Hs. exists (inject_Z (Z.of_nat (length (numbered s))) * b)%Q. intros z Hz. unfold potential. apply qsum_bound. intros f Hf. unfold wof, Proof_Pot2.wof. eapply bounded_y; eauto. apply fact_x. eapply state_xfact; eauto.
Qed.
Lemma bounded_optimal samples o : (forall s, In s samples -> bounded_at s) -> best_at samples o -> po_optimal o = true.
Proof.
  intros Hb [_ H]. destruct (po_optimal o); [reflexivity|]. exfalso. assert (K : exists b, forall z, psol 0 z -> (sum_at samples z <= b)%Q).
  { clear H. induction samples as [|s r IH]; [exists 0%Q; intros z _; cbn; lra|]. destruct IH as (b & Hr); [intros s' Hs'; apply Hb; now right|]. destruct (Hb s (or_introl eq_refl)) as (c & Hc). exists (c + b)%Q.
    intros z Hz. unfold sum_at in *. cbn [qsum]. specialize (Hr z Hz). specialize (Hc z Hz). lra. }
  destruct K as (b & K). destruct (H eq_refl b) as (z & Hz & L). specialize (K z Hz). lra.
Qed.
Lemma optimal_bounded s o : best_at [s] o -> po_optimal o = true -> bounded_at s.
Proof. intros [H _] E. destruct (H E) as (y & _ & _ & _ & K). exists (sum_at [s] y + tol)%Q. intros z Hz. specialize (K z Hz). unfold sum_at in *. cbn [qsum] in *. lra. Qed.

Lemma weight_fits p y s : fits t p y -> state_ok t s -> (potential (weight p) s == potential (wof y) s)%Q.
Proof.
  intros Hf Hs. unfold potential. apply qsum_ext. intros f Hin. destruct (Hf f (state_xfact t s f Hs Hin)) as (r & H1 & H2). unfold weight. rewrite (nth_error_nth _ _ [] H1), (nth_error_nth _ _ 0%Q H2). reflexivity.
Qed.

(** ** Values *)
Lemma eps_bounds : ((9999 # 1000000) <= epsilon /\ epsilon <= (10001 # 1000000))%Q.
Proof. unfold epsilon, Model_Landmarks.epsilon; split; vm_compute; discriminate. Qed.

(** The value of a function, computed with rounding errors, for a state with a plan. *)
Lemma value_bound rnd u p b s os : pgood p -> Spec_Generators.rounds u rnd -> (0 <= u)%Q -> (0 <= b)%Q -> (forall r q, In r p -> In q r -> - b <= q <= b)%Q ->
  state_ok t s -> task_plan_from t s os -> (qnat n * b <= 2147483640 # 1)%Q -> (Z.of_nat (plan_cost t os) <= 2147483647)%Z ->
  (qnat (n + 1) * (u * (qnat n * b + 3)) + qnat ((length os + 2) * (n + 1)) * tol <= 9 # 1000)%Q ->
  exists v, get_value rnd p s = Ok v /\ (v <= Z.of_nat (plan_cost t os))%Z.
Proof.
  intros (y & Hy & Hf & _) Hr Hu Hb Hpb Hs Hp Hnb Hc He. pose proof (qnat_nonneg n) as Hn0. pose proof eps_bounds as [E1 E2].
  assert (Hyb : forall f, In f (numbered s) -> (- b <= y (pid f) <= b)%Q). { intros f Hin. destruct (Hf f (state_xfact t s f Hs Hin)) as (r & H1 & H2). eapply Hpb; eapply nth_error_In; eauto. }
  assert (Hnb0 : (0 <= qnat n * b)%Q) by (apply Qmult_le_0_compat; auto).
  assert (En : (qnat (n + 1) == qnat n + 1)%Q) by (rewrite qnat_add; change (qnat 1) with 1%Q; ring). rewrite En in He.
  set (e := (u * (qnat n * b + 3))%Q) in *. assert (He0 : (0 <= e)%Q) by (apply Qmult_le_0_compat; lra). assert (HT : (0 <= qnat ((length os + 2) * (n + 1)) * tol)%Q) by (apply Qmult_le_0_compat; auto using qnat_nonneg).
  assert (Ee : (u * (qnat n * b + 2) <= e)%Q). { unfold e. rewrite !(Qmult_comm u). apply Qmult_le_compat_r; [lra|auto]. }
  assert (Em : (qnat n * (u * (qnat n * b + 2)) <= qnat n * e)%Q) by (pose proof (Qmult_le_compat_r _ _ (qnat n) Ee Hn0); lra).
  assert (Hne : (0 <= qnat n * e)%Q) by (apply Qmult_le_0_compat; auto).
  destruct (sum_rounded t rnd u Hr Hu p y Hf s b Hs Hb Hyb) as (h & Eh & [B1 B2] & [H1 H2]); [fold vs; fold n; lra|]. fold vs in B1, B2, H1, H2. fold n in B1, B2, H1, H2.
  pose proof (plan_bound t Ht Hg mp tol y Htol Hy s os Hp Hs) as Hpl. fold vs in Hpl. fold n in Hpl.
  unfold get_value. rewrite Eh. cbn [bind]. destruct (Hr (h - epsilon)%Q (qnat n * b + 2)%Q) as [R1 R2]; [lra|].
  assert (Eq : (u * (qnat n * b + 2 + 1) == e)%Q) by (unfold e; ring). rewrite Eq in R1, R2.
  assert (V1 : (Qceiling (rnd (h - epsilon)%Q) <= Z.of_nat (plan_cost t os))%Z). { apply ceil_le. fold (qnat (plan_cost t os)). lra. }
  assert (V2 : (-2147483648 <= Qceiling (rnd (h - epsilon)%Q))%Z). { rewrite Zle_Qle. pose proof (Qle_ceiling (rnd (h - epsilon)%Q)) as K. change (inject_Z (-2147483648)) with (-2147483648 # 1)%Q. lra. }
  rewrite to_int_ok by lia. eauto.
Qed.
Lemma max_value rnd ps s m : (forall p, In p ps -> exists v, get_value rnd p s = Ok v /\ (v <= m)%Z) -> (0 <= m)%Z -> exists v, potential_max_heuristic rnd ps s = Ok v /\ (0 <= v <= m)%Z.
Proof.
  intros H Hm. unfold potential_max_heuristic. destruct (fold_inv (fun v p => let* w := get_value rnd p s in Ok (Z.max v w)) (fun _ v => (0 <= v <= m)%Z) ps 0%Z) as (v & E & K); [lia| |eauto].
  intros pre p post b Heq Hb. destruct (H p) as (w & Ew & Hw); [rewrite Heq; apply in_or_app; right; now left|]. rewrite Ew. cbn [bind]. eexists. split; [reflexivity|]. lia.
Qed.

(** Values without rounding errors. *)
Lemma value_exact rnd p y s : (forall x, rnd x == x)%Q -> fits t p y -> state_ok t s ->
  get_value rnd p s = to_int (Qceiling (potential (wof y) s - epsilon)%Q).
Proof.
  intros Hex Hf Hs. destruct (sum_exact t rnd p y Hf s Hex Hs) as (h & E & Hh). unfold get_value. rewrite E. cbn [bind]. f_equal. apply Qceiling_comp. rewrite Hex. unfold wof. rewrite Hh. reflexivity.
Qed.
End Task.

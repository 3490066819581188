(** C63: operator-counting heuristics solve the program their constraint generators stand for, and
    are admissible.
    C64: with the exact delete-relaxation constraints, the heuristic is h^+. *)
From Coq Require Import QArith Qround Lqa.
From Verif Require Import Outcome Spec_Task Spec_Relaxation Spec_Projection Spec_PatternCollections Spec_LP Spec_OperatorCounting Model_Task Model_PQ Model_PDB Model_Relaxation Model_LPSolver Model_OperatorCounting Spec_Generators Spec_Cartesian Proof_Cartesian2
  Proof_Task Proof_TaskCheck Prop_DefaultRules Prop_PDB Prop_LMCut Proof_OC1 Proof_OC9 Proof_OC10 Proof_OC11 Proof_OC12 Proof_OC13 Proof_OC14.
Local Open Scope nat_scope.

(** The heuristic objects that exist: created for the options, then any number of evaluations of any
    states, whatever the solver answered.  [lft]: what earlier LM-cut computations left in queue and
    distances. *)
Inductive heuristic_object (P : pqueue) (qe : PQ P) (k : solver_kind) (t : task) (gs : list generator) (int : bool) : oc -> Prop :=
| created : forall fuel h, oc_init P qe k fuel t gs int = Ok h -> heuristic_object P qe k t gs int h
| evaluated : forall h s lft rnd ans v h', heuristic_object P qe k t gs int h -> state_ok t s ->
    (forall i, length (snd (lft i)) = num_props t + 2) -> oc_compute P rnd t lft ans h s = Ok (v, h') ->
    heuristic_object P qe k t gs int h'.

Section C63.
Variables (t : task) (P : pqueue) (bag : PQ P -> list (nat * nat)) (qe : PQ P) (k : solver_kind) (gs : list generator) (int : bool).
Hypothesis Ht : plain_task t.
Hypothesis Hg : NoDup (map fst (t_goal t)).
Hypothesis HP : pq_contract P bag.
Hypothesis Hqe : bag qe = [].
Hypothesis Hgs : gs <> [].
Hypothesis Hok : forall g, In g gs -> generator_supported t g.
Hypothesis Hsv : solver_supported k gs int.
Let n := length (t_ops t).
Let Hok' : Forall (gen_ok t) gs.
Proof. apply Forall_forall. intros g Hin. apply supported_ok. auto. Qed.
Let Hsv' : k = Soplex -> int = false /\ num_lm gs <= 1 /\ (forall g, In g gs -> match g with GRelaxIF _ i | GRelaxRR _ i => i = false | _ => True end).
Proof. exact Hsv. Qed.

Lemma object_inv h : heuristic_object P qe k t gs int h -> oc_inv t k gs int h.
Proof.
  induction 1 as [fuel h H|h s lft rnd ans v h' _ IH Hs Hl H].
  - destruct (oc_init_ok t Ht Hg P bag qe HP Hqe k gs int Hgs Hok' Hsv') as (f0 & Hi). destruct (Hi (max f0 fuel) ltac:(lia)) as (h2 & E2 & HI).
    rewrite (oc_init_more P qe k fuel (max f0 fuel) t gs int h ltac:(lia) H) in E2. inversion E2. subst. exact HI.
  - destruct (oc_step t Ht Hg P bag HP k gs int Hok' Hsv' h s lft IH Hs Hl) as (E0 & dead & sts & sv & E & HI & _).
    unfold oc_compute in H. rewrite E0, E in H. cbn [bind guard fst snd] in H. destruct dead; [inversion H; subst; exact HI|]. destruct ans as [obj|]; [|inversion H; subst; exact HI].
    apply bind_ok in H. destruct H as (r & _ & H). inversion H; subst; exact HI.
Qed.

Lemma init_lemma : exists f0, forall fuel, f0 <= fuel -> exists h, oc_init P qe k fuel t gs int = Ok h.
Proof. destruct (oc_init_ok t Ht Hg P bag qe HP Hqe k gs int Hgs Hok' Hsv') as (f0 & Hi). exists f0. intros fuel L. destruct (Hi fuel L) as (h & E & _). eauto. Qed.

Section Ev.
Variables (h : oc) (s : state) (lft : nat -> PQ P * list nat).
Hypothesis Hh : heuristic_object P qe k t gs int h.
Hypothesis Hs : state_ok t s.
Hypothesis Hl : forall i, length (snd (lft i)) = num_props t + 2.

Lemma program_lemma : match oc_program P t lft h s with
  | None => exists g, In g gs /\ reports_dead t s g
  | Some (vs, cs) => well_formed vs cs /\ exists conds, Forall2 (describes t s) gs conds /\
      (forall y, feasible vs cs y -> solution t int conds y) /\
      (forall x, solution t int conds x -> exists y, feasible vs cs y /\ forall o op, is_op t o op -> (y o == x o)%Q) /\
      forall y, (objective vs y == counts_cost t y)%Q
  end.
Proof.
  destruct (oc_step t Ht Hg P bag HP k gs int Hok' Hsv' h s lft (object_inv h Hh) Hs Hl) as (_ & dead & sts & sv & E & _ & Hd & Hn). unfold oc_program. rewrite E. destruct dead; [auto|].
  destruct (Hn eq_refl) as (nvs & rs & conds & Hobj & -> & -> & HF & Hsem). split; [eapply sem_well_formed; eauto|]. exists conds. splits; auto.
  - intros y Hy. eapply sem_feasible; eauto.
  - intros x Hx. eapply sem_solution; eauto.
  - intros y. rewrite (objective_app _ _ _ Hobj). apply objective_ops.
Qed.
Lemma compute_step rnd ans : match oc_program P t lft h s with
  | None => exists h', oc_compute P rnd t lft ans h s = Ok (DEAD_END, h')
  | Some _ => exists h', forall r, oc_compute P rnd t lft ans h s = Ok (r, h') <-> match ans with None => r = DEAD_END | Some obj => to_int (Qceiling (rnd (obj - epsilon)%Q)) = Ok r end
  end.
Proof.
  destruct (oc_step t Ht Hg P bag HP k gs int Hok' Hsv' h s lft (object_inv h Hh) Hs Hl) as (E0 & dead & sts & sv & E & _). unfold oc_program, oc_compute. rewrite E0, E. cbn [bind guard fst snd].
  destruct dead; [eauto|]. eexists. intros r. destruct ans as [obj|]; [|split; intros H; [inversion H|subst]; reflexivity]. destruct (to_int (Qceiling (rnd (obj - epsilon)%Q))); cbn [bind]; split; intros H; inversion H; reflexivity.
Qed.

Variables (rnd : Q -> Q) (tol : Q) (ans : option Q).
Hypothesis Hrnd : rounds (1 # 9007199254740992) rnd.
Hypothesis Htol : (0 <= tol <= 9 # 1000)%Q.
Hypothesis Hans : forall vs cs, oc_program P t lft h s = Some (vs, cs) -> min_answer tol vs cs ans.

Lemma value_lemma : (exists g, In g gs /\ reports_dead t s g /\ exists h', oc_compute P rnd t lft ans h s = Ok (DEAD_END, h')) \/
  exists conds, Forall2 (describes t s) gs conds /\
    ((forall x, ~ solution t int conds x) -> exists h', oc_compute P rnd t lft ans h s = Ok (DEAD_END, h')) /\
    forall x0, solution t int conds x0 -> (counts_cost t x0 <= inject_Z 2147483646)%Q ->
      exists v h', oc_compute P rnd t lft ans h s = Ok (v, h') /\ (0 <= v)%Z /\
        (forall x, solution t int conds x -> (inject_Z v < counts_cost t x + 1)%Q) /\
        exists x, solution t int conds x /\ (counts_cost t x <= inject_Z v + (1 # 50))%Q.
Proof.
  pose proof program_lemma as HPr. pose proof (compute_step rnd ans) as HC. destruct (oc_program P t lft h s) as [[vs cs]|] eqn:EP.
  2:{ left. destruct HPr as (g & H1 & H2). exists g. splits; auto. }
  right. destruct HPr as (_ & conds & HF & Hf & Hx & Ho). specialize (Hans vs cs eq_refl). exists conds. split; auto. destruct HC as (h' & HC). split.
  - intros Hno. destruct ans as [obj|]; [|exists h'; now apply HC]. destruct Hans as [(x & Hx1 & _) _]. exfalso. exact (Hno x (Hf x Hx1)).
  - intros x0 Hx0 Hc0. destruct ans as [obj|].
    2:{ exfalso. destruct Hans as [Hn|Hn].
        - destruct (Hx x0 Hx0) as (y & Hy & _). exact (Hn y Hy).
        - destruct (Hn 0%Q) as (y & Hy & Hlt). rewrite Ho in Hlt. assert (0 <= counts_cost t y)%Q by (apply counts_cost_nonneg; intros o op Hop; now apply (proj1 (Hf y Hy) o op)). lra. }
    destruct Hans as [(y1 & Hy1 & Hle) Hmin].
    assert (Hlow : forall x, solution t int conds x -> (obj <= counts_cost t x + tol)%Q).
    { intros x Hsx. destruct (Hx x Hsx) as (y & Hy & Heq). specialize (Hmin y Hy). rewrite Ho, (counts_cost_ext t x y Heq) in Hmin. exact Hmin. }
    assert (Hnn : forall x, solution t int conds x -> (0 <= counts_cost t x)%Q) by (intros x [Hsx _]; apply counts_cost_nonneg; intros o op Hop; now apply (Hsx o op)).
    rewrite Ho in Hle. assert (N1 := Hnn _ (Hf _ Hy1)).
    destruct (round_answer rnd tol obj (counts_cost t x0) Hrnd Htol) as (v & Ev & Hv0 & _ & Hv2); [split; [lra|auto]|split; [auto|lra]|].
    exists v, h'. splits; [now apply HC|auto| |].
    + intros x Hsx. destruct (Qlt_le_dec (counts_cost t x) (counts_cost t x0)) as [L|L].
      * destruct (round_answer rnd tol obj (counts_cost t x) Hrnd Htol) as (v' & Ev' & _ & Hv' & _); [split; [lra|auto]|split; [auto|lra]|]. congruence.
      * destruct (round_answer rnd tol obj (counts_cost t x0) Hrnd Htol) as (v' & Ev' & _ & Hv' & _); [split; [lra|auto]|split; [auto|lra]|]. assert (v' = v) by congruence. subst v'. lra.
    + exists y1. split; auto. destruct Htol. lra.
Qed.

Lemma admissible_lemma os : task_plan_from t s os -> (Z.of_nat (plan_cost t os) <= 2147483646)%Z ->
  exists v h', oc_compute P rnd t lft ans h s = Ok (v, h') /\ (0 <= v <= Z.of_nat (plan_cost t os))%Z.
Proof.
  intros Hp Hc. destruct value_lemma as [(g & H1 & H2 & _)|(conds & HF & _ & Hv)].
  { exfalso. exact (dead_no_plan t s g Ht Hs (Hok g H1) H2 os Hp). }
  assert (HS := plan_solution t s os gs conds int Ht Hs Hok Hp HF). assert (HC := plan_counts_cost t s os Hp : (counts_cost t (counts os) == _)%Q).
  destruct (Hv (counts os) HS) as (v & h' & E & H0 & H1 & _); [rewrite HC, <- Zle_Qle; lia|]. exists v, h'. split; auto. split; auto.
  specialize (H1 _ HS). rewrite HC in H1. apply Z.lt_succ_r. rewrite Zlt_Qlt. unfold Z.succ. rewrite inject_Z_plus. exact H1.
Qed.
End Ev.
End C63.

(** C63: creating the heuristic succeeds. *)
Theorem C63_creation : forall t P bag qe k gs int, plain_task t -> NoDup (map fst (t_goal t)) -> pq_contract P bag -> bag qe = [] -> gs <> [] ->
  (forall g, In g gs -> generator_supported t g) -> solver_supported k gs int ->
  exists f0, forall fuel, f0 <= fuel -> exists h, oc_init P qe k fuel t gs int = Ok h.
Proof. intros. eapply init_lemma; eauto. Qed.
Print Assumptions C63_creation.

(** C63: whatever was evaluated before, the program that is solved for a state is well-formed and
    consists of exactly the conditions of the generators for that state on nonnegative (with integer
    operator counts: integral) operator counts; its objective is their cost.  If no program is
    solved, one of the generators found that there is no plan. *)
Theorem C63_program : forall t P bag qe k gs int h s lft, plain_task t -> NoDup (map fst (t_goal t)) -> pq_contract P bag -> bag qe = [] -> gs <> [] ->
  (forall g, In g gs -> generator_supported t g) -> solver_supported k gs int ->
  heuristic_object P qe k t gs int h -> state_ok t s -> (forall i, length (snd (lft i)) = num_props t + 2) ->
  match oc_program P t lft h s with
  | None => exists g, In g gs /\ reports_dead t s g
  | Some (vs, cs) => well_formed vs cs /\ exists conds, Forall2 (describes t s) gs conds /\
      (forall y, feasible vs cs y -> solution t int conds y) /\
      (forall x, solution t int conds x -> exists y, feasible vs cs y /\ forall o op, is_op t o op -> (y o == x o)%Q) /\
      forall y, (objective vs y == counts_cost t y)%Q
  end.
Proof. intros. eapply program_lemma; eauto. Qed.
Print Assumptions C63_program.

(** C63: the value is the least cost of a solution, rounded up (solutions that cost up to 1/50 more
    count as equal); without solution it is a dead end. *)
Theorem C63_value : forall t P bag qe k gs int h s lft rnd tol ans, plain_task t -> NoDup (map fst (t_goal t)) -> pq_contract P bag -> bag qe = [] -> gs <> [] ->
  (forall g, In g gs -> generator_supported t g) -> solver_supported k gs int ->
  heuristic_object P qe k t gs int h -> state_ok t s -> (forall i, length (snd (lft i)) = num_props t + 2) ->
  rounds (1 # 9007199254740992) rnd -> (0 <= tol <= 9 # 1000)%Q ->
  (forall vs cs, oc_program P t lft h s = Some (vs, cs) -> min_answer tol vs cs ans) ->
  (exists g, In g gs /\ reports_dead t s g /\ exists h', oc_compute P rnd t lft ans h s = Ok (DEAD_END, h')) \/
  exists conds, Forall2 (describes t s) gs conds /\
    ((forall x, ~ solution t int conds x) -> exists h', oc_compute P rnd t lft ans h s = Ok (DEAD_END, h')) /\
    forall x0, solution t int conds x0 -> (counts_cost t x0 <= inject_Z 2147483646)%Q ->
      exists v h', oc_compute P rnd t lft ans h s = Ok (v, h') /\ (0 <= v)%Z /\
        (forall x, solution t int conds x -> (inject_Z v < counts_cost t x + 1)%Q) /\
        exists x, solution t int conds x /\ (counts_cost t x <= inject_Z v + (1 # 50))%Q.
Proof. intros. eapply value_lemma; eauto. Qed.
Print Assumptions C63_value.

(** C63: the heuristic is admissible; in particular it never reports a dead end if there is a plan. *)
Theorem C63_admissible : forall t P bag qe k gs int h s lft rnd tol ans os, plain_task t -> NoDup (map fst (t_goal t)) -> pq_contract P bag -> bag qe = [] -> gs <> [] ->
  (forall g, In g gs -> generator_supported t g) -> solver_supported k gs int ->
  heuristic_object P qe k t gs int h -> state_ok t s -> (forall i, length (snd (lft i)) = num_props t + 2) ->
  rounds (1 # 9007199254740992) rnd -> (0 <= tol <= 9 # 1000)%Q ->
  (forall vs cs, oc_program P t lft h s = Some (vs, cs) -> min_answer tol vs cs ans) ->
  task_plan_from t s os -> (Z.of_nat (plan_cost t os) <= 2147483646)%Z ->
  exists v h', oc_compute P rnd t lft ans h s = Ok (v, h') /\ (0 <= v <= Z.of_nat (plan_cost t os))%Z.
Proof. intros. eapply admissible_lemma; eauto. Qed.
Print Assumptions C63_admissible.

(** C63: with LM-cut constraints, every solution costs at least as much as the landmarks found. *)
Theorem C63_lmcut_bound : forall t s c, describes t s GLmCut c -> exists lms : list (list nat * nat),
  (forall L w, In (L, w) lms -> 0 < w /\ action_landmark t s L) /\
  (forall f, In f (t_goal t) -> rreach t (fun o => exists op, is_op t o op /\
     list_sum (map (fun lm => if existsb (Nat.eqb o) (fst lm) then snd lm else 0) lms) = op_cost op) s f) /\
  forall x, (forall o op, is_op t o op -> (0 <= x o)%Q) -> c x -> (inject_Z (Z.of_nat (list_sum (map snd lms))) <= counts_cost t x)%Q.
Proof.
  intros t s c (lms & H1 & H2 & H3 & H4). exists lms. splits.
  - intros L w Hin. destruct (H1 L w Hin) as (A & B & _). auto.
  - exact H3.
  - intros x Hx Hc. eapply Qle_trans; [apply (landmark_bound t lms x Hx)|].
    + intros L w Hin. destruct (H1 L w Hin) as (_ & _ & _ & HN & Hop). splits; auto. exact (proj1 (H4 x) Hc L w Hin).
    + unfold counts_cost. apply opsum_le. intros o op Ho. specialize (Hx o op Ho). specialize (H2 o op Ho). apply Qmult_le_compat_r; auto. rewrite <- Zle_Qle. unfold used. lia.
Qed.
Print Assumptions C63_lmcut_bound.

(** C64: the generators that describe the delete relaxation exactly: their conditions hold iff all
    goals are reached, ignoring deletions, with the operators that are used at least once. *)
Definition exact_relaxation (t : task) (g : generator) : Prop :=
  match g with
  | GRelaxIF time i => time = true /\ i = true
  | GRelaxRR a i => i = true /\ a <> NoAcyclicity /\ no_noop_effects t
  | _ => False
  end.
Theorem C64_exact : forall t s g c, plain_task t -> exact_relaxation t g -> describes t s g c ->
  forall x, (forall o op, is_op t o op -> (0 <= x o)%Q) -> (c x <-> forall f, In f (t_goal t) -> rreach t (fun o => (1 <= x o)%Q) s f).
Proof.
  intros t s g c Ht Hg Hd x Hx. destruct g as [| |pats|time i|a i]; cbn [exact_relaxation describes] in *; try contradiction.
  - destruct Hg as [-> ->]. rewrite (Hd x). now apply exact_if.
  - destruct Hg as (-> & Ha & Hno). destruct Hd as (edges & delta & HV & Hd). rewrite (Hd x). now apply exact_rr.
Qed.
Print Assumptions C64_exact.

(** C64: the value of the heuristic with such a generator alone is h^+. *)
Theorem C64_hplus : forall t P bag qe k g int h s lft rnd tol ans, plain_task t -> NoDup (map fst (t_goal t)) -> pq_contract P bag -> bag qe = [] ->
  exact_relaxation t g -> solver_supported k [g] int ->
  heuristic_object P qe k t [g] int h -> state_ok t s -> (forall i, length (snd (lft i)) = num_props t + 2) ->
  rounds (1 # 9007199254740992) rnd -> (0 <= tol <= 9 # 1000)%Q ->
  (forall vs cs, oc_program P t lft h s = Some (vs, cs) -> min_answer tol vs cs ans) ->
  ((forall os, ~ relaxed_plan t s os) -> exists h', oc_compute P rnd t lft ans h s = Ok (DEAD_END, h')) /\
  forall c, hplus t s c -> (Z.of_nat c <= 2147483646)%Z -> exists h', oc_compute P rnd t lft ans h s = Ok (Z.of_nat c, h').
Proof.
  intros t P bag qe k g int h s lft rnd tol ans Ht Hg HP Hqe He Hsv Hh Hs Hl Hrnd Htol Hans.
  assert (Hok : forall g', In g' [g] -> generator_supported t g').
  { intros g' [<-|[]]. destruct g as [| |pats|time i|[] i]; cbn in *; auto; try contradiction; tauto. }
  destruct (value_lemma t P bag qe k [g] int Ht Hg HP Hqe ltac:(discriminate) Hok Hsv h s lft Hh Hs Hl rnd tol ans Hrnd Htol Hans) as [(g' & [<-|[]] & Hd & _)|(conds & HF & Hno & Hv)].
  { destruct g; cbn in *; contradiction. }
  inversion HF as [|? c0 ? conds0 Hd HF0]; subst. inversion HF0; subst. pose proof (C64_exact t s g c0 Ht He Hd) as HE.
  assert (Hsol : forall os, relaxed_plan t s os -> solution t int [c0] (counts os)).
  { intros os [Hop Hr]. split; [intros; split; [apply counts_nonneg|intros; apply counts_integral]|]. intros c [<-|[]]. apply HE; [intros; apply counts_nonneg|]. intros f Hf. eapply rreach_mono; [|apply (Hr f Hf)]. intros o op _ Hi. cbn beta in *. now apply counts_in. }
  assert (Hneed : forall x, solution t int [c0] x -> relaxed_plan t s (needed t x)).
  { intros x [Hx Hc]. split; [apply needed_op|]. intros f Hf. eapply rreach_mono; [|apply (proj1 (HE x (fun o op Ho => proj1 (Hx o op Ho))) (Hc c0 (or_introl eq_refl)) f Hf)]. intros o op Ho Hi. now apply (needed_in t x o op Ho). }
  split.
  - intros Hn. apply Hno. intros x Hx. exact (Hn _ (Hneed x Hx)).
  - intros c [(os & Hos & Ec) Hmin] Hc. assert (HC := list_cost t os (proj1 Hos)). rewrite Ec in HC.
    destruct (Hv (counts os) (Hsol os Hos)) as (v & h' & E & H0 & H1 & x & Hx & H2); [rewrite HC, <- Zle_Qle; lia|].
    exists h'. rewrite E. f_equal. f_equal. apply Z.le_antisymm.
    + specialize (H1 _ (Hsol os Hos)). rewrite HC in H1. apply Z.lt_succ_r. rewrite Zlt_Qlt. unfold Z.succ. rewrite inject_Z_plus. exact H1.
    + assert (L1 := Hmin _ (ex_intro _ _ (conj (Hneed x Hx) eq_refl))). assert (L2 := needed_cost t x (fun o op Ho => proj1 (proj1 Hx o op Ho))).
      apply Z.lt_succ_r. rewrite Zlt_Qlt. unfold Z.succ. rewrite inject_Z_plus. change (inject_Z 1) with 1%Q.
      assert (inject_Z (Z.of_nat c) <= inject_Z (Z.of_nat (plan_cost t (needed t x))))%Q by (rewrite <- Zle_Qle; lia). lra.
Qed.
Print Assumptions C64_hplus.

(* ---- examples ---- *)
Lemma plain_step t : plain_task t -> NoDup (map fst (t_goal t)) -> forall s o op os s2, state_ok t s -> nth_error (t_ops t) o = Some op -> all_hold s (op_pre op) ->
  task_path t (apply_effects s (op_effs op)) os s2 -> task_path t s (o :: os) s2.
Proof.
  intros (H1 & H2 & H3 & H4) Hg s o op os s2 Hs Ho Hp Hr. eapply task_path_cons; [exists op; auto| |exact Hr]. apply (next_state t); auto; [|eauto].
  unfold cartesian_task. splits; auto. intros op' Ho'. destruct (H4 op' Ho') as (A & B & _). auto.
Qed.
Ltac facts_hold := intros f Hf; cbn in Hf; repeat destruct Hf as [<-|Hf]; try reflexivity; destruct Hf.
Lemma oc_ex_goal : NoDup (map fst (t_goal pdb_ex)). Proof. cbn. repeat constructor; cbn; intuition discriminate. Qed.
Lemma pdb_ex_plan : task_plan_from pdb_ex [0; 0; 0] [0; 1; 2].
Proof.
  exists [2; 1; 1]. split; [|facts_hold].
  do 3 (eapply (plain_step pdb_ex pdb_ex_plain oc_ex_goal); [apply state_okb_ok; reflexivity|reflexivity|facts_hold|cbn]). constructor.
Qed.
Definition oc_ex_gens : list generator := [GStateEquation; GLmCut; GPosthoc [[0; 1]; [2]]; GRelaxIF true true; GRelaxRR VertexElimination true; GRelaxRR TimeLabels false].
Lemma oc_ex_noop : no_noop_effects pdb_ex.
Proof. intros op e Ho He Hi. cbn in Ho. decompose [or] Ho; subst; try contradiction; cbn in He; decompose [or] He; subst; try contradiction; cbn in Hi; decompose [or] Hi; try contradiction; discriminate. Qed.
Lemma oc_ex_supported g : In g oc_ex_gens -> generator_supported pdb_ex g.
Proof.
  cbn [oc_ex_gens In]. intros H. decompose [or] H; subst; try contradiction; cbn [generator_supported]; auto using oc_ex_noop.
  intros pat Hp. split; [apply pattern_ok_ex; cbn in *; tauto|]. cbn [In] in Hp. decompose [or] Hp; subst; try contradiction; vm_compute; discriminate.
Qed.
Definition oc_lft (t : task) : nat -> list (nat * nat) * list nat := fun _ => ([], repeat 9 (num_props t + 2)).
Definition exact_rounding (q : Q) : Q := q.
Lemma exact_rounds : rounds (1 # 9007199254740992) exact_rounding.
Proof. intros x b Hb. unfold exact_rounding. assert (0 <= b)%Q by lra. lra. Qed.
(** For the whole range of generators, the least cost of a solution is 6, the cost of the plan. *)
Lemma oc_ex_answer h : heuristic_object list_pq [] Cplex pdb_ex oc_ex_gens true h ->
  forall vs cs, oc_program list_pq pdb_ex (oc_lft pdb_ex) h [0; 0; 0] = Some (vs, cs) -> min_answer 0 vs cs (Some 6%Q).
Proof.
  intros Hh vs cs E. assert (Hs : state_ok pdb_ex [0; 0; 0]) by (apply state_okb_ok; reflexivity).
  pose proof (C63_program pdb_ex list_pq (fun q => q) [] Cplex oc_ex_gens true h [0; 0; 0] (oc_lft pdb_ex) pdb_ex_plain oc_ex_goal list_pq_contract eq_refl ltac:(discriminate) oc_ex_supported ltac:(discriminate) Hh Hs (fun _ => repeat_length _ _)) as H. rewrite E in H.
  destruct H as (_ & conds & HF & H1 & H2 & H3). split.
  - destruct (H2 (counts [0; 1; 2])) as (y & Hy & Ey); [exact (plan_solution pdb_ex _ _ _ _ true pdb_ex_plain Hs oc_ex_supported pdb_ex_plan HF)|].
    exists y. split; auto. rewrite H3, (counts_cost_ext _ _ _ Ey). vm_compute. discriminate.
  - intros y Hy. rewrite H3. destruct (H1 y Hy) as [Hp Hc]. inversion HF as [|? c ? cs' Hd _]; subst. assert (HS := proj1 (Hd y) (Hc c (or_introl eq_refl))). clear - HS.
    assert (F : forall f o op, (fst f <? 3) && (snd f <? nth (fst f) [3; 2; 2] 0) = true -> is_op pdb_ex o op -> adds op f = true -> (ind (goal_facts pdb_ex f) - ind (in_state ([0; 0; 0])%nat f) <= opsum pdb_ex (fun o op => (ind (adds op f) - ind (consumes op f)) * y o))%Q).
    { intros f o op Hf Ho Ha. apply HS; [now apply fact_ok_pdb_ex|eauto]. }
    assert (A := F (2, 1) 2 _ eq_refl eq_refl eq_refl). assert (B := F (1, 1) 1 _ eq_refl eq_refl eq_refl). assert (C := F (0, 1) 0 _ eq_refl eq_refl eq_refl).
    unfold opsum in *. cbn -[Qmult Qplus Qle Qminus] in *. unfold counts_cost, opsum. cbn -[Qmult Qplus Qle Qminus] in *. change (inject_Z 2) with 2%Q. change (inject_Z 3) with 3%Q. change (inject_Z 1) with 1%Q. lra.
Qed.
Example C63_nonvacuous :
  plain_task pdb_ex /\ NoDup (map fst (t_goal pdb_ex)) /\ pq_contract list_pq (fun q => q) /\ (forall g, In g oc_ex_gens -> generator_supported pdb_ex g) /\ solver_supported Cplex oc_ex_gens true /\
  state_ok pdb_ex [0; 0; 0] /\ task_plan_from pdb_ex [0; 0; 0] [0; 1; 2] /\ plan_cost pdb_ex [0; 1; 2] = 6 /\ rounds (1 # 9007199254740992) exact_rounding /\
  exists h h1 h2, oc_init list_pq [] Cplex 100 pdb_ex oc_ex_gens true = Ok h /\
    oc_compute list_pq exact_rounding pdb_ex (oc_lft pdb_ex) (Some 6%Q) h [0; 0; 0] = Ok (6%Z, h1) /\
    (forall vs cs, oc_program list_pq pdb_ex (oc_lft pdb_ex) h [0; 0; 0] = Some (vs, cs) -> min_answer 0 vs cs (Some 6%Q)) /\
    oc_compute list_pq exact_rounding pdb_ex (oc_lft pdb_ex) (Some 0%Q) h1 [2; 0; 0] = Ok ((-1)%Z, h2) /\
    (forall vs cs, oc_program list_pq pdb_ex (oc_lft pdb_ex) h2 [0; 0; 0] = Some (vs, cs) -> min_answer 0 vs cs (Some 6%Q)).
Proof.
  split; [exact pdb_ex_plain|]. split; [exact oc_ex_goal|]. split; [exact list_pq_contract|]. split; [exact oc_ex_supported|]. split; [discriminate|]. split; [apply state_okb_ok; reflexivity|]. split; [exact pdb_ex_plan|]. split; [reflexivity|]. split; [exact exact_rounds|].
  destruct (oc_init list_pq [] Cplex 100 pdb_ex oc_ex_gens true) as [h| | |] eqn:E0; [|exfalso; revert E0; vm_compute; discriminate..].
  assert (Hh : heuristic_object list_pq [] Cplex pdb_ex oc_ex_gens true h) by (eapply created; eauto).
  destruct (oc_compute list_pq exact_rounding pdb_ex (oc_lft pdb_ex) (Some 6%Q) h [0; 0; 0]) as [[v h1]| | |] eqn:E1.
  2-4: exfalso; assert (K : match (let* h := oc_init list_pq [] Cplex 100 pdb_ex oc_ex_gens true in oc_compute list_pq exact_rounding pdb_ex (oc_lft pdb_ex) (Some 6%Q) h [0; 0; 0]) with Ok _ => True | _ => False end) by (vm_compute; exact I); rewrite E0 in K; cbn [bind] in K; rewrite E1 in K; exact K.
  assert (v = 6%Z). { assert (K : match (let* h := oc_init list_pq [] Cplex 100 pdb_ex oc_ex_gens true in oc_compute list_pq exact_rounding pdb_ex (oc_lft pdb_ex) (Some 6%Q) h [0; 0; 0]) with Ok (v, _) => v = 6%Z | _ => False end) by (vm_compute; reflexivity). rewrite E0 in K. cbn [bind] in K. rewrite E1 in K. exact K. } subst v.
  assert (Hh1 : heuristic_object list_pq [] Cplex pdb_ex oc_ex_gens true h1) by (apply (evaluated list_pq [] Cplex pdb_ex oc_ex_gens true h [0; 0; 0] (oc_lft pdb_ex) _ _ _ _ Hh (state_okb_ok pdb_ex [0; 0; 0] eq_refl) (fun _ => repeat_length _ _) E1)).
  assert (K : match (let* h := oc_init list_pq [] Cplex 100 pdb_ex oc_ex_gens true in let* x := oc_compute list_pq exact_rounding pdb_ex (oc_lft pdb_ex) (Some 6%Q) h [0; 0; 0] in oc_compute list_pq exact_rounding pdb_ex (oc_lft pdb_ex) (Some 0%Q) (snd x) [2; 0; 0]) with Ok (v, _) => v = (-1)%Z | _ => False end) by (vm_compute; reflexivity).
  rewrite E0 in K. cbn [bind] in K. rewrite E1 in K. cbn [bind snd] in K.
  destruct (oc_compute list_pq exact_rounding pdb_ex (oc_lft pdb_ex) (Some 0%Q) h1 [2; 0; 0]) as [[v h2]| | |] eqn:E2; try contradiction. subst v.
  exists h, h1, h2. splits; auto; [now apply oc_ex_answer|]. apply oc_ex_answer. exact (evaluated list_pq [] Cplex pdb_ex oc_ex_gens true h1 [2; 0; 0] (oc_lft pdb_ex) _ _ _ _ Hh1 (state_okb_ok pdb_ex [2; 0; 0] eq_refl) (fun _ => repeat_length _ _) E2).
Qed.

(** The relaxed task of the example needs all three operators: h^+ is 6. *)
Lemma oc_ex_relaxed : forall os, relaxed_plan pdb_ex [0; 0; 0] os -> 6 <= plan_cost pdb_ex os.
Proof.
  intros os [Hop Hr]. assert (H := C64_exact pdb_ex [0; 0; 0] (GRelaxIF true true) (relaxation_if pdb_ex true true [0; 0; 0]) pdb_ex_plain (conj eq_refl eq_refl) (fun x => iff_refl _)).
  assert (A : forall o, In o [0; 1; 2] -> In o os).
  { assert (Inv : forall f, rreach pdb_ex (fun o => In o os) [0; 0; 0] f -> (f = (0, 1) -> In 0 os) /\ (f = (0, 2) -> In 1 os /\ In 0 os) /\ (f = (1, 1) -> In 1 os /\ In 0 os) /\ (f = (2, 1) -> In 2 os)).
    { induction 1 as [f Hf|o op e Ho Hn He _ IH|r [] _ _].
      - splits; intros ->; discriminate Hf.
      - destruct o as [|[|[|o]]]; cbn in Hn; [..|destruct o; discriminate]; injection Hn as <-; cbn [op_effs In] in He; decompose [or] He; subst; try contradiction; cbn [eff_fact]; splits; intros E; try discriminate E; auto.
        + split; auto. refine (proj1 (IH (0, 1) _) eq_refl). now left.
        + split; auto. refine (proj1 (IH (0, 1) _) eq_refl). now left. }
    destruct (Inv (0, 2)) as (_ & I2 & _); [apply Hr; now left|]. destruct (Inv (2, 1)) as (_ & _ & _ & I3); [apply Hr; cbn; tauto|]. destruct (I2 eq_refl). intros o [<-|[<-|[<-|[]]]]; auto. }
  assert (L : forall l, NoDup l -> incl l os -> list_sum (map (fun o => match nth_error (t_ops pdb_ex) o with Some op => op_cost op | None => 0 end) l) <= plan_cost pdb_ex os).
  { clear. unfold plan_cost. induction os as [|a os IH]; intros l HN Hi; [destruct l as [|x l]; [auto|destruct (Hi x (or_introl eq_refl))]|].
    destruct (in_dec Nat.eq_dec a l) as [Ha|Ha].
    - apply in_split in Ha. destruct Ha as (l1 & l2 & ->). apply NoDup_remove in HN. destruct HN as [HN Ha]. specialize (IH _ HN). rewrite map_app, list_sum_app in *. cbn [map list_sum fold_right]. change (fold_right Nat.add 0) with list_sum.
      assert (incl (l1 ++ l2) os). { intros x Hx. destruct (Hi x) as [->|Hx']; auto; [|contradiction]. apply in_app_or in Hx. apply in_or_app. destruct Hx; [now left|right; now right]. } specialize (IH H). lia.
    - specialize (IH l HN). assert (incl l os) by (intros x Hx; destruct (Hi x Hx) as [->|]; auto; contradiction). specialize (IH H). cbn [map list_sum fold_right]. change (fold_right Nat.add 0) with list_sum. lia. }
  apply (L [0; 1; 2]); [repeat constructor; cbn; intuition discriminate|exact A].
Qed.
Example C64_nonvacuous :
  exact_relaxation pdb_ex (GRelaxIF true true) /\ exact_relaxation pdb_ex (GRelaxRR VertexElimination true) /\ exact_relaxation pdb_ex (GRelaxRR TimeLabels true) /\
  solver_supported Cplex [GRelaxRR VertexElimination true] false /\ hplus pdb_ex [0; 0; 0] 6 /\
  (exists h, oc_init list_pq [] Cplex 100 pdb_ex [GRelaxRR VertexElimination true] false = Ok h) /\ (forall os, ~ relaxed_plan pdb_ex [2; 0; 0] os).
Proof.
  split; [split; reflexivity|]. split; [split; [auto|split; [discriminate|exact oc_ex_noop]]|]. split; [split; [auto|split; [discriminate|exact oc_ex_noop]]|]. split; [discriminate|]. split; [|split].
  - split.
    + exists [0; 1; 2]. split; [|reflexivity]. split; [intros o [<-|[<-|[<-|[]]]]; eexists; reflexivity|].
      assert (Hd : forall o op f e, In o [0; 1; 2] -> nth_error (t_ops pdb_ex) o = Some op -> In e (op_effs op) -> eff_fact e = f -> (forall g, In g (op_pre op ++ eff_cond e) -> rreach pdb_ex (fun o => In o [0; 1; 2]) [0; 0; 0] g) -> rreach pdb_ex (fun o => In o [0; 1; 2]) [0; 0; 0] f) by (intros o op f e H1 H2 H3 <- H4; eapply rr_op; eauto).
      assert (R0 : rreach pdb_ex (fun o => In o [0; 1; 2]) [0; 0; 0] (0, 0)) by (apply rr_state; reflexivity).
      assert (R1 : rreach pdb_ex (fun o => In o [0; 1; 2]) [0; 0; 0] (0, 1)) by (eapply (Hd 0); [cbn; tauto|reflexivity|now left|reflexivity|intros g [<-|[]]; auto]).
      assert (R2 : rreach pdb_ex (fun o => In o [0; 1; 2]) [0; 0; 0] (0, 2)) by (eapply (Hd 1); [cbn; tauto|reflexivity|now left|reflexivity|intros g [<-|[]]; auto]).
      intros f [<-|[<-|[<-|[]]]]; auto.
      * eapply (Hd 1); [cbn; tauto|reflexivity|right; now left|reflexivity|intros g [<-|[]]; auto].
      * eapply (Hd 2); [cbn; tauto|reflexivity|now left|reflexivity|intros g [<-|[]]; auto].
    + intros c (os & Hos & <-). now apply oc_ex_relaxed.
  - destruct (oc_init list_pq [] Cplex 100 pdb_ex [GRelaxRR VertexElimination true] false) as [h| | |] eqn:E; [eauto|exfalso; revert E; vm_compute; discriminate..].
  - intros os [_ Hr]. specialize (Hr (1, 1) ltac:(cbn; tauto)). assert (Inv : forall f, rreach pdb_ex (fun o => In o os) [2; 0; 0] f -> f <> (0, 0) /\ f <> (0, 1) /\ f <> (1, 1)).
    { induction 1 as [f Hf|o op e Ho Hn He _ IH|r [] _ _]; [splits; intros ->; discriminate Hf|]. destruct o as [|[|[|o]]]; cbn in Hn; [..|destruct o; discriminate]; injection Hn as <-; cbn [op_effs In] in He; decompose [or] He; subst; try contradiction; cbn [eff_fact].
      - exfalso. exact (proj1 (IH (0, 0) (or_introl eq_refl)) eq_refl).
      - exfalso. exact (proj1 (proj2 (IH (0, 1) (or_introl eq_refl))) eq_refl).
      - exfalso. exact (proj1 (proj2 (IH (0, 1) (or_introl eq_refl))) eq_refl).
      - splits; discriminate. }
    destruct (Inv _ Hr) as (_ & _ & Hne). now apply Hne.
Qed.

(** Without the conditions on the task, creating the heuristic fails: the state equation and the
    vertex elimination cannot handle an effect that repeats a precondition (in the code, an
    assertion fails and an exception is thrown, respectively). *)
Definition noop_ex : task := {|
  t_vars := [{| vdom := 2; vlayer := None; vdefault := 0 |}; {| vdom := 2; vlayer := None; vdefault := 0 |}];
  t_ops := [{| op_pre := [(0, 0)]; op_effs := [{| eff_cond := []; eff_fact := (0, 0) |}; {| eff_cond := []; eff_fact := (1, 1) |}]; op_cost := 1 |}];
  t_rules := []; t_init := [0; 0]; t_goal := [(1, 1)] |}.
Theorem C63_noop_effects_refuted : exists t, plain_task t /\ NoDup (map fst (t_goal t)) /\ task_plan_from t (t_init t) [0] /\
  (forall fuel int, oc_init list_pq [] Cplex fuel t [GStateEquation] int = UB) /\
  (forall fuel int i, oc_init list_pq [] Cplex fuel t [GRelaxRR VertexElimination i] int = UB).
Proof.
  exists noop_ex. assert (Hp : plain_task noop_ex).
  { unfold plain_task. splits; [apply task_okb_ok; reflexivity|reflexivity| |]; cbn [t_vars t_ops noop_ex].
    - intros x [<-|[<-|[]]]; reflexivity.
    - intros op [<-|[]]. unfold op_plain. cbn. splits; [intros e [<-|[<-|[]]]; reflexivity|repeat constructor; cbn; intuition discriminate..|reflexivity]. }
  assert (Hg : NoDup (map fst (t_goal noop_ex))) by (cbn; repeat constructor; cbn; intuition discriminate).
  split; [exact Hp|]. split; [exact Hg|]. split; [|split].
  - exists [0; 1]. split; [|facts_hold]. eapply (plain_step noop_ex Hp Hg); [apply state_okb_ok; reflexivity|reflexivity|facts_hold|cbn]. constructor.
  - intros fuel []; vm_compute; reflexivity.
  - intros fuel [] []; vm_compute; reflexivity.
Qed.
Print Assumptions C63_noop_effects_refuted.

(** The delete-relaxation generators do not check for derived variables.  If a goal is derived, no
    assignment satisfies their constraints, and the heuristic reports a dead end for solvable states. *)
Definition derived_ex : task := {|
  t_vars := [{| vdom := 2; vlayer := None; vdefault := 0 |}; {| vdom := 2; vlayer := Some 0; vdefault := 0 |}];
  t_ops := [{| op_pre := []; op_effs := [{| eff_cond := []; eff_fact := (0, 1) |}]; op_cost := 1 |}];
  t_rules := [{| r_body := [(0, 1)]; r_head := (1, 1) |}]; t_init := [0; 0]; t_goal := [(1, 1)] |}.
Definition derived_program : option (list lpvar * list lpcon) := Eval vm_compute in
  match oc_init list_pq [] Cplex 0 derived_ex [GRelaxIF false false] false with
  | Ok h => oc_program list_pq derived_ex (oc_lft derived_ex) h [0; 0]
  | _ => None
  end.
Theorem C63_derived_variables_refuted : exists t s os h vs cs, task_ok t /\ state_ok t s /\ task_plan_from t s os /\
  oc_init list_pq [] Cplex 0 t [GRelaxIF false false] false = Ok h /\
  oc_program list_pq t (oc_lft t) h s = Some (vs, cs) /\ min_answer 0 vs cs None /\
  exists h', oc_compute list_pq exact_rounding t (oc_lft t) None h s = Ok (DEAD_END, h').
Proof.
  assert (Hk : task_ok derived_ex) by (apply task_okb_ok; reflexivity).
  destruct (oc_init list_pq [] Cplex 0 derived_ex [GRelaxIF false false] false) as [h| | |] eqn:E0; [|exfalso; revert E0; vm_compute; discriminate..].
  assert (EP : oc_program list_pq derived_ex (oc_lft derived_ex) h [0; 0] = derived_program).
  { assert (K : match oc_init list_pq [] Cplex 0 derived_ex [GRelaxIF false false] false with Ok h => oc_program list_pq derived_ex (oc_lft derived_ex) h [0; 0] = derived_program | _ => False end) by (vm_compute; reflexivity). rewrite E0 in K. exact K. }
  assert (EC : match oc_compute list_pq exact_rounding derived_ex (oc_lft derived_ex) None h [0; 0] with Ok (v, _) => v = DEAD_END | _ => False end).
  { assert (K : match oc_init list_pq [] Cplex 0 derived_ex [GRelaxIF false false] false with Ok h => match oc_compute list_pq exact_rounding derived_ex (oc_lft derived_ex) None h [0; 0] with Ok (v, _) => v = DEAD_END | _ => False end | _ => False end) by (vm_compute; reflexivity). rewrite E0 in K. exact K. }
  unfold derived_program in EP. match type of EP with _ = Some (?vs, ?cs) => exists derived_ex, [0; 0], [0], h, vs, cs end. splits; auto.
  - apply state_okb_ok; reflexivity.
  - exists [1; 1]. split; [|facts_hold]. apply task_path_cons with [1; 1]; [| |constructor].
    + eexists. split; [reflexivity|]. intros f [].
    + eapply one_step; [reflexivity|]. apply (evaluatedb_ok derived_ex [1; 0] [1; 1] Hk); [discriminate|apply state_okb_ok; reflexivity|vm_compute; reflexivity].
  - left. intros y [Hv Hc]. destruct (Hv 5 _ eq_refl) as (A & _). assert (B := Hc _ (or_intror (or_intror (or_intror (or_introl eq_refl))))). destruct B as [B _]. cbn in A, B. lra.
  - destruct (oc_compute list_pq exact_rounding derived_ex (oc_lft derived_ex) None h [0; 0]) as [[v h']| | |]; try contradiction. subst. eauto.
Qed.
Print Assumptions C63_derived_variables_refuted.

(** With SoPlex, only the constraints added last are removed after an evaluation.  With two LM-cut
    generators, constraints of a state stay in the program, and the value of a goal state is 1. *)
Definition stale_ex : task := {|
  t_vars := [{| vdom := 2; vlayer := None; vdefault := 0 |}];
  t_ops := [{| op_pre := [(0, 0)]; op_effs := [{| eff_cond := []; eff_fact := (0, 1) |}]; op_cost := 1 |}];
  t_rules := []; t_init := [0]; t_goal := [(0, 1)] |}.
Definition stale_run {A} (f : oc -> A) : option A :=
  match oc_init list_pq [] Soplex 0 stale_ex [GLmCut; GLmCut] false with
  | Ok h => match oc_compute list_pq exact_rounding stale_ex (oc_lft stale_ex) (Some 1%Q) h [0] with Ok (_, h1) => Some (f h1) | _ => None end
  | _ => None
  end.
Definition stale_program : option (list lpvar * list lpcon) := Eval vm_compute in
  match stale_run (fun h1 => oc_program list_pq stale_ex (oc_lft stale_ex) h1 [1]) with Some x => x | None => None end.
Theorem C63_stale_constraints_refuted : exists t h s vs cs, plain_task t /\ NoDup (map fst (t_goal t)) /\
  heuristic_object list_pq [] Soplex t [GLmCut; GLmCut] false h /\ state_ok t s /\ goal_state t s /\
  oc_program list_pq t (oc_lft t) h s = Some (vs, cs) /\ min_answer 0 vs cs (Some 1%Q) /\
  exists h', oc_compute list_pq exact_rounding t (oc_lft t) (Some 1%Q) h s = Ok (1%Z, h').
Proof.
  assert (Hp : plain_task stale_ex).
  { unfold plain_task. splits; [apply task_okb_ok; reflexivity|reflexivity| |]; cbn [t_vars t_ops stale_ex].
    - intros x [<-|[]]; reflexivity.
    - intros op [<-|[]]. unfold op_plain. cbn. splits; [intros e [<-|[]]; reflexivity|repeat constructor; cbn; intuition discriminate..|reflexivity]. }
  assert (K1 : stale_run (fun h1 => oc_program list_pq stale_ex (oc_lft stale_ex) h1 [1]) = Some stale_program) by (vm_compute; reflexivity).
  assert (K2 : stale_run (fun h1 => match oc_compute list_pq exact_rounding stale_ex (oc_lft stale_ex) (Some 1%Q) h1 [1] with Ok (v, _) => Z.eqb v 1 | _ => false end) = Some true) by (vm_compute; reflexivity).
  unfold stale_run in *. destruct (oc_init list_pq [] Soplex 0 stale_ex [GLmCut; GLmCut] false) as [h| | |] eqn:E0; try discriminate.
  destruct (oc_compute list_pq exact_rounding stale_ex (oc_lft stale_ex) (Some 1%Q) h [0]) as [[v h1]| | |] eqn:E1; try discriminate.
  unfold stale_program in K1. match type of K1 with _ = Some (Some (?vs, ?cs)) => exists stale_ex, h1, [1], vs, cs end.
  split; [exact Hp|]. split; [cbn; repeat constructor; cbn; intuition discriminate|]. split; [|split; [apply state_okb_ok; reflexivity|split; [facts_hold|split; [congruence|split]]]].
  - exact (evaluated list_pq [] Soplex stale_ex [GLmCut; GLmCut] false h [0] (oc_lft stale_ex) _ _ _ _ (created _ _ _ _ _ _ _ _ E0) (state_okb_ok stale_ex [0] eq_refl) (fun _ => repeat_length _ _) E1).
  - split.
    + exists (fun _ => 1%Q). split; [split|].
      * intros i x Hi. destruct i as [|i]; [|destruct i; discriminate Hi]. injection Hi as <-. unfold var_ok. cbn. splits; auto; [discriminate|discriminate].
      * intros c [<-|[]]. split; cbn; auto. discriminate.
      * vm_compute. discriminate.
    + intros x [_ Hc]. destruct (Hc _ (or_introl eq_refl)) as [A _]. cbn in A. unfold objective. cbn. lra.
  - destruct (oc_compute list_pq exact_rounding stale_ex (oc_lft stale_ex) (Some 1%Q) h1 [1]) as [[v' h2]| | |]; try discriminate. injection K2 as K2. apply Z.eqb_eq in K2. subst. eauto.
Qed.
Print Assumptions C63_stale_constraints_refuted.

(** Without the condition on effects, the time labels do not exclude that an operator supports its own
    precondition: here the constraints are satisfiable although the goal is unreachable. *)
Definition self_ex : task := {|
  t_vars := [{| vdom := 2; vlayer := None; vdefault := 0 |}];
  t_ops := [{| op_pre := [(0, 1)]; op_effs := [{| eff_cond := []; eff_fact := (0, 1) |}]; op_cost := 1 |}];
  t_rules := []; t_init := [0]; t_goal := [(0, 1)] |}.
Theorem C64_self_support_refuted : exists t s x, plain_task t /\ state_ok t s /\ (forall o, (0 <= x o)%Q) /\
  (exists f fa, relaxation_rr t true s x f fa /\ time_labels t true fa) /\ forall os, ~ relaxed_plan t s os.
Proof.
  exists self_ex, [0], (fun _ => 1%Q).
  assert (Hop : forall o op, is_op self_ex o op -> o = 0 /\ op = {| op_pre := [(0, 1)]; op_effs := [{| eff_cond := []; eff_fact := (0, 1) |}]; op_cost := 1 |}).
  { unfold is_op. intros [|[|o]] op H; cbn in H; try discriminate. injection H as <-. auto. }
  assert (Hf : forall f, is_fact self_ex f -> f = (0, 0) \/ f = (0, 1)).
  { intros [v d] (x & Hv & Hd). unfold is_var in Hv. destruct v as [|v]; [|destruct v; discriminate]. injection Hv as <-. cbn in Hd. destruct d as [|[|d]]; [auto|auto|lia]. }
  assert (I1 : integral 1) by (exists 1%Z; reflexivity).
  split; [|split; [apply state_okb_ok; reflexivity|split; [intros; lra|split]]].
  - unfold plain_task. splits; [apply task_okb_ok; reflexivity|reflexivity| |]; cbn [t_vars t_ops self_ex].
    + intros x [<-|[]]; reflexivity.
    + intros op [<-|[]]. unfold op_plain. cbn. splits; [intros e [<-|[]]; reflexivity|repeat constructor; cbn; intuition discriminate..|reflexivity].
  - exists (fun _ => 1%Q), (fun _ _ => 1%Q). split; [unfold relaxation_rr; splits|].
    + intros. unfold ranges. splits; auto; lra.
    + intros. unfold ranges. splits; auto; lra.
    + intros p Hp. destruct (Hf p Hp) as [->| ->]; vm_compute; reflexivity.
    + intros p q Hp Hq Hne. destruct (Hf p Hp) as [->| ->], (Hf q Hq) as [->| ->]; try congruence; vm_compute; discriminate.
    + intros. lra.
    + intros. lra.
    + exists (fun _ => 1%Q). split.
      * intros p _. unfold ranges. splits; [lra|vm_compute; discriminate|auto].
      * intros o op p q Ho Hq Ha Hne. destruct (Hop o op Ho) as [_ ->]. destruct Hq as [<-|[]]. unfold adds in Ha. cbn in Ha. destruct p as [v d]. unfold feqb in Ha. cbn [fst snd] in Ha. exfalso. apply Hne. rewrite orb_false_r in Ha. apply andb_true_iff in Ha. destruct Ha as [A B]. apply Nat.eqb_eq in A, B. congruence.
  - intros os [_ Hr]. assert (Inv : forall f, rreach self_ex (fun o => In o os) [0] f -> f <> (0, 1)); [|exact (Inv _ (Hr (0, 1) (or_introl eq_refl)) eq_refl)].
    induction 1 as [f Hh|o op e Ho Hn He _ IH|r [] _ _]; [intros ->; discriminate Hh|].
    destruct (Hop o op Hn) as [_ ->]. destruct He as [<-|[]]. exact (IH (0, 1) (or_introl eq_refl)).
Qed.
Print Assumptions C64_self_support_refuted.

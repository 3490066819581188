(** C21 for complete configurations: A-star with a concrete admissible heuristic returns an optimal
    plan of the task whenever there is a plan.  Each heuristic is the modelled code (C32, C35,
    C39-C42); the theorems also say that it returns a value in every state. *)
From Verif Require Import Outcome Spec_Task Spec_Relaxation Spec_Plan Model_Task Model_TaskSpace Proof_TaskSpace Model_SearchSpace Model_Eager Model_Controller Prop_Stubborn.
From Verif Require Import Model_PQ Spec_Relaxation Model_Relaxation Prop_Relaxation Model_LMCut Prop_LMCut Spec_Projection Spec_PatternCollections Model_PDB Model_PatternCollections Prop_PDB Spec_HM Model_HM Prop_HM.

Definition value_of (v : outcome (option nat)) : option nat := match v with Ok x => x | _ => None end.

(** A-star with evaluator [h] on task [t] terminates with an optimal plan. *)
Definition astar_optimal (t : task) (h : state -> outcome (option nat)) : Prop :=
  (forall s, state_ok t s -> exists v, h s = Ok v) /\
  forall (init : wstate t) reliable, (exists os, task_plan_from t (proj1_sig init) os) ->
  exists n plan st,
    (forall fuel, n <= fuel -> astar (task_space t init) (fun s => value_of (h (proj1_sig s))) reliable (astar_config NORMAL false None) fuel = Ok (SOLVED plan st)) /\
    task_plan_from t (proj1_sig init) plan /\
    forall os, task_plan_from t (proj1_sig init) os -> plan_cost t plan <= plan_cost t os.
Lemma astar_from_admissible t h : task_ok t -> no_derived t ->
  (forall s, state_ok t s -> exists v, h s = Ok v /\ forall os, task_plan_from t s os -> exists x, v = Some x /\ x <= plan_cost t os) -> astar_optimal t h.
Proof.
  intros Htk Hnd H. split; [intros s Hs; destruct (H s Hs) as (v & E & _); eauto|]. intros init rel Hsol. apply C21_astar_on_task_is_optimal; auto.
  intros s os Hos. destruct (H _ (wstate_ok t s)) as (v & E & Hv). rewrite E. cbn [value_of]. auto.
Qed.

Theorem C21_astar_hmax_is_optimal P bag q0 t by0 : pq_contract P bag -> task_ok t -> relax_ok t -> no_derived t -> length by0 = num_props t ->
  astar_optimal t (hmax P t q0 by0).
Proof. intros HP Htk Hr Hn Hb. apply astar_from_admissible; auto. intros s Hs. exact (C32_hmax_admissible P bag HP t s q0 by0 Hr Hs Hb Hn). Qed.
Print Assumptions C21_astar_hmax_is_optimal.

Theorem C21_astar_lmcut_is_optimal P bag q0 t h0 : pq_contract P bag -> task_ok t -> lmcut_task t -> length h0 = num_props t + 2 ->
  astar_optimal t (lmcut P t q0 h0).
Proof.
  intros HP Htk Ht Hh. apply astar_from_admissible; auto; [exact (proj1 (proj2 Ht))|]. intros s Hs. destruct (C35_lmcut P bag HP t s q0 h0 Ht Hs Hh) as (r & _ & E & _ & Hno & Hr). exists (option_map (fun lms => list_sum (map snd lms)) r). split; [exact E|].
  intros os Hos. destruct r as [lms|]; [|destruct (Hno eq_refl os Hos)]. destruct (Hr lms eq_refl) as (_ & _ & _ & A & _). exists (list_sum (map snd lms)). split; [reflexivity|auto].
Qed.
Print Assumptions C21_astar_lmcut_is_optimal.

Lemma adm_value t s v : admissible_value t s v -> forall os, task_plan_from t s os -> exists x, v = Some x /\ x <= plan_cost t os.
Proof. intros H os Hos. destruct v as [c|]; cbn in H; [exists c; split; auto|destruct (H os Hos)]. Qed.
Lemma plain_nd t : plain_task t -> no_derived t.
Proof. intros (_ & A & B & _). split; auto. intros v. unfold layer_of. destruct (nth_error (t_vars t) v) eqn:E; auto. apply B. eapply nth_error_In; eauto. Qed.

Theorem C21_astar_pdb_is_optimal P bag q0 t pat : pq_contract P bag -> bag q0 = [] -> plain_task t -> pattern_ok t pat -> (pattern_size t pat <= MAX_STATES)%Z ->
  exists f0, forall fuel, f0 <= fuel -> exists db, compute_pdb P q0 fuel t pat [] = Ok db /\ astar_optimal t (pdb_value db).
Proof.
  intros HP Hq Ht Hp Hs. destruct (C40_pdb_admissible P bag q0 t pat [] HP Hq Ht Hp (or_introl eq_refl)) as [f0 H]; auto; [intros o c op Ho; destruct o; discriminate|]. exists f0. intros fuel Hf. destruct (H fuel Hf) as (db & E & Hv). exists db. split; auto.
  apply astar_from_admissible; [exact (proj1 Ht)|now apply plain_nd|]. intros s Hst. destruct (Hv s Hst) as (v & Ev & Ha). exists v. split; auto. exact (adm_value t s v Ha).
Qed.
Print Assumptions C21_astar_pdb_is_optimal.

Theorem C21_astar_canonical_pdbs_is_optimal P bag q0 t pats : pq_contract P bag -> bag q0 = [] -> plain_task t -> Forall (pattern_ok t) pats -> Forall (fun p => pattern_size t p <= MAX_STATES)%Z pats ->
  exists f0, forall fuel, f0 <= fuel -> exists dbs cliques, canonical_databases P q0 fuel t pats None = Ok (dbs, cliques) /\ astar_optimal t (canonical_value dbs cliques).
Proof.
  intros HP Hq Ht Hp Hs. destruct (C41_canonical P bag q0 t pats HP Hq Ht Hp Hs) as [f0 H]. exists f0. intros fuel Hf. destruct (H fuel Hf) as (dbs & cs & E & Hv). exists dbs, cs. split; auto.
  apply astar_from_admissible; [exact (proj1 Ht)|now apply plain_nd|]. intros s Hst. destruct (Hv s Hst) as (v & Ev & _ & Ha). exists v. split; auto. exact (adm_value t s v Ha).
Qed.
Print Assumptions C21_astar_canonical_pdbs_is_optimal.

Theorem C21_astar_zero_one_pdbs_is_optimal P bag q0 t pats : pq_contract P bag -> bag q0 = [] -> plain_task t -> Forall (pattern_ok t) pats -> Forall (fun p => pattern_size t p <= MAX_STATES)%Z pats ->
  exists f0, forall fuel, f0 <= fuel -> exists dbs, zero_one_pdbs P q0 fuel t pats = Ok dbs /\ astar_optimal t (zero_one_value dbs).
Proof.
  intros HP Hq Ht Hp Hs. destruct (C42_zero_one P bag q0 t pats HP Hq Ht Hp Hs) as (css & _ & _ & f0 & H). exists f0. intros fuel Hf. destruct (H fuel Hf) as (dbs & E & Hv). exists dbs. split; auto.
  apply astar_from_admissible; [exact (proj1 Ht)|now apply plain_nd|]. intros s Hst. destruct (Hv s Hst) as (hs & v & Ev & _ & _ & Ha). exists v. split; auto. exact (adm_value t s v Ha).
Qed.
Print Assumptions C21_astar_zero_one_pdbs_is_optimal.

(** Only finitely many states: one bound on the number of table sweeps suffices for all of them. *)
Theorem C21_astar_hm_is_optimal m t : hm_task t -> 1 <= m -> exists f0, forall fuel, f0 <= fuel -> astar_optimal t (hm_heuristic fuel t m).
Proof.
  intros Ht Hm. destruct (all_wstates t) as [l Hl].
  assert (G : forall l : list (wstate t), exists f0, forall s, In s l -> forall fuel, f0 <= fuel -> exists v, hm_heuristic fuel t m (proj1_sig s) = Ok v).
  { induction l0 as [|s l0 [f0 IH]]; [exists 0; intros ? []|]. destruct (C39_hm_exact m t (proj1_sig s) Ht Hm (wstate_ok t s)) as (f1 & v & Hv & _). exists (f0 + f1). intros x [<-|Hx] fuel Hf; [exists v; apply Hv; lia|apply IH; auto; lia]. }
  destruct (G l) as [f0 H]. exists f0. intros fuel Hf. pose proof Ht as (Htk & Hnd & _). apply astar_from_admissible; auto. intros s Hs.
  destruct (H (exist _ s (proj2 (state_okb_spec t s) Hs)) (Hl _) fuel Hf) as [v E]. cbn [proj1_sig] in E. exists v. split; auto. exact (C39_hm_admissible fuel m t s v Ht Hm Hs E).
Qed.
Print Assumptions C21_astar_hm_is_optimal.

(** The hypotheses hold for the example tasks of the heuristics; here a run of the whole planner. *)
Example C21_task_nonvacuous :
  match astar (task_space stub_ex (exist _ [0; 0; 0] eq_refl)) (fun s => value_of (hmax list_pq stub_ex [] (repeat None (num_props stub_ex)) (proj1_sig s))) true (astar_config NORMAL false None) 20 with
  | Ok (SOLVED plan _) => plan_cost stub_ex plan = 4
  | _ => False
  end.
Proof. vm_compute. reflexivity. Qed.

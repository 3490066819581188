(** C75: the plan computed along with a pattern database is an optimal abstract plan. *)
From Coq Require Import Permutation.
From Verif Require Import Outcome Spec_Task Spec_Relaxation Spec_Projection Spec_PatternCollections Spec_PDBPlan Model_PQ Model_PDB Model_PDBPlan
  Proof_MixedRadix Proof_PDB1 Proof_PDB3 Proof_PDBPlan2 Proof_TaskCheck Prop_PDB.
Import ListNotations.

(** Asking for a plan does not change the database.  If the projection has no plan for the initial
    state, the plan is empty; otherwise every choice of operators from its steps is a plan of the
    projection with the cost in the database.  Wildcard plans list all operators of the same cost for
    each step; other plans have one operator in each step. *)
Theorem C75_pdb_plan P bag q0 t pat costs shuffle choose wildcard :
  pq_contract P bag -> bag q0 = [] -> plain_task t -> pattern_ok t pat -> (costs = [] \/ length costs = length (t_ops t)) ->
  (pattern_size t pat <= MAX_STATES)%Z ->
  (forall i l, Permutation (shuffle i l) l) -> (forall i l, l <> [] -> choose i l < length l) ->
  let T := project t pat (costs_of t costs) in
  exists f0, forall fuel, f0 <= fuel -> exists db plan v,
    compute_pdb_and_plan P q0 shuffle choose fuel t pat costs wildcard = Ok (db, plan) /\
    compute_pdb P q0 fuel t pat costs = Ok db /\ pdb_value db (t_init t) = Ok v /\ perfect_value T (proj_state pat (t_init t)) v /\
    match v with
    | None => plan = []
    | Some c => wildcard_plan T (proj_state pat (t_init t)) plan c /\
                (if wildcard then complete_steps T (proj_state pat (t_init t)) plan else forall step, In step plan -> length step = 1)
    end.
Proof.
  intros HP Hq Ht Hpat Hc Hs Hsh Hch. cbv zeta. rewrite size_fits in Hs.
  assert (Hl : length (costs_of t costs) = length (t_ops t)).
  { unfold costs_of. destruct costs; [apply map_length|]. destruct Hc; [discriminate|auto]. }
  destruct (compute_pdb_and_plan_ok t Ht pat Hpat (costs_of t costs) Hl P bag HP q0 costs Hq Hs eq_refl) as (f0 & H).
  exists f0. intros fuel Hf. destruct (H fuel shuffle choose wildcard Hf Hsh Hch) as (db & plan & E1 & E2 & Epj & Elen & Hperf & Hplan).
  assert (Hinit : state_ok t (t_init t)) by (destruct Ht as ((_ & _ & _ & H0 & _) & _); exact H0).
  exists db, plan, (nth (horner (pdoms t pat) (proj_state pat (t_init t))) (db_dist db) None). splits; auto.
  - now apply (pdb_value_ok t pat Hpat).
  - apply Hperf. now apply (proj_state_range t pat Hpat).
  - destruct (nth (horner (pdoms t pat) (proj_state pat (t_init t))) (db_dist db) None); auto. destruct Hplan as [A B]. split; auto.
    destruct wildcard; auto. now rewrite Forall_forall in B.
Qed.
Print Assumptions C75_pdb_plan.

(** Two operators make the same transition at the same cost, a third at a higher one. *)
Definition plan_ex : task := {| t_vars := repeat {| vdom := 3; vlayer := None; vdefault := 0 |} 2;
  t_ops := [{| op_pre := [(0, 0)]; op_effs := [{| eff_cond := []; eff_fact := (0, 1) |}]; op_cost := 2 |};
            {| op_pre := [(0, 0); (1, 1)]; op_effs := [{| eff_cond := []; eff_fact := (0, 1) |}]; op_cost := 2 |};
            {| op_pre := []; op_effs := [{| eff_cond := []; eff_fact := (0, 1) |}]; op_cost := 3 |};
            {| op_pre := [(0, 1)]; op_effs := [{| eff_cond := []; eff_fact := (0, 2) |}]; op_cost := 0 |}];
  t_rules := []; t_init := [0; 0]; t_goal := [(0, 2)] |}.
Lemma plan_ex_plain : plain_task plan_ex.
Proof.
  unfold plain_task. splits; [apply task_okb_ok; vm_compute; reflexivity|reflexivity| |].
  - cbn [t_vars plan_ex]. intros x Hx. apply repeat_spec in Hx. now subst.
  - cbn [t_ops plan_ex]. intros op Ho. cbn [In] in Ho. decompose [or] Ho; subst; try contradiction; unfold op_plain; cbn [op_pre op_effs];
      (split; [intros e He; cbn [In] in He; decompose [or] He; subst; try contradiction; reflexivity|]);
      repeat split; try reflexivity; cbn [map fst eff_fact]; repeat constructor; cbn [In]; intuition discriminate.
Qed.
Example C75_nonvacuous : plain_task plan_ex /\ pattern_ok plan_ex [0] /\ Z.le (pattern_size plan_ex [0]) MAX_STATES /\ pq_contract list_pq (fun q => q) /\
  (forall (i : nat) (l : list nat), Permutation (rev l) l) /\ (forall (i : nat) (l : list nat), l <> [] -> length l - 1 < length l) /\
  (exists db, compute_pdb_and_plan list_pq [] (fun _ l => rev l) (fun _ l => length l - 1) 100 plan_ex [0] [] true = Ok (db, [[1; 0]; [3]])) /\
  (exists db, compute_pdb_and_plan list_pq [] (fun _ l => rev l) (fun _ l => length l - 1) 100 plan_ex [0] [] false = Ok (db, [[1]; [3]])).
Proof.
  splits; [exact plan_ex_plain|split; [repeat constructor|intros v [<-|[]]; cbn; lia]|vm_compute; discriminate|exact list_pq_contract|intros _ l; symmetry; apply Permutation_rev| |eexists; vm_compute; reflexivity|eexists; vm_compute; reflexivity].
  intros _ [|x l] H; [congruence|cbn [length]; lia].
Qed.

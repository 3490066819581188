(** C73: the systematic pattern generator lists exactly the patterns it promises. *)
From Coq Require Import Sorting Permutation Relations.
From Verif Require Import Outcome Spec_Task Spec_CausalGraph Spec_Patterns Model_CausalGraph Model_Patterns Proof_TaskCheck Proof_Pat1 Proof_Pat3 Proof_Pat4 Prop_Axioms.
Import ListNotations.

(** With only_interesting_patterns, for every order in which unordered sets are enumerated: the
    generator ends, and lists every interesting pattern of up to [k] variables once, and nothing
    else. *)
Theorem C73_interesting_patterns : forall t k order fuel, task_ok t -> 1 <= k -> (forall i l, Permutation l (order i l)) -> 2 ^ length (t_vars t) < fuel ->
  exists out, systematic_patterns order k true fuel t = Ok out /\ NoDup out /\
    forall p, In p out <-> pattern_of t p /\ interesting t p /\ length p <= k.
Proof.
  intros t k order fuel Hok Hk Ho Hf. destruct (build_patterns_ok t k order fuel Hok Hk Ho Hf) as (out & E & N & H). unfold systematic_patterns. rewrite E. cbn [bind].
  rewrite validate_patterns_id by (intros p Hp; now apply H). exists out. auto.
Qed.
Print Assumptions C73_interesting_patterns.

(** Without it: every pattern of up to [k] variables once, smaller patterns first. *)
Theorem C73_all_patterns : forall t k order fuel,
  exists out, systematic_patterns order k false fuel t = Ok out /\ NoDup out /\
    StronglySorted (fun a b => length a <= length b) out /\
    forall p, In p out <-> pattern_of t p /\ length p <= k.
Proof.
  intros t k order fuel. destruct (naive_ok t k) as (out & E & N & Ss & H). unfold systematic_patterns. rewrite E. cbn [bind].
  rewrite validate_patterns_id by (intros p Hp; now apply H). exists out. auto.
Qed.
Print Assumptions C73_all_patterns.

(** Patterns given by the user: a pattern with a number that is no variable ends the planner with the
    exit code 32 (critical error); any other one is put in increasing order without repetitions. *)
Theorem C73_normalisation : forall n p,
  ((forall v, In v p -> (0 <= v < Z.of_nat n)%Z) ->
    exists q, validate_and_normalize_pattern n p = Ok q /\ StronglySorted lt q /\ forall v, In v q <-> In (Z.of_nat v) p) /\
  ((exists v, In v p /\ ~ (0 <= v < Z.of_nat n)%Z) -> validate_and_normalize_pattern n p = Exit 32).
Proof. exact validate_spec. Qed.
Print Assumptions C73_normalisation.
Example C73_normalisation_nonvacuous :
  validate_and_normalize_pattern 5 [3; 1; 3; 0]%Z = Ok [0; 1; 3] /\ validate_and_normalize_pattern 5 [3; -1]%Z = Exit 32 /\ validate_and_normalize_pattern 5 [5]%Z = Exit 32.
Proof. vm_compute. auto. Qed.

(** A transport-like task: variables 1 and 3 are goals; 0 is needed for 1, 2 for 0; 1 and 3 are
    changed by one operator; 4 is needed for nothing. *)
Definition pat_var := {| vdom := 2; vlayer := None; vdefault := 0 |}.
Definition pat_op pre effs := {| op_pre := pre; op_effs := map (fun f => {| eff_cond := []; eff_fact := f |}) effs; op_cost := 1 |}.
Definition pat_task : task := {| t_vars := repeat pat_var 5; t_init := [0; 0; 0; 0; 0]; t_goal := [(1, 1); (3, 1)];
  t_ops := [pat_op [(0, 1)] [(1, 1)]; pat_op [(2, 1)] [(0, 1)]; pat_op [] [(1, 1); (3, 1)]; pat_op [(0, 1)] [(4, 1)]; pat_op [] [(2, 1)]]; t_rules := [] |}.
Example C73_nonvacuous : task_ok pat_task /\ (forall (i : nat) (l : list nat), Permutation l l) /\
  systematic_patterns (fun _ l => l) 3 true 33 pat_task = Ok [[1]; [3]; [0; 1]; [0; 1; 2]; [1; 3]; [0; 1; 3]].
Proof. split; [apply task_okb_ok; vm_compute; reflexivity|]. split; [auto|vm_compute; reflexivity]. Qed.
Example C73_all_nonvacuous : systematic_patterns (fun _ l => l) 2 false 0 pat_task =
  Ok [[0]; [1]; [2]; [3]; [4]; [0; 1]; [0; 2]; [0; 3]; [0; 4]; [1; 2]; [1; 3]; [1; 4]; [2; 3]; [2; 4]; [3; 4]].
Proof. vm_compute. reflexivity. Qed.

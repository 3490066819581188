(** C74: the greedy and the random pattern generator. *)
From Coq Require Import Sorting Permutation Relations.
From Verif Require Import Outcome Spec_Task Spec_CausalGraph Spec_Projection Spec_PatternCollections Spec_Patterns Model_PQ Model_MergeStrategy Spec_MergeStrategy Spec_PatternGenerators Model_Evaluators Model_PDB Model_Patterns Model_PatternGenerators.
From Verif Require Import Proof_TaskCheck Proof_Pat1 Proof_Pat5 Prop_PDB Prop_Patterns.
Import ListNotations.

(** The greedy generator takes the variables in the order "goal variables first, then variables with a
    precondition-effect arc to a chosen one, larger numbers first", as long as the number of abstract
    states does not exceed the limit: its pattern [p] has the variables [vs], and either these are all
    variables or the next one would exceed the limit.  The only other outcome is an input error (exit
    code 33), and only if all variables that influence the goal fit and there are others. *)
Theorem C74_greedy : forall t limit, task_ok t -> (forall x, In x (t_vars t) -> (Z.of_nat (vdom x) <= INT_MAX)%Z) -> (1 <= limit <= INT_MAX)%Z ->
  exists vs, chosen_in_order t vs /\ NoDup vs /\ (forall v, In v vs -> v < length (t_vars t)) /\ (num_states t vs <= limit)%Z /\
    ((exists p, greedy_pattern limit t = Ok p /\ StronglySorted lt p /\ (forall v, In v p <-> In v vs) /\
        ((forall v, v < length (t_vars t) -> In v vs) \/ exists v, next_variable t vs v /\ (limit < num_states t vs * dom_size t v)%Z)) \/
     (greedy_pattern limit t = Exit 33 /\ (exists v, v < length (t_vars t) /\ ~ relevant t v) /\
      forall v, v < length (t_vars t) -> (In v vs <-> relevant t v))).
Proof.
  intros t limit Ht Hd Hl. destruct (greedy_ok t Ht Hd limit Hl) as (vs & A & B & C & D & E). exists vs. splits; auto.
  - intros v Hv. now apply C.
  - destruct E as [E|(E1 & E2 & E3)]; [auto|right]. splits; auto. intros v Hv. split; [apply C|auto].
Qed.
Print Assumptions C74_greedy.

(** The random generator walks through the causal graph from a goal variable, visiting no variable
    twice.  Its pattern has at most [limit] abstract states unless it consists of the goal variable
    alone.  Unless the time is up, the walk ends only when no new neighbour of the last variable
    fits. *)
Theorem C74_random : forall t limit shuffle expired shuffle_goals both, task_ok t -> (forall x, In x (t_vars t) -> (Z.of_nat (vdom x) <= INT_MAX)%Z) -> (1 <= limit <= INT_MAX)%Z ->
  (forall i l, Permutation (shuffle i l) l) -> (forall l, Permutation (shuffle_goals l) l) -> t_goal t <> [] ->
  exists g p v vs, random_pattern shuffle expired shuffle_goals limit both t = Ok p /\ goal_var t g /\
    walk t both g (v :: vs) /\ StronglySorted lt p /\ (forall u, In u p <-> In u (v :: vs)) /\ ((num_states t p <= limit)%Z \/ p = [g]) /\
    ((exists j, expired j = true) \/ forall u, neighbour t both v u -> ~ In u p -> (limit < num_states t p * dom_size t u)%Z).
Proof. intros t limit shuffle expired sg both Ht Hd Hl H1 H2 H3. exact (random_ok t Ht Hd limit Hl shuffle expired sg both H1 H2 H3). Qed.
Print Assumptions C74_random.

(** The pattern databases of these patterns are admissible. *)
Lemma same_size t vs : (forall v, In v vs -> v < length (t_vars t)) -> pattern_size t vs = num_states t vs.
Proof.
  unfold pattern_size, num_states. induction vs as [|v vs IH]; intros H; cbn [fold_right]; auto. rewrite IH by (intros; apply H; now right).
  f_equal. unfold dom_size. now rewrite (nth_error_nth' (t_vars t) {| vdom := 0; vlayer := None; vdefault := 0 |} (H v (or_introl eq_refl))).
Qed.
Theorem C74_greedy_heuristic : forall P bag q0 t limit p, pq_contract P bag -> bag q0 = [] -> plain_task t ->
  (forall x, In x (t_vars t) -> (Z.of_nat (vdom x) <= INT_MAX)%Z) -> (1 <= limit <= INT_MAX)%Z -> greedy_pattern limit t = Ok p ->
  exists f0, forall fuel, f0 <= fuel -> exists db, compute_pdb P q0 fuel t p [] = Ok db /\
    forall s, state_ok t s -> exists v, pdb_value db s = Ok v /\ admissible_value t s v.
Proof.
  intros P bag q0 t limit p HP Hq Ht Hd Hl Hp. destruct (C74_greedy t limit (proj1 Ht) Hd Hl) as (vs & _ & N & L & D & [(p' & E & Ss & HI & _)|(E & _)]); [|congruence].
  assert (p' = p) as -> by congruence. assert (Lp : forall v, In v p -> v < length (t_vars t)) by (intros v Hv; apply L, HI, Hv).
  apply (C40_pdb_admissible P bag q0 t p []); auto.
  - split; auto.
  - intros [|o] c op; discriminate.
  - rewrite same_size by auto. rewrite (num_states_perm t p vs); [unfold INT_MAX, MAX_STATES in *; lia|]. apply NoDup_Permutation; auto. now apply sorted_nodup.
Qed.
Print Assumptions C74_greedy_heuristic.
Theorem C74_random_heuristic : forall P bag q0 t limit shuffle expired shuffle_goals both p, pq_contract P bag -> bag q0 = [] -> plain_task t ->
  (forall x, In x (t_vars t) -> (Z.of_nat (vdom x) <= INT_MAX)%Z) -> (1 <= limit <= INT_MAX)%Z ->
  (forall i l, Permutation (shuffle i l) l) -> (forall l, Permutation (shuffle_goals l) l) -> t_goal t <> [] ->
  random_pattern shuffle expired shuffle_goals limit both t = Ok p ->
  exists f0, forall fuel, f0 <= fuel -> exists db, compute_pdb P q0 fuel t p [] = Ok db /\
    forall s, state_ok t s -> exists v, pdb_value db s = Ok v /\ admissible_value t s v.
Proof.
  intros P bag q0 t limit shuffle expired sg both p HP Hq Ht Hd Hl H1 H2 H3 Hp.
  destruct (C74_random t limit shuffle expired sg both (proj1 Ht) Hd Hl H1 H2 H3) as (g & p' & v & vs & E & Hg & W & Ss & HI & D & _).
  assert (p' = p) as -> by congruence.
  assert (Lg : g < length (t_vars t)). { destruct Hg as (d & Hgd). destruct Ht as ((_ & _ & _ & _ & Hgs) & _). rewrite Forall_forall in Hgs. apply Hgs in Hgd as (x & Hx & _). now apply nth_error_Some_lt in Hx. }
  assert (Lp : forall u, In u p -> u < length (t_vars t)) by (intros u Hu; apply HI in Hu; now apply (walk_lt t (proj1 Ht) limit Hl both g (v :: vs))).
  apply (C40_pdb_admissible P bag q0 t p []); auto.
  - split; auto.
  - intros [|o] c op; discriminate.
  - rewrite same_size by auto. destruct D as [D| ->]; [unfold INT_MAX, MAX_STATES in *; lia|]. rewrite num_states_one. unfold dom_size.
    destruct (nth_error (t_vars t) g) as [x|] eqn:Ex; [|unfold MAX_STATES; lia]. apply nth_error_In, Hd in Ex. unfold INT_MAX, MAX_STATES in *. lia.
Qed.
Print Assumptions C74_random_heuristic.

(** In the task of C73 the greedy pattern starts with the goal variables 3 and 1; without a tight limit
    the irrelevant variable 4 makes the generator fail.  The random pattern follows the arcs. *)
Example C74_nonvacuous : task_ok pat_task /\ (forall x, In x (t_vars pat_task) -> (Z.of_nat (vdom x) <= INT_MAX)%Z) /\ t_goal pat_task <> [] /\
  greedy_pattern 8 pat_task = Ok [0; 1; 3] /\ greedy_pattern 7 pat_task = Ok [1; 3] /\ greedy_pattern 1000 pat_task = Exit 33 /\
  random_pattern (fun _ l => rev l) (fun _ => false) (fun l => l) 1000 true pat_task = Ok [1; 3] /\
  random_pattern (fun _ l => l) (fun _ => false) (fun l => l) 1000 true pat_task = Ok [0; 1; 2] /\
  random_pattern (fun _ l => l) (fun _ => false) (fun l => l) 1 true pat_task = Ok [1] /\
  random_pattern (fun _ l => l) (fun i => i =? 1) (fun l => l) 1000 true pat_task = Ok [0; 1].
Proof.
  split; [apply task_okb_ok; vm_compute; reflexivity|]. split; [|split; [discriminate|vm_compute; repeat split; reflexivity]].
  intros x Hx. cbn [pat_task t_vars] in Hx. apply repeat_spec in Hx. subst x. vm_compute. discriminate.
Qed.

(** C79: pattern collections found by hill climbing. *)
From Coq Require Import Permutation Sorting.Sorted.
From Verif Require Import Outcome Spec_Task Spec_Relaxation Spec_Projection Spec_CausalGraph Spec_Patterns Spec_PatternCollections Spec_PatternGenerators Spec_PDBCegar Spec_HillClimbing Model_PQ Model_CausalGraph Model_Evaluators Model_PDB Model_PDBCegar Model_HillClimbing
  Proof_PDB1 Proof_CausalGraph Proof_Cegar1 Proof_Cegar2 Prop_PDB Prop_PatternGenerators Prop_PDBCegar Proof_HillClimbing.
Import ListNotations.

Lemma databases P bag q0 t : pq_contract P bag -> bag q0 = [] -> plain_task t ->
  exists f0, forall fuel pat, f0 <= fuel -> pattern_ok t pat -> (pattern_size t pat <= INT_MAX)%Z ->
    exists db, compute_pdb P q0 fuel t pat [] = Ok db /\ pt db = pat /\ sz db = pattern_size t pat.
Proof.
  intros HP Hq Ht. destruct (info_all P bag HP q0 Hq t Ht) as (f0 & H). exists f0. intros fuel p Hf Hpo Hmax.
  destruct (H fuel (fun _ _ l => l) (fun _ _ _ => 0) true 0 p Hf) as (y & _ & Ey & Y1 & Y2 & Y3 & _); auto.
  { intros _ _ l Hne. destruct l; [congruence|cbn; lia]. }
  rewrite Ey in *. exists (pi_db y). assert (Ep : pt (pi_db y) = p).
  { pose proof Y3 as E'. unfold compute_pdb in E'. rewrite size_fits in Hmax. rewrite (new_projection_ok t Ht _ Hpo Hmax) in E'. cbn [bind] in E'.
    apply bind_ok in E' as (? & _ & E'). apply bind_ok in E' as (? & _ & E'). apply bind_ok in E' as (? & _ & E'). apply bind_ok in E' as (? & _ & E').
    apply bind_ok in E' as (? & _ & E'). apply bind_ok in E' as (? & _ & E'). injection E' as E'. rewrite <- E'. reflexivity. }
  splits; auto.
Qed.

(** Whatever the samples say and whenever the time is up, the search ends with a collection as specified,
    after at most 2^n iterations, and its databases are those of its patterns.  The numbers of abstract
    states must not exceed an int: neither those of the goal variables together nor those of the
    collection with one more pattern. *)
Theorem C79_hill_climbing P bag q0 t : pq_contract P bag -> bag q0 = [] -> plain_task t -> (forall x, In x (t_vars t) -> (Z.of_nat (vdom x) <= INT_MAX)%Z) -> NoDup (map fst (t_goal t)) ->
  exists f0, forall pdb_fuel M C min_improvement count dead sampling expired fuel dead_at_start no_time, f0 <= pdb_fuel ->
    (1 <= M <= INT_MAX)%Z -> (M + Z.max C (total_size t (map (fun g : fact => [fst g]) (t_goal t))) <= INT_MAX)%Z -> 1 <= min_improvement -> 2 ^ length (t_vars t) < fuel ->
    exists dbs, hill_climbing P q0 pdb_fuel t M C min_improvement count dead sampling expired fuel dead_at_start no_time = Ok dbs /\
      hill_climbing_spec t M C (map db_pattern dbs) /\
      forall db, In db dbs -> compute_pdb P q0 pdb_fuel t (db_pattern db) [] = Ok db.
Proof.
  intros HP Hq Ht Hd Hg. destruct (databases P bag q0 t HP Hq Ht) as (f0 & H). exists f0. intros pf M C mi count dead sampling expired fuel ds nt Hpf HM Hr Hmi Hf.
  destruct (build_exact t (proj1 Ht)) as (cg & Ecg & _).
  destruct (hc_ok P q0 pf t (proj1 Ht) Hd (fun p => H pf p Hpf) Hg M C HM Hr mi Hmi count dead sampling expired cg Ecg fuel ds nt Hf) as (dbs & E & (R1 & R2) & _).
  exists dbs. splits; auto. intros db Hdb. destruct (R1 db Hdb) as (_ & X & _). exact X.
Qed.
Print Assumptions C79_hill_climbing.

(** The search goes on as long as it should.  Every database that is added, in iteration [k], improves the
    required number of samples, and at least as many as the database of any other admissible pattern.  If the
    search ends although there is time and the initial state is no dead end, no admissible pattern
    improves the required number of samples. *)
Theorem C79_best_improvement P bag q0 t : pq_contract P bag -> bag q0 = [] -> plain_task t -> (forall x, In x (t_vars t) -> (Z.of_nat (vdom x) <= INT_MAX)%Z) -> NoDup (map fst (t_goal t)) ->
  exists f0, forall pdb_fuel M C min_improvement count dead sampling expired fuel dead_at_start no_time dbs, f0 <= pdb_fuel ->
    (1 <= M <= INT_MAX)%Z -> (M + Z.max C (total_size t (map (fun g : fact => [fst g]) (t_goal t))) <= INT_MAX)%Z -> 1 <= min_improvement -> 2 ^ length (t_vars t) < fuel ->
    hill_climbing P q0 pdb_fuel t M C min_improvement count dead sampling expired fuel dead_at_start no_time = Ok dbs ->
    (forall pre db post k, dbs = pre ++ db :: post -> length pre = length (t_goal t) + k ->
       min_improvement <= count k pre db /\
       forall db', admissible t M C (map db_pattern pre) (db_pattern db') -> compute_pdb P q0 pdb_fuel t (db_pattern db') [] = Ok db' -> count k pre db' <= count k pre db) /\
    forall k, length dbs = length (t_goal t) + k -> dead_at_start = false -> no_time = false -> dead k dbs = false -> sampling k = false -> (forall i, expired k i = false) ->
      forall db', admissible t M C (map db_pattern dbs) (db_pattern db') -> compute_pdb P q0 pdb_fuel t (db_pattern db') [] = Ok db' -> count k dbs db' < min_improvement.
Proof.
  intros HP Hq Ht Hd Hg. destruct (databases P bag q0 t HP Hq Ht) as (f0 & H). exists f0. intros pf M C mi count dead sampling expired fuel ds nt dbs Hpf HM Hr Hmi Hf E.
  destruct (build_exact t (proj1 Ht)) as (cg & Ecg & _).
  destruct (hc_ok P q0 pf t (proj1 Ht) Hd (fun p => H pf p Hpf) Hg M C HM Hr mi Hmi count dead sampling expired cg Ecg fuel ds nt Hf) as (dbs' & E' & _ & init & Ei & R).
  assert (dbs' = dbs) as -> by congruence. assert (Li : length init = length (t_goal t)) by (rewrite <- (map_length pt), Ei; apply map_length).
  destruct R as [(R1 & ->)|(added & -> & St & Sp)].
  - split.
    + intros pre db post k -> Hk. rewrite app_length in Li. cbn in Li. lia.
    + intros k _ -> ->. discriminate.
  - split.
    + intros pre db post k E0 Hk.
      assert (exists pre', pre = init ++ pre' /\ added = pre' ++ db :: post) as (pre' & -> & E1).
      { assert (L0 : length init <= length pre) by lia. clear -E0 L0. revert pre E0 L0. induction init as [|x init IH]; intros pre E0 L0; [exists pre; auto|].
        destruct pre as [|y pre]; [cbn in L0; lia|]. cbn [app] in E0. injection E0 as -> E0. destruct (IH pre E0) as (pre' & -> & X); [cbn in L0; lia|]. exists pre'. auto. }
      rewrite app_length in Hk. replace k with (length pre') by lia. destruct (St _ _ _ E1) as (X1 & X2). split; [exact X1|]. intros db' Ha Hc. exact (X2 db' Ha Hc).
    + intros k Hk _ _ K1 K2 K3 db' Ha Hc. rewrite app_length in Hk. replace k with (length added) in * by lia. destruct Sp as [X|[X|[(i & X)|X]]]; [congruence|congruence|rewrite K3 in X; discriminate|].
      specialize (X db' Ha Hc). lia.
Qed.
Print Assumptions C79_best_improvement.

Definition hc_run (M C : Z) (count : nat -> list pdb -> pdb -> nat) (expired : nat -> nat -> bool) (fuel : nat) : outcome (list (list nat)) :=
  let* dbs := hill_climbing list_pq [] 100 cegar_ex M C 10 count (fun _ _ => false) (fun _ => false) expired fuel false false in Ok (map db_pattern dbs).
(** In the task of C76: everything improves; larger patterns improve more; the limits; too little
    improvement; a time limit. *)
Example C79_nonvacuous : plain_task cegar_ex /\ NoDup (map fst (t_goal cegar_ex)) /\
  hc_run 8 100 (fun _ _ _ => 10) (fun _ _ => false) 9 = Ok [[0]; [1]; [0; 1]; [0; 2]; [0; 1; 2]] /\
  hc_run 8 100 (fun _ _ db => 10 * length (db_pattern db)) (fun _ _ => false) 9 = Ok [[0]; [1]; [0; 1]; [0; 1; 2]; [0; 2]] /\
  hc_run 4 100 (fun _ _ _ => 10) (fun _ _ => false) 9 = Ok [[0]; [1]; [0; 1]; [0; 2]] /\
  hc_run 8 11 (fun _ _ _ => 10) (fun _ _ => false) 9 = Ok [[0]; [1]; [0; 1]] /\
  hc_run 8 100 (fun _ _ _ => 9) (fun _ _ => false) 9 = Ok [[0]; [1]] /\
  hc_run 8 100 (fun _ _ _ => 10) (fun k _ => 1 <=? k) 9 = Ok [[0]; [1]; [0; 1]].
Proof.
  split; [exact cegar_ex_plain|]. split; [cbn; repeat constructor; cbn [In]; intuition discriminate|]. splits; vm_compute; reflexivity.
Qed.
(** A pattern that may be added in this task, and one that may not. *)
Example C79_admissible : admissible cegar_ex 8 100 [[0]; [1]] [0; 2] /\ ~ admissible cegar_ex 8 100 [[0]; [1]] [1; 2].
Proof.
  split.
  - split; [|split; [|split; [|split]]].
    + exists [0]. split; [now left|]. exists 0, 2. split; [now left|]. split; [intros [|[]]; discriminate|]. split; [|intros x; cbn [In]; intuition].
      left. split; [discriminate|]. left. exists {| op_pre := [(2, 1)]; op_effs := [{| eff_cond := []; eff_fact := (0, 1) |}]; op_cost := 2 |}, {| eff_cond := []; eff_fact := (0, 1) |}, 1.
      split; [now left|]. split; [now left|]. split; [reflexivity|]. left. now left.
    + split; [discriminate|]. split; [repeat constructor|]. intros v [<- |[<- |[]]]; cbn; lia.
    + intros [E|[E|[]]]; discriminate.
    + vm_compute. discriminate.
    + vm_compute. discriminate.
  - intros ((p & Hp & v & u & Hv & Hu & Hc & Hq) & _). assert (X : In v [1; 2]) by (apply Hq; auto). assert (Hp' : p = [0] \/ p = [1]) by (destruct Hp as [<- |[<- |[]]]; auto).
    destruct Hp' as [-> | ->].
    + destruct Hv as [<- |[]]. destruct X as [|[|[]]]; discriminate.
    + destruct Hv as [<- |[]]. assert (Hin : u = 2) by (destruct (proj1 (Hq 2) (or_intror (or_introl eq_refl))) as [|[|[]]]; [auto|discriminate]). subst u.
      destruct Hc as [(_ & Hc)|((d & Hd) & _)]; [|destruct Hd as [|[|[]]]; discriminate].
      destruct Hc as [(op & e & d & H1 & H2 & H3 & H4)|(r & d & H1 & _)]; [|destruct H1].
      cbn [t_ops cegar_ex In] in H1. destruct H1 as [<- |[<- |[<- |[]]]]; cbn [op_effs In] in H2; destruct H2 as [<- |[]]; cbn in H3; try discriminate. cbn in H4. intuition discriminate.
Qed.

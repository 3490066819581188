(** C77: pattern collections from repeated generation of a single pattern. *)
From Coq Require Import Permutation Sorting.Sorted.
From Verif Require Import Outcome Spec_Task Spec_Relaxation Spec_Projection Spec_CausalGraph Spec_MergeStrategy Spec_PatternCollections Spec_PatternGenerators Spec_PDBCegar Spec_PatternMultiple Model_PQ Model_MergeStrategy Model_Evaluators Model_PDB Model_PDBCegar
  Model_PatternGenerators Model_PatternMultiple Proof_PDB1 Proof_Multiple Proof_CausalGraph Proof_MAS1 Proof_MAA1 Proof_MS6 Proof_MS7 Proof_Pat1 Proof_Pat4 Proof_Pat5 Proof_Cegar1 Proof_Cegar2 Prop_PDB Prop_PatternGenerators Prop_PDBCegar.
Import ListNotations.

(** What a generator of single patterns must guarantee, in iteration [k] and for a limit of at least 1:
    it may only give up if [unsolvable] holds; otherwise its database has the property [good], contains
    the variable of the goal and respects the limit unless it is only about that variable.  It may rely
    on being asked to avoid only variables without a goal, each once, and none at all before the start
    time of blacklisting, or the first stagnation if this starts it. *)
Definition generator_contract (t : task) (goals : list fact) (good : pdb -> Prop) (unsolvable : Prop) (now : nat -> nat -> nat) (stagnation start : nat) (on_stagnation : bool)
  (gen : nat -> Z -> fact -> list nat -> outcome pdb) : Prop :=
  forall k limit g black, In g goals -> (1 <= limit <= INT_MAX)%Z ->
    NoDup black /\ (forall v, In v black -> v < length (t_vars t) /\ forall g', In g' (t_goal t) -> fst g' <> v) /\
    (black <> [] -> exists i, i <= k /\ (start < now i 0 \/ (on_stagnation = true /\ stagnation < now i 3))) ->
    (gen k limit g black = Exit SEARCH_UNSOLVABLE /\ unsolvable) \/
    exists db, gen k limit g black = Ok db /\ good db /\ Z.of_nat (pj_num (db_pj db)) = pattern_size t (db_pattern db) /\
      In (fst g) (db_pattern db) /\ ((pattern_size t (db_pattern db) <= limit)%Z \/ db_pattern db = [fst g]).

(** What the repetition guarantees, where [expired k] says if the time was up after iteration [k]: it ends
    after the first iteration at whose end the time is up; earlier it ends only when the collection has
    reached its limit or after the stagnation time.  The databases are those of the generator, and
    their patterns are as specified ([NoFuel]: the given number of iterations was not enough). *)
Definition repetition (t : task) (goals : list fact) (good : pdb -> Prop) (unsolvable : Prop) (now : nat -> nat -> nat) (stagnation : nat) (expired : nat -> bool) (M C : Z) (iterations : nat)
  (r : outcome (list pdb * nat)) : Prop :=
  (r = Exit SEARCH_UNSOLVABLE /\ unsolvable) \/
  (r = NoFuel /\ forall i, i < iterations -> expired i = false) \/
  exists dbs n, r = Ok (dbs, n) /\ n <= iterations /\ (forall i, i < n - 1 -> expired i = false) /\
    ((C <= total_size t (map db_pattern dbs))%Z \/ expired (n - 1) = true \/ stagnation < now (n - 1) 3) /\
    dbs <> [] /\ (forall db, In db dbs -> good db) /\ multiple_spec t goals M C n (map db_pattern dbs).

Lemma goals_lt t : plain_task t -> forall g, In g (t_goal t) -> fst g < length (t_vars t).
Proof. intros ((_ & _ & _ & _ & H) & _) g Hg. rewrite Forall_forall in H. apply H in Hg as (x & Hx & _). now apply nth_error_Some_lt in Hx. Qed.

Theorem C77_any_generator t goals good unsolvable now stagnation start on_stagnation gen M C expired rnd shuffle iterations :
  plain_task t -> (forall x, In x (t_vars t) -> (Z.of_nat (vdom x) <= INT_MAX)%Z) -> t_goal t <> [] -> Permutation goals (t_goal t) ->
  (1 <= M <= INT_MAX)%Z -> (1 <= C <= INT_MAX)%Z -> (forall k n, 0 < n -> rnd k n < n) -> (forall k l, Permutation (shuffle k l) l) ->
  generator_contract t goals good unsolvable now stagnation start on_stagnation gen ->
  repetition t goals good unsolvable now stagnation expired M C iterations
    (multiple gen now expired rnd shuffle stagnation start on_stagnation M iterations t goals C).
Proof.
  intros Ht Hd Hg Hp HM HC Hr Hs Hc. assert (Hne : goals <> []) by (intros ->; apply Permutation_nil in Hp; congruence).
  exact (multiple_ok t goals Hne (fun g H => goals_lt t Ht g (Permutation_in _ Hp H)) Hd good unsolvable gen M C HM HC now expired rnd Hr shuffle Hs stagnation start on_stagnation Hc iterations (goals_lt t Ht)).
Qed.
Print Assumptions C77_any_generator.

Lemma exact_size P q0 fuel t db : plain_task t -> pattern_ok t (db_pattern db) -> (pattern_size t (db_pattern db) <= INT_MAX)%Z ->
  compute_pdb P q0 fuel t (db_pattern db) [] = Ok db -> Z.of_nat (pj_num (db_pj db)) = pattern_size t (db_pattern db).
Proof.
  intros Ht Hp Hs E. rewrite size_fits in *. unfold compute_pdb in E. rewrite (new_projection_ok t Ht _ Hp Hs) in E. cbn [bind] in E.
  apply bind_ok in E as (? & _ & E). apply bind_ok in E as (? & _ & E). apply bind_ok in E as (? & _ & E). apply bind_ok in E as (? & _ & E).
  apply bind_ok in E as (? & _ & E). apply bind_ok in E as (? & _ & E). injection E as E. rewrite <- E at 1. reflexivity.
Qed.
Lemma goal_size t g : plain_task t -> (forall x, In x (t_vars t) -> (Z.of_nat (vdom x) <= INT_MAX)%Z) -> In g (t_goal t) -> (pattern_size t [fst g] <= INT_MAX)%Z.
Proof.
  intros Ht Hd Hg. apply (goals_lt t Ht) in Hg. unfold pattern_size. cbn [fold_right].
  pose proof (Hd _ (nth_In _ {| vdom := 0; vlayer := None; vdefault := 0 |} Hg)). lia.
Qed.

(** With counterexample-guided refinement: all databases are exact, and the task is reported unsolvable
    only if it is. *)
Theorem C77_refinement P bag q0 t : pq_contract P bag -> bag q0 = [] -> plain_task t -> (forall x, In x (t_vars t) -> (Z.of_nat (vdom x) <= INT_MAX)%Z) -> t_goal t <> [] ->
  exists f0, forall goals now stagnation start on_stagnation M C expired rnd shuffle iterations fuel shuffles choose pick time_up wildcard, f0 <= fuel ->
    Permutation goals (t_goal t) -> (1 <= M <= INT_MAX)%Z -> (1 <= C <= INT_MAX)%Z -> (forall k n, 0 < n -> rnd k n < n) -> (forall k l, Permutation (shuffle k l) l) ->
    (forall k : nat, permutes (shuffles k)) -> (forall k : nat, chooses (choose k)) -> (forall k : nat, picks (pick k)) ->
    repetition t goals (fun db => pattern_ok t (db_pattern db) /\ compute_pdb P q0 fuel t (db_pattern db) [] = Ok db) (forall os, ~ task_plan_from t (t_init t) os)
      now stagnation expired M C iterations
      (multiple (gen_cegar P q0 fuel shuffles choose pick time_up t wildcard) now expired rnd shuffle stagnation start on_stagnation M iterations t goals C).
Proof.
  intros HP Hq Ht Hd Hg. destruct (C76_single P bag q0 t HP Hq Ht Hd) as (f0 & H). exists f0.
  intros goals now stagnation start ons M C expired rnd shuffle iterations fuel shuffles choose pick time_up wildcard Hf Hp HM HC Hr Hs Hsh Hch Hpi.
  apply C77_any_generator; auto. intros k limit g black Hin Hl _. apply (Permutation_in _ Hp) in Hin. unfold gen_cegar.
  destruct (H g black limit fuel (shuffles k) (choose k) (pick k) (time_up k) wildcard Hf ltac:(lia) Hin (Hsh k) (Hch k) (Hpi k)) as [A|(db & E & A & B & D & _ & F)]; [auto|right].
  assert (Hsz : (pattern_size t (db_pattern db) <= INT_MAX)%Z) by (destruct F as [F| ->]; [lia|now apply goal_size]).
  exists db. splits; auto. exact (exact_size P q0 fuel t db Ht B Hsz A).
Qed.
Print Assumptions C77_refinement.

(** With random walks in the causal graph: the patterns consist of the variables of such a walk from a
    goal variable.  A task is never reported unsolvable. *)
Theorem C77_random P bag q0 t both : pq_contract P bag -> bag q0 = [] -> plain_task t -> (forall x, In x (t_vars t) -> (Z.of_nat (vdom x) <= INT_MAX)%Z) -> t_goal t <> [] ->
  exists f0 nb, compute_cg_neighbors t both = Ok nb /\
  forall goals now stagnation start on_stagnation M C expired rnd shuffle iterations fuel shuffles time_up, f0 <= fuel ->
    Permutation goals (t_goal t) -> (1 <= M <= INT_MAX)%Z -> (1 <= C <= INT_MAX)%Z -> (forall k n, 0 < n -> rnd k n < n) -> (forall k l, Permutation (shuffle k l) l) ->
    permutes shuffles ->
    repetition t goals (fun db => pattern_ok t (db_pattern db) /\ compute_pdb P q0 fuel t (db_pattern db) [] = Ok db /\
        exists g vs, goal_var t g /\ walk t both g vs /\ forall u, In u (db_pattern db) <-> In u vs) False
      now stagnation expired M C iterations
      (multiple (gen_random P q0 fuel shuffles time_up t nb) now expired rnd shuffle stagnation start on_stagnation M iterations t goals C).
Proof.
  intros HP Hq Ht Hd Hg. destruct (info_all P bag HP q0 Hq t Ht) as (f0 & H).
  destruct (cg_neighbors_ok t (proj1 Ht) 1%Z ltac:(unfold INT_MAX; lia) both) as (nb & Enb & Hnb). exists f0, nb. split; [exact Enb|].
  intros goals now stagnation start ons M C expired rnd shuffle iterations fuel shuffles time_up Hf Hp HM HC Hr Hs Hsh.
  apply C77_any_generator; auto. intros k limit g black Hin Hl _. apply (Permutation_in _ Hp) in Hin. pose proof (goals_lt t Ht g Hin) as Lg. right. unfold gen_random, generate_random_pattern.
  destruct (dom_ok t (proj1 Ht) Hd (fst g) Lg) as (x & Ex & Ed & Hx). rewrite Ex. cbn [bind]. rewrite Ed.
  pose proof (num_states_one t (fst g)) as E1.
  destruct (random_loop_ok t (proj1 Ht) Hd limit Hl (shuffles k) (time_up k) both (fst g) (Hsh k) Lg (length (t_vars t)) 0 nb [] (fst g) Hnb) as (v & vs & E & W & L & _).
  - constructor.
  - cbn. lia.
  - rewrite E1. lia.
  - auto.
  - rewrite E1 in E. rewrite E. cbn [bind]. set (p := Model_MAS.sort Nat.leb (v :: vs)).
    pose proof (walk_nodup _ _ _ _ W) as N. pose proof (sort_lt _ N) as Ss. pose proof (Proof_MAA1.sort_perm Nat.leb (v :: vs)) as Pm. fold p in Ss, Pm.
    assert (HI : forall u, In u p <-> In u (v :: vs)) by (intros u; apply sort_In).
    assert (Lp : forall u, In u p -> u < length (t_vars t)) by (intros u Hu; apply HI in Hu; now apply (walk_lt t (proj1 Ht) limit Hl both (fst g) (v :: vs))).
    assert (Hpo : pattern_ok t p) by (split; auto).
    assert (Hsz : (pattern_size t p <= limit)%Z \/ p = [fst g]).
    { destruct L as [L|L]; [left; rewrite same_size by auto; now rewrite (num_states_perm t _ _ Pm)|right]. unfold p. rewrite L. reflexivity. }
    assert (Hmax : (pattern_size t p <= INT_MAX)%Z) by (destruct Hsz as [Hz| ->]; [lia|now apply goal_size]).
    destruct (H fuel (fun _ _ l => l) (fun _ _ _ => 0) true 0 p Hf) as (y & _ & Ey & Y1 & Y2 & Y3 & _); auto.
    { intros _ _ l Hne. destruct l; [congruence|cbn; lia]. }
    rewrite Ey in *. exists (pi_db y). assert (Ep : db_pattern (pi_db y) = p).
    { pose proof Y3 as E'. unfold compute_pdb in E'. rewrite size_fits in Hmax. rewrite (new_projection_ok t Ht _ Hpo Hmax) in E'. cbn [bind] in E'.
      apply bind_ok in E' as (? & _ & E'). apply bind_ok in E' as (? & _ & E'). apply bind_ok in E' as (? & _ & E'). apply bind_ok in E' as (? & _ & E').
      apply bind_ok in E' as (? & _ & E'). apply bind_ok in E' as (? & _ & E'). injection E' as E'. rewrite <- E'. reflexivity. }
    rewrite Ep. splits; auto.
    + exists (fst g), (v :: vs). splits; auto. exists (snd g). destruct g; exact Hin.
    + apply HI. clear -W. assert (X : forall b l, walk t both b l -> In b l) by (induction 1; cbn; auto). auto.
Qed.
Print Assumptions C77_random.

(** In the task of C76: two rounds over both goals; the collection is full; a time limit; stagnation
    with and without blacklisting. *)
Definition rep_run (stagnation start : nat) (ons : bool) (M C : Z) (expired : nat -> bool) : outcome (list (list nat) * nat) :=
  let* (dbs, n) := multiple (gen_cegar list_pq [] 100 (fun _ _ _ l => rev l) (fun _ _ _ l => length l - 1) (fun _ _ _ => 0) (fun _ _ => false) cegar_ex true)
    (fun k j => 10 * k + j) expired (fun _ _ => 0) (fun _ l => rev l) stagnation start ons M 20 cegar_ex (t_goal cegar_ex) C in
  Ok (map db_pattern dbs, n).
Example C77_nonvacuous : plain_task cegar_ex /\ t_goal cegar_ex <> [] /\
  generator_contract cegar_ex (t_goal cegar_ex) (fun _ => True) False (fun k j => 10 * k + j) 100 100 true
    (fun _ _ g _ => Ok {| db_pj := {| pj_pattern := [fst g]; pj_doms := [2]; pj_mults := [1]; pj_num := 2 |}; db_dist := [] |}) /\
  rep_run 1000 1000 true 8 100 (fun k => 3 <=? k) = Ok ([[0; 2]; [0; 1; 2]], 4) /\
  rep_run 1000 1000 true 8 5 (fun k => 3 <=? k) = Ok ([[0; 2]; [1]], 2) /\
  rep_run 25 1000 true 8 100 (fun _ => false) = Ok ([[0; 2]; [0; 1; 2]; [0; 1]; [0]], 10) /\
  rep_run 25 1000 false 8 100 (fun _ => false) = Ok ([[0; 2]; [0; 1; 2]], 5) /\
  rep_run 1000 15 true 8 100 (fun k => 8 <=? k) = Ok ([[0; 2]; [0; 1; 2]; [0]; [0; 1]], 9) /\
  rep_run 1000 1000 true 4 100 (fun k => 3 <=? k) = Ok ([[0; 2]; [0; 1]], 4) /\
  rep_run 1000 1000 true 8 100 (fun _ => false) = NoFuel.
Proof.
  splits; [exact cegar_ex_plain|discriminate| |vm_compute; reflexivity|vm_compute; reflexivity|vm_compute; reflexivity|vm_compute; reflexivity|vm_compute; reflexivity|vm_compute; reflexivity|vm_compute; reflexivity].
  intros k limit g black Hg _ _. right. eexists. split; [reflexivity|]. unfold db_pattern. cbn [db_pj pj_pattern pj_num].
  cbn [t_goal cegar_ex In] in Hg. destruct Hg as [<- |[<- |[]]]; splits; cbn [In fst]; auto; reflexivity.
Qed.
Definition random_run (M C : Z) : outcome (list (list nat) * nat) :=
  let* nb := compute_cg_neighbors cegar_ex false in
  let* (dbs, n) := multiple (gen_random list_pq [] 100 (fun k _ l => if Nat.even k then l else rev l) (fun _ _ => false) cegar_ex nb)
    (fun k j => 10 * k + j) (fun k => 5 <=? k) (fun _ _ => 0) (fun _ l => rev l) 1000 1000 false M 20 cegar_ex (t_goal cegar_ex) C in
  Ok (map db_pattern dbs, n).
Example C77_random_nonvacuous : random_run 4 100 = Ok ([[0; 2]; [0; 1]], 6) /\ random_run 8 100 = Ok ([[0; 2]; [0; 1; 2]], 6) /\ random_run 1 100 = Ok ([[0]; [1]], 6) /\ random_run 4 5 = Ok ([[0; 2]; [1]], 2).
Proof. splits; vm_compute; reflexivity. Qed.

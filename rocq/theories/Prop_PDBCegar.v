(** C76: pattern collections built by counterexample-guided abstraction refinement. *)
From Coq Require Import Permutation.
From Verif Require Import Outcome Spec_Task Spec_Relaxation Spec_Projection Spec_PatternCollections Spec_PDBCegar Model_PQ Model_Evaluators Model_PDB Model_PDBPlan Model_PDBCegar
  Proof_Cegar1 Proof_Cegar2 Proof_Cegar3 Proof_Cegar4 Proof_Cegar5 Proof_PDB1 Proof_PDB2 Proof_TaskCheck Prop_PDB Prop_PDBPlan.
Import ListNotations.

(** What the random number generator may do: permute a list, choose an element of a nonempty one. *)
Definition permutes (shuffle : nat -> nat -> list nat -> list nat) : Prop := forall k i l, Permutation (shuffle k i l) l.
Definition chooses (choose : nat -> nat -> list nat -> nat) : Prop := forall k i l, l <> [] -> choose k i l < length l.
Definition picks (pick : nat -> list (nat * nat) -> nat) : Prop := forall k l, l <> [] -> pick k l < length l.
(** The pattern of a database. *)
Definition db_pattern (db : pdb) : list nat := pj_pattern (db_pj db).
(** The sizes stay in the range of int: the limits, the initial collection and, for several goals, the
    sum of the limit for a database and the size of the collection. *)
Definition sizes_in_range (t : task) (goals : list fact) (M C : Z) : Prop :=
  let S := total_size t (map (fun g => [fst g]) goals) in
  (0 <= M <= INT_MAX)%Z /\ (Z.max C S <= INT_MAX)%Z /\ (length goals <= 1 \/ (M + Z.max C S <= INT_MAX)%Z) /\
  forall x, In x (t_vars t) -> (Z.of_nat (vdom x) <= INT_MAX)%Z.

Lemma sizes_total t goals : total_size t (map (fun g : fact => [fst g]) goals) = sizes_of t goals.
Proof. induction goals as [|g gs IH]; [reflexivity|]. rewrite sizes_cons, <- IH. reflexivity. Qed.
Lemma in_range t goals M C : sizes_in_range t goals M C -> (0 <= M)%Z /\ room t goals M C /\ forall x, In x (t_vars t) -> (Z.of_nat (vdom x) <= INT_MAX)%Z.
Proof. unfold sizes_in_range, room. cbv zeta. rewrite sizes_total. intros ((A & B) & D & E & F). auto 10. Qed.

(** Whenever the timer stops the refinement, and however flaws are chosen: either the program reports
    that the task is unsolvable, and it is; or the collection consists of disjoint patterns, each with
    a goal variable, without forbidden variables and within the size limit, with their exact databases.
    If the program claims to have found a plan, the only database holds the optimal plan cost for the
    initial state.  Otherwise all given goal variables are covered, and the limit for the whole
    collection is respected unless the collection is still the initial one. *)
Theorem C76_collection P bag q0 t :
  pq_contract P bag -> bag q0 = [] -> plain_task t ->
  exists f0, forall goals forbidden M C fuel shuffle choose pick expired wildcard, f0 <= fuel ->
    sizes_in_range t goals M C -> incl goals (t_goal t) -> NoDup (map fst goals) -> permutes shuffle -> chooses choose -> picks pick ->
    (cegar_collection P q0 fuel shuffle choose pick expired t M C wildcard goals forbidden = Exit SEARCH_UNSOLVABLE /\
     forall os, ~ task_plan_from t (t_init t) os) \/
    exists solved dbs, cegar_collection P q0 fuel shuffle choose pick expired t M C wildcard goals forbidden = Ok (solved, dbs) /\
      length dbs <= length goals /\ disjoint_patterns (map db_pattern dbs) /\
      (forall db, In db dbs -> pattern_ok t (db_pattern db) /\ compute_pdb P q0 fuel t (db_pattern db) [] = Ok db /\
         cegar_pattern_spec t goals forbidden M (db_pattern db)) /\
      if solved then exists db c, dbs = [db] /\ pdb_value db (t_init t) = Ok (Some c) /\ perfect_value t (t_init t) (Some c)
      else (forall g, In g goals -> exists p, In p (map db_pattern dbs) /\ In (fst g) p) /\
           ((total_size t (map db_pattern dbs) <= C)%Z \/ forall p, In p (map db_pattern dbs) -> exists g, In g goals /\ p = [fst g]).
Proof.
  intros HP Hq Ht. destruct (info_all P bag HP q0 Hq t Ht) as (f0 & H). exists f0.
  intros goals forbidden M C fuel shuffle choose pick expired wildcard Hf Hr Hg Hnd Hsh Hch Hpi. apply in_range in Hr as (HM & Hlim & Hdom).
  exact (collection_ok P q0 fuel shuffle choose pick Hpi expired t Ht wildcard (fun k pat => H fuel shuffle choose wildcard k pat Hf Hsh Hch) M C goals forbidden Hdom HM Hlim Hg Hnd).
Qed.
Print Assumptions C76_collection.

(** With room for the whole task, no forbidden variables, all goals and no time limit, refinement goes
    on until the cost of an optimal plan has been found. *)
Theorem C76_complete P bag q0 t goals M C :
  pq_contract P bag -> bag q0 = [] -> plain_task t -> sizes_in_range t goals M C -> goals <> [] ->
  (forall g, In g goals <-> In g (t_goal t)) -> NoDup (map fst goals) ->
  (pattern_size t (seq 0 (length (t_vars t))) <= M)%Z -> ((Z.of_nat (length goals) + 1) * pattern_size t (seq 0 (length (t_vars t))) <= C)%Z ->
  (exists os, task_plan_from t (t_init t) os) ->
  exists f0, forall fuel shuffle choose pick expired wildcard, f0 <= fuel -> permutes shuffle -> chooses choose -> picks pick -> (forall k, expired k = false) ->
    exists db c, cegar_collection P q0 fuel shuffle choose pick expired t M C wildcard goals [] = Ok (true, [db]) /\
      pdb_value db (t_init t) = Ok (Some c) /\ perfect_value t (t_init t) (Some c).
Proof.
  intros HP Hq Ht Hr Hne Hg Hnd HN HC Hplan. apply in_range in Hr as (HM & Hlim & Hdom). destruct (info_all P bag HP q0 Hq t Ht) as (f0 & H). exists f0.
  intros fuel shuffle choose pick expired wildcard Hf Hsh Hch Hpi Hexp.
  assert (G1 : incl goals (t_goal t)) by (intros g; apply Hg). assert (G2 : incl (t_goal t) goals) by (intros g; apply Hg).
  destruct (collection_complete P q0 fuel shuffle choose pick Hpi expired Hexp t Ht wildcard (fun k pat => H fuel shuffle choose wildcard k pat Hf Hsh Hch) M C goals Hdom HN HC Hlim G1 G2 Hne Hnd Hplan) as (dbs & E).
  destruct (collection_ok P q0 fuel shuffle choose pick Hpi expired t Ht wildcard (fun k pat => H fuel shuffle choose wildcard k pat Hf Hsh Hch) M C goals [] Hdom HM Hlim G1 Hnd) as [(E' & _)|(s & dbs' & E' & R)]; rewrite E in E'; [discriminate|].
  injection E' as <- <-. destruct R as (_ & _ & _ & db & c & -> & A & B). exists db, c. auto.
Qed.
Print Assumptions C76_complete.

(** For a single goal exactly one pattern is built; the check for several patterns never fails.  Here
    the size limit may be infinite. *)
Theorem C76_single P bag q0 t :
  pq_contract P bag -> bag q0 = [] -> plain_task t -> (forall x, In x (t_vars t) -> (Z.of_nat (vdom x) <= INT_MAX)%Z) ->
  exists f0, forall goal forbidden M fuel shuffle choose pick expired wildcard, f0 <= fuel -> (0 <= M <= INT_MAX)%Z -> In goal (t_goal t) -> permutes shuffle -> chooses choose -> picks pick ->
    (cegar_pattern P q0 fuel shuffle choose pick expired t M wildcard goal forbidden = Exit SEARCH_UNSOLVABLE /\
     forall os, ~ task_plan_from t (t_init t) os) \/
    exists db, cegar_pattern P q0 fuel shuffle choose pick expired t M wildcard goal forbidden = Ok db /\
      compute_pdb P q0 fuel t (db_pattern db) [] = Ok db /\ pattern_ok t (db_pattern db) /\ In (fst goal) (db_pattern db) /\
      (forall v, In v (db_pattern db) -> v = fst goal \/ ~ In v forbidden) /\
      ((pattern_size t (db_pattern db) <= M)%Z \/ db_pattern db = [fst goal]).
Proof.
  intros HP Hq Ht Hdom. destruct (C76_collection P bag q0 t HP Hq Ht) as (f0 & H).
  exists f0. intros goal forbidden M fuel shuffle choose pick expired wildcard Hf HM Hg Hsh Hch Hpi.
  assert (Hs : sizes_in_range t [goal] M M).
  { unfold sizes_in_range. cbv zeta. cbn [map length total_size fold_right]. split; [lia|]. split; [|split; [left; auto|auto]]. unfold pattern_size. cbn [fold_right].
    assert (Hl : fst goal < length (t_vars t)) by (apply (goal_lt t Ht); auto). pose proof (Hdom _ (nth_In _ {| vdom := 0; vlayer := None; vdefault := 0 |} Hl)). lia. }
  assert (Hg1 : incl [goal] (t_goal t)) by (intros g [<- |[]]; auto). assert (Hn1 : NoDup (map fst [goal])) by (repeat constructor; intros []).
  unfold cegar_pattern.
  destruct (H [goal] forbidden M M fuel shuffle choose pick expired wildcard Hf Hs Hg1 Hn1 Hsh Hch Hpi) as [(-> & H1)|(s & dbs & -> & Hl & _ & Hdb & Hs')]; [left; auto|right]. cbn [bind].
  assert (E : exists db, dbs = [db]).
  { destruct dbs as [|db [|d dbs]]; [exfalso|eauto|cbn [length] in Hl; lia]. destruct s; [destruct Hs' as (db & c & E & _); discriminate|].
    destruct Hs' as [H1 _]. destruct (H1 goal (or_introl eq_refl)) as (p & [] & _). }
  destruct E as (db & ->). cbn [length Nat.ltb Nat.leb vget nth_error]. exists db. split; [reflexivity|].
  destruct (Hdb db (or_introl eq_refl)) as (A & B & (g & G1 & G2) & D & E). splits; auto.
  - destruct G1 as [<- |[]]. exact G2.
  - intros v Hv. destruct (D v Hv) as [[H1|[]]|H1]; [left; now symmetry|now right].
  - destruct E as [E|(g' & [<- |[]] & E)]; auto.
Qed.
Print Assumptions C76_single.

(** Two goal variables; variable 0 can only be set once variable 2 has been. *)
Definition cegar_ex : task := {| t_vars := repeat {| vdom := 2; vlayer := None; vdefault := 0 |} 3;
  t_ops := [{| op_pre := [(2, 1)]; op_effs := [{| eff_cond := []; eff_fact := (0, 1) |}]; op_cost := 2 |};
            {| op_pre := []; op_effs := [{| eff_cond := []; eff_fact := (2, 1) |}]; op_cost := 1 |};
            {| op_pre := [(0, 1)]; op_effs := [{| eff_cond := []; eff_fact := (1, 1) |}]; op_cost := 4 |}];
  t_rules := []; t_init := [0; 0; 0]; t_goal := [(0, 1); (1, 1)] |}.
Lemma cegar_ex_plain : plain_task cegar_ex.
Proof.
  unfold plain_task. splits; [apply task_okb_ok; vm_compute; reflexivity|reflexivity| |].
  - cbn [t_vars cegar_ex]. intros x Hx. apply repeat_spec in Hx. now subst.
  - cbn [t_ops cegar_ex]. intros op Ho. cbn [In] in Ho. decompose [or] Ho; subst; try contradiction; unfold op_plain; cbn [op_pre op_effs];
      (split; [intros e He; cbn [In] in He; decompose [or] He; subst; try contradiction; reflexivity|]);
      repeat split; try reflexivity; cbn [map fst eff_fact]; repeat constructor; cbn [In]; intuition discriminate.
Qed.
Definition run (M C : Z) (forbidden : list nat) (expired : nat -> bool) : outcome (bool * list (list nat)) :=
  let* (s, dbs) := cegar_collection list_pq [] 100 (fun _ _ l => rev l) (fun _ _ l => length l - 1) (fun _ _ => 0) expired cegar_ex M C true (t_goal cegar_ex) forbidden in
  Ok (s, map db_pattern dbs).
Example C76_nonvacuous : plain_task cegar_ex /\ sizes_in_range cegar_ex (t_goal cegar_ex) 8 24 /\ NoDup (map fst (t_goal cegar_ex)) /\ t_goal cegar_ex <> [] /\
  Z.le (pattern_size cegar_ex (seq 0 3)) 8 /\ Z.le ((2 + 1) * pattern_size cegar_ex (seq 0 3)) 24 /\ task_plan_from cegar_ex (t_init cegar_ex) [1; 0; 2] /\
  permutes (fun _ _ l => rev l) /\ chooses (fun _ _ l => length l - 1) /\ picks (fun _ _ => 0) /\
  run 8 24 [] (fun _ => false) = Ok (true, [[0; 1; 2]]) /\ run 8 24 [2] (fun _ => false) = Ok (false, [[0; 1]]) /\
  run 2 24 [] (fun _ => false) = Ok (false, [[0]; [1]]) /\ run 8 24 [] (fun k => 1 <=? k) = Ok (false, [[0; 2]; [1]]).
Proof.
  splits.
  - exact cegar_ex_plain.
  - unfold sizes_in_range. cbv zeta. splits; [lia|unfold INT_MAX; lia|vm_compute; discriminate|right; vm_compute; discriminate|]. intros x Hx. cbn [t_vars cegar_ex] in Hx. apply repeat_spec in Hx. subst. vm_compute. discriminate.
  - cbn. repeat constructor; cbn [In]; intuition discriminate.
  - discriminate.
  - vm_compute. discriminate.
  - vm_compute. discriminate.
  - exists [1; 1; 1]. split; [|intros f Hf; cbn [t_goal cegar_ex In] in Hf; decompose [or] Hf; subst; try contradiction; reflexivity].
    assert (A : forall o op s, nth_error (t_ops cegar_ex) o = Some op -> length s = 3 -> (forall f, In f (op_pre op) -> holds s f) -> applicable cegar_ex s o /\ progress cegar_ex s o (changes (efacts op) s)).
    { intros o op s Ho Hl Hp. split; [exists op; auto|]. exact (changes_progress cegar_ex cegar_ex_plain o op s Ho Hl). }
    assert (F : forall s f, nth_error s (fst f) = Some (snd f) -> forall g, In g [f] -> holds s g) by (intros s f H g [<- |[]]; exact H).
    destruct (A 1 _ [0; 0; 0] eq_refl eq_refl) as [A1 P1]; [intros f []|]. destruct (A 0 _ [0; 0; 1] eq_refl eq_refl) as [A2 P2]; [apply F; reflexivity|].
    destruct (A 2 _ [1; 0; 1] eq_refl eq_refl) as [A3 P3]; [apply F; reflexivity|].
    econstructor; [exact A1|exact P1|]. econstructor; [exact A2|exact P2|]. econstructor; [exact A3|exact P3|]. constructor.
  - intros k i l. symmetry. apply Permutation_rev.
  - intros k i [|x l] H; [congruence|cbn [length]; lia].
  - intros k [|x l] H; [congruence|cbn [length]; lia].
  - vm_compute. reflexivity.
  - vm_compute. reflexivity.
  - vm_compute. reflexivity.
  - vm_compute. reflexivity.
Qed.

(** The bound on the sum of the limits is needed: for three goal variables with domains of 46340, 46340
    and 100000 values, with infinite limits (allowed by the options), the collection size
    overflows when the first two patterns are considered for merging. *)
Definition overflow_ex : task := {|
  t_vars := map (fun z => {| vdom := Z.to_nat z; vlayer := None; vdefault := 0 |}) [46340; 46340; 100000]%Z;
  t_ops := [{| op_pre := [(1, 1)]; op_effs := [{| eff_cond := []; eff_fact := (0, 1) |}]; op_cost := 1 |};
            {| op_pre := []; op_effs := [{| eff_cond := []; eff_fact := (1, 1) |}]; op_cost := 1 |};
            {| op_pre := []; op_effs := [{| eff_cond := []; eff_fact := (2, 1) |}]; op_cost := 1 |}];
  t_rules := []; t_init := [0; 0; 0]; t_goal := [(0, 1); (1, 1); (2, 1)] |}.
Lemma overflow_ex_plain : plain_task overflow_ex.
Proof.
  unfold plain_task. splits; [apply task_okb_ok; vm_compute; reflexivity|reflexivity| |].
  - cbn [t_vars overflow_ex]. intros x Hx. apply in_map_iff in Hx as (z & <- & _). reflexivity.
  - cbn [t_ops overflow_ex]. intros op Ho. cbn [In] in Ho. decompose [or] Ho; subst; try contradiction; unfold op_plain; cbn [op_pre op_effs];
      (split; [intros e He; cbn [In] in He; decompose [or] He; subst; try contradiction; reflexivity|]);
      repeat split; try reflexivity; cbn [map fst eff_fact]; repeat constructor; cbn [In]; intuition discriminate.
Qed.
Lemma overflow_sizes P q0 fuel shuffle choose t wildcard :
  (forall k v z, nth_error [46340; 46340; 100000]%Z v = Some z -> exists x, compute_pattern_info P q0 fuel shuffle choose t wildcard k [v] = Ok x /\ pi_size x = z) ->
  exists c, compute_initial_collection P q0 fuel shuffle choose t wildcard [(0, 1); (1, 1); (2, 1)] [] = Ok c /\ can_merge_patterns INT_MAX INT_MAX c 0 1 = UB.
Proof.
  intros G.
  destruct (G 0 0 46340%Z eq_refl) as (x & Ex & Sx). destruct (G 1 1 46340%Z eq_refl) as (y & Ey & Sy). destruct (G 2 2 100000%Z eq_refl) as (z & Ez & Sz).
  unfold compute_initial_collection. cbn [fold_outcome fst].
  unfold add_pattern_for_var. cbn [c_count c_size c_coll c_index c_black Nat.add]. rewrite Ex. cbn [bind]. rewrite Sx.
  change (guard (0 + 46340 <=? INT_MAX)%Z) with (Ok tt). cbn [bind c_count c_size c_coll c_index c_black Nat.add app]. rewrite Ey. cbn [bind]. rewrite Sy.
  change (guard (0 + 46340 + 46340 <=? INT_MAX)%Z) with (Ok tt). cbn [bind c_count c_size c_coll c_index c_black Nat.add app]. rewrite Ez. cbn [bind]. rewrite Sz.
  change (guard (0 + 46340 + 46340 + 100000 <=? INT_MAX)%Z) with (Ok tt). cbn [bind].
  eexists. split; [reflexivity|]. unfold can_merge_patterns, cget, vget. cbn [c_coll nth_error bind app]. rewrite Sx, Sy. reflexivity.
Qed.
Theorem C76_size_overflow_refuted P bag q0 : pq_contract P bag -> bag q0 = [] ->
  exists f0, forall fuel shuffle choose wildcard, f0 <= fuel -> permutes shuffle -> chooses choose ->
    exists c, compute_initial_collection P q0 fuel shuffle choose overflow_ex wildcard (t_goal overflow_ex) [] = Ok c /\
      can_merge_patterns INT_MAX INT_MAX c 0 1 = UB.
Proof.
  intros HP Hq. destruct (info_all P bag HP q0 Hq overflow_ex overflow_ex_plain) as (f0 & H). exists f0. intros fuel shuffle choose wildcard Hf Hsh Hch.
  assert (G : forall k v z, nth_error [46340; 46340; 100000]%Z v = Some z ->
    exists x, compute_pattern_info P q0 fuel shuffle choose overflow_ex wildcard k [v] = Ok x /\ pi_size x = z).
  { intros k v z Hz. assert (Hr : (0 <= z <= 100000)%Z).
    { apply nth_error_In in Hz. cbn [In] in Hz. destruct Hz as [<- |[<- |[<- |[]]]]; lia. }
    assert (Es : pattern_size overflow_ex [v] = z).
    { unfold pattern_size. cbn [fold_right]. cbn [t_vars overflow_ex].
      rewrite (nth_error_nth _ _ _ (map_nth_error (fun z => {| vdom := Z.to_nat z; vlayer := None; vdefault := 0 |}) v _ Hz)). cbn [vdom]. rewrite Z2Nat.id; lia. }
    destruct (H fuel shuffle choose wildcard k [v] Hf Hsh Hch) as (x & E & Ep & Hx).
    - split; [repeat constructor|]. intros u [<- |[]]. cbn [t_vars overflow_ex]. rewrite map_length. eapply nth_error_Some_lt; eauto.
    - rewrite Es. unfold MAX_STATES. lia.
    - exists x. split; auto. destruct Hx as (_ & Hs & _). rewrite Hs, Ep. exact Es. }
  exact (overflow_sizes P q0 fuel shuffle choose overflow_ex wildcard G).
Qed.
Print Assumptions C76_size_overflow_refuted.
Example C76_single_nonvacuous : (0 <= INT_MAX <= INT_MAX)%Z /\ In (0, 1) (t_goal cegar_ex) /\
  exists db, cegar_pattern list_pq [] 100 (fun _ _ l => rev l) (fun _ _ l => length l - 1) (fun _ _ => 0) (fun _ => false) cegar_ex INT_MAX false (0, 1) [] = Ok db /\
    db_pattern db = [0; 2].
Proof. splits; [vm_compute; discriminate|vm_compute; discriminate|now left|]. eexists. split; vm_compute; reflexivity. Qed.

(** C44: merge-and-shrink factor operations; C45: merge-and-shrink distances. *)
From Coq Require Import Permutation.
From Verif Require Import Outcome Spec_Task Spec_Relaxation Spec_Projection Model_PQ Model_MAS Spec_FTS Model_MASRun.
From Verif Require Import Proof_MAS1 Proof_MAS2 Proof_MAS4 Proof_MAS6 Proof_MAS7 Proof_MAS11 Proof_MAS12 Proof_MAS13 Prop_PDB.

(** [built P q0 ord ci cg t e F]: the factored system F is reached from the atomic systems of the task
    by merging, shrinking, pruning and label reduction, in any order ([e]: shrinking only combined
    bisimilar states).
    [P], [q0]: the priority queue used for distances; [ord]: iteration order of a hash map;
    [ci], [cg]: which distances are maintained. *)

(** The computation can start: the atomic systems can be built. *)
Theorem C44_start P bag q0 ci cg t : pq_contract P bag -> bag q0 = [] -> mas_task t -> exists F, create_fts P q0 ci cg t = Ok F.
Proof. intros HP Hq Ht. destruct (create_ok P bag HP q0 Hq ci cg t Ht) as (F & E & _). eauto. Qed.
Print Assumptions C44_start.

(** Merging: the two systems are replaced by their synchronized product, added at the end. *)
Theorem C44_merge_is_product P bag q0 ord ci cg t e F i j f g :
  pq_contract P bag -> bag q0 = [] -> (forall b, Permutation (ord b) b) -> mas_task t -> built P q0 ord ci cg t e F ->
  i <> j -> get_factor F i = Ok f -> get_factor F j = Ok g -> ts_init (f_ts f) <> None -> ts_init (f_ts g) <> None ->
  exists F' h, merge_factors P q0 ord ci cg F i j = Ok F' /\ F_labels F' = F_labels F /\
    F_factors F' = upd (upd (F_factors F) i None) j None ++ [Some h] /\
    is_product (active (F_labels F)) (the_lts (f_ts f)) (the_lts (f_ts g)) (the_lts (f_ts h)).
Proof.
  intros HP Hq Hord Ht HB Hij Hf Hg Nf Ng. destruct (built_inv P bag HP q0 Hq ord Hord ci cg t Ht e F HB) as [lab HI].
  destruct (merge_sound P bag HP q0 Hq ord Hord ci cg t Ht lab F i j f g HI Hf Hg Nf Ng) as (T & D & E & HPr & _). eexists. exists {| f_ts := T; f_rep := new_node (f_rep f) (f_rep g); f_dist := D |}. split; [exact E|]. splits; auto.
Qed.
Print Assumptions C44_merge_is_product.

(** Shrinking: the system is replaced by its image under the grouping of its states (nothing is done
    if there are as many classes as states). *)
Theorem C44_shrink_is_image P bag q0 ord ci cg t e F i f x cls :
  pq_contract P bag -> bag q0 = [] -> (forall b, Permutation (ord b) b) -> mas_task t -> built P q0 ord ci cg t e F ->
  get_factor F i = Ok f -> ts_init (f_ts f) = Some x -> grouping (ts_n (f_ts f)) cls ->
  only_useless_ungrouped (active (F_labels F)) (the_lts (f_ts f)) cls -> grouped cls x ->
  exists F', apply_abstraction P q0 ci cg F i cls = Ok F' /\ F_labels F' = F_labels F /\
    (F' = F /\ length cls = ts_n (f_ts f) \/ exists f', F_factors F' = upd (F_factors F) i (Some f') /\
       is_image (active (F_labels F)) (the_lts (f_ts f)) cls (the_lts (f_ts f'))).
Proof.
  intros HP Hq Hord Ht HB Hf Hx HG HU Hgr. destruct (built_inv P bag HP q0 Hq ord Hord ci cg t Ht e F HB) as [lab HI].
  destruct (abstraction_sound P bag HP q0 Hq ci cg t Ht lab F i f x cls HI Hf Hx HG HU (or_introl Hgr)) as (F' & E & _ & Hc). exists F'. split; auto.
  destruct Hc as [[-> El]|(f' & -> & HIm & _)]; [auto|]. split; auto. right. exists f'. auto.
Qed.
Print Assumptions C44_shrink_is_image.

(** Label reduction: costs and transitions as specified, ... *)
Theorem C44_label_reduction P bag q0 ord ci cg t e F mp comb :
  pq_contract P bag -> bag q0 = [] -> (forall b, Permutation (ord b) b) -> mas_task t -> built P q0 ord ci cg t e F ->
  label_groups (F_labels F) mp -> (forall i f en, i <> comb -> get_factor F i = Ok f -> In en mp -> one_local_group (f_ts f) (snd en)) ->
  exists F', apply_label_mapping F mp comb = Ok F' /\ reduced_costs mp (active (F_labels F)) (active (F_labels F')) /\
    (forall i f, get_factor F i = Ok f -> exists f', get_factor F' i = Ok f' /\ is_relabelling mp (active (F_labels F)) (the_lts (f_ts f)) (the_lts (f_ts f'))) /\
    (* ... the costs of the paths of each system are preserved, ... *)
    (forall i f f' s c s', get_factor F i = Ok f -> get_factor F' i = Ok f' ->
       (lpath (active (F_labels F)) (l_step (the_lts (f_ts f))) s c s' <-> lpath (active (F_labels F')) (l_step (the_lts (f_ts f'))) s c s')) /\
    (* ... and so are the transitions of their synchronized product. *)
    (forall (x y : nat -> nat) c,
       (exists a, active (F_labels F) a c /\ forall i f, get_factor F i = Ok f -> l_step (the_lts (f_ts f)) a (x i) (y i)) <->
       (exists a, active (F_labels F') a c /\ forall i f, get_factor F' i = Ok f -> l_step (the_lts (f_ts f)) a (x i) (y i))).
Proof.
  intros HP Hq Hord Ht HB HG Hloc. destruct (built_inv P bag HP q0 Hq ord Hord ci cg t Ht e F HB) as [lab HI].
  destruct (reduce_sound ci cg t lab F mp comb HI HG Hloc) as (F' & E & HI' & HC & Hlen & Hbk).
  assert (Hpair : forall i f, at_factor F i f -> exists f', at_factor F' i f' /\ f_rep f' = f_rep f /\ is_relabelling mp (active (F_labels F)) (the_lts (f_ts f)) (the_lts (f_ts f'))).
  { intros i f Hf. destruct (mapping_fw F F' mp comb i f E Hf) as [f' Hf']. exists f'. split; auto. destruct (Hbk i f' Hf') as (f0 & A & B). unfold at_factor in *. assert (f0 = f) by congruence. now subst. }
  exists F'. split; auto. split; [exact (proj2 HC)|]. split; [|split].
  - intros i f Hf. apply get_factor_ok in Hf. destruct (Hpair i f Hf) as (f' & A & _ & B). exists f'. split; auto. now apply get_factor_ok.
  - intros i f f' s c s' Hf Hf'. apply get_factor_ok in Hf, Hf'. destruct (Hpair i f Hf) as (f0 & A & _ & B). unfold at_factor in A. assert (f0 = f') by congruence. subst f0. eapply relabel_lpath; eauto.
  - intros x y c. split.
    + intros (a & Ha & Hst). exists (relabel mp a). split; [eapply relabel_cost; eauto|]. intros i f' Hf'. apply get_factor_ok in Hf'. destruct (Hbk i f' Hf') as (f & Hf & _ & HR). eapply relabel_step; eauto. apply Hst. now apply get_factor_ok.
    + intros (a & Ha & Hst). destruct (joint_back ci cg t lab F F' mp comb x y a c HI HG Hloc HC Hpair Ha) as (b & A & B).
      * intros i f' Hf'. apply Hst. now apply get_factor_ok.
      * exists b. split; auto. intros i f Hf. apply B. now apply get_factor_ok.
Qed.
Print Assumptions C44_label_reduction.

(** Pruning keeps exactly the states that are reachable (if unreachable states are pruned) and that
    reach a goal (if irrelevant ones are), each as a class of its own. *)
Theorem C44_prune P bag q0 ord ci cg t e F i f pu pi :
  pq_contract P bag -> bag q0 = [] -> (forall b, Permutation (ord b) b) -> mas_task t -> built P q0 ord ci cg t e F ->
  get_factor F i = Ok f -> ts_init (f_ts f) <> None -> (pu = true -> ci = true) -> (pi = true -> cg = true) ->
  exists F' cls, prune_step P q0 ci cg F i pu pi = Ok F' /\ (forall c, In c cls -> length c = 1) /\
    (forall s, s < ts_n (f_ts f) ->
       (grouped cls s <-> (pu = true -> from_init (active (F_labels F)) (the_lts (f_ts f)) s) /\
                          (pi = true -> reaches_goal (active (F_labels F)) (the_lts (f_ts f)) s))) /\
    (F' = F /\ length cls = ts_n (f_ts f) \/ exists f', F_factors F' = upd (F_factors F) i (Some f') /\
       is_image (active (F_labels F)) (the_lts (f_ts f)) cls (the_lts (f_ts f'))).
Proof.
  intros HP Hq Hord Ht HB Hf Hi Hpu Hpi. destruct (built_inv P bag HP q0 Hq ord Hord ci cg t Ht e F HB) as [lab HI].
  destruct (prune_sound P bag HP q0 Hq ci cg t Ht lab F i f pu pi HI Hf Hi Hpu Hpi) as (cls & F' & E & _ & H1 & _ & HK & Hc). exists F', cls. splits; auto.
  destruct Hc as [Hc|(f' & -> & HIm & _)]; [left; auto|right; exists f'; auto].
Qed.
Print Assumptions C44_prune.

(** Whatever was merged, shrunk, pruned and reduced, the heuristic extracted from the factors is
    defined on all reachable states and never exceeds the cost of a plan (in particular, a state with
    a plan is not reported as a dead end). *)
Theorem C44_admissible P bag q0 ord ci cg t e F :
  pq_contract P bag -> bag q0 = [] -> (forall b, Permutation (ord b) b) -> mas_task t -> built P q0 ord ci cg t e F ->
  exists rs, extract_factors P q0 F = Ok rs /\
    forall os s, task_path t (t_init t) os s -> exists v, compute_heuristic rs s = Ok v /\
      forall plan, task_plan_from t s plan -> exists h, v = Some h /\ h <= plan_cost t plan.
Proof.
  intros HP Hq Hord Ht HB. destruct (heuristic_admissible P bag HP q0 Hq ord Hord ci cg t Ht e F HB) as (rs & E & H). exists rs. split; auto. intros os s Hs. apply H. exists os. auto.
Qed.
Print Assumptions C44_admissible.

(** If shrinking combined only bisimilar states and everything was merged, it gives the cost of a cheapest plan. *)
Theorem C44_exact P bag q0 ord ci cg t F f :
  pq_contract P bag -> bag q0 = [] -> (forall b, Permutation (ord b) b) -> mas_exact_task t -> built P q0 ord ci cg t true F ->
  active_factors F = [f] ->
  exists rs, extract_factors P q0 F = Ok rs /\
    forall os s, task_path t (t_init t) os s -> exists v, compute_heuristic rs s = Ok v /\ perfect_value t s v.
Proof.
  intros HP Hq Hord Ht HB Hone. destruct (heuristic_admissible P bag HP q0 Hq ord Hord ci cg t (proj1 Ht) true F HB) as (rs & E & _). exists rs. split; auto. intros os s Hs.
  eapply (heuristic_exact P bag HP q0 Hq ord Hord ci cg t Ht F f rs s); eauto. exists os. auto.
Qed.
Print Assumptions C44_exact.

(** Distances: for every well-formed system, the requested distances are those of cheapest paths. *)
Theorem C45_compute_distances P bag q0 L maxl T ci cg D :
  pq_contract P bag -> bag q0 = [] -> twf L maxl T -> (ci = true -> ts_init T <> None) ->
  exists D', compute_distances P q0 T ci cg D = Ok D' /\
    (ci = true -> exists d, d_init D' = Some d /\ init_distances (active L) (the_lts T) d) /\
    (cg = true -> exists d, d_goal D' = Some d /\ goal_distances (active L) (the_lts T) d).
Proof. intros HP Hq W Hi. destruct (compute_distances_ok P bag q0 L maxl T ci cg D HP Hq W) as (D' & E & [A B] & _); [auto|]. exists D'. auto. Qed.
Print Assumptions C45_compute_distances.

(** The distances stored with the factors are right at every point of the computation: after merging
    (computed), shrinking and pruning (translated or recomputed) and label reduction (kept). *)
Theorem C45_distances_maintained P bag q0 ord ci cg t e F i f :
  pq_contract P bag -> bag q0 = [] -> (forall b, Permutation (ord b) b) -> mas_task t -> built P q0 ord ci cg t e F -> get_factor F i = Ok f ->
  (ci = true -> exists d, d_init (f_dist f) = Some d /\ init_distances (active (F_labels F)) (the_lts (f_ts f)) d) /\
  (cg = true -> exists d, d_goal (f_dist f) = Some d /\ goal_distances (active (F_labels F)) (the_lts (f_ts f)) d).
Proof.
  intros HP Hq Hord Ht HB Hf. destruct (built_inv P bag HP q0 Hq ord Hord ci cg t Ht e F HB) as [lab HI]. apply get_factor_ok in Hf. exact (fi_dist _ _ _ _ _ _ (in_fac _ _ _ _ _ HI i f Hf)).
Qed.
Print Assumptions C45_distances_maintained.

(** A task with three variables: atomic systems, a label reduction, two merges and a pruning, and the
    values of the heuristic. *)
Definition idord (b : list (nat * list nat)) := b.
Definition mas_ex : task := {|
  t_vars := [{| vdom := 3; vlayer := None; vdefault := 0 |}; {| vdom := 2; vlayer := None; vdefault := 0 |}];
  t_ops := [{| op_pre := [(0, 0)]; op_effs := [{| eff_cond := []; eff_fact := (0, 1) |}]; op_cost := 2 |};
            {| op_pre := [(0, 1)]; op_effs := [{| eff_cond := []; eff_fact := (0, 2) |}]; op_cost := 2 |};
            {| op_pre := [(0, 2); (1, 0)]; op_effs := [{| eff_cond := []; eff_fact := (1, 1) |}]; op_cost := 1 |}];
  t_rules := []; t_init := [0; 0]; t_goal := [(0, 2); (1, 1)] |}.
Lemma fact_ok_mas_ex f : (fst f <? 2) && (snd f <? nth (fst f) [3; 2] 0) = true -> fact_ok mas_ex f.
Proof.
  destruct f as [v d]. cbn [fst snd]. intros H. apply andb_true_iff in H. destruct H as [H1 H2]. apply Nat.ltb_lt in H1, H2.
  destruct v as [|[|v]]; cbn [nth] in H2; try lia; eexists; (split; [reflexivity|exact H2]).
Qed.
Lemma mas_ex_task : mas_exact_task mas_ex.
Proof.
  unfold mas_exact_task. splits.
  - unfold mas_task. splits.
    + unfold task_ok. splits; cbn [t_vars t_ops t_rules t_init t_goal mas_ex].
      * repeat constructor; cbn; try lia; intros H; congruence.
      * repeat constructor; try (apply fact_ok_mas_ex; reflexivity).
      * constructor.
      * repeat constructor.
      * repeat constructor; apply fact_ok_mas_ex; reflexivity.
    + split; [reflexivity|]. intros [|[|[|v]]]; reflexivity.
    + cbn [t_ops mas_ex]. intros op e Ho He. cbn [In] in Ho. decompose [or] Ho; subst; try contradiction; cbn [op_effs In] in He; decompose [or] He; subst; try contradiction; cbn [eff_cond map]; apply NoDup_nil.
  - cbn [t_goal mas_ex map fst]. repeat constructor; cbn [In]; intuition discriminate.
  - cbn [t_ops mas_ex]. intros op Ho. cbn [In] in Ho. decompose [or] Ho; subst; try contradiction; cbn [op_pre op_effs];
      (split; [intros e He; cbn [In] in He; decompose [or] He; subst; try contradiction; reflexivity|]);
      repeat split; try reflexivity; cbn [map fst eff_fact]; repeat constructor; cbn [In]; intuition discriminate.
Qed.
Definition no_fts : fts := {| F_labels := []; F_max := 0; F_factors := [] |}.
Definition get_fts (o : outcome fts) : fts := match o with Ok F => F | _ => no_fts end.
Definition ex_F0 := get_fts (create_fts list_pq [] true true mas_ex).
(* labels 0 and 1 do nothing in the system of variable 1 and cost the same *)
Definition ex_F1 := get_fts (apply_label_mapping ex_F0 [(3, [0; 1])] 0).
Definition ex_F2 := get_fts (merge_factors list_pq [] idord true true ex_F1 0 1).
Definition ex_F3 := get_fts (prune_step list_pq [] true true ex_F2 2 true true).

Example C44_nonvacuous :
  (forall b, Permutation (idord b) b) /\ mas_exact_task mas_ex /\
  built list_pq [] idord true true mas_ex true ex_F3 /\ length (active_factors ex_F3) = 1 /\
  map (fun f => ts_n (f_ts f)) (active_factors ex_F2) = [6] /\ map (fun f => ts_n (f_ts f)) (active_factors ex_F3) = [4] /\
  (exists rs, extract_factors list_pq [] ex_F3 = Ok rs /\
     map (compute_heuristic rs) [[0; 0]; [1; 0]; [2; 0]; [2; 1]] = [Ok (Some 5); Ok (Some 3); Ok (Some 1); Ok (Some 0)]).
Proof.
  split; [intros b; apply Permutation_refl|]. split; [exact mas_ex_task|]. split.
  - apply built_prune with (F := ex_F2) (i := 2) (pu := true) (pi := true) (f := nth 0 (active_factors ex_F2) {| f_ts := {| ts_l2l := []; ts_infos := []; ts_n := 0; ts_goals := []; ts_init := None |}; f_rep := Leaf 0 [] 0; f_dist := no_distances |}); auto; try (vm_compute; reflexivity).
    2: { vm_compute. discriminate. }
    eapply built_merge with (F := ex_F1) (i := 0) (j := 1); [|discriminate|vm_compute; reflexivity|vm_compute; reflexivity|vm_compute; discriminate|vm_compute; discriminate|vm_compute; reflexivity].
    apply built_reduce with (F := ex_F0) (mp := [(3, [0; 1])]) (comb := 0); [apply built_start; vm_compute; reflexivity| | |vm_compute; reflexivity].
    + split; [|split].
      * intros [|[|j]] e E; inversion E; subst. reflexivity.
      * cbn [map snd concat app]. repeat constructor; cbn [In]; intuition discriminate.
      * intros e [<-|[]]. cbn [snd length]. split; [lia|]. exists 2. intros l [<-|[<-|[]]]; vm_compute; reflexivity.
    + intros i f en Hi Hf [<-|[]]. destruct i as [|[|i]]; [congruence| |].
      * vm_compute in Hf. inversion Hf; subst. exists 1. intros l [<-|[<-|[]]]; vm_compute; reflexivity.
      * exfalso. vm_compute in Hf. destruct i; discriminate.
  - split; [vm_compute; reflexivity|]. split; [vm_compute; reflexivity|]. split; [vm_compute; reflexivity|].
    eexists. split; [vm_compute; reflexivity|]. vm_compute. reflexivity.
Qed.

(** Shrinking the system of variable 0 to two states: the heuristic stays admissible but is not exact. *)
Definition ex_S := get_fts (apply_abstraction list_pq [] true true ex_F0 0 [[0]; [1; 2]]).
Example C44_shrink_nonvacuous :
  built list_pq [] idord true true mas_ex false ex_S /\
  (exists rs, extract_factors list_pq [] ex_S = Ok rs /\ map (compute_heuristic rs) [[0; 0]; [1; 0]; [2; 1]] = [Ok (Some 2); Ok (Some 1); Ok (Some 0)]).
Proof.
  split.
  - eapply built_shrink with (F := ex_F0) (i := 0) (x := 0) (cls := [[0]; [1; 2]]); [apply built_start; vm_compute; reflexivity|vm_compute; reflexivity|reflexivity| | | |vm_compute; reflexivity].
    + split; [|split].
      * cbn [concat app]. repeat constructor; cbn [In]; intuition discriminate.
      * intros c [<-|[<-|[]]]; discriminate.
      * cbn [concat app]. intros s Hs. change (s < 3). cbn [In] in Hs. lia.
    + assert (Hall : forall s, s < 3 -> grouped [[0]; [1; 2]] s).
      { intros [|[|[|s]]] Hs; [exists 0, [0]|exists 1, [1; 2]|exists 1, [1; 2]|lia]; (split; [reflexivity|cbn [In]; auto]). }
      assert (Hstep : forall a x y, l_step (the_lts (f_ts (nth 0 (active_factors ex_F0) {| f_ts := {| ts_l2l := []; ts_infos := []; ts_n := 0; ts_goals := []; ts_init := None |}; f_rep := Leaf 0 [] 0; f_dist := no_distances |}))) a x y -> x < 3 /\ y < 3).
      { intros a x y (k & i & _ & Hi & Hin). assert (G : forall i, In i (ts_infos (f_ts (nth 0 (active_factors ex_F0) {| f_ts := {| ts_l2l := []; ts_infos := []; ts_n := 0; ts_goals := []; ts_init := None |}; f_rep := Leaf 0 [] 0; f_dist := no_distances |}))) -> forallb (fun p => (fst p <? 3) && (snd p <? 3)) (i_trans i) = true).
        { apply forallb_forall. vm_compute. reflexivity. }
        specialize (G i (nth_error_In _ _ Hi)). rewrite forallb_forall in G. specialize (G _ Hin). cbn [fst snd] in G. apply andb_true_iff in G as [G1 G2]. apply Nat.ltb_lt in G1, G2. auto. }
      unfold only_useless_ungrouped. split; [|split].
      * intros s Hs Hn. exfalso. apply Hn. apply Hall. exact Hs.
      * intros a c x y _ Hst _ _. apply Hall. exact (proj2 (Hstep a x y Hst)).
      * intros a c x y _ Hst _ _. apply Hall. exact (proj1 (Hstep a x y Hst)).
    + exists 0, [0]. split; [reflexivity|now left].
  - eexists. split; [vm_compute; reflexivity|]. vm_compute. reflexivity.
Qed.

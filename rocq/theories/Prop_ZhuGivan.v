(** C68: landmark generation by label propagation in the relaxed plan graph. *)
From Coq Require Import QArith.
From Verif Require Import Outcome Spec_Task Spec_Relaxation Spec_Landmarks Spec_LandmarkGeneration Model_Task Model_DefaultRules Model_Landmarks Model_LandmarkGeneration.
From Verif Require Import Proof_Task Proof_TaskCheck Proof_LG1 Proof_LG2 Proof_LG3 Proof_LG4 Proof_LG5 Proof_LG6 Proof_LG7 Prop_Landmarks Prop_LandmarkGeneration.
Local Open Scope nat_scope.

(** The code iterates over hash sets: [io] and [il] are the orders it finds, any at all. *)
Definition iterations (io : list Z -> list Z) (il : list fact -> list fact) : Prop :=
  (forall l i, In i (io l) <-> In i l) /\ (forall l a, In a (il l) <-> In a l).

(** All tasks, also with rules and conditional effects: propagation ends without error, and if all
    goals are reachable in the delete relaxation the landmarks are the atoms without which they
    are not. *)
Theorem C68_atoms : forall io il t uo, iterations io il -> relax_ok t -> state_ok t (t_init t) ->
  exists g, compute_landmark_graph io il t (ZhuGivan uo) = Ok g /\
    ((forall f, In f (t_goal t) -> avoiding t true (fun _ => False) f) ->
     (forall a, (exists n, In n g /\ n_atom n = a) <->
        fact_ok t a /\ ~ forall f, In f (t_goal t) -> avoiding t true (fun b => b = a) f) /\
     NoDup (map n_atom g) /\
     forall n, In n g -> (n_goal n = true <-> In (n_atom n) (t_goal t)) /\ (n_derived n = true <-> layer_of t (fst (n_atom n)) <> None)).
Proof.
  intros io il t uo [Hio Hil] Hro Hi. destruct (zg_graph io il Hio Hil t Hro Hi uo) as (g & g' & E & H1 & H2). exists g'. split; auto. intros HR.
  destruct H2 as [(f & K1 & K2 & _)|(_ & A & K1 & K2)]; [elim K2; auto|]. assert (EA := gi_atoms _ _ _ _ K1). splits.
  - intros a. rewrite (achieved_has t g g' a H1). change (~ forall f, In f (t_goal t) -> avoiding t true (fun b => b = a) f) with (needed t true a). rewrite <- K2, <- EA, in_map_iff. split; intros (n & Q1 & Q2); eauto.
  - rewrite (achieved_atoms t g g' H1), EA. apply (gi_nodup _ _ _ _ K1).
  - intros n' Hn'. destruct (forall2_in_r _ _ _ H1 n' Hn') as (n & Hn & A'). destruct (gi_nodes _ _ _ _ K1 n Hn) as [N1 N2 _ _]. rewrite (ac_goal _ _ _ A'), (ac_atom _ _ _ A'), (ac_derived _ _ _ A'), N2. split; auto. split; auto. intros [Q|Q]; [discriminate|auto].
Qed.
Print Assumptions C68_atoms.

Lemma zg_cost_graph io il t uo g : t_rules t = [] -> compute_landmark_graph io il t (ZhuGivan uo) = Ok g -> cost_partitioning_graph io il t (ZhuGivan uo) = Ok (map landmark_of g).
Proof. intros Hr E. unfold cost_partitioning_graph. rewrite Hr. cbn [supports_conditional_effects negb andb]. now rewrite E. Qed.

(** Tasks without rules, with or without conditional effects: if the relaxation is solvable, the
    landmarks are exactly those of its unary version, each once; with orderings, [a] is ordered
    before [b] exactly if [b] is a goal that cannot be reached without [a]. *)
Theorem C68_exact : forall io il t uo, iterations io il -> relax_ok t -> state_ok t (t_init t) -> t_rules t = [] ->
  relaxed_solvable t (unary_relaxation (t_ops t)) ->
  exists g, cost_partitioning_graph io il t (ZhuGivan uo) = Ok g /\
    (forall a, (exists l, In l g /\ lm_atoms l = [a]) <-> fact_ok t a /\ relaxed_landmark t (unary_relaxation (t_ops t)) a) /\
    NoDup (map lm_atoms g) /\
    (forall l, In l g -> exists a, lm_atoms l = [a] /\ lm_disjunctive l = false /\ (lm_goal l = true <-> In a (t_goal t)) /\
      (forall o, In o (lm_possible l) <-> exists op e, nth_error (t_ops t) o = Some op /\ In e (op_effs op) /\ eff_fact e = a) /\
      (forall o, In o (lm_first l) <-> exists op e, nth_error (t_ops t) o = Some op /\ In e (op_effs op) /\ eff_fact e = a /\
         forall f, In f (op_pre op ++ eff_cond e) -> avoiding t false (fun b => b = a) f)) /\
    (forall la lb a b ty, In la g -> In lb g -> lm_atoms la = [a] -> lm_atoms lb = [b] ->
      (ordered g la lb ty <-> ty = Natural /\ uo = true /\ In b (t_goal t) /\ a <> b /\ ~ avoiding t true (fun f => f = a) b)).
Proof.
  intros io il t uo [Hio Hil] Hro Hi Hr Hs. destruct (zg_graph io il Hio Hil t Hro Hi uo) as (g & g' & E & H1 & H2). exists (map landmark_of g').
  assert (HsR := proj1 (solvable_av t true Hr (or_introl eq_refl)) Hs). destruct H2 as [(f & K1 & K2 & _)|(_ & A & K1 & K2)]; [elim K2; auto|].
  assert (EA := gi_atoms _ _ _ _ K1). assert (EA' := achieved_atoms t g g' H1). rewrite EA in EA'.
  splits; [apply zg_cost_graph; auto| | | |].
  - intros a. change (unary_relaxation (t_ops t)) with (relaxation_ops t true). rewrite (landmark_av t true a Hr (or_introl eq_refl)).
    change (~ forall g0, In g0 (t_goal t) -> avoiding t true (fun f => f = a) g0) with (needed t true a). rewrite <- K2, <- EA', in_map_iff. split.
    + intros (l & Hl & Ea). apply in_map_iff in Hl as (n & <- & Hn). exists n. split; auto. cbn in Ea. congruence.
    + intros (n & <- & Hn). exists (landmark_of n). split; [now apply in_map|reflexivity].
  - rewrite map_map. cbn [landmark_of lm_atoms]. assert (N : NoDup (map n_atom g')) by (rewrite EA'; apply (gi_nodup _ _ _ _ K1)). clear -N. induction g' as [|n l IH]; cbn [map] in *; [constructor|]. inversion N as [|x y N1 N2]; subst. constructor; auto.
    intros C. apply in_map_iff in C as (n' & C1 & C2). apply N1. apply in_map_iff. exists n'. split; auto. congruence.
  - intros l Hl. apply in_map_iff in Hl as (n' & <- & Hn'). destruct (forall2_in_r _ _ _ H1 n' Hn') as (n & Hn & Ac). destruct (gi_nodes _ _ _ _ K1 n Hn) as [N1 N2 N3 N4].
    exists (n_atom n). split; [cbn; now rewrite (ac_atom _ _ _ Ac)|]. split; [reflexivity|]. split; [cbn; now rewrite (ac_goal _ _ _ Ac)|]. split; [intros o; now apply possible_ops|]. intros o. now apply first_ops.
  - intros la lb a b ty Hla Hlb Ea Eb. unfold ordered. split.
    + intros (i & Qb & j & Qa & Q). rewrite nth_error_map in Qa, Qb. destruct (nth_error g' i) as [nb'|] eqn:Ei; [|discriminate]. destruct (nth_error g' j) as [na'|] eqn:Ej; [|discriminate]. injection Qa as <-. injection Qb as <-.
      cbn [landmark_of lm_atoms lm_parents] in *. injection Ea as <-. injection Eb as <-. destruct (node_of t g g' H1 i nb' Ei) as (nb & Hnb & Acb). rewrite (ac_parents _ _ _ Acb) in Q.
      apply (no_parents _ _ _ _ (gi_nodes _ _ _ _ K1 nb (nth_error_In _ _ Hnb))) in Q as (-> & c & Qc & Q). rewrite (ac_atom _ _ _ Acb). rewrite <- EA', nth_error_map, Ej in Qc. injection Qc as <-. tauto.
    + intros (-> & Q1 & Q2 & Q3 & Q4). apply in_map_iff in Hla as (na' & <- & Hna'). apply in_map_iff in Hlb as (nb' & <- & Hnb'). cbn [landmark_of lm_atoms] in Ea, Eb. injection Ea as Ea. injection Eb as Eb.
      apply In_nth_error in Hna' as (j & Ej). apply In_nth_error in Hnb' as (i & Ei). exists i. rewrite nth_error_map, Ei. split; auto. exists j. rewrite nth_error_map, Ej. split; auto. cbn [landmark_of lm_parents].
      destruct (node_of t g g' H1 i nb' Ei) as (nb & Hnb & Acb). destruct (node_of t g g' H1 j na' Ej) as (na & Hna & Aca). rewrite (ac_parents _ _ _ Acb). apply (no_parents _ _ _ _ (gi_nodes _ _ _ _ K1 nb (nth_error_In _ _ Hnb))). split; auto.
      exists a. split; [rewrite <- EA', nth_error_map, Ej; cbn; now rewrite Ea|]. rewrite <- (ac_atom _ _ _ Acb), Eb. splits; auto. apply K2. rewrite <- EA', <- Ea. apply in_map. eapply nth_error_In; eauto.
Qed.
Print Assumptions C68_exact.

(** Both factories find the same landmarks. *)
Theorem C68_same_as_exhaust : forall io il io' il' t uo g g', iterations io il -> relax_ok t -> state_ok t (t_init t) ->
  relaxed_solvable t (unary_relaxation (t_ops t)) ->
  cost_partitioning_graph io il t (ZhuGivan uo) = Ok g -> cost_partitioning_graph io' il' t (Exhaust true) = Ok g' ->
  forall a, (exists l, In l g /\ lm_atoms l = [a]) <-> (exists l, In l g' /\ lm_atoms l = [a]).
Proof.
  intros io il io' il' t uo g g' Hit Hro Hi Hs E E' a. assert (Hr : t_rules t = []) by (destruct (t_rules t) eqn:R; auto; unfold cost_partitioning_graph in E; rewrite R in E; discriminate).
  assert (Hc : no_conditional_effects t).
  { apply no_cond. destruct (has_conditional_effects t) eqn:C; auto. unfold cost_partitioning_graph in E'. rewrite Hr, C in E'. discriminate. }
  destruct (C68_exact io il t uo Hit Hro Hi Hr Hs) as (g1 & E1 & H1 & _). destruct (C67_exhaust_exact io' il' t true Hro Hi Hr Hc) as (g2 & E2 & H2 & _). assert (g1 = g) by congruence. assert (g2 = g') by congruence. subst. now rewrite H1, H2.
Qed.
Print Assumptions C68_same_as_exhaust.

(** If the relaxation is not solvable, the only landmark is an unreachable goal that no operator
    can achieve. *)
Theorem C68_unsolvable : forall io il t uo, iterations io il -> relax_ok t -> state_ok t (t_init t) -> t_rules t = [] ->
  ~ relaxed_solvable t (unary_relaxation (t_ops t)) ->
  exists l, cost_partitioning_graph io il t (ZhuGivan uo) = Ok [l] /\ lm_goal l = true /\ lm_first l = [] /\
    exists a, lm_atoms l = [a] /\ In a (t_goal t) /\ ~ holds (t_init t) a /\ ~ avoiding t true (fun _ => False) a.
Proof.
  intros io il t uo [Hio Hil] Hro Hi Hr Hs. destruct (zg_graph io il Hio Hil t Hro Hi uo) as (g & g' & E & H1 & H2).
  destruct H2 as [(f & K1 & K2 & ->)|(K & _)]; [|elim Hs; now apply (proj2 (solvable_av t true Hr (or_introl eq_refl)))].
  inversion H1 as [|n n' l l' Ac Hn]; subst. inversion Hn; subst. exists (landmark_of n'). split; [now apply (zg_cost_graph io il t uo [n'])|]. cbn [landmark_of lm_goal lm_first lm_atoms]. rewrite (ac_goal _ _ _ Ac), (ac_atom _ _ _ Ac). splits; auto.
  - assert (N : forall i, ~ In i (n_first n')).
    { intros i Hin. apply (proj2 (ac_first _ _ _ Ac)) in Hin as (x & e & Q1 & Q2 & Q3 & Q4 & Q5). cbn [new_node n_atom] in *. apply K2. rewrite <- Q4. apply (av_step t (fun _ => False) x e Q1 Q3); auto. intros h Hh. eapply (av_R t). apply av_unary_more. apply Q5. exact Hh. }
    destruct (n_first n') as [|i l]; auto. elim (N i). now left.
  - exists f. splits; auto. intros Hh. apply K2. now apply av_init.
Qed.
Print Assumptions C68_unsolvable.

(** The graph is what the landmark heuristics need, orderings included. *)
Theorem C68_sound : forall io il t uo g, iterations io il -> task_ok t -> no_derived t -> unconditional_effects_happen t ->
  cost_partitioning_graph io il t (ZhuGivan uo) = Ok g -> graph_ok t g /\ sound t g.
Proof.
  intros io il t uo g [Hio Hil] Ht Hnd Hu E. assert (Hro := task_relax t Ht Hnd). assert (Hi : state_ok t (t_init t)) by (destruct Ht as (_ & _ & _ & K & _); auto).
  destruct (zg_graph io il Hio Hil t Hro Hi uo) as (g0 & g' & E' & H1 & H2). rewrite (zg_cost_graph io il t uo g' (proj1 Hnd) E') in E. injection E as <-.
  assert (HG : Forall (fact_ok t) (t_goal t)) by (destruct Hro as (_ & _ & K); auto). rewrite Forall_forall in HG.
  assert (F : (forall n, In n g0 -> fact_ok t (n_atom n) /\ needed t false (n_atom n) /\ (n_goal n = true -> In (n_atom n) (t_goal t))) /\
    (forall i b j ty, nth_error g0 i = Some b -> In (j, ty) (n_parents b) -> ty = Natural /\ forall a, nth_error g0 j = Some a -> n_atom a <> n_atom b /\ ~ avoiding t true (fun f => f = n_atom a) (n_atom b)) /\
    (forall i a, nth_error g0 i = Some a -> forall j ty,
      (In (j, ty) (n_children a) -> exists b, nth_error g0 j = Some b /\ In (i, ty) (n_parents b)) /\
      (In (j, ty) (n_parents a) -> exists b, nth_error g0 j = Some b /\ In (i, ty) (n_children b)))).
  { destruct H2 as [(f & K1 & K2 & ->)|(K0 & A & K1 & K2)].
    - splits.
      + intros n [<-|[]]. cbn. splits; auto. now apply goal_needed.
      + intros [|[|i]] b j ty Hb Hp; cbn in Hb; try discriminate. injection Hb as <-. destruct Hp.
      + intros [|[|i]] a Ha j ty; cbn in Ha; try discriminate. injection Ha as <-. split; intros [].
    - splits.
      + intros n Hn. destruct (proj1 (K2 (n_atom n))) as [Q1 Q2]; [rewrite <- (gi_atoms _ _ _ _ K1); now apply in_map|]. splits; auto; [now apply needed_false|]. apply (no_goal _ _ _ _ (gi_nodes _ _ _ _ K1 n Hn)).
      + intros i b j ty Hb Hp. apply (no_parents _ _ _ _ (gi_nodes _ _ _ _ K1 b (nth_error_In _ _ Hb))) in Hp as (-> & c & Qc & Q). split; auto. intros a Ha. assert (n_atom a = c) by (assert (Z := atom_at _ _ _ _ _ _ K1 Ha); congruence). subst c. tauto.
      + intros i a Ha j ty. assert (Ai := atom_at _ _ _ _ _ _ K1 Ha). destruct (gi_nodes _ _ _ _ K1 a (nth_error_In _ _ Ha)) as [N1 N2 N3 N4]. split; intros Q.
        * apply N4 in Q as (-> & c & Qc & Q). destruct (node_at _ _ _ _ _ _ K1 Qc) as (b & Hb & <- & Ob). exists b. split; auto. apply (no_parents _ _ _ _ Ob). split; auto. exists (n_atom a). auto.
        * apply N3 in Q as (-> & c & Qc & Q). destruct (node_at _ _ _ _ _ _ K1 Qc) as (b & Hb & <- & Ob). exists b. split; auto. apply (no_children _ _ _ _ Ob). split; auto. exists (n_atom a). auto. }
  destruct F as (F1 & F2 & F3). split.
  - apply (nodes_graph_ok t Hnd g0); auto. intros n Hn. now apply F1.
  - apply (nodes_sound t Ht Hnd Hu g0); auto; intros n Hn; now apply F1.
Qed.
Print Assumptions C68_sound.

(** Together with C54: cost partitioning over the generated landmarks never overestimates. *)
Theorem C68_admissible : forall io il t uo g opt alm rnd es st s os0 ss0 os,
  iterations io il -> task_ok t -> no_derived t -> unconditional_effects_happen t -> cost_partitioning_graph io il t (ZhuGivan uo) = Ok g ->
  history t es -> rounding unit_roundoff rnd -> notify_all t g opt es = Ok st -> known t es s os0 ss0 -> task_plan_from t s os ->
  (Z.of_nat (S (length g)) * Z.of_nat (S (plan_cost t os)) <= 2 ^ 43)%Z ->
  exists v, heuristic rnd t g alm st s = Ok (Some v) /\ (v <= Z.of_nat (plan_cost t os))%Z.
Proof.
  intros io il t uo g opt alm rnd es st s os0 ss0 os Hit Ht Hnd Hu E. destruct (C68_sound io il t uo g Hit Ht Hnd Hu E) as [Hg Hs].
  intros. eapply C54_admissible; eauto. destruct Ht as (_ & _ & _ & K & _). auto.
Qed.
Print Assumptions C68_admissible.

(** Tasks with rules are rejected by the cost-partitioning heuristic. *)
Theorem C68_unsupported : forall io il t uo, t_rules t <> [] -> cost_partitioning_graph io il t (ZhuGivan uo) = Exit 34.
Proof. intros io il t uo H. unfold cost_partitioning_graph. destruct (t_rules t); [congruence|reflexivity]. Qed.
Print Assumptions C68_unsupported.

(** A concrete case with a conditional effect: moving from 1 to 2 with the key switches the light on. *)
Definition zg_ex : task := {|
  t_vars := [lv 2; lv 3; lv 2];
  t_ops := [lop [(1, 0)] [(0, 1)] 2; lop [(1, 0)] [(1, 1)] 3;
            {| op_pre := [(1, 1)]; op_effs := [{| eff_cond := []; eff_fact := (1, 2) |}; {| eff_cond := [(0, 1)]; eff_fact := (2, 1) |}]; op_cost := 1 |};
            lop [(1, 1)] [(1, 0); (0, 0)] 1];
  t_rules := []; t_init := [0; 0; 0]; t_goal := [(2, 1); (1, 2)] |}.
Definition backwards {A} (l : list A) : list A := rev l.
Example C68_nonvacuous :
  iterations backwards backwards /\ task_ok zg_ex /\ no_derived zg_ex /\ relax_ok zg_ex /\ unconditional_effects_happen zg_ex /\ ~ no_conditional_effects zg_ex /\
  relaxed_solvable zg_ex (unary_relaxation (t_ops zg_ex)) /\
  match cost_partitioning_graph backwards backwards zg_ex (ZhuGivan true) with
  | Ok g => map (fun l => (lm_atoms l, lm_goal l, lm_first l, lm_possible l)) g =
      [([(2, 1)], true, [2], [2]); ([(1, 1)], false, [1], [1]); ([(0, 1)], false, [0], [0]); ([(1, 0)], false, [], [3]); ([(1, 2)], true, [2], [2])] /\
      map lm_parents g = [[(1, Natural); (2, Natural); (3, Natural)]; []; []; []; [(1, Natural); (3, Natural)]]
  | _ => False
  end /\
  match cost_partitioning_graph (fun x => x) (fun x => x) {| t_vars := t_vars zg_ex; t_ops := skipn 1 (t_ops zg_ex); t_rules := []; t_init := [0; 0; 0]; t_goal := t_goal zg_ex |} (ZhuGivan true) with
  | Ok [l] => lm_atoms l = [(2, 1)] /\ lm_first l = []
  | _ => False
  end.
Proof.
  assert (Hok : task_ok zg_ex) by (apply task_okb_ok; reflexivity).
  assert (Hnd : no_derived zg_ex) by (split; [reflexivity|]; intros [|[|[|[|v]]]]; cbn; auto).
  split; [split; intros; unfold backwards; symmetry; apply in_rev|]. split; auto. split; auto. split; [now apply task_relax|]. split.
  { intros op e e' Ho He He' Hc Hf. repeat (destruct Ho as [<-|Ho]; [cbn in He, He'; intuition (subst; cbn in *; congruence)|]). destruct Ho. }
  split. { rewrite <- no_cond. discriminate. }
  split.
  { exists [0; 1; 2; 3]. eexists. exists [(0, 0); (1, 0); (2, 0)]. split; [|split].
    - intros f. rewrite <- (state_atom (t_init zg_ex) f). cbn. tauto.
    - repeat (eapply rrun_cons; [reflexivity|cbn; intuition (subst; auto)|]). apply rrun_nil.
    - cbn. intuition (subst; auto 20). }
  split; vm_compute; auto.
Qed.

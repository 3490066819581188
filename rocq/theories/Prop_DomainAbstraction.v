(** C55: domain abstraction of tasks. *)
From Coq Require Import String.
From Coq Require Import List Permutation.
From Verif Require Import Outcome Spec_Task Spec_Relaxation Model_Task Model_PQ Model_Relaxation Spec_DomainAbstraction Model_DomainAbstraction.
From Verif Require Import Proof_DomainAbstraction Proof_DomainAbstraction2 Proof_TaskCheck Prop_Relaxation.
Import ListNotations.
Local Open Scope nat_scope.

(** No effect has conditions. *)
Definition no_conditional_effects (t : task) : Prop := forall op e, In op (t_ops t) -> In e (op_effs op) -> eff_cond e = [].

Lemma build_ok sm name t gs : task_ok t -> no_derived t -> no_conditional_effects t -> grouping_ok t gs ->
  exists doms vms names, build_tables sm t name gs = Ok (doms, vms, names) /\
    build_domain_abstracted_task sm t name gs = Ok (atask t doms vms, vms, names) /\
    List.length doms = List.length (t_vars t) /\ List.length vms = List.length (t_vars t) /\
    forall v x, is_var t v x -> exists dom vm ns, nth_error doms v = Some dom /\ nth_error vms v = Some vm /\ nth_error names v = Some ns /\
      value_map_ok x (groups_of gs v) dom vm /\ List.length ns = dom /\
      ((forall s, sm s = s) \/ ~ In v (map fst gs) -> forall a, a < dom -> exists ys, NoDup ys /\ (forall y, In y ys <-> nth_error vm y = Some a) /\ nth_error ns a = Some (joined (name v) ys)) /\
      (forall g y a, In g (groups_of gs v) -> In y g -> nth_error vm y = Some a -> nth_error ns a = Some (joined (name v) g)).
Proof.
  intros Ht Hno Hun Hg. destruct (build_tables_ok sm t name gs (proj1 Hno) Hun Hg) as (doms & vms & names & E & L1 & L2 & _ & Hv).
  assert (Hvm : forall v x, is_var t v x -> exists dom vm, nth_error doms v = Some dom /\ nth_error vms v = Some vm /\ List.length vm = vdom x /\ forall y a, nth_error vm y = Some a -> a < dom).
  { intros v x Hx. destruct (Hv v x Hx) as (dom & vm & ns & A & B & _ & (C & D & _) & _). eauto 6. }
  exists doms, vms, names. splits; auto. unfold build_domain_abstracted_task. rewrite E. cbn [bind]. pose proof Ht as (_ & HO & _ & HI & HG).
  rewrite (convert_state_ok t doms vms L1 L2 Hvm _ HI). cbn [bind]. rewrite (abstract_facts_ok t doms vms L1 L2 Hvm _ HG). cbn [bind].
  rewrite (map_outcome_ok _ (aoperator vms)); [reflexivity|]. intros op Hop. rewrite Forall_forall in HO. apply (abstract_operator_ok t doms vms L1 L2 Hvm). auto.
Qed.

(** Every well-formed grouping is accepted, and every plan from any state of the original task is
    a plan of the same cost from the abstraction of that state in the abstracted task, whose
    initial state is the abstraction of the original one. *)
Theorem C55_plans_preserved : forall sm name t gs, task_ok t -> no_derived t -> no_conditional_effects t -> grouping_ok t gs ->
  exists t' vms names, build_domain_abstracted_task sm t name gs = Ok (t', vms, names) /\
    convert_state vms (t_init t) = Ok (t_init t') /\
    forall s, state_ok t s -> exists s', convert_state vms s = Ok s' /\ state_ok t' s' /\
      forall os, task_plan_from t s os -> task_plan_from t' s' os /\ plan_cost t' os = plan_cost t os.
Proof.
  intros sm name t gs Ht Hno Hun Hg. destruct (build_ok sm name t gs Ht Hno Hun Hg) as (doms & vms & names & _ & E & L1 & L2 & Hv).
  assert (Hvm : forall v x, is_var t v x -> exists dom vm, nth_error doms v = Some dom /\ nth_error vms v = Some vm /\ List.length vm = vdom x /\ forall y a, nth_error vm y = Some a -> a < dom).
  { intros v x Hx. destruct (Hv v x Hx) as (dom & vm & ns & A & B & _ & (C & D & _) & _). eauto 6. }
  exists (atask t doms vms), vms, names. pose proof Ht as (_ & _ & _ & HI & _). splits; auto.
  - apply (convert_state_ok t doms vms L1 L2 Hvm _ HI).
  - intros s Hs. exists (astate vms s). splits.
    + apply (convert_state_ok t doms vms L1 L2 Hvm _ Hs).
    + apply (astate_ok t doms vms L1 L2 Hvm s Hs).
    + intros os Hos. split; [apply (aplan t Ht Hno Hun doms vms L1 L2 s os Hs Hos)|apply acost].
Qed.
Print Assumptions C55_plans_preserved.

(** Exactly the values of a group become equal, all values of the new domain are used, and the
    operators and goals mention the new values; operator costs and the number of facts stay. *)
Theorem C55_exactly_the_groups_merged : forall sm name t gs, task_ok t -> no_derived t -> no_conditional_effects t -> grouping_ok t gs ->
  exists t' vms names, build_domain_abstracted_task sm t name gs = Ok (t', vms, names) /\
    List.length (t_vars t') = List.length (t_vars t) /\
    (forall v x, is_var t v x -> exists x' vm, is_var t' v x' /\ nth_error vms v = Some vm /\ List.length vm = vdom x /\
      (forall y a, nth_error vm y = Some a -> a < vdom x') /\ (forall a, a < vdom x' -> exists y, nth_error vm y = Some a) /\
      (forall y z, y < vdom x -> z < vdom x -> (nth_error vm y = nth_error vm z <-> merged (groups_of gs v) y z))) /\
    (let same := fun f f' : fact => fst f' = fst f /\ exists vm, nth_error vms (fst f) = Some vm /\ nth_error vm (snd f) = Some (snd f') in
     Forall2 same (t_goal t) (t_goal t') /\
     Forall2 (fun op op' => Forall2 same (op_pre op) (op_pre op') /\ op_cost op' = op_cost op /\
       Forall2 (fun e e' => same (eff_fact e) (eff_fact e') /\ eff_cond e' = []) (op_effs op) (op_effs op')) (t_ops t) (t_ops t')).
Proof.
  intros sm name t gs Ht Hno Hun Hg. destruct (build_ok sm name t gs Ht Hno Hun Hg) as (doms & vms & names & _ & E & L1 & L2 & Hv).
  exists (atask t doms vms), vms, names. splits; auto.
  - unfold atask. cbn [t_vars]. rewrite map_length, combine_length. lia.
  - intros v x Hx. destruct (Hv v x Hx) as (dom & vm & ns & A & B & _ & (C & D & F & G) & _). eexists _, vm. split; [apply (avar t doms vms v x dom Hx A)|]. cbn [vdom]. auto.
  - intros same. assert (Hsame : forall f, fact_ok t f -> same f (afact vms f)).
    { intros f (x & Hx & Hlt). split; auto. destruct (Hv _ _ Hx) as (dom & vm & ns & A & B & _ & (C & _) & _). exists vm. split; auto. unfold afact, alpha. cbn [snd]. rewrite (nth_error_nth _ _ [] B).
      destruct (nth_error vm (snd f)) as [a|] eqn:Ea; [|apply nth_error_None in Ea; lia]. now rewrite (nth_error_nth _ _ 0 Ea). }
    assert (HF : forall fs, Forall (fact_ok t) fs -> Forall2 same fs (map (afact vms) fs)) by (induction 1; constructor; auto).
    pose proof Ht as (_ & HO & _ & _ & HG). unfold atask. cbn [t_goal t_ops]. split; [auto|].
    assert (Hun' : forall op, In op (t_ops t) -> forall e, In e (op_effs op) -> eff_cond e = []) by (intros; eapply Hun; eauto). clear -HO HF Hsame Hun'.
    induction HO as [|op ops [HP HE] HO IH]; constructor; [|apply IH; intros; eapply Hun'; eauto; now right]. cbn [aoperator op_pre op_cost op_effs]. splits; auto.
    specialize (Hun' op (or_introl eq_refl)). clear -HE Hsame Hun'. induction HE as [|e es (_ & He & _) HE IH]; constructor; [|apply IH; intros; apply Hun'; now right]. cbn [aeffect eff_fact eff_cond].
    split; auto. apply Hun'. now left.
Qed.
Print Assumptions C55_exactly_the_groups_merged.

(** Unsupported tasks are rejected. *)
Theorem C55_unsupported_rejected : forall sm name t gs,
  t_rules t <> [] \/ (exists op e, In op (t_ops t) /\ In e (op_effs op) /\ eff_cond e <> []) ->
  build_domain_abstracted_task sm t name gs = Exit (-6).
Proof.
  intros sm name t gs H. unfold build_domain_abstracted_task, build_tables. destruct (t_rules t) as [|r rs]; [|reflexivity]. destruct H as [H|(op & e & Hop & He & Hc)]; [contradiction|].
  assert (has_conditional_effects t = true) as ->; [|reflexivity]. unfold has_conditional_effects. apply existsb_exists. exists op. split; auto. apply existsb_exists. exists e. split; auto. destruct (eff_cond e); [contradiction|auto].
Qed.
Print Assumptions C55_unsupported_rejected.

(** Estimates of the abstracted task are lower bounds for the original one: for h^max. *)
Theorem C55_hmax_admissible : forall P bag, pq_contract P bag ->
  forall sm name t gs, task_ok t -> no_derived t -> no_conditional_effects t -> grouping_ok t gs ->
  exists t' vms names, build_domain_abstracted_task sm t name gs = Ok (t', vms, names) /\
  forall s q0 by0, state_ok t s -> List.length by0 = num_props t' ->
  exists s' v, convert_state vms s = Ok s' /\ hmax P t' q0 by0 s' = Ok v /\
    forall os, task_plan_from t s os -> exists x, v = Some x /\ x <= plan_cost t os.
Proof.
  intros P bag HP sm name t gs Ht Hno Hun Hg. destruct (build_ok sm name t gs Ht Hno Hun Hg) as (doms & vms & names & _ & E & L1 & L2 & Hv).
  assert (Hvm : forall v x, is_var t v x -> exists dom vm, nth_error doms v = Some dom /\ nth_error vms v = Some vm /\ List.length vm = vdom x /\ forall y a, nth_error vm y = Some a -> a < dom).
  { intros v x Hx. destruct (Hv v x Hx) as (dom & vm & ns & A & B & _ & (C & D & _) & _). eauto 6. }
  exists (atask t doms vms), vms, names. split; auto. intros s q0 by0 Hs Hb.
  destruct (C32_hmax_admissible P bag HP (atask t doms vms) (astate vms s) q0 by0 (arelax_ok t Ht Hno Hun doms vms L1 L2 Hvm) (astate_ok t doms vms L1 L2 Hvm s Hs) Hb (ano_derived t Hno doms vms)) as (v & Ev & Hle).
  exists (astate vms s), v. splits; auto; [apply (convert_state_ok t doms vms L1 L2 Hvm _ Hs)|]. intros os Hos. rewrite <- (acost t doms vms). apply Hle. apply (aplan t Ht Hno Hun doms vms L1 L2 s os Hs Hos).
Qed.
Print Assumptions C55_hmax_admissible.

(** Fact names: the value of a group is always named after all members of the group; other values
    keep their names if moving a string to itself keeps it. *)
Theorem C55_names : forall sm name t gs, task_ok t -> no_derived t -> no_conditional_effects t -> grouping_ok t gs ->
  exists t' vms names, build_domain_abstracted_task sm t name gs = Ok (t', vms, names) /\
  forall v x, is_var t v x -> exists vm ns, nth_error vms v = Some vm /\ nth_error names v = Some ns /\
    (forall g y a, In g (groups_of gs v) -> In y g -> nth_error vm y = Some a -> nth_error ns a = Some (joined (name v) g)) /\
    ((forall s, sm s = s) -> forall y a, (forall g, In g (groups_of gs v) -> ~ In y g) -> nth_error vm y = Some a -> nth_error ns a = Some (name v y)).
Proof.
  intros sm name t gs Ht Hno Hun Hg. destruct (build_ok sm name t gs Ht Hno Hun Hg) as (doms & vms & names & _ & E & L1 & L2 & Hv).
  exists (atask t doms vms), vms, names. split; auto. intros v x Hx. destruct (Hv v x Hx) as (dom & vm & ns & A & B & C & (D & F & _ & G) & H & I & J). exists vm, ns. splits; auto.
  intros Hsm y a Hy Ha. destruct (I (or_introl Hsm) a (F y a Ha)) as (ys & ND & Hys & ->). f_equal. assert (ys = [y]) as ->; [|reflexivity].
  assert (Hy' : In y ys) by now apply Hys. assert (Hall : forall z, In z ys -> z = y).
  { intros z Hz. apply Hys in Hz. assert (y < vdom x) by (rewrite <- D; apply nth_error_Some; congruence). assert (z < vdom x) by (rewrite <- D; apply nth_error_Some; congruence).
    destruct (proj1 (G y z H0 H1)) as [->|(g & Hg' & K & _)]; [congruence|auto|]. exfalso. eapply Hy; eauto. }
  destruct ys as [|b [|c ys]]; [destruct Hy'|f_equal; apply Hall; now left|]. exfalso. inversion ND as [|? ? Hn _]; subst. apply Hn. left. rewrite (Hall b), (Hall c); auto; [right; now left|now left].
Qed.
Print Assumptions C55_names.

(** Non-vacuity: values 0, 2, 4 of variable 0 form a group and 1, 3 another. *)
Definition da_ex : task := {|
  t_vars := [ {| vdom := 6; vlayer := None; vdefault := 0 |}; {| vdom := 3; vlayer := None; vdefault := 0 |} ];
  t_ops := [ {| op_pre := [(0, 0)]; op_effs := [ {| eff_cond := []; eff_fact := (0, 1) |} ]; op_cost := 1 |};
             {| op_pre := [(0, 1)]; op_effs := [ {| eff_cond := []; eff_fact := (0, 2) |}; {| eff_cond := []; eff_fact := (1, 2) |} ]; op_cost := 3 |};
             {| op_pre := [(0, 2); (1, 2)]; op_effs := [ {| eff_cond := []; eff_fact := (0, 5) |} ]; op_cost := 4 |} ];
  t_rules := []; t_init := [0; 0]; t_goal := [(0, 5)] |}.
Definition da_groups : list (nat * list (list nat)) := [(0, [[0; 4; 2]; [3; 1]])].
Definition da_name (v x : nat) : string := String (Ascii.ascii_of_nat (48 + x)) EmptyString.
Example C55_nonvacuous :
  task_ok da_ex /\ no_derived da_ex /\ no_conditional_effects da_ex /\ grouping_ok da_ex da_groups /\
  match build_domain_abstracted_task (fun s => s) da_ex da_name da_groups with
  | Ok (t', vms, names) =>
      vms = [[1; 2; 1; 2; 1; 0]; [0; 1; 2]] /\ names = [["5"; "0 OR 4 OR 2"; "3 OR 1"]; ["0"; "1"; "2"]]%string /\
      t_init t' = [1; 0] /\ t_goal t' = [(0, 0)] /\ map vdom (t_vars t') = [3; 3] /\ map op_pre (t_ops t') = [[(0, 1)]; [(0, 2)]; [(0, 1); (1, 2)]] /\
      hmax list_pq t' [] (repeat None 6) (t_init t') = Ok (Some 8)
  | _ => False
  end.
Proof.
  splits.
  - apply task_okb_ok. reflexivity.
  - split; auto. intros v. unfold layer_of. do 2 (destruct v as [|v]; [reflexivity|]). destruct v; reflexivity.
  - intros op e Hop He. cbn in Hop. decompose [or] Hop; try contradiction; subst op; cbn in He; decompose [or] He; try contradiction; subst e; reflexivity.
  - split; [repeat constructor; intros []|]. intros v groups [E|[]]. inversion E; subst. eexists. split; [reflexivity|]. cbn [vdom]. unfold groups_ok. splits.
    + cbn. repeat constructor; cbn; intuition lia.
    + cbn. intros x Hx. intuition lia.
    + intros g [<-|[<-|[]]]; discriminate.
  - vm_compute. splits; reflexivity.
Qed.

(** With a library whose self-move empties strings, values in front of the first merged value
    lose their names. *)
Theorem C55_self_move_refuted :
  exists sm t gs name t' vms names, task_ok t /\ no_derived t /\ no_conditional_effects t /\ grouping_ok t gs /\
    build_domain_abstracted_task sm t name gs = Ok (t', vms, names) /\
    exists vm ns, nth_error vms 0 = Some vm /\ nth_error names 0 = Some ns /\ nth_error vm 0 = Some 0 /\ name 0 0 <> ""%string /\ nth_error ns 0 = Some ""%string.
Proof.
  destruct C55_nonvacuous as (H1 & H2 & H3 & _). exists (fun _ => ""%string), da_ex, [(0, [[4; 5]])], da_name. eexists _, _, _. splits; auto.
  - split; [repeat constructor; intros []|]. intros v groups [E|[]]. inversion E; subst. eexists. split; [reflexivity|]. cbn [vdom]. unfold groups_ok. splits.
    + cbn. repeat constructor; cbn; intuition lia.
    + cbn. intros x Hx. intuition lia.
    + intros g [<-|[]]; discriminate.
  - vm_compute. reflexivity.
  - eexists _, _. splits; try reflexivity. discriminate.
Qed.
Print Assumptions C55_self_move_refuted.

(** C71: the merge-and-shrink algorithm. *)
From Coq Require Import Permutation.
From Verif Require Import Outcome Spec_Task Spec_Relaxation Spec_Projection Model_PQ Model_Graph Model_MAS Spec_FTS Model_MASRun Model_MASAlgorithm Spec_MASAlgorithm.
From Verif Require Import Proof_MAS1 Proof_MAS11 Proof_MAS12 Proof_MAA4 Proof_MAA5 Proof_MAA10 Proof_MAA11 Prop_PDB Prop_MAS.

Lemma order_covers t O : options_ok t O -> NoDup (o_order O) /\ forall k, k < 2 * length (t_vars t) - 1 -> In k (o_order O).
Proof.
  intros (_ & o & shuffle & Hsh & ->). pose proof (system_order_ok o shuffle (length (t_vars t)) Hsh) as Hp. split.
  - exact (Permutation_NoDup (Permutation_sym Hp) (seq_NoDup _ _)).
  - intros k Hk. apply (Permutation_in _ (Permutation_sym Hp)), in_seq. lia.
Qed.

(** With any options, merge strategy, random choices and time limit, the algorithm ends without error.
    What it returns results from merges of solvable factors, shrinkings that keep every state, prunings
    and label reductions, so C44 and C45 apply.  Unless a time limit interferes, everything is merged
    or some factor shows that the task has no plan. *)
Theorem C71_builds P bag q0 ord O pick MS timeout t no_time :
  pq_contract P bag -> bag q0 = [] -> (forall b, Permutation (ord b) b) -> mas_task t -> options_ok t O -> picks_two_groups pick -> good_merges P q0 ord O t MS ->
  exists e F, build_factored_transition_system P q0 ord O pick MS timeout t no_time = Ok F /\ built P q0 ord (o_ci O) (o_cg O) t e F /\
    length (F_factors F) <= 2 * length (t_vars t) /\ (0 < length (t_vars t) -> 0 < num_active F) /\
    (no_time = false -> (forall n k, timeout n k = false) ->
       num_active F <= 1 \/ exists i f, get_factor F i = Ok f /\ is_solvable f = Ok false).
Proof.
  intros HP Hq Hord Ht HO Hpick Hmerge.
  destruct (build_ok P bag HP q0 Hq ord Hord t Ht O pick Hpick MS Hmerge timeout (order_covers t O HO) (proj1 HO) (number_of_states t) no_time (le_n _)) as (e & F & E & HB & _ & _ & HL & HA & HT).
  exists e, F. split; [exact E|]. split; [exact HB|]. split; [lia|]. split; [intros H; apply HA; lia|]. intros H1 H2. destruct (HT H1 H2) as [H|(i & f & Hi & Hs)]; [now left|right]. exists i, f. split; auto. now apply get_factor_ok.
Qed.
Print Assumptions C71_builds.

(** The heuristic of merge-and-shrink is defined on all reachable states, and it never exceeds the
    cost of a plan. *)
Theorem C71_admissible P bag q0 ord O pick MS timeout t no_time :
  pq_contract P bag -> bag q0 = [] -> (forall b, Permutation (ord b) b) -> mas_task t -> options_ok t O -> picks_two_groups pick -> good_merges P q0 ord O t MS ->
  exists F rs, build_factored_transition_system P q0 ord O pick MS timeout t no_time = Ok F /\ extract_factors P q0 F = Ok rs /\
    forall os s, task_path t (t_init t) os s -> exists v, compute_heuristic rs s = Ok v /\
      forall plan, task_plan_from t s plan -> exists h, v = Some h /\ h <= plan_cost t plan.
Proof.
  intros HP Hq Hord Ht HO Hpick Hmerge. destruct (C71_builds P bag q0 ord O pick MS timeout t no_time) as (e & F & E & HB & _); auto.
  destruct (C44_admissible P bag q0 ord (o_ci O) (o_cg O) t e F) as (rs & E' & H); auto. exists F, rs. auto.
Qed.
Print Assumptions C71_admissible.

(** With f-preserving or random shrinking no merged factor has more states than [max_states]. *)
Theorem C71_size_limit P bag q0 ord O pick MS timeout t no_time F i f :
  pq_contract P bag -> bag q0 = [] -> (forall b, Permutation (ord b) b) -> mas_task t -> options_ok t O -> picks_two_groups pick -> good_merges P q0 ord O t MS ->
  (forall greedy use_up, o_shrink O <> ShrinkBisimulation greedy use_up) ->
  build_factored_transition_system P q0 ord O pick MS timeout t no_time = Ok F -> get_factor F i = Ok f -> length (t_vars t) <= i ->
  ts_n (f_ts f) <= o_max_states O.
Proof.
  intros HP Hq Hord Ht HO Hpick Hmerge Hs E Hf Hi.
  destruct (build_ok P bag HP q0 Hq ord Hord t Ht O pick Hpick MS Hmerge timeout (order_covers t O HO) (proj1 HO) (number_of_states t) no_time (le_n _)) as (e & F' & E' & _ & _ & HW & _).
  rewrite E in E'. inversion E'; subst F'. apply get_factor_ok in Hf. apply (HW) with (i := i); auto. unfold bucket_strategy. destruct (o_shrink O) as [gr uu| |]; auto. exact (Hs gr uu eq_refl).
Qed.
Print Assumptions C71_size_limit.

(** With non-greedy bisimulation, limits that are no obstacle and enough time, the value of the initial
    state is the cost of a cheapest plan, or infinite if there is no plan; and if there is a plan, the
    values of all reachable states are perfect. *)
Theorem C71_exact P bag q0 ord O pick MS timeout t use_up :
  pq_contract P bag -> bag q0 = [] -> (forall b, Permutation (ord b) b) -> mas_exact_task t -> options_ok t O -> picks_two_groups pick -> good_merges P q0 ord O t MS ->
  o_shrink O = ShrinkBisimulation false use_up -> number_of_states t <= o_before_merge O -> (forall n k, timeout n k = false) -> 0 < length (t_vars t) ->
  exists F rs, build_factored_transition_system P q0 ord O pick MS timeout t false = Ok F /\ extract_factors P q0 F = Ok rs /\
    (exists v, compute_heuristic rs (t_init t) = Ok v /\ perfect_value t (t_init t) v) /\
    forall plan, task_plan_from t (t_init t) plan -> forall os s, task_path t (t_init t) os s -> exists v, compute_heuristic rs s = Ok v /\ perfect_value t s v.
Proof.
  intros HP Hq Hord Ht HO Hpick Hmerge Hs Hn Htime Hv.
  destruct (build_ok P bag HP q0 Hq ord Hord t (proj1 Ht) O pick Hpick MS Hmerge timeout (order_covers t O HO) (proj1 HO) (number_of_states t) false (le_n _)) as (e & F & E & HB & He & _ & _ & HA & HT).
  assert (e = true) by (apply He; split; [exists use_up; exact Hs|exact Hn]). subst e.
  assert (One : num_active F <= 1 -> exists f, active_factors F = [f]).
  { intros H1. specialize (HA ltac:(lia)). unfold num_active in *. destruct (active_factors F) as [|f [|g r]]; cbn [length] in *; try lia. eauto. }
  destruct (HT eq_refl Htime) as [H1|(i & f & Hi & Hsol)].
  - destruct (One H1) as [f Hf]. destruct (C44_exact P bag q0 ord (o_ci O) (o_cg O) t F f) as (rs & E' & H); auto. exists F, rs. split; [exact E|]. split; [exact E'|]. split; [apply (H []); constructor|]. intros _ _ os s Hp. exact (H os s Hp).
  - destruct (unsolvable_value P bag HP q0 Hq ord Hord t (proj1 Ht) O true F i f HB Hi Hsol) as (rs & E' & Hh). destruct (C44_admissible P bag q0 ord (o_ci O) (o_cg O) t true F) as (rs' & E'' & H); auto; [exact (proj1 Ht)|]. rewrite E' in E''. inversion E''; subst rs'.
    assert (Hno : forall plan, ~ task_plan_from t (t_init t) plan).
    { intros plan Hp. destruct (H [] (t_init t)) as (v & Ev & Hv'); [constructor|]. rewrite Hh in Ev. inversion Ev; subst v. destruct (Hv' plan Hp) as (h & Eh & _). discriminate. }
    exists F, rs. split; [exact E|]. split; [exact E'|]. split; [exists None; split; auto|]. intros plan Hp. destruct (Hno plan Hp).
Qed.
Print Assumptions C71_exact.

(** ** A run *)
(** The merge strategy that takes the first two factors. *)
Definition first_two : merge_strategy := {| ms_state := unit; ms_start := fun _ => Ok tt;
  ms_get_next := fun n m F =>
    match filter (fun i => match nth_error (F_factors F) i with Some (Some _) => true | _ => false end) (seq 0 (length (F_factors F))) with i :: j :: _ => Ok (i, j, tt) | _ => UB end |}.
Lemma filter_count : forall fs k, length (filter (fun i => match nth_error fs (i - k) with Some (Some _) => true | _ => false end) (seq k (length fs))) = na fs.
Proof.
  induction fs as [|a fs IH]; intros k; [reflexivity|]. cbn [length seq filter]. rewrite Nat.sub_diag. cbn [nth_error].
  assert (E : filter (fun i => match nth_error (a :: fs) (i - k) with Some (Some _) => true | _ => false end) (seq (S k) (length fs)) = filter (fun i => match nth_error fs (i - S k) with Some (Some _) => true | _ => false end) (seq (S k) (length fs))).
  { apply filter_ext_in. intros i Hi. apply in_seq in Hi. replace (i - k) with (S (i - S k)) by lia. reflexivity. }
  rewrite E. unfold na. cbn [flat_map]. rewrite app_length. specialize (IH (S k)). unfold na in IH. rewrite <- IH. destruct a; reflexivity.
Qed.
Lemma first_two_good P q0 ord O t : good_merges P q0 ord O t first_two.
Proof.
  split; [intros; exists tt; auto|]. intros h m F n _ H. cbn [ms_get_next first_two]. set (l := filter _ _).
  assert (Hl : length l = num_active F).
  { rewrite num_active_na, <- (filter_count (F_factors F) 0). unfold l. f_equal. apply filter_ext_in. intros i _. now rewrite Nat.sub_0_r. }
  assert (Hd : NoDup l) by (apply NoDup_filter, seq_NoDup).
  assert (Hin : forall i, In i l -> exists f, get_factor F i = Ok f).
  { intros i Hi. apply filter_In in Hi. destruct Hi as [_ Hi]. destruct (nth_error (F_factors F) i) as [[f|]|] eqn:E; try discriminate. exists f. now apply get_factor_ok. }
  destruct l as [|i [|j r]]; cbn [length] in Hl; try lia. inversion Hd as [|? ? Hni _]; subst. exists i, j, tt. split; [reflexivity|]. split; [intros ->; apply Hni; now left|]. split; apply Hin; cbn [In]; auto.
Qed.
Definition mas_ex_options (s : shrink_strategy) (limit : nat) : mas_options := {|
  o_shrink := s; o_reduction := Some (AllSystemsFixpoint, true, false); o_order := system_order Regular (fun l => l) 2;
  o_prune_unreachable := true; o_prune_irrelevant := true; o_max_states := limit; o_before_merge := limit; o_threshold := 1; o_merge_init := false; o_merge_goal := false |}.
Definition mas_ex_value (s : shrink_strategy) (limit : nat) : option (outcome (option nat) * list nat) :=
  match build_factored_transition_system list_pq [] idord (mas_ex_options s limit) (fun _ _ => (0, 1)) first_two (fun _ _ => false) mas_ex false with
  | Ok F => match extract_factors list_pq [] F with Ok rs => Some (compute_heuristic rs (t_init mas_ex), map (fun f => ts_n (f_ts f)) (active_factors F)) | _ => None end
  | _ => None
  end.
Example C71_nonvacuous :
  mas_exact_task mas_ex /\ options_ok mas_ex (mas_ex_options (ShrinkBisimulation false true) 6) /\ options_ok mas_ex (mas_ex_options (ShrinkFH true false) 4) /\
  picks_two_groups (fun _ _ => (0, 1)) /\ good_merges list_pq [] idord (mas_ex_options (ShrinkBisimulation false true) 6) mas_ex first_two /\ number_of_states mas_ex = 6 /\
  mas_ex_value (ShrinkBisimulation false true) 6 = Some (Ok (Some 5), [4]) /\
  mas_ex_value (ShrinkFH true false) 4 = Some (Ok (Some 3), [3]).
Proof.
  split; [exact mas_ex_task|]. split; [split; [cbn; lia|exists Regular, (fun l => l); auto]|]. split; [split; [cbn; lia|exists Regular, (fun l => l); auto]|].
  split; [intros n gs H; cbn [fst snd]; lia|]. split; [apply first_two_good|]. split; [reflexivity|]. repeat split; vm_compute; reflexivity.
Qed.

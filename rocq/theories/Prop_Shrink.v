(** C70: shrink strategies. *)
From Coq Require Import Permutation.
From Verif Require Import Outcome Spec_Task Spec_Relaxation Model_PQ Model_Graph Model_MAS Spec_FTS Model_MASRun Model_MASAlgorithm Spec_Shrink.
From Verif Require Import Proof_MAS1 Proof_MAS2 Proof_MAS7 Proof_MAS11 Proof_MAS12 Proof_MAA5 Proof_MAA6 Proof_MAA8 Proof_MAA9 Proof_MAA10 Prop_PDB Prop_MAS.

Lemma together_class cls s t : together cls s t <-> exists k, in_class cls k s /\ in_class cls k t.
Proof.
  split.
  - intros (c & Hc & A & B). apply In_nth_error in Hc. destruct Hc as [k Hk]. exists k. split; exists c; auto.
  - intros (k & (c & A & B) & (c' & A' & B')). rewrite A in A'. inversion A'; subst c'. exists c. splits; auto. eapply nth_error_In; eauto.
Qed.
Lemma goalb_iff T s : s < length (ts_goals T) -> (goalb T s = true <-> l_goal (the_lts T) s).
Proof. intros H. cbn [the_lts l_goal]. unfold goalb. split; intros E; [rewrite <- E; apply nth_error_nth'; exact H|now apply nth_error_nth]. Qed.

(** ** Bisimulation *)
(** Whatever was done before to a solvable system, and for every size limit: [bisimulation] puts every
    state in exactly one class; states of one class have the same distance to the goal, and all or none
    of them are goal states; the limit is kept unless even the states that agree in both are more; with
    [greedy=false] and a limit of at least the number of states, or with [at_limit=use_up] and a limit
    that is not reached, the classes are a bisimulation, and if the limit is not reached they are at
    least as coarse as any bisimulation; with [greedy=true] the same holds for transitions on cheapest
    paths. *)
Theorem C70_bisimulation P bag q0 ord ci t e F i f pick greedy use_up target :
  pq_contract P bag -> bag q0 = [] -> (forall b, Permutation (ord b) b) -> mas_task t -> built P q0 ord ci true t e F ->
  get_factor F i = Ok f -> is_solvable f = Ok true ->
  let T := the_lts (f_ts f) in
  exists cls d, shrink_classes pick (ShrinkBisimulation greedy use_up) (f_ts f) (f_dist f) target = Ok cls /\
    goal_distances (active (F_labels F)) T d /\ all_grouped (l_n T) cls /\
    (forall x y, together cls x y -> (l_goal T x <-> l_goal T y) /\ h_of d x = h_of d y) /\
    (length cls <= target \/ forall x y, x < l_n T -> y < l_n T -> (l_goal T x <-> l_goal T y) -> h_of d x = h_of d y -> together cls x y) /\
    (greedy = false -> l_n T <= target \/ (use_up = true /\ length cls < target) -> bisimulation (active (F_labels F)) T cls) /\
    (greedy = false -> length cls < target -> forall cls', all_grouped (l_n T) cls' -> bisimulation (active (F_labels F)) T cls' ->
       forall x y, together cls' x y -> together cls x y) /\
    (greedy = true -> l_n T <= target \/ (use_up = true /\ length cls < target) -> greedy_bisimulation (active (F_labels F)) T d cls) /\
    (greedy = true -> length cls < target -> forall cls', all_grouped (l_n T) cls' -> greedy_bisimulation (active (F_labels F)) T d cls' ->
       forall x y, together cls' x y -> together cls x y).
Proof.
  intros HP Hq Hord Ht HB Hf Hs T. destruct (built_inv P bag HP q0 Hq ord Hord ci true t Ht e F HB) as [lab HI]. apply get_factor_ok in Hf. pose proof (in_fac _ _ _ _ _ HI i f Hf) as HF. pose proof (fi_wf _ _ _ _ _ _ HF) as W.
  apply (solvable_iff ci true t (F_labels F) lab f HF) in Hs. destruct (fi_dist _ _ _ _ _ _ HF) as [_ Dg]. destruct (Dg eq_refl) as (dg & Eg & Hg). pose proof (solv_goal ci true t (F_labels F) lab f HF Hs eq_refl) as HG.
  destruct (bisimulation_ok (F_labels F) (max_labels t) (f_ts f) dg W Hg greedy use_up target (f_dist f) Eg HG) as (cls & E & A & B & C & D & G & GD & GG).
  assert (Gl : forall x, x < ts_n (f_ts f) -> (goalb (f_ts f) x = true <-> l_goal T x)) by (intros x Hx; apply goalb_iff; now rewrite (w_goals _ _ _ W)).
  assert (Lt : forall x k, in_class cls k x -> x < ts_n (f_ts f)) by (intros x k Hk; apply (proj2 (proj2 A)); apply concat_class; eauto).
  exists cls, dg. split; [exact E|]. split; [exact Hg|]. split; [exact A|]. split; [|split; [|split; [|split; [|split]]]].
  - intros x y Hxy. apply together_class in Hxy. destruct Hxy as (k & Kx & Ky). destruct (B k x y Kx Ky) as [B1 B2]. split; [|exact B2]. rewrite <- (Gl x), <- (Gl y), B1 by eauto. reflexivity.
  - destruct C as [C|C]; [now left|right]. intros x y Hx Hy Hxy Hd. apply together_class. apply C; auto. rewrite <- (Gl x), <- (Gl y) in Hxy by auto. destruct (goalb (f_ts f) x), (goalb (f_ts f) y); auto; [symmetry; now apply Hxy|now apply Hxy].
  - exact D.
  - intros H1 H2 cls' H3 H4 x y Hxy. apply together_class. apply together_class in Hxy. destruct Hxy as (k & Kx & Ky). exact (G H1 H2 cls' H3 H4 k x y Kx Ky).
  - exact GD.
  - intros H1 H2 cls' H3 H4 x y Hxy. apply together_class. apply together_class in Hxy. destruct Hxy as (k & Kx & Ky). exact (GG H1 H2 cls' H3 H4 k x y Kx Ky).
Qed.
Print Assumptions C70_bisimulation.

(** Grouping states that agree on goal distances keeps the goal distances: for the classes of the
    strategy above, greedy or not, the shrunk system is as informative as the original one. *)
Theorem C70_distances_kept lc T cls T' d : goal_distances lc T d -> all_grouped (l_n T) cls -> is_image lc T cls T' ->
  (forall a c x y, lc a c -> l_step T a x y -> x < l_n T /\ y < l_n T) ->
  (forall x y, together cls x y -> h_of d x = h_of d y) ->
  exists d', goal_distances lc T' d' /\ forall k x, in_class cls k x -> h_of d' k = h_of d x.
Proof.
  intros Hd A HI Hr Hh. destruct (all_grouped_grouping _ _ A) as [HG Hall].
  set (d' := map (fun c => match c with [] => None | x :: _ => nth x d None end) cls).
  assert (Hag : forall k x, in_class cls k x -> nth k d' None = nth x d None).
  { intros k x (c & Hc & Hx). unfold d'. assert (Hk : nth_error (map (fun c => match c with [] => None | x :: _ => nth x d None end) cls) k = Some (match c with [] => None | x :: _ => nth x d None end)) by (rewrite nth_error_map, Hc; reflexivity).
    rewrite (nth_error_nth _ _ None Hk). destruct c as [|y r]; [destruct Hx|]. apply (Hh y x). exists (y :: r). splits; [eapply nth_error_In; eauto|now left|auto]. }
  exists d'. split; [|exact Hag].
  apply (image_goal_distances lc T T' cls HI HG) with (d := d); auto.
  - split; [|split].
    + intros s Hs N. destruct N. now apply Hall.
    + intros a c x y Ha Hst _ _. apply Hall. exact (proj2 (Hr a c x y Ha Hst)).
    + intros a c x y Ha Hst _ _. apply Hall. exact (proj1 (Hr a c x y Ha Hst)).
  - split; [unfold d'; apply map_length|exact Hag].
Qed.
Print Assumptions C70_distances_kept.

(** ** f-preserving and random shrinking *)
(** Whatever was done before to a solvable system, for every size limit and all random choices: [fh]
    puts every state in exactly one class and keeps the limit; it works on buckets of states with equal
    f and h values, in the order of these values asked for, and combines states of different buckets
    only if there are more buckets than allowed; it combines nothing if the limit allows that. *)
Theorem C70_fh P bag q0 ord t e F i f pick f_high h_high target :
  pq_contract P bag -> bag q0 = [] -> (forall b, Permutation (ord b) b) -> mas_task t -> built P q0 ord true true t e F ->
  get_factor F i = Ok f -> picks_two pick -> 1 <= target ->
  let T := the_lts (f_ts f) in
  exists cls di dg buckets, shrink_classes pick (ShrinkFH f_high h_high) (f_ts f) (f_dist f) target = Ok cls /\
    init_distances (active (F_labels F)) T di /\ goal_distances (active (F_labels F)) T dg /\
    fh_buckets f_high h_high (f_ts f) (f_dist f) = Ok buckets /\ bucket_based pick target buckets = Ok cls /\ ordered_by_fh f_high h_high (l_n T) di dg buckets /\
    all_grouped (l_n T) cls /\ length cls <= target /\
    (length buckets <= target -> forall x y, together cls x y -> f_of di dg x = f_of di dg y /\ h_of dg x = h_of dg y) /\
    (l_n T <= target -> forall x y, together cls x y -> x = y).
Proof.
  intros HP Hq Hord Ht HB Hf Hpick Htar T. destruct (built_inv P bag HP q0 Hq ord Hord true true t Ht e F HB) as [lab HI]. apply get_factor_ok in Hf. pose proof (in_fac _ _ _ _ _ HI i f Hf) as HF.
  destruct (fi_dist _ _ _ _ _ _ HF) as [Di Dg]. destruct (Di eq_refl) as (di & Ei & Hi). destruct (Dg eq_refl) as (dg & Eg & Hg).
  assert (Ed : f_dist f = {| Model_MAS.d_init := Some di; Model_MAS.d_goal := Some dg |}) by (destruct (f_dist f); cbn in Ei, Eg; now subst).
  destruct (fh_buckets_ok f_high h_high di dg (ts_n (f_ts f)) (proj1 Hi) (proj1 Hg) (f_ts f) eq_refl) as (bs & Eb & HO). assert (Eb1 : fh_buckets f_high h_high (f_ts f) (f_dist f) = Ok bs) by (rewrite Ed; exact Eb). clear Eb. rename Eb1 into Eb.
  destruct (fh_parts _ _ _ _ _ _ HO) as (B1 & B2 & B3). destruct (bucket_based_ok pick target bs Hpick Htar B3) as (cls & E & C1 & C2 & C3 & C4 & C5).
  exists cls, di, dg, bs. splits; auto.
  - exact (bind_eq _ _ bs cls Eb E).
  - eapply perm_grouped; eauto.
  - intros Hn x y (c & Hc & Hx & Hy). destruct (C4 Hn c Hc) as (b & Hb & Hin). destruct HO as (_ & _ & _ & HO & _). apply (HO b); auto.
  - intros Hn x y (c & Hc & Hx & Hy). rewrite C5 in Hc.
    + apply in_map_iff in Hc. destruct Hc as (s & <- & _). destruct Hx as [<-|[]], Hy as [<-|[]]. reflexivity.
    + transitivity (ts_n (f_ts f)); [|exact Hn]. rewrite <- (seq_length (ts_n (f_ts f)) 0). apply NoDup_incl_length; auto. intros s Hs. apply in_seq. apply B2 in Hs. lia.
Qed.
Print Assumptions C70_fh.

Theorem C70_random pick T D target : picks_two pick -> 1 <= target -> 1 <= ts_n T ->
  exists cls, shrink_classes pick ShrinkRandom T D target = Ok cls /\ all_grouped (ts_n T) cls /\ length cls <= target /\
    (ts_n T <= target -> forall x y, together cls x y -> x = y).
Proof.
  intros Hpick Htar Hn. cbn [shrink_classes]. unfold random_buckets.
  destruct (bucket_based_ok pick target [seq 0 (ts_n T)] Hpick Htar) as (cls & E & C1 & C2 & C3 & _ & C5); [intros b [<-|[]]; destruct (ts_n T); [lia|discriminate]|].
  cbn [concat] in C1, C5. rewrite app_nil_r in C1, C5. exists cls. splits; auto.
  - apply (perm_grouped _ _ [seq 0 (ts_n T)]); auto; cbn [concat]; rewrite ?app_nil_r; auto; [apply seq_NoDup|]. intros s. rewrite in_seq. lia.
  - intros Hle x y (c & Hc & Hx & Hy). rewrite C5 in Hc by (now rewrite seq_length). apply in_map_iff in Hc. destruct Hc as (s & <- & _). destruct Hx as [<-|[]], Hy as [<-|[]]. reflexivity.
Qed.
Print Assumptions C70_random.

(** ** Size limits *)
(** The sizes allowed before a merge are positive, at most the current sizes and the limit before
    merging, their product is at most the limit for the merged system, and nothing is shrunk without
    need. *)
Theorem C70_shrink_sizes s1 s2 before after n1 n2 : 1 <= s1 -> 1 <= s2 -> 1 <= before -> before <= after ->
  compute_shrink_sizes s1 s2 before after = (n1, n2) ->
  1 <= n1 <= Nat.min s1 before /\ 1 <= n2 <= Nat.min s2 before /\ n1 * n2 <= after /\
  (Nat.min s1 before * Nat.min s2 before <= after -> n1 = Nat.min s1 before /\ n2 = Nat.min s2 before).
Proof. intros A B C D E. pose proof (compute_shrink_sizes_ok s1 s2 before after A B C D) as H. rewrite E in H. exact H. Qed.
Print Assumptions C70_shrink_sizes.

Ltac split_ltb := match goal with |- context [Z.ltb ?a ?b] =>
  lazymatch a with context [Z.ltb _ _] => fail | _ => lazymatch b with context [Z.ltb _ _] => fail | _ => destruct (Z.ltb_spec a b) end end end.
(** The limits in the options, -1 for one that is not set: a limit that is set but not positive is an
    input error; otherwise unset limits get their documented defaults and limits that cannot be
    reached are lowered. *)
Theorem C70_limits max before threshold :
  let set x := x <> (-1)%Z in
  let bad x := set x /\ (x < 1)%Z in
  (bad max \/ bad before \/ bad threshold -> handle_shrink_limit_defaults max before threshold = Exit 33) /\
  (~ bad max -> ~ bad before -> ~ bad threshold ->
   exists m b t, handle_shrink_limit_defaults max before threshold = Ok (m, b, t) /\ (1 <= b <= m /\ 1 <= t <= m)%Z /\
     (set max -> m = max) /\ (~ set max -> set before -> m = Z.min (before * before) 2147483647) /\ (~ set max -> ~ set before -> m = 50000%Z) /\
     (set before -> b = Z.min before m) /\ (~ set before -> b = m) /\ (set threshold -> t = Z.min threshold m) /\ (~ set threshold -> t = m)).
Proof.
  intros st bad. unfold bad, st, handle_shrink_limit_defaults. cbv zeta.
  assert (Sq : forall b : Z, (b <> -1 -> 1 <= b -> 1 <= b * b)%Z) by (intros; nia).
  destruct (Z.eqb_spec max (-1)) as [Em|Em], (Z.eqb_spec before (-1)) as [Eb|Eb]; cbn [andb]; try rewrite (proj2 (Z.eqb_eq max (-1)) Em); try rewrite (proj2 (Z.eqb_neq max (-1)) Em); try destruct (Z.leb_spec (before * before) 2147483647);
  (split;
   [intros Hbad; destruct (Z.eqb_spec threshold (-1)); repeat split_ltb; try reflexivity; exfalso; lia
   |intros N1 N2 N3; assert (B1 : (max = -1 \/ 1 <= max)%Z) by lia; assert (B2 : (before = -1 \/ 1 <= before)%Z) by lia; assert (B3 : (threshold = -1 \/ 1 <= threshold)%Z) by lia;
    pose proof (Sq before) as Sqb; destruct (Z.eqb_spec threshold (-1)) as [Et|Et];
    repeat split_ltb; try (exfalso; lia);
    do 3 eexists; (split; [reflexivity|]); repeat split; intros; lia]).
Qed.
Print Assumptions C70_limits.

(** ** What does not hold *)
Definition shrink_ex : task := {|
  t_vars := [{| vdom := 5; vlayer := None; vdefault := 0 |}];
  t_ops := [{| op_pre := []; op_effs := [{| eff_cond := [(0, 0)]; eff_fact := (0, 4) |}; {| eff_cond := [(0, 1)]; eff_fact := (0, 4) |}]; op_cost := 1 |};
            {| op_pre := []; op_effs := [{| eff_cond := [(0, 2)]; eff_fact := (0, 4) |}; {| eff_cond := [(0, 3)]; eff_fact := (0, 4) |}]; op_cost := 1 |}];
  t_rules := []; t_init := [0]; t_goal := [(0, 4)] |}.
Definition shrink_F := get_fts (create_fts list_pq [] true true shrink_ex).
Definition no_factor : factor := {| f_ts := {| ts_l2l := []; ts_infos := []; ts_n := 0; ts_goals := []; ts_init := None |}; f_rep := Leaf 0 [] 0; f_dist := no_distances |}.
Definition shrink_f := match get_factor shrink_F 0 with Ok f => f | _ => no_factor end.
Lemma shrink_ex_task : mas_task shrink_ex.
Proof.
  assert (FO : forall d, d < 5 -> fact_ok shrink_ex (0, d)) by (intros d Hd; eexists; split; [reflexivity|exact Hd]).
  unfold mas_task. splits.
  - unfold task_ok. splits; cbn [t_vars t_ops t_rules t_init t_goal shrink_ex].
    + repeat constructor; cbn; try lia; intros H; congruence.
    + repeat constructor; apply FO; lia.
    + constructor.
    + repeat constructor.
    + repeat constructor; apply FO; lia.
  - split; [reflexivity|]. intros [|[|v]]; reflexivity.
  - cbn [t_ops shrink_ex]. intros op e Ho He. cbn [In] in Ho. decompose [or] Ho; subst; try contradiction; cbn [op_effs In] in He; decompose [or] He; subst; try contradiction; cbn [eff_cond map fst]; repeat constructor; cbn [In]; tauto.
Qed.
Lemma shrink_F_built : built list_pq [] idord true true shrink_ex true shrink_F.
Proof. apply built_start. vm_compute. reflexivity. Qed.

(** A bisimulation with three classes exists, but with the size limit 3 and [greedy=false] the classes
    found are not a bisimulation: the loop ends after the first state of the last class. *)
Theorem C70_bisimulation_at_limit_refuted :
  exists t F f cls cls', mas_task t /\ built list_pq [] idord true true t true F /\ get_factor F 0 = Ok f /\ is_solvable f = Ok true /\
    shrink_classes (fun _ => (0, 1)) (ShrinkBisimulation false true) (f_ts f) (f_dist f) 3 = Ok cls /\
    all_grouped (ts_n (f_ts f)) cls' /\ length cls' = 3 /\ bisimulation (active (F_labels F)) (the_lts (f_ts f)) cls' /\
    ~ bisimulation (active (F_labels F)) (the_lts (f_ts f)) cls.
Proof.
  exists shrink_ex, shrink_F, shrink_f, [[4]; [3; 1; 0]; [2]], [[4]; [1; 0]; [3; 2]].
  assert (Hg : get_factor shrink_F 0 = Ok shrink_f) by (vm_compute; reflexivity). assert (Hs : is_solvable shrink_f = Ok true) by (vm_compute; reflexivity).
  split; [exact shrink_ex_task|]. split; [exact shrink_F_built|]. split; [exact Hg|]. split; [exact Hs|]. split; [vm_compute; reflexivity|].
  assert (Hc : shrink_classes (fun _ => (0, 1)) (ShrinkBisimulation false true) (f_ts shrink_f) (f_dist shrink_f) 4 = Ok [[4]; [1; 0]; [3; 2]]) by (vm_compute; reflexivity).
  destruct (C70_bisimulation list_pq (fun q => q) [] idord true shrink_ex true shrink_F 0 shrink_f (fun _ => (0, 1)) false true 4 list_pq_contract eq_refl (fun b => Permutation_refl _) shrink_ex_task shrink_F_built Hg Hs) as (cls & d & E & _ & A & _ & _ & B & _).
  rewrite Hc in E. inversion E; subst cls. split; [exact A|]. split; [reflexivity|]. split; [apply B; [reflexivity|right; split; [reflexivity|cbn [length]; lia]]|].
  intros (_ & H). assert (Hst : l_step (the_lts (f_ts shrink_f)) 1 3 4) by (exists 1; eexists; split; [vm_compute; reflexivity|split; [vm_compute; reflexivity|vm_compute; tauto]]).
  destruct (H 1 0 3 1 4 1 1) as (t' & Ht' & c & Hc1 & Hc2).
  - vm_compute. reflexivity.
  - exists [3; 1; 0]. split; [reflexivity|cbn [In]; tauto].
  - exists [3; 1; 0]. split; [reflexivity|cbn [In]; tauto].
  - exists [4]. split; [reflexivity|cbn [In]; tauto].
  - exact Hst.
  - cbn [nth_error] in Hc1. inversion Hc1; subst c. destruct Hc2 as [<-|[]]. destruct Ht' as (k & i & K1 & K2 & K3). vm_compute in K1. inversion K1; subst k. vm_compute in K2. inversion K2; subst i. cbn [i_trans In] in K3. decompose [or] K3; try contradiction; discriminate.
Qed.
Print Assumptions C70_bisimulation_at_limit_refuted.

(** The size limit of [bisimulation] is not kept if the states have more distances to the goal. *)
Theorem C70_bisimulation_limit_refuted :
  exists t F f cls, mas_task t /\ built list_pq [] idord true true t true F /\ get_factor F 0 = Ok f /\ is_solvable f = Ok true /\
    shrink_classes (fun _ => (0, 1)) (ShrinkBisimulation false false) (f_ts f) (f_dist f) 1 = Ok cls /\ length cls = 2.
Proof.
  exists shrink_ex, shrink_F, shrink_f, [[4]; [3; 2; 1; 0]].
  split; [exact shrink_ex_task|]. split; [exact shrink_F_built|]. split; [vm_compute; reflexivity|]. split; [vm_compute; reflexivity|]. split; vm_compute; reflexivity.
Qed.
Print Assumptions C70_bisimulation_limit_refuted.

(** The hypotheses hold for the system above; [fh] combines all states with infinite f first. *)
Example C70_nonvacuous :
  mas_task shrink_ex /\ built list_pq [] idord true true shrink_ex true shrink_F /\ get_factor shrink_F 0 = Ok shrink_f /\ is_solvable shrink_f = Ok true /\
  picks_two (fun _ => (0, 1)) /\
  shrink_classes (fun _ => (0, 1)) (ShrinkBisimulation false true) (f_ts shrink_f) (f_dist shrink_f) 4 = Ok [[4]; [1; 0]; [3; 2]] /\
  shrink_classes (fun _ => (0, 1)) (ShrinkBisimulation true false) (f_ts shrink_f) (f_dist shrink_f) 4 = Ok [[4]; [1; 0]; [3; 2]] /\
  shrink_classes (fun _ => (0, 1)) (ShrinkFH true false) (f_ts shrink_f) (f_dist shrink_f) 3 = Ok [[1; 2; 3]; [4]; [0]] /\
  compute_shrink_sizes 10 20 50 100 = (10, 10) /\ compute_shrink_sizes 5 200 50 100 = (5, 20) /\ handle_shrink_limit_defaults (-1) 100 (-1) = Ok (10000, 100, 10000)%Z.
Proof.
  split; [exact shrink_ex_task|]. split; [exact shrink_F_built|]. split; [vm_compute; reflexivity|]. split; [vm_compute; reflexivity|]. split; [intros gs H; cbn [fst snd]; lia|]. repeat split; vm_compute; reflexivity.
Qed.

(** Proofs about operator-counting constraints, part 14: the value of the heuristic. *)
From Coq Require Import QArith Qround Qabs Lqa Permutation.
From Verif Require Import Outcome Spec_Task Spec_Relaxation Spec_Projection Spec_PatternCollections Spec_LP Spec_OperatorCounting Model_PQ Model_PDB Model_PatternCollections Model_Relaxation Model_LPSolver Model_LMCut Model_OperatorCounting Spec_Generators
  Proof_Task Proof_MixedRadix Proof_PDB1 Proof_Additive Prop_PDB Prop_LMCut Proof_OC1 Proof_OC2 Proof_OC3 Proof_OC4 Proof_OC5 Proof_OC7 Proof_OC9 Proof_OC10 Proof_OC11 Proof_OC12 Proof_OC13.
Local Open Scope nat_scope.

Lemma supported_ok t g : generator_supported t g -> gen_ok t g.
Proof.
  destruct g as [| |pats|time int|a int]; cbn [generator_supported gen_ok]; auto. intros H. split; apply Forall_forall; intros p Hp; destruct (H p Hp) as [H1 H2]; auto.
  unfold fits. rewrite <- size_fits, <- max_states. exact H2.
Qed.

(** *** What the rows of the program mean *)
Lemma objective_app vs ws y : (forall v, In v ws -> (v_obj v == 0)%Q) -> (objective (vs ++ ws) y == objective vs y)%Q.
Proof.
  intros H. unfold objective. rewrite app_length, seq_app, combine_app; [|now rewrite seq_length]. rewrite qsum_app.
  rewrite (qsum_zero _ (combine (seq (0 + length vs) (length ws)) ws)); [ring|]. intros [i v] Hi. apply in_combine_r in Hi. cbn [fst snd]. rewrite (H v Hi). ring.
Qed.
Lemma objective_ops t int y : (objective (oc_variables t int) y == counts_cost t y)%Q.
Proof.
  unfold objective, counts_cost, opsum, oc_variables. rewrite map_length. generalize 0%nat at 1 2 as b. generalize (t_ops t) as l. clear t. intros l.
  induction l as [|op l IH]; intros b; cbn [length seq map combine qsum fst snd]; [reflexivity|]. rewrite IH. cbn [v_obj]. unfold qn. reflexivity.
Qed.
Lemma oc_var t int o v : nth_error (oc_variables t int) o = Some v -> exists op, is_op t o op /\ v = {| v_lo := Some 0%Q; v_up := None; v_obj := qn (op_cost op); v_int := int |}.
Proof. unfold oc_variables. rewrite nth_error_map. unfold is_op. destruct (nth_error (t_ops t) o) as [op|]; cbn [option_map]; intros H; inversion H; eauto. Qed.
Lemma oc_var_of t int o op : is_op t o op -> nth_error (oc_variables t int) o = Some {| v_lo := Some 0%Q; v_up := None; v_obj := qn (op_cost op); v_int := int |}.
Proof. unfold oc_variables. intros H. now apply map_nth_error with (f := fun op => {| v_lo := Some 0%Q; v_up := None; v_obj := qn (op_cost op); v_int := int |}) in H. Qed.

Section S.
Variables (t : task) (int : bool) (nvs : list lpvar) (rs : list lpcon) (conds : list ((nat -> Q) -> Prop)).
Hypothesis Hsem : gen_sem t (length (t_ops t)) nvs rs (fun x => Forall (fun c => c x) conds).
Lemma len_oc : length (oc_variables t int) = length (t_ops t). Proof. apply map_length. Qed.
Lemma sem_well_formed : well_formed (oc_variables t int ++ nvs) rs.
Proof.
  destruct Hsem as (_ & _ & Hw). intros c Hc. destruct (Hw c Hc) as [H1 H2]. split; auto. intros i a Hi. rewrite app_length, len_oc. destruct (H2 i a Hi); lia.
Qed.
Lemma sem_feasible y : feasible (oc_variables t int ++ nvs) rs y -> solution t int conds y.
Proof.
  intros [Hv Hc]. destruct Hsem as (H1 & _ & _). split.
  - intros o op Ho. assert (Hn := oc_var_of t int o op Ho). assert (Hn' : nth_error (oc_variables t int ++ nvs) o = nth_error (oc_variables t int) o) by (apply nth_error_app1; eapply nth_error_Some_lt; eauto). rewrite Hn in Hn'. destruct (Hv o _ Hn') as (A & _ & B). cbn in A, B. auto.
  - intros c Hin. assert (HF : Forall (fun c => c y) conds). { apply H1. { intros i v Hi. apply Hv. rewrite nth_error_app2 by (rewrite len_oc; lia). rewrite len_oc. now replace (length (t_ops t) + i - length (t_ops t)) with i by lia. } { exact Hc. } }
    rewrite Forall_forall in HF. exact (HF c Hin).
Qed.
Lemma sem_solution x : solution t int conds x -> exists y, feasible (oc_variables t int ++ nvs) rs y /\ forall o op, is_op t o op -> (y o == x o)%Q.
Proof.
  intros [H0 Hc]. destruct Hsem as (_ & H2 & _). destruct (H2 x) as (aux & Ha); [now apply Forall_forall|].
  set (y := fun i => if i <? length (t_ops t) then x i else aux (i - length (t_ops t))).
  destruct (Ha y) as [A B].
  - intros o Ho. unfold y. destruct (Nat.ltb_spec o (length (t_ops t))); [reflexivity|lia].
  - intros i Hi. unfold y. destruct (Nat.ltb_spec (length (t_ops t) + i) (length (t_ops t))); [lia|]. now replace (length (t_ops t) + i - length (t_ops t)) with i by lia.
  - exists y. split.
    + split; [|exact B]. intros i v Hi. destruct (Nat.lt_ge_cases i (length (t_ops t))) as [L|L].
      * rewrite nth_error_app1 in Hi by (rewrite len_oc; auto). apply oc_var in Hi. destruct Hi as (op & Ho & ->). destruct (H0 i op Ho) as [C D]. unfold y. destruct (Nat.ltb_spec i (length (t_ops t))); [|lia]. unfold var_ok. cbn. splits; auto.
      * rewrite nth_error_app2 in Hi by (rewrite len_oc; lia). rewrite len_oc in Hi. specialize (A _ _ Hi). now replace (length (t_ops t) + (i - length (t_ops t))) with i in A by lia.
    + intros o op Ho. unfold y. assert (L := nth_error_Some_lt _ _ _ Ho). destruct (Nat.ltb_spec o (length (t_ops t))); [reflexivity|lia].
Qed.
End S.
Lemma counts_cost_ext t x y : (forall o op, is_op t o op -> (y o == x o)%Q) -> (counts_cost t y == counts_cost t x)%Q.
Proof. intros H. unfold counts_cost. apply opsum_ext. intros o op Ho. now rewrite (H o op Ho). Qed.
Lemma counts_cost_nonneg t x : (forall o op, is_op t o op -> (0 <= x o)%Q) -> (0 <= counts_cost t x)%Q.
Proof. intros H. unfold counts_cost. apply opsum_nonneg. intros o op Ho. specialize (H o op Ho). assert (0 <= inject_Z (Z.of_nat (op_cost op)))%Q by (change 0%Q with (inject_Z 0); rewrite <- Zle_Qle; lia). nra. Qed.

(** *** Plans satisfy the conditions *)
Lemma plan_describes t s os g c : plain_task t -> state_ok t s -> generator_supported t g -> task_plan_from t s os -> describes t s g c -> c (counts os).
Proof.
  intros Ht Hs Hg Hp. destruct g as [| |pats|time i|a i]; cbn [describes generator_supported] in *.
  - intros H. apply H. now apply plan_state_equation.
  - intros (lms & H1 & _ & _ & H). apply H. intros L w Hin. destruct (H1 L w Hin) as (_ & Hl & _). eapply plan_landmark; eauto.
  - intros (_ & H). apply H. intros pat Hin. apply plan_posthoc; auto. now apply Hg.
  - intros H. apply H. now apply plan_relaxation_if.
  - intros (edges & delta & _ & H). apply H. destruct (plan_relaxation_rr t Ht s os Hp i) as (f & fa & A & B & C). exists f, fa. split; auto. destruct a; cbn [acyclic_support]; auto.
Qed.
Lemma plan_solution t s os gs conds int : plain_task t -> state_ok t s -> (forall g, In g gs -> generator_supported t g) -> task_plan_from t s os -> Forall2 (describes t s) gs conds -> solution t int conds (counts os).
Proof.
  intros Ht Hs Hg Hp HF. split; [intros; split; [apply counts_nonneg|intros; apply counts_integral]|].
  intros c Hc. induction HF as [|g c' gs conds Hd HF IH]; [destruct Hc|]. destruct Hc as [<-|Hc]; [|apply IH; auto; intros; apply Hg; now right].
  eapply plan_describes; eauto. apply Hg. now left.
Qed.
Lemma dead_no_plan t s g : plain_task t -> state_ok t s -> generator_supported t g -> reports_dead t s g -> forall os, ~ task_plan_from t s os.
Proof.
  intros Ht Hs Hg H os Hp. destruct g as [| |pats|time i|a i]; cbn [reports_dead generator_supported] in *; auto.
  - destruct H as (f & Hf & Hr). apply Hr. assert (R := plan_rreach t Ht s os Hp f Hf). clear - R. induction R; [now apply rr_state|eapply rr_op; eauto|now apply rr_rule].
  - destruct H as (pat & Hin & Hv). destruct (Hg pat Hin) as [HP _]. pose proof (state_ok_length t s Hs) as Hl. pose proof (plan_mplan t Ht s os Hl Hp) as Hm.
    assert (Hm' := mplan_restrict t (fun v => v < length (t_vars t)) pat _ os (proj2 HP) Hm).
    assert (Hc : length (task_costs t) = length (t_ops t)) by apply map_length.
    exact (Hv _ (proj_mplan t Ht pat (task_costs t) _ _ HP Hc Hm')).
Qed.

(** *** LM-cut landmarks *)
Lemma opsum_plus t f g : (opsum t (fun o op => f o op + g o op) == opsum t f + opsum t g)%Q.
Proof. unfold opsum. now rewrite qsum_plus. Qed.
Lemma opsum_scale t f c : (opsum t (fun o op => c * f o op) == c * opsum t f)%Q.
Proof. unfold opsum. now rewrite qsum_scale. Qed.
Lemma opsum_mem t L x : NoDup L -> (forall o, In o L -> exists op, is_op t o op) -> (opsum t (fun o _ => ind (existsb (Nat.eqb o) L) * x o) == qsum x L)%Q.
Proof.
  induction 1 as [|a L Ha HN IH]; intros Hop; cbn [existsb qsum].
  - apply opsum_zero. intros. cbn [ind]. ring.
  - rewrite <- IH by (intros; apply Hop; now right). destruct (Hop a (or_introl eq_refl)) as [op Ho]. rewrite <- (opsum_single t a op (fun o _ => x o) Ho). rewrite <- opsum_plus. apply opsum_ext. intros o op' Ho'.
    destruct (Nat.eqb_spec o a) as [->|Hne]; cbn [orb ind]; [|ring]. assert (E : existsb (Nat.eqb a) L = false). { apply not_true_iff_false. rewrite existsb_exists. intros (b & Hb & E). apply Nat.eqb_eq in E. subst b. contradiction. } rewrite E. cbn [ind]. ring.
Qed.
Definition used (lms : list (list nat * nat)) (o : nat) : nat := list_sum (map (fun lm => if existsb (Nat.eqb o) (fst lm) then snd lm else 0) lms).
Lemma landmark_bound t lms x : (forall o op, is_op t o op -> (0 <= x o)%Q) ->
  (forall L w, In (L, w) lms -> NoDup L /\ (forall o, In o L -> exists op, is_op t o op) /\ landmark_uses L x) ->
  (inject_Z (Z.of_nat (list_sum (map snd lms))) <= opsum t (fun o _ => inject_Z (Z.of_nat (used lms o)) * x o))%Q.
Proof.
  intros Hx. induction lms as [|[L w] lms IH]; intros H.
  - rewrite opsum_zero; [apply Qle_refl|]. intros. cbn. ring.
  - destruct (H L w (or_introl eq_refl)) as (HN & Hop & HL).
    rewrite (opsum_ext t _ (fun o op => inject_Z (Z.of_nat w) * (ind (existsb (Nat.eqb o) L) * x o) + inject_Z (Z.of_nat (used lms o)) * x o)%Q).
    + rewrite opsum_plus, opsum_scale, (opsum_mem t L x HN Hop). cbn [map snd list_sum fold_right]. change (fold_right Nat.add 0 (map snd lms)) with (list_sum (map snd lms)). rewrite Nat2Z.inj_add, inject_Z_plus. apply Qplus_le_compat; [|apply IH; intros L2 w2 H2; apply (H L2 w2); now right].
      unfold landmark_uses in HL. assert (0 <= inject_Z (Z.of_nat w))%Q by (change 0%Q with (inject_Z 0); rewrite <- Zle_Qle; lia). nra.
    + intros o op Ho. unfold used at 1. cbn [map fst snd list_sum fold_right]. change (fold_right Nat.add 0 (map (fun lm => if existsb (Nat.eqb o) (fst lm) then snd lm else 0) lms)) with (used lms o).
      destruct (existsb (Nat.eqb o) L); rewrite Nat2Z.inj_add, inject_Z_plus; cbn [ind Z.of_nat]; ring.
Qed.

(** *** Relaxed plans *)
Lemma rreach_mono t (O O' : nat -> Prop) s f : (forall o op, is_op t o op -> O o -> O' o) -> rreach t O s f -> rreach t O' s f.
Proof. intros H R. induction R; [now apply rr_state|eapply rr_op; eauto|now apply rr_rule]. Qed.
Definition needed (t : task) (x : nat -> Q) : list nat := filter (fun o => Qle_bool 1 (x o)) (seq 0 (length (t_ops t))).
Lemma needed_in t x o op : is_op t o op -> (In o (needed t x) <-> (1 <= x o)%Q).
Proof. intros Ho. assert (L := nth_error_Some_lt _ _ _ Ho). unfold needed. rewrite filter_In, in_seq, Qle_bool_iff. intuition lia. Qed.
Lemma needed_op t x o : In o (needed t x) -> exists op, is_op t o op.
Proof. unfold needed. rewrite filter_In, in_seq. intros [H _]. unfold is_op. destruct (nth_error (t_ops t) o) eqn:E; eauto. apply nth_error_None in E. lia. Qed.
Lemma list_cost t os : (forall o, In o os -> exists op, is_op t o op) -> (counts_cost t (counts os) == inject_Z (Z.of_nat (plan_cost t os)))%Q.
Proof.
  intros Hops. unfold counts_cost. rewrite (counts_sum t (fun op => inject_Z (Z.of_nat (op_cost op))) os Hops). unfold plan_cost. induction os as [|o r IH]; cbn [map qsum list_sum fold_right]; [reflexivity|].
  change (fold_right Nat.add 0) with list_sum. rewrite IH by (intros; apply Hops; now right). destruct (Hops o (or_introl eq_refl)) as [op Ho]. unfold is_op in Ho. rewrite Ho. rewrite Nat2Z.inj_add, inject_Z_plus. reflexivity.
Qed.
Lemma count_nodup L o : NoDup L -> count_occ Nat.eq_dec L o <= 1.
Proof. intros H. rewrite (NoDup_count_occ Nat.eq_dec) in H. apply H. Qed.
Lemma needed_cost t x : (forall o op, is_op t o op -> (0 <= x o)%Q) -> (inject_Z (Z.of_nat (plan_cost t (needed t x))) <= counts_cost t x)%Q.
Proof.
  intros Hx. rewrite <- (list_cost t (needed t x) (needed_op t x)). unfold counts_cost. apply opsum_le. intros o op Ho.
  assert (0 <= inject_Z (Z.of_nat (op_cost op)))%Q by (change 0%Q with (inject_Z 0); rewrite <- Zle_Qle; lia).
  assert (counts (needed t x) o <= x o)%Q.
  { destruct (in_dec Nat.eq_dec o (needed t x)) as [Hi|Hi].
    - assert (Hi' := proj1 (needed_in t x o op Ho) Hi). apply Qle_trans with 1%Q; auto. unfold counts. change 1%Q with (inject_Z 1). rewrite <- Zle_Qle. pose proof (count_nodup (needed t x) o (NoDup_filter _ (seq_NoDup _ _))). lia.
    - unfold counts. rewrite (proj1 (count_occ_not_In Nat.eq_dec (needed t x) o) Hi). cbn. apply (Hx o op Ho). }
  rewrite (Qmult_comm _ (counts _ _)), (Qmult_comm _ (x o)). now apply Qmult_le_compat_r.
Qed.
Lemma exact_if t s x : plain_task t -> (forall o op, is_op t o op -> (0 <= x o)%Q) ->
  (relaxation_if t true true s x <-> forall f, In f (t_goal t) -> rreach t (fun o => (1 <= x o)%Q) s f).
Proof.
  intros Ht Hx. split; [intros H f Hf; exact (if_strong t Ht s x H f Hf)|]. intros H. destruct (rreach_goals t Ht s _ H) as (os & H1 & H2 & H3). apply (if_holds t s os H1 H3 x Hx H2).
Qed.
Lemma exact_rr t s x a : plain_task t -> no_noop_effects t -> (forall o op, is_op t o op -> (0 <= x o)%Q) -> a <> NoAcyclicity -> forall edges delta, (a = VertexElimination -> vertex_elimination t edges delta) ->
  ((exists f fa, relaxation_rr t true s x f fa /\ acyclic_support t a true edges delta fa) <-> forall f, In f (t_goal t) -> rreach t (fun o => (1 <= x o)%Q) s f).
Proof.
  intros Ht Hno Hx Ha edges delta HV. split.
  - intros (f & fa & H1 & H2) p Hp. destruct a; cbn [acyclic_support] in H2; [|exact (tl_strong t Ht s x Hno f fa H1 H2 p Hp)|congruence]. exact (ve_strong t Ht s x Hno f fa H1 edges delta (HV eq_refl) H2 p Hp).
  - intros H. destruct (rreach_goals t Ht s _ H) as (os & H1 & H2 & H3). eexists. eexists. split; [apply (rr_holds t s os H1 H3 x Hx H2)|]. destruct a; cbn [acyclic_support]; auto. + now apply eo_holds. + now apply tl_holds.
Qed.

(** *** Rounding the objective value *)
Lemma ceil_bounds q : (q <= inject_Z (Qceiling q) /\ inject_Z (Qceiling q) < q + 1)%Q.
Proof.
  split; [apply Qle_ceiling|]. unfold Qceiling. rewrite inject_Z_opp. pose proof (Qlt_floor (- q)) as H. rewrite inject_Z_plus in H. change (inject_Z 1) with 1%Q in H. lra.
Qed.
Definition small_tol : Q := 9 # 1000.
Lemma round_answer rnd tol obj (b : Q) : rounds (1 # 9007199254740992) rnd -> (0 <= tol <= small_tol)%Q -> (- tol <= obj <= b + tol)%Q -> (0 <= b <= inject_Z 2147483646)%Q ->
  exists v, to_int (Qceiling (rnd (obj - epsilon)%Q)) = Ok v /\ (0 <= v)%Z /\ (inject_Z v < b + 1)%Q /\ (obj <= inject_Z v + (11 # 1000))%Q.
Proof.
  intros Hr [Ht0 Ht1] [Ho1 Ho2] [Hb1 Hb2]. unfold small_tol in Ht1. change (inject_Z 2147483646) with (2147483646 # 1)%Q in Hb2.
  set (v := Qceiling (rnd (obj - epsilon)%Q)). destruct (ceil_bounds (rnd (obj - epsilon)%Q)) as [C1 C2]. fold v in C1, C2.
  assert (He : ((9999 # 1000000) <= epsilon /\ epsilon <= (10001 # 1000000))%Q) by (unfold epsilon, Model_Landmarks.epsilon; split; vm_compute; discriminate).
  destruct (Hr (obj - epsilon)%Q (2147483648 # 1)) as [R1 R2]; [lra|].
  assert (K : ((1 # 9007199254740992) * ((2147483648 # 1) + 1) <= (1 # 1000000))%Q) by (vm_compute; discriminate).
  assert (V1 : (inject_Z v < b + 1)%Q) by lra.
  assert (V2 : (obj <= inject_Z v + (11 # 1000))%Q) by lra.
  assert (V3 : (0 <= v)%Z). { apply Z.lt_succ_r. rewrite Zlt_Qlt. unfold Z.succ. rewrite inject_Z_plus. change (inject_Z 0) with 0%Q. change (inject_Z 1) with 1%Q. lra. }
  assert (V4 : (v < 2147483648)%Z). { rewrite Zlt_Qlt. change (inject_Z 2147483648) with (2147483648 # 1)%Q. lra. }
  exists v. splits; auto. unfold to_int. destruct (Z.leb_spec (-2147483648) v); [|lia]. destruct (Z.leb_spec v 2147483647); [|lia]. reflexivity.
Qed.

(** *** More fuel does not change the result of the initialization *)
Lemma dijkstra_more P edges f f' d q r : f <= f' -> Model_Graph.dijkstra P edges f d q = Ok r -> Model_Graph.dijkstra P edges f' d q = Ok r.
Proof.
  revert f' d q. induction f as [|f IH]; intros f' d q L H; [discriminate H|]. destruct f' as [|f']; [lia|]. cbn [Model_Graph.dijkstra] in *.
  destruct (pq_pop P q) as [[[k a] q']|]; auto. destruct (vget d a) as [sd| | |]; cbn [bind] in *; try discriminate. destruct sd as [sd|]; auto. destruct (sd <? k); [apply IH; auto; lia|].
  destruct (edges a) as [es| | |]; cbn [bind] in *; try discriminate. match goal with |- bind ?m _ = _ => destruct m as [[d' q'']| | |]; cbn [bind] in *; try discriminate end. apply IH; auto; lia.
Qed.
Lemma pdb_more P q0 f f' t pat cs r : f <= f' -> compute_pdb P q0 f t pat cs = Ok r -> compute_pdb P q0 f' t pat cs = Ok r.
Proof.
  intros L H. unfold compute_pdb in *. repeat (match goal with |- bind ?m _ = _ => lazymatch m with compute_distances _ _ _ _ _ _ _ => fail | _ => destruct m; cbn [bind] in *; try discriminate end end).
  apply bind_ok in H. destruct H as (d & Hd & H). unfold compute_distances in *. match goal with |- bind (bind ?m _) _ = _ => destruct m as [[d0 q]| | |]; cbn [bind] in *; try discriminate end.
  rewrite (dijkstra_more _ _ f f' _ _ d L Hd). exact H.
Qed.
Lemma pdbs_more P q0 f f' t pats r : f <= f' -> compute_pdbs P q0 f t pats = Ok r -> compute_pdbs P q0 f' t pats = Ok r.
Proof.
  intros L. revert r. induction pats as [|p pats IH]; intros r H; cbn [compute_pdbs] in *; auto. apply bind_ok in H. destruct H as (db & Hdb & H). apply bind_ok in H. destruct H as (dbs & Hdbs & H).
  rewrite (pdb_more _ _ f f' _ _ _ _ L Hdb). cbn [bind]. rewrite (IH _ Hdbs). exact H.
Qed.
Lemma init_more P q0 f f' t gs lp r : f <= f' -> initialize_all P q0 f t gs lp = Ok r -> initialize_all P q0 f' t gs lp = Ok r.
Proof.
  intros L. revert lp r. induction gs as [|g gs IH]; intros lp r H; cbn [initialize_all] in *; auto. apply bind_ok in H. destruct H as (x & Hx & H). apply bind_ok in H. destruct H as (y & Hy & H).
  assert (E : initialize_constraints P q0 f' t g lp = Ok x).
  { destruct g as [| |pats|time i|a i]; auto. cbn [initialize_constraints] in *. apply bind_ok in Hx. destruct Hx as (dbs & Hd & Hx). rewrite (pdbs_more _ _ f f' _ _ _ L Hd). exact Hx. }
  rewrite E. cbn [bind]. rewrite (IH _ _ Hy). exact H.
Qed.
Lemma oc_init_more P q0 k f f' t gs i h : f <= f' -> oc_init P q0 k f t gs i = Ok h -> oc_init P q0 k f' t gs i = Ok h.
Proof.
  intros L H. unfold oc_init in *. destruct gs as [|g gs]; auto. apply bind_ok in H. destruct H as (x & Hx & H). rewrite (init_more _ _ f f' _ _ _ _ L Hx). exact H.
Qed.

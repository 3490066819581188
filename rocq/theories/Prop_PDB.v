(** C40: pattern databases hold exact abstract goal distances.
    C41: the canonical heuristic is the maximum over additive sets of patterns, and is admissible.
    C42: the zero-one heuristic counts every operator in the first pattern it affects, and is admissible.
    C43: dominance pruning leaves the canonical heuristic unchanged. *)
From Coq Require Import Sorted.
From Verif Require Import Outcome Spec_Task Spec_Relaxation Spec_Projection Spec_PatternCollections Model_Task Model_PQ Model_PDB
  Model_PatternCollections Proof_MixedRadix Proof_PDB1 Proof_PDB3 Proof_Additive Proof_Collections Proof_Cliques Proof_Dominance.
From Verif Require Model_Evaluators Prop_Evaluators.

Lemma size_fits t pat : pattern_size t pat = Z.of_nat (prodl (pdoms t pat)).
Proof.
  unfold pattern_size, pdoms. induction pat as [|v r IH]; cbn [fold_right map prodl]; [reflexivity|]. rewrite IH. now rewrite Nat2Z.inj_mul.
Qed.
Lemma max_states : MAX_STATES = Model_Evaluators.INT_MAX. Proof. reflexivity. Qed.

(** The operator costs the pattern database is built for. *)
Definition costs_of (t : task) (costs : list nat) : list nat := match costs with [] => map op_cost (t_ops t) | _ => costs end.

(** C40. *)
Theorem C40_pdb_exact P bag q0 t pat costs :
  pq_contract P bag -> bag q0 = [] -> plain_task t -> pattern_ok t pat -> (costs = [] \/ length costs = length (t_ops t)) ->
  (pattern_size t pat <= MAX_STATES)%Z ->
  exists f0, forall fuel, f0 <= fuel -> exists db, compute_pdb P q0 fuel t pat costs = Ok db /\
    forall s, state_ok t s -> exists v, pdb_value db s = Ok v /\ perfect_value (project t pat (costs_of t costs)) (proj_state pat s) v.
Proof.
  intros HP Hq Ht Hpat Hc Hs. rewrite size_fits in Hs.
  assert (Hl : length (costs_of t costs) = length (t_ops t)).
  { unfold costs_of. destruct costs; [apply map_length|]. destruct Hc; [discriminate|auto]. }
  exact (one_pdb t Ht P bag HP q0 Hq pat costs (costs_of t costs) Hpat Hs eq_refl Hl).
Qed.
Print Assumptions C40_pdb_exact.

(** Whatever costs not exceeding the real ones the database is built for, its values are admissible. *)
Theorem C40_pdb_admissible P bag q0 t pat costs :
  pq_contract P bag -> bag q0 = [] -> plain_task t -> pattern_ok t pat -> (costs = [] \/ length costs = length (t_ops t)) ->
  (forall o c op, nth_error costs o = Some c -> nth_error (t_ops t) o = Some op -> c <= op_cost op) ->
  (pattern_size t pat <= MAX_STATES)%Z ->
  exists f0, forall fuel, f0 <= fuel -> exists db, compute_pdb P q0 fuel t pat costs = Ok db /\
    forall s, state_ok t s -> exists v, pdb_value db s = Ok v /\ admissible_value t s v.
Proof.
  intros HP Hq Ht Hpat Hc Hle Hs. destruct (C40_pdb_exact P bag q0 t pat costs HP Hq Ht Hpat Hc Hs) as [f0 H]. exists f0. intros fuel Hf.
  destruct (H fuel Hf) as (db & E & Hv). exists db. split; auto. intros s Hst. destruct (Hv s Hst) as (v & Ev & Hp). exists v. split; auto.
  assert (Hl : length (costs_of t costs) = length (t_ops t)).
  { unfold costs_of. destruct costs; [apply map_length|]. destruct Hc; [discriminate|auto]. }
  assert (G : forall os, task_plan_from t s os -> exists ns, [v] = map Some ns /\ list_sum ns <= plan_cost t os).
  { apply (admissible_sum t Ht (fun o => nth o (task_costs t) 0) [(pat, costs_of t costs)] s [v]); auto.
    intros o. cbn [map list_sum fold_right fst snd]. rewrite Nat.add_0_r. destruct (touches t pat o); [|lia]. unfold costs_of. destruct costs as [|c0 cs]; [unfold task_costs; lia|].
      destruct (nth_error (c0 :: cs) o) as [c|] eqn:Ec; [|rewrite nth_overflow by (now apply nth_error_None); lia]. rewrite (nth_error_nth _ o 0 Ec).
      destruct (nth_error (t_ops t) o) as [op|] eqn:Eo; [|apply nth_error_None in Eo; apply nth_error_Some_lt in Ec; unfold costs_of in Hl; lia].
      unfold task_costs. rewrite (nth_error_nth _ o 0 (map_nth_error op_cost o (t_ops t) Eo)). eapply Hle; eauto. }
  destruct v as [c|]; cbn [admissible_value].
  - intros os Hos. destruct (G os Hos) as ([|n [|]] & En & Hn); try discriminate. inversion En; subst. cbn in Hn. lia.
  - intros os Hos. destruct (G os Hos) as ([|n [|]] & En & Hn); discriminate.
Qed.
Print Assumptions C40_pdb_admissible.

(** A projection with too many abstract states is rejected. *)
Theorem C40_pdb_too_large P q0 fuel t pat costs :
  plain_task t -> pattern_ok t pat -> (forall x, In x (t_vars t) -> (Z.of_nat (vdom x) <= MAX_STATES)%Z) ->
  (pattern_size t pat > MAX_STATES)%Z -> compute_pdb P q0 fuel t pat costs = Exit SEARCH_CRITICAL_ERROR.
Proof.
  intros Ht Hpat Hd Hs. rewrite size_fits, max_states in Hs.
  assert (G : forall vars pj, (forall v, In v vars -> v < length (t_vars t)) -> 0 < pj_num pj -> (Z.of_nat (pj_num pj) <= Model_Evaluators.INT_MAX)%Z ->
    (Z.of_nat (pj_num pj * prodl (pdoms t vars)) > Model_Evaluators.INT_MAX)%Z -> make_projection t vars pj = Exit SEARCH_CRITICAL_ERROR).
  { induction vars as [|v r IH]; intros pj Hin Hn Hle Hf; cbn [make_projection pdoms map prodl] in *; [rewrite Nat.mul_1_r in Hf; lia|].
    pose proof (Hin v (or_introl eq_refl)) as Hv. unfold vget at 1. rewrite (nth_error_nth' _ {| vdom := 0; vlayer := None; vdefault := 0 |} Hv). cbn [bind].
    assert (Hdv : (Z.of_nat (vdom (nth v (t_vars t) {| vdom := 0; vlayer := None; vdefault := 0 |})) <= Model_Evaluators.INT_MAX)%Z) by (apply Hd, nth_In, Hv).
    assert (Hpos : 0 < vdom (nth v (t_vars t) {| vdom := 0; vlayer := None; vdefault := 0 |})) by (apply (dom_pos t Ht v), nth_error_nth'; auto).
    set (d := vdom (nth v (t_vars t) _)) in *. fold (pdoms t r) in *.
    rewrite Prop_Evaluators.C58_is_product_within_limit; try lia.
    2-4: unfold Prop_Evaluators.is_int, Model_Evaluators.INT_MIN, Model_Evaluators.INT_MAX in *; lia.
    destruct (Z.leb_spec (Z.of_nat (pj_num pj) * Z.of_nat d) Model_Evaluators.INT_MAX); cbn [bind]; [|reflexivity].
    apply IH; cbn [pj_num]; auto; [intros; apply Hin; now right|nia|lia|]. rewrite <- Nat.mul_assoc. exact Hf. }
  unfold compute_pdb, new_projection. destruct Ht as (Hok & Hr & Hv & Hop). assert (Ht : plain_task t) by (repeat (split; auto)). unfold has_rules. rewrite Hr. rewrite (no_cond_effects t Ht). destruct Hpat as [Hss Hin]. rewrite (sorted_unique_spec _ Hss). cbn [guard bind].
  rewrite G; auto; cbn [pj_num]; try lia; try reflexivity. unfold Model_Evaluators.INT_MAX. lia.
Qed.
Print Assumptions C40_pdb_too_large.

(** Tasks with derived variables or conditional effects are rejected. *)
Theorem C40_pdb_unsupported P q0 fuel t pat costs :
  (t_rules t <> [] \/ exists op e, In op (t_ops t) /\ In e (op_effs op) /\ eff_cond e <> []) ->
  compute_pdb P q0 fuel t pat costs = Exit SEARCH_UNSUPPORTED.
Proof.
  intros H. unfold compute_pdb, new_projection, has_rules. destruct (t_rules t) as [|r rs] eqn:Er; [|reflexivity].
  destruct H as [H|(op & e & Ho & He & Hc)]; [congruence|]. replace (existsb _ (t_ops t)) with true; [reflexivity|].
  symmetry. apply existsb_exists. exists op. split; auto. apply existsb_exists. exists e. split; auto. destruct (eff_cond e); congruence.
Qed.
Print Assumptions C40_pdb_unsupported.

(* ---- C42 ---- *)
Lemma affects_touches t o op p : nth_error (t_ops t) o = Some op -> affects op p <-> touches t p o = true.
Proof.
  intros Ho. rewrite (touches_spec t p o op Ho). unfold affects, efacts. rewrite map_map. split.
  - intros (e & He & Hp). exists (fst (eff_fact e)). split; auto. now apply (in_map (fun e => fst (eff_fact e))).
  - intros (v & Hp & Hv). apply in_map_iff in Hv. destruct Hv as (e & <- & He). eauto.
Qed.
Lemma zo_first t earlier cs : zo_costs t (task_costs t) earlier cs -> first_costs t earlier cs.
Proof.
  intros [Hl Hz]. split; auto. intros o op Ho. assert (Hc : nth_error cs o = Some (nth o cs 0)) by (apply nth_error_nth'; rewrite Hl; eapply nth_error_Some_lt; eauto).
  rewrite Hc, Hz. destruct (existsb (fun p => touches t p o) earlier) eqn:E.
  - split; auto. intros Hn. exfalso. apply Hn. apply existsb_exists in E. destruct E as (p & Hp & Et). exists p. split; auto. now apply (affects_touches t o op p Ho).
  - split.
    + intros (p & Hp & Ha). apply (affects_touches t o op p Ho) in Ha. assert (existsb (fun p => touches t p o) earlier = true) by (apply existsb_exists; eauto). congruence.
    + intros _. f_equal. unfold task_costs. apply nth_error_nth. now apply map_nth_error.
Qed.

(** For every state the value is the sum over the patterns of the exact goal distances of the
    projections in which an operator keeps its cost only if it affects no earlier pattern, and this
    sum never exceeds the cost of a plan. *)
Theorem C42_zero_one P bag q0 t pats :
  pq_contract P bag -> bag q0 = [] -> plain_task t -> Forall (pattern_ok t) pats -> Forall (fun p => pattern_size t p <= MAX_STATES)%Z pats ->
  exists css, length css = length pats /\ (forall i cs, nth_error css i = Some cs -> first_costs t (firstn i pats) cs) /\
  exists f0, forall fuel, f0 <= fuel -> exists dbs, zero_one_pdbs P q0 fuel t pats = Ok dbs /\
    forall s, state_ok t s -> exists hs v, zero_one_value dbs s = Ok v /\
      Forall2 (fun pc h => perfect_value (project t (fst pc) (snd pc)) (proj_state (fst pc) s) h) (combine pats css) hs /\
      sum_of hs v /\ admissible_value t s v.
Proof.
  intros HP Hq Ht Hp Hs.
  assert (Hf : Forall (fits t) pats). { eapply Forall_impl; [|exact Hs]. intros p H. unfold fits. rewrite <- size_fits. exact H. }
  destruct (zero_one_loop_ok t Ht P bag HP q0 Hq pats [] (task_costs t) (task_costs t) Hp Hf) as (f0 & pcs & Hseq & HA).
  { split; [apply task_costs_len|]. intros o. reflexivity. }
  destruct (zo_pats t _ _ _ _ Hseq) as [Hfst Hlen].
  assert (Hcomb : combine pats (map snd pcs) = pcs). { rewrite <- Hfst. clear. induction pcs as [|[p c] r IH]; cbn [map combine fst snd]; auto. now rewrite IH. }
  exists (map snd pcs). splits.
  - rewrite map_length, <- Hfst, map_length. reflexivity.
  - assert (G : forall before ps r, zo_seq t (task_costs t) before ps r -> forall i cs, nth_error (map snd r) i = Some cs -> zo_costs t (task_costs t) (before ++ firstn i ps) cs).
    { induction 1 as [before|before p ps cs r Hz _ IH]; intros [|i] cs' Hi; cbn [map nth_error firstn snd] in *; try discriminate.
      - inversion Hi; subst. now rewrite app_nil_r.
      - specialize (IH i cs' Hi). rewrite <- app_assoc in IH. exact IH. }
    intros i cs Hi. apply zo_first. exact (G [] pats pcs Hseq i cs Hi).
  - exists f0. intros fuel Hfu. destruct (HA fuel Hfu) as (dbs & E & Hdbs). exists dbs. split; auto. intros s Hst.
    destruct (zero_one_value_ok t dbs pcs s 0 Hst Hdbs) as (hs & HF & Hc).
    assert (G : forall os, task_plan_from t s os -> exists ns, hs = map Some ns /\ list_sum ns <= plan_cost t os).
    { apply (admissible_sum t Ht (fun o => nth o (task_costs t) 0) pcs s hs); auto.
      - rewrite Forall_forall in *. intros pc Hpc. split; auto. apply Hp. rewrite <- Hfst. now apply in_map.
      - intros o. exact (zo_sum t _ _ _ _ Hseq o). }
    exists hs. rewrite Hcomb. destruct Hc as [(ns & Ehs & Ev)|[Hn Ev]].
    + exists (Some (list_sum ns)). splits; auto.
      * cbn [sum_of]. eauto.
      * intros os Hos. destruct (G os Hos) as (ns' & E' & Hle). rewrite Ehs in E'. assert (ns = ns') as ->; [|exact Hle].
        clear -E'. revert ns' E'. induction ns as [|x l IH]; intros [|y l'] E'; cbn [map] in E'; try discriminate; auto. inversion E'; subst. f_equal. auto.
    + exists None. splits; auto. intros os Hos. destruct (G os Hos) as (ns' & E' & _). rewrite E' in Hn. apply in_map_iff in Hn. destruct Hn as (x & Hx & _). discriminate.
Qed.
Print Assumptions C42_zero_one.

(* ---- C41 ---- *)
Lemma additive_iff t p q : additive_patterns t p q <-> additive t p q.
Proof.
  unfold additive_patterns, additive, coaffected, affects, efacts. split.
  - intros H v1 v2 H1 H2 (op & Ho & Ha & Hb). rewrite map_map in Ha, Hb. apply in_map_iff in Ha, Hb. destruct Ha as (e1 & <- & He1). destruct Hb as (e2 & <- & He2). eapply (H op); eauto.
  - intros H op Ho (e1 & He1 & H1) (e2 & He2 & H2). apply (H _ _ H1 H2). exists op. rewrite map_map. splits; auto; now apply (in_map (fun e => fst (eff_fact e))).
Qed.
Lemma additive_collection_iff t pats K : additive_collection t pats K <-> additive_set t pats K.
Proof.
  unfold additive_collection, additive_set. split; intros (H1 & H2 & H3); splits; auto; intros i j p q Hi Hj Hij Ep Eq; apply additive_iff; eauto.
Qed.

Lemma compute_pdbs_ok P bag q0 t : pq_contract P bag -> bag q0 = [] -> plain_task t -> forall pats, Forall (pattern_ok t) pats -> Forall (fits t) pats ->
  exists f0, forall fuel, f0 <= fuel -> exists dbs, compute_pdbs P q0 fuel t pats = Ok dbs /\ Forall2 (fun db p => db_good t db (p, task_costs t)) dbs pats.
Proof.
  intros HP Hq Ht. induction pats as [|p r IH]; intros Hp Hf; [exists 0; intros; exists []; split; [reflexivity|constructor]|]. inversion Hp; inversion Hf; subst.
  destruct IH as [f1 H1']; auto. destruct (one_pdb t Ht P bag HP q0 Hq p [] (task_costs t)) as [f2 H2']; auto; [apply task_costs_len|].
  exists (Nat.max f1 f2). intros fuel Hfu. destruct (H1' fuel ltac:(lia)) as (dbs & E1 & F1). destruct (H2' fuel ltac:(lia)) as (db & E2 & F2). exists (db :: dbs). split; [|constructor; auto].
  cbn [compute_pdbs]. rewrite E2. cbn [bind]. rewrite E1. reflexivity.
Qed.

Section CAN.
Variable P : pqueue.
Variable q0 : PQ P.
(** What the canonical heuristic does: databases, cliques, optionally dominance pruning with a time
    limit that allows [limit] rounds ([None]: no pruning), then the lookup. *)
(* pdbs/canonical_pdbs_heuristic.cc:17-57 (get_canonical_pdbs), canonical_pdbs.cc *)
Definition canonical_databases (fuel : nat) (t : task) (pats : list (list nat)) (pruning : option (option nat)) : outcome (list pdb * list (list nat)) :=
  let* dbs := compute_pdbs P q0 fuel t pats in
  let* m := compute_additive_vars t in
  let* cliques := compute_pattern_cliques m pats in
  match pruning with
  | None => Ok (dbs, cliques)
  | Some limit => let* r := prune_dominated_cliques limit (length (t_vars t)) pats dbs cliques in
                  let '(_, dbs', cliques') := r in Ok (dbs', cliques')
  end.
End CAN.

Definition canonical_spec (t : task) (pats : list (list nat)) (s : state) (v : option nat) : Prop :=
  exists hs, Forall2 (fun p h => perfect_value (project t p (map op_cost (t_ops t))) (proj_state p s) h) pats hs /\
  match v with
  | None => In None hs
  | Some m => ~ In None hs /\
              (forall K n, additive_collection t pats K -> sum_of (map (fun i => nth i hs None) K) (Some n) -> n <= m) /\
              exists K, additive_collection t pats K /\ sum_of (map (fun i => nth i hs None) K) (Some m)
  end.

Lemma ksum_sum ns K : (forall i, In i K -> i < length ns) -> map (fun i => nth i (map Some ns) None) K = map Some (map (fun i => nth i ns 0) K).
Proof.
  intros H. rewrite map_map. apply map_ext_in. intros i Hi. apply nth_error_nth. apply (map_nth_error Some). apply nth_error_nth'. auto.
Qed.
Lemma map_some_inj (a b : list nat) : map Some a = map Some b -> a = b.
Proof. revert b. induction a as [|x l IH]; intros [|y l'] E; cbn [map] in E; try discriminate; auto. inversion E; subst. f_equal. auto. Qed.

(** Without pruning: the value is the maximum over the additive sets of patterns of the sum of
    their exact abstract goal distances, infinite iff one of these distances is; it is admissible. *)
Lemma canonical_ok P bag q0 t pats :
  pq_contract P bag -> bag q0 = [] -> plain_task t -> Forall (pattern_ok t) pats -> Forall (fun p => pattern_size t p <= MAX_STATES)%Z pats ->
  exists f0, forall fuel, f0 <= fuel -> exists dbs cliques m, compute_pdbs P q0 fuel t pats = Ok dbs /\ compute_additive_vars t = Ok m /\ compute_pattern_cliques m pats = Ok cliques /\
    Forall2 (fun db p => db_good t db (p, task_costs t)) dbs pats /\ (forall K, In K cliques -> additive_set t pats K) /\
    (forall i, i < length pats -> exists K, In K cliques /\ In i K) /\
    forall s, state_ok t s -> exists v, canonical_value dbs cliques s = Ok v /\ canonical_spec t pats s v.
Proof.
  intros HP Hq Ht Hp Hs.
  assert (Hf : Forall (fits t) pats). { eapply Forall_impl; [|exact Hs]. intros p H. unfold fits. rewrite <- size_fits. exact H. }
  destruct (compute_pdbs_ok P bag q0 t HP Hq Ht pats Hp Hf) as [f0 HA]. destruct (pattern_cliques_ok t Ht pats) as (m & cs & Em & Ec & Hadd & Hmax).
  { intros p v Hi Hv. rewrite Forall_forall in Hp. exact (proj2 (Hp p Hi) v Hv). }
  exists f0. intros fuel Hfu. destruct (HA fuel Hfu) as (dbs & Ed & Hd). exists dbs, cs, m. splits; auto.
  - intros i Hi. destruct (Hmax [i]) as (K & HK & Hin); [|exists K; split; auto; apply Hin; now left]. unfold additive_set. splits.
    + constructor; [intros []|constructor].
    + intros j [<-|[]]; auto.
    + intros j k p q [<-|[]] [<-|[]] Hne; congruence.
  - intros s Hst. destruct (db_values t pats dbs s Hd Hst) as (hs & Hper & Hval). unfold canonical_value. rewrite (pdb_values_ok dbs s hs Hval). cbn [bind].
    pose proof (F2_len _ _ _ Hper) as Hlen. destruct (all_some hs) as [ns|] eqn:Eh.
    + apply all_some_some in Eh. assert (Hln : length ns = length pats) by (rewrite Hlen, Eh, map_length; auto).
      destruct (max_cliques_value ns cs) as (v & Ev & Hle & Hat); [intros K i HK Hi; rewrite Hln; now apply (Hadd K HK)|]. rewrite Ev. cbn [bind]. exists (Some v). split; auto. exists hs. splits; auto.
      * rewrite Eh. intros Hn. apply in_map_iff in Hn. destruct Hn as (x & Hx & _). discriminate.
      * intros K n HK (ms & Ems & ->). apply additive_collection_iff in HK. rewrite Eh, ksum_sum in Ems by (intros i Hi; rewrite Hln; now apply HK). apply map_some_inj in Ems. subst ms. fold (ksum ns K).
        destruct (Hmax K HK) as (K' & HK' & Hin). specialize (Hle K' HK'). pose proof (ksum_incl ns K K' (proj1 HK) Hin). lia.
      * destruct Hat as [->|(K & HK & ->)].
        -- exists []. split; [|exists []; split; reflexivity]. apply additive_collection_iff. unfold additive_set. splits; [constructor|intros i []|intros i j p q []].
        -- exists K. split; [apply additive_collection_iff; auto|]. exists (map (fun i => nth i ns 0) K). split; [|reflexivity]. rewrite Eh. apply ksum_sum. intros i Hi. rewrite Hln. now apply (Hadd K HK).
    + exists None. split; auto. exists hs. split; auto. now apply all_some_none.
Qed.
Lemma canonical_admissible t pats s v : plain_task t -> Forall (pattern_ok t) pats -> state_ok t s -> canonical_spec t pats s v -> admissible_value t s v.
Proof.
  intros Ht Hp Hs (hs & HF & Hv).
  assert (G : forall K, additive_set t pats K -> forall os, task_plan_from t s os -> exists ns, map (fun i => nth i hs None) K = map Some ns /\ list_sum ns <= plan_cost t os).
  { intros K HK. apply (admissible_sum t Ht (fun o => nth o (task_costs t) 0) (map (fun i => (nth i pats [], task_costs t)) K) s); auto.
    - apply Forall_forall. intros pc Hpc. apply in_map_iff in Hpc. destruct Hpc as (i & <- & Hi). cbn [fst snd]. split; [|apply task_costs_len]. rewrite Forall_forall in Hp. apply Hp, nth_In. now apply HK.
    - intros o. rewrite map_map. cbn [fst snd]. rewrite <- (map_map (fun i => nth i pats []) (fun p => if touches t p o then nth o (task_costs t) 0 else 0)).
      apply (clique_costs t (map (fun i => nth i pats []) K) (fun o => nth o (task_costs t) 0)).
      destruct HK as (Hn & Hr & Ha). clear -Hn Hr Ha. induction Hn as [|x L Hx Hn IH]; cbn [map]; constructor.
      + apply Forall_forall. intros p Hp. apply in_map_iff in Hp. destruct Hp as (i & <- & Hi). apply (Ha x i); [now left|now right|congruence| |].
        * apply nth_error_nth'. apply Hr. now left.
        * apply nth_error_nth'. apply Hr. now right.
      + apply IH; [intros; apply Hr; now right|]. intros i k p q Hi Hk. apply Ha; now right.
    - assert (Hin : forall i, In i K -> i < length pats) by apply HK. clear -HF Hin. induction K as [|i L IH]; cbn [map]; constructor.
      + cbn [fst snd]. destruct (F2_nth _ _ _ HF i (nth i pats [])) as (h & Eh & Hh); [apply nth_error_nth', Hin; now left|]. rewrite (nth_error_nth hs i None Eh). exact Hh.
      + apply IH. intros; apply Hin; now right. }
  destruct v as [m|]; cbn [admissible_value] in *.
  - intros os Hos. destruct Hv as (_ & _ & K & HK & (ns & En & ->)). apply additive_collection_iff in HK. destruct (G K HK os Hos) as (ns' & En' & Hle). rewrite En in En'. apply map_some_inj in En'. now subst.
  - intros os Hos. apply In_nth_error in Hv. destruct Hv as [i Hi].
    assert (Hip : i < length pats) by (rewrite (F2_len _ _ _ HF); eapply nth_error_Some_lt; eauto).
    destruct (G [i]) with (os := os) as (ns & En & _); auto.
    + unfold additive_set. splits; [constructor; [intros []|constructor]|intros j [<-|[]]; auto|intros j k p q [<-|[]] [<-|[]] Hne; congruence].
    + cbn [map] in En. rewrite (nth_error_nth hs i None Hi) in En. destruct ns; discriminate.
Qed.

Theorem C41_canonical P bag q0 t pats :
  pq_contract P bag -> bag q0 = [] -> plain_task t -> Forall (pattern_ok t) pats -> Forall (fun p => pattern_size t p <= MAX_STATES)%Z pats ->
  exists f0, forall fuel, f0 <= fuel -> exists dbs cliques, canonical_databases P q0 fuel t pats None = Ok (dbs, cliques) /\
    forall s, state_ok t s -> exists v, canonical_value dbs cliques s = Ok v /\ canonical_spec t pats s v /\ admissible_value t s v.
Proof.
  intros HP Hq Ht Hp Hs. destruct (canonical_ok P bag q0 t pats HP Hq Ht Hp Hs) as [f0 H]. exists f0. intros fuel Hfu. destruct (H fuel Hfu) as (dbs & cs & m & E1 & E2 & E3 & _ & _ & _ & Hv).
  exists dbs, cs. split; [unfold canonical_databases; rewrite E1; cbn [bind]; rewrite E2; cbn [bind]; rewrite E3; reflexivity|].
  intros s Hst. destruct (Hv s Hst) as (v & Ev & Hspec). exists v. splits; auto. eapply canonical_admissible; eauto.
Qed.
Print Assumptions C41_canonical.

(** Pruning, stopped by the time limit after any number of rounds, changes no value. *)
Theorem C43_pruning_keeps_value P bag q0 t pats limit :
  pq_contract P bag -> bag q0 = [] -> plain_task t -> Forall (pattern_ok t) pats -> Forall (fun p => pattern_size t p <= MAX_STATES)%Z pats ->
  Forall (fun p => p <> []) pats ->
  exists f0, forall fuel, f0 <= fuel -> exists dbs cliques dbs' cliques',
    canonical_databases P q0 fuel t pats None = Ok (dbs, cliques) /\ canonical_databases P q0 fuel t pats (Some limit) = Ok (dbs', cliques') /\
    forall s, state_ok t s -> exists v, canonical_value dbs cliques s = Ok v /\ canonical_value dbs' cliques' s = Ok v /\ canonical_spec t pats s v.
Proof.
  intros HP Hq Ht Hp Hs Hne. destruct (canonical_ok P bag q0 t pats HP Hq Ht Hp Hs) as [f0 H]. exists f0. intros fuel Hfu. destruct (H fuel Hfu) as (dbs & cs & m & E1 & E2 & E3 & Hd & Ha & Hc & Hv).
  rewrite Forall_forall in Hne. destruct (prune_value t Ht pats cs dbs limit Hp Hne Ha Hc Hd) as (rp & rd & rc & E4 & _ & Hval).
  exists dbs, cs, rd, rc. unfold canonical_databases. rewrite E1. cbn [bind]. rewrite E2. cbn [bind]. rewrite E3. cbn [bind]. rewrite E4. cbn [bind]. splits; auto.
  intros s Hst. destruct (Hval s Hst) as (v & V1 & V2). destruct (Hv s Hst) as (v' & V1' & Hspec). rewrite V1 in V1'. inversion V1'; subst v'. eauto.
Qed.
Print Assumptions C43_pruning_keeps_value.

(* ---- examples ---- *)
Definition pdb_ex : task := {|
  t_vars := [{| vdom := 3; vlayer := None; vdefault := 0 |}; {| vdom := 2; vlayer := None; vdefault := 0 |}; {| vdom := 2; vlayer := None; vdefault := 0 |}];
  t_ops := [{| op_pre := [(0, 0)]; op_effs := [{| eff_cond := []; eff_fact := (0, 1) |}]; op_cost := 2 |};
            {| op_pre := [(0, 1)]; op_effs := [{| eff_cond := []; eff_fact := (0, 2) |}; {| eff_cond := []; eff_fact := (1, 1) |}]; op_cost := 3 |};
            {| op_pre := [(0, 2)]; op_effs := [{| eff_cond := []; eff_fact := (2, 1) |}]; op_cost := 1 |}];
  t_rules := []; t_init := [0; 0; 0]; t_goal := [(0, 2); (1, 1); (2, 1)] |}.
Lemma fact_ok_pdb_ex f : (fst f <? 3) && (snd f <? nth (fst f) [3; 2; 2] 0) = true -> fact_ok pdb_ex f.
Proof.
  destruct f as [v d]. cbn [fst snd]. intros H. apply andb_true_iff in H. destruct H as [H1 H2]. apply Nat.ltb_lt in H1, H2.
  destruct v as [|[|[|v]]]; cbn [nth] in H2; try lia; eexists; (split; [reflexivity|exact H2]).
Qed.
Lemma pdb_ex_plain : plain_task pdb_ex.
Proof.
  unfold plain_task. splits.
  - unfold task_ok. splits; cbn [t_vars t_ops t_rules t_init t_goal pdb_ex].
    + repeat constructor; cbn; try lia; intros H; congruence.
    + repeat constructor; try (apply fact_ok_pdb_ex; reflexivity).
    + constructor.
    + repeat constructor.
    + repeat constructor; apply fact_ok_pdb_ex; reflexivity.
  - reflexivity.
  - cbn. intros x Hx. decompose [or] Hx; subst; try contradiction; reflexivity.
  - cbn [t_ops pdb_ex]. intros op Ho. cbn [In] in Ho. decompose [or] Ho; subst; try contradiction; unfold op_plain; cbn [op_pre op_effs];
      (split; [intros e He; cbn [In] in He; decompose [or] He; subst; try contradiction; reflexivity|]);
      repeat split; try reflexivity; cbn [map fst eff_fact]; repeat constructor; cbn [In]; intuition discriminate.
Qed.
Lemma pattern_ok_ex pat : In pat [[0; 1]; [1]; [2]; [1; 2]] -> pattern_ok pdb_ex pat.
Proof. cbn [In]. intros H. decompose [or] H; subst; try contradiction; (split; [repeat constructor|cbn; intros v Hv; decompose [or] Hv; subst; try contradiction; lia]). Qed.

Example C40_nonvacuous :
  plain_task pdb_ex /\ pattern_ok pdb_ex [0; 1] /\ Z.le (pattern_size pdb_ex [0; 1]) MAX_STATES /\ pq_contract list_pq (fun q => q) /\
  state_ok pdb_ex [0; 0; 0] /\ state_ok pdb_ex [2; 0; 0] /\
  exists db, compute_pdb list_pq [] 100 pdb_ex [0; 1] [] = Ok db /\ pdb_value db [0; 0; 0] = Ok (Some 5) /\ pdb_value db [2; 0; 0] = Ok None.
Proof.
  splits; [exact pdb_ex_plain|apply pattern_ok_ex; cbn; tauto|vm_compute; discriminate|exact list_pq_contract|repeat constructor|repeat constructor|].
  eexists. splits; vm_compute; reflexivity.
Qed.
Definition big_ex : task := {| t_vars := repeat {| vdom := 2; vlayer := None; vdefault := 0 |} 40; t_ops := []; t_rules := []; t_init := repeat 0 40; t_goal := [(0, 1)] |}.
Example C40_too_large_nonvacuous : plain_task big_ex /\ pattern_ok big_ex (seq 0 40) /\ Z.gt (pattern_size big_ex (seq 0 40)) MAX_STATES /\
  (forall x, In x (t_vars big_ex) -> (Z.of_nat (vdom x) <= MAX_STATES)%Z).
Proof.
  splits.
  - unfold plain_task. splits.
    + unfold task_ok. splits; cbn [t_vars t_ops t_rules t_init t_goal big_ex].
      * apply Forall_forall. intros x Hx. apply repeat_spec in Hx. subst. unfold variable_ok. cbn. splits; [lia|lia|congruence].
      * constructor.
      * constructor.
      * unfold state_ok. cbn. repeat constructor.
      * repeat constructor. exists {| vdom := 2; vlayer := None; vdefault := 0 |}. split; [reflexivity|cbn; lia].
    + reflexivity.
    + cbn [t_vars big_ex]. intros x Hx. apply repeat_spec in Hx. now subst.
    + intros op [].
  - split.
    + assert (G : forall n k, StronglySorted lt (seq k n)). { induction n as [|n IH]; intros k; cbn [seq]; constructor; auto. apply Forall_forall. intros x Hx. apply in_seq in Hx. lia. } apply G.
    + intros v Hv. apply in_seq in Hv. cbn. lia.
  - vm_compute. reflexivity.
  - cbn [t_vars big_ex]. intros x Hx. apply repeat_spec in Hx. subst. vm_compute. discriminate.
Qed.
Example C42_nonvacuous :
  Forall (pattern_ok pdb_ex) [[0; 1]; [1; 2]] /\ Forall (fun p => Z.le (pattern_size pdb_ex p) MAX_STATES) [[0; 1]; [1; 2]] /\
  exists dbs, zero_one_pdbs list_pq [] 100 pdb_ex [[0; 1]; [1; 2]] = Ok dbs /\ zero_one_value dbs [0; 0; 0] = Ok (Some 6) /\ zero_one_value dbs [2; 0; 0] = Ok None.
Proof.
  splits; [repeat (apply Forall_cons || apply Forall_nil); apply pattern_ok_ex; cbn; tauto|repeat (apply Forall_cons || apply Forall_nil); vm_compute; discriminate|]. eexists. splits; vm_compute; reflexivity.
Qed.
Example C41_nonvacuous :
  Forall (pattern_ok pdb_ex) [[0; 1]; [1]; [2]] /\ Forall (fun p => Z.le (pattern_size pdb_ex p) MAX_STATES) [[0; 1]; [1]; [2]] /\
  exists dbs, canonical_databases list_pq [] 100 pdb_ex [[0; 1]; [1]; [2]] None = Ok (dbs, [[2; 1]; [2; 0]]) /\
    canonical_value dbs [[2; 1]; [2; 0]] [0; 0; 0] = Ok (Some 6) /\ canonical_value dbs [[2; 1]; [2; 0]] [2; 0; 0] = Ok None.
Proof.
  splits; [repeat (apply Forall_cons || apply Forall_nil); apply pattern_ok_ex; cbn; tauto|repeat (apply Forall_cons || apply Forall_nil); vm_compute; discriminate|]. eexists. splits; vm_compute; reflexivity.
Qed.
(** The second clique is pruned and the remaining patterns renumbered. *)
Example C43_nonvacuous :
  exists dbs, canonical_databases list_pq [] 100 pdb_ex [[0; 1]; [1]; [2]] (Some None) = Ok (dbs, [[1; 0]]) /\ length dbs = 2 /\
    canonical_value dbs [[1; 0]] [0; 0; 0] = Ok (Some 6).
Proof. eexists. splits; vm_compute; reflexivity. Qed.

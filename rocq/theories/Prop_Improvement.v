(** C80: a sample counts as improved by a new pattern iff the canonical heuristic improves on it. *)
From Verif Require Import Outcome Spec_Task Spec_Relaxation Spec_Projection Spec_PatternCollections Model_Task Model_PQ Model_PDB Model_MaxCliques Model_PatternCollections Model_Improvement
  Proof_PDB1 Proof_Additive Proof_Collections Proof_Cliques Proof_Dominance Prop_PDB.
Import ListNotations.

Lemma can_max t pats dbs cs s ns : (forall K, In K cs -> additive_set t pats K) -> (forall K, additive_set t pats K -> exists K', In K' cs /\ forall i, In i K -> In i K') ->
  Forall2 (fun db h => pdb_value db s = Ok h) dbs (map Some ns) -> length ns = length pats ->
  exists v, canonical_value dbs cs s = Ok (Some v) /\ (forall K, additive_set t pats K -> ksum ns K <= v) /\ exists K, additive_set t pats K /\ v = ksum ns K.
Proof.
  intros Hadd Hmax Hv Hl. unfold canonical_value. rewrite (pdb_values_ok _ _ _ Hv). rewrite (proj2 (all_some_some _ ns) eq_refl). cbn [bind].
  destruct (max_cliques_value ns cs) as (v & Ev & Hle & Hat); [intros K i HK Hi; rewrite Hl; now apply (Hadd K HK)|]. rewrite Ev. cbn [bind]. exists v. split; [auto|]. split.
  - intros K HK. destruct (Hmax K HK) as (K' & HK' & Hin). specialize (Hle K' HK'). pose proof (ksum_incl ns K K' (proj1 HK) Hin). lia.
  - destruct Hat as [-> |(K & HK & ->)]; [|eauto]. exists []. split; [|reflexivity]. split; [constructor|]. split; [intros i []|intros i j p q []].
Qed.

Lemma with_pattern_ok t m pats known new (f : nat -> bool) :
  (forall K i, In K known -> In i K -> i < length pats) -> (forall i, i < length pats -> are_patterns_additive m new (nth i pats []) = Ok (f i)) ->
  (forall K, In K known -> additive_set t pats K) -> (forall K, additive_set t pats K -> exists K', In K' known /\ forall i, In i K -> In i K') ->
  exists cs, cliques_with_pattern m pats known new = Ok cs /\
    (forall c, In c cs -> additive_set t pats c /\ forall i, In i c -> f i = true) /\
    (forall K, additive_set t pats K -> (forall i, In i K -> f i = true) -> exists c, In c cs /\ forall i, In i K -> In i c).
Proof.
  intros Hr Hf Hadd Hmax. unfold cliques_with_pattern.
  assert (F1 : forall K c, (forall i, In i K -> i < length pats) ->
    fold_outcome (fun c i => let* p := vget pats i in let* b := are_patterns_additive m new p in Ok (if b : bool then c ++ [i] else c)) K c = Ok (c ++ filter f K)).
  { induction K as [|i K IH]; intros c HK; cbn [fold_outcome filter]; [now rewrite app_nil_r|].
    pose proof (HK i (or_introl eq_refl)) as Hi. unfold vget at 1. rewrite (nth_error_nth' pats [] Hi). cbn [bind]. rewrite Hf by auto. cbn [bind]. rewrite IH by (intros; apply HK; now right).
    destruct (f i); auto. now rewrite <- app_assoc. }
  assert (F2 : forall kn acc, (forall K i, In K kn -> In i K -> i < length pats) -> exists cs,
    fold_outcome (fun cs K => let* c := fold_outcome (fun c i => let* p := vget pats i in let* b := are_patterns_additive m new p in Ok (if b : bool then c ++ [i] else c)) K [] in
      Ok (if is_nil c then cs else cs ++ [c])) kn acc = Ok cs /\ forall c, In c cs <-> In c acc \/ (c <> [] /\ exists K, In K kn /\ c = filter f K)).
  { induction kn as [|K kn IH]; intros acc Hk; cbn [fold_outcome]; [exists acc; split; auto; intros c; split; [auto|]; intros [H|(_ & K & [] & _)]; auto|].
    rewrite F1 by (intros i Hi; exact (Hk K i (or_introl eq_refl) Hi)). cbn [bind app].
    destruct (IH (if is_nil (filter f K) then acc else acc ++ [filter f K])) as (cs & E & Hcs); [intros; eapply Hk; [right|]; eauto|].
    exists cs. split; [exact E|]. intros c. rewrite Hcs. destruct (filter f K) as [|x l] eqn:EK; cbn [is_nil].
    - split; [intros [H|(H1 & K1 & H2 & H3)]; [auto|right; split; [auto|exists K1; split; [now right|auto]]]|]. intros [H|(H1 & K1 & [<- |H2] & H3)]; [auto|congruence|right; split; eauto].
    - rewrite in_app_iff. split.
      + intros [[H|[<- |[]]]|(H1 & K1 & H2 & H3)]; [auto|right; split; [discriminate|exists K; split; [now left|congruence]]|right; split; [auto|exists K1; split; [now right|auto]]].
      + intros [H|(H1 & K1 & [<- |H2] & H3)]; [auto|left; right; left; congruence|right; split; eauto]. }
  destruct (F2 known [] Hr) as (cs & E & Hcs). rewrite E. cbn [bind].
  assert (E0 : additive_set t pats []) by (split; [constructor|split; [intros i []|intros i j p q []]]).
  exists (if is_nil cs then [[]] else cs). split; [reflexivity|]. split.
  - assert (X : forall c, In c cs -> additive_set t pats c /\ forall i, In i c -> f i = true).
    { intros c Hc. apply Hcs in Hc as [[]|(_ & K & HK & ->)]. split; [|intros i Hi; now apply filter_In in Hi].
      destruct (Hadd K HK) as (N & R & A). split; [now apply NoDup_filter|]. split; [intros i Hi; apply filter_In in Hi as (Hi & _); auto|].
      intros i j p q Hi Hj. apply filter_In in Hi as (Hi & _). apply filter_In in Hj as (Hj & _). apply A; auto. }
    destruct cs; cbn [is_nil]; auto. intros c [<- |[]]. split; [auto|intros i []].
  - intros K HK Hk. destruct (Hmax K HK) as (K' & HK' & Hin).
    assert (Hsub : forall i, In i K -> In i (filter f K')) by (intros i Hi; apply filter_In; auto).
    destruct (filter f K') as [|x l] eqn:EK.
    + destruct K as [|i K]; [|destruct (Hsub i (or_introl eq_refl))]. destruct cs as [|c cs]; cbn [is_nil]; [exists []; split; [now left|auto]|exists c; split; [now left|intros i []]].
    + assert (Hc : In (x :: l) cs) by (apply Hcs; right; split; [discriminate|eauto]). exists (x :: l). split; [|auto]. destruct cs; [destruct Hc|exact Hc].
Qed.

Lemma any_better_ok hs hp hc : forall cs, (forall c i, In c cs -> In i c -> i < length hs) ->
  exists b, any_better hs hp hc cs = Ok b /\ (b = true <-> exists c, In c cs /\ hc < hp + ksum hs c).
Proof.
  induction cs as [|c cs IH]; intros H; cbn [any_better]; [exists false; split; auto; split; [discriminate|intros (c & [] & _)]|].
  rewrite clique_value_ok by (intros i Hi; apply (H c i); auto; now left). cbn [bind]. destruct (Nat.ltb_spec hc (hp + ksum hs c)) as [Hl|Hl].
  - exists true. split; auto. split; auto. intros _. exists c. split; [now left|auto].
  - destruct (IH (fun d i Hd Hi => H d i (or_intror Hd) Hi)) as (b & E & Hb). exists b. split; [auto|]. rewrite Hb. split; intros (d & Hd & Hx); [exists d; split; [now right|auto]|].
    destruct Hd as [<- |Hd]; [lia|eauto].
Qed.

Lemma pdbs_app P q0 fuel t : forall pats pat dbs2, compute_pdbs P q0 fuel t (pats ++ [pat]) = Ok dbs2 ->
  exists dbs db, compute_pdbs P q0 fuel t pats = Ok dbs /\ compute_pdb P q0 fuel t pat [] = Ok db /\ dbs2 = dbs ++ [db].
Proof.
  induction pats as [|p pats IH]; intros pat dbs2 E; cbn [app compute_pdbs] in E.
  - apply bind_ok in E as (db & E1 & E). cbn [compute_pdbs bind] in E. injection E as <-. exists [], db. auto.
  - apply bind_ok in E as (d & E1 & E). apply bind_ok in E as (ds & E2 & E). injection E as <-. destruct (IH _ _ E2) as (dbs & db & A & B & ->). exists (d :: dbs), db. cbn [compute_pdbs]. rewrite E1. cbn [bind]. rewrite A. auto.
Qed.

Lemma ksum_app ns h K : (forall i, In i K -> i < length ns) -> ksum (ns ++ [h]) K = ksum ns K.
Proof. intros H. unfold ksum. f_equal. apply map_ext_in. intros i Hi. apply app_nth1. auto. Qed.

(** With exact databases of the patterns, let [v] be the value of the canonical heuristic for a state and [v']
    its value with one more pattern.  If [v] is finite, the test says yes iff [v'] is larger (or infinite).
    If [v] is infinite already, it says yes iff the new pattern alone detects the dead end. *)
Theorem C80_improvement P bag q0 t pats pat :
  pq_contract P bag -> bag q0 = [] -> plain_task t -> Forall (pattern_ok t) (pats ++ [pat]) -> Forall (fun p => pattern_size t p <= MAX_STATES)%Z (pats ++ [pat]) ->
  exists f0, forall fuel, f0 <= fuel -> exists m dbs cliques db dbs' cliques' cs,
    compute_additive_vars t = Ok m /\ canonical_databases P q0 fuel t pats None = Ok (dbs, cliques) /\ compute_pdb P q0 fuel t pat [] = Ok db /\
    canonical_databases P q0 fuel t (pats ++ [pat]) None = Ok (dbs', cliques') /\ cliques_with_pattern m pats cliques pat = Ok cs /\
    forall s, state_ok t s -> exists v v' b, canonical_value dbs cliques s = Ok v /\ canonical_value dbs' cliques' s = Ok v' /\ heuristic_improved db s v dbs cs = Ok b /\
      match v with
      | Some h => b = true <-> v' = None \/ exists h', v' = Some h' /\ h < h'
      | None => b = true <-> pdb_value db s = Ok None
      end.
Proof.
  intros HP Hq Ht Hp Hs.
  assert (Hf : Forall (fits t) (pats ++ [pat])). { eapply Forall_impl; [|exact Hs]. intros p H. unfold fits. rewrite <- size_fits. exact H. }
  assert (Hlt : forall p v, In p (pats ++ [pat]) -> In v p -> v < length (t_vars t)) by (intros p v Hi Hv; rewrite Forall_forall in Hp; exact (proj2 (Hp p Hi) v Hv)).
  destruct (compute_pdbs_ok P bag q0 t HP Hq Ht (pats ++ [pat]) Hp Hf) as [f0 HA]. exists f0. intros fuel Hfu. destruct (HA fuel Hfu) as (dbs2 & Ed2 & Hd2).
  destruct (pdbs_app _ _ _ _ _ _ _ Ed2) as (dbs & db & Ed & Edb & ->).
  destruct (pattern_cliques_ok t Ht pats) as (m & cs1 & Em & Ec1 & Hadd1 & Hmax1); [intros p v Hi; apply Hlt, in_or_app; auto|].
  destruct (pattern_cliques_ok t Ht (pats ++ [pat]) Hlt) as (m' & cs2 & Em' & Ec2 & Hadd2 & Hmax2). assert (m' = m) as -> by congruence.
  destruct (additive_vars_ok t Ht) as (m' & Em2 & Hsq & Hm). assert (m' = m) as -> by congruence.
  set (f := fun i => match are_patterns_additive m pat (nth i pats []) with Ok x => x | _ => false end).
  assert (Hfi : forall i, i < length pats -> are_patterns_additive m pat (nth i pats []) = Ok (f i) /\ (f i = true <-> additive t pat (nth i pats []))).
  { intros i Hi. destruct (coaffected_dec t m Hsq Hm pat (nth i pats [])) as (x & Ex & Hx).
    - intros v. apply Hlt, in_or_app. right. now left.
    - intros v. apply Hlt, in_or_app. left. now apply nth_In.
    - unfold f. rewrite Ex. auto. }
  destruct (with_pattern_ok t m pats cs1 pat f) as (cs & Ecs & C1 & C2); auto; [intros K i HK; now apply (Hadd1 K HK)|intros i Hi; now apply Hfi|].
  exists m, dbs, cs1, db, (dbs ++ [db]), cs2, cs. split; [auto|]. split; [unfold canonical_databases; rewrite Ed; cbn [bind]; rewrite Em; cbn [bind]; rewrite Ec1; reflexivity|]. split; [auto|].
  split; [unfold canonical_databases; rewrite Ed2; cbn [bind]; rewrite Em; cbn [bind]; rewrite Ec2; reflexivity|]. split; [auto|].
  intros s Hst. destruct (db_values t (pats ++ [pat]) (dbs ++ [db]) s Hd2 Hst) as (hs2 & Hper & Hval).
  assert (Hlen2 : length hs2 = length pats + 1) by (rewrite <- (F2_len _ _ _ Hper), app_length; reflexivity).
  apply Forall2_app_inv_l in Hval as (hs & hl & Hv1 & Hv2 & ->). inversion Hv2 as [|? h ? l0 Hh Hnil]; subst. inversion Hnil; subst. clear Hv2 Hnil.
  assert (Hl : length hs = length pats) by (rewrite app_length in Hlen2; cbn in Hlen2; lia).
  assert (Hval : Forall2 (fun db h => pdb_value db s = Ok h) (dbs ++ [db]) (hs ++ [h])) by (apply Forall2_app; auto).
  unfold heuristic_improved. rewrite Hh. cbn [bind].
  destruct (all_some hs) as [ns|] eqn:Eh.
  2: { assert (V1 : canonical_value dbs cs1 s = Ok None) by (unfold canonical_value; rewrite (pdb_values_ok _ _ _ Hv1), Eh; reflexivity).
       assert (V2 : canonical_value (dbs ++ [db]) cs2 s = Ok None).
       { unfold canonical_value. rewrite (pdb_values_ok _ _ _ Hval). rewrite (proj2 (all_some_none (hs ++ [h]))); [reflexivity|]. apply in_or_app. left. now apply all_some_none. }
       exists None, None, (match h with None => true | Some _ => false end). split; [auto|]. split; [auto|]. destruct h; (split; [reflexivity|split; [congruence|auto]]). congruence. }
  apply all_some_some in Eh. subst hs. rewrite map_length in Hl.
  destruct (can_max t pats dbs cs1 s ns Hadd1 Hmax1 Hv1 Hl) as (v & V1 & Vle & Vat). exists (Some v).
  destruct h as [hp|].
  2: { exists None, true. split; [auto|]. split; [|split; [auto|split; auto]]. unfold canonical_value. rewrite (pdb_values_ok _ _ _ Hval). rewrite (proj2 (all_some_none (map Some ns ++ [None]))); [reflexivity|]. apply in_or_app. right. now left. }
  assert (Hval' : Forall2 (fun db h => pdb_value db s = Ok h) (dbs ++ [db]) (map Some (ns ++ [hp]))) by (rewrite map_app; exact Hval).
  destruct (can_max t (pats ++ [pat]) (dbs ++ [db]) cs2 s (ns ++ [hp]) Hadd2 Hmax2 Hval') as (v2 & V2 & V2le & K & HK & EK); [rewrite !app_length; cbn; lia|].
  rewrite (pdb_values_ok _ _ _ Hv1), (proj2 (all_some_some _ ns) eq_refl). cbn [bind].
  destruct (any_better_ok ns hp v cs) as (b & Eb & Hb); [intros c i Hc Hi; rewrite Hl; now apply (C1 c Hc)|].
  exists (Some v2), b. split; [auto|]. split; [auto|]. split; [auto|]. rewrite Hb. split.
  - intros (c & Hc & Hlt'). right. exists v2. split; auto. destruct (C1 c Hc) as ((N & R & A) & Hadd).
    assert (X : additive_set t (pats ++ [pat]) (length pats :: c)).
    { split; [constructor; auto; intros X; specialize (R _ X); lia|]. split; [intros i [<- |Hi]; rewrite app_length; cbn [length]; [lia|specialize (R i Hi); lia]|].
      assert (Y : forall i p q, In i c -> nth_error (pats ++ [pat]) i = Some p -> nth_error (pats ++ [pat]) (length pats) = Some q -> additive t q p).
      { intros i p q Hi Ep Eq. pose proof (R i Hi) as Ri. rewrite nth_error_app1 in Ep by auto. rewrite nth_error_app2, Nat.sub_diag in Eq by auto. cbn in Eq. injection Eq as <-.
        rewrite <- (nth_error_nth pats i [] Ep). apply Hfi; auto. }
      intros i j p q [<- |Hi] [<- |Hj] Hne Ep Eq; [congruence|eapply Y; eauto|apply additive_sym; eapply Y; eauto|].
      rewrite nth_error_app1 in Ep, Eq by auto. exact (A i j p q Hi Hj Hne Ep Eq). }
    specialize (V2le _ X). unfold ksum in V2le at 1. cbn [map list_sum fold_right] in V2le. change (fold_right Nat.add 0) with list_sum in V2le. fold (ksum (ns ++ [hp]) c) in V2le.
    rewrite ksum_app in V2le by (intros i Hi; rewrite Hl; auto). rewrite app_nth2 in V2le by lia. rewrite Hl, Nat.sub_diag in V2le. cbn [nth] in V2le. lia.
  - intros [X|(h' & E & Hlt')]; [discriminate|]. injection E as <-. destruct HK as (N & R & A).
    set (K0 := filter (fun i => negb (i =? length pats)) K).
    assert (HK0 : forall i, In i K0 <-> In i K /\ i <> length pats) by (intros i; unfold K0; rewrite filter_In, negb_true_iff, Nat.eqb_neq; tauto).
    assert (R0 : forall i, In i K0 -> i < length pats) by (intros i Hi; apply HK0 in Hi as (Hi & Hne); specialize (R i Hi); rewrite app_length in R; cbn in R; lia).
    assert (A0 : additive_set t pats K0).
    { split; [now apply NoDup_filter|]. split; [auto|]. intros i j p q Hi Hj Hne Ep Eq. pose proof (R0 i Hi). pose proof (R0 j Hj). apply HK0 in Hi, Hj.
      apply (A i j); try tauto; rewrite nth_error_app1; auto. }
    destruct (in_dec Nat.eq_dec (length pats) K) as [Hin|Hin].
    + assert (Hall : forall i, In i K0 -> f i = true).
      { intros i Hi. pose proof (R0 i Hi) as Ri. apply Hfi; auto. apply HK0 in Hi as (Hi & Hne). apply (A (length pats) i); auto.
        - rewrite nth_error_app2, Nat.sub_diag by auto. reflexivity.
        - rewrite nth_error_app1 by auto. now apply nth_error_nth'. }
      destruct (C2 K0 A0 Hall) as (c & Hc & Hsub). exists c. split; [auto|]. pose proof (ksum_incl ns K0 c (proj1 A0) Hsub) as H1.
      assert (H2 : ksum (ns ++ [hp]) K <= ksum (ns ++ [hp]) (length pats :: K0)).
      { apply ksum_incl; auto. intros i Hi. destruct (Nat.eq_dec i (length pats)) as [-> |Hne]; [now left|right; apply HK0; auto]. }
      unfold ksum in H2 at 2. cbn [map list_sum fold_right] in H2. change (fold_right Nat.add 0) with list_sum in H2. fold (ksum (ns ++ [hp]) K0) in H2.
      rewrite (ksum_app ns hp K0) in H2 by (intros i Hi; rewrite Hl; auto). rewrite app_nth2 in H2 by lia. rewrite Hl, Nat.sub_diag in H2. cbn [nth] in H2. lia.
    + exfalso. assert (Hsub : forall i, In i K -> In i K0) by (intros i Hi; apply HK0; split; [auto|congruence]).
      pose proof (ksum_incl (ns ++ [hp]) K K0 N Hsub) as H1. rewrite (ksum_app ns hp K0) in H1 by (intros i Hi; rewrite Hl; auto). specialize (Vle K0 A0). lia.
Qed.
Print Assumptions C80_improvement.

(** In the task of C40: a pattern that is additive with the collection improves the heuristic; a part of
    a known pattern does not; a dead end is detected. *)
Definition improvement_run (pats : list (list nat)) (pat : list nat) (s : state) : outcome (option nat * option nat * bool) :=
  let* m := compute_additive_vars pdb_ex in
  let* (dbs, cliques) := canonical_databases list_pq [] 100 pdb_ex pats None in
  let* db := compute_pdb list_pq [] 100 pdb_ex pat [] in
  let* (dbs', cliques') := canonical_databases list_pq [] 100 pdb_ex (pats ++ [pat]) None in
  let* cs := cliques_with_pattern m pats cliques pat in
  let* v := canonical_value dbs cliques s in
  let* v' := canonical_value dbs' cliques' s in
  let* b := heuristic_improved db s v dbs cs in
  Ok (v, v', b).
Example C80_nonvacuous : plain_task pdb_ex /\ Forall (pattern_ok pdb_ex) ([[0; 1]] ++ [[2]]) /\ Forall (fun p => pattern_size pdb_ex p <= MAX_STATES)%Z ([[0; 1]] ++ [[2]]) /\
  improvement_run [[0; 1]] [2] [0; 0; 0] = Ok (Some 5, Some 6, true) /\ improvement_run [[0; 1]] [1] [0; 0; 0] = Ok (Some 5, Some 5, false) /\
  improvement_run [[1]; [2]] [0; 1] [0; 0; 0] = Ok (Some 4, Some 6, true) /\ improvement_run [[1]; [2]] [0; 1] [2; 0; 0] = Ok (Some 4, None, true) /\
  improvement_run [[0; 1]] [2] [2; 0; 0] = Ok (None, None, false).
Proof.
  split; [exact pdb_ex_plain|]. split; [constructor; [apply pattern_ok_ex; cbn; auto|constructor; [apply pattern_ok_ex; cbn; auto|constructor]]|]. split; [constructor; [vm_compute; discriminate|constructor; [vm_compute; discriminate|constructor]]|]. splits; vm_compute; reflexivity.
Qed.

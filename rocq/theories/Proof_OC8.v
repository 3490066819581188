(** Proofs about operator-counting constraints, part 8: what the rows of the Rankooh-Rintanen relaxation say. *)
From Coq Require Import QArith Lqa Permutation.
From Verif Require Import Outcome Spec_Task Spec_Relaxation Spec_Projection Spec_LP Spec_OperatorCounting Model_LPSolver Model_LMCut Model_PQ Model_OperatorCounting
  Proof_Task Proof_PerState2 Proof_OC1 Proof_OC2 Proof_OC4 Proof_OC5 Proof_OC6 Proof_OC7.
Local Open Scope nat_scope.

Lemma op_eff_pre_nodup t : plain_task t -> NoDup (op_eff_pre t).
Proof.
  intros Ht. unfold op_eff_pre. apply (concat_nodup _ (fun y : nat * fact * fact => fst (fst y))). intros i op Ho. cbn [fst snd]. split.
  - rewrite <- (map_map eff_fact (fun e => map (fun f => (i, e, f)) (op_pre op))). apply nodup_concat.
    + eapply effs_nodup; eauto.
    + intros e _. apply FinFun.Injective_map_NoDup; [intros x y E; now inv E|eapply pres_nodup; eauto].
    + intros e e' x Hx Hx'. apply in_map_iff in Hx, Hx'. destruct Hx as (f & <- & _), Hx' as (f' & E & _). now inv E.
  - intros y Hy. apply in_concat in Hy. destruct Hy as (l & Hl & Hy). apply in_map_iff in Hl. destruct Hl as (e & <- & _). apply in_map_iff in Hy. destruct Hy as (f & <- & _). reflexivity.
Qed.

Section RR.
Variable t : task.
Hypothesis Ht : plain_task t.
Variable (a : acyclicity) (int : bool).
Variables (edges : list (fact * fact)) (delta : list (fact * fact * fact)).
Hypothesis Hve : a = VertexElimination ->
  NoDup edges /\ (forall q p, In (q, p) edges -> is_fact t q /\ is_fact t p /\ q <> p) /\
  (forall o pre eff, In (o, pre, eff) (op_pre_eff t) -> pre <> eff /\ In (pre, eff) edges) /\
  (forall i j k, In (i, j, k) delta -> In (i, j) edges /\ In (j, k) edges /\ In (i, k) edges).

Definition tl_body (T : fact -> Q) (fa : fact -> nat -> Q) : Prop :=
  ((forall p, is_fact t p -> ranges int 1 (num_facts t) (T p)) /\
   (forall o op p q, is_op t o op -> In q (op_pre op) -> adds op p = true -> q <> p ->
      T q - T p + 1 <= num_facts t * (1 - fa p o)))%Q.
Definition ve_body (E : fact -> fact -> Q) (fa : fact -> nat -> Q) : Prop :=
  ((forall q p, In (q, p) edges -> ranges int 0 1 (E q p)) /\
   (forall o op p q, is_op t o op -> In q (op_pre op) -> adds op p = true -> fa p o <= E q p) /\
   (forall q p, In (q, p) edges -> In (p, q) edges -> E q p + E p q <= 1) /\
   (forall i j k, In (i, j, k) delta -> E i j + E j k - 1 <= E i k))%Q.
Definition ac_body (T : fact -> Q) (E : fact -> fact -> Q) (fa : fact -> nat -> Q) : Prop :=
  match a with VertexElimination => ve_body E fa | TimeLabels => tl_body T fa | NoAcyclicity => True end.

Lemma pe_iff o pre eff : In (o, pre, eff) (op_pre_eff t) <-> exists op, is_op t o op /\ In pre (op_pre op) /\ adds op eff = true.
Proof.
  rewrite in_op_pre_eff. split.
  - intros (op & e & Ho & He & Ee & Hp). exists op. splits; auto. apply adds_spec. eauto.
  - intros (op & Ho & Hp & Ha). apply adds_spec in Ha. destruct Ha as (e & He & Ee). eauto 8.
Qed.
Lemma adds_fact o op f : is_op t o op -> adds op f = true -> is_fact t f.
Proof. intros Ho Ha. apply adds_spec in Ha. destruct Ha as (e & He & <-). eapply eff_fact_ok; eauto. Qed.

Lemma rr_ext s x x' f f' fa fa' : (forall o op, is_op t o op -> (x o == x' o)%Q) -> (forall p, is_fact t p -> (f p == f' p)%Q) ->
  (forall o op p, is_op t o op -> adds op p = true -> (fa p o == fa' p o)%Q) -> relaxation_rr t int s x f fa -> relaxation_rr t int s x' f' fa'.
Proof.
  intros E1 E2 E3 (H1 & H2 & H3 & H4 & H5 & H6). unfold relaxation_rr. splits.
  - intros p Hp. eapply ranges_ext; [apply E2; auto|auto].
  - intros o op p Ho Ha. eapply ranges_ext; [eapply E3; eauto|eauto].
  - intros p Hp. rewrite <- (E2 p Hp), (H3 p Hp). apply Qplus_comp; [reflexivity|]. apply opsum_ext. intros o op Ho. destruct (adds op p) eqn:Ea; cbn [ind]; [|ring]. now rewrite (E3 o op p Ho Ea).
  - intros p q Hp Hq Hne. rewrite <- (E2 q Hq). rewrite <- (opsum_ext t (fun o op => ind (needs op q && adds op p) * fa p o)%Q); [auto|]. intros o op Ho. destruct (needs op q); cbn [andb ind]; [|ring]. destruct (adds op p) eqn:Ea; cbn [ind]; [|ring]. now rewrite (E3 o op p Ho Ea).
  - intros p Hp. rewrite <- (E2 p (goal_fact t Ht p Hp)). auto.
  - intros o op p Ho Ha. rewrite <- (E3 o op p Ho Ha), <- (E1 o op Ho). eauto.
Qed.
Lemma ac_ext T T' E E' fa fa' : (a = TimeLabels -> forall p, is_fact t p -> (T p == T' p)%Q) -> (a = VertexElimination -> forall q p, In (q, p) edges -> (E q p == E' q p)%Q) ->
  (forall o op p, is_op t o op -> adds op p = true -> (fa p o == fa' p o)%Q) -> ac_body T E fa -> ac_body T' E' fa'.
Proof.
  intros E1 E2 E3. unfold ac_body. case_eq a; intros Ea; [| |auto].
  - destruct (Hve Ea) as (V1 & V2 & V3 & V4). specialize (E2 Ea). intros (H1 & H2 & H3 & H4). unfold ve_body. splits.
    + intros q p Hi. eapply ranges_ext; [apply E2; auto|auto].
    + intros o op p q Ho Hq Ha. rewrite <- (E3 o op p Ho Ha), <- (E2 q p); [eauto|]. apply (V3 o q p). apply pe_iff. eauto.
    + intros q p Hi Hj. rewrite <- (E2 q p Hi), <- (E2 p q Hj). auto.
    + intros i j k Hd. destruct (V4 i j k Hd) as (K1 & K2 & K3). rewrite <- (E2 i j K1), <- (E2 j k K2), <- (E2 i k K3). auto.
  - specialize (E1 Ea). intros (H1 & H2). split.
    + intros p Hp. eapply ranges_ext; [apply E1; auto|auto].
    + intros o op p q Ho Hq Ha Hne. rewrite <- (E3 o op p Ho Ha), <- (E1 q), <- (E1 p); [eauto|eapply adds_fact; eauto|eapply pre_fact; eauto].
Qed.

Variable tb : table.
Hypothesis Htb : tb_keys tb = rr_all_keys t a edges.
Let id := idx tb.
Variable ks : list (fact * fact).
Hypothesis Hks : pairs3 (op_eff_pre t) ks.

Lemma kcon_lin y lo up kts ots : (lin y (c_terms (kcon id lo up kts ots)) == qsum (fun kq => snd kq * y (id (fst kq))) kts + lin y ots)%Q.
Proof. unfold kcon. cbn [con c_terms]. rewrite lin_app. apply Qplus_comp; [|reflexivity]. unfold lin. rewrite qsum_map. apply qsum_ext. intros kq _. cbn [fst snd]. reflexivity. Qed.
Lemma kcon_ok y lo up kts ots : con_ok y (kcon id lo up kts ots) <-> above lo (qsum (fun kq => snd kq * y (id (fst kq))) kts + lin y ots)%Q /\ below (qsum (fun kq => snd kq * y (id (fst kq))) kts + lin y ots)%Q up.
Proof.
  unfold con_ok. change (c_lo (kcon id lo up kts ots)) with lo. change (c_up (kcon id lo up kts ots)) with up. pose proof (kcon_lin y lo up kts ots) as E. destruct lo, up; cbn [above below]; rewrite ?E; tauto.
Qed.
Lemma sum2 y f : is_fact t f -> (qsum (fun kq => snd kq * y (id (fst kq))) (terms2 t f) == y (id (KReached f)) - opsum t (fun o op => ind (adds op f) * y (id (KFirst o f))))%Q.
Proof.
  intros Hf. unfold terms2. cbn [qsum fst snd]. rewrite qsum_map. cbn [fst snd]. pose proof (first_sum t Ht y f Hf (fun o => id (KFirst o f)) (-1)%Q) as E. unfold lin in E. rewrite qsum_map in E. cbn [fst snd] in E.
  rewrite E. ring.
Qed.
Lemma sum3 y pre eff : (qsum (fun kq => snd kq * y (id (fst kq))) (terms3 (op_eff_pre t) (pre, eff)) == y (id (KReached pre)) - opsum t (fun o op => ind (needs op pre && adds op eff) * y (id (KFirst o eff))))%Q.
Proof.
  unfold terms3. cbn [qsum fst snd]. rewrite qsum_map. cbn [fst snd].
  rewrite (qsum_scale (fun z : nat * fact * fact => y (id (KFirst (fst (fst z)) eff))) (-1)%Q).
  rewrite <- (qsum_map (fun o => y (id (KFirst o eff))) (fun z : nat * fact * fact => fst (fst z))).
  rewrite (opsum_select t (fun op => needs op pre && adds op eff) (fun o => y (id (KFirst o eff)))); [ring|apply filter_fst_nodup; now apply op_eff_pre_nodup|].
  intros o. rewrite in_map_iff. split.
  - intros ([[o' e] f] & <- & Hi). apply filter_In in Hi. destruct Hi as [Hi Hb]. cbn [fst snd] in *. apply andb_true_iff in Hb. destruct Hb as [H1 H2]. apply feqb_eq in H1, H2. subst e f. apply in_op_eff_pre in Hi. destruct Hi as (op & e & Ho & He & Ee & Hp).
    exists op. split; auto. apply andb_true_iff. split; [now apply needs_spec|apply adds_spec; eauto].
  - intros (op & Ho & Hb). apply andb_true_iff in Hb. destruct Hb as [Hn Ha]. apply needs_spec in Hn. apply adds_spec in Ha. destruct Ha as (e & He & Ee). exists (o, eff, pre). split; auto. apply filter_In. cbn [fst snd]. rewrite !feqb_refl. split; auto. apply in_op_eff_pre. eauto 8.
Qed.

Lemma rr_rows_iff (lo : fact -> bool) (y : nat -> Q) s : (forall f, lo f = in_state s f) ->
  (vars_ok (tb_base tb) (map (raised (rr_var t int) (t_goal t)) (tb_keys tb)) y /\
   forall r, In r (rr_rows t a edges delta id (fun f => if lo f then 1%Q else 0%Q) ks) -> con_ok y r) <->
  relaxation_rr t int s y (fun f => y (id (KReached f))) (fun f o => y (id (KFirst o f))) /\
  ac_body (fun f => y (id (KFactTime f))) (fun q p => y (id (KEdge q p))) (fun f o => y (id (KFirst o f))).
Proof.
  intros Hlo. rewrite vars_ok_keys by (rewrite Htb; eapply rr_keys_nodup; eauto). rewrite Htb.
  assert (HNF : (qn (length (all_facts t)) == num_facts t)%Q) by (rewrite length_all_facts; reflexivity).
  split.
  - intros [HV HR].
    assert (HK : forall k, rr_key t a edges k -> var_ok (y (id k)) (raised (rr_var t int) (t_goal t) k)) by (intros k Hk; apply HV; now apply rr_keys_in).
    assert (HKR : forall f, is_fact t f -> ranges int 0 1 (y (id (KReached f))) /\ (In f (t_goal t) -> (1 <= y (id (KReached f)))%Q)) by (intros f Hf; apply (var_ok_raised int (rr_var t int) (t_goal t) _ f eq_refl); now apply (HK (KReached f))).
    assert (HKF : forall o op f, is_op t o op -> adds op f = true -> ranges int 0 1 (y (id (KFirst o f)))) by (intros o op f Ho Ha; apply (HK (KFirst o f)); exists op; auto).
    unfold rr_rows in HR. split.
    + unfold relaxation_rr. splits; auto.
      * intros f Hf. now apply HKR.
      * intros f Hf. specialize (HR (kcon id (Some (if lo f then 1%Q else 0%Q)) (Some (if lo f then 1%Q else 0%Q)) (terms2 t f) [])). rewrite kcon_ok in HR. cbn [above below] in HR. destruct HR as [H1 H2].
        { apply in_or_app. left. apply in_map_iff. exists f. split; auto. now apply in_facts. }
        rewrite (sum2 y f Hf) in H1, H2. rewrite (Hlo f) in H1, H2. unfold lin in H1, H2. cbn [qsum] in H1, H2. destruct (in_state s f); cbn [ind]; lra.
      * intros p q Hp Hq Hne. destruct (in_dec (fun x y : fact * fact => ltac:(repeat decide equality) : {x = y} + {x <> y}) (q, p) ks) as [Hi|Hi].
        -- assert (HC : con_ok y (row3 id (op_eff_pre t) (q, p))) by (apply HR; apply in_or_app; right; apply in_or_app; left; apply in_or_app; left; apply in_map_iff; eauto).
           unfold row3 in HC. rewrite kcon_ok in HC. cbn [above below] in HC. destruct HC as [H1 H2].
           rewrite (sum3 y q p) in H1. unfold lin in H1. cbn [qsum] in H1. lra.
        -- destruct (HKR q Hq) as [[H0 _] _]. assert (E : (opsum t (fun o op => ind (needs op q && adds op p) * y (id (KFirst o p))) == 0)%Q); [|rewrite E; auto].
           unfold opsum. apply qsum_zero. intros [o op] Ho. cbn [fst snd]. apply numbered_in in Ho. destruct (needs op q && adds op p) eqn:Eb; cbn [ind]; [|ring]. exfalso. apply Hi. apply Hks. split; [congruence|]. exists o.
           apply andb_true_iff in Eb. destruct Eb as [Hn Ha]. apply needs_spec in Hn. apply adds_spec in Ha. destruct Ha as (e & He & Ee). apply in_op_eff_pre. eauto 8.
      * intros f Hf. apply HKR; auto. now apply goal_fact.
      * intros o op f Ho Ha. specialize (HR (kcon id (Some 0%Q) None [(KFirst o f, (-1)%Q)] [(o, 1%Q)])). rewrite kcon_ok in HR. destruct HR as [H1 _].
        { apply in_or_app. right. apply in_or_app. left. apply in_or_app. right. unfold rows5. apply in_map_iff. exists (o, f). split; auto. apply in_effs. eauto. }
        unfold lin in H1. cbn [above qsum fst snd] in H1. lra.
    + assert (HX : forall r, In r (extra_rows t a edges delta id) -> con_ok y r) by (intros r Hr; apply HR; apply in_or_app; right; apply in_or_app; now right). clear HR. unfold extra_rows in HX. unfold ac_body. revert HX. case_eq a; intros Ea HX; [| |auto].
      * destruct (Hve Ea) as (V1 & V2 & V3 & V4). unfold ve_body. splits.
        -- intros q p Hi. apply (HK (KEdge q p)). split; auto.
        -- intros o op p q Ho Hq Ha. specialize (HX (kcon id (Some 0%Q) None [(KEdge q p, 1%Q); (KFirst o p, (-1)%Q)] [])). rewrite kcon_ok in HX. destruct HX as [H1 _].
           { rewrite !in_app_iff. left. apply in_map_iff. exists (o, q, p). split; auto. apply pe_iff. eauto. }
           unfold lin in H1. cbn [above qsum fst snd] in H1. lra.
        -- intros q p Hi Hj. specialize (HX (kcon id None (Some 1%Q) [(KEdge q p, 1%Q); (KEdge p q, 1%Q)] [])). rewrite kcon_ok in HX. destruct HX as [_ H1].
           { rewrite !in_app_iff. right. left. apply in_map_iff. exists (q, p). split; auto. apply filter_In. split; auto. cbn [fst snd]. apply existsb_exists. exists (p, q). split; auto. now apply pair_eqb_eq. }
           unfold lin in H1. cbn [below qsum fst snd] in H1. lra.
        -- intros i j k Hd. specialize (HX (kcon id None (Some 1%Q) [(KEdge i j, 1%Q); (KEdge j k, 1%Q); (KEdge i k, (-1)%Q)] [])). rewrite kcon_ok in HX. destruct HX as [_ H1].
           { rewrite !in_app_iff. right. right. apply in_map_iff. exists (i, j, k). split; auto. }
           unfold lin in H1. cbn [below qsum fst snd] in H1. lra.
      * unfold tl_body. split.
        -- intros p Hp. assert (K := HK (KFactTime p) (conj Ea Hp)). cbn [raised rr_var] in K. apply var_ok_aux in K. destruct K as (K1 & K2 & K3). unfold ranges. splits; auto. now rewrite <- HNF.
        -- intros o op p q Ho Hq Ha Hne. specialize (HX (kcon id None (Some (qn (length (all_facts t)) - 1)%Q) [(KFactTime q, 1%Q); (KFactTime p, (-1)%Q); (KFirst o p, qn (length (all_facts t)))] [])). rewrite kcon_ok in HX. destruct HX as [_ H1].
           { apply in_map_iff. exists (o, q, p). split; auto. apply filter_In. split; [apply pe_iff; eauto|]. cbn [fst snd]. destruct (feqb q p) eqn:Ef; auto. apply feqb_eq in Ef. congruence. }
           unfold lin in H1. cbn [below qsum fst snd] in H1. rewrite HNF in H1. lra.
  - intros [(H1 & H2 & H3 & H4 & H5 & H6) HA]. split.
    + intros k Hk. apply rr_keys_in in Hk. destruct k as [o|f|o f|o|f|q p]; cbn [rr_key] in Hk; try (destruct Hk; fail).
      * apply (var_ok_raised int (rr_var t int) (t_goal t) _ f eq_refl). auto.
      * destruct Hk as (op & Ho & Ha). exact (H2 o op f Ho Ha).
      * destruct Hk as [Ea Hf]. unfold ac_body in HA. rewrite Ea in HA. destruct HA as [K1 _]. destruct (K1 f Hf) as (L1 & L2 & L3). cbn [raised rr_var]. apply var_ok_aux. unfold ranges. splits; auto. now rewrite HNF.
      * destruct Hk as [Ea Hi]. unfold ac_body in HA. rewrite Ea in HA. destruct HA as [K1 _]. exact (K1 q p Hi).
    + intros r Hr. unfold rr_rows in Hr. rewrite !in_app_iff in Hr. destruct Hr as [Hr|[[Hr|Hr]|Hr]].
      * apply in_map_iff in Hr. destruct Hr as (f & <- & Hf). apply in_facts in Hf. apply kcon_ok. cbn [above below]. unfold lin. cbn [qsum]. rewrite (sum2 y f Hf), (Hlo f). specialize (H3 f Hf). destruct (in_state s f); cbn [ind] in H3; lra.
      * apply in_map_iff in Hr. destruct Hr as ([pre eff] & <- & Hi). apply Hks in Hi. destruct Hi as (Hne & o & Hi). apply in_op_eff_pre in Hi. destruct Hi as (op & e & Ho & He & Ee & Hp).
        assert (Hpf : is_fact t pre) by (eapply pre_fact; eauto). assert (Hef : is_fact t eff) by (subst eff; eapply eff_fact_ok; eauto).
        apply kcon_ok. cbn [above below]. unfold lin. cbn [qsum]. rewrite (sum3 y pre eff). assert (Hne' : eff <> pre) by congruence. pose proof (H4 eff pre Hef Hpf Hne') as L. destruct (H1 pre Hpf) as (L1 & L2 & _).
        assert (0 <= opsum t (fun o op => ind (needs op pre && adds op eff) * y (id (KFirst o eff))))%Q; [|lra].
        apply opsum_nonneg. intros o' op' Ho'. destruct (needs op' pre); cbn [andb ind]; [|lra]. destruct (adds op' eff) eqn:Ea; cbn [ind]; [|lra]. destruct (H2 o' op' eff Ho' Ea) as (L3 & _). lra.
      * unfold rows5 in Hr. apply in_map_iff in Hr. destruct Hr as ([o f] & <- & Hi). apply in_effs in Hi. destruct Hi as (op & Ho & Ha). cbn [fst snd]. apply kcon_ok. split; [|exact Logic.I]. unfold lin. cbn [above qsum fst snd]. specialize (H6 o op f Ho Ha). lra.
      * unfold ac_body in HA. unfold extra_rows in Hr. revert HA Hr. case_eq a; intros Ea HA Hr; [| |destruct Hr].
        -- destruct (Hve Ea) as (V1 & V2 & V3 & V4). destruct HA as (K1 & K2 & K3 & K4). rewrite !in_app_iff in Hr. destruct Hr as [Hr|[Hr|Hr]]; apply in_map_iff in Hr.
           ++ destruct Hr as ([[o q] p] & <- & Hi). cbn [fst snd]. apply pe_iff in Hi. destruct Hi as (op & Ho & Hq & Ha). apply kcon_ok. split; [|exact Logic.I]. unfold lin. cbn [above qsum fst snd]. specialize (K2 o op p q Ho Hq Ha). lra.
           ++ destruct Hr as ([q p] & <- & Hi). cbn [fst snd]. apply filter_In in Hi. destruct Hi as [Hi Hj]. cbn [fst snd] in Hj. apply existsb_exists in Hj. destruct Hj as (e & Hj & Ee). apply pair_eqb_eq in Ee. subst e. apply kcon_ok. split; [exact Logic.I|]. unfold lin. cbn [below qsum fst snd]. specialize (K3 q p Hi Hj). lra.
           ++ destruct Hr as ([[i j] k] & <- & Hi). cbn [fst snd]. apply kcon_ok. split; [exact Logic.I|]. unfold lin. cbn [below qsum fst snd]. specialize (K4 i j k Hi). lra.
        -- destruct HA as (K1 & K2). apply in_map_iff in Hr. destruct Hr as ([[o q] p] & <- & Hi). cbn [fst snd]. apply filter_In in Hi. destruct Hi as [Hi Hne]. cbn [fst snd] in Hne. apply pe_iff in Hi. destruct Hi as (op & Ho & Hq & Ha).
           assert (Hqp : q <> p) by (intros ->; rewrite feqb_refl in Hne; discriminate). apply kcon_ok. split; [exact Logic.I|]. unfold lin. cbn [below qsum fst snd]. specialize (K2 o op p q Ho Hq Ha Hqp). rewrite HNF. lra.
Qed.

(** Well-formedness. *)
Lemma kcon_wf lo up kts ots : length (t_ops t) <= tb_base tb -> (forall k q, In (k, q) kts -> rr_key t a edges k) -> NoDup (map fst kts) -> NoDup (map fst ots) -> (forall o q, In (o, q) ots -> o < length (t_ops t)) ->
  let r := kcon id lo up kts ots in NoDup (map fst (c_terms r)) /\ forall i q, In (i, q) (c_terms r) -> i < length (t_ops t) \/ tb_base tb <= i < tb_base tb + length (tb_keys tb).
Proof.
  intros Hb Hk Hn Ho Hol r. unfold r, kcon. cbn [con c_terms].
  assert (HK : forall k, rr_key t a edges k -> In k (tb_keys tb)) by (intros k H; rewrite Htb; now apply rr_keys_in). split.
  - rewrite map_app, map_map. cbn [fst]. apply nodup_app; auto.
    + clear Ho Hol. induction kts as [|[k q] r' IH]; cbn [map fst] in *; [constructor|]. inv Hn. constructor; [|apply IH; auto; intros; eapply Hk; right; eauto].
      intros Hi. apply in_map_iff in Hi. destruct Hi as ([k' q'] & E & Hi). cbn [fst] in E. apply H1. apply in_map_iff. exists (k', q'). split; auto. cbn [fst]. eapply idx_inj; eauto; apply HK; [eapply Hk; right; eauto|eapply Hk; left; eauto].
    + intros i Hi Hi'. apply in_map_iff in Hi, Hi'. destruct Hi as ([k q] & <- & Hi). destruct Hi' as ([o q'] & E & Hi'). cbn [fst] in E. specialize (Hol o q' Hi'). pose proof (idx_range tb k (HK k (Hk k q Hi))). unfold id in E. lia.
  - intros i q Hi. apply in_app_or in Hi. destruct Hi as [Hi|Hi]; [|left; eauto]. right. apply in_map_iff in Hi. destruct Hi as ([k q'] & E & Hi). cbn [fst snd] in E. inv E. apply idx_range, HK. eauto.
Qed.
Lemma rr_wf (lo : fact -> Q) r : length (t_ops t) <= tb_base tb -> In r (rr_rows t a edges delta id lo ks) ->
  NoDup (map fst (c_terms r)) /\ forall i q, In (i, q) (c_terms r) -> i < length (t_ops t) \/ tb_base tb <= i < tb_base tb + length (tb_keys tb).
Proof.
  intros Hb Hr. assert (N1 : NoDup (@nil nat)) by constructor. assert (N2 : forall k : key, NoDup [k]) by (intros k; constructor; [intros []|constructor]).
  unfold rr_rows in Hr. rewrite !in_app_iff in Hr. destruct Hr as [Hr|[[Hr|Hr]|Hr]].
  - apply in_map_iff in Hr. destruct Hr as (f & <- & Hf). apply in_facts in Hf. apply kcon_wf; auto; [| |intros o q []].
    + intros k q Hi. unfold terms2 in Hi. destruct Hi as [E|Hi]; [inv E; exact Hf|]. apply in_map_iff in Hi. destruct Hi as ([o g] & E & Hi). cbn [fst] in E. inv E. apply filter_In in Hi. destruct Hi as [Hi Eg]. cbn [snd] in Eg. apply feqb_eq in Eg. subst g. now apply in_effs.
    + unfold terms2. cbn [map fst]. rewrite map_map. cbn [fst]. constructor; [intros Hi; apply in_map_iff in Hi; destruct Hi as (z & E & _); discriminate|].
      assert (Hn : NoDup (filter (fun of : nat * fact => feqb (snd of) f) (op_effects t))) by now apply NoDup_filter, op_effects_nodup.
      assert (Hs : forall of, In of (filter (fun of : nat * fact => feqb (snd of) f) (op_effects t)) -> snd of = f) by (intros of H; apply filter_In in H; now apply feqb_eq).
      revert Hn Hs. generalize (filter (fun of : nat * fact => feqb (snd of) f) (op_effects t)). clear. induction l as [|[o g] r IH]; intros Hn Hs; cbn [map fst]; [constructor|]. inv Hn. constructor; [|apply IH; auto; intros; apply Hs; now right].
      intros Hi. apply in_map_iff in Hi. destruct Hi as ([o' g'] & E & Hi). cbn [fst] in E. inv E. apply H1. pose proof (Hs _ (or_introl eq_refl)). pose proof (Hs _ (or_intror Hi)). cbn [snd] in *. now subst.
  - apply in_map_iff in Hr. destruct Hr as ([pre eff] & <- & Hi). apply Hks in Hi. destruct Hi as (Hne & o & Hi). apply in_op_eff_pre in Hi. destruct Hi as (op & e & Ho & He & Ee & Hp).
    apply kcon_wf; auto; [| |intros o' q []].
    + intros k q Hi. unfold terms3 in Hi. cbn [fst snd] in Hi. destruct Hi as [E|Hi]; [inv E; cbn [rr_key]; eapply pre_fact; eauto|]. apply in_map_iff in Hi. destruct Hi as ([[o' e'] f'] & E & Hi). cbn [fst] in E. inv E. apply filter_In in Hi. destruct Hi as [Hi Eb]. cbn [fst snd] in Eb. apply andb_true_iff in Eb. destruct Eb as [E1 E2]. apply feqb_eq in E1, E2. subst e' f'.
      apply in_op_eff_pre in Hi. destruct Hi as (op' & e' & Ho' & He' & Ee' & Hp'). exists op'. split; auto. apply adds_spec. eauto.
    + unfold terms3. cbn [map fst snd]. rewrite map_map. cbn [fst]. constructor; [intros Hi; apply in_map_iff in Hi; destruct Hi as (z & E & _); discriminate|].
      rewrite <- (map_map (fun y : nat * fact * fact => fst (fst y)) (fun o => KFirst o eff)). apply FinFun.Injective_map_NoDup; [intros x y E; now inv E|]. apply filter_fst_nodup. now apply op_eff_pre_nodup.
  - unfold rows5 in Hr. apply in_map_iff in Hr. destruct Hr as ([o f] & <- & Hi). apply in_effs in Hi. destruct Hi as (op & Ho & Ha). cbn [fst snd]. apply kcon_wf; auto; cbn [map fst]; auto.
    + intros k q [E|[]]. inv E. exists op. auto.
    + constructor; [intros []|constructor].
    + intros o' q [E|[]]. inv E. eapply nth_error_Some_lt; eauto.
  - unfold extra_rows in Hr. revert Hr. case_eq a; intros Ea Hr; [| |destruct Hr].
    + destruct (Hve Ea) as (V1 & V2 & V3 & V4). rewrite !in_app_iff in Hr. destruct Hr as [Hr|[Hr|Hr]]; apply in_map_iff in Hr.
      * destruct Hr as ([[o q] p] & <- & Hi). cbn [fst snd]. pose proof (V3 o q p Hi) as [_ Hed]. apply pe_iff in Hi. destruct Hi as (op & Ho & Hq & Ha). apply kcon_wf; auto; cbn [map fst]; [| |intros o' q' []].
        -- intros k c [E|[E|[]]]; inv E; cbn [rr_key]; eauto.
        -- constructor; [intros [E|[]]; discriminate|auto].
      * destruct Hr as ([q p] & <- & Hi). cbn [fst snd]. apply filter_In in Hi. destruct Hi as [Hi Hj]. cbn [fst snd] in Hj. apply existsb_exists in Hj. destruct Hj as (e & Hj & Ee). apply pair_eqb_eq in Ee. subst e. destruct (V2 q p Hi) as (_ & _ & Hne). apply kcon_wf; auto; cbn [map fst]; [| |intros o' q' []].
        -- intros k c [E|[E|[]]]; inv E; cbn [rr_key]; eauto.
        -- constructor; [intros [E|[]]; inv E; congruence|auto].
      * destruct Hr as ([[i j] k] & <- & Hi). cbn [fst snd]. destruct (V4 i j k Hi) as (K1 & K2 & K3). destruct (V2 i j K1) as (_ & _ & N3). destruct (V2 j k K2) as (_ & _ & N4). destruct (V2 i k K3) as (_ & _ & N5). apply kcon_wf; auto; cbn [map fst]; [| |intros o' q' []].
        -- intros k' c [E|[E|[E|[]]]]; inv E; cbn [rr_key]; eauto.
        -- constructor; [intros [E|[E|[]]]; inv E; congruence|]. constructor; [intros [E|[]]; inv E; congruence|auto].
    + apply in_map_iff in Hr. destruct Hr as ([[o q] p] & <- & Hi). cbn [fst snd]. apply filter_In in Hi. destruct Hi as [Hi Hne]. cbn [fst snd] in Hne. pose proof (pe_in t Ht o q p Hi) as (Hq & Hp & op & Ho & Ha & _).
      assert (Hqp : q <> p) by (intros ->; rewrite feqb_refl in Hne; discriminate). apply kcon_wf; auto; cbn [map fst]; [| |intros o' q' []].
      * intros k c [E|[E|[E|[]]]]; inv E; cbn [rr_key]; eauto.
      * constructor; [intros [E|[E|[]]]; inv E; congruence|]. constructor; [intros [E|[]]; discriminate|auto].
Qed.
End RR.

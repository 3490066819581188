(** Proofs about operator-counting constraints, part 11: the contract of the generators. *)
From Coq Require Import QArith Lqa Permutation.
From Verif Require Import Outcome Spec_Task Spec_Relaxation Spec_Projection Spec_LP Spec_OperatorCounting Model_PQ Model_PDB Model_PatternCollections Model_LPSolver Model_LMCut Model_OperatorCounting Spec_Generators
  Proof_Task Proof_PDB1 Proof_Additive Proof_Collections Prop_PDB Prop_LMCut Proof_OC1 Proof_OC2 Proof_OC3 Proof_OC4 Proof_OC5 Proof_OC6 Proof_OC7 Proof_OC8 Proof_OC9 Proof_OC10.
Local Open Scope nat_scope.

Definition rows_ok (rs : list lpcon) (y : nat -> Q) : Prop := forall r, In r rs -> con_ok y r.
Lemma rows_ok_app a b y : rows_ok (a ++ b) y <-> rows_ok a y /\ rows_ok b y.
Proof. unfold rows_ok. split; [intros H; split; intros; apply H; apply in_or_app; auto|intros [H1 H2] r Hr; apply in_app_or in Hr; destruct Hr; auto]. Qed.
Definition rows_wf (n b m : nat) (rs : list lpcon) : Prop := forall r, In r rs -> NoDup (map fst (c_terms r)) /\ forall i a, In (i, a) (c_terms r) -> i < n \/ b <= i < b + m.
Lemma nodup_app_l {A} (a b : list A) : NoDup (a ++ b) -> NoDup a.
Proof. induction a as [|x a IH]; cbn [app]; intros H; [constructor|]. inv H. constructor; auto. intros Hi. apply H2. apply in_or_app. auto. Qed.
Definition is_lm (g : generator) : bool := match g with GLmCut => true | _ => false end.

Section G.
Variable t : task.
Hypothesis Ht : plain_task t.
Hypothesis Hg : NoDup (map fst (t_goal t)).
Variables (P : pqueue) (bag : PQ P -> list (nat * nat)) (qe : PQ P).
Hypothesis HP : pq_contract P bag.
Hypothesis Hqe : bag qe = [].
Let n := length (t_ops t).

Definition gen_ok (g : generator) : Prop :=
  match g with
  | GStateEquation => no_noop_effects t
  | GPosthoc pats => Forall (pattern_ok t) pats /\ Forall (fits t) pats
  | GRelaxRR VertexElimination _ => no_noop_effects t
  | _ => True
  end.
Lemma lmcut_ok : lmcut_task t.
Proof.
  pose proof (plain_no_derived t Ht) as Hnd. destruct Ht as (H1 & H2 & H3 & H4). unfold lmcut_task. splits; auto.
  - destruct H1 as (_ & Hops & Hr & _ & Hgo). unfold relax_ok. splits; auto.
    + intros op Hop. rewrite Forall_forall in Hops. destruct (Hops op Hop) as [Hpre He]. split; auto. intros e Hei. rewrite Forall_forall in He. destruct (He e Hei) as (Hc & Hf & _). auto.
    + intros r Hri. rewrite H2 in Hri. destruct Hri.
  - intros op e Ho He. destruct (H4 op Ho) as (Hc & _). auto.
  - intros op Ho. destruct (H4 op Ho) as (_ & Hn & _). eapply NoDup_map_inv; eauto.
  - eapply NoDup_map_inv; eauto.
Qed.

Definition if_row (tb : table) (last : list fact) (f : fact) : lpcon := con (Some (if existsb (feqb f) last then (-1)%Q else 0%Q)) None (if_terms t tb f).
Definition rr_lo (last : list fact) (f : fact) : Q := if existsb (feqb f) last then 1%Q else 0%Q.
Definition rr_ve (a : acyclicity) (edges : list (fact * fact)) (delta : list (fact * fact * fact)) : Prop :=
  a = VertexElimination -> vertex_elimination t edges delta /\ forall o pre eff, In (o, pre, eff) (op_pre_eff t) -> pre <> eff /\ In (pre, eff) edges.
Definition gen_inv (g : generator) (gs : gstate) (b : nat) (nv : list lpvar) (c : nat) (nr : list lpcon) : Prop :=
  match g with
  | GStateEquation => nv = [] /\ se_inv t gs c nr
  | GLmCut => gs = SLmCut /\ nv = [] /\ nr = []
  | GPosthoc pats => nv = [] /\ exists dbs, gs = SPosthoc dbs c /\ Forall2 (fun db p => db_good t db (p, task_costs t)) dbs pats /\
      exists lo, length lo = length pats /\ nr = map (fun pl => con (Some (snd pl)) None (c_terms (pho_constraint t (fst pl)))) (combine pats lo)
  | GRelaxIF time int => exists last, gs = SRelaxIF c last /\ (forall f, In f last -> is_fact t f) /\
      nv = map (raised (if_var t int) (t_goal t)) (if_keys t time) /\
      let tb := {| tb_base := b; tb_keys := if_keys t time |} in nr = map (if_row tb last) (all_facts t) ++ if_rest t time tb
  | GRelaxRR a int => exists last edges delta ks, gs = SRelaxRR c last /\ (forall f, In f last -> is_fact t f) /\ rr_ve a edges delta /\ pairs3 (op_eff_pre t) ks /\
      nv = map (raised (rr_var t int) (t_goal t)) (rr_all_keys t a edges) /\
      nr = rr_rows t a edges delta (idx {| tb_base := b; tb_keys := rr_all_keys t a edges |}) (rr_lo last) ks
  end.
Lemma rr_ve_hve a edges delta : rr_ve a edges delta -> a = VertexElimination -> NoDup edges /\ (forall q p, In (q, p) edges -> is_fact t q /\ is_fact t p /\ q <> p) /\
  (forall o pre eff, In (o, pre, eff) (op_pre_eff t) -> pre <> eff /\ In (pre, eff) edges) /\ (forall i j k, In (i, j, k) delta -> In (i, j) edges /\ In (j, k) edges /\ In (i, k) edges).
Proof. intros H Ha. destruct (H Ha) as [(order & _ & _ & H1 & H2 & _ & H3 & _) H4]. auto. Qed.

(** ** The vertex elimination graph in terms of facts *)
Lemma omap_total {A B} (f : A -> outcome B) (R : A -> B -> Prop) l : (forall a, In a l -> exists b, f a = Ok b /\ R a b) -> exists l', omap f l = Ok l' /\ Forall2 R l l'.
Proof.
  induction l as [|a r IH]; intros H; cbn [omap]; [eexists; eauto|]. destruct (H a (or_introl eq_refl)) as (b & Hb & HR). destruct IH as (l' & E & HF); [intros; apply H; now right|]. rewrite Hb, E. cbn [bind]. eexists. split; [reflexivity|]. now constructor.
Qed.
Lemma forall2_in_l {A B} (R : A -> B -> Prop) l l' a : Forall2 R l l' -> In a l -> exists b, In b l' /\ R a b.
Proof. induction 1 as [|x y r r' H _ IH]; intros Hi; [destruct Hi|]. destruct Hi as [->|Hi]; [exists y; split; auto; now left|]. destruct (IH Hi) as (b & Hb & HR). exists b. split; auto. now right. Qed.
Lemma forall2_in_r {A B} (R : A -> B -> Prop) l l' b : Forall2 R l l' -> In b l' -> exists a, In a l /\ R a b.
Proof. induction 1 as [|x y r r' H _ IH]; intros Hi; [destruct Hi|]. destruct Hi as [->|Hi]; [exists x; split; auto; now left|]. destruct (IH Hi) as (a & Ha & HR). exists a. split; auto. now right. Qed.
Lemma pe_fact o pre eff : In (o, pre, eff) (op_pre_eff t) -> is_fact t pre /\ is_fact t eff.
Proof. intros H. apply (pe_iff t) in H. destruct H as (op & Ho & Hp & Ha). split; [eapply pre_fact; eauto|]. apply adds_spec in Ha. destruct Ha as (e & He & <-). eapply eff_fact_ok; eauto. Qed.
Lemma ve_graph_facts : no_noop_effects t -> exists g edges delta,
  ve_graph P qe t = Ok g /\
  omap (fun e => let* f := nth_fact t (fst e) in let* f' := nth_fact t (snd e) in Ok (f, f')) (ve_edges P g) = Ok edges /\
  omap (fun d => let* f := nth_fact t (fst (fst d)) in let* f' := nth_fact t (snd (fst d)) in let* f'' := nth_fact t (snd d) in Ok (f, f', f'')) (ve_delta P g) = Ok delta /\
  forall a, rr_ve a edges delta.
Proof.
  intros Hno. destruct (ve_graph_ok P bag qe t HP Hqe pe_fact) as (g & el & Eg & HV & Hel & Hpe). set (fs := all_facts t) in *.
  assert (Hnd : NoDup fs) by apply all_facts_nodup.
  assert (Hinj : forall a a' f, nth_error fs a = Some f -> nth_error fs a' = Some f -> a = a') by (intros a a' f H1 H2; apply (proj1 (NoDup_nth_error fs) Hnd a a'); [eapply nth_error_Some_lt; eauto|congruence]).
  assert (Hget : forall a, a < length fs -> exists f, nth_fact t a = Ok f /\ nth_error fs a = Some f).
  { intros a La. destruct (nth_error fs a) as [f|] eqn:E; [|apply nth_error_None in E; lia]. exists f. split; auto. unfold nth_fact. now apply vget_ok. }
  destruct (omap_total (fun e => let* f := nth_fact t (fst e) in let* f' := nth_fact t (snd e) in Ok (f, f')) (fun e ff => nth_error fs (fst e) = Some (fst ff) /\ nth_error fs (snd e) = Some (snd ff)) (ve_edges P g)) as (edges & Ee & Fe).
  { intros [a b] Hi. destruct (vg_edge _ _ _ _ _ HV a b Hi) as (La & Lb & _). cbn [fst snd]. destruct (Hget a La) as (f & E1 & H1), (Hget b Lb) as (f' & E2 & H2). rewrite E1, E2. cbn [bind]. eexists. split; [reflexivity|]. cbn [fst snd]. auto. }
  destruct (omap_total (fun d => let* f := nth_fact t (fst (fst d)) in let* f' := nth_fact t (snd (fst d)) in let* f'' := nth_fact t (snd d) in Ok (f, f', f''))
    (fun d ff => nth_error fs (fst (fst d)) = Some (fst (fst ff)) /\ nth_error fs (snd (fst d)) = Some (snd (fst ff)) /\ nth_error fs (snd d) = Some (snd ff)) (ve_delta P g)) as (delta & Ed & Fd).
  { intros [[i j] k] Hi. destruct (vg_delta _ _ _ _ _ HV i j k Hi) as (Hij & Hjk & _). destruct (vg_edge _ _ _ _ _ HV _ _ Hij) as (L1 & L2 & _), (vg_edge _ _ _ _ _ HV _ _ Hjk) as (_ & L3 & _). cbn [fst snd].
    destruct (Hget i L1) as (f & E1 & H1), (Hget j L2) as (f' & E2 & H2), (Hget k L3) as (f'' & E3 & H3). rewrite E1, E2, E3. cbn [bind]. eexists. split; [reflexivity|]. cbn [fst snd]. auto. }
  exists g, edges, delta. splits; auto. intros a Ha.
  assert (He1 : forall i j f f', In (i, j) (ve_edges P g) -> nth_error fs i = Some f -> nth_error fs j = Some f' -> In (f, f') edges).
  { intros i j f f' Hi H1 H2. destruct (forall2_in_l _ _ _ _ Fe Hi) as ([u v] & Hb & R1 & R2). cbn [fst snd] in *. assert (u = f) by congruence. assert (v = f') by congruence. subst. auto. }
  assert (He2 : forall f f', In (f, f') edges -> exists i j, nth_error fs i = Some f /\ nth_error fs j = Some f' /\ In (i, j) (ve_edges P g)).
  { intros f f' Hi. destruct (forall2_in_r _ _ _ _ Fe Hi) as ([i j] & Hb & R1 & R2). cbn [fst snd] in *. eauto 6. }
  assert (Hpe' : forall o pre eff, In (o, pre, eff) (op_pre_eff t) -> pre <> eff -> In (pre, eff) edges).
  { intros o pre eff Hi Hne. destruct (Hpe o pre eff Hi Hne) as (i & j & H1 & H2 & H3). eauto. }
  split.
  - destruct (omap_total (fun i => nth_fact t i) (fun i f => nth_error fs i = Some f) el) as (order & _ & Fo).
    { intros i Hi. apply Hget. apply (proj2 (vg_el _ _ _ _ _ HV)). auto. }
    exists order. splits.
    + destruct (vg_el _ _ _ _ _ HV) as [Hn _]. clear - Fo Hn Hinj. induction Fo as [|i f r r' Hi Fo IH]; constructor; inv Hn; auto.
      intros Hf. destruct (forall2_in_r _ _ _ _ Fo Hf) as (j & Hj & Ej). rewrite (Hinj i j f Hi Ej) in H1. contradiction.
    + intros f. split.
      * intros Hf. destruct (forall2_in_r _ _ _ _ Fo Hf) as (i & _ & Ei). apply nth_error_In in Ei. now apply in_facts.
      * intros Hf. apply in_facts in Hf. apply In_nth_error in Hf. destruct Hf as [i Hi]. destruct (forall2_in_l _ _ _ i Fo) as (f' & Hf' & E'); [apply Hel; eapply nth_error_Some_lt; eauto|]. fold fs in Hi. assert (f' = f) by congruence. now subst.
    + pose proof (vg_nd _ _ _ _ _ HV) as Hn. clear - Fe Hn Hinj. induction Fe as [|e ff r r' [H1 H2] Fe IH]; constructor; inv Hn; auto.
      intros Hf. destruct (forall2_in_r _ _ _ _ Fe Hf) as (e' & Hj & E1 & E2). apply H3. replace e with e'; auto. destruct e, e'. cbn [fst snd] in *. f_equal; eapply Hinj; eauto.
    + intros q p Hi. destruct (He2 q p Hi) as (i & j & H1 & H2 & H3). destruct (vg_edge _ _ _ _ _ HV i j H3) as (_ & _ & Hne). splits; [apply in_facts; eapply nth_error_In; eauto|apply in_facts; eapply nth_error_In; eauto|]. intros ->. apply Hne. eauto.
    + intros o op p q Ho Hq Hp Hne. apply (Hpe' o); auto. apply pe_iff. eauto.
    + intros i j k Hi. destruct (forall2_in_r _ _ _ _ Fd Hi) as ([[i' j'] k'] & Hd & R1 & R2 & R3). cbn [fst snd] in *. destruct (vg_delta _ _ _ _ _ HV i' j' k' Hd) as (D1 & D2 & D3). splits; eauto.
    + intros before j after Eo i k Hi Hk Hij Hjk Hne. subst order. apply Forall2_app_inv_r in Fo. destruct Fo as (l1 & l2' & F1 & F2 & E). inversion F2 as [|j' jf l2 aft Hj' F2' E1 E2]; subst jf aft l2'. clear F2.
      destruct (He2 i j Hij) as (ii & jj & A1 & A2 & A3). destruct (He2 j k Hjk) as (jj' & kk & B1 & B2 & B3). assert (jj = j') by eauto. assert (jj' = j') by eauto. subst jj jj'.
      assert (Hd : In (ii, j', kk) (ve_delta P g)).
      { destruct (vg_compl _ _ _ _ _ HV l1 j' l2 E ii kk) as [Hd|[]]; auto.
        - intros Hc. destruct (forall2_in_l _ _ _ _ F1 Hc) as (f & Hf & Ef). assert (f = i) by congruence. now subst.
        - intros Hc. destruct (forall2_in_l _ _ _ _ F1 Hc) as (f & Hf & Ef). assert (f = k) by congruence. now subst.
        - intros ->. apply Hne. congruence. }
      destruct (forall2_in_l _ _ _ _ Fd Hd) as ([[a1 a2] a3] & Hi3 & R1 & R2 & R3). cbn [fst snd] in *. assert (a1 = i) by congruence. assert (a2 = j) by congruence. assert (a3 = k) by congruence. now subst.
  - intros o pre eff Hi. assert (Hne : pre <> eff); [|split; eauto]. intros ->. apply pe_iff in Hi. destruct Hi as (op & Ho & Hp & Hadd). apply adds_spec in Hadd. destruct Hadd as (e & He & <-). eapply Hno; eauto. now apply (op_in t o).
Qed.

(** ** Initialization *)
Lemma gen_init g : gen_ok g -> exists f0, forall fuel, f0 <= fuel -> forall lp, exists gs nv nr,
  initialize_constraints P qe fuel t g lp = Ok (gs, {| lp_vars := lp_vars lp ++ nv; lp_cons := lp_cons lp ++ nr |}) /\ gen_inv g gs (length (lp_vars lp)) nv (length (lp_cons lp)) nr.
Proof.
  destruct g as [| |pats|time int|a int]; intros Hok.
  - exists 0. intros fuel _ lp. destruct (se_init t Ht Hok Hg P qe fuel lp) as (gs & nr & E & HI). exists gs, [], nr. rewrite app_nil_r. split; auto. split; auto.
  - exists 0. intros fuel _ lp. cbn [initialize_constraints]. rewrite (supported t Ht). exists SLmCut, [], []. rewrite !app_nil_r. destruct lp. splits; auto. cbn. auto.
  - destruct Hok as [H1 H2]. destruct (compute_pdbs_ok P bag qe t HP Hqe Ht pats H1 H2) as [f0 Hf]. exists f0. intros fuel Hfu lp. destruct (Hf fuel Hfu) as (dbs & E & HF). cbn [initialize_constraints]. rewrite E. cbn [bind].
    exists (SPosthoc dbs (length (lp_cons lp))), [], (map (pho_constraint t) pats). rewrite app_nil_r. split; auto. cbn [gen_inv]. split; auto. exists dbs. splits; auto. exists (repeat 0%Q (length pats)). split; [apply repeat_length|].
    clear. induction pats as [|p r IH]; cbn [map length repeat combine]; auto. cbn [fst snd]. rewrite IH. reflexivity.
  - exists 0. intros fuel _ lp. cbn [initialize_constraints]. unfold if_init. set (tb := {| tb_base := length (lp_vars lp); tb_keys := if_keys t time |}).
    rewrite (raise_fold tb (if_var t int) (lp_vars lp) (t_goal t)); [|now apply if_keys_nodup|auto|].
    2: { intros f Hf. cbn [tb tb_keys]. apply if_keys_in. now apply goal_fact. }
    cbn [bind]. rewrite (if_constraints_ok t Ht time tb eq_refl). cbn [bind fst snd]. eexists _, _, _. split; [reflexivity|]. cbn [gen_inv]. exists []. splits; auto. intros f [].
  - destruct a.
    + exists 0. intros fuel _ lp. cbn [initialize_constraints]. unfold rr_init. set (tb := {| tb_base := length (lp_vars lp); tb_keys := rr_keys t |}).
      destruct (ve_graph_facts Hok) as (g & edges & delta & Eg & Ee & Ed & Hve). specialize (Hve VertexElimination). pose proof (rr_ve_hve _ _ _ Hve) as Hve'.
      set (tb' := {| tb_base := length (lp_vars lp); tb_keys := rr_all_keys t VertexElimination edges |}).
      destruct (rr_constraints_ok t Ht (idx tb') tb eq_refl) with (rows := lp_cons lp) as (ks & Hks & E); [intros k Hk; symmetry; apply (idx_app tb); exact Hk|]. rewrite E. cbn [bind].
      assert (Hnd := rr_keys_nodup t Ht VertexElimination edges delta Hve'). unfold rr_all_keys in Hnd.
      rewrite (raise_fold tb (rr_var t int) (lp_vars lp) (t_goal t)); [|eapply nodup_app_l; exact Hnd|auto|].
      2: { intros f Hf. cbn [tb tb_keys]. apply in_or_app. left. apply in_map. apply in_facts. now apply goal_fact. }
      cbn [bind]. rewrite Eg. cbn [bind]. rewrite Ee. cbn [bind]. rewrite Ed. cbn [bind].
      change ({| tb_base := tb_base tb; tb_keys := tb_keys tb ++ map (fun e : fact * fact => KEdge (fst e) (snd e)) edges |}) with tb'.
      rewrite (ve_constraints_ok t Ht VertexElimination edges delta Hve' (idx tb') tb' eq_refl (fun _ => eq_refl) eq_refl). cbn [bind fst snd].
      exists (SRelaxRR (length (lp_cons lp)) []), (map (raised (rr_var t int) (t_goal t)) (rr_all_keys t VertexElimination edges)), (rr_rows t VertexElimination edges delta (idx tb') (rr_lo []) ks). split.
      * f_equal. f_equal. unfold rr_all_keys, rr_rows. f_equal.
        -- rewrite map_app, <- app_assoc. f_equal. f_equal. unfold extra_keys. rewrite !map_map. apply map_ext. intros e. reflexivity.
        -- rewrite <- !app_assoc. reflexivity.
      * cbn [gen_inv]. exists [], edges, delta, ks. splits; auto. intros f [].
    + exists 0. intros fuel _ lp. cbn [initialize_constraints]. unfold rr_init. set (tb := {| tb_base := length (lp_vars lp); tb_keys := rr_keys t |}).
      assert (Hve : rr_ve TimeLabels [] []) by (intros H; discriminate). pose proof (rr_ve_hve _ _ _ Hve) as Hve'.
      set (tb' := {| tb_base := length (lp_vars lp); tb_keys := rr_all_keys t TimeLabels [] |}).
      destruct (rr_constraints_ok t Ht (idx tb') tb eq_refl) with (rows := lp_cons lp) as (ks & Hks & E); [intros k Hk; symmetry; apply (idx_app tb); exact Hk|]. rewrite E. cbn [bind].
      assert (Hnd := rr_keys_nodup t Ht TimeLabels [] [] Hve'). unfold rr_all_keys in Hnd.
      rewrite (raise_fold tb (rr_var t int) (lp_vars lp) (t_goal t)); [|eapply nodup_app_l; exact Hnd|auto|].
      2: { intros f Hf. cbn [tb tb_keys]. apply in_or_app. left. apply in_map. apply in_facts. now apply goal_fact. }
      cbn [bind]. change ({| tb_base := tb_base tb; tb_keys := tb_keys tb ++ map KFactTime (all_facts t) |}) with tb'.
      rewrite (tl_constraints_ok t Ht TimeLabels [] [] (idx tb') tb' eq_refl (fun _ => eq_refl) eq_refl). cbn [bind fst snd].
      exists (SRelaxRR (length (lp_cons lp)) []), (map (raised (rr_var t int) (t_goal t)) (rr_all_keys t TimeLabels [])), (rr_rows t TimeLabels [] [] (idx tb') (rr_lo []) ks). split.
      * f_equal. f_equal. unfold rr_all_keys, rr_rows. f_equal.
        -- rewrite map_app, <- app_assoc. f_equal. f_equal. unfold extra_keys. rewrite !map_map. apply map_ext. intros e. reflexivity.
        -- rewrite <- !app_assoc. reflexivity.
      * cbn [gen_inv]. exists [], [], [], ks. splits; auto. intros f [].
    + exists 0. intros fuel _ lp. cbn [initialize_constraints]. unfold rr_init. set (tb := {| tb_base := length (lp_vars lp); tb_keys := rr_keys t |}).
      assert (Hve : rr_ve NoAcyclicity [] []) by (intros H; discriminate). pose proof (rr_ve_hve _ _ _ Hve) as Hve'.
      set (tb' := {| tb_base := length (lp_vars lp); tb_keys := rr_all_keys t NoAcyclicity [] |}).
      destruct (rr_constraints_ok t Ht (idx tb') tb eq_refl) with (rows := lp_cons lp) as (ks & Hks & E); [intros k Hk; symmetry; apply (idx_app tb); exact Hk|]. rewrite E. cbn [bind].
      assert (Hnd := rr_keys_nodup t Ht NoAcyclicity [] [] Hve'). unfold rr_all_keys in Hnd.
      rewrite (raise_fold tb (rr_var t int) (lp_vars lp) (t_goal t)); [|eapply nodup_app_l; exact Hnd|auto|].
      2: { intros f Hf. cbn [tb tb_keys]. apply in_or_app. left. apply in_map. apply in_facts. now apply goal_fact. }
      cbn [bind fst snd].
      exists (SRelaxRR (length (lp_cons lp)) []), (map (raised (rr_var t int) (t_goal t)) (rr_all_keys t NoAcyclicity [])), (rr_rows t NoAcyclicity [] [] (idx tb') (rr_lo []) ks). split.
      * f_equal. f_equal. unfold rr_all_keys, rr_rows. cbn [extra_keys extra_rows]. rewrite !app_nil_r. reflexivity.
      * cbn [gen_inv]. exists [], [], [], ks. splits; auto. intros f [].
Qed.
End G.

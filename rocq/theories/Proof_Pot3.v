(** Proofs about potential heuristics, part 3: the optimizer and the values. *)
From Coq Require Import QArith Qround Lqa.
From Verif Require Import Outcome Spec_Task Spec_Relaxation Spec_Projection Spec_Cartesian Spec_LP Spec_OperatorCounting Spec_Generators Spec_Potentials Model_Task Model_LPSolver Model_OperatorCounting Model_Potentials
  Proof_Task Proof_OC1 Proof_OC14 Proof_Pot1 Proof_Pot2.
Local Open Scope nat_scope.

(** ** Objective functions *)
Definition weigh (cs : list Q) (y : nat -> Q) : Q := qsum (fun ic => snd ic * y (fst ic))%Q (numbered cs).
Lemma weigh_upd cs i c c' y : nth_error cs i = Some c -> (weigh (upd cs i c') y == weigh cs y + (c' - c) * y i)%Q.
Proof. intros H. unfold weigh, numbered. rewrite (qsum_upd (fun ic => snd ic * y (fst ic))%Q cs 0 i c c' H). cbn [fst snd plus]. ring. Qed.
Lemma weigh_zero m y : (weigh (repeat 0%Q m) y == 0)%Q.
Proof. unfold weigh. apply qsum_zero. intros [i c] Hi. apply numbered_in in Hi. apply nth_error_In in Hi. apply repeat_spec in Hi. subst. cbn. ring. Qed.
Lemma weigh_le cs y z : Forall (fun c => 0 <= c)%Q cs -> (forall i, i < length cs -> (y i <= z i)%Q) -> (weigh cs y <= weigh cs z)%Q.
Proof.
  intros Hc H. unfold weigh. apply qsum_le. intros [i c] Hi. apply numbered_in in Hi. cbn [fst snd]. rewrite Forall_forall in Hc. specialize (Hc c (nth_error_In _ _ Hi)).
  specialize (H i (nth_error_Some_lt _ _ _ Hi)). rewrite (Qmult_comm c (y i)), (Qmult_comm c (z i)). now apply Qmult_le_compat_r.
Qed.
Lemma set_objective_nth lvs cs i : length cs = length lvs -> nth_error (set_objective lvs cs) i =
  match nth_error lvs i, nth_error cs i with Some v, Some c => Some {| v_lo := v_lo v; v_up := v_up v; v_obj := c; v_int := v_int v |} | _, _ => None end.
Proof.
  revert cs i. induction lvs as [|v r IH]; intros [|c cs] i L; try discriminate; [destruct i; reflexivity|]. destruct i as [|i]; [reflexivity|]. cbn [set_objective map combine nth_error]. apply IH. cbn in L. lia.
Qed.
Lemma set_objective_length lvs cs : length cs = length lvs -> length (set_objective lvs cs) = length lvs.
Proof. intros L. unfold set_objective. rewrite map_length, combine_length. lia. Qed.
Lemma set_objective_twice lvs cs cs' : length cs = length lvs -> set_objective (set_objective lvs cs) cs' = set_objective lvs cs'.
Proof.
  revert cs cs'. induction lvs as [|v r IH]; intros [|c cs] cs' L; try discriminate; [reflexivity|]. destruct cs' as [|c' cs']; [reflexivity|]. unfold set_objective in *. cbn [combine map fst snd v_lo v_up v_int]. f_equal. apply IH. cbn in L. lia.
Qed.
Lemma set_objective_same lvs : set_objective lvs (map v_obj lvs) = lvs.
Proof. induction lvs as [|v r IH]; [reflexivity|]. unfold set_objective in *. cbn [combine map fst snd]. rewrite IH. now destruct v. Qed.
Lemma objective_weigh lvs cs y : length cs = length lvs -> (objective (set_objective lvs cs) y == weigh cs y)%Q.
Proof.
  intros L. unfold objective, weigh, numbered. rewrite (set_objective_length lvs cs L), <- L. generalize 0 as k. revert cs L.
  induction lvs as [|v r IH]; intros [|c cs] L k; try discriminate; [reflexivity|]. cbn [length seq]. unfold set_objective. cbn [combine map qsum fst snd v_obj]. fold (set_objective r cs). rewrite IH by (cbn in L; lia). reflexivity.
Qed.

Section Task.
Variable t : task.
Hypothesis Ht : plain_task t.
Hypothesis Hg : NoDup (map fst (t_goal t)).
Variable mp : option Q.
Hypothesis Hmp : forall b, mp = Some b -> (0 <= b)%Q.
Let vs := t_vars t.
Let n := length vs.
Let pid := pid t.
Let ids := lp_var_ids 0 vs.
Let rows := rows t.
Let program := program t mp.
Let psol := psol t mp.
Let wof := wof t.
Let xfact := xfact t.

Lemma program_set lvs cs : program lvs -> length cs = num_lp_vars vs -> program (set_objective lvs cs).
Proof.
  intros [L H] Lc. split; [rewrite set_objective_length; unfold vs in *; lia|]. intros f Hf. destruct (H f Hf) as (q & Hq & Hc). rewrite set_objective_nth by (unfold vs in *; lia). rewrite Hq.
  assert (Hi : nth_error cs (pid f) = Some (nth (pid f) cs 0%Q)) by (apply nth_error_nth'; rewrite Lc; now apply pid_bound). unfold pid in Hi. rewrite Hi. eexists. split; [reflexivity|].
  destruct Hc as [[K1 (B1 & B2 & B3)]|[K1 (B1 & B2 & B3)]]; [left|right]; (split; [exact K1|]); repeat split; auto.
Qed.

(** ** Coefficients *)
Lemma count_ok cs f : length cs = num_lp_vars vs -> xfact f -> exists cs', count_fact ids cs f = Ok cs' /\ length cs' = num_lp_vars vs /\
  (forall y, weigh cs' y == weigh cs y + y (pid f))%Q /\ (Forall (fun c => 0 <= c)%Q cs -> Forall (fun c => 0 <= c)%Q cs').
Proof.
  intros L Hf. unfold count_fact. unfold ids, vs. rewrite (lp_id t f Hf). cbn [bind]. pose proof (pid_bound t f Hf) as Hb. fold pid in Hb |- *.
  destruct (vget_some cs (pid f)) as (c & Hc & ->); [unfold vs in L; lia|]. cbn [bind]. eexists. split; [apply vset_ok; split; [unfold vs in L; lia|reflexivity]|]. split; [now rewrite upd_length|]. split.
  - intros y. rewrite (weigh_upd cs _ c _ y Hc). ring.
  - intros HF. rewrite Forall_forall in *. intros q Hq. apply In_upd in Hq as [->|Hq]; [|auto]. specialize (HF c (nth_error_In _ _ Hc)). lra.
Qed.
Lemma state_xfact s f : state_ok t s -> In f (numbered s) -> fact_ok t f.
Proof. intros Hs Hf. destruct f as [v d]. apply numbered_in in Hf. destruct (state_ok_var t s v d Hs Hf) as (x & Hx & Hd). exists x. auto. Qed.
Lemma count_state cs s : length cs = num_lp_vars vs -> Forall (fun c => 0 <= c)%Q cs -> state_ok t s -> exists cs', fold_outcome (count_fact ids) (numbered s) cs = Ok cs' /\ length cs' = num_lp_vars vs /\
  (forall y, weigh cs' y == weigh cs y + potential (wof y) s)%Q /\ Forall (fun c => 0 <= c)%Q cs'.
Proof.
  intros L HF Hs. destruct (fold_inv (count_fact ids) (fun pre cs' => length cs' = num_lp_vars vs /\ (forall y, weigh cs' y == weigh cs y + qsum (wof y) pre)%Q /\ Forall (fun c => 0 <= c)%Q cs') (numbered s) cs) as (cs' & E & L' & H1 & H2).
  - splits; auto. intros y. cbn. lra.
  - intros pre f post b Heq (L1 & H1 & H2). destruct (count_ok b f L1) as (b' & Eb & L2 & H3 & H4).
    { apply fact_x. apply (state_xfact s); auto. rewrite Heq. apply in_or_app. right. now left. }
    exists b'. split; [exact Eb|]. splits; auto. intros y. rewrite H3, H1, qsum_app. cbn [qsum]. unfold wof, Proof_Pot2.wof. fold pid. lra.
  - exists cs'. split; [exact E|]. splits; auto.
Qed.
Lemma sample_coefficients_ok samples : Forall (state_ok t) samples -> exists cs, sample_coefficients t samples = Ok cs /\ length cs = num_lp_vars vs /\
  (forall y, weigh cs y == qsum (fun s => potential (wof y) s) samples)%Q /\ Forall (fun c => 0 <= c)%Q cs.
Proof.
  intros Hs. unfold sample_coefficients. fold vs. fold ids.
  destruct (fold_inv (fun cs s => fold_outcome (count_fact ids) (numbered s) cs) (fun pre cs => length cs = num_lp_vars vs /\ (forall y, weigh cs y == qsum (fun s => potential (wof y) s) pre)%Q /\ Forall (fun c => 0 <= c)%Q cs)
     samples (repeat 0%Q (num_lp_vars vs))) as (cs & E & L & H1 & H2).
  - splits; [apply repeat_length|intros y; rewrite weigh_zero; reflexivity|]. apply Forall_forall. intros q Hq. apply repeat_spec in Hq. subst. lra.
  - intros pre s post b Heq (L1 & H1 & H2). destruct (count_state b s L1 H2) as (b' & Eb & L2 & H3 & H4).
    { rewrite Forall_forall in Hs. apply Hs. rewrite Heq. apply in_or_app. right. now left. }
    exists b'. split; [exact Eb|]. splits; auto. intros y. rewrite H3, H1, qsum_app. cbn [qsum]. lra.
  - exists cs. split; [exact E|]. splits; auto.
Qed.
Lemma all_states_ok : exists cs, all_states_coefficients t = Ok cs /\ length cs = num_lp_vars vs /\ Forall (fun c => 0 <= c)%Q cs.
Proof.
  unfold all_states_coefficients. fold vs. fold ids.
  destruct (fold_inv (fun cs vd => let* x := vget vs (fst vd) in let* i := get_lp_var_id ids (fst vd) (snd vd) in vset cs i (1 / inject_Z (Z.of_nat (vdom x)))%Q)
    (fun pre cs => length cs = num_lp_vars vs /\ Forall (fun c => 0 <= c)%Q cs) (all_facts t) (repeat 0%Q (num_lp_vars vs))) as (cs & E & L & H).
  - split; [apply repeat_length|]. apply Forall_forall. intros q Hq. apply repeat_spec in Hq. subst. lra.
  - intros pre f post b Heq (L1 & H1). assert (Hf : fact_ok t f) by (apply in_facts; rewrite Heq; apply in_or_app; right; now left). pose proof Hf as (x & Hx & Hd).
    unfold ids, vs. rewrite (proj2 (vget_ok _ _ _) Hx). cbn [bind]. rewrite (lp_id t f) by (now apply fact_x). cbn [bind].
    eexists. split; [apply vset_ok; split; [rewrite L1; apply pid_bound; now apply fact_x|reflexivity]|]. split; [now rewrite upd_length|].
    rewrite Forall_forall in *. intros q Hq. apply In_upd in Hq as [->|Hq]; [|auto]. apply Qle_shift_div_l; [change 0%Q with (inject_Z 0); rewrite <- Zlt_Qlt; lia|lra].
  - exists cs. auto.
Qed.

(** ** Potentials *)
Definition shape (p : pfunction) : Prop := length p = n /\ forall v x, nth_error vs v = Some x -> exists r, nth_error p v = Some r /\ length r = vdom x.
Definition fits (p : pfunction) (y : nat -> Q) : Prop := forall f, fact_ok t f -> exists r, nth_error p (fst f) = Some r /\ nth_error r (snd f) = Some (y (pid f)).
Lemma extract_ok sol p : shape p -> length sol = num_lp_vars vs -> exists p', extract t sol p = Ok p' /\ shape p' /\ fits p' (fun i => nth i sol 0%Q).
Proof.
  intros Hp L. unfold extract. fold vs. fold ids.
  destruct (fold_inv (fun p vd => let* i := get_lp_var_id ids (fst vd) (snd vd) in let* q := vget sol i in let* r := vget p (fst vd) in let* r' := vset r (snd vd) q in vset p (fst vd) r')
    (fun pre p => shape p /\ forall f, In f pre -> fact_ok t f -> exists r, nth_error p (fst f) = Some r /\ nth_error r (snd f) = Some (nth (pid f) sol 0%Q)) (all_facts t) p) as (p' & E & H1 & H2).
  - split; auto. intros f [].
  - intros pre f post b Heq ([L1 H1] & H2). assert (Hf : fact_ok t f) by (apply in_facts; rewrite Heq; apply in_or_app; right; now left). pose proof Hf as (x & Hx & Hd). cbn in Hx.
    unfold ids, vs. rewrite (lp_id t f) by (now apply fact_x). cbn [bind]. pose proof (pid_bound t f (fact_x t f Hf)) as Hb. fold pid in Hb |- *.
    assert (Hq : nth_error sol (pid f) = Some (nth (pid f) sol 0%Q)) by (apply nth_error_nth'; unfold vs in L; lia). rewrite (proj2 (vget_ok _ _ _) Hq). cbn [bind].
    destruct (H1 _ _ Hx) as (r & Hr & Lr). rewrite (proj2 (vget_ok _ _ _) Hr). cbn [bind]. rewrite (proj2 (vset_ok r (snd f) (nth (pid f) sol 0%Q) _) (conj (ltac:(lia) : snd f < length r) eq_refl)). cbn [bind].
    assert (Lf : fst f < length b) by (rewrite L1; unfold n, vs; eapply nth_error_Some_lt; eauto).
    eexists. split; [apply vset_ok; split; [exact Lf|reflexivity]|]. split.
    + split; [now rewrite upd_length|]. intros v y Hy. destruct (Nat.eq_dec (fst f) v) as [<-|Hne].
      * rewrite upd_nth_eq by auto. eexists. split; [reflexivity|]. rewrite upd_length, Lr. unfold is_var in Hx. unfold vs in Hy. congruence.
      * rewrite upd_nth_neq by auto. auto.
    + intros f' Hin Hf'. destruct (Nat.eq_dec (fst f) (fst f')) as [Ev|Hne].
      * rewrite <- Ev. rewrite upd_nth_eq by auto. eexists. split; [reflexivity|]. destruct (Nat.eq_dec (snd f) (snd f')) as [Ed|Hd'].
        -- assert (f = f') by (destruct f, f'; cbn in *; congruence). subst f'. rewrite upd_nth_eq by lia. reflexivity.
        -- rewrite upd_nth_neq by auto. apply in_app_iff in Hin as [Hin|[->|[]]]; [|congruence]. destruct (H2 f' Hin Hf') as (r' & Hr' & K). rewrite <- Ev in Hr'. assert (r' = r) by congruence. now subst.
      * rewrite upd_nth_neq by auto. apply in_app_iff in Hin as [Hin|[->|[]]]; [|congruence]. auto.
  - exists p'. split; [exact E|]. split; auto. intros f Hf. apply H2; auto. now apply in_facts.
Qed.

(** ** Values *)
Section Value.
Variables (rnd : Q -> Q) (u : Q).
Hypothesis Hr : Spec_Generators.rounds u rnd.
Hypothesis Hu : (0 <= u)%Q.
Variables (p : pfunction) (y : nat -> Q).
Hypothesis Hfit : fits p y.
Lemma sum_total s : state_ok t s -> exists h, sum_potentials rnd p s = Ok h.
Proof.
  clear Hr. intros Hs. unfold sum_potentials. destruct (fold_inv (fun h vd => let* r := vget p (fst vd) in let* q := vget r (snd vd) in Ok (rnd (h + q)%Q)) (fun _ _ => True) (numbered s) 0%Q) as (h & E & _); [auto| |eauto].
  intros pre f post b Heq _. assert (Hf : fact_ok t f) by (apply (state_xfact s); auto; rewrite Heq; apply in_or_app; right; now left).
  destruct (Hfit f Hf) as (r & H1 & H2). rewrite (proj2 (vget_ok _ _ _) H1). cbn [bind]. rewrite (proj2 (vget_ok _ _ _) H2). cbn [bind]. eauto.
Qed.
Lemma sum_exact s : (forall x, rnd x == x)%Q -> state_ok t s -> exists h, sum_potentials rnd p s = Ok h /\ (h == potential (wof y) s)%Q.
Proof.
  clear Hr. intros Hex Hs. unfold sum_potentials. destruct (fold_inv (fun h vd => let* r := vget p (fst vd) in let* q := vget r (snd vd) in Ok (rnd (h + q)%Q)) (fun pre h => (h == qsum (wof y) pre)%Q) (numbered s) 0%Q) as (h & E & H); [reflexivity| |eauto].
  intros pre f post b Heq Hb. assert (Hf : fact_ok t f) by (apply (state_xfact s); auto; rewrite Heq; apply in_or_app; right; now left).
  destruct (Hfit f Hf) as (r & H1 & H2). rewrite (proj2 (vget_ok _ _ _) H1). cbn [bind]. rewrite (proj2 (vget_ok _ _ _) H2). cbn [bind]. eexists. split; [reflexivity|].
  rewrite Hex, Hb, qsum_app. cbn [qsum]. unfold wof, Proof_Pot2.wof. fold pid. ring.
Qed.
(** With potentials between [-b] and [b], rounding adds a small error. *)
Lemma sum_rounded s b : state_ok t s -> (0 <= b)%Q -> (forall f, In f (numbered s) -> - b <= y (pid f) <= b)%Q -> (qnat n * (u * (qnat n * b + 2)) <= 1)%Q ->
  exists h, sum_potentials rnd p s = Ok h /\ (- (qnat n * b + 1) <= h <= qnat n * b + 1)%Q /\ (potential (wof y) s - qnat n * (u * (qnat n * b + 2)) <= h <= potential (wof y) s + qnat n * (u * (qnat n * b + 2)))%Q.
Proof.
  intros Hs Hb Hyb Hsm. unfold sum_potentials. set (e := (u * (qnat n * b + 2))%Q) in *. pose proof (qnat_nonneg n) as Hn.
  assert (Hnb : (0 <= qnat n * b)%Q) by (apply Qmult_le_0_compat; auto). assert (He : (0 <= e)%Q) by (apply Qmult_le_0_compat; lra).
  assert (Ln : length (numbered s) = n) by (unfold numbered; rewrite combine_length, seq_length, (state_ok_length t s Hs); unfold n, vs; lia).
  assert (B : forall pre, (forall f, In f pre -> In f (numbered s)) -> (- (qnat (length pre) * b) <= qsum (wof y) pre <= qnat (length pre) * b)%Q).
  { induction pre as [|f r IH]; intros Hin; [cbn [length qsum]; change (qnat 0) with 0%Q; lra|]. cbn [length qsum]. rewrite qnat_S. specialize (IH (fun f Hf => Hin f (or_intror Hf))). specialize (Hyb f (Hin f (or_introl eq_refl))). unfold wof at 1 3, Proof_Pot2.wof. fold pid. lra. }
  destruct (fold_inv (fun h vd => let* r := vget p (fst vd) in let* q := vget r (snd vd) in Ok (rnd (h + q)%Q)) (fun pre h => (qsum (wof y) pre - qnat (length pre) * e <= h <= qsum (wof y) pre + qnat (length pre) * e)%Q) (numbered s) 0%Q) as (h & E & H).
  - cbn [length qsum]. change (qnat 0) with 0%Q. lra.
  - intros pre f post h Heq Hh. assert (Hin : In f (numbered s)) by (rewrite Heq; apply in_or_app; right; now left). assert (Hf : fact_ok t f) by (apply (state_xfact s); auto).
    destruct (Hfit f Hf) as (r & H1 & H2). rewrite (proj2 (vget_ok _ _ _) H1). cbn [bind]. rewrite (proj2 (vget_ok _ _ _) H2). cbn [bind]. eexists. split; [reflexivity|].
    rewrite qsum_app, app_length. cbn [qsum length]. rewrite Nat.add_1_r, qnat_S.
    assert (Lp : S (length pre) <= n) by (rewrite <- Ln, Heq, app_length; cbn [length]; lia). pose proof (qnat_le _ _ Lp) as Q1. rewrite qnat_S in Q1.
    specialize (B pre ltac:(intros g Hg'; rewrite Heq; apply in_or_app; auto)). specialize (Hyb f Hin).
    assert (M1 : (qnat (length pre) * e + e <= qnat n * e)%Q). { assert ((qnat (length pre) + 1) * e <= qnat n * e)%Q by (apply Qmult_le_compat_r; auto). lra. }
    assert (M2 : (qnat (length pre) * b + b <= qnat n * b)%Q). { assert ((qnat (length pre) + 1) * b <= qnat n * b)%Q by (apply Qmult_le_compat_r; auto). lra. }
    destruct (Hr (h + y (pid f))%Q (qnat n * b + 1)%Q) as [R1 R2]; [lra|]. assert (Ee : (u * (qnat n * b + 1 + 1) == e)%Q) by (unfold e; ring). rewrite Ee in R1, R2. unfold wof at 2 4, Proof_Pot2.wof. fold pid. lra.
  - exists h. split; [exact E|]. rewrite Ln in H. specialize (B (numbered s) (fun f Hf => Hf)). rewrite Ln in B. unfold potential. fold (numbered s). lra.
Qed.
End Value.
End Task.

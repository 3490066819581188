(** The landmark heuristics on a state reached by the search. *)
From Coq Require Import QArith Qround Lqa.
From Verif Require Import Outcome Spec_Task Spec_Relaxation Spec_Landmarks Model_Task Model_Landmarks Proof_Task Proof_PerState2
  Proof_Landmarks1 Proof_Landmarks2 Proof_Landmarks3 Proof_Landmarks4.
Local Open Scope nat_scope.

Lemma path_run t s os s' : task_path t s os s' -> exists ss, run t s os ss /\ last ss s = s'.
Proof.
  induction 1 as [s|s o s1 os s2 Ha Hp Hr (ss & R & L)].
  - exists [s]. split; auto. constructor.
  - exists (s :: ss). split; [econstructor; eauto|]. rewrite (run_last_cons t s s1 os ss s s1 R). auto.
Qed.
Lemma plan_of t s os : task_plan_from t s os -> exists ss, plan_run t s os ss.
Proof. intros (s' & H & G). destruct (path_run t s os s' H) as (ss & R & L). exists ss. split; auto. rewrite L. auto. Qed.
Lemma run_ops t s os ss : run t s os ss -> forall o, In o os -> o < length (t_ops t).
Proof. induction 1 as [|s o s' os ss (op & Ho & _) _ _ IH]; [intros o []|]. intros x [<-|Hx]; auto. eapply nth_error_Some_lt; eauto. Qed.

Section graph.
Variable t : task.
Variable g : graph.
Hypothesis Hg : graph_ok t g.
Notation n := (length g).
Notation costs := (map op_cost (t_ops t)).

Lemma future_achievers_ok pa fu : length pa = n -> length fu = n ->
  exists fl, future_achievers g pa fu = Ok fl /\ length fl <= n /\
    (forall os, In os fl -> exists i l, nth_error g i = Some l /\ bit fu i = true /\ os = achievers l (bit pa i)).
Proof.
  intros Lp Lf. unfold future_achievers.
  match goal with |- exists fl, fold_outcome ?f _ _ = _ /\ _ => set (step := f) end.
  destruct (nodes_fold g step (fun k fl => length fl <= k /\
     (forall os, In os fl -> exists i l, nth_error g i = Some l /\ bit fu i = true /\ os = achievers l (bit pa i))) []) as (fl & E & L & H).
  - intros i l fl Hi [L H]. pose proof (node_lt g i l Hi). unfold step. cbn [fst snd]. rewrite vget_bit by lia. cbn [bind].
    destruct (bit fu i) eqn:Ef.
    + rewrite vget_bit by lia. cbn [bind]. eexists. split; [reflexivity|]. rewrite app_length. cbn [length]. split; [lia|].
      intros os Ho. apply in_app_or in Ho as [Ho|[<-|[]]]; auto. exists i, l. auto.
    + exists fl. splits; auto.
  - split; auto. intros os [].
  - eauto.
Qed.

Lemma fine_achievers fl : (forall os, In os fl -> exists l b, In l g /\ os = achievers l b) -> fine costs fl.
Proof.
  intros H os Ho. destruct (H os Ho) as (l & b & Hl & ->). rewrite map_length. unfold achievers. destruct b.
  - apply (graph_possible t g Hg l Hl).
  - apply (graph_first t g Hg l Hl).
Qed.

Lemma plan_sum os : (forall o, In o os -> o < length (t_ops t)) ->
  (qsum (cost_of costs) (nodup Nat.eq_dec os) <= inject_Z (Z.of_nat (plan_cost t os)))%Q.
Proof.
  induction os as [|o os IH]; intros Hr; cbn [nodup].
  - cbn [qsum]. apply Qle_refl.
  - assert (E : plan_cost t (o :: os) = nth o costs 0 + plan_cost t os).
    { unfold plan_cost. cbn [map]. unfold list_sum. cbn [fold_right]. f_equal.
      destruct (nth_error (t_ops t) o) as [op|] eqn:Eo.
      - symmetry. apply nth_error_nth. rewrite nth_error_map, Eo. auto.
      - apply nth_error_None in Eo. specialize (Hr o (or_introl eq_refl)). lia. }
    rewrite E, Nat2Z.inj_add, inject_Z_plus. specialize (IH (fun x H => Hr x (or_intror H))).
    change (inject_Z (Z.of_nat (nth o costs 0))) with (cost_of costs o).
    pose proof (cost_nonneg costs o). destruct (in_dec Nat.eq_dec o os); cbn [qsum]; lra.
Qed.

Lemma ceiling_le x k : (x <= inject_Z k)%Q -> (Qceiling x <= k)%Z.
Proof. intros H. apply Qceiling_resp_le in H. rewrite Qceiling_Z in H. auto. Qed.

(** Rounding errors that the subtraction of epsilon makes up for. *)
Lemma pw_small u k : (0 <= u)%Q -> (2 * inject_Z (Z.of_nat k) * u <= 1)%Q -> (pw u k <= 1 + 2 * inject_Z (Z.of_nat k) * u)%Q.
Proof.
  intros Hu. induction k as [|k IH]; intros H; cbn [pw].
  - change (inject_Z (Z.of_nat 0)) with 0%Q. lra.
  - assert (E : (inject_Z (Z.of_nat (S k)) == inject_Z (Z.of_nat k) + 1)%Q).
    { rewrite Nat2Z.inj_succ. unfold Z.succ. rewrite inject_Z_plus. reflexivity. }
    rewrite E in *. set (a := inject_Z (Z.of_nat k)) in *.
    assert (Ha : (0 <= a)%Q) by (apply int_q_nonneg).
    assert (H' : (2 * a * u <= 1)%Q) by nra. specialize (IH H').
    pose proof (pw_ge u Hu k). assert ((1 + u) * pw u k <= (1 + u) * (1 + 2 * a * u))%Q by (apply Qmult_le_l; lra). nra.
Qed.

Definition tolerable (u : Q) (m : nat) (c : nat) : Prop :=
  (pw u (4 * m + 2) * (1 + inject_Z (Z.of_nat c)) <= 1 + inject_Z (Z.of_nat c) + epsilon)%Q.

Lemma tolerable_exact m c : tolerable 0 m c.
Proof.
  unfold tolerable. assert (E : forall k, (pw 0 k == 1)%Q) by (induction k as [|k IH]; cbn [pw]; [reflexivity|rewrite IH; ring]).
  rewrite E. unfold epsilon. lra.
Qed.
Lemma tolerable_double m c : (Z.of_nat (S m) * Z.of_nat (S c) <= 2 ^ 43)%Z -> tolerable unit_roundoff m c.
Proof.
  intros H. unfold tolerable. set (K := 4 * m + 2). assert (HK : (Z.of_nat K <= 4 * Z.of_nat (S m))%Z) by (unfold K; lia).
  assert (HB : (Z.of_nat K * Z.of_nat (S c) <= 2 ^ 45)%Z).
  { change (2 ^ 45)%Z with (4 * 2 ^ 43)%Z. nia. }
  assert (HQ : (inject_Z (Z.of_nat K) * (1 + inject_Z (Z.of_nat c)) <= inject_Z (2 ^ 45))%Q).
  { rewrite Zle_Qle, inject_Z_mult, Nat2Z.inj_succ in HB. unfold Z.succ in HB. rewrite inject_Z_plus in HB.
    change (inject_Z 1) with 1%Q in HB. lra. }
  set (a := inject_Z (Z.of_nat K)) in *. set (b := inject_Z (Z.of_nat c)) in *.
  assert (Ha : (0 <= a)%Q) by apply int_q_nonneg. assert (Hb : (0 <= b)%Q) by apply int_q_nonneg.
  assert (Hu : (0 <= unit_roundoff)%Q) by (unfold unit_roundoff; lra).
  assert (HU : (unit_roundoff * inject_Z (2 ^ 45) == 1 # 256)%Q) by (vm_compute; reflexivity).
  assert (Hab : (unit_roundoff * (a * (1 + b)) <= 1 # 256)%Q).
  { rewrite <- HU. rewrite (Qmult_comm unit_roundoff), (Qmult_comm unit_roundoff). apply Qmult_le_compat_r; auto. }
  assert (Ha2 : (unit_roundoff * a <= 1 # 256)%Q).
  { assert (unit_roundoff * a <= unit_roundoff * (a * (1 + b)))%Q; [|lra].
    rewrite (Qmult_comm unit_roundoff), (Qmult_comm unit_roundoff). apply Qmult_le_compat_r; auto. nra. }
  pose proof (pw_small unit_roundoff K Hu) as HP. fold a in HP.
  assert (HP' : (pw unit_roundoff K <= 1 + 2 * a * unit_roundoff)%Q) by (apply HP; lra).
  assert (pw unit_roundoff K * (1 + b) <= (1 + 2 * a * unit_roundoff) * (1 + b))%Q by (apply Qmult_le_compat_r; lra).
  unfold epsilon. nra.
Qed.

Lemma pw_mono' u a b : (0 <= u)%Q -> a <= b -> (pw u a <= pw u b)%Q.
Proof. intros. apply pw_mono; auto. Qed.

Section value.
Variable opt : options.
Variable es : list event.
Variable st : status.
Hypothesis Hh : history t es.
Hypothesis HI : Inv t g es st.
Variable alm : bool.
Variable s : state.

Lemma fl_ok : exists fl, future_achievers g (past st s) (future st s) = Ok fl /\ length fl <= n /\ fine costs fl /\
   (forall os, In os fl -> exists i l, nth_error g i = Some l /\ bit (future st s) i = true /\ os = achievers l (bit (past st s) i)).
Proof.
  destruct (inv_len t g es st HI s) as [L1 L2]. destruct (future_achievers_ok _ _ L1 L2) as (fl & E & L & H).
  exists fl. splits; auto. apply fine_achievers. intros os Ho. destruct (H os Ho) as (i & l & Hi & _ & ->).
  exists l, (bit (past st s) i). split; auto. eapply node_in; eauto.
Qed.

(** Every plan from the state contains an achiever of each future landmark. *)
Lemma achiever_in_plan os0 ss0 os ss i l : sound t g -> known t es s os0 ss0 -> plan_run t s os ss ->
  nth_error g i = Some l -> bit (future st s) i = true -> exists o, In o (achievers l (bit (past st s) i)) /\ In o os.
Proof.
  intros Hs K P Hi Hf. assert (Hl : In l g) by (eapply node_in; eauto).
  assert (OP : forall os1 ss1 k, run t (t_init t) os1 ss1 -> last ss1 (t_init t) = s -> true_at l ss (S k) ->
     exists o, nth_error os k = Some o /\ nth_error (os1 ++ os) (length os1 + k) = Some o).
  { intros os1 ss1 k R1 L1 (x & Hx & _). apply nth_error_Some_lt in Hx. rewrite (run_length t _ _ _ (proj1 P)) in Hx.
    destruct (nth_error os k) as [o|] eqn:E; [|apply nth_error_None in E; lia]. exists o. split; auto.
    rewrite nth_error_app2 by lia. replace (length os1 + k - length os1) with k by lia. auto. }
  destruct (bit (past st s) i) eqn:Ep; cbn [achievers].
  - destruct (inv_future t g es st HI Hs s i l Hi Hf os ss P) as (k & A).
    destruct (known_run t es s os0 ss0 Hh K) as (R & L & _). pose proof P as [R' _].
    destruct (OP os0 ss0 k R L (proj2 A)) as (o & E1 & E2). exists o. split; [|eapply nth_error_In; eauto].
    rewrite <- L in R'. eapply (sound_possible t g Hs l (os0 ++ os) (ss0 ++ tl ss)); eauto.
    + eapply run_app; eauto.
    + apply (added_app t l _ _ _ _ _ k R R'). auto.
  - destruct (inv_open t g es st HI s i l Hi Ep) as (_ & os1 & ss1 & K1 & N).
    destruct (known_run t es s os1 ss1 Hh K1) as (R & L & _). pose proof P as [R' _].
    destruct (open_adds t g l os1 ss1 os ss s Hs Hl R L N P) as (k & F & A).
    destruct (OP os1 ss1 k R L (proj2 A)) as (o & E1 & E2). exists o. split; [|eapply nth_error_In; eauto].
    rewrite <- L in R'. replace (length os1 + S k) with (S (length os1 + k)) in F by lia.
    eapply (sound_first t g Hs l (os1 ++ os) (ss1 ++ tl ss)); eauto. eapply run_app; eauto.
Qed.

Lemma no_cycle_plan os0 ss0 os : sound t g -> known t es s os0 ss0 -> task_plan_from t s os -> has_natural_cycle g = Ok false.
Proof.
  intros Hs K Hp. destruct (plan_of t s os Hp) as (ss & P). destruct (has_natural_cycle_ok t g Hg) as ([|] & E & H); auto.
  exfalso. destruct (H eq_refl) as (y & Hy). destruct (known_run t es s os0 ss0 Hh K) as (R & L & _). rewrite <- L in P.
  eapply (cycle_unsolvable t g Hg y); eauto. eapply plan_app; eauto.
Qed.

Variable rnd : Q -> Q.
Variable u : Q.
Hypothesis Hu : (0 <= u)%Q.
Hypothesis Hrnd : rounding u rnd.

Lemma heuristic_total : exists r, heuristic rnd t g alm st s = Ok r.
Proof.
  unfold heuristic. destruct (has_natural_cycle_ok t g Hg) as (b & E & _). rewrite E. cbn [bind]. destruct b; [eauto|].
  destruct fl_ok as (fl & E1 & _ & F & _). rewrite E1. cbn [bind]. unfold cost_partitioning_value.
  destruct (uniform_ok alm costs [] (NoDup_nil _) rnd u Hu Hrnd fl F) as (r & E2 & _). rewrite E2. cbn [bind]. eauto.
Qed.

Lemma heuristic_plan os0 ss0 os : sound t g -> known t es s os0 ss0 -> task_plan_from t s os ->
  exists v, heuristic rnd t g alm st s = Ok (Some v) /\ (tolerable u n (plan_cost t os) -> (v <= Z.of_nat (plan_cost t os))%Z).
Proof.
  intros Hs K Hp. unfold heuristic. rewrite (no_cycle_plan os0 ss0 os Hs K Hp). cbn [bind].
  destruct fl_ok as (fl & E1 & Lfl & F & HF). rewrite E1. cbn [bind]. unfold cost_partitioning_value.
  destruct (plan_of t s os Hp) as (ss & P).
  destruct (uniform_ok alm costs (nodup Nat.eq_dec os) (NoDup_nodup _ _) rnd u Hu Hrnd fl F) as (r & E2 & H). rewrite E2. cbn [bind].
  assert (HH : hit (nodup Nat.eq_dec os) fl).
  { intros x Hx. destruct (HF x Hx) as (i & l & Hi & Hf & ->). destruct (achiever_in_plan os0 ss0 os ss i l Hs K P Hi Hf) as (o & A & B).
    exists o. split; auto. apply nodup_In. auto. }
  destruct r as [h|].
  2:{ destruct (HH [] H) as (o & [] & _). }
  destruct H as (_ & Hh0 & HB). specialize (HB HH). eexists. split; [reflexivity|]. intros HT. apply ceiling_le.
  destruct (Hrnd (h - epsilon)%Q) as [RA RB].
  pose proof (plan_sum os (run_ops t _ _ _ (proj1 P))) as PS. unfold tolerable in HT.
  set (C := inject_Z (Z.of_nat (plan_cost t os))) in *. assert (HC : (0 <= C)%Q) by apply int_q_nonneg.
  destruct (Qlt_le_dec (h - epsilon)%Q 0%Q) as [Hneg|Hpos]. { assert (h - epsilon <= 0)%Q by lra. specialize (RB H). lra. }
  destruct (RA Hpos) as [_ R]. set (S := qsum (cost_of costs) (nodup Nat.eq_dec os)) in *.
  pose proof (pw_ge u Hu (4 * length fl + 1)) as G1.
  assert (HS0 : (0 <= S)%Q) by (apply qsum_nonneg; intros; apply cost_nonneg).
  assert (B1 : (h + 1 <= pw u (4 * length fl + 1) * (1 + C))%Q).
  { eapply Qle_trans; [apply HB|]. rewrite (Qmult_comm _ (1 + S)), (Qmult_comm _ (1 + C)). apply Qmult_le_compat_r; lra. }
  assert (B2 : ((1 + u) * (h + 1) <= pw u (4 * length fl + 2) * (1 + C))%Q).
  { replace (4 * length fl + 2) with (Datatypes.S (4 * length fl + 1)) by lia. cbn [pw]. rewrite <- Qmult_assoc. apply Qmult_le_l; lra. }
  assert (B3 : (pw u (4 * length fl + 2) <= pw u (4 * n + 2))%Q) by (apply pw_mono'; auto; lia).
  assert (B4 : (pw u (4 * length fl + 2) * (1 + C) <= pw u (4 * n + 2) * (1 + C))%Q) by (apply Qmult_le_compat_r; lra).
  assert (E0 : (0 <= epsilon)%Q) by (unfold epsilon; lra). nra.
Qed.

Lemma sum_total : exists r, sum_heuristic t g st s = Ok r.
Proof.
  unfold sum_heuristic. destruct (has_natural_cycle_ok t g Hg) as (b & E & _). rewrite E. cbn [bind]. destruct b; [eauto|].
  destruct fl_ok as (fl & E1 & _ & F & _). rewrite E1. cbn [bind]. clear E1. generalize 0.
  induction fl as [|os fl IH]; intros h; cbn [sum_value]; [eauto|].
  assert (M : exists m, min_cost costs os = Ok m).
  { destruct (F os (or_introl eq_refl)) as [_ Hr]. unfold min_cost. revert Hr. generalize (@None nat). clear.
    induction os as [|o os IHo]; intros m Hr; cbn [fold_outcome]; [eauto|].
    rewrite (proj2 (vget_ok costs o (nth o costs 0))) by (apply nth_error_nth'; apply Hr; left; auto). cbn [bind].
    apply IHo. intros; apply Hr; right; auto. }
  destruct M as (m & ->). cbn [bind]. destruct m; [|eauto]. apply IH. intros x Hx. apply F. right; auto.
Qed.
Lemma sum_plan os0 ss0 os : sound t g -> known t es s os0 ss0 -> task_plan_from t s os ->
  exists v, sum_heuristic t g st s = Ok (Some v).
Proof.
  intros Hs K Hp. destruct sum_total as (r & E). rewrite E. destruct r as [v|]; [eauto|]. exfalso.
  unfold sum_heuristic in E. rewrite (no_cycle_plan os0 ss0 os Hs K Hp) in E. cbn [bind] in E.
  destruct fl_ok as (fl & E1 & _ & F & HF). rewrite E1 in E. cbn [bind] in E.
  destruct (plan_of t s os Hp) as (ss & P).
  assert (NE : ~ In [] fl).
  { intros Hx. destruct (HF [] Hx) as (i & l & Hi & Hf & Ea). destruct (achiever_in_plan os0 ss0 os ss i l Hs K P Hi Hf) as (o & A & _). rewrite <- Ea in A. destruct A. }
  clear -E NE. revert E. generalize 0. induction fl as [|x fl IH]; intros h; cbn [sum_value]; [discriminate|].
  intros E. apply bind_ok in E as (m & Em & E). destruct m as [m|].
  - eapply IH; eauto. intros H. apply NE. right; auto.
  - assert (M : forall l m0, fold_outcome (fun (m : option nat) o => let* c := vget costs o in
        Ok (Some (match m with None => c | Some m => Nat.min m c end))) l m0 = Ok None -> l = [] /\ m0 = None).
    { induction l as [|o l IHl]; intros m0 H; cbn [fold_outcome] in H; [inv H; auto|].
      apply bind_ok in H as (y & Hy & H). apply bind_ok in Hy as (c & _ & Hy). inv Hy. destruct (IHl _ H). discriminate. }
    destruct (M x None Em) as [-> _]. apply NE. left; auto.
Qed.
End value.
End graph.

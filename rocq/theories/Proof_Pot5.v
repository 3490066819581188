(** Proofs about potential heuristics, part 5: sample-based and diverse potential heuristics. *)
From Coq Require Import QArith Qround Lqa.
From Verif Require Import Outcome Spec_Task Spec_Relaxation Spec_Projection Spec_Cartesian Spec_LP Spec_OperatorCounting Spec_Generators Spec_Potentials Model_Task Model_LPSolver Model_Landmarks Model_OperatorCounting Model_Potentials Spec_PotentialOptimizer
  Proof_Task Proof_OC1 Proof_OC3 Proof_OC14 Proof_Pot1 Proof_Pot2 Proof_Pot3 Proof_Pot4.
Local Open Scope nat_scope.

Lemma fold_keeps {A B} (f : B -> A -> outcome B) (Inv : B -> Prop) l : forall b b', fold_outcome f l b = Ok b' -> Inv b -> (forall x b b', In x l -> Inv b -> f b x = Ok b' -> Inv b') -> Inv b'.
Proof.
  induction l as [|x r IH]; intros b b' E Hb H; cbn [fold_outcome] in E; [inv E; auto|]. apply bind_ok in E as (b1 & E1 & E). eapply IH; eauto; [eapply H; eauto; now left|].
  intros y c c' Hy. apply H. now right.
Qed.

(** ** All functions are obtained from an optimizer *)
Section Track.
Variables (solve : nat -> list lpvar -> list lpcon -> option (list Q)) (rnd : Q -> Q) (t : task) (mp : option Q).
Hypothesis Hi : state_ok t (t_init t).
Let obj := optimizer_object solve t mp.
Lemma obj_state s o o' : obj o -> state_ok t s -> optimize_for_state solve t s o = Ok o' -> obj o'.
Proof. intros Ho Hs E. eapply sampled; [exact Ho| |exact E]. constructor; auto. Qed.
Lemma create_obtained f p : create_potential_function solve t mp f = Ok p -> obtained solve t mp p.
Proof.
  intros H. apply bind_ok in H as (o & E & H). apply bind_ok in H as (o' & E' & H). exists o'. split; auto. apply created with (solve := solve) in E. destruct f; [eapply obj_state; eauto|eapply for_all_states; eauto].
Qed.
Lemma sample_without_obj smp o o' : obj o -> sample_without_dead_end_detection solve rnd t smp o = Ok o' -> obj o'.
Proof.
  intros Ho H. apply bind_ok in H as (o1 & E1 & H). apply bind_ok in H as (p & E2 & H). apply bind_ok in H as (h & E3 & H). apply bind_ok in H as (w & E4 & H). inv H. eapply obj_state; eauto.
Qed.
Lemma sample_based_obtained samples ps : (forall smp, In smp samples -> Forall (state_ok t) smp) -> sample_based_functions solve rnd t mp samples = Ok ps -> Forall (obtained solve t mp) ps.
Proof.
  intros Hs H. apply bind_ok in H as (o & E & H). apply created with (solve := solve) in E. apply bind_ok in H as ([ps' o'] & E' & H). cbn [fst] in H. injection H as H. subst ps'.
  enough (Forall (obtained solve t mp) (fst (ps, o')) /\ obj (snd (ps, o'))) by tauto.
  eapply (fold_keeps _ (fun x => Forall (obtained solve t mp) (fst x) /\ obj (snd x))); [exact E'|split; [constructor|exact E]|].
  intros smp [qs o1] b' Hin [H1 H2] K. cbn [fst snd] in *. apply bind_ok in K as (o2 & K1 & K). apply bind_ok in K as (p & K2 & K). inv K. cbn [fst snd].
  assert (Ho2 : obj o2).
  { apply bind_ok in K1 as (o3 & L1 & K1). pose proof (sample_without_obj smp o1 o3 H2 L1) as H3. apply bind_ok in K1 as ([smp' o4] & L2 & K1). cbn [fst snd] in K1.
    assert (G : Forall (state_ok t) smp' /\ obj o4).
    { destruct (potentials_are_bounded o3); [inv L2; auto|]. apply bind_ok in L2 as ([] & _ & L2). specialize (Hs smp Hin).
      enough (Forall (state_ok t) (fst (smp', o4)) /\ obj (snd (smp', o4))) by tauto.
      eapply (fold_keeps _ (fun x => Forall (state_ok t) (fst x) /\ obj (snd x))); [exact L2|split; [constructor|exact H3]|].
      intros s [l o5] [l' o6] Hs' [G1 G2] K. cbn [fst snd] in *. apply bind_ok in K as (o7 & K4 & K). inv K. rewrite Forall_forall in Hs. split; [|eapply (obj_state s); eauto]. destruct (po_optimal o6); [|auto]. apply Forall_app. split; [auto|]. constructor; auto. }
    destruct G as [G1 G2]. eapply sampled; [exact G2|exact G1|exact K1]. }
  split; [|exact Ho2]. apply Forall_app. split; auto. constructor; [|constructor]. exists o2. auto.
Qed.
Definition mobt (m : list (state * pfunction)) : Prop := forall e, In e m -> state_ok t (fst e) /\ obtained solve t mp (snd e).
Lemma remove_sub f : forall m m', remove_covered_samples rnd f m = Ok m' -> forall e, In e m' -> In e m.
Proof.
  induction m as [|[s p] r IH]; intros m' H e He; cbn [remove_covered_samples] in H; [inv H; auto|]. apply bind_ok in H as (a & _ & H). apply bind_ok in H as (b & _ & H). apply bind_ok in H as ([] & _ & H). apply bind_ok in H as (r' & E & H). inv H.
  destruct (b =? a)%Z; [right; eapply IH; eauto|]. destruct He as [<-|He]; [now left|right; eapply IH; eauto].
Qed.
Lemma find_obtained pick m o f m' o' : obj o -> mobt m -> find_function solve rnd t pick m o = Ok (f, m', o') -> obj o' /\ mobt m' /\ obtained solve t mp f.
Proof.
  intros Ho Hm H. unfold find_function in H. apply bind_ok in H as (o1 & E1 & H). apply bind_ok in H as (g & E2 & H). apply bind_ok in H as (m1 & E3 & H).
  assert (Ho1 : obj o1). { eapply sampled; [exact Ho| |exact E1]. apply Forall_forall. intros s Hs. apply in_map_iff in Hs as (e & <- & He). apply Hm, He. }
  assert (Hm1 : mobt m1) by (intros e He; apply Hm; eapply remove_sub; eauto).
  destruct (length m1 =? length m).
  - apply bind_ok in H as (e & E4 & H). apply bind_ok in H as (m2 & E5 & H). inv H. splits; auto.
    + intros e' He'. apply Hm1. apply (remove_sub _ _ _ E5) in He'. apply in_app_iff in He' as [K|K]; [rewrite <- (firstn_skipn (pick m1 mod length m1) m1); apply in_or_app; auto|].
      rewrite <- (firstn_skipn (S (pick m1 mod length m1)) m1). apply in_or_app. auto.
    + apply vget_ok in E4. apply nth_error_In in E4. apply Hm1, E4.
  - inv H. splits; auto. exists o'. auto.
Qed.
Lemma cover_obtained pick maxn : forall fuel fs m o fs', obj o -> mobt m -> Forall (obtained solve t mp) fs -> cover_samples solve rnd fuel t pick maxn fs m o = Ok fs' -> Forall (obtained solve t mp) fs'.
Proof.
  induction fuel as [|fuel IH]; intros fs m o fs' Ho Hm Hf H; cbn [cover_samples] in H.
  - destruct m; [inv H; auto|]. destruct (_ <? _); [discriminate|]. inv H. auto.
  - destruct m as [|e m]; [inv H; auto|]. destruct (_ <? _); [|inv H; auto]. apply bind_ok in H as ([[f m'] o'] & E & H). cbn [fst snd] in H. destruct (find_obtained _ _ _ _ _ _ Ho Hm E) as (A & B & C).
    eapply IH; [exact A|exact B| |exact H]. apply Forall_app. split; auto.
Qed.
Lemma diverse_obtained fuel pick maxn samples fs : Forall (state_ok t) samples -> diverse_functions solve rnd fuel t pick maxn mp samples = Ok fs -> Forall (obtained solve t mp) fs.
Proof.
  intros Hs H. apply bind_ok in H as (o & E & H). apply created with (solve := solve) in E. apply bind_ok in H as (o1 & E1 & H). pose proof (sample_without_obj _ _ _ E E1) as Ho1. apply bind_ok in H as ([m o2] & E2 & H).
  apply bind_ok in E2 as ([[m2 dead] o3] & E2 & K). inv K. cbn [fst snd] in H.
  assert (G : mobt (fst (fst (m, dead, o2))) /\ obj (snd (m, dead, o2))).
  { eapply (fold_keeps _ (fun x => mobt (fst (fst x)) /\ obj (snd x))); [exact E2|split; [intros e []|exact Ho1]|].
    intros s [[m1 d1] o4] b' Hin [G1 G2] K. cbn [fst snd] in *. unfold filter_sample in K. destruct (_ || _); [inv K; auto|]. apply bind_ok in K as (o5 & K1 & K). rewrite Forall_forall in Hs. specialize (Hs s Hin). assert (Ho5 : obj o5) by (eapply (obj_state s); eauto).
    destruct (po_optimal o5) eqn:Eo; [|inv K; auto]. apply bind_ok in K as (p & K2 & K). inv K. cbn [fst snd]. split; auto. intros e He. apply in_app_iff in He as [He|[<-|[]]]; [auto|]. split; [exact Hs|]. exists o5. auto. }
  destruct G as [G1 G2]. eapply cover_obtained; eauto.
Qed.
End Track.

(** ** Without rounding errors, creation succeeds for solvable tasks *)
Section Exact.
Variable t : task.
Hypothesis Ht : plain_task t.
Hypothesis Hg : NoDup (map fst (t_goal t)).
Variable mp : option Q.
Hypothesis Hmp : forall b, mp = Some b -> (0 <= b)%Q.
Variable solve : nat -> list lpvar -> list lpcon -> option (list Q).
Hypothesis Hsolve : solver_ok 0 t mp solve.
Variable rnd : Q -> Q.
Hypothesis Hex : forall x, (rnd x == x)%Q.
Variable b : Q.
Hypothesis Hw : solver_within b solve.
Let n := length (t_vars t).
Hypothesis Hnb : (qnat n * b <= 2147483640 # 1)%Q.
Let psol := psol t mp.
Let wof := wof t.
Let pgood := pgood t mp 0 solve.
Let oinv := oinv t mp 0 solve.
Let Hinit : state_ok t (t_init t).
Proof. destruct Ht as ((_ & _ & _ & H & _) & _). exact H. Qed.

Lemma answered_bound y s : answered t solve y -> state_ok t s -> (- (qnat n * b) <= potential (wof y) s <= qnat n * b)%Q.
Proof.
  intros (k & l & c & sol & E & L & ->) Hs. pose proof (Hw k l c sol E) as HF. rewrite Forall_forall in HF.
  assert (Ln : length (numbered s) = n) by (unfold numbered; rewrite combine_length, seq_length, (state_ok_length t s Hs); unfold n; lia).
  assert (K : forall f, In f (numbered s) -> (- b <= wof (fun i => nth i sol 0%Q) f <= b)%Q).
  { intros f Hf. unfold wof, Proof_Pot2.wof. apply HF. apply nth_In. rewrite L. apply pid_bound, fact_x. eapply state_xfact; eauto. }
  unfold potential. fold (numbered s). unfold qnat. rewrite <- Ln. split.
  - assert (qsum (fun f => (-1) * wof (fun i => nth i sol 0%Q) f) (numbered s) <= inject_Z (Z.of_nat (length (numbered s))) * b)%Q by (apply qsum_bound; intros f Hf; specialize (K f Hf); lra).
    rewrite qsum_scale in H. lra.
  - apply qsum_bound. intros f Hf. specialize (K f Hf). lra.
Qed.
Lemma value_at p y s : fits t p y -> answered t solve y -> state_ok t s -> get_value rnd p s = Ok (Qceiling (potential (wof y) s - epsilon)%Q).
Proof.
  intros Hf Ha Hs. rewrite (value_exact t rnd p y s Hex Hf Hs). fold wof. pose proof (answered_bound y s Ha Hs) as [B1 B2]. pose proof eps_bounds as [E1 E2]. apply to_int_ok. split.
  - rewrite Zle_Qle. pose proof (Qle_ceiling (potential (wof y) s - epsilon)%Q) as K. change (inject_Z (-2147483648)) with (-2147483648 # 1)%Q. lra.
  - apply ceil_le. change (inject_Z 2147483647) with (2147483647 # 1)%Q. lra.
Qed.

Lemma walk_ok v os : (0 <= v <= Z.of_nat (plan_cost t os))%Z -> (4 * (Z.of_nat (plan_cost t os) * Z.of_nat (length (t_ops t)) + 1) <= 2147483647)%Z -> exists w, walk_parameter t v = Ok w.
Proof.
  intros Hv Hlim. unfold walk_parameter. destruct (Z.eqb_spec v 0) as [->|Hv0]; [eauto|].
  set (tot := list_sum (map op_cost (t_ops t))). set (k := length (t_ops t)) in *.
  assert (Htot : 0 < tot).
  { assert (P : 0 < plan_cost t os) by lia. clear -P. unfold plan_cost in P. induction os as [|o r IH]; [cbn in P; lia|]. cbn [map] in P. unfold list_sum in P. cbn [fold_right] in P. fold (list_sum (map (fun o => match nth_error (t_ops t) o with Some op => op_cost op | None => 0 end) r)) in P.
    destruct (nth_error (t_ops t) o) as [op|] eqn:E; [|apply IH; lia]. destruct (Nat.eq_dec (op_cost op) 0) as [Z|Z]; [apply IH; lia|].
    unfold tot. apply nth_error_In in E. clear -E Z. induction (t_ops t) as [|a l IH]; [contradiction|]. cbn. destruct E as [->|E]; [lia|]. specialize (IH E). unfold list_sum in IH. lia. }
  assert (Hk : 0 < k). { unfold k. destruct (t_ops t); [cbn in tot; unfold tot in Htot; lia|cbn; lia]. }
  destruct (Nat.eqb_spec k 0) as [|_]; [lia|]. cbn [negb bind guard].
  assert (Qk : (0 < inject_Z (Z.of_nat k))%Q) by (change 0%Q with (inject_Z 0); rewrite <- Zlt_Qlt; lia). assert (Qt : (0 < inject_Z (Z.of_nat tot))%Q) by (change 0%Q with (inject_Z 0); rewrite <- Zlt_Qlt; lia).
  set (avg := (inject_Z (Z.of_nat tot) / inject_Z (Z.of_nat k))%Q). assert (Ha : (0 < avg)%Q) by (unfold avg; apply Qlt_shift_div_l; lra).
  destruct (Qeq_bool avg 0) eqn:Eq; [apply Qeq_bool_iff in Eq; lra|]. cbn [negb bind guard].
  assert (Hx1 : (0 <= inject_Z v / avg)%Q). { apply Qle_shift_div_l; [exact Ha|]. rewrite Qmult_0_l. change 0%Q with (inject_Z 0). rewrite <- Zle_Qle. lia. }
  assert (Hx2 : (inject_Z v / avg <= inject_Z (v * Z.of_nat k))%Q).
  { apply Qle_shift_div_r; [exact Ha|]. rewrite inject_Z_mult. unfold avg. assert (E : (inject_Z v * inject_Z (Z.of_nat k) * (inject_Z (Z.of_nat tot) / inject_Z (Z.of_nat k)) == inject_Z (v * Z.of_nat tot))%Q) by (rewrite inject_Z_mult; field; lra).
    rewrite E. rewrite <- Zle_Qle. nia. }
  set (x := (inject_Z v / avg + (1 # 2))%Q). destruct (Qle_bool 0 x) eqn:Ex; [|exfalso; assert (K : (0 <= x)%Q) by (unfold x; lra); apply Qle_bool_iff in K; congruence].
  assert (F1 : (0 <= Qfloor x)%Z). { change 0%Z with (Qfloor 0). apply Qfloor_resp_le. now apply Qle_bool_iff. }
  assert (F2 : (Qfloor x < v * Z.of_nat k + 1)%Z). { rewrite Zlt_Qlt, inject_Z_plus. change (inject_Z 1) with 1%Q. pose proof (Qfloor_le x) as K. unfold x in *. lra. }
  assert (F3 : (v * Z.of_nat k <= Z.of_nat (plan_cost t os) * Z.of_nat k)%Z) by nia.
  rewrite to_int_ok by lia. cbn [bind]. rewrite to_int_ok by lia. eauto.
Qed.

Section Solvable.
Variable os : list nat.
Hypothesis Hplan : task_plan_from t (t_init t) os.
Hypothesis Hlim : (4 * (Z.of_nat (plan_cost t os) * Z.of_nat (length (t_ops t)) + 1) <= 2147483647)%Z.

Lemma state_opt s o : oinv o -> state_ok t s -> exists o', optimize_for_state solve t s o = Ok o' /\ oinv o' /\ best_at t mp 0 solve [s] o'.
Proof. intros Ho Hs. apply (samples_ok t Ht mp Hmp 0 solve Hsolve [s] o Ho). constructor; auto. Qed.
Lemma plan_bounded_at s os' : state_ok t s -> task_plan_from t s os' -> bounded_at t mp s.
Proof. intros Hs Hp. exists (qnat (plan_cost t os')). intros z Hz. eapply plan_bounded; eauto. Qed.
Lemma sample_without_ok smp o : oinv o -> exists o', sample_without_dead_end_detection solve rnd t smp o = Ok o' /\ oinv o'.
Proof.
  intros Ho. unfold sample_without_dead_end_detection. destruct (state_opt (t_init t) o Ho Hinit) as (o' & E & Ho' & HB). rewrite E. cbn [bind].
  assert (Eo : po_optimal o' = true). { apply (bounded_optimal t mp 0 solve [t_init t] o'); [|exact HB]. intros s [<-|[]]. eapply plan_bounded_at; eauto. }
  unfold get_potential_function. rewrite Eo. cbn [guard bind]. destruct HB as [HB _]. destruct (HB Eo) as (y & Hy & Hf & Ha & Hbest). rewrite (value_at _ y _ Hf Ha Hinit). cbn [bind].
  assert (V : (0 <= Qceiling (potential (wof y) (t_init t) - epsilon)%Q <= Z.of_nat (plan_cost t os))%Z).
  { pose proof eps_bounds as [E1 E2]. split.
    - specialize (Hbest _ (zero_psol t mp Hmp)). unfold sum_at in Hbest. cbn [qsum] in Hbest. assert (Z0 : (potential (Proof_Pot2.wof t (fun _ => 0%Q)) (t_init t) == 0)%Q) by (unfold potential; apply qsum_zero; intros; reflexivity). rewrite Z0 in Hbest.
      pose proof (Qle_ceiling (potential (wof y) (t_init t) - epsilon)%Q) as K. fold wof in Hbest. apply Z.lt_succ_r. rewrite Zlt_Qlt. unfold Z.succ. rewrite inject_Z_plus. change (inject_Z 0) with 0%Q. change (inject_Z 1) with 1%Q. lra.
    - apply ceil_le. pose proof (plan_bounded t Ht Hg mp (t_init t) os Hinit Hplan y Hy) as K. fold wof in K. unfold qnat in K. lra. }
  destruct (walk_ok _ os V Hlim) as (w & Ew). destruct smp; [cbn [bind]; eauto|]. rewrite Ew. cbn [bind]. eauto.
Qed.
Lemma create_ok f : (f = ALL_STATES -> mp <> None) -> exists p, create_potential_function solve t mp f = Ok p.
Proof.
  intros Hf. unfold create_potential_function. destruct (new_ok t Ht Hg mp 0 solve) as (o & E & Ho). rewrite E. cbn [bind]. destruct f.
  - destruct (state_opt (t_init t) o Ho Hinit) as (o' & E' & Ho' & HB). rewrite E'. cbn [bind]. assert (Eo : po_optimal o' = true). { apply (bounded_optimal t mp 0 solve [t_init t] o'); [|exact HB]. intros s [<-|[]]. eapply plan_bounded_at; eauto. }
    unfold get_potential_function. rewrite Eo. cbn. eauto.
  - destruct (all_ok t Ht mp Hmp 0 solve Hsolve o Ho (Hf eq_refl)) as (o' & E' & _ & Eo). rewrite E'. cbn [bind]. unfold get_potential_function. rewrite Eo. cbn. eauto.
Qed.
Lemma filter_ok smp o : oinv o -> mp = None -> Forall (state_ok t) smp -> exists smp' o', filter_dead_ends solve t smp o = Ok (smp', o') /\ oinv o' /\ (forall s, In s smp' -> In s smp /\ bounded_at t mp s).
Proof.
  intros Ho Em Hs. unfold filter_dead_ends, potentials_are_bounded. pose proof Ho as (_ & _ & Em' & _). rewrite (eq_trans Em' Em). cbn [negb guard bind].
  destruct (fold_inv (fun x s => let* o := optimize_for_state solve t s (snd x) in Ok (if po_optimal o then fst x ++ [s] else fst x, o)) (fun pre x => oinv (snd x) /\ forall s, In s (fst x) -> In s smp /\ bounded_at t mp s) smp ([], o)) as ([smp' o'] & E & H1 & H2).
  - split; [exact Ho|]. intros s [].
  - intros pre s post [l o1] Heq [H1 H2]. cbn [fst snd] in *. assert (Hin : In s smp) by (rewrite Heq; apply in_or_app; right; now left). rewrite Forall_forall in Hs.
    destruct (state_opt s o1 H1 (Hs s Hin)) as (o2 & E2 & Ho2 & HB). rewrite E2. cbn [bind]. eexists. split; [reflexivity|]. cbn [fst snd]. split; [exact Ho2|]. destruct (po_optimal o2) eqn:Eo; [|auto].
    intros s' Hs'. apply in_app_iff in Hs' as [K|[<-|[]]]; [auto|]. split; [auto|]. eapply (optimal_bounded t mp 0 solve); eauto.
  - exists smp', o'. auto.
Qed.
Lemma sampled_ok smp o : oinv o -> Forall (state_ok t) smp -> exists o', optimize_for_sampled solve rnd t smp o = Ok o' /\ oinv o' /\ po_optimal o' = true.
Proof.
  intros Ho Hs. unfold optimize_for_sampled. destruct (sample_without_ok smp o Ho) as (o1 & E1 & Ho1). rewrite E1. cbn [bind].
  assert (G : exists smp' o2, (if potentials_are_bounded o1 then Ok (smp, o1) else filter_dead_ends solve t smp o1) = Ok (smp', o2) /\ oinv o2 /\ forall s, In s smp' -> In s smp /\ bounded_at t mp s).
  { unfold potentials_are_bounded. pose proof Ho1 as (_ & _ & Em & _). destruct (opt_dec mp) as [K|K].
    - rewrite (eq_trans Em K). apply filter_ok; auto.
    - destruct (opt_some mp K) as (q & Eq). rewrite (eq_trans Em Eq). exists smp, o1. splits; auto. intros s Hin. split; auto. rewrite Forall_forall in Hs. eapply mp_bounded; eauto. }
  destruct G as (smp' & o2 & -> & Ho2 & Hin). cbn [bind fst snd]. assert (Hs' : Forall (state_ok t) smp') by (rewrite Forall_forall in *; intros s K; apply Hs, Hin, K).
  destruct (samples_ok t Ht mp Hmp 0 solve Hsolve smp' o2 Ho2 Hs') as (o3 & E3 & Ho3 & HB). exists o3. splits; auto. apply (bounded_optimal t mp 0 solve smp' o3); [|exact HB]. intros s K. apply Hin, K.
Qed.
Lemma sample_based_ok samples : (forall smp, In smp samples -> Forall (state_ok t) smp) -> exists ps, sample_based_functions solve rnd t mp samples = Ok ps /\ length ps = length samples.
Proof.
  intros Hs. unfold sample_based_functions. destruct (new_ok t Ht Hg mp 0 solve) as (o & E & Ho). rewrite E. cbn [bind].
  destruct (fold_inv (fun x smp => let* o := optimize_for_sampled solve rnd t smp (snd x) in let* p := get_potential_function o in Ok (fst x ++ [p], o)) (fun pre x => oinv (snd x) /\ length (fst x) = length pre) samples ([], o)) as ([ps o'] & E' & H1 & H2).
  - split; [exact Ho|reflexivity].
  - intros pre smp post [l o1] Heq [H1 H2]. cbn [fst snd] in *. destruct (sampled_ok smp o1 H1) as (o2 & E2 & Ho2 & Eo); [apply Hs; rewrite Heq; apply in_or_app; right; now left|]. rewrite E2. cbn [bind]. unfold get_potential_function. rewrite Eo. cbn [guard bind].
    eexists. split; [reflexivity|]. cbn [fst snd]. split; [exact Ho2|]. rewrite !app_length. cbn. lia.
  - rewrite E'. cbn [bind fst]. eauto.
Qed.

(** ** Diverse potential heuristics *)
Definition best_entry (s : state) (p : pfunction) : Prop :=
  state_ok t s /\ bounded_at t mp s /\ exists y, psol 0 y /\ fits t p y /\ answered t solve y /\ forall z, psol 0 z -> (potential (wof z) s <= potential (wof y) s)%Q.
Definition minv (m : list (state * pfunction)) : Prop := forall s p, In (s, p) m -> best_entry s p.
Lemma entry_good s p : best_entry s p -> pgood p.
Proof. intros (_ & _ & y & H1 & H2 & H3 & _). exists y. auto. Qed.
Lemma remove_ok f : pgood f -> forall m, minv m -> exists m', remove_covered_samples rnd f m = Ok m' /\ (forall e, In e m' -> In e m) /\ length m' <= length m /\ (length m' = length m -> m' = m) /\
  forall s p, In (s, p) m -> In (s, p) m' \/ get_value rnd f s = get_value rnd p s.
Proof.
  intros (yf & Hyf & Hff & Haf). induction m as [|[s p] r IH]; intros Hm; [exists []; splits; cbn; auto|].
  destruct IH as (r' & E & H1 & H2 & H3 & H4); [intros s' p' Hin; apply Hm; now right|]. destruct (Hm s p (or_introl eq_refl)) as (Hs & _ & y & Hy & Hf & Ha & Hbest).
  cbn [remove_covered_samples]. rewrite (value_at p y s Hf Ha Hs). cbn [bind]. rewrite (value_at f yf s Hff Haf Hs). cbn [bind].
  assert (L : (Qceiling (potential (wof yf) s - epsilon) <= Qceiling (potential (wof y) s - epsilon))%Z) by (apply Qceiling_resp_le; specialize (Hbest yf Hyf); lra).
  apply Z.leb_le in L. rewrite L. cbn [guard bind]. rewrite E. cbn [bind]. eexists. split; [reflexivity|]. destruct (Z.eqb_spec (Qceiling (potential (wof yf) s - epsilon)) (Qceiling (potential (wof y) s - epsilon))) as [Ev|Ev].
  - splits.
    + intros e He. right. auto.
    + cbn. lia.
    + cbn. lia.
    + intros s' p' [K|K].
      * injection K as <- <-. right. rewrite (value_at p y s Hf Ha Hs), (value_at f yf s Hff Haf Hs). now rewrite Ev.
      * destruct (H4 s' p' K); auto.
  - splits.
    + intros e [<-|He]; [now left|right; auto].
    + cbn. lia.
    + cbn. intros K. f_equal. apply H3. lia.
    + intros s' p' [K|K]; [left; now left|]. destruct (H4 s' p' K); [left; now right|auto].
Qed.
Lemma find_ok pick m o : oinv o -> minv m -> m <> [] -> exists f m' o', find_function solve rnd t pick m o = Ok (f, m', o') /\ oinv o' /\ minv m' /\ pgood f /\ length m' < length m /\
  forall s p, In (s, p) m -> In (s, p) m' \/ get_value rnd f s = get_value rnd p s.
Proof.
  intros Ho Hm Hne. unfold find_function. assert (Hs : Forall (state_ok t) (map fst m)). { apply Forall_forall. intros s Hin. apply in_map_iff in Hin as ([s' p] & <- & Hin). apply (Hm s' p Hin). }
  destruct (samples_ok t Ht mp Hmp 0 solve Hsolve (map fst m) o Ho Hs) as (o1 & E1 & Ho1 & HB). rewrite E1. cbn [bind].
  assert (Eo : po_optimal o1 = true). { apply (bounded_optimal t mp 0 solve (map fst m) o1); [|exact HB]. intros s Hin. apply in_map_iff in Hin as ([s' p] & <- & Hin). apply (Hm s' p Hin). }
  unfold get_potential_function. rewrite Eo. cbn [guard bind]. assert (Hgd : pgood (po_pots o1)) by (apply Ho1; exact Eo).
  destruct (remove_ok (po_pots o1) Hgd m Hm) as (m1 & E2 & R1 & R2 & R3 & R4). rewrite E2. cbn [bind]. destruct (Nat.eqb_spec (length m1) (length m)) as [El|El].
  - assert (m1 = m) by auto. subst m1. set (i := pick m mod length m). assert (Hi : i < length m) by (apply Nat.mod_upper_bound; destruct m; [congruence|cbn; lia]).
    destruct (vget_some m i Hi) as ([se pe] & Hn & ->). cbn [bind snd]. assert (Hbe : best_entry se pe) by (apply Hm; eapply nth_error_In; eauto).
    assert (Hsub : forall e, In e (firstn i m ++ skipn (S i) m) -> In e m). { intros e He. apply in_app_iff in He as [K|K]; [rewrite <- (firstn_skipn i m)|rewrite <- (firstn_skipn (S i) m)]; apply in_or_app; auto. }
    destruct (remove_ok pe (entry_good _ _ Hbe) (firstn i m ++ skipn (S i) m)) as (m2 & E3 & S1 & S2 & _ & S4); [intros s p Hin; apply Hm; auto|]. rewrite E3. cbn [bind]. exists pe, m2, o1. splits; auto.
    + intros s p Hin. apply Hm, Hsub, S1, Hin.
    + eapply entry_good; eauto.
    + rewrite app_length, firstn_length, skipn_length in S2. lia.
    + intros s p Hin. destruct (In_nth_error _ _ Hin) as (j & Hj). destruct (lt_eq_lt_dec j i) as [[Lj| ->]|Lj].
      * apply S4. apply in_or_app. left. apply nth_error_In with (n := j).
        assert (G : nth_error (firstn i m) j = nth_error m j). { clear -Lj. clearbody i. revert i j Lj. induction m as [|a r IH]; intros i j L; [now rewrite firstn_nil|]. destruct i; [lia|]. destruct j; [reflexivity|]. cbn. apply IH. lia. }
        now rewrite G.
      * right. rewrite Hn in Hj. now injection Hj as <- <-.
      * apply S4. apply in_or_app. right. apply nth_error_In with (n := j - S i). assert (G : nth_error (skipn (S i) m) (j - S i) = nth_error m j). { rewrite <- (firstn_skipn (S i) m) at 2. rewrite nth_error_app2; [f_equal; rewrite firstn_length; lia|rewrite firstn_length; lia]. }
        now rewrite G.
  - exists (po_pots o1), m1, o1. splits; auto; [intros s p Hin; apply Hm, R1, Hin|lia].
Qed.
Lemma cover_ok pick maxn : forall fuel fs m o, length m <= fuel -> oinv o -> minv m -> Forall pgood fs -> length fs <= maxn ->
  exists fs', cover_samples solve rnd fuel t pick maxn fs m o = Ok fs' /\ Forall pgood fs' /\ length fs' <= maxn /\ (forall f, In f fs -> In f fs') /\
    (length fs' < maxn -> forall s p, In (s, p) m -> exists f, In f fs' /\ get_value rnd f s = get_value rnd p s).
Proof.
  induction fuel as [|fuel IH]; intros fs m o Lm Ho Hm Hf Lf; cbn [cover_samples].
  - destruct m; [|cbn in Lm; lia]. exists fs. splits; auto. intros _ s p [].
  - destruct m as [|e m]; [exists fs; splits; auto; intros _ s p []|]. destruct (Nat.ltb_spec (length fs) maxn) as [L|L]; [|exists fs; splits; auto; lia].
    destruct (find_ok pick (e :: m) o Ho Hm) as (f & m' & o' & E & Ho' & Hm' & Hgf & Lm' & Hcov); [discriminate|]. rewrite E. cbn [bind fst snd].
    destruct (IH (fs ++ [f]) m' o') as (fs' & E' & F1 & F2 & F3 & F4); [cbn [length] in *; lia|exact Ho'|exact Hm'|apply Forall_app; auto|rewrite app_length; cbn; lia|].
    exists fs'. splits; auto; [intros g Hgin; apply F3, in_or_app; auto|]. intros Lt s p Hin. destruct (Hcov s p Hin) as [K|K]; [eauto|]. exists f. split; [apply F3, in_or_app; right; now left|exact K].
Qed.
Lemma state_eqb_ok s s' : state_eqb s s' = true <-> s = s'.
Proof. unfold state_eqb. destruct (list_eq_dec Nat.eq_dec s s'); split; congruence. Qed.
Lemma filter_samples_ok samples o : oinv o -> Forall (state_ok t) samples -> exists m o', filter_samples_and_compute_functions solve t samples o = Ok (m, o') /\ oinv o' /\ minv m /\ length m <= length samples /\
  forall s, In s samples -> bounded_at t mp s -> exists p, In (s, p) m.
Proof.
  intros Ho Hs. unfold filter_samples_and_compute_functions. rewrite Forall_forall in Hs.
  destruct (fold_inv (filter_sample solve t) (fun pre x => oinv (snd x) /\ minv (fst (fst x)) /\ length (fst (fst x)) <= length pre /\ (forall s, In s (snd (fst x)) -> ~ bounded_at t mp s) /\
     forall s, In s pre -> (exists p, In (s, p) (fst (fst x))) \/ In s (snd (fst x))) samples ([], [], o)) as ([[m dead] o'] & E & H1 & H2 & H3 & H4 & H5).
  - cbn [fst snd]. splits; auto; try (intros; contradiction). intros s p [].
  - intros pre s post [[m dead] o1] Heq (H1 & H2 & H3 & H4 & H5). cbn [fst snd] in *. assert (Hin : In s samples) by (rewrite Heq; apply in_or_app; right; now left). unfold filter_sample.
    destruct (existsb (fun e => state_eqb (fst e) s) m) eqn:Em; [|destruct (existsb (state_eqb s) dead) eqn:Ed]; cbn [orb].
    + eexists. split; [reflexivity|]. cbn [fst snd]. splits; auto; [rewrite app_length; cbn; lia|]. intros s' Hs'. apply in_app_iff in Hs' as [K|[<-|[]]]; [auto|]. left. apply existsb_exists in Em as ([s1 p] & Hi & K). apply state_eqb_ok in K. cbn in K. subst. eauto.
    + eexists. split; [reflexivity|]. cbn [fst snd]. splits; auto; [rewrite app_length; cbn; lia|]. intros s' Hs'. apply in_app_iff in Hs' as [K|[<-|[]]]; [auto|]. right. apply existsb_exists in Ed as (s1 & Hi & K). apply state_eqb_ok in K. now subst.
    + destruct (state_opt s o1 H1 (Hs s Hin)) as (o2 & E2 & Ho2 & HB). rewrite E2. cbn [bind]. destruct (po_optimal o2) eqn:Eo.
      * unfold get_potential_function. rewrite Eo. cbn [guard bind]. eexists. split; [reflexivity|]. cbn [fst snd]. splits; auto.
        -- intros s' p' Hi. apply in_app_iff in Hi as [K|[K|[]]]; [auto|]. injection K as <- <-. split; [auto|]. split; [eapply optimal_bounded; eauto|]. destruct HB as [HB _]. destruct (HB Eo) as (y & A & B & C & D).
           exists y. splits; auto. intros z Hz. specialize (D z Hz). unfold sum_at in D. cbn [qsum] in D. fold wof in D. lra.
        -- rewrite !app_length. cbn. lia.
        -- intros s' Hs'. apply in_app_iff in Hs' as [K|[<-|[]]]; [|left; exists (po_pots o2); apply in_or_app; right; now left]. destruct (H5 s' K) as [(p & Hp)|K']; [left; exists p; apply in_or_app; auto|auto].
      * eexists. split; [reflexivity|]. cbn [fst snd]. splits; auto.
        -- rewrite app_length. cbn. lia.
        -- intros s' Hs'. apply in_app_iff in Hs' as [K|[<-|[]]]; [auto|]. intros Hbd. assert (po_optimal o2 = true); [|congruence]. apply (bounded_optimal t mp 0 solve [s] o2); [|exact HB]. intros s' [<-|[]]. exact Hbd.
        -- intros s' Hs'. apply in_app_iff in Hs' as [K|[<-|[]]]; [|right; apply in_or_app; right; now left]. destruct (H5 s' K) as [K'|K']; [auto|right; apply in_or_app; auto].
  - rewrite E. cbn [bind fst snd]. exists m, o'. cbn [fst snd] in *. splits; auto. intros s Hin Hbd. destruct (H5 s Hin) as [K|K]; [auto|]. exfalso. eapply H4; eauto.
Qed.
Lemma diverse_ok fuel pick maxn samples : Forall (state_ok t) samples -> length samples <= fuel ->
  exists fs, diverse_functions solve rnd fuel t pick maxn mp samples = Ok fs /\ length fs <= maxn /\
    (length fs < maxn -> forall s, In s samples -> bounded_at t mp s -> exists f p, In f fs /\ best_entry s p /\ get_value rnd f s = get_value rnd p s).
Proof.
  intros Hs Hfu. unfold diverse_functions. destruct (new_ok t Ht Hg mp 0 solve) as (o & E & Ho). rewrite E. cbn [bind]. destruct (sample_without_ok samples o Ho) as (o1 & E1 & Ho1). rewrite E1. cbn [bind].
  destruct (filter_samples_ok samples o1 Ho1 Hs) as (m & o2 & E2 & Ho2 & Hm & Lm & Hin). rewrite E2. cbn [bind fst snd].
  destruct (cover_ok pick maxn fuel [] m o2) as (fs & E3 & F1 & F2 & _ & F4); [lia|exact Ho2|exact Hm|constructor|cbn; lia|]. exists fs. splits; auto.
  intros L s Hi Hbd. destruct (Hin s Hi Hbd) as (p & Hp). destruct (F4 L s p Hp) as (f & Hf & Ev). exists f, p. splits; auto.
Qed.
End Solvable.
End Exact.

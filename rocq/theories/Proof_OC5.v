(** Proofs about operator-counting constraints, part 5: delete relaxation after Imai and Fukunaga. *)
From Coq Require Import QArith Lqa Permutation.
From Verif Require Import Outcome Spec_Task Spec_Relaxation Spec_Projection Spec_LP Spec_OperatorCounting Model_LPSolver Model_LMCut Model_OperatorCounting
  Proof_Task Proof_PerState2 Proof_OC1 Proof_OC2 Proof_OC4.
Local Open Scope nat_scope.

(** ** General facts *)
Lemma nodup_app {A} (a b : list A) : NoDup a -> NoDup b -> (forall x, In x a -> ~ In x b) -> NoDup (a ++ b).
Proof.
  induction a as [|y a IH]; intros Ha Hb Hd; cbn [app]; auto. inv Ha. constructor; [|apply IH; auto; intros o Ho; apply Hd; now right]. rewrite in_app_iff. intros [H|H]; auto. apply (Hd y); auto. now left.
Qed.
Lemma nodup_concat {A B} (h : A -> list B) l : NoDup l -> (forall a, In a l -> NoDup (h a)) -> (forall a b x, In x (h a) -> In x (h b) -> a = b) -> NoDup (concat (map h l)).
Proof.
  induction l as [|a r IH]; intros Hn H1 H2; cbn [map concat]; [constructor|]. inv Hn. apply nodup_app; [apply H1; now left|apply IH; auto; intros; apply H1; now right|].
  intros x Hx Hi. apply in_concat in Hi. destruct Hi as (l & Hl & Hi). apply in_map_iff in Hl. destruct Hl as (b & <- & Hb). apply H3. now rewrite (H2 a b x Hx Hi).
Qed.
Lemma omap_cons {A B} (f : A -> outcome B) (g : A -> B) l : (forall a, In a l -> f a = Ok (g a)) -> omap f l = Ok (map g l).
Proof. apply omap_ok. Qed.

(** The variables of a generator, the first of which has number [b]. *)
Definition vars_ok (b : nat) (nv : list lpvar) (y : nat -> Q) : Prop := forall i v, nth_error nv i = Some v -> var_ok (y (b + i)) v.
Lemma vars_ok_keys tb w y : NoDup (tb_keys tb) -> vars_ok (tb_base tb) (map w (tb_keys tb)) y <-> forall k, In k (tb_keys tb) -> var_ok (y (idx tb k)) (w k).
Proof.
  intros Hn. unfold vars_ok. split.
  - intros H k Hk. destruct (In_nth_error _ _ Hk) as [i Hi]. rewrite (idx_nth tb k i Hn Hi). apply H. now apply map_nth_error.
  - intros H i v Hi. rewrite nth_error_map in Hi. destruct (nth_error (tb_keys tb) i) as [k|] eqn:Ek; [|discriminate]. inv Hi. rewrite <- (idx_nth tb k i Hn Ek). apply H. eapply nth_error_In; eauto.
Qed.
Lemma ranges_ext int lo up p q : (p == q)%Q -> ranges int lo up p -> ranges int lo up q.
Proof. intros E (H1 & H2 & H3). unfold ranges. splits; [now rewrite <- E|now rewrite <- E|]. intros Hi. eapply integral_ext; eauto. Qed.
Lemma var_ok_aux int lo up q : var_ok q (aux_var int lo up) <-> ranges int lo up q.
Proof. reflexivity. Qed.
Lemma var_ok_raised int w G q f : w (KReached f) = aux_var int 0 1 -> var_ok q (raised w G (KReached f)) <-> ranges int 0 1 q /\ (In f G -> (1 <= q)%Q).
Proof.
  intros E. cbn [raised]. rewrite E. unfold var_ok, ranges. destruct (existsb (feqb f) G) eqn:Ef; cbn [aux_var v_lo v_up v_int above below].
  - apply existsb_feqb in Ef. split; [intros (H1 & H2 & H3); splits; auto; lra|intros ((H1 & H2 & H3) & H4); splits; auto].
  - split; [intros (H1 & H2 & H3); splits; auto; intros Hi; apply existsb_feqb in Hi; congruence|intros ((H1 & H2 & H3) & H4); splits; auto].
Qed.
Lemma qn_succ n : (qn (n + 1) == qn n + 1)%Q.
Proof. unfold qn. rewrite Nat2Z.inj_add, inject_Z_plus. reflexivity. Qed.

Section IF.
Variable t : task.
Hypothesis Ht : plain_task t.
Variables (time int : bool).

Definition if_body (s : state) (x : nat -> Q) (U : nat -> Q) (R : fact -> Q) (F : nat -> fact -> Q) (TO : nat -> Q) (TF : fact -> Q) : Prop := (
    (forall o op, is_op t o op -> ranges int 0 1 (U o)) /\
    (forall f, is_fact t f -> ranges int 0 1 (R f)) /\
    (forall o op f, is_op t o op -> is_fact t f -> ranges int 0 1 (F o f)) /\
    (forall f, In f (t_goal t) -> 1 <= R f) /\
    (forall f, is_fact t f -> R f <= opsum t (fun o op => ind (adds op f) * F o f) + ind (in_state s f)) /\
    (forall o op f, is_op t o op -> adds op f = true -> F o f <= U o) /\
    (forall o op f, is_op t o op -> In f (op_pre op) -> U o <= R f) /\
    (forall o op, is_op t o op -> U o <= x o) /\
    (time = true ->
      (forall o op, is_op t o op -> ranges int 0 (num_ops t) (TO o)) /\
      (forall f, is_fact t f -> ranges int 0 (num_ops t) (TF f)) /\
      (forall o op f, is_op t o op -> In f (op_pre op) -> TF f <= TO o) /\
      (forall o op f, is_op t o op -> adds op f = true -> TO o + 1 <= TF f + (num_ops t + 1) * (1 - F o f))))%Q.
Lemma if_body_ext s x x' U U' R R' F F' TO TO' TF TF' : (forall o op, is_op t o op -> (x o == x' o)%Q /\ (U o == U' o)%Q /\ (time = true -> (TO o == TO' o)%Q)) ->
  (forall f, is_fact t f -> (R f == R' f)%Q /\ (time = true -> (TF f == TF' f)%Q)) -> (forall o op f, is_op t o op -> is_fact t f -> (F o f == F' o f)%Q) ->
  if_body s x U R F TO TF -> if_body s x' U' R' F' TO' TF'.
Proof.
  intros E1 E2 E3 (H1 & H2 & H3 & H4 & H5 & H6 & H7 & H8 & H9). unfold if_body.
  assert (Ea : forall o op f, is_op t o op -> adds op f = true -> is_fact t f) by (intros o op f Ho Ha; apply adds_spec in Ha; destruct Ha as (e & He & <-); eapply eff_fact_ok; eauto).
  assert (Ep : forall o op f, is_op t o op -> In f (op_pre op) -> is_fact t f) by (intros; eapply pre_fact; eauto).
  splits.
  - intros o op Ho. destruct (E1 o op Ho) as (_ & E & _). eapply ranges_ext; eauto.
  - intros f Hf. destruct (E2 f Hf) as [E _]. eapply ranges_ext; eauto.
  - intros o op f Ho Hf. eapply ranges_ext; [eapply E3; eauto|eauto].
  - intros f Hf. destruct (E2 f (goal_fact t Ht f Hf)) as [E _]. rewrite <- E. auto.
  - intros f Hf. destruct (E2 f Hf) as [E _]. rewrite <- E. rewrite <- (opsum_ext t (fun o op => ind (adds op f) * F o f)%Q); [auto|]. intros o op Ho. now rewrite (E3 o op f Ho Hf).
  - intros o op f Ho Ha. destruct (E1 o op Ho) as (_ & E & _). rewrite <- E, <- (E3 o op f Ho (Ea o op f Ho Ha)). eauto.
  - intros o op f Ho Hp. destruct (E1 o op Ho) as (_ & E & _). destruct (E2 f (Ep o op f Ho Hp)) as [E' _]. rewrite <- E, <- E'. eauto.
  - intros o op Ho. destruct (E1 o op Ho) as (E & E' & _). rewrite <- E, <- E'. eauto.
  - intros Htime. destruct (H9 Htime) as (T1 & T2 & T3 & T4). splits.
    + intros o op Ho. destruct (E1 o op Ho) as (_ & _ & E). eapply ranges_ext; eauto.
    + intros f Hf. destruct (E2 f Hf) as [_ E]. eapply ranges_ext; eauto.
    + intros o op f Ho Hp. destruct (E1 o op Ho) as (_ & _ & E). destruct (E2 f (Ep o op f Ho Hp)) as [_ E']. rewrite <- E, <- E' by auto. eauto.
    + intros o op f Ho Ha. destruct (E1 o op Ho) as (_ & _ & E). destruct (E2 f (Ea o op f Ho Ha)) as [_ E']. rewrite <- E, <- E', <- (E3 o op f Ho (Ea o op f Ho Ha)) by auto. eauto.
Qed.

(** The table. *)
Lemma is_op_lt o : (exists op, is_op t o op) <-> o < length (t_ops t).
Proof. unfold is_op. split; [intros [op H]; eapply nth_error_Some_lt; eauto|]. intros H. destruct (nth_error (t_ops t) o) as [op|] eqn:E; [eauto|]. apply nth_error_None in E. lia. Qed.
Lemma in_facts f : In f (all_facts t) <-> is_fact t f. Proof. destruct f. apply in_all_facts. Qed.
Lemma if_keys_in k : In k (if_keys t time) <-> match k with
  | KUsed o => exists op, is_op t o op
  | KReached f => is_fact t f
  | KFirst o f => (exists op, is_op t o op) /\ is_fact t f
  | KOpTime o => time = true /\ exists op, is_op t o op
  | KFactTime f => time = true /\ is_fact t f
  | KEdge _ _ => False end.
Proof.
  unfold if_keys. rewrite !in_app_iff, in_map_iff, in_map_iff, in_concat.
  assert (HF : (exists x, In x (map (fun o => map (KFirst o) (all_facts t)) (seq 0 (length (t_ops t)))) /\ In k x) <-> exists o f, k = KFirst o f /\ o < length (t_ops t) /\ In f (all_facts t)).
  { split.
    - intros (l & Hl & Hk). apply in_map_iff in Hl. destruct Hl as (o & <- & Ho). apply in_map_iff in Hk. destruct Hk as (f & <- & Hf). apply in_seq in Ho. exists o, f. splits; auto. lia.
    - intros (o & f & -> & Ho & Hf). exists (map (KFirst o) (all_facts t)). split; apply in_map_iff; eauto. exists o. split; auto. apply in_seq. lia. }
  rewrite HF. clear HF.
  assert (HT : In k (if time then map KOpTime (seq 0 (length (t_ops t))) ++ map KFactTime (all_facts t) else []) <->
    time = true /\ ((exists o, k = KOpTime o /\ o < length (t_ops t)) \/ exists f, k = KFactTime f /\ In f (all_facts t))).
  { destruct time; [|cbn; split; [tauto|intros [H _]; discriminate]]. rewrite in_app_iff, !in_map_iff. split.
    - intros [(o & <- & Ho)|(f & <- & Hf)]; split; auto; [left|right; eauto]. apply in_seq in Ho. exists o. split; auto. lia.
    - intros [_ [(o & -> & Ho)|(f & -> & Hf)]]; [left; exists o; split; auto; apply in_seq; lia|right; eauto]. }
  rewrite HT. clear HT. assert (HS : forall o, In o (seq 0 (length (t_ops t))) <-> o < length (t_ops t)) by (intros o; rewrite in_seq; lia).
  destruct k as [o|f|o f|o|f|f g].
  - rewrite is_op_lt. split.
    + intros [(o' & E & H)|[(f & E & _)|[(o' & f & E & _)|[_ [(o' & E & _)|(f & E & _)]]]]]; inv E. now apply HS.
    + intros H. left. exists o. split; auto. now apply HS.
  - rewrite <- in_facts. split.
    + intros [(o' & E & H)|[(f' & E & H)|[(o' & f' & E & _)|[_ [(o' & E & _)|(f' & E & _)]]]]]; inv E. auto.
    + intros H. right. left. eauto.
  - rewrite is_op_lt, <- in_facts. split.
    + intros [(o' & E & H)|[(f' & E & H)|[(o' & f' & E & H)|[_ [(o' & E & _)|(f' & E & _)]]]]]; inv E. auto.
    + intros H. right. right. left. exists o, f. tauto.
  - rewrite is_op_lt. split.
    + intros [(o' & E & H)|[(f' & E & H)|[(o' & f' & E & H)|[HT [(o' & E & H)|(f' & E & _)]]]]]; inv E. auto.
    + intros H. right. right. right. split; [tauto|]. left. exists o. tauto.
  - rewrite <- in_facts. split.
    + intros [(o' & E & H)|[(f' & E & H)|[(o' & f' & E & H)|[HT [(o' & E & H)|(f' & E & H)]]]]]; inv E. auto.
    + intros H. right. right. right. split; [tauto|]. right. exists f. tauto.
  - split; [|tauto]. intros [(o' & E & H)|[(f' & E & H)|[(o' & f' & E & H)|[HT [(o' & E & H)|(f' & E & H)]]]]]; inv E.
Qed.
Lemma if_keys_nodup : NoDup (if_keys t time).
Proof.
  assert (Hf := all_facts_nodup t). assert (Hs := seq_NoDup (length (t_ops t)) 0). unfold if_keys.
  apply nodup_app; [apply FinFun.Injective_map_NoDup; auto; intros a b E; now inv E| |].
  apply nodup_app; [apply FinFun.Injective_map_NoDup; auto; intros a b E; now inv E| |].
  apply nodup_app.
  - apply nodup_concat; auto.
    + intros o _. apply FinFun.Injective_map_NoDup; auto; intros a b E; now inv E.
    + intros a b x Ha Hb. apply in_map_iff in Ha, Hb. destruct Ha as (f & <- & _), Hb as (g & E & _). now inv E.
  - destruct time; [|constructor]. apply nodup_app; try (apply FinFun.Injective_map_NoDup; auto; intros a b E; now inv E).
    intros k H1 H2. apply in_map_iff in H1, H2. destruct H1 as (o & <- & _), H2 as (f & E & _). discriminate.
  - intros k H1 H2. apply in_concat in H1. destruct H1 as (l & Hl & H1). apply in_map_iff in Hl. destruct Hl as (o & <- & _). apply in_map_iff in H1. destruct H1 as (f & <- & _).
    destruct time; [|destruct H2]. apply in_app_or in H2. destruct H2 as [H2|H2]; apply in_map_iff in H2; destruct H2 as (z & E & _); discriminate.
  - intros k H1 H2. apply in_map_iff in H1. destruct H1 as (f & <- & _). apply in_app_or in H2. destruct H2 as [H2|H2].
    + apply in_concat in H2. destruct H2 as (l & Hl & H2). apply in_map_iff in Hl. destruct Hl as (o & <- & _). apply in_map_iff in H2. destruct H2 as (f' & E & _). discriminate.
    + destruct time; [|destruct H2]. apply in_app_or in H2. destruct H2 as [H2|H2]; apply in_map_iff in H2; destruct H2 as (z & E & _); discriminate.
  - intros k H1 H2. apply in_map_iff in H1. destruct H1 as (f & <- & _). apply in_app_or in H2. destruct H2 as [H2|H2]; [apply in_map_iff in H2; destruct H2 as (z & E & _); discriminate|]. apply in_app_or in H2. destruct H2 as [H2|H2].
    + apply in_concat in H2. destruct H2 as (l & Hl & H2). apply in_map_iff in Hl. destruct Hl as (o & <- & _). apply in_map_iff in H2. destruct H2 as (f' & E & _). discriminate.
    + destruct time; [|destruct H2]. apply in_app_or in H2. destruct H2 as [H2|H2]; apply in_map_iff in H2; destruct H2 as (z & E & _); discriminate.
Qed.

(** The rows. *)
Variable tb : table.
Hypothesis Htb : tb_keys tb = if_keys t time.
Let id := idx tb.
Definition if_terms (f : fact) : list (nat * Q) :=
  [(id (KReached f), (-1)%Q)] ++ map (fun of : nat * fact => (id (KFirst (fst of) f), 1%Q)) (filter (fun of => feqb (snd of) f) (op_effects t)).
Definition if_rest : list lpcon :=
  let m := qn (length (t_ops t) + 1) in
  map (fun of : nat * fact => con (Some 0%Q) None [(id (KUsed (fst of)), 1%Q); (id (KFirst (fst of) (snd of)), (-1)%Q)]) (op_effects t) ++
  map (fun of : nat * fact => con (Some 0%Q) None [(id (KReached (snd of)), 1%Q); (id (KUsed (fst of)), (-1)%Q)]) (op_pres t) ++
  (if time then map (fun of : nat * fact => con (Some 0%Q) None [(id (KOpTime (fst of)), 1%Q); (id (KFactTime (snd of)), (-1)%Q)]) (op_pres t) else []) ++
  (if time then map (fun of : nat * fact => con (Some (1 - m)%Q) None [(id (KFactTime (snd of)), 1%Q); (id (KOpTime (fst of)), (-1)%Q); (id (KFirst (fst of) (snd of)), (- m)%Q)]) (op_effects t) else []) ++
  map (fun o => con (Some 0%Q) None [(o, 1%Q); (id (KUsed o), (-1)%Q)]) (seq 0 (length (t_ops t))).
Lemma eff_in o f : In (o, f) (op_effects t) -> (exists op, is_op t o op) /\ is_fact t f.
Proof. intros H. apply in_op_effects in H. destruct H as (op & e & Ho & He & <-). split; eauto. eapply eff_fact_ok; eauto. Qed.
Lemma pre_in o f : In (o, f) (op_pres t) -> (exists op, is_op t o op) /\ is_fact t f.
Proof. intros H. apply in_op_pres in H. destruct H as (op & Ho & He). split; eauto. eapply pre_fact; eauto. Qed.
Ltac key := match goal with |- In _ (tb_keys tb) => rewrite Htb; apply if_keys_in; auto end.
Lemma if_constraints_ok rows : if_constraints t time tb rows = Ok (rows ++ map (fun f => con (Some 0%Q) None (if_terms f)) (all_facts t) ++ if_rest).
Proof.
  unfold if_constraints. rewrite (omap_ok _ (fun f => con (Some 0%Q) None [(id (KReached f), (-1)%Q)])).
  2: { intros f Hf. rewrite id_of_ok; [reflexivity|]. apply in_facts in Hf. key. }
  cbn [bind]. rewrite (insert_fold t tb 1%Q (Some 0%Q) None (fun f => [(id (KReached f), (-1)%Q)]) rows (op_effects t)).
  2: { intros [o f] Hi. cbn [fst snd]. apply eff_in in Hi. split; [tauto|]. key. }
  cbn [bind]. rewrite (omap_ok _ (fun of : nat * fact => con (Some 0%Q) None [(id (KUsed (fst of)), 1%Q); (id (KFirst (fst of) (snd of)), (-1)%Q)])).
  2: { intros [o f] Hi. cbn [fst snd]. apply eff_in in Hi. rewrite id_of_ok by (key; tauto). cbn [bind]. rewrite id_of_ok by (key; tauto). reflexivity. }
  cbn [bind]. rewrite (omap_ok _ (fun of : nat * fact => con (Some 0%Q) None [(id (KReached (snd of)), 1%Q); (id (KUsed (fst of)), (-1)%Q)])).
  2: { intros [o f] Hi. cbn [fst snd]. apply pre_in in Hi. rewrite id_of_ok by (key; tauto). cbn [bind]. rewrite id_of_ok by (key; tauto). reflexivity. }
  cbn [bind]. match goal with |- context[if time then omap ?f (op_pres t) else Ok []] => assert (E4 : (if time then omap f (op_pres t) else Ok []) =
    Ok (if time then map (fun of : nat * fact => con (Some 0%Q) None [(id (KOpTime (fst of)), 1%Q); (id (KFactTime (snd of)), (-1)%Q)]) (op_pres t) else [])) end.
  { case_eq time; intros Etime; auto. apply omap_ok. intros [o f] Hi. cbn [fst snd]. apply pre_in in Hi. rewrite id_of_ok by (rewrite Htb; apply (if_keys_in (KOpTime o)); tauto). cbn [bind]. rewrite id_of_ok by (rewrite Htb; apply (if_keys_in (KFactTime f)); tauto). reflexivity. }
  rewrite E4. cbn [bind]. match goal with |- context[if time then omap ?f (op_effects t) else Ok []] => assert (E5 : (if time then omap f (op_effects t) else Ok []) =
    Ok (if time then map (fun of : nat * fact => con (Some (1 - qn (length (t_ops t) + 1))%Q) None [(id (KFactTime (snd of)), 1%Q); (id (KOpTime (fst of)), (-1)%Q); (id (KFirst (fst of) (snd of)), (- qn (length (t_ops t) + 1))%Q)]) (op_effects t) else [])) end.
  { case_eq time; intros Etime; auto. apply omap_ok. intros [o f] Hi. cbn [fst snd]. apply eff_in in Hi. rewrite id_of_ok by (rewrite Htb; apply (if_keys_in (KFactTime f)); tauto). cbn [bind]. rewrite id_of_ok by (rewrite Htb; apply (if_keys_in (KOpTime o)); tauto). cbn [bind].
    rewrite id_of_ok by (rewrite Htb; apply (if_keys_in (KFirst o f)); tauto). reflexivity. }
  rewrite E5. cbn [bind]. rewrite (omap_ok _ (fun o => con (Some 0%Q) None [(o, 1%Q); (id (KUsed o), (-1)%Q)])).
  2: { intros o Hi. apply in_seq in Hi. rewrite id_of_ok; [reflexivity|]. key. apply is_op_lt. lia. }
  cbn [bind]. unfold if_rest. rewrite <- !app_assoc. reflexivity.
Qed.

Lemma if_rows_iff (lo : fact -> bool) (y : nat -> Q) s : (forall f, lo f = in_state s f) ->
  (vars_ok (tb_base tb) (map (raised (if_var t int) (t_goal t)) (tb_keys tb)) y /\
   forall r, In r (map (fun f => con (Some (if lo f then (-1)%Q else 0%Q)) None (if_terms f)) (all_facts t) ++ if_rest) -> con_ok y r) <->
  if_body s y (fun o => y (id (KUsed o))) (fun f => y (id (KReached f))) (fun o f => y (id (KFirst o f))) (fun o => y (id (KOpTime o))) (fun f => y (id (KFactTime f))).
Proof.
  intros Hlo. rewrite vars_ok_keys by (rewrite Htb; apply if_keys_nodup).
  assert (Hterm : forall f, is_fact t f -> (lin y (if_terms f) == opsum t (fun o op => ind (adds op f) * y (id (KFirst o f))) - y (id (KReached f)))%Q).
  { intros f Hf. unfold if_terms. rewrite lin_app, (first_sum t Ht y f Hf (fun o => id (KFirst o f)) 1%Q). unfold lin. cbn [qsum fst snd]. ring. }
  assert (Hpair : forall a b lo, con_ok y (con (Some lo) None [(a, 1%Q); (b, (-1)%Q)]) <-> (lo <= y a - y b)%Q).
  { intros a b l. unfold con_ok, lin. cbn [con c_lo c_up c_terms above below qsum fst snd]. split; [intros [H _]|intros H; split; auto]; lra. }
  split.
  - intros [HV HR]. unfold if_body.
    assert (HK : forall k, match k with KUsed o => exists op, is_op t o op | KReached f => is_fact t f | KFirst o f => (exists op, is_op t o op) /\ is_fact t f
       | KOpTime o => time = true /\ exists op, is_op t o op | KFactTime f => time = true /\ is_fact t f | KEdge _ _ => False end -> var_ok (y (id k)) (raised (if_var t int) (t_goal t) k)).
    { intros k Hk. apply HV. rewrite Htb. now apply if_keys_in. }
    assert (HRest : forall r, In r if_rest -> con_ok y r) by (intros r Hr; apply HR, in_or_app; now right). unfold if_rest in HRest.
    splits.
    + intros o op Ho. apply (HK (KUsed o)). eauto.
    + intros f Hf. apply (var_ok_raised int (if_var t int) (t_goal t) _ f eq_refl). now apply (HK (KReached f)).
    + intros o op f Ho Hf. apply (HK (KFirst o f)). eauto.
    + intros f Hf. apply (var_ok_raised int (if_var t int) (t_goal t) _ f eq_refl); auto. apply (HK (KReached f)). now apply goal_fact.
    + intros f Hf. destruct (HR (con (Some (if lo f then (-1)%Q else 0%Q)) None (if_terms f))) as [H _].
      { apply in_or_app. left. apply in_map_iff. exists f. split; auto. now apply in_facts. }
      cbn [con c_lo c_terms above] in H. rewrite (Hterm f Hf), (Hlo f) in H. destruct (in_state s f); cbn [ind]; lra.
    + intros o op f Ho Ha. specialize (HRest (con (Some 0%Q) None [(id (KUsed o), 1%Q); (id (KFirst o f), (-1)%Q)])). rewrite Hpair in HRest. apply adds_spec in Ha. destruct Ha as (e & He & Ee).
      enough (0 <= y (id (KUsed o)) - y (id (KFirst o f)))%Q by lra. apply HRest. rewrite !in_app_iff. left. apply in_map_iff. exists (o, f). split; auto. apply in_op_effects. eauto.
    + intros o op f Ho Hp. specialize (HRest (con (Some 0%Q) None [(id (KReached f), 1%Q); (id (KUsed o), (-1)%Q)])). rewrite Hpair in HRest.
      enough (0 <= y (id (KReached f)) - y (id (KUsed o)))%Q by lra. apply HRest. rewrite !in_app_iff. right. left. apply in_map_iff. exists (o, f). split; auto. apply in_op_pres. eauto.
    + intros o op Ho. specialize (HRest (con (Some 0%Q) None [(o, 1%Q); (id (KUsed o), (-1)%Q)])). rewrite Hpair in HRest.
      enough (0 <= y o - y (id (KUsed o)))%Q by lra. apply HRest. rewrite !in_app_iff. right. right. right. right. apply in_map_iff. exists o. split; auto. apply in_seq. assert (o < length (t_ops t)) by (apply is_op_lt; eauto). lia.
    + intros Htime. splits.
      * intros o op Ho. apply (HK (KOpTime o)). eauto.
      * intros f Hf. apply (HK (KFactTime f)). auto.
      * intros o op f Ho Hp. specialize (HRest (con (Some 0%Q) None [(id (KOpTime o), 1%Q); (id (KFactTime f), (-1)%Q)])). rewrite Hpair in HRest.
        enough (0 <= y (id (KOpTime o)) - y (id (KFactTime f)))%Q by lra. apply HRest. rewrite !in_app_iff. right. right. left. rewrite Htime. apply in_map_iff. exists (o, f). split; auto. apply in_op_pres. eauto.
      * intros o op f Ho Ha. apply adds_spec in Ha. destruct Ha as (e & He & Ee).
        destruct (HRest (con (Some (1 - qn (length (t_ops t) + 1))%Q) None [(id (KFactTime f), 1%Q); (id (KOpTime o), (-1)%Q); (id (KFirst o f), (- qn (length (t_ops t) + 1))%Q)])) as [H _].
        { rewrite !in_app_iff. right. right. right. left. rewrite Htime. apply in_map_iff. exists (o, f). split; auto. apply in_op_effects. eauto. }
        unfold lin in H. cbn [con c_lo c_terms above qsum fst snd] in H. rewrite qn_succ in H. change (num_ops t) with (qn (length (t_ops t))). lra.
  - intros (H1 & H2 & H3 & H4 & H5 & H6 & H7 & H8 & H9). split.
    + intros k Hk. rewrite Htb in Hk. apply if_keys_in in Hk. destruct k as [o|f|o f|o|f|f g]; cbn [raised].
      * destruct Hk as [op Ho]. exact (H1 o op Ho).
      * apply (var_ok_raised int (if_var t int) (t_goal t) _ f eq_refl). auto.
      * destruct Hk as [[op Ho] Hf]. exact (H3 o op f Ho Hf).
      * destruct Hk as [Htime [op Ho]]. destruct (H9 Htime) as (T1 & _). exact (T1 o op Ho).
      * destruct Hk as [Htime Hf]. destruct (H9 Htime) as (_ & T2 & _). exact (T2 f Hf).
      * destruct Hk.
    + intros r Hr. apply in_app_or in Hr. destruct Hr as [Hr|Hr].
      * apply in_map_iff in Hr. destruct Hr as (f & <- & Hf). apply in_facts in Hf. split; [|exact Logic.I]. cbn [con c_lo c_terms above]. rewrite (Hterm f Hf), (Hlo f). specialize (H5 f Hf). destruct (in_state s f); cbn [ind] in H5; lra.
      * unfold if_rest in Hr. rewrite !in_app_iff in Hr. destruct Hr as [Hr|[Hr|[Hr|[Hr|Hr]]]].
        -- apply in_map_iff in Hr. destruct Hr as ([o f] & <- & Hi). cbn [fst snd]. apply Hpair. apply in_op_effects in Hi. destruct Hi as (op & e & Ho & He & Ee). assert (y (id (KFirst o f)) <= y (id (KUsed o)))%Q by (apply (H6 o op f Ho), adds_spec; eauto). lra.
        -- apply in_map_iff in Hr. destruct Hr as ([o f] & <- & Hi). cbn [fst snd]. apply Hpair. apply in_op_pres in Hi. destruct Hi as (op & Ho & Hp). specialize (H7 o op f Ho Hp). lra.
        -- revert Hr; case_eq time; intros Etime Hr; [|destruct Hr]. destruct (H9 Etime) as (T1 & T2 & T3 & T4). apply in_map_iff in Hr. destruct Hr as ([o f] & <- & Hi). cbn [fst snd]. apply Hpair. apply in_op_pres in Hi. destruct Hi as (op & Ho & Hp). specialize (T3 o op f Ho Hp). lra.
        -- revert Hr; case_eq time; intros Etime Hr; [|destruct Hr]. destruct (H9 Etime) as (T1 & T2 & T3 & T4). apply in_map_iff in Hr. destruct Hr as ([o f] & <- & Hi). cbn [fst snd]. apply in_op_effects in Hi. destruct Hi as (op & e & Ho & He & Ee).
           assert (Ha : adds op f = true) by (apply adds_spec; eauto). specialize (T4 o op f Ho Ha). split; [|exact Logic.I]. unfold lin. cbn [con c_lo c_terms above qsum fst snd]. rewrite qn_succ. change (num_ops t) with (qn (length (t_ops t))) in T4. lra.
        -- apply in_map_iff in Hr. destruct Hr as (o & <- & Hi). apply Hpair. apply in_seq in Hi. destruct (proj2 (is_op_lt o)) as [op Ho]; [lia|]. specialize (H8 o op Ho). lra.
Qed.
Lemma if_wf (lo : fact -> Q) r : length (t_ops t) <= tb_base tb -> In r (map (fun f => con (Some (lo f)) None (if_terms f)) (all_facts t) ++ if_rest) ->
  NoDup (map fst (c_terms r)) /\ forall i a, In (i, a) (c_terms r) -> i < length (t_ops t) \/ tb_base tb <= i < tb_base tb + length (tb_keys tb).
Proof.
  intros Hb Hr.
  assert (HK : forall k, match k with KUsed o => exists op, is_op t o op | KReached f => is_fact t f | KFirst o f => (exists op, is_op t o op) /\ is_fact t f
       | KOpTime o => time = true /\ exists op, is_op t o op | KFactTime f => time = true /\ is_fact t f | KEdge _ _ => False end -> In k (tb_keys tb)) by (intros k Hk; rewrite Htb; now apply if_keys_in).
  assert (Hpair : forall k k' (q q' : Q), In k (tb_keys tb) -> In k' (tb_keys tb) -> k <> k' -> NoDup (map fst [(id k, q); (id k', q')] : list nat) /\ forall i a, In (i, a) [(id k, q); (id k', q')] -> i < length (t_ops t) \/ tb_base tb <= i < tb_base tb + length (tb_keys tb)).
  { intros k k' q q' Hk Hk' Hne. cbn [map fst]. split.
    - constructor; [|constructor; [intros []|constructor]]. intros [E|[]]. apply Hne. symmetry. eapply idx_inj; eauto.
    - intros i a [E|[E|[]]]; inv E; right; apply idx_range; auto. }
  apply in_app_or in Hr. destruct Hr as [Hr|Hr].
  - apply in_map_iff in Hr. destruct Hr as (f & <- & Hf). apply in_facts in Hf. cbn [con c_terms]. unfold if_terms. split.
    + rewrite map_app, map_map. cbn [map fst]. change [id (KReached f)] with (map id [KReached f]). rewrite <- (map_map (fun of : nat * fact => KFirst (fst of) f) id), <- map_app.
      assert (Hin : forall k, In k ([KReached f] ++ map (fun of : nat * fact => KFirst (fst of) f) (filter (fun of => feqb (snd of) f) (op_effects t))) -> In k (tb_keys tb)).
      { intros k Hk. apply in_app_or in Hk. destruct Hk as [[<-|[]]|Hk]; [now apply HK|]. apply in_map_iff in Hk. destruct Hk as ([o g] & <- & Hk). apply filter_In in Hk. destruct Hk as [Hk _]. apply eff_in in Hk. apply HK. cbn [fst]. tauto. }
      assert (Hnk : NoDup ([KReached f] ++ map (fun of : nat * fact => KFirst (fst of) f) (filter (fun of => feqb (snd of) f) (op_effects t)))).
      { apply nodup_app; [repeat constructor; intros []| |intros k [<-|[]] Hk; apply in_map_iff in Hk; destruct Hk as (z & E & _); discriminate].
        assert (Hn : NoDup (filter (fun of : nat * fact => feqb (snd of) f) (op_effects t))) by now apply NoDup_filter, op_effects_nodup.
        assert (Hs : forall of, In of (filter (fun of : nat * fact => feqb (snd of) f) (op_effects t)) -> snd of = f) by (intros of H; apply filter_In in H; now apply feqb_eq).
        revert Hn Hs. clear. generalize (filter (fun of : nat * fact => feqb (snd of) f) (op_effects t)). induction l as [|[o g] r IH]; intros Hn Hs; cbn [map fst]; [constructor|]. inv Hn. constructor; [|apply IH; auto; intros; apply Hs; now right].
        intros Hi. apply in_map_iff in Hi. destruct Hi as ([o' g'] & E & Hi). cbn [fst] in E. inv E. apply H1. pose proof (Hs _ (or_introl eq_refl)). pose proof (Hs _ (or_intror Hi)). cbn [snd] in *. now subst. }
      revert Hnk Hin. generalize ([KReached f] ++ map (fun of : nat * fact => KFirst (fst of) f) (filter (fun of => feqb (snd of) f) (op_effects t))). induction l as [|k r IH]; intros Hnk Hin; cbn [map]; [constructor|]. inv Hnk. constructor; [|apply IH; auto; intros; apply Hin; now right].
      intros Hi. apply in_map_iff in Hi. destruct Hi as (k' & E & Hi). apply H1. replace k with k'; auto. eapply idx_inj; eauto; apply Hin; [now right|now left].
    + intros i a Hi. right. apply in_app_or in Hi. destruct Hi as [[E|[]]|Hi]; [inv E; apply idx_range, HK; auto|]. apply in_map_iff in Hi. destruct Hi as ([o g] & E & Hi). inv E. cbn [fst]. apply filter_In in Hi. destruct Hi as [Hi _]. apply eff_in in Hi. apply idx_range, HK. tauto.
  - unfold if_rest in Hr. rewrite !in_app_iff in Hr. destruct Hr as [Hr|[Hr|[Hr|[Hr|Hr]]]].
    + apply in_map_iff in Hr. destruct Hr as ([o f] & <- & Hi). cbn [fst snd con c_terms]. apply eff_in in Hi. apply Hpair; try (apply HK; tauto). congruence.
    + apply in_map_iff in Hr. destruct Hr as ([o f] & <- & Hi). cbn [fst snd con c_terms]. apply pre_in in Hi. apply Hpair; try (apply HK; tauto). congruence.
    + revert Hr; case_eq time; intros Etime Hr; [|destruct Hr]. apply in_map_iff in Hr. destruct Hr as ([o f] & <- & Hi). cbn [fst snd con c_terms]. apply pre_in in Hi. apply Hpair; [apply (HK (KOpTime o)); tauto|apply (HK (KFactTime f)); tauto|congruence].
    + revert Hr; case_eq time; intros Etime Hr; [|destruct Hr]. apply in_map_iff in Hr. destruct Hr as ([o f] & <- & Hi). cbn [fst snd con c_terms map]. apply eff_in in Hi.
      assert (K1 : In (KFactTime f) (tb_keys tb)) by (apply (HK (KFactTime f)); tauto). assert (K2 : In (KOpTime o) (tb_keys tb)) by (apply (HK (KOpTime o)); tauto). assert (K3 : In (KFirst o f) (tb_keys tb)) by (apply (HK (KFirst o f)); tauto). split.
      * constructor; [|constructor; [|constructor; [intros []|constructor]]].
        -- intros [E|[E|[]]]; [apply idx_inj in E|apply idx_inj in E]; auto; congruence.
        -- intros [E|[]]. apply idx_inj in E; auto; congruence.
      * intros i a [E|[E|[E|[]]]]; inv E; right; apply idx_range; auto.
    + apply in_map_iff in Hr. destruct Hr as (o & <- & Hi). cbn [con c_terms map fst]. apply in_seq in Hi. assert (K : In (KUsed o) (tb_keys tb)) by (apply HK; apply is_op_lt; lia). pose proof (idx_range tb _ K) as Hrg. unfold id. split.
      * constructor; [|constructor; [intros []|constructor]]. intros [E|[]]. lia.
      * intros i a [E|[E|[]]]; inv E; [left; lia|right; auto].
Qed.
End IF.

(** Proofs about the causal graph construction. *)
From Coq Require Import Sorting.
From Verif Require Import Outcome Spec_Task Spec_CausalGraph Model_MAS Proof_MAS1 Model_CausalGraph.
Import ListNotations.

Definition has (r : rel) (u v : nat) : Prop := exists s, nth_error r u = Some s /\ In v s.
Definition rok (n : nat) (r : rel) : Prop := length r = n /\ Forall (@NoDup nat) r.

Lemma set_insert_In x s y : In y (set_insert x s) <-> y = x \/ In y s.
Proof.
  unfold set_insert. destruct (existsb (Nat.eqb x) s) eqn:E.
  - apply existsb_exists in E as (z & Hz & E). apply Nat.eqb_eq in E as ->. split; auto. intros [->|H]; auto.
  - simpl. intuition auto.
Qed.
Lemma set_insert_nd x s : NoDup s -> NoDup (set_insert x s).
Proof.
  intros H. unfold set_insert. destruct (existsb (Nat.eqb x) s) eqn:E; auto. constructor; auto. intros K.
  assert (existsb (Nat.eqb x) s = true) by (apply existsb_exists; exists x; split; auto; apply Nat.eqb_refl). congruence.
Qed.

Lemma add_pair_ok n r u v : rok n r -> u < n -> exists r', add_pair r u v = Ok r' /\ rok n r' /\
  forall a b, has r' a b <-> has r a b \/ (a = u /\ b = v).
Proof.
  intros [Hl Hn] Hu. destruct (nth_error r u) as [s|] eqn:E; [|apply nth_error_None in E; lia].
  exists (upd r u (set_insert v s)). splits.
  - unfold add_pair. rewrite (proj2 (vget_ok _ _ _) E). cbn [bind]. unfold vset. destruct (u <? length r) eqn:K; auto. apply Nat.ltb_ge in K. lia.
  - split; [rewrite upd_length; auto|]. apply Forall_forall. intros x Hx. rewrite Forall_forall in Hn.
    apply In_nth_error in Hx as (i & Hi). destruct (Nat.eq_dec i u) as [->|Hiu].
    + rewrite upd_nth_eq in Hi by lia. injection Hi as <-. apply set_insert_nd, Hn. eapply nth_error_In; eauto.
    + rewrite upd_nth_neq in Hi by auto. apply Hn. eapply nth_error_In; eauto.
  - intros a b. unfold has. destruct (Nat.eq_dec a u) as [->|Hau].
    + rewrite upd_nth_eq by lia. rewrite E. split.
      * intros (s' & [= <-] & Hb). apply set_insert_In in Hb as [->|Hb]; [auto|left; eauto].
      * intros [(s' & [= <-] & Hb)|[_ ->]]; eexists; split; eauto; apply set_insert_In; auto.
    + rewrite upd_nth_neq by auto. split; [auto|intros [?|[? ?]]; auto; congruence].
Qed.

Definition bok (n : nat) (b : builder) : Prop :=
  rok n (b_pre_eff b) /\ rok n (b_eff_pre b) /\ rok n (b_eff_eff b) /\ rok n (b_succ b) /\ rok n (b_pred b).

(** [b'] is [b] plus the arcs [P] (precondition to effect) and the symmetric edges [E]. *)
Definition adds (b b' : builder) (P E : nat -> nat -> Prop) : Prop :=
  (forall u v, has (b_pre_eff b') u v <-> has (b_pre_eff b) u v \/ P u v) /\
  (forall u v, has (b_eff_pre b') u v <-> has (b_eff_pre b) u v \/ P v u) /\
  (forall u v, has (b_eff_eff b') u v <-> has (b_eff_eff b) u v \/ E u v \/ E v u) /\
  (forall u v, has (b_succ b') u v <-> has (b_succ b) u v \/ P u v \/ E u v \/ E v u) /\
  (forall u v, has (b_pred b') u v <-> has (b_pred b) u v \/ P v u \/ E u v \/ E v u).

Definition step_ok n (f : builder -> outcome builder) P E : Prop :=
  forall b, bok n b -> exists b', f b = Ok b' /\ bok n b' /\ adds b b' P E.

Definition none : nat -> nat -> Prop := fun _ _ => False.

Lemma step_id n : step_ok n Ok none none.
Proof. intros b Hb. exists b. splits; auto. unfold adds, none. intuition. Qed.
Lemma step_weak n f P E P' E' : (forall u v, P u v <-> P' u v) -> (forall u v, E u v <-> E' u v) -> step_ok n f P E -> step_ok n f P' E'.
Proof.
  intros HP HE H b Hb. destruct (H b Hb) as (b' & H1 & H2 & A1 & A2 & A3 & A4 & A5). exists b'. splits; auto.
  unfold adds. splits; intros u v; [rewrite A1|rewrite A2|rewrite A3|rewrite A4|rewrite A5];
    try rewrite <- (HP u v); try rewrite <- (HP v u); try rewrite <- (HE u v); try rewrite <- (HE v u); reflexivity.
Qed.
Lemma step_seq n f g P E P' E' : step_ok n f P E -> step_ok n g P' E' ->
  step_ok n (fun b => bind (f b) g) (fun u v => P u v \/ P' u v) (fun u v => E u v \/ E' u v).
Proof.
  intros Hf Hg b Hb. destruct (Hf b Hb) as (b1 & H1 & H2 & A1 & A2 & A3 & A4 & A5).
  destruct (Hg b1 H2) as (b2 & G1 & G2 & B1 & B2 & B3 & B4 & B5). exists b2. splits.
  - rewrite H1. exact G1.
  - exact G2.
  - unfold adds. splits; intros u v;
    [rewrite B1, A1|rewrite B2, A2|rewrite B3, A3|rewrite B4, A4|rewrite B5, A5]; tauto.
Qed.
Lemma step_fold {X} n (f : builder -> X -> outcome builder) (P E : X -> nat -> nat -> Prop) l :
  (forall x, In x l -> step_ok n (fun b => f b x) (P x) (E x)) ->
  step_ok n (fold_outcome f l) (fun u v => exists x, In x l /\ P x u v) (fun u v => exists x, In x l /\ E x u v).
Proof.
  induction l as [|x l IH]; intros H.
  - eapply step_weak; [| |apply step_id]; intros u v; unfold none; (split; [tauto|intros (x & [] & _)]).
  - eapply step_weak; [| |exact (step_seq n _ _ _ _ _ _ (H x (or_introl eq_refl)) (IH (fun y Hy => H y (or_intror Hy))))];
      intros u v; simpl; (split; [intros [K|(y & Hy & K)]; eauto|intros (y & [->|Hy] & K); eauto]).
Qed.
Lemma step_if n f (c : bool) P E : (c = true -> step_ok n f P E) ->
  step_ok n (fun b => if c then f b else Ok b) (fun u v => c = true /\ P u v) (fun u v => c = true /\ E u v).
Proof.
  destruct c; intros H.
  - eapply step_weak; [| |exact (H eq_refl)]; intros; tauto.
  - eapply step_weak; [| |apply step_id]; intros; unfold none; split; try tauto; intros [? _]; discriminate.
Qed.

Lemma pre_eff_step n x y : x < n -> y < n -> step_ok n (fun b => handle_pre_eff_arc b x y) (fun u v => u = x /\ v = y) none.
Proof.
  intros Hx Hy b (R1 & R2 & R3 & R4 & R5).
  destruct (add_pair_ok n _ x y R1 Hx) as (pe & E1 & O1 & A1). destruct (add_pair_ok n _ x y R4 Hx) as (sc & E2 & O2 & A2).
  destruct (add_pair_ok n _ y x R2 Hy) as (ep & E3 & O3 & A3). destruct (add_pair_ok n _ y x R5 Hy) as (pd & E4 & O4 & A4).
  eexists. splits.
  - unfold handle_pre_eff_arc. rewrite E1, E2, E3, E4. reflexivity.
  - unfold bok. cbn [b_pre_eff b_eff_pre b_eff_eff b_succ b_pred]. auto.
  - unfold adds, none. cbn [b_pre_eff b_eff_pre b_eff_eff b_succ b_pred]. splits; intros u v;
    [rewrite A1|rewrite A3| |rewrite A2|rewrite A4]; intuition.
Qed.
Lemma eff_eff_step n x y : x < n -> y < n -> step_ok n (fun b => handle_eff_eff_edge b x y) none (fun u v => u = x /\ v = y).
Proof.
  intros Hx Hy b (R1 & R2 & R3 & R4 & R5).
  destruct (add_pair_ok n _ x y R3 Hx) as (e1 & E1 & O1 & A1). destruct (add_pair_ok n _ y x O1 Hy) as (e2 & E2 & O2 & A2).
  destruct (add_pair_ok n _ x y R4 Hx) as (s1 & E3 & O3 & A3). destruct (add_pair_ok n _ y x O3 Hy) as (s2 & E4 & O4 & A4).
  destruct (add_pair_ok n _ x y R5 Hx) as (p1 & E5 & O5 & A5). destruct (add_pair_ok n _ y x O5 Hy) as (p2 & E6 & O6 & A6).
  eexists. splits.
  - unfold handle_eff_eff_edge. rewrite E1. cbn [bind]. rewrite E2. cbn [bind]. rewrite E3. cbn [bind]. rewrite E4. cbn [bind].
    rewrite E5. cbn [bind]. rewrite E6. reflexivity.
  - unfold bok. cbn [b_pre_eff b_eff_pre b_eff_eff b_succ b_pred]. auto.
  - unfold adds, none. cbn [b_pre_eff b_eff_pre b_eff_eff b_succ b_pred]. splits; intros u v;
    [| |rewrite A2, A1|rewrite A4, A3|rewrite A6, A5]; intuition.
Qed.

Definition op_range (n : nat) (op : operator) : Prop :=
  (forall f, In f (op_pre op) -> fst f < n) /\
  (forall e, In e (op_effs op) -> fst (eff_fact e) < n /\ forall f, In f (eff_cond e) -> fst f < n).

Definition op_pre_eff (op : operator) (u v : nat) : Prop :=
  u <> v /\ exists e d, In e (op_effs op) /\ fst (eff_fact e) = v /\ (In (u, d) (op_pre op) \/ In (u, d) (eff_cond e)).
Definition op_eff_eff (op : operator) (u v : nat) : Prop :=
  u <> v /\ exists i j e e', i < j /\ nth_error (op_effs op) i = Some e /\ nth_error (op_effs op) j = Some e' /\
    fst (eff_fact e) = u /\ fst (eff_fact e') = v.

Lemma handle_step n op : op_range n op -> step_ok n (fun b => handle_operator b op) (op_pre_eff op) (op_eff_eff op).
Proof.
  intros [Rp Re].
  assert (S1 : step_ok n (pre_loop op)
     (fun u v => exists p, In p (op_pre op) /\ exists e, In e (op_effs op) /\ negb (fst p =? fst (eff_fact e)) = true /\ (u = fst p /\ v = fst (eff_fact e)))
     (fun u v => exists p, In p (op_pre op) /\ exists e, In e (op_effs op) /\ negb (fst p =? fst (eff_fact e)) = true /\ none u v)).
  { apply (step_fold n _ (fun p u v => exists e, In e (op_effs op) /\ negb (fst p =? fst (eff_fact e)) = true /\ (u = fst p /\ v = fst (eff_fact e)))
                         (fun p u v => exists e, In e (op_effs op) /\ negb (fst p =? fst (eff_fact e)) = true /\ none u v)).
    intros p Hp.
    apply (step_fold n _ (fun e u v => negb (fst p =? fst (eff_fact e)) = true /\ (u = fst p /\ v = fst (eff_fact e)))
                         (fun e u v => negb (fst p =? fst (eff_fact e)) = true /\ none u v)).
    intros e He. apply step_if. intros _. apply pre_eff_step; [auto|apply Re; auto]. }
  assert (S2 : step_ok n (cond_loop op)
     (fun u v => exists e, In e (op_effs op) /\ exists p : fact, In p (eff_cond e) /\ negb (fst p =? fst (eff_fact e)) = true /\ (u = fst p /\ v = fst (eff_fact e)))
     (fun u v => exists e, In e (op_effs op) /\ exists p : fact, In p (eff_cond e) /\ negb (fst p =? fst (eff_fact e)) = true /\ none u v)).
  { apply (step_fold n _ (fun e u v => exists p : fact, In p (eff_cond e) /\ negb (fst p =? fst (eff_fact e)) = true /\ (u = fst p /\ v = fst (eff_fact e)))
                         (fun e u v => exists p : fact, In p (eff_cond e) /\ negb (fst p =? fst (eff_fact e)) = true /\ none u v)).
    intros e He.
    apply (step_fold n _ (fun (p : fact) u v => negb (fst p =? fst (eff_fact e)) = true /\ (u = fst p /\ v = fst (eff_fact e)))
                         (fun (p : fact) u v => negb (fst p =? fst (eff_fact e)) = true /\ none u v)).
    intros p Hp. apply step_if. intros _. destruct (Re e He) as [Q1 Q2]. apply pre_eff_step; auto. }
  assert (S3 : step_ok n (eff_loop op)
     (fun u v => exists i : nat, In i (seq 0 (length (op_effs op))) /\ exists j : nat, In j (seq (i + 1) (length (op_effs op) - (i + 1))) /\ none u v)
     (fun u v => exists i, In i (seq 0 (length (op_effs op))) /\ exists j, In j (seq (i + 1) (length (op_effs op) - (i + 1))) /\
        exists e e', nth_error (op_effs op) i = Some e /\ nth_error (op_effs op) j = Some e' /\
          negb (fst (eff_fact e) =? fst (eff_fact e')) = true /\ u = fst (eff_fact e) /\ v = fst (eff_fact e'))).
  { apply (step_fold n _ (fun (i : nat) u v => exists j : nat, In j (seq (i + 1) (length (op_effs op) - (i + 1))) /\ none u v)
      (fun i u v => exists j, In j (seq (i + 1) (length (op_effs op) - (i + 1))) /\
        exists e e', nth_error (op_effs op) i = Some e /\ nth_error (op_effs op) j = Some e' /\
          negb (fst (eff_fact e) =? fst (eff_fact e')) = true /\ u = fst (eff_fact e) /\ v = fst (eff_fact e'))).
    intros i Hi. apply in_seq in Hi. destruct (nth_error (op_effs op) i) as [e|] eqn:Ei; [|apply nth_error_None in Ei; lia].
    rewrite (proj2 (vget_ok _ _ _) Ei). cbn [bind].
    apply (step_fold n _ (fun (j : nat) u v => none u v)
      (fun j u v => exists e0 e', Some e = Some e0 /\ nth_error (op_effs op) j = Some e' /\
          negb (fst (eff_fact e0) =? fst (eff_fact e')) = true /\ u = fst (eff_fact e0) /\ v = fst (eff_fact e'))).
    intros j Hj. apply in_seq in Hj. destruct (nth_error (op_effs op) j) as [e'|] eqn:Ej; [|apply nth_error_None in Ej; lia].
    rewrite (proj2 (vget_ok _ _ _) Ej). cbn [bind].
    eapply step_weak; [| |apply step_if].
    3:{ intros _. apply eff_eff_step; [exact (proj1 (Re _ (nth_error_In _ _ Ei)))|exact (proj1 (Re _ (nth_error_In _ _ Ej)))]. }
    - unfold none. tauto.
    - intros u v. cbn beta. split.
      + intros (K & -> & ->). exists e, e'. auto.
      + intros (e0 & e1 & [= <-] & [= <-] & K & -> & ->). auto. }
  unfold handle_operator.
  eapply step_weak; [| |exact (step_seq n _ _ _ _ _ _ S1 (step_seq n _ _ _ _ _ _ S2 S3))]; unfold none; intros u v; cbn beta; split.
  - intros [(p & Hp & e & He & K & -> & ->)|[(e & He & p & Hp & K & -> & ->)|(i & _ & j & _ & [])]];
      apply negb_true_iff, Nat.eqb_neq in K; (split; [auto|]); exists e, (snd p); rewrite <- surjective_pairing; auto.
  - intros (Huv & e & d & He & <- & [Hp|Hp]).
    + left. exists (u, d). split; auto. exists e. splits; auto. apply negb_true_iff, Nat.eqb_neq. auto.
    + right. left. exists e. split; auto. exists (u, d). splits; auto. apply negb_true_iff, Nat.eqb_neq. auto.
  - intros [(p & _ & e & _ & _ & [])|[(e & _ & p & _ & _ & [])|(i & Hi & j & Hj & e & e' & Ei & Ej & K & -> & ->)]].
    apply negb_true_iff, Nat.eqb_neq in K. split; auto. apply in_seq in Hj. exists i, j, e, e'. splits; auto. lia.
  - intros (Huv & i & j & e & e' & Hij & Ei & Ej & <- & <-). right. right.
    pose proof (nth_error_Some_lt _ _ _ Ei). pose proof (nth_error_Some_lt _ _ _ Ej).
    exists i. split; [apply in_seq; lia|]. exists j. split; [apply in_seq; lia|]. exists e, e'. splits; auto.
    apply negb_true_iff, Nat.eqb_neq. auto.
Qed.

Lemma insert_lt x l : StronglySorted lt l -> ~ In x l -> StronglySorted lt (insert Nat.leb x l).
Proof.
  induction 1 as [|y l Hs IH Hy]; intros Hx; simpl.
  - repeat constructor.
  - rewrite Forall_forall in Hy. destruct (x <=? y) eqn:E.
    + apply Nat.leb_le in E. assert (x <> y) by (intros ->; apply Hx; left; auto).
      constructor; [constructor; auto; apply Forall_forall; auto|]. constructor; [lia|]. apply Forall_forall. intros z Hz. specialize (Hy z Hz). lia.
    + apply Nat.leb_gt in E. constructor; [apply IH; intros K; apply Hx; right; auto|].
      apply Forall_forall. intros z Hz. apply insert_In in Hz as [->|Hz]; auto.
Qed.
Lemma sort_lt l : NoDup l -> StronglySorted lt (sort Nat.leb l).
Proof.
  induction 1 as [|x l Hx Hn IH]; simpl; [constructor|]. apply insert_lt; auto. rewrite sort_In. auto.
Qed.

Lemma relation_lists n r u (P : nat -> Prop) : rok n r -> u < n -> (forall v, has r u v <-> P v) ->
  exists l, nth_error (compute_relation r) u = Some l /\ lists l P.
Proof.
  intros [Hl Hn] Hu HP. destruct (nth_error r u) as [s|] eqn:E; [|apply nth_error_None in E; lia].
  exists (sort Nat.leb s). split; [unfold compute_relation; rewrite nth_error_map, E; auto|]. split.
  - apply sort_lt. rewrite Forall_forall in Hn. apply Hn. eapply nth_error_In; eauto.
  - intros v. rewrite sort_In, <- HP. unfold has. rewrite E. split; [eauto|intros (s' & [= <-] & H); auto].
Qed.

Lemma has_new n u v : ~ has (repeat [] n) u v.
Proof. intros (s & H & K). apply nth_error_In, repeat_spec in H. subst. destruct K. Qed.
Lemma rok_new n : rok n (repeat [] n).
Proof. split; [apply repeat_length|]. apply Forall_forall. intros x H. apply repeat_spec in H as ->. constructor. Qed.

Lemma fact_ok_lt t f : fact_ok t f -> fst f < length (t_vars t).
Proof. intros (x & H & _). eapply nth_error_Some_lt; eauto. Qed.

Theorem build_exact t : task_ok t -> exists cg, build_causal_graph t = Ok cg /\
  (length (g_pre_to_eff cg) = length (t_vars t) /\ length (g_eff_to_pre cg) = length (t_vars t) /\ length (g_eff_to_eff cg) = length (t_vars t) /\ length (g_successors cg) = length (t_vars t) /\ length (g_predecessors cg) = length (t_vars t)) /\
  forall u, u < length (t_vars t) -> exists l1 l2 l3 l4 l5,
    nth_error (g_pre_to_eff cg) u = Some l1 /\ lists l1 (fun v => pre_eff t u v) /\
    nth_error (g_eff_to_pre cg) u = Some l2 /\ lists l2 (fun v => pre_eff t v u) /\
    nth_error (g_eff_to_eff cg) u = Some l3 /\ lists l3 (fun v => eff_eff t u v) /\
    nth_error (g_successors cg) u = Some l4 /\ lists l4 (fun v => causal_arc t u v) /\
    nth_error (g_predecessors cg) u = Some l5 /\ lists l5 (fun v => causal_arc t v u).
Proof.
  intros (_ & Ho & Hr & _ & _). set (n := length (t_vars t)). rewrite Forall_forall in Ho, Hr.
  assert (S1 : step_ok n (fold_outcome handle_operator (t_ops t)) (fun u v => exists op, In op (t_ops t) /\ op_pre_eff op u v)
                 (fun u v => exists op, In op (t_ops t) /\ op_eff_eff op u v)).
  { apply (step_fold n handle_operator op_pre_eff op_eff_eff). intros op Hop. apply handle_step.
    destruct (Ho op Hop) as [H1 H2]. rewrite Forall_forall in H1, H2. split.
    - intros f Hf. apply fact_ok_lt; auto.
    - intros e He. destruct (H2 e He) as (K1 & K2 & _). rewrite Forall_forall in K1. split; [apply fact_ok_lt; auto|]. intros f Hf. apply fact_ok_lt; auto. }
  assert (S2 : step_ok n (fold_outcome handle_operator (map rule_operator (t_rules t)))
                 (fun u v => exists op, In op (map rule_operator (t_rules t)) /\ op_pre_eff op u v)
                 (fun u v => exists op, In op (map rule_operator (t_rules t)) /\ op_eff_eff op u v)).
  { apply (step_fold n handle_operator op_pre_eff op_eff_eff). intros op Hop. apply handle_step.
    apply in_map_iff in Hop as (r & <- & Hrr). destruct (Hr r Hrr) as (K1 & K2 & _). rewrite Forall_forall in K1.
    apply fact_ok_lt in K2. split; cbn [rule_operator op_pre op_effs].
    - intros f [<-|[]]. exact K2.
    - intros e [<-|[]]. cbn [eff_fact eff_cond]. split; auto. intros f Hf. apply fact_ok_lt; auto. }
  assert (B0 : bok n (builder_new n)).
  { unfold bok, builder_new. cbn [b_pre_eff b_eff_pre b_eff_eff b_succ b_pred]. splits; apply rok_new. }
  destruct (step_seq n _ _ _ _ _ _ S1 S2 (builder_new n) B0) as (b & Eb & (R1 & R2 & R3 & R4 & R5) & A1 & A2 & A3 & A4 & A5).
  apply bind_ok in Eb as (b1 & Eb1 & Eb2).
  eexists. split.
  { unfold build_causal_graph. fold n. rewrite Eb1. cbn [bind]. rewrite Eb2. reflexivity. }
  split.
  { cbn [g_pre_to_eff g_eff_to_pre g_eff_to_eff g_successors g_predecessors]. unfold compute_relation. rewrite !map_length. unfold rok in *. splits; tauto. }
  assert (PE : forall u v, (exists op, In op (t_ops t) /\ op_pre_eff op u v) \/ (exists op, In op (map rule_operator (t_rules t)) /\ op_pre_eff op u v) <-> pre_eff t u v).
  { intros u v. unfold pre_eff, op_pre_eff. split.
    - intros [(op & Hop & Huv & e & d & H)|(op & Hop & Huv & e & d & He & Hv & H)]; (split; [auto|]).
      + left. exists op, e, d. tauto.
      + apply in_map_iff in Hop as (r & <- & Hrr). cbn [rule_operator op_pre op_effs] in *. destruct He as [<-|[]]. cbn [eff_fact eff_cond] in *.
        destruct H as [[H|[]]|H].
        * injection H as H _. congruence.
        * right. exists r, d. auto.
    - intros (Huv & [(op & e & d & Hop & H)|(r & d & Hrr & Hv & H)]).
      + left. exists op. split; auto. split; auto. exists e, d. tauto.
      + right. exists (rule_operator r). split; [apply in_map; auto|]. split; auto. cbn [rule_operator op_pre op_effs].
        eexists. exists d. split; [left; reflexivity|]. cbn [eff_fact eff_cond]. auto. }
  assert (EE : forall u v, ((exists op, In op (t_ops t) /\ op_eff_eff op u v) \/ (exists op, In op (map rule_operator (t_rules t)) /\ op_eff_eff op u v)) \/
                 ((exists op, In op (t_ops t) /\ op_eff_eff op v u) \/ (exists op, In op (map rule_operator (t_rules t)) /\ op_eff_eff op v u)) <-> eff_eff t u v).
  { assert (NR : forall u v, ~ exists op, In op (map rule_operator (t_rules t)) /\ op_eff_eff op u v).
    { intros u v (op & Hop & Huv & i & j & e & e' & Hij & Hi & Hj & _). apply in_map_iff in Hop as (r & <- & _).
      apply nth_error_Some_lt in Hj. cbn in Hj. lia. }
    intros u v. unfold eff_eff. split.
    - intros [[(op & Hop & Huv & i & j & e & e' & Hij & Hi & Hj & H1 & H2)|H]|[(op & Hop & Huv & i & j & e & e' & Hij & Hi & Hj & H1 & H2)|H]];
        try (exfalso; eapply NR; eassumption); apply nth_error_In in Hi, Hj.
      + split; auto. exists op, e, e'. auto.
      + split; auto. exists op, e', e. splits; auto.
    - intros (Huv & op & e & e' & Hop & He & He' & H1 & H2).
      apply In_nth_error in He as (i & Hi). apply In_nth_error in He' as (j & Hj).
      destruct (lt_eq_lt_dec i j) as [[L| ->]|L].
      + left. left. exists op. split; auto. split; auto. exists i, j, e, e'. auto.
      + congruence.
      + right. left. exists op. split; auto. split; auto. exists j, i, e', e. splits; auto. }
  assert (N1 : forall u v, has (b_pre_eff b) u v <-> pre_eff t u v).
  { intros u v. rewrite A1. cbn [builder_new b_pre_eff]. rewrite <- PE. pose proof (has_new n u v). tauto. }
  assert (N2 : forall u v, has (b_eff_pre b) u v <-> pre_eff t v u).
  { intros u v. rewrite A2. cbn [builder_new b_eff_pre]. rewrite <- PE. pose proof (has_new n u v). tauto. }
  assert (N3 : forall u v, has (b_eff_eff b) u v <-> eff_eff t u v).
  { intros u v. rewrite A3. cbn [builder_new b_eff_eff]. rewrite <- EE. pose proof (has_new n u v). tauto. }
  assert (N4 : forall u v, has (b_succ b) u v <-> causal_arc t u v).
  { intros u v. rewrite A4. cbn [builder_new b_succ]. unfold causal_arc. rewrite <- EE, <- PE. pose proof (has_new n u v). tauto. }
  assert (N5 : forall u v, has (b_pred b) u v <-> causal_arc t v u).
  { intros u v. rewrite A5. cbn [builder_new b_pred]. unfold causal_arc. rewrite <- EE, <- PE. pose proof (has_new n u v). tauto. }
  intros u Hu. cbn [g_pre_to_eff g_eff_to_pre g_eff_to_eff g_successors g_predecessors].
  destruct (relation_lists n _ u _ R1 Hu (N1 u)) as (l1 & H1 & K1). destruct (relation_lists n _ u _ R2 Hu (N2 u)) as (l2 & H2 & K2).
  destruct (relation_lists n _ u _ R3 Hu (N3 u)) as (l3 & H3 & K3). destruct (relation_lists n _ u _ R4 Hu (N4 u)) as (l4 & H4 & K4).
  destruct (relation_lists n _ u _ R5 Hu (N5 u)) as (l5 & H5 & K5).
  exists l1, l2, l3, l4, l5. splits; auto.
Qed.

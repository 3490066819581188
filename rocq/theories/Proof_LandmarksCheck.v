(** A checker for sound landmark graphs of small tasks, used by the examples: [R] lists the
    reachable states, [av] for each landmark the states reachable without reaching it. *)
From Verif Require Import Outcome Spec_Task Spec_Relaxation Spec_Landmarks Model_Task Model_Landmarks Proof_Task Proof_TaskSpace
  Proof_Landmarks1 Proof_Landmarks2 Proof_Landmarks4.
Local Open Scope nat_scope.

Definition succ (t : task) (s : state) (o : nat) : state :=
  match nth_error (t_ops t) o with Some op => apply_effects s (op_effs op) | None => s end.
Definition stin (s : state) (L : list state) : bool := existsb (state_eqb s) L.
Definition steps (t : task) (L : list state) (P : state -> nat -> state -> bool) : bool :=
  forallb (fun s => forallb (fun o => P s o (succ t s o)) (app_ops t s)) L.

Definition check_order (t : task) (a b : landmark) (Aa Ab : list state) (ty : ordering_type) : bool :=
  match ty with
  | Reasonable => lm_goal b && steps t Aa (fun s _ s' => negb (T a s') || negb (T b s))
  | Natural => negb (T b (t_init t)) && steps t Aa (fun _ _ s' => negb (T b s'))
  | GreedyNecessary | Necessary => negb (T b (t_init t)) && steps t Ab (fun s _ s' => negb (T b s') || T a s)
  end.
Definition check_landmark (t : task) (g : graph) (R : list state) (av : list (list state)) (i : nat) (l : landmark) : bool :=
  let A := nth i av [] in
  (T l (t_init t) || stin (t_init t) A) &&
  steps t A (fun _ o s' => if T l s' then mem o (lm_first l) else stin s' A) &&
  forallb (fun s => negb (is_goalb t s)) A &&
  steps t R (fun s o s' => negb (T l s') || T l s || mem o (lm_possible l)) &&
  (negb (lm_goal l) || (negb (lm_disjunctive l) && forallb (fun f => existsb (fact_eqb f) (t_goal t)) (lm_atoms l))) &&
  forallb (fun pr : nat * ordering_type => match nth_error g (fst pr) with
             | Some a => check_order t a l (nth (fst pr) av []) A (snd pr) | None => false end) (lm_parents l).
Definition check (t : task) (g : graph) (R : list state) (av : list (list state)) : bool :=
  stin (t_init t) R && steps t R (fun _ _ s' => stin s' R) &&
  forallb (fun nd => check_landmark t g R av (fst nd) (snd nd)) (nodes g).

Lemma stin_ok s L : stin s L = true <-> In s L.
Proof.
  unfold stin. rewrite existsb_exists. split.
  - intros (x & Hx & E). apply state_eqb_ok in E. subst. auto.
  - intros H. exists s. split; auto. apply state_eqb_ok. auto.
Qed.
Lemma nodes_In g i l : nth_error g i = Some l -> In (i, l) (nodes g).
Proof.
  unfold nodes. intros H. assert (K : forall (g1 : graph) k i, nth_error g1 i = Some l -> In (k + i, l) (combine (seq k (length g1)) g1)).
  { induction g1 as [|a g1 IH]; intros k [|j] Hj; cbn [nth_error] in Hj; try discriminate; cbn [length seq combine].
    - inv Hj. left. f_equal. lia.
    - right. replace (k + S j) with (S k + j) by lia. apply IH. auto. }
  apply (K g 0 i H).
Qed.

Section check.
Variable t : task.
Hypothesis Htk : task_ok t.
Hypothesis Hnd : no_derived t.
Variable g : graph.
Variable R : list state.
Variable av : list (list state).
Hypothesis Hck : check t g R av = true.

Lemma steps_ok L P s o s' : steps t L P = true -> In s L -> applicable t s o -> progress t s o s' -> P s o s' = true.
Proof.
  intros H Hs Ha Hp. unfold steps in H. rewrite forallb_forall in H. specialize (H s Hs). rewrite forallb_forall in H.
  specialize (H o (proj2 (app_ops_spec t s o) Ha)). destruct Ha as (op & Ho & _).
  apply (progress_apply t Hnd s o op s' Ho) in Hp. unfold succ in H. rewrite Ho in H. rewrite Hp. auto.
Qed.
Lemma run_step s os ss : run t s os ss -> forall i y, nth_error ss (S i) = Some y ->
  exists x o, nth_error ss i = Some x /\ nth_error os i = Some o /\ applicable t x o /\ progress t x o y.
Proof.
  induction 1 as [s|s o s' os ss Ha Hp Hr IH]; intros i y Hy; [destruct i; discriminate|].
  destruct i as [|i].
  - cbn [nth_error] in Hy. exists s, o. splits; auto. destruct (run_head t _ _ _ Hr) as (r & ->). cbn in Hy. inv Hy. auto.
  - cbn [nth_error] in Hy. apply IH in Hy. auto.
Qed.
Lemma in_R os ss i x : run t (t_init t) os ss -> nth_error ss i = Some x -> In x R.
Proof.
  intros Hr. unfold check in Hck. apply andb_true_iff in Hck as [H _]. apply andb_true_iff in H as [H0 H1].
  revert x. induction i as [|i IH]; intros x Hx.
  - rewrite (run_nth0 t _ _ _ Hr) in Hx. inv Hx. apply stin_ok. auto.
  - destruct (run_step _ _ _ Hr i x Hx) as (y & o & Hy & _ & A & P). apply stin_ok.
    apply (steps_ok R (fun _ _ s' => stin s' R) y o x H1); auto.
Qed.
Lemma landmark_checked i l : nth_error g i = Some l -> check_landmark t g R av i l = true.
Proof.
  intros Hi. unfold check in Hck. apply andb_true_iff in Hck as [_ H]. rewrite forallb_forall in H. apply (H (i, l)). apply nodes_In. auto.
Qed.
Lemma avoid i l os ss : nth_error g i = Some l -> run t (t_init t) os ss -> forall k x, nth_error ss k = Some x ->
  (forall j, j <= k -> ~ true_at l ss j) -> In x (nth i av []).
Proof.
  intros Hi Hr. pose proof (landmark_checked i l Hi) as C. unfold check_landmark in C. repeat (apply andb_true_iff in C as [C ?]).
  induction k as [|k IH]; intros x Hx Hn.
  - rewrite (run_nth0 t _ _ _ Hr) in Hx. inv Hx. apply orb_true_iff in C as [C|C]; [|apply stin_ok; auto].
    exfalso. apply (Hn 0); auto. exists (t_init t). split; [apply (run_nth0 t _ _ _ Hr)|apply T_ok; auto].
  - destruct (run_step _ _ _ Hr k x Hx) as (y & o & Hy & _ & A & P). specialize (IH y Hy (fun j Hj => Hn j ltac:(lia))).
    pose proof (steps_ok _ _ y o x H3 IH A P) as Q. cbn beta in Q. destruct (T l x) eqn:ET; [|apply stin_ok; auto].
    exfalso. apply (Hn (S k)); auto. exists x. split; auto. apply T_ok. auto.
Qed.
Lemma at_state l ss i x : nth_error ss i = Some x -> (true_at l ss i <-> T l x = true).
Proof. intros H. unfold true_at. rewrite T_ok. split; [intros (y & E & Hy); congruence|eauto]. Qed.

Lemma check_sound : sound t g.
Proof.
  constructor.
  - intros l os ss Hl [Hr G]. apply In_nth_error in Hl as (i & Hi).
    pose proof (landmark_checked i l Hi) as C. unfold check_landmark in C. repeat (apply andb_true_iff in C as [C ?]).
    assert (D : forall k, (exists j, j <= k /\ true_at l ss j) \/ forall j, j <= k -> ~ true_at l ss j).
    { induction k as [|k [(j & A & B)|N]].
      - destruct (true_at_dec l ss 0); [left; eauto|right]. intros j Hj. assert (j = 0) as -> by lia. auto.
      - left. exists j. split; auto.
      - destruct (true_at_dec l ss (S k)); [left; eauto|right]. intros j Hj. destruct (Nat.eq_dec j (S k)) as [->|]; auto. apply N. lia. }
    destruct (D (length os)) as [(j & _ & B)|N]; [eauto|]. exfalso.
    pose proof (nth_last ss (t_init t) (length os) (run_length t _ _ _ Hr)) as HL.
    pose proof (avoid i l os ss Hi Hr _ _ HL N) as HA. rewrite forallb_forall in H2. specialize (H2 _ HA).
    apply negb_true_iff in H2. unfold is_goalb in H2. apply all_holdb_spec in G. congruence.
  - intros a b ty os ss (i & Hi & j & Hj & Hp) [Hr G].
    pose proof (landmark_checked i b Hi) as C. unfold check_landmark in C. repeat (apply andb_true_iff in C as [C ?]).
    rewrite forallb_forall in H. specialize (H _ Hp). cbn [fst snd] in H. rewrite Hj in H. unfold check_order in H.
    assert (I0 : forall c, negb (T c (t_init t)) = true -> ~ true_at c ss 0).
    { intros c Hc HT. rewrite (at_state c ss 0 _ (run_nth0 t _ _ _ Hr)) in HT. rewrite HT in Hc. discriminate. }
    assert (GNc : negb (T b (t_init t)) && steps t (nth i av []) (fun s _ s' => negb (T b s') || T a s) = true ->
       forall k, first_true b ss k -> exists j, k = S j /\ true_at a ss j).
    { intros Q k F. apply andb_true_iff in Q as [Q1 Q2]. destruct k as [|k]; [destruct F as [F _]; destruct (I0 b Q1 F)|].
      exists k. split; auto. destruct F as [(y & Hy & Ty) N]. destruct (run_step _ _ _ Hr k y Hy) as (x & o & Hx & _ & A & P).
      assert (HA : In x (nth i av [])) by (eapply avoid; eauto; intros m Hm; apply N; lia).
      pose proof (steps_ok _ _ x o y Q2 HA A P) as Q. cbn beta in Q. apply T_ok in Ty. rewrite Ty in Q. cbn in Q.
      exists x. split; auto. apply T_ok; auto. }
    destruct ty; cbn [respects]; auto.
    + apply andb_true_iff in H as [Gb Q2]. intros k F. destruct F as [(y & Hy & Ty) N]. destruct (run_step _ _ _ Hr k y Hy) as (x & o & Hx & _ & A & P).
      assert (HA : In x (nth j av [])) by (eapply avoid; eauto; intros m Hm; apply N; lia).
      pose proof (steps_ok _ _ x o y Q2 HA A P) as Q. cbn beta in Q. apply T_ok in Ty. rewrite Ty in Q. cbn in Q.
      assert (Nk : ~ true_at b ss k) by (rewrite (at_state b ss k x Hx); apply negb_true_iff in Q; congruence).
      rewrite Gb in H0. cbn [negb orb] in H0. apply andb_true_iff in H0 as [Dj Fa]. apply negb_true_iff in Dj.
      pose proof (nth_last ss (t_init t) (length os) (run_length t _ _ _ Hr)) as HL.
      assert (TL : true_at b ss (length os)).
      { exists (last ss (t_init t)). split; auto. unfold lm_true. rewrite Dj. intros f Hf. apply G. rewrite forallb_forall in Fa. specialize (Fa f Hf).
        apply existsb_exists in Fa as (f' & Hf' & E). unfold fact_eqb in E. apply andb_true_iff in E as [E1 E2].
        apply Nat.eqb_eq in E1, E2. destruct f, f'. cbn in *. subst. auto. }
      apply nth_error_Some_lt in Hy. rewrite (run_length t _ _ _ Hr) in Hy.
      destruct (added_between b ss k (length os)) as (m & Hm & Am); eauto; try lia. exists m. split; auto. lia.
    + apply andb_true_iff in H as [Q1 Q2]. intros k F. destruct k as [|k]; [destruct F as [F _]; destruct (I0 b Q1 F)|].
      destruct F as [(y & Hy & Ty) N]. destruct (run_step _ _ _ Hr k y Hy) as (x & o & Hx & _ & A & P).
      assert (D : forall m, (exists j, j <= m /\ true_at a ss j) \/ forall j, j <= m -> ~ true_at a ss j).
      { induction m as [|m [(q & B1 & B2)|N']].
        - destruct (true_at_dec a ss 0); [left; eauto|right]. intros q Hq. assert (q = 0) as -> by lia. auto.
        - left. exists q. split; auto.
        - destruct (true_at_dec a ss (S m)); [left; eauto|right]. intros q Hq. destruct (Nat.eq_dec q (S m)) as [->|]; auto. apply N'. lia. }
      destruct (D k) as [(q & B1 & B2)|N']; [exists q; split; auto; lia|]. exfalso.
      pose proof (avoid j a os ss Hj Hr k x Hx N') as HA. pose proof (steps_ok _ _ x o y Q2 HA A P) as Q. cbn beta in Q.
      apply T_ok in Ty. rewrite Ty in Q. discriminate.
  - intros l s Hl Gl G. apply In_nth_error in Hl as (i & Hi).
    pose proof (landmark_checked i l Hi) as C. unfold check_landmark in C. repeat (apply andb_true_iff in C as [C ?]).
    rewrite Gl in H0. cbn [negb orb] in H0. apply andb_true_iff in H0 as [Dj Fa]. apply negb_true_iff in Dj.
    unfold lm_true. rewrite Dj. intros f Hf. apply G. rewrite forallb_forall in Fa. specialize (Fa f Hf).
    apply existsb_exists in Fa as (f' & Hf' & E). unfold fact_eqb in E. apply andb_true_iff in E as [E1 E2].
    apply Nat.eqb_eq in E1, E2. destruct f, f'. cbn in *. subst. auto.
  - intros l os ss k o Hl Hr [(y & Hy & Ty) N] Ho. apply In_nth_error in Hl as (i & Hi).
    pose proof (landmark_checked i l Hi) as C. unfold check_landmark in C. repeat (apply andb_true_iff in C as [C ?]).
    destruct (run_step _ _ _ Hr k y Hy) as (x & o' & Hx & Ho' & A & P). assert (o' = o) by congruence. subst o'.
    assert (HA : In x (nth i av [])) by (eapply avoid; eauto; intros m Hm; apply N; lia).
    pose proof (steps_ok _ _ x o y H3 HA A P) as Q. cbn beta in Q. apply T_ok in Ty. rewrite Ty in Q. apply mem_In. auto.
  - intros l os ss k o Hl Hr [N (y & Hy & Ty)] Ho. apply In_nth_error in Hl as (i & Hi).
    pose proof (landmark_checked i l Hi) as C. unfold check_landmark in C. repeat (apply andb_true_iff in C as [C ?]).
    destruct (run_step _ _ _ Hr k y Hy) as (x & o' & Hx & Ho' & A & P). assert (o' = o) by congruence. subst o'.
    pose proof (steps_ok _ _ x o y H1 (in_R _ _ _ _ Hr Hx) A P) as Q. cbn beta in Q. apply T_ok in Ty. rewrite Ty in Q.
    rewrite (at_state l ss k x Hx) in N. destruct (T l x); [congruence|]. cbn in Q. apply mem_In. auto.
Qed.
End check.

(** Well-formedness by computation. *)
Definition ty_eqb (a b : ordering_type) : bool :=
  match a, b with
  | Reasonable, Reasonable | Natural, Natural | GreedyNecessary, GreedyNecessary | Necessary, Necessary => true
  | _, _ => false
  end.
Lemma ty_eqb_ok a b : ty_eqb a b = true -> a = b.
Proof. destruct a, b; auto; discriminate. Qed.
Definition nodupb (l : list nat) : bool := if list_eq_dec Nat.eq_dec (nodup Nat.eq_dec l) l then true else false.
Definition end_in (i : nat) (ty : ordering_type) (l : list (nat * ordering_type)) : bool :=
  existsb (fun x => (fst x =? i) && ty_eqb (snd x) ty) l.
Definition graph_okb (t : task) (g : graph) : bool :=
  forallb (fun nd : nat * landmark => let l := snd nd in
    forallb (fun f => match nth_error (t_vars t) (fst f) with Some x => snd f <? vdom x | None => false end) (lm_atoms l) &&
    nodupb (lm_first l) && forallb (fun o => o <? length (t_ops t)) (lm_first l) &&
    nodupb (lm_possible l) && forallb (fun o => o <? length (t_ops t)) (lm_possible l) &&
    forallb (fun c => match nth_error g (fst c) with Some b => end_in (fst nd) (snd c) (lm_parents b) | None => false end) (lm_children l) &&
    forallb (fun c => match nth_error g (fst c) with Some b => end_in (fst nd) (snd c) (lm_children b) | None => false end) (lm_parents l))
  (nodes g).
Lemma nodupb_ok l : nodupb l = true -> NoDup l.
Proof. unfold nodupb. destruct (list_eq_dec Nat.eq_dec (nodup Nat.eq_dec l) l) as [E|]; [|discriminate]. intros _. rewrite <- E. apply NoDup_nodup. Qed.
Lemma end_in_ok i ty l : end_in i ty l = true -> In (i, ty) l.
Proof.
  unfold end_in. intros H. apply existsb_exists in H as ([j ty'] & Hj & E). cbn in E. apply andb_true_iff in E as [E1 E2].
  apply Nat.eqb_eq in E1. apply ty_eqb_ok in E2. subst. auto.
Qed.
Lemma graph_okb_ok t g : graph_okb t g = true -> graph_ok t g.
Proof.
  intros H. unfold graph_okb in H. rewrite forallb_forall in H.
  assert (K : forall i l, nth_error g i = Some l -> In (i, l) (nodes g)) by apply nodes_In.
  assert (P : forall l, In l g -> exists i, nth_error g i = Some l) by apply In_nth_error.
  constructor.
  - intros l Hl. destruct (P l Hl) as (i & Hi). specialize (H _ (K i l Hi)). cbn [fst snd] in H. repeat (apply andb_true_iff in H as [H ?]).
    apply Forall_forall. intros f Hf. rewrite forallb_forall in H. specialize (H f Hf). unfold fact_ok, is_var.
    destruct (nth_error (t_vars t) (fst f)) as [x|]; [|discriminate]. exists x. split; auto. apply Nat.ltb_lt. auto.
  - intros l Hl. destruct (P l Hl) as (i & Hi). specialize (H _ (K i l Hi)). cbn [fst snd] in H. repeat (apply andb_true_iff in H as [H ?]).
    split; [apply nodupb_ok; auto|]. intros o Ho. repeat match goal with X : forallb _ _ = true |- _ => rewrite forallb_forall in X end. apply Nat.ltb_lt. auto.
  - intros l Hl. destruct (P l Hl) as (i & Hi). specialize (H _ (K i l Hi)). cbn [fst snd] in H. repeat (apply andb_true_iff in H as [H ?]).
    split; [apply nodupb_ok; auto|]. intros o Ho. repeat match goal with X : forallb _ _ = true |- _ => rewrite forallb_forall in X end. apply Nat.ltb_lt. auto.
  - intros i a Hi j ty. specialize (H _ (K i a Hi)). cbn [fst snd] in H. repeat (apply andb_true_iff in H as [H ?]).
    rewrite forallb_forall in H1, H0. split; intros Hj.
    + specialize (H1 _ Hj). cbn [fst snd] in H1. destruct (nth_error g j) as [b|]; [|discriminate]. exists b. split; auto. apply end_in_ok. auto.
    + specialize (H0 _ Hj). cbn [fst snd] in H0. destruct (nth_error g j) as [b|]; [|discriminate]. exists b. split; auto. apply end_in_ok. auto.
Qed.

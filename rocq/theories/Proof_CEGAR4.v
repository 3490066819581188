(** The refinement loop. *)
From Verif Require Import Outcome Spec_Task Spec_Relaxation Spec_Cartesian Spec_CEGAR Model_Task Model_PQ Model_Cartesian Model_CEGAR Proof_Task Proof_LMCut1 Proof_Cartesian1 Proof_Cartesian2 Proof_Cartesian3 Proof_Cartesian4 Proof_Cartesian5 Proof_Cartesian6 Prop_Cartesian Proof_CEGAR1 Proof_CEGAR2 Proof_CEGAR3.

Section LOOP.
Variable t : task.
Hypothesis Ht : cartesian_task t.
Notation N := (length (t_vars t)).
Notation doms := (doms t).
Notation num A := (length (ab_states A)).
Variable costs : list (option nat).
Hypothesis Hcosts : length costs = length (t_ops t).
Notation none := (fun _ : nat => False).
Notation T A := (c_out (ab_ts A)).

Lemma T_ok m A : AI t m A -> forall u l o v, nth_error (T A) u = Some l -> In (o, v) l -> o < length costs /\ v < length (T A) /\ v <> u.
Proof.
  intros HA u l o v Hl Hin. assert (H : exists l, nth_error (T A) u = Some l /\ In (o, v) l) by eauto. apply (out_In t m A HA) in H as (_ & Hv & Hne & op & Hop & _).
  rewrite (T_len t m A HA), Hcosts. splits; auto. eapply nth_error_Some_lt; eauto.
Qed.

(** Executing operators in the task gives an abstract path that is not more expensive. *)
Lemma abstract_path m A : AI t m A -> forall os s s' w, task_path t s os s' -> cost_of costs os w -> state_ok t s -> forall i, i < num A -> in_cset (csA A i) s ->
  exists j p w', j < num A /\ in_cset (csA A j) s' /\ apath (ed costs (T A)) none i p w' j /\ w' <= w /\ state_ok t s'.
Proof.
  intros HA. induction os as [|o os IH]; intros s s' w Hp Hc Hs i Hi Hin; inversion Hp; subst; inversion Hc; subst.
  - exists i, [], 0. splits; auto. constructor.
  - match goal with H : progress t s o ?x |- _ => rename x into s1; rename H into Hpr end.
    match goal with H : applicable t s o |- _ => rename H into Hap end. assert (Hs1 : state_ok t s1) by (eapply next_ok; eauto).
    destruct (ai_cover t m A HA s1 Hs1) as (k & _ & Hk & _ & _ & Hck).
    match goal with H : cost_of costs os ?w0 |- _ => rename H into Hc0; rename w0 into w1 end. match goal with H : task_path t s1 os s' |- _ => rename H into Hp0 end.
    destruct (IH s1 s' w1 Hp0 Hc0 Hs1 k Hk Hck) as (j & p & w' & H1' & H2' & H3' & H4' & H5').
    destruct (Nat.eq_dec i k) as [<-|Hne]; [exists j, p, w'; splits; auto; lia|].
    exists j, ((o, k) :: p), (c + w'). splits; auto; [|lia]. econstructor; [tauto| |exact H3']. split; [|auto]. apply (out_In t m A HA). splits; auto.
    pose proof Hap as (op & Hop & _). exists op. split; auto. apply (edge_complete t Ht o op s s1); auto.
Qed.
Lemma plan_path m A os w : AI t m A -> plan_of_cost t costs os w -> exists j p w', In j (ab_goals A) /\ apath (ed costs (T A)) none (ab_init A) p w' j /\ w' <= w.
Proof.
  intros HA [(s' & Hp & Hg) Hc]. destruct (ai_init t m A HA) as [Hi Hin]. destruct (abstract_path m A HA os _ s' w Hp Hc (init_ok t Ht) _ Hi Hin) as (j & p & w' & H1 & H2 & H3 & H4 & H5).
  exists j, p, w'. splits; auto. apply (ai_gcov t m A HA j H1). intros f Hf. apply H2. now apply Hg.
Qed.
Lemma path_cost A u p w v G : apath (ed costs (T A)) G u p w v -> cost_of costs (map fst p) w.
Proof. induction 1 as [|u o x c p w v _ [_ He] _ IH]; cbn [map fst]; constructor; auto. Qed.

(** Lower bounds survive a split. *)
Lemma edge_mono op c1 c2 c1' c2' : (forall x d, has c1 x d -> has c1' x d) -> (forall x d, has c2 x d -> has c2' x d) -> edge t op c1 c2 -> edge t op c1' c2'.
Proof.
  intros H1 H2 He x Hx. destruct (He x Hx) as [A1 A2]. split.
  - destruct (preV op x); auto.
  - destruct (postV op x); auto. destruct A2 as (d & B1 & B2). eauto.
Qed.
Definition par (A : abstraction) (v j : nat) : nat := if j =? num A then v else j.
Lemma split_path m A v x wanted A' : AI t m A -> legal A v x wanted -> refine A v x wanted = Ok A' ->
  forall u p w y, apath (ed costs (T A')) none u p w y -> exists p' w', apath (ed costs (T A)) none (par A v u) p' w' (par A v y) /\ w' <= w.
Proof.
  intros HA Hl E. destruct (refine_ok t Ht m A v x wanted HA Hl) as (A2 & E2 & HA' & Hnum & P1 & P2 & P3 & P4 & P5). assert (A2 = A') by congruence. subst A2.
  assert (Hv : v < num A) by apply Hl.
  assert (Sub : forall j, j < num A' -> forall y d, has (csA A' j) y d -> has (csA A (par A v j)) y d).
  { intros j Hj y d Hd. unfold par. destruct (Nat.eqb_spec j (num A)) as [->|Hn]; [apply P2 in Hd; tauto|]. destruct (Nat.eq_dec j v) as [->|Hjv]; [apply P1 in Hd; tauto|]. rewrite P3 in Hd; auto. lia. }
  assert (Lt : forall j, j < num A' -> par A v j < num A) by (intros j Hj; unfold par; destruct (Nat.eqb_spec j (num A)); lia).
  intros u p w y H. induction H as [u|u o z c p w y _ He Hp (p' & w' & IH1 & IH2)]; [exists [], 0; split; [constructor|auto]|].
  destruct He as [He Hc]. apply (out_In t m A' HA') in He as (Hu & Hz & _ & op & Hop & Hed).
  destruct (Nat.eq_dec (par A v u) (par A v z)) as [Eq|Hne]; [exists p', w'; split; [now rewrite Eq|lia]|].
  exists ((o, par A v z) :: p'), (c + w'). split; [|lia]. econstructor; [tauto| |exact IH1]. split; [|exact Hc]. apply (out_In t m A HA). splits; auto. exists op. split; auto.
  eapply edge_mono; [| |exact Hed]; apply Sub; auto.
Qed.
Lemma split_hok m A v x wanted A' si h : AI t m A -> legal A v x wanted -> refine A v x wanted = Ok A' -> length si = num A -> hok costs (T A) (ab_goals A) si h ->
  exists si' h', copy_h_value_to_children si v v (num A) = Ok si' /\ hok costs (T A') (ab_goals A') si' h' /\ length si' = num A'.
Proof.
  intros HA Hl E Lsi (_ & Hh & Ha). destruct (refine_ok t Ht m A v x wanted HA Hl) as (A2 & E2 & HA' & Hnum & P1 & P2 & P3 & P4 & P5). assert (A2 = A') by congruence. subst A2.
  assert (Hv : v < num A) by apply Hl. rewrite (T_len t m A HA) in *. unfold copy_h_value_to_children. rewrite vget_si by lia. cbn [bind].
  pose proof (Hh v Hv) as Hhv. unfold geth in Hhv. rewrite Hhv. assert (L1 : length (si ++ [new_sinfo]) = S (num A)) by (rewrite app_length; cbn; lia).
  rewrite vget_si by lia. cbn [bind]. rewrite app_nth1 by lia. unfold increase_h. rewrite Hhv, Nat.leb_refl. cbn [guard bind]. rewrite vset_si by lia. cbn [bind].
  set (i1 := {| si_g := _; si_h := Some (h v); si_in := _ |}). rewrite vget_si by (rewrite upd_length; lia). cbn [bind]. rewrite nth_si_upd by lia.
  destruct (Nat.eqb_spec v (num A)) as [Ev|_]; [lia|]. rewrite app_nth2, Lsi, Nat.sub_diag by lia. cbn [nth new_sinfo si_h si_g si_in Nat.leb guard bind]. rewrite vset_si by (rewrite upd_length; lia).
  eexists. exists (fun s => h (par A v s)). split; [reflexivity|]. split; [split; [|split]|].
  - rewrite !upd_length, (T_len t m A' HA'). lia.
  - rewrite (T_len t m A' HA'), Hnum. intros s Hs. unfold geth. rewrite nth_si_upd by (rewrite upd_length; lia). unfold par. rewrite Nat.eqb_sym. destruct (Nat.eqb_spec s (num A)) as [->|Hn]; [reflexivity|].
    rewrite nth_si_upd by lia. destruct (Nat.eqb_spec v s) as [<-|_]; [reflexivity|]. rewrite app_nth1 by lia. apply (Hh s). lia.
  - intros s p w y Hs Hp Hy. rewrite (T_len t m A' HA') in Hs. destruct (split_path m A v x wanted A' HA Hl E s p w y Hp) as (p' & w' & Hp' & Hw').
    assert (Hg : In (par A v y) (ab_goals A)).
    { apply P4 in Hy. unfold par. destruct Hy as [[Hyv Hy]|(Hy & Hyv & _)]; [pose proof (ai_glt t m A HA y Hy); destruct (Nat.eqb_spec y (num A)); [lia|auto]|].
      destruct (Nat.eqb_spec y (num A)); [auto|]. destruct Hyv as [->|]; [auto|lia]. }
    assert (Hs' : par A v s < num A) by (unfold par; destruct (Nat.eqb_spec s (num A)); lia). rewrite <- (T_len t m A HA) in Hs'. pose proof (Ha _ _ _ _ Hs' Hp' Hg). lia.
  - rewrite !upd_length. lia.
Qed.

Lemma legal_is_split A i x wanted : i < num A -> legal A i x wanted -> legal_split t (view_of A) i x wanted.
Proof.
  intros Hi (L1 & L2 & L3 & L4 & d & L5 & L6). split; [exact L1|]. split; [auto|]. split; [auto|]. split.
  - intros e He. apply contains_has; [exact L1|]. now apply L4.
  - exists d. split; [|exact L6]. apply contains_has; [exact L1|exact L5].
Qed.

Variable P : pqueue.
Variable bag : PQ P -> list (nat * nat).
Hypothesis HP : pq_contract P bag.
Variable q0 : PQ P.
Hypothesis Hq0 : bag q0 = [].
Variable choose : nat -> nat.

Variable R : fact -> Prop.
Hypothesis Rinit : forall f, holds (t_init t) f -> R f.
Hypothesis Rstep : forall s o op, state_ok t s -> ~ goal_state t s -> good t R s -> nth_error (t_ops t) o = Some op -> all_hold s (op_pre op) -> good t R (apply_effects s (op_effs op)).

Definition stop_right (budget n0 n1 : nat) (st : stop) : Prop :=
  match st with
  | Limit => n1 = n0 + budget
  | Unsolvable => no_plan t costs
  | Solved sol => optimal_plan t costs (map fst sol)
  end.

Lemma rounds_ok : forall budget k A si m h, refined t m A -> classes t R A -> length si <= num A -> hok costs (T A) (ab_goals A) si h ->
  exists A' st, refinement_rounds P q0 choose t costs doms budget k A si = Ok (A', st) /\ refined t m A' /\ classes t R A' /\
    num A <= num A' <= num A + budget /\ stop_right budget (num A) (num A') st.
Proof.
  induction budget as [|budget IH]; intros k A si m h HR HK Hl Hh; cbn [refinement_rounds].
  - exists A, Limit. splits; auto; cbn; lia.
  - pose proof (refined_AI t m A Ht HR) as HA. destruct (ai_init t m A HA) as [Hi _]. assert (Hi' : ab_init A < length (T A)) by (rewrite (T_len t m A HA); auto).
    destruct (find_solution_ok P bag HP q0 Hq0 costs (T A) (ab_goals A) (ab_init A) Hi' (T_ok m A HA) si h Hh) as (r & si1 & E1 & Hr). rewrite E1. cbn [bind]. destruct r as [sol|].
    + destruct Hr as (W & v & Hp & Hv & Hopt & Hlen & h1 & Hh1). rewrite (T_len t m A HA) in Hlen.
      destruct (find_flaw_ok t Ht R Rinit Rstep m A costs HA HK sol W v Hp Hv) as (fl & E2 & Hfl). rewrite E2. cbn [bind]. destruct fl as [fl|].
      * pose proof Hfl as (Hfa & Hfs & Hff & _ & _). assert (Sc : shape (csA A (fl_abs fl)) doms) by now apply (ai_shape t m A HA).
        rewrite (vstate A) by auto. cbn [bind]. destruct (possible_splits_ok t (csA A (fl_abs fl)) (fl_desired fl) (fl_state fl) Sc Hfs Hff) as (sp & E3 & Hne & Hsp).
        unfold csA in E3. rewrite E3. cbn [bind]. assert (Hmod : choose k mod length sp < length sp) by (apply Nat.mod_upper_bound; destruct sp; [congruence|discriminate]).
        destruct (nth_error sp (choose k mod length sp)) as [[x wanted]|] eqn:En; [|apply nth_error_None in En; lia]. assert (Ev : vget sp (choose k mod length sp) = Ok (x, wanted)) by (unfold vget; now rewrite En).
        rewrite Ev. cbn [bind fst snd]. destruct (Hsp x wanted (nth_error_In _ _ En)) as (S1 & S2 & S3 & S4 & S5 & S6).
        destruct (split_flaw t Ht R m A HA HK fl x wanted Hfl S1 S2 S3 S4 S5 S6) as [Hleg Hcl].
        destruct (refine_ok t Ht m A (fl_abs fl) x wanted HA Hleg) as (A1 & E4 & HA1 & Hnum & _). rewrite E4. cbn [bind].
        destruct (split_hok m A (fl_abs fl) x wanted A1 si1 h1 HA Hleg E4 Hlen Hh1) as (si2 & h2 & E5 & Hh2 & Hl2). rewrite E5. cbn [bind].
        assert (HR1 : refined t m A1) by (eapply refined_split; [exact HR| |exact E4]; now apply legal_is_split).
        destruct (IH (S k) A1 si2 m h2 HR1 (Hcl A1 E4) ltac:(lia) Hh2) as (A2 & st & E6 & G1 & G2 & G3 & G4). exists A2, st. splits; auto; try lia.
        destruct st; cbn [stop_right] in *; auto. lia.
      * destruct Hfl as (s' & H1 & H2). exists A, (Solved sol). splits; auto; try lia. cbn [stop_right]. exists W. split.
        -- split; [exists s'; auto|]. eapply path_cost; eauto.
        -- intros os' c' Hpl. destruct (plan_path m A os' c' HA Hpl) as (j & p & w' & G1 & G2 & G3). specialize (Hopt p w' j G2 G1). lia.
    + exists A, Unsolvable. splits; auto; try lia. cbn [stop_right]. intros os c Hpl. destruct (plan_path m A os c HA Hpl) as (j & p & w' & G1 & G2 & _). exact (Hr p w' j G2 G1).
Qed.
Lemma hok_start A m : AI t m A -> hok costs (T A) (ab_goals A) [new_sinfo] (fun _ => 0).
Proof.
  intros HA. destruct (ai_init t m A HA) as [Hi _]. split; [rewrite (T_len t m A HA); cbn; lia|]. split.
  - intros s _. unfold geth. destruct s as [|[|s]]; reflexivity.
  - intros s p w v _ _ _. lia.
Qed.
End LOOP.

(** An abstraction has at most as many abstract states as there are states. *)
Fixpoint all_states (ds : list nat) : list state :=
  match ds with [] => [[]] | d :: ds => flat_map (fun x => map (cons x) (all_states ds)) (seq 0 d) end.
Lemma all_states_len ds : length (all_states ds) = fold_right Nat.mul 1 ds.
Proof.
  induction ds as [|d ds IH]; [auto|]. cbn [all_states fold_right]. rewrite flat_len. rewrite (map_ext _ (fun _ => fold_right Nat.mul 1 ds)) by (intros x; now rewrite map_length).
  assert (G : forall k, list_sum (map (fun _ => fold_right Nat.mul 1 ds) (seq k d)) = d * fold_right Nat.mul 1 ds); [|apply G].
  induction d as [|d IHd]; intros k; [auto|]. cbn [seq map Nat.mul]. rewrite <- (IHd (S k)). reflexivity.
Qed.
Lemma all_states_In : forall vs s, Forall2 (fun x d => x < vdom d) s vs -> In s (all_states (map vdom vs)).
Proof.
  intros vs s H. induction H as [|x v s vs Hx H IH]; cbn [map all_states]; [now left|]. apply in_flat_map. exists x. split; [apply in_seq; lia|]. now apply in_map.
Qed.
Lemma num_bound t m A : cartesian_task t -> AI t m A -> length (ab_states A) <= num_states t.
Proof.
  intros Ht HA. destruct (partition_ok t m A HA) as [_ Hne]. cbn [w_num view_of] in Hne.
  assert (Hch : forall k, k <= length (ab_states A) -> exists l, length l = k /\ NoDup l /\ forall s, In s l -> state_ok t s /\ exists i, i < k /\ in_cset (csA A i) s).
  { induction k as [|k IH]; intros Hk; [exists []; splits; auto; [constructor|intros s []]|]. destruct IH as (l & L1 & L2 & L3); [lia|]. destruct (Hne k ltac:(lia)) as (s & Hs).
    apply (members_cset t A k s) in Hs; [|lia]. destruct Hs as [Hs Hc]. exists (s :: l). splits; auto; [cbn; lia| |].
    - constructor; auto. intros Hin. destruct (L3 s Hin) as (_ & i & Hi & Hci). assert (k = i) by (apply (ai_disj t m A HA k i s); auto; lia). lia.
    - intros s' [<-|Hin]; [split; auto; exists k; split; auto|]. destruct (L3 s' Hin) as (H1 & i & H2 & H3). split; auto. exists i. split; auto. }
  destruct (Hch _ (le_n _)) as (l & L1 & L2 & L3). rewrite <- L1. unfold num_states. rewrite <- all_states_len. apply NoDup_incl_length; auto.
  intros s Hs. apply all_states_In. apply (L3 s Hs).
Qed.

(** Without shrinking, the factored systems of merge-and-shrink represent the task exactly. *)
From Coq Require Import Permutation.
From Verif Require Import Outcome Spec_Task Spec_Relaxation Spec_Projection Model_PQ Model_Graph Model_MAS Spec_FTS Model_MASRun.
From Verif Require Import Model_Task Proof_Task Proof_RelaxHeur Proof_PDB3.
From Verif Require Import Proof_MAS1 Proof_MAS2 Proof_MAS3 Proof_MAS4 Proof_MAS5 Proof_MAS6 Proof_MAS7 Proof_MAS8 Proof_MAS9 Proof_MAS10 Proof_MAS11 Proof_MAS12.

Section EXACT.
Variable P : pqueue.
Variable bag : PQ P -> list (nat * nat).
Hypothesis HP : pq_contract P bag.
Variable q0 : PQ P.
Hypothesis Hq0 : bag q0 = [].
Variable ord : list (nat * list nat) -> list (nat * list nat).
Hypothesis Hord : forall b, Permutation (ord b) b.
Variable ci cg : bool.
Variable t : task.
Hypothesis Htx : mas_exact_task t.
Lemma exact_mas : mas_task t.
Proof. exact (proj1 Htx). Qed.
Hint Resolve exact_mas : core.

Definition at_factor (F : fts) (i : nat) (f : factor) : Prop := nth_error (F_factors F) i = Some (Some f).
Definition EX (F : fts) : Prop := forall s (x : nat -> nat), state_ok t s -> (forall i f, at_factor F i f -> abs f s (Some (x i))) ->
  (forall (y : nat -> nat) a c, active (F_labels F) a c -> (forall i f, at_factor F i f -> l_step (the_lts (f_ts f)) a (x i) (y i)) ->
     exists o op s', nth_error (t_ops t) o = Some op /\ op_cost op = c /\ applicable t s o /\ progress t s o s' /\ forall i f, at_factor F i f -> abs f s' (Some (y i))) /\
  ((forall i f, at_factor F i f -> l_goal (the_lts (f_ts f)) (x i)) -> goal_state t s).

Lemma state_length s : state_ok t s -> length s = length (t_vars t).
Proof. unfold state_ok. induction 1; cbn [length]; auto. Qed.
Lemma EX_start F : create_fts P q0 ci cg t = Ok F -> EX F.
Proof.
  intros E. destruct (create_ok P bag HP q0 Hq0 ci cg t exact_mas) as (F0 & E0 & HL & HI & Hlen & Hat). rewrite E0 in E. inversion E; subst F0. clear E.
  assert (Hall : forall v, v < length (t_vars t) -> exists f, at_factor F v f).
  { intros v Hv. unfold create_fts in E0. apply bind_ok in E0 as (fs & _ & E). inversion E; subst F. unfold at_factor. cbn [F_factors] in *. rewrite map_length in Hlen. destruct (nth_error fs v) as [f|] eqn:Ef; [|apply nth_error_None in Ef; lia]. exists f. exact (map_nth_error Some v fs Ef). }
  pose proof Htx as (((_ & Hops & _ & _ & Hgok) & [Hr Hnd] & _) & Hgn & Hpl). rewrite Forall_forall in Hops, Hgok.
  intros s x Hs Hx. pose proof (state_length s Hs) as Hls.
  assert (Hsx : forall v, v < length (t_vars t) -> nth_error s v = Some (x v)).
  { intros v Hv. destruct (Hall v Hv) as [f Hf]. destruct (Hat v f Hf) as (_ & Hab & _). destruct (Hab s Hs) as (z & Hz & Hz'). pose proof (Hx v f Hf) as Hxv. unfold abs in *. rewrite Hxv in Hz'. inversion Hz'; now subst. }
  split.
  - intros y a c Ha Hst. rewrite HL in Ha. apply label_active in Ha as (op & Hop & ->). pose proof (nth_error_In _ _ Hop) as Hin. destruct (Hpl op Hin) as (P1 & P2 & P3). destruct (Hops op Hin) as [O1 O2]. rewrite Forall_forall in O1, O2.
    assert (Hv : forall v, v < length (t_vars t) -> (forall f, In f (op_pre op) -> fst f = v -> snd f = x v) /\ (forall e, In e (op_effs op) -> fst (eff_fact e) = v -> snd (eff_fact e) = y v) /\
      ((forall e, In e (op_effs op) -> fst (eff_fact e) <> v) -> y v = x v)).
    { intros v Hv. destruct (Hall v Hv) as [f Hf]. destruct (Hat v f Hf) as (_ & _ & Hos & _). specialize (Hst v f Hf). apply (Hos a op) in Hst; auto. eapply op_step_exact; eauto. }
    set (s' := map y (seq 0 (length (t_vars t)))).
    assert (Hs' : forall v, v < length (t_vars t) -> nth_error s' v = Some (y v)).
    { intros v Hlt. unfold s'. rewrite nth_error_map. rewrite (nth_error_nth' (seq 0 (length (t_vars t))) 0) by (now rewrite seq_length). rewrite seq_nth by auto. reflexivity. }
    assert (Hpr : progress t s a s').
    { apply (progress_writes t s a op s'); auto.
      - intros e He. destruct (O2 e He) as (_ & (xv & X & _) & _). rewrite Hls. eapply nth_error_Some_lt; eauto.
      - split; [unfold s'; rewrite map_length, seq_length; auto|]. split.
        + intros f Hf. apply in_map_iff in Hf as (e & <- & He). destruct (O2 e He) as (_ & (xv & X & _) & _). assert (Hlt : fst (eff_fact e) < length (t_vars t)) by (eapply nth_error_Some_lt; eauto). rewrite Hs' by auto. f_equal. symmetry. now apply (Hv _ Hlt).
        + intros v Hni. destruct (le_lt_dec (length (t_vars t)) v) as [Hge|Hlt].
          * rewrite (proj2 (nth_error_None s v)) by lia. apply nth_error_None. unfold s'. rewrite map_length, seq_length. auto.
          * rewrite Hs', Hsx by auto. f_equal. apply (Hv v Hlt). intros e He Ee. apply Hni. rewrite map_map. apply in_map_iff. exists e. auto. }
    exists a, op, s'. splits; auto.
    + exists op. split; auto. intros f Hf. destruct (O1 f Hf) as (xv & X & _). assert (Hlt : fst f < length (t_vars t)) by (eapply nth_error_Some_lt; eauto). unfold holds. rewrite Hsx by auto. f_equal. symmetry. now apply (Hv _ Hlt).
    + intros i f Hf. destruct (Hat i f Hf) as (_ & Hab & _). destruct (Hab s') as (z & Hz & Hz'); [eapply progress_state; eauto|]. assert (Hlt : i < length (t_vars t)) by (rewrite <- Hlen; eapply nth_error_Some_lt; eauto). rewrite Hs' in Hz by auto. inversion Hz; now subst.
  - intros Hg [v g] Hin. destruct (Hgok _ Hin) as (xv & X & _). cbn [fst] in X. assert (Hlt : v < length (t_vars t)) by (eapply nth_error_Some_lt; eauto). destruct (Hall v Hlt) as [f Hf]. destruct (Hat v f Hf) as (_ & _ & _ & Hgv & _).
    specialize (Hgv _ (Hg v f Hf)). rewrite (goal_value_in t v g Hgn Hin) in Hgv. unfold holds. cbn [fst snd]. rewrite Hsx by auto. now rewrite Hgv.
Qed.

Lemma pair_inj n a b a' b' : b < n -> b' < n -> a * n + b = a' * n + b' -> a = a' /\ b = b'.
Proof. intros Hb Hb' E. assert (a = a') by nia. subst. split; auto. lia. Qed.
Lemma EX_merge lab F i j f g T D : i <> j -> Inv ci cg t lab F -> at_factor F i f -> at_factor F j g -> is_product (active (F_labels F)) (the_lts (f_ts f)) (the_lts (f_ts g)) (the_lts T) ->
  EX F -> EX (set_factors F (upd (upd (F_factors F) i None) j None ++ [Some {| f_ts := T; f_rep := new_node (f_rep f) (f_rep g); f_dist := D |}])).
Proof.
  intros Hij HI Hf Hg (Hn & Hgo & _ & Hst) HE s x Hs Hx. pose proof (in_fac _ _ _ _ _ HI i f Hf) as FIf. pose proof (in_fac _ _ _ _ _ HI j g Hg) as FIg. cbn [the_lts l_n] in *.
  set (h := {| f_ts := T; f_rep := new_node (f_rep f) (f_rep g); f_dist := D |}) in *. set (len := length (F_factors F)). cbn [set_factors F_labels].
  assert (Hlt_i : i < len) by (eapply nth_error_Some_lt; exact Hf). assert (Hlt_j : j < len) by (eapply nth_error_Some_lt; exact Hg).
  assert (Hnew : at_factor (set_factors F (upd (upd (F_factors F) i None) j None ++ [Some h])) len h).
  { unfold at_factor. cbn [set_factors F_factors]. rewrite nth_error_app2; rewrite !upd_length; [|auto]. now rewrite Nat.sub_diag. }
  assert (Hold : forall k e, k <> i -> k <> j -> at_factor F k e -> k <> len /\ at_factor (set_factors F (upd (upd (F_factors F) i None) j None ++ [Some h])) k e).
  { intros k e Hki Hkj Hk. assert (Hkl : k < len) by (eapply nth_error_Some_lt; exact Hk). split; [lia|]. unfold at_factor. cbn [set_factors F_factors]. rewrite nth_error_app1 by (now rewrite !upd_length). rewrite !upd_nth_neq by auto. exact Hk. }
  pose proof (Hx len h Hnew) as Hxh.
  assert (Hdec : forall s0, state_ok t s0 -> forall z, abs h s0 (Some z) -> exists a b, abs f s0 (Some a) /\ abs g s0 (Some b) /\ z = a * ts_n (f_ts g) + b /\ a < ts_n (f_ts f) /\ b < ts_n (f_ts g)).
  { intros s0 Hs0 z Hz. destruct (abs_total ci cg t _ _ f s0 FIf Hs0) as (u & Hu & Bu), (abs_total ci cg t _ _ g s0 FIg Hs0) as (w & Hw & Bw).
    unfold abs in Hz. cbn [f_rep h] in Hz. rewrite (merge_value t f g s0 u w (fi_rep _ _ _ _ _ _ FIf) (fi_rep _ _ _ _ _ _ FIg) Hs0 Hu Hw) in Hz. rewrite (fi_dom _ _ _ _ _ _ FIg) in Hz.
    destruct u as [a|]; [|discriminate]. destruct w as [b|]; [|discriminate]. exists a, b. inversion Hz. splits; auto. }
  destruct (Hdec s Hs _ Hxh) as (a0 & b0 & Ha0 & Hb0 & Exh & La & Lb).
  set (x1 := fun k => if k =? i then a0 else if k =? j then b0 else x k).
  assert (Hx1 : forall k e, at_factor F k e -> abs e s (Some (x1 k))).
  { intros k e Hk. unfold x1. destruct (Nat.eqb_spec k i) as [->|Hki]; [unfold at_factor in *; rewrite Hf in Hk; inversion Hk; now subst|]. destruct (Nat.eqb_spec k j) as [->|Hkj]; [unfold at_factor in *; rewrite Hg in Hk; inversion Hk; now subst|].
    apply Hx. now apply Hold. }
  destruct (HE s x1 Hs Hx1) as [E1 E2]. split.
  - intros y a c Ha Hsteps. pose proof (Hsteps len h Hnew) as Hsh. cbn [h f_ts] in Hsh. apply (Hst a c) in Hsh as (s1 & s2 & t1 & t2 & X1 & X2 & B1 & B2 & S1 & S2); auto.
    rewrite Exh in X1. destruct (pair_inj _ _ _ _ _ Lb B1 X1) as [<- <-].
    set (y1 := fun k => if k =? i then t1 else if k =? j then t2 else y k).
    destruct (E1 y1 a c Ha) as (o & op & s' & Ho & Hc & Happ & Hpr & Hab).
    { intros k e Hk. unfold x1, y1. destruct (Nat.eqb_spec k i) as [->|Hki]; [unfold at_factor in *; rewrite Hf in Hk; inversion Hk; now subst|]. destruct (Nat.eqb_spec k j) as [->|Hkj]; [unfold at_factor in *; rewrite Hg in Hk; inversion Hk; now subst|].
      apply Hsteps. now apply Hold. }
    assert (Hs' : state_ok t s') by (eapply progress_state; eauto).
    exists o, op, s'. splits; auto. intros k e Hk. unfold at_factor in Hk. cbn [set_factors F_factors] in Hk. apply merged_nth in Hk as [(Hki & Hkj & Hk)|[-> ->]].
    + specialize (Hab k e Hk). unfold y1 in Hab. rewrite (proj2 (Nat.eqb_neq k i) Hki), (proj2 (Nat.eqb_neq k j) Hkj) in Hab. exact Hab.
    + pose proof (Hab i f Hf) as A1. pose proof (Hab j g Hg) as A2. unfold y1 in A1, A2. rewrite Nat.eqb_refl in A1. rewrite (proj2 (Nat.eqb_neq j i)), Nat.eqb_refl in A2 by auto.
      unfold abs. cbn [h f_rep]. rewrite (merge_value t f g s' _ _ (fi_rep _ _ _ _ _ _ FIf) (fi_rep _ _ _ _ _ _ FIg) Hs' A1 A2). rewrite (fi_dom _ _ _ _ _ _ FIg). fold len. now rewrite X2.
  - intros Hgoal. apply E2. intros k e Hk. pose proof (Hgoal len h Hnew) as Gh. cbn [h f_ts] in Gh. rewrite Exh in Gh. apply Hgo in Gh as [G1 G2]; auto. unfold x1.
    destruct (Nat.eqb_spec k i) as [->|Hki]; [unfold at_factor in *; rewrite Hf in Hk; inversion Hk; now subst|]. destruct (Nat.eqb_spec k j) as [->|Hkj]; [unfold at_factor in *; rewrite Hg in Hk; inversion Hk; now subst|]. apply Hgoal. now apply Hold.
Qed.

Lemma EX_bisim lab F i f f' cls : Inv ci cg t lab F -> Inv ci cg t lab (set_factors F (upd (F_factors F) i (Some f'))) -> at_factor F i f -> bisimulation (active (F_labels F)) (the_lts (f_ts f)) cls ->
  is_image (active (F_labels F)) (the_lts (f_ts f)) cls (the_lts (f_ts f')) ->
  (forall s, state_ok t s -> forall x k, abs f' s (Some k) -> abs f s x -> exists z, x = Some z /\ in_class cls k z) ->
  (forall s, state_ok t s -> forall x k, abs f s (Some x) -> in_class cls k x -> abs f' s (Some k)) ->
  EX F -> EX (set_factors F (upd (F_factors F) i (Some f'))).
Proof.
  intros HI HI' Hf [B1 B2] (_ & Hgo & _ & Hst) Hback Hfwd HE s x Hs Hx. pose proof (in_fac _ _ _ _ _ HI i f Hf) as FIf. cbn [set_factors F_labels].
  assert (Hlt : i < length (F_factors F)) by (eapply nth_error_Some_lt; exact Hf).
  assert (Hnew : at_factor (set_factors F (upd (F_factors F) i (Some f'))) i f') by (unfold at_factor; cbn [set_factors F_factors]; now apply upd_nth_eq).
  assert (Hold : forall k e, k <> i -> (at_factor (set_factors F (upd (F_factors F) i (Some f'))) k e <-> at_factor F k e)) by (intros k e Hk; unfold at_factor; cbn [set_factors F_factors]; rewrite upd_nth_neq by auto; tauto).
  destruct (abs_total ci cg t _ _ f s FIf Hs) as (u & Hu & _). destruct (Hback s Hs u (x i) (Hx i f' Hnew) Hu) as (z & -> & Hz).
  set (x1 := fun k => if k =? i then z else x k).
  assert (Hx1 : forall k e, at_factor F k e -> abs e s (Some (x1 k))).
  { intros k e Hk. unfold x1. destruct (Nat.eqb_spec k i) as [->|Hki]; [unfold at_factor in *; rewrite Hf in Hk; inversion Hk; now subst|]. apply Hx. now apply Hold. }
  destruct (HE s x1 Hs Hx1) as [E1 E2]. split.
  - intros y a c Ha Hsteps. pose proof (Hsteps i f' Hnew) as Hsi. apply (Hst a c) in Hsi as (z' & w0 & Cz & Cw0 & Sw0); auto. destruct (B2 _ _ _ _ _ _ _ Ha Cz Hz Cw0 Sw0) as (w & Sw & Cw).
    set (y1 := fun k => if k =? i then w else y k). destruct (E1 y1 a c Ha) as (o & op & s' & Ho & Hc & Happ & Hpr & Hab).
    { intros k e Hk. unfold x1, y1. destruct (Nat.eqb_spec k i) as [->|Hki]; [unfold at_factor in *; rewrite Hf in Hk; inversion Hk; now subst|]. apply Hsteps. now apply Hold. }
    assert (Hs' : state_ok t s') by (eapply progress_state; eauto). exists o, op, s'. splits; auto. intros k e Hk. destruct (Nat.eq_dec k i) as [->|Hki].
    + unfold at_factor in *. rewrite Hnew in Hk. inversion Hk; subst e. pose proof (Hab i f Hf) as A1. unfold y1 in A1. rewrite Nat.eqb_refl in A1. eapply Hfwd; eauto.
    + apply (Hold k e Hki) in Hk. specialize (Hab k e Hk). unfold y1 in Hab. rewrite (proj2 (Nat.eqb_neq k i) Hki) in Hab. auto.
  - intros Hgoal. apply E2. intros k e Hk. unfold x1. destruct (Nat.eqb_spec k i) as [->|Hki]; [|apply Hgoal; now apply Hold]. unfold at_factor in *. rewrite Hf in Hk. inversion Hk; subst e.
    pose proof (Hgoal i f' Hnew) as Gi. apply Hgo in Gi as (z' & Cz & Gz). exact (B1 _ _ _ Cz Hz Gz).
Qed.
Lemma singletons_bisim lc T cls : (forall c, In c cls -> length c = 1) -> bisimulation lc T cls.
Proof.
  intros H1. assert (Huniq : forall k u w, in_class cls k u -> in_class cls k w -> u = w).
  { intros k u w (c & A & B) (c' & A' & B'). assert (c' = c) by congruence. subst c'. pose proof (H1 c (nth_error_In _ _ A)) as Hl. destruct c as [|z [|? ?]]; try discriminate. destruct B as [<-|[]], B' as [<-|[]]. auto. }
  split.
  - intros k s u A B. now rewrite (Huniq _ _ _ A B).
  - intros k k' s u s' a c _ A B C Hs. rewrite (Huniq _ _ _ A B) in Hs. eauto.
Qed.

Lemma one_group_step L T olds a b x y : twf L (max_labels t) T -> one_local_group T olds -> In a olds -> In b olds -> l_step (the_lts T) a x y -> l_step (the_lts T) b x y.
Proof.
  intros W [k Hk] Ha Hb (k' & i & E & Ei & Hin). cbn [the_lts l_step]. rewrite (Hk a Ha) in E. inversion E; subst k'. exists k, i. splits; auto.
Qed.
Lemma joint_back lab F F' mp comb (x y : nat -> nat) a c : Inv ci cg t lab F -> label_groups (F_labels F) mp ->
  (forall i f en, i <> comb -> get_factor F i = Ok f -> In en mp -> one_local_group (f_ts f) (snd en)) ->
  costs_at (F_labels F) mp (F_labels F') ->
  (forall i f, at_factor F i f -> exists f', at_factor F' i f' /\ f_rep f' = f_rep f /\ is_relabelling mp (active (F_labels F)) (the_lts (f_ts f)) (the_lts (f_ts f'))) ->
  active (F_labels F') a c -> (forall i f', at_factor F' i f' -> l_step (the_lts (f_ts f')) a (x i) (y i)) ->
  exists b, active (F_labels F) b c /\ forall i f, at_factor F i f -> l_step (the_lts (f_ts f)) b (x i) (y i).
Proof.
  intros HI HG Hloc HC Hpair Ha Hsteps.
  pose proof HC as [_ HR]. pose proof HG as (_ & _ & HGr). apply HR in Ha as [[A B]|(olds & A & [(b0 & B1 & B2) _])].
      - exists a. split; auto. intros i f Hf. destruct (Hpair i f Hf) as (f' & Hf' & _ & (_ & _ & _ & R1 & _)). apply (R1 a c); auto.
      - destruct (HGr _ A) as [_ [c0 Hc0]]. cbn [snd] in Hc0. assert (c = c0) by (exact (active_fun _ _ _ _ B2 (Hc0 b0 B1))). subst c0.
        assert (Hany : forall i f, at_factor F i f -> exists b, In b olds /\ l_step (the_lts (f_ts f)) b (x i) (y i)).
        { intros i f Hf. destruct (Hpair i f Hf) as (f' & Hf' & _ & (_ & _ & _ & _ & R2)). apply (R2 a olds); auto. }
        assert (Hpick : exists b, In b olds /\ forall f, at_factor F comb f -> l_step (the_lts (f_ts f)) b (x comb) (y comb)).
        { destruct (nth_error (F_factors F) comb) as [[f|]|] eqn:Ec.
          - destruct (Hany comb f Ec) as (b & Hb & Sb). exists b. split; auto. intros f0 Hf0. unfold at_factor in Hf0. assert (f0 = f) by congruence. now subst.
          - exists b0. split; auto. intros f0 Hf0. unfold at_factor in Hf0. congruence.
          - exists b0. split; auto. intros f0 Hf0. unfold at_factor in Hf0. congruence. }
        destruct Hpick as (b & Hb & Sb). exists b. split; auto. intros i f Hf. destruct (Nat.eq_dec i comb) as [->|Hne]; auto.
        destruct (Hany i f Hf) as (b' & Hb' & Sb'). eapply (one_group_step _ (f_ts f) olds b' b); eauto; [exact (fi_wf _ _ _ _ _ _ (in_fac _ _ _ _ _ HI i f Hf))|].
        apply (Hloc i f (a, olds) Hne); auto. now apply get_factor_ok.
Qed.
Lemma EX_reduce lab F F' mp comb : Inv ci cg t lab F -> Inv ci cg t (fun o => relabel mp (lab o)) F' -> label_groups (F_labels F) mp ->
  (forall i f en, i <> comb -> get_factor F i = Ok f -> In en mp -> one_local_group (f_ts f) (snd en)) ->
  costs_at (F_labels F) mp (F_labels F') ->
  (forall i f, at_factor F i f -> exists f', at_factor F' i f') ->
  (forall i f', at_factor F' i f' -> exists f, at_factor F i f /\ f_rep f' = f_rep f /\ is_relabelling mp (active (F_labels F)) (the_lts (f_ts f)) (the_lts (f_ts f'))) ->
  EX F -> EX F'.
Proof.
  intros HI HI' HG Hloc HC Hfw Hbk HE s x Hs Hx.
  assert (Hpair : forall i f, at_factor F i f -> exists f', at_factor F' i f' /\ f_rep f' = f_rep f /\ is_relabelling mp (active (F_labels F)) (the_lts (f_ts f)) (the_lts (f_ts f'))).
  { intros i f Hf. destruct (Hfw i f Hf) as [f' Hf']. exists f'. split; auto. destruct (Hbk i f' Hf') as (f0 & A & B). unfold at_factor in *. assert (f0 = f) by congruence. now subst. }
  assert (Hx1 : forall i f, at_factor F i f -> abs f s (Some (x i))).
  { intros i f Hf. destruct (Hpair i f Hf) as (f' & Hf' & Er & _). pose proof (Hx i f' Hf') as X. unfold abs in *. now rewrite Er in X. }
  destruct (HE s x Hs Hx1) as [E1 E2]. split.
  - intros y a c Ha Hsteps.
    destruct (joint_back lab F F' mp comb x y a c HI HG Hloc HC Hpair Ha Hsteps) as (b & Hb & Sb). destruct (E1 y b c Hb Sb) as (o & op & s' & Ho & Hc & Happ & Hpr & Hab). exists o, op, s'. splits; auto.
    intros i f' Hf'. destruct (Hbk i f' Hf') as (f & Hf & Er & _). pose proof (Hab i f Hf) as X. unfold abs in *. now rewrite Er.
  - intros Hgoal. apply E2. intros i f Hf. destruct (Hpair i f Hf) as (f' & Hf' & _ & (_ & R0 & _)). apply R0. auto.
Qed.

Lemma reduce_all_fw L mp comb f : forall fs0 i0 i fs, nth_error fs0 i = Some (Some f) -> reduce_all L mp comb i0 fs0 = Ok fs -> exists f', nth_error fs i = Some (Some f').
Proof.
  induction fs0 as [|[g|] r IH]; intros i0 i fs Hf E1; [destruct i; discriminate| |]; cbn [reduce_all] in E1.
  - apply bind_ok in E1 as (T & _ & E1). apply bind_ok in E1 as (r' & Er & E1). inversion E1; subst fs. destruct i as [|i]; cbn [nth_error] in *; eauto.
  - apply bind_ok in E1 as (r' & Er & E1). inversion E1; subst fs. destruct i as [|i]; cbn [nth_error] in *; [discriminate|eauto].
Qed.
Lemma mapping_fw F F' mp comb i f : apply_label_mapping F mp comb = Ok F' -> at_factor F i f -> exists f', at_factor F' i f'.
Proof.
  intros E0 Hf. unfold apply_label_mapping in E0. apply bind_ok in E0 as (L' & _ & E0). apply bind_ok in E0 as (fs & E1 & E0). inversion E0; subst F'. unfold at_factor in *. cbn [F_factors] in *. eapply reduce_all_fw; eauto.
Qed.
Lemma built_exact e F : built P q0 ord ci cg t e F -> e = true -> (exists lab, Inv ci cg t lab F) /\ EX F.
Proof.
  induction 1 as [F E|e F i j f g F' _ IH Hne Hf Hg Nf Ng E|e F i f x cls F' _ IH Hf Hx HG HU Hgr E|e F i f x cls F' _ IH Hf Hx HG HA HB E|e F i f pu pi F' _ IH Hf Hi Hpu Hpi E|e F mp comb F' _ IH HG Hloc E]; intros He.
  - split; [|eapply EX_start; eauto]. destruct (create_ok P bag HP q0 Hq0 ci cg t exact_mas) as (F0 & E0 & _ & HI & _). rewrite E0 in E. inversion E; subst. eauto.
  - destruct (IH He) as [[lab HI] HE]. destruct (merge_sound P bag HP q0 Hq0 ord Hord ci cg t exact_mas lab F i j f g HI Hf Hg Nf Ng) as (T & D & E0 & HPr & HI'). rewrite E0 in E. inversion E; subst. split; [eauto|].
    eapply EX_merge; eauto; now apply get_factor_ok.
  - discriminate.
  - destruct (IH He) as [[lab HI] HE].
    assert (HU := all_grouped_useless t (F_labels F) (f_ts f) cls (fi_wf _ _ _ _ _ _ (in_fac _ _ _ _ _ HI i f (proj1 (get_factor_ok F i f) Hf))) HA).
    assert (Hgr : grouped cls x) by (apply HA; exact (w_init _ _ _ (fi_wf _ _ _ _ _ _ (in_fac _ _ _ _ _ HI i f (proj1 (get_factor_ok F i f) Hf))) x Hx)).
    destruct (abstraction_sound P bag HP q0 Hq0 ci cg t exact_mas lab F i f x cls HI Hf Hx HG HU (or_introl Hgr)) as (F0 & E0 & HI' & Hc). rewrite E0 in E. inversion E; subst F0. split; [eauto|].
    destruct Hc as [[-> _]|(f' & -> & HIm & H2 & H3)]; auto. eapply EX_bisim; eauto. now apply get_factor_ok.
  - destruct (IH He) as [[lab HI] HE]. destruct (prune_sound P bag HP q0 Hq0 ci cg t exact_mas lab F i f pu pi HI Hf Hi Hpu Hpi) as (cls & F0 & E0 & HG & H1 & HI' & _ & Hc). rewrite E0 in E. inversion E; subst F0. split; [eauto|].
    destruct Hc as [[-> _]|(f' & -> & HIm & H2 & H3)]; auto. eapply EX_bisim; eauto; [now apply get_factor_ok|now apply singletons_bisim].
  - destruct (IH He) as [[lab HI] HE]. destruct (reduce_sound ci cg t lab F mp comb HI HG Hloc) as (F0 & E0 & HI' & HC & Hlen & Hbk). rewrite E0 in E. inversion E; subst F0. split; [eauto|].
    apply (EX_reduce lab F F' mp comb HI HI' HG Hloc HC); [|exact Hbk|exact HE]. intros i f Hf. eapply mapping_fw; eauto.
Qed.

(** *** Exact values of a single factor *)
Section ONE.
Variable F : fts.
Variable lab : nat -> nat.
Variable f : factor.
Hypothesis HI : Inv ci cg t lab F.
Hypothesis HE : EX F.
Hypothesis Hone : active_factors F = [f].

Lemma one_at : exists i, at_factor F i f /\ forall k g, at_factor F k g -> k = i /\ g = f.
Proof.
  unfold at_factor. revert Hone. unfold active_factors. clear HI HE. induction (F_factors F) as [|[g|] r IH]; cbn [flat_map app].
  - discriminate.
  - intros E. inversion E as [[Eg Er]]. exists 0. split; auto. intros [|k] h Hk; cbn [nth_error] in Hk; [inversion Hk; auto|]. exfalso.
    assert (X : In h (flat_map (fun f => match f with Some f => [f] | None => [] end) r)) by (apply in_flat_map; exists (Some h); split; [eapply nth_error_In; eauto|now left]). rewrite Er in X. destruct X.
  - intros E. destruct (IH E) as (i & A & B). exists (S i). split; auto. intros [|k] h Hk; cbn [nth_error] in Hk; [discriminate|]. destruct (B k h Hk). auto.
Qed.
Lemma plan_of_path : forall x c g, lpath (active (F_labels F)) (l_step (the_lts (f_ts f))) x c g -> l_goal (the_lts (f_ts f)) g ->
  forall s, state_ok t s -> abs f s (Some x) -> exists os, task_plan_from t s os /\ plan_cost t os = c.
Proof.
  destruct one_at as (i & Hi & Huniq). intros x c g H Hg. induction H as [x|x a c x' k g Ha Hst _ IH]; intros s Hs Hx.
  - exists []. split; auto. exists s. split; [constructor|]. destruct (HE s (fun _ => x) Hs) as [_ E2]; [intros j h Hj; destruct (Huniq j h Hj); now subst|]. apply E2. intros j h Hj. destruct (Huniq j h Hj); now subst.
  - destruct (HE s (fun _ => x) Hs) as [E1 _]; [intros j h Hj; destruct (Huniq j h Hj); now subst|].
    destruct (E1 (fun _ => x') a c Ha) as (o & op & s' & Ho & Hc & Happ & Hpr & Hab); [intros j h Hj; destruct (Huniq j h Hj); now subst|].
    destruct (IH Hg s') as (os & (s'' & Hp & Hgs) & Hcost); [eapply progress_state; eauto|exact (Hab i f Hi)|].
    exists (o :: os). split; [exists s''; split; auto; econstructor; eauto|]. unfold plan_cost in *. cbn [map list_sum fold_right]. rewrite Ho. change (fold_right Nat.add 0) with list_sum. lia.
Qed.
Lemma one_exact s d x : reachable t s -> goal_distances (active (F_labels F)) (the_lts (f_ts f)) d -> abs f s x ->
  perfect_value t s (match x with None => None | Some k => nth k d None end).
Proof.
  intros Hr [Hl Hd] Hx. destruct one_at as (i & Hi & _). pose proof (in_fac _ _ _ _ _ HI i f Hi) as FIf. assert (Hs : state_ok t s) by (eapply reachable_state; eauto).
  pose proof (in_lab _ _ _ _ _ HI) as Hlab. destruct x as [k|]; cbn [perfect_value].
  - assert (Hk : k < ts_n (f_ts f)). { destruct (abs_total ci cg t _ _ f s FIf Hs) as (x' & Hx' & B). unfold abs in *. rewrite Hx in Hx'. inversion Hx'; subst. auto. }
    specialize (Hd k Hk). destruct (nth k d None) as [c|]; cbn [perfect_value].
    + destruct Hd as [(g & Hg & Hp) Hmin]. split.
      * destruct (plan_of_path k c g Hp Hg s Hs Hx) as (os & A & B). exists os. auto.
      * intros c' (os & Hos & <-). destruct (goal_path_abs ci cg t exact_mas _ lab f s os k Hlab FIf Hr Hos Hx) as (g' & c'' & Hle & Hg' & Hp'). assert (c <= c''); [|lia]. apply Hmin. eauto.
    + intros os Hos. destruct (goal_path_abs ci cg t exact_mas _ lab f s os k Hlab FIf Hr Hos Hx) as (g' & c'' & Hle & Hg' & Hp'). apply (Hd c''). eauto.
  - intros os Hos. apply (fi_lost _ _ _ _ _ _ FIf s Hs Hx). split; auto. exists os. auto.
Qed.
End ONE.

Lemma heuristic_exact F f rs s : built P q0 ord ci cg t true F -> active_factors F = [f] -> extract_factors P q0 F = Ok rs -> reachable t s ->
  exists v, compute_heuristic rs s = Ok v /\ perfect_value t s v.
Proof.
  intros HB Hone E Hr. destruct (built_exact true F HB eq_refl) as [[lab HI] HE]. destruct (one_at F f Hone) as (i & Hi & Huniq). pose proof (in_fac _ _ _ _ _ HI i f Hi) as FIf.
  assert (Hs : state_ok t s) by (eapply reachable_state; eauto). destruct (extract_ok P bag HP q0 Hq0 ci cg t _ _ f FIf) as (r & d & Er & Hd & Hv). destruct (abs_total ci cg t _ _ f s FIf Hs) as (x & Hx & Bx).
  pose proof (one_exact F lab f HI HE Hone s d x Hr Hd Hx) as Hperf.
  assert (Hcomp : exists v, compute_heuristic [r] s = Ok v /\ perfect_value t s v).
  { unfold compute_heuristic. cbn [fold_outcome]. rewrite (Hv s x Hs Hx). cbn [bind]. eexists. split; [reflexivity|]. revert Hperf. destruct (match x with None => None | Some k => nth k d None end); auto. }
  unfold extract_factors in E. rewrite Hone in E. cbn [first_unsolvable filter] in E. destruct (is_solvable f) as [b| | |]; try discriminate. cbn [bind] in E. destruct b; cbn [bind] in E.
  - destruct (is_trivial f) eqn:Etr; cbn [negb omap] in E.
    + inversion E; subst rs. exists (Some 0). split; auto. apply andb_true_iff in Etr as [T1 T2]. assert (x <> None) by (eapply is_total_ok; eauto; exact (fi_rep _ _ _ _ _ _ FIf)). destruct x as [x|]; [|congruence].
      assert (Hg : goal_state t s).
      { destruct (HE s (fun _ => x) Hs) as [_ E2]; [intros j h Hj; destruct (Huniq j h Hj); now subst|]. apply E2. intros j h Hj. destruct (Huniq j h Hj); subst. cbn [the_lts l_goal].
        rewrite forallb_forall in T2. specialize (Bx x eq_refl). rewrite <- (w_goals _ _ _ (fi_wf _ _ _ _ _ _ FIf)) in Bx. destruct (nth_error (ts_goals (f_ts f)) x) as [b|] eqn:Eb; [|apply nth_error_None in Eb; lia]. now rewrite (T2 b (nth_error_In _ _ Eb)). }
      split; [|lia]. exists []. split; auto. exists s. split; auto. constructor.
    + rewrite Er in E. cbn [bind] in E. inversion E; subst rs. auto.
  - rewrite Er in E. cbn [bind] in E. inversion E; subst rs. auto.
Qed.
End EXACT.

(** lm_exhaust from start to end. *)
From Verif Require Import Outcome Spec_Task Spec_Relaxation Spec_Landmarks Spec_LandmarkGeneration Model_DefaultRules Model_LandmarkGeneration.
From Verif Require Import Proof_DefaultRules Proof_OC1 Proof_LG1 Proof_LG2 Proof_LG3 Proof_LG4 Proof_DefaultRules3.
Local Open Scope nat_scope.

Lemma forall2_in_r {A B} (R : A -> B -> Prop) l l' : Forall2 R l l' -> forall b, In b l' -> exists a, In a l /\ R a b.
Proof. induction 1 as [|a b l l' Hab _ IH]; [intros c []|]; intros c [<-|Hc]; [exists a; split; auto; now left|]. destruct (IH c Hc) as (x & Hx & Hr). exists x. split; auto. now right. Qed.
Lemma forall2_in_l {A B} (R : A -> B -> Prop) l l' : Forall2 R l l' -> forall a, In a l -> exists b, In b l' /\ R a b.
Proof. induction 1 as [|a b l l' Hab _ IH]; [intros c []|]; intros c [<-|Hc]; [exists b; split; auto; now left|]. destruct (IH c Hc) as (x & Hx & Hr). exists x. split; auto. now right. Qed.
Lemma achieved_atoms t g g' : Forall2 (achieved t) g g' -> map n_atom g' = map n_atom g.
Proof. induction 1 as [|a b l l' Hab _ IH]; cbn [map]; auto. rewrite IH, (ac_atom _ _ _ Hab). auto. Qed.
Lemma achieved_has t g g' a : Forall2 (achieved t) g g' -> (exists n, In n g' /\ n_atom n = a) <-> exists n, In n g /\ n_atom n = a.
Proof.
  intros H. assert (E := achieved_atoms t g g' H). split; intros (n & Hn & <-); assert (K := in_map n_atom _ _ Hn).
  - rewrite E in K. apply in_map_iff in K as (m & E' & Hm). eauto.
  - rewrite <- E in K. apply in_map_iff in K as (m & E' & Hm). eauto.
Qed.

Section Exhaust.
Variables (io : list Z -> list Z) (il : list fact -> list fact) (t : task) (un : bool).
Hypothesis Hro : relax_ok t.
Hypothesis Hinit : state_ok t (t_init t).

Theorem exhaust_graph : exists g g', compute_landmark_graph io il t (Exhaust un) = Ok g' /\ Forall2 (achieved t) g g' /\ Forall (bare t) g /\
  (forall a, (exists n, In n g /\ n_atom n = a) <-> fact_ok t a /\ needed t un a) /\ (NoDup (t_goal t) -> NoDup (map n_atom g)).
Proof.
  unfold compute_landmark_graph. rewrite (new_exploration_ok t Hro). cbn [bind generate_relaxed_landmarks].
  destruct (exhaust_ok t Hro Hinit un {| ex_reached := fun _ => false; ex_excluded := fun _ => false |}) as (g & ex & E & H1 & H2 & H3 & H4); [intros f; reflexivity|]. rewrite E. cbn [bind fst snd].
  destruct (calc_achievers_ok t Hro Hinit g ex) as (g' & ex' & E' & H5); auto.
  { apply Forall_forall. intros n Hn. destruct (proj1 (H3 (n_atom n)) (ex_intro _ n (conj Hn eq_refl))). auto. }
  rewrite E'. cbn [bind fst]. exists g, g'. splits; auto.
Qed.
End Exhaust.

Lemma needed_false t a : needed t true a -> needed t false a.
Proof. intros H K. apply H. intros g Hg. apply av_unary_more. auto. Qed.

(** Achievers as operators *)
Lemma possible_ops t n n' o : t_rules t = [] -> achieved t n n' -> In o (lm_possible (landmark_of n')) <->
  exists op e, nth_error (t_ops t) o = Some op /\ In e (op_effs op) /\ eff_fact e = n_atom n.
Proof.
  intros Hr A. cbn [landmark_of lm_possible]. rewrite in_map_iff. split.
  - intros (i & <- & Hi). apply (proj2 (ac_possible _ _ _ A)) in Hi as (x & e & Hx & <- & He & Ee). apply in_app_iff in Hx as [Hx|Hx]; [|unfold axioms in Hx; rewrite Hr in Hx; destruct Hx].
    apply in_map_iff in Hx as ((j & op) & <- & Hx). apply in_numbered in Hx. exists op, e. cbn [as_operator a_id fst]. rewrite Nat2Z.id. auto.
  - intros (op & e & Ho & He & Ee). exists (Z.of_nat o). split; [apply Nat2Z.id|]. apply (proj2 (ac_possible _ _ _ A)). exists (as_operator (o, op)), e. splits; auto. now apply op_listed.
Qed.
Lemma first_ops t n n' o : t_rules t = [] -> achieved t n n' -> In o (lm_first (landmark_of n')) <->
  exists op e, nth_error (t_ops t) o = Some op /\ In e (op_effs op) /\ eff_fact e = n_atom n /\ forall g, In g (op_pre op ++ eff_cond e) -> avoiding t false (fun f => f = n_atom n) g.
Proof.
  intros Hr A. cbn [landmark_of lm_first]. rewrite in_map_iff. split.
  - intros (i & <- & Hi). apply (proj2 (ac_first _ _ _ A)) in Hi as (x & e & Hx & <- & He & Ee & Hg). apply in_app_iff in Hx as [Hx|Hx]; [|unfold axioms in Hx; rewrite Hr in Hx; destruct Hx].
    apply in_map_iff in Hx as ((j & op) & <- & Hx). apply in_numbered in Hx. exists op, e. cbn [as_operator a_id fst]. rewrite Nat2Z.id. auto.
  - intros (op & e & Ho & He & Ee & Hg). exists (Z.of_nat o). split; [apply Nat2Z.id|]. apply (proj2 (ac_first _ _ _ A)). exists (as_operator (o, op)), e. splits; auto. now apply op_listed.
Qed.

Lemma no_cond t : has_conditional_effects t = false <-> no_conditional_effects t.
Proof.
  unfold has_conditional_effects, no_conditional_effects. split.
  - intros H op e Ho He. destruct (eff_cond e) as [|c cs] eqn:E; auto. assert (K : existsb (fun op => existsb (fun e => match eff_cond e with [] => false | _ => true end) (op_effs op)) (t_ops t) = true); [|congruence].
    apply existsb_exists. exists op. split; auto. apply existsb_exists. exists e. split; auto. now rewrite E.
  - intros H. destruct (existsb _ _) eqn:E; auto. apply existsb_exists in E as (op & Ho & E). apply existsb_exists in E as (e & He & E). rewrite (H op e Ho He) in E. discriminate.
Qed.

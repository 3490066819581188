(** Domain abstraction: the tables, and plans of the abstracted task. *)
From Coq Require Import String.
From Coq Require Import List Permutation.
From Verif Require Import Outcome Spec_Task Spec_Relaxation Model_Task Proof_Task Spec_DomainAbstraction Model_DomainAbstraction Proof_DomainAbstraction Proof_DefaultRules3.
Import ListNotations.
Local Open Scope nat_scope.

Section Tables.
Variable self_move : string -> string.
Variable t : task.
Variable fact_name : nat -> nat -> string.

Definition var_done (v : nat) (x : variable) (groups : list (list nat)) (dom : nat) (vm : list nat) (ns : list string) : Prop :=
  dom = List.length (classes (vdom x) groups) /\ List.length vm = vdom x /\ List.length ns = dom /\
  (forall j c y, nth_error (classes (vdom x) groups) j = Some c -> In y c -> nth_error vm y = Some j) /\
  (forall j c, nth_error (classes (vdom x) groups) j = Some c ->
     (forall s, self_move s = s) \/ In c groups /\ List.length (singles groups (seq 0 (vdom x))) <= j -> nth_error ns j = Some (joined (fact_name v) c)).

Record tables_ok (done : list (nat * list (list nat))) (st : tables) : Prop := {
  T_len : List.length (fst (fst st)) = List.length (t_vars t) /\ List.length (snd (fst st)) = List.length (t_vars t) /\ List.length (snd st) = List.length (t_vars t);
  T_done : forall v groups x, In (v, groups) done -> is_var t v x ->
    exists dom vm ns, nth_error (fst (fst st)) v = Some dom /\ nth_error (snd (fst st)) v = Some vm /\ nth_error (snd st) v = Some ns /\ var_done v x groups dom vm ns;
  T_rest : forall v x, ~ In v (map fst done) -> is_var t v x ->
    nth_error (fst (fst st)) v = Some (vdom x) /\ nth_error (snd (fst st)) v = Some (seq 0 (vdom x)) /\ nth_error (snd st) v = Some (map (fact_name v) (seq 0 (vdom x)))
}.

Lemma nth_combine {A B} : forall (l : list A) (m : list B) i a b, nth_error l i = Some a -> nth_error m i = Some b -> nth_error (combine l m) i = Some (a, b).
Proof. induction l as [|x l IH]; intros [|y m] [|i] a b Ha Hb; try discriminate; cbn in *; [congruence|auto]. Qed.
Lemma nth_seq0 n i : i < n -> nth_error (seq 0 n) i = Some i.
Proof. intros H. rewrite nth_error_nth' with (d := 0) by (rewrite seq_length; auto). now rewrite seq_nth. Qed.
Lemma is_var_len v x : is_var t v x -> v < List.length (t_vars t).
Proof. unfold is_var. intros H. apply nth_error_Some. congruence. Qed.

Lemma initialize_ok : tables_ok [] (initialize t fact_name).
Proof.
  unfold initialize. constructor; cbn [fst snd].
  - rewrite !map_length, combine_length, seq_length. splits; auto. lia.
  - intros ? ? ? [].
  - intros v x _ Hx. pose proof (is_var_len v x Hx). unfold is_var in Hx. rewrite !nth_error_map, Hx. splits; auto.
    rewrite (nth_combine (seq 0 (List.length (t_vars t))) (t_vars t) v v x); auto. apply nth_seq0. auto.
Qed.
Lemma combine_var_ok done st v groups x : tables_ok done st -> ~ In v (map fst done) -> is_var t v x -> groups_ok (vdom x) groups ->
  exists st', combine_var self_move st (v, groups) = Ok st' /\ tables_ok ((v, groups) :: done) st'.
Proof.
  intros HT Hv Hx Hg. destruct st as [[doms vms] names]. pose proof (T_rest _ _ HT v x Hv Hx) as (E1 & E2 & E3). pose proof (T_len _ _ HT) as (L1 & L2 & L3). cbn [fst snd] in *.
  cbn [combine_var]. rewrite (proj2 (vget_ok _ _ _) E1). cbn [bind]. rewrite (proj2 (vget_ok _ _ _) E2). cbn [bind]. rewrite (proj2 (vget_ok _ _ _) E3). cbn [bind].
  destruct (combine_values_ok self_move (vdom x) (seq 0 (vdom x)) (map (fact_name v) (seq 0 (vdom x))) groups Hg) as (vm' & ns' & -> & A & B & C & D); [apply seq_length|now rewrite map_length, seq_length|]. cbn [bind].
  pose proof (is_var_len v x Hx). rewrite !vset_lt by lia. cbn [bind]. eexists. split; [reflexivity|]. constructor; cbn [fst snd].
  - now rewrite !upd_length.
  - intros w gs y [E|Hin] Hy.
    + inversion E; subst w gs. assert (y = x) by (unfold is_var in *; congruence). subst y. rewrite !upd_nth_eq by lia. eexists _, _, _. splits; try reflexivity. unfold var_done. splits; auto.
      intros j c Hc Hcase. apply (D (fact_name v)); auto.
      intros z Hz. rewrite nth_error_map, nth_seq0 by auto. reflexivity.
    + assert (w <> v) by (intros ->; apply Hv, in_map_iff; exists (v, gs); auto). rewrite !upd_nth_neq by auto. apply (T_done _ _ HT w gs y Hin Hy).
  - intros w y Hw Hy. cbn [map fst In] in Hw. rewrite !upd_nth_neq by tauto. apply (T_rest _ _ HT w y); auto.
Qed.

Lemma combine_all gs : forall done st, tables_ok done st -> NoDup (map fst done ++ map fst gs) ->
  (forall v groups, In (v, groups) gs -> exists x, is_var t v x /\ groups_ok (vdom x) groups) ->
  exists st' done', fold_outcome (combine_var self_move) gs st = Ok st' /\ tables_ok done' st' /\ forall p, In p done' <-> In p done \/ In p gs.
Proof.
  induction gs as [|[v groups] gs IH]; intros done st HT Hnd Hok; cbn [fold_outcome].
  - exists st, done. splits; auto. cbn. tauto.
  - destruct (Hok v groups (or_introl eq_refl)) as (x & Hx & Hg). cbn [map fst] in Hnd. assert (Hv : ~ In v (map fst done)).
    { apply NoDup_remove_2 in Hnd. rewrite in_app_iff in Hnd. tauto. }
    destruct (combine_var_ok done st v groups x HT Hv Hx Hg) as (st1 & -> & HT1). cbn [bind].
    destruct (IH ((v, groups) :: done) st1 HT1) as (st' & done' & E & HT' & Hd).
    + cbn [map fst app]. constructor; [apply NoDup_remove_2 in Hnd; auto|apply NoDup_remove_1 in Hnd; auto].
    + intros; apply Hok; now right.
    + exists st', done'. splits; auto. intros p. rewrite Hd. cbn. tauto.
Qed.
End Tables.

Lemma classes_nil dom : classes dom [] = map (fun x => [x]) (seq 0 dom).
Proof. unfold classes. rewrite app_nil_r. f_equal. unfold singles, in_union. cbn [existsb negb]. induction (seq 0 dom) as [|a l IH]; cbn [filter]; [auto|]. now rewrite IH. Qed.
Lemma initial_done sm name v x : var_done sm name v x [] (vdom x) (seq 0 (vdom x)) (map (name v) (seq 0 (vdom x))) /\
  forall j c, nth_error (classes (vdom x) []) j = Some c -> nth_error (map (name v) (seq 0 (vdom x))) j = Some (joined (name v) c).
Proof.
  assert (K : forall j c, nth_error (classes (vdom x) []) j = Some c -> c = [j] /\ j < vdom x).
  { intros j c. rewrite classes_nil, nth_error_map. destruct (nth_error (seq 0 (vdom x)) j) as [y|] eqn:E; [|discriminate]. intros H. injection H as <-.
    assert (j < vdom x) by (rewrite <- (seq_length (vdom x) 0); apply nth_error_Some; congruence). rewrite nth_seq0 in E by auto. injection E as <-. auto. }
  assert (N : forall j c, nth_error (classes (vdom x) []) j = Some c -> nth_error (map (name v) (seq 0 (vdom x))) j = Some (joined (name v) c)).
  { intros j c Hc. apply K in Hc as [-> Hj]. rewrite nth_error_map, nth_seq0 by auto. reflexivity. }
  split; auto. unfold var_done. rewrite classes_nil at 1. rewrite !map_length, seq_length. splits; auto.
  intros j c y Hc Hy. apply K in Hc as [-> Hj]. destruct Hy as [<-|[]]. now apply nth_seq0.
Qed.

(** What a value map of a variable must satisfy. *)
Definition value_map_ok (x : variable) (groups : list (list nat)) (dom : nat) (vm : list nat) : Prop :=
  List.length vm = vdom x /\
  (forall y a, nth_error vm y = Some a -> a < dom) /\
  (forall a, a < dom -> exists y, nth_error vm y = Some a) /\
  (forall y z, y < vdom x -> z < vdom x -> (nth_error vm y = nth_error vm z <-> merged groups y z)).
Lemma done_value_map sm name v x groups dom vm ns : groups_ok (vdom x) groups -> var_done sm name v x groups dom vm ns -> value_map_ok x groups dom vm.
Proof.
  intros Hg (-> & L & _ & Hc & _). set (C := classes (vdom x) groups) in *. assert (HP := classes_perm (vdom x) groups Hg). fold C in HP.
  assert (cls : forall y, y < vdom x -> exists j c, nth_error C j = Some c /\ In y c).
  { intros y Hy. assert (In y (concat C)) by (eapply Permutation_in; [apply Permutation_sym; exact HP|apply in_seq; lia]). apply in_concat in H as (c & Hin & Hyc). apply In_nth_error in Hin as (j & Hj). eauto. }
  unfold value_map_ok. splits; auto.
  - intros y a Ha. assert (Hy : y < vdom x) by (rewrite <- L; apply nth_error_Some; congruence). destruct (cls y Hy) as (j & c & Hj & Hyc). rewrite (Hc j c y Hj Hyc) in Ha. injection Ha as <-. apply nth_error_Some. congruence.
  - intros a Ha. destruct (nth_error C a) as [c|] eqn:E; [|apply nth_error_None in E; lia].
    assert (c <> []). { apply nth_error_In in E. unfold C, classes in E. apply in_app_iff in E as [E|E]; [apply in_map_iff in E as (? & <- & _); discriminate|]. destruct Hg as (_ & _ & Hne). auto. }
    destruct c as [|y c]; [contradiction|]. exists y. apply (Hc a (y :: c)); auto. now left.
  - intros y z Hy Hz. destruct (cls y Hy) as (j & c & Hj & Hyc). destruct (cls z Hz) as (k & d & Hk & Hzd). rewrite (Hc j c y Hj Hyc), (Hc k d z Hk Hzd). unfold merged. split.
    + intros E. injection E as <-. assert (d = c) by congruence. subst d. assert (Hin := nth_error_In _ _ Hj). unfold C, classes in Hin. apply in_app_iff in Hin as [Hin|Hin]; [|right; eauto].
      apply in_map_iff in Hin as (w & <- & _). destruct Hyc as [<-|[]]. destruct Hzd as [<-|[]]. auto.
    + intros [->|(g & Hin & Hyg & Hzg)].
      * pose proof (Hc j c z Hj Hyc). pose proof (Hc k d z Hk Hzd). congruence.
      * assert (exists i, nth_error C i = Some g) as (i & Hi) by (apply In_nth_error; unfold C, classes; apply in_app_iff; auto).
        pose proof (Hc i g y Hi Hyg). pose proof (Hc i g z Hi Hzg). pose proof (Hc j c y Hj Hyc). pose proof (Hc k d z Hk Hzd). congruence.
Qed.

Lemma groups_of_In gs v groups : NoDup (map fst gs) -> In (v, groups) gs -> groups_of gs v = groups.
Proof.
  unfold groups_of. induction gs as [|[w g] gs IH]; intros ND Hin; [destruct Hin|]. cbn [find fst]. cbn [map fst] in ND. inversion ND as [|? ? Hn ND']; subst. destruct (Nat.eqb_spec w v) as [->|Hne].
  - destruct Hin as [E|Hin]; [inversion E; auto|]. exfalso. apply Hn, in_map_iff. exists (v, groups). auto.
  - destruct Hin as [E|Hin]; [inversion E; congruence|auto].
Qed.
Lemma groups_of_notin gs v : ~ In v (map fst gs) -> groups_of gs v = [].
Proof.
  unfold groups_of. intros H. destruct (find (fun p => fst p =? v) gs) as [p|] eqn:E; auto. apply find_some in E as [E1 E2]. apply Nat.eqb_eq in E2. exfalso. apply H, in_map_iff. eauto.
Qed.

Definition unconditional (t : task) : Prop := forall op e, In op (t_ops t) -> In e (op_effs op) -> eff_cond e = [].
Lemma unconditional_spec t : unconditional t -> has_conditional_effects t = false.
Proof.
  intros H. unfold has_conditional_effects. apply Bool.not_true_iff_false. intros E. apply existsb_exists in E as (op & Hop & E). apply existsb_exists in E as (e & He & E). rewrite (H op e Hop He) in E. discriminate.
Qed.

Lemma build_tables_ok sm t name gs : t_rules t = [] -> unconditional t -> grouping_ok t gs ->
  exists doms vms names, build_tables sm t name gs = Ok (doms, vms, names) /\
    List.length doms = List.length (t_vars t) /\ List.length vms = List.length (t_vars t) /\ List.length names = List.length (t_vars t) /\
    forall v x, is_var t v x -> exists dom vm ns, nth_error doms v = Some dom /\ nth_error vms v = Some vm /\ nth_error names v = Some ns /\
      value_map_ok x (groups_of gs v) dom vm /\ List.length ns = dom /\
      ((forall s, sm s = s) \/ ~ In v (map fst gs) -> forall a, a < dom -> exists ys, NoDup ys /\ (forall y, In y ys <-> nth_error vm y = Some a) /\ nth_error ns a = Some (joined (name v) ys)) /\
      (forall g y a, In g (groups_of gs v) -> In y g -> nth_error vm y = Some a -> nth_error ns a = Some (joined (name v) g)).
Proof.
  intros Hr Hu [Hnd Hok]. unfold build_tables. rewrite Hr, (unconditional_spec t Hu).
  destruct (combine_all sm t name gs [] (initialize t name) (initialize_ok sm t name) Hnd Hok) as ([[doms vms] names] & done & -> & HT & Hd).
  exists doms, vms, names. split; auto. pose proof (T_len _ _ _ _ _ HT) as (L1 & L2 & L3). cbn [fst snd] in *. splits; auto. intros v x Hx.
  assert (Hd' : forall v, In v (map fst done) <-> In v (map fst gs)).
  { intros w. rewrite !in_map_iff. split; intros (p & E & Hp); exists p; split; auto; [apply Hd in Hp as [[]|]; auto|apply Hd; auto]. }
  assert (Cls : forall groups, groups_ok (vdom x) groups -> forall dom vm ns, var_done sm name v x groups dom vm ns ->
     (forall j c, nth_error (classes (vdom x) groups) j = Some c -> nth_error ns j = Some (joined (name v) c)) ->
     forall a, a < dom -> exists ys, NoDup ys /\ (forall y, In y ys <-> nth_error vm y = Some a) /\ nth_error ns a = Some (joined (name v) ys)).
  { intros groups Hg dom vm ns Hdone Hns a Ha. pose proof Hdone as (E & L & _ & Hc & _). subst dom. destruct (nth_error (classes (vdom x) groups) a) as [c|] eqn:Ec; [|apply nth_error_None in Ec; lia].
    pose proof (classes_perm (vdom x) groups Hg) as HP. exists c. splits; auto.
    - eapply NoDup_part; [eapply nth_error_In; eauto|]. eapply Permutation_NoDup; [apply Permutation_sym; exact HP|apply seq_NoDup].
    - intros y. split; [intros Hy; eapply Hc; eauto|]. intros Hy. assert (y < vdom x) by (rewrite <- L; apply nth_error_Some; congruence).
      assert (In y (concat (classes (vdom x) groups))) as K by (eapply Permutation_in; [apply Permutation_sym; exact HP|apply in_seq; lia]). apply in_concat in K as (d & Hin & Hyd). apply In_nth_error in Hin as (k & Hk).
      rewrite (Hc k d y Hk Hyd) in Hy. injection Hy as ->. congruence. }
  destruct (in_dec Nat.eq_dec v (map fst gs)) as [Hin|Hnin].
  - apply in_map_iff in Hin as ([v' groups] & E & Hin). cbn [fst] in E. subst v'. destruct (T_done _ _ _ _ _ HT v groups x) as (dom & vm & ns & E1 & E2 & E3 & Hdone); [apply Hd; auto|auto|]. cbn [fst snd] in *.
    destruct (Hok v groups Hin) as (x' & Hx' & Hg). assert (x' = x) by (unfold is_var in *; congruence). subst x'. rewrite (groups_of_In gs v groups Hnd Hin).
    pose proof (done_value_map _ _ _ _ _ _ _ _ Hg Hdone) as Hvm. exists dom, vm, ns. pose proof Hdone as (Edom & Lvm & Lns & Hc & Hns). splits; auto.
    + intros Hcase. apply (Cls groups Hg dom vm ns Hdone). intros j c Hj. apply (Hns j c Hj). left. destruct Hcase as [K|K]; auto. exfalso. apply K, in_map_iff. exists (v, groups). auto.
    + intros g y a Hgin Hy Ha. apply In_nth_error in Hgin as (j & Hj). set (ns1 := List.length (singles groups (seq 0 (vdom x)))) in *.
      assert (Ej : nth_error (classes (vdom x) groups) (ns1 + j) = Some g). { unfold classes. rewrite nth_error_app2 by (rewrite map_length; unfold ns1; lia). rewrite map_length. fold ns1. replace (ns1 + j - ns1) with j by lia. auto. }
      rewrite (Hc _ _ _ Ej Hy) in Ha. injection Ha as <-. apply (Hns _ _ Ej). right. split; [eapply nth_error_In; eauto|lia].
  - destruct (T_rest _ _ _ _ _ HT v x) as (E1 & E2 & E3); [rewrite Hd'; auto|auto|]. cbn [fst snd] in *. rewrite (groups_of_notin gs v Hnin). destruct (initial_done sm name v x) as [Hdone Hns].
    assert (Hg : groups_ok (vdom x) []) by (unfold groups_ok; cbn; splits; [constructor|tauto|tauto]).
    exists (vdom x), (seq 0 (vdom x)), (map (name v) (seq 0 (vdom x))). splits; auto.
    + eapply done_value_map; eauto.
    + now rewrite map_length, seq_length.
    + intros _. apply (Cls [] Hg _ _ _ Hdone Hns).
    + intros g y a [].
Qed.

(** *** The abstracted task *)
Section Abs.
Variable t : task.
Hypothesis Ht : task_ok t.
Hypothesis Hno : no_derived t.
Hypothesis Hun : unconditional t.
Variables (doms : list nat) (vms : list (list nat)).
Hypothesis Ld : List.length doms = List.length (t_vars t).
Hypothesis Lv : List.length vms = List.length (t_vars t).
Hypothesis Hvm : forall v x, is_var t v x -> exists dom vm, nth_error doms v = Some dom /\ nth_error vms v = Some vm /\ List.length vm = vdom x /\ forall y a, nth_error vm y = Some a -> a < dom.

Definition alpha (v x : nat) : nat := nth x (nth v vms []) 0.
Definition afact (f : fact) : fact := (fst f, alpha (fst f) (snd f)).
Definition astate (s : state) : state := map (fun v => alpha v (nth v s 0)) (seq 0 (List.length vms)).
Definition aeffect (e : effect) : effect := {| eff_cond := eff_cond e; eff_fact := afact (eff_fact e) |}.
Definition aoperator (op : operator) : operator := {| op_pre := map afact (op_pre op); op_effs := map aeffect (op_effs op); op_cost := op_cost op |}.
Definition atask : task :=
  {| t_vars := map (fun p => {| vdom := fst p; vlayer := vlayer (snd p); vdefault := vdefault (snd p) |}) (combine doms (t_vars t));
     t_ops := map aoperator (t_ops t); t_rules := t_rules t; t_init := astate (t_init t); t_goal := map afact (t_goal t) |}.

Lemma abstract_fact_ok f : fact_ok t f -> abstract_fact vms f = Ok (afact f).
Proof.
  intros (x & Hx & Hlt). destruct (Hvm _ _ Hx) as (dom & vm & _ & E2 & L & _). unfold abstract_fact, afact, alpha. rewrite (proj2 (vget_ok _ _ _) E2). cbn [bind].
  rewrite (nth_error_nth _ _ [] E2). destruct (nth_error vm (snd f)) as [a|] eqn:Ea; [|apply nth_error_None in Ea; lia]. rewrite (proj2 (vget_ok _ _ _) Ea). cbn [bind]. now rewrite (nth_error_nth _ _ 0 Ea).
Qed.
Lemma map_outcome_ok {A B} (f : A -> outcome B) g l : (forall x, In x l -> f x = Ok (g x)) -> map_outcome f l = Ok (map g l).
Proof. induction l as [|a l IH]; intros H; cbn [map_outcome map]; [auto|]. rewrite H by now left. cbn [bind]. rewrite IH by (intros; apply H; now right). reflexivity. Qed.
Lemma abstract_facts_ok fs : Forall (fact_ok t) fs -> map_outcome (abstract_fact vms) fs = Ok (map afact fs).
Proof. intros H. apply map_outcome_ok. intros f Hf. rewrite Forall_forall in H. now apply abstract_fact_ok, H. Qed.
Lemma state_nth s v x : state_ok t s -> is_var t v x -> exists d, nth_error s v = Some d /\ d < vdom x.
Proof. intros. eapply Proof_DefaultRules2.state_value; eauto. Qed.
Lemma convert_state_ok s : state_ok t s -> convert_state vms s = Ok (astate s).
Proof.
  intros Hs. apply map_outcome_ok. intros v Hv. apply in_seq in Hv. destruct (nth_error (t_vars t) v) as [x|] eqn:Ex; [|apply nth_error_None in Ex; lia].
  destruct (state_nth s v x Hs Ex) as (d & Hd & Hlt). destruct (Hvm _ _ Ex) as (dom & vm & _ & E2 & L & _). rewrite (proj2 (vget_ok _ _ _) Hd). cbn [bind]. rewrite (proj2 (vget_ok _ _ _) E2). cbn [bind].
  unfold alpha. rewrite (nth_error_nth _ _ 0 Hd), (nth_error_nth _ _ [] E2). destruct (nth_error vm d) as [a|] eqn:Ea; [|apply nth_error_None in Ea; lia]. rewrite (proj2 (vget_ok _ _ _) Ea). now rewrite (nth_error_nth _ _ 0 Ea).
Qed.
Lemma abstract_operator_ok op : operator_ok t op -> abstract_operator vms op = Ok (aoperator op).
Proof.
  intros [HP HE]. unfold abstract_operator. rewrite abstract_facts_ok by auto. cbn [bind]. rewrite (map_outcome_ok _ aeffect); [reflexivity|]. intros e He. rewrite Forall_forall in HE.
  destruct (HE e He) as (_ & Hf & _). unfold abstract_effect. rewrite abstract_fact_ok by auto. reflexivity.
Qed.

Lemma astate_nth s v : state_ok t s -> nth_error (astate s) v = option_map (alpha v) (nth_error s v).
Proof.
  intros Hs. unfold astate. rewrite nth_error_map. assert (Ls := state_len t s Hs). destruct (Nat.lt_ge_cases v (List.length vms)) as [Hv|Hv].
  - rewrite nth_seq0 by auto. cbn [option_map]. destruct (nth_error s v) as [d|] eqn:E; [|apply nth_error_None in E; lia]. now rewrite (nth_error_nth _ _ 0 E).
  - replace (nth_error (seq 0 (List.length vms)) v) with (@None nat) by (symmetry; apply nth_error_None; rewrite seq_length; auto).
    replace (nth_error s v) with (@None nat) by (symmetry; apply nth_error_None; lia). reflexivity.
Qed.
Lemma alpha_lt v x d dom : is_var t v x -> nth_error doms v = Some dom -> d < vdom x -> alpha v d < dom.
Proof.
  intros Hx Hd Hlt. destruct (Hvm _ _ Hx) as (dom' & vm & E1 & E2 & L & Hr). assert (dom' = dom) by congruence. subst dom'. unfold alpha. rewrite (nth_error_nth _ _ [] E2).
  destruct (nth_error vm d) as [a|] eqn:Ea; [|apply nth_error_None in Ea; lia]. rewrite (nth_error_nth _ _ 0 Ea). eauto.
Qed.
Lemma avar v x dom : is_var t v x -> nth_error doms v = Some dom -> is_var atask v {| vdom := dom; vlayer := vlayer x; vdefault := vdefault x |}.
Proof. intros Hx Hd. unfold is_var, atask. cbn [t_vars]. rewrite nth_error_map, (nth_combine _ _ _ _ _ Hd Hx). reflexivity. Qed.
Lemma afact_ok f : fact_ok t f -> fact_ok atask (afact f).
Proof.
  intros (x & Hx & Hlt). destruct (Hvm _ _ Hx) as (dom & vm & E1 & _). eexists. split; [apply (avar _ x dom); eauto|]. cbn [vdom afact snd fst]. eapply alpha_lt; eauto.
Qed.
Lemma ano_derived : no_derived atask.
Proof.
  destruct Hno as [Hr Hl]. split; auto. intros v. unfold layer_of, atask. cbn [t_vars]. rewrite nth_error_map. destruct (nth_error (combine doms (t_vars t)) v) as [[d x]|] eqn:E; [|reflexivity]. cbn [option_map vlayer snd].
  assert (nth_error (t_vars t) v = Some x). { clear -E. revert v E. generalize (t_vars t) as l. induction doms as [|a ds IH]; intros [|b l] [|v] E; try discriminate; cbn in *; [congruence|eauto]. }
  specialize (Hl v). unfold layer_of in Hl. now rewrite H in Hl.
Qed.
Lemma astate_ok s : state_ok t s -> state_ok atask (astate s).
Proof.
  intros Hs. apply Forall2_of_nth.
  - unfold astate, atask. cbn [t_vars]. rewrite !map_length, seq_length, combine_length. lia.
  - intros v d y Hd Hy. rewrite astate_nth in Hd by auto. destruct (nth_error s v) as [e|] eqn:Ee; [|discriminate]. injection Hd as <-.
    assert (Hv : v < List.length (t_vars t)) by (rewrite <- (state_len t s Hs); apply nth_error_Some; congruence). destruct (nth_error (t_vars t) v) as [x|] eqn:Ex; [|apply nth_error_None in Ex; lia].
    destruct (Hvm _ _ Ex) as (dom & vm & E1 & _). pose proof (avar v x dom Ex E1) as K. unfold is_var in K. assert (y = {| vdom := dom; vlayer := vlayer x; vdefault := vdefault x |}) by congruence. subst y. cbn [vdom].
    destruct (state_nth s v x Hs Ex) as (e' & He' & Hlt). assert (e' = e) by congruence. subst. eapply alpha_lt; eauto.
Qed.
Lemma arelax_ok : relax_ok atask.
Proof.
  destruct Ht as (_ & HO & _ & _ & HG). destruct Hno as [Hr _]. unfold relax_ok. splits.
  - intros op Hop. unfold atask in Hop. cbn [t_ops] in Hop. apply in_map_iff in Hop as (op0 & <- & Hop). rewrite Forall_forall in HO. destruct (HO _ Hop) as [HP HE]. cbn [aoperator op_pre op_effs]. split.
    + apply Forall_forall. intros f Hf. apply in_map_iff in Hf as (f0 & <- & Hf). rewrite Forall_forall in HP. now apply afact_ok, HP.
    + intros e He. apply in_map_iff in He as (e0 & <- & He). cbn [aeffect eff_cond eff_fact]. rewrite (Hun _ _ Hop He). split; [constructor|]. rewrite Forall_forall in HE. destruct (HE _ He) as (_ & K & _). now apply afact_ok.
  - unfold atask. cbn [t_rules]. rewrite Hr. intros r [].
  - unfold atask. cbn [t_goal]. apply Forall_forall. intros f Hf. apply in_map_iff in Hf as (f0 & <- & Hf). rewrite Forall_forall in HG. now apply afact_ok, HG.
Qed.
Lemma aholds s f : state_ok t s -> holds s f -> holds (astate s) (afact f).
Proof. unfold holds. intros Hs H. cbn [afact fst snd]. rewrite astate_nth, H by auto. reflexivity. Qed.
Lemma aall_hold s fs : state_ok t s -> all_hold s fs -> all_hold (astate s) (map afact fs).
Proof. intros Hs H f Hf. apply in_map_iff in Hf as (g & <- & Hg). apply aholds; auto. Qed.
Lemma aeffect_value s es v r : (forall e, In e es -> eff_cond e = []) -> effect_value s es v r -> effect_value (astate s) (map aeffect es) v (option_map (alpha v) r).
Proof.
  intros Hc H. induction H as [v|es e v d Hh Hf|es e v r Hn H IH].
  - constructor.
  - rewrite map_app. cbn [map option_map]. apply effect_value_last.
    + cbn [aeffect eff_cond]. rewrite Hc by (apply in_app_iff; right; now left). intros ? [].
    + cbn [aeffect eff_fact]. rewrite Hf. reflexivity.
  - rewrite map_app. cbn [map]. apply effect_value_skip; [|apply IH; intros; apply Hc, in_app_iff; auto]. intros _. cbn [aeffect eff_fact afact fst]. apply Hn.
    rewrite Hc by (apply in_app_iff; right; now left). intros ? [].
Qed.
Lemma no_derived_model s1 s' : stratified_model t s1 s' -> s' = s1.
Proof. intros (L & H & _). apply nth_error_ext. intros v. apply H. apply Hno. Qed.
Lemma aprogress s o s' : state_ok t s -> progress t s o s' -> state_ok t s' /\ progress atask (astate s) o (astate s').
Proof.
  intros Hs Hp. destruct (progress_derived t Ht s o s' Hs Hp) as (_ & _ & _ & _ & Hs' & _). split; auto.
  destruct Hp as (op & s1 & Hop & Hl & Hv & Hm). apply no_derived_model in Hm. subst s1. assert (Hin := nth_error_In _ _ Hop).
  exists (aoperator op), (astate s'). splits.
  - unfold atask. cbn [t_ops]. now rewrite nth_error_map, Hop.
  - unfold astate. now rewrite !map_length.
  - intros v r' Hvl Hr'. assert (Hvs : v < List.length s). { unfold astate in Hvl. rewrite map_length, seq_length in Hvl. rewrite (state_len t s Hs). lia. }
    destruct (effect_value_total s (op_effs op) v) as [r Hr]. pose proof (aeffect_value s (op_effs op) v r (fun e He => Hun op e Hin He) Hr) as Hr2. cbn [aoperator op_effs] in Hr'.
    assert (Eq : match r' with Some d => Some d | None => nth_error (astate s) v end = match option_map (alpha v) r with Some d => Some d | None => nth_error (astate s) v end).
    { rewrite <- (apply_effects_value (astate s) (map aeffect (op_effs op)) v r' Hvl Hr'). apply (apply_effects_value _ _ _ _ Hvl Hr2). }
    rewrite Eq, astate_nth by auto. rewrite (Hv v r Hvs Hr). destruct r as [d|]; cbn [option_map]; auto. now rewrite astate_nth.
  - destruct ano_derived as [_ Hl']. unfold stratified_model. splits; auto. intros v x k d Hx Hk. specialize (Hl' v). unfold layer_of in Hl'. unfold is_var in Hx. rewrite Hx in Hl'. congruence.
Qed.
Lemma aapplicable s o : state_ok t s -> applicable t s o -> applicable atask (astate s) o.
Proof. intros Hs (op & Hop & Hpre). exists (aoperator op). split; [unfold atask; cbn [t_ops]; now rewrite nth_error_map, Hop|]. cbn [aoperator op_pre]. now apply aall_hold. Qed.
Lemma apath s os s' : task_path t s os s' -> state_ok t s -> state_ok t s' /\ task_path atask (astate s) os (astate s').
Proof.
  induction 1 as [s|s o s1 os s2 Ha Hp Hpath IH]; intros Hs; [split; auto; constructor|]. destruct (aprogress s o s1 Hs Hp) as [Hs1 Hp1]. destruct (IH Hs1) as [Hs2 Hp2].
  split; auto. eapply task_path_cons; eauto. now apply aapplicable.
Qed.
Lemma aplan s os : state_ok t s -> task_plan_from t s os -> task_plan_from atask (astate s) os.
Proof. intros Hs (s' & Hp & Hg). destruct (apath s os s' Hp Hs) as [Hs' Hp']. exists (astate s'). split; auto. unfold goal_state, atask. cbn [t_goal]. now apply aall_hold. Qed.
Lemma acost os : plan_cost atask os = plan_cost t os.
Proof. unfold plan_cost. f_equal. apply map_ext. intros o. unfold atask. cbn [t_ops]. rewrite nth_error_map. destruct (nth_error (t_ops t) o); reflexivity. Qed.
End Abs.

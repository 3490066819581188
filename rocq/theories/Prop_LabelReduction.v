(** C69: exact label reduction. *)
From Coq Require Import Permutation.
From Verif Require Import Outcome Spec_Task Spec_Relaxation Model_PQ Model_MAS Spec_FTS Model_MASRun Model_MASAlgorithm Spec_LabelReduction.
From Verif Require Import Proof_MAS1 Proof_MAS11 Proof_MAA4 Prop_PDB Prop_MAS.

(** Labels that can be combined for a system have the same transitions in all others. *)
Theorem C69_combinable_means F i a b : combinable F i a b ->
  forall k f, k <> i -> get_factor F k = Ok f -> forall x y, l_step (the_lts (f_ts f)) a x y <-> l_step (the_lts (f_ts f)) b x y.
Proof.
  intros H k f Hk Hf x y. destruct (H k f Hk Hf) as [g Hg]. pose proof (Hg a (or_introl eq_refl)) as Ga. pose proof (Hg b (or_intror (or_introl eq_refl))) as Gb.
  split; intros (p & i' & A & B); exists p, i'; (split; [congruence|auto]).
Qed.
Print Assumptions C69_combinable_means.

(** Whatever was merged, shrunk, pruned and reduced before: label reduction, with any of its methods
    and orders of the systems, comes to an end without error; only labels and transitions change; the
    transitions of the synchronized product and their costs stay the same; and with the fixpoint
    method no two labels of equal cost can be combined for any system afterwards. *)
Theorem C69_label_reduction P bag q0 ord ci cg t e F m o shuffle i j :
  pq_contract P bag -> bag q0 = [] -> (forall b, Permutation (ord b) b) -> (forall l, Permutation (shuffle l) l) -> mas_task t -> built P q0 ord ci cg t e F ->
  0 < length (F_factors F) <= 2 * length (t_vars t) - 1 ->
  exists F', reduce ord m (system_order o shuffle (length (t_vars t))) i j F = Ok F' /\
    built P q0 ord ci cg t e F' /\ same_shape F F' /\ same_product F F' /\
    (m = AllSystemsFixpoint -> forall k, k < length (F_factors F') -> irreducible F' k).
Proof.
  intros HP Hq Hord Hsh Ht HB [Hn1 Hn2]. pose proof (system_order_ok o shuffle (length (t_vars t)) Hsh) as Hp.
  destruct (reduce_ok P bag HP q0 Hq ord Hord ci cg t Ht e F m (system_order o shuffle (length (t_vars t))) i j HB) as (F' & E & (A & B & C) & D).
  - destruct (F_factors F); [cbn [length] in Hn1; lia|discriminate].
  - exact (Permutation_NoDup (Permutation_sym Hp) (seq_NoDup _ _)).
  - intros k Hk. apply (Permutation_in _ (Permutation_sym Hp)), in_seq. lia.
  - exists F'. splits; auto.
Qed.
Print Assumptions C69_label_reduction.

(** After an attempt for one system nothing is left to combine for it. *)
Theorem C69_one_system P bag q0 ord ci cg t e F i :
  pq_contract P bag -> bag q0 = [] -> (forall b, Permutation (ord b) b) -> mas_task t -> built P q0 ord ci cg t e F ->
  exists F', reduce_once ord i F = Ok F' /\ same_product F F' /\ irreducible F' i.
Proof.
  intros HP Hq Hord Ht HB. destruct (reduce_once_ok P bag HP q0 Hq ord Hord ci cg t Ht e F i HB) as (F' & A & (_ & _ & B) & C). exists F'. auto.
Qed.
Print Assumptions C69_one_system.

(** Operators 0 and 1 cost the same and do not involve variable 1: labels 0 and 1 can be combined for
    the system of variable 0, and the fixpoint method does so. *)
Example C69_nonvacuous :
  built list_pq [] idord true true mas_ex true ex_F0 /\ 0 < length (F_factors ex_F0) <= 2 * length (t_vars mas_ex) - 1 /\
  F_labels ex_F0 = [Some 2; Some 2; Some 1] /\
  option_map F_labels (match reduce idord AllSystemsFixpoint (system_order Reverse (fun l => l) 2) 0 1 ex_F0 with Ok F => Some F | _ => None end) = Some [None; None; Some 1; Some 2] /\
  irreducible ex_F0 1 /\ ~ irreducible ex_F0 0.
Proof.
  assert (B : built list_pq [] idord true true mas_ex true ex_F0) by (apply built_start; vm_compute; reflexivity).
  splits; auto; try (vm_compute; lia); try (vm_compute; reflexivity).
  - intros f _ a b c Ha Hb HC. destruct (get_factor ex_F0 0) as [f0| | |] eqn:E0; try (vm_compute in E0; discriminate). destruct (HC 0 f0) as [k Hk]; [discriminate|exact E0|].
    pose proof (Hk a (or_introl eq_refl)) as Ka. pose proof (Hk b (or_intror (or_introl eq_refl))) as Kb. vm_compute in E0. inversion E0; subst f0. clear E0. unfold active in Ha, Hb.
    destruct a as [|[|[|a]]], b as [|[|[|b]]]; try reflexivity; exfalso; vm_compute in Ha, Hb, Ka, Kb; try congruence; try (destruct a; discriminate); destruct b; discriminate.
  - intros HI. destruct (get_factor ex_F0 0) as [f0| | |] eqn:E0; try (vm_compute in E0; discriminate). specialize (HI f0 E0 0 1 2 eq_refl eq_refl). discriminate HI.
    intros k f Hk Hf. destruct k as [|[|k]]; [congruence| |exfalso; vm_compute in Hf; destruct k; discriminate]. vm_compute in Hf. inversion Hf; subst. exists 1. intros l [<-|[<-|[]]]; reflexivity.
Qed.

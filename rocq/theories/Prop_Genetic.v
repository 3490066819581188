(** C78: the genetic pattern collection generator. *)
From Coq Require Import Permutation Sorting.Sorted.
From Verif Require Import Outcome Spec_Task Spec_Projection Spec_CausalGraph Spec_MergeStrategy Spec_PatternGenerators Spec_PDBCegar Spec_Genetic Model_MAS Model_CausalGraph Model_Evaluators Model_Genetic
  Proof_TaskCheck Proof_Pat5 Proof_Genetic1 Proof_Genetic2 Prop_PDBCegar.
Import ListNotations.

Lemma relevant_kept t q p : pruned t q p -> forall v, relevant_in t q v -> relevant_in t p v.
Proof. intros (_ & H) v. induction 1 as [v A B|v u A B IH D]; [apply rel_goal|apply rel_arc with u]; auto; apply H; [apply rel_goal|apply rel_arc with u]; auto. Qed.
Lemma split_off (p : list nat) : forall q, NoDup p -> incl p q -> exists r, Permutation q (p ++ r).
Proof.
  induction p as [|x p IH]; intros q N I; [exists q; apply Permutation_refl|]. inversion N as [|? ? N1 N2]; subst.
  destruct (in_split x q (I x (or_introl eq_refl))) as (a & b & ->). destruct (IH (a ++ b) N2) as (r & Hr).
  - intros y Hy. pose proof (I y (or_intror Hy)) as Hi. apply in_app_iff in Hi as [Hi|[<- |Hi]]; [apply in_or_app; auto|contradiction|apply in_or_app; auto].
  - exists r. cbn [app]. rewrite <- Permutation_middle. now constructor.
Qed.
Lemma sorted_nd (p : list nat) : StronglySorted lt p -> NoDup p.
Proof. induction 1 as [|x p S IH F]; constructor; auto. intros X. rewrite Forall_forall in F. specialize (F x X). lia. Qed.
Lemma concat_apart (qs : list (list nat)) : NoDup (concat qs) -> forall i j p q v, i <> j -> nth_error qs i = Some p -> nth_error qs j = Some q -> In v p -> ~ In v q.
Proof.
  assert (K : forall (qs : list (list nat)) j q v, nth_error qs j = Some q -> In v q -> In v (concat qs)) by (intros l j q v E H; apply in_concat; exists q; split; auto; eapply nth_error_In; eauto).
  induction qs as [|x qs IH]; intros N i j p q v Hne E1 E2 Hp Hq; [destruct i; discriminate|]. cbn [concat] in N. apply nodup_app_iff in N as (N1 & N2 & N3).
  destruct i as [|i], j as [|j]; [congruence| | |]; cbn [nth_error] in E1, E2.
  - injection E1 as ->. exact (N3 v Hp (K _ _ _ _ E2 Hq)).
  - injection E2 as ->. exact (N3 v Hq (K _ _ _ _ E1 Hp)).
  - exact (IH N2 i j p q v ltac:(congruence) E1 E2 Hp Hq).
Qed.
Lemma forall2_nth {A B} (R : A -> B -> Prop) l l' : Forall2 R l l' -> forall i y, nth_error l' i = Some y -> exists x, nth_error l i = Some x /\ R x y.
Proof. induction 1 as [|a b l l' H _ IH]; intros [|i] y E; try discriminate; cbn in E; [injection E as <-; exists a; auto|apply IH, E]. Qed.

(** Whatever the random number generator does, a collection is found.  Its patterns are within the
    limit and contain only variables that influence a goal variable within the pattern; they are
    disjoint if this is asked for.  The collection is at least as good, by the given measure, as
    one in which the variables were packed into patterns and pruned. *)
Theorem C78_genetic fitness shuffle flip select num_collections num_episodes limit disjoint t :
  task_ok t -> (forall x, In x (t_vars t) -> (Z.of_nat (vdom x) <= INT_MAX)%Z) -> (1 <= limit <= INT_MAX)%Z -> 1 <= num_collections ->
  (forall ps, (0 <= fitness ps)%Z) -> (forall i l, Permutation (shuffle i l) l) -> (forall e i, select e i < num_collections) ->
  exists ps, genetic fitness shuffle flip select num_collections num_episodes limit disjoint t = Ok ps /\
    (forall p, In p ps -> pattern_ok t p /\ (num_states t p <= limit)%Z /\ forall v, In v p -> relevant_in t p v) /\
    (disjoint = true -> disjoint_patterns ps) /\
    exists parts packed, packing t limit parts /\ Forall2 (pruned t) parts packed /\ (fitness packed <= fitness ps)%Z.
Proof.
  intros Ht Hd Hl Hn Hf Hs He. destruct (genetic_ok fitness shuffle flip select num_collections num_episodes limit disjoint t Ht Hd Hl Hn Hf Hs He) as (ps & E & (qs & F2 & Hq & Hdis) & Hp).
  exists ps. split; [exact E|]. split; [|split; [|exact Hp]].
  - intros p Hin. apply In_nth_error in Hin as (i & Hi). destruct (forall2_nth _ _ _ F2 i p Hi) as (q & Eq & Pr). destruct (Hq q (nth_error_In _ _ Eq)) as (Q1 & Q2 & Q3).
    assert (Inc : incl p q) by (intros v Hv; apply Pr in Hv; exact (rel_in t q v Hv)). destruct Pr as (Ps & Pi).
    assert (Lp : forall v, In v p -> v < length (t_vars t)) by (intros v Hv; apply Q2, Inc, Hv). split; [split; auto|]. split.
    + destruct (split_off p q (sorted_nd p Ps) Inc) as (r & Hr). rewrite (num_states_perm t _ _ Hr), num_states_app in Q3.
      assert (1 <= num_states t p)%Z by (apply (ns_pos t Ht Hd); auto).
      assert (1 <= num_states t r)%Z by (apply (ns_pos t Ht Hd); intros v Hv; apply Q2, (Permutation_in _ (Permutation_sym Hr)), in_or_app; auto). nia.
    + intros v Hv. apply (relevant_kept t q p); [split; auto|]. now apply Pi.
  - intros D i j p q Hne Ei Ej v Hp' Hq'. destruct (forall2_nth _ _ _ F2 i p Ei) as (p0 & E1 & (_ & P1)). destruct (forall2_nth _ _ _ F2 j q Ej) as (q0 & E2 & (_ & P2)).
    exact (concat_apart qs (Hdis D) i j p0 q0 v Hne E1 E2 (rel_in t p0 v (proj1 (P1 v) Hp')) (rel_in t q0 v (proj1 (P2 v) Hq'))).
Qed.
Print Assumptions C78_genetic.

(** In the task of C76, with the sum of the squared lengths of the patterns as measure: the best packing
    (variable 2 alone has no influence on the goal); a mutation to the patterns 0, 2 and 0, 1, which
    is better but not disjoint; too small a limit for any variable. *)
Definition squares (ps : list (list nat)) : Z := fold_right (fun p z => (Z.of_nat (length p) * Z.of_nat (length p) + z)%Z) 0%Z ps.
Definition gen_run (n : nat) (limit : Z) (disjoint : bool) (flip : nat -> nat -> nat -> nat -> bool) : outcome (list (list nat)) :=
  genetic squares (fun i l => if Nat.even i then l else rev l) flip (fun _ _ => 0) 2 n limit disjoint cegar_ex.
Definition flips (e c p k : nat) : bool := (c =? 0) && ((p =? 1) || (1 <=? k)).
Example C78_nonvacuous : task_ok cegar_ex /\ (forall ps, Z.le 0 (squares ps)) /\
  gen_run 0 4 true flips = Ok [[0; 1]; []] /\ gen_run 1 4 true flips = Ok [[0; 1]; []] /\ gen_run 1 4 false flips = Ok [[0; 2]; [0; 1]] /\
  gen_run 0 8 true flips = Ok [[0; 1; 2]] /\ gen_run 0 2 true flips = Ok [[0]; [1]; []] /\ gen_run 0 1 true flips = Ok [].
Proof.
  splits; try (vm_compute; reflexivity); [exact (proj1 cegar_ex_plain)|]. intros ps. unfold squares. induction ps as [|p ps IH]; cbn [fold_right]; lia || nia.
Qed.

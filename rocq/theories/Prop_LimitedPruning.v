(** C81: limited pruning. *)
From Coq Require Import Permutation.
From Verif Require Import Outcome Spec_Task Spec_Relaxation Spec_Stubborn Spec_Plan Spec_HM Model_Task Proof_Task Model_Stubborn Model_StubbornEC Model_LimitedPruning Proof_Stubborn1 Proof_Stubborn2 Proof_Stubborn3 Proof_Stubborn4 Prop_Stubborn.
Import ListNotations.

Definition total {A} (f : A -> nat) (l : list A) : nat := list_sum (map f l).
Lemma total_snoc {A} (f : A -> nat) l x : total f (l ++ [x]) = total f l + f x.
Proof. unfold total. rewrite map_app. cbn [map]. rewrite list_sum_app. cbn. lia. Qed.

(** Let the underlying method return [p s ops] for the calls of the search.  The test is made once, with what
    the first [n] calls found; if the ratio is too low, all calls after the next one keep all operators, and
    all other calls prune. *)
Theorem C81_switched_off_once low positive n prune (p : state * list nat -> list nat) calls :
  (forall c, In c calls -> prune (fst c) (snd c) = Ok (p c)) ->
  exists rs, limited_calls low positive n prune limited_start calls = Ok rs /\ length rs = length calls /\
    forall k c, nth_error calls k = Some c ->
      nth_error rs k = Some (if (n <? k) && positive && low (total (fun c => length (snd c)) (firstn n calls)) (total (fun c => length (p c)) (firstn n calls)) then snd c else p c).
Proof.
  intros Hp. set (D := positive && low (total (fun c => length (snd c)) (firstn n calls)) (total (fun c => length (p c)) (firstn n calls))).
  assert (K : forall suf pre l, calls = pre ++ suf ->
    (length pre <= n -> lp_disabled l = false /\ lp_calls l = length pre /\ lp_before l = total (fun c => length (snd c)) pre /\ lp_after l = total (fun c => length (p c)) pre) ->
    (n < length pre -> lp_disabled l = D /\ n < lp_calls l) ->
    exists rs, limited_calls low positive n prune l suf = Ok rs /\ length rs = length suf /\
      forall k c, nth_error suf k = Some c -> nth_error rs k = Some (if (n <? length pre + k) && D then snd c else p c)).
  { induction suf as [|[s ops] suf IH]; intros pre l E I1 I2; cbn [limited_calls]; [exists []; splits; auto; intros [|k] c; discriminate|].
    assert (Hin : prune s ops = Ok (p (s, ops))) by (apply (Hp (s, ops)); rewrite E; apply in_or_app; right; now left).
    assert (Step : exists l', limited_prune low positive n prune l s ops = Ok (if (n <? length pre) && D then ops else p (s, ops), l') /\
      (length pre + 1 <= n -> lp_disabled l' = false /\ lp_calls l' = length pre + 1 /\ lp_before l' = total (fun c => length (snd c)) pre + length ops /\ lp_after l' = total (fun c => length (p c)) pre + length (p (s, ops))) /\
      (n < length pre + 1 -> lp_disabled l' = D /\ n < lp_calls l')).
    { unfold limited_prune. destruct (Nat.ltb_spec n (length pre)) as [H|H].
      - destruct (I2 H) as (E1 & E2). rewrite E1. destruct D eqn:ED; cbn [andb bind].
        + eexists. split; [reflexivity|]. cbn [lp_disabled lp_calls]. split; [lia|auto].
        + rewrite Hin. cbn [bind]. eexists. split; [reflexivity|]. cbn [lp_disabled lp_calls]. split; [lia|]. intros _. rewrite (proj2 (Nat.eqb_neq _ _)) by lia. split; [reflexivity|lia].
      - destruct (I1 H) as (E1 & E2 & E3 & E4). rewrite E1, Hin. cbn [andb bind]. eexists. split; [reflexivity|]. cbn [lp_disabled lp_calls lp_before lp_after]. rewrite E2, E3, E4. split.
        + intros H1. rewrite (proj2 (Nat.eqb_neq _ _)) by lia. splits; auto.
        + intros H1. assert (En : length pre = n) by lia. rewrite En, Nat.eqb_refl. cbn [andb]. split; [|lia]. unfold D. rewrite E.
          rewrite <- En, firstn_app, Nat.sub_diag, firstn_all. cbn [firstn]. now rewrite app_nil_r. }
    destruct Step as (l' & -> & J1 & J2). cbn [bind]. destruct (IH (pre ++ [(s, ops)]) l') as (rs & Er & Lr & Hr).
    - rewrite <- app_assoc. exact E.
    - rewrite app_length, !total_snoc. exact J1.
    - rewrite app_length. exact J2.
    - rewrite Er. cbn [bind]. eexists. split; [reflexivity|]. split; [cbn; lia|]. intros [|k] c Hk; cbn [nth_error] in *.
      + injection Hk as <-. rewrite Nat.add_0_r. reflexivity.
      + rewrite (Hr k c Hk), app_length. cbn [length]. replace (length pre + 1 + k) with (length pre + S k) by lia. reflexivity. }
  destruct (K calls [] limited_start eq_refl) as (rs & E & L & H).
  - intros _. cbn. auto.
  - cbn. lia.
  - exists rs. split; [auto|]. split; [auto|]. intros k c Hk. rewrite (H k c Hk). unfold D. cbn [length Nat.add]. now rewrite andb_assoc.
Qed.
Print Assumptions C81_switched_off_once.

(** Whichever states are expanded with and without pruning, pruning by stubborn sets stays safe: for every
    plan there is one that survives and uses a subset of its operators, hence costs at most as much. *)
Theorem C81_limited_keeps_plans t prune (off : state -> bool) s os : stub_task t -> stubborn_method t prune -> state_ok t s -> task_plan_from t s os ->
  exists os' rest, pruned_plan t (fun s ops => if off s then Ok ops else prune s ops) s os' /\ task_plan_from t s os' /\ Permutation os (os' ++ rest) /\ plan_cost t os' <= plan_cost t os.
Proof.
  intros Ht Hm Hs (s' & Hp & Hg). set (prune' := fun s ops => if off s then Ok ops else prune s ops).
  destruct (stubborn_safe t Ht prune') with (n := length os) (os := os) (s := s) (s' := s') as (os' & rest & A & B); auto.
  - intros s1 Hs1 Hg1. destruct (stubborn_result t prune s1 Ht Hm Hs1 Hg1) as (E & T & H1 & H2 & H3). unfold prune'. destruct (off s1).
    + exists (app_ops t s1), E, T. splits; auto.
    + exists (filter T (app_ops t s1)), E, T. splits; auto. intros o Ho HT. apply filter_In. auto.
  - exists os', rest. split; auto. split; [|split; auto].
    + destruct (pruned_is_plan t prune' s os' A) as (s2 & X & Y). exists s2. auto.
    + rewrite (plan_cost_perm t _ _ B), plan_cost_app. lia.
Qed.
Print Assumptions C81_limited_keeps_plans.

(** Five calls in the task of C53, the test after two of them: with a low ratio the third call still
    prunes and the others do not; otherwise all of them prune. *)
Definition limited_run (low : nat -> nat -> bool) (positive : bool) : outcome (list (list nat)) :=
  limited_calls low positive 2 (prune_simple stub_ex) limited_start (repeat (t_init stub_ex, [0; 1; 3]) 5).
Example C81_nonvacuous : stub_task stub_ex /\ stubborn_method stub_ex (prune_simple stub_ex) /\
  (forall c, In c (repeat (t_init stub_ex, [0; 1; 3]) 5) -> prune_simple stub_ex (fst c) (snd c) = Ok [0; 3]) /\
  limited_run (fun b a => b =? a + 2) true = Ok [[0; 3]; [0; 3]; [0; 3]; [0; 1; 3]; [0; 1; 3]] /\
  limited_run (fun b a => b =? a) true = Ok (repeat [0; 3] 5) /\ limited_run (fun _ _ => true) false = Ok (repeat [0; 3] 5).
Proof.
  split; [exact stub_ex_task|]. split; [constructor|]. split; [intros c Hc; apply repeat_spec in Hc; subst c; vm_compute; reflexivity|]. splits; vm_compute; reflexivity.
Qed.

(** C31, C37, C38, C48, C51, C58: evaluators, cost types and bounded products. *)
From Verif Require Import Outcome Spec_Task Spec_Relaxation Model_Task Proof_Task Model_Evaluators Prop_Axioms Prop_Relaxation.
Local Open Scope Z_scope.

(* ---- C31 ---- *)
Lemma bf31_id z : - 2 ^ 30 <= z < 2 ^ 30 -> bf31 z = z.
Proof. intros H. unfold bf31. rewrite Z.mod_small; lia. Qed.

(** The results agree: always in the value, and in the preferred operators for the evaluations
    that ask for them. *)
Fixpoint evals (cs : list hcall) : list bool :=
  match cs with [] => [] | HEval _ cp :: r => cp :: evals r | HNotify _ _ _ :: r => evals r end.
Definition agree (cp : bool) (a b : eresult) : Prop := r_value a = r_value b /\ (cp = true -> r_pref a = r_pref b).
Inductive agrees : list bool -> list eresult -> list eresult -> Prop :=
| agrees_nil : agrees [] [] []
| agrees_cons : forall cp a b cps l m, agree cp a b -> agrees cps l m -> agrees (cp :: cps) (a :: l) (b :: m).

Theorem C31_caching_transparent : forall (X D : Type) compute notify (data : X -> D) (v : D -> nat -> Z * list nat) step,
  (* the internal data has a part that determines all values and that evaluating does not change *)
  (forall x s, fst (compute x s) = v (data x) s /\ data (snd (compute x s)) = data x) ->
  (* a notification updates that part, and only the value of its target state changes *)
  (forall x p o s, data (notify x p o s) = step (data x) p o s) ->
  (forall d p o s s', s' <> s -> v (step d p o s) s' = v d s') ->
  (* values are DEAD_END or fit into 30 bits *)
  (forall d s, fst (v d s) = -1 \/ 0 <= fst (v d s) < 2 ^ 30) ->
  forall x0 cs, exists with_cache without,
    hrun X compute notify true (new_hobj x0) cs = Ok with_cache /\
    hrun X compute notify false (new_hobj x0) cs = Ok without /\
    agrees (evals cs) with_cache without.
Proof.
  intros X D compute notify data v step Hc Hn Hst Hv x0 cs.
  assert (G : forall cs (o o' : hobj X), data (o_x o) = data (o_x o') ->
     (forall s h, o_cache o s = (h, false) -> h = fst (v (data (o_x o)) s)) ->
     exists a b, hrun X compute notify true o cs = Ok a /\ hrun X compute notify false o' cs = Ok b /\ agrees (evals cs) a b).
  2:{ apply G; auto. intros s h H. cbn in H. discriminate. }
  clear cs. induction cs as [|[s cp|p op s] r IH]; intros o o' Hx Hca.
  - exists [], []. splits; auto. constructor.
  - cbn [hrun evals]. unfold compute_result. cbn [andb].
    destruct (Hc (o_x o') s) as [E1 E2]. destruct (compute (o_x o') s) as [[v' pr'] x'] eqn:Ec'. cbn [fst snd] in E1, E2.
    destruct (Hc (o_x o) s) as [F1 F2]. destruct (compute (o_x o) s) as [[v1 pr1] x1] eqn:Ec1. cbn [fst snd] in F1, F2.
    assert (Evv : v1 = v' /\ pr1 = pr') by (rewrite Hx, <- E1 in F1; now inversion F1). destruct Evv; subst v1 pr1.
    pose proof (Hv (data (o_x o')) s) as Hb. rewrite <- E1 in Hb. cbn [fst] in Hb.
    assert (Hg : (v' =? DEAD_END) || (0 <=? v') = true).
    { apply orb_true_iff. unfold DEAD_END. destruct Hb; [left; now apply Z.eqb_eq|right; apply Z.leb_le; lia]. }
    rewrite andb_false_r. cbn [andb]. destruct (o_cache o s) as [h dirty] eqn:Eca. destruct (o_cache o' s) as [h' d'].
    destruct (negb cp && true && negb (h =? NO_VALUE) && negb dirty) eqn:Eh.
    + apply andb_true_iff in Eh. destruct Eh as [Eh Ed]. apply negb_true_iff in Ed. subst dirty.
      apply andb_true_iff in Eh. destruct Eh as [Eh _]. apply andb_true_iff in Eh. destruct Eh as [Eh _]. apply negb_true_iff in Eh. subst cp.
      pose proof (Hca s h Eca) as ->. rewrite Hx, <- E1. cbn [fst negb]. rewrite Hg. cbn [guard bind].
      destruct (IH o {| o_x := x'; o_cache := o_cache o' |}) as (a & b & Ea & Eb & Hab); auto.
      { cbn [o_x]. congruence. }
      destruct (v' =? DEAD_END); cbn [bind]; rewrite Ea, Eb; cbn [bind]; do 2 eexists; (split; [reflexivity|]); (split; [reflexivity|]);
        constructor; auto; split; auto; discriminate.
    + rewrite Hg. cbn [guard bind].
      destruct (IH {| o_x := x1; o_cache := cache_set (o_cache o) s (bf31 v', false) |} {| o_x := x'; o_cache := o_cache o' |}) as (a & b & Ea & Eb & Hab).
      { cbn [o_x]. congruence. }
      { intros s' h0. cbn [o_cache o_x]. unfold cache_set. rewrite F2. destruct (Nat.eqb_spec s' s) as [->|]; [|auto].
        intros H. inversion H. rewrite bf31_id by lia. rewrite <- F1. reflexivity. }
      destruct (v' =? DEAD_END); cbn [bind]; rewrite Ea, Eb; cbn [bind]; do 2 eexists; (split; [reflexivity|]); (split; [reflexivity|]);
        constructor; auto; split; auto.
  - cbn [hrun evals]. apply IH.
    + cbn [o_x notify_transition]. rewrite !Hn. congruence.
    + intros s' h. cbn [o_x o_cache notify_transition]. unfold cache_set. destruct (Nat.eqb_spec s' s) as [->|Hne]; [discriminate|].
      rewrite Hn, Hst by auto. auto.
Qed.
Print Assumptions C31_caching_transparent.

(** Without the range restriction caching is visible: a heuristic whose value is 2^30 for every
    state works without a cache, but the second cached evaluation reads a negative number from the
    31-bit field (a failed assertion; in a release build the negative value is returned). *)
Theorem C31_large_values_refuted :
  exists (compute : unit -> nat -> (Z * list nat) * unit) (a : eresult),
    (forall s, fst (fst (compute tt s)) = 1073741824) /\ r_value a = 1073741824 /\
    hrun unit compute (fun x _ _ _ => x) false (new_hobj tt) [HEval 0 false; HEval 0 false] = Ok [a; a] /\
    hrun unit compute (fun x _ _ _ => x) true (new_hobj tt) [HEval 0 false; HEval 0 false] = UB.
Proof.
  exists (fun _ _ => ((1073741824, []), tt)), {| r_value := 1073741824; r_pref := []; r_count := true |}.
  splits; try reflexivity; vm_compute; reflexivity.
Qed.
Print Assumptions C31_large_values_refuted.

(** A heuristic whose value for a state counts the notifications for it (0 is a dead end). *)
Definition ex_v (d : nat -> nat) (s : nat) : Z * list nat := (Z.of_nat (Nat.min (d s) 5) - 1, [s]).
Definition ex_step (d : nat -> nat) (p o s : nat) : nat -> nat := fun s' => if (s' =? s)%nat then S (d s) else d s'.
Definition ex_compute (x : (nat -> nat) * nat) (s : nat) : (Z * list nat) * ((nat -> nat) * nat) :=
  (ex_v (fst x) s, (fst x, S (snd x))).
Example C31_nonvacuous :
  (forall x s, fst (ex_compute x s) = ex_v (fst x) s /\ fst (snd (ex_compute x s)) = fst x) /\
  (forall d p o s s', s' <> s -> ex_v (ex_step d p o s) s' = ex_v d s') /\
  (forall d s, fst (ex_v d s) = -1 \/ 0 <= fst (ex_v d s) < 2 ^ 30) /\
  map (fun caching => match hrun _ ex_compute (fun x p o s => (ex_step (fst x) p o s, snd x)) caching (new_hobj (fun _ => 0%nat, 0%nat))
     [HEval 0 false; HNotify 0 1 0; HNotify 0 1 0; HEval 0 false; HEval 0 false; HEval 0 true; HEval 1 true] with
     | Ok l => map (fun e => (r_value e, r_pref e, r_count e)) l | _ => [] end) [true; false] =
  [ [(INFTY, [], true); (1, [0%nat], true); (1, [], false); (1, [0%nat], true); (INFTY, [], true)];
    [(INFTY, [], true); (1, [0%nat], true); (1, [0%nat], true); (1, [0%nat], true); (INFTY, [], true)] ].
Proof.
  splits; auto.
  - intros d p o s s' H. unfold ex_v, ex_step. destruct (Nat.eqb_spec s' s); [congruence|auto].
  - intros d s. unfold ex_v. cbn [fst]. change (2 ^ 30) with 1073741824. lia.
Qed.

(* ---- C48 ---- *)
(** What an evaluator denotes for one state; [None] is infinity. *)
Section DENOTATION.
Variables (evs : list evnode) (hv : nat -> option Z) (g : Z) (is_pref : bool).
Definition combined (f : Z -> Z -> Z) (vs : list (option Z)) : option Z :=
  if existsb (fun v => match v with None => true | _ => false end) vs then None
  else Some (fold_right (fun v acc => match v with Some x => f x acc | None => acc end) 0 vs).
Inductive evalsto : nat -> option Z -> Prop :=
| ev_heur : forall i k, nth_error evs i = Some (NHeur k) -> evalsto i (hv k)
| ev_g : forall i, nth_error evs i = Some NG -> evalsto i (Some g)
| ev_pref : forall i, nth_error evs i = Some NPref -> evalsto i (Some (if is_pref then 0 else 1))
| ev_const : forall i c, nth_error evs i = Some (NConst c) -> evalsto i (if c =? INFTY then None else Some c)
| ev_sum : forall i l vs, nth_error evs i = Some (NSum l) -> evalall l vs -> evalsto i (combined Z.add vs)
| ev_max : forall i l vs, nth_error evs i = Some (NMax l) -> evalall l vs -> evalsto i (combined Z.max vs)
| ev_weight : forall i j w v, nth_error evs i = Some (NWeight j w) -> evalsto j v -> evalsto i (option_map (fun x => x * w) v)
with evalall : list nat -> list (option Z) -> Prop :=
| ea_nil : evalall [] []
| ea_cons : forall i l v vs, evalsto i v -> evalall l vs -> evalall (i :: l) (v :: vs).
Scheme evalsto_mut := Minimality for evalsto Sort Prop
with evalall_mut := Minimality for evalall Sort Prop.
End DENOTATION.
Definition enc (v : option Z) : Z := match v with Some z => z | None => INFTY end.

(** Evaluators are built from evaluators created earlier. *)
Definition subs (n : evnode) : list nat :=
  match n with NSum l | NMax l => l | NWeight j _ => [j] | _ => [] end.
Definition dag_ok (evs : list evnode) : Prop :=
  forall i n, nth_error evs i = Some n -> forall j, In j (subs n) -> (j < i)%nat.

Lemma denot_total evs hv g p : dag_ok evs -> forall n i, (i < n)%nat -> (i < length evs)%nat -> exists v, evalsto evs hv g p i v.
Proof.
  intros Hd. induction n as [|n IH]; [lia|]. intros i Hi Hl.
  destruct (nth_error evs i) as [nd|] eqn:E; [|apply nth_error_None in E; lia]. pose proof (Hd i nd E) as Hs.
  assert (A : forall l, (forall j, In j l -> (j < i)%nat) -> exists vs, evalall evs hv g p l vs).
  { induction l as [|j l IHl]; intros H; [exists []; constructor|].
    destruct (IH j) as [v Hv]; [specialize (H j (or_introl eq_refl)); lia|specialize (H j (or_introl eq_refl)); lia|].
    destruct IHl as [vs Hvs]; [intros; apply H; now right|]. exists (v :: vs). now constructor. }
  destruct nd as [k| | |c|l|l|j w].
  - exists (hv k). now constructor.
  - exists (Some g). now constructor.
  - eexists. eapply ev_pref; eauto.
  - eexists. eapply ev_const; eauto.
  - destruct (A l Hs) as [vs Hv]. eexists. eapply ev_sum; eauto.
  - destruct (A l Hs) as [vs Hv]. eexists. eapply ev_max; eauto.
  - destruct (IH j) as [v Hv]; try (specialize (Hs j (or_introl eq_refl)); lia). eexists. eapply ev_weight; eauto.
Qed.

Lemma denot_fun evs hv g p : forall i v, evalsto evs hv g p i v -> forall v', evalsto evs hv g p i v' -> v = v'.
Proof.
  apply (evalsto_mut evs hv g p (fun i v => forall v', evalsto evs hv g p i v' -> v = v')
           (fun l vs => forall vs', evalall evs hv g p l vs' -> vs = vs')).
  - intros i k E v0 H. inversion H as [? k1 E1|? E1|? E1|? z E1|? l vs E1 Ha|? l vs E1 Ha|? j w v1 E1 H1]; rewrite E in E1; inversion E1; congruence.
  - intros i E v0 H. inversion H as [? k1 E1|? E1|? E1|? z E1|? l vs E1 Ha|? l vs E1 Ha|? j w v1 E1 H1]; rewrite E in E1; inversion E1; congruence.
  - intros i E v0 H. inversion H as [? k1 E1|? E1|? E1|? z E1|? l vs E1 Ha|? l vs E1 Ha|? j w v1 E1 H1]; rewrite E in E1; inversion E1; congruence.
  - intros i c E v0 H. inversion H as [? k1 E1|? E1|? E1|? z E1|? l vs E1 Ha|? l vs E1 Ha|? j w v1 E1 H1]; rewrite E in E1; inversion E1; congruence.
  - intros i l vs E _ IH v' H. inversion H as [| | | |? l' vs' E' Ha| |]; try congruence. rewrite E in E'. inversion E'; subst l'. now rewrite (IH vs' Ha).
  - intros i l vs E _ IH v' H. inversion H as [| | | | |? l' vs' E' Ha|]; try congruence. rewrite E in E'. inversion E'; subst l'. now rewrite (IH vs' Ha).
  - intros i j w v E _ IH v' H. inversion H as [| | | | | |? j' w' v1 E' Ha]; try congruence. rewrite E in E'. inversion E'; subst j' w'. now rewrite (IH v1 Ha).
  - intros vs' H. now inversion H.
  - intros i l v vs _ IH1 _ IH2 vs' H. inversion H; subst. f_equal; auto.
Qed.

Section CTX.
Variables (evs : list evnode) (W : Type) (heval : nat -> W -> outcome (eresult * W)) (g : Z) (is_pref : bool).
Variables (hv : nat -> option Z) (J : W -> Prop).
Hypothesis Hd : dag_ok evs.
Hypothesis HJ : forall k w, J w -> exists r w', heval k w = Ok (r, w') /\ J w' /\ r_value r = enc (hv k).
Hypothesis Hb : forall i z, evalsto evs hv g is_pref i (Some z) -> 0 <= z < INFTY.
Hypothesis Hg : g <> -1.
Hypothesis Hw : forall i j w, nth_error evs i = Some (NWeight j w) -> 0 <= w.
Notation ES := (evalsto evs hv g is_pref).

Definition cache_ok (c : ectx W) : Prop :=
  J (x_w c) /\ forall j, r_value (x_cache c j) = UNINITIALIZED \/ exists v, ES j v /\ r_value (x_cache c j) = enc v.

Lemma enc_fin z i : ES i (Some z) -> (z =? INFTY) = false.
Proof. intros H. apply Hb in H. apply Z.eqb_neq. lia. Qed.
Lemma enc_range i v : ES i v -> 0 <= enc v.
Proof. destruct v as [z|]; cbn [enc]; intros H; [apply Hb in H; lia|unfold INFTY, INT_MAX; lia]. Qed.

Definition getP (get : ectx W -> nat -> outcome (eresult * ectx W)) (n : nat) : Prop :=
  forall c i v, cache_ok c -> (i < n)%nat -> ES i v -> exists r c', get c i = Ok (r, c') /\ cache_ok c' /\ r_value r = enc v.

Lemma collect_spec get n : getP get n -> forall l vs c acc, cache_ok c -> (forall j, In j l -> (j < n)%nat) -> evalall evs hv g is_pref l vs ->
  exists o c', collect W get c l acc = Ok (o, c') /\ cache_ok c' /\
    o = (if existsb (fun v => match v with None => true | _ => false end) vs then None else Some (acc ++ map enc vs)).
Proof.
  intros Hget. induction l as [|i l IH]; intros vs c acc Hc Hl Ha; inversion Ha as [|? ? v vs' Hi Hr]; subst.
  - cbn. do 2 eexists. split; [reflexivity|]. split; auto. now rewrite app_nil_r.
  - cbn [collect]. destruct (Hget c i v Hc (Hl i (or_introl eq_refl)) Hi) as (r & c1 & E & Hc1 & Er). rewrite E. cbn [bind]. rewrite Er.
    destruct v as [z|]; cbn [enc existsb orb].
    + rewrite (enc_fin z i Hi). destruct (IH vs' c1 (acc ++ [z]) Hc1) as (o & c' & E' & Hc' & Eo); auto; [intros; apply Hl; now right|].
      rewrite E'. do 2 eexists. split; [reflexivity|]. split; auto. rewrite Eo. cbn [map enc]. now rewrite <- app_assoc.
    + rewrite Z.eqb_refl. do 2 eexists. split; [reflexivity|]. auto.
Qed.

Lemma evalall_nn l vs : evalall evs hv g is_pref l vs -> forall v, In v vs -> 0 <= enc v.
Proof. induction 1 as [|i l v vs Hv _ IH]; cbn [In]; [intros v' []|intros v' [<-|H]; [eapply enc_range; eauto|auto]]. Qed.

Lemma fold_add_shift vs : existsb (fun v : option Z => match v with None => true | _ => false end) vs = false ->
  fold_right (fun v acc => match v with Some x => x + acc | None => acc end) 0 vs = fold_right Z.add 0 (map enc vs).
Proof. induction vs as [|[z|] r IH]; cbn [existsb orb fold_right map enc]; intros H; [auto|now rewrite IH|discriminate]. Qed.
Lemma fold_max_shift vs : existsb (fun v : option Z => match v with None => true | _ => false end) vs = false ->
  fold_right (fun v acc => match v with Some x => Z.max x acc | None => acc end) 0 vs = fold_right Z.max 0 (map enc vs).
Proof. induction vs as [|[z|] r IH]; cbn [existsb orb fold_right map enc]; intros H; [auto|now rewrite IH|discriminate]. Qed.

Lemma sum_nn vs : (forall v, In v vs -> 0 <= v) -> 0 <= fold_right Z.add 0 vs.
Proof. induction vs as [|v r IH]; cbn [fold_right In]; intros H; [lia|]. specialize (H v (or_introl eq_refl)) as Hv. assert (0 <= fold_right Z.add 0 r) by (apply IH; intros; apply H; now right). lia. Qed.
Lemma combine_sum_spec : forall vs acc, (forall v, In v vs -> 0 <= v) -> 0 <= acc -> acc + fold_right Z.add 0 vs <= INT_MAX ->
  combine_sum vs acc = Ok (acc + fold_right Z.add 0 vs).
Proof.
  induction vs as [|v r IH]; cbn [combine_sum fold_right]; intros acc Hn Ha Hle; [f_equal; lia|].
  specialize (Hn v (or_introl eq_refl)) as Hv. assert (Hr : 0 <= fold_right Z.add 0 r) by (apply sum_nn; intros; apply Hn; now right).
  rewrite (proj2 (Z.leb_le 0 v)) by lia. cbn [guard bind]. rewrite (proj2 (Z.leb_le (acc + v) INT_MAX)) by lia. cbn [guard bind].
  rewrite IH; [f_equal; lia|intros; apply Hn; now right|lia|lia].
Qed.
Lemma combine_max_spec : forall vs acc, (forall v, In v vs -> 0 <= v) -> 0 <= acc ->
  combine_max vs acc = Ok (Z.max acc (fold_right Z.max 0 vs)).
Proof.
  induction vs as [|v r IH]; cbn [combine_max fold_right]; intros acc Hn Ha; [f_equal; lia|].
  specialize (Hn v (or_introl eq_refl)) as Hv. rewrite (proj2 (Z.leb_le 0 v)) by lia. cbn [guard bind].
  rewrite IH; [f_equal; lia|intros; apply Hn; now right|lia].
Qed.

Lemma get_result_spec : forall n, getP (get_result evs W heval g is_pref n) n.
Proof.
  induction n as [|n IH]; [intros c i v _ H; lia|]. intros c i v Hc Hi Hv. cbn [get_result]. pose proof Hc as [HJw Hca].
  destruct (Z.eqb_spec (r_value (x_cache c i)) UNINITIALIZED) as [Eu|Eu].
  2:{ do 2 eexists. split; [reflexivity|]. split; auto. destruct (Hca i) as [|(v' & Hv' & Ev')]; [congruence|].
      now rewrite Ev', (denot_fun evs hv g is_pref i v Hv v' Hv'). }
  assert (G : forall r c1, cache_ok c1 -> r_value r = enc v ->
    exists r' c', Ok (r, {| x_cache := fun j => if (j =? i)%nat then r else x_cache c1 j; x_n := x_n c1; x_w := x_w c1 |}) = Ok (r', c') /\ cache_ok c' /\ r_value r' = enc v).
  { intros r c1 [HJ1 H1] Er. do 2 eexists. split; [reflexivity|]. split; auto. split; auto. intros j. cbn [x_cache].
    destruct (Nat.eqb_spec j i) as [->|]; [right; exists v; auto|auto]. }
  assert (L : exists nd, nth_error evs i = Some nd) by (inversion Hv; eauto). destruct L as [nd End]. pose proof (Hd i nd End) as Hsub.
  unfold vget. rewrite End. cbn [bind].
  inversion Hv as [? k E|? E|? E|? z E|? l vs E Ha|? l vs E Ha|? j w v1 E H1]; subst; rewrite End in E; inversion E; subst nd; clear E.
  - destruct (HJ k (x_w c) HJw) as (r & w' & Er & Hw' & Ev). rewrite Er. cbn [bind]. apply (G r {| x_cache := x_cache c; x_n := _; x_w := w' |}); auto. split; auto.
  - rewrite (proj2 (Z.eqb_neq g (-1))) by auto. cbn [negb guard bind]. apply G; auto.
  - rewrite (proj2 (Z.eqb_neq g (-1))) by auto. cbn [negb guard bind]. apply G; auto.
  - cbn [bind]. apply G; auto. cbn [r_value value_only]. destruct (Z.eqb_spec z INFTY); auto.
  - destruct (collect_spec _ n IH l vs c [] Hc) as (o & c1 & Eo & Hc1 & ->); auto; [intros j Hj; specialize (Hsub j Hj); lia|].
    rewrite Eo. cbn [bind]. unfold combined in *. destruct (existsb _ vs) eqn:Ex.
    + cbn [bind]. apply G; auto.
    + cbn [app]. pose proof (Hb _ _ Hv) as Hbd. rewrite fold_add_shift in Hbd by auto. rewrite combine_sum_spec.
      * cbn [bind]. apply G; auto. cbn [r_value value_only enc]. now rewrite fold_add_shift by auto.
      * intros v. rewrite in_map_iff. intros (v0 & <- & Hin). eapply evalall_nn; eauto.
      * lia.
      * unfold INFTY in Hbd. lia.
  - destruct (collect_spec _ n IH l vs c [] Hc) as (o & c1 & Eo & Hc1 & ->); auto; [intros j Hj; specialize (Hsub j Hj); lia|].
    rewrite Eo. cbn [bind]. unfold combined in *. destruct (existsb _ vs) eqn:Ex.
    + cbn [bind]. apply G; auto.
    + cbn [app]. pose proof (Hb _ _ Hv) as Hbd. rewrite fold_max_shift in Hbd by auto. rewrite combine_max_spec.
      * cbn [bind]. apply G; auto. cbn [r_value value_only enc]. rewrite fold_max_shift by auto. lia.
      * intros v. rewrite in_map_iff. intros (v0 & <- & Hin). eapply evalall_nn; eauto.
      * lia.
  - destruct (IH c j v1 Hc) as (r & c1 & Er & Hc1 & Ev); auto; [specialize (Hsub j (or_introl eq_refl)); lia|].
    rewrite Er. cbn [bind]. rewrite Ev. destruct v1 as [z|]; cbn [enc option_map] in *.
    + rewrite (enc_fin z j H1). pose proof (Hb _ _ Hv) as Hbd. rewrite (proj2 (Z.leb_le (z * w) INT_MAX)) by (unfold INFTY in Hbd; lia).
      cbn [guard bind]. apply G; auto.
    + rewrite Z.eqb_refl. cbn [bind]. apply G; auto.
Qed.
End CTX.

(** Any sequence of queries to one evaluation context is answered with the denoted values, in
    every order and however the evaluators share subevaluators. *)
Fixpoint queries {W} (evs : list evnode) (heval : nat -> W -> outcome (eresult * W)) (g : Z) (p : bool)
    (c : ectx W) (is : list nat) : outcome (list Z) :=
  match is with
  | [] => Ok []
  | i :: r => let* (e, c) := get_result evs W heval g p (S (length evs)) c i in
              let* l := queries evs heval g p c r in Ok (r_value e :: l)
  end.

Theorem C48_combining_evaluators : forall evs (W : Type) heval g is_pref hv (J : W -> Prop),
  dag_ok evs -> (forall i j w, nth_error evs i = Some (NWeight j w) -> 0 <= w) -> 0 <= g ->
  (* heuristic k reports the value hv k for the state, whenever it is asked *)
  (forall k w, J w -> exists r w', heval k w = Ok (r, w') /\ J w' /\ r_value r = enc (hv k)) ->
  (* no finite value in the mathematical sense reaches INT_MAX *)
  (forall i z, evalsto evs hv g is_pref i (Some z) -> 0 <= z < INFTY) ->
  forall w0 is, J w0 -> (forall i, In i is -> (i < length evs)%nat) ->
  exists vs, queries evs heval g is_pref (new_ctx w0) is = Ok (map enc vs) /\
    evalall evs hv g is_pref is vs.
Proof.
  intros evs W heval g p hv J Hd Hw Hg HJ Hb w0 is HJ0 Hin.
  assert (Hc : cache_ok evs W g p hv J (new_ctx w0)) by (split; auto).
  revert Hc. generalize (new_ctx w0). revert Hin. induction is as [|i r IH]; intros Hin c Hc.
  - exists []. split; [reflexivity|constructor].
  - specialize (Hin i (or_introl eq_refl)) as Hi. destruct (denot_total evs hv g p Hd (S i) i) as [v Hv]; [lia|auto|].
    assert (Hg1 : g <> -1) by lia.
    destruct (get_result_spec evs W heval g p hv J Hd HJ Hb Hg1 (S (length evs)) c i v Hc) as (e & c' & E & Hc' & Ev); [lia|auto|].
    cbn [queries]. rewrite E. cbn [bind]. destruct (IH (fun j Hj => Hin j (or_intror Hj)) c' Hc') as (vs & Evs & Ha).
    rewrite Evs. cbn [bind]. exists (v :: vs). split; [now rewrite Ev|now constructor].
Qed.
Print Assumptions C48_combining_evaluators.

(** Dead ends are only claimed reliable when a heuristic that is itself reliable reports one. *)
Theorem C48_reliable_dead_ends : forall evs hv g is_pref hrel fuel i,
  (forall j c, nth_error evs j = Some (NConst c) -> c <> INFTY) ->
  reliable evs hrel fuel i = true -> evalsto evs hv g is_pref i None ->
  exists k, hrel k = true /\ hv k = None.
Proof.
  intros evs hv g p hrel fuel i Hcst. revert i. induction fuel as [|n IH]; intros i; [discriminate|]. cbn [reliable].
  intros Hr Hv.
  assert (A : forall l vs, evalall evs hv g p l vs -> forallb (reliable evs hrel n) l = true ->
     existsb (fun v : option Z => match v with None => true | _ => false end) vs = true -> exists k, hrel k = true /\ hv k = None).
  { induction 1 as [|j l [z|] vs Hj _ IHl]; cbn [forallb existsb orb]; intros Hf Hx; [discriminate| |];
      apply andb_true_iff in Hf; destruct Hf as [Hf1 Hf2]; [apply IHl; auto|apply (IH j); auto]. }
  enough (Q : forall v, evalsto evs hv g p i v -> v = None -> exists k, hrel k = true /\ hv k = None) by eauto. clear Hv. intros v Hv.
  inversion Hv as [? k E|? E|? E|? z E|? l vs E Ha|? l vs E Ha|? j w v1 E H1]; subst v; intros Ev; rewrite E in Hr; try discriminate.
  - eauto.
  - specialize (Hcst i z E). destruct (Z.eqb_spec z INFTY); [contradiction|discriminate].
  - unfold combined in Ev. destruct (existsb _ vs) eqn:Ex; [|discriminate]. exact (A l vs Ha Hr Ex).
  - unfold combined in Ev. destruct (existsb _ vs) eqn:Ex; [|discriminate]. exact (A l vs Ha Hr Ex).
  - destruct v1; [discriminate|]. apply (IH j); auto.
Qed.
Print Assumptions C48_reliable_dead_ends.

(** The range condition is needed: a sum of two finite values that hits INT_MAX exactly is
    reported as an infinite value, and as a reliable dead end; one more is a signed overflow. *)
Theorem C48_sum_saturates_refuted :
  let evs c := [NConst 2147483646; NConst c; NSum [0%nat; 1%nat]] in
  exists c, c <> INFTY /\
    queries (evs c) (fun _ (_ : unit) => UB) 0 false (new_ctx tt) [0%nat; 1%nat; 2%nat] = Ok [2147483646; c; INFTY] /\
    reliable (evs c) (fun _ => false) 3 2 = true /\
    queries (evs (c + 1)) (fun _ (_ : unit) => UB) 0 false (new_ctx tt) [2%nat] = UB.
Proof. exists 1. splits; [vm_compute; discriminate|vm_compute; reflexivity|vm_compute; reflexivity|vm_compute; reflexivity]. Qed.
Print Assumptions C48_sum_saturates_refuted.

Definition ex_evs : list evnode := [NHeur 0; NG; NPref; NWeight 0 3; NSum [1%nat; 3%nat]; NMax [4%nat; 2%nat; 0%nat]; NHeur 1; NMax [5%nat; 6%nat]; NSum []].
Definition ex_heval (k : nat) (w : nat) : outcome (eresult * nat) :=
  Ok ({| r_value := if (k =? 0)%nat then 7 else INFTY; r_pref := []; r_count := true |}, S w).
Definition ex_hv (k : nat) : option Z := if (k =? 0)%nat then Some 7 else None.
Example C48_nonvacuous :
  dag_ok ex_evs /\ (forall k w, True -> exists r w', ex_heval k w = Ok (r, w') /\ True /\ r_value r = enc (ex_hv k)) /\
  (forall i z, evalsto ex_evs ex_hv 5 true i (Some z) -> 0 <= z < INFTY) /\
  queries ex_evs ex_heval 5 true (new_ctx 0%nat) [7; 8; 5; 4; 3; 2; 1; 0]%nat = Ok [INFTY; 0; 26; 26; 21; 0; 5; 7].
Proof.
  splits.
  - intros i n H j Hj. do 9 (destruct i as [|i]; [cbn in H; inversion H; subst n; cbn in Hj; lia|]). destruct i; discriminate.
  - intros k w _. unfold ex_heval, ex_hv. do 2 eexists. split; [reflexivity|]. split; auto. cbn [r_value]. destruct (k =? 0)%nat; auto.
  - assert (D : forall i v, evalsto ex_evs ex_hv 5 true i v -> forall z, v = Some z -> 0 <= z < INFTY).
    { assert (E : forall i, evalsto ex_evs ex_hv 5 true i (nth i [Some 7; Some 5; Some 0; Some 21; Some 26; Some 26; None; None; Some 0] None) \/ (9 <= i)%nat).
      { assert (H0 : evalsto ex_evs ex_hv 5 true 0 (Some 7)) by (apply (ev_heur ex_evs ex_hv 5 true 0 0); reflexivity).
        assert (H1 : evalsto ex_evs ex_hv 5 true 1 (Some 5)) by (apply ev_g; reflexivity).
        assert (H2 : evalsto ex_evs ex_hv 5 true 2 (Some 0)) by (apply (ev_pref ex_evs ex_hv 5 true 2); reflexivity).
        assert (H3 : evalsto ex_evs ex_hv 5 true 3 (Some 21)) by (apply (ev_weight ex_evs ex_hv 5 true 3 0 3 (Some 7)); [reflexivity|auto]).
        assert (H4 : evalsto ex_evs ex_hv 5 true 4 (Some 26)) by (apply (ev_sum ex_evs ex_hv 5 true 4 [1%nat; 3%nat] [Some 5; Some 21]); [reflexivity|repeat (constructor; auto)]).
        assert (H5 : evalsto ex_evs ex_hv 5 true 5 (Some 26)) by (apply (ev_max ex_evs ex_hv 5 true 5 [4%nat; 2%nat; 0%nat] [Some 26; Some 0; Some 7]); [reflexivity|repeat (constructor; auto)]).
        assert (H6 : evalsto ex_evs ex_hv 5 true 6 None) by (apply (ev_heur ex_evs ex_hv 5 true 6 1); reflexivity).
        assert (H7 : evalsto ex_evs ex_hv 5 true 7 None) by (apply (ev_max ex_evs ex_hv 5 true 7 [5%nat; 6%nat] [Some 26; None]); [reflexivity|repeat (constructor; auto)]).
        assert (H8 : evalsto ex_evs ex_hv 5 true 8 (Some 0)) by (apply (ev_sum ex_evs ex_hv 5 true 8 [] []); [reflexivity|constructor]).
        intros i. do 9 (destruct i as [|i]; [left; assumption|]). right; lia. }
      intros i v Hv z ->. destruct (E i) as [Hi|Hi].
      - pose proof (denot_fun _ _ _ _ _ _ Hi _ Hv) as Heq. clear - Heq.
        do 9 (destruct i as [|i]; [cbn in Heq; inversion Heq; subst; unfold INFTY, INT_MAX; lia|]). destruct i; discriminate.
      - assert (nth_error ex_evs i = None) by (apply nth_error_None; exact Hi). inversion Hv; congruence. }
    intros i z H. exact (D i _ H z eq_refl).
  - vm_compute. reflexivity.
Qed.

(* ---- C37, C38 ---- *)
Lemma fold_min_spec : forall l m, (forall op, In op l -> Z.of_nat (op_cost op) <= INT_MAX) ->
  let r := fold_left (fun m op => Z.min m (Z.of_nat (op_cost op))) l m in
  r <= m /\ (forall op, In op l -> r <= Z.of_nat (op_cost op)) /\ (r = m \/ exists op, In op l /\ r = Z.of_nat (op_cost op)).
Proof.
  induction l as [|op l IH]; intros m H; cbn zeta; cbn [fold_left].
  - splits; [lia|intros op []|auto].
  - destruct (IH (Z.min m (Z.of_nat (op_cost op)))) as (A & B & C); [intros; apply H; now right|]. cbn zeta in A, B, C. splits.
    + lia.
    + intros o [->|Ho]; [lia|auto].
    + destruct C as [C|(o & Ho & C)]; [|right; exists o; split; [right; exact Ho|exact C]].
      destruct (Z.min_spec m (Z.of_nat (op_cost op))) as [[_ E]|[_ E]]; [left|right; exists op; split; [left; reflexivity|]]; rewrite C; exact E.
Qed.

(** Operator costs are read as [int]s. *)
Definition int_costs (t : task) : Prop := forall op, In op (t_ops t) -> Z.of_nat (op_cost op) <= INT_MAX.

Theorem C37_blind : forall t s, int_costs t ->
  (goal_state t s -> blind t s = 0) /\
  (~ goal_state t s ->
     (forall op, In op (t_ops t) -> blind t s <= Z.of_nat (op_cost op)) /\
     (t_ops t <> [] -> exists op, In op (t_ops t) /\ blind t s = Z.of_nat (op_cost op))) /\
  (* never overestimates *)
  (forall os, task_plan_from t s os -> blind t s <= Z.of_nat (plan_cost t os)) /\
  (* consistent *)
  (forall o op s', nth_error (t_ops t) o = Some op -> applicable t s o -> progress t s o s' ->
     blind t s <= Z.of_nat (op_cost op) + blind t s').
Proof.
  intros t s Hi.
  assert (Hg : forall s, is_goalb t s = true <-> goal_state t s) by (intros; apply all_holdb_spec).
  assert (Hm : 0 <= min_operator_cost t).
  { destruct (fold_min_spec (t_ops t) INT_MAX Hi) as (_ & _ & [C|(op & _ & C)]); unfold min_operator_cost; rewrite C; [unfold INT_MAX|]; lia. }
  destruct (fold_min_spec (t_ops t) INT_MAX Hi) as (A & B & C). fold (min_operator_cost t) in A, B, C.
  assert (Hs : forall s, blind t s <= min_operator_cost t) by (intros s0; unfold blind; destruct (is_goalb t s0); lia).
  assert (Hs0 : forall s, 0 <= blind t s) by (intros s0; unfold blind; destruct (is_goalb t s0); lia).
  splits.
  - intros H. unfold blind. now rewrite (proj2 (Hg s) H).
  - intros H. unfold blind. destruct (is_goalb t s) eqn:E; [apply Hg in E; contradiction|]. split; auto.
    intros Hne. destruct C as [C|C]; auto. destruct (t_ops t) as [|op l] eqn:Eo; [congruence|].
    exists op. split; [now left|]. specialize (B op (or_introl eq_refl)). specialize (Hi op). rewrite Eo in Hi. specialize (Hi (or_introl eq_refl)). lia.
  - intros os (s' & Hp & Hgs). destruct Hp as [s|s o s1 os s' Ha Hpr Hp].
    + unfold blind. rewrite (proj2 (Hg s) Hgs). lia.
    + unfold plan_cost. cbn [map list_sum]. change (list_sum ?l) with (fold_right Nat.add 0%nat l). cbn [fold_right].
      destruct Ha as (op & Eo & _). rewrite Eo. specialize (Hs s). specialize (B op (nth_error_In _ _ Eo)). lia.
  - intros o op s' Eo _ _. specialize (Hs s). specialize (B op (nth_error_In _ _ Eo)). specialize (Hs0 s'). lia.
Qed.
Print Assumptions C37_blind.

Example C37_nonvacuous : int_costs relax_ex /\ ~ goal_state relax_ex [0; 0]%nat /\ blind relax_ex [0; 0]%nat = 1 /\
  blind relax_ex [2; 1]%nat = 0.
Proof.
  splits.
  - intros op. cbn [t_ops relax_ex In]. intros H. decompose [or] H; try contradiction; subst op; cbn [op_cost]; unfold INT_MAX; lia.
  - intros H. apply all_holdb_spec in H. vm_compute in H. discriminate.
  - vm_compute. reflexivity.
  - vm_compute. reflexivity.
Qed.

(** The goal count is the number of goal facts the state does not satisfy. *)
Theorem C38_goalcount : forall t s,
  goalcount t s = Z.of_nat (length (filter (fun f => negb (holdsb s f)) (t_goal t))) /\
  (forall f, negb (holdsb s f) = true <-> ~ holds s f) /\
  (goalcount t s = 0 <-> goal_state t s).
Proof.
  intros t s.
  assert (A : forall l n, fold_left (fun n f => if holdsb s f then n else n + 1) l n = n + Z.of_nat (length (filter (fun f => negb (holdsb s f)) l))).
  { induction l as [|f l IH]; intros n; cbn [fold_left filter]; [cbn; lia|]. rewrite IH. destruct (holdsb s f); cbn [negb length]; lia. }
  unfold goalcount. rewrite A. splits.
  - lia.
  - intros f. rewrite negb_true_iff. split.
    + intros H Hh. apply holdsb_spec in Hh. congruence.
    + intros H. destruct (holdsb s f) eqn:E; auto. apply holdsb_spec in E. contradiction.
  - unfold goal_state. rewrite <- all_holdb_spec. unfold all_holdb. rewrite forallb_forall. split.
    + intros H f Hf. destruct (holdsb s f) eqn:E; auto.
      assert (In f (filter (fun f => negb (holdsb s f)) (t_goal t))) as Hin by (apply filter_In; rewrite E; auto).
      destruct (filter _ _); [destruct Hin|cbn in H; lia].
    + intros H. destruct (filter _ _) as [|f l] eqn:E; [reflexivity|].
      assert (In f (f :: l)) as Hin by now left. rewrite <- E in Hin. apply filter_In in Hin. destruct Hin as [Hin Hn]. rewrite (H f Hin) in Hn. discriminate.
Qed.
Print Assumptions C38_goalcount.
Example C38_nonvacuous : goalcount ex_task [0; 0; 0; 0; 1]%nat = 2 /\ goalcount ex_task [2; 0; 0; 0; 1]%nat = 1 /\ goalcount ex_task [2; 0; 0; 0; 0]%nat = 0.
Proof. splits; vm_compute; reflexivity. Qed.

(* ---- C51 ---- *)
(** The cost of a plan with transformed operator costs. *)
Fixpoint adapted_plan_cost (ct : cost_type) (t : task) (os : list nat) : outcome Z :=
  match os with
  | [] => Ok 0
  | o :: r => let* c := adapted_cost ct t o false in let* d := adapted_plan_cost ct t r in Ok (c + d)
  end.

Theorem C51_cost_types : forall t,
  (forall op, In op (t_ops t) -> Z.of_nat (op_cost op) < INT_MAX) ->
  (forall o op, nth_error (t_ops t) o = Some op ->
     adapted_cost NORMAL t o false = Ok (Z.of_nat (op_cost op)) /\
     adapted_cost ONE t o false = Ok 1 /\
     ((forall op', In op' (t_ops t) -> op_cost op' = 1%nat) -> adapted_cost PLUSONE t o false = Ok 1) /\
     ((exists op', In op' (t_ops t) /\ op_cost op' <> 1%nat) -> adapted_cost PLUSONE t o false = Ok (Z.of_nat (op_cost op) + 1))) /\
  (forall ct r, adapted_cost ct t r true = Ok 0) /\
  (forall os, (forall o, In o os -> (o < length (t_ops t))%nat) ->
     adapted_plan_cost NORMAL t os = Ok (Z.of_nat (plan_cost t os)) /\
     adapted_plan_cost ONE t os = Ok (Z.of_nat (length os)) /\
     ((forall op', In op' (t_ops t) -> op_cost op' = 1%nat) -> adapted_plan_cost PLUSONE t os = Ok (Z.of_nat (length os))) /\
     ((exists op', In op' (t_ops t) /\ op_cost op' <> 1%nat) ->
        adapted_plan_cost PLUSONE t os = Ok (Z.of_nat (plan_cost t os) + Z.of_nat (length os)))).
Proof.
  intros t Hi.
  assert (U1 : (forall op', In op' (t_ops t) -> op_cost op' = 1%nat) -> is_unit_cost t = true).
  { intros H. apply forallb_forall. intros op Ho. apply Nat.eqb_eq. auto. }
  assert (U2 : (exists op', In op' (t_ops t) /\ op_cost op' <> 1%nat) -> is_unit_cost t = false).
  { intros (op & Ho & Hc). destruct (is_unit_cost t) eqn:E; auto. unfold is_unit_cost in E. rewrite forallb_forall in E. apply E in Ho. apply Nat.eqb_eq in Ho. contradiction. }
  assert (One : forall o op, nth_error (t_ops t) o = Some op ->
     adapted_cost NORMAL t o false = Ok (Z.of_nat (op_cost op)) /\
     adapted_cost ONE t o false = Ok 1 /\
     ((forall op', In op' (t_ops t) -> op_cost op' = 1%nat) -> adapted_cost PLUSONE t o false = Ok 1) /\
     ((exists op', In op' (t_ops t) /\ op_cost op' <> 1%nat) -> adapted_cost PLUSONE t o false = Ok (Z.of_nat (op_cost op) + 1))).
  { intros o op Eo. unfold adapted_cost, vget. rewrite Eo. cbn [bind]. splits; auto.
    - intros H. now rewrite (U1 H).
    - intros H. rewrite (U2 H). specialize (Hi op (nth_error_In _ _ Eo)). rewrite (proj2 (Z.leb_le _ INT_MAX)) by lia. reflexivity. }
  splits; auto.
  induction os as [|o r IH]; intros Ho.
  - cbn. splits; auto.
  - destruct (nth_error (t_ops t) o) as [op|] eqn:Eo; [|apply nth_error_None in Eo; specialize (Ho o (or_introl eq_refl)); lia].
    destruct (One o op Eo) as (A & B & C & D). destruct IH as (A' & B' & C' & D'); [intros; apply Ho; now right|].
    assert (Ep : plan_cost t (o :: r) = (op_cost op + plan_cost t r)%nat) by (unfold plan_cost; cbn [map list_sum]; rewrite Eo; reflexivity).
    rewrite Ep. cbn [adapted_plan_cost length]. rewrite A, B, A', B'. cbn [bind]. splits.
    + f_equal; lia.
    + f_equal; lia.
    + intros H. rewrite (C H), (C' H). cbn [bind]. f_equal; lia.
    + intros H. rewrite (D H), (D' H). cbn [bind]. f_equal; lia.
Qed.
Print Assumptions C51_cost_types.
Example C51_nonvacuous :
  (forall op, In op (t_ops ex_task) -> Z.of_nat (op_cost op) < INT_MAX) /\
  (exists op', In op' (t_ops ex_task) /\ op_cost op' <> 1%nat) /\
  adapted_plan_cost PLUSONE ex_task [0; 1; 0]%nat = Ok 9.
Proof.
  splits.
  - cbn [t_ops ex_task In]. intros op [<-|[<-|[]]]; cbn [op_cost]; unfold INT_MAX; lia.
  - eexists. split; [left; reflexivity|cbn; lia].
  - vm_compute. reflexivity.
Qed.

(* ---- C58 ---- *)
Definition is_int (z : Z) : Prop := INT_MIN <= z <= INT_MAX.

Lemma within a b l : 0 <= a -> 0 < b -> 0 <= l -> (a <=? Z.quot l b) = (a * b <=? l).
Proof.
  intros Ha Hb Hl. rewrite Z.quot_div_nonneg by lia. destruct (Z.leb_spec (a * b) l) as [H|H].
  - apply Z.leb_le. apply Z.div_le_lower_bound; lia.
  - apply Z.leb_gt. apply Z.div_lt_upper_bound; lia.
Qed.

Theorem C58_is_product_within_limit : forall a b limit, is_int a -> is_int b -> is_int limit ->
  0 <= a -> 0 <= b -> 0 <= limit -> is_product_within_limit a b limit = Ok (a * b <=? limit).
Proof.
  intros a b l _ _ _ Ha Hb Hl. unfold is_product_within_limit. apply Z.leb_le in Ha, Hb, Hl. rewrite Ha, Hb, Hl. cbn [guard bind].
  apply Z.leb_le in Ha, Hb, Hl. destruct (Z.eqb_spec b 0) as [->|Hb0].
  - rewrite Z.mul_0_r. apply Z.leb_le in Hl. now rewrite Hl.
  - unfold cdiv. destruct (Z.eqb_spec b 0); [lia|]. cbn [bind]. rewrite within by lia. reflexivity.
Qed.

Lemma safe_abs_spec x : is_int x -> safe_abs x = Ok (Z.abs x).
Proof.
  unfold is_int, safe_abs, INT_MIN, INT_MAX. intros H. destruct (Z.eqb_spec x (-2147483648)) as [->|Hx]; [reflexivity|].
  destruct (Z.ltb_spec x 0); [|f_equal; lia]. rewrite (proj2 (Z.leb_le (-x) 2147483647)) by lia. cbn [guard bind]. f_equal. lia.
Qed.

Theorem C58_is_product_within_limits : forall a b lower upper, is_int a -> is_int b -> is_int lower -> is_int upper ->
  lower < 0 -> 0 <= upper -> is_product_within_limits a b lower upper = Ok ((lower <=? a * b) && (a * b <=? upper)).
Proof.
  intros a b lo up Ia Ib Il Iu Hlo Hup. unfold is_product_within_limits.
  rewrite (proj2 (Z.ltb_lt _ _) Hlo), (proj2 (Z.leb_le _ _) Hup). cbn [guard bind].
  assert (U : forall x y l, 0 <= x -> 0 <= y -> 0 <= l -> is_product_within_limit_unsigned x y l = Ok (x * y <=? l)).
  { intros x y l Hx Hy Hl. unfold is_product_within_limit_unsigned. destruct (Z.eqb_spec y 0) as [->|].
    - rewrite Z.mul_0_r. now rewrite (proj2 (Z.leb_le _ _) Hl).
    - unfold cdiv. destruct (Z.eqb_spec y 0); [lia|]. cbn [bind]. now rewrite within by lia. }
  destruct (Z.leb_spec 0 a) as [Ha|Ha], (Z.leb_spec 0 b) as [Hb|Hb]; cbn [andb].
  - rewrite C58_is_product_within_limit by auto. rewrite (proj2 (Z.leb_le lo (a * b))) by nia. reflexivity.
  - rewrite (proj2 (Z.ltb_ge a 0)) by lia. cbn [andb]. rewrite !safe_abs_spec by auto. cbn [bind]. rewrite U by lia. f_equal.
    rewrite (Z.abs_eq a), (Z.abs_neq b), (Z.abs_neq lo) by lia.
    rewrite (proj2 (Z.leb_le (a * b) up)) by nia. rewrite andb_true_r.
    apply Bool.eq_true_iff_eq. rewrite !Z.leb_le. nia.
  - rewrite (proj2 (Z.ltb_lt a 0)), (proj2 (Z.ltb_ge b 0)) by lia. cbn [andb]. rewrite !safe_abs_spec by auto. cbn [bind]. rewrite U by lia. f_equal.
    rewrite (Z.abs_neq a), (Z.abs_eq b), (Z.abs_neq lo) by lia.
    rewrite (proj2 (Z.leb_le (a * b) up)) by nia. rewrite andb_true_r.
    apply Bool.eq_true_iff_eq. rewrite !Z.leb_le. nia.
  - rewrite (proj2 (Z.ltb_lt a 0)), (proj2 (Z.ltb_lt b 0)) by lia. cbn [andb]. rewrite !safe_abs_spec by auto. cbn [bind]. rewrite U by lia. f_equal.
    rewrite (Z.abs_neq a), (Z.abs_neq b) by lia.
    rewrite (proj2 (Z.leb_le lo (a * b))) by nia. cbn [andb]. f_equal. lia.
Qed.
Print Assumptions C58_is_product_within_limit.
Print Assumptions C58_is_product_within_limits.
Example C58_nonvacuous :
  is_product_within_limits 65536 32768 (-1) INT_MAX = Ok false /\ is_product_within_limits 65536 (-32768) INT_MIN 0 = Ok true /\
  is_product_within_limits INT_MIN INT_MIN INT_MIN INT_MAX = Ok false /\ is_product_within_limit 46340 46340 INT_MAX = Ok true.
Proof. splits; vm_compute; reflexivity. Qed.

(** The evaluator computes the stratified model. *)
From Coq Require Import Permutation.
From Verif Require Import Outcome Spec_Task Model_Task Proof_Task Model_Axioms.

Definition memf (f : fact) (P : list fact) : bool := if in_dec fact_dec f P then true else false.
Lemma memf_true f P : memf f P = true <-> In f P.
Proof. unfold memf. destruct (in_dec fact_dec f P); split; auto; discriminate. Qed.
Lemma memf_false f P : memf f P = false <-> ~ In f P.
Proof. unfold memf. destruct (in_dec fact_dec f P); split; auto; try discriminate. intros H; contradiction. Qed.

(** Number of facts of a body (with repetitions) outside [P]. *)
Definition missing (P body : list fact) : nat := length (filter (fun f => negb (memf f P)) body).

Lemma missing_nil body : missing [] body = length body.
Proof. unfold missing. induction body as [|f b IH]; simpl; auto. Qed.
Lemma missing_zero P body : missing P body = 0 <-> forall f, In f body -> In f P.
Proof.
  unfold missing. induction body as [|f b IH]; simpl.
  - split; [intros _ f []|auto].
  - destruct (memf f P) eqn:E; simpl.
    + apply memf_true in E. rewrite IH. split; intros H; [intros g [<-|Hg]; auto | intros g Hg; auto].
    + apply memf_false in E. split; [discriminate | intros H; elim E; auto].
Qed.
Lemma missing_cons l P body : ~ In l P -> missing P body = missing (l :: P) body + count_occ fact_dec body l.
Proof.
  intros Hl. unfold missing. induction body as [|f b IH]; [reflexivity|].
  cbn [filter count_occ].
  destruct (fact_dec f l) as [->|Hne].
  - rewrite (proj2 (memf_false l P) Hl), (proj2 (memf_true l (l :: P))) by (left; auto). cbn [negb length]. lia.
  - destruct (memf f P) eqn:E.
    + apply memf_true in E. rewrite (proj2 (memf_true f (l :: P))) by (right; auto). cbn [negb]. exact IH.
    + apply memf_false in E. rewrite (proj2 (memf_false f (l :: P))) by (intros [H|H]; congruence).
      cbn [negb length]. lia.
Qed.

Section Build.
Variable t : task.
Hypothesis Ht : task_ok t.

Record ax_ok (ax : axeval) : Prop := {
  ok_lits : forall f, fact_ok t f -> exists row rids, nth_error (ax_lits ax) (fst f) = Some row /\
    nth_error row (snd f) = Some rids /\
    forall i, count_occ Nat.eq_dec rids i =
      match nth_error (t_rules t) i with Some r => count_occ fact_dec (r_body r) f | None => 0 end;
  ok_rules : ax_rules ax = map (fun r => {| ar_count := length (r_body r); ar_var := fst (r_head r); ar_val := snd (r_head r) |}) (t_rules t);
  ok_nbf_len : length (ax_nbf ax) = num_layers (t_vars t);
  ok_nbf : forall k row, nth_error (ax_nbf ax) k = Some row -> S k < num_layers (t_vars t) ->
    NoDup row /\ forall v, In v row <-> layer_of t v = Some k;
  ok_def : ax_defaults ax = map (fun x => match vlayer x with Some _ => Some (vdefault x) | None => None end) (t_vars t)
}.

Definition lits_at (lits : list (list (list nat))) (f : fact) (rids : list nat) : Prop :=
  exists row, nth_error lits (fst f) = Some row /\ nth_error row (snd f) = Some rids.

Lemma push_condition_ok rid lits f c : lits_at lits f c ->
  exists lits', push_condition rid lits f = Ok lits' /\ lits_at lits' f (c ++ [rid]) /\
    (forall g d, g <> f -> lits_at lits g d -> lits_at lits' g d).
Proof.
  intros (row & H1 & H2). unfold push_condition.
  rewrite (proj2 (vget_ok _ _ _) H1). cbn [bind]. rewrite (proj2 (vget_ok _ _ _) H2). cbn [bind].
  pose proof (nth_error_Some_lt _ _ _ H1). pose proof (nth_error_Some_lt _ _ _ H2).
  eexists; split; [apply vset_ok; split; eauto|]. split.
  - exists (upd row (snd f) (c ++ [rid])). split; apply upd_nth_eq; auto.
  - intros g d Hg (row' & G1 & G2). unfold lits_at.
    destruct (Nat.eq_dec (fst f) (fst g)) as [E|E].
    + rewrite <- E in *. rewrite H1 in G1. inv G1.
      exists (upd row' (snd f) (c ++ [rid])). split; [apply upd_nth_eq; auto|].
      rewrite upd_nth_neq; auto. intros E2. apply Hg. destruct f, g; simpl in *; congruence.
    + exists row'. split; auto. rewrite upd_nth_neq; auto.
Qed.

Lemma count_occ_repeat_app rid n c i :
  count_occ Nat.eq_dec (c ++ repeat rid n) i = count_occ Nat.eq_dec c i + if Nat.eq_dec rid i then n else 0.
Proof.
  rewrite count_occ_app. f_equal. induction n as [|n IH]; simpl; [destruct (Nat.eq_dec rid i); auto|].
  rewrite IH. destruct (Nat.eq_dec rid i); auto.
Qed.

Lemma push_conditions_ok rid body : forall lits,
  Forall (fact_ok t) body -> (forall f, fact_ok t f -> exists c, lits_at lits f c) ->
  exists lits', fold_outcome (push_condition rid) body lits = Ok lits' /\
    forall f c, fact_ok t f -> lits_at lits f c -> lits_at lits' f (c ++ repeat rid (count_occ fact_dec body f)).
Proof.
  induction body as [|g body IH]; intros lits Hb Hl.
  - exists lits; split; [reflexivity|]. intros f c _ H. simpl. now rewrite app_nil_r.
  - inv Hb. destruct (Hl g) as (c & Hc); auto.
    destruct (push_condition_ok rid lits g c Hc) as (l1 & E1 & A1 & B1).
    cbn [fold_outcome]. rewrite E1. cbn [bind].
    destruct (IH l1) as (l2 & E2 & A2); auto.
    { intros f Hf. destruct (fact_dec f g) as [->|Hne]; eauto.
      destruct (Hl f Hf) as (d & Hd). eauto. }
    exists l2; split; auto. intros f d Hf Hd. cbn [count_occ].
    destruct (fact_dec g f) as [->|Hne].
    + assert (d = c). { destruct Hd as (r1 & X1 & X2), Hc as (r2 & Y1 & Y2). congruence. }
      subst d. specialize (A2 f _ Hf A1). rewrite <- app_assoc in A2. exact A2.
    + apply A2; auto.
Qed.

Lemma cross_ref_ok rs : forall rid lits,
  Forall (fun r => Forall (fact_ok t) (r_body r)) rs -> (forall f, fact_ok t f -> exists c, lits_at lits f c) ->
  exists lits', cross_ref rs rid lits = Ok lits' /\
    forall f c, fact_ok t f -> lits_at lits f c -> exists c', lits_at lits' f c' /\
      forall i, count_occ Nat.eq_dec c' i = count_occ Nat.eq_dec c i +
        if i <? rid then 0 else match nth_error rs (i - rid) with Some r => count_occ fact_dec (r_body r) f | None => 0 end.
Proof.
  induction rs as [|r rs IH]; intros rid lits Hr Hl.
  - exists lits; split; [reflexivity|]. intros f c _ H. exists c; split; auto. intros i.
    destruct (i - rid); simpl; destruct (i <? rid); lia.
  - inv Hr. cbn [cross_ref].
    destruct (push_conditions_ok rid (r_body r) lits) as (l1 & E1 & A1); auto.
    rewrite E1. cbn [bind].
    destruct (IH (S rid) l1) as (l2 & E2 & A2); auto.
    { intros f Hf. destruct (Hl f Hf) as (c & Hc). eauto. }
    exists l2; split; auto. intros f c Hf Hc.
    destruct (A2 f _ Hf (A1 f c Hf Hc)) as (c' & B1 & B2).
    exists c'; split; auto. intros i. rewrite B2, count_occ_repeat_app.
    destruct (Nat.eq_dec rid i) as [->|Hne].
    + rewrite (proj2 (Nat.ltb_lt i (S i))), Nat.ltb_irrefl, Nat.sub_diag by lia. simpl. lia.
    + destruct (Nat.ltb_spec i (S rid)), (Nat.ltb_spec i rid); try lia.
      replace (i - rid) with (S (i - S rid)) by lia. simpl. lia.
Qed.

Lemma num_layers_ge vars n : forall v x k, nth_error vars v = Some x -> vlayer x = Some k ->
  S k <= fold_left (fun n x => match vlayer x with Some k => Nat.max n (S k) | None => n end) vars n.
Proof.
  assert (M : forall vars n, n <= fold_left (fun n x => match vlayer x with Some k => Nat.max n (S k) | None => n end) vars n).
  { induction vars0 as [|y ys IH]; intros m; simpl; auto. destruct (vlayer y); auto.
    etransitivity; [|apply IH]. lia. }
  revert n; induction vars as [|y ys IH]; intros n [|v] x k Hv Hk; simpl in *; try discriminate.
  - inv Hv. rewrite Hk. etransitivity; [|apply M]. lia.
  - eapply IH; eauto.
Qed.
Lemma layer_lt v k : layer_of t v = Some k -> k < num_layers (t_vars t).
Proof.
  intros H. destruct (layer_of_some _ _ _ H) as (x & Hx & Hk).
  exact (num_layers_ge (t_vars t) 0 v x k Hx Hk).
Qed.

Lemma fill_nbf_ok n vars : forall v0 nbf,
  length nbf = n -> (forall v x k, nth_error vars v = Some x -> vlayer x = Some k -> k < n) ->
  (forall k row, nth_error nbf k = Some row -> NoDup row /\ forall v, In v row -> v < v0) ->
  exists nbf', fill_nbf vars v0 n nbf = Ok nbf' /\ length nbf' = n /\
    forall k row, nth_error nbf k = Some row -> S k < n -> exists row', nth_error nbf' k = Some row' /\ NoDup row' /\
      forall v, In v row' <-> In v row \/ (v0 <= v /\ exists x, nth_error vars (v - v0) = Some x /\ vlayer x = Some k).
Proof.
  induction vars as [|x vars IH]; intros v0 nbf Hl Hv Hn.
  - exists nbf; splits; auto. intros k row Hk _. exists row; splits; auto; [apply (Hn _ _ Hk)|].
    intros v; split; auto. intros [H|(_ & x & H & _)]; auto. destruct (v - v0); discriminate.
  - cbn [fill_nbf].
    assert (exists nbf1, match vlayer x with
        | Some k => if S k =? n then Ok nbf else let* row := vget nbf k in vset nbf k (row ++ [v0])
        | None => Ok nbf end = Ok nbf1 /\ length nbf1 = n /\
       (forall k row, nth_error nbf1 k = Some row -> NoDup row /\ forall v, In v row -> v < S v0) /\
       (forall k row, nth_error nbf k = Some row -> S k < n -> exists row1, nth_error nbf1 k = Some row1 /\
          forall v, In v row1 <-> In v row \/ (v = v0 /\ vlayer x = Some k))) as (nbf1 & E1 & L1 & N1 & R1).
    { assert (W : forall k row, nth_error nbf k = Some row -> NoDup row /\ forall v, In v row -> v < S v0).
      { intros k row Hk. destruct (Hn k row Hk) as [A B]. split; auto. intros v V. apply B in V; lia. }
      destruct (vlayer x) as [k|] eqn:Ek.
      - destruct (Nat.eqb_spec (S k) n).
        + exists nbf; splits; auto. intros k' row Hk Hk'. exists row; split; auto.
          intros v; split; auto. intros [|[_ H]]; auto. inv H. lia.
        + assert (Hk : k < n) by (apply (Hv 0 x k); auto).
          destruct (vget_some nbf k) as (row & R1 & R2); [lia|]. rewrite R2. cbn [bind].
          eexists; split; [apply vset_ok; split; [lia|reflexivity]|]. rewrite upd_length. splits; auto.
          * intros k' row' H'. rewrite upd_nth in H'.
            destruct (Nat.eqb_spec k k') as [->|]; simpl in H'; [|apply (W _ _ H')].
            rewrite (proj2 (Nat.ltb_lt k' (length nbf))) in H' by lia. inv H'.
            destruct (Hn k' row R1) as [A B]. split.
            -- clear - A B.
               induction row as [|a row IH]; simpl; [repeat constructor; auto|].
               inv A. constructor.
               ++ rewrite in_app_iff; simpl. intros [H|[H|[]]]; auto. subst.
                  specialize (B a (or_introl eq_refl)). lia.
               ++ apply IH; auto. intros v V. apply B. right; auto.
            -- intros v V. rewrite in_app_iff in V. destruct V as [V|[<-|[]]]; [apply B in V|]; lia.
          * intros k' row' H' Hk'. rewrite upd_nth.
            destruct (Nat.eqb_spec k k') as [->|Hne]; simpl.
            -- rewrite (proj2 (Nat.ltb_lt k' (length nbf))) by lia. rewrite R1 in H'. inv H'.
               eexists; split; [reflexivity|]. intros v. rewrite in_app_iff; simpl. intuition.
            -- exists row'; split; auto. intros v; split; auto. intros [|[_ H]]; auto. congruence.
      - exists nbf; splits; auto. intros k row Hk Hk'. exists row; split; auto.
        intros v; split; auto. intros [|[_ H]]; auto. discriminate. }
    rewrite E1. cbn [bind].
    destruct (IH (S v0) nbf1) as (nbf2 & E2 & L2 & R2); auto.
    { intros v y k Hy. apply (Hv (S v)); auto. }
    exists nbf2; splits; auto. intros k row Hk Hk'.
    destruct (R1 k row Hk Hk') as (row1 & A1 & B1).
    destruct (R2 k row1 A1 Hk') as (row2 & A2 & N2 & B2).
    exists row2; splits; auto. intros v. rewrite B2, B1. split.
    + intros [[H|[-> H]]|(H & y & Y1 & Y2)]; auto.
      * right; split; auto. exists x. rewrite Nat.sub_diag. auto.
      * right; split; [lia|]. exists y. replace (v - v0) with (S (v - S v0)) by lia. auto.
    + intros [H|(H & y & Y1 & Y2)]; auto.
      destruct (Nat.eq_dec v v0) as [->|Hne].
      * rewrite Nat.sub_diag in Y1. inv Y1. auto.
      * right; split; [lia|]. exists y. replace (v - v0) with (S (v - S v0)) in Y1 by lia. auto.
Qed.

Lemma make_rules_ok lits rs : (forall f, fact_ok t f -> exists c, lits_at lits f c) -> Forall (rule_ok t) rs ->
  make_rules t lits rs = Ok (map (fun r => {| ar_count := length (r_body r); ar_var := fst (r_head r); ar_val := snd (r_head r) |}) rs).
Proof.
  intros Hl. induction 1 as [|r rs Hr Hrs IH]; [reflexivity|].
  cbn [make_rules map]. unfold make_rule.
  destruct Hr as (_ & Hh & x & k & Hx & _ & Hd & _).
  destruct (Hl _ Hh) as (c & row & R1 & R2).
  rewrite (proj2 (vget_ok _ _ _) R1). cbn [bind]. rewrite (proj2 (vget_ok _ _ _) R2). cbn [bind].
  rewrite (proj2 (vget_ok _ _ _) Hx). cbn [bind]. rewrite (proj2 (Nat.eqb_neq _ _) Hd). cbn [negb guard bind].
  rewrite IH. reflexivity.
Qed.

Lemma make_axeval_ok : exists ax, make_axeval t = Ok ax /\ ax_has ax = has_rules t /\
  (has_rules t = true -> ax_ok ax).
Proof.
  unfold make_axeval. destruct (has_rules t) eqn:Eh; [|eexists; splits; [reflexivity|reflexivity|discriminate]].
  destruct Ht as (_ & _ & Hr & _ & _).
  set (lits0 := map (fun x => repeat [] (vdom x)) (t_vars t)).
  assert (L0 : forall f, fact_ok t f -> lits_at lits0 f []).
  { intros f (x & Hx & Hd). exists (repeat [] (vdom x)). split.
    - unfold lits0. erewrite map_nth_error; eauto.
    - clear - Hd. revert Hd. generalize (snd f). induction (vdom x); intros [|m] H; simpl; try lia; auto.
      apply IHn; lia. }
  rewrite (make_rules_ok lits0) by eauto. cbn [bind].
  destruct (cross_ref_ok (t_rules t) 0 lits0) as (lits & E1 & A1); eauto.
  { eapply Forall_impl; [|exact Hr]. intros r (H & _); auto. }
  rewrite E1. cbn [bind].
  destruct (fill_nbf_ok (num_layers (t_vars t)) (t_vars t) 0 (repeat [] (num_layers (t_vars t)))) as (nbf & E2 & L2 & R2).
  { apply repeat_length. }
  { intros v x k Hx Hk. apply (layer_lt v). unfold layer_of. now rewrite Hx. }
  { intros k row Hk. apply nth_error_In, repeat_spec in Hk. subst. split; [constructor | intros v []]. }
  rewrite E2. cbn [bind]. eexists; splits; [reflexivity|reflexivity|]. intros _.
  constructor; simpl; auto.
  - intros f Hf. destruct (A1 f [] Hf (L0 f Hf)) as (c' & (row & C1 & C2) & C3).
    exists row, c'. splits; auto. intros i. rewrite C3. simpl. rewrite Nat.sub_0_r. reflexivity.
  - intros k row Hk Hkn.
    destruct (R2 k []) as (row' & B1 & B2 & B3); auto.
    { clear - Hkn. assert (H : k < num_layers (t_vars t)) by lia. revert H. clear Hkn. generalize (num_layers (t_vars t)).
      intros n; revert k; induction n; intros [|k] H; simpl; try lia; auto. apply IHn; lia. }
    rewrite Hk in B1. inv B1. split; auto. intros v. rewrite B3. simpl.
    rewrite Nat.sub_0_r. unfold layer_of. split.
    + intros [[]|(_ & x & X1 & X2)]. now rewrite X1.
    + destruct (nth_error (t_vars t) v) as [x|]; [|discriminate]. intros H. right; split; [lia|]. eauto.
Qed.
End Build.

Definition option_eq_dec_nat (a b : option nat) : {a = b} + {a <> b}.
Proof. decide equality; apply Nat.eq_dec. Defined.

Section Eval.
Variable t : task.
Hypothesis Ht : task_ok t.
Variable ax : axeval.
Hypothesis Hax : ax_ok t ax.

Definition relevant (L : nat) (f : fact) : Prop :=
  exists x, is_var t (fst f) x /\
    match vlayer x with None => True | Some k => snd f <> vdefault x \/ k < L end.

Lemma relevant_mono L L' f : L <= L' -> relevant L f -> relevant L' f.
Proof. intros H (x & Hx & Hr). exists x; split; auto. destruct (vlayer x); auto. destruct Hr; auto; right; lia. Qed.

Definition rule_at (i : nat) (r : rule) : Prop := nth_error (t_rules t) i = Some r.

Lemma rule_at_ok i r : rule_at i r -> rule_ok t r.
Proof. intros H. destruct Ht as (_ & _ & Hr & _). rewrite Forall_forall in Hr. apply Hr. eapply nth_error_In; eauto. Qed.

(** the invariant; [R] are the pending visits of the literal being processed *)
Record inv_eval (s0 : state) (L : nat) (P : list fact) (R : list nat) (st : axstate) : Prop := {
  i_state : state_ok t (xs_state st);
  i_basic : forall v, layer_of t v = None -> nth_error (xs_state st) v = nth_error s0 v;
  i_ulen : length (xs_unsat st) = length (t_rules t);
  i_unsat : forall i r, rule_at i r ->
    nth_error (xs_unsat st) i = Some (Z.of_nat (missing P (r_body r) + count_occ Nat.eq_dec R i));
  i_nodup : NoDup (xs_queue st ++ P);
  i_marked : forall f, In f (xs_queue st ++ P) <-> holds (xs_state st) f /\ relevant L f;
  i_fired : forall i r, rule_at i r -> missing P (r_body r) = 0 -> count_occ Nat.eq_dec R i = 0 -> holds (xs_state st) (r_head r);
  i_closed : forall r k, In r (t_rules t) -> layer_of t (fst (r_head r)) = Some k -> k < L ->
    all_hold (xs_state st) (r_body r) -> holds (xs_state st) (r_head r);
  i_sound : forall s', (forall f, In f (xs_queue st ++ P) -> holds s' f) ->
    forall v x k d, is_var t v x -> vlayer x = Some k -> d <> vdefault x -> holds (xs_state st) (v, d) -> supported t s' k v d
}.

Lemma derived_binary v x k : is_var t v x -> vlayer x = Some k -> forall d d', d < vdom x -> d' < vdom x ->
  d <> vdefault x -> d' <> vdefault x -> d = d'.
Proof.
  intros Hx Hk d d' H1 H2 H3 H4. destruct Ht as (Hv & _). rewrite Forall_forall in Hv.
  destruct (Hv x) as (_ & A & B); [eapply nth_error_In; eauto|]. rewrite Hk in A, B. specialize (A ltac:(discriminate)).
  assert (vdom x = 2) by (apply B; discriminate). lia.
Qed.

Lemma nth_rules i r : rule_at i r -> nth_error (ax_rules ax) i =
  Some {| ar_count := length (r_body r); ar_var := fst (r_head r); ar_val := snd (r_head r) |}.
Proof. intros H. rewrite (ok_rules _ _ Hax). erewrite map_nth_error; eauto. Qed.

(** Firing a rule whose body is processed. *)
Lemma fire_ok s0 L P R st i r :
  inv_eval s0 L P R st -> rule_at i r -> missing P (r_body r) = 0 ->
  exists sq, fire {| ar_count := length (r_body r); ar_var := fst (r_head r); ar_val := snd (r_head r) |}
      (xs_state st) (xs_queue st) = Ok sq /\
    length (snd sq) <= S (length (xs_queue st)) /\
    holds (fst sq) (r_head r) /\
    inv_eval s0 L P R {| xs_unsat := xs_unsat st; xs_state := fst sq; xs_queue := snd sq |}.
Proof.
  intros I Hr Hm. destruct I as [Is Ib Iul Iu In_ Im If Ic Isd].
  pose proof (rule_at_ok _ _ Hr) as (Hbody & Hhead & x & k & Hx & Hk & Hnd & Hlay).
  rewrite missing_zero in Hm. unfold fire. cbn [ar_var ar_val].
  destruct (r_head r) as [v d] eqn:Eh. cbn [fst snd] in *.
  destruct (state_ok_get _ _ _ _ Is Hx) as (d0 & Hd0 & Hd0r).
  unfold holds in Hd0; cbn [fst snd] in Hd0.
  rewrite (proj2 (vget_ok _ _ _) Hd0). cbn [bind].
  destruct (Nat.eqb_spec d0 d) as [->|Hne].
  { eexists; splits; [reflexivity|simpl; lia|exact Hd0|]. cbn [fst snd].
    destruct st; constructor; auto. }
  pose proof (nth_error_Some_lt _ _ _ Hd0) as Hlt.
  rewrite (proj2 (vset_ok _ _ _ _) (conj Hlt eq_refl)). cbn [bind].
  eexists; splits; [reflexivity|simpl; lia| unfold holds; cbn [fst snd]; apply upd_nth_eq; auto|].
  cbn [fst snd].
  assert (Hdr : d < vdom x). { destruct Hhead as (x' & X1 & X2). cbn in X1, X2. unfold is_var in *. rewrite Hx in X1. inv X1. auto. }
  assert (Hd0def : d0 = vdefault x).
  { destruct (Nat.eq_dec d0 (vdefault x)); auto. elim Hne. eapply derived_binary; eauto. }
  assert (HkL : L <= k).
  { destruct (Nat.le_gt_cases L k) as [|Hlt2]; auto. exfalso. apply Hne.
    assert (holds (xs_state st) (v, d)).
    { rewrite <- Eh. apply (Ic r k).
      - eapply nth_error_In; eauto.
      - rewrite Eh. cbn. rewrite (layer_of_var _ _ _ Hx). auto.
      - auto.
      - intros f Hf. apply (proj1 (Im f)). apply in_app_iff. right. apply Hm; auto. }
    unfold holds in H; cbn in H. congruence. }
  assert (Hother : forall u e, u <> v -> holds (upd (xs_state st) v d) (u, e) <-> holds (xs_state st) (u, e)).
  { intros u e Hu. unfold holds; cbn. rewrite upd_nth_neq by auto. reflexivity. }
  assert (Hv1 : forall e, holds (upd (xs_state st) v d) (v, e) <-> e = d).
  { intros e. unfold holds; cbn. rewrite upd_nth_eq by auto. split; congruence. }
  assert (Hmv : forall e, ~ In (v, e) (xs_queue st ++ P)).
  { intros e He. apply Im in He. destruct He as [He (x' & X1 & X2)]. cbn in X1, X2.
    unfold is_var in *. rewrite Hx in X1. inv X1. rewrite Hk in X2.
    unfold holds in He; cbn in He. destruct X2 as [X2|X2]; [congruence | lia]. }
  constructor; cbn [xs_state xs_unsat xs_queue]; auto.
  - eapply state_ok_upd; eauto.
  - intros u Hu. rewrite upd_nth_neq; auto. intros <-. rewrite (layer_of_var _ _ _ Hx) in Hu. congruence.
  - simpl. constructor; auto.
  - intros [u e]. cbn [app In]. split.
    + intros [E|E].
      * inv E. split; [apply Hv1; auto|]. exists x; cbn; split; auto. rewrite Hk. auto.
      * destruct (Nat.eq_dec u v) as [->|Hne2]; [elim (Hmv _ E)|].
        apply Im in E. destruct E; split; auto. apply Hother; auto.
    + intros [E1 E2]. destruct (Nat.eq_dec u v) as [->|Hne2].
      * apply Hv1 in E1. subst; auto.
      * right. apply Im. split; auto. apply Hother in E1; auto.
  - intros j q Hq Hqm Hc. specialize (If j q Hq Hqm Hc). destruct (r_head q) as [u e] eqn:Eq.
    destruct (Nat.eq_dec u v) as [->|Hne2]; [|apply Hother; auto].
    exfalso. unfold holds in If; cbn in If.
    pose proof (rule_at_ok _ _ Hq) as (_ & _ & x' & k' & X1 & X2 & X3 & _). rewrite Eq in *. cbn in *.
    unfold is_var in *. congruence.
  - intros q kq Hq Hkq HkqL Hall.
    destruct (r_head q) as [u e] eqn:Eq. cbn [fst] in Hkq.
    assert (u <> v). { intros ->. rewrite (layer_of_var _ _ _ Hx) in Hkq. rewrite Hk in Hkq. inv Hkq. lia. }
    apply Hother; auto. rewrite <- Eq. apply (Ic q kq); auto; [rewrite Eq; auto|].
    intros [w y] Hw. specialize (Hall _ Hw).
    destruct (Nat.eq_dec w v) as [->|Hne2]; [|apply Hother in Hall; auto].
    exfalso. destruct Ht as (_ & _ & Hrs & _). rewrite Forall_forall in Hrs.
    destruct (Hrs q Hq) as (_ & _ & x' & k' & X1 & X2 & X3 & X4). rewrite Eq in *. cbn in *.
    destruct (X4 v y Hw x k Hx Hk) as [A _].
    rewrite (layer_of_var _ _ _ X1) in Hkq. rewrite X2 in Hkq. inv Hkq. lia.
  - intros s' Hs' u x' k' e Hx' Hk' He Hue.
    assert (Hs'' : forall f, In f (xs_queue st ++ P) -> holds s' f) by (intros f Hf; apply Hs'; simpl; auto).
    destruct (Nat.eq_dec u v) as [->|Hne2].
    + apply Hv1 in Hue. subst e. unfold is_var in *. rewrite Hx in Hx'. inv Hx'. rewrite Hk in Hk'. inv Hk'.
      eapply (supported_rule _ _ _ r); eauto.
      * eapply nth_error_In; eauto.
      * rewrite (layer_of_var _ _ _ Hx). auto.
      * intros w y Hw Hlw. destruct (layer_of_some _ _ _ Hlw) as (xw & W1 & W2).
        destruct (Hlay w y Hw xw k' W1 W2) as [_ A].
        eapply (Isd s' Hs''); eauto. apply (proj1 (Im (w, y))). apply in_app_iff. right. apply Hm; auto.
      * intros w y Hw _. apply Hs''. apply in_app_iff. right. apply Hm; auto.
    + apply Hother in Hue; auto. eapply (Isd s' Hs''); eauto.
Qed.

(** Number of rules whose counter is still positive. *)
Definition pending (u : list Z) : nat := length (filter (fun n => 0 <? n)%Z u).
Lemma pending_le u : pending u <= length u.
Proof. unfold pending. induction u as [|n u IH]; simpl; auto. destruct (0 <? n)%Z; simpl; lia. Qed.
Lemma pending_upd u i n : nth_error u i = Some n -> (0 < n)%Z ->
  pending (upd u i (n - 1)%Z) + (if (n - 1 =? 0)%Z then 1 else 0) = pending u.
Proof.
  unfold pending. revert i; induction u as [|m u IH]; intros [|i] H Hn; simpl in *; try discriminate.
  - inv H. destruct (Z.eqb_spec (n - 1) 0).
    + replace n with 1%Z by lia. simpl. lia.
    + rewrite (proj2 (Z.ltb_lt 0 (n - 1))), (proj2 (Z.ltb_lt 0 n)) by lia. cbn [length]. lia.
  - specialize (IH i H Hn). destruct (0 <? m)%Z; simpl; lia.
Qed.

Lemma visit_ok s0 L P rids : forall st,
  (forall i, In i rids -> i < length (t_rules t)) -> inv_eval s0 L P rids st ->
  exists st', fold_outcome (visit_rule ax) rids st = Ok st' /\ inv_eval s0 L P [] st' /\
    length (xs_queue st') + pending (xs_unsat st') <= length (xs_queue st) + pending (xs_unsat st).
Proof.
  induction rids as [|i rids IH]; intros st Hi I; [exists st; splits; auto|].
  cbn [fold_outcome].
  destruct (nth_error (t_rules t) i) as [r|] eqn:Er; [|apply nth_error_None in Er; specialize (Hi i (or_introl eq_refl)); lia].
  pose proof (i_unsat _ _ _ _ _ I i r Er) as Hu. cbn [count_occ] in Hu.
  destruct (Nat.eq_dec i i) as [_|C]; [|congruence].
  set (m := missing P (r_body r) + count_occ Nat.eq_dec rids i) in *.
  assert (Hlt : i < length (xs_unsat st)) by (eapply nth_error_Some_lt; eauto).
  unfold visit_rule at 1. rewrite (proj2 (vget_ok _ _ _) Hu). cbn [bind].
  rewrite (proj2 (vset_ok _ _ _ _) (conj Hlt eq_refl)). cbn [bind].
  set (n := Z.of_nat (missing P (r_body r) + S (count_occ Nat.eq_dec rids i))) in *.
  assert (Hn : (n - 1)%Z = Z.of_nat m) by (unfold n, m; lia).
  pose proof (pending_upd _ _ _ Hu ltac:(unfold n; lia)) as Hpd.
  (* invariant after the decrement, provided the rule is taken care of *)
  assert (J : forall sq, length (snd sq) <= S (length (xs_queue st)) -> (m <> 0 -> sq = (xs_state st, xs_queue st)) ->
     inv_eval s0 L P (i :: rids) {| xs_unsat := xs_unsat st; xs_state := fst sq; xs_queue := snd sq |} ->
     (m = 0 -> holds (fst sq) (r_head r)) ->
     inv_eval s0 L P rids {| xs_unsat := upd (xs_unsat st) i (n - 1)%Z; xs_state := fst sq; xs_queue := snd sq |}).
  { intros sq _ Hsq [Is Ib Iul Iu In_ Im If Ic Isd] Hh. constructor; cbn [xs_state xs_unsat xs_queue] in *; auto.
    - rewrite upd_length; auto.
    - intros j q Hq. rewrite upd_nth. destruct (Nat.eqb_spec i j) as [<-|Hne]; simpl.
      + rewrite (proj2 (Nat.ltb_lt i (length (xs_unsat st)))) by auto.
        unfold rule_at in Hq. rewrite Er in Hq. inv Hq. rewrite Hn. reflexivity.
      + rewrite (Iu j q Hq). cbn [count_occ]. destruct (Nat.eq_dec i j); [congruence|]. reflexivity.
    - intros j q Hq Hqm Hc. destruct (Nat.eq_dec i j) as [<-|Hne].
      + unfold rule_at in Hq. rewrite Er in Hq. inv Hq. apply Hh. unfold m. lia.
      + apply (If j q Hq Hqm). cbn [count_occ]. destruct (Nat.eq_dec i j); [congruence|]. auto. }
  assert (Hi' : forall j, In j rids -> j < length (t_rules t)) by (intros; apply Hi; right; auto).
  destruct (Z.eqb_spec (n - 1) 0) as [E0|E0].
  - assert (Hm0 : m = 0) by lia.
    rewrite (proj2 (vget_ok _ _ _) (nth_rules i r Er)). cbn [bind].
    destruct (fire_ok s0 L P (i :: rids) st i r I Er) as (sq & F1 & F2 & F3 & F4); [unfold m in Hm0; lia|].
    rewrite F1. cbn [bind].
    destruct (IH {| xs_unsat := upd (xs_unsat st) i (n - 1)%Z; xs_state := fst sq; xs_queue := snd sq |} Hi') as (st' & G1 & G2 & G3).
    { apply J; auto. congruence. }
    exists st'; splits; auto. cbn [xs_queue xs_unsat] in G3. lia.
  - cbn [bind].
    destruct (IH {| xs_unsat := upd (xs_unsat st) i (n - 1)%Z; xs_state := xs_state st; xs_queue := xs_queue st |} Hi') as (st' & G1 & G2 & G3).
    { apply (J (xs_state st, xs_queue st)); cbn [fst snd]; auto.
      - destruct st; auto.
      - intros Hm0. lia. }
    exists st'; splits; auto. cbn [xs_queue xs_unsat] in G3. lia.
Qed.

Lemma horn_ok s0 L : forall fuel P st, inv_eval s0 L P [] st ->
  length (xs_queue st) + pending (xs_unsat st) < fuel ->
  exists st' P', horn_loop fuel ax st = Ok st' /\ inv_eval s0 L P' [] st' /\ xs_queue st' = [].
Proof.
  induction fuel as [|fuel IH]; intros P st I Hf; [lia|].
  cbn [horn_loop]. destruct (xs_queue st) as [|l q] eqn:Eq; [exists st, P; auto|].
  assert (Hl : In l (xs_queue st ++ P)) by (rewrite Eq; simpl; auto).
  pose proof (proj1 (i_marked _ _ _ _ _ I l) Hl) as [Hlh (x & Hx & _)].
  assert (Hlok : fact_ok t l).
  { destruct l as [v d]. destruct (state_ok_var _ _ _ _ (i_state _ _ _ _ _ I) Hlh) as (x' & X1 & X2). exists x'; auto. }
  destruct (ok_lits _ _ Hax l Hlok) as (row & rids & R1 & R2 & R3).
  rewrite (proj2 (vget_ok _ _ _) R1). cbn [bind]. rewrite (proj2 (vget_ok _ _ _) R2). cbn [bind].
  pose proof (i_nodup _ _ _ _ _ I) as Hnd. rewrite Eq in Hnd. cbn [app] in Hnd.
  assert (HlP : ~ In l P) by (inv Hnd; rewrite in_app_iff in *; tauto).
  destruct (visit_ok s0 L (l :: P) rids {| xs_unsat := xs_unsat st; xs_state := xs_state st; xs_queue := q |}) as (st' & V1 & V2 & V3).
  - intros i Hi. destruct (nth_error (t_rules t) i) eqn:E; [eapply nth_error_Some_lt; eauto|].
    specialize (R3 i). rewrite E in R3. apply (count_occ_In Nat.eq_dec) in Hi. lia.
  - destruct I as [Is Ib Iul Iu In_ Im If Ic Isd]. rewrite Eq in *.
    assert (Hsame : forall f, In f (q ++ l :: P) <-> In f ((l :: q) ++ P)).
    { intros f. rewrite !in_app_iff. simpl. tauto. }
    constructor; cbn [xs_state xs_unsat xs_queue]; auto.
    + intros i r Hr. rewrite (Iu i r Hr), R3, Hr. rewrite (missing_cons l P) by auto.
      cbn [count_occ]. do 2 f_equal. lia.
    + eapply Permutation_NoDup; [|exact In_]. simpl. apply Permutation_middle.
    + intros f. rewrite Hsame. apply Im.
    + intros i r Hr Hm Hc. apply (If i r Hr); auto. rewrite (missing_cons l P) by auto.
      rewrite R3, Hr in Hc. lia.
    + intros s' Hs'. apply Isd. intros f Hf2. apply Hs'. apply Hsame. auto.
  - rewrite V1. cbn [bind]. apply (IH _ _ V2). cbn [xs_queue xs_unsat length] in *. lia.
Qed.

(** At the end of a layer all rules for heads up to that layer are closed. *)
Lemma layer_done s0 L P st : inv_eval s0 L P [] st -> xs_queue st = [] ->
  forall r k, In r (t_rules t) -> layer_of t (fst (r_head r)) = Some k -> k < S L ->
    all_hold (xs_state st) (r_body r) -> holds (xs_state st) (r_head r).
Proof.
  intros I Eq r k Hr Hk HkL Hall.
  destruct (In_nth_error _ _ Hr) as (i & Hi).
  apply (i_fired _ _ _ _ _ I i r Hi); [|reflexivity].
  apply missing_zero. intros [v d] Hf.
  pose proof (i_marked _ _ _ _ _ I (v, d)) as Hm. rewrite Eq in Hm. cbn [app] in Hm. apply Hm.
  specialize (Hall _ Hf). split; auto.
  destruct (state_ok_var _ _ _ _ (i_state _ _ _ _ _ I) Hall) as (x & Hx & _).
  exists x; split; auto. destruct (vlayer x) as [k'|] eqn:Ek; auto. cbn [snd].
  destruct (rule_at_ok _ _ Hi) as (_ & _ & y & ky & Y1 & Y2 & _ & Hlay).
  rewrite (layer_of_var _ _ _ Y1) in Hk. rewrite Y2 in Hk. inv Hk.
  destruct (Hlay v d Hf x k' Hx Ek) as [A B].
  destruct (Nat.eq_dec k' k) as [->|]; [left; auto | right; lia].
Qed.

Lemma push_defaults_ok L P row : forall st,
  NoDup row -> (forall v, In v row -> layer_of t v = Some L) ->
  (* generalised invariant: defaults of layer L are marked unless still to come *)
  state_ok t (xs_state st) -> NoDup (xs_queue st ++ P) ->
  (forall v d, In v row -> In (v, d) (xs_queue st ++ P) -> exists x, is_var t v x /\ d <> vdefault x) ->
  exists st', fold_outcome (push_default ax) row st = Ok st' /\
    xs_unsat st' = xs_unsat st /\ xs_state st' = xs_state st /\ NoDup (xs_queue st' ++ P) /\
    (forall f, In f (xs_queue st' ++ P) <-> In f (xs_queue st ++ P) \/
       (In (fst f) row /\ holds (xs_state st) f /\ exists x, is_var t (fst f) x /\ snd f = vdefault x)).
Proof.
  induction row as [|v row IH]; intros st Hnd Hlay Hs Hq Hnew.
  - exists st; splits; auto. intros f. simpl. tauto.
  - cbn [fold_outcome]. inv Hnd.
    destruct (layer_of_some _ _ _ (Hlay v (or_introl eq_refl))) as (x & Hx & Hk).
    assert (Hd : nth_error (ax_defaults ax) v = Some (Some (vdefault x))).
    { rewrite (ok_def _ _ Hax). erewrite map_nth_error; [|exact Hx]. now rewrite Hk. }
    unfold push_default at 1. rewrite (proj2 (vget_ok _ _ _) Hd). cbn [bind].
    destruct (state_ok_get _ _ _ _ Hs Hx) as (d & Hvd & _). pose proof Hvd as Hvd'.
    unfold holds in Hvd; cbn [fst snd] in Hvd. rewrite (proj2 (vget_ok _ _ _) Hvd). cbn [bind].
    assert (Hlay' : forall u, In u row -> layer_of t u = Some L) by (intros; apply Hlay; right; auto).
    destruct (Nat.eqb_spec d (vdefault x)) as [->|Hne]; cbn [bind].
    + destruct (IH {| xs_unsat := xs_unsat st; xs_state := xs_state st; xs_queue := (v, vdefault x) :: xs_queue st |}) as (st' & A1 & A2 & A3 & A4 & A5); cbn [xs_unsat xs_state xs_queue]; auto.
      * simpl. constructor; auto. intros C. destruct (Hnew v _ (or_introl eq_refl) C) as (x' & X1 & X2).
        unfold is_var in *. congruence.
      * intros u e Hu [E|E]; [inv E; contradiction|]. apply (Hnew u e); auto. right; auto.
      * exists st'; splits; auto. intros f. rewrite A5. cbn [xs_queue xs_state app In]. split.
        -- intros [[<-|H]|(H & H' & H'')]; auto. right. cbn. splits; auto. exists x; auto.
        -- intros [H|([E|H] & H' & H'')]; auto.
           left; left. destruct f as [w e]. cbn in E, H''. subst w. destruct H'' as (x' & X1 & X2).
           unfold is_var in *. rewrite Hx in X1. inv X1. reflexivity.
    + destruct (IH st) as (st' & A1 & A2 & A3 & A4 & A5); auto.
      { intros u e Hu He. apply (Hnew u e); auto. right; auto. }
      exists st'; splits; auto. intros f. rewrite A5. simpl. split.
      * intros [H|(H & H' & H'')]; auto.
      * intros [H|([E|H] & H' & H'')]; auto.
        exfalso. destruct f as [w e]. cbn in *. subst w. destruct H'' as (x' & X1 & X2).
        unfold is_var in *. rewrite Hx in X1. inv X1. apply Hne. unfold holds in H'; cbn in H'. congruence.
Qed.

Lemma layers_ok s0 : forall n L P st, L + n = num_layers (t_vars t) -> n > 0 ->
  inv_eval s0 L P [] st ->
  exists st' P' L', layers_loop n L ax st = Ok st' /\ xs_queue st' = [] /\ inv_eval s0 L' P' [] st' /\
    (forall r k, In r (t_rules t) -> layer_of t (fst (r_head r)) = Some k ->
       all_hold (xs_state st') (r_body r) -> holds (xs_state st') (r_head r)).
Proof.
  induction n as [|n IH]; intros L P st HL Hn I; [lia|].
  cbn [layers_loop].
  destruct (horn_ok s0 L (S (length (xs_queue st) + length (ax_rules ax))) P st I) as (st1 & P1 & H1 & I1 & Q1).
  { pose proof (pending_le (xs_unsat st)). rewrite (i_ulen _ _ _ _ _ I) in H.
    rewrite (ok_rules _ _ Hax), map_length. lia. }
  rewrite H1. cbn [bind].
  destruct (Nat.eqb_spec n 0) as [->|Hn0].
  - cbn [bind layers_loop]. exists st1, P1, L; splits; auto.
    intros r k Hr Hk Hall. apply (layer_done _ _ _ _ I1 Q1 r k); auto.
    apply layer_lt in Hk. lia.
  - destruct (vget_some (ax_nbf ax) L) as (row & R1 & R2); [rewrite (ok_nbf_len _ _ Hax); lia|].
    rewrite R2. cbn [bind].
    destruct (ok_nbf _ _ Hax L row R1) as [Rn Rv]; [lia|].
    destruct (push_defaults_ok L P1 row st1) as (st2 & A1 & A2 & A3 & A4 & A5); auto.
    { intros v Hv; apply Rv; auto. }
    { apply (i_state _ _ _ _ _ I1). }
    { apply (i_nodup _ _ _ _ _ I1). }
    { intros v d Hv Hf. apply (i_marked _ _ _ _ _ I1) in Hf. destruct Hf as [Hf (x & Hx & Hrel)].
      exists x; split; auto. cbn in Hx, Hrel. apply Rv in Hv. rewrite (layer_of_var _ _ _ Hx) in Hv. rewrite Hv in Hrel.
      destruct Hrel; [auto|lia]. }
    rewrite A1. cbn [bind]. apply (IH (S L) P1); [lia|lia|].
    pose proof (layer_done _ _ _ _ I1 Q1) as Hdone.
    destruct I1 as [Is Ib Iul Iu In_ Im If Ic Isd].
    constructor; rewrite ?A2, ?A3; auto.
    + intros [v d]. rewrite A5, Im. cbn [fst snd]. split.
      * intros [[H H']|(H & H' & x & Hx & Hd)].
        -- split; auto. eapply relevant_mono; [|exact H']. lia.
        -- split; auto. apply Rv in H. exists x; split; auto. rewrite (layer_of_var _ _ _ Hx) in H. rewrite H. right; lia.
      * intros [H (x & Hx & Hrel)]. cbn [fst snd] in *. destruct (vlayer x) as [k|] eqn:Ek.
        -- destruct (Nat.eq_dec d (vdefault x)) as [->|Hne].
           ++ destruct Hrel as [Hrel|Hrel]; [congruence|].
              destruct (Nat.eq_dec k L) as [->|].
              ** right. splits; auto; [apply Rv; rewrite (layer_of_var _ _ _ Hx); auto | exists x; auto].
              ** left. split; auto. exists x; split; auto. rewrite Ek. right; lia.
           ++ left. split; auto. exists x; split; auto. rewrite Ek. left; auto.
        -- left. split; auto. exists x; split; auto. rewrite Ek. auto.
    + intros s' Hs'. apply Isd. intros f Hf. apply Hs'. apply A5. auto.
Qed.

(** Initial part. *)
Lemma init_queue_ok : forall ds v s q,
  (forall i, nth_error (ax_defaults ax) (v + i) = nth_error ds i) ->
  state_ok t s -> NoDup q ->
  (forall f, In f q <-> holds s f /\ layer_of t (fst f) = None /\ fst f < v) ->
  exists s' q', init_queue ax ds v s q = Ok (s', q') /\ state_ok t s' /\ NoDup q' /\
    (forall u, layer_of t u = None -> nth_error s' u = nth_error s u) /\
    (forall u x, is_var t u x -> vlayer x <> None -> v <= u -> holds s' (u, vdefault x)) /\
    (forall u, u < v -> nth_error s' u = nth_error s u) /\
    (forall f, In f q' <-> holds s' f /\ layer_of t (fst f) = None).
Proof.
  induction ds as [|d ds IH]; intros v s q Hd Hs Hq Hqs.
  - exists s, q. assert (Hlen : length (t_vars t) <= v).
    { specialize (Hd 0). rewrite Nat.add_0_r in Hd. simpl in Hd. apply nth_error_None in Hd.
      rewrite (ok_def _ _ Hax), map_length in Hd. auto. }
    splits; auto.
    + intros u x Hx _ Hu. apply nth_error_Some_lt in Hx. lia.
    + intros f. rewrite Hqs. split; [tauto|]. intros [H1 H2]. splits; auto.
      unfold holds in H1. apply nth_error_Some_lt in H1. rewrite (state_ok_length _ _ Hs) in H1. lia.
  - cbn [init_queue].
    pose proof (Hd 0) as Hd0. rewrite Nat.add_0_r in Hd0. cbn [nth_error] in Hd0.
    rewrite (ok_def _ _ Hax) in Hd0. rewrite nth_error_map in Hd0.
    destruct (nth_error (t_vars t) v) as [x|] eqn:Ex; [|discriminate]. cbn [option_map] in Hd0. injection Hd0 as <-.
    destruct (state_ok_get _ _ _ _ Hs Ex) as (d & Hvd & Hdr). pose proof Hvd as Hvd'.
    unfold holds in Hvd; cbn [fst snd] in Hvd. pose proof (nth_error_Some_lt _ _ _ Hvd) as Hlt.
    assert (Hd' : forall i, nth_error (ax_defaults ax) (S v + i) = nth_error ds i).
    { intros i. specialize (Hd (S i)). simpl in Hd. rewrite <- Hd. f_equal. lia. }
    destruct (vlayer x) as [k|] eqn:Ek.
    + rewrite (proj2 (vset_ok _ _ _ _) (conj Hlt eq_refl)). cbn [bind].
      assert (Hxok : variable_ok x). { destruct Ht as (Hv & _). rewrite Forall_forall in Hv. apply Hv. eapply nth_error_In; eauto. }
      destruct (IH (S v) (upd s v (vdefault x)) q) as (s' & q' & A1 & A2 & A3 & A4 & A5 & A6 & A7); auto.
      { eapply state_ok_upd; eauto. apply (proj1 (proj2 Hxok)). congruence. }
      { intros [u e]. rewrite Hqs. cbn [fst]. unfold holds; cbn [fst snd].
        destruct (Nat.eq_dec u v) as [->|Hne].
        - rewrite (layer_of_var _ _ _ Ex), Ek. split; intros (_ & H & _); discriminate.
        - rewrite upd_nth_neq by auto. split; intros (H1 & H2 & H3); splits; auto; lia. }
      exists s', q'; splits; auto.
      * intros u Hu. rewrite A4 by auto. apply upd_nth_neq. intros <-. rewrite (layer_of_var _ _ _ Ex) in Hu. congruence.
      * intros u y Hy Hly Hu. destruct (Nat.eq_dec u v) as [->|Hne].
        -- unfold is_var in Hy. rewrite Ex in Hy. inv Hy. unfold holds; cbn. rewrite A6 by lia. apply upd_nth_eq; auto.
        -- apply A5; auto. lia.
      * intros u Hu. rewrite A6 by lia. apply upd_nth_neq. lia.
    + rewrite (proj2 (vget_ok _ _ _) Hvd). cbn [bind].
      destruct (ok_lits _ _ Hax (v, d)) as (row & rids & R1 & R2 & _); [exists x; auto|]. cbn [fst snd] in R1, R2.
      rewrite (proj2 (vget_ok _ _ _) R1). cbn [bind]. rewrite (proj2 (vget_ok _ _ _) R2). cbn [bind].
      destruct (IH (S v) s ((v, d) :: q)) as (s' & q' & A1 & A2 & A3 & A4 & A5 & A6 & A7); auto.
      { constructor; auto. rewrite Hqs. cbn. intros (_ & _ & C). lia. }
      { intros [u e]. cbn [In]. rewrite Hqs. cbn [fst]. split.
        - intros [E|(H1 & H2 & H3)]; [inv E|]; splits; auto; try lia. rewrite (layer_of_var _ _ _ Ex); auto.
        - intros (H1 & H2 & H3). destruct (Nat.eq_dec u v) as [->|]; [left|right; splits; auto; lia].
          f_equal. eapply holds_fun; eauto. }
      exists s', q'; splits; auto.
      intros u y Hy Hly Hu. destruct (Nat.eq_dec u v) as [->|Hne]; [|apply A5; auto; lia].
      unfold is_var in Hy. rewrite Ex in Hy. inv Hy. congruence.
Qed.

Lemma inv_replace s0 L P R R' st U : inv_eval s0 L P R st -> length U = length (t_rules t) ->
  (forall i r, rule_at i r -> nth_error U i = Some (Z.of_nat (missing P (r_body r) + count_occ Nat.eq_dec R' i))) ->
  (forall i r, rule_at i r -> missing P (r_body r) = 0 -> count_occ Nat.eq_dec R' i = 0 -> holds (xs_state st) (r_head r)) ->
  inv_eval s0 L P R' {| xs_unsat := U; xs_state := xs_state st; xs_queue := xs_queue st |}.
Proof. intros [Is Ib Iul Iu In_ Im If Ic Isd] H1 H2 H3. constructor; auto. Qed.

(** Counters as they would be if the rules in [R] were visited once more. *)
Definition virtual (P : list fact) (R : list nat) : list Z :=
  map (fun ir => Z.of_nat (missing P (r_body (snd ir)) + count_occ Nat.eq_dec R (fst ir)))
      (combine (seq 0 (length (t_rules t))) (t_rules t)).
Lemma virtual_nth P R i r : rule_at i r ->
  nth_error (virtual P R) i = Some (Z.of_nat (missing P (r_body r) + count_occ Nat.eq_dec R i)).
Proof.
  intros H. unfold virtual. erewrite map_nth_error with (d := (i, r)); [reflexivity|].
  unfold rule_at in H. clear - H.
  assert (G : forall a l i, nth_error l i = Some r -> nth_error (combine (seq a (length l)) l) i = Some (a + i, r)).
  { intros a l; revert a; induction l as [|y l IH]; intros a [|j] Hj; simpl in *; try discriminate.
    - inv Hj. do 2 f_equal. lia.
    - rewrite (IH (S a) j Hj). do 2 f_equal. lia. }
  rewrite (G 0 _ _ H). reflexivity.
Qed.
Lemma virtual_length P R : length (virtual P R) = length (t_rules t).
Proof. unfold virtual. rewrite map_length, combine_length, seq_length. lia. Qed.

Lemma count_seq i n j : count_occ Nat.eq_dec (seq i n) j = if (i <=? j) && (j <? i + n) then 1 else 0.
Proof.
  revert i; induction n as [|n IH]; intros i; simpl.
  - destruct (Nat.leb_spec i j), (Nat.ltb_spec j (i + 0)); simpl; lia.
  - rewrite IH. destruct (Nat.eq_dec i j); destruct (Nat.leb_spec i j), (Nat.leb_spec (S i) j), (Nat.ltb_spec j (i + S n)), (Nat.ltb_spec j (S i + n)); simpl; lia.
Qed.

Lemma trivial_ok s0 : forall n i st, i + n = length (t_rules t) ->
  inv_eval s0 0 [] (seq i n) st ->
  exists sq, fold_outcome fire_trivial (skipn i (ax_rules ax)) (xs_state st, xs_queue st) = Ok sq /\
    inv_eval s0 0 [] [] {| xs_unsat := virtual [] []; xs_state := fst sq; xs_queue := snd sq |}.
Proof.
  induction n as [|n IH]; intros i st Hi I.
  - rewrite skipn_all2 by (rewrite (ok_rules _ _ Hax), map_length; lia).
    eexists; split; [reflexivity|]. cbn [fst snd]. eapply inv_replace; eauto.
    + apply virtual_length.
    + intros j r Hr. apply virtual_nth; auto.
    + apply (i_fired _ _ _ _ _ I).
  - destruct (nth_error (t_rules t) i) as [r|] eqn:Er; [|apply nth_error_None in Er; lia].
    assert (Hsk : skipn i (ax_rules ax) = {| ar_count := length (r_body r); ar_var := fst (r_head r); ar_val := snd (r_head r) |} :: skipn (S i) (ax_rules ax)).
    { pose proof (nth_rules i r Er) as Hn. clear - Hn. revert Hn. generalize (ax_rules ax). induction i as [|i IH]; intros [|a l] H; simpl in *; try discriminate.
      - inv H; auto.
      - rewrite (IH l H). destruct l; auto. }
    rewrite Hsk. cbn [fold_outcome]. unfold fire_trivial at 1. cbn [ar_count fst snd].
    assert (Hstep : forall st', inv_eval s0 0 [] (seq i (S n)) st' -> (r_body r = [] -> holds (xs_state st') (r_head r)) ->
       inv_eval s0 0 [] (seq (S i) n) {| xs_unsat := virtual [] (seq (S i) n); xs_state := xs_state st'; xs_queue := xs_queue st' |}).
    { intros st' I' Hh. eapply inv_replace; eauto.
      - apply virtual_length.
      - intros j q Hq. apply virtual_nth; auto.
      - intros j q Hq Hm Hc. destruct (Nat.eq_dec j i) as [->|Hne].
        + unfold rule_at in Hq. rewrite Er in Hq. inv Hq. apply Hh. rewrite missing_nil in Hm.
          destruct (r_body q); auto; discriminate.
        + apply (i_fired _ _ _ _ _ I' j q Hq Hm). cbn [seq count_occ]. destruct (Nat.eq_dec i j); [congruence|auto]. }
    destruct (Nat.eqb_spec (length (r_body r)) 0) as [E0|E0].
    + destruct (fire_ok s0 0 [] (seq i (S n)) st i r I Er) as (sq & F1 & _ & F3 & F4); [rewrite missing_nil; auto|].
      rewrite F1. cbn [bind]. destruct sq as [s1 q1]. cbn [fst snd] in *.
      apply (IH (S i) _ ltac:(lia) (Hstep _ F4 (fun _ => F3))).
    + cbn [bind]. apply (IH (S i) _ ltac:(lia) (Hstep st I ltac:(intros E; rewrite E in E0; simpl in E0; lia))).
Qed.

Lemma evaluate_model s : t_rules t <> [] -> ax_has ax = true -> state_ok t s ->
  exists s', evaluate ax s = Ok s' /\ state_ok t s' /\ stratified_model t s s'.
Proof.
  intros Hne Hhas Hs. unfold evaluate. rewrite Hhas.
  destruct (init_queue_ok (ax_defaults ax) 0 s []) as (s1 & q1 & A1 & A2 & A3 & A4 & A5 & _ & A7); auto.
  { constructor. }
  { intros f; split; [intros [] | intros (_ & _ & C); lia]. }
  rewrite A1. cbn [bind].
  assert (I0 : inv_eval s 0 [] (seq 0 (length (t_rules t))) {| xs_unsat := virtual [] (seq 0 (length (t_rules t))); xs_state := s1; xs_queue := q1 |}).
  { constructor; cbn [xs_state xs_unsat xs_queue]; rewrite ?app_nil_r; auto.
    - apply virtual_length.
    - intros i r Hr. apply virtual_nth; auto.
    - intros [v d]. rewrite A7. cbn [fst]. split.
      + intros [H1 H2]. split; auto. destruct (state_ok_var _ _ _ _ A2 H1) as (x & Hx & _).
        exists x; split; auto. rewrite (layer_of_var _ _ _ Hx) in H2. now rewrite H2.
      + intros [H1 (x & Hx & Hr)]. split; auto. cbn in Hx, Hr. rewrite (layer_of_var _ _ _ Hx).
        destruct (vlayer x) eqn:Ek; auto. exfalso. destruct Hr as [Hr|Hr]; [|lia].
        apply Hr. eapply holds_fun; [exact H1|]. apply A5; auto; [congruence|lia].
    - intros i r Hr _ Hc. rewrite count_seq in Hc. apply nth_error_Some_lt in Hr.
      rewrite (proj2 (Nat.leb_le 0 i)), (proj2 (Nat.ltb_lt i (0 + length (t_rules t)))) in Hc by lia. discriminate.
    - intros r k _ _ Hk. lia.
    - intros s' _ v x k d Hx Hk Hd Hh. exfalso. apply Hd. eapply holds_fun; [exact Hh|]. apply A5; auto; [congruence|lia]. }
  destruct (trivial_ok s (length (t_rules t)) 0 _ eq_refl I0) as (sq & B1 & B2).
  cbn [xs_state xs_queue skipn] in B1. rewrite B1. cbn [bind].
  assert (Hu : map (fun r => Z.of_nat (ar_count r)) (ax_rules ax) = virtual [] []).
  { apply nth_error_ext. intros i. destruct (nth_error (t_rules t) i) as [r|] eqn:Er.
    - rewrite (virtual_nth _ _ i r Er). erewrite map_nth_error; [|apply nth_rules; eauto]. cbn.
      rewrite missing_nil, Nat.add_0_r. reflexivity.
    - rewrite (proj2 (nth_error_None _ _)), (proj2 (nth_error_None _ _)); auto.
      + rewrite virtual_length. apply nth_error_None; auto.
      + rewrite map_length, (ok_rules _ _ Hax), map_length. apply nth_error_None; auto. }
  rewrite Hu.
  assert (Hpos : num_layers (t_vars t) > 0).
  { destruct (t_rules t) as [|r0 rs] eqn:Ers; [congruence|].
    destruct (rule_at_ok 0 r0) as (_ & _ & x & k & Hx & Hk & _); [unfold rule_at; rewrite Ers; auto|].
    assert (k < num_layers (t_vars t)); [|lia]. apply (layer_lt t (fst (r_head r0))). rewrite (layer_of_var _ _ _ Hx). auto. }
  rewrite (ok_nbf_len _ _ Hax).
  destruct (layers_ok s (num_layers (t_vars t)) 0 [] _ eq_refl Hpos B2) as (st' & P' & L' & C1 & C2 & C3 & C4).
  rewrite C1. cbn [bind]. rewrite C2. cbn [guard bind].
  exists (xs_state st'); splits; auto; [apply (i_state _ _ _ _ _ C3)|].
  split; [|split].
  - rewrite (state_ok_length _ _ Hs). apply state_ok_length. apply (i_state _ _ _ _ _ C3).
  - apply (i_basic _ _ _ _ _ C3).
  - intros v x k d Hx Hk Hd. split.
    + intros Hnd. apply (i_sound _ _ _ _ _ C3 (xs_state st')) with (x := x); auto.
      intros f Hf. apply (i_marked _ _ _ _ _ C3) in Hf. apply Hf.
    + intros -> d' Hd' Hsup.
      assert (G : forall u e, supported t (xs_state st') k u e -> holds (xs_state st') (u, e)).
      { intros u e Hsu. induction Hsu as [r u e Hr Heq Hlu _ IH Hother].
        rewrite <- Heq. apply (C4 r k); auto; [rewrite Heq; auto|].
        intros [w y] Hw. destruct (option_eq_dec_nat (layer_of t w) (Some k)) as [E|E]; auto. }
      apply Hd'. eapply holds_fun; [apply G; eauto | exact Hd].
Qed.
End Eval.

(** The stratified model is unique. *)
Lemma stratified_unique t s s1 s2 : task_ok t -> state_ok t s1 -> state_ok t s2 ->
  stratified_model t s s1 -> stratified_model t s s2 -> s1 = s2.
Proof.
  intros Ht Hs1 Hs2 (L1 & B1 & M1) (L2 & B2 & M2).
  assert (Hlayer : forall k v, (layer_of t v = None \/ exists k', layer_of t v = Some k' /\ k' < k) -> nth_error s1 v = nth_error s2 v).
  { induction k as [|k IH]; intros v Hv.
    - destruct Hv as [Hv|(k' & _ & C)]; [|lia]. rewrite B1, B2; auto.
    - destruct Hv as [Hv|(k' & Hv & Hk')]; [apply IH; auto|].
      destruct (Nat.eq_dec k' k) as [->|]; [|apply IH; right; exists k'; split; auto; lia].
      (* support at layer k agrees *)
      assert (Hsup : forall sa sb, (forall v, (layer_of t v = None \/ exists k', layer_of t v = Some k' /\ k' < k) -> nth_error sa v = nth_error sb v) ->
         forall u e, supported t sa k u e -> supported t sb k u e).
      { intros sa sb Hab u e H. induction H as [r u e Hr Heq Hlu _ IHs Hother].
        eapply supported_rule; eauto. intros w y Hw Hlw.
        specialize (Hother w y Hw Hlw). unfold holds in *; cbn [fst snd] in *.
        rewrite <- Hab; auto. destruct (layer_of t w) as [kw|] eqn:Ew; auto. right. exists kw; split; auto.
        destruct Ht as (_ & _ & Hrs & _). rewrite Forall_forall in Hrs.
        destruct (Hrs r Hr) as (_ & _ & x & k0 & X1 & X2 & _ & X4). rewrite Heq in X1. cbn in X1.
        rewrite (layer_of_var _ _ _ X1) in Hlu. rewrite X2 in Hlu. inv Hlu.
        destruct (layer_of_some _ _ _ Ew) as (xw & W1 & W2).
        destruct (X4 w y Hw xw kw W1 W2) as [A _].
        assert (kw <> k) by congruence. lia. }
      destruct (layer_of_some _ _ _ Hv) as (x & Hx & Hk).
      destruct (state_ok_get _ _ _ _ Hs1 Hx) as (d1 & D1 & R1), (state_ok_get _ _ _ _ Hs2 Hx) as (d2 & D2 & R2).
      assert (d1 = d2); [|subst; unfold holds in *; cbn in *; congruence].
      destruct (M1 v x k d1 Hx Hk D1) as [P1 N1], (M2 v x k d2 Hx Hk D2) as [P2 N2].
      assert (IH' : forall u, (layer_of t u = None \/ (exists k', layer_of t u = Some k' /\ k' < k)) -> nth_error s2 u = nth_error s1 u) by (intros; symmetry; auto).
      destruct (Nat.eq_dec d1 (vdefault x)) as [E1|E1], (Nat.eq_dec d2 (vdefault x)) as [E2|E2]; try congruence.
      + exfalso. apply (N1 E1 d2 E2). apply (Hsup s2 s1); auto.
      + exfalso. apply (N2 E2 d1 E1). apply (Hsup s1 s2); auto.
      + eapply derived_binary; eauto. }
  apply nth_error_ext. intros v. destruct (layer_of t v) as [k|] eqn:E.
  - apply (Hlayer (S k)). right; exists k; split; auto.
  - apply (Hlayer 0). auto.
Qed.

(** Without rules the evaluator changes nothing. *)
Lemma no_rules_model t s : t_rules t = [] ->
  (forall v x, is_var t v x -> vlayer x <> None -> holds s (v, vdefault x)) -> stratified_model t s s.
Proof.
  intros Hr Hd. split; [|split]; auto. intros v x k d Hx Hk Hh. split.
  - intros Hne. elim Hne. eapply holds_fun; [exact Hh|]. apply Hd; auto. congruence.
  - intros _ d' _ Hs. inv Hs. rewrite Hr in H. destruct H.
Qed.

Lemma evaluate_correct t : task_ok t -> exists ax, make_axeval t = Ok ax /\
  forall s, state_ok t s ->
    (t_rules t = [] -> forall v x, is_var t v x -> vlayer x <> None -> holds s (v, vdefault x)) ->
  exists s', evaluate ax s = Ok s' /\ state_ok t s' /\ stratified_model t s s' /\
    forall s'', state_ok t s'' -> stratified_model t s s'' -> s'' = s'.
Proof.
  intros Ht. destruct (make_axeval_ok t Ht) as (ax & E & Hh & Hok).
  exists ax; split; auto. intros s Hs Hd.
  destruct (t_rules t) as [|r rs] eqn:Er.
  - assert (Hm : stratified_model t s s) by (apply no_rules_model; auto).
    exists s; splits; auto.
    + unfold evaluate. rewrite Hh. unfold has_rules. now rewrite Er.
    + intros s'' H1 H2. eapply stratified_unique; eauto.
  - assert (Ht1 : has_rules t = true) by (unfold has_rules; now rewrite Er).
    destruct (evaluate_model t Ht ax (Hok Ht1) s) as (s' & A & B & C); auto; try congruence.
    exists s'; splits; auto. intros s'' H1 H2. eapply stratified_unique; eauto.
Qed.

(** The genetic generator: pruning, sizes, used variables. *)
From Coq Require Import Permutation Sorting.Sorted.
From Verif Require Import Outcome Spec_Task Spec_CausalGraph Spec_MergeStrategy Spec_PatternGenerators Spec_Genetic Model_MAS Model_CausalGraph Model_Evaluators Model_Genetic
  Proof_CausalGraph Proof_MAS1 Proof_MAA1 Proof_Pat5.
Import ListNotations.

Lemma mem_In v l : mem v l = true <-> In v l.
Proof. unfold mem. rewrite existsb_exists. split; [intros (x & H & E); apply Nat.eqb_eq in E; now subst|intros H; exists v; split; auto; apply Nat.eqb_refl]. Qed.
Lemma mem_not v l : mem v l = false <-> ~ In v l.
Proof. rewrite <- mem_In. destruct (mem v l); intuition congruence. Qed.

Lemma sorted_filter (f : nat -> bool) l : StronglySorted lt l -> StronglySorted lt (filter f l).
Proof.
  induction 1 as [|x l S IH F]; cbn [filter]; [constructor|]. destruct (f x); auto. constructor; auto. rewrite Forall_forall in *. intros y Hy. apply filter_In in Hy as [Hy _]. auto.
Qed.
Lemma nf_In bits v : In v (normal_form bits) <-> v < length bits /\ nth v bits false = true.
Proof. unfold normal_form. rewrite filter_In, in_seq. intuition lia. Qed.
Lemma nf_sorted bits : StronglySorted lt (normal_form bits).
Proof.
  unfold normal_form. apply sorted_filter. generalize 0. induction (length bits) as [|n IH]; intros k; cbn [seq]; constructor; auto.
  apply Forall_forall. intros y Hy. apply in_seq in Hy. lia.
Qed.
Lemma nf_nodup bits : NoDup (normal_form bits).
Proof. unfold normal_form. apply NoDup_filter, seq_NoDup. Qed.

Section G.
Variable t : task.
Hypothesis Ht : task_ok t.
Hypothesis Hsmall : small_domains t.
Variable limit : Z.
Hypothesis Hl : (1 <= limit <= INT_MAX)%Z.
Local Notation nv := (length (t_vars t)).
Variable cg : causal_graph.
Hypothesis Hcg : build_causal_graph t = Ok cg.

Lemma rel_ok v : v < nv -> exists l, vget (g_eff_to_pre cg) v = Ok l /\ forall u, In u l <-> pre_eff t u v.
Proof.
  intros Hv. destruct (build_exact t Ht) as (G & EG & _ & HG). assert (G = cg) as -> by congruence.
  destruct (HG v Hv) as (l1 & l2 & l3 & l4 & l5 & E1 & H1 & E2 & (_ & H2) & _). exists l2. unfold vget. rewrite E2. auto.
Qed.

Section Prune.
Variable q : list nat.
Hypothesis Hq : forall v, In v q -> v < nv.
Definition pinv (check result : list nat) : Prop :=
  incl check result /\ NoDup result /\ (forall v, In v result -> relevant_in t q v) /\
  (forall v, In v q -> goal_var t v -> In v result) /\
  (forall u v, In u result -> ~ In u check -> In v q -> pre_eff t v u -> In v result).
Lemma rel_in v : relevant_in t q v -> In v q. Proof. destruct 1; auto. Qed.

Lemma push_ok v rel : relevant_in t q v -> (forall u, In u rel -> pre_eff t u v) -> forall check result check' result',
  fold_left (fun cr u => if mem u q && negb (mem u (snd cr)) then (u :: fst cr, u :: snd cr) else cr) rel (check, result) = (check', result') ->
  incl check result -> NoDup result -> (forall v, In v result -> relevant_in t q v) ->
  incl check' result' /\ NoDup result' /\ (forall v, In v result' -> relevant_in t q v) /\ incl result result' /\ incl check check' /\
  (forall u, In u rel -> In u q -> In u result') /\ (forall u, In u result' -> ~ In u check' -> In u result) /\
  length check' + length result = length check + length result'.
Proof.
  intros Hv. induction rel as [|u rel IH]; intros Hr check result check' result' E I1 I2 I3; cbn [fold_left] in E.
  - injection E as <- <-. splits; auto; try apply incl_refl. intros u [].
  - cbn [fst snd] in E. destruct (mem u q) eqn:M1; cbn [andb] in E; [destruct (mem u result) eqn:M2; cbn [negb] in E|].
    + apply mem_In in M2. destruct (IH (fun x H => Hr x (or_intror H)) _ _ _ _ E I1 I2 I3) as (A & B & D & F & G & H & J & K). splits; auto.
      intros x [<- |Hx] Hxq; auto.
    + apply mem_In in M1. apply mem_not in M2.
      destruct (IH (fun x H => Hr x (or_intror H)) _ _ _ _ E) as (A & B & D & F & G & H & J & K).
      * intros x [<- |Hx]; [now left|right; auto].
      * constructor; auto.
      * intros x [<- |Hx]; auto. apply rel_arc with v; auto. apply Hr. now left.
      * splits; auto.
        -- intros x Hx. apply F. now right.
        -- intros x Hx. apply G. now right.
        -- intros x [<- |Hx] Hxq; auto. apply F. now left.
        -- intros x Hx Nx. destruct (J x Hx Nx) as [<- |Hx']; auto. exfalso. apply Nx, G. now left.
        -- cbn [length] in K. lia.
    + apply mem_not in M1. destruct (IH (fun x H => Hr x (or_intror H)) _ _ _ _ E I1 I2 I3) as (A & B & D & F & G & H & J & K). splits; auto.
      intros x [<- |Hx] Hxq; [contradiction|auto].
Qed.

Lemma bound result : NoDup result -> (forall v, In v result -> relevant_in t q v) -> length result <= nv.
Proof. intros N H. rewrite <- (seq_length nv 0). apply NoDup_incl_length; auto. intros v Hv. apply in_seq. pose proof (Hq v (rel_in v (H v Hv))). lia. Qed.

Lemma prune_loop_ok : forall fuel check result, pinv check result -> length check + nv < fuel + length result ->
  exists r, prune_loop fuel cg q check result = Ok r /\ NoDup r /\ forall v, In v r <-> relevant_in t q v.
Proof.
  induction fuel as [|fuel IH]; intros check result (I1 & I2 & I3 & I4 & I5) Hf; cbn [prune_loop].
  { pose proof (bound result I2 I3). lia. }
  destruct check as [|v check].
  - exists result. splits; auto. intros v. split; auto. induction 1 as [v A B|v u A B IHr D]; auto. apply (I5 u v); auto.
  - assert (Hv : relevant_in t q v) by (apply I3, I1; now left). destruct (rel_ok v (Hq v (rel_in v Hv))) as (rel & -> & Hrel). cbn [bind].
    destruct (fold_left _ rel (check, result)) as [c' r'] eqn:E.
    destruct (push_ok v rel Hv (fun u H => proj1 (Hrel u) H) _ _ _ _ E) as (A & B & D & F & G & H & J & K); auto.
    { intros x Hx. apply I1. now right. }
    apply IH; [|cbn [length] in Hf; lia]. unfold pinv. splits; auto.
    intros u w Hu Nu Hw Huw. destruct (Nat.eq_dec u v) as [-> |Hne]; [apply H; auto; now apply Hrel|].
    apply F, (I5 u w); auto. intros [X|X]; [congruence|]. apply Nu, G, X.
Qed.

Lemma prune_goals : forall gs c r c' r', fold_left (fun cr (g : fact) => if mem (fst g) q then (fst g :: fst cr, if mem (fst g) (snd cr) then snd cr else fst g :: snd cr) else cr) gs (c, r) = (c', r') ->
  (forall g, In g gs -> In g (t_goal t)) -> incl c r -> incl r c -> NoDup r -> (forall v, In v r -> relevant_in t q v) ->
  incl c' r' /\ incl r' c' /\ NoDup r' /\ (forall v, In v r' -> relevant_in t q v) /\ incl r r' /\ (forall g, In g gs -> In (fst g) q -> In (fst g) r') /\ length c' <= length c + length gs.
Proof.
  induction gs as [|g gs IH]; intros c r c' r' E Hg I1 I2 I3 I4; cbn [fold_left] in E.
  - injection E as <- <-. splits; auto; try apply incl_refl; [intros g []|lia].
  - cbn [fst snd] in E. destruct (mem (fst g) q) eqn:M.
    + apply mem_In in M. set (r1 := if mem (fst g) r then r else fst g :: r) in *.
      assert (R1 : In (fst g) r1) by (unfold r1; destruct (mem (fst g) r) eqn:X; [now apply mem_In|now left]).
      assert (R2 : incl r r1) by (unfold r1; destruct (mem (fst g) r); [apply incl_refl|apply incl_tl, incl_refl]).
      assert (R3 : forall v, In v r1 -> v = fst g \/ In v r) by (unfold r1; destruct (mem (fst g) r); [auto|intros v [H|H]; auto]).
      destruct (IH _ _ _ _ E) as (A & B & D & F & G & H & K).
      * intros x Hx. apply Hg. now right.
      * intros x [<- |Hx]; auto.
      * intros x Hx. destruct (R3 x Hx) as [-> |X]; [now left|right; auto].
      * unfold r1. destruct (mem (fst g) r) eqn:X; auto. constructor; auto. now apply mem_not.
      * intros x Hx. destruct (R3 x Hx) as [-> |X]; auto. apply rel_goal; auto. exists (snd g). destruct g; apply Hg; now left.
      * splits; auto; [intros x Hx; auto|intros x [<- |Hx] Hq'; auto|cbn [length] in *; lia].
    + apply mem_not in M. destruct (IH _ _ _ _ E) as (A & B & D & F & G & H & K); auto; [intros x Hx; apply Hg; now right|].
      splits; auto; [intros x [<- |Hx] Hq'; [contradiction|auto]|cbn [length]; lia].
Qed.

Lemma prune_ok : exists p, prune t cg q = Ok p /\ pruned t q p.
Proof.
  unfold prune. destruct (fold_left _ (t_goal t) ([], [])) as [c r] eqn:E.
  destruct (prune_goals _ _ _ _ _ E) as (A & B & D & F & G & H & K); auto; try (intros v []); [constructor|].
  destruct (prune_loop_ok (length (t_goal t) + nv + 1) c r) as (x & -> & N & Hx).
  - unfold pinv. splits; auto. + intros v Hv (d & Hd). exact (H (v, d) Hd Hv). + intros u v Hu Nu. exfalso. auto.
  - cbn [length] in K. lia.
  - cbn [bind]. eexists. split; [reflexivity|]. split; [now apply sort_lt|]. intros v. rewrite sort_In. apply Hx.
Qed.
End Prune.

Lemma ns_pos p : (forall v, In v p -> v < nv) -> (1 <= num_states t p)%Z.
Proof.
  induction p as [|v p IH]; intros H; [cbn; lia|]. rewrite num_states_cons. destruct (dom_ok t Ht Hsmall v (H v (or_introl eq_refl))) as (_ & _ & _ & D).
  specialize (IH (fun x Hx => H x (or_intror Hx))). nia.
Qed.
Lemma too_large_ok : forall p m, (forall v, In v p -> v < nv) -> (1 <= m <= limit)%Z ->
  too_large t limit m p = Ok (negb (m * num_states t p <=? limit)%Z).
Proof.
  induction p as [|v p IH]; intros m H Hm; cbn [too_large].
  - cbn. rewrite Z.mul_1_r. rewrite (proj2 (Z.leb_le _ _)) by lia. reflexivity.
  - destruct (dom_ok t Ht Hsmall v (H v (or_introl eq_refl))) as (x & -> & Ed & D). cbn [bind]. rewrite Ed, fits_ok by lia. cbn [bind].
    assert (Hp : forall u, In u p -> u < nv) by (intros; apply H; now right). pose proof (ns_pos p Hp). rewrite num_states_cons.
    destruct (Z.leb_spec (m * dom_size t v) limit) as [L|L]; cbn [negb].
    + unfold guard. rewrite (proj2 (Z.leb_le _ _)) by lia. cbn [bind]. rewrite IH by (auto; nia). now rewrite Z.mul_assoc.
    + f_equal. symmetry. apply negb_true_iff, Z.leb_gt. nia.
Qed.

Lemma mark_ok : forall p used, length used = nv -> (forall v, In v p -> v < nv) -> NoDup p ->
  exists b used', mark_used p used = Ok (b, used') /\
    (b = false -> length used' = nv /\ (forall v, In v p -> nth v used false = false) /\ forall v, nth v used' false = true <-> nth v used false = true \/ In v p) /\
    (b = true -> exists v, In v p /\ nth v used false = true).
Proof.
  induction p as [|v p IH]; intros used L H N; cbn [mark_used].
  - exists false, used. splits; auto; [|discriminate]. intros _. splits; auto; [intros v []|]. intros v. cbn. intuition.
  - pose proof (H v (or_introl eq_refl)) as Hv. unfold vget. rewrite (nth_error_nth' used false) by lia. cbn [bind].
    destruct (nth v used false) eqn:E; [exists true, used; splits; auto; [discriminate|]; intros _; exists v; split; [now left|auto]|].
    unfold vset. rewrite (proj2 (Nat.ltb_lt _ _)) by lia. cbn [bind].
    assert (U : forall u, nth u (upd used v true) false = if u =? v then true else nth u used false).
    { intros u. destruct (Nat.eqb_spec u v) as [-> |Hne].
      - exact (nth_error_nth _ _ false (upd_nth_eq used v true ltac:(lia))).
      - pose proof (upd_nth_neq used v u true ltac:(auto)) as X. destruct (nth_error used u) eqn:Y.
        + rewrite (nth_error_nth _ _ _ Y). exact (nth_error_nth _ _ _ X).
        + rewrite !nth_overflow; auto; [now apply nth_error_None|]. apply nth_error_None. congruence. }
    inversion N as [|? ? N1 N2]; subst. destruct (IH (upd used v true)) as (b & used' & -> & A & B); auto; [now rewrite upd_length|intros; apply H; now right|].
    exists b, used'. splits; auto.
    + intros Hb. destruct (A Hb) as (A1 & A2 & A3). splits; auto.
      * intros u [<- |Hu]; auto. specialize (A2 u Hu). rewrite U in A2. destruct (u =? v); [discriminate|auto].
      * intros u. rewrite A3, U. cbn [In]. destruct (Nat.eqb_spec u v) as [-> |Hne]; intuition congruence.
    + intros Hb. destruct (B Hb) as (u & Hu & X). rewrite U in X. destruct (Nat.eqb_spec u v) as [-> |]; [contradiction|]. exists u. split; [now right|auto].
Qed.
End G.

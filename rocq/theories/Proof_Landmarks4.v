(** Uniform cost partitioning stays below the cost of every operator sequence that contains an
    achiever of each landmark. *)
From Coq Require Import QArith Qround Lqa.
From Verif Require Import Outcome Spec_Task Spec_Relaxation Spec_Landmarks Model_Landmarks Proof_Landmarks1.
Local Open Scope nat_scope.

Definition mem (o : nat) (os : list nat) : bool := existsb (Nat.eqb o) os.
Lemma mem_In o os : mem o os = true <-> In o os.
Proof.
  unfold mem. rewrite existsb_exists. split.
  - intros (x & Hx & E). apply Nat.eqb_eq in E. subst. auto.
  - intros H. exists o. split; auto. apply Nat.eqb_refl.
Qed.

Definition num (cs : list Z) (o : nat) : Z := nth o cs 0%Z.
Lemma vget_num cs o : o < length cs -> vget cs o = Ok (num cs o).
Proof. intros H. apply vget_ok. apply nth_error_nth'. auto. Qed.
Lemma num_upd cs i x j : i < length cs -> num (upd cs i x) j = if j =? i then x else num cs j.
Proof.
  intros H. unfold num. destruct (Nat.eqb_spec j i) as [->|Hn].
  - apply nth_error_nth. apply upd_nth_eq. auto.
  - destruct (Nat.lt_ge_cases j (length cs)) as [Hj|Hj].
    + apply nth_error_nth. rewrite upd_nth_neq by auto. apply nth_error_nth'. auto.
    + rewrite !nth_overflow; auto. rewrite upd_length. auto.
Qed.

Lemma bump_ok d os : NoDup os -> forall cs, (forall o, In o os -> o < length cs) ->
  exists cs', fold_outcome (bump d) os cs = Ok cs' /\ length cs' = length cs /\
    forall o, num cs' o = (num cs o + if mem o os then d else 0)%Z.
Proof.
  induction 1 as [|x os Hx Hn IH]; intros cs Hr; cbn [fold_outcome].
  - exists cs. splits; auto. intros o. cbn. lia.
  - assert (Hlx : x < length cs) by (apply Hr; left; auto). unfold bump at 1. rewrite vget_num by auto. cbn [bind].
    rewrite (proj2 (vset_ok cs x (num cs x + d)%Z _)) by (split; auto). cbn [bind].
    destruct (IH (upd cs x (num cs x + d)%Z)) as (cs' & E & L & H).
    { intros o Ho. rewrite upd_length. apply Hr. right; auto. }
    exists cs'. splits; auto. { rewrite L, upd_length. auto. }
    intros o. rewrite H, num_upd by auto. unfold mem. cbn [existsb]. fold (mem o os).
    destruct (Nat.eqb_spec o x) as [->|].
    + destruct (mem x os) eqn:E2; [apply mem_In in E2; contradiction|]. cbn [orb]. lia.
    + cbn [orb]. auto.
Qed.

Definition count (q : list nat -> bool) (fl : list (list nat)) : Z := Z.of_nat (length (filter q fl)).
Lemma count_cons q os fl : count q (os :: fl) = ((if q os then 1 else 0) + count q fl)%Z.
Proof. unfold count. cbn [filter]. destruct (q os); cbn [length]; lia. Qed.

Section pass.
Variable alm : bool.
Variable costs : list nat.
Variable D : list nat.                   (* the operators of the plan, once each *)
Hypothesis HD : NoDup D.
Notation N := (length costs).
Variable rnd : Q -> Q.
Variable u : Q.
Hypothesis Hu : (0 <= u)%Q.
Hypothesis Hrnd : rounding u rnd.

Definition fine (fl : list (list nat)) : Prop := forall os, In os fl -> NoDup os /\ forall o, In o os -> o < N.
Definition hit (fl : list (list nat)) : Prop := forall os, In os fl -> exists o, In o os /\ In o D.
Definition single (os : list nat) : bool := alm && (length os =? 1).
Definition cost_of (o : nat) : Q := int_q (nth o costs 0).

Lemma int_q_nonneg k : (0 <= int_q k)%Q.
Proof. unfold int_q. change 0%Q with (inject_Z 0). rewrite <- Zle_Qle. lia. Qed.
Lemma cost_nonneg o : (0 <= cost_of o)%Q.
Proof. apply int_q_nonneg. Qed.

Fixpoint qsum (f : nat -> Q) (l : list nat) : Q := match l with [] => 0 | x :: l => f x + qsum f l end.
Lemma qsum_le f h l : (forall x, In x l -> (f x <= h x)%Q) -> (qsum f l <= qsum h l)%Q.
Proof.
  induction l as [|x l IH]; intros H; cbn [qsum]; [lra|].
  pose proof (H x (or_introl eq_refl)). assert (qsum f l <= qsum h l)%Q by (apply IH; intros; apply H; right; auto). lra.
Qed.
Lemma qsum_nonneg f l : (forall x, In x l -> (0 <= f x)%Q) -> (0 <= qsum f l)%Q.
Proof.
  induction l as [|x l IH]; intros H; cbn [qsum]; [lra|].
  pose proof (H x (or_introl eq_refl)). assert (0 <= qsum f l)%Q by (apply IH; intros; apply H; right; auto). lra.
Qed.
Lemma qsum_member f l x : (forall x, In x l -> (0 <= f x)%Q) -> In x l -> (f x <= qsum f l)%Q.
Proof.
  induction l as [|y l IH]; intros H [].
  - subst y. cbn [qsum]. assert (0 <= qsum f l)%Q by (apply qsum_nonneg; intros; apply H; right; auto). lra.
  - cbn [qsum]. pose proof (H y (or_introl eq_refl)). assert (f x <= qsum f l)%Q by (apply IH; auto; intros; apply H; right; auto). lra.
Qed.
Lemma qsum_plus f h l : (qsum (fun x => f x + h x) l == qsum f l + qsum h l)%Q.
Proof. induction l as [|x l IH]; cbn [qsum]; [ring|]. rewrite IH. ring. Qed.
Lemma qsum_ext f h l : (forall x, In x l -> (f x == h x)%Q) -> (qsum f l == qsum h l)%Q.
Proof.
  induction l as [|x l IH]; intros H; cbn [qsum]; [reflexivity|].
  rewrite (H x (or_introl eq_refl)), IH; [reflexivity|]. intros; apply H; right; auto.
Qed.
Lemma qsum_update f h l x : NoDup l -> In x l -> (forall y, y <> x -> (h y == f y)%Q) ->
  (qsum h l == qsum f l + (h x - f x))%Q.
Proof.
  induction l as [|y l IH]; intros Hn Hx H; [destruct Hx|]. inversion Hn as [|a b Hy Hn']; subst. cbn [qsum].
  destruct (Nat.eq_dec y x) as [->|Hne].
  - rewrite (qsum_ext h f l); [ring|]. intros z Hz. apply H. intros ->. contradiction.
  - destruct Hx as [|Hx]; [contradiction|]. rewrite (IH Hn' Hx H), (H y Hne). ring.
Qed.

(** Powers of [1 + u]. *)
Fixpoint pw (k : nat) : Q := match k with 0 => 1 | S k => (1 + u) * pw k end.
Lemma pw_ge k : (1 <= pw k)%Q.
Proof. induction k as [|k IH]; cbn [pw]; [lra|]. nra. Qed.
Lemma pw_add a b : (pw (a + b) == pw a * pw b)%Q.
Proof. induction a as [|a IH]; cbn [plus pw]; [ring|]. rewrite IH. ring. Qed.
Lemma pw_mono a b : a <= b -> (pw a <= pw b)%Q.
Proof.
  intros H. replace b with (a + (b - a)) by lia. rewrite pw_add. pose proof (pw_ge a). pose proof (pw_ge (b - a)). nra.
Qed.

Lemma round_up x : (0 <= x)%Q -> (0 <= rnd x)%Q /\ (rnd x + 1 <= (1 + u) * (x + 1))%Q.
Proof. intros H. destruct (Hrnd x) as [A _]. destruct (A H) as [B C]. split; auto. nra. Qed.

Definition act_cost (a : list bool) (o : nat) : Q := if bit a o then cost_of o else 0.

Record ok1 (p : pass1) : Prop := {
  ok1_counts : length (counts p) = N;
  ok1_action : length (action p) = N;
  ok1_nonneg : (0 <= action_cost p)%Q
}.

Lemma first_pass_ok fl : fine fl -> forall p, ok1 p ->
  exists r, first_pass rnd alm costs fl p = Ok r /\
    match r with
    | None => In [] fl
    | Some p' => ~ In [] fl /\ ok1 p' /\
        (forall o, num (counts p') o = (num (counts p) o + count (fun os => negb (single os) && mem o os) fl)%Z) /\
        (forall o, bit (action p') o = bit (action p) o || existsb (fun os => single os && mem o os) fl) /\
        (hit fl -> forall k, (action_cost p + 1 <= pw k * (1 + qsum (act_cost (action p)) D))%Q ->
           (action_cost p' + 1 <= pw (k + length fl) * (1 + qsum (act_cost (action p')) D))%Q)
    end.
Proof.
  induction fl as [|os fl IH]; intros Hf p Hp; cbn [first_pass].
  - eexists. split; [reflexivity|]. cbn beta iota. splits; auto.
    + intros o. unfold count. cbn. lia.
    + intros o. cbn [existsb]. rewrite orb_false_r. auto.
    + intros _ k H. cbn [length]. rewrite Nat.add_0_r. auto.
  - destruct os as [|o0 os]; [eexists; split; [reflexivity|left; auto]|].
    assert (Hf' : fine fl) by (intros x Hx; apply Hf; right; auto).
    destruct (Hf (o0 :: os) (or_introl eq_refl)) as [Hnd Hlt]. destruct Hp as [Lc La Hnn].
    assert (Ho0 : o0 < N) by (apply Hlt; left; auto).
    assert (Esing : single (o0 :: os) = (alm && (length os =? 0))) by reflexivity.
    destruct (alm && (length os =? 0)) eqn:ES.
    + assert (os = []) as ->. { apply andb_true_iff in ES as [_ E]. destruct os; auto; discriminate. }
      rewrite vget_bit by lia. cbn [bind]. destruct (bit (action p) o0) eqn:Eb.
      * destruct (IH Hf' p) as (r & E & H); [constructor; auto|]. exists r. split; auto.
        destruct r as [p'|]; [|right; auto]. destruct H as (H0 & H1 & H2 & H3 & H4). splits; auto.
        -- intros [|]; [discriminate|auto].
        -- intros o. rewrite H2, count_cons, Esing. cbn [negb andb]. lia.
        -- intros o. rewrite H3. cbn [existsb]. rewrite Esing. cbn [andb mem existsb]. rewrite orb_false_r.
           destruct (Nat.eqb_spec o o0) as [->|]; cbn [orb]; auto. rewrite Eb. auto.
        -- intros Hh k Hk. cbn [length]. replace (k + S (length fl)) with (S k + length fl) by lia. apply H4.
           { intros x Hx. apply Hh. right; auto. }
           eapply Qle_trans; [apply Hk|]. pose proof (pw_mono k (S k) ltac:(lia)).
           assert (0 <= qsum (act_cost (action p)) D)%Q.
           { apply qsum_nonneg. intros x _. unfold act_cost. destruct (bit (action p) x); [apply cost_nonneg|lra]. }
           nra.
      * rewrite vset_bit by lia. cbn [bind].
        rewrite (proj2 (vget_ok costs o0 (nth o0 costs 0))) by (apply nth_error_nth'; auto). cbn [bind].
        fold (cost_of o0).
        set (p1 := {| counts := counts p; action := upd (action p) o0 true; action_cost := rnd (action_cost p + cost_of o0) |}).
        pose proof (cost_nonneg o0) as Hc0.
        destruct (round_up (action_cost p + cost_of o0)) as [R1 R2]; [lra|].
        destruct (IH Hf' p1) as (r & E & H).
        { constructor; cbn [p1 counts action action_cost]; rewrite ?upd_length; auto. }
        exists r. split; auto. destruct r as [p'|]; [|right; auto]. destruct H as (H0 & H1 & H2 & H3 & H4). splits; auto.
        -- intros [|]; [discriminate|auto].
        -- intros o. rewrite H2, count_cons, Esing. cbn [p1 counts negb andb]. lia.
        -- intros o. rewrite H3. cbn [p1 action existsb]. rewrite Esing, bit_upd by lia. cbn [andb mem existsb]. rewrite orb_false_r.
           destruct (Nat.eqb_spec o o0) as [->|]; cbn [orb]; auto. rewrite orb_true_r. auto.
        -- intros Hh k Hk. cbn [length]. replace (k + S (length fl)) with (S k + length fl) by lia. apply H4.
           { intros x Hx. apply Hh. right; auto. }
           cbn [p1 action action_cost].
           destruct (Hh [o0] (or_introl eq_refl)) as (x & [Hx|[]] & HxD). subst x.
           assert (Eq : (qsum (act_cost (upd (action p) o0 true)) D == qsum (act_cost (action p)) D + cost_of o0)%Q).
           { rewrite (qsum_update (act_cost (action p)) (act_cost (upd (action p) o0 true)) D o0 HD HxD).
             - unfold act_cost. rewrite bit_upd by lia. rewrite Nat.eqb_refl, Eb. ring.
             - intros y Hy. unfold act_cost. rewrite bit_upd by lia. rewrite (proj2 (Nat.eqb_neq y o0) Hy). reflexivity. }
           rewrite Eq. cbn [pw]. pose proof (pw_ge k).
           assert (cost_of o0 <= pw k * cost_of o0)%Q by nra.
           assert (action_cost p + cost_of o0 + 1 <= pw k * (1 + (qsum (act_cost (action p)) D + cost_of o0)))%Q by nra.
           eapply Qle_trans; [apply R2|]. rewrite <- Qmult_assoc. apply Qmult_le_l; lra.
    + destruct (bump_ok 1 (o0 :: os) Hnd (counts p)) as (cs & E1 & L1 & H1). { intros o Ho. rewrite Lc. auto. }
      rewrite E1. cbn [bind].
      destruct (IH Hf' {| counts := cs; action := action p; action_cost := action_cost p |}) as (r & E & H).
      { constructor; cbn [counts action action_cost]; auto. congruence. }
      exists r. split; auto. destruct r as [p'|]; [|right; auto]. destruct H as (H0 & H2 & H3 & H4 & H5). splits; auto.
      * intros [|]; [discriminate|auto].
      * intros o. rewrite H3, count_cons, Esing. cbn [counts negb andb]. rewrite H1. lia.
      * intros o. rewrite H4. cbn [action existsb]. rewrite Esing. cbn [andb orb]. auto.
      * intros Hh k Hk. cbn [length]. replace (k + S (length fl)) with (S k + length fl) by lia. apply H5.
        { intros x Hx. apply Hh. right; auto. }
        cbn [action action_cost]. eapply Qle_trans; [apply Hk|]. pose proof (pw_mono k (S k) ltac:(lia)).
        assert (0 <= qsum (act_cost (action p)) D)%Q.
        { apply qsum_nonneg. intros x _. unfold act_cost. destruct (bit (action p) x); [apply cost_nonneg|lra]. }
        nra.
Qed.

Definition covered (act : list bool) (os : list nat) : bool := existsb (bit act) os.
Lemma second_pass_ok act fl : length act = N -> fine fl -> forall cs unc, length cs = N ->
  exists cs', second_pass act fl cs unc = Ok (cs', unc ++ filter (fun os => negb (covered act os)) fl) /\ length cs' = N /\
    forall o, num cs' o = (num cs o - count (fun os => covered act os && mem o os) fl)%Z.
Proof.
  intros La. induction fl as [|os fl IH]; intros Hf cs unc Lc; cbn [second_pass].
  - exists cs. cbn [filter]. rewrite app_nil_r. splits; auto. intros o. unfold count. cbn. lia.
  - assert (Hf' : fine fl) by (intros x Hx; apply Hf; right; auto). destruct (Hf os (or_introl eq_refl)) as [Hnd Hlt].
    rewrite (any_of_ok _ (bit act)) by (intros o Ho; apply vget_bit; rewrite La; auto). cbn [bind]. fold (covered act os).
    destruct (covered act os) eqn:Ec; cbn [filter]; rewrite Ec; cbn [negb].
    + destruct (bump_ok (-1) os Hnd cs) as (cs1 & E1 & L1 & H1). { intros o Ho. rewrite Lc. auto. }
      rewrite E1. cbn [bind]. destruct (IH Hf' cs1 unc) as (cs' & E & L & H); [congruence|]. exists cs'. splits; auto.
      intros o. rewrite H, H1, count_cons, Ec. cbn [andb]. destruct (mem o os); lia.
    + destruct (IH Hf' cs (unc ++ [os]) Lc) as (cs' & E & L & H). rewrite <- app_assoc in E. cbn [app] in E.
      exists cs'. splits; auto. intros o. rewrite H, count_cons, Ec. cbn [andb]. lia.
Qed.

Definition share (cs : list Z) (o : nat) : Q := cost_of o / inject_Z (num cs o).
Lemma share_nonneg cs o : (1 <= num cs o)%Z -> (0 <= share cs o)%Q.
Proof.
  intros H. unfold share. pose proof (cost_nonneg o). apply Qle_shift_div_l; [|lra].
  change 0%Q with (inject_Z 0). rewrite <- Zlt_Qlt. lia.
Qed.

Lemma min_ok cs os : length cs = N -> (forall o, In o os -> o < N /\ (1 <= num cs o)%Z) -> forall m,
  (forall v, m = Some v -> (0 <= v)%Q) ->
  exists m', fold_outcome (min_step rnd costs cs) os m = Ok m' /\
    (forall v, m' = Some v -> (0 <= v)%Q) /\
    (forall o, In o os -> exists v, m' = Some v /\ (v <= rnd (share cs o))%Q) /\
    (forall v, m = Some v -> exists v', m' = Some v' /\ (v' <= v)%Q).
Proof.
  intros Lc. induction os as [|o os IH]; intros Hr m Hm; cbn [fold_outcome].
  - exists m. splits; auto. + intros o []. + intros v Hv. exists v. split; auto. lra.
  - destruct (Hr o (or_introl eq_refl)) as [Ho Hn]. unfold min_step at 1. rewrite vget_num by lia. cbn [bind].
    rewrite (proj2 (Z.leb_le 1 (num cs o)) Hn). cbn [guard bind].
    rewrite (proj2 (vget_ok costs o (nth o costs 0))) by (apply nth_error_nth'; auto). cbn [bind].
    fold (cost_of o). fold (share cs o). set (x := rnd (share cs o)).
    destruct (round_up (share cs o) (share_nonneg cs o Hn)) as [Hx _]. fold x in Hx.
    set (m1 := match m with None => x | Some v => if Qle_bool v x then v else x end).
    assert (M1 : (m1 <= x)%Q /\ (0 <= m1)%Q /\ forall v, m = Some v -> (m1 <= v)%Q).
    { unfold m1. destruct m as [v|].
      - specialize (Hm v eq_refl). destruct (Qle_bool v x) eqn:E.
        + apply Qle_bool_iff in E. splits; auto. intros v' [= <-]. lra.
        + assert (x < v)%Q. { apply Qnot_le_lt. intros H. apply Qle_bool_iff in H. congruence. }
          splits; auto; [lra|]. intros v' [= <-]. lra.
      - splits; auto; [lra|discriminate]. }
    destruct M1 as (A & B & C).
    destruct (IH (fun o' H => Hr o' (or_intror H)) (Some m1)) as (m' & E & H1 & H2 & H3). { intros v [= <-]. auto. }
    destruct (H3 m1 eq_refl) as (v1 & E1 & Hv1).
    exists m'. splits; auto.
    + intros o' [<-|Ho']; [|auto]. exists v1. split; auto. fold x. lra.
    + intros v Hv. exists v1. split; auto. specialize (C v Hv). lra.
Qed.

Definition part (cs : list Z) (os : list nat) : Q := qsum (fun o => if mem o os then share cs o else 0%Q) D.
Fixpoint parts (cs : list Z) (unc : list (list nat)) : Q := match unc with [] => 0 | os :: unc => part cs os + parts cs unc end.

Lemma part_nonneg cs os : (forall o, In o os -> (1 <= num cs o)%Z) -> (0 <= part cs os)%Q.
Proof. intros H. apply qsum_nonneg. intros o _. destruct (mem o os) eqn:E; [|lra]. apply share_nonneg, H, mem_In. auto. Qed.

Lemma third_pass_ok cs unc : length cs = N -> (forall os, In os unc -> os <> [] /\ forall o, In o os -> o < N /\ (1 <= num cs o)%Z) ->
  forall cost, (0 <= cost)%Q ->
  exists q, third_pass rnd costs cs unc cost = Ok q /\ (0 <= q)%Q /\
    (hit unc -> forall k X, (0 <= X)%Q -> (cost + 1 <= pw k * (1 + X))%Q ->
       (q + 1 <= pw (k + 2 * length unc) * (1 + (X + parts cs unc)))%Q).
Proof.
  intros Lc. induction unc as [|os unc IH]; intros Hr cost Hc; cbn [third_pass].
  - exists cost. splits; auto. intros _ k X HX H. cbn [length parts Nat.mul]. rewrite Nat.add_0_r.
    assert (X + 0 == X)%Q as -> by ring. auto.
  - destruct (Hr os (or_introl eq_refl)) as [Hne Ho].
    destruct (min_ok cs os Lc Ho None) as (m & E & H1 & H2 & _); [discriminate|]. rewrite E. cbn [bind].
    destruct os as [|o0 os]; [congruence|]. destruct (H2 o0 (or_introl eq_refl)) as (v & -> & Hv0).
    specialize (H1 v eq_refl). destruct (round_up (cost + v)) as [R1 R2]; [lra|].
    destruct (IH (fun os' H => Hr os' (or_intror H)) (rnd (cost + v)) R1) as (q & Eq & Hq & HB).
    exists q. splits; auto. intros Hh k X HX Hk. cbn [length parts].
    replace (k + 2 * S (length unc)) with (S (S k) + 2 * length unc) by lia.
    assert (Hp : (0 <= part cs (o0 :: os))%Q) by (apply part_nonneg; intros o Hin; apply Ho; auto).
    assert (Eadd : (X + (part cs (o0 :: os) + parts cs unc) == (X + part cs (o0 :: os)) + parts cs unc)%Q) by ring.
    rewrite Eadd. apply HB; [|lra|].
    { intros x Hx. apply Hh. right; auto. }
    destruct (Hh (o0 :: os) (or_introl eq_refl)) as (o & Ho1 & HoD). destruct (H2 o Ho1) as (v' & Ev & Hv). inv Ev.
    destruct (round_up (share cs o)) as [_ R3]. { apply share_nonneg, Ho. auto. }
    assert (HS : (share cs o <= part cs (o0 :: os))%Q).
    { unfold part. pose proof (qsum_member (fun o => if mem o (o0 :: os) then share cs o else 0%Q) D o) as Q1. cbn beta in Q1.
      rewrite (proj2 (mem_In o (o0 :: os)) Ho1) in Q1. apply Q1; auto.
      intros y _. destruct (mem y (o0 :: os)) eqn:Ey; [|lra]. apply share_nonneg, Ho, mem_In. auto. }
    set (P := part cs (o0 :: os)) in *. cbn [pw]. pose proof (pw_ge k) as Hpk. set (B := pw k) in *.
    assert (V1 : (v' + 1 <= (1 + u) * (P + 1))%Q) by nra.
    assert (V2 : (cost + v' + 1 <= B * (1 + X) + (1 + u) * P + u)%Q) by lra.
    assert (V3 : (u <= u * (B * (1 + X)))%Q).
    { assert (1 <= B * (1 + X))%Q by nra. nra. }
    assert (V4 : (cost + v' + 1 <= (1 + u) * (B * (1 + X) + P))%Q) by nra.
    assert (V5 : (P <= B * P)%Q) by nra.
    assert (V6 : (cost + v' + 1 <= (1 + u) * (B * (1 + (X + P))))%Q) by nra.
    eapply Qle_trans; [apply R2|]. rewrite <- Qmult_assoc. apply Qmult_le_l; lra.
Qed.

Lemma parts_swap cs unc : (parts cs unc == qsum (fun o => inject_Z (count (mem o) unc) * share cs o)%Q D)%Q.
Proof.
  induction unc as [|os unc IH]; cbn [parts].
  - symmetry. rewrite (qsum_ext _ (fun _ => 0%Q) D).
    + clear. induction D; cbn [qsum]; [reflexivity|]. rewrite IHl. ring.
    + intros o _. unfold count. cbn. ring.
  - rewrite IH. unfold part. rewrite <- qsum_plus. apply qsum_ext. intros o _. rewrite count_cons, inject_Z_plus.
    destruct (mem o os); [change (inject_Z 1) with 1%Q | change (inject_Z 0) with 0%Q]; ring.
Qed.

(** The whole computation. *)
Lemma uniform_ok fl : fine fl ->
  exists r, uniform rnd alm costs fl = Ok r /\
    match r with
    | None => In [] fl
    | Some h => ~ In [] fl /\ (0 <= h)%Q /\
        (hit fl -> (h + 1 <= pw (4 * length fl + 1) * (1 + qsum cost_of D))%Q)
    end.
Proof.
  intros Hf. unfold uniform.
  set (p0 := {| counts := repeat 0%Z N; action := repeat false N; action_cost := 0 |}).
  assert (B0 : forall o, bit (repeat false N) o = false).
  { intros o. unfold bit. generalize N. clear. intros k. revert o. induction k; intros [|o]; cbn; auto. }
  assert (N0 : forall o, num (repeat 0%Z N) o = 0%Z).
  { intros o. unfold num. generalize N. clear. intros k. revert o. induction k; intros [|o]; cbn; auto. }
  destruct (first_pass_ok fl Hf p0) as (r & E & H).
  { constructor; cbn [p0 counts action action_cost]; rewrite ?repeat_length; auto. lra. }
  rewrite E. cbn [bind]. destruct r as [p|]; [|exists None; split; auto]. destruct H as (Hne & [Lc La Hnn] & Hcnt & Hact & Hcost).
  cbn [p0 counts action action_cost] in *.
  destruct (second_pass_ok (action p) fl La Hf (counts p) [] Lc) as (cs & E2 & Ls & Hcs). rewrite E2. cbn [bind fst snd app].
  set (unc := filter (fun os => negb (covered (action p) os)) fl) in *.
  (* operators that are not action landmarks are counted exactly *)
  assert (CN : forall o, bit (action p) o = false -> num cs o = count (mem o) unc).
  { intros o Hb. rewrite Hcs, Hcnt, N0.
    assert (Hs : forall os, In os fl -> mem o os = true -> single os = false).
    { intros os Ho Hm. destruct (single os) eqn:Es; auto. rewrite Hact, B0 in Hb. cbn [orb] in Hb.
      exfalso. assert (X : existsb (fun os => single os && mem o os) fl = true).
      { apply existsb_exists. exists os. split; auto. rewrite Es, Hm. auto. } congruence. }
    unfold unc. clear -Hs. induction fl as [|os fl IH]; [reflexivity|].
    specialize (IH (fun x Hx => Hs x (or_intror Hx))). specialize (Hs os (or_introl eq_refl)).
    cbn [filter]. rewrite !count_cons. destruct (mem o os) eqn:Em.
    - rewrite (Hs eq_refl). cbn [negb andb]. destruct (covered (action p) os); cbn [negb andb]; rewrite ?count_cons, ?Em; lia.
    - rewrite !andb_false_r. destruct (covered (action p) os); cbn [negb]; rewrite ?count_cons, ?Em; lia. }
  assert (UN : forall os, In os unc -> In os fl /\ forall o, In o os -> bit (action p) o = false).
  { intros os Ho. apply filter_In in Ho as [Ho Hc]. split; auto. apply negb_true_iff in Hc. intros o Hoo.
    destruct (bit (action p) o) eqn:Eb; auto. unfold covered in Hc. assert (existsb (bit (action p)) os = true) by (apply existsb_exists; eauto). congruence. }
  destruct (third_pass_ok cs unc Ls) with (cost := 0%Q) as (q & E3 & Hq & HB).
  { intros os Ho. destruct (UN os Ho) as [Hi Hb]. split; [intros ->; contradiction|]. intros o Hoo. split; [apply (Hf os); auto|].
    rewrite CN by auto. unfold count. assert (In os (filter (mem o) unc)) by (apply filter_In; split; auto; apply mem_In; auto).
    destruct (filter (mem o) unc); [contradiction|]. cbn [length]. lia. }
  { lra. }
  rewrite E3. cbn [bind]. eexists. split; [reflexivity|]. cbn beta iota.
  destruct (round_up (action_cost p + q)) as [R1 R2]; [lra|]. splits; auto. intros Hh.
  set (A := qsum (act_cost (action p)) D) in *. set (B := parts cs unc).
  assert (HA : (0 <= A)%Q). { apply qsum_nonneg. intros x _. unfold act_cost. destruct (bit (action p) x); [apply cost_nonneg|lra]. }
  assert (HAc : (action_cost p + 1 <= pw (2 * length fl) * (1 + A))%Q).
  { eapply Qle_trans; [apply (Hcost Hh 0)|].
    - cbn [pw]. assert (Z : (qsum (act_cost (repeat false N)) D == 0)%Q).
      { rewrite (qsum_ext _ (fun _ => 0%Q) D). - clear. induction D; cbn [qsum]; [reflexivity|]. rewrite IHl. ring.
        - intros o _. unfold act_cost. rewrite B0. reflexivity. }
      rewrite Z. lra.
    - cbn [plus]. fold A. pose proof (pw_mono (length fl) (2 * length fl) ltac:(lia)). nra. }
  assert (HB0 : (0 <= B)%Q).
  { unfold B. clear -UN Ls CN Hf. rewrite parts_swap. apply qsum_nonneg. intros o _.
    destruct (Z.eq_dec (count (mem o) unc) 0) as [E|E]. { rewrite E. change (inject_Z 0) with 0%Q. lra. }
    assert (0 < count (mem o) unc)%Z by (unfold count in *; lia).
    assert (Hb : bit (action p) o = false).
    { unfold count in *. destruct (filter (mem o) unc) as [|os r] eqn:Ef; [cbn in E; lia|].
      assert (Hin : In os (filter (mem o) unc)) by (rewrite Ef; left; auto). apply filter_In in Hin as [H1 H2].
      apply (UN os H1). apply mem_In; auto. }
    assert (0 <= share cs o)%Q. { apply share_nonneg. rewrite CN by auto. lia. }
    assert (0 <= inject_Z (count (mem o) unc))%Q by (change 0%Q with (inject_Z 0); rewrite <- Zle_Qle; lia). nra. }
  assert (HBq : (q + 1 <= pw (2 * length fl) * (1 + B))%Q).
  { eapply Qle_trans; [apply (HB) with (k := 0) (X := 0%Q)|].
    - intros os Ho. apply Hh. apply UN. auto.
    - lra.
    - cbn [pw]. lra.
    - cbn [plus]. fold B. assert (length unc <= length fl). { unfold unc. clear. induction fl as [|x fl IH]; cbn [filter length]; auto. destruct (negb _); cbn [length]; lia. }
      pose proof (pw_mono (2 * length unc) (2 * length fl) ltac:(lia)). assert (0 + B == B)%Q as -> by ring. nra. }
  (* both parts together are paid by distinct operators of the plan *)
  assert (HS : (A + B <= qsum cost_of D)%Q).
  { unfold A, B. rewrite parts_swap, <- qsum_plus. apply qsum_le. intros o _. unfold act_cost.
    destruct (bit (action p) o) eqn:Eb.
    - assert (Ez : count (mem o) unc = 0%Z).
      { unfold count. destruct (filter (mem o) unc) as [|os r] eqn:Ef; auto. exfalso.
        assert (Hin : In os (filter (mem o) unc)) by (rewrite Ef; left; auto). apply filter_In in Hin as [H1 H2].
        destruct (UN os H1) as [_ H3]. rewrite (H3 o) in Eb; [discriminate|]. apply mem_In; auto. }
      rewrite Ez. change (inject_Z 0) with 0%Q. lra.
    - rewrite <- CN by auto. unfold share. destruct (Z.eq_dec (num cs o) 0) as [Ez|Ez].
      + rewrite Ez. change (inject_Z 0) with 0%Q. pose proof (cost_nonneg o). lra.
      + assert (~ inject_Z (num cs o) == 0)%Q. { intros H. apply Ez. apply inject_Z_injective. auto. }
        rewrite Qmult_div_r by auto. lra. }
  replace (4 * length fl + 1) with (S (2 * length fl + 2 * length fl)) by lia. cbn [pw]. rewrite pw_add.
  pose proof (pw_ge (2 * length fl)) as Hp1. set (K := pw (2 * length fl)) in *.
  assert (V : (action_cost p + q + 1 <= K * K * (1 + (A + B)))%Q).
  { assert (action_cost p + q + 1 <= K * (2 + (A + B)) - 1)%Q by lra.
    assert (0 <= (K - 1) * (K - 1))%Q by nra. assert (0 <= K * (A + B) * (K - 1))%Q.
    { apply Qmult_le_0_compat; [|lra]. apply Qmult_le_0_compat; lra. }
    nra. }
  assert (V2 : (K * K * (1 + (A + B)) <= K * K * (1 + qsum cost_of D))%Q).
  { assert (0 < K * K)%Q by nra. apply Qmult_le_l; lra. }
  eapply Qle_trans; [apply R2|]. rewrite <- Qmult_assoc. apply Qmult_le_l; lra.
Qed.
End pass.

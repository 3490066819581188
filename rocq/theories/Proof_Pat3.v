(** Systematic patterns: the two growing loops. *)
From Coq Require Import Sorting Permutation Relations.
From Verif Require Import Outcome Spec_Task Spec_CausalGraph Spec_Patterns Model_MAS Model_CausalGraph Model_Patterns Proof_CausalGraph Proof_MAS1 Proof_MS6 Proof_MAA6 Proof_Pat1 Proof_Pat2.
Import ListNotations.

Definition wf (q : queue) : Prop := NoDup (q_patterns q) /\ forall p, In p (q_set q) <-> In p (q_patterns q).
(** [q'] is [q] after enqueueing the patterns satisfying [L]. *)
Definition adds (q q' : queue) (L : list nat -> Prop) : Prop :=
  wf q' /\ (exists ext, q_patterns q' = q_patterns q ++ ext /\ forall p, In p ext -> L p) /\ forall p, L p -> In p (q_patterns q').

Lemma wf_nil : wf {| q_set := []; q_patterns := [] |}.
Proof. split; cbn; [constructor|tauto]. Qed.
Lemma adds_In q q' L p : adds q q' L -> (In p (q_patterns q') <-> In p (q_patterns q) \/ L p).
Proof. intros (_ & (ext & E & H) & K). split; [|intros [X|X]; [rewrite E; apply in_app_iff; auto|auto]]. rewrite E, in_app_iff. intros [X|X]; auto. Qed.
Lemma adds_none q (L : list nat -> Prop) : wf q -> (forall p, ~ L p) -> adds q q L.
Proof. intros W H. split; [auto|]. split; [exists []; rewrite app_nil_r; split; [auto|intros p []]|]. intros p X. destruct (H p X). Qed.
Lemma adds_trans q q1 q2 (L1 L2 L : list nat -> Prop) : adds q q1 L1 -> adds q1 q2 L2 -> (forall p, L p <-> L1 p \/ L2 p) -> adds q q2 L.
Proof.
  intros A1 A2 HL. pose proof A1 as (_ & (e1 & E1 & F1) & G1). pose proof A2 as (W2 & (e2 & E2 & F2) & G2).
  split; [auto|]. split.
  - exists (e1 ++ e2). split; [now rewrite E2, E1, app_assoc|]. intros p Hp. apply HL. apply in_app_iff in Hp as [Hp|Hp]; auto.
  - intros p Hp. apply (adds_In _ _ _ _ A2). apply HL in Hp as [Hp|Hp]; auto.
Qed.
Lemma enqueue_adds q p : wf q -> adds q (enqueue q p) (fun x => x = p).
Proof.
  intros (N & H). unfold enqueue. destruct (in_dec (list_eq_dec Nat.eq_dec) p (q_set q)) as [I|I].
  - split; [split; auto|]. split; [exists []; rewrite app_nil_r; split; [auto|intros x []]|]. intros x ->. now apply H.
  - split; [|split; cbn [q_patterns]].
    + split; cbn [q_patterns q_set].
      * apply Permutation_NoDup with (p :: q_patterns q); [apply Permutation_cons_append|]. constructor; auto. now rewrite <- H.
      * intros x. rewrite in_app_iff. cbn. rewrite H. intuition.
    + exists [p]. split; [auto|]. intros x [<- |[]]. auto.
    + intros x ->. apply in_app_iff. right. now left.
Qed.
Lemma enqueue_all {A} (f : A -> list nat) : forall ns q, wf q -> adds q (fold_left (fun q v => enqueue q (f v)) ns q) (fun p => exists v, In v ns /\ p = f v).
Proof.
  induction ns as [|x ns IH]; intros q W; cbn [fold_left].
  - apply adds_none; auto. intros p (v & [] & _).
  - pose proof (enqueue_adds q (f x) W) as Ad. eapply adds_trans; [exact Ad|apply IH; apply Ad|]. intros p. cbn [In]. split.
    + intros (v & [-> |Hv] & ->); eauto.
    + intros [-> |(v & Hv & ->)]; eauto.
Qed.

Definition smaller_first : list (list nat) -> Prop := StronglySorted (fun a b => length a <= length b).
Lemma attach_adds k p1 : StronglySorted lt p1 -> forall cands q, wf q -> smaller_first cands -> (forall p2, In p2 cands -> StronglySorted lt p2) ->
  adds q (attach k p1 cands q) (fun p => exists p2, In p2 cands /\ length p1 + length p2 <= k /\ (forall x, In x p1 -> ~ In x p2) /\ p = union_pattern p1 p2).
Proof.
  intros S1. induction cands as [|p2 r IH]; intros q W Hs Hc; cbn [attach].
  - apply adds_none; auto. intros p (v & [] & _).
  - apply StronglySorted_inv in Hs as [Hs Hf]. rewrite Forall_forall in Hf. destruct (Nat.ltb_spec k (length p1 + length p2)) as [L|L].
    + apply adds_none; auto. intros p (p2' & [<- |I] & X & _); [lia|]. apply Hf in I. lia.
    + pose proof (disjoint_spec p1 p2 S1 (Hc p2 (or_introl eq_refl))) as D. destruct (patterns_are_disjoint p1 p2).
      * pose proof (enqueue_adds q (union_pattern p1 p2) W) as A. eapply adds_trans; [exact A|apply IH; [apply A|auto|intros x Hx; apply Hc; now right]|].
        intros p. cbn [In]. split.
        -- intros (p3 & [<- |I] & X & Y & ->); [auto|right; eauto 6].
        -- intros [-> |(p3 & I & X & Y & ->)]; [exists p2; splits; auto; now apply D|exists p3; auto].
      * assert (A : adds q (attach k p1 r q) (fun p => exists p2, In p2 r /\ length p1 + length p2 <= k /\ (forall x, In x p1 -> ~ In x p2) /\ p = union_pattern p1 p2))
          by (apply IH; [auto|auto|intros x Hx; apply Hc; now right]).
        eapply adds_trans; [apply (adds_none q (fun _ => False)); auto|exact A|]. intros p. cbn [In]. split.
        -- intros (p3 & [<- |I] & X & Y & ->); [apply D in Y; discriminate|right; eauto 6].
        -- intros [[]|(p3 & I & X & Y & ->)]. exists p3. auto.
Qed.

(** * The index of the single-goal patterns *)
Definition holds_var (v : nat) (p : list nat) : bool := existsb (Nat.eqb v) p.
Lemma holds_var_In v p : holds_var v p = true <-> In v p.
Proof.
  unfold holds_var. rewrite existsb_exists. split; [intros (x & Hx & E); apply Nat.eqb_eq in E; now subst|intros H; exists v; split; [auto|apply Nat.eqb_refl]].
Qed.
Lemma index_one n (p : list nat) : forall vs (m : list (list (list nat))), NoDup vs -> (forall v, In v vs -> v < n) -> length m = n ->
  exists m', fold_outcome (fun m v => let* l := vget m v in vset m v (l ++ [p])) vs m = Ok m' /\ length m' = n /\
    forall v, v < n -> nth v m' [] = if holds_var v vs then nth v m [] ++ [p] else nth v m [].
Proof.
  induction vs as [|x vs IH]; intros m N L Hm; cbn [fold_outcome].
  - exists m. auto.
  - inversion N as [|? ? Nx N']; subst. assert (Hx : x < length m) by (apply L; now left).
    unfold vget. rewrite (nth_error_nth' m [] Hx). cbn [bind]. unfold vset. destruct (Nat.ltb_spec x (length m)) as [_|]; [|lia]. 
    destruct (IH (upd m x (nth x m [] ++ [p]))) as (m' & E & Lm & H); auto; [intros v Hv; apply L; now right|now rewrite upd_length|].
    exists m'. splits; auto. intros v Hv. rewrite H by auto. unfold holds_var. cbn [existsb]. destruct (Nat.eqb_spec v x) as [-> |Hvx]; cbn [orb].
    + destruct (existsb (Nat.eqb x) vs) eqn:Ex; [exfalso; apply Nx; now apply holds_var_In|]. apply nth_error_nth. rewrite upd_nth_eq; auto.
    + assert (nth v (upd m x (nth x m [] ++ [p])) [] = nth v m []) as ->; [|auto].
      apply nth_error_nth. rewrite upd_nth_neq by auto. now apply nth_error_nth'.
Qed.
Lemma index_ok n : forall sga (m : list (list (list nat))), (forall p, In p sga -> NoDup p /\ forall v, In v p -> v < n) -> length m = n ->
  exists m', fold_outcome (fun m p => fold_outcome (fun m v => let* l := vget m v in vset m v (l ++ [p])) p m) sga m = Ok m' /\ length m' = n /\
    forall v, v < n -> nth v m' [] = nth v m [] ++ filter (holds_var v) sga.
Proof.
  induction sga as [|p sga IH]; intros m H Hm; cbn [fold_outcome].
  - exists m. splits; auto. intros v _. cbn. now rewrite app_nil_r.
  - destruct (H p (or_introl eq_refl)) as (Np & Lp). destruct (index_one n p p m Np Lp Hm) as (m1 & E1 & L1 & H1). rewrite E1. cbn [bind].
    destruct (IH m1) as (m' & E & L & K); auto; [intros x Hx; apply H; now right|]. exists m'. splits; auto.
    intros v Hv. rewrite K, H1 by auto. cbn [filter]. destruct (holds_var v p); [now rewrite <- app_assoc|auto].
Qed.

Section Loops.
Variables (t : task) (k : nat) (cg : causal_graph) (order : nat -> list nat -> list nat).
Hypothesis Hk : 1 <= k.
Hypothesis Hep : forall u, u < length (t_vars t) -> exists l, vget (g_eff_to_pre cg) u = Ok l /\ forall v, In v l <-> pre_eff t v u.
Hypothesis Hsc : forall u, u < length (t_vars t) -> exists l, vget (g_successors cg) u = Ok l /\ forall v, In v l <-> causal_arc t u v.
Hypothesis Hlt : forall u v, causal_arc t u v -> u < length (t_vars t) /\ v < length (t_vars t).
Hypothesis Hgl : forall g, is_goal_var t g -> g < length (t_vars t).
Hypothesis Hord : forall i l, Permutation l (order i l).

Lemma eff_pre_ok no p : (forall v, In v p -> v < length (t_vars t)) ->
  exists ns, compute_eff_pre_neighbors order no cg p = Ok ns /\ forall y, In y ns <-> ~ In y p /\ exists v, In v p /\ pre_eff t y v.
Proof.
  intros Lp. unfold compute_eff_pre_neighbors. destruct (gather_ok (g_eff_to_pre cg) _ (fun u v => pre_eff t v u) Hep p [] Lp) as (c & E & Hc). rewrite E. cbn [bind].
  eexists. split; [reflexivity|]. intros y. transitivity (In y (fold_left (fun c v => erase v c) p c)).
  - split; apply Permutation_in; [apply Permutation_sym, Hord|apply Hord].
  - rewrite erase_all_In, Hc. cbn [In]. tauto.
Qed.
Lemma connection_ok no p : (forall v, In v p -> v < length (t_vars t)) ->
  exists ns, compute_connection_points order no cg p = Ok ns /\
    forall y, In y ns <-> ~ In y p /\ (exists v, In v p /\ causal_arc t v y) /\ ~ exists v, In v p /\ pre_eff t y v.
Proof.
  intros Lp. unfold compute_connection_points. destruct (gather_ok (g_successors cg) _ (fun u v => causal_arc t u v) Hsc p [] Lp) as (c & E & Hc). rewrite E. cbn [bind].
  destruct (drop_ok (g_eff_to_pre cg) _ (fun u v => pre_eff t v u) Hep p c Lp) as (c' & E' & Hc'). cbv zeta in E' |- *. rewrite E'. cbn [bind].
  eexists. split; [reflexivity|]. intros y. transitivity (In y c').
  - split; apply Permutation_in; [apply Permutation_sym, Hord|apply Hord].
  - rewrite Hc', Hc. cbn [In]. tauto.
Qed.

(** ** Single-goal patterns *)
Definition grown (q : queue) (A : list nat) : Prop :=
  forall v, length A < k -> ~ In v A -> (exists a, In a A /\ pre_eff t v a) -> In (sort Nat.leb (A ++ [v])) (q_patterns q).
Definition all_sga (q : queue) : Prop :=
  wf q /\ smaller_first (q_patterns q) /\ forall p, In p (q_patterns q) -> sga_pattern t p /\ length p <= k.

Lemma grow_sga_ok : forall fuel no q, 2 ^ length (t_vars t) < no + fuel -> all_sga q ->
  (forall p p0, nth_error (q_patterns q) no = Some p0 -> In p (q_patterns q) -> length p <= length p0 + 1) ->
  (forall i A, i < no -> nth_error (q_patterns q) i = Some A -> grown q A) ->
  exists q', grow_sga order k fuel cg no q = Ok q' /\ all_sga q' /\ incl (q_patterns q) (q_patterns q') /\ forall A, In A (q_patterns q') -> grown q' A.
Proof.
  induction fuel as [|fuel IH]; intros no q Hf (W & Ss & Hq) Hb Hg; cbn [grow_sga]; destruct (Nat.ltb_spec no (length (q_patterns q))) as [L|L].
  1: exfalso; pose proof (few_patterns t (q_patterns q) (proj1 W) (fun p Hp => proj1 (proj1 (Hq p Hp)))); lia.
  1,3: exists q; split; [auto|]; split; [unfold all_sga; auto|]; split; [intros x; auto|]; intros A HA; apply In_nth_error in HA as (i & Hi); apply (Hg i); auto; apply nth_error_Some_lt in Hi; lia.
  destruct (nth_error (q_patterns q) no) as [p|] eqn:Ep; [|apply nth_error_None in Ep; lia]. unfold vget at 1. rewrite Ep. cbn [bind].
  pose proof (nth_error_In _ _ Ep) as Ip. destruct (Hq p Ip) as (((NE & Sp & Lp) & g & Hpg) & Lk).
  destruct (Nat.eqb_spec (length p) k) as [Ek|Ek].
  - exists q. split; [auto|]. split; [unfold all_sga; auto|]. split; [intros x; auto|]. intros A HA. apply In_nth_error in HA as (i & Hi). destruct (Nat.lt_ge_cases i no) as [Hin|Hin]; [apply (Hg i); auto|].
    intros v HL. exfalso. assert (length p <= length A); [|lia].
    destruct (Nat.eq_dec i no) as [-> |]; [rewrite Ep in Hi; injection Hi as <-; lia|]. apply (sorted_nth _ _ Ss no i); auto. lia.
  - destruct (eff_pre_ok no p Lp) as (ns & En & Hns). rewrite En. cbn [bind].
    pose proof (enqueue_all (fun v => sort Nat.leb (p ++ [v])) ns q W) as A. set (q1 := fold_left _ ns q) in *.
    pose proof A as (W1 & (ext & E1 & Hext) & HL).
    assert (Hnew : forall x, In x ext -> sga_pattern t x /\ length x = length p + 1).
    { intros x Hx. apply Hext in Hx as (v & Hv & ->). apply Hns in Hv as (Nv & a & Ha & Hva). destruct (add_ok p v Sp Nv) as (S1 & L1 & I1). split; [|lia].
      split; [|exists g; apply (sga_add t g p _ v); eauto]. unfold pattern_of. splits; auto.
      - intros E. rewrite E in L1. discriminate.
      - intros y Hy. apply I1 in Hy as [Hy | ->]; auto. apply (Hlt v a). now left. }
    assert (Sm : forall x, In x (q_patterns q) -> length x <= length p + 1) by (intros x Hx; apply (Hb x p); auto).
    assert (Ss1 : smaller_first (q_patterns q1)).
    { rewrite E1. apply sorted_app; auto.
      - apply nth_sorted. intros i j a b _ Ha Hb'. apply nth_error_In in Ha, Hb'. apply Hnew in Ha, Hb'. lia.
      - intros a b Ha Hb'. apply Hnew in Hb'. apply Sm in Ha. lia. }
    destruct (IH (no + 1) q1) as (q' & E' & A' & I' & G'); [lia| | | |].
    + unfold all_sga. splits; auto; intros x Hx; rewrite E1 in Hx; apply in_app_iff in Hx as [Hx|Hx];
        [now apply Hq|split; [now apply Hnew|apply Hnew in Hx; lia]].
    + intros x p1 Hp1 Hx. assert (length p <= length p1).
      { apply (sorted_nth _ _ Ss1 no (no + 1)); auto; [lia|]. rewrite E1, nth_error_app1; auto. }
      rewrite E1 in Hx. apply in_app_iff in Hx as [Hx|Hx]; [apply Sm in Hx; lia|apply Hnew in Hx; lia].
    + intros i B Hi HB v HL' Nv Ha. destruct (Nat.eq_dec i no) as [-> |Hne].
      * assert (B = p) as -> by (rewrite E1, nth_error_app1 in HB by auto; congruence). apply HL. exists v. split; auto. apply Hns. auto.
      * assert (Hi' : i < no) by lia. rewrite E1, nth_error_app1 in HB by lia. apply (adds_In _ _ _ _ A). left. exact (Hg i B Hi' HB v HL' Nv Ha).
    + exists q'. splits; auto. intros x Hx. apply I'. rewrite E1. apply in_app_iff. auto.
Qed.

Lemma build_sga_ok fuel : 2 ^ length (t_vars t) < fuel ->
  exists sga, build_sga_patterns order k fuel t cg = Ok sga /\ NoDup sga /\ smaller_first sga /\ forall p, In p sga <-> sga_pattern t p /\ length p <= k.
Proof.
  intros Hf. unfold build_sga_patterns.
  pose proof (enqueue_all (fun g : fact => [fst g]) (t_goal t) _ wf_nil) as A. set (q := fold_left _ (t_goal t) _) in *.
  assert (Hq : forall p, In p (q_patterns q) <-> exists g, In g (t_goal t) /\ p = [fst g]).
  { intros p. rewrite (adds_In _ _ _ p A). cbn. tauto. }
  destruct (grow_sga_ok fuel 0 q) as (q' & E & (W & Ss & Hq') & I & G).
  - lia.
  - unfold all_sga. split; [apply A|]. split.
    + apply nth_sorted. intros i j a b _ Ha Hb. apply nth_error_In in Ha, Hb. apply Hq in Ha as (x & _ & ->), Hb as (y & _ & ->). cbn. lia.
    + intros p Hp. apply Hq in Hp as ((g & d) & Hg & ->). cbn [fst length]. split; [|lia].
      assert (Gg : is_goal_var t g) by (exists d; auto). split.
      * unfold pattern_of. splits; [discriminate|repeat constructor|]. intros v [<- |[]]. auto.
      * exists g. unfold sga_of. splits; [now left|auto|]. intros v [<- |[]]. apply rt_refl.
  - intros p p0 Hp0 Hp. apply Hq in Hp as (x & _ & ->). cbn. lia.
  - intros i B Hi. lia.
  - rewrite E. cbn [bind]. exists (q_patterns q'). splits; auto; [apply W|]. intros p. split; [apply Hq'|].
    intros (Hp & Lp). apply (sga_complete t k (q_patterns q')); auto.
    + intros g (d & Hg). apply I, Hq. exists (g, d). auto.
    + intros B v HB HL Nv Hv. apply G; auto.
Qed.

(** ** Unions *)
Definition attached (sga : list (list nat)) (q : queue) (A : list nat) : Prop :=
  forall B y, In B sga -> length A + length B <= k -> (forall x, In x A -> ~ In x B) -> In y B ->
    (exists v, In v A /\ causal_arc t v y) -> (~ exists v, In v A /\ pre_eff t y v) -> In (union_pattern A B) (q_patterns q).
Definition all_good (q : queue) : Prop :=
  wf q /\ forall p, In p (q_patterns q) -> pattern_of t p /\ interesting t p /\ length p <= k.

Lemma attach_all sga by_var p1 : smaller_first sga -> (forall p, In p sga -> StronglySorted lt p) -> length by_var = length (t_vars t) ->
  (forall v, v < length (t_vars t) -> nth v by_var [] = filter (holds_var v) sga) -> StronglySorted lt p1 ->
  forall ns q, wf q -> (forall v, In v ns -> v < length (t_vars t)) ->
  exists q', fold_outcome (fun q v => let* cands := vget by_var v in Ok (attach k p1 cands q)) ns q = Ok q' /\
    adds q q' (fun p => exists v p2, In v ns /\ In v p2 /\ In p2 sga /\ length p1 + length p2 <= k /\ (forall x, In x p1 -> ~ In x p2) /\ p = union_pattern p1 p2).
Proof.
  intros Ss Hs Lb Hb S1. induction ns as [|v ns IH]; intros q W Hns; cbn [fold_outcome].
  - exists q. split; [auto|]. apply adds_none; auto. intros p (v & p2 & [] & _).
  - assert (Hv : v < length (t_vars t)) by (apply Hns; now left).
    unfold vget at 1. rewrite (nth_error_nth' by_var []) by lia. cbn [bind]. rewrite (Hb v Hv).
    assert (A : adds q (attach k p1 (filter (holds_var v) sga) q) (fun p => exists p2, In p2 (filter (holds_var v) sga) /\ length p1 + length p2 <= k /\ (forall x, In x p1 -> ~ In x p2) /\ p = union_pattern p1 p2)).
    { apply attach_adds; auto; [now apply sorted_filter|]. intros p2 Hp2. apply filter_In in Hp2 as (Hp2 & _). auto. }
    destruct (IH (attach k p1 (filter (holds_var v) sga) q)) as (q' & E & A'); [apply A|intros x Hx; apply Hns; now right|].
    exists q'. split; [exact E|]. eapply adds_trans; [exact A|exact A'|]. intros p. cbn [In]. split.
    + intros (w & p2 & [<- |Hw] & H1 & H2 & H3 & H4 & H5); [left; exists p2; splits; auto; apply filter_In; split; auto; now apply holds_var_In|right; exists w, p2; auto 8].
    + intros [(p2 & H1 & H3 & H4 & H5)|(w & p2 & Hw & H)]; [|exists w, p2; tauto].
      apply filter_In in H1 as (H1 & H2). apply holds_var_In in H2. exists v, p2. auto 8.
Qed.

Lemma grow_unions_ok sga by_var : smaller_first sga -> (forall p, In p sga -> sga_pattern t p) -> length by_var = length (t_vars t) ->
  (forall v, v < length (t_vars t) -> nth v by_var [] = filter (holds_var v) sga) ->
  forall fuel no q, 2 ^ length (t_vars t) < no + fuel -> all_good q ->
  (forall i A, i < no -> nth_error (q_patterns q) i = Some A -> attached sga q A) ->
  exists q', grow_unions order k fuel cg by_var no q = Ok q' /\ all_good q' /\ incl (q_patterns q) (q_patterns q') /\ forall A, In A (q_patterns q') -> attached sga q' A.
Proof.
  intros Ss Hs Lb Hb. induction fuel as [|fuel IH]; intros no q Hf (W & Hq) Hg; cbn [grow_unions]; destruct (Nat.ltb_spec no (length (q_patterns q))) as [L|L].
  1: exfalso; pose proof (few_patterns t (q_patterns q) (proj1 W) (fun p Hp => proj1 (Hq p Hp))); lia.
  1,3: exists q; split; [auto|]; split; [split; auto|]; split; [intros x; auto|]; intros A HA; apply In_nth_error in HA as (i & Hi); apply (Hg i); auto; apply nth_error_Some_lt in Hi; lia.
  destruct (nth_error (q_patterns q) no) as [p|] eqn:Ep; [|apply nth_error_None in Ep; lia]. unfold vget at 1. rewrite Ep. cbn [bind].
  pose proof (nth_error_In _ _ Ep) as Ip. destruct (Hq p Ip) as ((NE & Sp & Lp) & Ip' & Lk).
  destruct (connection_ok no p Lp) as (ns & En & Hns). rewrite En. cbn [bind].
  destruct (attach_all sga by_var p Ss (fun p Hp => proj1 (proj2 (proj1 (Hs p Hp)))) Lb Hb Sp ns q W) as (q1 & E1 & A).
  { intros v Hv. apply Hns in Hv as (_ & (u & _ & Huv) & _). now apply Hlt in Huv. }
  rewrite E1. cbn [bind]. pose proof A as (W1 & (ext & Ee & Hext) & HL).
  destruct (IH (no + 1) q1) as (q' & E' & A' & I' & G'); [lia| | |].
  - split; [auto|]. intros x Hx. apply (adds_In _ _ _ _ A) in Hx as [Hx|(v & p2 & Hv & Hvp & Hp2 & HL2 & D & ->)]; [auto|].
    destruct (Hs p2 Hp2) as ((NE2 & S2 & L2) & G2). apply Hns in Hv as (_ & Hv & _).
    split; [|split].
    + unfold pattern_of. splits.
      * intros E. destruct p as [|a p0]; [contradiction|]. assert (X : In a []) by (rewrite <- E; apply union_In; left; now left). destruct X.
      * now apply union_sorted.
      * intros y Hy. apply union_In in Hy as [Hy|Hy]; auto.
    + apply (union_interesting t p p2 _ v); auto; [apply sga_interesting; auto|]. intros y. apply union_In.
    + now rewrite union_length.
  - intros i B Hi HB C y HC HLk D Hy Hv Nv. destruct (Nat.eq_dec i no) as [-> |Hne].
    + assert (B = p) as -> by (rewrite Ee, nth_error_app1 in HB by auto; congruence). apply HL. exists y, C. splits; auto. apply Hns. splits; auto. intros HyB. exact (D y HyB Hy).
    + assert (Hi' : i < no) by lia. rewrite Ee, nth_error_app1 in HB by lia. apply (adds_In _ _ _ _ A). left. exact (Hg i B Hi' HB C y HC HLk D Hy Hv Nv).
  - exists q'. splits; auto. intros x Hx. apply I'. rewrite Ee. apply in_app_iff. auto.
Qed.
End Loops.

Theorem build_patterns_ok t k order fuel : task_ok t -> 1 <= k -> (forall i l, Permutation l (order i l)) -> 2 ^ length (t_vars t) < fuel ->
  exists out, build_patterns order k fuel t = Ok out /\ NoDup out /\ forall p, In p out <-> pattern_of t p /\ interesting t p /\ length p <= k.
Proof.
  intros Hok Hk Hord Hf. destruct (build_exact t Hok) as (cg & Ec & _ & HR). unfold build_patterns. rewrite Ec. cbn [bind].
  assert (Hep : forall u, u < length (t_vars t) -> exists l, vget (g_eff_to_pre cg) u = Ok l /\ forall v, In v l <-> pre_eff t v u).
  { intros u Hu. destruct (HR u Hu) as (l1 & l2 & l3 & l4 & l5 & _ & _ & E & (_ & H) & _). exists l2. unfold vget. rewrite E. auto. }
  assert (Hsc : forall u, u < length (t_vars t) -> exists l, vget (g_successors cg) u = Ok l /\ forall v, In v l <-> causal_arc t u v).
  { intros u Hu. destruct (HR u Hu) as (l1 & l2 & l3 & l4 & l5 & _ & _ & _ & _ & _ & _ & E & (_ & H) & _). exists l4. unfold vget. rewrite E. auto. }
  assert (Hlt : forall u v, causal_arc t u v -> u < length (t_vars t) /\ v < length (t_vars t)) by (intros; now apply arc_lt).
  assert (Hgl : forall g, is_goal_var t g -> g < length (t_vars t)) by (intros; now apply goal_lt).
  assert (dec : forall u v, v < length (t_vars t) -> pre_eff t u v \/ ~ pre_eff t u v).
  { intros u v Hv. destruct (Hep v Hv) as (l & _ & H). rewrite <- H. destruct (in_dec Nat.eq_dec u l); auto. }
  destruct (build_sga_ok t k cg order Hk Hep Hlt Hgl Hord fuel Hf) as (sga & Es & Ns & Ss & Hs). rewrite Es. cbn [bind].
  assert (Hs' : forall p, In p sga -> sga_pattern t p) by (intros p Hp; now apply Hs).
  unfold index_by_var. destruct (index_ok (length (t_vars t)) sga (repeat [] (length (t_vars t)))) as (m & Em & Lm & Hm).
  { intros p Hp. destruct (Hs' p Hp) as ((_ & S1 & L) & _). split; [now apply sorted_nodup|auto]. }
  { apply repeat_length. }
  rewrite Em. cbn [bind].
  assert (Hm' : forall v, v < length (t_vars t) -> nth v m [] = filter (holds_var v) sga).
  { intros v Hv. rewrite (Hm v Hv). now rewrite nth_repeat. }
  pose proof (enqueue_all (fun p : list nat => p) sga _ wf_nil) as A. cbv beta in A.
  change (fold_left (fun q v => enqueue q v) sga {| q_set := []; q_patterns := [] |}) with (fold_left enqueue sga {| q_set := []; q_patterns := [] |}) in A.
  set (q := fold_left enqueue sga _) in *.
  assert (Hq : forall p, In p (q_patterns q) <-> In p sga).
  { intros p. rewrite (adds_In _ _ _ p A). cbn. split; [intros [[]|(v & Hv & ->)]; auto|intros H; right; eauto]. }
  destruct (grow_unions_ok t k cg order Hk Hep Hsc Hlt Hord sga m Ss Hs' Lm Hm' fuel 0 q) as (q' & E' & (W & Hq') & I & G).
  - lia.
  - split; [apply A|]. intros p Hp. apply Hq, Hs in Hp as (Hp & Lp). splits; auto; [apply Hp|now apply sga_interesting].
  - intros i B Hi. lia.
  - rewrite E'. cbn [bind]. exists (q_patterns q'). split; [auto|]. split; [apply W|]. intros p. split; [apply Hq'|].
    intros (Hp & Ip & Lp). apply (interesting_complete t k dec (q_patterns q')); auto.
    + intros x Hx Lx. apply I, Hq, Hs. auto.
    + intros B C y HB HC HL D Hy Hv Nv. apply (G B HB C y); auto. apply Hs. split; auto. lia.
Qed.

(** The invariant of the refinement loop. *)
From Coq Require Import Sorted Permutation.
From Verif Require Import Outcome Spec_Task Spec_Relaxation Spec_Projection Spec_PatternCollections Model_Task Proof_Task Model_PQ Model_Graph Model_MAS Model_Evaluators Model_PDB Model_PDBPlan Model_PDBCegar
  Proof_MAS1 Proof_CausalGraph Proof_MAA1 Proof_Pat1 Proof_Cegar1 Proof_Cegar2 Prop_PDB Prop_Evaluators.
Import ListNotations.

Lemma size_app t a b : pattern_size t (a ++ b) = (pattern_size t a * pattern_size t b)%Z.
Proof. unfold pattern_size. induction a as [|v a IH]; cbn [app fold_right]; [lia|rewrite IH; lia]. Qed.
Lemma size_perm t a b : Permutation a b -> pattern_size t a = pattern_size t b.
Proof. unfold pattern_size. induction 1; cbn [fold_right]; lia. Qed.
Lemma list_sum_upd {A} (f : A -> nat) : forall l i x y, nth_error l i = Some x -> list_sum (map f (upd l i y)) + f x = list_sum (map f l) + f y.
Proof.
  induction l as [|h l IH]; intros [|i] x y H; try discriminate; cbn [upd map list_sum fold_right].
  - injection H as ->. change (fold_right Nat.add 0) with list_sum. lia.
  - change (fold_right Nat.add 0) with list_sum. specialize (IH i x y H). lia.
Qed.
Lemma filter_le {A} (f g : A -> bool) : forall l, (forall x, In x l -> f x = true -> g x = true) -> length (filter f l) <= length (filter g l).
Proof.
  induction l as [|h l IH]; intros H; cbn [filter]; auto. assert (H' := IH (fun x Hx => H x (or_intror Hx))). pose proof (H h (or_introl eq_refl)) as Hh.
  destruct (f h), (g h); cbn [length]; try lia; try (discriminate Hh; auto).
Qed.
Lemma filter_lt {A} (f g : A -> bool) : forall l y, (forall x, In x l -> f x = true -> g x = true) -> In y l -> f y = false -> g y = true -> length (filter f l) < length (filter g l).
Proof.
  induction l as [|h l IH]; intros y H Hy0 Ef Eg; [destruct Hy0|]. destruct Hy0 as [-> |Hy]; cbn [filter].
  - rewrite Ef, Eg. cbn [length]. pose proof (filter_le f g l (fun x Hx => H x (or_intror Hx))). lia.
  - assert (H' := IH y (fun x Hx => H x (or_intror Hx)) Hy Ef Eg). pose proof (H h (or_introl eq_refl)) as Hh.
    destruct (f h), (g h); cbn [length]; try lia; try (discriminate Hh; auto).
Qed.

Definition osize (o : option pattern_info) : nat := match o with Some x => pj_num (db_pj (pi_db x)) | None => 0 end.
Definition oone (o : option pattern_info) : nat := match o with Some _ => 1 | None => 0 end.
Definition total (L : list (option pattern_info)) : Z := Z.of_nat (list_sum (map osize L)).
Lemma osize_le L i x : nth_error L i = Some (Some x) -> (0 <= pi_size x <= total L)%Z.
Proof.
  unfold total, pi_size. revert i. induction L as [|o L IH]; intros [|i] H; try discriminate; cbn [map list_sum fold_right]; change (fold_right Nat.add 0) with list_sum.
  - injection H as ->. cbn [osize]. lia.
  - specialize (IH i H). lia.
Qed.

(** The sum of the sizes of the goal variables' projections. *)
Definition sizes_of (t : task) (gs : list fact) : Z := fold_right (fun (g : fact) z => (pattern_size t [fst g] + z)%Z) 0%Z gs.
Lemma sizes_cons t g gs : sizes_of t (g :: gs) = (pattern_size t [fst g] + sizes_of t gs)%Z. Proof. reflexivity. Qed.
Lemma sizes_app t a b : (sizes_of t (a ++ b) = sizes_of t a + sizes_of t b)%Z.
Proof. induction a as [|g a IH]; cbn [app]; [reflexivity|]. rewrite !sizes_cons, IH. lia. Qed.
Lemma sizes_pos t gs : (0 <= sizes_of t gs)%Z.
Proof. induction gs as [|g gs IH]; [cbn; lia|]. rewrite sizes_cons. unfold pattern_size. cbn [fold_right]. lia. Qed.

(** No overflow of int: with one pattern the new size is that of the new pattern. *)
Definition room (t : task) (goals : list fact) (M C : Z) : Prop :=
  (M <= INT_MAX)%Z /\ (Z.max C (sizes_of t goals) <= INT_MAX)%Z /\ (length goals <= 1 \/ (M + Z.max C (sizes_of t goals) <= INT_MAX)%Z).
Lemma total_single L i x : length L <= 1 -> nth_error L i = Some (Some x) -> total L = pi_size x.
Proof. intros Hl H. destruct L as [|o [|o' L]]; [destruct i; discriminate| |cbn [length] in Hl; lia]. destruct i as [|i]; [|destruct i; discriminate]. injection H as ->. unfold total, pi_size. cbn [map list_sum fold_right osize]. f_equal. lia. Qed.

Section T.
Variable P : pqueue.
Variable q0 : PQ P.
Variable fuel : nat.
Variable shuffle : nat -> nat -> list nat -> list nat.
Variable choose : nat -> nat -> list nat -> nat.
Variable pick : nat -> list (nat * nat) -> nat.
Hypothesis Hpick : forall k l, l <> [] -> pick k l < length l.
Variable t : task.
Hypothesis Ht : plain_task t.
Variable wildcard : bool.
Hypothesis Hinfo : forall k pat, pattern_ok t pat -> (pattern_size t pat <= MAX_STATES)%Z ->
  exists x, compute_pattern_info P q0 fuel shuffle choose t wildcard k pat = Ok x /\ pi_pattern x = pat /\ info_ok P q0 t fuel x.
Variables M C : Z.
Variable goals : list fact.
Variable black0 : list nat.
Notation nv := (length (t_vars t)).
Notation goal_doms := (sizes_of t goals).
Hypothesis Hdom : forall x, In x (t_vars t) -> (Z.of_nat (vdom x) <= INT_MAX)%Z.
Hypothesis HM : (0 <= M)%Z.
Hypothesis Hlim : room t goals M C.
Hypothesis Hgoals : incl goals (t_goal t).
Hypothesis Hnd : NoDup (map fst goals).

Lemma M_le : (M <= INT_MAX)%Z.
Proof.
  apply Hlim.
Qed.
Definition info_good (x : pattern_info) : Prop :=
  info_ok P q0 t fuel x /\ (exists g, In g goals /\ In (fst g) (pi_pattern x)) /\
  (forall v, In v (pi_pattern x) -> In v (map fst goals) \/ ~ In v black0) /\
  ((pattern_size t (pi_pattern x) <= M)%Z \/ exists g, In g goals /\ pi_pattern x = [fst g]).
Definition indexed (c : cegar) : Prop := forall v i, c_index c v = Some i <-> exists x, nth_error (c_coll c) i = Some (Some x) /\ In v (pi_pattern x).
Definition Inv (c : cegar) : Prop :=
  length (c_coll c) = length goals /\ (forall i x, nth_error (c_coll c) i = Some (Some x) -> info_good x) /\ indexed c /\
  (forall g, In g goals -> c_index c (fst g) <> None) /\ c_size c = total (c_coll c) /\ (c_size c <= Z.max C goal_doms)%Z /\
  ((c_size c <= C)%Z \/ (forall i x, nth_error (c_coll c) i = Some (Some x) -> exists g, In g goals /\ pi_pattern x = [fst g])) /\
  incl black0 (c_black c).
Definition measure (c : cegar) : nat :=
  list_sum (map oone (c_coll c)) + length (filter (fun v => match c_index c v with None => true | Some _ => false end) (seq 0 nv)) +
  length (filter (fun v => negb (existsb (Nat.eqb v) (c_black c))) (seq 0 nv)).

Lemma info_size x : info_good x -> pi_size x = pattern_size t (pi_pattern x).
Proof. intros ((_ & H & _) & _). exact H. Qed.
Lemma coll_size c i x : Inv c -> nth_error (c_coll c) i = Some (Some x) -> (0 <= pi_size x <= INT_MAX)%Z.
Proof. intros (_ & _ & _ & _ & H1 & H2 & _) H. apply osize_le in H. destruct Hlim as (_ & L & _). lia. Qed.
Lemma int_ok a : (0 <= a <= INT_MAX)%Z -> is_int a. Proof. unfold is_int, INT_MAX, INT_MIN. lia. Qed.

Lemma blacklist_ok c v : Inv c -> v < nv -> ~ In v (c_black c) -> Inv (blacklist c v) /\ measure (blacklist c v) < measure c.
Proof.
  intros (H1 & H2 & H3 & H4 & H5 & H6 & H7 & H8) Hv Hb. split.
  - unfold Inv, blacklist, indexed. cbn [c_coll c_index c_size c_black]. splits; auto. intros u Hu. right. auto.
  - unfold measure, blacklist. cbn [c_coll c_index c_black]. assert (L : forall a b c, b < c -> a + b < a + c) by (intros; lia). apply L. apply filter_lt with v.
    + intros x _ Hx. cbn [existsb] in Hx. apply negb_true_iff, orb_false_iff in Hx. rewrite (proj2 Hx). reflexivity.
    + apply in_seq. lia.
    + cbn [existsb]. now rewrite Nat.eqb_refl.
    + destruct (existsb (Nat.eqb v) (c_black c)) eqn:E; auto. apply existsb_in in E. contradiction.
Qed.

Lemma cget_ok c i x : nth_error (c_coll c) i = Some (Some x) -> cget c i = Ok x.
Proof. intros H. unfold cget, vget. rewrite H. reflexivity. Qed.
Lemma sorted_app_ok a b : pattern_ok t a -> pattern_ok t b -> (forall v, In v a -> In v b -> False) -> pattern_ok t (sort Nat.leb (a ++ b)) /\
  pattern_size t (sort Nat.leb (a ++ b)) = (pattern_size t a * pattern_size t b)%Z /\ forall v, In v (sort Nat.leb (a ++ b)) <-> In v a \/ In v b.
Proof.
  intros (A1 & A2) (B1 & B2) D. assert (E : forall v, In v (sort Nat.leb (a ++ b)) <-> In v a \/ In v b) by (intros v; rewrite sort_In, in_app_iff; reflexivity). splits; auto.
  - split; [|intros v Hv; apply E in Hv as [Hv|Hv]; auto]. apply sort_lt. apply sorted_nodup in A1, B1. clear -A1 B1 D.
    induction A1 as [|x a Hx A1 IH]; cbn [app]; auto. constructor; [|apply IH; intros v H1 H2; apply (D v); [now right|auto]].
    rewrite in_app_iff. intros [H|H]; [auto|apply (D x); [now left|auto]].
  - rewrite <- size_app. apply size_perm. apply sort_perm.
Qed.

Lemma merge_step c i j v x : Inv c -> nth_error (c_coll c) i = Some (Some x) -> c_index c v = Some j -> ~ In v (pi_pattern x) ->
  exists b, can_merge_patterns M C c i j = Ok b /\
    (b = true -> exists c', merge_patterns P q0 fuel shuffle choose t wildcard c i j = Ok c' /\ Inv c' /\ measure c' < measure c).
Proof.
  intros HI Hi Hj Hv. pose proof HI as (H1 & H2 & H3 & H4 & H5 & H6 & H7 & H8). unfold indexed in H3.
  destruct (proj1 (H3 v j) Hj) as (y & Hy & Hvy).
  assert (Hij : i <> j) by (intros ->; rewrite Hi in Hy; injection Hy as <-; contradiction).
  pose proof (coll_size c i x HI Hi) as Sx. pose proof (coll_size c j y HI Hy) as Sy.
  unfold can_merge_patterns. rewrite (cget_ok _ _ _ Hi), (cget_ok _ _ _ Hy). cbn [bind].
  rewrite C58_is_product_within_limit by (pose proof M_le; try apply int_ok; lia). cbn [bind]. destruct (Z.leb_spec (pi_size x * pi_size y) M) as [Hp|Hp]; cbn [negb]; [|exists false; split; [auto|discriminate]].
  assert (Hroom : (M + Z.max C goal_doms <= INT_MAX)%Z).
  { destruct Hlim as (_ & _ & [L|L]); auto. apply nth_error_Some_lt in Hi, Hy. lia. }
  rewrite (proj2 (Z.leb_le _ _)) by lia. cbn [guard bind]. eexists. split; [reflexivity|]. intros Hc. apply Z.leb_le in Hc.
  unfold merge_patterns. rewrite (cget_ok _ _ _ Hi), (cget_ok _ _ _ Hy). cbn [bind].
  pose proof (H2 i x Hi) as Gx. pose proof (H2 j y Hy) as Gy. pose proof Gx as ((Px & _) & Gx2 & Gx3 & _). pose proof Gy as ((Py & _) & Gy2 & Gy3 & _).
  destruct (sorted_app_ok (pi_pattern x) (pi_pattern y) Px Py) as (Pz & Sz & Iz).
  { intros u Hu1 Hu2. apply Hij. assert (E1 : c_index c u = Some i) by (apply H3; eauto). assert (E2 : c_index c u = Some j) by (apply H3; eauto). congruence. }
  rewrite <- (info_size x Gx), <- (info_size y Gy) in Sz.
  destruct (Hinfo (c_count c) _ Pz) as (z & -> & Ez & Oz); [pose proof M_le; unfold MAX_STATES, INT_MAX in *; lia|]. cbn [bind].
  assert (Zz : pi_size z = (pi_size x * pi_size y)%Z) by (destruct Oz as (_ & E & _); rewrite E, Ez; exact Sz).
  pose proof (nth_error_Some_lt _ _ _ Hi) as Li. pose proof (nth_error_Some_lt _ _ _ Hy) as Lj.
  unfold vset. rewrite (proj2 (Nat.ltb_lt _ _) Li). cbn [bind]. rewrite upd_length, (proj2 (Nat.ltb_lt _ _) Lj). cbn [bind].
  eexists. split; [reflexivity|].
  assert (Hyu : nth_error (upd (c_coll c) i (Some z)) j = Some (Some y)) by (rewrite upd_nth_neq; auto).
  assert (Nth : forall k o, nth_error (upd (upd (c_coll c) i (Some z)) j None) k = Some o <-> (k = j /\ o = None) \/ (k = i /\ o = Some z) \/ (k <> i /\ k <> j /\ nth_error (c_coll c) k = Some o)).
  { intros k o. rewrite !upd_nth, upd_length, (proj2 (Nat.ltb_lt _ _) Li), (proj2 (Nat.ltb_lt _ _) Lj), !andb_true_r.
    destruct (Nat.eqb_spec j k) as [<- |Nj]; [split; [intros E; injection E as <-; auto|intros [[_ ->]|[[-> _]|(_ & N & _)]]; congruence]|].
    destruct (Nat.eqb_spec i k) as [<- |Ni]; [split; [intros E; injection E as <-; auto|intros [[-> _]|[[_ ->]|(N & _)]]; congruence]|].
    split; [intros E; auto|intros [[-> _]|[[-> _]|(_ & _ & N)]]; congruence]. }
  assert (Gz : info_good z).
  { split; auto. rewrite Ez. splits.
    - destruct Gx2 as (g & A & B). exists g. split; auto. apply Iz. now left.
    - intros u Hu. apply Iz in Hu as [Hu|Hu]; auto.
    - left. lia. }
  assert (Tot : (c_size c - pi_size x - pi_size y + pi_size z)%Z = total (upd (upd (c_coll c) i (Some z)) j None)).
  { rewrite H5. unfold total. pose proof (list_sum_upd osize (c_coll c) i (Some x) (Some z) Hi) as E1.
    pose proof (list_sum_upd osize _ j (Some y) None Hyu) as E2. cbn [osize] in E1, E2. unfold pi_size. lia. }
  split.
  - unfold Inv, indexed. cbn [c_coll c_index c_size c_black]. rewrite !upd_length. splits; auto.
    + intros k w Hk. apply Nth in Hk as [(_ & E)|[(_ & E)|(_ & _ & E)]]; [discriminate|injection E as ->; auto|eauto].
    + intros u k. destruct (existsb (Nat.eqb u) (pi_pattern y)) eqn:Eu.
      * apply existsb_in in Eu. split.
        -- intros E. injection E as <-. exists z. split; [apply Nth; auto|]. rewrite Ez. apply Iz. auto.
        -- intros (w & Hw & Hu). apply Nth in Hw as [(_ & E)|[(-> & _)|(Ni & Nj & E)]]; [discriminate|auto|].
           exfalso. apply Nj. assert (E1 : c_index c u = Some k) by (apply H3; eauto). assert (E2 : c_index c u = Some j) by (apply H3; eauto). congruence.
      * assert (Nu : ~ In u (pi_pattern y)) by (intros H; apply existsb_in in H; congruence). rewrite H3. split.
        -- intros (w & Hw & Hu). destruct (Nat.eq_dec k i) as [-> |Ni].
           ++ exists z. split; [apply Nth; auto|]. rewrite Ez. apply Iz. left. rewrite Hi in Hw. injection Hw as ->. auto.
           ++ exists w. split; auto. apply Nth. right; right. splits; auto. intros ->. rewrite Hy in Hw. injection Hw as ->. auto.
        -- intros (w & Hw & Hu). apply Nth in Hw as [(_ & E)|[(-> & E)|(Ni & Nj & E)]]; [discriminate| |eauto].
           injection E as ->. rewrite Ez in Hu. apply Iz in Hu as [Hu|Hu]; [eauto|contradiction].
    + intros g Hg. destruct (existsb _ _); [discriminate|auto].
    + rewrite Zz. lia.
    + left. rewrite Zz. lia.
  - unfold measure. cbn [c_coll c_index c_black].
    pose proof (list_sum_upd oone (c_coll c) i (Some x) (Some z) Hi) as E1. pose proof (list_sum_upd oone _ j (Some y) None Hyu) as E2. cbn [oone] in E1, E2.
    assert (F : length (filter (fun u => match (if existsb (Nat.eqb u) (pi_pattern y) then Some i else c_index c u) with None => true | Some _ => false end) (seq 0 nv)) <=
      length (filter (fun u => match c_index c u with None => true | Some _ => false end) (seq 0 nv))).
    { apply filter_le. intros u _. destruct (existsb _ _); [discriminate|auto]. }
    lia.
Qed.

Lemma add_step c i v x : Inv c -> nth_error (c_coll c) i = Some (Some x) -> c_index c v = None -> v < nv -> ~ In v (c_black c) ->
  exists b, can_add_variable t M C c i v = Ok b /\
    (b = true -> exists c', add_variable P q0 fuel shuffle choose t wildcard c i v = Ok c' /\ Inv c' /\ measure c' < measure c).
Proof.
  intros HI Hi Hn Hv Hb. pose proof HI as (H1 & H2 & H3 & H4 & H5 & H6 & H7 & H8). unfold indexed in H3. pose proof (coll_size c i x HI Hi) as Sx.
  destruct (vget_some (t_vars t) v Hv) as (var & Hvar & Evar). pose proof (Hdom var (nth_error_In _ _ Hvar)) as Sd.
  unfold can_add_variable. rewrite (cget_ok _ _ _ Hi), Evar. cbn [bind].
  rewrite C58_is_product_within_limit by (pose proof M_le; try apply int_ok; lia). cbn [bind]. destruct (Z.leb_spec (pi_size x * Z.of_nat (vdom var)) M) as [Hp|Hp]; cbn [negb]; [|exists false; split; [auto|discriminate]].
  assert (Hroom : (c_size c + (pi_size x * Z.of_nat (vdom var) - pi_size x) <= INT_MAX)%Z).
  { destruct Hlim as (L0 & _ & [L|L]); [|lia]. rewrite H5, (total_single (c_coll c) i x) by (auto; lia). lia. }
  rewrite (proj2 (Z.leb_le _ _) Hroom). cbn [guard bind]. eexists. split; [reflexivity|]. intros Hc. apply Z.leb_le in Hc.
  unfold add_variable. rewrite (cget_ok _ _ _ Hi). cbn [bind]. pose proof (H2 i x Hi) as Gx. pose proof Gx as ((Px & _) & Gx2 & Gx3 & _).
  assert (Nvx : ~ In v (pi_pattern x)). { intros H. assert (E : c_index c v = Some i) by (apply H3; eauto). congruence. }
  assert (Pv : pattern_ok t [v]) by (split; [repeat constructor|intros u [<- |[]]; auto]).
  assert (Sv : pattern_size t [v] = Z.of_nat (vdom var)) by (cbn [pattern_size fold_right]; unfold pattern_size; cbn [fold_right]; rewrite (nth_error_nth _ _ _ Hvar); lia).
  destruct (sorted_app_ok (pi_pattern x) [v] Px Pv) as (Pz & Sz & Iz). { intros u Hu [<- |[]]. auto. }
  rewrite <- (info_size x Gx), Sv in Sz.
  destruct (Hinfo (c_count c) _ Pz) as (z & -> & Ez & Oz); [pose proof M_le; unfold MAX_STATES, INT_MAX in *; lia|]. cbn [bind].
  assert (Zz : pi_size z = (pi_size x * Z.of_nat (vdom var))%Z) by (destruct Oz as (_ & E & _); rewrite E, Ez; exact Sz).
  pose proof (nth_error_Some_lt _ _ _ Hi) as Li. unfold vset. rewrite (proj2 (Nat.ltb_lt _ _) Li). cbn [bind]. eexists. split; [reflexivity|].
  assert (Nth : forall k o, nth_error (upd (c_coll c) i (Some z)) k = Some o <-> (k = i /\ o = Some z) \/ (k <> i /\ nth_error (c_coll c) k = Some o)).
  { intros k o. rewrite upd_nth, (proj2 (Nat.ltb_lt _ _) Li), andb_true_r.
    destruct (Nat.eqb_spec i k) as [<- |Ni]; [split; [intros E; injection E as <-; auto|intros [[_ ->]|(N & _)]; congruence]|].
    split; [intros E; auto|intros [[-> _]|(_ & N)]; congruence]. }
  assert (Gz : info_good z).
  { split; auto. rewrite Ez. splits.
    - destruct Gx2 as (g & A & B). exists g. split; auto. apply Iz. now left.
    - intros u Hu. apply Iz in Hu as [Hu|[<- |[]]]; auto.
    - left. lia. }
  assert (Tot : (c_size c - pi_size x + pi_size z)%Z = total (upd (c_coll c) i (Some z))).
  { rewrite H5. unfold total. pose proof (list_sum_upd osize (c_coll c) i (Some x) (Some z) Hi) as E1. cbn [osize] in E1. unfold pi_size. lia. }
  split.
  - unfold Inv, indexed. cbn [c_coll c_index c_size c_black]. rewrite !upd_length. splits; auto.
    + intros k w Hk. apply Nth in Hk as [(_ & E)|(_ & E)]; [injection E as ->; auto|eauto].
    + intros u k. destruct (Nat.eqb_spec u v) as [-> |Nu].
      * split.
        -- intros E. injection E as <-. exists z. split; [apply Nth; auto|]. rewrite Ez. apply Iz. right. now left.
        -- intros (w & Hw & Hu). apply Nth in Hw as [(-> & _)|(Ni & E)]; [auto|]. assert (E1 : c_index c v = Some k) by (apply H3; eauto). congruence.
      * rewrite H3. split.
        -- intros (w & Hw & Hu). destruct (Nat.eq_dec k i) as [-> |Ni].
           ++ exists z. split; [apply Nth; auto|]. rewrite Ez. apply Iz. left. rewrite Hi in Hw. injection Hw as ->. auto.
           ++ exists w. split; auto. apply Nth. auto.
        -- intros (w & Hw & Hu). apply Nth in Hw as [(-> & E)|(Ni & E)]; [|eauto].
           injection E as ->. rewrite Ez in Hu. apply Iz in Hu as [Hu|[Hu|[]]]; [eauto|congruence].
    + intros g Hg. destruct (fst g =? v); [discriminate|auto].
    + rewrite Zz. lia.
    + left. rewrite Zz. lia.
  - unfold measure. cbn [c_coll c_index c_black].
    pose proof (list_sum_upd oone (c_coll c) i (Some x) (Some z) Hi) as E1. cbn [oone] in E1.
    assert (F : length (filter (fun u => match (if u =? v then Some i else c_index c u) with None => true | Some _ => false end) (seq 0 nv)) <
      length (filter (fun u => match c_index c u with None => true | Some _ => false end) (seq 0 nv))).
    { apply filter_lt with v.
      - intros u _. destruct (u =? v); [discriminate|auto].
      - apply in_seq. lia.
      - now rewrite Nat.eqb_refl.
      - now rewrite Hn. }
    lia.
Qed.

Lemma refine_ok k c flaws : Inv c -> flaws <> [] -> (forall f, In f flaws -> good_flaw t (c_coll c) (c_black c) f) ->
  exists c', refine P q0 fuel shuffle choose pick t M C wildcard k c flaws = Ok c' /\ Inv c' /\ measure c' < measure c.
Proof.
  intros HI Hne Hf. unfold refine. destruct (vget_some flaws (pick k flaws) (Hpick k flaws Hne)) as ([i v] & Hn & ->). cbn [bind].
  destruct (Hf (i, v) (nth_error_In _ _ Hn)) as (x & Hx & Hvx & Hvb & Hv). cbn [fst snd] in *.
  destruct (c_index c v) as [j|] eqn:Ej.
  - assert (Hij : j <> i). { intros ->. pose proof HI as (_ & _ & H3 & _). destruct (proj1 (H3 v i) Ej) as (y & Hy & Hvy). rewrite Hx in Hy. injection Hy as <-. contradiction. }
    apply Nat.eqb_neq in Hij. rewrite Hij. cbn [negb guard bind].
    destruct (merge_step c i j v x HI Hx Ej Hvx) as (b & -> & H). cbn [bind]. destruct b; [auto|]. exists (blacklist c v). split; auto. now apply blacklist_ok.
  - destruct (add_step c i v x HI Hx Ej Hv Hvb) as (b & -> & H). cbn [bind]. destruct b; [auto|]. exists (blacklist c v). split; auto. now apply blacklist_ok.
Qed.

(** The initial collection. *)
Lemma initial_ok : exists c, compute_initial_collection P q0 fuel shuffle choose t wildcard goals black0 = Ok c /\ Inv c /\ c_black c = black0 /\
  measure c <= length goals + 2 * nv.
Proof.
  unfold compute_initial_collection.
  assert (Hg1 : forall g, In g goals -> (0 <= pattern_size t [fst g])%Z) by (intros g _; unfold pattern_size; cbn [fold_right]; lia).
  assert (G : forall todo done c, goals = done ++ todo -> c_black c = black0 -> length (c_coll c) = length done ->
    (forall i o, nth_error (c_coll c) i = Some o -> exists x g, o = Some x /\ nth_error done i = Some g /\ pi_pattern x = [fst g] /\ info_ok P q0 t fuel x) ->
    indexed c -> c_size c = total (c_coll c) -> (c_size c = sizes_of t done)%Z ->
    exists c', fold_outcome (fun c g => add_pattern_for_var P q0 fuel shuffle choose t wildcard c (fst g)) todo c = Ok c' /\ c_black c' = black0 /\
      length (c_coll c') = length goals /\
      (forall i o, nth_error (c_coll c') i = Some o -> exists x g, o = Some x /\ nth_error goals i = Some g /\ pi_pattern x = [fst g] /\ info_ok P q0 t fuel x) /\
      indexed c' /\ c_size c' = total (c_coll c') /\ c_size c' = goal_doms).
  { induction todo as [|g todo IH]; intros done c Eg Eb El Ho Hx Hs Hd; cbn [fold_outcome].
    - exists c. rewrite app_nil_r in Eg. subst done. auto 10.
    - pose proof (sizes_pos t todo) as Q.
      assert (Le : (c_size c + pattern_size t [fst g] <= INT_MAX)%Z).
      { destruct Hlim as (_ & L & _). rewrite Eg, sizes_app, sizes_cons, <- Hd in L. lia. }
      assert (Hin : In g goals) by (rewrite Eg; apply in_app_iff; right; now left).
      assert (Hlt : fst g < nv) by (apply (goal_lt t Ht); auto).
      unfold add_pattern_for_var at 1. assert (Hsz : (0 <= c_size c)%Z) by (rewrite Hs; unfold total; lia).
      destruct (Hinfo (c_count c) [fst g]) as (x & -> & Ex & Ox); [split; [repeat constructor|intros u [<- |[]]; auto]|unfold MAX_STATES, INT_MAX in *; lia|]. cbn [bind].
      assert (Sx : pi_size x = pattern_size t [fst g]) by (destruct Ox as (_ & E & _); rewrite E, Ex; reflexivity).
      rewrite Sx, (proj2 (Z.leb_le _ _) Le). cbn [guard bind]. apply (IH (done ++ [g])); cbn [c_black c_coll c_index c_size]; auto.
      + now rewrite <- app_assoc.
      + rewrite !app_length, El. reflexivity.
      + intros i o Hi. destruct (Nat.lt_ge_cases i (length (c_coll c))) as [L|L].
        * rewrite nth_error_app1 in Hi by auto. destruct (Ho i o Hi) as (y & h & A & B & D). exists y, h. rewrite nth_error_app1 by lia. auto.
        * rewrite nth_error_app2 in Hi by auto. destruct (i - length (c_coll c)) as [|d] eqn:Ed; cbn [nth_error] in Hi; [|destruct d; discriminate].
          injection Hi as <-. exists x, g. rewrite nth_error_app2 by lia. rewrite <- El, Ed. auto.
      + intros v i. cbn [c_coll c_index]. assert (Fresh : forall k y, nth_error (c_coll c) k = Some (Some y) -> ~ In (fst g) (pi_pattern y)).
        { intros k y Hy H. destruct (Ho _ _ Hy) as (y' & h & E & Hh & Ep & _). injection E as <-. rewrite Ep in H. destruct H as [H|[]].
          rewrite Eg, map_app in Hnd. cbn [map] in Hnd. apply NoDup_remove_2 in Hnd. apply Hnd. apply in_app_iff. left. rewrite <- H. apply in_map. eapply nth_error_In; eauto. }
        destruct (Nat.eqb_spec v (fst g)) as [-> |Nv].
        * split.
          -- intros E. injection E as <-. exists x. split; [rewrite nth_error_app2, Nat.sub_diag by lia; reflexivity|rewrite Ex; now left].
          -- intros (y & Hy & Hv). destruct (Nat.lt_ge_cases i (length (c_coll c))) as [L|L].
             ++ rewrite nth_error_app1 in Hy by auto. exfalso. eapply Fresh; eauto.
             ++ apply nth_error_Some_lt in Hy. rewrite app_length in Hy. cbn [length] in Hy. f_equal. lia.
        * rewrite (Hx v i). split.
          -- intros (y & Hy & Hv). exists y. split; auto. rewrite nth_error_app1; auto. eapply nth_error_Some_lt; eauto.
          -- intros (y & Hy & Hv). destruct (Nat.lt_ge_cases i (length (c_coll c))) as [L|L].
             ++ rewrite nth_error_app1 in Hy by auto. eauto.
             ++ rewrite nth_error_app2 in Hy by auto. destruct (i - length (c_coll c)) as [|d]; cbn [nth_error] in Hy; [|destruct d; discriminate].
                injection Hy as <-. rewrite Ex in Hv. destruct Hv as [<- |[]]. congruence.
      + rewrite Hs, <- Sx. unfold total. rewrite map_app, list_sum_app. cbn [map list_sum fold_right osize]. unfold pi_size. lia.
      + rewrite sizes_app, sizes_cons, <- Hd. cbn. lia. }
  destruct (G goals [] {| c_black := black0; c_coll := []; c_index := fun _ => None; c_size := 0; c_count := 0 |}) as (c & E & Eb & El & Ho & Hx & Hs & Hd); auto.
  - intros [|i] o; discriminate.
  - intros v i. cbn [c_coll c_index]. split; [discriminate|]. intros (x & H & _). destruct i; discriminate.
  - exists c. split; auto. split; [|split; auto].
    + unfold Inv. splits; auto.
      * intros i x Hi. destruct (Ho _ _ Hi) as (x' & g & E1 & Hg & Ep & Ox). injection E1 as <-. apply nth_error_In in Hg. split; auto. rewrite Ep. splits.
        -- exists g. split; auto. now left.
        -- intros v [<- |[]]. left. now apply in_map.
        -- right. exists g. auto.
      * intros g Hg. apply In_nth_error in Hg as (i & Hi). destruct (nth_error (c_coll c) i) as [o|] eqn:Eo.
        -- destruct (Ho _ _ Eo) as (x & g' & -> & Hg' & Ep & _). rewrite Hi in Hg'. injection Hg' as <-.
           assert (E1 : c_index c (fst g) = Some i) by (apply Hx; exists x; split; auto; rewrite Ep; now left). congruence.
        -- apply nth_error_None in Eo. apply nth_error_Some_lt in Hi. lia.
      * lia.
      * right. intros i x Hi. destruct (Ho _ _ Hi) as (x' & g & E1 & Hg & Ep & Ox). injection E1 as <-. apply nth_error_In in Hg. eauto.
      * rewrite Eb. apply incl_refl.
    + unfold measure. assert (F : forall f : nat -> bool, length (filter f (seq 0 nv)) <= nv).
      { intros f. pose proof (filter_le f (fun _ => true) (seq 0 nv) (fun _ _ _ => eq_refl)) as Q. assert (E1 : forall l : list nat, filter (fun _ => true) l = l) by (induction l as [|a l IHl]; cbn [filter]; [auto|now rewrite IHl]). rewrite E1, seq_length in Q. exact Q. }
      pose proof (F (fun v => match c_index c v with None => true | Some _ => false end)). pose proof (F (fun v => negb (existsb (Nat.eqb v) (c_black c)))).
      assert (O : forall L, list_sum (map oone L) <= length L).
      { induction L as [|[|] L IHL]; cbn [map list_sum fold_right length oone]; change (fold_right Nat.add 0) with list_sum; lia. }
      specialize (O (c_coll c)). lia.
Qed.
End T.

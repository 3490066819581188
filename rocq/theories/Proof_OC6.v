(** Proofs about operator-counting constraints, part 6: the vertex elimination graph. *)
From Coq Require Import Permutation.
From Verif Require Import Outcome Spec_Task Spec_OperatorCounting Model_PQ Model_OperatorCounting Proof_PerState2 Proof_OC1 Proof_OC4.
Local Open Scope nat_scope.

Section VE.
Variable P : pqueue.
Variable qe : PQ P.
Variable bag : PQ P -> list (nat * nat).
Hypothesis HP : pq_contract P bag.
Hypothesis Hqe : bag qe = [].
Variable n : nat.
Notation vegraph := (vegraph P).
Notation nodes := (ve_nodes P).
Notation edges := (ve_edges P).
Notation delta := (ve_delta P).
Notation queue := (ve_queue P).

(** [el] lists the eliminated nodes in the order of their elimination; the triples that satisfy [todo]
    may still be missing. *)
Record VG (el : list nat) (todo : nat * nat * nat -> Prop) (g : vegraph) : Prop := {
  vg_len : length (nodes g) = n;
  vg_edge : forall a b, In (a, b) (edges g) -> a < n /\ b < n /\ a <> b;
  vg_nd : NoDup (edges g);
  vg_node : forall a na, nth_error (nodes g) a = Some na -> (forall b, In b (nd_succ na) <-> In (a, b) (edges g)) /\
     (forall b, In b (nd_pred na) <-> In (b, a) (edges g)) /\ NoDup (nd_succ na) /\ (nd_elim na = true <-> In a el);
  vg_delta : forall i j k, In (i, j, k) (delta g) -> In (i, j) (edges g) /\ In (j, k) (edges g) /\ In (i, k) (edges g);
  vg_el : NoDup el /\ forall a, In a el -> a < n;
  vg_compl : forall l1 j l2, el = l1 ++ j :: l2 -> forall i k, ~ In i l1 -> ~ In k l1 -> In (i, j) (edges g) -> In (j, k) (edges g) -> i <> k ->
     In (i, j, k) (delta g) \/ todo (i, j, k)
}.
(** The queue mentions the current in-degree of every node that is not eliminated. *)
Definition VQ (cov : nat -> Prop) (g : vegraph) : Prop :=
  (forall k a, In (k, a) (bag (queue g)) -> a < n) /\
  forall a na, cov a -> nth_error (nodes g) a = Some na -> nd_elim na = false -> In (nd_in na, a) (bag (queue g)).

Lemma edge_eqb_eq a b : edge_eqb a b = true <-> a = b.
Proof. unfold edge_eqb. rewrite andb_true_iff, !Nat.eqb_eq. destruct a, b; cbn [fst snd]. split; [intros [-> ->]; auto|intros E; inv E; auto]. Qed.
Lemma triple_eqb_eq a b : triple_eqb a b = true <-> a = b.
Proof. unfold triple_eqb. rewrite andb_true_iff, edge_eqb_eq, Nat.eqb_eq. destruct a as [a1 a2], b as [b1 b2]; cbn [fst snd]. split; [intros [-> ->]; auto|intros E; inv E; auto]. Qed.

Lemma add_edge_ok el todo g a b cov : VG el todo g -> VQ cov g -> a < n -> b < n -> a <> b -> ~ In a el -> ~ In b el ->
  exists g', add_edge P g a b = Ok g' /\ VG el todo g' /\ VQ cov g' /\ (forall e, In e (edges g') <-> In e (edges g) \/ e = (a, b)) /\ delta g' = delta g /\ queue g' = queue g /\
    (forall x nx, nth_error (nodes g') x = Some nx -> exists nx0, nth_error (nodes g) x = Some nx0 /\ nd_elim nx = nd_elim nx0).
Proof.
  intros HG [HQ1 HQ2] Ha Hb Hab Hae Hbe. unfold add_edge. destruct (existsb (edge_eqb (a, b)) (edges g)) eqn:Ex.
  - exists g. apply existsb_exists in Ex. destruct Ex as (e & He & Ee). apply edge_eqb_eq in Ee. subst e. splits; auto; [split; auto|intros e; split; [auto|intros [H| ->]; auto]|eauto].
  - assert (Hn : ~ In (a, b) (edges g)).
    { intros Hi. assert (existsb (edge_eqb (a, b)) (edges g) = true); [|congruence]. apply existsb_exists. exists (a, b). split; auto. now apply edge_eqb_eq. }
    destruct HG as [L1 L2 L3 L4 L5 L6 L7].
    destruct (nth_error (nodes g) a) as [na|] eqn:Ea; [|apply nth_error_None in Ea; lia]. rewrite (proj2 (vget_ok _ _ _) Ea). cbn [bind].
    rewrite (proj2 (vset_ok _ _ _ _) (conj (nth_error_Some_lt _ _ _ Ea) eq_refl)). cbn [bind].
    destruct (nth_error (nodes g) b) as [nb|] eqn:Eb; [|apply nth_error_None in Eb; lia].
    set (na' := {| nd_pred := nd_pred na; nd_succ := nd_succ na ++ [b]; nd_elim := nd_elim na; nd_in := nd_in na |}).
    assert (Eb' : nth_error (upd (nodes g) a na') b = Some nb) by (rewrite upd_nth_neq; auto). rewrite (proj2 (vget_ok _ _ _) Eb'). cbn [bind].
    rewrite (proj2 (vset_ok _ _ _ _) (conj (nth_error_Some_lt _ _ _ Eb') eq_refl)). cbn [bind].
    set (nb' := {| nd_pred := nd_pred nb ++ [a]; nd_succ := nd_succ nb; nd_elim := nd_elim nb; nd_in := nd_in nb |}).
    eexists. split; [reflexivity|].
    assert (HN : forall x nx, nth_error (upd (upd (nodes g) a na') b nb') x = Some nx -> (x = a /\ nx = na') \/ (x = b /\ nx = nb') \/ (x <> a /\ x <> b /\ nth_error (nodes g) x = Some nx)).
    { intros x nx Hx. destruct (Nat.eq_dec x b) as [->|Hxb].
      - rewrite upd_nth_eq in Hx by (rewrite upd_length; lia). inv Hx. auto.
      - rewrite upd_nth_neq in Hx by auto. destruct (Nat.eq_dec x a) as [->|Hxa].
        + rewrite upd_nth_eq in Hx by lia. inv Hx. auto.
        + rewrite upd_nth_neq in Hx by auto. auto. }
    assert (HE : forall e, In e (edges g ++ [(a, b)]) <-> In e (edges g) \/ e = (a, b)) by (intros e; rewrite in_app_iff; cbn [In]; intuition).
    splits; [constructor| | |reflexivity|reflexivity|]; cbn [ve_nodes ve_edges ve_delta ve_queue].
    + now rewrite !upd_length.
    + intros x y Hi. apply HE in Hi. destruct Hi as [Hi|Hi]; [auto|inv Hi; auto].
    + apply (Permutation_NoDup (Permutation_cons_append (edges g) (a, b))). constructor; auto.
    + intros x nx Hx. apply HN in Hx. destruct Hx as [[-> ->]|[[-> ->]|(Hxa & Hxb & Hx)]].
      * destruct (L4 a na Ea) as (S1 & S2 & S3 & S4). cbn [na' nd_succ nd_pred nd_elim]. splits; auto.
        -- intros y. rewrite in_app_iff, HE, S1. cbn [In]. split; [intros [H|[<-|[]]]; auto|intros [H|H]; [auto|inv H; auto]].
        -- intros y. rewrite HE, S2. split; [auto|intros [H|H]; [auto|]]. inv H. congruence.
        -- apply (Permutation_NoDup (Permutation_cons_append (nd_succ na) b)). constructor; auto. rewrite S1. auto.
      * destruct (L4 b nb Eb) as (S1 & S2 & S3 & S4). cbn [nb' nd_succ nd_pred nd_elim]. splits; auto.
        -- intros y. rewrite HE, S1. split; [auto|intros [H|H]; [auto|]]. inv H. congruence.
        -- intros y. rewrite in_app_iff, HE, S2. cbn [In]. split; [intros [H|[<-|[]]]; auto|intros [H|H]; [auto|inv H; auto]].
      * destruct (L4 x nx Hx) as (S1 & S2 & S3 & S4). splits; auto.
        -- intros y. rewrite HE, S1. split; [auto|intros [H|H]; [auto|]]. inv H. congruence.
        -- intros y. rewrite HE, S2. split; [auto|intros [H|H]; [auto|]]. inv H. congruence.
    + intros i j k Hd. destruct (L5 i j k Hd) as (H1 & H2 & H3). splits; apply HE; auto.
    + auto.
    + intros l1 j l2 El i k Hi Hk E1 E2 Hik. apply HE in E1, E2. assert (Hj : In j el) by (rewrite El; apply in_or_app; right; now left).
      destruct E1 as [E1|E1]; [|inv E1; contradiction]. destruct E2 as [E2|E2]; [|inv E2; contradiction]. eauto.
    + split; auto. cbn [ve_nodes ve_queue]. intros x nx Hc Hx He. apply HN in Hx. destruct Hx as [[-> ->]|[[-> ->]|(Hxa & Hxb & Hx)]]; cbn [na' nb' nd_in nd_elim] in *; eauto.
    + exact HE.
    + intros x nx Hx. apply HN in Hx. destruct Hx as [[-> ->]|[[-> ->]|(Hxa & Hxb & Hx)]]; [exists na|exists nb|exists nx]; splits; auto.
Qed.

Lemma alive_of_ok el todo g l : VG el todo g -> (forall a, In a l -> a < n) -> exists r, alive_of P g l = Ok r /\ (forall x, In x r <-> In x l /\ ~ In x el) /\ (NoDup l -> NoDup r).
Proof.
  intros HG. induction l as [|a r IH]; intros Hl; cbn [alive_of].
  - exists []. splits; auto. intros x. split; [intros []|intros [[] _]].
  - destruct (nth_error (nodes g) a) as [na|] eqn:Ea; [|apply nth_error_None in Ea; rewrite (vg_len _ _ _ HG) in Ea; specialize (Hl a (or_introl eq_refl)); lia].
    unfold alive. rewrite (proj2 (vget_ok _ _ _) Ea). cbn [bind]. destruct IH as (l & E & Hx & Hn); [intros; apply Hl; now right|]. rewrite E. cbn [bind].
    destruct (vg_node _ _ _ HG a na Ea) as (_ & _ & _ & He). destruct (nd_elim na) eqn:Ee; cbn [negb].
    + exists l. splits; auto; [|intros H; inv H; auto]. intros x. rewrite Hx. cbn [In]. assert (In a el) by (apply He; auto). split; [intros [H1 H2]; auto|intros [[<-|H1] H2]; [contradiction|auto]].
    + exists (a :: l). assert (~ In a el) by (intros H; apply He in H; congruence). splits; auto.
      * intros x. cbn [In]. rewrite Hx. split; [intros [<-|[H1 H2]]; auto|intros [[<-|H1] H2]; auto].
      * intros Hn'. inv Hn'. constructor; auto. rewrite Hx. tauto.
Qed.

Lemma push_fact_ok el todo g a cov : VG el todo g -> VQ cov g -> a < n -> exists g', push_fact P g a = Ok g' /\ VG el todo g' /\ VQ (fun b => cov b \/ b = a) g' /\ edges g' = edges g /\ delta g' = delta g /\
  length (bag (queue g')) <= S (length (bag (queue g))).
Proof.
  intros HG [HQ1 HQ2] Ha. unfold push_fact. destruct (nth_error (nodes g) a) as [na|] eqn:Ea; [|apply nth_error_None in Ea; rewrite (vg_len _ _ _ HG) in Ea; lia].
  rewrite (proj2 (vget_ok _ _ _) Ea). cbn [bind]. destruct (nd_elim na) eqn:Ee.
  - exists g. splits; auto. split; auto. intros x nx [Hc| ->] Hx He; [eauto|congruence].
  - destruct (vg_node _ _ _ HG a na Ea) as (N1 & N2 & N3 & N4). destruct (alive_of_ok el todo g (nd_pred na) HG) as (ps & Eps & _ & _).
    { intros x Hx. apply N2 in Hx. now apply (vg_edge _ _ _ HG) in Hx. }
    rewrite Eps. cbn [bind]. rewrite (proj2 (vset_ok _ _ _ _) (conj (nth_error_Some_lt _ _ _ Ea) eq_refl)). cbn [bind]. eexists. split; [reflexivity|].
    set (na' := {| nd_pred := nd_pred na; nd_succ := nd_succ na; nd_elim := false; nd_in := length ps |}).
    assert (HN : forall x nx, nth_error (upd (nodes g) a na') x = Some nx -> (x = a /\ nx = na') \/ (x <> a /\ nth_error (nodes g) x = Some nx)).
    { intros x nx Hx. destruct (Nat.eq_dec x a) as [->|Hxa]; [rewrite upd_nth_eq in Hx by (eapply nth_error_Some_lt; eauto); inv Hx; auto|rewrite upd_nth_neq in Hx by auto; auto]. }
    pose proof (pq_push_ok P bag HP (queue g) (length ps) a) as Hpush.
    destruct HG as [L1 L2 L3 L4 L5 L6 L7]. splits; [constructor; cbn [ve_nodes ve_edges ve_delta]; auto| | | |].
    + now rewrite upd_length.
    + intros x nx Hx. apply HN in Hx. destruct Hx as [[-> ->]|[Hxa Hx]]; auto. cbn [na' nd_succ nd_pred nd_elim]. splits; auto. split; [intros H; discriminate|intros H; apply N4 in H; congruence].
    + split; cbn [ve_nodes ve_queue].
      * intros k b Hi. apply (Permutation_in _ Hpush) in Hi. destruct Hi as [Hi|Hi]; [inv Hi; auto|eauto].
      * intros x nx Hc Hx He. apply (Permutation_in _ (Permutation_sym Hpush)). apply HN in Hx. destruct Hx as [[-> ->]|[Hxa Hx]]; [now left|]. right. destruct Hc as [Hc|Hc]; [eauto|congruence].
    + reflexivity.
    + reflexivity.
    + cbn [ve_queue]. rewrite (Permutation_length Hpush). cbn [length]. lia.
Qed.

Lemma VG_todo el (todo todo' : nat * nat * nat -> Prop) g : (forall d, todo d -> todo' d) -> VG el todo g -> VG el todo' g.
Proof. intros H [L1 L2 L3 L4 L5 L6 L7]. constructor; auto. intros l1 j l2 El i k Hi Hk E1 E2 Hik. destruct (L7 l1 j l2 El i k Hi Hk E1 E2 Hik); auto. Qed.
Lemma VQ_cov (cov cov' : nat -> Prop) g : (forall a, cov' a -> cov a) -> VQ cov g -> VQ cov' g.
Proof. intros H [H1 H2]. split; [exact H1|]. intros a na Hc. apply H2. auto. Qed.

Lemma eliminate_ok el g a : VG el (fun _ => False) g -> VQ (fun b => b <> a) g -> a < n -> ~ In a el ->
  exists g', eliminate P g a = Ok g' /\ VG (el ++ [a]) (fun _ => False) g' /\ VQ (fun _ => True) g' /\ (forall e, In e (edges g) -> In e (edges g')) /\
    length (bag (queue g')) <= length (bag (queue g)) + n.
Proof.
  intros HG HQ Ha Hae. unfold eliminate. pose proof HG as [L1 L2 L3 L4 L5 L6 L7]. destruct (nth_error (nodes g) a) as [na|] eqn:Ea; [|apply nth_error_None in Ea; lia].
  rewrite (proj2 (vget_ok _ _ _) Ea). cbn [bind]. destruct (L4 a na Ea) as (N1 & N2 & N3 & N4).
  destruct (alive_of_ok el _ g (nd_pred na) HG) as (ps & Eps & Hps & _); [intros x Hx; apply N2 in Hx; now apply L2 in Hx|]. rewrite Eps. cbn [bind].
  destruct (alive_of_ok el _ g (nd_succ na) HG) as (ss & Ess & Hss & _); [intros x Hx; apply N1 in Hx; now apply L2 in Hx|]. rewrite Ess. cbn [bind].
  rewrite (proj2 (vset_ok _ _ _ _) (conj (nth_error_Some_lt _ _ _ Ea) eq_refl)). cbn [bind].
  set (na' := {| nd_pred := nd_pred na; nd_succ := nd_succ na; nd_elim := true; nd_in := nd_in na |}).
  set (sc := filter (fun pq : nat * nat => negb (fst pq =? snd pq)) (list_prod ps ss)).
  assert (Hsc : forall p q, In (p, q) sc <-> In (p, a) (edges g) /\ In (a, q) (edges g) /\ ~ In p el /\ ~ In q el /\ p <> q).
  { intros p q. unfold sc. rewrite filter_In, in_prod_iff, Hps, Hss, N1, N2. cbn [fst snd]. rewrite negb_true_iff, Nat.eqb_neq. tauto. }
  set (g0 := {| ve_nodes := upd (nodes g) a na'; ve_delta := delta g; ve_edges := edges g; ve_queue := queue g |} : vegraph).
  assert (HN : forall x nx, nth_error (upd (nodes g) a na') x = Some nx -> (x = a /\ nx = na') \/ (x <> a /\ nth_error (nodes g) x = Some nx)).
  { intros x nx Hx. destruct (Nat.eq_dec x a) as [->|Hxa]; [rewrite upd_nth_eq in Hx by lia; inv Hx; auto|rewrite upd_nth_neq in Hx by auto; auto]. }
  assert (HG0 : VG (el ++ [a]) (fun d => exists pq, In pq sc /\ ~ In pq [] /\ d = (fst pq, a, snd pq)) g0).
  { constructor; cbn [g0 ve_nodes ve_edges ve_delta]; auto.
    - now rewrite upd_length.
    - intros x nx Hx. apply HN in Hx. destruct Hx as [[-> ->]|[Hxa Hx]].
      + cbn [na' nd_succ nd_pred nd_elim]. splits; auto. split; auto. intros _. apply in_or_app. right. now left.
      + destruct (L4 x nx Hx) as (S1 & S2 & S3 & S4). splits; auto. rewrite S4, in_app_iff. cbn [In]. split; [auto|intros [H|[H|[]]]; [auto|congruence]].
    - destruct L6 as [M1 M2]. split.
      + apply (Permutation_NoDup (Permutation_cons_append el a)). constructor; auto.
      + intros b Hb. apply in_app_or in Hb. destruct Hb as [Hb|[<-|[]]]; auto.
    - intros l1 j l2 El i k Hi Hk E1 E2 Hik. destruct l2 as [|z l2] using rev_ind.
      + apply app_inj_tail in El. destruct El as [<- <-]. right. exists (i, k). splits; auto. apply Hsc. auto.
      + clear IHl2. rewrite app_comm_cons, app_assoc in El. apply app_inj_tail in El. destruct El as [El _]. destruct (L7 l1 j l2 El i k Hi Hk E1 E2 Hik) as [H|[]]. auto. }
  assert (HQ0 : VQ (fun _ => True) g0).
  { destruct HQ as [Q1 Q2]. split; cbn [g0 ve_nodes ve_queue]; auto. intros x nx _ Hx He. apply HN in Hx. destruct Hx as [[-> ->]|[Hxa Hx]]; [discriminate|]. apply (Q2 x nx Hxa Hx He). }
  destruct (fold_inv (ve_shortcut P a) (fun pre g' => VG (el ++ [a]) (fun d => exists pq, In pq sc /\ ~ In pq pre /\ d = (fst pq, a, snd pq)) g' /\ VQ (fun _ => True) g' /\
     (forall e, In e (edges g) -> In e (edges g')) /\ queue g' = queue g) sc g0) as (g1 & E1 & HG1 & HQ1 & He1 & Hq1).
  - splits; auto.
  - intros pre [p q] post g' El (HG' & HQ' & He' & Hq'). assert (Hin : In (p, q) sc) by (rewrite El; apply in_or_app; right; now left). apply Hsc in Hin as (Hpa & Haq & Hpe & Hqe' & Hpq).
    destruct (L2 p a Hpa) as (Bp & _ & Bpa). destruct (L2 a q Haq) as (_ & Bq & Baq).
    unfold ve_shortcut. cbn [fst snd]. destruct (add_edge_ok _ _ g' p q _ HG' HQ' Bp Bq Hpq) as (g2 & E2 & HG2 & HQ2 & He2 & Hd2 & Hq2 & _).
    { rewrite in_app_iff. cbn [In]. intros [H|[H|[]]]; auto. } { rewrite in_app_iff. cbn [In]. intros [H|[H|[]]]; auto. }
    rewrite E2. cbn [bind]. eexists. split; [reflexivity|].
    assert (HD : forall d, In d (if existsb (triple_eqb (p, a, q)) (delta g2) then delta g2 else delta g2 ++ [(p, a, q)]) <-> In d (delta g2) \/ d = (p, a, q)).
    { intros d. destruct (existsb (triple_eqb (p, a, q)) (delta g2)) eqn:Ex.
      - apply existsb_exists in Ex. destruct Ex as (x & Hx & Ee). apply triple_eqb_eq in Ee. subst x. split; [auto|intros [H| ->]; auto].
      - rewrite in_app_iff. cbn [In]. intuition. }
    destruct HG2 as [M1 M2 M3 M4 M5 M6 M7]. splits; [constructor; cbn [ve_nodes ve_edges ve_delta]; auto| | |].
    + intros i j k Hd. apply HD in Hd. destruct Hd as [Hd|Hd]; [auto|]. inv Hd. splits; apply He2; auto.
    + intros l1 j l2 El' i k Hi Hk E3 E4 Hik. destruct (M7 l1 j l2 El' i k Hi Hk E3 E4 Hik) as [H|(pq & H1 & H2 & H3)].
      * left. apply HD. auto.
      * destruct pq as [p' q']. cbn [fst snd] in H3. inv H3. destruct (Nat.eq_dec p' p) as [->|Hne]; [destruct (Nat.eq_dec q' q) as [->|Hne]|].
        -- left. apply HD. auto.
        -- right. exists (p, q'). splits; auto. rewrite in_app_iff. cbn [In]. intros [H|[H|[]]]; [auto|congruence].
        -- right. exists (p', q'). splits; auto. rewrite in_app_iff. cbn [In]. intros [H|[H|[]]]; [auto|congruence].
    + exact HQ2.
    + cbn [ve_edges]. intros e He. apply He2. left. auto.
    + cbn [ve_queue]. congruence.
  - fold sc. fold g0. rewrite E1. cbn [bind]. assert (HG1' : VG (el ++ [a]) (fun _ => False) g1) by (eapply VG_todo; [|exact HG1]; intros d (pq & H1 & H2 & _); contradiction). clear HG1.
    destruct (nth_error (nodes g1) a) as [na1|] eqn:Ea1; [|apply nth_error_None in Ea1; rewrite (vg_len _ _ _ HG1') in Ea1; lia]. rewrite (proj2 (vget_ok _ _ _) Ea1). cbn [bind].
    destruct (vg_node _ _ _ HG1' a na1 Ea1) as (S1 & S2 & S3 & S4).
    assert (Hsl : forall b, In b (nd_succ na1) -> b < n) by (intros b Hb; apply S1 in Hb; now apply (vg_edge _ _ _ HG1') in Hb).
    destruct (fold_inv (fun g b => let* l := alive P g b in if l then push_fact P g b else Ok g) (fun pre g' => VG (el ++ [a]) (fun _ => False) g' /\ VQ (fun _ => True) g' /\
       (forall e, In e (edges g) -> In e (edges g')) /\ length (bag (queue g')) <= length (bag (queue g)) + length pre) (nd_succ na1) g1) as (g2 & E2 & HG2 & HQ2 & He2 & Hb2).
    + splits; auto. rewrite Hq1. lia.
    + intros pre b post g' El (HG' & HQ' & He' & Hb'). assert (Hb : b < n) by (apply Hsl; rewrite El; apply in_or_app; right; now left).
      unfold alive. destruct (nth_error (nodes g') b) as [nb|] eqn:Eb; [|apply nth_error_None in Eb; rewrite (vg_len _ _ _ HG') in Eb; lia]. rewrite (proj2 (vget_ok _ _ _) Eb). cbn [bind]. rewrite app_length. cbn [length].
      destruct (nd_elim nb); cbn [negb].
      * exists g'. splits; auto. lia.
      * destruct (push_fact_ok _ _ g' b _ HG' HQ' Hb) as (g2 & E2 & HG2 & HQ2 & He2 & Hd2 & Hl2). exists g2. splits; auto.
        -- eapply VQ_cov; [|exact HQ2]. intros z _. now left.
        -- intros e He. rewrite He2. auto.
        -- lia.
    + exists g2. splits; auto. assert (length (nd_succ na1) <= n); [|lia]. rewrite <- (seq_length n 0). apply NoDup_incl_length; auto. intros b Hb. apply in_seq. specialize (Hsl b Hb). lia.
Qed.

Lemma ve_loop_ok : forall fuel el g, VG el (fun _ => False) g -> VQ (fun _ => True) g -> length (bag (queue g)) + (n - length el) * n < fuel ->
  exists g' el', ve_loop P fuel g = Ok g' /\ VG el' (fun _ => False) g' /\ (forall e, In e (edges g) -> In e (edges g')) /\ forall a, a < n -> In a el'.
Proof.
  induction fuel as [|fuel IH]; intros el g HG [HQ1 HQ2] Hf; [exfalso; apply (Nat.nlt_0_r _ Hf)|]. cbn [ve_loop]. destruct (pq_pop P (queue g)) as [[[k a] q]|] eqn:Epop.
  - destruct (pq_pop_some P bag HP _ _ _ _ Epop) as [Hperm _]. pose proof (Permutation_length Hperm) as Hlen. cbn [length] in Hlen.
    assert (Ha : a < n) by (apply (HQ1 k a); apply (Permutation_in _ (Permutation_sym Hperm)); now left).
    set (g0 := {| ve_nodes := nodes g; ve_delta := delta g; ve_edges := edges g; ve_queue := q |} : vegraph).
    assert (HG0 : VG el (fun _ => False) g0) by (destruct HG; constructor; auto).
    destruct (nth_error (nodes g) a) as [na|] eqn:Ea; [|apply nth_error_None in Ea; rewrite (vg_len _ _ _ HG) in Ea; lia]. change (nodes g0) with (nodes g). rewrite (proj2 (vget_ok _ _ _) Ea). cbn [bind].
    destruct (vg_node _ _ _ HG a na Ea) as (N1 & N2 & N3 & N4).
    destruct ((nd_in na =? k) && negb (nd_elim na)) eqn:Ec.
    + apply andb_true_iff in Ec. destruct Ec as [Ek Ee]. apply negb_true_iff in Ee. assert (Hae : ~ In a el) by (intros H; apply N4 in H; congruence).
      destruct (eliminate_ok el g0 a HG0) as (g1 & E1 & HG1 & HQ1' & He1 & Hl1); auto.
      { split; cbn [g0 ve_queue ve_nodes]; [intros k' b Hi; apply (HQ1 k' b); apply (Permutation_in _ (Permutation_sym Hperm)); now right|].
        intros b nb Hb Hnb He. specialize (HQ2 b nb Logic.I Hnb He). apply (Permutation_in _ Hperm) in HQ2. destruct HQ2 as [H|H]; [inv H; congruence|auto]. }
      fold g0. rewrite E1. cbn [bind]. cbn [g0 ve_queue] in Hl1.
      assert (Hel : length el < n). { destruct (vg_el _ _ _ HG1) as [M1 M2]. assert (H : length (el ++ [a]) <= length (seq 0 n)) by (apply NoDup_incl_length; auto; intros b Hb; apply in_seq; specialize (M2 b Hb); lia). rewrite app_length, seq_length in H. cbn [length] in H. lia. }
      destruct (IH (el ++ [a]) g1 HG1 HQ1') as (g' & el' & E' & HG' & He' & Hel').
      { rewrite app_length. cbn [length]. assert ((n - length el) * n = n + (n - (length el + 1)) * n) by (replace (n - length el) with (S (n - (length el + 1))) by lia; cbn; lia). lia. }
      exists g', el'. splits; auto.
    + fold g0. destruct (IH el g0 HG0) as (g' & el' & E' & HG' & He' & Hel').
      { split; cbn [g0 ve_queue ve_nodes]; [intros k' b Hi; apply (HQ1 k' b); apply (Permutation_in _ (Permutation_sym Hperm)); now right|].
        intros b nb _ Hnb He. specialize (HQ2 b nb Logic.I Hnb He). apply (Permutation_in _ Hperm) in HQ2. destruct HQ2 as [H|H]; [|auto]. inv H. exfalso. rewrite Ea in Hnb. inv Hnb. rewrite Nat.eqb_refl, He in Ec. discriminate. }
      { cbn [g0 ve_queue]. lia. }
      exists g', el'. splits; auto.
  - exists g, el. splits; auto. pose proof (pq_pop_none P bag HP _ Epop) as Hb. intros a Ha. destruct (nth_error (nodes g) a) as [na|] eqn:Ea; [|apply nth_error_None in Ea; rewrite (vg_len _ _ _ HG) in Ea; lia].
    destruct (vg_node _ _ _ HG a na Ea) as (_ & _ & _ & N4). apply N4. destruct (nd_elim na) eqn:Ee; auto. specialize (HQ2 a na Logic.I Ea Ee). rewrite Hb in HQ2. destruct HQ2.
Qed.
End VE.

(** The graph of a task. *)
Lemma ve_graph_ok P bag qe t : pq_contract P bag -> bag qe = [] ->
  (forall o pre eff, In (o, pre, eff) (op_pre_eff t) -> is_fact t pre /\ is_fact t eff) ->
  exists g el, ve_graph P qe t = Ok g /\ VG P (length (all_facts t)) el (fun _ => False) g /\ (forall a, a < length (all_facts t) -> In a el) /\
    forall o pre eff, In (o, pre, eff) (op_pre_eff t) -> pre <> eff -> exists a b, nth_error (all_facts t) a = Some pre /\ nth_error (all_facts t) b = Some eff /\ In (a, b) (ve_edges P g).
Proof.
  intros HP Hqe Hf. unfold ve_graph. set (n := length (all_facts t)).
  set (g0 := {| ve_nodes := repeat {| nd_pred := []; nd_succ := []; nd_elim := false; nd_in := 0 |} n; ve_delta := []; ve_edges := []; ve_queue := qe |} : vegraph P).
  assert (HG0 : VG P n [] (fun _ => False) g0).
  { constructor; cbn [g0 ve_nodes ve_delta ve_edges].
    - apply repeat_length.
    - intros a b [].
    - constructor.
    - intros a na Ha. apply nth_error_In, repeat_spec in Ha. subst na. cbn [nd_succ nd_pred nd_elim]. splits; try tauto; [constructor|]. split; [discriminate|intros []].
    - intros i j k [].
    - split; [constructor|intros a []].
    - intros l1 j l2 El. destruct l1; discriminate. }
  destruct (fold_inv (fun g (x : nat * fact * fact) => let '(_, f, e) := x in if feqb f e then Ok g else let* a := fact_pos t f in let* b := fact_pos t e in add_edge P g a b)
     (fun pre g => VG P n [] (fun _ => False) g /\ VQ P bag n (fun _ => False) g /\ ve_queue P g = qe /\
        forall o f e, In (o, f, e) pre -> f <> e -> exists a b, nth_error (all_facts t) a = Some f /\ nth_error (all_facts t) b = Some e /\ In (a, b) (ve_edges P g)) (op_pre_eff t) g0) as (g1 & E1 & HG1 & HQ1 & Hq1 & He1).
  - splits; auto; [|intros o f e []]. split; cbn [g0 ve_queue]; [rewrite Hqe; intros k a []|tauto].
  - intros pre [[o f] e] post g El (HG & HQ & Hq & He). destruct (Hf o f e) as [Hff Hfe]; [rewrite El; apply in_or_app; right; now left|]. destruct (feqb f e) eqn:Efe.
    + apply feqb_eq in Efe. subst e. exists g. splits; auto. intros o' f' e' Hi Hne. apply in_app_or in Hi. destruct Hi as [Hi|[Hi|[]]]; [eauto|]. inv Hi. congruence.
    + destruct (fact_pos_ok t f Hff) as (a & Ea & Hna). destruct (fact_pos_ok t e Hfe) as (b & Eb & Hnb). rewrite Ea. cbn [bind]. rewrite Eb. cbn [bind].
      assert (Hab : a <> b) by (intros ->; assert (f = e) by congruence; subst e; rewrite feqb_refl in Efe; discriminate).
      destruct (add_edge_ok P bag n [] _ g a b _ HG HQ (nth_error_Some_lt _ _ _ Hna) (nth_error_Some_lt _ _ _ Hnb) Hab (fun x => x) (fun x => x)) as (g' & E' & HG' & HQ' & He' & _ & Hq' & _).
      exists g'. splits; auto; [congruence|]. intros o' f' e' Hi Hne. apply in_app_or in Hi. destruct Hi as [Hi|[Hi|[]]].
      * destruct (He o' f' e' Hi Hne) as (x & y & H1 & H2 & H3). exists x, y. splits; auto. apply He'. auto.
      * inv Hi. exists a, b. splits; auto. apply He'. auto.
  - fold n. fold g0. rewrite E1. cbn [bind].
    destruct (fold_inv (push_fact P) (fun pre g => VG P n [] (fun _ => False) g /\ VQ P bag n (fun a => In a pre) g /\ ve_edges P g = ve_edges P g1 /\ length (bag (ve_queue P g)) <= length pre) (seq 0 n) g1) as (g2 & E2 & HG2 & HQ2 & He2 & Hl2).
    + splits; auto. rewrite Hq1, Hqe. auto.
    + intros pre a post g El (HG & HQ & He & Hl). destruct (push_fact_ok P bag HP n [] _ g a _ HG HQ) as (g' & E' & HG' & HQ' & He' & _ & Hl').
      { assert (Hi : In a (seq 0 n)) by (rewrite El; apply in_or_app; right; now left). apply in_seq in Hi. lia. }
      exists g'. splits; auto; [eapply VQ_cov; [|exact HQ']|congruence|rewrite app_length; cbn [length]; lia]. intros b Hb. apply in_app_or in Hb. destruct Hb as [Hb|[<-|[]]]; auto.
    + rewrite E2. cbn [bind]. rewrite seq_length in Hl2. destruct (ve_loop_ok P bag HP n (S (n + n * n)) [] g2 HG2) as (g' & el & E' & HG' & He' & Hel).
      { destruct HQ2 as [Q1 Q2]. split; auto. intros a na _ Ha. apply Q2; auto. apply in_seq. apply nth_error_Some_lt in Ha. rewrite (vg_len _ _ _ _ _ HG2) in Ha. lia. }
      { cbn [length]. rewrite Nat.sub_0_r. lia. }
      exists g', el. splits; auto. intros o f e Hi Hne. destruct (He1 o f e Hi Hne) as (a & b & H1 & H2 & H3). exists a, b. splits; auto. apply He'. now rewrite He2.
Qed.

(** The genetic generator: evaluation, bin packing and evolution. *)
From Coq Require Import Permutation Sorting.Sorted.
From Verif Require Import Outcome Spec_Task Spec_CausalGraph Spec_MergeStrategy Spec_PatternGenerators Spec_Genetic Model_MAS Model_CausalGraph Model_Evaluators Model_Genetic
  Proof_CausalGraph Proof_Pat5 Proof_Genetic1.
Import ListNotations.

Lemma nodup_app_iff (a b : list nat) : NoDup (a ++ b) <-> NoDup a /\ NoDup b /\ forall v, In v a -> ~ In v b.
Proof.
  induction a as [|x a IH]; cbn [app].
  - split; [intros H; split; [constructor|split; [exact H|intros v []]]|intros (_ & H & _); exact H].
  - split.
    + intros H. inversion H as [|? ? H1 H2]; subst. apply IH in H2 as (A & B & D). rewrite in_app_iff in H1. splits; auto; [constructor; auto|].
      intros v [<- |Hv]; auto.
    + intros (A & B & D). inversion A as [|? ? A1 A2]; subst. constructor; [rewrite in_app_iff; intros [X|X]; [auto|exact (D x (or_introl eq_refl) X)]|].
      apply IH. splits; auto. intros v Hv. apply D. now right.
Qed.

Section G.
Variable t : task.
Hypothesis Ht : task_ok t.
Hypothesis Hsmall : small_domains t.
Variable limit : Z.
Hypothesis Hl : (1 <= limit <= INT_MAX)%Z.
Local Notation nv := (length (t_vars t)).
Variable cg : causal_graph.
Hypothesis Hcg : build_causal_graph t = Ok cg.
Variable disjoint : bool.
Variable fitness : list (list nat) -> Z.
Hypothesis Hfit : forall ps, (0 <= fitness ps)%Z.

Definition wide (coll : list (list bool)) : Prop := forall bits, In bits coll -> length bits = nv.
Lemma nf_lt bits : length bits = nv -> forall v, In v (normal_form bits) -> v < nv.
Proof. intros L v Hv. apply nf_In in Hv. lia. Qed.

Lemma patterns_ok : forall coll used acc, wide coll -> length used = nv ->
  exists r, patterns_of t limit disjoint cg coll used acc = Ok r /\
    (forall ps, r = Some ps -> exists ps', ps = acc ++ ps' /\ Forall2 (pruned t) (map normal_form coll) ps' /\
       (forall q, In q (map normal_form coll) -> (num_states t q <= limit)%Z) /\
       (disjoint = true -> NoDup (concat (map normal_form coll)) /\ forall v, In v (concat (map normal_form coll)) -> nth v used false = false)) /\
    ((forall q, In q (map normal_form coll) -> (num_states t q <= limit)%Z) -> NoDup (concat (map normal_form coll)) ->
     (forall v, In v (concat (map normal_form coll)) -> nth v used false = false) -> exists ps, r = Some ps).
Proof.
  induction coll as [|bits coll IH]; intros used acc W L; cbn [patterns_of map concat].
  - exists (Some acc). splits; eauto. intros ps E. injection E as <-. exists []. rewrite app_nil_r. splits; auto; [intros q []|intros _; split; [constructor|intros v []]].
  - pose proof (W bits (or_introl eq_refl)) as Lb. pose proof (nf_lt bits Lb) as Hlt. assert (W' : wide coll) by (intros b Hb; apply W; now right).
    rewrite (too_large_ok t Ht Hsmall limit Hl) by (auto; lia). cbn [bind]. rewrite Z.mul_1_l.
    destruct (Z.leb_spec (num_states t (normal_form bits)) limit) as [Hs|Hs]; cbn [negb].
    2: { exists None. splits; [auto|discriminate|]. intros H. specialize (H _ (or_introl eq_refl)). lia. }
    assert (X : exists b used', (if disjoint then mark_used (normal_form bits) used else Ok (false, used)) = Ok (b, used') /\
      (b = false -> length used' = nv /\ (disjoint = true -> (forall v, In v (normal_form bits) -> nth v used false = false) /\ forall v, nth v used' false = true <-> nth v used false = true \/ In v (normal_form bits)) /\
         (disjoint = false -> used' = used)) /\
      (b = true -> exists v, In v (normal_form bits) /\ nth v used false = true)).
    { destruct disjoint.
      - destruct (mark_ok t limit Hl (normal_form bits) used L Hlt (nf_nodup bits)) as (b & u' & E & A & B). exists b, u'. splits; auto. intros Hb. destruct (A Hb) as (A1 & A2). splits; auto. discriminate.
      - exists false, used. splits; auto; [|discriminate]. intros _. splits; auto. discriminate. }
    destruct X as (b & used' & -> & A & B). cbn [bind]. destruct b.
    { exists None. splits; [auto|discriminate|]. intros _ _ H. exfalso. destruct (B eq_refl) as (v & Hv & Hu). rewrite (H v) in Hu; [discriminate|]. apply in_or_app. now left. }
    destruct (A eq_refl) as (A1 & A2 & A3). clear A B.
    destruct (prune_ok t Ht cg Hcg (normal_form bits) Hlt) as (p & -> & Hp). cbn [bind].
    destruct (IH used' (acc ++ [p]) W' A1) as (r & -> & R1 & R2). exists r. splits; auto.
    + intros ps E. destruct (R1 ps E) as (ps' & -> & F2 & Hs' & Hd). exists (p :: ps'). rewrite <- app_assoc. splits; auto.
      * intros q [<- |Hq]; auto.
      * intros D. destruct (Hd D) as (N & U). destruct (A2 D) as (U1 & U2). split.
        -- apply nodup_app_iff. splits; auto; [apply nf_nodup|]. intros v Hv Hv'. specialize (U v Hv'). rewrite (proj2 (U2 v)) in U; [discriminate|auto].
        -- intros v Hv. apply in_app_iff in Hv as [Hv|Hv]; auto. specialize (U v Hv). destruct (nth v used false) eqn:E'; auto. rewrite (proj2 (U2 v)) in U; [discriminate|auto].
    + intros H1 H2 H3. apply nodup_app_iff in H2 as (N1 & N2 & N3). apply R2; auto.
      * intros q Hq. apply H1. now right.
      * intros v Hv. destruct disjoint eqn:Ed.
        -- destruct (A2 eq_refl) as (_ & U2). destruct (nth v used' false) eqn:E'; auto. apply U2 in E' as [E'|E']; [rewrite H3 in E'; [discriminate|apply in_or_app; auto]|]. destruct (N3 v E' Hv).
        -- rewrite A3 by auto. apply H3, in_or_app. auto.
Qed.

(** A valid collection. *)
Definition good (ps : list (list nat)) : Prop := exists qs, Forall2 (pruned t) qs ps /\
  (forall q, In q qs -> StronglySorted lt q /\ (forall v, In v q -> v < nv) /\ (num_states t q <= limit)%Z) /\ (disjoint = true -> NoDup (concat qs)).
Definition best_ok (best : Z * option (list (list nat))) : Prop :=
  match snd best with None => fst best = (-1)%Z | Some ps => fst best = fitness ps /\ good ps end.
Lemma blank v : nth v (repeat false nv) false = false. Proof. apply nth_repeat. Qed.

Lemma evaluate_ok : forall colls best, (forall c, In c colls -> wide c) -> best_ok best ->
  exists best', evaluate fitness t limit disjoint cg colls best = Ok best' /\ best_ok best' /\ (fst best <= fst best')%Z /\
    forall c ps, In c colls -> patterns_of t limit disjoint cg c (repeat false nv) [] = Ok (Some ps) -> (fitness ps <= fst best')%Z.
Proof.
  unfold evaluate. induction colls as [|c colls IH]; intros best W Hb; cbn [fold_outcome].
  - exists best. splits; auto; [lia|intros c ps []].
  - destruct (patterns_ok c (repeat false nv) [] (W c (or_introl eq_refl)) (repeat_length _ _)) as (r & E & R & _). rewrite E. cbn [bind].
    assert (W' : forall c, In c colls -> wide c) by (intros x Hx; apply W; now right).
    destruct r as [ps|].
    + assert (G : good ps).
      { destruct (R ps eq_refl) as (ps' & -> & F2 & Hs & Hd). exists (map normal_form c). splits; auto.
        - intros q Hq. pose proof (Hs q Hq) as Hq2. apply in_map_iff in Hq as (bits & <- & Hbits). splits; auto; [apply nf_sorted|apply nf_lt; apply (W c (or_introl eq_refl)); auto].
        - intros D. apply Hd. exact D. }
      destruct (Z.ltb_spec (fst best) (fitness ps)) as [Hlt|Hge]; cbn [bind].
      * destruct (IH (fitness ps, Some ps) W') as (b' & E' & B1 & B2 & B3); [split; auto|]. cbn [fst] in B2. exists b'. splits; auto; [lia|].
        intros c' ps' [<- |Hc] Ec; [|eauto]. assert (ps' = ps) as -> by congruence. exact B2.
      * destruct (IH best W' Hb) as (b' & E' & B1 & B2 & B3). exists b'. splits; auto.
        intros c' ps' [<- |Hc] Ec; [|eauto]. assert (ps' = ps) as -> by congruence. lia.
    + cbn [bind]. destruct (IH best W' Hb) as (b' & E' & B1 & B2 & B3). exists b'. splits; auto.
      intros c' ps' [<- |Hc] Ec; [congruence|eauto].
Qed.

(** Bin packing. *)
Definition nfs (coll : list (list bool)) : list nat := concat (map normal_form coll).
Lemma nf_blank : normal_form (repeat false nv) = [].
Proof. unfold normal_form. rewrite repeat_length. induction (seq 0 nv) as [|x l IH]; cbn [filter]; auto. now rewrite blank. Qed.
Lemma nf_set bits v : length bits = nv -> v < nv -> ~ In v (normal_form bits) -> Permutation (normal_form (upd bits v true)) (v :: normal_form bits).
Proof.
  intros L Hv N. apply NoDup_Permutation; [apply nf_nodup|constructor; auto; apply nf_nodup|]. intros u. cbn [In]. rewrite !nf_In, upd_length.
  destruct (Nat.eq_dec u v) as [-> |Hne].
  - rewrite (nth_error_nth _ _ false (upd_nth_eq bits v true ltac:(lia))). intuition lia.
  - pose proof (upd_nth_neq bits v u true ltac:(auto)) as X. assert (E : nth u (upd bits v true) false = nth u bits false).
    { destruct (nth_error bits u) eqn:Y; [rewrite (nth_error_nth _ _ _ Y); exact (nth_error_nth _ _ _ X)|]. rewrite !nth_overflow; auto; apply nth_error_None; congruence. }
    rewrite E. intuition congruence.
Qed.

Definition sinv (done : list nat) (s : list (list bool) * list bool * Z) : Prop :=
  let '(coll, pattern, size) := s in
  wide coll /\ length pattern = nv /\ (forall q, In q (map normal_form coll) -> (num_states t q <= limit)%Z) /\
  size = num_states t (normal_form pattern) /\ (1 <= size <= limit)%Z /\ NoDup (nfs coll ++ normal_form pattern) /\
  (forall v, In v (nfs coll ++ normal_form pattern) -> In v done) /\
  (forall v, In v done -> (dom_size t v <= limit)%Z -> In v (nfs coll ++ normal_form pattern)).
Lemma nfs_snoc coll p : nfs (coll ++ [p]) = nfs coll ++ normal_form p.
Proof. unfold nfs. rewrite map_app, concat_app. cbn. now rewrite app_nil_r. Qed.

Lemma pack_fold : forall ids done s, sinv done s -> NoDup (done ++ ids) -> (forall v, In v ids -> v < nv) ->
  exists s', fold_outcome (pack_step t limit) ids s = Ok s' /\ sinv (done ++ ids) s'.
Proof.
  induction ids as [|v ids IH]; intros done s I N H; cbn [fold_outcome]; [exists s; rewrite app_nil_r; auto|].
  assert (Hv : v < nv) by (apply H; now left).
  assert (Nd : ~ In v done) by (apply nodup_app_iff in N as (_ & _ & N); intros X; apply (N v X); now left).
  assert (S1 : exists s1, pack_step t limit s v = Ok s1 /\ sinv (done ++ [v]) s1).
  { destruct s as [[coll pattern] size]. destruct I as (I1 & I2 & I3 & I4 & I5 & I6 & I7 & I8). unfold pack_step.
    destruct (dom_ok t Ht Hsmall v Hv) as (x & -> & Ed & D). cbn [bind]. rewrite Ed.
    destruct (Z.ltb_spec limit (dom_size t v)) as [Hb|Hb].
    - eexists. split; [reflexivity|]. unfold sinv. splits; auto; try lia.
      + intros u Hu. apply in_or_app. left. auto.
      + intros u Hu Hd. apply in_app_iff in Hu as [Hu|[<- |[]]]; [auto|lia].
    - rewrite fits_ok by lia. cbn [bind].
      assert (K : forall coll' pattern' size', wide coll' -> length pattern' = nv -> (forall q, In q (map normal_form coll') -> (num_states t q <= limit)%Z) ->
        size' = num_states t (normal_form pattern') -> (1 <= size')%Z -> (size' * dom_size t v <= limit)%Z -> nfs coll' ++ normal_form pattern' = nfs coll ++ normal_form pattern ->
        exists s1, (let* _ := guard (size' * dom_size t v <=? INT_MAX)%Z in let* p := vset pattern' v true in Ok (coll', p, (size' * dom_size t v)%Z)) = Ok s1 /\ sinv (done ++ [v]) s1).
      { intros coll' pattern' size' J1 J2 J3 J4 J5 J6 J7. unfold guard. rewrite (proj2 (Z.leb_le _ _)) by lia. cbn [bind].
        unfold vset. rewrite (proj2 (Nat.ltb_lt _ _)) by lia. cbn [bind]. eexists. split; [reflexivity|].
        assert (Nv : ~ In v (nfs coll' ++ normal_form pattern')) by (rewrite J7; intros X; apply Nd, I7, X).
        assert (Pm : Permutation (normal_form (upd pattern' v true)) (v :: normal_form pattern')) by (apply nf_set; auto; intros X; apply Nv, in_or_app; auto).
        assert (Pm2 : Permutation (nfs coll' ++ normal_form (upd pattern' v true)) (v :: nfs coll ++ normal_form pattern)).
        { rewrite Pm, <- J7. symmetry. apply Permutation_middle. }
        unfold sinv. splits; auto.
        - now rewrite upd_length.
        - rewrite (num_states_perm t _ _ Pm), num_states_cons, J4. lia.
        - nia.
        - apply (Permutation_NoDup (Permutation_sym Pm2)). constructor; auto.
        - intros u Hu. apply (Permutation_in _ Pm2) in Hu as [<- |Hu]; apply in_or_app; [right; now left|auto].
        - intros u Hu Hd. apply (Permutation_in _ (Permutation_sym Pm2)). apply in_app_iff in Hu as [Hu|[<- |[]]]; [right; auto|now left]. }
      destruct (Z.leb_spec (size * dom_size t v) limit) as [Hf|Hf]; cbn [negb]; apply K; auto; try lia.
      + intros b Hin. apply in_app_iff in Hin as [Hin|[<- |[]]]; auto.
      + apply repeat_length.
      + intros q Hin. rewrite map_app in Hin. apply in_app_iff in Hin as [Hin|[<- |[]]]; auto. lia.
      + rewrite nf_blank. reflexivity.
      + rewrite nfs_snoc, nf_blank. now rewrite app_nil_r. }
  destruct S1 as (s1 & -> & I'). cbn [bind]. destruct (IH (done ++ [v]) s1 I') as (s' & E & I2).
  - now rewrite <- app_assoc.
  - intros u Hu. apply H. now right.
  - exists s'. rewrite <- app_assoc in I2. auto.
Qed.

Lemma ns_ge2 p v : (forall u, In u p -> u < nv) -> In v p -> (dom_size t v <= num_states t p)%Z.
Proof.
  intros H Hv. apply in_split in Hv as (a & b & ->). rewrite num_states_app, num_states_cons.
  assert (1 <= num_states t a)%Z by (apply (ns_pos t Ht Hsmall); intros; apply H, in_or_app; auto).
  assert (1 <= num_states t b)%Z by (apply (ns_pos t Ht Hsmall); intros; apply H, in_or_app; cbn; auto).
  destruct (dom_ok t Ht Hsmall v) as (_ & _ & _ & D); [apply H, in_or_app; cbn; auto|]. assert (1 <= num_states t a * num_states t b)%Z by nia. nia.
Qed.

Lemma pack_ok ids : Permutation ids (seq 0 nv) -> exists c, pack t limit ids = Ok c /\ wide c /\ packing t limit (map normal_form c).
Proof.
  intros Hp. unfold pack. destruct (pack_fold ids [] ([], repeat false nv, 1%Z)) as (s & -> & I).
  - unfold sinv. rewrite nf_blank. splits; auto; try lia; try (intros ? []); [apply repeat_length|constructor].
  - apply (Permutation_NoDup (Permutation_sym Hp)), seq_NoDup.
  - intros v Hv. apply (Permutation_in _ Hp), in_seq in Hv. lia.
  - cbn [bind app] in *. destruct s as [[coll pattern] size]. cbn [fst snd]. destruct I as (I1 & I2 & I3 & I4 & I5 & I6 & I7 & I8).
    assert (Hall : forall v, v < nv -> In v ids) by (intros v Hv; apply (Permutation_in _ (Permutation_sym Hp)), in_seq; lia).
    destruct (Z.ltb_spec 1 size) as [Hz|Hz].
    + eexists. split; [reflexivity|]. assert (W : wide (coll ++ [pattern])) by (intros b Hb; apply in_app_iff in Hb as [Hb|[<- |[]]]; auto). split; auto.
      fold (nfs (coll ++ [pattern])) in *. unfold packing. fold (nfs (coll ++ [pattern])). rewrite nfs_snoc. splits; auto; [|intros v Hv Hd; apply I8; auto; lia].
      intros q Hq. assert (Hq' := Hq). apply in_map_iff in Hq as (bits & <- & Hb). splits; [apply nf_sorted| |apply nf_lt; auto].
      rewrite map_app in Hq'. apply in_app_iff in Hq' as [Hq'|[Hq'|[]]]; auto. rewrite <- Hq'. lia.
    + eexists. split; [reflexivity|]. split; auto. unfold packing. fold (nfs coll). splits.
      * now apply nodup_app_iff in I6 as (A & _).
      * intros q Hq. assert (Hq' := Hq). apply in_map_iff in Hq as (bits & <- & Hb). splits; [apply nf_sorted|auto|apply nf_lt; auto].
      * intros v Hv Hd. specialize (I8 v (Hall v Hv) ltac:(lia)). apply in_app_iff in I8 as [X|X]; auto. exfalso.
        pose proof (ns_ge2 _ v (nf_lt pattern I2) X). lia.
Qed.

Lemma bin_ok shuffle : (forall i l, Permutation (shuffle i l) l) -> forall n i ids, Permutation ids (seq 0 nv) ->
  exists cs, bin_packing t limit shuffle n i ids = Ok cs /\ length cs = n /\ forall c, In c cs -> wide c /\ packing t limit (map normal_form c).
Proof.
  intros Hs. induction n as [|n IH]; intros i ids Hp; cbn [bin_packing]; [exists []; splits; auto; intros c []|].
  assert (Hp' : Permutation (shuffle i ids) (seq 0 nv)) by (eapply perm_trans; [apply Hs|exact Hp]).
  destruct (pack_ok _ Hp') as (c & -> & Wc & Pc). cbn [bind]. destruct (IH (i + 1) _ Hp') as (cs & -> & L & H). cbn [bind].
  exists (c :: cs). splits; auto; [cbn; lia|]. intros x [<- |Hx]; auto.
Qed.

(** Evolution. *)
Lemma mapi_length {A B} (f : nat -> A -> B) l : forall i, length (mapi f i l) = length l.
Proof. induction l as [|x l IH]; intros i; cbn; auto. Qed.
Lemma mapi_In {A B} (f : nat -> A -> B) l : forall i y, In y (mapi f i l) -> exists j x, In x l /\ y = f j x.
Proof. induction l as [|x l IH]; intros i y; cbn [mapi In]; [tauto|]. intros [<- |H]; [eauto|]. destruct (IH _ _ H) as (j & z & H1 & H2). eauto. Qed.
Lemma mutate_wide flip colls : (forall c, In c colls -> wide c) -> forall c, In c (mutate flip colls) -> wide c.
Proof.
  intros W c Hc bits Hb. unfold mutate in Hc. apply mapi_In in Hc as (j & c0 & Hc0 & ->). apply mapi_In in Hb as (k & b0 & Hb0 & ->). rewrite mapi_length. exact (W c0 Hc0 b0 Hb0).
Qed.
Lemma selection_ok select n colls : (forall i, select i < length colls) -> exists cs, selection select n colls = Ok cs /\ length cs = n /\ forall c, In c cs -> In c colls.
Proof.
  intros Hs. unfold selection.
  assert (G : forall l acc, (forall c, In c acc -> In c colls) -> exists cs, fold_outcome (fun new i => let* c := vget colls (select i) in Ok (new ++ [c])) l acc = Ok cs /\ length cs = length acc + length l /\ forall c, In c cs -> In c colls).
  { induction l as [|i l IH]; intros acc Ha; cbn [fold_outcome]; [exists acc; splits; auto; cbn; lia|].
    destruct (nth_error colls (select i)) as [c|] eqn:E; [|apply nth_error_None in E; specialize (Hs i); lia]. unfold vget at 1. rewrite E. cbn [bind].
    destruct (IH (acc ++ [c])) as (cs & E' & L & H); [intros x Hx; apply in_app_iff in Hx as [Hx|[<- |[]]]; [auto|eapply nth_error_In; eauto]|].
    exists cs. splits; auto. rewrite L, app_length. cbn. lia. }
  destruct (G (seq 0 n) []) as (cs & E & L & H); [intros c []|]. exists cs. rewrite seq_length in L. auto.
Qed.
Lemma episodes_ok flip select num : (forall e i, select e i < num) -> forall n e colls best, length colls = num -> (forall c, In c colls -> wide c) -> best_ok best ->
  exists best', episodes fitness t limit disjoint cg flip select n e num colls best = Ok best' /\ best_ok best' /\ (fst best <= fst best')%Z.
Proof.
  intros Hs. induction n as [|n IH]; intros e colls best L W Hb; cbn [episodes]; [exists best; splits; auto; lia|].
  pose proof (mutate_wide (flip e) colls W) as W1. assert (L1 : length (mutate (flip e) colls) = num) by (unfold mutate; now rewrite mapi_length).
  destruct (evaluate_ok _ best W1 Hb) as (b1 & -> & B1 & B2 & _). cbn [bind].
  destruct (selection_ok (select e) num (mutate (flip e) colls)) as (cs & -> & L2 & H2); [intros i; rewrite L1; auto|]. cbn [bind].
  destruct (IH (e + 1) cs b1 L2 (fun c H => W1 c (H2 c H)) B1) as (b2 & E & B3 & B4). exists b2. splits; auto. lia.
Qed.
End G.

Theorem genetic_ok fitness shuffle flip select num n limit disjoint t : task_ok t -> small_domains t -> (1 <= limit <= INT_MAX)%Z -> 1 <= num ->
  (forall ps, (0 <= fitness ps)%Z) -> (forall i l, Permutation (shuffle i l) l) -> (forall e i, select e i < num) ->
  exists ps, genetic fitness shuffle flip select num n limit disjoint t = Ok ps /\ good t limit disjoint ps /\
    exists parts packed, packing t limit parts /\ Forall2 (pruned t) parts packed /\ (fitness packed <= fitness ps)%Z.
Proof.
  intros Ht Hsm Hl Hn Hf Hs He. unfold genetic. destruct (build_exact t Ht) as (cg & Ecg & _). rewrite Ecg. cbn [bind].
  destruct (bin_ok t Ht Hsm limit Hl shuffle Hs num 0 (seq 0 (length (t_vars t))) (Permutation_refl _)) as (cs & -> & L & H). cbn [bind].
  destruct (evaluate_ok t Ht Hsm limit Hl cg Ecg disjoint fitness cs ((-1)%Z, None) (fun c Hc => proj1 (H c Hc)) eq_refl) as (b1 & -> & B1 & B2 & B3). cbn [bind].
  destruct (episodes_ok t Ht Hsm limit Hl cg Ecg disjoint fitness flip select num He n 0 cs b1 L (fun c Hc => proj1 (H c Hc)) B1) as (b2 & -> & B4 & B5). cbn [bind].
  destruct cs as [|c cs]; [cbn in L; lia|]. destruct (H c (or_introl eq_refl)) as (Wc & P1 & P2 & P3).
  destruct (patterns_ok t Ht Hsm limit Hl cg Ecg disjoint c (repeat false (length (t_vars t))) [] Wc (repeat_length _ _)) as (r & Er & R1 & R2).
  destruct R2 as (packed & ->); auto; [intros q Hq; now apply P2|intros; apply nth_repeat|].
  specialize (B3 c packed (or_introl eq_refl) Er). destruct (R1 packed eq_refl) as (ps' & Eps & F2 & _). cbn [app] in Eps. subst ps'.
  unfold best_ok in B4. destruct (snd b2) as [ps|]; [destruct B4 as (B6 & G)|specialize (Hf packed); lia]. exists ps. splits; auto.
  exists (map normal_form c), packed. splits; auto; [split; auto|lia].
Qed.

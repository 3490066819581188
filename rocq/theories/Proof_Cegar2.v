(** Pattern infos and flaws. *)
From Coq Require Import Sorted Permutation.
From Verif Require Import Outcome Spec_Task Spec_Relaxation Spec_Projection Spec_PatternCollections Spec_PDBPlan Model_Task Proof_Task Model_PQ Model_PDB Model_PDBPlan Model_PDBCegar
  Proof_MixedRadix Proof_PDB1 Proof_PDB2 Proof_PDB3 Proof_PDBPlan2 Proof_Pat1 Proof_Cegar1 Prop_PDB.
Import ListNotations.

Section T.
Variable P : pqueue.
Variable bag : PQ P -> list (nat * nat).
Hypothesis HP : pq_contract P bag.
Variable q0 : PQ P.
Hypothesis Hq : bag q0 = [].
Variable t : task.
Hypothesis Ht : plain_task t.
Notation nv := (length (t_vars t)).
Notation T pat := (project t pat (task_costs t)).

(** What is known about a pattern info. *)
Definition info_ok (fuel : nat) (x : pattern_info) : Prop :=
  pattern_ok t (pi_pattern x) /\ pi_size x = pattern_size t (pi_pattern x) /\ compute_pdb P q0 fuel t (pi_pattern x) [] = Ok (pi_db x) /\
  (pi_unsolvable x = true -> forall os, ~ task_plan_from t (t_init t) os) /\
  (pi_unsolvable x = false -> exists c, pdb_value (pi_db x) (t_init t) = Ok (Some c) /\
     wildcard_plan (T (pi_pattern x)) (proj_state (pi_pattern x) (t_init t)) (pi_plan x) c /\
     forall os, task_plan_from t (t_init t) os -> c <= plan_cost t os).

Lemma info_one pat : pattern_ok t pat -> (pattern_size t pat <= MAX_STATES)%Z -> exists f0, forall fuel shuffle choose wildcard k, f0 <= fuel ->
  (forall k i l, Permutation (shuffle k i l) l) -> (forall k i l, l <> [] -> choose k i l < length l) ->
  exists x, compute_pattern_info P q0 fuel shuffle choose t wildcard k pat = Ok x /\ pi_pattern x = pat /\ info_ok fuel x.
Proof.
  intros Hpat Hs. pose proof Hs as Hfit. rewrite size_fits in Hfit.
  assert (Hl : length (task_costs t) = length (t_ops t)) by apply map_length.
  destruct (compute_pdb_and_plan_ok t Ht pat Hpat (task_costs t) Hl P bag HP q0 [] Hq Hfit eq_refl) as (f1 & H1).
  destruct (C40_pdb_admissible P bag q0 t pat [] HP Hq Ht Hpat (or_introl eq_refl)) as (f2 & H2); auto; [intros [|o]; discriminate|].
  exists (f1 + f2). intros fuel shuffle choose wildcard k Hf Hsh Hch.
  destruct (H1 fuel (shuffle k) (choose k) wildcard ltac:(lia) (Hsh k) (Hch k)) as (db & plan & E1 & E2 & Epj & Elen & Hperf & Hplan).
  assert (Hinit : state_ok t (t_init t)) by (destruct Ht as ((_ & _ & _ & H0 & _) & _); exact H0).
  destruct (H2 fuel ltac:(lia)) as (db' & E2' & Hadm). rewrite E2 in E2'. injection E2' as <-. destruct (Hadm _ Hinit) as (v & Ev & Hv).
  assert (Epv := pdb_value_ok t pat Hpat db (t_init t) Epj Elen Hinit). rewrite Ev in Epv. injection Epv as Epv. rewrite <- Epv in Hplan.
  unfold compute_pattern_info. rewrite E1. cbn [bind]. rewrite Ev. cbn [bind]. eexists. split; [reflexivity|].
  unfold info_ok, pi_pattern, pi_size. cbn [pi_db pi_plan pi_unsolvable]. rewrite Epj. cbn [the_projection pj_pattern pj_num]. split; [reflexivity|].
  splits; auto.
  - now rewrite size_fits.
  - destruct v; [discriminate|]. intros _. exact Hv.
  - destruct v as [c|]; [|discriminate]. intros _. exists c. destruct Hplan as [A _]. auto.
Qed.

Lemma info_all : exists f0, forall fuel shuffle choose wildcard k pat, f0 <= fuel ->
  (forall k i l, Permutation (shuffle k i l) l) -> (forall k i l, l <> [] -> choose k i l < length l) ->
  pattern_ok t pat -> (pattern_size t pat <= MAX_STATES)%Z ->
  exists x, compute_pattern_info P q0 fuel shuffle choose t wildcard k pat = Ok x /\ pi_pattern x = pat /\ info_ok fuel x.
Proof.
  assert (G : forall L, exists f0, forall fuel shuffle choose wildcard k pat, f0 <= fuel -> In pat L ->
    (forall k i l, Permutation (shuffle k i l) l) -> (forall k i l, l <> [] -> choose k i l < length l) ->
    pattern_ok t pat -> (pattern_size t pat <= MAX_STATES)%Z ->
    exists x, compute_pattern_info P q0 fuel shuffle choose t wildcard k pat = Ok x /\ pi_pattern x = pat /\ info_ok fuel x).
  { induction L as [|p L (f1 & IH)]; [exists 0; intros until 1; intros []|].
    assert (D : (pattern_ok t p /\ (pattern_size t p <= MAX_STATES)%Z) \/ ~ (pattern_ok t p /\ (pattern_size t p <= MAX_STATES)%Z)).
    { destruct (Z_le_dec (pattern_size t p) MAX_STATES) as [H|H]; [|right; tauto].
      destruct (sorted_unique p) eqn:E1.
      - destruct (forallb (fun v => v <? nv) p) eqn:E2.
        + left. split; auto. split.
          * clear -E1. revert E1. induction p as [|a p IH]; intros E; [constructor|]. 
            destruct p as [|b p]; [repeat constructor|]. cbn [sorted_unique] in E. apply andb_true_iff in E as [E1 E2]. apply Nat.ltb_lt in E1.
            specialize (IH E2). constructor; auto. apply StronglySorted_inv in IH as [_ F]. constructor; auto. eapply Forall_impl; [|exact F]. cbn. intros; lia.
          * intros v Hv. rewrite forallb_forall in E2. apply Nat.ltb_lt. auto.
        + right. intros ((_ & H1) & _). rewrite <- not_true_iff_false, forallb_forall in E2. apply E2. intros v Hv. apply Nat.ltb_lt. auto.
      - right. intros ((H1 & _) & _). apply sorted_unique_spec in H1. congruence. }
    destruct D as [[D1 D2]|D].
    - destruct (info_one p D1 D2) as (f2 & H2). exists (f1 + f2). intros fuel sh ch w k pat Hf [<- |Hin] Hsh Hch A B; [apply H2|apply IH]; auto; lia.
    - exists f1. intros fuel sh ch w k pat Hf [<- |Hin] Hsh Hch A B; [tauto|apply IH; auto]. }
  destruct (G (sublists (seq 0 nv))) as (f0 & H). exists f0. intros fuel sh ch w k pat Hf Hsh Hch Hpat Hs. apply H; auto.
  destruct Hpat as [A B]. apply sublists_In; auto; [apply sorted_seq|]. intros v Hv. apply in_seq. specialize (B v Hv). lia.
Qed.

(** Flaws. *)
Definition optimal_info (x : pattern_info) : Prop := exists c, pdb_value (pi_db x) (t_init t) = Ok (Some c) /\ perfect_value t (t_init t) (Some c).

Lemma flaws_for_ok fuel goals black x : incl goals (t_goal t) -> info_ok fuel x ->
  (flaws_for_pattern t goals black x = Exit SEARCH_UNSOLVABLE /\ forall os, ~ task_plan_from t (t_init t) os) \/
  (flaws_for_pattern t goals black x = Ok (true, false, []) /\ optimal_info x) \/
  (exists m fl, flaws_for_pattern t goals black x = Ok (false, m, fl) /\ forall v, In v fl -> ~ In v (pi_pattern x) /\ ~ In v black /\ v < nv).
Proof.
  intros Hg (Hpat & Hsz & Hdb & Hun & Hso). unfold flaws_for_pattern. destruct (pi_unsolvable x); [left; auto|]. right.
  destruct (Hso eq_refl) as (c & Hv & Hw & Hc). pose proof (init_len t Ht) as Hil.
  destruct (plan_ok t Ht black (pi_pattern x) Hpat _ _ _ Hw (t_init t) eq_refl Hil) as (s & fl & -> & H). cbn [bind].
  destruct H as [(-> & Hl & Hgs & Hb)|(Hne & Hfl)]; [|right; destruct fl as [|v fl]; [congruence|exists false, (v :: fl); auto]].
  destruct (all_hold_ok t Ht s Hl) as (b & -> & Hb'). cbn [bind]. destruct b.
  - destruct black as [|v black]; [|right; exists true, []; split; auto; intros u []]. left. split; auto.
    destruct (Hb eq_refl) as (os & Hos & Ec). exists c. split; auto. split.
    + exists os. split; auto. exists s. split; auto. now apply Hb'.
    + intros c' (os' & Hos' & <-). now apply Hc.
  - right. destruct (goal_flaws_ok t Ht black goals s Hg Hl) as (gf & -> & Hgf). cbn [bind]. 
    assert (G : forall v, In v gf -> ~ In v (pi_pattern x) /\ ~ In v black /\ v < nv).
    { intros v Hin. apply Hgf in Hin as (d & Hd & Hnb & Hne). splits; auto; [|exact (goal_lt t Ht (v, d) (Hg _ Hd))].
      intros Hin. apply In_nth_error in Hin as (i & Hi). apply Hne.
      assert (Hp : In (i, d) (t_goal (T (pi_pattern x)))).
      { cbn [t_goal project]. apply Hg in Hd. apply (proj2 (pos_spec t (pi_pattern x) Hpat v i)) in Hi. clear -Hd Hi. induction (t_goal t) as [|[u e] r IH]; [destruct Hd|].
        cbn [proj_facts]. destruct Hd as [E|Hd]; [injection E as -> ->; rewrite Hi; now left|]. destruct (pos_in _ u); [right|]; auto. }
      specialize (Hgs _ Hp). unfold holds in Hgs. cbn [fst snd] in Hgs. rewrite (proj_nth_error (pi_pattern x) s i v Hi) in Hgs. congruence. }
    destruct gf as [|v gf]; [exists true, []; split; auto; intros u []|]. exists false, (v :: gf). auto.
Qed.

Definition colldbs (L : list (option pattern_info)) := map (option_map pi_db) L.
Definition all_ok (fuel : nat) (L : list (option pattern_info)) := forall i x, nth_error L i = Some (Some x) -> info_ok fuel x.
Definition good_flaw (L : list (option pattern_info)) black (f : nat * nat) :=
  exists x, nth_error L (fst f) = Some (Some x) /\ ~ In (snd f) (pi_pattern x) /\ ~ In (snd f) black /\ snd f < nv.

Lemma colldbs_some L L' i x : colldbs L' = colldbs L -> nth_error L i = Some (Some x) -> exists y, nth_error L' i = Some (Some y) /\ pi_db y = pi_db x.
Proof.
  intros E H. apply (map_nth_error (option_map pi_db)) in H. fold (colldbs L) in H. rewrite <- E in H. unfold colldbs in H. rewrite nth_error_map in H.
  destruct (nth_error L' i) as [[y|]|]; try discriminate. cbn in H. exists y. split; auto. congruence.
Qed.
Lemma good_flaw_db L L' black f : colldbs L' = colldbs L -> good_flaw L black f -> good_flaw L' black f.
Proof. intros E (x & Hx & H). destruct (colldbs_some L L' _ x E Hx) as (y & Hy & Ey). exists y. split; auto. unfold pi_pattern in *. now rewrite Ey. Qed.

Lemma get_flaws_ok fuel goals black : incl goals (t_goal t) -> forall is L flaws, (forall i, In i is -> i < length L) -> all_ok fuel L ->
  (forall f, In f flaws -> good_flaw L black f) ->
  (get_flaws t goals black is L flaws = Exit SEARCH_UNSOLVABLE /\ forall os, ~ task_plan_from t (t_init t) os) \/
  exists r L' flaws', get_flaws t goals black is L flaws = Ok (r, L', flaws') /\ colldbs L' = colldbs L /\ all_ok fuel L' /\
    (forall f, In f flaws' -> good_flaw L' black f) /\
    match r with Some i => exists x, nth_error L' i = Some (Some x) /\ optimal_info x | None => True end.
Proof.
  intros Hg. induction is as [|i is IH]; intros L flaws Hi Hok Hfl; cbn [get_flaws].
  - right. exists None, L, flaws. auto.
  - destruct (vget_some L i (Hi i (or_introl eq_refl))) as (o & Ho & ->). cbn [bind].
    assert (Hi' : forall j, In j is -> j < length L) by (intros; apply Hi; now right).
    destruct o as [x|]; [|apply IH; auto]. destruct (pi_solved x); [apply IH; auto|].
    destruct (flaws_for_ok fuel goals black x Hg (Hok i x Ho)) as [(-> & H)|[(-> & H)|(m & fl & -> & H)]]; cbn [bind fst snd]; [left; auto| |].
    + right. exists (Some i), L, flaws. splits; auto. exists x. auto.
    + assert (G : exists L1, (if m then vset L i (Some (mark_as_solved x)) else Ok L) = Ok L1 /\ colldbs L1 = colldbs L /\ all_ok fuel L1 /\ length L1 = length L).
      { destruct m; [|exists L; auto]. exists (upd L i (Some (mark_as_solved x))). unfold vset. rewrite (proj2 (Nat.ltb_lt _ _) (Hi i (or_introl eq_refl))).
        split; auto. assert (Hil : i < length L) by (apply Hi; now left). split; [|split; [|apply upd_length]].
        - unfold colldbs. apply nth_error_ext. intros j. rewrite !nth_error_map, upd_nth. destruct (Nat.eqb_spec i j) as [<- |]; cbn [andb]; auto.
          rewrite (proj2 (Nat.ltb_lt _ _) Hil), Ho. reflexivity.
        - intros j y. rewrite upd_nth. destruct (Nat.eqb_spec i j) as [<- |]; cbn [andb]; [|apply Hok]. rewrite (proj2 (Nat.ltb_lt _ _) Hil). intros E. injection E as <-.
          exact (Hok i x Ho). }
      destruct G as (L1 & -> & Ed & Ho1 & Hl1). cbn [bind].
      destruct (IH L1 (flaws ++ map (pair i) fl)) as [H1|(r & L2 & fl2 & A & B & C)]; auto.
      * now rewrite Hl1.
      * intros f Hf. apply (good_flaw_db L); auto. apply in_app_iff in Hf as [Hf|Hf]; auto. apply in_map_iff in Hf as (v & <- & Hv). exists x. cbn [fst snd]. split; auto.
      * right. exists r, L2, fl2. split; auto. split; [congruence|auto].
Qed.
End T.

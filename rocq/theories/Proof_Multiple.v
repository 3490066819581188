(** Repeated pattern generation. *)
From Coq Require Import Permutation Sorting.Sorted.
From Verif Require Import Outcome Spec_Task Spec_Projection Spec_PatternCollections Spec_PDBCegar Spec_PatternMultiple Model_PQ Model_Evaluators Model_PDB Model_PDBCegar
  Model_PatternMultiple Proof_PDB1 Prop_PDB.
Import ListNotations.

Lemma total_app t a b : total_size t (a ++ b) = (total_size t a + total_size t b)%Z.
Proof. unfold total_size. induction a as [|p a IH]; cbn [app fold_right]; [lia|]. rewrite IH. lia. Qed.
Lemma total_nonneg t a : (0 <= total_size t a)%Z.
Proof. unfold total_size. induction a as [|p a IH]; cbn [fold_right]; [lia|]. rewrite (size_fits t p). lia. Qed.

Lemma nodup_firstn (l : list nat) : forall n, NoDup l -> NoDup (firstn n l).
Proof.
  induction l as [|x l IH]; intros [|n] H; cbn [firstn]; try constructor; inversion H; subst; auto.
  intros X. match goal with N : ~ In x l |- _ => apply N end. rewrite <- (firstn_skipn n). apply in_or_app. now left.
Qed.

Section Multi.
Variable t : task.
Hypothesis Ht : plain_task t.
Variable goals : list fact.
Hypothesis Hne : goals <> [].
Hypothesis Hgoals : forall g, In g goals -> fst g < length (t_vars t).
Hypothesis Hdom : forall x, In x (t_vars t) -> (Z.of_nat (vdom x) <= INT_MAX)%Z.
Variable exact_db : pdb -> Prop.
Variable unsolvable : Prop.
Variable gen : nat -> Z -> fact -> list nat -> outcome pdb.
Variables M C : Z.
Hypothesis HM : (1 <= M <= INT_MAX)%Z.
Hypothesis HC : (1 <= C <= INT_MAX)%Z.
Variable now : nat -> nat -> nat.
Variable expired : nat -> bool.
Variable rnd : nat -> nat -> nat.
Hypothesis Hrnd : forall k n, 0 < n -> rnd k n < n.
Variable shuffle : nat -> list nat -> list nat.
Hypothesis Hsh : forall k l, Permutation (shuffle k l) l.
Variables sl st : nat.
Variable ons : bool.
(** The variables that may be forbidden in iteration [k]. *)
Definition black_ok (k : nat) (black : list nat) : Prop :=
  NoDup black /\ (forall v, In v black -> v < length (t_vars t) /\ forall g, In g (t_goal t) -> fst g <> v) /\ (black <> [] -> exists i, i <= k /\ (st < now i 0 \/ (ons = true /\ sl < now i 3))).
Hypothesis Hgen : forall k limit g black, In g goals -> (1 <= limit <= INT_MAX)%Z -> black_ok k black ->
  (gen k limit g black = Exit SEARCH_UNSOLVABLE /\ unsolvable) \/
  exists db, gen k limit g black = Ok db /\ exact_db db /\ Z.of_nat (pj_num (db_pj db)) = pattern_size t (pdb_pattern db) /\
    In (fst g) (pdb_pattern db) /\ ((pattern_size t (pdb_pattern db) <= limit)%Z \/ pdb_pattern db = [fst g]).
Lemma single_size g : In g goals -> (pattern_size t [fst g] <= INT_MAX)%Z.
Proof.
  intros H. apply Hgoals in H. unfold pattern_size. cbn [fold_right].
  pose proof (Hdom _ (nth_In _ {| vdom := 0; vlayer := None; vdefault := 0 |} H)). lia.
Qed.

Definition pats (m : multi) := map pdb_pattern (m_dbs m).
Definition minv (k : nat) (m : multi) : Prop :=
  m_remaining m = (C - total_size t (pats m))%Z /\ NoDup (pats m) /\
  (forall db, In db (m_dbs m) -> exact_db db) /\
  (forall p, In p (pats m) -> exists g, In g goals /\ In (fst g) p) /\
  (forall pre p post, pats m = pre ++ p :: post -> (total_size t pre < C)%Z /\
     ((pattern_size t p <= Z.min M (C - total_size t pre))%Z \/ exists g, In g goals /\ p = [fst g])) /\
  (forall i, i < k -> exists g p, nth_error goals (i mod length goals) = Some g /\ In p (pats m) /\ In (fst g) p).

Lemma minv_same k m m' : m_remaining m' = m_remaining m -> m_dbs m' = m_dbs m -> minv k m -> minv k m'.
Proof. intros A B. unfold minv, pats. rewrite A, B. auto. Qed.

Definition non_goals := filter (fun v => negb (existsb (fun g : fact => fst g =? v) (t_goal t))) (seq 0 (length (t_vars t))).
Definition binv (k : nat) (m : multi) : Prop :=
  Permutation (m_nongoals m) non_goals /\ (m_blacklisting m = true -> exists i, i <= k /\ (st < now i 0 \/ (ons = true /\ sl < now i 3))).
Lemma binv_same k m m' : m_nongoals m' = m_nongoals m -> m_blacklisting m' = m_blacklisting m -> binv k m -> binv k m'.
Proof. intros A B. unfold binv. now rewrite A, B. Qed.
Lemma trigger_binv k m : binv k m -> binv k (check_trigger now st k m).
Proof. intros (A & B). unfold check_trigger. destruct (negb _ && _) eqn:E; [|split; auto]. apply andb_true_iff in E as [_ E]. apply Nat.ltb_lt in E. split; cbn; auto. intros _. exists k. auto. Qed.
Lemma stagnation_binv k m b m' : check_stagnation now sl ons k m = (b, m') -> binv k m -> binv (k + 1) m' /\ (b = true -> sl < now k 3).
Proof.
  assert (W : binv k m -> binv (k + 1) m) by (intros (A & B); split; auto; intros H; destruct (B H) as (i & Hi & X); exists i; split; [lia|auto]).
  unfold check_stagnation. destruct (_ <? _) eqn:E; [apply Nat.ltb_lt in E; destruct ons eqn:Eo; [destruct (m_blacklisting m)|]|]; intros E'; injection E' as <- <-; intros I; (split; [|intros; lia || discriminate]); auto.
  destruct I as (A & B). split; cbn; auto. intros _. exists k. split; [lia|]. right. split; [assumption || reflexivity|lia].
Qed.
Lemma trigger_same k m : m_remaining (check_trigger now st k m) = m_remaining m /\ m_dbs (check_trigger now st k m) = m_dbs m.
Proof. unfold check_trigger. destruct (_ && _); auto. Qed.
Lemma stagnation_same k m b m' : check_stagnation now sl ons k m = (b, m') -> m_remaining m' = m_remaining m /\ m_dbs m' = m_dbs m.
Proof. unfold check_stagnation. destruct (_ <? _); [destruct ons; [destruct (m_blacklisting m)|]|]; intros E; injection E as <- <-; auto. Qed.
Lemma blacklisted_ok k m : binv k m -> exists b m', get_blacklisted rnd shuffle k m = Ok (b, m') /\ m_remaining m' = m_remaining m /\ m_dbs m' = m_dbs m /\ binv k m' /\ black_ok k b.
Proof.
  intros (A & B). assert (E0 : black_ok k []) by (split; [constructor|split; [intros v []|congruence]]).
  unfold get_blacklisted. destruct (m_blacklisting m) eqn:Eb; [|exists [], m; splits; auto; split; auto; rewrite Eb; auto].
  destruct (m_nongoals m) as [|v vs] eqn:E; [exists [], m; splits; auto; split; auto; rewrite E; auto|]. cbv zeta.
  pose proof (Permutation_length (Hsh k (v :: vs))) as L. pose proof (Hrnd k (length (v :: vs)) ltac:(cbn [length]; lia)).
  rewrite (proj2 (Nat.leb_le _ _)) by lia. cbn [guard bind]. eexists _, _. split; [reflexivity|]. cbn [m_remaining m_dbs]. split; auto. split; auto.
  assert (Pm : Permutation (shuffle k (v :: vs)) non_goals) by (eapply perm_trans; [apply Hsh|exact A]).
  assert (Nd : NoDup (shuffle k (v :: vs))) by (apply (Permutation_NoDup (Permutation_sym Pm)); apply NoDup_filter, seq_NoDup).
  split; [split; cbn [m_nongoals m_blacklisting]; auto|]. set (n := rnd k (length (v :: vs)) + 1) in *.
  split; [|split; [|auto]].
  - apply nodup_firstn, Nd.
  - intros u Hu. assert (In u (shuffle k (v :: vs))) as Hu' by (rewrite <- (firstn_skipn n); apply in_or_app; auto).
    apply (Permutation_in _ Pm) in Hu'. apply filter_In in Hu' as [U1 U2]. apply in_seq in U1. split; [lia|]. intros g Hg <-.
    rewrite (proj2 (existsb_exists _ _)) in U2; [discriminate|]. exists g. split; auto. apply Nat.eqb_refl.
Qed.

Lemma handle_ok k m db g : minv k m -> (0 < m_remaining m)%Z -> nth_error goals (k mod length goals) = Some g -> exact_db db ->
  Z.of_nat (pj_num (db_pj db)) = pattern_size t (pdb_pattern db) -> In (fst g) (pdb_pattern db) ->
  ((pattern_size t (pdb_pattern db) <= Z.min (m_remaining m) M)%Z \/ pdb_pattern db = [fst g]) ->
  exists m', handle now k m db = Ok m' /\ minv (k + 1) m' /\ m_dbs m' <> [] /\ m_nongoals m' = m_nongoals m /\ m_blacklisting m' = m_blacklisting m.
Proof.
  intros (I1 & I2 & I3 & I4 & I5 & I6) Hr Eg Hx Es Hin Hs. assert (Gin : In g goals) by (eapply nth_error_In; eauto).
  unfold handle. destruct (existsb _ (m_dbs m)) eqn:E.
  - apply existsb_exists in E as (d & Hd & E). destruct (list_eq_dec _ _ _) as [Ed|]; [|discriminate].
    exists m. split; [reflexivity|]. split; [|split; [intros X; rewrite X in Hd; destruct Hd|auto]]. split; [auto|]. splits; auto.
    intros i Hi. destruct (Nat.eq_dec i k) as [-> |]; [|apply I6; lia]. exists g, (pdb_pattern db). splits; auto. rewrite <- Ed. unfold pats. apply in_map_iff. eauto.
  - assert (Hnew : ~ In (pdb_pattern db) (pats m)).
    { intros H. apply in_map_iff in H as (d & Ed & Hd). rewrite <- not_true_iff_false in E. apply E. apply existsb_exists. exists d. split; auto. destruct (list_eq_dec _ _ _); congruence. }
    assert (Hmax : (pattern_size t (pdb_pattern db) <= INT_MAX)%Z) by (destruct Hs as [Hs| ->]; [lia|now apply single_size]).
    rewrite (proj2 (Z.leb_le _ _)) by (rewrite Es; unfold INT_MIN, INT_MAX in *; lia). cbn [guard bind]. eexists. split; [reflexivity|]. cbn [m_dbs].
    split; [|split; [intros X; apply app_eq_nil in X as [_ X]; discriminate|auto]]. unfold minv, pats. cbn [m_remaining m_dbs]. rewrite map_app. cbn [map]. fold (pats m). splits.
    + rewrite total_app, Es, I1. unfold total_size at 3. cbn [fold_right]. lia.
    + apply (Permutation_NoDup (l := pdb_pattern db :: pats m)); [apply Permutation_cons_append|constructor; auto].
    + intros d Hd. apply in_app_iff in Hd as [Hd|[<- |[]]]; auto.
    + intros p Hp. apply in_app_iff in Hp as [Hp|[<- |[]]]; eauto.
    + intros pre p post H. destruct post as [|q post _] using rev_ind.
      * apply app_inj_tail in H as [H <-]. rewrite <- H. split; [lia|]. destruct Hs as [Hs|Hs]; [left; lia|right; eauto].
      * rewrite app_comm_cons, app_assoc in H. apply app_inj_tail in H as [H _]. exact (I5 _ _ _ H).
    + intros i Hi. destruct (Nat.eq_dec i k) as [-> |]; [exists g, (pdb_pattern db)|destruct (I6 i ltac:(lia)) as (g' & p & A & B & D); exists g', p]; splits; auto; apply in_or_app; cbn [In]; auto.
Qed.

Lemma multi_loop_ok : forall fuel k m, minv k m -> binv k m -> (0 < m_remaining m)%Z ->
  (multiple_loop gen now expired rnd shuffle sl st ons M fuel k (k mod length goals) goals m = Exit SEARCH_UNSOLVABLE /\ unsolvable) \/
  (multiple_loop gen now expired rnd shuffle sl st ons M fuel k (k mod length goals) goals m = NoFuel /\ forall i, k <= i < k + fuel -> expired i = false) \/
  exists dbs n, multiple_loop gen now expired rnd shuffle sl st ons M fuel k (k mod length goals) goals m = Ok (dbs, n) /\ k < n <= k + fuel /\ (forall i, k <= i < n - 1 -> expired i = false) /\ ((C <= total_size t (map pdb_pattern dbs))%Z \/ expired (n - 1) = true \/ sl < now (n - 1) 3) /\
    dbs <> [] /\ (forall db, In db dbs -> exact_db db) /\ multiple_spec t goals M C n (map pdb_pattern dbs).
Proof.
  assert (Lg : 0 < length goals) by (destruct goals; [congruence|cbn; lia]).
  induction fuel as [|fuel IH]; intros k m I Ib Hr; cbn [multiple_loop]; [right; left; split; [reflexivity|intros i Hi; lia]|].
  destruct (trigger_same k m) as (T1 & T2). set (m1 := check_trigger now st k m) in *.
  destruct (blacklisted_ok k m1 (trigger_binv k m Ib)) as (b & m2 & -> & B1 & B2 & B3 & B4). cbn [bind].
  assert (I2 : minv k m2) by (apply (minv_same k m); congruence || auto). assert (R2 : m_remaining m2 = m_remaining m) by congruence.
  destruct (nth_error goals (k mod length goals)) as [g|] eqn:Eg; [|apply nth_error_None in Eg; pose proof (Nat.mod_upper_bound k (length goals)); lia].
  unfold vget. rewrite Eg. cbn [bind]. assert (Gin : In g goals) by (eapply nth_error_In; eauto).
  assert (Rm : (m_remaining m <= C)%Z) by (destruct I as (-> & _); pose proof (total_nonneg t (pats m)); lia).
  destruct (Hgen k (Z.min (m_remaining m2) M) g b Gin) as [(-> & U)|(db & -> & X & Es & Hin & Hs)]; [lia|exact B4|left; split; [reflexivity|auto]|]. cbn [bind].
  destruct (handle_ok k m2 db g I2 ltac:(lia) Eg X Es Hin Hs) as (m3 & -> & I3 & Hn3 & N3 & K3). cbn [bind].
  assert (Ib3 : binv k m3) by (apply (binv_same k m2); auto).
  assert (Done : forall m', minv (k + 1) m' -> m_dbs m' <> [] -> (m_remaining m' <= 0)%Z \/ expired k = true \/ sl < now k 3 -> exists dbs n, Ok (m_dbs m', k + 1) = Ok (dbs, n) /\ k < n <= k + S fuel /\ (forall i, k <= i < n - 1 -> expired i = false) /\ ((C <= total_size t (map pdb_pattern dbs))%Z \/ expired (n - 1) = true \/ sl < now (n - 1) 3) /\
    dbs <> [] /\ (forall db, In db dbs -> exact_db db) /\ multiple_spec t goals M C n (map pdb_pattern dbs)).
  { intros m' (J1 & J2 & J3 & J4 & J5 & J6) Hn' Hw. exists (m_dbs m'), (k + 1). split; [reflexivity|]. split; [lia|]. split; [intros i Hi; lia|]. split; [rewrite Nat.add_sub; fold (pats m'); destruct Hw as [Hw|Hw]; [left; lia|auto]|]. split; [auto|]. split; [auto|].
    unfold multiple_spec. split; [lia|]. split; [auto|]. split; [auto|]. split; auto. }
  destruct (m_remaining m3 <=? 0)%Z eqn:Er; [right; right; apply Done; auto; left; now apply Z.leb_le|]. apply Z.leb_gt in Er.
  destruct (expired k) eqn:Ex; [right; right; apply Done; auto|].
  destruct (check_stagnation now sl ons k m3) as [stop m4] eqn:E4. destruct (stagnation_same _ _ _ _ E4) as (S1 & S2). destruct (stagnation_binv _ _ _ _ E4 Ib3) as (Ib4 & Hst).
  assert (I4 : minv (k + 1) m4) by (apply (minv_same (k + 1) m3); auto).
  destruct stop; [right; right; apply Done; [auto|congruence|auto]|].
  replace ((k mod length goals + 1) mod length goals) with ((k + 1) mod length goals) by (rewrite Nat.add_mod_idemp_l by lia; reflexivity).
  destruct (IH (k + 1) m4 I4 Ib4 ltac:(lia)) as [H|[(E & H)|(dbs & n & E & Hn & He & H)]]; [left; exact H|right; left|right; right].
  - split; [exact E|]. intros i Hi. destruct (Nat.eq_dec i k) as [-> |]; [auto|apply H; lia].
  - exists dbs, n. split; [exact E|]. split; [lia|]. split; [|exact H]. intros i Hi. destruct (Nat.eq_dec i k) as [-> |]; [auto|apply He; lia].
Qed.

Lemma non_goals_ok : (forall g, In g (t_goal t) -> fst g < length (t_vars t)) ->
  exists ng, non_goal_variables t = Ok ng /\ ng = filter (fun v => negb (existsb (fun g => fst g =? v) (t_goal t))) (seq 0 (length (t_vars t))).
Proof.
  intros Hg. unfold non_goal_variables.
  assert (A : forall gs b, length b = length (t_vars t) -> (forall g, In g gs -> fst g < length (t_vars t)) ->
    exists b', fold_outcome (fun b (f : fact) => vset b (fst f) true) gs b = Ok b' /\ length b' = length (t_vars t) /\
      forall v, v < length (t_vars t) -> nth v b' false = (nth v b false || existsb (fun g : fact => fst g =? v) gs)%bool).
  { induction gs as [|g gs IH]; intros b Lb Hin; cbn [fold_outcome].
    - exists b. splits; auto. intros v Hv. cbn. now rewrite orb_false_r.
    - pose proof (Hin g (or_introl eq_refl)) as Lg. unfold vset at 1. rewrite (proj2 (Nat.ltb_lt _ _)) by lia. cbn [bind].
      destruct (IH (upd b (fst g) true)) as (b' & E & L & H); [now rewrite upd_length|intros; apply Hin; now right|]. exists b'. splits; auto.
      intros v Hv. rewrite H by auto. cbn [existsb]. destruct (Nat.eqb_spec (fst g) v) as [<- |Hneq].
      + rewrite (nth_error_nth _ _ false (upd_nth_eq b (fst g) true ltac:(lia))). cbn. now rewrite orb_true_r.
      + f_equal. pose proof (upd_nth_neq b (fst g) v true Hneq) as U. rewrite (nth_error_nth' b false) in U by lia. exact (nth_error_nth _ _ _ U). }
  destruct (A (t_goal t) (repeat false (length (t_vars t)))) as (b & E & L & H); [apply repeat_length|auto|]. rewrite E. cbn [bind].
  assert (B : forall l r, (forall v, In v l -> v < length (t_vars t)) -> fold_outcome (fun r v => let* x := vget b v in if x : bool then Ok r else Ok (r ++ [v])) l r =
    Ok (r ++ filter (fun v => negb (existsb (fun g : fact => fst g =? v) (t_goal t))) l)).
  { induction l as [|v l IH]; intros r Hl; cbn [fold_outcome filter]; [now rewrite app_nil_r|]. pose proof (Hl v (or_introl eq_refl)) as Lv.
    unfold vget at 1. rewrite (nth_error_nth' b false) by lia. cbn [bind]. rewrite H by auto. rewrite nth_repeat. cbn [orb].
    destruct (existsb _ (t_goal t)); cbn [negb bind]; rewrite IH by (intros; apply Hl; now right); [reflexivity|]. now rewrite <- app_assoc. }
  rewrite B by (intros v Hv; apply in_seq in Hv; lia). eexists. split; reflexivity.
Qed.

Theorem multiple_ok fuel : (forall g, In g (t_goal t) -> fst g < length (t_vars t)) ->
  (multiple gen now expired rnd shuffle sl st ons M fuel t goals C = Exit SEARCH_UNSOLVABLE /\ unsolvable) \/
  (multiple gen now expired rnd shuffle sl st ons M fuel t goals C = NoFuel /\ forall i, i < fuel -> expired i = false) \/
  exists dbs n, multiple gen now expired rnd shuffle sl st ons M fuel t goals C = Ok (dbs, n) /\ n <= fuel /\ (forall i, i < n - 1 -> expired i = false) /\ ((C <= total_size t (map pdb_pattern dbs))%Z \/ expired (n - 1) = true \/ sl < now (n - 1) 3) /\
    dbs <> [] /\ (forall db, In db dbs -> exact_db db) /\ multiple_spec t goals M C n (map pdb_pattern dbs).
Proof.
  intros Hg. destruct (non_goals_ok Hg) as (ng & E & Eng). unfold multiple. rewrite E. cbn [bind].
  set (m := {| m_remaining := C; m_blacklisting := false; m_last := 0; m_nongoals := ng; m_dbs := [] |}).
  assert (I : minv 0 m).
  { unfold minv, pats, m. cbn [m_remaining m_dbs map total_size fold_right]. splits; try lia; try (intros ? []; fail); [constructor|intros pre p post H; destruct pre; discriminate]. }
  assert (R : (0 < m_remaining m)%Z) by (cbn; lia). assert (Ib : binv 0 m) by (split; cbn; [rewrite Eng; apply Permutation_refl|discriminate]).
  assert (Z0 : 0 mod length goals = 0) by (apply Nat.mod_0_l; destruct goals; [congruence|discriminate]).
  pose proof (multi_loop_ok fuel 0 m I Ib R) as H. rewrite Z0 in H.
  destruct H as [H|[(E1 & H)|(dbs & n & E1 & Hn & He & H)]]; [left; exact H|right; left|right; right].
  - split; [exact E1|]. intros i Hi. apply H. lia.
  - exists dbs, n. split; [exact E1|]. split; [lia|]. split; [|exact H]. intros i Hi. apply He. lia.
Qed.
End Multi.

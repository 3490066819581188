(** Hill climbing in the space of pattern collections. *)
From Coq Require Import Permutation Sorting.Sorted Relations.
From Verif Require Import Outcome Spec_Task Spec_CausalGraph Spec_Projection Spec_Patterns Spec_MergeStrategy Spec_PatternGenerators Spec_PatternCollections Spec_PDBCegar Spec_HillClimbing Model_MAS Model_CausalGraph Model_PQ Model_Evaluators Model_PDB Model_PatternGenerators Model_Genetic Model_HillClimbing
  Proof_CausalGraph Proof_MAS1 Proof_MAA1 Proof_Pat1 Proof_Pat5 Proof_Genetic1 Proof_Genetic2 Proof_Multiple Prop_PDB Prop_PatternGenerators Prop_Genetic.
Import ListNotations.

Definition pt (db : pdb) : list nat := pj_pattern (db_pj db).
Definition sz (db : pdb) : Z := Z.of_nat (pj_num (db_pj db)).
Definition grows (t : task) (v u : nat) : Prop := pre_eff t u v \/ (goal_var t u /\ causal_arc t v u).

(** Interesting patterns grow into interesting patterns. *)
Lemma rt_incl p q (R : nat -> nat -> Prop) : incl p q -> forall a b, clos_refl_trans nat (inside p R) a b -> clos_refl_trans nat (inside q R) a b.
Proof. intros I a b. induction 1 as [a b (A & B & D)|a|a b c _ IH1 _ IH2]; [apply rt_step; unfold inside; auto|apply rt_refl|eapply rt_trans; eauto]. Qed.
Lemma rst_incl p q (R : nat -> nat -> Prop) : incl p q -> forall a b, clos_refl_sym_trans nat (inside p R) a b -> clos_refl_sym_trans nat (inside q R) a b.
Proof. intros I a b. induction 1 as [a b (A & B & D)|a|a b _ IH|a b c _ IH1 _ IH2]; [apply rst_step; unfold inside; auto|apply rst_refl|now apply rst_sym|eapply rst_trans; eauto]. Qed.
Lemma grow_interesting t p q u v : interesting t p -> In v p -> grows t v u -> (forall x, In x q <-> x = u \/ In x p) -> interesting t q.
Proof.
  intros (G & W) Hv Hg Hq. assert (I : incl p q) by (intros x Hx; apply Hq; auto). assert (Hu : In u q) by (apply Hq; auto). pose proof (I v Hv) as Hv'. split.
  - intros x Hx. apply Hq in Hx as [-> |Hx].
    + destruct Hg as [Hg|(Hg & _)].
      * destruct (G v Hv) as (g & G1 & G2 & G3). exists g. splits; auto. eapply rt_trans; [apply rt_step; unfold inside; eauto|eapply rt_incl; eauto].
      * exists u. splits; auto. apply rt_refl.
    + destruct (G x Hx) as (g & G1 & G2 & G3). exists g. splits; auto. eapply rt_incl; eauto.
  - assert (E : clos_refl_sym_trans nat (inside q (causal_arc t)) u v).
    { destruct Hg as [Hg|(_ & Hg)]; [apply rst_step; unfold inside, causal_arc; auto|apply rst_sym, rst_step; unfold inside; auto]. }
    intros a b Ha Hb. apply Hq in Ha as [-> |Ha]; apply Hq in Hb as [-> |Hb].
    + apply rst_refl.
    + eapply rst_trans; [exact E|eapply rst_incl; eauto].
    + apply (rst_trans _ _ a v u); [eapply rst_incl; eauto|apply rst_sym, E].
    + eapply rst_incl; eauto.
Qed.
Lemma single_interesting t g : goal_var t g -> interesting t [g].
Proof.
  intros Hg. split.
  - intros v [<- |[]]. exists g. splits; auto; [now left|apply rt_refl].
  - intros u v [<- |[]] [<- |[]]. apply rst_refl.
Qed.

Section HC.
Variable P : pqueue.
Variable q0 : PQ P.
Variable pf : nat.
Variable t : task.
Hypothesis Ht : task_ok t.
Hypothesis Hsmall : small_domains t.
Hypothesis Hpdb : forall pat, pattern_ok t pat -> (pattern_size t pat <= INT_MAX)%Z ->
  exists db, compute_pdb P q0 pf t pat [] = Ok db /\ pt db = pat /\ sz db = pattern_size t pat.
Hypothesis Hgs : NoDup (map fst (t_goal t)).
Variables M C : Z.
Hypothesis HM : (1 <= M <= INT_MAX)%Z.
Local Notation nv := (length (t_vars t)).
Definition singles : list (list nat) := map (fun g : fact => [fst g]) (t_goal t).
Hypothesis Hroom : (M + Z.max C (total_size t singles) <= INT_MAX)%Z.
Variable mi : nat.
Hypothesis Hmi : 1 <= mi.
Variable count : nat -> list pdb -> pdb -> nat.
Variable dead : nat -> list pdb -> bool.
Variable sampling : nat -> bool.
Variable expired : nat -> nat -> bool.
Variable cg : causal_graph.
Hypothesis Hcg : build_causal_graph t = Ok cg.

Definition dbok (db : pdb) : Prop := pattern_ok t (pt db) /\ compute_pdb P q0 pf t (pt db) [] = Ok db /\ sz db = pattern_size t (pt db).
Definition pats (l : list (option pdb)) : list (list nat) := flat_map (fun c => match c with Some d => [pt d] | None => [] end) l.
Definition goodp (p : list nat) : Prop := pattern_of t p /\ interesting t p /\ 2 <= length p /\ (pattern_size t p <= M)%Z.
Definition ginv (used : list (list nat)) (s : list (list nat) * list (option pdb)) : Prop :=
  NoDup (fst s) /\ (forall p, In p (fst s) -> goodp p) /\ (forall db, In (Some db) (snd s) -> dbok db) /\
  NoDup (used ++ pats (snd s)) /\ incl (used ++ pats (snd s)) (fst s).
Definition nbok (nb : list (list nat)) : Prop := length nb = nv /\ forall v l, nth_error nb v = Some l -> forall u, In u l <-> grows t v u.

Lemma goal_mem u : mem u (map fst (t_goal t)) = true <-> goal_var t u.
Proof.
  rewrite mem_In, in_map_iff. split; [intros ([v d] & <- & H); exists d; exact H|intros (d & H); exists (u, d); auto].
Qed.
Lemma neighbours_ok' : exists nb, relevant_neighbours t cg = Ok nb /\ nbok nb.
Proof.
  destruct (build_exact t Ht) as (G & EG & _ & HG). assert (G = cg) as -> by congruence. unfold relevant_neighbours.
  assert (K : forall m k r, k + m = nv -> length r = k -> (forall v l, nth_error r v = Some l -> forall u, In u l <-> grows t v u) ->
    exists nb, fold_outcome (fun r v => let* pre := vget (g_eff_to_pre cg) v in let* succ := vget (g_successors cg) v in
      Ok (r ++ [unique_nats (sort Nat.leb (pre ++ filter (fun u => mem u (map fst (t_goal t))) succ))])) (seq k m) r = Ok nb /\ nbok nb).
  { induction m as [|m IH]; intros k r Hk Lr Hr; cbn [seq fold_outcome]; [exists r; split; [auto|split; [lia|auto]]|].
    destruct (HG k) as (l1 & l2 & l3 & l4 & l5 & _ & _ & E2 & (_ & H2) & _ & _ & E4 & (_ & H4) & _); [lia|].
    unfold vget at 1 2. rewrite E2, E4. cbn [bind]. apply IH; [lia|rewrite app_length; cbn; lia|].
    intros v l E u. destruct (Nat.lt_ge_cases v (length r)) as [Hv|Hv].
    - rewrite nth_error_app1 in E by auto. now apply Hr.
    - rewrite nth_error_app2 in E by auto. destruct (v - length r) as [|n] eqn:En; [|destruct n; discriminate]. cbn in E. injection E as <-.
      assert (v = k) as -> by lia. rewrite (unique_nats_In M HM), sort_In, in_app_iff, filter_In, H2, H4, goal_mem. unfold grows. clear. tauto. }
  apply (K nv 0 []); auto. intros [|v] l; discriminate.
Qed.

Lemma pattern_in_iff p l : pattern_in p l = true <-> In p l.
Proof.
  unfold pattern_in. rewrite existsb_exists. split; [intros (q & H & E); destruct (list_eq_dec _ _ _); [now subst|discriminate]|].
  intros H. exists p. split; auto. destruct (list_eq_dec _ _ _); congruence.
Qed.
Lemma pats_app a b : pats (a ++ b) = pats a ++ pats b. Proof. apply flat_map_app. Qed.

Definition more (s s' : list (list nat) * list (option pdb)) : Prop :=
  incl (fst s) (fst s') /\ incl (pats (snd s)) (pats (snd s')) /\ forall p, In p (fst s') -> In p (fst s) \/ In p (pats (snd s')).
Lemma more_refl s : more s s. Proof. split; [apply incl_refl|split; [apply incl_refl|auto]]. Qed.
Lemma more_trans a b c : more a b -> more b c -> more a c.
Proof. intros (A1 & A2 & A3) (B1 & B2 & B3). split; [eapply incl_tran; eauto|]. split; [eapply incl_tran; eauto|]. intros p Hp. destruct (B3 p Hp) as [H|H]; auto. destruct (A3 p H) as [X|X]; auto. Qed.
Lemma try_ok db used s u v : dbok db -> interesting t (pt db) -> (sz db <= INT_MAX)%Z -> In v (pt db) -> ~ In u (pt db) -> grows t v u -> u < nv -> ginv used s ->
  exists s' ex, try_variable P q0 pf t M db s u = Ok s' /\ ginv used s' /\ snd s' = snd s ++ ex /\ more s s' /\ ((sz db * dom_size t u <= M)%Z -> In (sort Nat.leb (pt db ++ [u])) (fst s')).
Proof.
  intros (D1 & D2 & D3) Hint Hsz Hv Hu Hg Hlt (I1 & I2 & I3 & I4 & I5). unfold try_variable.
  destruct (dom_ok t Ht Hsmall u Hlt) as (x & -> & Ed & D). cbn [bind]. fold (sz db) (pt db). rewrite Ed.
  rewrite (fits_ok M HM) by (unfold sz in *; lia). cbn [bind].
  destruct (Z.leb_spec (sz db * dom_size t u) M) as [Hf|Hf].
  2: { exists s, []. rewrite app_nil_r. split; [reflexivity|]. split; [split; auto|]. split; [reflexivity|]. split; [apply more_refl|lia]. }
  set (new := sort Nat.leb (pt db ++ [u])). destruct (pattern_in new (fst s)) eqn:Ep.
  { exists s, []. rewrite app_nil_r. split; [reflexivity|]. split; [split; auto|]. split; [reflexivity|]. split; [apply more_refl|]. intros _. apply pattern_in_iff. exact Ep. }
  assert (Nn : ~ In new (fst s)) by (rewrite <- pattern_in_iff; congruence).
  assert (Hin : forall y, In y new <-> y = u \/ In y (pt db)) by (intros y; unfold new; rewrite sort_In, in_app_iff; cbn [In]; intuition).
  assert (Pm : Permutation new (u :: pt db)) by (unfold new; rewrite (Proof_MAA1.sort_perm Nat.leb (pt db ++ [u])); symmetry; apply Permutation_cons_append).
  assert (Hnd : NoDup (pt db ++ [u])) by (apply (Permutation_NoDup (Permutation_cons_append _ _)); constructor; auto; apply sorted_nd, D1).
  assert (Hpo : pattern_ok t new) by (split; [now apply sort_lt|intros y Hy; apply Hin in Hy as [-> |Hy]; auto; now apply D1]).
  assert (Hs : pattern_size t new = (sz db * dom_size t u)%Z).
  { rewrite same_size by apply Hpo. rewrite (num_states_perm t _ _ Pm), num_states_cons, D3, same_size by apply D1. lia. }
  destruct (Hpdb new Hpo ltac:(lia)) as (d & E & E1 & E2). rewrite E. cbn [bind]. eexists _, [Some d]. split; [reflexivity|]. cbn [fst snd]. split; [|split; [reflexivity|split; [|intros _; now left]]].
  2: { split; [apply incl_tl, incl_refl|]. cbn [fst snd]. rewrite pats_app. split; [apply incl_appl, incl_refl|]. intros p [<- |Hp]; auto. right. apply in_or_app. right. unfold pats. cbn. rewrite E1. now left. }
  assert (Hgood : goodp new).
  { split; [|splits]; [|eapply grow_interesting; eauto| |lia].
    - split; [|exact Hpo]. intros X. assert (In u new) by (apply Hin; auto). rewrite X in H. destruct H.
    - rewrite (Permutation_length Pm). cbn [length]. destruct (pt db); [destruct Hv|cbn; lia]. }
  unfold ginv. cbn [fst snd]. rewrite pats_app. unfold pats at 2 4. cbn [flat_map app]. rewrite E1. splits.
  - constructor; auto.
  - intros p [<- |Hp]; auto.
  - intros d' Hd. apply in_app_iff in Hd as [Hd|[Hd|[]]]; auto. injection Hd as <-. unfold dbok. rewrite E1. auto.
  - rewrite app_assoc. apply (Permutation_NoDup (Permutation_cons_append _ _)). constructor; auto. 
  - rewrite app_assoc. intros p Hp. apply in_app_iff in Hp as [Hp|[<- |[]]]; [right; auto|now left].
Qed.

Lemma gen_ok nb db used s : nbok nb -> dbok db -> interesting t (pt db) -> (sz db <= INT_MAX)%Z -> ginv used s ->
  exists s' ex, generate_candidates P q0 pf t M nb db s = Ok s' /\ ginv used s' /\ snd s' = snd s ++ ex /\ more s s' /\
    forall v u, In v (pt db) -> ~ In u (pt db) -> grows t v u -> (sz db * dom_size t u <= M)%Z -> In (sort Nat.leb (pt db ++ [u])) (fst s').
Proof.
  intros (Ln & Hn) D Hint Hsz. unfold generate_candidates. fold (pt db).
  assert (K : forall l v s, In v (pt db) -> (forall u, In u l -> ~ In u (pt db) /\ grows t v u /\ u < nv) -> ginv used s ->
    exists s' ex, fold_outcome (try_variable P q0 pf t M db) l s = Ok s' /\ ginv used s' /\ snd s' = snd s ++ ex /\ more s s' /\ forall u, In u l -> (sz db * dom_size t u <= M)%Z -> In (sort Nat.leb (pt db ++ [u])) (fst s')).
  { induction l as [|u l IH]; intros v s1 Hv Hl I; cbn [fold_outcome]; [exists s1, []; rewrite app_nil_r; split; [auto|]; split; [auto|]; split; [auto|]; split; [apply more_refl|intros u []]|].
    destruct (Hl u (or_introl eq_refl)) as (A & B & E). destruct (try_ok db used s1 u v D Hint Hsz Hv A B E I) as (s2 & e1 & -> & I2 & X1 & Mo1 & Y1). cbn [bind].
    destruct (IH v s2 Hv (fun u H => Hl u (or_intror H)) I2) as (s3 & e2 & -> & I3 & X2 & Mo2 & Y2). exists s3, (e1 ++ e2). split; [auto|]. split; [auto|]. split; [rewrite X2, X1; now rewrite <- app_assoc|].
    split; [eapply more_trans; eauto|]. intros w [<- |Hw] Hs; [apply (proj1 Mo2); auto|auto]. }
  assert (G : forall l s, incl l (pt db) -> ginv used s -> exists s' ex,
    fold_outcome (fun s v => let* conn := vget nb v in fold_outcome (try_variable P q0 pf t M db) (filter (fun u => negb (mem u (pt db))) conn) s) l s = Ok s' /\ ginv used s' /\ snd s' = snd s ++ ex /\ more s s' /\
    forall v u, In v l -> ~ In u (pt db) -> grows t v u -> (sz db * dom_size t u <= M)%Z -> In (sort Nat.leb (pt db ++ [u])) (fst s')).
  { induction l as [|v l IH]; intros s1 Hl I; cbn [fold_outcome]; [exists s1, []; rewrite app_nil_r; split; [auto|]; split; [auto|]; split; [auto|]; split; [apply more_refl|intros v u []]|].
    pose proof (Hl v (or_introl eq_refl)) as Hv. assert (Lv : v < nv) by (apply D; auto).
    destruct (nth_error nb v) as [conn|] eqn:E; [|apply nth_error_None in E; lia]. unfold vget at 1. rewrite E. cbn [bind].
    destruct (K (filter (fun u => negb (mem u (pt db))) conn) v s1 Hv) as (s2 & e1 & -> & I2 & X1 & Mo1 & Y1); auto.
    { intros u Hu. apply filter_In in Hu as (U1 & U2). apply negb_true_iff, mem_not in U2. apply (Hn v conn E) in U1. splits; auto.
      destruct U1 as [U1|((d & U1) & _)].
      - destruct (build_exact t Ht) as (G0 & _ & _ & HG). destruct (Nat.lt_ge_cases u nv) as [|Hge]; auto. exfalso.
        destruct U1 as (_ & [(op & e & d & H1 & H2 & H3 & H4)|(r & d & H1 & H2 & H3)]); destruct Ht as (_ & Ho & Hr & _ & _); rewrite Forall_forall in Ho, Hr.
        + destruct (Ho op H1) as (O1 & O2). rewrite Forall_forall in O1, O2. destruct (O2 e H2) as (O3 & _). rewrite Forall_forall in O3.
          destruct H4 as [H4|H4]; [apply O1 in H4|apply O3 in H4]; apply fact_ok_lt in H4; cbn in H4; lia.
        + destruct (Hr r H1) as (O1 & _). rewrite Forall_forall in O1. apply O1, fact_ok_lt in H3. cbn in H3. lia.
      - destruct Ht as (_ & _ & _ & _ & Hg). rewrite Forall_forall in Hg. apply Hg, fact_ok_lt in U1. exact U1. }
    cbn [bind]. destruct (IH s2 (fun x H => Hl x (or_intror H)) I2) as (s3 & e2 & -> & I3 & X2 & Mo2 & Y2). exists s3, (e1 ++ e2). split; [auto|]. split; [auto|]. split; [rewrite X2, X1; now rewrite <- app_assoc|].
    split; [eapply more_trans; eauto|]. intros w u [<- |Hw] Hu Hgr Hs; [|eauto]. apply (proj1 Mo2), Y1; auto. apply filter_In. split; [now apply (Hn v conn E)|]. apply negb_true_iff, mem_not, Hu. }
  intros I. apply G; auto. apply incl_refl.
Qed.

Definition nulled (size : Z) (c c' : option pdb) : Prop := c' = c \/ (c' = None /\ forall db, c = Some db -> (C < size + sz db)%Z).
Lemma find_ok k cur size : (size <= Z.max C (total_size t singles))%Z -> forall cands i imp best, (forall db, In (Some db) cands -> (sz db <= M)%Z) ->
  exists r, find_best C count expired k cur size i cands imp best = Ok r /\ (r = None -> exists i, expired k i = true) /\
    forall x y l, r = Some (x, y, l) -> Forall2 (nulled size) cands l /\ imp <= x /\ (forall db, In (Some db) l -> count k cur db <= x) /\
      ((x = imp /\ y = best) \/ exists j db, y = Some (i + j) /\ nth_error l j = Some (Some db) /\ nth_error cands j = Some (Some db) /\ (size + sz db <= C)%Z /\ x = count k cur db).
Proof.
  intros Hsize. induction cands as [|c r IH]; intros i imp best Hc; cbn [find_best].
  - eexists. split; [reflexivity|]. split; [discriminate|]. intros x y l E. injection E as <- <- <-. split; [constructor|]. split; [lia|]. split; [intros db []|auto].
  - destruct (expired k i) eqn:Ee; [exists None; split; [auto|split; [eauto|discriminate]]|].
    assert (K : forall c' imp' best', nulled size c c' -> imp <= imp' -> (forall db, c' = Some db -> count k cur db <= imp') -> (imp' = imp /\ best' = best) \/ (best' = Some i /\ exists db, c' = Some db /\ c = Some db /\ (size + sz db <= C)%Z /\ imp' = count k cur db) ->
      exists res, (let* res := find_best C count expired k cur size (i + 1) r imp' best' in Ok (match res with Some (x, y, l) => Some (x, y, c' :: l) | None => None end)) = Ok res /\ (res = None -> exists i, expired k i = true) /\
        forall x y l, res = Some (x, y, l) -> Forall2 (nulled size) (c :: r) l /\ imp <= x /\ (forall db, In (Some db) l -> count k cur db <= x) /\
          ((x = imp /\ y = best) \/ exists j db, y = Some (i + j) /\ nth_error l j = Some (Some db) /\ nth_error (c :: r) j = Some (Some db) /\ (size + sz db <= C)%Z /\ x = count k cur db)).
    { intros c' imp' best' Hc' Him Hle Hb. destruct (IH (i + 1) imp' best' (fun db H => Hc db (or_intror H))) as (res & -> & Rn & R). cbn [bind].
      eexists. split; [reflexivity|]. split; [destruct res as [[[? ?] ?]|]; [discriminate|auto]|]. intros x y l E. destruct res as [[[x0 y0] l0]|]; [|discriminate]. injection E as <- <- <-.
      destruct (R x0 y0 l0 eq_refl) as (F & Q1 & Q2 & [(E1 & E2)|(j & db & E1 & E2 & E3 & E4 & E5)]);
        (split; [constructor; auto|split; [lia|split; [intros d [Hd|Hd]; [specialize (Hle d Hd); lia|auto]|]]]).
      - destruct Hb as [(B1 & B2)|(B1 & db & B2 & B3 & B4 & B5)]; [left; split; congruence|]. right. exists 0, db. cbn [nth_error]. splits; auto; try congruence. rewrite E2, B1. f_equal. lia.
      - right. exists (S j), db. cbn [nth_error]. splits; auto. rewrite E1. f_equal. lia. }
    destruct c as [db|]; [|apply K; [now left|lia|discriminate|auto]]. cbv zeta. fold (sz db). pose proof (Hc db (or_introl eq_refl)) as Hz.
    unfold guard. rewrite (proj2 (Z.leb_le _ _)) by lia. cbn [bind].
    destruct (Z.ltb_spec C (size + sz db)) as [H1|H1]; [apply K; [right; split; [auto|intros d E; injection E as <-; auto]|lia|discriminate|auto]|].
    destruct (Nat.ltb_spec imp (count k cur db)) as [H2|H2]; (apply K; [now left|lia|intros d E; injection E as <-; lia|eauto 10]).
Qed.

Lemma null_pats size (l l' : list (option pdb)) : Forall2 (nulled size) l l' ->
  incl (pats l') (pats l) /\ (NoDup (pats l) -> NoDup (pats l')) /\ (forall db, In (Some db) l' -> In (Some db) l) /\
  forall db, In (Some db) l -> In (Some db) l' \/ (C < size + sz db)%Z.
Proof.
  induction 1 as [|c c' l l' H _ (I1 & I2 & I3 & I4)]; [splits; auto; apply incl_refl|]. unfold pats in *. cbn [flat_map]. destruct H as [-> |(-> & Hn)].
  - splits.
    + apply incl_app; [apply incl_appl, incl_refl|apply incl_appr, I1].
    + destruct c as [d|]; cbn [app]; auto. intros N. inversion N; subst. constructor; auto.
    + intros db [E|E]; [left; auto|right; auto].
    + intros db [E|E]; [left; left; auto|destruct (I4 db E); [left; right; auto|auto]].
  - cbn [app]. splits.
    + apply incl_appr, I1.
    + destruct c as [d|]; cbn [app]; auto. intros N. inversion N; subst. auto.
    + intros db [E|E]; [discriminate|right; auto].
    + intros db [E|E]; [auto|destruct (I4 db E); [left; right; auto|auto]].
Qed.

Lemma sorted_same : forall a b : list nat, StronglySorted lt a -> StronglySorted lt b -> (forall x, In x a <-> In x b) -> a = b.
Proof.
  induction a as [|x a IH]; intros [|y b] Sa Sb H; auto; [destruct (proj2 (H y) (or_introl eq_refl))|destruct (proj1 (H x) (or_introl eq_refl))|].
  inversion Sa as [|? ? Sa' Fa]; inversion Sb as [|? ? Sb' Fb]; subst. rewrite Forall_forall in Fa, Fb.
  assert (x = y) as ->.
  { destruct (proj1 (H x) (or_introl eq_refl)) as [E|E]; auto. destruct (proj2 (H y) (or_introl eq_refl)) as [E'|E']; auto. apply Fa in E'. apply Fb in E. lia. }
  f_equal. apply IH; auto. intros z. split; intros Hz.
  - destruct (proj1 (H z) (or_intror Hz)) as [<- |X]; auto. apply Fa in Hz. lia.
  - destruct (proj2 (H z) (or_intror Hz)) as [<- |X]; auto. apply Fb in Hz. lia.
Qed.
Lemma pats_In p l : In p (pats l) <-> exists d, In (Some d) l /\ pt d = p.
Proof.
  unfold pats. rewrite in_flat_map. split.
  - intros ([d|] & H & E); [|destruct E]. destruct E as [E|[]]. eauto.
  - intros (d & H & E). exists (Some d). split; auto. now left.
Qed.
(** The candidates are complete. *)
Definition cinv (cur added : list pdb) (size : Z) (s : list (list nat) * list (option pdb)) : Prop :=
  (forall p, In p (fst s) -> In p (map pt added) \/ In p (pats (snd s)) \/ (C < size + pattern_size t p)%Z) /\
  (forall db v u, In db cur -> In v (pt db) -> ~ In u (pt db) -> grows t v u -> (sz db * dom_size t u <= M)%Z -> In (sort Nat.leb (pt db ++ [u])) (fst s)).
Lemma admissible_found cur added size s db' : (forall db, In db cur -> dbok db) -> incl added cur -> size = total_size t (map pt cur) -> cinv cur added size s -> (forall db, In (Some db) (snd s) -> dbok db) ->
  admissible t M C (map pt cur) (pt db') -> compute_pdb P q0 pf t (pt db') [] = Ok db' -> In (Some db') (snd s).
Proof.
  intros Hc Hi Hs (I1 & I2) H3 ((p & Hp & v & u & E1 & E2 & E3 & E4) & Hof & Hnew & HsM & HsC) Hdb. apply in_map_iff in Hp as (db & <- & Hin). destruct (Hc db Hin) as ((D1a & D1b) & D2 & D3). destruct Hof as (_ & O1 & O2).
  assert (Lu : u < nv) by (apply O2, E4; auto).
  assert (Hnd : NoDup (pt db ++ [u])) by (apply (Permutation_NoDup (Permutation_cons_append _ _)); constructor; auto; apply sorted_nd, D1a).
  assert (En : sort Nat.leb (pt db ++ [u]) = pt db').
  { apply sorted_same; [now apply sort_lt|auto|]. intros x. rewrite sort_In, in_app_iff, E4. cbn [In]. intuition. }
  assert (Pm : Permutation (pt db') (u :: pt db)) by (rewrite <- En, (Proof_MAA1.sort_perm Nat.leb (pt db ++ [u])); symmetry; apply Permutation_cons_append).
  assert (Hz : pattern_size t (pt db') = (sz db * dom_size t u)%Z).
  { rewrite same_size by auto. rewrite (num_states_perm t _ _ Pm), num_states_cons, D3, same_size by auto. lia. }
  assert (Hg : In (pt db') (fst s)) by (rewrite <- En; apply (I2 db v u); auto; lia).
  destruct (I1 _ Hg) as [X|[X|X]]; [|apply pats_In in X as (d & X1 & X2)|lia].
  - exfalso. apply Hnew. apply in_map_iff in X as (d & <- & Hd). apply in_map. auto.
  - destruct (H3 d X1) as (_ & Y & _). rewrite X2, Hdb in Y. injection Y as ->. exact X1.
Qed.

Definition linv (init added : list pdb) (size : Z) (s : list (list nat) * list (option pdb)) : Prop :=
  map pt init = singles /\ size = total_size t (singles ++ map pt added) /\ (size <= Z.max C (total_size t singles))%Z /\
  ginv (map pt added) s /\ (forall db, In db (init ++ added) -> dbok db) /\
  (forall pre p post, map pt added = pre ++ p :: post -> (total_size t (singles ++ pre ++ [p]) <= C)%Z).
Definition best_at (k : nat) (cur : list pdb) (n : nat) : Prop :=
  forall db', admissible t M C (map pt cur) (pt db') -> compute_pdb P q0 pf t (pt db') [] = Ok db' -> count k cur db' <= n.
Definition steps (init added : list pdb) : Prop := forall pre db post, added = pre ++ db :: post ->
  mi <= count (length pre) (init ++ pre) db /\ best_at (length pre) (init ++ pre) (count (length pre) (init ++ pre) db).
Definition stops (k : nat) (cur : list pdb) : Prop :=
  dead k cur = true \/ sampling k = true \/ (exists i, expired k i = true) \/ best_at k cur (mi - 1).
Definition search_ok (init : list pdb) (dbs : list pdb) : Prop := exists added, dbs = init ++ added /\ steps init added /\ stops (length added) dbs.
Definition result_ok (dbs : list pdb) : Prop := (forall db, In db dbs -> dbok db) /\ hill_climbing_spec t M C (map pt dbs).

Lemma nd_app {A} (a b : list A) : NoDup (a ++ b) -> NoDup a /\ NoDup b /\ forall x, In x a -> ~ In x b.
Proof.
  induction a as [|x a IH]; cbn [app]; intros N; [splits; [constructor|auto|intros x []]|]. inversion N as [|? ? N1 N2]; subst. destruct (IH N2) as (A1 & A2 & A3). rewrite in_app_iff in N1.
  splits; auto; [constructor; auto|]. intros y [<- |Hy]; auto.
Qed.
Lemma nd_app_intro {A} (a b : list A) : NoDup a -> NoDup b -> (forall x, In x a -> ~ In x b) -> NoDup (a ++ b).
Proof.
  intros Na Nb. induction Na as [|x a Hx _ IH]; intros H; cbn [app]; auto. constructor; [rewrite in_app_iff; intros [X|X]; [auto|exact (H x (or_introl eq_refl) X)]|].
  apply IH. intros y Hy. apply H. now right.
Qed.

Lemma linv_result init added size s : linv init added size s -> result_ok (init ++ added).
Proof.
  intros (L1 & L2 & L3 & (G1 & G2 & G3 & G4 & G5) & L5 & L6). split; [exact L5|].
  assert (Ga : forall p, In p (map pt added) -> goodp p) by (intros p Hp; apply G2, G5, in_or_app; auto).
  unfold hill_climbing_spec. rewrite map_app, L1. splits.
  - apply nd_app_intro.
    + unfold singles. clear -Hgs. induction (t_goal t) as [|g gs IH]; cbn [map] in *; [constructor|]. inversion Hgs as [|? ? N1 N2]; subst. constructor; auto.
      intros X. apply in_map_iff in X as (g' & E & Hg'). injection E as E. apply N1. rewrite <- E. now apply in_map.
    + exact (proj1 (nd_app _ _ G4)).
    + intros p Hp Hp'. apply Ga in Hp' as (_ & _ & H & _). unfold singles in Hp. apply in_map_iff in Hp as (g & <- & _). cbn in H. lia.
  - intros p Hp. apply in_app_iff in Hp as [Hp|Hp]; [|destruct (Ga p Hp) as (A & B & _); auto].
    unfold singles in Hp. apply in_map_iff in Hp as ([g d] & <- & Hg). cbn [fst]. split; [|apply single_interesting; exists d; exact Hg].
    split; [discriminate|]. split; [repeat constructor|]. intros v [<- |[]]. destruct Ht as (_ & _ & _ & _ & H). rewrite Forall_forall in H. apply H, fact_ok_lt in Hg. exact Hg.
  - exists (map pt added). splits; auto. intros p Hp. destruct (Ga p Hp) as (_ & _ & A & B). auto.
Qed.

Lemma climb_ok nb : nbok nb -> forall fuel k init added size s, linv init added size s -> cinv (init ++ added) added size s -> steps init added -> k = length added -> 2 ^ nv < fuel + length added ->
  exists dbs, climb P q0 pf t M C mi count dead sampling expired fuel k nb (init ++ added) size s = Ok dbs /\ result_ok dbs /\ search_ok init dbs.
Proof.
  intros Hnb. induction fuel as [|fuel IH]; intros k init added size s L Ci St Hk Hf; cbn [climb].
  { exfalso. destruct L as (_ & _ & _ & (G1 & G2 & _ & G4 & G5) & _).
    assert (length (map pt added) <= length (fst s)) as X by (apply NoDup_incl_length; [exact (proj1 (nd_app _ _ G4))|intros p Hp; apply G5, in_or_app; auto]).
    pose proof (few_patterns t (fst s) G1 (fun p Hp => proj1 (G2 p Hp))). rewrite map_length in X. lia. }
  pose proof (linv_result _ _ _ _ L) as R. assert (Fin : stops k (init ++ added) -> exists dbs, Ok (init ++ added) = Ok dbs /\ result_ok dbs /\ search_ok init dbs).
  { intros X. exists (init ++ added). split; [auto|]. split; [auto|]. exists added. rewrite <- Hk. auto. }
  unfold stops in Fin. destruct (dead k (init ++ added)); [auto|]. destruct (sampling k); [auto|].
  destruct L as (L1 & L2 & L3 & G & L5 & L6). assert (G' := G). destruct G' as (G1 & G2 & G3 & G4 & G5).
  assert (Hz : forall db, In (Some db) (snd s) -> (sz db <= M)%Z).
  { intros db Hd. destruct (G3 db Hd) as (_ & _ & ->). destruct (G2 (pt db)) as (_ & _ & _ & H); auto. apply G5, in_or_app. right. unfold pats. apply in_flat_map. exists (Some db). split; auto. now left. }
  destruct (find_ok k (init ++ added) size L3 (snd s) 0 0 None Hz) as (r & -> & Hrn & Hr). cbn [bind].
  destruct r as [[[imp best] cands]|]; [|apply Fin; right; right; left; now apply Hrn]. destruct (Hr imp best cands eq_refl) as (F & _ & Hmax & Hbest). clear Hr Hrn.
  assert (Hts0 : size = total_size t (map pt (init ++ added))) by (rewrite map_app, L1; exact L2).
  destruct (null_pats _ _ _ F) as (F1 & F2 & F3 & F4).
  assert (Hall : best_at k (init ++ added) imp).
  { intros db' Ha Hd. assert (X := admissible_found _ added size s db' L5 ltac:(apply incl_appr, incl_refl) Hts0 Ci G3 Ha Hd). destruct (F4 _ X) as [Y|Y]; [now apply Hmax|].
    exfalso. destruct Ha as (_ & _ & _ & _ & Ha). destruct (G3 _ X) as (_ & _ & Z1). rewrite Hts0, Z1 in Y. lia. }
  destruct (Nat.ltb_spec imp mi) as [Hi|Hi]; [apply Fin; right; right; right; intros db' H1 H2; specialize (Hall db' H1 H2); lia|]. destruct Hbest as [(-> & _)|(i & db & -> & E1 & E2 & E3 & E4)]; [lia|]. cbn [Nat.add].
  unfold vget at 1. rewrite E1. cbn [bind]. fold (sz db). pose proof (nth_error_In _ _ E2) as Hin. pose proof (Hz db Hin) as Hzdb. pose proof (G3 db Hin) as Hdb.
  unfold guard. rewrite (proj2 (Z.leb_le _ _)) by lia. cbn [bind].
  destruct (nd_app _ _ G4) as (Na & Nc & Nac).
  assert (Gn : ginv (map pt added) (fst s, cands)).
  { unfold ginv. cbn [fst snd]. splits; auto.
    - apply nd_app_intro; auto. intros p Hp Hp'. apply (Nac p Hp), F1, Hp'.
    - apply incl_app; intros p Hp; apply G5, in_or_app; auto. }
  assert (Hpt : In (pt db) (fst s)) by (apply G5, in_or_app; right; unfold pats; apply in_flat_map; exists (Some db); split; [auto|now left]).
  destruct (gen_ok nb db _ _ Hnb Hdb (proj1 (proj2 (G2 _ Hpt))) ltac:(lia) Gn) as (s' & ex & -> & Gs & Es & (Mo1 & Mo2 & Mo3) & Hnew). cbn [bind fst snd] in *.
  assert (Hl : nth_error (snd s') i = Some (Some db)) by (rewrite Es, nth_error_app1; [exact E1|apply nth_error_Some; congruence]).
  unfold vset. assert (Li : i < length (snd s')) by (apply nth_error_Some; congruence). rewrite (proj2 (Nat.ltb_lt _ _)) by auto. cbn [bind].
  destruct (nth_error_split _ _ Hl) as (A & B & EAB & LA).
  assert (Eu : upd (snd s') i None = A ++ None :: B).
  { rewrite EAB, <- LA. clear. induction A as [|a A IH]; cbn; [reflexivity|]. now rewrite IH. }
  assert (Hts : total_size t (singles ++ map pt (added ++ [db])) = (size + sz db)%Z).
  { rewrite map_app, app_assoc, total_app, <- L2. cbn [map]. unfold total_size. cbn [fold_right]. destruct Hdb as (_ & _ & ->). lia. }
  rewrite <- app_assoc. apply IH; [| | |rewrite app_length; cbn; lia|rewrite app_length; cbn; lia].
  3: { intros pre d post E. destruct post as [|q post _] using rev_ind; [apply app_inj_tail in E as [<- <-]; rewrite <- Hk, <- E4; auto|]. rewrite app_comm_cons, app_assoc in E. apply app_inj_tail in E as [E _]. exact (St _ _ _ E). }
  2: { split; cbn [fst snd].
    - intros p Hp. rewrite map_app. cbn [map].
      assert (X : In p (map pt added) \/ In p (pats (snd s')) \/ (C < size + pattern_size t p)%Z).
      { destruct (Mo3 p Hp) as [H|H]; auto. destruct (proj1 Ci p H) as [X|[X|X]]; auto. apply pats_In in X as (d & X1 & X2). destruct (F4 d X1) as [Y|Y].
        - right. left. apply Mo2, pats_In. eauto.
        - right. right. destruct (G3 d X1) as (_ & _ & Z1). rewrite Z1, X2 in Y. exact Y. }
      destruct X as [X|[X|X]].
      + left. apply in_or_app. auto.
      + apply pats_In in X as (d & X1 & <-). rewrite EAB in X1. apply in_app_iff in X1 as [X1|[X1|X1]].
        * right. left. apply pats_In. exists d. split; auto. rewrite Eu. apply in_or_app. auto.
        * left. injection X1 as ->. apply in_or_app. right. now left.
        * right. left. apply pats_In. exists d. split; auto. rewrite Eu. apply in_or_app. right. now right.
      + right. right. unfold sz. lia.
    - intros d v u Hd. rewrite app_assoc in Hd. apply in_app_iff in Hd as [Hd|[<- |[]]].
      + intros Q1 Q2 Q3 Q4. apply Mo1. exact (proj2 Ci d v u Hd Q1 Q2 Q3 Q4).
      + apply Hnew. }
  destruct Gs as (S1 & S2 & S3 & S4 & S5). unfold linv. splits; auto.
  - lia.
  - unfold ginv. cbn [fst snd]. rewrite Eu, EAB in *. rewrite pats_app in *. unfold pats at 2 in S4. unfold pats at 2 in S5. unfold pats at 2. unfold pats at 3. cbn [flat_map app] in *. fold (pats B) in *.
    rewrite map_app. cbn [map].
    assert (Pm : Permutation ((map pt added ++ [pt db]) ++ pats A ++ pats B) (map pt added ++ pats A ++ pt db :: pats B)).
    { rewrite <- app_assoc. apply Permutation_app_head. cbn [app]. apply Permutation_middle. }
    splits; auto.
    + intros d Hd. apply S3. apply in_app_iff in Hd as [Hd|[Hd|Hd]]; [apply in_or_app; auto|discriminate|apply in_or_app; right; right; auto].
    + apply (Permutation_NoDup (Permutation_sym Pm)), S4.
    + intros p Hp. apply S5, (Permutation_in _ Pm), Hp.
  - intros d Hd. rewrite app_assoc in Hd. apply in_app_iff in Hd as [Hd|[<- |[]]]; auto.
  - intros pre p post E. rewrite map_app in E. cbn [map] in E. destruct post as [|q post _] using rev_ind.
    + apply app_inj_tail in E as [<- <-]. rewrite map_app in Hts. cbn [map] in Hts. lia.
    + rewrite app_comm_cons, app_assoc in E. apply app_inj_tail in E as [E _]. exact (L6 _ _ _ E).
Qed.

Lemma initial_ok : exists dbs, initial_pdbs P q0 pf t singles = Ok (dbs, total_size t singles) /\ map pt dbs = singles /\ forall db, In db dbs -> dbok db /\ (sz db <= INT_MAX)%Z.
Proof.
  unfold initial_pdbs.
  assert (K : forall l dbs z, (forall p, In p l -> exists g d, p = [g] /\ In (g, d) (t_goal t)) -> z = total_size t (map pt dbs) -> (total_size t (map pt dbs ++ l) <= INT_MAX)%Z -> (forall db, In db dbs -> dbok db /\ (sz db <= INT_MAX)%Z) ->
    exists dbs', fold_outcome (fun s p => let* d := compute_pdb P q0 pf t p [] in let* _ := guard (snd s + Z.of_nat (pj_num (db_pj d)) <=? INT_MAX)%Z in
      Ok (fst s ++ [d], (snd s + Z.of_nat (pj_num (db_pj d)))%Z)) l (dbs, z) = Ok (dbs', total_size t (map pt dbs ++ l)) /\ map pt dbs' = map pt dbs ++ l /\ forall db, In db dbs' -> dbok db /\ (sz db <= INT_MAX)%Z).
  { induction l as [|p l IH]; intros dbs z Hl Hz Hm Hd; cbn [fold_outcome].
    - exists dbs. rewrite app_nil_r. splits; auto. congruence.
    - destruct (Hl p (or_introl eq_refl)) as (g & d & Ep & Hg). assert (Lg : g < nv) by (destruct Ht as (_ & _ & _ & _ & H); rewrite Forall_forall in H; apply H, fact_ok_lt in Hg; exact Hg).
      assert (Hpo : pattern_ok t p) by (rewrite Ep; split; [repeat constructor|intros v [<- |[]]; auto]).
      assert (Et : total_size t (map pt dbs ++ p :: l) = (total_size t (map pt dbs) + pattern_size t p + total_size t l)%Z) by (rewrite total_app; unfold total_size at 2; cbn [fold_right]; fold (total_size t l); lia).
      pose proof (total_nonneg t l). pose proof (total_nonneg t (map pt dbs)).
      destruct (Hpdb p Hpo ltac:(lia)) as (x & E & E1 & E2). rewrite E. cbn [bind fst snd]. fold (sz x).
      unfold guard at 1. rewrite (proj2 (Z.leb_le _ _)) by lia. cbn [bind].
      destruct (IH (dbs ++ [x]) (z + sz x)%Z) as (dbs' & E' & M1 & M2).
      + intros q Hq. apply Hl. now right.
      + rewrite map_app, total_app. cbn [map]. unfold total_size at 2. cbn [fold_right]. rewrite E1. lia.
      + rewrite map_app, <- app_assoc. cbn [map app]. rewrite E1. exact Hm.
      + intros db Hdb. apply in_app_iff in Hdb as [Hdb|[<- |[]]]; auto. split; [unfold dbok; rewrite E1; auto|lia].
      + rewrite map_app, <- app_assoc in E', M1. cbn [map app] in E', M1. rewrite E1 in E', M1. exists dbs'. splits; auto; apply M2; auto. }
  destruct (K singles [] 0%Z) as (dbs & E & E1 & E2); [|reflexivity|cbn [map app]; lia|intros db []|exists dbs; auto].
  intros p Hp. unfold singles in Hp. apply in_map_iff in Hp as ([g d] & <- & Hg). eauto.
Qed.

Theorem hc_ok fuel ds nt : 2 ^ nv < fuel ->
  exists dbs, hill_climbing P q0 pf t M C mi count dead sampling expired fuel ds nt = Ok dbs /\ result_ok dbs /\ exists init, map pt init = singles /\ ((ds || nt = true /\ dbs = init) \/ search_ok init dbs).
Proof.
  intros Hf. unfold hill_climbing. fold singles. destruct initial_ok as (init & -> & E1 & Hi). cbn [bind].
  assert (G0 : ginv [] ([], [])) by (unfold ginv; cbn; splits; [constructor|intros p []|intros db []|constructor|intros p []]).
  assert (L0 : forall s, ginv [] s -> linv init [] (total_size t singles) s).
  { intros s G. unfold linv. cbn [map]. rewrite !app_nil_r. splits; auto; try lia; try (intros db Hdb; now apply Hi); intros [|? ?] p post; discriminate. }
  destruct (ds || nt); [exists init; split; [auto|]; split; [rewrite <- (app_nil_r init); eapply linv_result; apply L0, G0|eauto]|].
  rewrite Hcg. cbn [bind]. destruct neighbours_ok' as (nb & -> & Hnb). cbn [bind].
  assert (K : forall l s, incl l init -> ginv [] s -> exists s', fold_outcome (fun s db => generate_candidates P q0 pf t M nb db s) l s = Ok s' /\ ginv [] s' /\ more s s' /\
    forall db v u, In db l -> In v (pt db) -> ~ In u (pt db) -> grows t v u -> (sz db * dom_size t u <= M)%Z -> In (sort Nat.leb (pt db ++ [u])) (fst s')).
  { induction l as [|db l IH]; intros s Hl G; cbn [fold_outcome]; [exists s; split; [auto|]; split; [auto|]; split; [apply more_refl|intros db v u []]|]. destruct (Hi db (Hl db (or_introl eq_refl))) as (D1 & D2).
    assert (Hint : interesting t (pt db)).
    { assert (In (pt db) singles) as X by (rewrite <- E1; apply in_map, Hl; now left). unfold singles in X. apply in_map_iff in X as ([g d] & <- & Hg). apply single_interesting. exists d. exact Hg. }
    destruct (gen_ok nb db [] s Hnb D1 Hint D2 G) as (s1 & ex & -> & G' & _ & Mo1 & Y1). cbn [bind]. destruct (IH s1 (fun x Hx => Hl x (or_intror Hx)) G') as (s2 & E & G2 & Mo2 & Y2).
    exists s2. split; [auto|]. split; [auto|]. split; [eapply more_trans; eauto|]. intros d v u [<- |Hd] Q1 Q2 Q3 Q4; [apply (proj1 Mo2); eauto|eauto]. }
  destruct (K init ([], []) (incl_refl _) G0) as (s & -> & Gs & (_ & _ & Mo) & Hall). cbn [bind].
  destruct (climb_ok nb Hnb fuel 0 init [] (total_size t singles) s (L0 s Gs)) as (dbs & E & R1 & R2); auto.
  - rewrite app_nil_r. split; [|exact Hall]. intros p Hp. destruct (Mo p Hp) as [[]|X]; auto.
  - intros [|? ?] db post; discriminate.
  - cbn. lia.
  - rewrite app_nil_r in E. exists dbs. split; [auto|]. split; [auto|]. exists init. auto.
Qed.
End HC.

(** The greedy and the random pattern generator. *)
From Coq Require Import Sorting Permutation Relations.
From Verif Require Import Outcome Spec_Task Spec_CausalGraph Spec_Patterns Model_MAS Model_CausalGraph Model_MergeStrategy Spec_MergeStrategy Spec_PatternGenerators Model_Evaluators Model_Patterns Model_PatternGenerators.
From Verif Require Import Proof_CausalGraph Proof_MAS1 Proof_MAA1 Proof_MS6 Proof_MS7 Proof_Pat1 Proof_Pat4 Prop_Evaluators.
Import ListNotations.

Definition small_domains (t : task) : Prop := forall x, In x (t_vars t) -> (Z.of_nat (vdom x) <= INT_MAX)%Z.

Lemma num_states_perm t a b : Permutation a b -> num_states t a = num_states t b.
Proof. unfold num_states. induction 1 as [|x a b _ IH|x y a|a b c _ IH1 _ IH2]; cbn [fold_right]; [auto|now rewrite IH|lia|congruence]. Qed.
Lemma num_states_app t a b : num_states t (a ++ b) = (num_states t a * num_states t b)%Z.
Proof. unfold num_states. induction a as [|x a IH]; cbn [fold_right app]; [now rewrite Z.mul_1_l|]. rewrite IH. ring. Qed.
Lemma num_states_cons t v vs : num_states t (v :: vs) = (dom_size t v * num_states t vs)%Z.
Proof. reflexivity. Qed.
Lemma num_states_one t v : num_states t [v] = dom_size t v.
Proof. rewrite num_states_cons. apply Z.mul_1_r. Qed.

Section Gen.
Variable t : task.
Hypothesis Ht : task_ok t.
Hypothesis Hsmall : small_domains t.
Variable limit : Z.
Hypothesis Hl : (1 <= limit <= INT_MAX)%Z.
Local Notation nv := (length (t_vars t)).

Lemma dom_ok v : v < nv -> exists x, vget (t_vars t) v = Ok x /\ Z.of_nat (vdom x) = dom_size t v /\ (1 <= dom_size t v <= INT_MAX)%Z.
Proof.
  intros Hv. destruct (nth_error (t_vars t) v) as [x|] eqn:E; [|apply nth_error_None in E; lia]. exists x. unfold vget, dom_size. rewrite E.
  pose proof (nth_error_In _ _ E) as Hx. destruct Ht as (H & _). rewrite Forall_forall in H. destruct (H x Hx) as (H1 & _). specialize (Hsmall x Hx). splits; auto; lia.
Qed.
Lemma fits_ok a d : (0 <= a <= INT_MAX)%Z -> (0 <= d <= INT_MAX)%Z -> is_product_within_limit a d limit = Ok (a * d <=? limit)%Z.
Proof. intros A D. apply C58_is_product_within_limit; unfold is_int, INT_MIN, INT_MAX in *; lia. Qed.

(** ** Greedy *)
Section Greedy.
Variable G : causal_graph.
Hypothesis HG : forall u, u < nv -> exists l, nth_error (g_eff_to_pre G) u = Some l /\ forall v, In v l <-> pre_eff t v u.
Local Notation base := (rev (seq 0 nv)).
Lemma base_perm : Permutation base (seq 0 nv). Proof. apply Permutation_sym, Permutation_rev. Qed.

Lemma greedy_loop_ok : forall fuel vs V, finder_ok t base vs V -> chosen_in_order t vs -> (forall v, In v vs -> relevant t v) -> NoDup vs ->
  length (fresh vs base) <= fuel -> (1 <= num_states t vs <= limit)%Z ->
  exists vs', chosen_in_order t vs' /\ NoDup vs' /\ (forall v, In v vs' -> v < nv /\ relevant t v) /\ (num_states t vs' <= limit)%Z /\
    ((greedy_loop fuel t G limit V (num_states t vs) vs = Ok vs' /\
        ((forall v, v < nv -> In v vs') \/ exists v, next_variable t vs' v /\ (limit < num_states t vs' * dom_size t v)%Z)) \/
     (greedy_loop fuel t G limit V (num_states t vs) vs = Exit 33 /\ (exists v, v < nv /\ ~ relevant t v) /\ forall v, v < nv -> relevant t v -> In v vs')).
Proof.
  induction fuel as [|fuel IH]; intros vs V HF HC HR HN Hf Hs; pose proof HF as (F1 & F2 & _).
  - cbn [greedy_loop]. destruct (fresh vs base) as [|x l] eqn:E; [|cbn [length] in Hf; lia]. rewrite F1. exists vs. splits; auto; [lia|].
    left. split; auto. left. intros v Hv. destruct (in_dec Nat.eq_dec v vs) as [|N]; auto. exfalso.
    assert (K : In v (fresh vs base)) by (apply fresh_In; split; [apply (proj2 (base_lt t base base_perm v)); auto|auto]). rewrite E in K. destruct K.
  - cbn [greedy_loop]. destruct (v_remaining V) as [|x l] eqn:E.
    + exists vs. splits; auto; [lia|]. left. split; auto. left. intros v Hv. destruct (in_dec Nat.eq_dec v vs) as [|N]; auto. exfalso.
      assert (K : In v (fresh vs base)) by (apply fresh_In; split; [apply (proj2 (base_lt t base base_perm v)); auto|auto]). rewrite <- F1 in K. destruct K.
    + destruct (next_ok t Ht GoalCgLevel base base_perm G HG vs V HF) as [(v & V' & -> & HF' & Hv & Hw & Hr)|(-> & Hn & Hst)]; [congruence| |]; cbn [bind].
      * pose proof Hv as Hv'. apply fresh_In in Hv' as (Hvb & Nv). apply (base_lt t base base_perm) in Hvb.
        assert (NX : next_variable t vs v).
        { unfold next_variable. splits; auto.
          - destruct (Hr ltac:(unfold needs_relevance; auto)); auto.
          - intros w Hw1 Hw2 Hw3. apply Hw; auto. apply fresh_In. split; auto. now apply (base_lt t base base_perm). }
        destruct (dom_ok v Hvb) as (y & -> & Ed & Hd). cbn [bind]. rewrite Ed, fits_ok by lia. cbn [bind].
        assert (Es : num_states t (vs ++ [v]) = (num_states t vs * dom_size t v)%Z) by now rewrite num_states_app, num_states_one.
        destruct (Z.leb_spec (num_states t vs * dom_size t v) limit) as [L|L]; cbn [negb].
        -- assert (guard (num_states t vs * dom_size t v <=? INT_MAX)%Z = Ok tt) as -> by (unfold guard; rewrite (proj2 (Z.leb_le _ _)); [auto|lia]). cbn [bind]. rewrite <- Es.
           assert (R : relevant t v).
           { destruct NX as (_ & _ & [Hg|(u & Hu & Hp)] & _); [exists v; split; auto; apply rt_refl|].
             destruct (HR u Hu) as (g & Hg & Hpath). exists g. split; auto. eapply rt_trans; [apply rt_step; exact Hp|exact Hpath]. }
           apply IH; auto.
           ++ now constructor.
           ++ intros u Hu. apply in_app_iff in Hu as [Hu|[<- |[]]]; auto.
           ++ apply Permutation_NoDup with (v :: vs); [apply Permutation_cons_append|]. now constructor.
           ++ pose proof (fresh_length t base base_perm vs v Hv). lia.
           ++ rewrite Es. nia.
        -- exists vs. splits; auto; [lia|]. left. split; auto. right. exists v. auto.
      * exists vs. splits; auto; [lia|]. right. split; auto.
        assert (ST : forall w, In w (fresh vs base) -> ~ relevant t w) by (apply (stuck t Ht base base_perm vs Hst)). split.
        -- exists x. assert (Hx : In x (fresh vs base)) by (rewrite <- F1; now left). split; [|auto]. apply fresh_In in Hx as (Hx & _). now apply (base_lt t base base_perm).
        -- intros v Hv Rv. destruct (in_dec Nat.eq_dec v vs) as [|N]; auto. exfalso. apply (ST v); auto. apply fresh_In. split; auto. now apply (base_lt t base base_perm).
Qed.
End Greedy.

Lemma greedy_ok :
  exists vs, chosen_in_order t vs /\ NoDup vs /\ (forall v, In v vs -> v < nv /\ relevant t v) /\ (num_states t vs <= limit)%Z /\
    ((exists p, greedy_pattern limit t = Ok p /\ StronglySorted lt p /\ (forall v, In v p <-> In v vs) /\
        ((forall v, v < nv -> In v vs) \/ exists v, next_variable t vs v /\ (limit < num_states t vs * dom_size t v)%Z)) \/
     (greedy_pattern limit t = Exit 33 /\ (exists v, v < nv /\ ~ relevant t v) /\ forall v, v < nv -> relevant t v -> In v vs)).
Proof.
  destruct (build_exact t Ht) as (G & EG & _ & HG). unfold greedy_pattern. rewrite EG. cbn [bind].
  assert (HG' : forall u, u < nv -> exists l, nth_error (g_eff_to_pre G) u = Some l /\ forall v, In v l <-> pre_eff t v u).
  { intros u Hu. destruct (HG u Hu) as (_ & l2 & _ & _ & _ & _ & _ & E2 & [_ H2] & _). eauto. }
  destruct (new_finder_ok t Ht GoalCgLevel (fun l => l)) as (V & EV & HF). rewrite EV. cbn [bind]. cbn [first_order] in HF.
  pose proof HF as (F1 & _).
  destruct (greedy_loop_ok G HG' (length (v_remaining V)) [] V HF) as (vs & C & N & B & S1 & D); auto.
  - constructor.
  - intros v [].
  - constructor.
  - rewrite F1. lia.
  - cbn. lia.
  - exists vs. splits; auto. cbn [num_states fold_right] in D. destruct D as [(E & D)|(E & D)]; rewrite E; cbn [bind]; [left|right; auto].
    destruct (proj1 (validate_spec nv (map Z.of_nat vs))) as (p & Ep & Sp & Hp).
    + intros v Hv. apply in_map_iff in Hv as (u & <- & Hu). apply B in Hu. lia.
    + exists p. splits; auto. intros v. rewrite Hp, in_map_iff. split; [intros (u & Eu & Hu); apply Nat2Z.inj in Eu; now subst|intros H; eauto].
Qed.

(** ** Random *)
Lemma unique_nats_In y : forall l, In y (unique_nats l) <-> In y l.
Proof.
  induction l as [|x l IH]; [tauto|]. cbn [unique_nats]. destruct l as [|z l]; [tauto|].
  destruct (Nat.eqb_spec x z) as [-> |N]; cbn [In] in *; rewrite IH; tauto.
Qed.
Definition neighbours_ok (both : bool) (nb : list (list nat)) : Prop :=
  length nb = nv /\ forall v l, nth_error nb v = Some l -> forall u, In u l <-> neighbour t both v u.
Lemma cg_neighbors_ok both : exists nb, compute_cg_neighbors t both = Ok nb /\ neighbours_ok both nb.
Proof.
  destruct (build_exact t Ht) as (G & EG & _ & HG). unfold compute_cg_neighbors. rewrite EG. cbn [bind].
  assert (K : forall m k r, k + m = nv -> length r = k -> (forall v l, nth_error r v = Some l -> forall u, In u l <-> neighbour t both v u) ->
    exists nb, fold_outcome (fun r v => let* p := vget (g_predecessors G) v in
      let* l := (if both then let* s := vget (g_successors G) v in Ok (p ++ s) else Ok p) in
      Ok (r ++ [unique_nats (sort Nat.leb l)])) (seq k m) r = Ok nb /\ neighbours_ok both nb).
  { induction m as [|m IH]; intros k r Hk Lr Hr; cbn [seq fold_outcome].
    - exists r. split; auto. split; auto. lia.
    - destruct (HG k) as (l1 & l2 & l3 & l4 & l5 & _ & _ & _ & _ & _ & _ & E4 & (_ & H4) & E5 & (_ & H5)); [lia|].
      unfold vget. rewrite E4, E5. cbn [bind].
      assert (X : exists l, (if both then Ok (l5 ++ l4) else Ok l5) = Ok l /\ forall u, In u l <-> neighbour t both k u).
      { unfold neighbour. destruct both; eexists; (split; [reflexivity|]); intros u; [rewrite in_app_iff, H4, H5|rewrite H5]; intuition discriminate. }
      destruct X as (l & El & Hlu). unfold vget in *. 
      assert (E' : (if both then Ok (l5 ++ l4) else Ok l5) = Ok l) by exact El. rewrite E'. cbn [bind].
      apply (IH (S k)); [lia|rewrite app_length; cbn; lia|].
      intros v l' Hv u. destruct (Nat.lt_ge_cases v k) as [Hlt|Hge].
      + rewrite nth_error_app1 in Hv by lia. apply (Hr v l'); auto.
      + rewrite nth_error_app2 in Hv by lia. destruct (v - length r) as [|j] eqn:Ej; cbn in Hv; [|destruct j; discriminate]. injection Hv as <-.
        rewrite unique_nats_In, sort_In, Hlu. replace v with k by lia. tauto. }
  apply (K nv 0 []); auto. intros [|v] l; discriminate.
Qed.
Lemma walk_nodup both g vs : walk t both g vs -> NoDup vs.
Proof. induction 1; [constructor; [intros []|constructor]|now constructor]. Qed.
Lemma neighbour_lt both v u : neighbour t both v u -> u < nv.
Proof. intros [H|[_ H]]; apply (arc_lt t _ _ Ht) in H; tauto. Qed.
Lemma walk_lt both g vs : g < nv -> walk t both g vs -> forall v, In v vs -> v < nv.
Proof.
  intros Hg. induction 1 as [|v vs u W IH Hn Hu]; intros x; [intros [<- |[]]; auto|]. intros [<- |Hx]; [now apply (neighbour_lt both v)|auto].
Qed.

Lemma find_neighbor_ok visited size : (1 <= size <= INT_MAX)%Z -> forall l, (forall u, In u l -> u < nv) ->
  (find_neighbor t limit size visited l = Ok None /\ forall u, In u l -> ~ In u visited -> (limit < size * dom_size t u)%Z) \/
  (exists u, find_neighbor t limit size visited l = Ok (Some (u, size * dom_size t u)%Z) /\ In u l /\ ~ In u visited /\ (size * dom_size t u <= limit)%Z).
Proof.
  intros Hs. induction l as [|x l IH]; intros Hlt; cbn [find_neighbor].
  - left. split; auto. intros u [].
  - destruct (dom_ok x (Hlt x (or_introl eq_refl))) as (y & -> & Ed & Hd). cbn [bind]. cbv zeta. rewrite Ed.
    destruct IH as [(E & H)|(u & E & H1 & H2 & H3)]; [intros; apply Hlt; now right| |];
      (destruct (existsb (Nat.eqb x) visited) eqn:Ex; cbn [negb bind];
       [apply existsb_exists in Ex as (z & Hz & Ez); apply Nat.eqb_eq in Ez; subst z
       |assert (Nx : ~ In x visited) by (intros Hx; apply not_true_iff_false in Ex; apply Ex, existsb_exists; exists x; split; [auto|apply Nat.eqb_refl]);
        rewrite fits_ok by lia; cbn [bind]; destruct (Z.leb_spec (size * dom_size t x) limit) as [L|L];
        [right; exists x; unfold guard; rewrite (proj2 (Z.leb_le _ _)) by lia; cbn [bind]; splits; auto; now left|]]).
    + left. split; auto. intros u [<- |Hu] N; [contradiction|auto].
    + left. split; auto. intros u [<- |Hu] N; auto.
    + right. exists u. splits; auto. now right.
    + right. exists u. splits; auto. now right.
Qed.

Lemma random_loop_ok shuffle expired both g : (forall i l, Permutation (shuffle i l) l) -> g < nv ->
  forall fuel i nb vs v, neighbours_ok both nb -> walk t both g (v :: vs) -> fuel + length (v :: vs) = nv + 1 ->
  (1 <= num_states t (v :: vs) <= INT_MAX)%Z -> ((num_states t (v :: vs) <= limit)%Z \/ v :: vs = [g]) ->
  exists v' vs', random_loop shuffle expired fuel i t limit nb (num_states t (v :: vs)) (v :: vs) v = Ok (v' :: vs') /\ walk t both g (v' :: vs') /\
    ((num_states t (v' :: vs') <= limit)%Z \/ v' :: vs' = [g]) /\
    ((exists j, expired j = true) \/ forall u, neighbour t both v' u -> ~ In u (v' :: vs') -> (limit < num_states t (v' :: vs') * dom_size t u)%Z).
Proof.
  intros Hsh Hg. induction fuel as [|fuel IH]; intros i nb vs v Hnb W Hf Hs Hlim; cbn [random_loop]; destruct (expired i) eqn:Ei; [exists v, vs; splits; eauto| |exists v, vs; splits; eauto|].
  - exfalso. pose proof (NoDup_incl_length (walk_nodup _ _ _ W) (l' := seq 0 nv)) as L. rewrite seq_length in L. 
    assert (X : length (v :: vs) <= nv); [apply L; intros x Hx; apply in_seq; pose proof (walk_lt both g _ Hg W x Hx); lia|lia].
  - destruct Hnb as (Ln & Hn). pose proof (walk_lt both g _ Hg W v (or_introl eq_refl)) as Hv.
    destruct (nth_error nb v) as [l|] eqn:E; [|apply nth_error_None in E; lia]. unfold vget at 1. rewrite E. cbn [bind]. cbv zeta.
    unfold vset at 1. rewrite (proj2 (Nat.ltb_lt _ _)) by lia. cbn [bind].
    assert (Hl' : forall u, In u (shuffle i l) <-> neighbour t both v u).
    { intros u. rewrite <- (Hn v l E u). split; apply Permutation_in; [apply Hsh|apply Permutation_sym, Hsh]. }
    assert (Hnb' : neighbours_ok both (upd nb v (shuffle i l))).
    { split; [now rewrite upd_length|]. intros x l' Hx u. destruct (Nat.eq_dec x v) as [-> |N].
      - rewrite upd_nth_eq in Hx by lia. injection Hx as <-. apply Hl'.
      - rewrite upd_nth_neq in Hx by auto. apply (Hn x); auto. }
    destruct (find_neighbor_ok (v :: vs) (num_states t (v :: vs)) Hs (shuffle i l)) as [(-> & H)|(u & -> & H1 & H2 & H3)]; cbn [bind].
    + intros u Hu. apply Hl' in Hu. now apply (neighbour_lt both v).
    + exists v, vs. splits; auto. right. intros u Hu Nu. apply H; auto. now apply Hl'.
    + apply Hl' in H1. assert (set_insert u (v :: vs) = u :: v :: vs) as ->.
      { unfold set_insert. destruct (existsb (Nat.eqb u) (v :: vs)) eqn:Ex; auto. apply existsb_exists in Ex as (z & Hz & Ez). apply Nat.eqb_eq in Ez. subst z. contradiction. }
      assert (Es : (num_states t (v :: vs) * dom_size t u = num_states t (u :: v :: vs))%Z) by (rewrite (num_states_cons t u); apply Z.mul_comm). rewrite Es in *.
      destruct (dom_ok u (neighbour_lt both v u H1)) as (_ & _ & _ & Hd).
      apply IH; auto; [now constructor|cbn [length] in *; lia|]. rewrite <- Es in *. nia.
Qed.

Lemma random_ok shuffle expired shuffle_goals both : (forall i l, Permutation (shuffle i l) l) -> (forall l, Permutation (shuffle_goals l) l) -> t_goal t <> [] ->
  exists g p v vs, random_pattern shuffle expired shuffle_goals limit both t = Ok p /\ goal_var t g /\
    walk t both g (v :: vs) /\ StronglySorted lt p /\ (forall u, In u p <-> In u (v :: vs)) /\ ((num_states t p <= limit)%Z \/ p = [g]) /\
    ((exists j, expired j = true) \/ forall u, neighbour t both v u -> ~ In u p -> (limit < num_states t p * dom_size t u)%Z).
Proof.
  intros Hsh Hsg Hgoal. unfold random_pattern. destruct (cg_neighbors_ok both) as (nb & -> & Hnb). cbn [bind].
  destruct (shuffle_goals (t_goal t)) as [|[g d] gs] eqn:Eg.
  { exfalso. apply Hgoal. pose proof (Hsg (t_goal t)) as P. rewrite Eg in P. now apply Permutation_nil in P. }
  unfold vget at 1. cbn [nth_error bind fst].
  assert (Gg : goal_var t g). { exists d. apply (Permutation_in _ (Hsg (t_goal t))). rewrite Eg. now left. }
  assert (Hg : g < nv). { destruct Gg as (d' & Hd'). destruct Ht as (_ & _ & _ & _ & Hgs). rewrite Forall_forall in Hgs. apply Hgs in Hd'. now apply fact_ok_lt in Hd'. }
  unfold generate_random_pattern. destruct (dom_ok g Hg) as (x & Ex & Ed & Hd). rewrite Ex. cbn [bind]. rewrite Ed.
  assert (E1 : num_states t [g] = dom_size t g) by apply num_states_one.
  destruct (random_loop_ok shuffle expired both g Hsh Hg nv 0 nb [] g Hnb) as (v & vs & E & W & L & M).
  - constructor.
  - cbn. lia.
  - rewrite E1. lia.
  - auto.
  - rewrite E1 in E. rewrite E. cbn [bind].
    pose proof (walk_nodup _ _ _ W) as N. pose proof (sort_lt _ N) as Ss. pose proof (sort_perm Nat.leb (v :: vs)) as Pm.
    assert (HI : forall u, In u (sort Nat.leb (v :: vs)) <-> In u (v :: vs)) by (intros u; apply sort_In).
    rewrite validate_id; auto; [|intros u Hu; apply HI in Hu; now apply (walk_lt both g (v :: vs))].
    exists g, (sort Nat.leb (v :: vs)), v, vs. rewrite (num_states_perm t _ _ Pm). splits; auto.
    + destruct L as [L|L]; [auto|]. right. injection L as -> ->. reflexivity.
    + destruct M as [M|M]; [auto|]. right. intros u Hu Nu. apply M; auto. now rewrite <- HI.
Qed.
End Gen.

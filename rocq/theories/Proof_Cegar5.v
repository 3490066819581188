(** Without limits and without forbidden variables the loop ends with an optimal plan. *)
From Coq Require Import Sorted Permutation.
From Verif Require Import Outcome Spec_Task Spec_Relaxation Spec_Projection Spec_PatternCollections Spec_PDBCegar Model_Task Proof_Task Model_PQ Model_Graph Model_MAS Model_Evaluators Model_PDB Model_PDBPlan Model_PDBCegar
  Proof_Pat1 Proof_Cegar1 Proof_Cegar2 Proof_Cegar3 Proof_Cegar4 Prop_Evaluators.
Import ListNotations.

Section T.
Variable P : pqueue.
Variable q0 : PQ P.
Variable fuel : nat.
Variable shuffle : nat -> nat -> list nat -> list nat.
Variable choose : nat -> nat -> list nat -> nat.
Variable pick : nat -> list (nat * nat) -> nat.
Hypothesis Hpick : forall k l, l <> [] -> pick k l < length l.
Variable expired : nat -> bool.
Hypothesis Hexp : forall k, expired k = false.
Variable t : task.
Hypothesis Ht : plain_task t.
Variable wildcard : bool.
Hypothesis Hinfo : forall k pat, pattern_ok t pat -> (pattern_size t pat <= MAX_STATES)%Z ->
  exists x, compute_pattern_info P q0 fuel shuffle choose t wildcard k pat = Ok x /\ pi_pattern x = pat /\ info_ok P q0 t fuel x.
Variables M C : Z.
Variable goals : list fact.
Notation nv := (length (t_vars t)).
Notation N := (pattern_size t (seq 0 nv)).
Hypothesis Hdom : forall x, In x (t_vars t) -> (Z.of_nat (vdom x) <= INT_MAX)%Z.
Hypothesis HM : (N <= M)%Z.
Hypothesis HC : ((Z.of_nat (length goals) + 1) * N <= C)%Z.
Hypothesis Hlim : room t goals M C.
Hypothesis Hgoals : incl goals (t_goal t).
Hypothesis Hall : incl (t_goal t) goals.
Hypothesis Hne : goals <> [].
Hypothesis Hnd : NoDup (map fst goals).
Hypothesis Hplan : exists os, task_plan_from t (t_init t) os.
Notation Inv := (Inv P q0 fuel t M C goals []).
Notation loop := (cegar_loop P q0 fuel shuffle choose pick expired t M C wildcard).

Lemma size_pos p : (forall v, In v p -> v < nv) -> (1 <= pattern_size t p)%Z.
Proof.
  intros H. unfold pattern_size. induction p as [|v p IH]; cbn [fold_right]; [lia|]. specialize (IH (fun u Hu => H u (or_intror Hu))).
  assert (D : 1 <= vdom (nth v (t_vars t) {| vdom := 0; vlayer := None; vdefault := 0 |})); [|nia].
  destruct Ht as ((Hv & _) & _). rewrite Forall_forall in Hv.
  destruct (Hv (nth v (t_vars t) {| vdom := 0; vlayer := None; vdefault := 0 |})) as (A & _); [apply nth_In; apply H; now left|]. lia.
Qed.
Lemma size_le p : pattern_ok t p -> (pattern_size t p <= N)%Z.
Proof.
  intros (Hs & Hin). apply sorted_nodup in Hs.
  assert (G : forall p l : list nat, NoDup p -> incl p l -> exists r, Permutation (p ++ r) l).
  { clear. induction p as [|a p IH]; intros l Np Hi; [now exists l|]. destruct (in_split a l (Hi a (or_introl eq_refl))) as (l1 & l2 & ->).
    inversion Np as [|? ? Na Np']; subst. destruct (IH (l1 ++ l2) Np') as (r & Hr).
    - intros x Hx. specialize (Hi x (or_intror Hx)). rewrite in_app_iff in *. destruct Hi as [Hi|[<- |Hi]]; auto. contradiction.
    - exists r. cbn [app]. apply Permutation_cons_app. exact Hr. }
  destruct (G p (seq 0 nv) Hs) as (r & Hr). { intros v Hv. apply in_seq. specialize (Hin v Hv). lia. }
  rewrite <- (size_perm t _ _ Hr), size_app. assert (Hr' : (1 <= pattern_size t r)%Z).
  { apply size_pos. intros v Hv. assert (In v (seq 0 nv)) as H by (eapply Permutation_in; [exact Hr|apply in_app_iff; auto]). apply in_seq in H. lia. }
  pose proof (size_pos p Hin). nia.
Qed.
Lemma total_le L : (forall i x, nth_error L i = Some (Some x) -> (pi_size x <= N)%Z) -> (total L <= Z.of_nat (length L) * N)%Z.
Proof.
  assert (H0 : (1 <= N)%Z) by (apply size_pos; intros v Hv; apply in_seq in Hv; lia).
  unfold total, pi_size. induction L as [|o L IH]; intros H; [cbn; lia|]. specialize (IH (fun i => H (S i))). cbn [map list_sum fold_right length]. change (fold_right Nat.add 0) with list_sum.
  assert (Ho : (Z.of_nat (osize o) <= N)%Z) by (destruct o as [x|]; [exact (H 0 x eq_refl)|cbn [osize]; lia]). lia.
Qed.

Definition fresh (L : list (option pattern_info)) := forall i x, nth_error L i = Some (Some x) -> pi_solved x = false.
Lemma info_fresh k p x : compute_pattern_info P q0 fuel shuffle choose t wildcard k p = Ok x -> pi_solved x = false.
Proof. unfold compute_pattern_info. intros E. apply bind_ok in E as ([db plan] & _ & E). apply bind_ok in E as (v & _ & E). now inv E. Qed.

Lemma flaws_complete x : info_ok P q0 t fuel x ->
  flaws_for_pattern t goals [] x = Ok (true, false, []) \/ exists fl, fl <> [] /\ flaws_for_pattern t goals [] x = Ok (false, false, fl).
Proof.
  intros (Hpat & Hsz & Hdb & Hun & Hso). unfold flaws_for_pattern. destruct (pi_unsolvable x); [exfalso; destruct Hplan as (os & Hos); exact (Hun eq_refl os Hos)|].
  destruct (Hso eq_refl) as (c & Hv & Hw & Hc). pose proof (init_len t Ht) as Hil.
  destruct (plan_ok t Ht [] (pi_pattern x) Hpat _ _ _ Hw (t_init t) eq_refl Hil) as (s & fl & -> & H). cbn [bind].
  destruct H as [(-> & Hl & Hgs & Hb)|(Hn & Hfl)]; [|right; exists fl; destruct fl as [|v fl]; [congruence|auto]].
  destruct (all_hold_ok t Ht s Hl) as (b & -> & Hb'). cbn [bind]. destruct b; [auto|]. right.
  destruct (goal_flaws_ok t Ht [] goals s Hgoals Hl) as (gf & -> & Hgf). cbn [bind]. exists gf. destruct gf as [|v gf]; [|split; [discriminate|auto]].
  exfalso. assert (G : goal_state t s); [|apply Hb' in G; discriminate]. intros [v d] Hf. unfold holds. cbn [fst snd].
  rewrite (nth_error_nth' s 0) by (rewrite Hl; exact (goal_lt t Ht (v, d) Hf)). f_equal.
  destruct (Nat.eq_dec (nth v s 0) d) as [E|E]; auto. exfalso. apply (proj2 (Hgf v)). exists d. splits; auto.
Qed.
Lemma get_flaws_complete L : fresh L -> all_ok P q0 t fuel L -> forall is flaws, (forall i, In i is -> i < length L) ->
  (flaws <> [] \/ exists i x, In i is /\ nth_error L i = Some (Some x)) ->
  exists r fl, get_flaws t goals [] is L flaws = Ok (r, L, fl) /\ (r = None -> fl <> []).
Proof.
  intros Hf Ho. induction is as [|i is IH]; intros flaws Hi Hex; cbn [get_flaws].
  - exists None, flaws. split; auto. intros _. destruct Hex as [H|(i & x & [] & _)]; auto.
  - destruct (vget_some L i (Hi i (or_introl eq_refl))) as (o & Eo & ->). cbn [bind].
    assert (Hi' : forall j, In j is -> j < length L) by (intros; apply Hi; now right).
    destruct o as [x|]; [|apply IH; auto; destruct Hex as [H|(j & x & [<- |Hj] & Hx)]; [auto|congruence|right; eauto]].
    rewrite (Hf i x Eo). destruct (flaws_complete x (Ho i x Eo)) as [-> |(fl & Hfl & ->)]; cbn [bind fst snd].
    + exists (Some i), flaws. split; auto. discriminate.
    + apply IH; auto. left. destruct flaws, fl; cbn [app map]; congruence.
Qed.

Lemma inv_sizes c i x : Inv c -> nth_error (c_coll c) i = Some (Some x) -> (pi_size x <= N)%Z.
Proof. intros (_ & H2 & _) Hx. rewrite (info_size P q0 fuel t M goals [] x (H2 i x Hx)). apply size_le. destruct (H2 i x Hx) as ((A & _) & _). exact A. Qed.
Lemma merge_true c i j v x : Inv c -> nth_error (c_coll c) i = Some (Some x) -> c_index c v = Some j -> ~ In v (pi_pattern x) -> can_merge_patterns M C c i j = Ok true.
Proof.
  intros HI Hi Hj Hv. pose proof HI as (H1 & H2 & H3 & H4 & H5 & H6 & H7 & H8). unfold indexed in H3.
  assert (H0 : (1 <= N)%Z) by (apply size_pos; intros u Hu; apply in_seq in Hu; lia).
  assert (Ml := M_le t M C goals Hlim). pose proof (proj1 (proj2 Hlim)) as Lc.
  destruct (proj1 (H3 v j) Hj) as (y & Hy & Hvy). assert (Hij : i <> j) by (intros ->; rewrite Hi in Hy; injection Hy as <-; contradiction).
  pose proof (coll_size P q0 fuel t M C goals [] Hlim c i x HI Hi) as Sx. pose proof (coll_size P q0 fuel t M C goals [] Hlim c j y HI Hy) as Sy.
  pose proof (H2 i x Hi) as Gx. pose proof (H2 j y Hy) as Gy. pose proof Gx as ((Px & _) & _). pose proof Gy as ((Py & _) & _).
  destruct (sorted_app_ok t (pi_pattern x) (pi_pattern y) Px Py) as (Pz & Sz & _).
  { intros u Hu1 Hu2. apply Hij. assert (E1 : c_index c u = Some i) by (apply H3; eauto). assert (E2 : c_index c u = Some j) by (apply H3; eauto). congruence. }
  apply size_le in Pz. rewrite Sz in Pz. rewrite <- (info_size _ _ _ _ _ _ _ x Gx), <- (info_size _ _ _ _ _ _ _ y Gy) in Pz.
  assert (Tl := total_le (c_coll c) (fun k z => inv_sizes c k z HI)). rewrite H1 in Tl.
  unfold can_merge_patterns. rewrite (cget_ok _ _ _ Hi), (cget_ok _ _ _ Hy). cbn [bind].
  rewrite C58_is_product_within_limit by (unfold is_int, INT_MIN, INT_MAX in *; lia). cbn [bind]. rewrite (proj2 (Z.leb_le _ _)) by lia. cbn [negb].
  rewrite (proj2 (Z.leb_le _ INT_MAX)) by lia. cbn [guard bind]. f_equal. apply Z.leb_le. lia.
Qed.
Lemma add_true c i v x : Inv c -> nth_error (c_coll c) i = Some (Some x) -> c_index c v = None -> v < nv -> can_add_variable t M C c i v = Ok true.
Proof.
  intros HI Hi Hn Hv. pose proof HI as (H1 & H2 & H3 & H4 & H5 & H6 & H7 & H8). unfold indexed in H3.
  assert (H0 : (1 <= N)%Z) by (apply size_pos; intros u Hu; apply in_seq in Hu; lia).
  assert (Ml := M_le t M C goals Hlim). pose proof (proj1 (proj2 Hlim)) as Lc.
  pose proof (coll_size P q0 fuel t M C goals [] Hlim c i x HI Hi) as Sx.
  destruct (vget_some (t_vars t) v Hv) as (var & Hvar & Evar). pose proof (Hdom var (nth_error_In _ _ Hvar)) as Sd.
  pose proof (H2 i x Hi) as Gx. pose proof Gx as ((Px & _) & _).
  assert (Nvx : ~ In v (pi_pattern x)). { intros H. assert (E : c_index c v = Some i) by (apply H3; eauto). congruence. }
  assert (Pv : pattern_ok t [v]) by (split; [repeat constructor|intros u [<- |[]]; auto]).
  assert (Sv : pattern_size t [v] = Z.of_nat (vdom var)) by (unfold pattern_size; cbn [fold_right]; rewrite (nth_error_nth _ _ _ Hvar); lia).
  destruct (sorted_app_ok t (pi_pattern x) [v] Px Pv) as (Pz & Sz & _). { intros u Hu [<- |[]]. auto. }
  apply size_le in Pz. rewrite Sz, Sv in Pz. rewrite <- (info_size _ _ _ _ _ _ _ x Gx) in Pz.
  assert (Tl := total_le (c_coll c) (fun k z => inv_sizes c k z HI)). rewrite H1 in Tl.
  unfold can_add_variable. rewrite (cget_ok _ _ _ Hi), Evar. cbn [bind].
  rewrite C58_is_product_within_limit by (unfold is_int, INT_MIN, INT_MAX in *; lia). cbn [bind]. rewrite (proj2 (Z.leb_le _ _)) by lia. cbn [negb].
  rewrite (proj2 (Z.leb_le _ INT_MAX)) by lia. cbn [guard bind]. f_equal. apply Z.leb_le. lia.
Qed.
Lemma fresh_upd L i x : fresh L -> pi_solved x = false -> fresh (upd L i (Some x)).
Proof. intros H E j y. rewrite upd_nth. destruct (_ && _); [intros E'; injection E' as <-; auto|apply H]. Qed.
Lemma refine_complete k c flaws : Inv c -> c_black c = [] -> fresh (c_coll c) -> flaws <> [] -> (forall f, In f flaws -> good_flaw t (c_coll c) (c_black c) f) ->
  exists c', refine P q0 fuel shuffle choose pick t M C wildcard k c flaws = Ok c' /\ Inv c' /\ measure t c' < measure t c /\ c_black c' = [] /\ fresh (c_coll c').
Proof.
  intros HI Eb Hfr Hn Hf.
  assert (H0 : (1 <= N)%Z) by (apply size_pos; intros u Hu; apply in_seq in Hu; lia).
  destruct (refine_ok P q0 fuel shuffle choose pick Hpick t wildcard Hinfo M C goals [] Hdom ltac:(lia) Hlim k c flaws HI Hn Hf) as (c' & E & HI' & Hm). exists c'. splits; auto;
    unfold refine in E; destruct (vget_some flaws (pick k flaws) (Hpick k flaws Hn)) as ([i v] & Hnth & Ev); rewrite Ev in E; cbn [bind] in E;
    destruct (Hf (i, v) (nth_error_In _ _ Hnth)) as (x & Hx & Hvx & Hvb & Hv); cbn [fst snd] in *;
    (destruct (c_index c v) as [j|] eqn:Ej;
     [apply bind_ok in E as (u & _ & E); rewrite (merge_true c i j v x HI Hx Ej Hvx) in E; cbn [bind] in E; unfold merge_patterns in E;
      apply bind_ok in E as (x1 & _ & E); apply bind_ok in E as (y1 & _ & E); apply bind_ok in E as (z & Ez & E); apply bind_ok in E as (l1 & El1 & E); apply bind_ok in E as (l2 & El2 & E);
      apply vset_ok in El1 as (_ & ->); apply vset_ok in El2 as (_ & ->)
     |rewrite (add_true c i v x HI Hx Ej Hv) in E; cbn [bind] in E; unfold add_variable in E;
      apply bind_ok in E as (x1 & _ & E); apply bind_ok in E as (z & Ez & E); apply bind_ok in E as (l1 & El1 & E); apply vset_ok in El1 as (_ & ->)]);
    injection E as <-; cbn [c_black c_coll]; auto.
  - intros a b. rewrite upd_nth. destruct (_ && _); [discriminate|]. apply fresh_upd; auto. eapply info_fresh; eauto.
  - apply fresh_upd; auto. eapply info_fresh; eauto.
Qed.

Lemma loop_complete : forall n k c, Inv c -> c_black c = [] -> fresh (c_coll c) -> measure t c < n -> exists dbs, loop n k goals c = Ok (true, dbs).
Proof.
  induction n as [|n IH]; intros k c HI Eb Hfr Hm; [lia|]. cbn [cegar_loop]. rewrite Hexp.
  assert (Ho : all_ok P q0 t fuel (c_coll c)) by (intros i x Hx; destruct HI as (_ & H2 & _); exact (proj1 (H2 i x Hx))).
  assert (Hseq : forall i, In i (seq 0 (length (c_coll c))) -> i < length (c_coll c)) by (intros i Hi; apply in_seq in Hi; lia).
  destruct (get_flaws_ok P q0 t Ht fuel goals (c_black c) Hgoals (seq 0 (length (c_coll c))) (c_coll c) [] Hseq Ho ltac:(intros f [])) as [(_ & H)|(r & L' & fl & E & Ed & Ho' & Hfl & Hr)].
  { exfalso. destruct Hplan as (os & Hos). exact (H os Hos). }
  destruct (get_flaws_complete (c_coll c) Hfr Ho (seq 0 (length (c_coll c))) [] Hseq) as (r' & fl' & E' & Hnone).
  { right. destruct goals as [|g gs] eqn:Eg; [congruence|]. pose proof HI as (_ & _ & H3 & H4 & _). specialize (H4 g (or_introl eq_refl)).
    destruct (c_index c (fst g)) as [i|] eqn:Ei; [|congruence]. apply H3 in Ei as (x & Hx & _). exists i, x. split; auto. apply in_seq. apply nth_error_Some_lt in Hx. lia. }
  rewrite Eb in *. rewrite E in E'. injection E' as <- -> <-. rewrite E. cbn [bind fst snd].
  destruct (inv_marks P q0 fuel t M C goals [] c (c_coll c) HI eq_refl Ho) as (HI' & Em). rewrite Eb in HI', Em.
  destruct r as [i|].
  - destruct Hr as (x & Hx & _). unfold cget, vget. cbn [c_coll]. rewrite Hx. cbn [bind]. eauto.
  - destruct fl as [|f fl]; [exfalso; now apply Hnone|].
    destruct (refine_complete k _ (f :: fl) HI' eq_refl Hfr ltac:(discriminate) Hfl) as (c' & -> & HI2 & Hm2 & Eb2 & Hf2). cbn [bind]. apply IH; auto. lia.
Qed.

Lemma collection_complete : exists dbs, cegar_collection P q0 fuel shuffle choose pick expired t M C wildcard goals [] = Ok (true, dbs).
Proof.
  assert (H0 : (1 <= N)%Z) by (apply size_pos; intros u Hu; apply in_seq in Hu; lia).
  unfold cegar_collection. destruct (initial_ok P q0 fuel shuffle choose t Ht wildcard Hinfo M C goals [] Hlim Hgoals Hnd) as (c & E & HI & Eb & Hm). rewrite E. cbn [bind].
  apply loop_complete; auto; [|lia]. clear -E. unfold compute_initial_collection in E.
  assert (G : forall (gs : list fact) c0, fold_outcome (fun c (g : fact) => add_pattern_for_var P q0 fuel shuffle choose t wildcard c (fst g)) gs c0 = Ok c -> fresh (c_coll c0) -> fresh (c_coll c)).
  { induction gs as [|g gs IH]; intros c0 H Hf; cbn [fold_outcome] in H; [now inv H|]. apply bind_ok in H as (c1 & H1 & H). apply (IH c1); auto.
    unfold add_pattern_for_var in H1. apply bind_ok in H1 as (x & Hx & H1). apply bind_ok in H1 as (u & _ & H1). inv H1. cbn [c_coll]. apply info_fresh in Hx.
    intros i y Hy. destruct (Nat.lt_ge_cases i (length (c_coll c0))) as [L|L]; [rewrite nth_error_app1 in Hy by auto; eauto|].
    rewrite nth_error_app2 in Hy by auto. destruct (i - length (c_coll c0)) as [|d]; cbn [nth_error] in Hy; [injection Hy as <-; auto|destruct d; discriminate]. }
  eapply G; [exact E|]. intros [|i] x; discriminate.
Qed.
End T.

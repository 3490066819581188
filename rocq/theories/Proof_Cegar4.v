(** The refinement loop and its result. *)
From Coq Require Import Sorted Permutation.
From Verif Require Import Outcome Spec_Task Spec_Relaxation Spec_Projection Spec_PatternCollections Spec_PDBCegar Model_Task Proof_Task Model_PQ Model_Graph Model_MAS Model_Evaluators Model_PDB Model_PDBPlan Model_PDBCegar
  Proof_Cegar1 Proof_Cegar2 Proof_Cegar3.
Import ListNotations.

Lemma some_infos_In x L : In x (some_infos L) <-> exists i, nth_error L i = Some (Some x).
Proof.
  induction L as [|o L IH]; cbn [some_infos].
  - split; [intros []|intros ([|i] & H); discriminate].
  - assert (E : (exists i, nth_error (o :: L) i = Some (Some x)) <-> o = Some x \/ exists i, nth_error L i = Some (Some x)).
    { split; [intros ([|i] & H); [injection H as ->; auto|eauto]|intros [-> |(i & H)]; [now exists 0|now exists (S i)]]. }
    rewrite E. destruct o as [y|]; cbn [In]; rewrite IH; [|split; [auto|intros [H|H]; [discriminate|auto]]].
    split; (intros [H|H]; [left; congruence|auto]).
Qed.
Lemma some_infos_nth : forall L i x, nth_error (some_infos L) i = Some x -> exists k, i <= k /\ nth_error L k = Some (Some x) /\ length (some_infos (firstn k L)) = i.
Proof.
  induction L as [|[y|] L IH]; intros i x H; cbn [some_infos] in H; [destruct i; discriminate| |].
  - destruct i as [|i]; [injection H as <-; exists 0; auto|]. destruct (IH i x H) as (k & A & B & D). exists (S k). cbn [firstn some_infos length nth_error]. splits; auto; lia.
  - destruct (IH i x H) as (k & A & B & D). exists (S k). cbn [firstn some_infos length nth_error]. splits; auto; lia.
Qed.
Lemma some_infos_two L i j x y : i <> j -> nth_error (some_infos L) i = Some x -> nth_error (some_infos L) j = Some y ->
  exists k l, k <> l /\ nth_error L k = Some (Some x) /\ nth_error L l = Some (Some y).
Proof.
  intros N Hx Hy. destruct (some_infos_nth L i x Hx) as (k & _ & A & B). destruct (some_infos_nth L j y Hy) as (l & _ & A' & B'). exists k, l. splits; auto. intros ->. congruence.
Qed.
Lemma some_infos_length L : length (some_infos L) = list_sum (map oone L).
Proof. induction L as [|[|] L IH]; cbn [some_infos map list_sum fold_right length oone]; change (fold_right Nat.add 0) with list_sum; lia. Qed.
Lemma oone_len L : list_sum (map oone L) <= length L.
Proof. induction L as [|[|] L IHL]; cbn [map list_sum fold_right length oone]; change (fold_right Nat.add 0) with list_sum; lia. Qed.

Section T.
Variable P : pqueue.
Variable q0 : PQ P.
Variable fuel : nat.
Variable shuffle : nat -> nat -> list nat -> list nat.
Variable choose : nat -> nat -> list nat -> nat.
Variable pick : nat -> list (nat * nat) -> nat.
Hypothesis Hpick : forall k l, l <> [] -> pick k l < length l.
Variable expired : nat -> bool.
Variable t : task.
Hypothesis Ht : plain_task t.
Variable wildcard : bool.
Hypothesis Hinfo : forall k pat, pattern_ok t pat -> (pattern_size t pat <= MAX_STATES)%Z ->
  exists x, compute_pattern_info P q0 fuel shuffle choose t wildcard k pat = Ok x /\ pi_pattern x = pat /\ info_ok P q0 t fuel x.
Variables M C : Z.
Variable goals : list fact.
Variable black0 : list nat.
Notation nv := (length (t_vars t)).
Hypothesis Hdom : forall x, In x (t_vars t) -> (Z.of_nat (vdom x) <= INT_MAX)%Z.
Hypothesis HM : (0 <= M)%Z.
Hypothesis Hlim : room t goals M C.
Hypothesis Hgoals : incl goals (t_goal t).
Hypothesis Hnd : NoDup (map fst goals).
Notation Inv := (Inv P q0 fuel t M C goals black0).
Notation loop := (cegar_loop P q0 fuel shuffle choose pick expired t M C wildcard).

Lemma inv_marks c L' : Inv c -> colldbs L' = colldbs (c_coll c) -> all_ok P q0 t fuel L' ->
  Inv {| c_black := c_black c; c_coll := L'; c_index := c_index c; c_size := c_size c; c_count := c_count c |} /\
  measure t {| c_black := c_black c; c_coll := L'; c_index := c_index c; c_size := c_size c; c_count := c_count c |} = measure t c.
Proof.
  intros (H1 & H2 & H3 & H4 & H5 & H6 & H7 & H8) E Ho.
  assert (Hf : forall i x, nth_error (c_coll c) i = Some (Some x) -> exists y, nth_error L' i = Some (Some y) /\ pi_db y = pi_db x) by (intros; eapply colldbs_some; eauto).
  assert (Hb : forall i x, nth_error L' i = Some (Some x) -> exists y, nth_error (c_coll c) i = Some (Some y) /\ pi_db y = pi_db x) by (intros i x Hx; exact (colldbs_some L' (c_coll c) i x (eq_sym E) Hx)).
  assert (Esz : map osize L' = map osize (c_coll c)).
  { replace (map osize L') with (map (fun o => match o with Some d => pj_num (db_pj d) | None => 0 end) (colldbs L')) by (unfold colldbs; rewrite map_map; apply map_ext; intros [|]; reflexivity).
    rewrite E. unfold colldbs. rewrite map_map. apply map_ext. intros [|]; reflexivity. }
  assert (Eone : map oone L' = map oone (c_coll c)).
  { replace (map oone L') with (map (fun o : option pdb => match o with Some d => 1 | None => 0 end) (colldbs L')) by (unfold colldbs; rewrite map_map; apply map_ext; intros [|]; reflexivity).
    rewrite E. unfold colldbs. rewrite map_map. apply map_ext. intros [|]; reflexivity. }
  split; [|unfold measure; cbn [c_coll c_index c_black]; now rewrite Eone].
  unfold Proof_Cegar3.Inv, indexed. cbn [c_coll c_index c_size c_black]. splits; auto.
  - rewrite <- H1. apply (f_equal (@length _)) in E. unfold colldbs in E. now rewrite !map_length in E.
  - intros i x Hx. destruct (Hb i x Hx) as (y & Hy & Ey). destruct (H2 i y Hy) as (_ & G). split; [exact (Ho i x Hx)|]. unfold pi_pattern in *. now rewrite Ey in G.
  - intros v i. rewrite (H3 v i). unfold pi_pattern. split; intros (x & Hx & Hv).
    + destruct (Hf i x Hx) as (y & Hy & Ey). exists y. rewrite Ey. auto.
    + destruct (Hb i x Hx) as (y & Hy & Ey). exists y. rewrite Ey. auto.
  - unfold total. now rewrite Esz.
  - destruct H7 as [H7|H7]; [auto|right]. intros i x Hx. destruct (Hb i x Hx) as (y & Hy & Ey). destruct (H7 i y Hy) as (g & A & B). exists g. split; auto. unfold pi_pattern in *. now rewrite Ey in B.
Qed.

Definition dpat (db : pdb) : list nat := pj_pattern (db_pj db).
Definition result_ok (solved : bool) (dbs : list pdb) : Prop :=
  length dbs <= length goals /\ disjoint_patterns (map dpat dbs) /\
  (forall db, In db dbs -> pattern_ok t (dpat db) /\ compute_pdb P q0 fuel t (dpat db) [] = Ok db /\
     cegar_pattern_spec t goals black0 M (dpat db)) /\
  if solved then exists db c, dbs = [db] /\ pdb_value db (t_init t) = Ok (Some c) /\ perfect_value t (t_init t) (Some c)
  else (forall g, In g goals -> exists p, In p (map dpat dbs) /\ In (fst g) p) /\
       ((total_size t (map dpat dbs) <= C)%Z \/ forall p, In p (map dpat dbs) -> exists g, In g goals /\ p = [fst g]).

Lemma good_spec x : info_good P q0 fuel t M goals black0 x -> pattern_ok t (pi_pattern x) /\ compute_pdb P q0 fuel t (pi_pattern x) [] = Ok (pi_db x) /\
  cegar_pattern_spec t goals black0 M (pi_pattern x).
Proof. intros ((A & _ & B & _) & G2 & G3 & G4). splits; auto. unfold cegar_pattern_spec. auto. Qed.

Lemma result c : Inv c -> result_ok false (map pi_db (some_infos (c_coll c))).
Proof.
  intros HI. pose proof HI as (H1 & H2 & H3 & H4 & H5 & H6 & H7 & H8). unfold indexed in H3. unfold result_ok. rewrite !map_length. splits.
  - rewrite some_infos_length, <- H1. apply oone_len.
  - rewrite map_map. intros i j p q N Hp Hq v Hv Hv'. rewrite nth_error_map in Hp, Hq.
    destruct (nth_error (some_infos (c_coll c)) i) as [x|] eqn:Ex; [|discriminate]. destruct (nth_error (some_infos (c_coll c)) j) as [y|] eqn:Ey; [|discriminate].
    injection Hp as <-. injection Hq as <-. destruct (some_infos_two _ i j x y N Ex Ey) as (k & l & Nkl & Hk & Hl). apply Nkl.
    assert (E1 : c_index c v = Some k) by (apply H3; eauto). assert (E2 : c_index c v = Some l) by (apply H3; eauto). congruence.
  - intros db Hdb. apply in_map_iff in Hdb as (x & <- & Hx). apply some_infos_In in Hx as (i & Hi). exact (good_spec x (H2 i x Hi)).
  - rewrite map_map. intros g Hg. specialize (H4 g Hg). destruct (c_index c (fst g)) as [i|] eqn:Ei; [|congruence]. apply H3 in Ei as (x & Hx & Hin).
      exists (pi_pattern x). split; auto. apply in_map_iff. exists x. split; auto. apply some_infos_In. eauto.
  - rewrite map_map. destruct H7 as [H7|H7].
      * left. assert (E : total_size t (map (fun x => dpat (pi_db x)) (some_infos (c_coll c))) = total (c_coll c)); [|lia].
        assert (S : forall i x, nth_error (c_coll c) i = Some (Some x) -> pi_size x = pattern_size t (pi_pattern x)) by (intros i x Hx; eapply info_size; eauto).
        clear -S. unfold total. induction (c_coll c) as [|o L IH]; [reflexivity|]. specialize (IH (fun i => S (Datatypes.S i))).
        destruct o as [x|]; cbn [some_infos map list_sum fold_right osize total_size]; change (fold_right Nat.add 0) with list_sum; [|exact IH].
        specialize (S 0 x eq_refl). unfold pi_size, pi_pattern in S. unfold dpat at 1. unfold total_size in IH. rewrite IH. lia.
      * right. intros p Hp. apply in_map_iff in Hp as (x & <- & Hx). apply some_infos_In in Hx as (i & Hi). eauto.
Qed.

Lemma loop_ok : forall n k c, Inv c -> measure t c < n ->
  (loop n k goals c = Exit SEARCH_UNSOLVABLE /\ forall os, ~ task_plan_from t (t_init t) os) \/
  exists solved dbs, loop n k goals c = Ok (solved, dbs) /\ result_ok solved dbs.
Proof.
  induction n as [|n IH]; intros k c HI Hm; [lia|]. cbn [cegar_loop]. destruct (expired k); [right; exists false; eexists; split; [reflexivity|now apply result]|].
  assert (Hall : all_ok P q0 t fuel (c_coll c)) by (intros i x Hx; destruct HI as (_ & H2 & _); exact (proj1 (H2 i x Hx))).
  destruct (get_flaws_ok P q0 t Ht fuel goals (c_black c) Hgoals (seq 0 (length (c_coll c))) (c_coll c) []) as [(-> & H)|(r & L' & fl & -> & Ed & Ho & Hfl & Hr)]; auto.
  { intros i Hi. apply in_seq in Hi. lia. }
  { intros f []. }
  cbn [bind fst snd]. destruct (inv_marks c L' HI Ed Ho) as (HI' & Em).
  destruct r as [i|].
  - destruct Hr as (x & Hx & Hopt). right. unfold cget, vget. cbn [c_coll]. rewrite Hx. cbn [bind]. exists true, [pi_db x]. split; auto.
    pose proof HI' as (H1 & H2 & _). cbn [c_coll] in H1, H2. unfold result_ok. cbn [length map]. splits.
    + rewrite <- H1. apply nth_error_Some_lt in Hx. lia.
    + intros [|a] [|b] p q N Hp Hq; try congruence; [destruct b; discriminate|destruct a; discriminate|destruct a; discriminate].
    + intros db [<- |[]]. exact (good_spec x (H2 i x Hx)).
    + destruct Hopt as (c0 & A & B). exists (pi_db x), c0. auto.
  - destruct fl as [|f fl]; [right; exists false; eexists; split; [reflexivity|exact (result _ HI')]|].
    destruct (refine_ok P q0 fuel shuffle choose pick Hpick t wildcard Hinfo M C goals black0 Hdom HM Hlim k _ (f :: fl) HI' ltac:(discriminate) Hfl) as (c' & -> & HI2 & Hm2). cbn [bind].
    apply IH; auto. lia.
Qed.

Lemma collection_ok :
  (cegar_collection P q0 fuel shuffle choose pick expired t M C wildcard goals black0 = Exit SEARCH_UNSOLVABLE /\ forall os, ~ task_plan_from t (t_init t) os) \/
  exists solved dbs, cegar_collection P q0 fuel shuffle choose pick expired t M C wildcard goals black0 = Ok (solved, dbs) /\ result_ok solved dbs.
Proof.
  unfold cegar_collection. destruct (initial_ok P q0 fuel shuffle choose t Ht wildcard Hinfo M C goals black0 Hlim Hgoals Hnd) as (c & -> & HI & _ & Hm). cbn [bind].
  apply loop_ok; auto. lia.
Qed.
End T.

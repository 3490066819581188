(** The compatibility graph of a pattern collection, its cliques and the canonical value. *)
From Coq Require Import Sorted Permutation.
From Verif Require Import Outcome Spec_Task Spec_Relaxation Spec_Projection Spec_Graph Model_Task Model_PDB Model_MaxCliques Proof_MaxCliques
  Proof_Additive Proof_Collections Model_PatternCollections.

Lemma filter_extend (p p' : nat -> bool) n j : j < n -> (forall x, x < n -> p' x = p x || (x =? j)) -> (forall x, x < n -> p x = true -> x < j) ->
  filter p' (seq 0 n) = filter p (seq 0 n) ++ [j].
Proof.
  intros Hj Hp Hlt. replace n with (j + S (n - S j)) by lia. rewrite seq_app. cbn [Nat.add seq]. rewrite !filter_app. cbn [filter].
  rewrite (Hp j Hj), Nat.eqb_refl, orb_true_r.
  destruct (p j) eqn:Ej; [specialize (Hlt j Hj Ej); lia|].
  assert (E1 : filter p' (seq 0 j) = filter p (seq 0 j)).
  { apply filter_ext_in. intros x Hx. apply in_seq in Hx. rewrite Hp by lia. destruct (Nat.eqb_spec x j); [lia|]. apply orb_false_r. }
  assert (E2 : forall q : nat -> bool, (forall x, j < x < n -> q x = false) -> filter q (seq (S j) (n - S j)) = []).
  { intros q Hq. destruct (filter q (seq (S j) (n - S j))) as [|y l] eqn:E; auto. assert (Hy : In y (filter q (seq (S j) (n - S j)))) by (rewrite E; now left).
    apply filter_In in Hy. destruct Hy as [Hy1 Hy2]. apply in_seq in Hy1. rewrite Hq in Hy2 by lia. discriminate. }
  rewrite E1, (E2 p), (E2 p'); [now rewrite app_nil_r| |].
  - intros x Hx. rewrite Hp by lia. destruct (Nat.eqb_spec x j); [lia|]. rewrite orb_false_r. destruct (p x) eqn:Ep; auto. specialize (Hlt x ltac:(lia) Ep). lia.
  - intros x Hx. destruct (p x) eqn:Ep; auto. specialize (Hlt x ltac:(lia) Ep). lia.
Qed.

Section G.
Variable n : nat.
Variable b : nat -> nat -> bool.
Definition adj (x k : nat) : bool := if x <? k then b x k else if k <? x then b k x else false.
Definition lexb (i j a c : nat) : bool := (a <? i) || ((a =? i) && (c <? j)).
Definition gat (i j : nat) : list (list nat) := map (fun k => filter (fun x => adj x k && lexb i j (Nat.min x k) (Nat.max x k)) (seq 0 n)) (seq 0 n).

Lemma gat_nth i j k : k < n -> nth_error (gat i j) k = Some (filter (fun x => adj x k && lexb i j (Nat.min x k) (Nat.max x k)) (seq 0 n)).
Proof. intros Hk. unfold gat. rewrite nth_error_map. rewrite (nth_error_nth' _ 0) by now rewrite seq_length. rewrite seq_nth by auto. reflexivity. Qed.
Lemma gat_len i j : length (gat i j) = n.
Proof. unfold gat. now rewrite map_length, seq_length. Qed.
Lemma adj_spec x k : adj x k = true <-> x <> k /\ b (Nat.min x k) (Nat.max x k) = true.
Proof.
  unfold adj. destruct (Nat.ltb_spec x k); [rewrite Nat.min_l, Nat.max_r by lia; split; [intros; split; [lia|auto]|tauto]|].
  destruct (Nat.ltb_spec k x); [rewrite Nat.min_r, Nat.max_l by lia; split; [intros; split; [lia|auto]|tauto]|]. split; [discriminate|]. lia.
Qed.

Ltac lex := unfold lexb; repeat match goal with
  | |- context [?x <? ?y] => destruct (Nat.ltb_spec x y)
  | |- context [?x =? ?y] => destruct (Nat.eqb_spec x y) end; cbn [andb orb]; try reflexivity; try lia.

Lemma gat_step i j : i < j -> j < n -> (if b i j then push_edge (gat i j) i j else Ok (gat i j)) = Ok (gat i (S j)).
Proof.
  intros Hij Hj. destruct (b i j) eqn:Eb.
  - unfold push_edge. unfold vget at 1. rewrite gat_nth by lia. cbn [bind]. unfold vset at 1. rewrite gat_len, (proj2 (Nat.ltb_lt i n)) by lia. cbn [bind].
    unfold vget. rewrite upd_nth_neq by lia. rewrite gat_nth by lia. cbn [bind]. unfold vset. rewrite upd_length, gat_len, (proj2 (Nat.ltb_lt j n)) by lia.
    f_equal. apply nth_error_ext. intros k. destruct (lt_dec k n) as [Hk|Hk].
    + rewrite gat_nth by auto. destruct (Nat.eq_dec k j) as [->|Hkj].
      * rewrite upd_nth_eq by (rewrite upd_length, gat_len; lia). f_equal. symmetry. apply filter_extend; [lia| |].
        -- intros x Hx. destruct (adj x j) eqn:Ea; cbn [andb].
           ++ apply adj_spec in Ea. destruct Ea as [Hne _]. lex.
           ++ destruct (Nat.eqb_spec x i) as [->|]; [|reflexivity]. unfold adj in Ea. rewrite (proj2 (Nat.ltb_lt i j) Hij) in Ea. congruence.
        -- intros x Hx H. apply andb_true_iff in H. destruct H as [Ha H]. apply adj_spec in Ha. revert H. lex.
      * rewrite upd_nth_neq by lia. destruct (Nat.eq_dec k i) as [->|Hki].
        -- rewrite upd_nth_eq by (rewrite gat_len; lia). f_equal. symmetry. apply filter_extend; [lia| |].
           ++ intros x Hx. destruct (adj x i) eqn:Ea; cbn [andb].
              ** apply adj_spec in Ea. destruct Ea as [Hne _]. lex.
              ** destruct (Nat.eqb_spec x j) as [->|]; [|reflexivity]. unfold adj in Ea. rewrite (proj2 (Nat.ltb_lt i j) Hij), (proj2 (Nat.ltb_ge j i)) in Ea by lia. congruence.
           ++ intros x Hx H. apply andb_true_iff in H. destruct H as [Ha H]. apply adj_spec in Ha. revert H. lex.
        -- rewrite upd_nth_neq by lia. rewrite gat_nth by auto. f_equal. apply filter_ext_in. intros x Hx. apply in_seq in Hx. destruct (adj x k) eqn:Ea; auto. apply adj_spec in Ea. cbn [andb]. lex.
    + rewrite !(proj2 (nth_error_None _ k)); auto; rewrite ?upd_length, ?gat_len; lia.
  - f_equal. unfold gat. apply map_ext_in. intros k Hk. apply filter_ext_in. intros x Hx. destruct (adj x k) eqn:Ea; auto. apply adj_spec in Ea. cbn [andb].
    destruct Ea as [Hne Hb]. destruct (Nat.eq_dec (Nat.min x k) i) as [E1|E1]; [|lex]. destruct (Nat.eq_dec (Nat.max x k) j) as [E2|E2]; [rewrite E1, E2 in Hb; congruence|lex].
Qed.

Lemma gat_inner body i : i < n -> (forall g j, i < j -> j < n -> body g j = if b i j then push_edge g i j else Ok g) ->
  fold_outcome body (seq (S i) (n - S i)) (gat i (S i)) = Ok (gat i n).
Proof.
  intros Hi Hb. assert (G : forall m j, j + m = n -> i < j -> fold_outcome body (seq j m) (gat i j) = Ok (gat i n)).
  { induction m as [|m IH]; intros j Hm Hj; cbn [seq fold_outcome]; [do 2 f_equal; lia|]. rewrite Hb by lia. rewrite gat_step by lia. cbn [bind]. apply IH; lia. }
  apply G; lia.
Qed.
Lemma gat_next i : gat i n = gat (S i) (S (S i)).
Proof.
  unfold gat. apply map_ext_in. intros k Hk. apply in_seq in Hk. apply filter_ext_in. intros x Hx. apply in_seq in Hx. destruct (adj x k) eqn:Ea; auto. apply adj_spec in Ea. cbn [andb]. lex.
Qed.
Lemma gat_all body : (forall g i, i < n -> body g i = fold_outcome (fun g j => if b i j then push_edge g i j else Ok g) (seq (S i) (n - S i)) g) ->
  fold_outcome body (seq 0 n) (repeat [] n) = Ok (gat n (S n)).
Proof.
  intros Hb. assert (E0 : repeat [] n = gat 0 1).
  { apply nth_error_ext. intros k. destruct (lt_dec k n) as [Hk|Hk].
    - rewrite gat_nth by auto. rewrite nth_error_repeat by auto. f_equal. symmetry. destruct (filter _ (seq 0 n)) as [|y l] eqn:E; auto. exfalso.
      assert (Hy : In y (y :: l)) by now left. rewrite <- E in Hy. apply filter_In in Hy. destruct Hy as [_ Hy]. apply andb_true_iff in Hy. destruct Hy as [Ha Hy]. apply adj_spec in Ha. revert Hy. lex.
    - rewrite !(proj2 (nth_error_None _ k)); auto; rewrite ?repeat_length, ?gat_len; lia. }
  rewrite E0. assert (G : forall m i, i + m = n -> fold_outcome body (seq i m) (gat i (S i)) = Ok (gat n (S n))).
  { induction m as [|m IH]; intros i Hm; cbn [seq fold_outcome]; [do 2 f_equal; lia|]. rewrite Hb by lia.
    rewrite gat_inner; [|lia|reflexivity]. cbn [bind]. rewrite gat_next. apply IH. lia. }
  apply G. lia.
Qed.

Lemma gat_edge x y : edge (gat n (S n)) x y <-> x < n /\ y < n /\ x <> y /\ b (Nat.min x y) (Nat.max x y) = true.
Proof.
  unfold edge. split.
  - intros (l & Hl & Hy). assert (Hx : x < n) by (apply nth_error_Some_lt in Hl; now rewrite gat_len in Hl). rewrite gat_nth in Hl by auto. inversion Hl; subst l.
    apply filter_In in Hy. destruct Hy as [Hy H]. apply in_seq in Hy. apply andb_true_iff in H. destruct H as [H _]. apply adj_spec in H. destruct H as [H1 H2]. rewrite Nat.min_comm, Nat.max_comm in H2. splits; auto. lia.
  - intros (Hx & Hy & Hne & Hb). eexists. split; [now apply gat_nth|]. apply filter_In. split; [apply in_seq; lia|]. apply andb_true_iff. split.
    + apply adj_spec. rewrite Nat.min_comm, Nat.max_comm. split; auto.
    + lex.
Qed.
Lemma filter_seq_sorted p : forall m k, StronglySorted lt (filter p (seq k m)).
Proof.
  induction m as [|m IH]; intros k; cbn [seq filter]; [constructor|]. destruct (p k); auto. constructor; auto. apply Forall_forall. intros x Hx. apply filter_In in Hx. destruct Hx as [Hx _]. apply in_seq in Hx. lia.
Qed.
Lemma gat_undirected : undirected (gat n (S n)) /\ forall l, In l (gat n (S n)) -> StronglySorted lt l.
Proof.
  split; [split; [|split]|].
  - intros x y He. apply gat_edge in He. rewrite gat_len. tauto.
  - intros x y He. apply gat_edge in He. apply gat_edge. rewrite Nat.min_comm, Nat.max_comm. destruct He as (H1 & H2 & H3 & H4). auto.
  - intros x He. apply gat_edge in He. tauto.
  - intros l Hl. unfold gat in Hl. apply in_map_iff in Hl. destruct Hl as (k & <- & _). apply filter_seq_sorted.
Qed.
End G.

(** Every clique is part of a maximal one. *)
Lemma edge_dec g x y : {edge g x y} + {~ edge g x y}.
Proof.
  unfold edge. destruct (nth_error g x) as [l|] eqn:E; [|right; intros (l & H & _); discriminate].
  destruct (in_dec Nat.eq_dec y l) as [H|H]; [left; eauto|right; intros (l' & E' & H'); inversion E'; subst; auto].
Qed.
Lemma clique_length g K : clique g K -> length K <= length g.
Proof.
  intros (Hn & Hr & _). rewrite <- (seq_length (length g) 0). apply NoDup_incl_length; auto. intros x Hx. apply in_seq. specialize (Hr x Hx). lia.
Qed.
Lemma clique_extend g : undirected g -> forall m K, length g - length K <= m -> clique g K -> exists K', maximal_clique g K' /\ forall x, In x K -> In x K'.
Proof.
  intros (Hwf & Hsym & Hirr). induction m as [|m IH]; intros K Hm HK.
  - exists K. split; [|auto]. split; auto. intros v Hv He. pose proof (clique_length g K HK) as Hl.
    assert (Hc : clique g (v :: K)).
    { destruct HK as (H1 & H2 & H3). split; [|split].
      - constructor; auto. intros Hi. exact (Hirr v (He v Hi)).
      - intros x [<-|Hx]; auto.
      - intros x y [<-|Hx] [<-|Hy] Hne; auto; congruence. }
    apply clique_length in Hc. cbn [length] in Hc. lia.
  - destruct (existsb (fun v => forallb (fun x => if edge_dec g v x then true else false) K) (seq 0 (length g))) eqn:Ex.
    + apply existsb_exists in Ex. destruct Ex as (v & Hv & Ha). apply in_seq in Hv. rewrite forallb_forall in Ha.
      assert (He : forall x, In x K -> edge g v x) by (intros x Hx; specialize (Ha x Hx); destruct (edge_dec g v x); auto; discriminate).
      assert (Hc : clique g (v :: K)).
      { destruct HK as (H1 & H2 & H3). split; [|split].
        - constructor; auto. intros Hi. exact (Hirr v (He v Hi)).
        - intros x [<-|Hx]; auto. lia.
        - intros x y [<-|Hx] [<-|Hy] Hne; auto; congruence. }
      destruct (IH (v :: K)) as (K' & HK' & Hin); auto; [pose proof (clique_length _ _ Hc); cbn [length] in *; lia|]. exists K'. split; auto. intros x Hx. apply Hin. now right.
    + exists K. split; [|auto]. split; auto. intros v Hv He. assert (Hf : existsb (fun v => forallb (fun x => if edge_dec g v x then true else false) K) (seq 0 (length g)) = true); [|congruence].
      apply existsb_exists. exists v. split; [apply in_seq; lia|]. apply forallb_forall. intros x Hx. destruct (edge_dec g v x); auto.
Qed.

(** A set of patterns, given by their numbers, that are pairwise additive. *)
Definition additive_set (t : task) (pats : list (list nat)) (K : list nat) : Prop :=
  NoDup K /\ (forall i, In i K -> i < length pats) /\
  forall i j p q, In i K -> In j K -> i <> j -> nth_error pats i = Some p -> nth_error pats j = Some q -> additive t p q.

Section C.
Variable t : task.
Hypothesis Ht : plain_task t.
Variable pats : list (list nat).
Hypothesis Hpats : forall p v, In p pats -> In v p -> v < length (t_vars t).

Lemma pattern_cliques_ok : exists m cs, compute_additive_vars t = Ok m /\ compute_pattern_cliques m pats = Ok cs /\
  (forall K, In K cs -> additive_set t pats K) /\
  (forall K, additive_set t pats K -> exists K', In K' cs /\ forall i, In i K -> In i K').
Proof.
  destruct (additive_vars_ok t Ht) as (m & Em & Hsq & Hm). exists m.
  set (b := fun i j => match are_patterns_additive m (nth i pats []) (nth j pats []) with Ok x => x | _ => false end).
  assert (Hb : forall i j, i < length pats -> j < length pats -> are_patterns_additive m (nth i pats []) (nth j pats []) = Ok (b i j) /\ (b i j = true <-> additive t (nth i pats []) (nth j pats []))).
  { intros i j Hi Hj. destruct (coaffected_dec t m Hsq Hm (nth i pats []) (nth j pats [])) as (x & Ex & Hx); [intros v Hv; eapply Hpats; [apply nth_In; exact Hi|exact Hv]|intros v Hv; eapply Hpats; [apply nth_In; exact Hj|exact Hv]|].
    unfold b. rewrite Ex. auto. }
  assert (Eg : compatibility_graph m pats = Ok (gat (length pats) b (length pats) (S (length pats)))).
  { unfold compatibility_graph. apply gat_all. intros g i Hi.
    assert (G : forall l g, (forall j, In j l -> j < length pats) -> fold_outcome (fun g j => let* pi := vget pats i in let* pj := vget pats j in let* b := are_patterns_additive m pi pj in if b then push_edge g i j else Ok g) l g =
        fold_outcome (fun g j => if b i j then push_edge g i j else Ok g) l g).
    { induction l as [|j l IH]; intros g' Hl; cbn [fold_outcome]; auto. unfold vget at 1 2. rewrite (nth_error_nth' pats [] Hi), (nth_error_nth' pats [] (Hl j (or_introl eq_refl))). cbn [bind].
      rewrite (proj1 (Hb i j Hi (Hl j (or_introl eq_refl)))). cbn [bind]. destruct (if b i j then push_edge g' i j else Ok g') as [g2| | |]; cbn [bind]; auto. apply IH. intros; apply Hl; now right. }
    apply G. intros j Hj. apply in_seq in Hj. lia. }
  set (g := gat (length pats) b (length pats) (S (length pats))) in *.
  assert (Hedge : forall x y, edge g x y <-> x < length pats /\ y < length pats /\ x <> y /\ additive t (nth x pats []) (nth y pats [])).
  { intros x y. unfold g. rewrite gat_edge. split; intros (H1 & H2 & H3 & H4); splits; auto.
    - apply (proj2 (Hb (Nat.min x y) (Nat.max x y) ltac:(lia) ltac:(lia))) in H4. destruct (Nat.lt_ge_cases x y); [rewrite Nat.min_l, Nat.max_r in H4 by lia; auto|rewrite Nat.min_r, Nat.max_l in H4 by lia; now apply additive_sym].
    - apply (proj2 (Hb (Nat.min x y) (Nat.max x y) ltac:(lia) ltac:(lia))). destruct (Nat.lt_ge_cases x y); [rewrite Nat.min_l, Nat.max_r by lia; auto|rewrite Nat.min_r, Nat.max_l by lia; now apply additive_sym]. }
  destruct (gat_undirected (length pats) b) as [Hu Hs]. fold g in Hu, Hs.
  destruct (max_cliques_correct g Hu Hs) as (cs & Ecs & H1 & H2 & _).
  exists cs. splits; auto.
  - unfold compute_pattern_cliques. rewrite Eg. exact Ecs.
  - intros K HK. destruct (H1 K HK) as [(Hn & Hr & He) _]. assert (Hlen : length g = length pats) by apply gat_len. unfold additive_set. splits; auto.
    + intros i Hi. rewrite <- Hlen. auto.
    + intros i j p q Hi Hj Hne Hp Hq. specialize (He i j Hi Hj Hne). apply Hedge in He. destruct He as (_ & _ & _ & Ha). now rewrite (nth_error_nth pats i [] Hp), (nth_error_nth pats j [] Hq) in Ha.
  - intros K (Hn & Hr & Ha). assert (Hc : clique g K).
    { split; [auto|split]. - intros x Hx. unfold g. rewrite gat_len. auto.
      - intros x y Hx Hy Hne. apply Hedge. splits; auto. eapply (Ha x y); eauto; now apply nth_error_nth', Hr. }
    destruct (clique_extend g Hu (length g) K ltac:(lia) Hc) as (K1 & HK1 & Hin). destruct (H2 K1 HK1) as (K' & HK' & Hss). exists K'. split; auto. intros i Hi. apply Hss. auto.
Qed.
End C.

(* ---- the canonical value ---- *)
Fixpoint all_some (hs : list (option nat)) : option (list nat) :=
  match hs with [] => Some [] | Some h :: r => option_map (cons h) (all_some r) | None :: _ => None end.
Lemma pdb_values_ok dbs s hs : Forall2 (fun db h => pdb_value db s = Ok h) dbs hs -> pdb_values dbs s = Ok (all_some hs).
Proof. induction 1 as [|db h dbs hs E _ IH]; cbn [pdb_values all_some]; auto. rewrite E. cbn [bind]. destruct h; auto. rewrite IH. reflexivity. Qed.
Lemma all_some_some hs l : all_some hs = Some l <-> hs = map Some l.
Proof.
  revert l. induction hs as [|[h|] r IH]; intros l; cbn [all_some].
  - split; [intros H; inversion H; reflexivity|destruct l; [auto|discriminate]].
  - destruct (all_some r) as [l'|]; cbn [option_map].
    + split; [intros H; inversion H; subst; cbn [map]; f_equal; now apply IH|]. destruct l as [|x l]; [discriminate|]. cbn [map]. intros H. inversion H as [[H1 H2]]. apply (proj2 (IH l)) in H2. congruence.
    + split; [discriminate|]. destruct l as [|x l]; [discriminate|]. cbn [map]. intros H. inversion H as [[H1 H2]]. apply (proj2 (IH l)) in H2. discriminate.
  - split; [discriminate|]. destruct l; discriminate.
Qed.
Lemma all_some_none hs : all_some hs = None <-> In None hs.
Proof.
  induction hs as [|[h|] r IH]; cbn [all_some In]; [split; [discriminate|tauto]| |split; auto].
  destruct (all_some r); cbn [option_map]; [|split; auto; intros _; right; now apply IH]. split; [discriminate|]. intros [H|H]; [discriminate|]. apply IH in H. discriminate.
Qed.

Definition ksum (hs : list nat) (K : list nat) : nat := list_sum (map (fun i => nth i hs 0) K).
Lemma clique_value_ok hs K : (forall i, In i K -> i < length hs) -> clique_value hs K = Ok (ksum hs K).
Proof.
  intros HK. unfold clique_value, ksum. assert (G : forall K c, (forall i, In i K -> i < length hs) -> fold_outcome (fun c i => let* h := vget hs i in Ok (c + h)) K c = Ok (c + list_sum (map (fun i => nth i hs 0) K))).
  { clear. induction K as [|i K IH]; intros c HK; cbn [fold_outcome map list_sum fold_right]; [f_equal; lia|]. change (fold_right Nat.add 0) with list_sum. unfold vget. rewrite (nth_error_nth' hs 0) by (apply HK; now left). cbn [bind]. rewrite IH by (intros; apply HK; now right). f_equal. lia. }
  now rewrite G.
Qed.
Lemma max_cliques_value hs cs : (forall K i, In K cs -> In i K -> i < length hs) ->
  exists m, fold_outcome (fun m c => let* h := clique_value hs c in Ok (Nat.max m h)) cs 0 = Ok m /\
    (forall K, In K cs -> ksum hs K <= m) /\ (m = 0 \/ exists K, In K cs /\ m = ksum hs K).
Proof.
  assert (G : forall cs m0, (forall K i, In K cs -> In i K -> i < length hs) -> exists m, fold_outcome (fun m c => let* h := clique_value hs c in Ok (Nat.max m h)) cs m0 = Ok m /\
    m0 <= m /\ (forall K, In K cs -> ksum hs K <= m) /\ (m = m0 \/ exists K, In K cs /\ m = ksum hs K)).
  { clear. induction cs as [|K cs IH]; intros m0 Hc; cbn [fold_outcome].
    - exists m0. splits; auto. intros K [].
    - rewrite clique_value_ok by (intros i Hi; eapply Hc; [now left|exact Hi]). cbn [bind]. destruct (IH (Nat.max m0 (ksum hs K))) as (m & E & Hm0 & Hm & Hc'); [intros K' i HK; apply Hc; now right|].
      exists m. splits; auto; [lia|intros K' [<-|HK']; [lia|auto]|]. destruct Hc' as [->|(K' & HK' & ->)]; [|right; exists K'; split; [now right|auto]].
      destruct (Nat.max_spec m0 (ksum hs K)) as [[_ ->]|[_ ->]]; [right; exists K; split; [now left|auto]|now left]. }
  intros Hc. destruct (G cs 0 Hc) as (m & E & _ & H1 & H2). eauto.
Qed.
Lemma ksum_incl hs K K' : NoDup K -> (forall i, In i K -> In i K') -> ksum hs K <= ksum hs K'.
Proof.
  intros Hn. revert K'. induction Hn as [|x K Hx _ IH]; intros K' Hin; unfold ksum; cbn [map list_sum fold_right]; [lia|]. change (fold_right Nat.add 0) with list_sum. fold (ksum hs K).
  destruct (in_split x K' (Hin x (or_introl eq_refl))) as (A & B & ->).
  specialize (IH (A ++ B)). assert (H : ksum hs K <= ksum hs (A ++ B)).
  { apply IH. intros i Hi. specialize (Hin i (or_intror Hi)). apply in_app_iff in Hin. apply in_app_iff. destruct Hin as [H|[H|H]]; auto. subst. contradiction. }
  unfold ksum in *. rewrite map_app in *. cbn [map]. rewrite list_sum_app in *. cbn [list_sum fold_right]. change (fold_right Nat.add 0) with list_sum. lia.
Qed.

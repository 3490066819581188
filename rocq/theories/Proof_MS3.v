(** Runs of merge strategies. *)
From Coq Require Import Permutation.
From Verif Require Import Outcome Spec_Task Spec_Relaxation Spec_Projection Model_PQ Model_Graph Model_MAS Spec_FTS Model_MASRun Model_MASAlgorithm Spec_Shrink Spec_MASAlgorithm Model_MergeStrategy Spec_MergeStrategy.
From Verif Require Import Proof_MAS1 Proof_MAS11 Proof_MAS12 Proof_OC1 Proof_MAA5 Proof_MAA10 Proof_MAA11 Proof_MS1 Proof_MS2.

Definition act (l : list bool) (i : nat) : Prop := nth_error l i = Some true.
Definition nt (l : list bool) : nat := count_occ bool_dec l true.
Lemma act_iff F i : act (occupied F) i <-> exists f, nth_error (F_factors F) i = Some (Some f).
Proof. unfold act, occupied. rewrite nth_error_map. destruct (nth_error (F_factors F) i) as [[f|]|]; cbn [option_map]; split; try discriminate; eauto; intros [f' E]; discriminate. Qed.
Lemma nt_active F : num_active F = nt (occupied F).
Proof. rewrite num_active_na. unfold na, occupied, nt. induction (F_factors F) as [|[f|] l IH]; cbn [flat_map map app length count_occ]; [reflexivity|destruct (bool_dec true true); congruence|destruct (bool_dec false true); [discriminate|exact IH]]. Qed.
Lemma occ_length F : length (occupied F) = length (F_factors F). Proof. unfold occupied. apply map_length. Qed.
Lemma act_lt l i : act l i -> i < length l. Proof. apply nth_error_Some_lt. Qed.
Lemma nt_upd : forall l i, act l i -> S (nt (upd l i false)) = nt l.
Proof.
  unfold act, nt. induction l as [|b l IH]; intros [|i] H; cbn [nth_error] in H; try discriminate.
  - inv H. cbn [upd count_occ]. destruct (bool_dec false true); [discriminate|]. destruct (bool_dec true true); congruence.
  - cbn [upd count_occ]. specialize (IH i H). destruct (bool_dec b true); lia.
Qed.
Lemma nt_app a b : nt (a ++ b) = nt a + nt b. Proof. unfold nt. apply count_occ_app. Qed.
Lemma merged_length l i j : length (merged l i j) = S (length l). Proof. unfold merged. rewrite app_length, !upd_length. cbn [length]. lia. Qed.
Lemma act_upd l i k : act (upd l i false) k <-> act l k /\ k <> i.
Proof.
  unfold act. destruct (Nat.eq_dec k i) as [->|N].
  - split; [|intros [_ Hn]; congruence]. intros H. destruct (Nat.lt_ge_cases i (length l)) as [Hl|Hl]; [rewrite upd_nth_eq in H by auto; discriminate|]. pose proof (nth_error_Some_lt _ _ _ H) as H'. rewrite upd_length in H'. lia.
  - rewrite upd_nth_neq by auto. tauto.
Qed.
Lemma act_merged l i j k : act (merged l i j) k <-> k = length l \/ (act l k /\ k <> i /\ k <> j).
Proof.
  unfold merged. unfold act at 1. destruct (Nat.lt_ge_cases k (length l)) as [Hl|Hl].
  - rewrite nth_error_app1 by (now rewrite !upd_length). fold (act (upd (upd l i false) j false) k). rewrite !act_upd. split; [tauto|]. intros [->|]; [lia|tauto].
  - rewrite nth_error_app2 by (now rewrite !upd_length). rewrite !upd_length. split.
    + intros H. left. destruct (k - length l) as [|z] eqn:E; [lia|]. cbn [nth_error] in H. destruct z; discriminate.
    + intros [->|[H _]]; [now rewrite Nat.sub_diag|apply act_lt in H; lia].
Qed.
Lemma nt_merged l i j : i <> j -> act l i -> act l j -> S (nt (merged l i j)) = nt l.
Proof. intros N Hi Hj. unfold merged. rewrite nt_app. change (nt [true]) with 1. pose proof (nt_upd l i Hi). assert (Hj' : act (upd l i false) j) by (apply act_upd; auto). pose proof (nt_upd _ _ Hj'). lia. Qed.
Lemma nt_repeat n : nt (repeat true n) = n.
Proof. unfold nt. induction n as [|n IH]; cbn [repeat count_occ]; auto. destruct (bool_dec true true); congruence. Qed.
Lemma act_repeat n i : act (repeat true n) i <-> i < n.
Proof. unfold act. split; [intros H; apply nth_error_Some_lt in H; now rewrite repeat_length in H|]. intros H. rewrite (nth_error_nth' _ true) by (now rewrite repeat_length). now rewrite nth_repeat. Qed.

Lemma active_indices_In F i : In i (active_indices F) <-> act (occupied F) i.
Proof.
  unfold active_indices. rewrite filter_In, in_seq, act_iff. split.
  - intros [_ H]. destruct (nth_error (F_factors F) i) as [[f|]|]; try discriminate. eauto.
  - intros [f H]. rewrite H. pose proof (nth_error_Some_lt _ _ _ H). split; auto; lia.
Qed.
Lemma active_indices_nodup F : NoDup (active_indices F). Proof. apply NoDup_filter, seq_NoDup. Qed.
Lemma active_indices_length F : length (active_indices F) = num_active F.
Proof.
  rewrite nt_active. unfold active_indices, nt, occupied.
  assert (G : forall fs k, length (filter (fun i => match nth_error fs (i - k) with Some (Some _) => true | _ => false end) (seq k (length fs))) = count_occ bool_dec (map (fun f : option factor => match f with Some _ => true | None => false end) fs) true).
  { induction fs as [|a fs IH]; intros k; [reflexivity|]. cbn [length seq filter map count_occ]. rewrite Nat.sub_diag. cbn [nth_error].
    assert (E : filter (fun i => match nth_error (a :: fs) (i - k) with Some (Some _) => true | _ => false end) (seq (S k) (length fs)) = filter (fun i => match nth_error fs (i - S k) with Some (Some _) => true | _ => false end) (seq (S k) (length fs))).
    { apply filter_ext_in. intros i Hi. apply in_seq in Hi. replace (i - k) with (S (i - S k)) by lia. reflexivity. }
    rewrite E, <- (IH (S k)). destruct a; [destruct (bool_dec true true); [reflexivity|congruence]|destruct (bool_dec false true); [discriminate|reflexivity]]. }
  rewrite <- (G (F_factors F) 0). f_equal. apply filter_ext. intros i. now rewrite Nat.sub_0_r.
Qed.

Section RUNS.
Variable P : pqueue.
Variable q0 : PQ P.
Variable ord : list (nat * list nat) -> list (nat * list nat).
Variable O : mas_options.
Variable t : task.
Variable MS : merge_strategy.
Local Notation nv := (length (t_vars t)).
Local Notation usable := (usable P q0 ord O t).
Local Notation strategy_run := (strategy_run P q0 ord O t MS).
Variable J : list (nat * nat) -> ms_state MS -> list bool -> Prop.
Definition at_point (h : list (nat * nat)) (F : fts) : Prop := usable F /\ length (occupied F) = nv + length h /\ nt (occupied F) + length h = nv.
Hypothesis Jstart : forall F, usable F -> occupied F = repeat true nv -> exists m, ms_start MS F = Ok m /\ J [] m (occupied F).
Hypothesis Jnext : forall h m F n, at_point h F -> J h m (occupied F) -> 2 <= num_active F ->
  exists i j m', ms_get_next MS n m F = Ok (i, j, m') /\ i <> j /\ act (occupied F) i /\ act (occupied F) j /\ J (h ++ [(i, j)]) m' (merged (occupied F) i j).
Lemma run_inv h m F : strategy_run h m F -> at_point h F /\ J h m (occupied F).
Proof.
  induction 1 as [F m HU HO HM|h m F n i j m' F' _ [HA HJ] H2 HN HU HO].
  - destruct (Jstart F HU HO) as (m0 & E & Hm). rewrite E in HM. inv HM. split; auto. split; auto. rewrite HO, repeat_length, nt_repeat. cbn [length]. lia.
  - destruct (Jnext h m F n HA HJ H2) as (i' & j' & m'' & E & Hij & Hi & Hj & HJ'). rewrite E in HN. inv HN. rewrite HO. split; auto. destruct HA as (_ & A1 & A2). split; auto. rewrite HO, merged_length, app_length. cbn [length]. pose proof (nt_merged _ _ _ Hij Hi Hj). lia.
Qed.
Lemma runs_good : good_merges P q0 ord O t MS.
Proof.
  split.
  - intros F HU HO. destruct (Jstart F HU HO) as (m & E & _). eauto.
  - intros h m F n HR H2. destruct (run_inv h m F HR) as [HA HJ]. destruct (Jnext h m F n HA HJ H2) as (i & j & m' & E & Hij & Hi & Hj & _). exists i, j, m'. splits; auto.
    + apply act_iff in Hi as [f Hf]. exists f. now apply get_factor_ok.
    + apply act_iff in Hj as [f Hf]. exists f. now apply get_factor_ok.
Qed.
End RUNS.

(** ** Linear trees *)
Definition lin (hd : nat) (rest : list nat) : merge_tree := fold_left (fun T v => MNode T (MLeaf v)) rest (MLeaf hd).
Lemma next_deep n i j : forall r l x T', get_next_merge (MNode l x) n = Ok (i, j, T') -> (exists a b, T' = MNode a b) \/ True ->
  get_next_merge (fold_left (fun T v => MNode T (MLeaf v)) r (MNode l x)) n = Ok (i, j, fold_left (fun T v => MNode T (MLeaf v)) r T').
Proof.
  induction r as [|v r IH]; intros l x T' H _; cbn [fold_left]; auto. apply IH; auto.
  change (get_next_merge (MNode (MNode l x) (MLeaf v)) n) with (let* (i, j, l') := get_next_merge (MNode l x) n in Ok (i, j, MNode l' (MLeaf v))). now rewrite H.
Qed.
Lemma next_lin n hd v r : get_next_merge (lin hd (v :: r)) n = Ok (hd, v, lin n r).
Proof. unfold lin. cbn [fold_left]. now apply next_deep; auto. Qed.

Lemma skipn_cons {A} (d : A) : forall l n, n < length l -> skipn n l = nth n l d :: skipn (S n) l.
Proof. induction l as [|a l IH]; intros [|n] H; cbn [length] in H; try lia; auto. cbn [skipn nth]. rewrite (IH n) by lia. reflexivity. Qed.

Section LINEAR.
Variable P : pqueue.
Variable q0 : PQ P.
Variable ord : list (nat * list nat) -> list (nat * list nat).
Variable O : mas_options.
Variable t : task.
Local Notation nv := (length (t_vars t)).
Variable o : var_order.
Variable shuffle : list nat -> list nat.
Variable vs : list nat.
Hypothesis Hvs : variable_order o shuffle t = Ok vs.
Hypothesis Hperm : Permutation vs (seq 0 nv).
Hypothesis Hpos : 0 < nv.
Definition linear_J (h : list (nat * nat)) (T : merge_tree) (l : list bool) : Prop :=
  exists hd rest, T = lin hd rest /\ NoDup (hd :: rest) /\ (forall i, act l i <-> In i (hd :: rest)) /\ hd = fst (linear_merge vs (length h)) /\ rest = skipn (S (length h)) vs /\
    forall q c, nth_error h q = Some c -> c = linear_merge vs q.
Lemma vs_length : length vs = nv. Proof. apply Permutation_length in Hperm. now rewrite seq_length in Hperm. Qed.
Lemma linear_start F : occupied F = repeat true nv -> exists m, ms_start (precomputed_linear o shuffle t) F = Ok m /\ linear_J [] m (occupied F).
Proof.
  intros HO. cbn [ms_start precomputed_linear]. rewrite Hvs. cbn [bind]. pose proof vs_length as Hl. destruct vs as [|v r] eqn:E; [cbn [length] in Hl; lia|]. cbn [linear_tree]. eexists. split; [reflexivity|].
  exists v, r. split; auto. split; [apply (Permutation_NoDup (Permutation_sym Hperm)), seq_NoDup|]. split; [|split; [rewrite E; reflexivity|split; [rewrite E; reflexivity|intros [|q] c Q; discriminate]]].
  intros i. rewrite HO, act_repeat. split; [intros Hi; apply (Permutation_in _ (Permutation_sym Hperm)), in_seq; lia|intros Hi; apply (Permutation_in _ Hperm), in_seq in Hi; lia].
Qed.
Lemma linear_next h m F n : at_point P q0 ord O t h F -> linear_J h m (occupied F) -> 2 <= num_active F ->
  exists i j m', ms_get_next (precomputed_linear o shuffle t) n m F = Ok (i, j, m') /\ i <> j /\ act (occupied F) i /\ act (occupied F) j /\ linear_J (h ++ [(i, j)]) m' (merged (occupied F) i j).
Proof.
  intros (_ & A1 & A2) (hd & rest & -> & HD & Hact & Hhd & Hrest & Hh) H2. rewrite nt_active in H2. pose proof vs_length as Hl. cbn [ms_get_next precomputed_linear].
  destruct rest as [|v r]; [symmetry in Hrest; apply (f_equal (@length nat)) in Hrest; rewrite skipn_length in Hrest; cbn [length] in Hrest; lia|].
  assert (Hlt : S (length h) < length vs). { apply (f_equal (@length nat)) in Hrest. rewrite skipn_length in Hrest. cbn [length] in Hrest. lia. }
  rewrite next_lin. exists hd, v, (lin (length (F_factors F)) r). rewrite (skipn_cons 0) in Hrest by auto. pose proof (f_equal (hd_error (A:=nat)) Hrest) as Ev. cbn [hd_error] in Ev. injection Ev as Ev. pose proof (f_equal (@tl nat) Hrest) as Er. cbn [tl] in Er. inversion HD as [|? ? Hn HD']; subst x l. inversion HD' as [|? ? Hn' HD'']; subst x l. 
  split; auto. split; [intros ->; apply Hn; now left|]. split; [apply Hact; now left|]. split; [apply Hact; right; now left|]. rewrite <- occ_length.
  assert (Hout : forall i, In i (hd :: v :: r) -> i < length (occupied F)) by (intros i Hi; apply Hact in Hi; now apply act_lt).
  exists (length (occupied F)), r. split; auto. split; [constructor; auto; intros Hi; specialize (Hout (length (occupied F)) (or_intror (or_intror Hi))); lia|]. split; [|split; [|split]].
  - intros i. rewrite act_merged, Hact. cbn [In]. split.
    + intros [->|([<-|[<-|Hi]] & N1 & N2)]; auto; congruence.
    + intros [<-|Hi]; auto. right. splits; auto; intros ->; [apply Hn; now right|now apply Hn'].
  - rewrite app_length. cbn [length]. replace (length h + 1) with (S (length h)) by lia. cbn [linear_merge fst]. lia.
  - rewrite app_length. cbn [length]. replace (S (length h + 1)) with (S (S (length h))) by lia. exact Er.
  - intros q c Q. destruct (Nat.lt_ge_cases q (length h)) as [Hq|Hq]; [rewrite nth_error_app1 in Q by auto; auto|]. rewrite nth_error_app2 in Q by auto. destruct (q - length h) as [|z] eqn:Ez; [|destruct z; discriminate]. cbn [nth_error] in Q. inv Q. replace q with (length h) by lia. unfold linear_merge at 2. cbn [fst linear_merge]. congruence.
Qed.
Lemma linear_good : good_merges P q0 ord O t (precomputed_linear o shuffle t).
Proof. apply (runs_good P q0 ord O t (precomputed_linear o shuffle t) linear_J); [intros F _; apply linear_start|apply linear_next]. Qed.
Lemma linear_run h m F : strategy_run P q0 ord O t (precomputed_linear o shuffle t) h m F -> forall q c, nth_error h q = Some c -> c = linear_merge vs q.
Proof. intros HR. destruct (run_inv P q0 ord O t (precomputed_linear o shuffle t) linear_J (fun F _ => linear_start F) linear_next h m F HR) as [_ (hd & rest & _ & _ & _ & _ & _ & H)]. exact H. Qed.
End LINEAR.

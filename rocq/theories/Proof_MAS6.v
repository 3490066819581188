(** Distances of transition systems (C45). *)
From Coq Require Import Permutation.
From Verif Require Import Outcome Spec_Relaxation Model_PQ Model_Graph Proof_Graph Proof_BFS Model_MAS Spec_FTS Proof_MAS1 Proof_MAS2 Proof_MAS3 Proof_MAS4.

(** ** Building adjacency lists *)
Lemma push_edge_ok {A} (g : list (list A)) s x : s < length g ->
  exists g', push_edge g s x = Ok g' /\ length g' = length g /\ forall s' y, In y (nth s' g' []) <-> In y (nth s' g []) \/ (s' = s /\ y = x).
Proof.
  intros H. unfold push_edge. destruct (vget_some g s H) as (l & Hl & E). rewrite E. cbn [bind]. unfold vset. rewrite (proj2 (Nat.ltb_lt _ _) H). eexists. split; [reflexivity|].
  split; [apply upd_length|]. intros s' y. destruct (Nat.eq_dec s' s) as [->|Hne].
  - rewrite (nth_error_nth _ s [] (upd_nth_eq g s (l ++ [x]) H)), (nth_error_nth g s [] Hl), in_app_iff. cbn [In]. intuition.
  - assert (E2 : nth s' (upd g s (l ++ [x])) [] = nth s' g []).
    { rewrite !(nth_default_eq) || idtac. pose proof (upd_nth_neq g s s' (l ++ [x]) (not_eq_sym Hne)) as E3.
      destruct (nth_error g s') as [z|] eqn:Ez.
      - rewrite (nth_error_nth _ _ [] E3). symmetry. now apply nth_error_nth.
      - apply nth_error_None in Ez, E3. rewrite !nth_overflow by auto. reflexivity. }
    rewrite E2. tauto.
Qed.
Definition directed {A} (flip : bool) (a b : A) : A * A := if flip then (b, a) else (a, b).
Lemma push_unit_ok flip : forall tr g, (forall s t, In (s, t) tr -> s < length g /\ t < length g) ->
  exists g', fold_outcome (fun (g : list (list nat)) (t : trans) => if flip : bool then push_edge g (snd t) (fst t) else push_edge g (fst t) (snd t)) tr g = Ok g' /\ length g' = length g /\
    forall s y, In y (nth s g' []) <-> In y (nth s g []) \/ In (directed flip s y) tr.
Proof.
  induction tr as [|[s t] tr IH]; intros g H; cbn [fold_outcome].
  - exists g. splits; auto. intros s y. cbn [In]. tauto.
  - cbn [fst snd]. destruct (H s t (or_introl eq_refl)) as [Hs Ht].
    destruct (push_edge_ok g (if flip then t else s) (if flip then s else t)) as (g1 & E1 & L1 & M1); [destruct flip; auto|].
    destruct (IH g1) as (g' & E & L' & M); [intros s' t' Hin; rewrite L1; apply H; now right|]. exists g'. splits; [|congruence|].
    + destruct flip; rewrite E1; exact E.
    + intros s' y. rewrite M, M1. cbn [In]. unfold directed. destruct flip.
      * split; [intros [[?|[-> ->]]|?]; auto|intros [?|[X|?]]; auto; inversion X; auto].
      * split; [intros [[?|[-> ->]]|?]; auto|intros [?|[X|?]]; auto; inversion X; auto].
Qed.
Lemma push_cost_ok flip c : forall tr g, (forall s t, In (s, t) tr -> s < length g /\ t < length g) ->
  exists g', fold_outcome (fun (g : list (list (nat * nat))) (t : trans) => if flip : bool then push_edge g (snd t) (fst t, c) else push_edge g (fst t) (snd t, c)) tr g = Ok g' /\ length g' = length g /\
    forall s y w, In (y, w) (nth s g' []) <-> In (y, w) (nth s g []) \/ (w = c /\ In (directed flip s y) tr).
Proof.
  induction tr as [|[s t] tr IH]; intros g H; cbn [fold_outcome].
  - exists g. splits; auto. intros s y w. cbn [In]. tauto.
  - cbn [fst snd]. destruct (H s t (or_introl eq_refl)) as [Hs Ht].
    destruct (push_edge_ok g (if flip then t else s) ((if flip then s else t), c)) as (g1 & E1 & L1 & M1); [destruct flip; auto|].
    destruct (IH g1) as (g' & E & L' & M); [intros s' t' Hin; rewrite L1; apply H; now right|]. exists g'. splits; [|congruence|].
    + destruct flip; rewrite E1; exact E.
    + intros s' y w. rewrite M, M1. cbn [In]. unfold directed. destruct flip.
      * split; [intros [[?|[-> X]]|[? ?]]; auto; inversion X; auto|intros [?|[-> [X|?]]]; auto; inversion X; auto].
      * split; [intros [[?|[-> X]]|[? ?]]; auto; inversion X; auto|intros [?|[-> [X|?]]]; auto; inversion X; auto].
Qed.
Lemma nth_repeat_nil {A} n s : nth s (repeat (@nil A) n) [] = [].
Proof. destruct (le_lt_dec n s); [apply nth_overflow; now rewrite repeat_length|]. apply nth_repeat. Qed.

Lemma least_transfer (P Q : nat -> Prop) x : (forall c, P c -> Q c) -> (forall c, Q c -> exists c', c' <= c /\ P c') ->
  match x with Some c => least P c | None => forall c, ~ P c end -> match x with Some c => least Q c | None => forall c, ~ Q c end.
Proof.
  intros PQ QP. destruct x as [c|].
  - intros [H1 H2]. split; auto. intros c' Hc'. destruct (QP c' Hc') as (c'' & Hle & Hc''). specialize (H2 _ Hc''). lia.
  - intros H c Hc. destruct (QP c Hc) as (c' & _ & Hc'). exact (H _ Hc').
Qed.

Lemma lpath_snoc lc step s c s' a k s'' : lpath lc step s c s' -> lc a k -> step a s' s'' -> lpath lc step s (c + k) s''.
Proof.
  induction 1 as [s|s b x s1 y s2 Hb Hs _ IH]; intros Ha Hst.
  - replace (0 + k) with (k + 0) by lia. eapply lp_cons; eauto. constructor.
  - replace (x + y + k) with (x + (y + k)) by lia. eapply lp_cons; eauto.
Qed.
Lemma lpath_app lc step s c s' k s'' : lpath lc step s c s' -> lpath lc step s' k s'' -> lpath lc step s (c + k) s''.
Proof.
  induction 1 as [s|s b x s1 y s2 Hb Hs _ IH]; intros H; [exact H|]. replace (x + y + k) with (x + (y + k)) by lia. eapply lp_cons; eauto.
Qed.
Lemma lpath_last lc step s c s' : lpath lc step s c s' -> (c = 0 /\ s' = s) \/ exists a k s1 d, c = d + k /\ lc a k /\ step a s1 s' /\ lpath lc step s d s1.
Proof.
  induction 1 as [s|s b x s1 y s2 Hb Hs Hp IH]; [now left|right]. destruct IH as [[-> ->]|(a & k & s3 & d & -> & Ha & Hst & Hd)].
  - exists b, x, s, 0. splits; auto. constructor.
  - exists a, k, s3, (x + d). splits; auto; [lia|]. eapply lp_cons; eauto.
Qed.

Section DISTANCES.
Variable P : pqueue.
Variable bag : PQ P -> list (nat * nat).
Hypothesis HP : pq_contract P bag.
Variable q0 : PQ P.
Hypothesis Hq0 : bag q0 = [].
Variable L : label_costs.
Variable maxl : nat.
Variable T : tsys.
Hypothesis W : twf L maxl T.
Let n := ts_n T.
Let step := l_step (the_lts T).

(** the weighted edges of the groups *)
Definition group_edge (flip : bool) (s y w : nat) : Prop := exists i, In i (active_infos T) /\ i_cost i = Some w /\ In (directed flip s y) (i_trans i).

Lemma active_info i : In i (active_infos T) -> exists k, nth_error (ts_infos T) k = Some i /\ is_active i = true /\ cost_ok L (i_labels i) (i_cost i).
Proof.
  unfold active_infos. rewrite filter_In. intros [H1 H2]. apply In_nth_error in H1 as [k Hk]. exists k. splits; auto. exact (g_cost _ _ _ _ (w_g _ _ _ W) k i Hk H2).
Qed.
Lemma active_cost i : In i (active_infos T) -> exists c, i_cost i = Some c.
Proof. intros H. destruct (active_info i H) as (k & _ & Ha & Hc). destruct (i_cost i) as [c|]; [eauto|]. cbn [cost_ok] in Hc. apply active_In in Ha as [l Hl]. rewrite Hc in Hl. destruct Hl. Qed.
Lemma active_range i s t : In i (active_infos T) -> In (s, t) (i_trans i) -> s < n /\ t < n.
Proof. intros H Hin. destruct (active_info i H) as (k & Hk & _). exact (g_trans _ _ _ _ (w_g _ _ _ W) k i s t Hk Hin). Qed.

Lemma edge_label flip s y w : group_edge flip s y w -> exists a, active L a w /\ step a (fst (directed flip s y)) (snd (directed flip s y)).
Proof.
  intros (i & Hi & Hc & Hin). destruct (active_info i Hi) as (k & Hk & Ha & Hco). rewrite Hc in Hco. cbn [cost_ok] in Hco. destruct Hco as [(l & Hl & Hw) _]. exists l. split; auto.
  cbn [the_lts l_step step]. apply (gstep_info _ _ _ _ k i l _ _ (w_g _ _ _ W) Hk Hl). now destruct (directed flip s y).
Qed.
Lemma label_edge flip a c s y : active L a c -> step a (fst (directed flip s y)) (snd (directed flip s y)) -> exists w, w <= c /\ group_edge flip s y w.
Proof.
  intros Ha Hs. destruct (g_label _ _ _ _ (w_g _ _ _ W) a c Ha) as (k & i & H1 & H2 & H3). apply (gstep_info _ _ _ _ k i a _ _ (w_g _ _ _ W) H2 H3) in Hs.
  assert (Hi : In i (active_infos T)) by (apply filter_In; split; [eapply nth_error_In; eauto|apply active_In; eauto]).
  destruct (active_cost i Hi) as [w Hw]. exists w. split; [|exists i; splits; auto; now destruct (directed flip s y)].
  pose proof (g_cost _ _ _ _ (w_g _ _ _ W) k i H2 (proj2 (active_In i) (ex_intro _ a H3))) as Hc. rewrite Hw in Hc. now apply (proj2 Hc a c).
Qed.

Lemma cost_graph_ok flip : exists g, cost_graph T flip = Ok g /\ length g = n /\ forall s y w, In (y, w) (nth s g []) <-> group_edge flip s y w.
Proof.
  unfold cost_graph, group_edge.
  assert (G : forall is g, (forall i, In i is -> In i (active_infos T)) -> length g = n -> exists g',
    fold_outcome (fun g i => match i_cost i with None => UB | Some c => fold_outcome (fun (g : list (list (nat * nat))) (t : trans) => if flip then push_edge g (snd t) (fst t, c) else push_edge g (fst t) (snd t, c)) (i_trans i) g end) is g = Ok g' /\
    length g' = n /\ forall s y w, In (y, w) (nth s g' []) <-> In (y, w) (nth s g []) \/ exists i, In i is /\ i_cost i = Some w /\ In (directed flip s y) (i_trans i)).
  { induction is as [|i is IH]; intros g Hsub Hl; cbn [fold_outcome].
    - exists g. splits; auto. intros s y w. split; auto. intros [?|(i & [] & _)]; auto.
    - destruct (active_cost i (Hsub i (or_introl eq_refl))) as [c Hc]. rewrite Hc.
      destruct (push_cost_ok flip c (i_trans i) g) as (g1 & -> & L1 & M1); [intros s t Hin; rewrite Hl; eapply active_range; eauto; apply Hsub; now left|]. cbn [bind].
      destruct (IH g1) as (g' & -> & L' & M); [intros; apply Hsub; now right|congruence|]. exists g'. splits; auto. intros s y w. rewrite M, M1. split.
      + intros [[?|[-> ?]]|(i' & A & B & C)]; [auto| |]; right; [exists i|exists i']; splits; auto; [now left|now right].
      + intros [?|(i' & [<-|A] & B & C)]; auto; [|right; eauto]. left. right. split; auto. congruence. }
  destruct (G (active_infos T) (repeat [] (ts_n T))) as (g & E & Hl & M); [auto|apply repeat_length|]. exists g. splits; auto.
  intros s y w. rewrite M, nth_repeat_nil. cbn [In]. tauto.
Qed.
Lemma unit_graph_ok flip : is_unit_cost T = true -> exists g, unit_graph T flip = Ok g /\ length g = n /\ forall s y w, In (y, w) (unit_edges g s) <-> group_edge flip s y w.
Proof.
  unfold unit_graph, group_edge. intros HU.
  assert (G : forall is g, (forall i, In i is -> In i (active_infos T)) -> length g = n -> exists g',
    fold_outcome (fun g i => fold_outcome (fun (g : list (list nat)) (t : trans) => if flip then push_edge g (snd t) (fst t) else push_edge g (fst t) (snd t)) (i_trans i) g) is g = Ok g' /\
    length g' = n /\ forall s y, In y (nth s g' []) <-> In y (nth s g []) \/ exists i, In i is /\ In (directed flip s y) (i_trans i)).
  { induction is as [|i is IH]; intros g Hsub Hl; cbn [fold_outcome].
    - exists g. splits; auto. intros s y. split; auto. intros [?|(i & [] & _)]; auto.
    - destruct (push_unit_ok flip (i_trans i) g) as (g1 & -> & L1 & M1); [intros s t Hin; rewrite Hl; eapply active_range; eauto; apply Hsub; now left|]. cbn [bind].
      destruct (IH g1) as (g' & -> & L' & M); [intros; apply Hsub; now right|congruence|]. exists g'. splits; auto. intros s y. rewrite M, M1. split.
      + intros [[?|?]|(i' & A & C)]; [auto| |]; right; [exists i|exists i']; split; auto; [now left|now right].
      + intros [?|(i' & [<-|A] & C)]; auto; right; eauto. }
  destruct (G (active_infos T) (repeat [] (ts_n T))) as (g & E & Hl & M); [auto|apply repeat_length|]. exists g. splits; auto.
  intros s y w. unfold unit_edges. rewrite in_map_iff. unfold is_unit_cost in HU. rewrite forallb_forall in HU. split.
  - intros (x & X & Hin). inversion X; subst x w. apply M in Hin. rewrite nth_repeat_nil in Hin. destruct Hin as [[]|(i & Hi & Hin)]. exists i. splits; auto. specialize (HU i Hi). destruct (i_cost i) as [[|[|c]]|]; try discriminate. auto.
  - intros (i & Hi & Hc & Hin). specialize (HU i Hi). rewrite Hc in HU. assert (w = 1) as -> by (destruct w as [|[|w]]; try discriminate; auto). exists y. split; auto. apply M. right. eauto.
Qed.

Lemma edge_lt flip s y w : group_edge flip s y w -> y < n.
Proof. intros (i & Hi & _ & Hin). unfold directed in Hin. destruct flip; apply (active_range i _ _ Hi) in Hin; tauto. Qed.

Lemma zero_all : forall srcs d, (forall s, In s srcs -> s < length d) -> exists d', fold_outcome (fun d s => vset d s (Some 0)) srcs d = Ok d' /\ length d' = length d /\
  forall s, nth_error d' s = if member s srcs then Some (Some 0) else nth_error d s.
Proof. intros srcs d H. exact (set_local_ok (Some 0) srcs d H). Qed.
Lemma push_all : forall srcs q, Permutation (bag (fold_left (fun q s => pq_push P q 0 s) srcs q)) (map (pair 0) srcs ++ bag q).
Proof.
  induction srcs as [|s r IH]; intros q; cbn [fold_left map app]; auto. eapply perm_trans; [apply IH|]. symmetry. eapply perm_trans; [apply Permutation_middle|].
  apply Permutation_app_head. symmetry. apply (pq_push_ok P bag HP).
Qed.
Lemma exact_dists_ext E E' src k d : (forall s y w, In (y, w) (E s) <-> In (y, w) (E' s)) -> exact_dists E src k d -> exact_dists E' src k d.
Proof.
  intros H [H1 H2]. assert (G : forall A B, (forall s y w, In (y, w) (A s) -> In (y, w) (B s)) -> forall s c, walk_cost A src s c -> walk_cost B src s c).
  { intros A B HA s c. induction 1 as [s Hs|s c s' w _ IH Hin]; [now constructor|]. econstructor; eauto. }
  split; auto. intros s Hs. eapply least_transfer; [| |exact (H2 s Hs)]; cbn beta.
  - apply G. intros; now apply H.
  - intros c Hc. exists c. split; auto. revert Hc. apply G. intros; now apply H.
Qed.

(** [walk flip srcs s c]: group edges lead from one of [srcs] to [s] *)
Inductive walk (flip : bool) (srcs : list nat) : nat -> nat -> Prop :=
| w_src : forall s, In s srcs -> walk flip srcs s 0
| w_edge : forall s c y w, walk flip srcs s c -> group_edge flip s y w -> walk flip srcs y (c + w).

Lemma exact_walk E flip srcs d : (forall s y w, In (y, w) (E s) <-> group_edge flip s y w) -> exact_dists E (fun s => In s srcs) n d ->
  least_costs n (walk flip srcs) d.
Proof.
  intros HE [H1 H2].
  assert (G1 : forall s c, walk_cost E (fun s => In s srcs) s c -> walk flip srcs s c).
  { induction 1 as [s Hs|s c s' w _ IH Hin]; [now constructor|]. econstructor; [apply IH|now apply HE]. }
  assert (G2 : forall s c, walk flip srcs s c -> walk_cost E (fun s => In s srcs) s c).
  { induction 1 as [s Hs|s c s' w _ IH Hin]; [now constructor|]. econstructor; [apply IH|now apply HE]. }
  split; auto. intros s Hs. eapply least_transfer; [| |exact (H2 s Hs)]; cbn beta; [apply G1|]. intros c Hc. exists c. split; auto.
Qed.

Lemma map_nth_seq {A} (d : A) : forall l, map (fun s => nth s l d) (seq 0 (length l)) = l.
Proof.
  intros l. apply nth_error_ext. intros i. destruct (le_lt_dec (length l) i) as [Hge|Hlt].
  - rewrite (proj2 (nth_error_None l i) Hge). apply nth_error_None. now rewrite map_length, seq_length.
  - rewrite (nth_error_nth' l d Hlt). rewrite (map_nth_error (fun s => nth s l d) i (seq 0 (length l)) (d := i)); auto.
    rewrite (nth_error_nth' _ 0) by now rewrite seq_length. now rewrite seq_nth.
Qed.

Lemma search_from_ok flip srcs : NoDup srcs -> (forall s, In s srcs -> s < n) -> exists d, search_from P q0 T flip srcs = Ok d /\ least_costs n (walk flip srcs) d.
Proof.
  intros Hnd Hs. unfold search_from. destruct (zero_all srcs (repeat None (ts_n T))) as (d0 & -> & Hl & Hd); [rewrite repeat_length; exact Hs|]. cbn [bind]. rewrite repeat_length in Hl.
  assert (Hd0 : forall s, s < n -> In s srcs /\ nth s d0 None = Some 0 \/ ~ In s srcs /\ nth s d0 None = None).
  { intros s Hlt. specialize (Hd s). destruct (member s srcs) eqn:Em.
    - left. split; [now apply member_In|]. now apply nth_error_nth.
    - right. split; [now apply member_not|]. apply nth_error_nth. rewrite Hd. apply nth_error_repeat. exact Hlt. }
  destruct (is_unit_cost T) eqn:HU.
  - destruct (unit_graph_ok flip HU) as (g & -> & Hg & M). cbn [bind].
    destruct (bfs_exact n g Hg) with (src := fun s => In s srcs) (fuel := S (length srcs + ts_n T)) (d := d0) (q := srcs) as (d & -> & Hex); auto.
    + intros s t Hin. apply (edge_lt flip s t 1). apply M. unfold unit_edges. apply in_map_iff. exists t. auto.
    + tauto.
    + exists d. split; auto. eapply exact_walk; [|exact Hex]. exact M.
  - destruct (cost_graph_ok flip) as (g & -> & Hg & M). cbn [bind].
    pose proof (push_all srcs q0) as Hp. rewrite Hq0, app_nil_r in Hp.
    destruct (dijkstra_exact P bag HP n (fun s => nth s g []) (fun s => vget g s)) with (src := fun s => In s srcs) (fuel := S (length srcs + list_sum (map (@length _) g))) (d := d0) (q := fold_left (fun q s => pq_push P q 0 s) srcs q0) as (d & -> & Hex); auto.
    + intros s Hlt. rewrite <- Hg in Hlt. destruct (vget_some g s Hlt) as (l & Hl' & ->). f_equal. symmetry. now apply nth_error_nth.
    + intros s t w Hlt Hin. apply (edge_lt flip s t w). now apply M.
    + eapply Permutation_NoDup; [symmetry; exact Hp|]. clear -Hnd. induction Hnd as [|x l Hx _ IH]; cbn [map]; constructor; auto. intros Hi. apply in_map_iff in Hi. destruct Hi as (y & Ey & Hy). inversion Ey; subst; contradiction.
    + intros k s. rewrite (Permutation_in' eq_refl Hp), in_map_iff. split; [intros (x & X & Hx); inversion X; subst; auto|intros [-> Hx]; eauto].
    + rewrite (Permutation_length Hp), map_length. rewrite <- Hg. rewrite <- (map_map (fun s => nth s g []) (@length _)), map_nth_seq. lia.
    + exists d. split; auto. eapply exact_walk; [|exact Hex]. exact M.
Qed.

Lemma walk_init i s c : walk false [i] s c -> lpath (active L) step i c s.
Proof.
  induction 1 as [s [<-|[]]|s c y w _ IH He]; [constructor|]. apply edge_label in He as (a & Ha & Hst). cbn [directed fst snd] in Hst. eapply lpath_snoc; eauto.
Qed.
Lemma walk_init_le i s c : lpath (active L) step i c s -> exists c', c' <= c /\ walk false [i] s c'.
Proof.
  assert (G : forall s0 c s, lpath (active L) step s0 c s -> forall c0, walk false [i] s0 c0 -> exists c', c' <= c0 + c /\ walk false [i] s c').
  { induction 1 as [s0|s0 a x s1 y s2 Ha Hst _ IH]; intros c0 H0; [exists c0; split; auto; lia|].
    destruct (label_edge false a x s0 s1 Ha) as (w & Hw & He); [exact Hst|]. destruct (IH (c0 + w)) as (c' & Hc' & Hwk); [econstructor; eauto|]. exists c'. split; auto. lia. }
  intros H. apply (G i c s H 0). constructor. now left.
Qed.
Lemma walk_goal s c : walk true (goal_list T) s c -> exists g, l_goal (the_lts T) g /\ lpath (active L) step s c g.
Proof.
  induction 1 as [s Hs|s c y w _ IH He].
  - exists s. split; [|constructor]. unfold goal_list in Hs. apply filter_In in Hs as [Hs Hg]. apply in_seq in Hs. cbn [the_lts l_goal]. rewrite <- Hg. apply nth_error_nth'. rewrite (w_goals _ _ _ W). lia.
  - destruct IH as (g & Hg & Hp). exists g. split; auto. apply edge_label in He as (a & Ha & Hst). cbn [directed fst snd] in Hst. rewrite Nat.add_comm. econstructor; eauto.
Qed.
Lemma goal_list_In g : l_goal (the_lts T) g -> In g (goal_list T).
Proof.
  cbn [the_lts l_goal]. intros H. unfold goal_list. apply filter_In. split; [apply in_seq; apply nth_error_Some_lt in H; rewrite (w_goals _ _ _ W) in H; lia|]. now apply nth_error_nth.
Qed.
Lemma walk_goal_le s c g : l_goal (the_lts T) g -> lpath (active L) step s c g -> exists c', c' <= c /\ walk true (goal_list T) s c'.
Proof.
  intros Hg. induction 1 as [s|s a x s1 y s2 Ha Hst _ IH].
  - exists 0. split; auto. constructor. now apply goal_list_In.
  - destruct (IH Hg) as (c' & Hc' & Hw). destruct (label_edge true a x s1 s Ha) as (w & Hle & He); [exact Hst|]. exists (c' + w). split; [lia|]. econstructor; eauto.
Qed.

Lemma init_ok i : ts_init T = Some i -> exists d, compute_init_distances P q0 T = Ok d /\ init_distances (active L) (the_lts T) d.
Proof.
  intros Hi. unfold compute_init_distances. rewrite Hi. destruct (search_from_ok false [i]) as (d & -> & Hl & Hd); [repeat constructor; auto|intros s [<-|[]]; now apply (w_init _ _ _ W)|].
  exists d. split; auto. split; auto. intros s Hs. eapply least_transfer; [| |exact (Hd s Hs)]; cbn beta.
  - intros c Hc. exists i. split; [exact Hi|]. now apply walk_init.
  - intros c (i' & Hi' & Hp). cbn [the_lts l_init] in Hi'. rewrite Hi in Hi'. inversion Hi'; subst i'. now apply walk_init_le.
Qed.
Lemma goal_ok : exists d, compute_goal_distances P q0 T = Ok d /\ goal_distances (active L) (the_lts T) d.
Proof.
  unfold compute_goal_distances. destruct (search_from_ok true (goal_list T)) as (d & -> & Hl & Hd).
  - unfold goal_list. apply NoDup_filter, seq_NoDup.
  - intros s Hs. unfold goal_list in Hs. apply filter_In in Hs as [Hs _]. apply in_seq in Hs. unfold n. lia.
  - exists d. split; auto. split; auto. intros s Hs. eapply least_transfer; [| |exact (Hd s Hs)]; cbn beta.
    + apply walk_goal.
    + intros c (g & Hg & Hp). now apply (walk_goal_le s c g).
Qed.
End DISTANCES.

(** What is stored: the distances asked for are exact. *)
Definition dist_ok (L : label_costs) (T : tsys) (ci cg : bool) (D : distances) : Prop :=
  (ci = true -> exists d, d_init D = Some d /\ init_distances (active L) (the_lts T) d) /\
  (cg = true -> exists d, d_goal D = Some d /\ goal_distances (active L) (the_lts T) d).

Theorem compute_distances_ok P bag q0 L maxl T ci cg D : pq_contract P bag -> bag q0 = [] -> twf L maxl T ->
  (ts_n T <> 0 -> ci = true -> ts_init T <> None) ->
  exists D', compute_distances P q0 T ci cg D = Ok D' /\ dist_ok L T ci cg D' /\
    (ts_n T <> 0 -> ci = false -> d_init D' = d_init D) /\ (ts_n T <> 0 -> cg = false -> d_goal D' = d_goal D).
Proof.
  intros HP Hq W Hi. unfold compute_distances. destruct (Nat.eqb_spec (ts_n T) 0) as [E|E].
  - eexists. split; [reflexivity|]. splits; try (intros; contradiction).
    + split; intros _; exists []; split; auto; split; cbn [the_lts l_n length]; auto; intros s Hs; lia.
  - assert (G1 : exists di, (if ci then let* d := compute_init_distances P q0 T in Ok (Some d) else Ok (d_init D)) = Ok di /\ (ci = true -> exists d, di = Some d /\ init_distances (active L) (the_lts T) d) /\ (ci = false -> di = d_init D)).
    { destruct ci; [|exists (d_init D); splits; auto; discriminate]. destruct (ts_init T) as [i|] eqn:Ei; [|exfalso; now apply (Hi E eq_refl)].
      destruct (init_ok P bag HP q0 Hq L maxl T W i Ei) as (d & -> & Hd). cbn [bind]. exists (Some d). splits; [auto|eauto|discriminate]. }
    assert (G2 : exists dg, (if cg then let* d := compute_goal_distances P q0 T in Ok (Some d) else Ok (d_goal D)) = Ok dg /\ (cg = true -> exists d, dg = Some d /\ goal_distances (active L) (the_lts T) d) /\ (cg = false -> dg = d_goal D)).
    { destruct cg; [|exists (d_goal D); splits; auto; discriminate].
      destruct (goal_ok P bag HP q0 Hq L maxl T W) as (d & -> & Hd). cbn [bind]. exists (Some d). splits; [auto|eauto|discriminate]. }
    destruct G1 as (di & -> & A1 & B1), G2 as (dg & -> & A2 & B2). cbn [bind]. eexists. split; [reflexivity|]. splits; auto. split; cbn [d_init d_goal]; auto.
Qed.

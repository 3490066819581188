(** Soundness of the factored transition systems merge-and-shrink goes through. *)
From Coq Require Import Permutation.
From Verif Require Import Outcome Spec_Task Spec_Relaxation Spec_Projection Model_PQ Model_Graph Model_MAS Spec_FTS Model_MASRun.
From Verif Require Import Model_Task Proof_Task Proof_RelaxHeur Proof_PDB3.
From Verif Require Import Proof_MAS1 Proof_MAS2 Proof_MAS3 Proof_MAS4 Proof_MAS5 Proof_MAS6 Proof_MAS7 Proof_MAS8 Proof_MAS9 Proof_MAS10.

Lemma get_factor_ok F i f : get_factor F i = Ok f <-> nth_error (F_factors F) i = Some (Some f).
Proof.
  unfold get_factor, vget. destruct (nth_error (F_factors F) i) as [[g|]|]; cbn [bind]; split; intros H; inversion H; auto.
Qed.

(** ** Label groups *)
Definition acts (L : label_costs) : list nat := filter (fun l => match nth_error L l with Some (Some _) => true | _ => false end) (seq 0 (length L)).
Lemma acts_In L l : In l (acts L) <-> exists c, active L l c.
Proof.
  unfold acts, active. rewrite filter_In, in_seq. split.
  - intros [_ H]. destruct (nth_error L l) as [[c|]|]; try discriminate. eauto.
  - intros [c H]. rewrite H. split; auto. apply nth_error_Some_lt in H. lia.
Qed.
Lemma concat_length_2 (mp : label_mapping) : (forall e, In e mp -> 2 <= length (snd e)) -> 2 * length mp <= length (concat (map snd mp)).
Proof.
  induction mp as [|e mp IH]; intros H; cbn [map concat length]; [lia|]. rewrite app_length. specialize (H e (or_introl eq_refl)) as He. assert (2 * length mp <= length (concat (map snd mp))) by (apply IH; intros; apply H; now right). lia.
Qed.
Lemma old_concat (mp : label_mapping) l : old_labels mp l <-> In l (concat (map snd mp)).
Proof. rewrite in_concat. split; [intros (e & A & B); exists (snd e); split; auto; now apply in_map|intros (x & A & B); apply in_map_iff in A as (e & <- & He); exists e; auto]. Qed.

Lemma groups_old L mp l : label_groups L mp -> old_labels mp l -> exists c, active L l c.
Proof. intros (_ & _ & H) (e & He & Hl). destruct (H e He) as [_ [c Hc]]. eauto. Qed.
Lemma groups_count L mp : label_groups L mp -> length (concat (map snd mp)) <= length (acts L).
Proof. intros H. apply NoDup_incl_length; [apply H|]. intros l Hl. apply acts_In. eapply groups_old; eauto. now apply old_concat. Qed.
Lemma groups_valid L mp n : label_groups L mp -> length L + length (acts L) <= 2 * n -> length L <= 2 * n - 1 -> valid_mapping (active L) (length L) (2 * n - 1) mp.
Proof.
  intros H Hc HL. pose proof (groups_count L mp H) as Hcnt. pose proof H as (A & B & C).
  pose proof (concat_length_2 mp (fun e He => proj1 (C e He))) as H2. unfold valid_mapping. split; [exact A|split; [exact B|split; [|split]]].
  - intros e He E. destruct (C e He) as [X _]. rewrite E in X. cbn [length] in X. lia.
  - intros a Ha. eapply groups_old; eauto.
  - lia.
Qed.
Lemma groups_after L mp L' n : label_groups L mp -> costs_at L mp L' -> length L + length (acts L) <= 2 * n -> length L' + length (acts L') <= 2 * n.
Proof.
  intros H [Hl HR] Hc. pose proof H as (A & B & C). pose proof (concat_length_2 mp (fun e He => proj1 (C e He))) as H2.
  set (keep := filter (fun l => negb (member l (concat (map snd mp)))) (acts L)).
  assert (K1 : length keep + length (concat (map snd mp)) <= length (acts L)).
  { rewrite <- app_length. apply NoDup_incl_length.
    - assert (Hk : NoDup keep) by (apply NoDup_filter, NoDup_filter, seq_NoDup). assert (Hd : forall l, In l keep -> ~ In l (concat (map snd mp))) by (intros l Hin; apply filter_In in Hin as [_ Hin]; now apply member_not, negb_true_iff).
      revert Hd. induction Hk as [|x r Hx _ IH]; intros Hd; cbn [app]; auto. constructor; [|apply IH; intros; apply Hd; now right]. rewrite in_app_iff. intros [?|?]; auto. apply (Hd x); auto. now left.
    - intros l Hin. apply in_app_or in Hin as [Hin|Hin]; [apply filter_In in Hin; tauto|]. apply acts_In. eapply groups_old; eauto. now apply old_concat. }
  assert (K2 : length (acts L') <= length keep + length mp).
  { rewrite <- (map_length fst mp), <- app_length. apply NoDup_incl_length; [apply NoDup_filter, seq_NoDup|]. intros l Hin. apply acts_In in Hin as [c Hin]. apply in_or_app. apply HR in Hin as [[X Y]|(olds & X & _)].
    - left. apply filter_In. split; [apply acts_In; eauto|]. apply negb_true_iff, member_not. now rewrite <- old_concat.
    - right. apply in_map_iff. exists (l, olds). auto. }
  lia.
Qed.

(** ** Following the labels of operators *)
Definition relabel (mp : label_mapping) (a : nat) : nat := match find (fun e => member a (snd e)) mp with Some e => fst e | None => a end.
Lemma relabel_case mp a : (exists e, In e mp /\ In a (snd e) /\ relabel mp a = fst e) \/ (~ old_labels mp a /\ relabel mp a = a).
Proof.
  unfold relabel. destruct (find (fun e => member a (snd e)) mp) as [e|] eqn:E.
  - left. apply find_some in E as [A B]. exists e. splits; auto. now apply member_In.
  - right. split; auto. intros (e & A & B). pose proof (find_none _ _ E e A) as X. cbn beta in X. apply member_not in X. contradiction.
Qed.
Lemma relabel_step mp L T T' a c x y : is_relabelling mp (active L) T T' -> active L a c -> l_step T a x y -> l_step T' (relabel mp a) x y.
Proof.
  intros (_ & _ & _ & H1 & H2) Ha Hs. destruct (relabel_case mp a) as [(e & He & Hin & ->)|[Hn ->]].
  - apply (H2 (fst e) (snd e)); [now destruct e|]. eauto.
  - apply (H1 a c); auto.
Qed.
Lemma relabel_cost L mp L' a c : label_groups L mp -> costs_at L mp L' -> active L a c -> active L' (relabel mp a) c.
Proof.
  intros (_ & _ & HG) [_ HR] Ha. apply HR. destruct (relabel_case mp a) as [(e & He & Hin & ->)|[Hn ->]]; [right|left; auto].
  exists (snd e). split; [now destruct e|]. destruct (HG e He) as [_ [c0 Hc0]]. assert (c = c0) by (eapply active_fun; eauto). subst c0. split; [eauto|]. intros c' (b & Hb & Hc'). rewrite (active_fun _ _ _ _ Hc' (Hc0 b Hb)). auto.
Qed.
Lemma relabel_back L mp L' T T' a c x y : label_groups L mp -> costs_at L mp L' -> is_relabelling mp (active L) T T' -> active L' a c -> l_step T' a x y ->
  exists b, active L b c /\ l_step T b x y.
Proof.
  intros (_ & _ & HG) [_ HR] (_ & _ & _ & H1 & H2) Ha Hs. apply HR in Ha as [[A B]|(olds & A & [(b0 & B1 & B2) _])].
  - exists a. split; auto. now apply (H1 a c).
  - apply (H2 a olds) in Hs as (b & Hb & Hs); auto. exists b. split; auto. destruct (HG _ A) as [_ [c0 Hc0]]. cbn [snd] in Hc0. rewrite (active_fun _ _ _ _ B2 (Hc0 b0 B1)). auto.
Qed.
Lemma relabel_lpath L mp L' T T' s c s' : label_groups L mp -> costs_at L mp L' -> is_relabelling mp (active L) T T' ->
  (lpath (active L) (l_step T) s c s' <-> lpath (active L') (l_step T') s c s').
Proof.
  intros HG HC HR. split.
  - induction 1 as [s|s a x s1 y s2 Ha Hs _ IH]; [constructor|]. econstructor; [eapply relabel_cost; eauto|eapply relabel_step; eauto|exact IH].
  - induction 1 as [s|s a x s1 y s2 Ha Hs _ IH]; [constructor|]. destruct (relabel_back _ _ _ _ _ _ _ _ _ HG HC HR Ha Hs) as (b & A & B). econstructor; eauto.
Qed.
Lemma least_costs_iff n P Q d : (forall s c, P s c <-> Q s c) -> least_costs n P d -> least_costs n Q d.
Proof.
  intros H [A B]. split; auto. intros s Hs. eapply least_transfer; [| |exact (B s Hs)]; cbn beta; [intros c; apply H|]. intros c Hc. exists c. split; auto. now apply H.
Qed.
Lemma relabel_dist L mp L' T T' ci cg D : label_groups L mp -> costs_at L mp L' -> is_relabelling mp (active L) (the_lts T) (the_lts T') ->
  dist_ok L T ci cg D -> dist_ok L' T' ci cg D.
Proof.
  intros HG HC HR [D1 D2]. pose proof HR as (Hn & Hg & Hi & _). split; intros H.
  - destruct (D1 H) as (d & E & Hd). exists d. split; auto. unfold init_distances in *. rewrite Hn, Hi. eapply least_costs_iff; [|exact Hd]. intros s c. cbn beta. split; intros (i & A & B); exists i; split; auto; eapply (relabel_lpath L mp L'); eauto.
  - destruct (D2 H) as (d & E & Hd). exists d. split; auto. unfold goal_distances in *. rewrite Hn. eapply least_costs_iff; [|exact Hd]. intros s c. cbn beta. split; intros (g & A & B); exists g; (split; [now apply Hg|]); eapply (relabel_lpath L mp L'); eauto.
Qed.

Section SOUND.
Variable P : pqueue.
Variable bag : PQ P -> list (nat * nat).
Hypothesis HP : pq_contract P bag.
Variable q0 : PQ P.
Hypothesis Hq0 : bag q0 = [].
Variable ord : list (nat * list nat) -> list (nat * list nat).
Hypothesis Hord : forall b, Permutation (ord b) b.
Variable ci cg : bool.
Variable t : task.
Hypothesis Ht : mas_task t.

Definition reachable (s : state) : Prop := exists os, task_path t (t_init t) os s.
Definition solvable (s : state) : Prop := exists os, task_plan_from t s os.

Lemma task_path_app s os s' os' s'' : task_path t s os s' -> task_path t s' os' s'' -> task_path t s (os ++ os') s''.
Proof. induction 1; cbn [app]; auto. intros. econstructor; eauto. Qed.
Lemma reachable_step s o s' : reachable s -> applicable t s o -> progress t s o s' -> reachable s'.
Proof. intros [os H] Ha Hp. exists (os ++ [o]). eapply task_path_app; eauto. econstructor; eauto. constructor. Qed.
Lemma solvable_back s os s' : task_path t s os s' -> solvable s' -> solvable s.
Proof. intros H (os' & s'' & H' & Hg). exists (os ++ os'), s''. split; auto. eapply task_path_app; eauto. Qed.

Lemma progress_state s o s' : state_ok t s -> progress t s o s' -> state_ok t s'.
Proof.
  intros Hs (op & s1 & Ho & Hlen & Hv & Hm). destruct Ht as ((_ & Hops & _) & [_ Hnd] & _). destruct Hm as (Hl2 & Hs1 & _).
  assert (E : s1 = s') by (apply nth_error_ext; intros; symmetry; apply Hs1; auto). subst s1.
  assert (Hlv : length s = length (t_vars t)) by (clear -Hs; unfold state_ok in Hs; induction Hs; cbn [length]; auto).
  assert (Hall : forall v xv, nth_error (t_vars t) v = Some xv -> exists x, nth_error s' v = Some x /\ x < vdom xv).
  { intros v xv Hxv. destruct (state_var t s v xv Hs Hxv) as (x & Hx & Hlt). assert (Hvl : v < length s) by (eapply nth_error_Some_lt; eauto).
    destruct (effect_value_total s (op_effs op) v) as [r Hr]. rewrite (Hv v r Hvl Hr). destruct r as [d|]; [|eauto]. exists d. split; auto.
    apply effect_value_some in Hr as (e & He & _ & Ef). rewrite Forall_forall in Hops. destruct (Hops op (nth_error_In _ _ Ho)) as [_ Hef]. rewrite Forall_forall in Hef. destruct (Hef e He) as (_ & (xv' & X & Y) & _). rewrite Ef in X, Y. cbn [fst snd] in X, Y. unfold is_var in X. congruence. }
  assert (Hl3 : length s' = length (t_vars t)) by lia. clear -Hall Hl3. unfold state_ok. revert s' Hall Hl3. induction (t_vars t) as [|xv vs IH]; intros [|x s'] Hall Hl; try discriminate; [constructor|]. constructor.
  - destruct (Hall 0 xv eq_refl) as (y & E & Hy). cbn [nth_error] in E. inversion E; subst. auto.
  - apply IH; [|cbn [length] in Hl; lia]. intros v xv' Hv. exact (Hall (S v) xv' Hv).
Qed.
Lemma path_state s os s' : task_path t s os s' -> state_ok t s -> state_ok t s'.
Proof. induction 1; auto. intros. apply IHtask_path. eapply progress_state; eauto. Qed.
Lemma init_state : state_ok t (t_init t).
Proof. destruct Ht as ((_ & _ & _ & H & _) & _). exact H. Qed.
Lemma reachable_state s : reachable s -> state_ok t s.
Proof. intros [os H]. eapply path_state; eauto. apply init_state. Qed.

Definition no_goal_table (T : tsys) (D : distances) : Prop :=
  cg = false -> d_goal D = None \/ (ci = true /\ ts_n T = 0 /\ d_goal D = Some []).
Lemma compute_no_table T D : ci || cg = true -> compute_distances P q0 T ci cg no_distances = Ok D -> no_goal_table T D.
Proof.
  intros Hc H E. rewrite E in Hc, H. rewrite orb_false_r in Hc. unfold compute_distances in H. destruct (Nat.eqb_spec (ts_n T) 0) as [E0|E0]; [inversion H; subst; right; auto|]. bindinv H. cbn [bind] in H. inversion H; subst. left. reflexivity.
Qed.
Lemma abstract_no_table T cls D D' : ci || cg = true -> abstract_distances P q0 T cls ci cg D = Ok D' -> no_goal_table T D'.
Proof.
  intros Hc H E. pose proof (compute_no_table T D' Hc) as HC. unfold abstract_distances in H. apply bind_ok in H as (di & _ & H). rewrite E in H. cbn [bind] in H. rewrite E in HC. destruct di as [di|].
  - inversion H; subst. left. reflexivity.
  - exact (HC H E).
Qed.

Definition abs (f : factor) (s : state) (x : option nat) : Prop := get_value (f_rep f) s = Ok x.

Record FI (L : label_costs) (lab : nat -> nat) (f : factor) : Prop := {
  fi_wf : twf L (max_labels t) (f_ts f);
  fi_rep : rwf t (f_rep f);
  fi_dom : rep_dom (f_rep f) = ts_n (f_ts f);
  fi_dist : dist_ok L (f_ts f) ci cg (f_dist f);
  fi_tab : no_goal_table (f_ts f) (f_dist f);
  fi_init : forall x, abs f (t_init t) x -> ts_init (f_ts f) = x;
  fi_step : forall s o s' x y, state_ok t s -> applicable t s o -> progress t s o s' -> abs f s (Some x) -> abs f s' (Some y) -> l_step (the_lts (f_ts f)) (lab o) x y;
  fi_goal : forall s x, state_ok t s -> goal_state t s -> abs f s (Some x) -> l_goal (the_lts (f_ts f)) x;
  fi_lost : forall s, state_ok t s -> abs f s None -> ~ (reachable s /\ solvable s)
}.
Record Inv (lab : nat -> nat) (F : fts) : Prop := {
  in_lab : forall o op, nth_error (t_ops t) o = Some op -> exists c, active (F_labels F) (lab o) c /\ c <= op_cost op;
  in_max : F_max F = max_labels t;
  in_cnt : length (F_labels F) + length (acts (F_labels F)) <= 2 * length (t_ops t);
  in_fac : forall i f, nth_error (F_factors F) i = Some (Some f) -> FI (F_labels F) lab f
}.

(** paths of useful states have images *)
Lemma abs_total L lab f s : FI L lab f -> state_ok t s -> exists x, abs f s x /\ forall k, x = Some k -> k < ts_n (f_ts f).
Proof. intros HF Hs. rewrite <- (fi_dom _ _ _ HF). exact (get_value_ok t s Hs (f_rep f) (fi_rep _ _ _ HF)). Qed.
Lemma path_abs L lab f : (forall o op, nth_error (t_ops t) o = Some op -> exists c, active L (lab o) c /\ c <= op_cost op) -> FI L lab f ->
  forall s os s', task_path t s os s' -> reachable s -> solvable s' -> forall x y, abs f s (Some x) -> abs f s' (Some y) ->
  exists c, c <= plan_cost t os /\ lpath (active L) (l_step (the_lts (f_ts f))) x c y.
Proof.
  intros Hlab HF. induction 1 as [s|s o s1 os s2 Ha Hp Hpath IH]; intros Hr Hso x y Hx Hy.
  - unfold abs in *. rewrite Hx in Hy. inversion Hy; subst. exists 0. split; [lia|constructor].
  - assert (Hs : state_ok t s) by now apply reachable_state. assert (Hs1 : state_ok t s1) by (eapply progress_state; eauto). assert (Hr1 : reachable s1) by (eapply reachable_step; eauto).
    destruct (abs_total L lab f s1 HF Hs1) as ([z|] & Hz & _).
    + destruct (IH Hr1 Hso z y Hz Hy) as (c & Hc & Hlp). pose proof Ha as (op & Hop & _). destruct (Hlab o op Hop) as (w & Hw & Hle). exists (w + c). split.
      * unfold plan_cost in *. cbn [map list_sum fold_right]. rewrite Hop. change (fold_right Nat.add 0) with list_sum. lia.
      * econstructor; [exact Hw| |exact Hlp]. exact (fi_step _ _ _ HF s o s1 x z Hs Ha Hp Hx Hz).
    + exfalso. apply (fi_lost _ _ _ HF s1 Hs1 Hz). split; auto. eapply solvable_back; eauto.
Qed.
Lemma useful_abs L lab f s x : (forall o op, nth_error (t_ops t) o = Some op -> exists c, active L (lab o) c /\ c <= op_cost op) -> FI L lab f ->
  reachable s -> solvable s -> abs f s (Some x) -> from_init (active L) (the_lts (f_ts f)) x /\ reaches_goal (active L) (the_lts (f_ts f)) x.
Proof.
  intros Hlab HF Hr Hso Hx. split.
  - destruct Hr as [os Hos]. destruct (abs_total L lab f (t_init t) HF init_state) as ([i|] & Hi & _).
    + destruct (path_abs L lab f Hlab HF _ _ _ Hos) with (x := i) (y := x) as (c & _ & Hc); auto; [exists []; constructor|]. exists i, c. split; auto. exact (fi_init _ _ _ HF _ Hi).
    + exfalso. apply (fi_lost _ _ _ HF _ init_state Hi). split; [exists []; constructor|]. eapply solvable_back; eauto.
  - destruct Hso as (os & g & Hos & Hg). assert (Hgs : state_ok t g) by (eapply path_state; eauto; now apply reachable_state). assert (Hgso : solvable g) by (exists [], g; split; auto; constructor).
    destruct (abs_total L lab f g HF Hgs) as ([y|] & Hy & _).
    + destruct (path_abs L lab f Hlab HF _ _ _ Hos Hr Hgso x y Hx Hy) as (c & _ & Hc). exists y, c. split; auto. exact (fi_goal _ _ _ HF g y Hgs Hg Hy).
    + exfalso. apply (fi_lost _ _ _ HF _ Hgs Hy). split; auto. destruct Hr as [os0 Hr]. exists (os0 ++ os). eapply task_path_app; eauto.
Qed.

(** *** Merging *)
Lemma merged_nth (fs : list (option factor)) i j new k f : nth_error (upd (upd fs i None) j None ++ [Some new]) k = Some (Some f) ->
  (k <> i /\ k <> j /\ nth_error fs k = Some (Some f)) \/ (k = length fs /\ f = new).
Proof.
  destruct (Nat.ltb_spec k (length fs)) as [Hlt|Hge].
  - rewrite nth_error_app1 by (rewrite !upd_length; auto). intros H. left. destruct (Nat.eq_dec k j) as [->|Hj]; [rewrite upd_nth_eq in H by (now rewrite upd_length); discriminate|].
    rewrite upd_nth_neq in H by auto. destruct (Nat.eq_dec k i) as [->|Hi]; [rewrite upd_nth_eq in H by auto; discriminate|]. rewrite upd_nth_neq in H by auto. auto.
  - rewrite nth_error_app2 by (rewrite !upd_length; auto). rewrite !upd_length. destruct (k - length fs) as [|d] eqn:E; cbn [nth_error]; [|destruct d; discriminate]. intros H. inversion H. right. split; auto. lia.
Qed.
Lemma merge_value f g s x y : rwf t (f_rep f) -> rwf t (f_rep g) -> state_ok t s -> abs f s x -> abs g s y ->
  get_value (new_node (f_rep f) (f_rep g)) s = Ok (match x, y with Some i, Some j => Some (i * rep_dom (f_rep g) + j) | _, _ => None end).
Proof.
  intros Wf Wg Hs Hx Hy. destruct (new_node_ok t _ _ Wf Wg) as [_ H]. apply (H s x y Hx Hy).
  - destruct (get_value_ok t s Hs _ Wf) as (x' & E & Hk). unfold abs in Hx. rewrite Hx in E. inversion E; subst. auto.
  - destruct (get_value_ok t s Hs _ Wg) as (x' & E & Hk). unfold abs in Hy. rewrite Hy in E. inversion E; subst. auto.
Qed.

Lemma merge_sound lab F i j f g : Inv lab F -> get_factor F i = Ok f -> get_factor F j = Ok g -> ts_init (f_ts f) <> None -> ts_init (f_ts g) <> None ->
  exists T D, merge_factors P q0 ord ci cg F i j = Ok (set_factors F (upd (upd (F_factors F) i None) j None ++ [Some {| f_ts := T; f_rep := new_node (f_rep f) (f_rep g); f_dist := D |}])) /\
    is_product (active (F_labels F)) (the_lts (f_ts f)) (the_lts (f_ts g)) (the_lts T) /\
    Inv lab (set_factors F (upd (upd (F_factors F) i None) j None ++ [Some {| f_ts := T; f_rep := new_node (f_rep f) (f_rep g); f_dist := D |}])).
Proof.
  intros [I1 I2 I3 I4] Hf Hg Nf Ng. unfold merge_factors. rewrite Hf, Hg. cbn [bind]. apply get_factor_ok in Hf, Hg.
  pose proof (I4 i f Hf) as FIf. pose proof (I4 j g Hg) as FIg. rewrite I2.
  destruct (merge_ts_ok (F_labels F) (max_labels t) (f_ts f) (f_ts g) (fi_wf _ _ _ FIf) (fi_wf _ _ _ FIg) ord Hord) as (T & -> & WT & HPr). cbn [bind].
  pose proof HPr as (Hn & Hgo & Hin & Hst). cbn [the_lts l_n l_init] in Hn, Hin.
  assert (HD : exists D, (if ci || cg then compute_distances P q0 T ci cg no_distances else Ok no_distances) = Ok D /\ dist_ok (F_labels F) T ci cg D /\ no_goal_table T D).
  { destruct (ci || cg) eqn:E.
    - destruct (compute_distances_ok P bag q0 (F_labels F) (max_labels t) T ci cg no_distances HP Hq0 WT) as (D & ED & HD & _); [|exists D; splits; auto; now apply compute_no_table]. intros _ _ X. rewrite Hin in X. destruct (ts_init (f_ts f)); [|congruence]. destruct (ts_init (f_ts g)); [discriminate|congruence].
    - apply orb_false_iff in E as [Ei Eg]. exists no_distances. split; auto. split; [split; congruence|]. intros _. left. reflexivity. }
  destruct HD as (D & -> & HD & HT). cbn [bind]. exists T, D. splits; auto. constructor; auto. cbn [set_factors F_factors F_labels]. intros k h Hk. apply merged_nth in Hk as [(_ & _ & Hk)|[_ ->]]; [eauto|].
  pose proof (fi_rep _ _ _ FIf) as Wf. pose proof (fi_rep _ _ _ FIg) as Wg.
  assert (Habs : forall s, state_ok t s -> forall z, abs {| f_ts := T; f_rep := new_node (f_rep f) (f_rep g); f_dist := D |} s z -> exists x y, abs f s x /\ abs g s y /\ z = match x, y with Some a, Some b => Some (a * ts_n (f_ts g) + b) | _, _ => None end /\ (forall k, x = Some k -> k < ts_n (f_ts f)) /\ (forall k, y = Some k -> k < ts_n (f_ts g))).
  { intros s Hs z Hz. destruct (abs_total _ _ _ s FIf Hs) as (x & Hx & Bx), (abs_total _ _ _ s FIg Hs) as (y & Hy & By). exists x, y. splits; auto. unfold abs in Hz. cbn [f_rep] in Hz. rewrite (merge_value f g s x y Wf Wg Hs Hx Hy) in Hz. rewrite <- (fi_dom _ _ _ FIg). now inversion Hz. }
  constructor; cbn [f_ts f_rep f_dist]; auto.
  - now apply new_node_ok.
  - cbn [new_node rep_dom]. rewrite (fi_dom _ _ _ FIf), (fi_dom _ _ _ FIg). auto.
  - intros z Hz. destruct (Habs _ init_state z Hz) as (x & y & Hx & Hy & -> & _). rewrite Hin, (fi_init _ _ _ FIf x Hx), (fi_init _ _ _ FIg y Hy). reflexivity.
  - intros s o s' z z' Hs Ha Hp Hz Hz'. assert (Hs' : state_ok t s') by (eapply progress_state; eauto).
    destruct (Habs _ Hs _ Hz) as (x & y & Hx & Hy & E & Bx & By), (Habs _ Hs' _ Hz') as (x' & y' & Hx' & Hy' & E' & Bx' & By').
    destruct x as [a|]; [|discriminate]. destruct y as [b|]; [|discriminate]. destruct x' as [a'|]; [|discriminate]. destruct y' as [b'|]; [|discriminate]. inversion E; subst z. inversion E'; subst z'.
    pose proof Ha as (op & Hop & _). destruct (I1 o op Hop) as (c & Hc & _). apply (Hst (lab o) c); auto. exists a, b, a', b'. cbn [the_lts l_n]. splits; auto.
    + exact (fi_step _ _ _ FIf s o s' a a' Hs Ha Hp Hx Hx').
    + exact (fi_step _ _ _ FIg s o s' b b' Hs Ha Hp Hy Hy').
  - intros s z Hs Hgs Hz. destruct (Habs _ Hs _ Hz) as (x & y & Hx & Hy & E & Bx & By). destruct x as [a|]; [|discriminate]. destruct y as [b|]; [|discriminate]. inversion E; subst z.
    apply (Hgo a b); cbn [the_lts l_n]; auto. split; [exact (fi_goal _ _ _ FIf s a Hs Hgs Hx)|exact (fi_goal _ _ _ FIg s b Hs Hgs Hy)].
  - intros s Hs Hz. destruct (Habs _ Hs _ Hz) as (x & y & Hx & Hy & E & Bx & By). destruct x as [a|]; [|exact (fi_lost _ _ _ FIf s Hs Hx)]. destruct y as [b|]; [discriminate|]. exact (fi_lost _ _ _ FIg s Hs Hy).
Qed.

(** *** Shrinking and pruning *)
Lemma abstraction_sound lab F i f x0 cls : Inv lab F -> get_factor F i = Ok f -> ts_init (f_ts f) = Some x0 ->
  grouping (ts_n (f_ts f)) cls -> only_useless_ungrouped (active (F_labels F)) (the_lts (f_ts f)) cls ->
  (grouped cls x0 \/ forall c, In c cls -> length c = 1) ->
  exists F', apply_abstraction P q0 ci cg F i cls = Ok F' /\ Inv lab F' /\
    ((F' = F /\ length cls = ts_n (f_ts f)) \/ exists f', F' = set_factors F (upd (F_factors F) i (Some f')) /\ is_image (active (F_labels F)) (the_lts (f_ts f)) cls (the_lts (f_ts f')) /\
       (forall s, state_ok t s -> forall x k, abs f s (Some x) -> in_class cls k x -> abs f' s (Some k)) /\
       (forall s, state_ok t s -> forall x k, abs f' s (Some k) -> abs f s x -> exists z, x = Some z /\ in_class cls k z)).
Proof.
  intros HI Hf Hi HG HU Hk. pose proof HI as [I1 I2 I3 I4]. unfold apply_abstraction. rewrite Hf. cbn [bind]. apply get_factor_ok in Hf. pose proof (I4 i f Hf) as FIf.
  destruct (Nat.eqb_spec (length cls) (ts_n (f_ts f))) as [E|E]; [exists F; auto|].
  destruct (abstraction_mapping_ok _ _ HG) as (m & -> & Hml & Hm). cbn [bind].
  destruct (abstract_ts_ok (F_labels F) (max_labels t) (f_ts f) cls m x0 (fi_wf _ _ _ FIf) HG Hi Hml Hm) as (T & -> & WT & HIm). cbn [bind].
  assert (HD : exists D, (if ci || cg then abstract_distances P q0 T cls ci cg (f_dist f) else Ok (f_dist f)) = Ok D /\ dist_ok (F_labels F) T ci cg D /\ no_goal_table T D).
  { destruct (ci || cg) eqn:Ec.
    - assert (X : exists D, abstract_distances P q0 T cls ci cg (f_dist f) = Ok D /\ dist_ok (F_labels F) T ci cg D); [|destruct X as (D & X1 & X2); exists D; splits; auto; eapply abstract_no_table; eauto].
      apply (abstract_distances_ok P bag q0 (F_labels F) (max_labels t) (f_ts f) T cls ci cg (f_dist f) x0); auto; [exact (fi_wf _ _ _ FIf)| |exact (fi_dist _ _ _ FIf)].
      destruct Hk as [[k Hk]|Hk]; [left|right; auto]. destruct HIm as (_ & _ & Hini & _). assert (X : l_init (the_lts T) = Some k) by (now apply (Hini x0 k Hi)). cbn [the_lts l_init] in X. congruence.
    - apply orb_false_iff in Ec as [Ei Eg]. exists (f_dist f). split; auto. split; [split; congruence|]. intros _. destruct (fi_tab _ _ _ FIf Eg) as [X|(X & _)]; [left; auto|congruence]. }
  destruct HD as (D & -> & HD & HT). cbn [bind].
  destruct (abstract_rep_ok t (ts_n (f_ts f)) cls m (f_rep f) (fi_rep _ _ _ FIf) (fi_dom _ _ _ FIf) Hml HG Hm) as (r & -> & Wr & Hrd & Hrv). cbn [bind]. eexists. split; [reflexivity|].
  set (f' := {| f_ts := T; f_rep := r; f_dist := D |}). pose proof HIm as (Hn & Hgo & Hini & Hst). cbn [the_lts l_n] in Hn.
  assert (Hmn : forall x k, nth x m None = Some k -> in_class cls k x).
  { intros x k Hx. destruct (le_lt_dec (length m) x) as [Hge|Hlt]; [rewrite nth_overflow in Hx by auto; discriminate|]. apply Hm. rewrite <- Hx. now apply nth_error_nth'. }
  assert (Habs : forall s, state_ok t s -> forall z, abs f' s z -> exists x, abs f s x /\ z = match x with None => None | Some k => nth k m None end /\ forall k, x = Some k -> k < ts_n (f_ts f)).
  { intros s Hs z Hz. destruct (abs_total _ _ _ s FIf Hs) as (x & Hx & Bx). exists x. splits; auto. unfold abs in Hz. cbn [f_rep f'] in Hz. rewrite (Hrv s Hs x Hx) in Hz. now inversion Hz. }
  assert (Habs2 : forall s, state_ok t s -> forall x k, abs f s (Some x) -> in_class cls k x -> abs f' s (Some k)).
  { intros s Hs x k Hx Hc. unfold abs. cbn [f_rep f']. rewrite (Hrv s Hs (Some x) Hx). f_equal. apply nth_error_nth. now apply Hm. }
  assert (Habs3 : forall s, state_ok t s -> forall x k, abs f' s (Some k) -> abs f s x -> exists z, x = Some z /\ in_class cls k z).
  { intros s Hs x k Hz Hx. destruct (Habs s Hs _ Hz) as (x' & Hx' & Ez & _). unfold abs in Hx, Hx'. rewrite Hx in Hx'. inversion Hx'; subst x'. destruct x as [z|]; [|discriminate]. exists z. split; auto. }
  split; [|right; exists f'; splits; auto].
  constructor; auto. cbn [set_factors F_factors F_labels]. intros k h Hkh. destruct (Nat.eq_dec k i) as [->|Hne]; [|rewrite upd_nth_neq in Hkh by auto; eauto].
  rewrite upd_nth_eq in Hkh by (eapply nth_error_Some_lt; eauto). inversion Hkh; subst h. constructor; cbn [f' f_ts f_rep f_dist]; auto.
  - congruence.
  - intros z Hz. destruct (Habs _ init_state z Hz) as (x & Hx & -> & Bx). pose proof (fi_init _ _ _ FIf x Hx) as Ex. rewrite Hi in Ex. subst x. destruct (nth x0 m None) as [k|] eqn:Ek.
    + apply (Hini x0 k Hi). auto.
    + destruct (ts_init T) as [k|] eqn:ET; auto. exfalso. assert (X : in_class cls k x0) by (apply (Hini x0 k Hi); exact ET). apply Hm in X. rewrite (nth_error_nth m x0 None X) in Ek. discriminate.
  - intros s o s' z z' Hs Ha Hp Hz Hz'. assert (Hs' : state_ok t s') by (eapply progress_state; eauto). destruct (Habs _ Hs _ Hz) as (x & Hx & E1 & _), (Habs _ Hs' _ Hz') as (y & Hy & E2 & _).
    destruct x as [a|]; [|discriminate]. destruct y as [b|]; [|discriminate]. symmetry in E1, E2. apply Hmn in E1, E2. pose proof Ha as (op & Hop & _). destruct (I1 o op Hop) as (c & Hc & _).
    apply (Hst (lab o) c); auto. exists a, b. splits; auto. exact (fi_step _ _ _ FIf s o s' a b Hs Ha Hp Hx Hy).
  - intros s z Hs Hgs Hz. destruct (Habs _ Hs _ Hz) as (x & Hx & E1 & _). destruct x as [a|]; [|discriminate]. symmetry in E1. apply Hmn in E1. apply Hgo. exists a. split; auto. exact (fi_goal _ _ _ FIf s a Hs Hgs Hx).
  - intros s Hs Hz [Hr Hso]. destruct (Habs _ Hs _ Hz) as (x & Hx & E1 & Bx). destruct x as [a|]; [|apply (fi_lost _ _ _ FIf s Hs Hx); auto].
    destruct (useful_abs (F_labels F) lab f s a I1 FIf Hr Hso Hx) as [U1 U2]. destruct HU as (HU & _). destruct (HU a (Bx a eq_refl)) as [N|N]; auto.
    intros [k Hck]. apply Hm in Hck. rewrite (nth_error_nth m a None Hck) in E1. discriminate.
Qed.
Lemma all_grouped_useless L T cls : twf L (max_labels t) T -> (forall s, s < ts_n T -> grouped cls s) ->
  only_useless_ungrouped (active L) (the_lts T) cls.
Proof.
  intros W H. assert (Hr : forall a s s', l_step (the_lts T) a s s' -> s < ts_n T /\ s' < ts_n T) by (intros a s s' (k & i & _ & A & B); exact (g_trans _ _ _ _ (w_g _ _ _ W) k i s s' A B)).
  split; [|split].
  - intros s Hs N. destruct N. apply H. exact Hs.
  - intros a c s s' Ha Hst _ _. apply H. exact (proj2 (Hr _ _ _ Hst)).
  - intros a c s s' Ha Hst _ _. apply H. exact (proj1 (Hr _ _ _ Hst)).
Qed.
Lemma prune_sound lab F i f pu pi : Inv lab F -> get_factor F i = Ok f -> ts_init (f_ts f) <> None -> (pu = true -> ci = true) -> (pi = true -> cg = true) ->
  exists cls F', prune_step P q0 ci cg F i pu pi = Ok F' /\ grouping (ts_n (f_ts f)) cls /\ (forall c, In c cls -> length c = 1) /\ Inv lab F' /\
    (forall s, s < ts_n (f_ts f) -> (grouped cls s <-> (pu = true -> from_init (active (F_labels F)) (the_lts (f_ts f)) s) /\ (pi = true -> reaches_goal (active (F_labels F)) (the_lts (f_ts f)) s))) /\
    ((F' = F /\ length cls = ts_n (f_ts f)) \/ exists f', F' = set_factors F (upd (F_factors F) i (Some f')) /\ is_image (active (F_labels F)) (the_lts (f_ts f)) cls (the_lts (f_ts f')) /\
       (forall s, state_ok t s -> forall x k, abs f s (Some x) -> in_class cls k x -> abs f' s (Some k)) /\
       (forall s, state_ok t s -> forall x k, abs f' s (Some k) -> abs f s x -> exists z, x = Some z /\ in_class cls k z)).
Proof.
  intros HI Hf Hi Hpu Hpi. unfold prune_step. rewrite Hf. cbn [bind]. pose proof (in_fac _ _ HI i f (proj1 (get_factor_ok F i f) Hf)) as FIf.
  destruct (prune_useless (F_labels F) (max_labels t) (f_ts f) ci cg (f_dist f) pu pi (fi_wf _ _ _ FIf) (fi_dist _ _ _ FIf) Hpu Hpi) as (cls & -> & HG & H1 & HU & HK). cbn [bind].
  destruct (ts_init (f_ts f)) as [x0|] eqn:E; [|congruence]. destruct (abstraction_sound lab F i f x0 cls HI Hf E HG HU (or_intror H1)) as (F' & E' & HI' & Hx). exists cls, F'. splits; auto.
Qed.

(** *** Label reduction *)
Lemma reduce_all_ok L L' lab mp comb : label_groups L mp -> costs_at L mp L' -> valid_mapping (active L) (length L) (max_labels t) mp ->
  fold_outcome (fun L e => reduce_labels L (snd e)) mp L = Ok L' ->
  (forall o op, nth_error (t_ops t) o = Some op -> exists c, active L (lab o) c /\ c <= op_cost op) ->
  forall fs i0, (forall i f, nth_error fs i = Some (Some f) -> FI L lab f /\ (i0 + i <> comb -> forall en, In en mp -> one_local_group (f_ts f) (snd en))) ->
  exists fs', reduce_all L' mp comb i0 fs = Ok fs' /\ length fs' = length fs /\
    forall i f', nth_error fs' i = Some (Some f') -> exists f, nth_error fs i = Some (Some f) /\ f_rep f' = f_rep f /\ FI L' (fun o => relabel mp (lab o)) f' /\
      is_relabelling mp (active L) (the_lts (f_ts f)) (the_lts (f_ts f')).
Proof.
  intros HG HC V EL Hlab. induction fs as [|[f|] fs IH]; intros i0 H; cbn [reduce_all].
  - exists []. splits; auto. intros [|i] f' E; discriminate.
  - destruct (H 0 f eq_refl) as [FIf Hloc]. rewrite Nat.add_0_r in Hloc.
    destruct (reduce_ts_ok L (max_labels t) mp L' (f_ts f) (negb (i0 =? comb)) V (fi_wf _ _ _ FIf) EL HC) as (T & -> & WT & HR).
    { intros E en Hen. apply negb_true_iff, Nat.eqb_neq in E. exact (Hloc E en Hen). }
    cbn [bind]. destruct (IH (S i0)) as (fs' & -> & Hl & Hfs); [intros i f1 Hi; replace (S i0 + i) with (i0 + S i) by lia; now apply (H (S i))|]. cbn [bind]. eexists. split; [reflexivity|]. split; [cbn [length]; auto|].
    intros [|i] f' E; cbn [nth_error] in *; [|eauto]. inversion E; subst f'. exists f. splits; auto. pose proof HR as (Hn & Hgo & Hini & _). cbn [the_lts l_n l_init] in Hn, Hini.
    constructor; cbn [f_ts f_rep f_dist]; auto.
    + exact (fi_rep _ _ _ FIf).
    + rewrite Hn. exact (fi_dom _ _ _ FIf).
    + eapply relabel_dist; eauto. exact (fi_dist _ _ _ FIf).
    + intros E0. rewrite Hn. exact (fi_tab _ _ _ FIf E0).
    + intros x Hx. rewrite Hini. exact (fi_init _ _ _ FIf x Hx).
    + intros s o s' x y Hs Ha Hp Hx Hy. pose proof Ha as (op & Hop & _). destruct (Hlab o op Hop) as (c & Hc & _). eapply relabel_step; eauto. exact (fi_step _ _ _ FIf s o s' x y Hs Ha Hp Hx Hy).
    + intros s x Hs Hgs Hx. apply Hgo. exact (fi_goal _ _ _ FIf s x Hs Hgs Hx).
    + exact (fi_lost _ _ _ FIf).
  - destruct (IH (S i0)) as (fs' & -> & Hl & Hfs); [intros i f1 Hi; replace (S i0 + i) with (i0 + S i) by lia; now apply (H (S i))|]. cbn [bind]. eexists. split; [reflexivity|]. split; [cbn [length]; auto|].
    intros [|i] f' E; cbn [nth_error] in *; [discriminate|eauto].
Qed.
Lemma reduce_sound lab F mp comb : Inv lab F -> label_groups (F_labels F) mp ->
  (forall i f en, i <> comb -> get_factor F i = Ok f -> In en mp -> one_local_group (f_ts f) (snd en)) ->
  exists F', apply_label_mapping F mp comb = Ok F' /\ Inv (fun o => relabel mp (lab o)) F' /\ costs_at (F_labels F) mp (F_labels F') /\ length (F_factors F') = length (F_factors F) /\
    forall i f', nth_error (F_factors F') i = Some (Some f') -> exists f, nth_error (F_factors F) i = Some (Some f) /\ f_rep f' = f_rep f /\
      is_relabelling mp (active (F_labels F)) (the_lts (f_ts f)) (the_lts (f_ts f')).
Proof.
  intros [I1 I2 I3 I4] HG Hloc. unfold apply_label_mapping.
  assert (V : valid_mapping (active (F_labels F)) (length (F_labels F)) (max_labels t) mp).
  { unfold max_labels. destruct mp as [|e mp'].
    - unfold valid_mapping. split; [intros [|j] e H; discriminate|split; [apply NoDup_nil|split; [intros e []|split; [intros a (e & [] & _)|]]]]. cbn [length].
      destruct (acts (F_labels F)) as [|a r] eqn:Ea; [|cbn [length] in I3; lia].
      destruct (t_ops t) as [|op ops] eqn:Eo; [cbn [length] in *; lia|]. exfalso. destruct (I1 0 op) as (c & Hc & _); [reflexivity|]. assert (X : In (lab 0) (acts (F_labels F))) by (apply acts_In; eauto). rewrite Ea in X. destruct X.
    - apply groups_valid; auto. pose proof (groups_count _ _ HG) as Hc. pose proof HG as (_ & _ & C). pose proof (concat_length_2 (e :: mp') (fun e He => proj1 (C e He))) as H2. cbn [length] in H2. lia. }
  destruct (reduce_labels_all _ _ _ V) as (L' & EL & HC). rewrite EL. cbn [bind].
  destruct (reduce_all_ok (F_labels F) L' lab mp comb HG HC V EL I1 (F_factors F) 0) as (fs' & -> & Hl & Hfs).
  { intros i f Hi. split; [eauto|]. cbn [Nat.add]. intros Hne en Hen. apply (Hloc i f en); auto. now apply get_factor_ok. }
  cbn [bind]. eexists. split; [reflexivity|]. cbn [F_labels F_factors]. splits; auto.
  - constructor; cbn [F_labels F_max F_factors]; auto.
    + intros o op Ho. destruct (I1 o op Ho) as (c & Hc & Hle). exists c. split; auto. eapply relabel_cost; eauto.
    + eapply groups_after; eauto.
    + intros i f' Hi. destruct (Hfs i f' Hi) as (f & _ & _ & HF & _). auto.
  - intros i f' Hi. destruct (Hfs i f' Hi) as (f & A & B & _ & C). exists f. auto.
Qed.
End SOUND.

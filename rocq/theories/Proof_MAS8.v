(** Atomic transition systems. *)
From Verif Require Import Outcome Spec_Task Spec_Relaxation Spec_Projection Model_PQ Model_Graph Model_MAS Spec_FTS Proof_MAS1 Proof_MAS2 Proof_MAS3 Proof_MAS4 Proof_MAS6.
From Verif Require Import Model_Task Proof_Task Proof_RelaxHeur Proof_PDB3.

(** The transitions of an operator in the system of a variable. *)
Definition op_step (dom : nat) (op : operator) (v x y : nat) : Prop :=
  if relevant op v then In (x, y) (op_trans dom op v) else x = y /\ x < dom.

Lemma add_group_ok tr label cost : forall infos k0, exists infos' j,
  add_group infos k0 tr label cost = (infos', k0 + j) /\
  ((exists i, nth_error infos j = Some i /\ i_trans i = tr /\
      infos' = upd infos j {| i_labels := i_labels i ++ [label]; i_trans := i_trans i; i_cost := omin (i_cost i) (Some cost) |}) \/
   (j = length infos /\ infos' = infos ++ [{| i_labels := [label]; i_trans := tr; i_cost := Some cost |}])).
Proof.
  induction infos as [|i r IH]; intros k0; cbn [add_group].
  - eexists _, 0. rewrite Nat.add_0_r. split; [reflexivity|]. right. auto.
  - destruct (trans_list_eqb tr (i_trans i)) eqn:E.
    + eexists _, 0. rewrite Nat.add_0_r. split; [reflexivity|]. left. exists i. splits; auto. now apply trans_list_eqb_ok in E.
    + destruct (IH (S k0)) as (infos' & j & -> & H). exists (i :: infos'), (S j). split; [f_equal; lia|].
      destruct H as [(i' & A & B & ->)|[-> ->]]; [left; exists i'; auto|right; auto].
Qed.

Section ATOMIC.
Variable t : task.
Let L := initial_labels t.
Let maxl := max_labels t.
Variable v dom : nat.

Lemma label_active l c : active L l c <-> exists op, nth_error (t_ops t) l = Some op /\ c = op_cost op.
Proof.
  unfold active, L, initial_labels. split.
  - intros H. destruct (nth_error (t_ops t) l) as [op|] eqn:E.
    + rewrite (map_nth_error (fun op => Some (op_cost op)) l (t_ops t) E) in H. inversion H. eauto.
    + apply nth_error_None in E. assert (X : nth_error (map (fun op => Some (op_cost op)) (t_ops t)) l = None) by (apply nth_error_None; now rewrite map_length). rewrite X in H. discriminate.
  - intros (op & H & ->). exact (map_nth_error (fun op => Some (op_cost op)) l (t_ops t) H).
Qed.

Record BI (done : list operator) (l2l : list (option nat)) (infos : list info) : Prop := {
  b_len : length l2l = maxl;
  b_lab : forall l op, nth_error done l = Some op -> relevant op v = true -> exists k i, nth_error l2l l = Some (Some k) /\ nth_error infos k = Some i /\ In l (i_labels i) /\
            forall x y, In (x, y) (i_trans i) <-> In (x, y) (op_trans dom op v);
  b_grp : forall k i l, nth_error infos k = Some i -> In l (i_labels i) -> nth_error l2l l = Some (Some k) /\ exists op, nth_error done l = Some op /\ relevant op v = true;
  b_inf : forall k i, nth_error infos k = Some i -> is_active i = true /\ cost_ok L (i_labels i) (i_cost i) }.

Lemma build_ops_ok : forall ops done l2l infos, t_ops t = done ++ ops -> BI done l2l infos ->
  exists l2l' infos', build_ops dom v done ops l2l infos = Ok (l2l', infos') /\ BI (t_ops t) l2l' infos'.
Proof.
  induction ops as [|op ops IH]; intros done l2l infos Hsp HB; cbn [build_ops].
  - rewrite app_nil_r in Hsp. rewrite Hsp. eauto.
  - assert (Hsp' : t_ops t = (done ++ [op]) ++ ops) by (rewrite <- app_assoc; exact Hsp).
    assert (Hold : forall l o, nth_error (done ++ [op]) l = Some o -> (l < length done /\ nth_error done l = Some o) \/ (l = length done /\ o = op)).
    { intros l o H. destruct (Nat.ltb_spec l (length done)) as [Hlt|Hge]; [rewrite nth_error_app1 in H; auto|]. right. rewrite nth_error_app2 in H by auto. destruct (l - length done) as [|d] eqn:E; cbn [nth_error] in H; [|destruct d; discriminate]. inversion H. split; auto. lia. }
    assert (Hup : forall l o, nth_error done l = Some o -> nth_error (done ++ [op]) l = Some o) by (intros l o H; rewrite nth_error_app1; auto; eapply nth_error_Some_lt; eauto).
    destruct (relevant op v) eqn:Erel.
    + set (tr := if cond_seen (done ++ [op]) then sort_unique (op_trans dom op v) else op_trans dom op v).
      assert (Htr : forall x y, In (x, y) tr <-> In (x, y) (op_trans dom op v)) by (intros x y; unfold tr; destruct (cond_seen (done ++ [op])); [apply sort_unique_In|reflexivity]).
      destruct (add_group_ok tr (length done) (op_cost op) infos 0) as (infos' & k & -> & Hk). cbn [Nat.add].
      assert (Hlt : length done < maxl) by (unfold maxl, max_labels; rewrite Hsp, app_length; cbn [length]; lia).
      unfold vset. rewrite (b_len _ _ _ HB), (proj2 (Nat.ltb_lt _ _) Hlt). cbn [bind]. apply IH; auto.
      assert (Hget : forall l, nth_error (upd l2l (length done) (Some k)) l = if l =? length done then Some (Some k) else nth_error l2l l).
      { intros l. destruct (Nat.eqb_spec l (length done)) as [->|Hne]; [apply upd_nth_eq; now rewrite (b_len _ _ _ HB)|apply upd_nth_neq; auto]. }
      assert (Hact : active L (length done) (op_cost op)) by (apply label_active; exists op; split; auto; rewrite Hsp, nth_error_app2, Nat.sub_diag; auto).
      assert (Hfresh : forall k i, nth_error infos k = Some i -> ~ In (length done) (i_labels i)).
      { intros k' i' Hk' Hin. destruct (b_grp _ _ _ HB k' i' _ Hk' Hin) as (_ & o & Ho & _). apply nth_error_Some_lt in Ho. lia. }
      destruct Hk as [(i & Hi & Et & ->)|[-> ->]].
      * set (i1 := {| i_labels := _; i_trans := _; i_cost := _ |}). assert (Hki : k < length infos) by (eapply nth_error_Some_lt; eauto).
        assert (Hn : forall k', nth_error (upd infos k i1) k' = if k' =? k then Some i1 else nth_error infos k').
        { intros k'. destruct (Nat.eqb_spec k' k) as [->|Hne]; [now apply upd_nth_eq|apply upd_nth_neq; auto]. }
        constructor; [now rewrite upd_length, (b_len _ _ _ HB)| | |].
        -- intros l o Ho Hr. rewrite Hget. destruct (Hold l o Ho) as [[Hl Ho']|[-> ->]].
           ++ destruct (Nat.eqb_spec l (length done)); [lia|]. destruct (b_lab _ _ _ HB l o Ho' Hr) as (k' & i' & A & B & C & D). rewrite A. destruct (Nat.eq_dec k' k) as [->|Hne].
              ** exists k, i1. rewrite Hn, Nat.eqb_refl. assert (i' = i) by congruence. subst i'. splits; auto. cbn [i1 i_labels]. apply in_or_app; auto.
              ** exists k', i'. rewrite Hn, (proj2 (Nat.eqb_neq _ _) Hne). auto.
           ++ rewrite Nat.eqb_refl. exists k, i1. rewrite Hn, Nat.eqb_refl. splits; auto; [cbn [i1 i_labels]; apply in_or_app; right; now left|]. intros x y. cbn [i1 i_trans]. rewrite Et. apply Htr.
        -- intros k' i' l Hk' Hl. rewrite Hn in Hk'. rewrite Hget. destruct (Nat.eqb_spec k' k) as [->|Hne].
           ++ inversion Hk'; subst i'. cbn [i1 i_labels] in Hl. apply in_app_or in Hl as [Hl|[<-|[]]].
              ** destruct (b_grp _ _ _ HB k i l Hi Hl) as (A & o & B & C). apply nth_error_Some_lt in B as B'. destruct (Nat.eqb_spec l (length done)); [lia|]. split; auto. exists o. auto.
              ** rewrite Nat.eqb_refl. split; auto. exists op. split; auto. rewrite nth_error_app2, Nat.sub_diag; auto.
           ++ destruct (b_grp _ _ _ HB k' i' l Hk' Hl) as (A & o & B & C). apply nth_error_Some_lt in B as B'. destruct (Nat.eqb_spec l (length done)); [lia|]. split; auto. exists o. auto.
        -- intros k' i' Hk'. rewrite Hn in Hk'. destruct (Nat.eqb_spec k' k) as [->|Hne]; [|exact (b_inf _ _ _ HB k' i' Hk')]. inversion Hk'; subst i'. destruct (b_inf _ _ _ HB k i Hi) as [A B]. split.
           ++ apply active_In. exists (length done). cbn [i1 i_labels]. apply in_or_app. right. now left.
           ++ cbn [i1 i_labels i_cost]. now apply cost_ok_snoc.
      * set (i1 := {| i_labels := _; i_trans := _; i_cost := _ |}).
        assert (Hn : forall k' i', nth_error (infos ++ [i1]) k' = Some i' -> (k' < length infos /\ nth_error infos k' = Some i') \/ (k' = length infos /\ i' = i1)).
        { intros k' i' H. destruct (Nat.ltb_spec k' (length infos)) as [Hl|Hge]; [rewrite nth_error_app1 in H; auto|]. right. rewrite nth_error_app2 in H by auto. destruct (k' - length infos) as [|d] eqn:E; cbn [nth_error] in H; [|destruct d; discriminate]. inversion H. split; auto. lia. }
        constructor; [now rewrite upd_length, (b_len _ _ _ HB)| | |].
        -- intros l o Ho Hr. rewrite Hget. destruct (Hold l o Ho) as [[Hl Ho']|[-> ->]].
           ++ destruct (Nat.eqb_spec l (length done)); [lia|]. destruct (b_lab _ _ _ HB l o Ho' Hr) as (k' & i' & A & B & C & D). exists k', i'. splits; auto. rewrite nth_error_app1; auto. eapply nth_error_Some_lt; eauto.
           ++ rewrite Nat.eqb_refl. exists (length infos), i1. rewrite nth_error_app2, Nat.sub_diag by auto. splits; auto. now left.
        -- intros k' i' l Hk' Hl. rewrite Hget. destruct (Hn k' i' Hk') as [[_ Hk'']|[-> ->]].
           ++ destruct (b_grp _ _ _ HB k' i' l Hk'' Hl) as (A & o & B & C). apply nth_error_Some_lt in B as B'. destruct (Nat.eqb_spec l (length done)); [lia|]. split; auto. exists o. auto.
           ++ destruct Hl as [<-|[]]. rewrite Nat.eqb_refl. split; auto. exists op. split; auto. rewrite nth_error_app2, Nat.sub_diag; auto.
        -- intros k' i' Hk'. destruct (Hn k' i' Hk') as [[_ Hk'']|[-> ->]]; [exact (b_inf _ _ _ HB k' i' Hk'')|]. split; auto. cbn [i1 i_labels i_cost cost_ok]. split.
           ++ exists (length done). split; auto. now left.
           ++ intros l c [<-|[]] Hc. rewrite (active_fun _ _ _ _ Hact Hc). auto.
    + apply IH; auto. destruct HB as [B1 B2 B3 B4]. constructor; auto.
      * intros l o Ho Hr. destruct (Hold l o Ho) as [[_ Ho']|[-> ->]]; [eauto|congruence].
      * intros k i l Hk Hl. destruct (B3 k i l Hk Hl) as (A & o & B & C). split; auto. exists o. auto.
Qed.

Lemma irrelevant_In l : In l (irrelevant_labels (t_ops t) v) <-> exists op, nth_error (t_ops t) l = Some op /\ relevant op v = false.
Proof.
  unfold irrelevant_labels. rewrite filter_In, in_seq. split.
  - intros [_ H]. destruct (nth_error (t_ops t) l) as [op|]; [|discriminate]. exists op. split; auto. now apply negb_true_iff.
  - intros (op & H & E). rewrite H, E. split; auto. apply nth_error_Some_lt in H. lia.
Qed.

Hypothesis Htr : forall op x y, In op (t_ops t) -> In (x, y) (op_trans dom op v) -> x < dom /\ y < dom.
Variable xv : variable.
Hypothesis Hv : nth_error (t_vars t) v = Some xv.
Hypothesis Hdom : dom = vdom xv.
Variable x0 : nat.
Hypothesis Hx0 : nth_error (t_init t) v = Some x0.
Hypothesis Hx0d : x0 < dom.

Lemma atomic_ts_ok : exists T, atomic_ts t v = Ok T /\ twf L maxl T /\ ts_n T = dom /\ ts_init T = Some x0 /\
  (forall x, l_goal (the_lts T) x <-> x < dom /\ match goal_value t v with None => True | Some g => x = g end) /\
  forall o op x y, nth_error (t_ops t) o = Some op -> (l_step (the_lts T) o x y <-> op_step dom op v x y).
Proof.
  unfold atomic_ts. unfold vget at 1. rewrite Hv. cbn [bind]. unfold vget at 1. rewrite Hx0. cbn [bind]. rewrite <- Hdom.
  destruct (build_ops_ok (t_ops t) [] (repeat None (max_labels t)) [] eq_refl) as (l2l & infos & -> & [B1 B2 B3 B4]).
  { constructor; [apply repeat_length| | |].
    - intros [|l] op H; discriminate.
    - intros [|k] i l H; discriminate.
    - intros [|k] i H; discriminate. }
  cbn [bind]. pose proof irrelevant_In as Hirr. set (irr := irrelevant_labels (t_ops t) v) in *.
  assert (G : exists l2l' infos', match irr with
    | [] => Ok (l2l, infos)
    | _ => let* c := min_cost (initial_labels t) irr in let* l2l := set_local l2l irr (Some (length infos)) in
           Ok (l2l, infos ++ [{| i_labels := irr; i_trans := map (fun s => (s, s)) (seq 0 dom); i_cost := c |}]) end = Ok (l2l', infos') /\
    gwf L dom l2l' infos' /\ length l2l' = maxl /\ forall o op x y, nth_error (t_ops t) o = Some op -> (gstep l2l' infos' o x y <-> op_step dom op v x y)).
  { assert (Hmid : forall l2l', (forall l op, nth_error (t_ops t) l = Some op -> relevant op v = true -> nth_error l2l' l = nth_error l2l l) -> forall tail o op x y, nth_error (t_ops t) o = Some op -> relevant op v = true ->
        (gstep l2l' (infos ++ tail) o x y <-> In (x, y) (op_trans dom op v))).
    { intros l2l' Hsame tail o op x y Ho Hr. destruct (B2 o op Ho Hr) as (k & i & A & B & C & D). unfold gstep. rewrite (Hsame o op Ho Hr), <- D. split.
      - intros (k' & i' & A' & B' & C'). rewrite A in A'. inversion A'; subst k'. rewrite nth_error_app1 in B' by (eapply nth_error_Some_lt; eauto). congruence.
      - intros Hin. exists k, i. splits; auto. rewrite nth_error_app1; auto. eapply nth_error_Some_lt; eauto. }
    assert (Htrans : forall k i s u, nth_error infos k = Some i -> In (s, u) (i_trans i) -> s < dom /\ u < dom).
    { intros k i s u Hk Hin. destruct (B4 k i Hk) as [Ha _]. apply active_In in Ha as [l Hl]. destruct (B3 k i l Hk Hl) as (E & op & Ho & Hr). destruct (B2 l op Ho Hr) as (k' & i' & A & B & C & D).
      assert (k' = k) by congruence. subst k'. assert (i' = i) by congruence. subst i'. apply D in Hin. apply (Htr op); auto. eapply nth_error_In; eauto. }
    destruct irr as [|a r] eqn:Eirr.
    - exists l2l, infos. assert (Hall : forall l op, nth_error (t_ops t) l = Some op -> relevant op v = true).
      { intros l op H. destruct (relevant op v) eqn:E; auto. exfalso. apply (proj2 (Hirr l)). eauto. }
      splits; auto.
      + constructor; auto.
        * intros l c Hc. apply label_active in Hc as (op & Ho & _). destruct (B2 l op Ho (Hall l op Ho)) as (k & i & A & B & C & _). eauto.
        * intros k i l Hk Hl. destruct (B3 k i l Hk Hl) as (A & op & B & _). split; auto. exists (op_cost op). apply label_active. eauto.
        * intros k i Hk _. apply (B4 k i Hk).
      + intros o op x y Ho. unfold op_step. rewrite (Hall o op Ho). rewrite <- (app_nil_r infos). apply Hmid; auto. eauto.
    - rewrite <- Eirr in *. destruct (min_cost_ok L irr) as (c & Ec & Hc); [intros l Hl; apply Hirr in Hl as (op & Ho & _); exists (op_cost op); apply label_active; eauto|].
      destruct (set_local_ok (Some (length infos)) irr l2l) as (l2l' & El & Hll & Hget).
      { intros l Hl. rewrite B1. apply Hirr in Hl as (op & Ho & _). apply nth_error_Some_lt in Ho. unfold maxl, max_labels. lia. }
      unfold L in Ec. rewrite Eirr in Ec, El |- *. rewrite Ec. cbn [bind]. rewrite El. cbn [bind]. rewrite <- Eirr in *. set (i1 := {| i_labels := irr; i_trans := _; i_cost := c |}).
      exists l2l', (infos ++ [i1]). split; auto.
      assert (Hn : forall k' i', nth_error (infos ++ [i1]) k' = Some i' -> (k' < length infos /\ nth_error infos k' = Some i') \/ (k' = length infos /\ i' = i1)).
      { intros k' i' H. destruct (Nat.ltb_spec k' (length infos)) as [Hl|Hge]; [rewrite nth_error_app1 in H; auto|]. right. rewrite nth_error_app2 in H by auto. destruct (k' - length infos) as [|d] eqn:E; cbn [nth_error] in H; [|destruct d; discriminate]. inversion H. split; auto. lia. }
      assert (Hsame : forall l op, nth_error (t_ops t) l = Some op -> relevant op v = true -> nth_error l2l' l = nth_error l2l l).
      { intros l op Ho Hr. rewrite Hget. destruct (member l irr) eqn:Em; auto. apply member_In, Hirr in Em as (op' & Ho' & Hr'). congruence. }
      assert (Hlast : nth_error (infos ++ [i1]) (length infos) = Some i1) by (rewrite nth_error_app2, Nat.sub_diag; auto).
      assert (Hirrk : forall l, In l irr -> nth_error l2l' l = Some (Some (length infos))) by (intros l Hl; rewrite Hget, (proj2 (member_In _ _) Hl); auto).
      splits.
      + constructor.
        * intros l c' Hc'. apply label_active in Hc' as (op & Ho & _). destruct (relevant op v) eqn:Er.
          -- destruct (B2 l op Ho Er) as (k & i & A & B & C & _). exists k, i. rewrite (Hsame l op Ho Er). splits; auto. rewrite nth_error_app1; auto. eapply nth_error_Some_lt; eauto.
          -- assert (Hin : In l irr) by (apply Hirr; eauto). exists (length infos), i1. splits; auto.
        * intros k i l Hk Hl. destruct (Hn k i Hk) as [[_ Hk']|[-> ->]].
          -- destruct (B3 k i l Hk' Hl) as (A & op & B & C). rewrite (Hsame l op B C). split; auto. exists (op_cost op). apply label_active. eauto.
          -- cbn [i1 i_labels] in Hl. split; auto. apply Hirr in Hl as (op & Ho & _). exists (op_cost op). apply label_active. eauto.
        * intros k i Hk _. destruct (Hn k i Hk) as [[_ Hk']|[-> ->]]; [apply (B4 k i Hk')|exact Hc].
        * intros k i s u Hk Hin. destruct (Hn k i Hk) as [[_ Hk']|[-> ->]]; [eauto|]. cbn [i1 i_trans] in Hin. apply in_map_iff in Hin as (s' & E & Hs). inversion E; subst. apply in_seq in Hs. lia.
      + congruence.
      + intros o op x y Ho. unfold op_step. destruct (relevant op v) eqn:Er; [apply Hmid; auto|]. assert (Hin : In o irr) by (apply Hirr; eauto). unfold gstep. rewrite (Hirrk o Hin). split.
        * intros (k & i & A & B & C). inversion A; subst k. rewrite Hlast in B. inversion B; subst i. cbn [i1 i_trans] in C. apply in_map_iff in C as (s' & E & Hs). inversion E; subst. apply in_seq in Hs. split; auto. lia.
        * intros [-> Hlt]. exists (length infos), i1. splits; auto. cbn [i1 i_trans]. apply in_map_iff. exists y. split; auto. apply in_seq. lia. }
  destruct G as (l2l' & infos' & -> & W & Hl & Hs). cbn [bind]. eexists. split; [reflexivity|]. cbn [ts_n ts_init]. splits; auto.
  - constructor; cbn [ts_l2l ts_infos ts_n ts_goals ts_init]; auto; [now rewrite map_length, seq_length|]. intros s E. inversion E; subst; auto.
  - intros x. cbn [the_lts l_goal ts_goals]. split.
    + intros H. assert (Hx : x < dom) by (apply nth_error_Some_lt in H; now rewrite map_length, seq_length in H). split; auto.
      assert (Hsx : nth_error (seq 0 dom) x = Some x) by (rewrite (nth_error_nth' (seq 0 dom) 0) by (now rewrite seq_length); now rewrite seq_nth).
      rewrite (map_nth_error (fun d => match goal_value t v with None => true | Some g => d =? g end) x (seq 0 dom) Hsx) in H. inversion H as [E]. destruct (goal_value t v) as [g|]; auto. now apply Nat.eqb_eq.
    + intros [Hx Hg]. assert (Hsx : nth_error (seq 0 dom) x = Some x) by (rewrite (nth_error_nth' (seq 0 dom) 0) by (now rewrite seq_length); now rewrite seq_nth).
      rewrite (map_nth_error (fun d => match goal_value t v with None => true | Some g => d =? g end) x (seq 0 dom) Hsx). f_equal. destruct (goal_value t v) as [g|]; auto. now apply Nat.eqb_eq.
Qed.
End ATOMIC.

(** Stubborn sets with active operators. *)
From Coq Require Import Sorted.
From Verif Require Import Outcome Spec_Task Spec_Relaxation Spec_Projection Spec_HM Spec_Stubborn Model_Task Model_MAS Proof_Task Proof_MAS1 Proof_HM1 Proof_PDB3 Proof_Stubborn1 Model_Stubborn Proof_Stubborn2 Proof_Stubborn3 Model_StubbornEC.

(** Reachability in one domain transition graph *)
Section R.
Variable t : task.
Variable v : nat.
Hypothesis Harc : forall d x, In x (dtg t v d) -> x < dom_size t v.

Lemma recurse_ok : forall fuel cur R, length R = dom_size t v -> cur < dom_size t v -> length R <= fuel + cnt R ->
  exists R', recurse_forwards t v fuel cur R = Ok R' /\ length R' = dom_size t v /\ cnt R <= cnt R' /\ (forall x, tr R x -> tr R' x) /\ tr R' cur /\
    forall x, tr R' x -> tr R x \/ forall y, In y (dtg t v x) -> tr R' y.
Proof.
  induction fuel as [|fuel IH]; intros cur R HL Hcur Hf; rewrite <- HL in Hcur; cbn [recurse_forwards]; destruct (vget_some R cur Hcur) as (b & Hb & ->); cbn [bind]; destruct b.
  1, 3: exists R; splits; auto.
  - exfalso. pose proof (cnt_upd R cur Hb). pose proof (cnt_le (upd R cur true)). rewrite upd_length in H0. lia.
  - unfold vset. destruct (Nat.ltb_spec cur (length R)); [|lia]. cbn [bind]. pose proof (cnt_upd R cur Hb) as Hc.
    assert (G : forall l R1, (forall x, In x l -> x < dom_size t v) -> length R1 = dom_size t v -> length R1 <= fuel + cnt R1 ->
      exists R', fold_outcome (fun r x => recurse_forwards t v fuel x r) l R1 = Ok R' /\ length R' = dom_size t v /\ cnt R1 <= cnt R' /\ (forall x, tr R1 x -> tr R' x) /\ (forall x, In x l -> tr R' x) /\
        forall x, tr R' x -> tr R1 x \/ forall y, In y (dtg t v x) -> tr R' y).
    { induction l as [|x l IHl]; intros R1 Hl HL1 Hf1; cbn [fold_outcome].
      - exists R1. splits; auto. intros ? [].
      - destruct (IH x R1 HL1) as (R2 & E2 & L2 & N2 & M2 & C2 & K2); [apply Hl; now left|lia|]. rewrite E2. cbn [bind]. destruct (IHl R2) as (R3 & E3 & L3 & N3 & M3 & C3 & K3); [intros y Hy; apply Hl; now right|auto|lia|].
        exists R3. splits; auto; try lia.
        + intros y [<-|Hy]; auto.
        + intros y Hy. apply K3 in Hy as [Hy|Hy]; auto. apply K2 in Hy as [Hy|Hy]; auto. }
    destruct (G (dtg t v cur) (upd R cur true)) as (R' & E & L & N & M & C & K); [apply Harc|now rewrite upd_length|rewrite upd_length; lia|].
    exists R'. splits; auto; try lia.
    + intros x Hx. apply M, tr_upd; auto.
    + apply M, tr_upd; auto.
    + intros x Hx. apply K in Hx as [Hx|Hx]; auto. apply tr_upd in Hx as [Hx| ->]; auto.
Qed.
Lemma reach_ok d : d < dom_size t v -> exists R, reachability_map t v d = Ok R /\ length R = dom_size t v /\ tr R d /\ forall x y, tr R x -> In y (dtg t v x) -> tr R y.
Proof.
  intros Hd. unfold reachability_map. destruct (recurse_ok (dom_size t v) d (repeat false (dom_size t v))) as (R & E & L & _ & _ & C & K).
  - apply repeat_length.
  - auto.
  - rewrite repeat_length. lia.
  - exists R. splits; auto. intros x y Hx Hy. apply K in Hx as [Hx|Hx]; auto. now apply tr_rep in Hx.
Qed.
End R.

Section S.
Variable t : task.
Hypothesis Ht : stub_task t.

Lemma pre_on_var_some o op v d : nth_error (t_ops t) o = Some op -> pre_on_var t o v = Some d -> In (v, d) (op_pre op).
Proof.
  intros Ho. unfold pre_on_var. rewrite Ho. assert (G : forall l acc, fold_left (fun acc (f : fact) => if fst f =? v then Some (snd f) else acc) l acc = Some d -> acc = Some d \/ In (v, d) l).
  { induction l as [|[w x] l IH]; intros acc; cbn [fold_left]; auto. cbn [fst snd]. intros H. apply IH in H as [H|H]; [|right; now right]. destruct (Nat.eqb_spec w v) as [->|]; auto. inversion H; subst. right. now left. }
  intros H. apply G in H as [H|H]; [discriminate|auto].
Qed.
Lemma dtg_lt v d x : In x (dtg t v d) -> x < dom_size t v.
Proof.
  unfold dtg. intros H. apply in_flat_map in H as (o & _ & H). destruct (nth_error (t_ops t) o) as [op|] eqn:Ho; [|destruct H]. apply in_flat_map in H as (e & He & H). destruct (Nat.eqb_spec (fst (eff_fact e)) v) as [Ev|]; [|destruct H].
  assert (x = snd (eff_fact e)) by (destruct (pre_on_var t o v) as [p|]; [destruct (p =? d)|]; cbn [In] in H; intuition). subst x v.
  apply (vf_eff t Ht o (eff_fact e)). apply (proj2 (s_eff_spec t Ht o op Ho)). unfold op_facts. now apply in_map.
Qed.
(** Applying an operator follows an arc. *)
Lemma dtg_arc o op s v d x : nth_error (t_ops t) o = Some op -> all_hold s (op_pre op) -> nth_error s v = Some d -> In (v, x) (op_facts op) -> In x (dtg t v d).
Proof.
  intros Ho Ha Hd Hx. unfold dtg. apply in_flat_map. exists o. split; [apply in_seq; unfold num_operators; apply nth_error_Some_lt in Ho; lia|]. rewrite Ho. unfold op_facts in Hx. apply in_map_iff in Hx as (e & Ee & He). apply in_flat_map. exists e. split; auto. rewrite Ee. cbn [fst snd]. rewrite Nat.eqb_refl.
  destruct (pre_on_var t o v) as [p|] eqn:Ep; [|now left]. apply (pre_on_var_some o op) in Ep; auto. specialize (Ha _ Ep). unfold holds in Ha. cbn [fst snd] in Ha. rewrite Hd in Ha. inversion Ha; subst. rewrite Nat.eqb_refl. now left.
Qed.

Definition reachable_in (s : state) (v x : nat) : Prop := exists d R, nth_error s v = Some d /\ reachability_map t v d = Ok R /\ tr R x.
Lemma st_val s v : state_ok t s -> v < length (t_vars t) -> exists d, nth_error s v = Some d /\ d < dom_size t v.
Proof.
  intros Hs Hv. pose proof (st_len t s Hs) as L. destruct (nth_error s v) as [d|] eqn:E; [|apply nth_error_None in E; lia]. exists d. split; auto. unfold dom_size. destruct (nth_error (t_vars t) v) as [x|] eqn:Ex; [|apply nth_error_None in Ex; lia]. unfold state_ok in Hs. exact (Forall2_nth _ _ _ v d x Hs E Ex).
Qed.
(** Every value a variable takes along a path is reachable in its graph. *)
Lemma values_reachable : forall os s1 s2 s, state_ok t s -> state_ok t s1 -> (forall v x, nth_error s1 v = Some x -> reachable_in s v x) -> task_path t s1 os s2 ->
  forall o, In o os -> exists op s', nth_error (t_ops t) o = Some op /\ all_hold s' (op_pre op) /\ forall v x, nth_error s' v = Some x -> reachable_in s v x.
Proof.
  induction os as [|o os IH]; intros s1 s2 s Hs Hs1 Hr Hp o' Ho'; [destruct Ho'|]. inversion Hp as [|? ? sa ? ? (op & Ho & Ha) Hpr Hrest]; subst. destruct Ho' as [<-|Ho']; [exists op, s1; auto|].
  pose proof (proj1 (st_writes t Ht s1 o op sa Hs1 Ho) Hpr) as Hw. apply (IH sa s2 s); auto.
  - eapply st_writes_ok; [exact Ht|exact Hs1|eapply nth_error_In; exact Ho|exact Hw].
  - intros v x Hx. destruct Hw as (Lw & W1 & W2). destruct (in_dec Nat.eq_dec v (map fst (op_facts op))) as [Hi|Hi].
    + apply in_map_iff in Hi as ([w y] & Ew & Hf). cbn [fst] in Ew. subst w. pose proof (W1 _ Hf) as Hv. cbn [fst snd] in Hv. rewrite Hx in Hv. inversion Hv; subst y.
      destruct (st_val s1 v Hs1) as (d1 & Hd1 & _); [rewrite <- (st_len t s1 Hs1), <- Lw; eapply nth_error_Some_lt; eauto|]. destruct (Hr v d1 Hd1) as (d & R & A & B & C). exists d, R. splits; auto.
      destruct (st_val s v Hs) as (d' & Hd' & Hlt); [rewrite <- (st_len t s Hs); eapply nth_error_Some_lt; eauto|]. assert (d' = d) by congruence. subst d'.
      destruct (reach_ok t v (dtg_lt v) d Hlt) as (R' & B' & _ & _ & K). assert (R' = R) by congruence. subst R'. apply (K d1 x C). eapply dtg_arc; eauto.
    + rewrite W2 in Hx by auto. auto.
Qed.

Lemma active_ok s : state_ok t s -> forall pres, (forall f, In f pres -> vf t f) -> exists b, all_active t s pres = Ok b /\ (b = true <-> forall f, In f pres -> reachable_in s (fst f) (snd f)).
Proof.
  intros Hs. induction pres as [|p pres IH]; intros Hv; cbn [all_active].
  - exists true. split; auto. split; auto. intros _ f [].
  - pose proof (Hv p (or_introl eq_refl)) as Hp. destruct (st_val s (fst p) Hs (vf_var t p Hp)) as (d & Hd & Hlt). rewrite (proj2 (vget_ok _ _ _) Hd). cbn [bind]. destruct (reach_ok t (fst p) (dtg_lt (fst p)) d Hlt) as (R & E & L & _). rewrite E. cbn [bind].
    destruct (vget_some R (snd p)) as (b & Hb & ->); [rewrite L; exact Hp|]. cbn [bind]. destruct b.
    + destruct (IH (fun f H => Hv f (or_intror H))) as (b & -> & Hb2). exists b. split; auto. rewrite Hb2. split; intros H; [intros f [<-|Hf]; auto; exists d, R; auto|intros f Hf; apply H; now right].
    + exists false. split; auto. split; [discriminate|]. intros H. destruct (H p (or_introl eq_refl)) as (d' & R' & A & B & C). unfold tr in C. assert (d' = d) by congruence. subst d'. congruence.
Qed.
Lemma active_operators_ok s : state_ok t s -> exists act, active_operators t s = Ok act /\ length act = num_operators t /\ forall o, o < num_operators t -> (tr act o <-> forall f, In f (s_pre t o) -> reachable_in s (fst f) (snd f)).
Proof.
  intros Hs. unfold active_operators.
  assert (G : forall n acc, (forall o, o < length acc -> (tr acc o <-> forall f, In f (s_pre t o) -> reachable_in s (fst f) (snd f))) ->
    exists act, fold_outcome (fun acc o => let* b := all_active t s (s_pre t o) in Ok (acc ++ [b])) (seq (length acc) n) acc = Ok act /\ length act = length acc + n /\ forall o, o < length act -> (tr act o <-> forall f, In f (s_pre t o) -> reachable_in s (fst f) (snd f))).
  { induction n as [|n IH]; intros acc Ha; cbn [seq fold_outcome]; [exists acc; splits; auto|]. destruct (active_ok s Hs (s_pre t (length acc)) (vf_pre t Ht _)) as (b & -> & Hb). cbn [bind].
    specialize (IH (acc ++ [b])). rewrite app_length in IH. cbn [length] in IH. replace (length acc + 1) with (S (length acc)) in IH by lia. destruct IH as (act & E & L & K).
    - intros o Ho. destruct (Nat.eq_dec o (length acc)) as [->|].
      + unfold tr. rewrite nth_error_app2, Nat.sub_diag by lia. cbn [nth_error]. rewrite <- Hb. split; congruence.
      + unfold tr. rewrite nth_error_app1 by lia. apply Ha. lia.
    - exists act. splits; auto. lia. }
  destruct (G (num_operators t) []) as (act & E & L & K); [intros o Ho; cbn in Ho; lia|]. exists act. cbn [length] in *. splits; auto. intros o Ho. apply K. lia.
Qed.
Lemma active_envelope s act : state_ok t s -> active_operators t s = Ok act -> envelope t s (tr act).
Proof.
  intros Hs Ea os s' o Hp Hin. destruct (active_operators_ok s Hs) as (act' & E & L & K). assert (act' = act) by congruence. subst act'.
  destruct (values_reachable os s s' s Hs Hs) with (o := o) as (op & s1 & Ho & Ha & Hr); auto.
  - intros v x Hx. destruct (st_val s v Hs) as (d & Hd & Hlt); [rewrite <- (st_len t s Hs); eapply nth_error_Some_lt; eauto|]. assert (d = x) by congruence. subst d. destruct (reach_ok t v (dtg_lt v) x Hlt) as (R & A & _ & B & _). exists x, R. auto.
  - apply K; [apply nth_error_Some_lt in Ho; exact Ho|]. intros f Hf. apply Hr. apply (Ha f). now apply (proj2 (s_pre_spec t Ht o op Ho)).
Qed.

(** Conflicting variables *)
Lemma cv_cons f r1 g r2 : conflicting_vars (f :: r1) (g :: r2) =
  if fst f <? fst g then conflicting_vars r1 (g :: r2)
  else if fst g <? fst f then conflicting_vars (f :: r1) r2
  else (if negb (snd g =? snd f) then [fst g] else []) ++ conflicting_vars r1 r2.
Proof. reflexivity. Qed.
Lemma cv_nil_r F : conflicting_vars F [] = [].
Proof. destruct F; reflexivity. Qed.
Lemma cv_empty : forall F G, conflicting_vars F G = [] -> contain_conflicting_fact F G = false.
Proof.
  induction F as [|f F IHF]; [intros [|g G]; reflexivity|]. induction G as [|g G IHG]; [reflexivity|]. rewrite ccf_cons, cv_cons. destruct (fst f <? fst g); auto. destruct (fst g <? fst f); auto.
  rewrite (Nat.eqb_sym (snd g)). destruct (snd f =? snd g); cbn [negb app]; auto. discriminate.
Qed.

(** The main loop *)
Variable s : state.
Hypothesis Hs : state_ok t s.
Variable act : list bool.
Hypothesis Hact : length act = num_operators t.

Definition eok (e : ec_state) : Prop := length (e_stub e) = num_operators t /\ forall f, In f (e_nes e) -> forall o, In o (achievers t f) -> tr act o -> tr (e_stub e) o.
Definition eext (e e' : ec_state) : Prop :=
  (forall o, tr (e_stub e) o -> tr (e_stub e') o) /\ incl (e_nes e) (e_nes e') /\ incl (e_queue e) (e_queue e') /\
  (forall o, tr (e_stub e') o -> tr (e_stub e) o \/ In o (e_queue e')) /\ cnt (e_stub e') + length (e_queue e) = cnt (e_stub e) + length (e_queue e').
Lemma eext_refl e : eext e e.
Proof. unfold eext. splits; auto using incl_refl. Qed.
Lemma eext_trans a b c : eext a b -> eext b c -> eext a c.
Proof.
  intros (A1 & A2 & A3 & A4 & A5) (B1 & B2 & B3 & B4 & B5). unfold eext. split; [auto|]. split; [eapply incl_tran; eauto|]. split; [eapply incl_tran; eauto|]. split; [|lia].
  intros o Ho. apply B4 in Ho as [Ho|Ho]; auto. apply A4 in Ho as [Ho|Ho]; auto.
Qed.
Lemma ec_enq_ok e o : eok e -> o < num_operators t -> exists e', ec_enqueue t s e o = Ok e' /\ eok e' /\ eext e e' /\ tr (e_stub e') o.
Proof.
  intros (L & N) Ho. unfold ec_enqueue. destruct (vget_some (e_stub e) o) as (b & Hb & ->); [lia|]. cbn [bind]. destruct b.
  - exists e. splits; auto; [split; auto|apply eext_refl].
  - destruct (enq_ok (e_stub e) (e_queue e) o) as (st & q & E & L' & A & B & C & D & F); [lia|]. rewrite E. cbn [bind fst snd]. eexists. split; [reflexivity|]. split; [|split].
    + split; cbn [e_stub e_nes]; [congruence|]. intros f Hf x Hx Hax. apply A. left. eauto.
    + unfold eext. cbn [e_stub e_nes e_queue]. splits; auto using incl_refl. intros x Hx. apply A. auto.
    + cbn [e_stub]. apply A. auto.
Qed.
Lemma ec_enq_act_ok : forall os e, eok e -> Forall (fun o => o < num_operators t) os -> exists e', fold_outcome (ec_enqueue_active t act s) os e = Ok e' /\ eok e' /\ eext e e' /\ forall o, In o os -> tr act o -> tr (e_stub e') o.
Proof.
  induction os as [|o os IH]; intros e He Hos; cbn [fold_outcome].
  - exists e. splits; auto; [apply eext_refl|]. intros ? [].
  - inversion Hos; subst. assert (G : exists e1, ec_enqueue_active t act s e o = Ok e1 /\ eok e1 /\ eext e e1 /\ (tr act o -> tr (e_stub e1) o)).
    { unfold ec_enqueue_active. destruct (vget_some act o) as (b & Hb & ->); [lia|]. cbn [bind]. destruct b.
      - destruct (ec_enq_ok e o He H1) as (e1 & A & B & C & D). exists e1. auto.
      - exists e. splits; auto; [apply eext_refl|]. unfold tr. congruence. }
    destruct G as (e1 & -> & A & B & C). cbn [bind]. destruct (IH e1 A H2) as (e2 & E2 & A2 & B2 & C2). exists e2. splits; auto; [eapply eext_trans; eauto|]. intros x [<-|Hx] Hax; auto. apply (proj1 B2). auto.
Qed.
Lemma add_nes_ok f e : eok e -> exists e', add_nes t act s f e = Ok e' /\ eok e' /\ eext e e' /\ In f (e_nes e').
Proof.
  intros He. unfold add_nes. destruct (ec_enq_act_ok (achievers t f) e He (achievers_lt t f)) as (e1 & -> & (L & N) & (A1 & A2 & A3 & A4 & A5) & C). cbn [bind]. eexists. split; [reflexivity|]. split; [|split].
  - split; cbn [e_stub e_nes]; auto. intros g [<-|Hg]; auto. apply N. exact Hg.
  - unfold eext. cbn [e_stub e_nes e_queue]. splits; auto. intros x Hx. right. auto.
  - now left.
Qed.
Lemma add_nes_once_ok f e : eok e -> exists e', add_nes_once t act s f e = Ok e' /\ eok e' /\ eext e e' /\ In f (e_nes e').
Proof.
  intros He. unfold add_nes_once. destruct (memf f (e_nes e)) eqn:E; [|now apply add_nes_ok]. exists e. splits; auto; [apply eext_refl|]. now apply memf_spec.
Qed.
Definition nes_for (e : ec_state) (o : nat) : Prop := exists f, In f (s_pre t o) /\ ~ holds s f /\ In f (e_nes e).
Lemma s5_ok o e : eok e -> ~ all_hold s (s_pre t o) -> exists e', apply_s5 t act s o e = Ok e' /\ eok e' /\ eext e e' /\ nes_for e' o.
Proof.
  intros He Hn. unfold apply_s5. destruct (find _ (s_pre t o)) as [f|] eqn:E.
  - destruct (add_nes_once_ok f e He) as (e' & A & B & C & D). exists e'. splits; auto. exists f. apply find_some in E as [F G]. apply andb_true_iff in G as [G _]. apply negb_true_iff in G. splits; auto. rewrite <- holdsb_spec. congruence.
  - destruct (unsat_ex (s_pre t o) s Hn) as (f & -> & F & G). destruct (add_nes_once_ok f e He) as (e' & A & B & C & D). exists e'. splits; auto. exists f. auto.
Qed.
Definition eclosed (e : ec_state) (o : nat) : Prop :=
  match find_unsatisfied (s_pre t o) s with
  | None => (forall x, In x (conflicting_and_disabling t o) -> tr act x -> tr (e_stub e) x) /\ (forall x, In x (disabled t o) -> tr act x -> tr (e_stub e) x \/ nes_for e x)
  | Some _ => nes_for e o
  end.
Lemma nes_mono e e' o : eext e e' -> nes_for e o -> nes_for e' o.
Proof. intros (_ & A & _) (f & B & C & D). exists f. auto. Qed.
Lemma eclosed_mono e e' o : eext e e' -> eclosed e o -> eclosed e' o.
Proof.
  intros H. unfold eclosed. destruct (find_unsatisfied (s_pre t o) s); [now apply nes_mono|]. intros [A B]. split.
  - intros x Hx Hax. apply (proj1 H). auto.
  - intros x Hx Hax. destruct (B x Hx Hax); [left; now apply (proj1 H)|right; eapply nes_mono; eauto].
Qed.
Lemma existsb_app_var o2 op2 vs : nth_error (t_ops t) o2 = Some op2 -> vs <> [] -> existsb (fun v => is_v_applicable t v o2 s) vs = false -> ~ all_hold s (s_pre t o2).
Proof.
  intros Ho Hn He Ha. destruct vs as [|v vs]; [congruence|]. cbn [existsb] in He. apply orb_false_iff in He as [He _]. unfold is_v_applicable in He. destruct (pre_on_var t o2 v) as [d|] eqn:Ep; [|discriminate]. apply (pre_on_var_some o2 op2) in Ep; auto.
  apply (proj2 (s_pre_spec t Ht o2 op2 Ho)) in Ep. specialize (Ha _ Ep). unfold holds in Ha. cbn [fst snd] in Ha. rewrite Ha, Nat.eqb_refl in He. discriminate.
Qed.
Lemma disabled_ok o : forall os e, eok e -> (forall x, In x os -> In x (disabled t o)) -> exists e', fold_outcome (handle_disabled t act s o) os e = Ok e' /\ eok e' /\ eext e e' /\ forall x, In x os -> tr act x -> tr (e_stub e') x \/ nes_for e' x.
Proof.
  induction os as [|o2 os IH]; intros e He Hos; cbn [fold_outcome].
  - exists e. splits; auto; [apply eext_refl|]. intros ? [].
  - assert (Hd : In o2 (disabled t o)) by (apply Hos; now left). unfold disabled in Hd. apply filter_In in Hd as [Hlt Hd]. apply in_seq in Hlt. apply andb_true_iff in Hd as [_ Hd]. unfold can_disable in Hd.
    assert (G : exists e1, handle_disabled t act s o e o2 = Ok e1 /\ eok e1 /\ eext e e1 /\ (tr act o2 -> tr (e_stub e1) o2 \/ nes_for e1 o2)).
    { unfold handle_disabled. destruct (vget_some act o2) as (b & Hb & ->); [lia|]. cbn [bind]. destruct b; [|exists e; splits; auto; [apply eext_refl|unfold tr; congruence]].
      destruct (conflicting_vars (s_eff t o) (s_pre t o2)) as [|v vs] eqn:Ec; [rewrite (cv_empty _ _ Ec) in Hd; discriminate|]. destruct (existsb _ (v :: vs)) eqn:Ev.
      - destruct (ec_enq_ok e o2 He) as (e1 & A & B & C & D); [lia|]. exists e1. auto.
      - destruct (nth_error (t_ops t) o2) as [op2|] eqn:Ho2; [|apply nth_error_None in Ho2; unfold num_operators in Hlt; lia]. destruct (s5_ok o2 e He) as (e1 & A & B & C & D); [eapply existsb_app_var; [exact Ho2| |exact Ev]; discriminate|]. exists e1. auto. }
    destruct G as (e1 & -> & A & B & C). cbn [bind]. destruct (IH e1 A) as (e2 & E2 & A2 & B2 & C2); [intros x Hx; apply Hos; now right|]. exists e2. splits; auto; [eapply eext_trans; eauto|].
    intros x [<-|Hx] Hax; auto. destruct (C Hax); [left; now apply (proj1 B2)|right; eapply nes_mono; eauto].
Qed.
Lemma cad_lt o : Forall (fun x => x < num_operators t) (conflicting_and_disabling t o).
Proof. rewrite Forall_forall. intros x H. unfold conflicting_and_disabling in H. apply filter_In in H as [H _]. apply in_seq in H. lia. Qed.
Lemma handle_ec_ok o e : eok e -> exists e', handle_ec t act s o e = Ok e' /\ eok e' /\ eext e e' /\ eclosed e' o.
Proof.
  intros He. unfold handle_ec, eclosed. destruct (find_unsatisfied (s_pre t o) s) as [f|] eqn:E.
  - apply s5_ok; auto. intros A. apply unsat_some in E as [B C]. apply C, A, B.
  - destruct (ec_enq_act_ok (conflicting_and_disabling t o) e He (cad_lt o)) as (e1 & -> & A & B & C). cbn [bind]. destruct (disabled_ok o (disabled t o) e1 A (fun x H => H)) as (e2 & E2 & A2 & B2 & C2). exists e2. splits; auto; [eapply eext_trans; eauto|].
    intros x Hx Hax. apply (proj1 B2). auto.
Qed.
Lemma loop_ec_ok : forall fuel e, eok e -> (forall o, tr (e_stub e) o -> In o (e_queue e) \/ eclosed e o) -> num_operators t + length (e_queue e) <= fuel + cnt (e_stub e) ->
  exists e', loop_ec t act s fuel e = Ok (e_stub e') /\ eok e' /\ incl (e_nes e) (e_nes e') /\ forall o, tr (e_stub e') o -> eclosed e' o.
Proof.
  induction fuel as [|fuel IH]; intros e He Hc Hm.
  - destruct (e_queue e) as [|o q] eqn:Eq; [|cbn [length] in Hm; pose proof (cnt_le (e_stub e)); destruct He; lia]. exists e. cbn [loop_ec]. rewrite Eq. splits; auto using incl_refl. intros o Ho. destruct (Hc o Ho) as [[]|H]; auto.
  - destruct (e_queue e) as [|o q] eqn:Eq; cbn [loop_ec]; rewrite Eq; [exists e; splits; auto using incl_refl; intros o Ho; destruct (Hc o Ho) as [[]|H]; auto|].
    set (e0 := {| e_stub := e_stub e; e_queue := q; e_written := e_written e; e_nes := e_nes e |}). destruct (handle_ec_ok o e0) as (e1 & -> & A & B & C); [exact He|]. cbn [bind].
    destruct (IH e1 A) as (e' & E & A' & B' & C').
    + intros x Hx. pose proof B as (_ & _ & B3 & B4 & _). apply B4 in Hx as [Hx|Hx]; auto. destruct (Hc x Hx) as [[<-|Hq]|Hq]; auto. right. apply (eclosed_mono e0 e1 x B). exact Hq.
    + destruct B as (_ & _ & _ & _ & B5). unfold e0 in B5. cbn [e_stub e_queue length] in *. lia.
    + exists e'. splits; auto. eapply incl_tran; [|exact B']. exact (proj1 (proj2 B)).
Qed.
End S.

Lemma compute_ec_ok t s : stub_task t -> state_ok t s -> ~ goal_state t s -> exists st E, compute_ec t s = Ok st /\ length st = num_operators t /\ envelope t s E /\ strong_stubborn t s E (fun o => nth o st false).
Proof.
  intros Ht Hs Hn. unfold compute_ec. destruct (active_operators_ok t Ht s Hs) as (act & Ea & La & _). rewrite Ea. cbn [bind]. pose proof (goal_unsat t s Hn) as Hu. destruct (find_unsatisfied (s_goal t) s) as [g|] eqn:Eg; [|congruence]. apply unsat_some in Eg as [G1 G2].
  set (e0 := {| e_stub := _; e_queue := _; e_written := _; e_nes := _ |}). destruct (add_nes_ok t s act La g e0) as (e1 & -> & A & B & C).
  { split; [apply repeat_length|]. intros f []. }
  cbn [bind]. destruct (loop_ec_ok t Ht s act La (num_operators t) e1 A) as (e' & E & (L & N) & I & HC).
  { intros o Ho. destruct B as (_ & _ & _ & B & _). apply B in Ho as [Ho|Ho]; auto. now apply tr_rep in Ho. }
  { destruct B as (_ & _ & _ & _ & B). unfold e0 in B. cbn [e_stub e_queue length] in B. rewrite cnt_rep in B. lia. }
  exists (e_stub e'), (tr act). split; auto. split; auto. split; [now apply active_envelope|].
  assert (HT : forall o, nth o (e_stub e') false = true <-> tr (e_stub e') o).
  { intros o. unfold tr. split; intros H; [|now apply nth_error_nth]. destruct (Nat.lt_ge_cases o (length (e_stub e'))); [|rewrite nth_overflow in H by auto; discriminate]. rewrite <- H. now apply nth_error_nth'. }
  assert (HE : forall f, In f (e_nes e') -> enabled_by t (tr act) (fun o => nth o (e_stub e') false) f).
  { intros f Hf o op Ho Hfo Hao. apply HT. apply (N f Hf o); auto. apply achievers_spec. eauto. }
  split; [|split].
  - exists g. split; [unfold s_goal in G1; now apply sort_In in G1|]. split; auto.
  - intros o op HTo Ho Hpre o2 op2 Ho2 Hne Hao Hi. apply HT in HTo. specialize (HC o HTo). unfold eclosed in HC. destruct (find_unsatisfied (s_pre t o) s) as [f|] eqn:Eu.
    { apply unsat_some in Eu as [U1 U2]. destruct U2. apply Hpre. now apply (proj2 (s_pre_spec t Ht o op Ho)). }
    destruct HC as [HC1 HC2]. destruct (s_pre_spec t Ht _ _ Ho) as [P1 Q1], (s_pre_spec t Ht _ _ Ho2) as [P2 Q2], (s_eff_spec t Ht _ _ Ho) as [P3 Q3], (s_eff_spec t Ht _ _ Ho2) as [P4 Q4].
    assert (Hlt : In o2 (seq 0 (num_operators t))) by (apply in_seq; unfold num_operators; apply nth_error_Some_lt in Ho2; lia). destruct Hi as [Hi|Hi].
    + assert (Hd : In o2 (disabled t o)).
      { unfold disabled. apply filter_In. split; auto. apply andb_true_iff. split; [apply negb_true_iff, Nat.eqb_neq; auto|]. unfold can_disable. apply ccf_complete; auto. exact (clash_ext _ _ _ _ Q3 Q2 Hi). }
      destruct (HC2 o2 Hd Hao) as [H|(f & F1 & F2 & F3)]; [left; now apply HT|]. right. exists f. split; [now apply Q2|]. split; auto.
    + left. apply HT, HC1; auto. unfold conflicting_and_disabling. apply filter_In. split; auto. apply andb_true_iff. split; [apply negb_true_iff, Nat.eqb_neq; auto|]. apply orb_true_iff. unfold can_conflict, can_disable. destruct Hi as [Hi|Hi]; [left|right]; (apply ccf_complete; [assumption|assumption|]).
      * exact (clash_ext _ _ _ _ Q3 Q4 Hi).
      * exact (clash_ext _ _ _ _ Q4 Q1 Hi).
  - intros o op HTo Ho Hpre. apply HT in HTo. specialize (HC o HTo). unfold eclosed in HC. destruct (find_unsatisfied (s_pre t o) s) as [f0|] eqn:Eu.
    + destruct HC as (f & F1 & F2 & F3). exists f. split; [now apply (proj2 (s_pre_spec t Ht o op Ho))|]. split; auto.
    + destruct Hpre. intros f Hf. apply (unsat_none _ _ Eu). now apply (proj2 (s_pre_spec t Ht o op Ho)).
Qed.

(** The atom-centric stubborn set algorithm computes a strong stubborn set. *)
From Coq Require Import Sorted.
From Verif Require Import Outcome Spec_Task Spec_Relaxation Spec_Projection Spec_HM Spec_Stubborn Model_Task Model_MAS Proof_Task Proof_MAS1 Proof_HM1 Proof_Stubborn1 Model_Stubborn Proof_Stubborn2.

Section S.
Variable t : task.
Hypothesis Ht : stub_task t.
Variable sc : bool.
Variable strat : strategy.

Definition vf (f : fact) : Prop := snd f < dom_size t (fst f).
Lemma vf_ok f : fact_ok t f -> vf f.
Proof. intros (x & Hx & H). unfold vf, dom_size. unfold is_var in Hx. now rewrite Hx. Qed.
Lemma vf_var f : vf f -> fst f < length (t_vars t).
Proof. unfold vf, dom_size. intros H. destruct (nth_error (t_vars t) (fst f)) eqn:E; [|lia]. eapply nth_error_Some_lt; eauto. Qed.
Lemma vf_pre o f : In f (s_pre t o) -> vf f.
Proof.
  unfold s_pre. destruct (nth_error (t_ops t) o) as [op|] eqn:E; [|intros []]. intros H. apply sort_In in H. apply vf_ok. destruct Ht as ((_ & H1 & _) & _). rewrite Forall_forall in H1. destruct (H1 op (nth_error_In _ _ E)) as [H2 _]. rewrite Forall_forall in H2. auto.
Qed.
Lemma vf_eff o f : In f (s_eff t o) -> vf f.
Proof.
  unfold s_eff. destruct (nth_error (t_ops t) o) as [op|] eqn:E; [|intros []]. intros H. apply sort_In in H. apply in_map_iff in H as (e & <- & He). apply vf_ok. destruct Ht as ((_ & H1 & _) & _). rewrite Forall_forall in H1. destruct (H1 op (nth_error_In _ _ E)) as [_ H2]. rewrite Forall_forall in H2. now destruct (H2 e He) as (_ & A & _).
Qed.
Lemma vf_goal f : In f (s_goal t) -> vf f.
Proof. unfold s_goal. intros H. apply sort_In in H. apply vf_ok. destruct Ht as ((_ & _ & _ & _ & H1) & _). rewrite Forall_forall in H1. auto. Qed.

Definition all_facts : list fact := flat_map (fun v => map (pair v) (seq 0 (dom_size t v))) (seq 0 (length (t_vars t))).
Lemma all_facts_len : length all_facts = num_facts t.
Proof.
  unfold all_facts, num_facts.
  assert (G : forall l, length (flat_map (fun v => map (pair v) (seq 0 (dom_size t v))) l) = list_sum (map (dom_size t) l)).
  { induction l as [|v l IH]; [reflexivity|]. cbn [flat_map]. rewrite app_length, map_length, seq_length, IH. reflexivity. }
  rewrite G. f_equal. apply nth_error_ext. intros i. rewrite !nth_error_map. unfold option_map, dom_size. destruct (nth_error (t_vars t) i) as [x|] eqn:E.
  - pose proof (nth_error_Some_lt _ _ _ E). rewrite (nth_error_nth' (seq 0 (length (t_vars t))) 0) by now rewrite seq_length. rewrite seq_nth by auto. cbn [plus]. now rewrite E.
  - apply nth_error_None in E. rewrite (proj2 (nth_error_None (seq 0 (length (t_vars t))) i)); auto. now rewrite seq_length.
Qed.
Lemma facts_bound l : NoDup l -> (forall f, In f l -> vf f) -> length l <= num_facts t.
Proof.
  intros Hn H. rewrite <- all_facts_len. apply NoDup_incl_length; auto. intros [v d] Hf. unfold all_facts. apply in_flat_map. exists v. pose proof (H _ Hf) as Hv. pose proof (vf_var _ Hv). cbn [fst] in *. split; [apply in_seq; lia|]. apply in_map, in_seq. unfold vf in Hv. cbn [fst snd] in Hv. lia.
Qed.

(** Marks *)
Definition sib (m : marks) (f : fact) : Prop := forall d, d < dom_size t (fst f) -> d <> snd f -> In (fst f, d) (mk_facts m).
Definition mok (m : marks) : Prop :=
  NoDup (mk_facts m) /\ (forall f, In f (mk_facts m) -> vf f) /\ incl (mk_queue m) (mk_facts m) /\ (sc = true -> length (mk_vars m) = length (t_vars t)) /\
  (sc = true -> forall v, match nth v (mk_vars m) MARKED_NONE with
             | MARKED_NONE => True
             | MARKED_ALL => forall d, d < dom_size t v -> In (v, d) (mk_facts m)
             | MARKED d => d < dom_size t v /\ forall d', d' < dom_size t v -> d' <> d -> In (v, d') (mk_facts m) end).
Definition ext (m m' : marks) : Prop :=
  incl (mk_facts m) (mk_facts m') /\ incl (mk_queue m) (mk_queue m') /\ (forall f, In f (mk_facts m') -> In f (mk_facts m) \/ In f (mk_queue m')) /\
  length (mk_facts m') + length (mk_queue m) = length (mk_facts m) + length (mk_queue m').
Lemma ext_refl m : ext m m.
Proof. unfold ext. splits; auto using incl_refl. Qed.
Lemma ext_trans a b c : ext a b -> ext b c -> ext a c.
Proof.
  intros (A1 & A2 & A3 & A4) (B1 & B2 & B3 & B4). unfold ext. split; [eapply incl_tran; eauto|]. split; [eapply incl_tran; eauto|]. split; [|lia].
  intros f Hf. apply B3 in Hf as [Hf|Hf]; auto. apply A3 in Hf as [Hf|Hf]; auto.
Qed.
Lemma sib_mono m m' f : ext m m' -> sib m f -> sib m' f.
Proof. intros (A & _) H d Hd Hn. apply A, H; auto. Qed.

Lemma memf_spec f l : memf f l = true <-> In f l.
Proof.
  unfold memf. rewrite existsb_exists. split; [intros (x & Hx & E); apply fact_eqb_spec in E; now subst|]. intros H. exists f. split; auto. now apply fact_eqb_spec.
Qed.
Lemma enqf_ok m f : mok m -> vf f -> mok (enqueue_fact m f) /\ ext m (enqueue_fact m f) /\ In f (mk_facts (enqueue_fact m f)) /\ mk_vars (enqueue_fact m f) = mk_vars m.
Proof.
  intros (N & V & Q & L & S) Hf. unfold enqueue_fact. destruct (memf f (mk_facts m)) eqn:E.
  - split; [unfold mok; splits; auto|]. split; [apply ext_refl|]. split; auto. now apply memf_spec.
  - assert (Hn : ~ In f (mk_facts m)) by (rewrite <- memf_spec; congruence). split; [|split; [|split]].
    + unfold mok. cbn [mk_facts mk_vars mk_queue]. split; [now constructor|]. split; [intros x [<-|H]; auto|]. split; [intros x [<-|H]; [now left|right; auto]|]. split; auto.
      intros Hs v. specialize (S Hs v). destruct (nth v (mk_vars m) MARKED_NONE); auto.
      * intros d Hd. right. auto.
      * destruct S as [S1 S2]. split; auto. intros d' A B. right. auto.
    + unfold ext. cbn [mk_facts mk_queue length]. split; [intros x H; now right|]. split; [intros x H; now right|]. split; [|lia]. intros x [<-|H]; [right; now left|now left].
    + now left.
    + reflexivity.
Qed.
Lemma enqall_ok v d : forall ds m, mok m -> (forall x, In x ds -> x < dom_size t v) ->
  let m' := fold_left (fun m x => if negb (x =? d) then enqueue_fact m (v, x) else m) ds m in
  mok m' /\ ext m m' /\ (forall x, In x ds -> x <> d -> In (v, x) (mk_facts m')) /\ mk_vars m' = mk_vars m.
Proof.
  induction ds as [|x ds IH]; intros m Hm Hd; cbn [fold_left].
  - split; auto. split; [apply ext_refl|]. split; auto. intros ? [].
  - set (m1 := if negb (x =? d) then enqueue_fact m (v, x) else m).
    assert (H1 : mok m1 /\ ext m m1 /\ (x <> d -> In (v, x) (mk_facts m1)) /\ mk_vars m1 = mk_vars m).
    { unfold m1. destruct (Nat.eqb_spec x d); cbn [negb]; [split; auto; split; [apply ext_refl|]; split; [congruence|reflexivity]|].
      destruct (enqf_ok m (v, x) Hm) as (A & B & C & D); [unfold vf; cbn [fst snd]; apply Hd; now left|]. auto. }
    destruct H1 as (A & B & C & D). destruct (IH m1 A) as (A2 & B2 & C2 & D2); [intros y Hy; apply Hd; now right|]. split; [exact A2|]. split; [eapply ext_trans; eauto|]. split; [|congruence].
    intros y [<-|Hy] Hn; [|auto]. apply (proj1 B2). auto.
Qed.
Lemma set_mark_ok m v k : mok m -> v < length (t_vars t) ->
  match k with MARKED_NONE => True | MARKED_ALL => forall d, d < dom_size t v -> In (v, d) (mk_facts m)
             | MARKED d => d < dom_size t v /\ forall d', d' < dom_size t v -> d' <> d -> In (v, d') (mk_facts m) end ->
  mok (set_mark sc m v k).
Proof.
  intros (N & V & Q & L & S) Hv Hk. unfold set_mark. destruct sc eqn:Esc; [|unfold mok; rewrite Esc; splits; auto]. unfold mok. rewrite Esc. cbn [mk_facts mk_vars mk_queue]. splits; auto.
  - intros _. rewrite upd_length. auto.
  - intros _ w. specialize (S eq_refl w). specialize (L eq_refl). destruct (Nat.eq_dec w v) as [->|E].
    + erewrite nth_error_nth; [|apply upd_nth_eq; lia]. exact Hk.
    + assert (Hnth : nth w (upd (mk_vars m) v k) MARKED_NONE = nth w (mk_vars m) MARKED_NONE).
      { destruct (nth_error (mk_vars m) w) as [y|] eqn:Ew.
        - rewrite (nth_error_nth _ _ MARKED_NONE Ew). apply nth_error_nth. rewrite <- Ew. now apply upd_nth_neq; auto.
        - apply nth_error_None in Ew. rewrite !nth_overflow; auto. now rewrite upd_length. }
      rewrite Hnth. exact S.
Qed.
Lemma set_mark_ext m v k : ext m (set_mark sc m v k) /\ mk_facts (set_mark sc m v k) = mk_facts m.
Proof. unfold set_mark. destruct sc; split; auto; [|apply ext_refl]. unfold ext. cbn [mk_facts mk_queue]. splits; auto using incl_refl. Qed.
Lemma enqsib_ok m f : mok m -> vf f -> mok (enqueue_siblings t sc m f) /\ ext m (enqueue_siblings t sc m f) /\ sib (enqueue_siblings t sc m f) f.
Proof.
  intros Hm Hf. pose proof (vf_var f Hf) as Hv. destruct f as [v d0]. unfold vf in Hf. cbn [fst snd] in *. unfold enqueue_siblings. cbn [fst snd].
  assert (HN : let m' := set_mark sc (fold_left (fun m d => if negb (d =? d0) then enqueue_fact m (v, d) else m) (seq 0 (dom_size t v)) m) v (MARKED d0) in mok m' /\ ext m m' /\ sib m' (v, d0)).
  { destruct (enqall_ok v d0 (seq 0 (dom_size t v)) m Hm) as (A & B & C & _); [intros x Hx; apply in_seq in Hx; lia|]. cbv zeta. set (m1 := fold_left _ _ m) in *.
    assert (HC : forall d', d' < dom_size t v -> d' <> d0 -> In (v, d') (mk_facts m1)) by (intros d' H1 H2; apply C; auto; apply in_seq; lia).
    split; [apply set_mark_ok; auto|]. split; [eapply ext_trans; [exact B|apply set_mark_ext]|]. intros d Hd Hn. rewrite (proj2 (set_mark_ext _ _ _)). auto. }
  destruct sc eqn:Esc; [|exact HN]. pose proof Hm as (N & V & Q & L & S). specialize (S Esc v). rewrite <- Esc in *. destruct (nth v (mk_vars m) MARKED_NONE) as [| |d].
  - exact HN.
  - split; auto. split; [apply ext_refl|]. intros d Hd Hn. auto.
  - destruct S as [S1 S2]. destruct (Nat.eqb_spec d d0) as [->|E]; cbn [negb].
    + split; auto. split; [apply ext_refl|]. intros x Hx Hn. auto.
    + destruct (enqf_ok m (v, d) Hm S1) as (A & B & C & D).
      assert (HA : forall x, x < dom_size t v -> In (v, x) (mk_facts (enqueue_fact m (v, d)))).
      { intros x Hx. destruct (Nat.eq_dec x d) as [->|Ex]; auto. apply (proj1 B). auto. }
      split; [apply set_mark_ok; auto|]. split; [eapply ext_trans; [exact B|apply set_mark_ext]|]. intros x Hx Hn. rewrite (proj2 (set_mark_ext _ _ _)). auto.
Qed.
Lemma enqsibs_ok : forall fs m, mok m -> (forall f, In f fs -> vf f) -> let m' := fold_left (enqueue_siblings t sc) fs m in mok m' /\ ext m m' /\ forall f, In f fs -> sib m' f.
Proof.
  induction fs as [|f fs IH]; intros m Hm Hf; cbn [fold_left].
  - split; auto. split; [apply ext_refl|]. intros ? [].
  - destruct (enqsib_ok m f Hm) as (A & B & C); [apply Hf; now left|]. destruct (IH _ A) as (A2 & B2 & C2); [intros x Hx; apply Hf; now right|]. split; [exact A2|]. split; [eapply ext_trans; eauto|].
    intros x [<-|Hx]; auto. eapply sib_mono; eauto.
Qed.

(** Selecting an unsatisfied fact *)
Lemma small_ok count s : forall fs b, match b with (None, None) => True | (Some f, Some _) => ~ holds s f | _ => False end ->
  match fold_left (fun (best : option fact * option nat) f => if negb (holdsb s f) then match snd best with None => (Some f, Some (count f)) | Some c => if count f <? c then (Some f, Some (count f)) else best end else best) fs b with
  | (Some f, Some _) => ~ holds s f /\ (In f fs \/ fst b = Some f) | (None, None) => b = (None, None) /\ all_hold s fs | _ => False end.
Proof.
  induction fs as [|f fs IH]; intros b Hb; cbn [fold_left].
  - destruct b as [[g|] [c|]]; auto. split; auto. intros ? [].
  - set (b1 := if negb (holdsb s f) then _ else b).
    assert (Hb1 : match b1 with (None, None) => b = (None, None) /\ holds s f | (Some g, Some _) => ~ holds s g /\ (f = g \/ fst b = Some g) | _ => False end).
    { unfold b1. destruct (holdsb s f) eqn:E; cbn [negb].
      - apply holdsb_spec in E. destruct b as [[g|] [c|]]; auto.
      - assert (Hn : ~ holds s f) by (rewrite <- holdsb_spec; congruence). destruct b as [[g|] [c|]]; cbn [snd fst]; try contradiction; auto. destruct (count f <? c); auto. }
    specialize (IH b1). destruct b1 as [[g1|] [c1|]]; try contradiction.
    + destruct Hb1 as [H1 H2]. specialize (IH H1). destruct (fold_left _ fs _) as [[g|] [c|]]; try contradiction.
      * destruct IH as [A [B|B]]; (split; [exact A|]); [left; now right|]. cbn [fst] in B. inversion B; subst. destruct H2 as [<-|H2]; auto. left. now left.
      * destruct IH as [A _]. discriminate.
    + destruct Hb1 as [-> Hh]. specialize (IH I). destruct (fold_left _ fs _) as [[g|] [c|]]; try contradiction.
      * destruct IH as [A [B|B]]; (split; [exact A|]); [left; now right|discriminate].
      * destruct IH as [_ A]. split; auto. intros x [<-|Hx]; auto.
Qed.
Lemma select_small_ok count fs s : ~ all_hold s fs -> exists f, select_small count fs s = Some f /\ In f fs /\ ~ holds s f.
Proof.
  intros H. unfold select_small. pose proof (small_ok count s fs (None, None) I) as G. destruct (fold_left _ fs _) as [[g|] [c|]]; try contradiction.
  - destruct G as [A [B|B]]; [|discriminate]. exists g. auto.
  - destruct G as [_ G]. contradiction.
Qed.
Lemma unsat_ex fs s : ~ all_hold s fs -> exists f, find_unsatisfied fs s = Some f /\ In f fs /\ ~ holds s f.
Proof. intros H. destruct (find_unsatisfied fs s) as [f|] eqn:E; [exists f; split; auto; now apply unsat_some|]. destruct H. now apply unsat_none. Qed.
Lemma select_ok fs s a : ~ all_hold s fs -> exists f, select_fact t strat fs s a = Some f /\ In f fs /\ ~ holds s f.
Proof.
  intros H. unfold select_fact. destruct strat; auto using unsat_ex, select_small_ok.
  destruct (find _ fs) as [f|] eqn:E; [|now apply unsat_ex]. exists f. split; auto. apply find_some in E as [A B]. split; auto. apply andb_true_iff in B as [B _]. apply negb_true_iff in B. rewrite <- holdsb_spec. congruence.
Qed.

(** Operators *)
Lemma consumers_spec f o : In o (consumers t f) <-> exists op, nth_error (t_ops t) o = Some op /\ In f (op_pre op).
Proof.
  unfold consumers. rewrite in_flat_map. split.
  - intros (o' & Ho' & H). destruct (nth_error (t_ops t) o') as [op|] eqn:E; [|destruct H]. apply in_flat_map in H as (e & He & H). destruct (fact_eqb e f) eqn:Ef; [|destruct H].
    destruct H as [<-|[]]. exists op. split; auto. apply fact_eqb_spec in Ef as <-. auto.
  - intros (op & Ho & Hf). exists o. split; [apply in_seq; unfold num_operators; apply nth_error_Some_lt in Ho; lia|]. rewrite Ho. apply in_flat_map. exists f. split; auto.
    rewrite (proj2 (fact_eqb_spec _ _) eq_refl). now left.
Qed.
Lemma consumers_lt f : Forall (fun o => o < num_operators t) (consumers t f).
Proof. rewrite Forall_forall. intros o H. apply consumers_spec in H as (op & Ho & _). apply nth_error_Some_lt in Ho. exact Ho. Qed.

Definition aclosed (s : state) (p c : marks) (o : nat) : Prop :=
  match find_unsatisfied (s_pre t o) s with
  | None => (forall f, In f (s_pre t o) -> sib p f) /\ (forall f, In f (s_eff t o) -> sib p f /\ sib c f)
  | Some _ => exists f, In f (s_pre t o) /\ ~ holds s f /\ In f (mk_facts p)
  end.
Lemma aclosed_mono s p c p' c' o : ext p p' -> ext c c' -> aclosed s p c o -> aclosed s p' c' o.
Proof.
  intros P C. unfold aclosed. destruct (find_unsatisfied (s_pre t o) s) as [f0|].
  - intros (f & A & B & D). exists f. splits; auto. now apply (proj1 P).
  - intros [A B]. split; [intros f Hf; eapply sib_mono; eauto|]. intros f Hf. destruct (B f Hf). split; eapply sib_mono; eauto.
Qed.
Definition aok (s : state) (a : atom_state) : Prop :=
  length (a_stub a) = num_operators t /\ mok (a_prod a) /\ mok (a_cons a) /\ forall o, tr (a_stub a) o -> aclosed s (a_prod a) (a_cons a) o.
Definition aext (a a' : atom_state) : Prop := (forall o, tr (a_stub a) o -> tr (a_stub a') o) /\ ext (a_prod a) (a_prod a') /\ ext (a_cons a) (a_cons a').
Lemma handle_ok s a o : aok s a -> o < num_operators t -> exists a', handle_atom t sc strat s a o = Ok a' /\ aok s a' /\ aext a a' /\ tr (a_stub a') o.
Proof.
  intros (L & P & C & H) Ho. unfold handle_atom. rewrite <- L in Ho. destruct (vget_some (a_stub a) o Ho) as (b & Hb & ->). cbn [bind]. destruct b.
  - exists a. split; auto. split; [unfold aok; splits; auto|]. split; auto. unfold aext. splits; auto; apply ext_refl.
  - unfold vset. destruct (Nat.ltb_spec o (length (a_stub a))); [|lia]. cbn [bind].
    assert (G : forall p' c', ext (a_prod a) p' -> ext (a_cons a) c' -> mok p' -> mok c' -> aclosed s p' c' o ->
      aok s {| a_stub := upd (a_stub a) o true; a_prod := p'; a_cons := c' |} /\ aext a {| a_stub := upd (a_stub a) o true; a_prod := p'; a_cons := c' |} /\ tr (upd (a_stub a) o true) o).
    { intros p' c' Ep Ec Mp Mc Hc. split; [|split].
      - unfold aok. cbn [a_stub a_prod a_cons]. splits; auto; [now rewrite upd_length|]. intros x Hx. apply tr_upd in Hx as [Hx| ->]; auto. eapply aclosed_mono; eauto.
      - unfold aext. cbn [a_stub a_prod a_cons]. splits; auto. intros x Hx. apply tr_upd; auto.
      - apply tr_upd; auto. }
    destruct (find_unsatisfied (s_pre t o) s) as [f0|] eqn:E.
    + unfold enqueue_nes. cbn [a_stub a_prod a_cons]. set (a1 := {| a_stub := _; a_prod := _; a_cons := _ |}). destruct (select_ok (s_pre t o) s a1) as (f & Ef & Hf & Hn).
      { intros A. apply unsat_some in E as [B D]. apply D, A, B. }
      rewrite Ef. destruct (enqf_ok (a_prod a) f P (vf_pre o f Hf)) as (A & B & D & _). destruct (G (enqueue_fact (a_prod a) f) (a_cons a)) as (G1 & G2 & G3); auto using ext_refl.
      { unfold aclosed. rewrite E. exists f. auto. }
      eexists. split; [reflexivity|]. auto.
    + unfold enqueue_interferers. cbn [a_stub a_prod a_cons]. destruct (enqsibs_ok (s_pre t o) (a_prod a) P (vf_pre o)) as (A1 & B1 & C1). destruct (enqsibs_ok (s_eff t o) _ A1 (vf_eff o)) as (A2 & B2 & C2). destruct (enqsibs_ok (s_eff t o) (a_cons a) C (vf_eff o)) as (A3 & B3 & C3). cbv zeta in *.
      edestruct G as (G1 & G2 & G3); [exact (ext_trans _ _ _ B1 B2)|exact B3|exact A2|exact A3| |eexists; split; [reflexivity|]; auto].
      unfold aclosed. rewrite E. split; [intros f Hf; eapply sib_mono; [exact B2|auto]|]. auto.
Qed.
Lemma aext_trans a b c : aext a b -> aext b c -> aext a c.
Proof. intros (A1 & A2 & A3) (B1 & B2 & B3). split; [auto|]. split; eapply ext_trans; eauto. Qed.
Lemma handles_ok s : forall os a, aok s a -> Forall (fun o => o < num_operators t) os -> exists a', fold_outcome (handle_atom t sc strat s) os a = Ok a' /\ aok s a' /\ aext a a' /\ forall o, In o os -> tr (a_stub a') o.
Proof.
  induction os as [|o os IH]; intros a Ha Ho; cbn [fold_outcome].
  - exists a. splits; auto; [unfold aext; splits; auto; apply ext_refl|]. intros ? [].
  - inversion Ho; subst. destruct (handle_ok s a o Ha H1) as (a1 & -> & A & B & C). cbn [bind]. destruct (IH a1 A H2) as (a2 & E & A2 & B2 & C2). exists a2. splits; auto; [eapply aext_trans; eauto|]. intros x [<-|Hx]; auto. now apply (proj1 B2).
Qed.

Definition done (facts : fact -> list nat) (st : list bool) (m : marks) : Prop := forall f, In f (mk_facts m) -> In f (mk_queue m) \/ forall o, In o (facts f) -> tr st o.
Definition pend (a : atom_state) : nat :=
  length (mk_queue (a_prod a)) + length (mk_queue (a_cons a)).
Lemma ext_done facts st st' m m' q f : mk_queue m = f :: q -> done facts st m -> ext (pop m q) m' -> (forall o, tr st o -> tr st' o) -> (forall o, In o (facts f) -> tr st' o) -> done facts st' m'.
Proof.
  intros Hq Hd (E1 & E2 & E3 & _) Hst Hf g Hg. cbn [pop mk_facts mk_queue] in *. apply E3 in Hg as [Hg|Hg]; auto. destruct (Hd g Hg) as [H|H].
  - rewrite Hq in H. destruct H as [<-|H]; auto.
  - right. auto.
Qed.
Lemma ext_done0 facts st st' m m' : done facts st m -> ext m m' -> (forall o, tr st o -> tr st' o) -> done facts st' m'.
Proof. intros Hd (E1 & E2 & E3 & _) Hst g Hg. apply E3 in Hg as [Hg|Hg]; auto. destruct (Hd g Hg) as [H|H]; auto. Qed.
Lemma mok_pop m f q : mk_queue m = f :: q -> mok m -> mok (pop m q).
Proof. intros Hq (A & B & C & D & E). unfold mok, pop. cbn [mk_facts mk_queue mk_vars]. splits; auto. intros x Hx. apply C. rewrite Hq. now right. Qed.

Lemma loop_atom_ok s : forall fuel a, aok s a -> done (achievers t) (a_stub a) (a_prod a) -> done (consumers t) (a_stub a) (a_cons a) ->
  2 * num_facts t + pend a <= fuel + length (mk_facts (a_prod a)) + length (mk_facts (a_cons a)) ->
  exists a', loop_atom t sc strat s fuel a = Ok (a_stub a') /\ aok s a' /\ incl (mk_facts (a_prod a)) (mk_facts (a_prod a')) /\
    (forall f, In f (mk_facts (a_prod a')) -> forall o, In o (achievers t f) -> tr (a_stub a') o) /\ (forall f, In f (mk_facts (a_cons a')) -> forall o, In o (consumers t f) -> tr (a_stub a') o).
Proof.
  assert (Hfin : forall fuel a, aok s a -> done (achievers t) (a_stub a) (a_prod a) -> done (consumers t) (a_stub a) (a_cons a) -> mk_queue (a_prod a) = [] -> mk_queue (a_cons a) = [] -> exists a', loop_atom t sc strat s fuel a = Ok (a_stub a') /\ aok s a' /\ incl (mk_facts (a_prod a)) (mk_facts (a_prod a')) /\
    (forall f, In f (mk_facts (a_prod a')) -> forall o, In o (achievers t f) -> tr (a_stub a') o) /\ (forall f, In f (mk_facts (a_cons a')) -> forall o, In o (consumers t f) -> tr (a_stub a') o)).
  { intros fuel a Ha D1 D2 Q1 Q2. exists a. split; [destruct fuel; cbn [loop_atom]; rewrite Q1, Q2; reflexivity|]. split; auto. split; [apply incl_refl|]. split; intros f Hf.
    - destruct (D1 f Hf) as [H|H]; auto. rewrite Q1 in H. destruct H.
    - destruct (D2 f Hf) as [H|H]; auto. rewrite Q2 in H. destruct H. }
  induction fuel as [|fuel IH]; intros a Ha D1 D2 Hm.
  - pose proof Ha as (_ & (N1 & V1 & _) & (N2 & V2 & _) & _). pose proof (facts_bound _ N1 V1). pose proof (facts_bound _ N2 V2). unfold pend in Hm.
    assert (Q1 : mk_queue (a_prod a) = []) by (destruct (mk_queue (a_prod a)); auto; cbn [length] in Hm; lia). assert (Q2 : mk_queue (a_cons a) = []) by (destruct (mk_queue (a_cons a)); auto; cbn [length] in Hm; lia). auto.
  - destruct (mk_queue (a_prod a)) as [|f q] eqn:Q1.
    + destruct (mk_queue (a_cons a)) as [|f q] eqn:Q2; auto. cbn [loop_atom]. rewrite Q1, Q2. pose proof Ha as (L & P & C & Hc). set (a0 := {| a_stub := a_stub a; a_prod := a_prod a; a_cons := pop (a_cons a) q |}).
      assert (Ha0 : aok s a0). { unfold aok, a0. cbn [a_stub a_prod a_cons]. splits; auto; eapply mok_pop; eauto. }
      destruct (handles_ok s (consumers t f) a0 Ha0 (consumers_lt f)) as (a1 & E & A & (B1 & B2 & B3) & Cx). rewrite E. cbn [bind].
      destruct (IH a1 A) as (a' & E' & A' & B' & C').
      * eapply ext_done0; [exact D1|exact B2|exact B1].
      * eapply ext_done; [exact Q2|exact D2|exact B3|exact B1|exact Cx].
      * unfold pend in *. rewrite Q1, Q2 in Hm. destruct B2 as (_ & _ & _ & B2), B3 as (_ & _ & _ & B3). unfold a0, pop in B2, B3. cbn [a_prod a_cons mk_facts mk_queue length] in *. rewrite Q1 in B2. cbn [length] in *. lia.
      * exists a'. split; auto. split; auto. split; auto. eapply incl_tran; [|exact B']. exact (proj1 B2).
    + cbn [loop_atom]. rewrite Q1. pose proof Ha as (L & P & C & Hc). set (a0 := {| a_stub := a_stub a; a_prod := pop (a_prod a) q; a_cons := a_cons a |}).
      assert (Ha0 : aok s a0). { unfold aok, a0. cbn [a_stub a_prod a_cons]. splits; auto; eapply mok_pop; eauto. }
      destruct (handles_ok s (achievers t f) a0 Ha0 (achievers_lt t f)) as (a1 & E & A & (B1 & B2 & B3) & Cx). rewrite E. cbn [bind].
      destruct (IH a1 A) as (a' & E' & A' & B' & C').
      * eapply ext_done; [exact Q1|exact D1|exact B2|exact B1|exact Cx].
      * eapply ext_done0; [exact D2|exact B3|exact B1].
      * unfold pend in *. rewrite Q1 in Hm. destruct B2 as (_ & _ & _ & B2), B3 as (_ & _ & _ & B3). unfold a0, pop in B2, B3. cbn [a_prod a_cons mk_facts mk_queue length] in *. lia.
      * exists a'. split; auto. split; auto. split; auto. eapply incl_tran; [|exact B']. exact (proj1 B2).
Qed.
Lemma mok_none s : state_ok t s -> mok (no_marks s).
Proof.
  intros Hs. unfold mok, no_marks. cbn [mk_facts mk_vars mk_queue]. splits.
  - constructor.
  - intros ? [].
  - apply incl_refl.
  - intros _. rewrite repeat_length. eapply st_len; eauto.
  - intros _ v. assert (E : nth v (repeat MARKED_NONE (length s)) MARKED_NONE = MARKED_NONE) by (clear; generalize (length s); intros n; revert v; induction n; destruct v; cbn; auto). now rewrite E.
Qed.
Lemma compute_atom_ok s : state_ok t s -> ~ goal_state t s -> exists st, compute_atom t sc strat s = Ok st /\ length st = num_operators t /\ strong_stubborn t s (fun _ => True) (fun o => nth o st false).
Proof.
  intros Hs Hn. unfold compute_atom. set (a0 := {| a_stub := _; a_prod := _; a_cons := _ |}).
  destruct (select_ok (s_goal t) s a0) as (g & -> & Hg & Hng). { intros A. apply Hn. intros f Hf. apply A. unfold s_goal. now apply sort_In. }
  unfold a0. cbn [a_stub a_prod a_cons]. destruct (enqf_ok (no_marks s) g (mok_none s Hs) (vf_goal g Hg)) as (A & B & C & _). set (a1 := {| a_stub := _; a_prod := _; a_cons := _ |}).
  destruct (loop_atom_ok s (2 * num_facts t) a1) as (a' & E & (L & M1 & M2 & HC) & I & HP & HD).
  - unfold aok, a1. cbn [a_stub a_prod a_cons]. splits; auto; [now rewrite repeat_length|now apply mok_none|]. intros o Ho. now apply tr_rep in Ho.
  - unfold a1. cbn [a_stub a_prod]. intros f Hf. left. destruct B as (_ & _ & B & _). apply B in Hf as [[]|Hf]. auto.
  - unfold a1. cbn [a_stub a_cons]. intros f [].
  - destruct B as (_ & _ & _ & B). unfold pend, a1. cbn [a_prod a_cons]. unfold no_marks in *. cbn [mk_facts mk_queue length] in *. lia.
  - exists (a_stub a'). split; auto. split; auto.
    assert (HT : forall o, nth o (a_stub a') false = true <-> tr (a_stub a') o).
    { intros o. unfold tr. split; intros H; [|now apply nth_error_nth]. destruct (Nat.lt_ge_cases o (length (a_stub a'))); [|rewrite nth_overflow in H by auto; discriminate]. rewrite <- H. now apply nth_error_nth'. }
    split; [|split].
    + exists g. split; [unfold s_goal in Hg; now apply sort_In in Hg|]. split; auto. intros o op Ho Hf _. apply HT. apply (HP g); [apply I; exact C|]. apply achievers_spec. eauto.
    + intros o op HTo Ho Hpre o2 op2 Ho2 Hne _ Hi. left. apply HT. apply HT in HTo. specialize (HC o HTo). unfold aclosed in HC. destruct (find_unsatisfied (s_pre t o) s) as [f|] eqn:Eu.
      { apply unsat_some in Eu as [U1 U2]. destruct U2. apply Hpre. now apply (proj2 (s_pre_spec t Ht o op Ho)). }
      destruct HC as [HC1 HC2]. destruct Hi as [Hi|[Hi|Hi]]; destruct Hi as (f & g2 & Hf & Hg2 & Ev & Ed).
      * assert (Hf' : In f (s_eff t o)) by now apply (proj2 (s_eff_spec t Ht o op Ho)). destruct (HC2 f Hf') as [_ Hs2]. assert (Hg' : In g2 (s_pre t o2)) by now apply (proj2 (s_pre_spec t Ht o2 op2 Ho2)).
        pose proof (vf_pre _ _ Hg') as Hv. unfold vf in Hv. assert (Hin : In g2 (mk_facts (a_cons a'))). { destruct g2 as [v d]. cbn [fst snd] in *. rewrite <- Ev. apply Hs2; [now rewrite Ev|auto]. }
        apply (HD g2 Hin). apply consumers_spec. eauto.
      * assert (Hf' : In f (s_eff t o)) by now apply (proj2 (s_eff_spec t Ht o op Ho)). destruct (HC2 f Hf') as [Hs2 _]. assert (Hg' : In g2 (s_eff t o2)) by now apply (proj2 (s_eff_spec t Ht o2 op2 Ho2)).
        pose proof (vf_eff _ _ Hg') as Hv. unfold vf in Hv. assert (Hin : In g2 (mk_facts (a_prod a'))). { destruct g2 as [v d]. cbn [fst snd] in *. rewrite <- Ev. apply Hs2; [now rewrite Ev|auto]. }
        apply (HP g2 Hin). apply achievers_spec. eauto.
      * assert (Hg' : In g2 (s_pre t o)) by now apply (proj2 (s_pre_spec t Ht o op Ho)). pose proof (HC1 g2 Hg') as Hs2. assert (Hf' : In f (s_eff t o2)) by now apply (proj2 (s_eff_spec t Ht o2 op2 Ho2)).
        pose proof (vf_eff _ _ Hf') as Hv. unfold vf in Hv. assert (Hin : In f (mk_facts (a_prod a'))). { destruct f as [v d]. cbn [fst snd] in *. rewrite Ev. apply Hs2; [now rewrite <- Ev|auto]. }
        apply (HP f Hin). apply achievers_spec. eauto.
    + intros o op HTo Ho Hpre. apply HT in HTo. specialize (HC o HTo). unfold aclosed in HC. destruct (find_unsatisfied (s_pre t o) s) as [f0|] eqn:Eu.
      * destruct HC as (f & F1 & F2 & F3). exists f. split; [now apply (proj2 (s_pre_spec t Ht o op Ho))|]. split; auto. intros o2 op2 Ho2 Hf _. apply HT, (HP f F3), achievers_spec. eauto.
      * destruct Hpre. intros f Hf. apply (unsat_none _ _ Eu). now apply (proj2 (s_pre_spec t Ht o op Ho)).
Qed.
End S.

(** Proofs about operator-counting constraints, part 4: tables of auxiliary variables, and rows with one
    entry per fact. *)
From Coq Require Import QArith Lqa Permutation.
From Verif Require Import Outcome Spec_Task Spec_Relaxation Spec_Projection Spec_LP Spec_OperatorCounting Model_LPSolver Model_LMCut Model_OperatorCounting
  Proof_Task Proof_PerState2 Proof_OC1 Proof_OC2.
Local Open Scope nat_scope.

Lemma key_eqb_eq a b : key_eqb a b = true <-> a = b.
Proof.
  destruct a, b; cbn [key_eqb]; try (split; intros H; discriminate H); rewrite ?andb_true_iff, ?feqb_eq, ?Nat.eqb_eq; (split; [intuition congruence|intros E; inv E; auto]).
Qed.
Definition idx (tb : table) (k : key) : nat := tb_base tb + match pos_of key_eqb k (tb_keys tb) with Some i => i | None => 0 end.
Lemma id_of_ok tb k : In k (tb_keys tb) -> id_of tb k = Ok (idx tb k).
Proof. intros H. unfold id_of, idx. destruct (pos_of_in key_eqb key_eqb_eq k _ H) as [i Hi]. now rewrite Hi. Qed.
Lemma idx_nth tb k i : NoDup (tb_keys tb) -> nth_error (tb_keys tb) i = Some k -> idx tb k = tb_base tb + i.
Proof.
  intros Hn Hi. unfold idx. destruct (pos_of_in key_eqb key_eqb_eq k _ (nth_error_In _ _ Hi)) as [j Hj]. rewrite Hj. f_equal. apply (pos_of_some key_eqb key_eqb_eq) in Hj.
  eapply NoDup_nth_error; eauto; [eapply nth_error_Some_lt; eauto|congruence].
Qed.
Lemma idx_range tb k : In k (tb_keys tb) -> tb_base tb <= idx tb k < tb_base tb + length (tb_keys tb).
Proof. intros H. unfold idx. destruct (pos_of_in key_eqb key_eqb_eq k _ H) as [i Hi]. rewrite Hi. apply (pos_of_some key_eqb key_eqb_eq) in Hi. apply nth_error_Some_lt in Hi. lia. Qed.
Lemma idx_inj tb k k' : In k (tb_keys tb) -> In k' (tb_keys tb) -> idx tb k = idx tb k' -> k = k'.
Proof.
  intros H H' E. unfold idx in E. destruct (pos_of_in key_eqb key_eqb_eq k _ H) as [i Hi]. destruct (pos_of_in key_eqb key_eqb_eq k' _ H') as [j Hj]. rewrite Hi, Hj in E.
  apply (pos_of_some key_eqb key_eqb_eq) in Hi, Hj. assert (i = j) by lia. subst. congruence.
Qed.
Lemma idx_app tb ks k : In k (tb_keys tb) -> idx {| tb_base := tb_base tb; tb_keys := tb_keys tb ++ ks |} k = idx tb k.
Proof. intros H. unfold idx. cbn [tb_base tb_keys]. destruct (pos_of_in key_eqb key_eqb_eq k _ H) as [i Hi]. rewrite (pos_of_app _ _ _ _ _ Hi), Hi. reflexivity. Qed.

(** ** Raising lower bounds *)
Definition raised (w : key -> lpvar) (G : list fact) (k : key) : lpvar :=
  match k with
  | KReached f => if existsb (feqb f) G then {| v_lo := Some 1%Q; v_up := v_up (w k); v_obj := v_obj (w k); v_int := v_int (w k) |} else w k
  | _ => w k
  end.
Lemma existsb_feqb f l : existsb (feqb f) l = true <-> In f l.
Proof. rewrite existsb_exists. split; [intros (g & Hg & E); apply feqb_eq in E; now subst|intros H; exists f; split; auto; apply feqb_refl]. Qed.
Lemma raise_fold tb w vs goals : NoDup (tb_keys tb) -> length vs = tb_base tb -> (forall f, In f goals -> In (KReached f) (tb_keys tb)) ->
  fold_outcome (raise_lower tb) goals (vs ++ map w (tb_keys tb)) = Ok (vs ++ map (raised w goals) (tb_keys tb)).
Proof.
  intros Hn Hl Hi. destruct (fold_inv (raise_lower tb) (fun pre v => v = vs ++ map (raised w pre) (tb_keys tb)) goals (vs ++ map w (tb_keys tb))) as (b & E & H).
  - f_equal. apply map_ext. intros [ ]; reflexivity.
  - intros pre f post b El ->. exists (vs ++ map (raised w (pre ++ [f])) (tb_keys tb)). split; auto. assert (Hf : In (KReached f) (tb_keys tb)) by (apply Hi; rewrite El; apply in_or_app; right; now left).
    unfold raise_lower. rewrite (id_of_ok tb _ Hf). cbn [bind]. destruct (In_nth_error _ _ Hf) as [i Hfi]. rewrite (idx_nth tb _ i Hn Hfi), <- Hl.
    assert (Hm : nth_error (map (raised w pre) (tb_keys tb)) i = Some (raised w pre (KReached f))) by now apply map_nth_error.
    pose proof (vget_app_mid vs (map (raised w pre) (tb_keys tb)) [] i _ Hm) as V. rewrite app_nil_r in V. rewrite V. cbn [bind]. apply vset_ok.
    split; [rewrite app_length, map_length; apply nth_error_Some_lt in Hfi; lia|].
    pose proof (upd_app_mid vs (map (raised w pre) (tb_keys tb)) [] i) as U. rewrite !app_nil_r in U. rewrite U by (rewrite map_length; eapply nth_error_Some_lt; eauto). rewrite app_nil_r. f_equal.
    apply nth_error_ext. intros j. rewrite upd_nth, map_length, !nth_error_map. destruct (Nat.eqb_spec i j) as [<-|Hne].
    + assert (Hlt : i <? length (tb_keys tb) = true) by (apply Nat.ltb_lt; eapply nth_error_Some_lt; eauto). rewrite Hlt, Hfi. cbn [andb option_map raised]. f_equal.
      rewrite existsb_app. cbn [existsb]. rewrite feqb_refl, orb_true_r. destruct (existsb (feqb f) pre); reflexivity.
    + cbn [andb]. destruct (nth_error (tb_keys tb) j) as [k|] eqn:Ej; [|reflexivity]. cbn [option_map]. f_equal. destruct k; cbn [raised]; auto. rewrite existsb_app. cbn [existsb]. rewrite orb_false_r.
      destruct (feqb f0 f) eqn:Ef; [|now rewrite orb_false_r]. apply feqb_eq in Ef. subst f0. exfalso. apply Hne. eapply NoDup_nth_error; eauto; [eapply nth_error_Some_lt; eauto|congruence].
  - now rewrite E, H.
Qed.

(** ** Facts *)
Lemma all_facts_nodup t : NoDup (all_facts t).
Proof.
  unfold all_facts, numbered.
  assert (M : forall r k, NoDup (concat (map (fun ix : nat * variable => map (pair (fst ix)) (seq 0 (vdom (snd ix)))) (combine (seq k (length r)) r)))); [|apply M].
  induction r as [|x r IH]; intros k; cbn [length seq combine map concat]; [constructor|]. cbn [fst snd].
  assert (G : forall a b : list fact, NoDup a -> NoDup b -> (forall o, In o a -> ~ In o b) -> NoDup (a ++ b)).
  { induction a as [|y a IHa]; intros b Ha Hb Hd; cbn [app]; auto. inv Ha. constructor; [|apply IHa; auto; intros o Ho; apply Hd; now right]. rewrite in_app_iff. intros [H|H]; auto. apply (Hd y); auto. now left. }
  apply G; [|exact (IH (S k))|].
  - apply FinFun.Injective_map_NoDup; [intros a b E; now inv E|apply seq_NoDup].
  - intros [v d] H1 H2. apply in_map_iff in H1. destruct H1 as (d' & E & _). inv E. apply in_concat in H2. destruct H2 as (l & Hl & H2). apply in_map_iff in Hl. destruct Hl as ([v' x'] & <- & Hv).
    apply in_map_iff in H2. destruct H2 as (d' & E & _). cbn [fst] in E. inv E. apply numbered_in_from in Hv. lia.
Qed.
Lemma fact_pos_ok t f : is_fact t f -> exists p, fact_pos t f = Ok p /\ nth_error (all_facts t) p = Some f.
Proof.
  intros Hf. assert (Hi : In f (all_facts t)) by (destruct f; now apply in_all_facts). destruct (pos_of_in feqb feqb_eq f _ Hi) as [p Hp]. exists p. unfold fact_pos. rewrite Hp. split; auto. now apply (pos_of_some feqb feqb_eq).
Qed.
Lemma facts_of_in s f : existsb (feqb f) (facts_of s) = in_state s f.
Proof.
  unfold in_state. destruct (existsb (feqb f) (facts_of s)) eqn:E.
  - apply existsb_feqb in E. destruct f as [v d]. unfold facts_of in E. apply numbered_in in E. cbn [fst snd]. rewrite E. now rewrite Nat.eqb_refl.
  - destruct (nth_error s (fst f)) as [d|] eqn:Ed; auto. destruct (Nat.eqb_spec d (snd f)) as [->|]; auto. exfalso. apply numbered_in in Ed. rewrite <- surjective_pairing in Ed. apply existsb_feqb in Ed. unfold facts_of in E. congruence.
Qed.
Lemma facts_of_ok t s : state_ok t s -> forall f, In f (facts_of s) -> is_fact t f.
Proof.
  intros Hs [v d] Hi. apply numbered_in in Hi. unfold is_fact, fact_ok, is_var. cbn [fst snd]. revert v Hi. unfold state_ok in Hs. induction Hs as [|a x r xs H1 H2 IH]; intros [|v] Hi; try discriminate; cbn [nth_error] in *.
  - inv Hi. eauto.
  - eauto.
Qed.

(** Updating the rows of some facts. *)
Lemma upd_map_fact {B} (l : list fact) (row : fact -> B) i f b : NoDup l -> nth_error l i = Some f ->
  upd (map row l) i b = map (fun g => if feqb g f then b else row g) l.
Proof.
  intros Hn Hf. apply nth_error_ext. intros j. rewrite upd_nth, map_length, !nth_error_map. destruct (Nat.eqb_spec i j) as [<-|Hne].
  - assert (Hlt : i <? length l = true) by (apply Nat.ltb_lt; eapply nth_error_Some_lt; eauto). rewrite Hlt, Hf. cbn [andb option_map]. now rewrite feqb_refl.
  - cbn [andb]. destruct (nth_error l j) as [g|] eqn:Ej; [|reflexivity]. cbn [option_map]. f_equal. destruct (feqb g f) eqn:Ef; auto. apply feqb_eq in Ef. subst g. exfalso. apply Hne. eapply NoDup_nth_error; eauto; [eapply nth_error_Some_lt; eauto|congruence].
Qed.
Lemma rows_fold t (g : solver -> nat -> outcome solver) (h : lpcon -> lpcon) :
  (forall sv A m B i c, sv_rows sv = A ++ m ++ B -> nth_error m i = Some c -> g sv (length A + i) = Ok (with_rows sv (A ++ upd m i (h c) ++ B) (sv_temp sv))) ->
  (forall c, h (h c) = h c) ->
  forall (row : fact -> lpcon) A B fs sv, (forall f, In f fs -> is_fact t f) -> sv_rows sv = A ++ map row (all_facts t) ++ B ->
  fold_outcome (fun sv f => let* p := fact_pos t f in g sv (length A + p)) fs sv =
  Ok (with_rows sv (A ++ map (fun f => if existsb (feqb f) fs then h (row f) else row f) (all_facts t) ++ B) (sv_temp sv)).
Proof.
  intros Hgh Hid row A B fs sv Hf Hsv.
  destruct (fold_inv (fun sv f => let* p := fact_pos t f in g sv (length A + p))
    (fun pre sv' => sv' = with_rows sv (A ++ map (fun f => if existsb (feqb f) pre then h (row f) else row f) (all_facts t) ++ B) (sv_temp sv)) fs sv) as (b & E & H).
  - transitivity (with_rows sv (sv_rows sv) (sv_temp sv)); [destruct sv; reflexivity|]. rewrite Hsv. reflexivity.
  - intros pre f post sv' El ->. destruct (fact_pos_ok t f) as (p & Ep & Hp); [apply Hf; rewrite El; apply in_or_app; right; now left|]. rewrite Ep. cbn [bind].
    rewrite (Hgh _ A (map (fun f => if existsb (feqb f) pre then h (row f) else row f) (all_facts t)) B p (if existsb (feqb f) pre then h (row f) else row f)); [|reflexivity|now apply map_nth_error with (f := fun f => if existsb (feqb f) pre then h (row f) else row f)].
    eexists. split; [reflexivity|]. unfold with_rows. cbn. f_equal. f_equal. f_equal. rewrite (upd_map_fact _ _ _ f) by (auto; apply all_facts_nodup). apply map_ext. intros g'.
    rewrite existsb_app. cbn [existsb]. rewrite orb_false_r. destruct (feqb g' f) eqn:Ef; [|now rewrite orb_false_r]. apply feqb_eq in Ef. subst g'. rewrite orb_true_r. destruct (existsb (feqb f) pre); auto.
  - now rewrite E, H.
Qed.

(** Appending a term per effect to the rows of the facts. *)
Lemma insert_fold t tb q (lo up : option Q) (ts : fact -> list (nat * Q)) rows E : (forall of, In of E -> is_fact t (snd of) /\ In (KFirst (fst of) (snd of)) (tb_keys tb)) ->
  fold_outcome (insert_at (length rows) t tb q) E (rows ++ map (fun f => con lo up (ts f)) (all_facts t)) =
  Ok (rows ++ map (fun f => con lo up (ts f ++ map (fun of : nat * fact => (idx tb (KFirst (fst of) f), q)) (filter (fun of => feqb (snd of) f) E))) (all_facts t)).
Proof.
  intros HE.
  destruct (fold_inv (insert_at (length rows) t tb q) (fun pre r => r = rows ++ map (fun f => con lo up (ts f ++ map (fun of : nat * fact => (idx tb (KFirst (fst of) f), q)) (filter (fun of => feqb (snd of) f) pre))) (all_facts t))
    E (rows ++ map (fun f => con lo up (ts f)) (all_facts t))) as (b & Eb & H).
  - f_equal. apply map_ext. intros f. cbn [filter map]. now rewrite app_nil_r.
  - intros pre [o f] post b El ->. eexists. split; [|reflexivity]. destruct (HE (o, f)) as [Hf Hk]; [rewrite El; apply in_or_app; right; now left|]. cbn [fst snd] in *.
    unfold insert_at. cbn [fst snd]. destruct (fact_pos_ok t f Hf) as (p & Ep & Hp). rewrite Ep. cbn [bind]. rewrite (id_of_ok tb _ Hk). cbn [bind].
    set (row := fun f0 => con lo up (ts f0 ++ map (fun of : nat * fact => (idx tb (KFirst (fst of) f0), q)) (filter (fun of => feqb (snd of) f0) pre))).
    assert (Hm : nth_error (map row (all_facts t)) p = Some (row f)) by now apply map_nth_error.
    pose proof (vget_app_mid rows (map row (all_facts t)) [] p _ Hm) as V. rewrite app_nil_r in V. rewrite V. cbn [bind].
    apply vset_ok. split; [rewrite app_length, map_length; apply nth_error_Some_lt in Hp; lia|].
    pose proof (upd_app_mid rows (map row (all_facts t)) [] p) as U. rewrite !app_nil_r in U. rewrite U by (rewrite map_length; eapply nth_error_Some_lt; eauto). rewrite app_nil_r. f_equal.
    rewrite (upd_map_fact _ _ _ f) by (auto; apply all_facts_nodup). apply map_ext. intros g. unfold row, insert. rewrite filter_app. cbn [filter snd]. rewrite (feqb_sym g f). destruct (feqb f g) eqn:Ef.
    + apply feqb_eq in Ef. subst g. cbn [con c_lo c_up c_terms]. rewrite map_app, app_assoc. reflexivity.
    + now rewrite app_nil_r.
  - now rewrite Eb, H.
Qed.

Section T.
Variable t : task.
Hypothesis Ht : plain_task t.
Lemma effs_nodup o op : is_op t o op -> NoDup (map eff_fact (op_effs op)).
Proof.
  intros Ho. destruct Ht as (_ & _ & _ & Hpl). destruct (Hpl op (op_in t o op Ho)) as (_ & _ & Hn & _). apply (NoDup_map_inv fst). now rewrite map_map.
Qed.
Lemma pres_nodup o op : is_op t o op -> NoDup (op_pre op).
Proof. intros Ho. destruct Ht as (_ & _ & _ & Hpl). destruct (Hpl op (op_in t o op Ho)) as (_ & Hn & _). now apply (NoDup_map_inv fst). Qed.
(** Concatenations over the operators have no duplicates. *)
Lemma concat_nodup {A B} (h : nat * A -> list B) (num : B -> nat) (l : list A) : (forall i a, nth_error l i = Some a -> NoDup (h (i, a)) /\ forall b, In b (h (i, a)) -> num b = i) ->
  NoDup (concat (map h (numbered l))).
Proof.
  intros H. assert (G : forall k r, (forall i a, nth_error r i = Some a -> NoDup (h (k + i, a)) /\ forall b, In b (h (k + i, a)) -> num b = k + i) -> NoDup (concat (map h (combine (seq k (length r)) r)))); [|apply (G 0 l); exact H].
  clear H. intros k r. revert k. induction r as [|a r IH]; intros k H; cbn [length seq combine map concat]; [constructor|].
  assert (Gap : forall x y : list B, NoDup x -> NoDup y -> (forall o, In o x -> ~ In o y) -> NoDup (x ++ y)).
  { induction x as [|z x IHx]; intros y Hx Hy Hd; cbn [app]; auto. inv Hx. constructor; [|apply IHx; auto; intros o Ho; apply Hd; now right]. rewrite in_app_iff. intros [H0|H0]; auto. apply (Hd z); auto. now left. }
  destruct (H 0 a eq_refl) as [H1 H2]. rewrite Nat.add_0_r in H1, H2. apply Gap; auto.
  - apply IH. intros i a' Hi. replace (S k + i) with (k + S i) by lia. apply H. exact Hi.
  - intros b Hb Hb'. apply H2 in Hb. apply in_concat in Hb'. destruct Hb' as (l' & Hl & Hb'). apply in_map_iff in Hl. destruct Hl as ([j a'] & <- & Hj). apply numbered_in_from in Hj. destruct Hj as [Hj Hn].
    destruct (H (S (j - S k)) a') as [_ H3]; [exact Hn|]. replace (k + S (j - S k)) with j in H3 by lia. specialize (H3 b Hb'). lia.
Qed.
Lemma op_effects_nodup : NoDup (op_effects t).
Proof.
  unfold op_effects. apply (concat_nodup _ fst). intros i op Ho. cbn [fst snd]. split.
  - rewrite <- (map_map eff_fact (fun f => (i, f))). apply FinFun.Injective_map_NoDup; [intros a b E; now inv E|]. eapply effs_nodup; eauto.
  - intros b Hb. apply in_map_iff in Hb. destruct Hb as (e & <- & _). reflexivity.
Qed.
Lemma first_sum (y : nat -> Q) f : is_fact t f -> forall id : nat -> nat, forall q,
  (lin y (map (fun of : nat * fact => (id (fst of), q)) (filter (fun of => feqb (snd of) f) (op_effects t))) == q * opsum t (fun o op => ind (adds op f) * y (id o)))%Q.
Proof.
  intros Hf id q. unfold lin. rewrite qsum_map. cbn [fst snd]. rewrite (qsum_scale (fun of : nat * fact => y (id (fst of))) q).
  rewrite <- (qsum_map (fun o => y (id o)) fst). rewrite (opsum_select t (fun op => adds op f) (fun o => y (id o))); [reflexivity| |].
  - assert (Hn : NoDup (filter (fun of : nat * fact => feqb (snd of) f) (op_effects t))) by apply NoDup_filter, op_effects_nodup.
    assert (Hs : forall of, In of (filter (fun of : nat * fact => feqb (snd of) f) (op_effects t)) -> snd of = f) by (intros of H; apply filter_In in H; now apply feqb_eq).
    revert Hn Hs. generalize (filter (fun of : nat * fact => feqb (snd of) f) (op_effects t)). induction l as [|[o g] r IH]; intros Hn Hs; cbn [map fst]; [constructor|]. inv Hn. constructor; [|apply IH; auto; intros; apply Hs; now right].
    intros Hi. apply in_map_iff in Hi. destruct Hi as ([o' g'] & E & Hi). cbn [fst] in E. subst o'. apply H1. pose proof (Hs _ (or_introl eq_refl)). pose proof (Hs _ (or_intror Hi)). cbn [snd] in *. now subst.
  - intros o. rewrite in_map_iff. split.
    + intros ([o' g] & E & Hi). cbn [fst] in E. subst o'. apply filter_In in Hi. destruct Hi as [Hi E]. apply feqb_eq in E. cbn [snd] in E. subst g. apply in_op_effects in Hi. destruct Hi as (op & e & Ho & He & Ee). exists op. split; auto. apply adds_spec. eauto.
    + intros (op & Ho & Ha). apply adds_spec in Ha. destruct Ha as (e & He & Ee). exists (o, f). split; auto. apply filter_In. split; [apply in_op_effects; eauto|]. apply feqb_refl.
Qed.
End T.

(** Proofs about operator-counting constraints, part 3: the rows of the state equation. *)
From Coq Require Import QArith Lqa Permutation.
From Verif Require Import Outcome Spec_Task Spec_Relaxation Spec_Projection Spec_LP Spec_OperatorCounting Model_LPSolver Model_LMCut Model_OperatorCounting
  Proof_Task Proof_PerState2 Proof_OC1 Proof_OC2.
Local Open Scope nat_scope.

Definition set_index (i : nat) (p : proposition) : proposition :=
  {| always_produced_by := always_produced_by p; sometimes_produced_by := sometimes_produced_by p; always_consumed_by := always_consumed_by p; constraint_index := Some i |}.
Fixpoint assign (c : nat) (ps : list proposition) : list proposition :=
  match ps with
  | [] => []
  | p :: r => match se_terms p with [] => p :: assign c r | _ => set_index c p :: assign (S c) r end
  end.
Fixpoint se_rows (ps : list proposition) : list lpcon :=
  match ps with
  | [] => []
  | p :: r => match se_terms p with [] => se_rows r | _ => con None None (se_terms p) :: se_rows r end
  end.
Lemma assign_length ps : forall c, length (assign c ps) = length ps.
Proof. induction ps as [|p r IH]; intros c; cbn [assign length]; auto. destruct (se_terms p); cbn [length]; auto. Qed.
Lemma assign_app a b : forall c, assign c (a ++ b) = assign c a ++ assign (c + length (se_rows a)) b.
Proof.
  induction a as [|p r IH]; intros c; cbn [app assign se_rows length]; [now rewrite Nat.add_0_r|]. destruct (se_terms p) eqn:E; cbn [app length].
  - now rewrite IH.
  - f_equal. rewrite IH. f_equal. f_equal. lia.
Qed.
Lemma se_rows_app a b : se_rows (a ++ b) = se_rows a ++ se_rows b.
Proof. induction a as [|p r IH]; cbn [app se_rows]; auto. destruct (se_terms p); cbn [app]; now rewrite ?IH. Qed.
Lemma se_add_fold row : forall cs acc, fold_left se_add row (cs, acc) = (cs ++ se_rows row, acc ++ assign (length cs) row).
Proof.
  induction row as [|p r IH]; intros cs acc; cbn [fold_left se_rows assign]; [now rewrite !app_nil_r|]. unfold se_add at 2. cbn [fst snd]. destruct (se_terms p) eqn:E.
  - rewrite IH, <- app_assoc. reflexivity.
  - rewrite IH, <- !app_assoc. cbn [app]. rewrite app_length. cbn [length]. f_equal. f_equal. unfold set_index. f_equal. f_equal. lia.
Qed.
Lemma se_add_rows props : forall cs acc, exists props', fold_left se_add_row props (cs, acc) = (cs ++ se_rows (concat props), acc ++ props') /\
  concat props' = assign (length cs) (concat props) /\ Forall2 (fun a b : list proposition => length a = length b) props props'.
Proof.
  induction props as [|row r IH]; intros cs acc; cbn [fold_left concat].
  - exists []. cbn [se_rows concat assign]. rewrite !app_nil_r. auto.
  - unfold se_add_row at 2. cbn [fst snd]. rewrite se_add_fold. cbn [fst snd]. cbn [app]. destruct (IH (cs ++ se_rows row) (acc ++ [assign (length cs) row])) as (props' & E & Ec & Hf).
    exists (assign (length cs) row :: props'). splits.
    + rewrite E, se_rows_app, <- !app_assoc. reflexivity.
    + cbn [concat]. rewrite Ec, assign_app, app_length. reflexivity.
    + constructor; auto. now rewrite assign_length.
Qed.

(** The two nested loops as one. *)
Lemma numbered_pair {A} (v : nat) (row : list A) : map (fun dp : nat * A => ((v, fst dp), snd dp)) (numbered row) = combine (map (pair v) (seq 0 (length row))) row.
Proof. unfold numbered. now rewrite combine_map_l. Qed.
Lemma flat_combine {A} (vars : list variable) (props : list (list A)) : Forall2 (fun x row => length row = vdom x) vars props -> forall k,
  concat (map (fun vr : nat * list A => map (fun dp : nat * A => ((fst vr, fst dp), snd dp)) (numbered (snd vr))) (combine (seq k (length props)) props)) =
  combine (concat (map (fun ix : nat * variable => map (pair (fst ix)) (seq 0 (vdom (snd ix)))) (combine (seq k (length vars)) vars))) (concat props).
Proof.
  induction 1 as [|x row xs rows H1 H2 IH]; intros k; cbn [length seq combine map concat fst snd]; [auto|]. rewrite IH, numbered_pair, H1. symmetry. apply combine_app.
  rewrite map_length, seq_length. lia.
Qed.
Lemma flat_nth {A} (vars : list variable) (props : list (list A)) : Forall2 (fun x row => length row = vdom x) vars props -> forall k v d a,
  In ((v, d), a) (combine (concat (map (fun ix : nat * variable => map (pair (fst ix)) (seq 0 (vdom (snd ix)))) (combine (seq k (length vars)) vars))) (concat props)) ->
  k <= v /\ exists row, nth_error props (v - k) = Some row /\ nth_error row d = Some a.
Proof.
  induction 1 as [|x row xs rows H1 H2 IH]; intros k v d a; cbn [length seq combine map concat fst snd]; [intros []|]. rewrite combine_app by (rewrite map_length, seq_length; lia).
  rewrite in_app_iff. intros [H|H].
  - rewrite <- H1, <- numbered_pair in H. apply in_map_iff in H. destruct H as ([d' a'] & E & H). inv E. cbn [fst snd] in *. split; auto. rewrite Nat.sub_diag. exists row. split; auto. now apply numbered_in.
  - apply IH in H. destruct H as [H (row' & Hr & Ha)]. split; [lia|]. exists row'. split; auto. replace (v - k) with (S (v - S k)) by lia. exact Hr.
Qed.
Lemma flat_length {A} (vars : list variable) (props : list (list A)) : Forall2 (fun x row => length row = vdom x) vars props -> forall k,
  length (concat (map (fun ix : nat * variable => map (pair (fst ix)) (seq 0 (vdom (snd ix)))) (combine (seq k (length vars)) vars))) = length (concat props).
Proof.
  induction 1 as [|x row xs rows H1 H2 IH]; intros k; cbn [length seq combine map concat fst snd]; [auto|]. rewrite !app_length, IH, map_length, seq_length. lia.
Qed.

Section SE.
Variable t : task.
Hypothesis Ht : plain_task t.
Hypothesis Hno : no_noop_effects t.
Hypothesis Hg : NoDup (map fst (t_goal t)).

Definition goal_vec (goal : list (option nat)) : Prop := fact_vector (length (t_vars t)) (t_goal t) = Ok goal.
Lemma goal_vec_at goal v : goal_vec goal -> v < length (t_vars t) -> exists g, nth_error goal v = Some g /\ forall d, (g = Some d <-> In (v, d) (t_goal t)).
Proof.
  unfold goal_vec. intros Hv Hl. destruct (fact_vector_ok (length (t_vars t)) (t_goal t) (fun f Hi => fact_lt t f (goal_fact t Ht f Hi)) Hg) as (pv & E & Hlen & H). rewrite E in Hv. inv Hv.
  destruct (H v Hl) as [(d & Hi & Hn)|[Hi Hn]]; eexists; split; eauto; intros d'; split; intros H1.
  - inv H1. auto.
  - f_equal. eapply nodup_fst_eq; eauto.
  - discriminate.
  - exfalso. apply Hi. apply in_map_iff. exists (v, d'). auto.
Qed.

(** What the generator keeps, and its rows: facts [fs] with propositions [ps], first row [c]. *)
Definition se_lo (s : state) (goal : list (option nat)) (f : fact) : Q :=
  let lb := if nth (fst f) s 0 =? snd f then (-1)%Q else 0%Q in
  match nth (fst f) goal None with Some d => if d =? snd f then (lb + 1)%Q else lb | None => lb end.
Fixpoint se_new (lo : fact -> Q) (fs : list fact) (ps : list proposition) : list lpcon :=
  match fs, ps with
  | f :: fs, p :: r => match se_terms p with [] => se_new lo fs r | _ => con (Some (lo f)) None (se_terms p) :: se_new lo fs r end
  | _, _ => []
  end.
Definition rows_like (ps : list proposition) (nr : list lpcon) : Prop := Forall2 (fun a b => c_terms a = c_terms b /\ c_up a = c_up b) (se_rows ps) nr.
Lemma rows_like_new lo ps : forall fs, length fs = length ps -> rows_like ps (se_new lo fs ps).
Proof.
  unfold rows_like. induction ps as [|p r IH]; intros [|f fs] Hl; cbn [length] in Hl; try lia; cbn [se_rows se_new]; [constructor|]. destruct (se_terms p) eqn:E; [apply IH; lia|]. constructor; [cbn; auto|apply IH; lia].
Qed.
Lemma se_update_fold s goal : forall fs ps A nr B sv, length fs = length ps -> rows_like ps nr ->
  (forall f, In f fs -> fst f < length s /\ fst f < length goal) -> (forall p, In p ps -> constraint_index p = None) -> sv_rows sv = A ++ nr ++ B ->
  fold_outcome (fun sv (fp : fact * proposition) => se_bound s goal (fst (fst fp)) sv (snd (fst fp), snd fp)) (combine fs (assign (length A) ps)) sv =
  Ok (with_rows sv (A ++ se_new (se_lo s goal) fs ps ++ B) (sv_temp sv)).
Proof.
  induction fs as [|f fs IH]; intros [|p r] A nr B sv Hl HR Hlt Hci Hsv; cbn [length] in Hl; try lia.
  - cbn [assign combine fold_outcome se_new]. inv HR. rewrite <- Hsv. destruct sv; reflexivity.
  - cbn [assign se_new]. unfold rows_like in HR. cbn [se_rows] in HR. destruct (se_terms p) as [|ts tr] eqn:E.
    + cbn [combine fold_outcome fst snd]. unfold se_bound at 1. cbn [snd]. rewrite (Hci p (or_introl eq_refl)). cbn [bind].
      apply (IH r A nr B sv); auto; [intros; apply Hlt; now right|intros; apply Hci; now right].
    + inv HR. rename y into rw, l' into nr'. destruct H1 as [Et Eu]. cbn [c_terms c_up con] in *. cbn [combine fold_outcome fst snd]. unfold se_bound at 1. cbn [fst snd constraint_index set_index].
      destruct (Hlt f (or_introl eq_refl)) as [L1 L2].
      assert (V1 : vget s (fst f) = Ok (nth (fst f) s 0)) by (apply vget_ok, nth_error_nth'; auto). rewrite V1. cbn [bind].
      assert (V2 : vget goal (fst f) = Ok (nth (fst f) goal None)) by (apply vget_ok, nth_error_nth'; auto). rewrite V2. cbn [bind].
      pose proof (set_lower_mid sv A (rw :: nr') B 0 rw (se_lo s goal f) Hsv eq_refl) as ES. rewrite Nat.add_0_r in ES.
      unfold se_lo in ES at 1. rewrite ES. cbn [bind upd]. rewrite <- Eu, <- Et.
      replace (S (length A)) with (length (A ++ [con (Some (se_lo s goal f)) None (ts :: tr)])) by (rewrite app_length; cbn [length]; lia).
      rewrite (IH r (A ++ [con (Some (se_lo s goal f)) None (ts :: tr)]) nr' B); auto.
      * unfold with_rows. cbn. rewrite <- app_assoc. reflexivity.
      * intros; apply Hlt; now right.
      * intros; apply Hci; now right.
      * cbn [sv_rows with_rows]. rewrite <- app_assoc. reflexivity.
Qed.
Lemma se_new_in lo : forall fs ps c, In c (se_new lo fs ps) <-> exists f p, In (f, p) (combine fs ps) /\ se_terms p <> [] /\ c = con (Some (lo f)) None (se_terms p).
Proof.
  induction fs as [|f fs IH]; intros [|p r] c; cbn [se_new combine]; try (split; [intros []|intros (? & ? & [] & _)]). destruct (se_terms p) eqn:E.
  - rewrite IH. split; intros (f' & p' & Hi & H1 & H2); exists f', p'.
    + splits; auto. now right.
    + destruct Hi as [Hi|Hi]; [inv Hi; congruence|]. auto.
  - cbn [In]. rewrite IH. split.
    + intros [<-|(f' & p' & Hi & H1 & H2)]; [exists f, p|exists f', p']; splits; auto; try (now left); try (now right); rewrite E; congruence.
    + intros (f' & p' & [Hi|Hi] & H1 & H2); [inv Hi; left; now rewrite E|right; eauto 6].
Qed.

Definition se_inv (g : gstate) (c : nat) (nr : list lpcon) : Prop :=
  exists props ps goal, g = SStateEquation props goal /\ goal_vec goal /\ Forall2 (fun x row => length row = vdom x) (t_vars t) props /\
    concat props = assign c ps /\ length (all_facts t) = length ps /\ (forall f p, In (f, p) (combine (all_facts t) ps) -> prop_spec t (op_effects t) f p) /\ rows_like ps nr.

Variable P : Model_PQ.pqueue.
Variable qe : Model_PQ.PQ P.
Lemma supported : supported_task t = true.
Proof.
  unfold supported_task, lmcut_supported. destruct Ht as (_ & Hr & _ & Hop). rewrite Hr. cbn [negb andb]. rewrite forallb_forall. intros op Ho. apply forallb_forall. intros e He.
  destruct (Hop op Ho) as (Hc & _). now rewrite (Hc e He).
Qed.
Lemma combine_in_l {A B} (a : list A) (b : list B) x : length a = length b -> In x a -> exists y, In (x, y) (combine a b).
Proof. revert b. induction a as [|z r IH]; intros [|y b] Hl Hi; cbn [length] in Hl; try lia; [destruct Hi|]. destruct Hi as [->|Hi]; [exists y; now left|]. destruct (IH b ltac:(lia) Hi) as [w Hw]. exists w. now right. Qed.
Lemma combine_in_r {A B} (a : list A) (b : list B) y : length a = length b -> In y b -> exists x, In (x, y) (combine a b).
Proof. revert b. induction a as [|z r IH]; intros [|w b] Hl Hi; cbn [length] in Hl; try lia; [destruct Hi|]. destruct Hi as [->|Hi]; [exists z; now left|]. destruct (IH b ltac:(lia) Hi) as [v Hv]. exists v. now right. Qed.

Lemma se_init fuel lp : exists g nr, initialize_constraints P qe fuel t GStateEquation lp = Ok (g, {| lp_vars := lp_vars lp; lp_cons := lp_cons lp ++ nr |}) /\
  se_inv g (length (lp_cons lp)) nr.
Proof.
  cbn [initialize_constraints]. rewrite supported. destruct (build_ok t Ht Hno) as (props & E & Hs & Hp). rewrite E. cbn [bind].
  destruct (fact_vector_ok (length (t_vars t)) (t_goal t) (fun f Hi => fact_lt t f (goal_fact t Ht f Hi)) Hg) as (goal & Eg & _). rewrite Eg. cbn [bind].
  unfold se_add_constraints. destruct (se_add_rows props (lp_cons lp) []) as (props' & E' & Ec & Hf). rewrite E'. cbn [fst snd app].
  exists (SStateEquation props' goal), (se_rows (concat props)). split; auto. exists props', (concat props), goal. splits; auto.
  - unfold shape in Hs. clear - Hs Hf. revert props' Hf. induction Hs as [|x row xs rows H1 H2 IH]; intros props' Hf; inv Hf; constructor; auto. lia.
  - unfold all_facts, numbered. now apply flat_length.
  - intros [v d] p Hi. apply Hp. unfold all_facts, numbered in Hi. apply (flat_nth (t_vars t) props Hs 0) in Hi. destruct Hi as [_ (row & Hr & Ha)]. rewrite Nat.sub_0_r in Hr. unfold prop_at. cbn [fst snd]. now rewrite Hr.
  - unfold rows_like. clear. induction (se_rows (concat props)); constructor; auto.
Qed.

Lemma se_update_ok g c nr A B sv s lft : se_inv g c nr -> state_ok t s -> sv_rows sv = A ++ nr ++ B -> length A = c ->
  exists nr', update_constraints P t lft s g sv = Ok (false, g, with_rows sv (A ++ nr' ++ B) (sv_temp sv)) /\ se_inv g c nr' /\
    (forall y, (forall r, In r nr' -> con_ok y r) <-> state_equation t s y) /\
    (forall r, In r nr' -> NoDup (map fst (c_terms r)) /\ forall i a, In (i, a) (c_terms r) -> i < length (t_ops t)).
Proof.
  intros (props & ps & goal & -> & Hgv & Hs & Ec & Hl & Hp & HR) Hst Hsv <-. exists (se_new (se_lo s goal) (all_facts t) ps).
  assert (Hlen : length s = length (t_vars t)) by now apply Proof_Task.state_ok_length.
  assert (Hgl : length goal = length (t_vars t)).
  { destruct (fact_vector_ok (length (t_vars t)) (t_goal t) (fun f Hi => fact_lt t f (goal_fact t Ht f Hi)) Hg) as (g' & Eg & Hgl & _). unfold goal_vec in Hgv. congruence. }
  assert (Hall : forall f, In f (all_facts t) -> is_fact t f) by (intros [v d] Hi; now apply in_all_facts). splits.
  - cbn [update_constraints]. unfold se_update. rewrite (nested_fold (fun vr => se_bound s goal (fst vr)) (fun vr => numbered (snd vr))).
    match goal with |- bind (fold_outcome ?F ?l ?v) _ = _ => 
      assert (EF : fold_outcome F l v = fold_outcome (fun sv (fp : fact * proposition) => se_bound s goal (fst (fst fp)) sv (snd (fst fp), snd fp)) (combine (all_facts t) (assign (length A) ps)) v) end.
    { rewrite <- Ec. pose proof (flat_combine (t_vars t) props Hs 0) as FC. fold (numbered props) in FC. fold (numbered (t_vars t)) in FC. fold (all_facts t) in FC.
      match goal with |- _ = fold_outcome ?G _ ?v => match type of FC with ?l = _ => transitivity (fold_outcome G l v); [|rewrite FC; reflexivity] end end.
      assert (Eq : concat (map (fun vr : nat * list proposition => map (fun dp : nat * proposition => (fst vr, fst dp, snd dp)) (numbered (snd vr))) (numbered props)) =
        map (fun ab : nat * list proposition * (nat * proposition) => (fst (fst ab), fst (snd ab), snd (snd ab))) (concat (map (fun a : nat * list proposition => map (pair a) (numbered (snd a))) (numbered props)))).
      { rewrite concat_map, map_map. f_equal. apply map_ext. intros a. rewrite map_map. reflexivity. }
      rewrite Eq, fold_outcome_map. cbn [fst snd]. clear. match goal with |- fold_outcome ?f ?l ?v = fold_outcome ?g ?l ?v => generalize v; induction l as [|a r IH]; intros w; cbn [fold_outcome]; auto end.
    }
    rewrite EF. match goal with |- bind ?x _ = _ => assert (UF : x = Ok (with_rows sv (A ++ se_new (se_lo s goal) (all_facts t) ps ++ B) (sv_temp sv))); [|now rewrite UF] end.
    apply (se_update_fold s goal (all_facts t) ps A nr B sv); auto.
    + intros f Hf. apply Hall in Hf. apply fact_lt in Hf. lia.
    + intros p Hi. destruct (combine_in_r _ _ p Hl Hi) as [f Hf]. apply Hp in Hf. apply Hf.
  - exists props, ps, goal. splits; auto. now apply rows_like_new.
  - assert (Hlo : forall f, is_fact t f -> (se_lo s goal f == ind (goal_facts t f) - ind (in_state s f))%Q).
    { intros [v d] Hf. apply fact_lt in Hf as Hv. cbn [fst] in Hv. unfold se_lo, in_state. cbn [fst snd]. destruct (goal_vec_at goal v Hgv Hv) as (g & Hn & Hd).
      rewrite (nth_error_nth _ _ None Hn). rewrite (nth_error_nth' s 0) by lia.
      assert (Eg : goal_facts t (v, d) = match g with Some d' => d' =? d | None => false end).
      { unfold goal_facts. destruct (existsb (feqb (v, d)) (t_goal t)) eqn:E.
        - apply existsb_exists in E. destruct E as (f' & Hi & Ef). apply feqb_eq in Ef. subst f'. apply Hd in Hi. subst g. now rewrite Nat.eqb_refl.
        - destruct g as [d'|]; auto. destruct (Nat.eqb_spec d' d) as [->|]; auto. assert (Hi : In (v, d) (t_goal t)) by now apply Hd. rewrite <- E. symmetry. symmetry. apply existsb_exists. exists (v, d). split; auto. apply feqb_refl. }
      rewrite Eg. destruct g as [d'|]; [destruct (d' =? d)|]; destruct (nth v s 0 =? d); cbn [ind]; lra. }
    intros y. split.
    + intros H f Hf Hx. assert (Hi : In f (all_facts t)) by (destruct f; now apply in_all_facts). destruct (combine_in_l _ _ f Hl Hi) as [p Hfp]. pose proof (Hp _ _ Hfp) as Hps.
      rewrite <- (Hlo f Hf), <- (prop_sum t f p y Hf Hps).
      assert (Hc : In (con (Some (se_lo s goal f)) None (se_terms p)) (se_new (se_lo s goal) (all_facts t) ps)) by (apply se_new_in; exists f, p; splits; auto; eapply prop_nonempty; eauto).
      destruct (H _ Hc) as [H1 _]. exact H1.
    + intros H r Hr. apply se_new_in in Hr. destruct Hr as (f & p & Hfp & Hne & ->). pose proof (Hp _ _ Hfp) as Hps. pose proof (Hall f (in_combine_l _ _ _ _ Hfp)) as Hf.
      split; [|exact Logic.I]. cbn [con c_lo c_terms above]. rewrite (Hlo f Hf), (prop_sum t f p y Hf Hps). apply H; auto. eapply prop_nonempty; eauto.
  - intros r Hr. apply se_new_in in Hr. destruct Hr as (f & p & Hfp & Hne & ->). cbn [con c_terms]. eapply prop_terms_nodup; eauto.
Qed.
End SE.

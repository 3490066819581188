(** Rules for default values: clauses, needed values, exactness. *)
From Coq Require Import List Permutation.
From Verif Require Import Outcome Spec_Task Spec_Graph Model_Sccs Proof_Sccs Spec_DefaultRules Model_DefaultRules Proof_DefaultRules Proof_SearchSpace.
Import ListNotations.
Local Open Scope nat_scope.

Section Task.
Variable t : task.
Hypothesis Ht : task_ok t.
Variable mode : axiom_handling.
Let n := length (t_vars t).

Lemma is_derived_spec v : is_derived t v = true <-> exists x k, is_var t v x /\ vlayer x = Some k.
Proof.
  unfold is_derived, layer_of, is_var. destruct (nth_error (t_vars t) v) as [x|].
  - destruct (vlayer x) as [k|] eqn:E; split; auto; [exists x, k; auto|discriminate|intros (y & k & H & K); congruence].
  - split; [discriminate|intros (y & k & H & _); discriminate].
Qed.
Lemma default_value_is v x : is_var t v x -> default_value t v = vdefault x.
Proof. unfold is_var, default_value. intros ->. reflexivity. Qed.
Lemma domain_size_is v x : is_var t v x -> domain_size t v = vdom x.
Proof. unfold is_var, domain_size. intros ->. reflexivity. Qed.
Lemma is_var_lt v x : is_var t v x -> v < n.
Proof. unfold is_var, n. intros H. apply nth_error_Some. congruence. Qed.
Lemma var_ok v x : is_var t v x -> variable_ok x.
Proof. intros H. destruct Ht as (HV & _). rewrite Forall_forall in HV. apply HV. eapply nth_error_In; eauto. Qed.
Lemma rule_in_ok r : In r (t_rules t) -> rule_ok t r.
Proof. intros H. destruct Ht as (_ & _ & HR & _). rewrite Forall_forall in HR. auto. Qed.
Lemma rules_for_In v r : In r (rules_for t v) <-> In r (t_rules t) /\ fst (r_head r) = v.
Proof. unfold rules_for. rewrite filter_In, Nat.eqb_eq. tauto. Qed.

(** *** Clauses *)
Lemma add_values_In v d : forall xs acc f, In f (fold_left (fun acc x => if x =? d then acc else set_add (v, x) acc) xs acc) <->
  In f acc \/ exists x, In x xs /\ x <> d /\ f = (v, x).
Proof.
  induction xs as [|x xs IH]; intros acc f; cbn [fold_left]; [split; auto; intros [?|(x & [] & _)]; auto|]. rewrite IH. destruct (Nat.eqb_spec x d) as [->|Hne].
  - split; [intros [?|(y & H1 & H2)]; auto; right; exists y; split; [right|]; tauto|]. intros [?|(y & [<-|H1] & H2 & H3)]; auto; [congruence|right; eauto].
  - rewrite set_add_In. split.
    + intros [[->|?]|(y & H1 & H2)]; auto; right; [exists x; split; [left|]; auto|exists y; split; [right|]; tauto].
    + intros [?|(y & [<-|H1] & H2 & H3)]; auto. right. eauto.
Qed.
Lemma add_values_sorted v d : forall xs acc, fsorted acc -> fsorted (fold_left (fun acc x => if x =? d then acc else set_add (v, x) acc) xs acc).
Proof. induction xs as [|x xs IH]; intros acc H; cbn [fold_left]; auto. apply IH. destruct (x =? d); auto. apply set_add_sorted; auto. Qed.
Lemma clause_In r f : In f (cnf_clause t r) <-> exists c, In c (r_body r) /\ fst f = fst c /\ snd f <> snd c /\ snd f < domain_size t (fst c).
Proof.
  unfold cnf_clause. assert (K : forall l acc, In f (fold_left (fun acc c => fold_left (fun acc x => if x =? snd c then acc else set_add (fst c, x) acc) (seq 0 (domain_size t (fst c))) acc) l acc) <->
    In f acc \/ exists c, In c l /\ fst f = fst c /\ snd f <> snd c /\ snd f < domain_size t (fst c)).
  { induction l as [|c l IH]; intros acc; cbn [fold_left]; [split; auto; intros [?|(x & [] & _)]; auto|]. rewrite IH, add_values_In. split.
    - intros [[?|(x & H1 & H2 & ->)]|(c' & H1 & H2)]; auto; right; [exists c; cbn; apply in_seq in H1; repeat split; auto; lia|exists c'; split; [right|]; tauto].
    - intros [?|(c' & [<-|H1] & H2 & H3 & H4)]; auto; [left; right|right; exists c'; auto].
      exists (snd f). rewrite in_seq. repeat split; auto; [lia|]. destruct f; cbn in *; congruence. }
  rewrite K. split; [intros [[]|H]; auto|auto].
Qed.
Lemma clause_NoDup r : NoDup (cnf_clause t r).
Proof.
  apply fsorted_NoDup. unfold cnf_clause. assert (K : forall l acc, fsorted acc -> fsorted (fold_left (fun acc c => fold_left (fun acc x => if x =? snd c then acc else set_add (fst c, x) acc) (seq 0 (domain_size t (fst c))) acc) l acc)).
  { induction l as [|c l IH]; intros acc H; cbn [fold_left]; auto. apply IH, add_values_sorted; auto. }
  apply K. exact Logic.I.
Qed.
Lemma state_value s v x : state_ok t s -> is_var t v x -> exists d, nth_error s v = Some d /\ d < vdom x.
Proof.
  unfold state_ok, is_var. intros HF. revert v. induction HF as [|d y s vs H HF IH]; intros [|v] Hv; cbn in *; try discriminate.
  - injection Hv as <-. eauto.
  - apply IH; auto.
Qed.
Definition holds_dec s f : {holds s f} + {~ holds s f}.
Proof. unfold holds. destruct (nth_error s (fst f)) as [x|]; [destruct (Nat.eq_dec x (snd f)); [left|right]; congruence|right; discriminate]. Defined.
Lemma all_hold_dec s fs : all_hold s fs \/ exists f, In f fs /\ ~ holds s f.
Proof.
  induction fs as [|f fs IH]; [left; intros ? []|]. destruct (holds_dec s f) as [H|H]; [|right; exists f; split; [left|]; auto].
  destruct IH as [IH|(g & Hg & Hn)]; [left; intros g [<-|Hg]; auto|right; exists g; split; [right|]; auto].
Qed.
Lemma clause_hit s r : state_ok t s -> In r (t_rules t) -> ((exists f, In f (cnf_clause t r) /\ holds s f) <-> ~ all_hold s (r_body r)).
Proof.
  intros Hs Hr. split.
  - intros (f & Hf & Hh) Ha. apply clause_In in Hf as (c & Hc & E1 & E2 & _). specialize (Ha c Hc). unfold holds in *. rewrite E1 in Hh. congruence.
  - intros Hn. destruct (all_hold_dec s (r_body r)) as [?|(c & Hc & Hh)]; [contradiction|].
    destruct (rule_in_ok r Hr) as (HB & _). rewrite Forall_forall in HB. destruct (HB c Hc) as (x & Hx & _).
    destruct (state_value s (fst c) x Hs Hx) as (d & Hd & Hlt). exists (fst c, d). split; [|exact Hd]. apply clause_In. exists c. cbn [fst snd].
    rewrite (domain_size_is _ _ Hx). repeat split; auto. intros ->. apply Hh. exact Hd.
Qed.

(** *** Derived values are supported by rules *)
Section State.
Variable s0 s : state.
Hypothesis Hs : state_ok t s.
Hypothesis Hm : stratified_model t s0 s.

Lemma supported_holds k v d : supported t s k v d -> holds s (v, d) /\ exists x, is_var t v x /\ vlayer x = Some k /\ d <> vdefault x.
Proof.
  intros Hsup. inversion Hsup as [r v' d' Hr Hh Hl _ _]; subst v' d'.
  destruct (rule_in_ok r Hr) as (_ & (x & Hx & Hd) & x' & k' & Hx' & Hk' & Hnd & _). rewrite Hh in *. cbn [fst snd] in *.
  assert (x' = x) by (unfold is_var in *; congruence). subst x'. assert (vlayer x = Some k) by (unfold layer_of, is_var in *; rewrite Hx in Hl; auto).
  split; [|exists x; auto]. destruct (state_value s v x Hs Hx) as (e & He & Hlt). unfold holds. cbn [fst snd]. rewrite He. f_equal.
  destruct Hm as (_ & _ & H3). destruct (H3 v x k e Hx H He) as [_ K2]. destruct (Nat.eq_dec e (vdefault x)) as [Heq|Hne]; [exfalso; apply (K2 Heq d Hnd); auto|].
  destruct (var_ok _ _ Hx) as (_ & Hdd & Hb). specialize (Hdd ltac:(congruence)). rewrite Hb in * by congruence. lia.
Qed.
(** A derived variable has a non-default value exactly if the body of one of its rules holds. *)
Lemma body_iff v x k : is_var t v x -> vlayer x = Some k ->
  (~ holds s (v, vdefault x) <-> exists r, In r (t_rules t) /\ fst (r_head r) = v /\ all_hold s (r_body r)).
Proof.
  intros Hx Hk. destruct (state_value s v x Hs Hx) as (e & He & Hlt). destruct Hm as (_ & _ & H3). destruct (H3 v x k e Hx Hk He) as [K1 K2]. split.
  - intros Hn. assert (Hne : e <> vdefault x) by (intros ->; apply Hn; exact He). specialize (K1 Hne). inversion K1 as [r v' d' Hr Hh Hl Hsame Hother]; subst.
    exists r. rewrite Hh. splits; auto. intros [w d] Hw. destruct (layer_of t w) as [k'|] eqn:El.
    + destruct (Nat.eq_dec k' k) as [->|Hkk]; [apply supported_holds with (k := k); auto|apply Hother; auto; congruence].
    + apply Hother; auto. congruence.
  - intros (r & Hr & Hh & Ha) Hd. unfold holds in Hd. cbn [fst snd] in Hd. assert (e = vdefault x) by congruence. subst e.
    destruct (rule_in_ok r Hr) as (HB & _ & x' & k' & Hx' & Hk' & Hnd & Hlay). rewrite Hh in Hx'. assert (x' = x) by (unfold is_var in *; congruence). subst x'. assert (k' = k) by congruence. subst k'.
    apply (K2 eq_refl (snd (r_head r)) Hnd). apply supported_rule with r; auto.
    + rewrite <- Hh. destruct (r_head r); auto.
    + unfold layer_of. unfold is_var in Hx. rewrite Hx. auto.
    + intros w d Hw Hl. unfold layer_of in Hl. destruct (nth_error (t_vars t) w) as [y|] eqn:Ey; [|discriminate].
      destruct (Hlay w d Hw y k Ey Hl) as [_ Hnd']. destruct (H3 w y k d Ey Hl (Ha _ Hw)) as [K3 _]. apply K3. auto.
Qed.
Lemma default_iff v x k : is_var t v x -> vlayer x = Some k ->
  (holds s (v, vdefault x) <-> forall r, In r (t_rules t) -> fst (r_head r) = v -> ~ all_hold s (r_body r)).
Proof.
  intros Hx Hk. pose proof (body_iff v x k Hx Hk) as B. split.
  - intros H r Hr Hh Ha. apply (proj2 B); eauto.
  - intros H. destruct (holds_dec s (v, vdefault x)) as [?|Hn]; auto. exfalso. apply B in Hn as (r & Hr & Hh & Ha). apply (H r); auto.
Qed.
(** The rules added for a variable that is not approximated. *)
Lemma add_for_var_exact v x k : is_var t v x -> vlayer x = Some k ->
  ((exists r, In r (add_for_var t (v, vdefault x) (rules_for t v)) /\ all_hold s (r_body r)) <-> holds s (v, vdefault x)).
Proof.
  intros Hx Hk. rewrite (default_iff v x k Hx Hk). unfold add_for_var. destruct (rules_for t v) as [|r0 l0] eqn:E.
  - split; [intros _ r Hr Hh; exfalso; assert (In r []) by (rewrite <- E; apply rules_for_In; auto); auto|].
    intros _. eexists. split; [left; reflexivity|]. intros ? [].
  - rewrite <- E. clear E. assert (C := collect_exact (map (cnf_clause t) (rules_for t v)) s).
    assert (HND : forall S, In S (map (cnf_clause t) (rules_for t v)) -> NoDup S) by (intros S HS; apply in_map_iff in HS as (r & <- & _); apply clause_NoDup).
    specialize (C HND). split.
    + intros (r & Hr & Ha). apply in_map_iff in Hr as (H & <- & HH). cbn [r_body] in Ha. assert (D : exists H, In H (collect (map (cnf_clause t) (rules_for t v)) (map (cnf_clause t) (rules_for t v)) [] [] []) /\ all_hold s H) by eauto.
      pose proof (proj1 C D) as D'. intros r Hr' Hh. apply (proj1 (clause_hit s r Hs Hr')). apply (D' (cnf_clause t r)). apply in_map, rules_for_In. auto.
    + intros H. destruct (proj2 C) as (M & HM & Ha).
      * intros S HS. apply in_map_iff in HS as (r & <- & Hr). apply rules_for_In in Hr as [Hr Hh]. apply (proj2 (clause_hit s r Hs Hr)). auto.
      * eexists. split; [apply in_map; exact HM|exact Ha].
Qed.
End State.
Lemma add_for_var_head h rules r : In r (add_for_var t h rules) -> r_head r = h.
Proof. unfold add_for_var. destruct rules; [intros [<-|[]]; auto|]. intros H. apply in_map_iff in H as (M & <- & _). auto. Qed.

(** Elements of collected sets are elements of the clauses. *)
Lemma collect_elems sets rest : forall hs vars res H, incl rest sets -> In H (collect sets rest hs vars res) ->
  In H res \/ forall f, In f H -> In f hs \/ exists S, In S sets /\ In f S.
Proof.
  induction rest as [|S rest IH]; intros hs vars res H Hr HH; cbn [collect] in HH.
  - destruct (uniquely_used sets hs); auto. apply add_result_In in HH as [HH| ->]; auto.
  - assert (Hr' : incl rest sets) by (intros x Hx; apply Hr; right; auto). destruct (existsb (fun f => set_mem f hs) S).
    + eapply IH; eauto.
    + assert (K : forall l res, incl l S -> In H (fold_left (fun results f => if existsb (Nat.eqb (fst f)) vars then results
             else collect sets rest (set_add f hs) (fst f :: vars) results) l res) -> In H res \/ forall f, In f H -> In f hs \/ exists S, In S sets /\ In f S).
      { induction l as [|f l IHl]; intros res0 Hl Hin; cbn [fold_left] in Hin; auto.
        apply IHl in Hin; [|intros x Hx; apply Hl; right; auto]. destruct Hin as [Hin|Hin]; auto. destruct (existsb (Nat.eqb (fst f)) vars); auto.
        destruct (IH _ _ _ _ Hr' Hin) as [?|Hs]; auto. right. intros g Hg. destruct (Hs g Hg) as [Hg'|?]; auto. apply set_add_In in Hg' as [->|?]; auto.
        right. exists S. split; [apply Hr; left; auto|apply Hl; left; auto]. }
      eapply K; eauto. apply incl_refl.
Qed.
Lemma add_for_var_body h v r f : In r (add_for_var t h (rules_for t v)) -> In f (r_body r) ->
  exists r' c, In r' (t_rules t) /\ fst (r_head r') = v /\ In c (r_body r') /\ fst f = fst c /\ snd f <> snd c /\ snd f < domain_size t (fst c).
Proof.
  unfold add_for_var. destruct (rules_for t v) as [|r0 l0] eqn:E; [intros [<-|[]] []|]. rewrite <- E. clear E. intros H Hf. apply in_map_iff in H as (M & <- & HM). cbn [r_body] in Hf.
  destruct (collect_elems _ _ _ _ _ _ (incl_refl _) HM) as [[]|K]. destruct (K f Hf) as [[]|(S & HS & HfS)]. apply in_map_iff in HS as (r' & <- & Hr'). apply rules_for_In in Hr' as [H1 H2].
  apply clause_In in HfS as (c & Hc). exists r', c. tauto.
Qed.

(** *** The worklist *)
Lemma pair_eqb_spec a b : pair_eqb a b = true <-> a = b.
Proof. destruct a as [a1 a2], b as [b1 b2]. unfold pair_eqb. cbn [fst snd]. rewrite andb_true_iff, Nat.eqb_eq, Bool.eqb_true_iff. split; [intros []; congruence|intros H; inversion H; auto]. Qed.
Lemma pair_mem p l : existsb (pair_eqb p) l = true <-> In p l.
Proof. rewrite existsb_exists. split; [intros (x & H & E); apply pair_eqb_spec in E; congruence|intros; exists p; split; auto; apply pair_eqb_spec; auto]. Qed.
Lemma add_needed_spec ps : forall needed queue needed' queue', fold_left add_needed ps (needed, queue) = (needed', queue') -> NoDup needed ->
  exists new, needed' = needed ++ new /\ queue' = queue ++ new /\ NoDup needed' /\ incl ps needed' /\ incl new ps.
Proof.
  induction ps as [|p ps IH]; intros needed queue needed' queue' E ND; cbn [fold_left add_needed] in E.
  - injection E as <- <-. exists []. rewrite !app_nil_r. splits; auto; [intros ? []|intros ? []].
  - destruct (existsb (pair_eqb p) needed) eqn:Ep.
    + apply pair_mem in Ep. destruct (IH _ _ _ _ E ND) as (new & -> & -> & H1 & H2 & H3). exists new. splits; auto.
      * intros x [<-|Hx]; auto. apply in_app_iff. auto.
      * intros x Hx. right. auto.
    + assert (Hp : ~ In p needed) by (rewrite <- pair_mem; congruence).
      destruct (IH _ _ _ _ E) as (new & -> & -> & H1 & H2 & H3).
      { apply NoDup_snoc; auto. }
      exists (p :: new). rewrite <- !app_assoc in *. cbn [app] in *. splits; auto.
      * intros x [<-|Hx]; auto. apply in_app_iff. right. left. auto.
      * intros x [<-|Hx]; [left; auto|right; auto].
Qed.
Lemma process_spec sccs (ok : nat * bool -> Prop) : 
  (forall p, ok p -> exists l, successors t mode sccs p = Ok l /\ forall q, In q l -> ok q) ->
  (forall l, NoDup l -> (forall p, In p l -> ok p) -> length l <= 2 * n) ->
  forall fuel done needed queue, NoDup needed -> Permutation needed (done ++ queue) -> (forall p, In p needed -> ok p) ->
  (forall p, In p done -> exists l, successors t mode sccs p = Ok l /\ incl l needed) -> 2 * n <= fuel + length done ->
  exists N, process t mode fuel sccs needed queue = Ok N /\ incl needed N /\ NoDup N /\ (forall p, In p N -> ok p) /\
    forall p, In p N -> exists l, successors t mode sccs p = Ok l /\ incl l N.
Proof.
  intros Hsucc Hbound. induction fuel as [|fuel IH]; intros done needed queue ND HP Hok Hdone Hf; destruct queue as [|p queue]; cbn [process].
  1,3: exists needed; splits; auto; [apply incl_refl|]; intros p Hp; rewrite app_nil_r in HP; apply Hdone; eapply Permutation_in; eauto.
  - exfalso. pose proof (Hbound needed ND Hok) as B. apply Permutation_length in HP. rewrite app_length in HP. cbn in HP. lia.
  - assert (Hp : In p needed) by (eapply Permutation_in; [apply Permutation_sym; exact HP|]; apply in_app_iff; right; left; auto).
    destruct (Hsucc p (Hok p Hp)) as (l & El & Hl). rewrite El. cbn [bind].
    destruct (fold_left add_needed l (needed, queue)) as [needed' queue'] eqn:Ef.
    destruct (add_needed_spec _ _ _ _ _ Ef ND) as (new & -> & -> & ND' & Hi & Hn).
    destruct (IH (p :: done) (needed ++ new) (queue ++ new)) as (N & E & H1 & H2 & H3 & H4); auto.
    + cbn [app]. apply Permutation_trans with ((done ++ p :: queue) ++ new); [apply Permutation_app_tail; auto|]. rewrite <- app_assoc. cbn [app].
      apply Permutation_sym, Permutation_middle.
    + intros q Hq. apply in_app_iff in Hq as [Hq|Hq]; auto.
    + intros q [<-|Hq]; [exists l; auto|]. destruct (Hdone q Hq) as (l' & E' & H'). exists l'. split; auto. intros x Hx. apply in_app_iff. auto.
    + cbn [length]. lia.
    + exists N. splits; auto. intros x Hx. apply H1, in_app_iff. auto.
Qed.

(** Pairs of derived variables. *)
Definition pair_ok (p : nat * bool) : Prop := is_derived t (fst p) = true.
Lemma derived_lt v : is_derived t v = true -> v < n.
Proof. intros H. apply is_derived_spec in H as (x & k & Hx & _). eapply is_var_lt; eauto. Qed.
Lemma pairs_bound l : NoDup l -> (forall p, In p l -> pair_ok p) -> length l <= 2 * n.
Proof.
  intros ND H. replace (2 * n) with (length (list_prod (seq 0 n) [true; false])) by (rewrite prod_length, seq_length; cbn; lia).
  apply NoDup_incl_length; auto. intros [v b] Hp. apply in_prod_iff. split; [apply in_seq; apply H, derived_lt in Hp; cbn in Hp; lia|destruct b; cbn; auto].
Qed.
Lemma dependencies_In b v w : In w (dependencies t b v) <-> exists r f, In r (t_rules t) /\ fst (r_head r) = v /\ In f (r_body r) /\ fst f = w /\ is_derived t w = true /\
  (snd f = default_value t w <-> b = true).
Proof.
  unfold dependencies. rewrite in_flat_map. split.
  - intros (r & Hr & H). apply rules_for_In in Hr as [H1 H2]. apply in_flat_map in H as (f & Hf & H). destruct (is_derived t (fst f)) eqn:Ed; cbn [andb] in H; [|destruct H].
    destruct (Bool.eqb (snd f =? default_value t (fst f)) b) eqn:Eb; [|destruct H]. destruct H as [<-|[]]. exists r, f. splits; auto. apply Bool.eqb_prop in Eb. rewrite <- Eb. rewrite Nat.eqb_eq. tauto.
  - intros (r & f & H1 & H2 & H3 & <- & H5 & H6). exists r. split; [apply rules_for_In; auto|]. apply in_flat_map. exists f. split; auto. rewrite H5. cbn [andb].
    replace (Bool.eqb (snd f =? default_value t (fst f)) b) with true; [left; auto|]. symmetry. apply Bool.eqb_true_iff. apply Bool.eq_iff_eq_true. rewrite Nat.eqb_eq. auto.
Qed.
Lemma row_nd v : v < n -> vget (nondefault_dependencies t) v = Ok (dependencies t false v).
Proof. intros H. apply vget_ok. unfold nondefault_dependencies. rewrite nth_error_map, nth_error_nth' with (d := 0) by (rewrite seq_length; auto). rewrite seq_nth by auto. reflexivity. Qed.
Lemma row_d v : v < n -> vget (default_dependencies t) v = Ok (dependencies t true v).
Proof. intros H. apply vget_ok. unfold default_dependencies. rewrite nth_error_map, nth_error_nth' with (d := 0) by (rewrite seq_length; auto). rewrite seq_nth by auto. reflexivity. Qed.
Lemma row_rules v : v < n -> vget (axiom_ids_for_var t) v = Ok (rules_for t v).
Proof. intros H. apply vget_ok. unfold axiom_ids_for_var. rewrite nth_error_map, nth_error_nth' with (d := 0) by (rewrite seq_length; auto). rewrite seq_nth by auto. reflexivity. Qed.

Lemma graph_edge v w : edge (nondefault_dependencies t) v w <-> v < n /\ In w (dependencies t false v).
Proof.
  unfold edge. split.
  - intros (l & Hl & Hw). assert (Hv : v < n) by (assert (v < length (nondefault_dependencies t)) by (apply nth_error_Some; congruence); unfold nondefault_dependencies in *; rewrite map_length, seq_length in *; auto).
    pose proof (row_nd v Hv) as R. apply vget_ok in R. split; auto. congruence.
  - intros [Hv Hw]. exists (dependencies t false v). split; auto. apply vget_ok, row_nd. auto.
Qed.
Lemma graph_wf : well_formed (nondefault_dependencies t).
Proof.
  intros v w H. apply graph_edge in H as [_ H]. unfold nondefault_dependencies. rewrite map_length, seq_length. apply derived_lt. apply dependencies_In in H as (r & f & _ & _ & _ & _ & H & _). auto.
Qed.

(** The components when cycles are examined. *)
Definition sccs_ok (sccs : list (list nat)) : Prop :=
  match mode with APPROXIMATE_NEGATIVE => True | APPROXIMATE_NEGATIVE_CYCLES => sccs_in_topological_order (nondefault_dependencies t) sccs end.
Lemma make_sccs_ok : exists sccs, make_sccs t mode = Ok sccs /\ sccs_ok sccs.
Proof.
  unfold make_sccs, sccs_ok. destruct mode; [exists []; auto|]. apply sccs_correct, graph_wf.
Qed.
Lemma scc_find sccs v : sccs_in_topological_order (nondefault_dependencies t) sccs -> v < n -> exists C, find (existsb (Nat.eqb v)) sccs = Some C /\ In C sccs /\ In v C.
Proof.
  intros (HP & _) Hv. assert (Hin : In v (concat sccs)).
  { eapply Permutation_in; [apply Permutation_sym; exact HP|]. apply in_seq. unfold nondefault_dependencies. rewrite map_length, seq_length. unfold n in Hv. lia. }
  apply in_concat in Hin as (C & HC & HvC). destruct (find (existsb (Nat.eqb v)) sccs) as [D|] eqn:E.
  - apply find_some in E as [E1 E2]. apply existsb_exists in E2 as (w & Hw & Ew). apply Nat.eqb_eq in Ew. subst. eauto.
  - exfalso. pose proof (find_none _ _ E C HC) as K. assert (existsb (Nat.eqb v) C = true) by (apply existsb_exists; exists v; split; auto; apply Nat.eqb_refl). congruence.
Qed.
Lemma approximated_ok sccs v : sccs_ok sccs -> v < n -> exists a, approximated mode sccs v = Ok a /\
  (mode = APPROXIMATE_NEGATIVE -> a = true) /\ (mode = APPROXIMATE_NEGATIVE_CYCLES -> a = false -> exists i, nth_error sccs i = Some [v]).
Proof.
  intros Hs Hv. unfold approximated, sccs_ok in *. destruct mode; [exists true; splits; auto; discriminate|]. unfold scc_size.
  destruct (scc_find sccs v Hs Hv) as (C & -> & HC & HvC). cbn [bind]. eexists. splits; [reflexivity|discriminate|]. intros _ Hl. apply Nat.ltb_ge in Hl.
  apply In_nth_error in HC as (i & Hi). exists i. rewrite Hi. f_equal. destruct C as [|a [|b C]]; [destruct HvC|destruct HvC as [->|[]]; auto|cbn in Hl; lia].
Qed.
Lemma successors_ok sccs p : sccs_ok sccs -> pair_ok p -> exists l, successors t mode sccs p = Ok l /\ (forall q, In q l -> pair_ok q) /\
  exists skip, (snd p = true -> approximated mode sccs (fst p) = Ok skip) /\ (snd p = false -> skip = false) /\
    (skip = false -> (forall w, In w (dependencies t false (fst p)) -> In (w, snd p) l) /\ (forall w, In w (dependencies t true (fst p)) -> In (w, negb (snd p)) l)).
Proof.
  intros Hs Hp. assert (Hv := derived_lt _ Hp). destruct p as [v b]. cbn [fst snd] in *. unfold successors.
  destruct (approximated_ok sccs v Hs Hv) as (a & Ea & _ & _).
  assert (Hskip : exists skip, (if b then approximated mode sccs v else Ok false) = Ok skip /\ (b = true -> skip = a) /\ (b = false -> skip = false)).
  { destruct b; [exists a|exists false]; splits; auto; discriminate. }
  destruct Hskip as (skip & -> & Hs1 & Hs2). cbn [bind]. destruct skip.
  - exists []. splits; auto; [intros ? []|]. exists true. splits; [intros Hb; rewrite Ea, (Hs1 Hb); auto|auto|discriminate].
  - rewrite row_nd, row_d by auto. cbn [bind]. eexists. split; [reflexivity|]. split.
    + intros q Hq. apply in_app_iff in Hq as [Hq|Hq]; apply in_map_iff in Hq as (w & <- & Hw); apply dependencies_In in Hw as (r & f & _ & _ & _ & _ & H & _); exact H.
    + exists false. splits; [intros Hb; rewrite Ea, (Hs1 Hb); auto|auto|]. intros _. split; intros w Hw; apply in_app_iff; [left|right]; apply in_map_iff; exists w; auto.
Qed.
Lemma condition_pairs_In fs p : In p (condition_pairs t fs) <-> exists f, In f fs /\ is_derived t (fst f) = true /\ p = (fst f, snd f =? default_value t (fst f)).
Proof.
  unfold condition_pairs. rewrite in_flat_map. split.
  - intros (f & Hf & H). destruct (is_derived t (fst f)) eqn:E; [destruct H as [<-|[]]; exists f; auto|destruct H].
  - intros (f & Hf & E & ->). exists f. split; auto. rewrite E. left. auto.
Qed.
Lemma initial_pairs_In p : In p (initial_pairs t) <-> exists f, used t f /\ is_derived t (fst f) = true /\ p = (fst f, snd f =? default_value t (fst f)).
Proof.
  unfold initial_pairs. rewrite in_app_iff, in_flat_map. unfold used. split.
  - intros [H|(op & Hop & H)].
    + apply condition_pairs_In in H as (f & Hf & H). exists f. split; auto.
    + apply in_app_iff in H as [H|H]; [apply condition_pairs_In in H as (f & Hf & H); exists f; split; [right; exists op; auto|auto]|].
      apply in_flat_map in H as (e & He & H). apply condition_pairs_In in H as (f & Hf & H). exists f. split; [right; exists op; split; [auto|right; eauto]|auto].
  - intros (f & [Hf|(op & Hop & [Hf|(e & He & Hf)])] & H).
    + left. apply condition_pairs_In. eauto.
    + right. exists op. split; auto. apply in_app_iff. left. apply condition_pairs_In. eauto.
    + right. exists op. split; auto. apply in_app_iff. right. apply in_flat_map. exists e. split; auto. apply condition_pairs_In. eauto.
Qed.

Record closed_pairs (sccs : list (list nat)) (N : list (nat * bool)) : Prop := {
  N_nodup : NoDup N;
  N_ok : forall p, In p N -> pair_ok p;
  N_used : forall f, used t f -> is_derived t (fst f) = true -> In (fst f, snd f =? default_value t (fst f)) N;
  N_false : forall v w, In (v, false) N -> (In w (dependencies t false v) -> In (w, false) N) /\ (In w (dependencies t true v) -> In (w, true) N);
  N_true : forall v w, In (v, true) N -> approximated mode sccs v = Ok false -> (In w (dependencies t false v) -> In (w, true) N) /\ (In w (dependencies t true v) -> In (w, false) N)
}.
Lemma needed_ok sccs : sccs_ok sccs -> exists N, needed_pairs t mode sccs = Ok N /\ closed_pairs sccs N.
Proof.
  intros Hs. unfold needed_pairs. destruct (fold_left add_needed (initial_pairs t) ([], [])) as [start queue] eqn:E0. cbn [fst].
  destruct (add_needed_spec _ _ _ _ _ E0 (NoDup_nil _)) as (new & -> & -> & ND & Hi & Hn). cbn [app] in *.
  destruct (process_spec sccs pair_ok) with (fuel := 2 * n) (done := @nil (nat * bool)) (needed := new) (queue := new) as (N & E & H1 & H2 & H3 & H4).
  - intros p Hp. destruct (successors_ok sccs p Hs Hp) as (l & El & Hl & _). eauto.
  - apply pairs_bound.
  - auto.
  - apply Permutation_refl.
  - intros p Hp. apply Hn, initial_pairs_In in Hp as (f & _ & H & ->). exact H.
  - intros ? [].
  - cbn. lia.
  - exists N. split; [exact E|]. assert (HC : forall p, In p N -> exists l, successors t mode sccs p = Ok l /\ incl l N) by auto. split; auto.
    + intros f Hf Hd. apply H1, Hi, initial_pairs_In. eauto.
    + intros v w Hv. destruct (HC _ Hv) as (l & El & Hl). destruct (successors_ok sccs (v, false) Hs (H3 _ Hv)) as (l' & El' & _ & skip & _ & K & K2). assert (l' = l) by congruence. subst l'.
      cbn [fst snd] in *. destruct (K2 (K eq_refl)) as [K3 K4]. split; intros Hw; apply Hl; [apply K3; exact Hw|apply (K4 w Hw)].
    + intros v w Hv Ha. destruct (HC _ Hv) as (l & El & Hl). destruct (successors_ok sccs (v, true) Hs (H3 _ Hv)) as (l' & El' & _ & skip & K0 & K & K2). assert (l' = l) by congruence. subst l'.
      cbn [fst snd] in *. assert (skip = false) by (specialize (K0 eq_refl); congruence). destruct (K2 H) as [K3 K4]. split; intros Hw; apply Hl; [apply K3; exact Hw|apply (K4 w Hw)].
Qed.

(** *** The added rules *)
Lemma default_value_axioms_ok : exists sccs N added, sccs_ok sccs /\ closed_pairs sccs N /\ default_value_axioms t mode = Ok added /\
  forall r, In r added <-> exists v a, In (v, true) N /\ approximated mode sccs v = Ok a /\
    In r (if a : bool then [{| r_body := []; r_head := (v, default_value t v) |}] else add_for_var t (v, default_value t v) (rules_for t v)).
Proof.
  destruct make_sccs_ok as (sccs & E1 & Hs). destruct (needed_ok sccs Hs) as (N & E2 & HN). unfold default_value_axioms, default_needed. rewrite E1. cbn [bind]. rewrite E2. cbn [bind].
  assert (K : forall vars acc, (forall v, In v vars -> v < n) -> exists added, fold_outcome (fun acc v => let* rules := vget (axiom_ids_for_var t) v in
      let head := (v, default_value t v) in let* a := approximated mode sccs v in
      Ok (acc ++ if a : bool then [{| r_body := []; r_head := head |}] else add_for_var t head rules)) vars acc = Ok added /\
    forall r, In r added <-> In r acc \/ exists v a, In v vars /\ approximated mode sccs v = Ok a /\
      In r (if a : bool then [{| r_body := []; r_head := (v, default_value t v) |}] else add_for_var t (v, default_value t v) (rules_for t v))).
  { induction vars as [|v vars IH]; intros acc Hv; cbn [fold_outcome].
    - exists acc. split; auto. intros r. split; auto. intros [?|(v & a & [] & _)]; auto.
    - rewrite row_rules by (apply Hv; left; auto). cbn [bind]. destruct (approximated_ok sccs v Hs (Hv v (or_introl eq_refl))) as (a & Ea & _). rewrite Ea. cbn [bind].
      destruct (IH (acc ++ if a then [{| r_body := []; r_head := (v, default_value t v) |}] else add_for_var t (v, default_value t v) (rules_for t v))) as (added & E & H); [intros; apply Hv; right; auto|].
      exists added. split; [exact E|]. intros r. rewrite H, in_app_iff. split.
      + intros [[?|?]|(w & b & H1 & H2)]; auto; right; [exists v, a; splits; auto; left; auto|exists w, b; split; [right|]; auto].
      + intros [?|(w & b & [<-|H1] & H2 & H3)]; auto; [|right; exists w, b; auto]. left. right. assert (b = a) by congruence. subst. auto. }
  destruct (K (map fst (filter (fun p : nat * bool => snd p) N)) []) as (added & E & H).
  { intros v Hv. apply in_map_iff in Hv as ([w b] & <- & Hw). apply filter_In in Hw as [Hw _]. apply (N_ok _ _ HN) in Hw. apply derived_lt. exact Hw. }
  exists sccs, N, added. splits; auto. intros r. rewrite H. split.
  - intros [[]|(v & a & Hv & H1)]. exists v, a. split; auto. apply in_map_iff in Hv as ([w b] & <- & Hw). apply filter_In in Hw as [Hw Hb]. cbn in *. subst. auto.
  - intros (v & a & Hv & H1). right. exists v, a. split; auto. apply in_map_iff. exists (v, true). split; auto. apply filter_In. auto.
Qed.
End Task.

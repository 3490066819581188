(** Proofs about operator-counting constraints, part 1: sums, tables, loops, rows of the solver. *)
From Coq Require Import QArith Lqa Permutation.
From Verif Require Import Outcome Spec_Task Spec_LP Spec_OperatorCounting Model_LPSolver Model_OperatorCounting.
Local Open Scope nat_scope.

(** ** Sums *)
Lemma qsum_ext {A} (f g : A -> Q) l : (forall a, In a l -> (f a == g a)%Q) -> (qsum f l == qsum g l)%Q.
Proof.
  induction l as [|a r IH]; intros H; cbn [qsum]; [reflexivity|]. rewrite (H a (or_introl eq_refl)), IH; [reflexivity|].
  intros b Hb. apply H. now right.
Qed.
Lemma qsum_app {A} (f : A -> Q) l l' : (qsum f (l ++ l') == qsum f l + qsum f l')%Q.
Proof. induction l as [|a r IH]; cbn [app qsum]; [ring|]. rewrite IH. ring. Qed.
Lemma qsum_map {A B} (f : B -> Q) (g : A -> B) l : qsum f (map g l) = qsum (fun a => f (g a)) l.
Proof. induction l as [|a r IH]; cbn [map qsum]; [auto|]. now rewrite IH. Qed.
Lemma qsum_perm {A} (f : A -> Q) l l' : Permutation l l' -> (qsum f l == qsum f l')%Q.
Proof. induction 1; cbn [qsum]; try rewrite IHPermutation; try ring. rewrite IHPermutation1. exact IHPermutation2. Qed.
Lemma qsum_scale {A} (f : A -> Q) c l : (qsum (fun a => c * f a) l == c * qsum f l)%Q.
Proof. induction l as [|a r IH]; cbn [qsum]; [ring|]. rewrite IH. ring. Qed.
Lemma qsum_plus {A} (f g : A -> Q) l : (qsum (fun a => f a + g a) l == qsum f l + qsum g l)%Q.
Proof. induction l as [|a r IH]; cbn [qsum]; [ring|]. rewrite IH. ring. Qed.
Lemma qsum_le {A} (f g : A -> Q) l : (forall a, In a l -> (f a <= g a)%Q) -> (qsum f l <= qsum g l)%Q.
Proof.
  induction l as [|a r IH]; intros H; cbn [qsum]; [lra|]. pose proof (H a (or_introl eq_refl)).
  assert (qsum f r <= qsum g r)%Q by (apply IH; intros b Hb; apply H; now right). lra.
Qed.
Lemma qsum_nonneg {A} (f : A -> Q) l : (forall a, In a l -> (0 <= f a)%Q) -> (0 <= qsum f l)%Q.
Proof.
  induction l as [|a r IH]; intros H; cbn [qsum]; [lra|]. pose proof (H a (or_introl eq_refl)).
  assert (0 <= qsum f r)%Q by (apply IH; intros b Hb; apply H; now right). lra.
Qed.
Lemma qsum_zero {A} (f : A -> Q) l : (forall a, In a l -> (f a == 0)%Q) -> (qsum f l == 0)%Q.
Proof.
  induction l as [|a r IH]; intros H; cbn [qsum]; [lra|]. rewrite (H a (or_introl eq_refl)), IH; [ring|].
  intros b Hb. apply H. now right.
Qed.
Lemma qsum_filter {A} (p : A -> bool) (f : A -> Q) l : (qsum f (filter p l) == qsum (fun a => ind (p a) * f a) l)%Q.
Proof. induction l as [|a r IH]; cbn [filter qsum]; [reflexivity|]. destruct (p a); cbn [qsum ind]; rewrite IH; ring. Qed.
Lemma lin_app x l l' : (lin x (l ++ l') == lin x l + lin x l')%Q.
Proof. unfold lin. apply qsum_app. Qed.
Lemma lin_ext x y l : (forall i a, In (i, a) l -> (x i == y i)%Q) -> (lin x l == lin y l)%Q.
Proof. intros H. unfold lin. apply qsum_ext. intros [i a] Hi. cbn [fst snd]. now rewrite (H i a Hi). Qed.
Lemma con_ok_ext x y c : (forall i a, In (i, a) (c_terms c) -> (x i == y i)%Q) -> con_ok x c -> con_ok y c.
Proof.
  intros H [H1 H2]. pose proof (lin_ext x y (c_terms c) H) as E. split.
  - destruct (c_lo c); cbn [above] in *; auto. now rewrite <- E.
  - destruct (c_up c); cbn [below] in *; auto. now rewrite <- E.
Qed.
Lemma integral_ext p q : (p == q)%Q -> integral p -> integral q.
Proof. intros E [z Hz]. exists z. now rewrite <- E. Qed.
Lemma var_ok_ext p q v : (p == q)%Q -> var_ok p v -> var_ok q v.
Proof.
  intros E (H1 & H2 & H3). unfold var_ok. splits.
  - destruct (v_lo v); cbn [above] in *; auto. now rewrite <- E.
  - destruct (v_up v); cbn [below] in *; auto. now rewrite <- E.
  - intros Hi. eapply integral_ext; eauto.
Qed.

(** ** Numbered lists *)
Lemma numbered_nth {A} (l : list A) : forall k i a, nth_error l i = Some a -> In (k + i, a) (combine (seq k (length l)) l).
Proof.
  induction l as [|b r IH]; intros k [|i] a H; try discriminate; cbn [length seq combine].
  - inv H. left. f_equal. lia.
  - right. replace (k + S i) with (S k + i) by lia. now apply IH.
Qed.
Lemma numbered_in_from {A} (l : list A) : forall k j a, In (j, a) (combine (seq k (length l)) l) -> k <= j /\ nth_error l (j - k) = Some a.
Proof.
  induction l as [|b r IH]; intros k j a H; cbn [length seq combine] in H; [destruct H|]. destruct H as [H|H].
  - inv H. rewrite Nat.sub_diag. auto.
  - apply IH in H. destruct H as [H1 H2]. split; [lia|]. replace (j - k) with (S (j - S k)) by lia. exact H2.
Qed.
Lemma numbered_in {A} (l : list A) j a : In (j, a) (numbered l) <-> nth_error l j = Some a.
Proof.
  unfold numbered. split.
  - intros H. apply numbered_in_from in H. destruct H as [_ H]. now rewrite Nat.sub_0_r in H.
  - intros H. apply (numbered_nth l 0 j a H).
Qed.
Lemma numbered_fst {A} (l : list A) : map fst (numbered l) = seq 0 (length l).
Proof. unfold numbered. generalize 0. induction l as [|a r IH]; intros k; cbn [length seq combine map fst]; [auto|]. now rewrite IH. Qed.
Lemma numbered_nodup {A} (l : list A) : NoDup (numbered l).
Proof. apply (NoDup_map_inv fst). rewrite numbered_fst. apply seq_NoDup. Qed.
Lemma in_op_effects t o f : In (o, f) (op_effects t) <-> exists op e, is_op t o op /\ In e (op_effs op) /\ eff_fact e = f.
Proof.
  unfold op_effects. rewrite in_concat. split.
  - intros (l & Hl & Hi). apply in_map_iff in Hl. destruct Hl as ([o' op] & <- & Ho). apply in_map_iff in Hi. destruct Hi as (e & E & He). cbn [fst snd] in *. inv E.
    exists op, e. splits; auto. now apply numbered_in.
  - intros (op & e & Ho & He & <-). eexists. split; [apply in_map_iff; exists (o, op); split; [reflexivity|now apply numbered_in]|]. cbn [fst snd]. now apply (in_map (fun e => (o, eff_fact e))).
Qed.
Lemma in_op_pres t o f : In (o, f) (op_pres t) <-> exists op, is_op t o op /\ In f (op_pre op).
Proof.
  unfold op_pres. rewrite in_concat. split.
  - intros (l & Hl & Hi). apply in_map_iff in Hl. destruct Hl as ([o' op] & <- & Ho). apply in_map_iff in Hi. destruct Hi as (e & E & He). cbn [fst snd] in *. inv E.
    exists op. splits; auto. now apply numbered_in.
  - intros (op & Ho & He). eexists. split; [apply in_map_iff; exists (o, op); split; [reflexivity|now apply numbered_in]|]. cbn [fst snd]. now apply (in_map (fun f => (o, f))).
Qed.
Lemma in_op_eff_pre t o e f : In (o, e, f) (op_eff_pre t) <-> exists op e', is_op t o op /\ In e' (op_effs op) /\ eff_fact e' = e /\ In f (op_pre op).
Proof.
  unfold op_eff_pre. rewrite in_concat. split.
  - intros (l & Hl & Hi). apply in_map_iff in Hl. destruct Hl as ([o' op] & <- & Ho). cbn [fst snd] in Hi. apply in_concat in Hi. destruct Hi as (l & Hl & Hi). apply in_map_iff in Hl. destruct Hl as (e' & <- & He).
    apply in_map_iff in Hi. destruct Hi as (f' & E & Hf). inv E. exists op, e'. splits; auto. now apply numbered_in.
  - intros (op & e' & Ho & He & <- & Hf). eexists. split; [apply in_map_iff; exists (o, op); split; [reflexivity|now apply numbered_in]|]. cbn [fst snd].
    apply in_concat. eexists. split; [apply in_map_iff; exists e'; split; [reflexivity|auto]|]. now apply (in_map (fun f => (o, eff_fact e', f))).
Qed.
Lemma in_op_pre_eff t o e f : In (o, f, e) (op_pre_eff t) <-> exists op e', is_op t o op /\ In e' (op_effs op) /\ eff_fact e' = e /\ In f (op_pre op).
Proof.
  unfold op_pre_eff. rewrite in_concat. split.
  - intros (l & Hl & Hi). apply in_map_iff in Hl. destruct Hl as ([o' op] & <- & Ho). cbn [fst snd] in Hi. apply in_concat in Hi. destruct Hi as (l & Hl & Hi). apply in_map_iff in Hl. destruct Hl as (f' & <- & Hf).
    apply in_map_iff in Hi. destruct Hi as (e' & E & He). inv E. exists op, e'. splits; auto. now apply numbered_in.
  - intros (op & e' & Ho & He & <- & Hf). eexists. split; [apply in_map_iff; exists (o, op); split; [reflexivity|now apply numbered_in]|]. cbn [fst snd].
    apply in_concat. eexists. split; [apply in_map_iff; exists f; split; [reflexivity|auto]|]. now apply (in_map (fun e' => (o, f, eff_fact e'))).
Qed.
Lemma in_all_facts t v d : In (v, d) (all_facts t) <-> is_fact t (v, d).
Proof.
  unfold all_facts, is_fact, fact_ok, is_var. cbn [fst snd]. rewrite in_concat. split.
  - intros (l & Hl & Hi). apply in_map_iff in Hl. destruct Hl as ([v' x] & <- & Hv). apply in_map_iff in Hi. destruct Hi as (d' & E & Hd). cbn [fst snd] in *. inv E.
    exists x. split; [now apply numbered_in|]. apply in_seq in Hd. lia.
  - intros (x & Hv & Hd). eexists. split; [apply in_map_iff; exists (v, x); split; [reflexivity|now apply numbered_in]|]. cbn [fst snd]. apply in_map. apply in_seq. lia.
Qed.
Lemma feqb_eq f g : feqb f g = true <-> f = g.
Proof.
  unfold feqb. rewrite andb_true_iff, !Nat.eqb_eq. destruct f, g; cbn [fst snd]. split; [intros [-> ->]; auto|intros E; inv E; auto].
Qed.
Lemma feqb_refl f : feqb f f = true. Proof. now apply feqb_eq. Qed.
Lemma feqb_sym f g : feqb f g = feqb g f.
Proof. destruct (feqb g f) eqn:E; [apply feqb_eq in E; subst; apply feqb_refl|]. destruct (feqb f g) eqn:E2; auto. apply feqb_eq in E2. subst. rewrite feqb_refl in E. discriminate. Qed.
Lemma adds_spec op f : adds op f = true <-> exists e, In e (op_effs op) /\ eff_fact e = f.
Proof. unfold adds. rewrite existsb_exists. split; intros (e & He & E); exists e; split; auto; now apply feqb_eq. Qed.
Lemma needs_spec op f : needs op f = true <-> In f (op_pre op).
Proof.
  unfold needs. rewrite existsb_exists. split.
  - intros (g & Hg & E). apply feqb_eq in E. now subst.
  - intros H. exists f. split; auto. apply feqb_refl.
Qed.
Lemma consumes_spec op f : consumes op f = true <-> In f (op_pre op) /\ exists e, In e (op_effs op) /\ fst (eff_fact e) = fst f.
Proof.
  unfold consumes. rewrite andb_true_iff, needs_spec, existsb_exists. split; intros [H (e & He & E)]; split; auto; exists e; split; auto; now apply Nat.eqb_eq.
Qed.

(** Sums over the operators with a property. *)
Lemma opsum_ext t f g : (forall o op, is_op t o op -> (f o op == g o op)%Q) -> (opsum t f == opsum t g)%Q.
Proof. intros H. unfold opsum. apply qsum_ext. intros [o op] Hi. cbn [fst snd]. apply H. now apply numbered_in. Qed.
Lemma opsum_le t f g : (forall o op, is_op t o op -> (f o op <= g o op)%Q) -> (opsum t f <= opsum t g)%Q.
Proof. intros H. unfold opsum. apply qsum_le. intros [o op] Hi. cbn [fst snd]. apply H. now apply numbered_in. Qed.
Lemma opsum_nonneg t f : (forall o op, is_op t o op -> (0 <= f o op)%Q) -> (0 <= opsum t f)%Q.
Proof. intros H. unfold opsum. apply qsum_nonneg. intros [o op] Hi. cbn [fst snd]. apply H. now apply numbered_in. Qed.
Lemma opsum_select t (p : operator -> bool) (x : nat -> Q) L : NoDup L -> (forall o, In o L <-> exists op, is_op t o op /\ p op = true) ->
  (qsum x L == opsum t (fun o op => ind (p op) * x o))%Q.
Proof.
  intros Hn HL. transitivity (qsum x (map fst (filter (fun io : nat * operator => p (snd io)) (numbered (t_ops t))))).
  - apply qsum_perm. apply NoDup_Permutation; auto.
    + assert (G : forall l : list (nat * operator), NoDup (map fst l) -> NoDup (map fst (filter (fun io => p (snd io)) l))).
      { induction l as [|a r IH]; cbn [map filter]; intros H; [constructor|]. inv H. destruct (p (snd a)); cbn [map]; auto. constructor; auto.
        intros Hi. apply in_map_iff in Hi. destruct Hi as (b & E & Hb). apply filter_In in Hb. destruct Hb as [Hb _]. apply H2. rewrite <- E. now apply in_map. }
      apply G. rewrite numbered_fst. apply seq_NoDup.
    + intros o. rewrite HL, in_map_iff. split.
      * intros (op & Ho & Hp). exists (o, op). split; auto. apply filter_In. split; auto. now apply numbered_in.
      * intros ([o' op] & <- & Hi). apply filter_In in Hi. destruct Hi as [Hi Hp]. exists op. split; auto. now apply numbered_in in Hi.
  - rewrite qsum_map, (qsum_filter (fun io : nat * operator => p (snd io))). reflexivity.
Qed.

(** ** Loops *)
Lemma fold_inv {A B} (f : B -> A -> outcome B) (Inv : list A -> B -> Prop) l : forall b,
  Inv [] b -> (forall pre x post b, l = pre ++ x :: post -> Inv pre b -> exists b', f b x = Ok b' /\ Inv (pre ++ [x]) b') ->
  exists b', fold_outcome f l b = Ok b' /\ Inv l b'.
Proof.
  intros b H0 H. assert (G : forall post pre b, l = pre ++ post -> Inv pre b -> exists b', fold_outcome f post b = Ok b' /\ Inv l b').
  { induction post as [|x r IH]; intros pre b1 E Hb.
    - rewrite app_nil_r in E. subst. exists b1. auto.
    - destruct (H pre x r b1 E Hb) as (b2 & E2 & H2). cbn [fold_outcome]. rewrite E2. cbn [bind]. apply (IH (pre ++ [x])); auto. now rewrite <- app_assoc. }
  apply (G l [] b); auto.
Qed.
Lemma omap_ok {A B} (f : A -> outcome B) (g : A -> B) l : (forall a, In a l -> f a = Ok (g a)) -> omap f l = Ok (map g l).
Proof.
  induction l as [|a r IH]; intros H; cbn [omap map]; [auto|]. rewrite (H a (or_introl eq_refl)). cbn [bind]. rewrite IH; [reflexivity|]. intros b Hb. apply H. now right.
Qed.
Lemma omap_inv {A B} (f : A -> outcome B) l : forall l', omap f l = Ok l' -> Forall2 (fun a b => f a = Ok b) l l'.
Proof.
  induction l as [|a r IH]; intros l' H; cbn [omap] in H; [inv H; constructor|].
  apply bind_ok in H as (y & Hy & H). apply bind_ok in H as (ys & Hys & H). inv H. constructor; auto.
Qed.
Lemma pos_of_some {A} (eqb : A -> A -> bool) (Heq : forall a b, eqb a b = true <-> a = b) a l i : pos_of eqb a l = Some i -> nth_error l i = Some a.
Proof.
  revert i. induction l as [|b r IH]; intros i H; cbn [pos_of] in H; [discriminate|]. destruct (eqb a b) eqn:E.
  - inv H. apply Heq in E. now subst.
  - destruct (pos_of eqb a r) as [j|]; [|discriminate]. inv H. cbn [nth_error]. auto.
Qed.
Lemma pos_of_in {A} (eqb : A -> A -> bool) (Heq : forall a b, eqb a b = true <-> a = b) a l : In a l -> exists i, pos_of eqb a l = Some i.
Proof.
  induction l as [|b r IH]; intros H; [destruct H|]. cbn [pos_of]. destruct (eqb a b) eqn:E; eauto. destruct H as [->|H].
  - assert (eqb a a = true) by now apply Heq. congruence.
  - destruct (IH H) as [i ->]. cbn. eauto.
Qed.
Lemma pos_of_app {A} (eqb : A -> A -> bool) a l l' i : pos_of eqb a l = Some i -> pos_of eqb a (l ++ l') = Some i.
Proof.
  revert i. induction l as [|b r IH]; intros i H; cbn [pos_of app] in *; [discriminate|]. destruct (eqb a b); auto.
  destruct (pos_of eqb a r) as [j|]; [|discriminate]. now rewrite (IH j eq_refl).
Qed.

(** ** Rows *)
Lemma vget_app_mid {A} (l m r : list A) i x : nth_error m i = Some x -> vget (l ++ m ++ r) (length l + i) = Ok x.
Proof.
  intros H. apply vget_ok. rewrite nth_error_app2 by lia. replace (length l + i - length l) with i by lia.
  rewrite nth_error_app1; auto. eapply nth_error_Some_lt; eauto.
Qed.
Lemma upd_app_mid {A} (l m r : list A) i x : i < length m -> upd (l ++ m ++ r) (length l + i) x = l ++ upd m i x ++ r.
Proof.
  intros H. induction l as [|a l IH]; cbn [app length plus upd].
  - revert i H. induction m as [|b m IHm]; intros [|i] H; cbn [length app upd] in *; try lia; [reflexivity|]. f_equal. apply IHm. lia.
  - f_equal. exact IH.
Qed.
Lemma set_lower_mid sv A m B i c q : sv_rows sv = A ++ m ++ B -> nth_error m i = Some c ->
  set_constraint_lower_bound sv (length A + i) q = Ok (with_rows sv (A ++ upd m i (con (Some q) (c_up c) (c_terms c)) ++ B) (sv_temp sv)).
Proof.
  intros E Hi. unfold set_constraint_lower_bound. rewrite E, (vget_app_mid A m B i c Hi). cbn [bind].
  pose proof (nth_error_Some_lt _ _ _ Hi) as Hl. erewrite (proj2 (vset_ok _ _ _ _)); [|split; [|reflexivity]; rewrite !app_length; lia].
  cbn [bind]. unfold con. now rewrite upd_app_mid.
Qed.
Lemma set_upper_mid sv A m B i c q : sv_rows sv = A ++ m ++ B -> nth_error m i = Some c ->
  set_constraint_upper_bound sv (length A + i) q = Ok (with_rows sv (A ++ upd m i (con (c_lo c) (Some q) (c_terms c)) ++ B) (sv_temp sv)).
Proof.
  intros E Hi. unfold set_constraint_upper_bound. rewrite E, (vget_app_mid A m B i c Hi). cbn [bind].
  pose proof (nth_error_Some_lt _ _ _ Hi) as Hl. erewrite (proj2 (vset_ok _ _ _ _)); [|split; [|reflexivity]; rewrite !app_length; lia].
  cbn [bind]. unfold con. now rewrite upd_app_mid.
Qed.

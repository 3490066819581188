(** Variable orders. *)
From Coq Require Import Permutation Relation_Operators Operators_Properties.
From Verif Require Import Outcome Spec_Task Spec_CausalGraph Model_PQ Model_CausalGraph Model_MAS Model_MASRun Model_MASAlgorithm Spec_MASAlgorithm Model_MergeStrategy Spec_MergeStrategy.
From Verif Require Import Proof_CausalGraph Proof_MS1 Proof_MS2 Proof_MS3 Proof_MS5 Proof_MS6.

Lemma before_cons x l v w : before (x :: l) v w <-> (v = x /\ In w l) \/ before l v w.
Proof.
  unfold before. split.
  - intros ([|y a] & b & c & E); cbn [app] in E; inv E; [left; split; auto; apply in_elt|right; eauto].
  - intros [[-> Hw]|(a & b & c & ->)]; [apply in_split in Hw as (b & c & ->); exists [], b, c; auto|exists (x :: a), b, c; auto].
Qed.
Lemma before_filter f : forall l v w, before (filter f l) v w -> before l v w.
Proof.
  induction l as [|x l IH]; intros v w H; cbn [filter] in H; auto. apply before_cons. destruct (f x); auto. apply before_cons in H as [[-> H]|H]; auto. left. apply filter_In in H. tauto.
Qed.
Definition fresh (prefix : list nat) (base : list nat) : list nat := filter (fun x => negb (existsb (Nat.eqb x) prefix)) base.
Lemma mem_eqb x l : existsb (Nat.eqb x) l = true <-> In x l.
Proof. rewrite existsb_exists. split; [intros (y & Hy & E); apply Nat.eqb_eq in E; now subst|intros H; exists x; split; auto; apply Nat.eqb_refl]. Qed.
Lemma fresh_In prefix base x : In x (fresh prefix base) <-> In x base /\ ~ In x prefix.
Proof. unfold fresh. rewrite filter_In, negb_true_iff. pose proof (mem_eqb x prefix) as M. destruct (existsb (Nat.eqb x) prefix); split; intros [H1 H2]; (split; [exact H1|]); [discriminate|tauto|intros K; apply M in K; discriminate|reflexivity]. Qed.
Lemma fresh_remove prefix base v a b : NoDup base -> fresh prefix base = a ++ v :: b -> fresh (prefix ++ [v]) base = a ++ b.
Proof.
  intros HD E. assert (E' : fresh (prefix ++ [v]) base = filter (fun x => negb (x =? v)) (fresh prefix base)).
  { unfold fresh. clear. induction base as [|x base IH]; cbn [filter]; auto. rewrite existsb_app. cbn [existsb]. rewrite orb_false_r, IH. destruct (existsb (Nat.eqb x) prefix); cbn [orb negb filter]; destruct (x =? v); reflexivity. }
  rewrite E', E, filter_app. cbn [filter]. rewrite Nat.eqb_refl. cbn [negb]. assert (HD' : NoDup (a ++ v :: b)) by (rewrite <- E; apply NoDup_filter; auto). apply NoDup_remove_2 in HD'.
  assert (K : forall l, ~ In v l -> filter (fun x => negb (x =? v)) l = l). { induction l as [|x l IH]; intros H; cbn [filter]; auto. destruct (Nat.eqb_spec x v) as [->|N]; [destruct H; now left|]. cbn [negb]. rewrite IH; auto. intros Hin. apply H. now right. }
  rewrite !K; auto; intros Hin; apply HD', in_app_iff; auto.
Qed.
Lemma find_flag_ok flags : forall vars, (forall v, In v vars -> v < length flags) ->
  (find_flag flags vars = Ok None /\ forall v, In v vars -> nth v flags false = false) \/
  (exists a v b, vars = a ++ v :: b /\ find_flag flags vars = Ok (Some (v, a ++ b)) /\ nth v flags false = true /\ forall w, In w a -> nth w flags false = false).
Proof.
  induction vars as [|v r IH]; intros H; cbn [find_flag]; [left; split; auto; intros v []|].
  rewrite (proj2 (vget_ok flags v (nth v flags false))) by (apply nth_error_nth', H; now left). cbn [bind]. destruct (nth v flags false) eqn:E.
  - right. exists [], v, r. splits; auto. intros w [].
  - destruct IH as [[-> A]|(a & w & b & -> & -> & A & B)]; [intros w Hw; apply H; now right| |]; cbn [bind].
    + left. split; auto. intros w [<-|Hw]; auto.
    + right. exists (v :: a), w, b. splits; auto. intros x [<-|Hx]; auto.
Qed.

Section ORDER.
Variable t : task.
Hypothesis Ht : task_ok t.
Variable o : var_order.
Local Notation nv := (length (t_vars t)).
Variable base : list nat.
Hypothesis Hbase : Permutation base (seq 0 nv).
Variable G : causal_graph.
Hypothesis HG : forall u, u < nv -> exists l, nth_error (g_eff_to_pre G) u = Some l /\ forall v, In v l <-> pre_eff t v u.
Lemma base_lt v : In v base <-> v < nv.
Proof. split; [intros H; apply (Permutation_in _ Hbase), in_seq in H; lia|intros H; apply (Permutation_in _ (Permutation_sym Hbase)), in_seq; lia]. Qed.
Lemma base_nodup : NoDup base. Proof. apply (Permutation_NoDup (Permutation_sym Hbase)), seq_NoDup. Qed.
Definition finder_ok (prefix : list nat) (V : finder) : Prop :=
  v_remaining V = fresh prefix base /\ (forall v, In v prefix -> v < nv) /\ length (v_pred V) = nv /\ length (v_goal V) = nv /\
  (forall v, v < nv -> (nth v (v_pred V) false = true <-> feeds t prefix v)) /\ (forall v, v < nv -> (nth v (v_goal V) false = true <-> goal_var t v)).
Lemma select_next_ok prefix V v a b : finder_ok prefix V -> v_remaining V = a ++ v :: b -> exists V', select_next G V v (a ++ b) = Ok (v, V') /\ finder_ok (prefix ++ [v]) V'.
Proof.
  intros (F1 & F2 & F3 & F4 & F5 & F6) E. rewrite F1 in E. assert (Hv : v < nv). { apply base_lt. assert (K : In v (fresh prefix base)) by (rewrite E; apply in_elt). apply fresh_In in K. tauto. }
  destruct (HG v Hv) as (l & Hl & Hin). unfold select_next. rewrite (proj2 (vget_ok _ _ _) Hl). cbn [bind].
  assert (Lt : forall u, In u l -> u < nv) by (intros u Hu; apply Hin in Hu; apply (arc_lt t u v Ht); now left).
  destruct (vset_all true l (v_pred V)) as (pred & -> & Hp & Hn); [intros u Hu; rewrite F3; auto|]. cbn [bind]. eexists. split; [reflexivity|]. unfold finder_ok. cbn [v_remaining v_pred v_goal].
  split; [symmetry; apply fresh_remove; [apply base_nodup|auto]|]. split; [intros u Hu; apply in_app_iff in Hu as [Hu|[<-|[]]]; auto|]. split; [congruence|]. split; auto. split; auto.
  intros u Hu. assert (En : nth u pred false = if existsb (Nat.eqb u) l then true else nth u (v_pred V) false). { pose proof (Hn u) as K. destruct (existsb (Nat.eqb u) l); [now apply nth_error_nth with (d := false) in K|]. rewrite (nth_error_nth' (v_pred V) false) in K by congruence. now apply nth_error_nth with (d := false) in K. }
  rewrite En. unfold feeds. destruct (existsb (Nat.eqb u) l) eqn:Eb.
  - apply mem_eqb, Hin in Eb. split; auto. intros _. exists v. split; auto. apply in_app_iff. right. now left.
  - rewrite (F5 u Hu). unfold feeds. split; [intros (x & Hx & Hp'); exists x; split; auto; apply in_app_iff; now left|]. intros (x & Hx & Hp'). apply in_app_iff in Hx as [Hx|[<-|[]]]; [eauto|]. exfalso. apply Hin, mem_eqb in Hp'. congruence.
Qed.
Lemma part_order prefix a v b w : fresh prefix base = a ++ v :: b -> In w (fresh prefix base) -> w <> v -> In w a \/ before base v w.
Proof.
  intros E Hw N. rewrite E in Hw. apply in_app_iff in Hw as [Hw|[Hw|Hw]]; auto; [congruence|]. right. apply (before_filter (fun x => negb (existsb (Nat.eqb x) prefix))). fold (fresh prefix base). rewrite E. apply in_split in Hw as (c & d & ->). exists a, c, d. reflexivity.
Qed.
Lemma next_ok prefix V : finder_ok prefix V -> fresh prefix base <> [] ->
  (exists v V', finder_next o G V = Ok (v, V') /\ finder_ok (prefix ++ [v]) V' /\ In v (fresh prefix base) /\ (forall w, In w (fresh prefix base) -> w <> v -> comes_first t o base prefix v w) /\ (needs_relevance o -> feeds t prefix v \/ goal_var t v)) \/
  (finder_next o G V = Exit 33 /\ needs_relevance o /\ forall w, In w (fresh prefix base) -> ~ feeds t prefix w /\ ~ goal_var t w).
Proof.
  intros HF Hne. pose proof HF as (F1 & F2 & F3 & F4 & F5 & F6).
  assert (Lt : forall v, In v (fresh prefix base) -> v < nv) by (intros v Hv; apply fresh_In in Hv; now apply base_lt).
  assert (LtP : forall v, In v (v_remaining V) -> v < length (v_pred V)) by (rewrite F1, F3; auto). assert (LtG : forall v, In v (v_remaining V) -> v < length (v_goal V)) by (rewrite F1, F4; auto).
  assert (NP : forall v, In v (fresh prefix base) -> nth v (v_pred V) false = false -> ~ feeds t prefix v) by (intros v Hv E Hf; apply F5 in Hf; [congruence|auto]).
  assert (NG : forall v, In v (fresh prefix base) -> nth v (v_goal V) false = false -> ~ goal_var t v) by (intros v Hv E Hf; apply F6 in Hf; [congruence|auto]).
  assert (Two : forall first second, (first = v_pred V /\ second = v_goal V \/ first = v_goal V /\ second = v_pred V) ->
    let X := (let* a := find_flag first (v_remaining V) in match a with Some (v, r) => select_next G V v r | None => let* b := find_flag second (v_remaining V) in match b with Some (v, r) => select_next G V v r | None => Exit 33 end end) in
    (exists v V' a b, X = Ok (v, V') /\ finder_ok (prefix ++ [v]) V' /\ fresh prefix base = a ++ v :: b /\
       ((nth v first false = true /\ forall w, In w a -> nth w first false = false) \/ ((forall w, In w (fresh prefix base) -> nth w first false = false) /\ nth v second false = true /\ forall w, In w a -> nth w second false = false))) \/
    (X = Exit 33 /\ forall w, In w (fresh prefix base) -> nth w first false = false /\ nth w second false = false)).
  { intros first second Hfs. assert (L1 : forall v, In v (v_remaining V) -> v < length first) by (destruct Hfs as [[-> ->]|[-> ->]]; auto). assert (L2 : forall v, In v (v_remaining V) -> v < length second) by (destruct Hfs as [[-> ->]|[-> ->]]; auto). cbv zeta.
    destruct (find_flag_ok first (v_remaining V) L1) as [[E1 A1]|(a & v & b & E1 & E2 & A1 & A2)].
    - rewrite E1. cbn [bind]. destruct (find_flag_ok second (v_remaining V) L2) as [[E3 A3]|(a & v & b & E3 & E4 & A3 & A4)].
      + right. rewrite E3. cbn [bind]. split; auto. rewrite <- F1. auto.
      + left. rewrite E4. cbn [bind]. destruct (select_next_ok prefix V v a b HF E3) as (V' & -> & HF'). exists v, V', a, b. rewrite <- F1. split; [reflexivity|]. split; [exact HF'|]. split; [exact E3|]. right. auto.
    - left. rewrite E2. cbn [bind]. destruct (select_next_ok prefix V v a b HF E1) as (V' & -> & HF'). exists v, V', a, b. rewrite <- F1. split; [reflexivity|]. split; [exact HF'|]. split; [exact E1|]. left. auto. }
  assert (Hmid : forall a v b, fresh prefix base = a ++ v :: b -> In v (fresh prefix base)) by (intros a v b E; rewrite E; apply in_elt).
  assert (Ha : forall a v b w, fresh prefix base = a ++ v :: b -> In w a -> In w (fresh prefix base)) by (intros a v b w E Hw; rewrite E; apply in_app_iff; now left).
  assert (Plain : (exists v V', match v_remaining V with [] => UB | v :: r => select_next G V v r end = Ok (v, V') /\ finder_ok (prefix ++ [v]) V' /\ In v (fresh prefix base) /\ forall w, In w (fresh prefix base) -> w <> v -> before base v w)).
  { destruct (v_remaining V) as [|v r] eqn:Er; [congruence|]. destruct (select_next_ok prefix V v [] r HF Er) as (V' & ES & HF'). cbn [app] in ES. rewrite ES. exists v, V'. splits; auto; [rewrite <- F1; now left|]. intros w Hw N. destruct (part_order prefix [] v r w) as [[]|]; auto. }
  unfold finder_next. destruct o.
  - destruct (Two (v_pred V) (v_goal V) (or_introl (conj eq_refl eq_refl))) as [(v & V' & a & b & E & HF' & Ef & D)|(E & D)]; cbv zeta in E; [left|right].
    + pose proof (Hmid _ _ _ Ef) as Hv. pose proof (Lt v Hv) as Lv. exists v, V'. split; [exact E|]. split; [exact HF'|]. split; [exact Hv|]. split.
      * intros w Hw N. cbn [comes_first]. destruct (part_order _ _ _ _ w Ef Hw N) as [Hwa|Hb]; destruct D as [[D1 D2]|(D0 & D1 & D2)].
        -- left. split; [now apply F5|left; apply NP; auto].
        -- right. split; [apply NP; auto|]. split; [apply NP; auto|]. split; [now apply F6|left; apply NG; auto].
        -- left. split; [now apply F5|now right].
        -- right. split; [apply NP; auto|]. split; [apply NP; auto|]. split; [now apply F6|now right].
      * intros _. destruct D as [[D _]|(_ & D & _)]; [left; now apply F5|right; now apply F6].
    + split; [exact E|]. split; [unfold needs_relevance; auto|]. intros w Hw. destruct (D w Hw) as [D1 D2]. split; auto.
  - destruct (Two (v_pred V) (v_goal V) (or_introl (conj eq_refl eq_refl))) as [(v & V' & a & b & E & HF' & Ef & D)|(E & D)]; cbv zeta in E; [left|right].
    + pose proof (Hmid _ _ _ Ef) as Hv. pose proof (Lt v Hv) as Lv. exists v, V'. split; [exact E|]. split; [exact HF'|]. split; [exact Hv|]. split.
      * intros w Hw N. cbn [comes_first]. destruct (part_order _ _ _ _ w Ef Hw N) as [Hwa|Hb]; destruct D as [[D1 D2]|(D0 & D1 & D2)].
        -- left. split; [now apply F5|left; apply NP; auto].
        -- right. split; [apply NP; auto|]. split; [apply NP; auto|]. split; [now apply F6|left; apply NG; auto].
        -- left. split; [now apply F5|now right].
        -- right. split; [apply NP; auto|]. split; [apply NP; auto|]. split; [now apply F6|now right].
      * intros _. destruct D as [[D _]|(_ & D & _)]; [left; now apply F5|right; now apply F6].
    + split; [exact E|]. split; [unfold needs_relevance; auto|]. intros w Hw. destruct (D w Hw) as [D1 D2]. split; auto.
  - destruct (Two (v_goal V) (v_pred V) (or_intror (conj eq_refl eq_refl))) as [(v & V' & a & b & E & HF' & Ef & D)|(E & D)]; cbv zeta in E; [left|right].
    + pose proof (Hmid _ _ _ Ef) as Hv. pose proof (Lt v Hv) as Lv. exists v, V'. split; [exact E|]. split; [exact HF'|]. split; [exact Hv|]. split.
      * intros w Hw N. cbn [comes_first]. destruct (part_order _ _ _ _ w Ef Hw N) as [Hwa|Hb]; destruct D as [[D1 D2]|(D0 & D1 & D2)].
        -- left. split; [now apply F6|left; apply NG; auto].
        -- right. split; [apply NG; auto|]. split; [apply NG; auto|]. split; [now apply F5|left; apply NP; auto].
        -- left. split; [now apply F6|now right].
        -- right. split; [apply NG; auto|]. split; [apply NG; auto|]. split; [now apply F5|now right].
      * intros _. destruct D as [[D _]|(_ & D & _)]; [right; now apply F6|left; now apply F5].
    + split; [exact E|]. split; [unfold needs_relevance; auto|]. intros w Hw. destruct (D w Hw) as [D1 D2]. split; auto.
  - left. destruct Plain as (v & V' & -> & A & B & C). exists v, V'. splits; auto. intros [Q|[Q|Q]]; discriminate.
  - left. destruct Plain as (v & V' & -> & A & B & C). exists v, V'. splits; auto. intros [Q|[Q|Q]]; discriminate.
  - left. destruct Plain as (v & V' & -> & A & B & C). exists v, V'. splits; auto. intros [Q|[Q|Q]]; discriminate.
Qed.
Definition chosen_well (vs : list nat) : Prop :=
  NoDup vs /\ (forall v, In v vs -> In v base) /\ (forall k v w, nth_error vs k = Some v -> In w base -> ~ In w (firstn k vs) -> w <> v -> comes_first t o base (firstn k vs) v w) /\ (needs_relevance o -> forall v, In v vs -> relevant t v).
Lemma chosen_next prefix v : chosen_well prefix -> In v (fresh prefix base) -> (forall w, In w (fresh prefix base) -> w <> v -> comes_first t o base prefix v w) -> (needs_relevance o -> feeds t prefix v \/ goal_var t v) -> chosen_well (prefix ++ [v]).
Proof.
  intros (C1 & C2 & C3 & C4) Hv Hw Hr. apply fresh_In in Hv as [Hv Hnv]. split; [|split; [|split]].
  - apply nodup_app_parts. splits; auto; [constructor; [intros []|constructor]|]. intros x Hx [<-|[]]. contradiction.
  - intros x Hx. apply in_app_iff in Hx as [Hx|[<-|[]]]; auto.
  - intros k x w Hk Hb Hn N. apply nth_snoc in Hk as [[Hl Hk]|[-> ->]]; rewrite firstn_snoc in * by lia; [auto|]. rewrite firstn_all in *. apply Hw; auto. apply fresh_In. auto.
  - intros Hnr x Hx. apply in_app_iff in Hx as [Hx|[<-|[]]]; [auto|]. destruct (Hr Hnr) as [(u & Hu & Hp)|Hg]; [|exists v; split; auto; apply rt_refl]. destruct (C4 Hnr u Hu) as (g & Hg & Hpath). exists g. split; auto. eapply rt_trans; [apply rt_step; exact Hp|exact Hpath].
Qed.
Lemma stuck prefix : (forall w, In w (fresh prefix base) -> ~ feeds t prefix w /\ ~ goal_var t w) -> forall w, In w (fresh prefix base) -> ~ relevant t w.
Proof.
  intros H w Hw (g & Hg & Hp). apply clos_rt_rt1n in Hp. revert Hw. induction Hp as [x|x y z He _ IH]; intros Hw; [now apply (proj2 (H x Hw))|].
  destruct (arc_lt t x y Ht (or_introl He)) as [_ Hy]. destruct (in_dec Nat.eq_dec y prefix) as [Hin|Hin]; [apply (proj1 (H x Hw)); exists y; auto|]. apply IH; auto. apply fresh_In. split; auto. now apply base_lt.
Qed.
Lemma fresh_length prefix v : In v (fresh prefix base) -> S (length (fresh (prefix ++ [v]) base)) = length (fresh prefix base).
Proof. intros H. apply in_split in H as (a & b & E). rewrite (fresh_remove prefix base v a b base_nodup E), E, !app_length. cbn [length]. lia. Qed.
Lemma rest_ok : forall fuel prefix V, finder_ok prefix V -> chosen_well prefix -> length (fresh prefix base) <= fuel ->
  (exists vs, finder_rest fuel o G V = Ok vs /\ chosen_well (prefix ++ vs) /\ fresh (prefix ++ vs) base = []) \/
  (finder_rest fuel o G V = Exit 33 /\ needs_relevance o /\ exists v, v < nv /\ ~ relevant t v).
Proof.
  induction fuel as [|fuel IH]; intros prefix V HF HC Hl; pose proof HF as (F1 & _).
  - destruct (fresh prefix base) as [|x l] eqn:E; [|cbn [length] in Hl; lia]. left. exists []. cbn [finder_rest]. rewrite F1, app_nil_r. auto.
  - cbn [finder_rest]. destruct (v_remaining V) as [|x l] eqn:E.
    + left. exists []. rewrite app_nil_r. auto.
    + destruct (next_ok prefix V HF) as [(v & V' & -> & HF' & Hv & Hw & Hr)|(-> & Hn & Hst)]; [congruence| |]; cbn [bind].
      * pose proof (fresh_length prefix v Hv) as Hl'. destruct (IH (prefix ++ [v]) V' HF' (chosen_next prefix v HC Hv Hw Hr)) as [(vs & -> & A & B)|(-> & A & B)]; [lia| |]; cbn [bind].
        -- left. exists (v :: vs). rewrite <- app_assoc in A, B. auto.
        -- right. auto.
      * right. splits; auto. exists x. assert (Hx : In x (fresh prefix base)) by (rewrite <- F1; now left). split; [apply base_lt; apply fresh_In in Hx; tauto|]. eapply stuck; eauto.
Qed.
End ORDER.

Section VARIABLE_ORDER.
Variable t : task.
Hypothesis Ht : task_ok t.
Hypothesis Hpos : 0 < length (t_vars t).
Variable o : var_order.
Variable shuffle : list nat -> list nat.
Hypothesis Hsh : forall l, Permutation (shuffle l) l.
Local Notation nv := (length (t_vars t)).
Lemma base_ok : base_order o nv (first_order o shuffle nv) /\ Permutation (first_order o shuffle nv) (seq 0 nv).
Proof.
  assert (R : Permutation (rev (seq 0 nv)) (seq 0 nv)) by (apply Permutation_sym, Permutation_rev). assert (S' : Permutation (shuffle (rev (seq 0 nv))) (seq 0 nv)) by (eapply Permutation_trans; eauto).
  destruct o; cbn [base_order first_order]; auto.
Qed.
Lemma new_finder_ok : exists V, new_finder o shuffle t = Ok V /\ finder_ok t (first_order o shuffle nv) [] V.
Proof.
  unfold new_finder. pose proof Ht as (_ & _ & _ & _ & Hg). rewrite Forall_forall in Hg.
  assert (Q : forall gs l, (forall f, In f gs -> fst f < length l) -> exists l', fold_outcome (fun (g : list bool) (f : fact) => vset g (fst f) true) gs l = Ok l' /\ length l' = length l /\ forall v, nth v l' false = true <-> nth v l false = true \/ exists x, In (v, x) gs).
  { induction gs as [|f gs IH]; intros l Hl; cbn [fold_outcome].
    - exists l. splits; auto. intros v. split; [auto|]. intros [H|(x & [])]; auto.
    - assert (Lf := Hl f (or_introl eq_refl)). unfold vset at 1. rewrite (proj2 (Nat.ltb_lt _ _) Lf). cbn [bind]. destruct (IH (upd l (fst f) true)) as (l' & E & L' & H); [intros x Hx; rewrite upd_length; apply Hl; now right|]. exists l'. rewrite upd_length in L'. splits; auto. intros v. rewrite H.
      assert (Ev : nth v (upd l (fst f) true) false = true <-> v = fst f \/ nth v l false = true). { destruct (Nat.eq_dec v (fst f)) as [->|N]; [rewrite (nth_error_nth _ _ false (upd_nth_eq l (fst f) true Lf)); tauto|]. assert (K : nth_error (upd l (fst f) true) v = nth_error l v) by (apply upd_nth_neq; congruence). assert (K' : nth v (upd l (fst f) true) false = nth v l false). { destruct (nth_error l v) as [b|] eqn:Eb; [now rewrite (nth_error_nth _ _ false K), (nth_error_nth _ _ false Eb)|]. apply nth_error_None in Eb. rewrite !nth_overflow; auto. now rewrite upd_length. } rewrite K'. tauto. }
      rewrite Ev. destruct f as [fv fx]. cbn [fst In]. split; [intros [[->|Hn]|(x & Hx)]; eauto|]. intros [Hn|(x & [Ex|Hx])]; [auto|inv Ex; auto|eauto]. }
  destruct (Q (t_goal t) (repeat false nv)) as (l & -> & Hl & Hn). { intros f Hf. rewrite repeat_length. now apply fact_ok_lt, Hg. } cbn [bind]. rewrite repeat_length in Hl. eexists. split; [reflexivity|]. unfold finder_ok. cbn [v_remaining v_pred v_goal].
  assert (Nf : forall v, nth v (repeat false nv) false = false). { intros v. apply nth_repeat. }
  split. { unfold fresh. cbn [existsb negb]. symmetry. induction (first_order o shuffle nv) as [|x l' IH]; cbn [filter]; auto. now rewrite IH at 1. }
  split; [intros v []|]. split; [apply repeat_length|]. split; auto. split.
  - intros v _. rewrite Nf. split; [discriminate|]. intros (u & [] & _).
  - intros v _. rewrite Hn, Nf. split; [intros [H|H]; [discriminate|auto]|auto].
Qed.
Lemma variable_order_ok : exists base, base_order o nv base /\
  ((exists vs, variable_order o shuffle t = Ok vs /\ follows_order t o base vs /\ (needs_relevance o -> forall v, v < nv -> relevant t v)) \/
   (variable_order o shuffle t = Exit 33 /\ needs_relevance o /\ exists v, v < nv /\ ~ relevant t v)).
Proof.
  destruct base_ok as [HB Hbase]. set (base := first_order o shuffle nv) in *. exists base. split; auto. destruct (build_exact t Ht) as (G & EG & (_ & HGl & _) & HG). unfold variable_order. rewrite EG. cbn [bind]. destruct new_finder_ok as (V & -> & HF). fold base in HF. cbn [bind].
  assert (HG' : forall u, u < nv -> exists l, nth_error (g_eff_to_pre G) u = Some l /\ forall v, In v l <-> pre_eff t v u). { intros u Hu. destruct (HG u Hu) as (_ & l2 & _ & _ & _ & _ & _ & E2 & [_ H2] & _). eauto. }
  assert (C0 : chosen_well t o base []). { split; [constructor|]. split; [intros v []|]. split; [intros [|k] v w H; discriminate|]. intros _ v []. }
  assert (F0 : fresh [] base <> []). { intros E. assert (K : In 0 (fresh [] base)) by (apply fresh_In; split; [apply (proj2 (base_lt t base Hbase _)); assumption|intros []]). rewrite E in K. destruct K. }
  destruct (next_ok t Ht o base Hbase G HG' [] V HF F0) as [(v & V' & -> & HF' & Hv & Hw & Hr)|(-> & Hn & Hst)]; cbn [bind].
  - pose proof (chosen_next t o base [] v C0 Hv Hw Hr) as C1. cbn [app] in *. pose proof HF' as (F1 & _). destruct (rest_ok t Ht o base Hbase G HG' (length (v_remaining V')) [v] V' HF' C1) as [(vs & -> & A & B)|(-> & A & B)]; [now rewrite F1| |]; cbn [bind].
    + left. exists (v :: vs). split; auto. cbn [app] in A, B. destruct A as (A1 & A2 & A3 & A4).
      assert (Hall : forall x, x < nv -> In x (v :: vs)). { intros x Hx. destruct (in_dec Nat.eq_dec x (v :: vs)) as [K|K]; auto. exfalso. assert (K' : In x (fresh (v :: vs) base)) by (apply fresh_In; split; auto; apply (proj2 (base_lt t base Hbase _)); assumption). rewrite B in K'. destruct K'. }
      split; [split|intros Hnr x Hx; auto].
      * apply NoDup_Permutation; [exact A1|apply seq_NoDup|]. intros x. rewrite in_seq. split; [intros Hx; apply A2, (base_lt t base Hbase) in Hx; lia|intros Hx; apply Hall; lia].
      * intros k x w Hk Hin. assert (E : v :: vs = firstn k (v :: vs) ++ x :: skipn (S k) (v :: vs)). { rewrite <- (firstn_skipn k (v :: vs)) at 1. f_equal. rewrite (skipn_cons 0) by (eapply nth_error_Some_lt; eauto). f_equal. now apply nth_error_nth. }
        rewrite E in A1. apply nodup_app_parts in A1 as (_ & N2 & N3). inversion N2 as [|? ? N4 _]; subst. apply A3; auto.
        -- apply A2. rewrite E. apply in_app_iff. right. now right.
        -- intros Hf. apply (N3 w Hf). now right.
        -- intros ->. contradiction.
    + right. auto.
  - right. splits; auto. destruct (fresh [] base) as [|x l] eqn:E; [congruence|]. assert (Hx : In x (fresh [] base)) by (rewrite E; now left). exists x. split; [apply (base_lt t base Hbase); apply fresh_In in Hx; tauto|]. eapply (stuck t Ht base Hbase []); [rewrite E; exact Hst|exact Hx].
Qed.
End VARIABLE_ORDER.

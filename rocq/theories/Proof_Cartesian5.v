(** The refinement hierarchy and the invariant of abstractions under refinement. *)
From Verif Require Import Outcome Spec_Task Spec_Cartesian Model_Task Model_Cartesian Proof_Task Proof_LMCut1 Proof_Cartesian1 Proof_Cartesian2 Proof_Cartesian3 Proof_Cartesian4.

(** [k] steps down the hierarchy. *)
Inductive reachn (nodes : list node) (s : state) : nat -> nat -> nat -> Prop :=
| reachn_refl : forall a, reachn nodes s 0 a a
| reachn_step : forall a x d l r e k b, nth_error nodes a = Some (Inner x d l r) -> nth_error s x = Some e ->
    reachn nodes s k (if e =? d then r else l) b -> reachn nodes s (S k) a b.
Lemma reachn_trans nodes s k a b k' c : reachn nodes s k a b -> reachn nodes s k' b c -> reachn nodes s (k + k') a c.
Proof. induction 1; intros H2; [exact H2|]. cbn. econstructor; eauto. Qed.
Lemma node_of_ok nodes s b i : nth_error nodes b = Some (Leaf i) -> forall k a, reachn nodes s k a b -> forall fuel, k < fuel -> node_of fuel nodes s a = Ok b.
Proof.
  intros Hb k a H. induction H as [a|a x d l r e k b Ha He H IH]; intros [|fuel] Hf; try lia; cbn [node_of]; unfold vget.
  - rewrite Hb. reflexivity.
  - rewrite Ha. cbn [bind]. rewrite He. cbn [bind]. apply IH; auto. lia.
Qed.
(** Steps are kept when only leaves change. *)
Lemma reachn_keep nodes nodes' s k a b : (forall c, is_split (nth c nodes (Leaf 0)) = true -> nth_error nodes' c = nth_error nodes c) ->
  reachn nodes s k a b -> reachn nodes' s k a b.
Proof.
  intros H. induction 1 as [a|a x d l r e k b Ha He _ IH]; [constructor|]. econstructor; eauto. rewrite H; auto. now rewrite (nth_error_nth _ _ (Leaf 0) Ha).
Qed.

Lemma split_loop x left_id r : forall values nodes h, nth_error nodes h = Some (Leaf left_id) -> r < length nodes -> r <> h ->
  exists nodes' h', fold_outcome (fun (p : list node * nat) value =>
    let (nodes, helper) := p in
    let (nodes, new_helper) := add_node nodes left_id in
    let* nodes := node_split nodes helper x value new_helper r in
    Ok (nodes, new_helper)) values (nodes, h) = Ok (nodes', h') /\
  length nodes' = length nodes + length values /\ nth_error nodes' h' = Some (Leaf left_id) /\ h' <> r /\
  (forall b, b < length nodes -> b <> h -> nth_error nodes' b = nth_error nodes b) /\ (h' = h \/ length nodes <= h') /\
  forall s e, nth_error s x = Some e -> exists k, k <= length values /\ reachn nodes' s k h (if in_dec Nat.eq_dec e values then r else h').
Proof.
  induction values as [|d values IH]; intros nodes h Hh Hr Hrh.
  - exists nodes, h. cbn [fold_outcome]. splits; auto. intros s e _. exists 0. split; auto. constructor.
  - cbn [fold_outcome add_node fst snd]. assert (Hhl := nth_error_Some_lt _ _ _ Hh). unfold node_split. rewrite vset_lt by (rewrite app_length; cbn; lia). cbn [bind].
    set (nodes1 := upd (nodes ++ [Leaf left_id]) h (Inner x d (length nodes) r)).
    assert (L1 : length nodes1 = S (length nodes)) by (unfold nodes1; rewrite upd_length, app_length; cbn; lia).
    assert (N1 : nth_error nodes1 (length nodes) = Some (Leaf left_id)).
    { unfold nodes1. rewrite upd_nth_neq by lia. rewrite nth_error_app2, Nat.sub_diag by lia. reflexivity. }
    destruct (IH nodes1 (length nodes) N1) as (nodes' & h' & E & L' & H1 & H2 & H3 & H4 & H5); [lia|lia|].
    exists nodes', h'. assert (Hh1 : nth_error nodes' h = Some (Inner x d (length nodes) r)).
    { rewrite H3 by lia. unfold nodes1. apply upd_nth_eq. rewrite app_length; cbn; lia. }
    splits; auto.
    + rewrite L', L1. cbn. lia.
    + intros b Hb Hbh. rewrite H3 by lia. unfold nodes1. rewrite upd_nth_neq by auto. rewrite nth_error_app1 by lia. reflexivity.
    + right. lia.
    + intros s e He. destruct (Nat.eq_dec e d) as [->|Hne].
      * exists 1. split; [cbn; lia|]. destruct (in_dec Nat.eq_dec d (d :: values)) as [_|Hno]; [|destruct Hno; now left].
        econstructor; [exact Hh1|exact He|]. rewrite Nat.eqb_refl. constructor.
      * destruct (H5 s e He) as (k & Hk & Hw). exists (S k). split; [cbn; lia|]. econstructor; [exact Hh1|exact He|].
        destruct (Nat.eqb_spec e d); [congruence|].
        destruct (in_dec Nat.eq_dec e (d :: values)) as [[|Hy]|Hno]; [congruence| |]; destruct (in_dec Nat.eq_dec e values) as [Hy'|Hno']; auto; try tauto. destruct Hno; now right.
Qed.

Lemma hier_split_ok nodes a x values v n : nth_error nodes a = Some (Leaf v) ->
  exists nodes' h r, hier_split nodes a x values v n = Ok (nodes', (h, r)) /\ length nodes' = S (length nodes + length values) /\
    nth_error nodes' h = Some (Leaf v) /\ nth_error nodes' r = Some (Leaf n) /\
    (forall b, b < length nodes -> b <> a -> nth_error nodes' b = nth_error nodes b) /\
    forall s e, nth_error s x = Some e -> exists k, k <= length values /\ reachn nodes' s k a (if in_dec Nat.eq_dec e values then r else h).
Proof.
  intros Ha. assert (Hal := nth_error_Some_lt _ _ _ Ha). unfold hier_split, add_node.
  destruct (split_loop x v (length nodes) values (nodes ++ [Leaf n]) a) as (nodes' & h' & E & L & H1 & H2 & H3 & H4 & H5).
  - now rewrite nth_error_app1.
  - rewrite app_length. cbn. lia.
  - lia.
  - match goal with |- context [bind ?m _] => replace m with (Ok (nodes', h')) by (symmetry; exact E) end. cbn [bind].
    exists nodes', h', (length nodes). splits; auto.
    + rewrite L, app_length. cbn. lia.
    + rewrite H3 by (rewrite ?app_length; cbn; lia). rewrite nth_error_app2, Nat.sub_diag by lia. reflexivity.
    + intros b Hb Hba. rewrite H3 by (rewrite ?app_length; cbn; lia). now rewrite nth_error_app1.
Qed.

Section INV.
Variable t : task.
Hypothesis Ht : cartesian_task t.
Notation N := (length (t_vars t)).
Notation doms := (doms t).

Definition dflt : astate := {| a_node := 0; a_set := [] |}.
Definition csA (A : abstraction) (i : nat) : cset := a_set (nth i (ab_states A) dflt).
Definition nodeA (A : abstraction) (i : nat) : nat := a_node (nth i (ab_states A) dflt).
Notation num A := (length (ab_states A)).

(** [m]: all states were marked as goals at some point. *)
Record AI (m : bool) (A : abstraction) : Prop := {
  ai_ts : TSI t (csA A) (num A) (ab_ts A);
  ai_cinit : ab_cinit A = t_init t; ai_gf : ab_goal_facts A = t_goal t;
  ai_shape : forall i, i < num A -> shape (csA A i) doms;
  ai_ne : forall i y, i < num A -> y < N -> exists d, has (csA A i) y d;
  ai_leaf : forall i, i < num A -> nth_error (ab_nodes A) (nodeA A i) = Some (Leaf i);
  ai_cover : forall s, state_ok t s -> exists i k, i < num A /\ k < length (ab_nodes A) /\ reachn (ab_nodes A) s k 0 (nodeA A i) /\ in_cset (csA A i) s;
  ai_disj : forall i j s, i < num A -> j < num A -> state_ok t s -> in_cset (csA A i) s -> in_cset (csA A j) s -> i = j;
  ai_init : ab_init A < num A /\ in_cset (csA A (ab_init A)) (t_init t);
  ai_gnd : NoDup (ab_goals A); ai_glt : forall i, In i (ab_goals A) -> i < num A;
  ai_gcov : forall i, i < num A -> (forall f, In f (t_goal t) -> has (csA A i) (fst f) (snd f)) -> In i (ab_goals A);
  ai_gex : m = false -> forall i, In i (ab_goals A) -> forall f, In f (t_goal t) -> has (csA A i) (fst f) (snd f) }.

Lemma init_ok : state_ok t (t_init t). Proof. destruct (ct_ok t Ht) as (_ & _ & _ & H & _). exact H. Qed.
Lemma goal_ok f : In f (t_goal t) -> fact_ok t f.
Proof. destruct (ct_ok t Ht) as (_ & _ & _ & _ & H). rewrite Forall_forall in H. auto. Qed.

Lemma initial_ok : exists A, initial_abstraction t = Ok A /\ AI false A /\ num A = 1.
Proof.
  unfold initial_abstraction, initial_tsystem.
  set (ts0 := enlarge _). assert (Sz0 : sized 1 (pres t) (posts t) ts0) by (unfold sized, ts0; cbn; auto).
  assert (E0 : forall u, O ts0 u = [] /\ I ts0 u = [] /\ Lp ts0 u = []).
  { intros u. unfold O, I, Lp, ts0. cbn. destruct u as [|[|u]]; auto. }
  assert (Lp0 : length (c_pre ts0) = length (t_ops t)) by (unfold ts0; cbn; apply map_length). rewrite Lp0. clearbody ts0.
  destruct (fold_ext 1 (pres t) (posts t) (fun ts o => add_loop ts 0 o) (fun _ _ => False) (fun o y => y = (0, o))) with (old := seq 0 (length (t_ops t))) (ts := ts0)
    as (ts' & T & L & E & X & _ & NL & PT & PL); auto.
  { intros a b y []. }
  { intros a b y -> [= ->]. auto. }
  { apply seq_NoDup. }
  { intros ts o _ Sz. destruct (add_loop_ok 1 (pres t) (posts t) ts 0 o Sz) as (ts' & E & X); [lia|]. exists ts', [], [(0, o)]. splits; auto using NoDup_nil.
    - apply nd1.
    - intros y. cbn. tauto.
    - intros y. cbn. split; [intros [<-|[]]; auto|intros ->; auto]. }
  assert (T = []) by (apply In_nil_eq; intros y; rewrite PT; split; [intros (a & _ & [])|tauto]). subst T.
  rewrite E. cbn [bind]. eexists. split; [reflexivity|]. split; [|reflexivity].
  assert (Hed : forall o, (exists op, nth_error (t_ops t) o = Some op) -> op_edge t o (full_cset doms) (full_cset doms)).
  { intros o [op Hop]. exists op. split; auto. intros y Hy. destruct (ct_op t Ht o op Hop) as (Hn & _ & Hp & He).
    assert (P1 : forall p, preV op y = Some p -> has (full_cset doms) y p).
    { intros p Ep. apply (preV_spec op y p Hn) in Ep. apply full_has. apply (proj1 (fact_dom t (y, p))). auto. }
    split; [destruct (preV op y) eqn:Ep; auto|]. rewrite (postV_spec op y Hn). destruct (last_eff (op_effs op) y (preV op y)) as [q|] eqn:Eq.
    - apply last_eff_In in Eq as [Eq|(e & He1 & He2)]; auto. apply full_has. apply (proj1 (fact_dom t (y, q))). rewrite <- He2. auto.
    - destruct (state_holds t (t_init t) y init_ok Hy) as [_ H]. exists (nth y (t_init t) 0). split; now apply full_has. }
  assert (Hall : forall s, state_ok t s -> in_cset (full_cset doms) s).
  { intros s Hs [v d] Hd. apply full_has. destruct (holds_nth t s v d Hs Hd) as [Hv ->]. apply (state_holds t s v Hs Hv). }
  destruct X as [X1 X2 X3 X4 X5 X6 X7 X8 X9 X10].
  constructor; cbn [ab_ts ab_cinit ab_goal_facts ab_nodes ab_states ab_init ab_goals length]; auto; unfold csA, nodeA; cbn [ab_states].
  - assert (Eq1 : forall u, u < 1 -> nth u [{| a_node := 0; a_set := full_cset (map vdom (t_vars t)) |}] dflt = {| a_node := 0; a_set := full_cset (map vdom (t_vars t)) |}) by (intros [|u] Hu; [auto|lia]).
    constructor.
    + destruct Sz0 as (A1 & A2 & A3 & A4 & A5). unfold sized. splits; congruence.
    + intros u o w. rewrite X6. destruct (E0 u) as (-> & _ & _). cbn. split; [tauto|lia].
    + intros u o w. rewrite X7. destruct (E0 w) as (_ & -> & _). cbn. split; [tauto|lia].
    + intros u o. rewrite X8. destruct (E0 u) as (_ & _ & ->). cbn [app]. rewrite sel_loop_In, PL. split.
      * intros (a & Ha & [= -> ->]). apply in_seq in Ha. split; auto. rewrite Eq1 by auto. cbn [a_set]. apply Hed. destruct (nth_error (t_ops t) a) eqn:En; eauto. apply nth_error_None in En. lia.
      * intros [Hu (op & Hop & _)]. assert (u = 0) by lia. subst u. exists o. split; auto. apply in_seq. apply nth_error_Some_lt in Hop. lia.
    + intros u. rewrite X6. destruct (E0 u) as (-> & _ & _). cbn. constructor.
    + intros u. rewrite X7. destruct (E0 u) as (_ & -> & _). cbn. constructor.
    + intros u. rewrite X8. destruct (E0 u) as (_ & _ & ->). cbn [app]. now apply sel_loop_NoDup.
  - intros [|i] Hi; [|lia]. cbn. apply full_shape.
  - intros [|i] y Hi Hy; [|lia]. cbn. destruct (state_holds t (t_init t) y init_ok Hy) as [_ H]. eexists. apply full_has. exact H.
  - intros [|i] Hi; [|lia]. reflexivity.
  - intros s Hs. exists 0, 0. splits; auto. constructor.
  - intros; lia.
  - split; auto. cbn. apply Hall, init_ok.
  - apply nd1.
  - intros i [<-|[]]; auto.
  - intros i Hi _. left. lia.
  - intros _ i [<-|[]] f Hf. cbn. apply full_has. apply fact_dom. now apply goal_ok.
Qed.

Lemma mark_ok m A : AI m A -> AI true (mark_all_states_as_goals A).
Proof.
  intros []. constructor; auto; cbn [mark_all_states_as_goals ab_goals ab_states].
  - apply seq_NoDup.
  - intros i Hi. apply in_seq in Hi. lia.
  - intros i Hi _. apply in_seq. cbn in Hi. lia.
  - discriminate.
Qed.

Lemma state_facts s f : In f (combine (seq 0 (length s)) s) <-> holds s f.
Proof.
  unfold holds. assert (G : forall s0 k, In f (combine (seq k (length s0)) s0) <-> k <= fst f /\ nth_error s0 (fst f - k) = Some (snd f)).
  { induction s0 as [|a s0 IH]; intros k; cbn [length seq combine].
    - cbn. split; [tauto|]. intros [_ H]. destruct (fst f - k); discriminate.
    - cbn [In]. rewrite IH. split.
      + intros [<-|[H1 H2]]; cbn [fst snd]; [rewrite Nat.sub_diag; auto|]. split; [lia|]. replace (fst f - k) with (S (fst f - S k)) by lia. exact H2.
      + intros [H1 H2]. destruct (Nat.eq_dec (fst f) k) as [E|].
        * left. rewrite E, Nat.sub_diag in H2. cbn in H2. injection H2 as ->. rewrite <- E. now destruct f.
        * right. split; [lia|]. replace (fst f - k) with (S (fst f - S k)) in H2 by lia. exact H2. }
  rewrite G, Nat.sub_0_r. split; [tauto|]. split; auto. lia.
Qed.
Lemma includes_state_ok c s : shape c doms -> state_ok t s -> exists b, includes_state c s = Ok b /\ (b = true <-> in_cset c s).
Proof.
  intros Sc Hs. unfold includes_state. destruct (includes_facts_ok c doms Sc (combine (seq 0 (length s)) s)) as (b & E & Hb).
  - intros [v d] Hf. apply state_facts in Hf. destruct (holds_nth t s v d Hs Hf) as [Hv ->]. apply (state_holds t s v Hs Hv).
  - exists b. split; auto. rewrite Hb. split; intros H f Hf; apply H; now apply state_facts.
Qed.

Definition legal (A : abstraction) (i x : nat) (wanted : list nat) : Prop :=
  i < num A /\ wanted <> [] /\ NoDup wanted /\ (forall d, In d wanted -> has (csA A i) x d) /\ exists d, has (csA A i) x d /\ ~ In d wanted.

Lemma nth_error_dflt A i : i < num A -> nth_error (ab_states A) i = Some (nth i (ab_states A) dflt).
Proof. intros. now apply nth_error_nth'. Qed.

Lemma set_insert_In l y z : In z (set_insert l y) <-> In z l \/ z = y.
Proof. unfold set_insert. destruct (mem y l) eqn:E; [apply mem_In in E; split; [auto|intros [H| ->]; auto]|]. rewrite in_app_iff. cbn. intuition. Qed.
Lemma set_insert_NoDup l y : NoDup l -> NoDup (set_insert l y).
Proof.
  intros H. unfold set_insert. destruct (mem y l) eqn:E; auto. apply NoDup_app; auto; [apply nd1|]. intros z H1 [<-|[]]. apply mem_In in H1. congruence.
Qed.
Lemma set_erase_In l y z : In z (set_erase l y) <-> In z l /\ z <> y.
Proof. unfold set_erase. rewrite filter_In, negb_true_iff, Nat.eqb_neq. tauto. Qed.

Theorem refine_ok m A v x wanted : AI m A -> legal A v x wanted ->
  exists A', refine A v x wanted = Ok A' /\ AI m A' /\ num A' = S (num A) /\
    (forall y d, has (csA A' v) y d <-> has (csA A v) y d /\ ~ (y = x /\ In d wanted)) /\
    (forall y d, has (csA A' (num A)) y d <-> has (csA A v) y d /\ (y = x -> In d wanted)) /\
    (forall j, j < num A -> j <> v -> csA A' j = csA A j) /\
    (forall j, In j (ab_goals A') <-> (j <> v /\ In j (ab_goals A)) \/
        (In v (ab_goals A) /\ (j = v \/ j = num A) /\ forall f, In f (t_goal t) -> has (csA A' j) (fst f) (snd f))) /\
    (ab_init A' = ab_init A \/ (ab_init A = v /\ ab_init A' = num A)).
Proof.
  intros HA (Hv & Hne & Hnd & Hw & Hr). pose proof HA as [Its Ici Igf Ish Ine Ilf Icov Idj Iin Ignd Iglt Igcov Igex].
  unfold refine. unfold vget at 1. rewrite (nth_error_dflt A v Hv). cbn [bind].
  destruct (hier_split_ok (ab_nodes A) (nodeA A v) x wanted v (num A) (Ilf v Hv)) as (nodes' & h & r & En & Ln & Hh & Hr' & Hkeep & Hwalk).
  unfold nodeA in En. rewrite En. cbn [bind].
  destruct (split_domain_ok (csA A v) x wanted doms (Ish v Hv) Hne Hnd Hw Hr) as (s1 & s2 & Es & S1 & S2 & H1 & H2). unfold csA in Es. rewrite Es. cbn [bind].
  assert (Hx : x < N). { destruct Hr as (d & Hd & _). apply has_lt in Hd as [Hd _]. destruct (Ish v Hv) as [E _]. rewrite E in Hd. unfold Proof_Cartesian2.doms in Hd. now rewrite map_length in Hd. }
  assert (Hsplit : forall s, state_ok t s -> in_cset (csA A v) s -> (in_cset s1 s /\ ~ In (nth x s 0) wanted) \/ (in_cset s2 s /\ In (nth x s 0) wanted)).
  { intros s Hs Hc. destruct (in_dec Nat.eq_dec (nth x s 0) wanted) as [Hi|Hi]; [right|left]; split; auto; intros [y d] Hd; cbn [fst snd]; [apply H2|apply H1]; split; try (apply (Hc (y, d) Hd)).
    - intros ->. destruct (holds_nth t s x d Hs Hd) as [_ ->]. exact Hi.
    - intros [-> Hdw]. destruct (holds_nth t s x d Hs Hd) as [_ ->]. auto. }
  assert (In1 : forall s, in_cset s1 s -> in_cset (csA A v) s) by (intros s Hs f Hf; apply (H1 (fst f) (snd f)); auto).
  assert (In2 : forall s, in_cset s2 s -> in_cset (csA A v) s) by (intros s Hs f Hf; apply (H2 (fst f) (snd f)); auto).
  assert (Hdis : forall s, state_ok t s -> in_cset s1 s -> in_cset s2 s -> False).
  { intros s Hs G1 G2. destruct (state_holds t s x Hs Hx) as [Hsx _]. apply G1 in Hsx as G1'. apply G2 in Hsx as G2'. cbn [fst snd] in *. apply H1 in G1' as [_ G1']. apply H2 in G2' as [_ G2']. auto. }
  (* initial state *)
  destruct (includes_state_ok s1 (t_init t) S1 init_ok) as (bi & Ei & Hbi). rewrite Ici, Igf, Ei.
  (* goals *)
  assert (Gf : forall f, In f (t_goal t) -> snd f < nth (fst f) doms 0) by (intros f Hf; apply fact_dom; now apply goal_ok).
  destruct (includes_facts_ok s1 doms S1 (t_goal t) Gf) as (b1 & E1 & Hb1). destruct (includes_facts_ok s2 doms S2 (t_goal t) Gf) as (b2 & E2 & Hb2). rewrite E1. cbn [bind]. rewrite E2. cbn [bind].
  set (init' := if v =? ab_init A then (if bi then v else num A) else ab_init A).
  assert (Ei' : (if v =? ab_init A then Ok (if bi then v else num A) else Ok (ab_init A)) = Ok init') by (unfold init'; destruct (v =? ab_init A); reflexivity). rewrite Ei'. cbn [bind].
  set (g0 := set_erase (ab_goals A) v). set (g1 := if b1 then set_insert g0 v else g0). set (g2 := if b2 then set_insert g1 (num A) else g1).
  set (goals' := if mem v (ab_goals A) then g2 else ab_goals A).
  assert (Eg' : (if mem v (ab_goals A) then Ok g2 else Ok (ab_goals A)) = Ok goals') by (unfold goals'; destruct (mem v (ab_goals A)); reflexivity).
  match goal with |- context [bind ?m _] => replace m with (Ok goals') by (symmetry; exact Eg') end. cbn [bind].
  (* transition system *)
  destruct (rewire_ok t Ht (csA A) (num A) v x (csA A v) s1 s2 Hv Hx eq_refl) with (states := ab_states A) (ts := ab_ts A) as (ts' & Et & Its'); auto.
  { intros y d Hy. rewrite H1. split; [tauto|]. intros Hd; split; auto. intros [? _]; congruence. }
  { intros y d Hy. rewrite H2. split; [tauto|]. intros Hd; split; auto. intros ?; congruence. }
  { intros d. rewrite H1, H2. destruct (in_dec Nat.eq_dec d wanted); tauto. }
  { intros d G1 G2. apply H1 in G1 as [_ G1]. apply H2 in G2 as [_ G2]. auto. }
  { destruct Hr as (d & Hd & Hnd'). exists d. apply H1. split; auto. tauto. }
  { destruct wanted as [|d wanted]; [congruence|]. exists d. apply H2. split; [apply Hw; now left|]. intros _; now left. }
  { intros i a Ha. unfold csA. now rewrite (nth_error_nth _ _ dflt Ha). }
  rewrite Et. cbn [bind]. rewrite vset_lt by exact Hv. cbn [bind]. eexists. split; [reflexivity|].
  set (A' := {| ab_ts := ts' |}).
  assert (Num : num A' = S (num A)) by (unfold A'; cbn; rewrite app_length, upd_length; cbn; lia).
  assert (Nv : nth v (ab_states A') dflt = {| a_node := h; a_set := s1 |}).
  { unfold A'. cbn [ab_states fst]. rewrite app_nth1 by (rewrite upd_length; auto). rewrite nth_upd by exact Hv. now rewrite Nat.eqb_refl. }
  assert (Nn : nth (num A) (ab_states A') dflt = {| a_node := r; a_set := s2 |}).
  { unfold A'. cbn [ab_states snd]. rewrite app_nth2 by (rewrite upd_length; auto). rewrite upd_length, Nat.sub_diag. reflexivity. }
  assert (No : forall j, j <> v -> j < num A -> nth j (ab_states A') dflt = nth j (ab_states A) dflt).
  { intros j Hj Hl. unfold A'. cbn [ab_states]. rewrite app_nth1 by (rewrite upd_length; auto). rewrite nth_upd by exact Hv. destruct (Nat.eqb_spec v j); congruence. }
  assert (Cv : csA A' v = s1) by (unfold csA; now rewrite Nv). assert (Cn : csA A' (num A) = s2) by (unfold csA; now rewrite Nn).
  assert (Co : forall j, j < num A -> j <> v -> csA A' j = csA A j) by (intros j Hl Hj; unfold csA; now rewrite No).
  assert (Dv : nodeA A' v = h) by (unfold nodeA; now rewrite Nv). assert (Dn : nodeA A' (num A) = r) by (unfold nodeA; now rewrite Nn).
  assert (Do : forall j, j < num A -> j <> v -> nodeA A' j = nodeA A j) by (intros j Hl Hj; unfold nodeA; now rewrite No).
  assert (Ecs : forall i, i < S (num A) -> cs' (csA A) (num A) v s1 s2 i = csA A' i).
  { intros i Hi. unfold cs'. destruct (Nat.eqb_spec i v) as [->|]; [now rewrite Cv|]. destruct (Nat.eqb_spec i (num A)) as [->|]; [now rewrite Cn|]. rewrite Co; auto. lia. }
  assert (Cases : forall i, i < num A' -> i = v \/ i = num A \/ (i < num A /\ i <> v)) by (intros i Hi; rewrite Num in Hi; lia).
  assert (Hinit : init' < num A' /\ in_cset (csA A' init') (t_init t)).
  { rewrite Num. unfold init'. destruct Iin as [I1 I2]. destruct (Nat.eqb_spec v (ab_init A)) as [Ev|Hvi].
    - rewrite <- Ev in I2. destruct bi.
      + split; [lia|]. rewrite Cv. now apply Hbi.
      + split; [lia|]. rewrite Cn. destruct (Hsplit _ init_ok I2) as [[G _]|[G _]]; auto. apply Hbi in G. discriminate.
    - split; [lia|]. rewrite Co by auto. exact I2. }
  assert (Gall : forall j, In j goals' <-> (j <> v /\ In j (ab_goals A)) \/
        (In v (ab_goals A) /\ (j = v \/ j = num A) /\ forall f, In f (t_goal t) -> has (csA A' j) (fst f) (snd f))).
  { intros j. unfold goals'. destruct (mem v (ab_goals A)) eqn:Em.
    - apply mem_In in Em. assert (Hg2 : In j g2 <-> (In j (ab_goals A) /\ j <> v) \/ (b1 = true /\ j = v) \/ (b2 = true /\ j = num A)).
      { unfold g2, g1, g0. destruct b1, b2; rewrite ?set_insert_In, ?set_erase_In; intuition discriminate. }
      rewrite Hg2. split.
      + intros [[G1 G2]|[[G1 ->]|[G1 ->]]]; [left; auto|right|right]; splits; auto; [rewrite Cv; now apply Hb1|rewrite Cn; now apply Hb2].
      + intros [[G1 G2]|(_ & [-> | ->] & G)]; [left; auto|right; left|right; right]; split; auto; [apply Hb1; now rewrite Cv in G|apply Hb2; now rewrite Cn in G].
    - assert (~ In v (ab_goals A)) by (rewrite <- mem_In; congruence). split; [|tauto]. intros G. left. split; auto. intros ->; auto. }
  splits.
  - constructor.
    + rewrite Num. change (ab_ts A') with ts'. destruct Its' as [J1 J2 J3 J4 J5 J6 J7]. constructor; auto.
      * intros u o w. rewrite J2. split; intros (G1 & G2 & G3 & G4); splits; auto; [rewrite <- !Ecs by auto|rewrite !Ecs by auto]; exact G4.
      * intros u o w. rewrite J3. split; intros (G1 & G2 & G3 & G4); splits; auto; [rewrite <- !Ecs by auto|rewrite !Ecs by auto]; exact G4.
      * intros u o. rewrite J4. split; intros (G1 & G2); split; auto; [rewrite <- !Ecs by auto|rewrite !Ecs by auto]; exact G2.
    + reflexivity.
    + reflexivity.
    + intros i Hi. destruct (Cases i Hi) as [->|[->|[G1 G2]]]; [now rewrite Cv|now rewrite Cn|]. rewrite Co by auto. auto.
    + intros i y Hi Hy. destruct (Cases i Hi) as [->|[->|[G1 G2]]]; [rewrite Cv|rewrite Cn|rewrite Co by auto; auto].
      * destruct (Nat.eq_dec y x) as [->|Hyx]; [destruct Hr as (d & Hd & Hn'); exists d; apply H1; tauto|]. destruct (Ine v y Hv Hy) as [d Hd]. exists d. apply H1. tauto.
      * destruct (Nat.eq_dec y x) as [->|Hyx]; [destruct wanted as [|d wanted]; [congruence|]; exists d; apply H2; split; [apply Hw; now left|intros _; now left]|].
        destruct (Ine v y Hv Hy) as [d Hd]. exists d. apply H2. tauto.
    + intros i Hi. change (ab_nodes A') with nodes'. destruct (Cases i Hi) as [->|[->|[G1 G2]]]; [now rewrite Dv|now rewrite Dn|]. rewrite Do by auto. rewrite Hkeep; auto.
      * eapply nth_error_Some_lt. exact (Ilf i G1).
      * intros E. pose proof (Ilf i G1) as Q1. pose proof (Ilf v Hv) as Q2. rewrite E in Q1. congruence.
    + intros s Hs. change (ab_nodes A') with nodes'. destruct (Icov s Hs) as (i & k & Hi & Hk & Hw1 & Hc).
      assert (Hw2 : reachn nodes' s k 0 (nodeA A i)).
      { eapply reachn_keep; [|exact Hw1]. intros b Hb. apply Hkeep.
        - destruct (le_lt_dec (length (ab_nodes A)) b); auto. rewrite nth_overflow in Hb by auto. discriminate.
        - intros ->. rewrite (nth_error_nth _ _ (Leaf 0) (Ilf v Hv)) in Hb. discriminate. }
      destruct (Nat.eq_dec i v) as [->|Hiv].
      * destruct (state_holds t s x Hs Hx) as [Hsx _]. destruct (Hwalk s (nth x s 0) Hsx) as (k' & Hk' & Hw3). assert (Hw4 := reachn_trans _ _ _ _ _ _ _ Hw2 Hw3).
        destruct (Hsplit s Hs Hc) as [[G1 G2]|[G1 G2]]; destruct (in_dec Nat.eq_dec (nth x s 0) wanted); try tauto.
        -- exists v, (k + k'). rewrite Num, Ln, Dv, Cv. splits; auto; lia.
        -- exists (num A), (k + k'). rewrite Num, Ln, Dn, Cn. splits; auto; lia.
      * exists i, k. rewrite Num, Ln, Do, Co by auto. splits; auto; lia.
    + intros i j s Hi Hj Hs G1 G2.
      destruct (Cases i Hi) as [->|[->|[G3 G4]]]; [rewrite Cv in G1|rewrite Cn in G1|rewrite Co in G1 by auto]; (destruct (Cases j Hj) as [->|[->|[G5 G6]]]; [rewrite Cv in G2|rewrite Cn in G2|rewrite Co in G2 by auto]); auto.
      * destruct (Hdis s Hs G1 G2).
      * destruct G6. symmetry. apply (Idj v j s); auto.
      * destruct (Hdis s Hs G2 G1).
      * destruct G6. symmetry. apply (Idj v j s); auto.
      * destruct G4. apply (Idj i v s); auto.
      * destruct G4. apply (Idj i v s); auto.
      * apply (Idj i j s); auto.
    + exact Hinit.
    + change (ab_goals A') with goals'. unfold goals', g2, g1, g0. assert (Q : NoDup (set_erase (ab_goals A) v)) by (apply NoDup_filter; exact Ignd).
      destruct (mem v (ab_goals A)), b1, b2; auto using set_insert_NoDup.
    + intros i Hi. change (ab_goals A') with goals' in Hi. rewrite Num. apply Gall in Hi as [[_ Hi]|(_ & [-> | ->] & _)]; [apply Iglt in Hi|clear - Hv|]; lia.
    + intros i Hi Hf. change (ab_goals A') with goals'. apply Gall. destruct (Cases i Hi) as [->|[->|[G3 G4]]].
      * right. splits; auto. apply Igcov; auto. intros f Hf'. specialize (Hf f Hf'). rewrite Cv in Hf. now apply H1 in Hf.
      * right. splits; auto. apply Igcov; auto. intros f Hf'. specialize (Hf f Hf'). rewrite Cn in Hf. now apply H2 in Hf.
      * left. split; auto. apply Igcov; auto. intros f Hf'. specialize (Hf f Hf'). now rewrite Co in Hf by auto.
    + intros Hm i Hi. change (ab_goals A') with goals' in Hi. apply Gall in Hi as [[G1 G2]|(_ & _ & G)]; [|exact G]. intros f Hf. rewrite Co by (auto; apply Iglt; auto). apply (Igex Hm); auto.
  - exact Num.
  - intros y d. rewrite Cv. apply H1.
  - intros y d. rewrite Cn. apply H2.
  - exact Co.
  - exact Gall.
  - change (ab_init A') with init'. unfold init'. destruct (Nat.eqb_spec v (ab_init A)) as [->|]; [destruct bi|]; auto.
Qed.
End INV.

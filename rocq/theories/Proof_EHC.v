(** Soundness of enforced hill-climbing and what its preferred-operator modes do. *)
From Coq Require Import Permutation.
From Verif Require Import Outcome Spec_Plan Spec_OpenListContract Model_SearchSpace Model_OpenList Model_Eager
  Model_EHC Proof_SearchSpace Proof_Trace Proof_Controller Proof_Lazy.

(** Paths all of whose steps are permitted. *)
Inductive ppath (T : TS) (P : ts_state T -> nat -> Prop) : ts_state T -> list nat -> ts_state T -> Prop :=
| pp_nil : forall s, ppath T P s [] s
| pp_cons : forall s o os s', P s o -> ppath T P (ts_succ T s o) os s' -> ppath T P s (o :: os) s'.

Lemma ppath_snoc T P s os s1 o : ppath T P s os s1 -> P s1 o -> ppath T P s (os ++ [o]) (ts_succ T s1 o).
Proof. induction 1; cbn; intros; constructor; auto. constructor. Qed.

(** The list built for RANK_PREFERRED_FIRST ignores non-preferred insertions. *)
Lemma ehc_open_rank_drop b u : b = true -> u = RANK_PREFERRED_FIRST ->
  forall q x e, x_pref x = false -> ol_insert (ehc_open b u) q x e = Ok q.
Proof. intros -> -> q x e H. unfold ol_insert. cbn. now rewrite H. Qed.

Section EHC.
Variable T : TS.
Variable ct : ehc_controller T.
Variable cfg : ehc_config.
Variable P : ts_state T -> nat -> Prop.
Hypothesis Hwf : ts_wf T.
Hypothesis Happ : forall c s, incl (fst (e_preferred ct c s)) (ts_app T s).
Hypothesis HP1 : eh_use_preferred cfg = true -> forall c s op, In op (fst (e_preferred ct c s)) -> P s op.
Hypothesis HP2 : eh_use_preferred cfg = false -> forall s op, In op (ts_app T s) -> P s op.

Let ac := adj T (eh_base cfg).
Let bound := ec_bound (eh_base cfg).
Let L := ehc_open (eh_use_preferred cfg) (eh_usage cfg).

Definition has_g (n : node_info) : Prop := exists g, ni_g n = Some g.

Record EInv (sp : space T) : Prop := {
  ei_tinv : TInv T ac sp;
  ei_init : exists n, nth_error sp 0 = Some (ts_init T, n);
  ei_cases : forall id s n, nth_error sp id = Some (s, n) ->
    n = new_info \/ ((ni_status n = OPEN \/ ni_status n = CLOSED) /\ has_g n) \/
    (ni_status n = DEAD_END /\ ni_g n = None);
  ei_real : forall id s n, nth_error sp id = Some (s, n) -> has_g n ->
    match ni_parent n with
    | None => id = 0 /\ ni_real_g n = 0
    | Some (pid, op) => exists ps pn, nth_error sp pid = Some (ps, pn) /\ has_g pn /\ P ps op /\
        ni_real_g n = ni_real_g pn + ts_cost T op /\ reaches_bound bound (ni_real_g n) = false
    end
}.

Definition fixed (sp sp' : space T) : Prop :=
  forall i s n, nth_error sp i = Some (s, n) -> exists n', nth_error sp' i = Some (s, n') /\
    (has_g n -> ni_g n' = ni_g n /\ ni_real_g n' = ni_real_g n /\ ni_parent n' = ni_parent n).

Lemma fixed_refl sp : fixed sp sp.
Proof. intros i s n H; eauto. Qed.
Lemma fixed_trans a b c : fixed a b -> fixed b c -> fixed a c.
Proof.
  intros H1 H2 i s n H. destruct (H1 _ _ _ H) as (n1 & E1 & F1). destruct (H2 _ _ _ E1) as (n2 & E2 & F2).
  exists n2. split; auto. intros Hg. destruct (F1 Hg) as (A & B & D).
  destruct F2 as (A' & B' & D'). { destruct Hg as [g Hg]. exists g. congruence. }
  repeat split; congruence.
Qed.
Lemma fixed_snoc sp x : fixed sp (sp ++ [x]).
Proof. intros i s n H. exists n. split; [now apply nth_app_old|auto]. Qed.
Lemma fixed_upd sp id s n n' : nth_error sp id = Some (s, n) ->
  (has_g n -> ni_g n' = ni_g n /\ ni_real_g n' = ni_real_g n /\ ni_parent n' = ni_parent n) ->
  fixed sp (upd sp id (s, n')).
Proof.
  intros H Hk i s0 n0 H0. destruct (Nat.eq_dec id i) as [->|Hne].
  - rewrite H in H0. inv H0. exists n'. split; auto. apply upd_nth_eq. eapply nth_error_Some_lt; eauto.
  - exists n0. split; auto. rewrite upd_nth_neq; auto.
Qed.

Lemma EInv_real_transfer sp sp' id s n : EInv sp -> fixed sp sp' -> nth_error sp id = Some (s, n) -> has_g n ->
    match ni_parent n with
    | None => id = 0 /\ ni_real_g n = 0
    | Some (pid, op) => exists ps pn, nth_error sp' pid = Some (ps, pn) /\ has_g pn /\ P ps op /\
        ni_real_g n = ni_real_g pn + ts_cost T op /\ reaches_bound bound (ni_real_g n) = false
    end.
Proof.
  intros Inv HF H Hg. pose proof (ei_real _ Inv _ _ _ H Hg) as R. destruct (ni_parent n) as [[pid op]|]; auto.
  destruct R as (ps & pn & A & B & D & E). destruct (HF _ _ _ A) as (pn' & A' & Hk). destruct (Hk B) as (X & Y & Z).
  exists ps, pn'. split; auto. split; [destruct B as [g B]; exists g; congruence|]. split; auto. destruct E; split; congruence.
Qed.

(** Replacing an opened node by a copy with another status. *)
Lemma EInv_status sp id s n st : EInv sp -> nth_error sp id = Some (s, n) -> has_g n ->
  st = CLOSED -> EInv (upd sp id (s, set_status n st)).
Proof.
  intros Inv H Hg ->. pose proof Inv as [A B D E].
  assert (HF : fixed sp (upd sp id (s, set_status n CLOSED))) by (eapply fixed_upd; eauto).
  constructor.
  - apply status_TInv; auto; discriminate.
  - destruct B as [m B]. destruct (HF _ _ _ B) as (m' & B' & _). eauto.
  - intros i s0 n0 H0. apply nth_upd_cases in H0. destruct H0 as [[-> H0]|[_ H0]]; eauto. inv H0.
    right; left. cbn. auto.
  - intros i s0 n0 H0 Hg0. apply nth_upd_cases in H0. destruct H0 as [[-> H0]|[_ H0]].
    + inv H0. cbn [set_status ni_parent ni_real_g]. eapply EInv_real_transfer; eauto.
    + eapply EInv_real_transfer; eauto.
Qed.

Lemma EInv_dead sp id s : EInv sp -> nth_error sp id = Some (s, new_info) ->
  EInv (upd sp id (s, mark_as_dead_end new_info)) /\ fixed sp (upd sp id (s, mark_as_dead_end new_info)).
Proof.
  intros Inv H. pose proof Inv as [A B D E].
  assert (HF : fixed sp (upd sp id (s, mark_as_dead_end new_info))).
  { eapply fixed_upd; eauto. }
  split; auto. constructor.
  - apply status_TInv; auto; discriminate.
  - destruct B as [m B]. destruct (HF _ _ _ B) as (m' & B' & _). eauto.
  - intros i s0 n0 H0. apply nth_upd_cases in H0. destruct H0 as [[-> H0]|[_ H0]]; eauto. inv H0. auto.
  - intros i s0 n0 H0 Hg0. apply nth_upd_cases in H0. destruct H0 as [[-> H0]|[_ H0]].
    + inv H0. destruct Hg0 as [g Hg0]. discriminate.
    + eapply EInv_real_transfer; eauto.
Qed.

Lemma EInv_open sp id pid ps pn op pg : EInv sp ->
  nth_error sp id = Some (ts_succ T ps op, new_info) -> nth_error sp pid = Some (ps, pn) -> ni_g pn = Some pg ->
  In op (ts_app T ps) -> P ps op -> reaches_bound bound (ni_real_g pn + ts_cost T op) = false ->
  let sp' := upd sp id (ts_succ T ps op, update_parent OPEN pg (ni_real_g pn) pid op (ac op) (ts_cost T op)) in
  EInv sp' /\ fixed sp sp'.
Proof.
  intros Inv Hid Hpid Hpg Hop HPo Hb sp'. pose proof Inv as [A B D E].
  assert (HF : fixed sp sp').
  { eapply fixed_upd; eauto. intros [g Hg]. discriminate. }
  split; auto. constructor.
  - unfold sp'. eapply redirect_TInv; eauto. discriminate.
  - destruct B as [m B]. destruct (HF _ _ _ B) as (m' & B' & _). eauto.
  - intros i s0 n0 H0. apply nth_upd_cases in H0. destruct H0 as [[-> H0]|[_ H0]]; eauto. inv H0.
    right; left. cbn. split; auto. eexists; reflexivity.
  - intros i s0 n0 H0 Hg0. apply nth_upd_cases in H0. destruct H0 as [[-> H0]|[_ H0]].
    + inv H0. cbn [update_parent ni_parent ni_real_g].
      destruct (HF _ _ _ Hpid) as (pn' & Hp' & Hk). destruct Hk as (X & Y & Z); [exists pg; auto|].
      exists ps, pn'. split; auto. split; [exists pg; congruence|]. split; [auto|]. split; [congruence|auto].
    + eapply EInv_real_transfer; eauto.
Qed.

Lemma EInv_register sp s sp1 id : EInv sp -> register sp s = (sp1, id) ->
  EInv sp1 /\ fixed sp sp1 /\ exists n, nth_error sp1 id = Some (s, n).
Proof.
  intros Inv Hr. pose proof Inv as [A B D E].
  destruct (register_TInv T ac Hwf _ _ _ _ A Hr) as (A1 & n & Hn & _).
  { left. intros ->. destruct B; discriminate. }
  apply register_spec in Hr; auto. destruct Hr as [(-> & _)|(-> & -> & Hf)].
  - split; auto. split; [apply fixed_refl|eauto].
  - split; [|split; [apply fixed_snoc|eauto]]. constructor; auto.
    + destruct B as [m B]. exists m. now apply nth_app_old.
    + intros i s0 n0 H. apply nth_app_inv in H. destruct H as [H|[-> H]]; eauto. inv H. auto.
    + intros i s0 n0 H Hg. apply nth_app_inv in H. destruct H as [H|[-> H]].
      * eapply EInv_real_transfer; eauto. apply fixed_snoc.
      * inv H. destruct Hg; discriminate.
Qed.

(* ---------- plans ---------- *)

Lemma chain_real sp id ops ids : EInv sp -> chain T ac sp id ops ids ->
  forall s n, nth_error sp id = Some (s, n) -> ni_real_g n = sum_cost (ts_cost T) ops /\ ppath T P (ts_init T) ops s.
Proof.
  intros Inv H. induction H as [n H0 Hp Hg|id s n pid ps pn op ops ids pg g H1 H2 H3 H4 H5 H6 H7 H8 Hc IH]; intros s' n' Hid.
  - rewrite H0 in Hid. inv Hid. pose proof (ei_real _ Inv _ _ _ H0) as R. rewrite Hp in R.
    destruct R as (_ & R); [exists 0; auto|]. split; auto. constructor.
  - rewrite H1 in Hid. inv Hid. pose proof (ei_real _ Inv _ _ _ H1) as R. rewrite H2 in R.
    destruct R as (ps' & pn' & E & _ & HPo & Hr & _); [exists g; auto|]. rewrite H3 in E. inv E.
    destruct (IH _ _ H3) as (Hs & Hpp). rewrite Hr, Hs, sum_cost_app. split.
    + cbn. lia.
    + apply ppath_snoc; auto.
Qed.

Lemma ehc_plan sp id s n : EInv sp -> nth_error sp id = Some (s, n) -> has_g n -> ts_goal T s = true ->
  exists plan, trace_path sp id = Ok plan /\ is_plan T plan /\
    (forall b, bound = Some b -> plan = [] \/ sum_cost (ts_cost T) plan < b) /\
    ppath T P (ts_init T) plan s.
Proof.
  intros Inv Hid [g Hg] Hgoal. destruct (ti_chain _ _ _ (ei_tinv _ Inv) _ _ _ _ Hid Hg) as (plan & ids & Hc).
  exists plan. split; [eapply trace_path_chain; eauto|].
  destruct (chain_g _ _ _ _ _ _ Hc) as (s1 & n1 & g1 & E1 & G1 & Sm & Pa & _).
  rewrite Hid in E1. inv E1. split; [exists s1; auto|].
  destruct (chain_real _ _ _ _ Inv Hc _ _ Hid) as (Hr & Hpp). split; auto.
  intros b Hb. inversion Hc as [? Hn0 Hp0 Hg0|id0 s0 n0 pid ps pn op ops0 ids0 pg g0 X1 X2 X3 X4 X5 X6 X7 X8 X9]; subst.
  - auto.
  - right. rewrite Hid in X1. inv X1. pose proof (ei_real _ Inv _ _ _ Hid) as R. rewrite X2 in R.
    destruct R as (ps' & pn' & E & _ & _ & _ & Hlt); [exists g; auto|].
    rewrite Hr, Hb in Hlt. cbn in Hlt. apply Nat.leb_gt in Hlt. exact Hlt.
Qed.

(* ---------- the open list ---------- *)

Lemma ehc_open_contract : exists J ents, ol_contract L J ents.
Proof.
  unfold L, ehc_open. destruct (negb _ || _).
  - eexists _, _. apply best_first_contract.
  - eexists _, _. apply tie_breaking_contract. discriminate.
Qed.

Variable J : OL L -> Prop.
Variable ents : OL L -> list (nat * nat).
Hypothesis HL : ol_contract L J ents.

Definition edge_ok (sp : space T) (e : nat * nat) : Prop :=
  exists ps pn, nth_error sp (fst e) = Some (ps, pn) /\ has_g pn /\ In (snd e) (ts_app T ps) /\ P ps (snd e).

Lemma edge_fixed sp sp' e : fixed sp sp' -> edge_ok sp e -> edge_ok sp' e.
Proof.
  intros HF (ps & pn & H & Hg & Ho & HPo). destruct (HF _ _ _ H) as (pn' & H' & Hk). destruct (Hk Hg) as (A & _).
  exists ps, pn'. split; auto. split; auto. destruct Hg as [g Hg]. exists g. congruence.
Qed.

(** An edge that is really inserted is permitted. *)
Definition offer (s : ts_state T) (x : nat * bool) : Prop :=
  In (fst x) (ts_app T s) /\
  (P s (fst x) \/ (eh_use_preferred cfg = true /\ eh_usage cfg = RANK_PREFERRED_FIRST /\ snd x = false)).

Lemma insert_permitted q id g x s : J q -> offer s x ->
  exists q', insert_successor T cfg id g q x = Ok q' /\ J q' /\
  forall e, In e (ents q') -> In e (ents q) \/ (e = (id, fst x) /\ P s (fst x)).
Proof.
  intros HJ [Ho Hp]. destruct x as [op pref]. cbn [fst snd] in *. unfold insert_successor. fold L.
  destruct (oc_insert _ _ _ HL q (ehc_ctx (g + adj T (eh_base cfg) op) pref) (id, op) HJ) as (q1 & E1 & HJ1 & k & Pm).
  exists q1. split; auto. split; auto. intros e He.
  destruct Hp as [Hp|(Hu & Hr & ->)].
  - apply (Permutation_in _ Pm) in He. apply in_app_or in He. destruct He as [He|He]; auto.
    apply repeat_spec in He. auto.
  - unfold L in E1. rewrite (ehc_open_rank_drop _ _ Hu Hr) in E1 by reflexivity. inv E1. auto.
Qed.

Lemma inserts_permitted xs s id g : forall q, J q -> (forall x, In x xs -> offer s x) ->
  exists q', fold_outcome (insert_successor T cfg id g) xs q = Ok q' /\ J q' /\
  forall e, In e (ents q') -> In e (ents q) \/ (fst e = id /\ In (snd e) (ts_app T s) /\ P s (snd e)).
Proof.
  induction xs as [|x xs IH]; intros q HJ Hx; cbn [fold_outcome].
  - exists q. auto.
  - destruct (insert_permitted q id g x s HJ (Hx x (or_introl eq_refl))) as (q1 & E1 & HJ1 & Hin1).
    rewrite E1; cbn [bind]. destruct (IH q1 HJ1) as (q2 & E2 & HJ2 & Hin2); [intros; apply Hx; cbn; auto|].
    exists q2. split; auto. split; auto. intros e He. destruct (Hin2 e He) as [He'|He']; auto.
    destruct (Hin1 e He') as [He''|[-> Hp]]; auto. right. cbn. split; auto. split; auto.
    apply (Hx x (or_introl eq_refl)).
Qed.

Definition QInv (sp : space T) (q : OL L) : Prop := J q /\ forall e, In e (ents q) -> edge_ok sp e.

Lemma expand_spec sp c q id s n : EInv sp -> QInv sp q -> nth_error sp id = Some (s, n) ->
  ni_status n = OPEN -> has_g n ->
  exists sp' c' q', ehc_expand T ct cfg sp c q id = Ok (sp', c', q') /\ EInv sp' /\ QInv sp' q' /\ fixed sp sp'.
Proof.
  intros Inv [HJ HQ] H Ho [g Hg]. unfold ehc_expand. unfold get_node, vget. rewrite H; cbn [bind].
  unfold get_g. rewrite Hg; cbn [bind].
  destruct (if eh_use_preferred cfg then e_preferred ct c s else ([], c)) as [prefs c1] eqn:Ep.
  assert (Hprefs : forall op, In op prefs -> In op (ts_app T s) /\ P s op).
  { intros op Hop. destruct (eh_use_preferred cfg) eqn:Eu; [|inv Ep; destruct Hop].
    assert (Hin : In op (fst (e_preferred ct c s))) by (rewrite Ep; auto).
    split; [eapply Happ|eapply HP1]; eauto. }
  match goal with |- context [fold_outcome _ ?es q] => set (edges := es) end.
  assert (Hedges : forall x, In x edges -> offer s x).
  { unfold edges, offer. destruct (eh_use_preferred cfg) eqn:Eu; cbn [andb].
    - destruct (eh_usage cfg) eqn:Eus; cbn [andb]; intros x Hx; apply in_map_iff in Hx; destruct Hx as (op & <- & Hop); cbn [fst snd].
      + split; [apply Hprefs; auto|left; apply Hprefs; auto].
      + split; auto. destruct (existsb (Nat.eqb op) prefs) eqn:Eb; auto.
        apply existsb_exists in Eb. destruct Eb as (y & Hy & E). apply Nat.eqb_eq in E. subst y.
        left. apply Hprefs; auto.
    - intros x Hx. apply in_map_iff in Hx. destruct Hx as (op & <- & Hop). cbn [fst]. auto. }
  destruct (inserts_permitted edges s id g q HJ Hedges) as (q' & E & HJ' & Hin).
  rewrite E; cbn [bind]. unfold close_node, is_open. rewrite Ho; cbn [status_eqb guard bind].
  erewrite put_some by eauto. cbn [bind].
  assert (HF : fixed sp (upd sp id (s, set_status n CLOSED))) by (eapply fixed_upd; eauto).
  eexists _, _, _. split; [reflexivity|]. split; [|split]; auto.
  - apply EInv_status; auto. exists g; auto.
  - split; auto. intros e He. destruct (Hin e He) as [He'|(A & B & D)].
    + eapply edge_fixed; eauto.
    + eapply edge_fixed; eauto. exists s, n. rewrite A. split; auto. split; [exists g|]; auto.
Qed.

Record SInv (st : ehc_state T ct cfg) : Prop := {
  si_e : EInv (eh_space st);
  si_q : QInv (eh_space st) (eh_open st);
  si_cur : eh_fresh st = true -> exists s n, nth_error (eh_space st) (eh_id st) = Some (s, n) /\ ni_status n = OPEN /\ has_g n
}.

Lemma ehc_action_spec st : SInv st ->
  exists r, ehc_action T ct cfg st = Ok r /\
  match r with
  | IN_PROGRESS st' => SInv st'
  | FAILED _ => True
  | SOLVED plan _ => is_plan T plan /\
    (forall b, bound = Some b -> plan = [] \/ sum_cost (ts_cost T) plan < b) /\ exists s, ppath T P (ts_init T) plan s
  end.
Proof.
  intros [Inv HQ Hcur]. unfold ehc_action. fold L. destruct (eh_fresh st) eqn:Ef.
  - destruct (Hcur eq_refl) as (s & n & H & Ho & Hg). unfold get_node at 1, vget. rewrite H; cbn [bind].
    destruct (ts_goal T s) eqn:Eg.
    + destruct (ehc_plan _ _ _ _ Inv H Hg Eg) as (plan & Et & A & B & D). rewrite Et; cbn [bind].
      eexists. split; [reflexivity|]. split; [exact A|]. split; [exact B|eauto].
    + destruct (expand_spec _ (eh_c st) _ _ _ _ Inv HQ H Ho Hg) as (sp' & c' & q' & E & Inv' & HQ' & HF).
      rewrite E; cbn [bind]. eexists. split; [reflexivity|]. constructor; cbn; auto; try discriminate.
  - destruct (ol_empty L (eh_open st)) eqn:Ee; [eexists; split; [reflexivity|exact Logic.I]|].
    destruct HQ as [HJ HQ]. destruct (oc_remove _ _ _ HL _ HJ Ee) as ([pid op] & q & Er & HJq & Pm).
    rewrite Er; cbn [bind].
    assert (HQq : QInv (eh_space st) q).
    { split; auto. intros e He. apply HQ. eapply Permutation_in; [apply Permutation_sym, Pm|cbn; auto]. }
    destruct (HQ (pid, op)) as (ps & pn & Hp & [pg Hpg] & Hop & HPo).
    { eapply Permutation_in; [apply Permutation_sym, Pm|cbn; auto]. }
    cbn [fst snd] in *. unfold get_node at 1, vget at 1. rewrite Hp; cbn [bind].
    unfold get_g at 1. rewrite Hpg; cbn [bind].
    destruct (reaches_bound (ec_bound (eh_base cfg)) (ni_real_g pn + ts_cost T op)) eqn:Eb.
    { eexists. split; [reflexivity|]. constructor; cbn; auto; try discriminate. }
    rewrite existsb_mem by auto. cbn [guard bind].
    destruct (register (eh_space st) (ts_succ T ps op)) as [sp1 id] eqn:Ereg.
    destruct (EInv_register _ _ _ _ Inv Ereg) as (Inv1 & HF1 & n & Hn).
    unfold get_node at 1, vget at 1. rewrite Hn; cbn [bind].
    assert (HQ1 : QInv sp1 q).
    { destruct HQq as [X Y]. split; auto. intros e He. eapply edge_fixed; eauto. }
    destruct (is_new n) eqn:En.
    2:{ eexists. split; [reflexivity|]. constructor; cbn; auto; try discriminate. }
    assert (Hnew : n = new_info).
    { destruct (ei_cases _ Inv1 _ _ _ Hn) as [|[[[A|A] _]|[A _]]]; auto; unfold is_new in En; rewrite A in En; discriminate. }
    subst n. destruct (e_eval ct _ _) as [[h|] c2].
    2:{ erewrite put_some by eauto; cbn [bind]. destruct (EInv_dead _ _ _ Inv1 Hn) as (Inv2 & HF2).
        eexists. split; [reflexivity|]. constructor; cbn [eh_space eh_open eh_fresh]; auto; [|discriminate].
        destruct HQ1 as [X Y]. split; auto. intros e He. eapply edge_fixed; eauto. }
    destruct (HF1 _ _ _ Hp) as (pn1 & Hp1 & Hk). destruct Hk as (K1 & K2 & K3); [exists pg; auto|].
    unfold open_new_node. rewrite En; cbn [guard bind]. erewrite put_some by eauto; cbn [bind].
    destruct (EInv_open sp1 id pid ps pn1 op pg Inv1 Hn Hp1) as (Inv2 & HF2); auto; try congruence.
    { rewrite K2. exact Eb. }
    cbn zeta in Inv2, HF2. rewrite K2 in Inv2, HF2. fold ac.
    set (sp2 := upd sp1 id (ts_succ T ps op, update_parent OPEN pg (ni_real_g pn) pid op (ac op) (ts_cost T op))) in *.
    assert (Hn2 : nth_error sp2 id = Some (ts_succ T ps op, update_parent OPEN pg (ni_real_g pn) pid op (ac op) (ts_cost T op))).
    { apply upd_nth_eq. eapply nth_error_Some_lt; eauto. }
    destruct (h <? eh_h st).
    + eexists. split; [reflexivity|]. constructor; cbn [eh_space eh_open eh_fresh eh_id]; auto.
      * destruct (oc_clear _ _ _ HL q HJq) as [X Y]. split; auto. intros e He. fold L in He. rewrite Y in He. destruct He.
      * intros _. eexists _, _. split; [exact Hn2|]. split; [reflexivity|]. eexists; reflexivity.
    + assert (HQ2 : QInv sp2 q).
      { destruct HQ1 as [X Y]. split; auto. intros e He. eapply edge_fixed; eauto. }
      destruct (expand_spec _ c2 _ _ _ _ Inv2 HQ2 Hn2) as (sp3 & c3 & q3 & E & Inv3 & HQ3 & HF3).
      { reflexivity. } { eexists; reflexivity. }
      rewrite E; cbn [bind]. eexists. split; [reflexivity|]. constructor; cbn; auto; try discriminate.
Qed.

Lemma ehc_init_spec c0 st : ehc_initialize T ct cfg c0 = Ok st -> SInv st.
Proof.
  unfold ehc_initialize. cbn [register find_state length app].
  destruct (register ([] : space T) (ts_init T)) as [sp id] eqn:Er.
  assert (E : sp = [(ts_init T, new_info)] /\ id = 0).
  { apply register_spec in Er; auto. destruct Er as [(-> & n & Hn)|(-> & -> & _)]; [destruct id; discriminate|auto]. }
  destruct E as [-> ->]. destruct (e_eval ct _ _) as [[h|] c2]; [|discriminate].
  cbn. intros H. inv H.
  assert (H1 : forall i s n, nth_error [(ts_init T, {| ni_status := OPEN; ni_g := Some 0; ni_real_g := 0; ni_parent := None |})] i = Some (s, n) ->
    i = 0 /\ s = ts_init T /\ n = {| ni_status := OPEN; ni_g := Some 0; ni_real_g := 0; ni_parent := None |}).
  { intros [|[|i]] s n; cbn; intros E; inv E; auto. }
  constructor; cbn [eh_space eh_open eh_fresh eh_id].
  - constructor.
    + constructor.
      * right. eexists; reflexivity.
      * intros i j s n m A B. apply H1 in A, B. intuition congruence.
      * intros i s n g A _. destruct (H1 _ _ _ A) as (-> & -> & ->). exists [], [0]. econstructor; reflexivity.
      * intros i s n A B. destruct (H1 _ _ _ A) as (-> & -> & ->). discriminate.
    + eexists; reflexivity.
    + intros i s n A. destruct (H1 _ _ _ A) as (-> & -> & ->). right; left. split; [auto|eexists; reflexivity].
    + intros i s n A _. destruct (H1 _ _ _ A) as (-> & -> & ->). cbn. auto.
  - destruct (oc_init _ _ _ HL) as [X Y]. split; auto. intros e He. fold L in He. rewrite Y in He. destruct He.
  - intros _. eexists _, _. split; [reflexivity|]. split; [reflexivity|eexists; reflexivity].
Qed.

Lemma ehc_loop_spec fuel : forall st, SInv st ->
  exists r, ehc_loop T ct cfg fuel st = Ok r /\
  forall plan st', r = SOLVED plan st' -> is_plan T plan /\
    (forall b, bound = Some b -> plan = [] \/ sum_cost (ts_cost T) plan < b) /\ exists s, ppath T P (ts_init T) plan s.
Proof.
  induction fuel as [|f IH]; intros st Inv; cbn [ehc_loop].
  - eexists. split; [reflexivity|]. discriminate.
  - destruct (ehc_action_spec st Inv) as ([st'|st'|plan st'] & E & Hr); rewrite E; cbn [bind].
    + auto.
    + eexists. split; [reflexivity|]. discriminate.
    + eexists. split; [reflexivity|]. intros plan' st2 H. inv H. auto.
Qed.
End EHC.

Section Main.
Variable T : TS.
Variable ct : ehc_controller T.
Variable cfg : ehc_config.
Hypothesis Hwf : ts_wf T.
Hypothesis Happ : forall c s, incl (fst (e_preferred ct c s)) (ts_app T s).

Lemma ehc_sound_gen (P : ts_state T -> nat -> Prop) : (eh_use_preferred cfg = true -> forall c s op, In op (fst (e_preferred ct c s)) -> P s op) ->
  (eh_use_preferred cfg = false -> forall s op, In op (ts_app T s) -> P s op) ->
  forall fuel c0 plan st, ehc_search T ct cfg fuel c0 = Ok (SOLVED plan st) ->
  is_plan T plan /\
  (forall b, ec_bound (eh_base cfg) = Some b -> plan = [] \/ sum_cost (ts_cost T) plan < b) /\
  exists s, ppath T P (ts_init T) plan s.
Proof.
  intros HP1 HP2 fuel c0 plan st H. destruct (ehc_open_contract cfg) as (J & ents & HL).
  unfold ehc_search in H. apply bind_ok in H. destruct H as (st0 & H0 & H).
  pose proof (ehc_init_spec T ct cfg P Hwf J ents HL c0 st0 H0) as Inv.
  destruct (ehc_loop_spec T ct cfg P Hwf Happ HP1 HP2 J ents HL fuel st0 Inv) as (r & E & Hr).
  rewrite E in H. inv H. eauto.
Qed.

Lemma ehc_no_ub fuel c0 :
  (exists r, ehc_search T ct cfg fuel c0 = Ok r) \/ exists z, ehc_search T ct cfg fuel c0 = Exit z /\
    fst (e_eval ct (e_notify_initial ct c0 (ts_init T)) (ts_init T)) = None /\ z = (if e_reliable ct then 11 else 12)%Z.
Proof.
  destruct (ehc_open_contract cfg) as (J & ents & HL). unfold ehc_search.
  destruct (ehc_initialize T ct cfg c0) as [st| |z|] eqn:E; cbn [bind].
  - left. pose proof (ehc_init_spec T ct cfg (fun _ _ => True) Hwf J ents HL c0 st E) as Inv.
    destruct (ehc_loop_spec T ct cfg (fun _ _ => True) Hwf Happ (fun _ _ _ _ _ => Logic.I) (fun _ _ _ _ => Logic.I) J ents HL fuel st Inv) as (r & Er & _). eauto.
  - exfalso. revert E. unfold ehc_initialize. destruct (register ([] : space T) (ts_init T)) as [sp id] eqn:Er.
    apply register_spec in Er; auto. destruct Er as [(-> & n & Hn)|(-> & -> & _)]; [destruct id; discriminate|].
    destruct (e_eval ct _ _) as [[h|] c2]; cbn; discriminate.
  - right. exists z. split; auto. revert E. unfold ehc_initialize. destruct (register ([] : space T) (ts_init T)) as [sp id] eqn:Er.
    apply register_spec in Er; auto. destruct Er as [(-> & n & Hn)|(-> & -> & _)]; [destruct id; discriminate|].
    destruct (e_eval ct _ _) as [[h|] c2]; cbn; [discriminate|]. intros H; inv H; auto.
  - exfalso. revert E. unfold ehc_initialize. destruct (register ([] : space T) (ts_init T)) as [sp id] eqn:Er.
    apply register_spec in Er; auto. destruct Er as [(-> & n & Hn)|(-> & -> & _)]; [destruct id; discriminate|].
    destruct (e_eval ct _ _) as [[h|] c2]; cbn; discriminate.
Qed.
End Main.

(** Collections of pattern databases: zero-one, canonical. *)
From Coq Require Import Sorted Permutation.
From Verif Require Import Outcome Spec_Task Spec_Relaxation Spec_Projection Spec_PatternCollections Spec_Graph Model_Task Proof_Task Model_PQ Model_PDB Model_MaxCliques Proof_MaxCliques
  Proof_MixedRadix Proof_MatchTree Proof_PDB1 Proof_PDB2 Proof_PDB3 Proof_Additive Model_PatternCollections.

Lemma task_costs_len t : length (task_costs t) = length (t_ops t).
Proof. apply map_length. Qed.
Lemma plan_cost_sum t os : plan_cost t os = list_sum (map (fun o => nth o (task_costs t) 0) os).
Proof.
  unfold plan_cost. f_equal. apply map_ext. intros o. unfold task_costs. destruct (nth_error (t_ops t) o) eqn:E.
  - symmetry. apply nth_error_nth. now apply map_nth_error.
  - symmetry. apply nth_overflow. rewrite map_length. now apply nth_error_None.
Qed.
Lemma F2_nth {A B} (R : A -> B -> Prop) l l' : Forall2 R l l' -> forall i x, nth_error l i = Some x -> exists y, nth_error l' i = Some y /\ R x y.
Proof. induction 1 as [|a b l l' H _ IH]; intros [|i] x Hi; cbn [nth_error] in *; try discriminate; [inversion Hi; subst; eauto|eauto]. Qed.
Lemma F2_len {A B} (R : A -> B -> Prop) l l' : Forall2 R l l' -> length l = length l'.
Proof. induction 1; cbn; auto. Qed.

Section T.
Variable t : task.
Hypothesis Ht : plain_task t.
Notation touches := (touches t).

Lemma state_len s : state_ok t s -> length s = length (t_vars t).
Proof. intros H. induction H; cbn; auto. Qed.
Lemma proj_state_map P s : proj_state P s = map (fun v => nth v s 0) P.
Proof. reflexivity. Qed.

Definition db_good (db : pdb) (pc : list nat * list nat) : Prop :=
  forall s, state_ok t s -> exists v, pdb_value db s = Ok v /\ perfect_value (project t (fst pc) (snd pc)) (proj_state (fst pc) s) v.

Section Q.
Variable P : pqueue.
Variable bag : PQ P -> list (nat * nat).
Hypothesis HP : pq_contract P bag.
Variable q0 : PQ P.
Hypothesis Hq0 : bag q0 = [].

Lemma one_pdb pat costs cs : pattern_ok t pat -> fits t pat -> cs = match costs with [] => task_costs t | _ => costs end -> length cs = length (t_ops t) ->
  exists f0, forall fuel, f0 <= fuel -> exists db, compute_pdb P q0 fuel t pat costs = Ok db /\ db_good db (pat, cs).
Proof.
  intros Hpat Hf Ecs Hl. destruct (compute_pdb_ok t Ht pat Hpat cs Hl P bag HP q0 costs Hq0 Hf Ecs) as [f0 H]. exists f0. intros fuel Hfu.
  destruct (H fuel Hfu) as (db & E & Hpj & Hlen & Hv). exists db. split; auto. intros s Hs. eexists. split; [apply (pdb_value_ok t pat Hpat db s Hpj Hlen Hs)|].
  cbn [fst snd]. apply Hv. now apply (proj_state_range t pat Hpat).
Qed.

(* ---- zero-one ---- *)
Lemma relevant_touches pat o op : nth_error (t_ops t) o = Some op -> is_operator_relevant pat op = touches pat o.
Proof. intros Ho. unfold is_operator_relevant, Proof_Additive.touches. rewrite Ho. unfold efacts. induction (op_effs op) as [|e l IH]; cbn [existsb map]; auto. now rewrite IH. Qed.

Lemma zero_relevant_ok pat costs : length costs = length (t_ops t) ->
  exists costs', zero_relevant t pat costs = Ok costs' /\ length costs' = length (t_ops t) /\ forall o, nth o costs' 0 = if touches pat o then 0 else nth o costs 0.
Proof.
  intros Hl. unfold zero_relevant.
  assert (G : forall ops k cs, (forall i op, nth_error ops i = Some op -> nth_error (t_ops t) (k + i) = Some op) -> k + length ops <= length cs ->
    exists cs', fold_outcome (fun costs io => if is_operator_relevant pat (snd io) then vset costs (fst io) 0 else Ok costs) (combine (seq k (length ops)) ops) cs = Ok cs' /\
      length cs' = length cs /\ forall o, nth o cs' 0 = if (k <=? o) && (o <? k + length ops) && touches pat o then 0 else nth o cs 0).
  { induction ops as [|op ops IH]; intros k cs Hn Hk; cbn [length seq combine fold_outcome fst snd].
    - exists cs. splits; auto. intros o. destruct (Nat.leb_spec k o), (Nat.ltb_spec o (k + 0)); cbn [andb]; auto. lia.
    - assert (Ho : nth_error (t_ops t) k = Some op) by (specialize (Hn 0 op eq_refl); now rewrite Nat.add_0_r in Hn). cbn [length] in Hk.
      rewrite (relevant_touches pat k op Ho).
      assert (Hc1 : exists cs1, (if touches pat k then vset cs k 0 else Ok cs) = Ok cs1 /\ length cs1 = length cs /\ forall o, nth o cs1 0 = if (o =? k) && touches pat o then 0 else nth o cs 0).
      { destruct (touches pat k) eqn:Et.
        - unfold vset. rewrite (proj2 (Nat.ltb_lt k (length cs))) by lia. eexists. split; [reflexivity|]. split; [apply upd_length|]. intros o. destruct (Nat.eqb_spec o k) as [->|Hne].
          + rewrite Et. cbn [andb]. apply nth_error_nth. apply upd_nth_eq. lia.
          + cbn [andb]. apply nth_ext_upd || idtac. destruct (nth_error cs o) as [x|] eqn:Ex.
            * rewrite (nth_error_nth cs o 0 Ex). apply nth_error_nth. now rewrite upd_nth_neq by auto.
            * apply nth_error_None in Ex. rewrite !nth_overflow; auto. now rewrite upd_length.
        - exists cs. splits; auto. intros o. destruct (Nat.eqb_spec o k) as [->|]; [rewrite Et|]; reflexivity. }
      destruct Hc1 as (cs1 & E1 & Hl1 & Hv1). rewrite E1. cbn [bind].
      destruct (IH (S k) cs1) as (cs' & E' & Hl' & Hv'); [intros i op' Hi; replace (S k + i) with (k + S i) by lia; apply Hn; exact Hi|lia|].
      exists cs'. split; [exact E'|]. split; [lia|]. intros o. rewrite Hv', Hv1.
      destruct (Nat.leb_spec (S k) o), (Nat.ltb_spec o (S k + length ops)), (Nat.leb_spec k o), (Nat.ltb_spec o (k + S (length ops))), (Nat.eqb_spec o k); cbn [andb]; try lia; destruct (touches pat o); auto. }
  destruct (G (t_ops t) 0 costs) as (cs' & E & Hl' & Hv); [auto|lia|]. exists cs'. split; [exact E|]. split; [lia|]. intros o. rewrite Hv. cbn [Nat.leb andb Nat.add].
  destruct (Nat.ltb_spec o (length (t_ops t))); cbn [andb]; auto. unfold Proof_Additive.touches. rewrite (proj2 (nth_error_None (t_ops t) o)) by lia. reflexivity.
Qed.

(** [cs] gives every operator its cost unless it affects one of [before]. *)
Definition zo_costs (costs : list nat) (before : list (list nat)) (cs : list nat) : Prop :=
  length cs = length (t_ops t) /\ forall o, nth o cs 0 = if existsb (fun p => touches p o) before then 0 else nth o costs 0.

Inductive zo_seq (costs : list nat) : list (list nat) -> list (list nat) -> list (list nat * list nat) -> Prop :=
| zs_nil : forall before, zo_seq costs before [] []
| zs_cons : forall before p ps cs r, zo_costs costs before cs -> zo_seq costs (before ++ [p]) ps r -> zo_seq costs before (p :: ps) ((p, cs) :: r).

Lemma zero_one_loop_ok : forall pats before costs0 costs, Forall (pattern_ok t) pats -> Forall (fits t) pats -> zo_costs costs0 before costs ->
  exists f0 pcs, zo_seq costs0 before pats pcs /\ forall fuel, f0 <= fuel -> exists dbs, zero_one_loop P q0 fuel t pats costs = Ok dbs /\ Forall2 db_good dbs pcs.
Proof.
  induction pats as [|pat r IH]; intros before costs0 costs Hp Hf [Hl Hz].
  - exists 0, []. split; [constructor|]. intros fuel _. exists []. split; [reflexivity|constructor].
  - inversion Hp; inversion Hf; subst.
    assert (Ecs : costs = match costs with [] => task_costs t | _ => costs end).
    { destruct costs; auto. cbn [length] in Hl. unfold task_costs. symmetry in Hl. apply length_zero_iff_nil in Hl. rewrite Hl. reflexivity. }
    destruct (one_pdb pat costs costs) as [f1 HA1]; auto. destruct (zero_relevant_ok pat costs Hl) as (costs' & E & Hl' & Hz').
    destruct (IH (before ++ [pat]) costs0 costs') as (f2 & pcs & Hseq & HA2); auto.
    { split; auto. intros o. rewrite Hz', Hz, existsb_app. cbn [existsb]. rewrite orb_false_r. destruct (existsb _ before), (touches pat o); reflexivity. }
    exists (Nat.max f1 f2), ((pat, costs) :: pcs). split; [constructor; auto; split; auto|]. intros fuel Hfu. destruct (HA1 fuel ltac:(lia)) as (db & Edb & Hdb). destruct (HA2 fuel ltac:(lia)) as (dbs & Edbs & Hdbs).
    exists (db :: dbs). split; [|constructor; auto]. cbn [zero_one_loop]. rewrite Edb. cbn [bind]. rewrite E. cbn [bind]. rewrite Edbs. reflexivity.
Qed.
Lemma zo_sum costs : forall before pats pcs, zo_seq costs before pats pcs -> forall o,
  list_sum (map (fun pc => if touches (fst pc) o then nth o (snd pc) 0 else 0) pcs) <= if existsb (fun p => touches p o) before then 0 else nth o costs 0.
Proof.
  induction 1 as [before|before p ps cs r [Hl Hz] _ IH]; intros o; cbn [map list_sum fold_right]; [lia|]. change (fold_right Nat.add 0) with list_sum.
  specialize (IH o). rewrite existsb_app in IH. cbn [existsb] in IH. rewrite orb_false_r in IH. cbn [fst snd]. rewrite Hz.
  destruct (touches p o), (existsb _ before); cbn [orb] in IH; lia.
Qed.
Lemma zo_pats costs before pats pcs : zo_seq costs before pats pcs -> map fst pcs = pats /\ Forall (fun pc => length (snd pc) = length (t_ops t)) pcs.
Proof. induction 1 as [|before p ps cs r [Hl Hz] _ [IH1 IH2]]; cbn [map]; auto. cbn [fst]. rewrite IH1. split; auto. Qed.

Lemma zero_one_value_ok : forall dbs pcs s h, state_ok t s -> Forall2 db_good dbs pcs -> exists hs,
  Forall2 (fun pc v => perfect_value (project t (fst pc) (snd pc)) (proj_state (fst pc) s) v) pcs hs /\
  ((exists ns, hs = map Some ns /\ zero_one_value_from dbs s h = Ok (Some (h + list_sum ns))) \/ (In None hs /\ zero_one_value_from dbs s h = Ok None)).
Proof.
  intros dbs pcs s h Hs HF. revert h. induction HF as [|db pc dbs pcs Hd _ IH]; intros h.
  - exists []. split; [constructor|]. left. exists []. split; auto. cbn. now rewrite Nat.add_0_r.
  - destruct (Hd s Hs) as (v & Ev & Hv). cbn [zero_one_value_from]. rewrite Ev. cbn [bind]. destruct v as [n|].
    + destruct (IH (h + n)) as (hs & HF2 & Hc). exists (Some n :: hs). split; [constructor; auto|]. destruct Hc as [(ns & -> & E)|[Hn E]].
      * left. exists (n :: ns). split; auto. rewrite E. cbn [list_sum fold_right]. change (fold_right Nat.add 0) with list_sum. do 2 f_equal. lia.
      * right. split; [now right|auto].
    + destruct (IH 0) as (hs & HF2 & _). exists (None :: hs). split; [constructor; auto|]. right. split; [now left|auto].
Qed.
End Q.

Lemma admissible_sum c (pcs : list (list nat * list nat)) s hs :
  (forall o, c o <= nth o (task_costs t) 0) -> state_ok t s ->
  Forall (fun pc => pattern_ok t (fst pc) /\ length (snd pc) = length (t_ops t)) pcs ->
  (forall o, list_sum (map (fun pc => if touches (fst pc) o then nth o (snd pc) 0 else 0) pcs) <= c o) ->
  Forall2 (fun pc v => perfect_value (project t (fst pc) (snd pc)) (proj_state (fst pc) s) v) pcs hs ->
  forall os, task_plan_from t s os -> exists ns, hs = map Some ns /\ list_sum ns <= plan_cost t os.
Proof.
  intros Hc Hs Hok Hsum HF os Hos. pose proof (plan_mplan t Ht s os (state_len s Hs) Hos) as Hm.
  destruct (additive_bound t Ht (fun v => v < length (t_vars t)) c pcs hs (fun v => nth v s 0) os Hm) as (ns & E & Hle); auto.
  - rewrite Forall_forall in *. intros pc Hpc. destruct (Hok pc Hpc) as [Hp Hl]. split; [exact Hp|]. split; [exact Hl|]. apply Hp.
  - exists ns. split; auto. eapply Nat.le_trans; [exact Hle|]. rewrite plan_cost_sum. apply sum_le. intros; apply Hc.
Qed.

(* ---- additive variables ---- *)
Definition coaffected (v1 v2 : nat) : Prop := exists op, In op (t_ops t) /\ In v1 (map fst (efacts op)) /\ In v2 (map fst (efacts op)).
Definition mget2 (m : list (list bool)) (v1 v2 : nat) : option bool := match nth_error m v1 with Some r => nth_error r v2 | None => None end.
Notation n := (length (t_vars t)).
Definition square (m : list (list bool)) : Prop := length m = n /\ forall r, In r m -> length r = n.
Lemma mark_ok m v1 v2 : square m -> v1 < n -> v2 < n -> exists m', mark m v1 v2 = Ok m' /\ square m' /\
  forall a b, mget2 m' a b = if (a =? v1) && (b =? v2) then Some false else mget2 m a b.
Proof.
  intros [Hl Hr] H1 H2. unfold mark, vget. destruct (nth_error m v1) as [row|] eqn:E1; [|apply nth_error_None in E1; lia]. cbn [bind].
  pose proof (Hr row (nth_error_In _ _ E1)) as Hrl. unfold vset. rewrite (proj2 (Nat.ltb_lt v2 (length row))) by lia. cbn [bind]. rewrite (proj2 (Nat.ltb_lt v1 (length m))) by lia.
  eexists. split; [reflexivity|]. split.
  - split; [now rewrite upd_length|]. intros r Hi. apply In_upd in Hi. destruct Hi as [->|Hi]; auto. now rewrite upd_length.
  - intros a b. unfold mget2. destruct (Nat.eqb_spec a v1) as [->|Ha]; cbn [andb].
    + rewrite upd_nth_eq by lia. rewrite E1. destruct (Nat.eqb_spec b v2) as [->|Hb]; [apply upd_nth_eq; lia|now rewrite upd_nth_neq by auto].
    + now rewrite upd_nth_neq by auto.
Qed.
Lemma mark_fold {A} (f : A -> nat * nat) l : forall m, square m -> (forall x, In x l -> fst (f x) < n /\ snd (f x) < n) ->
  exists m', fold_outcome (fun m x => mark m (fst (f x)) (snd (f x))) l m = Ok m' /\ square m' /\
  forall a b, mget2 m' a b = if existsb (fun x => (a =? fst (f x)) && (b =? snd (f x))) l then Some false else mget2 m a b.
Proof.
  induction l as [|x l IH]; intros m Hs Hl; cbn [fold_outcome existsb]; [eauto|].
  destruct (Hl x (or_introl eq_refl)) as [H1 H2]. destruct (mark_ok m _ _ Hs H1 H2) as (m1 & E1 & Hs1 & Hv1). rewrite E1. cbn [bind].
  destruct (IH m1 Hs1 (fun y Hy => Hl y (or_intror Hy))) as (m' & E' & Hs' & Hv'). exists m'. splits; auto. intros a b. rewrite Hv', Hv1.
  destruct ((a =? fst (f x)) && (b =? snd (f x))); cbn [orb]; destruct (existsb _ l); reflexivity.
Qed.
Lemma additive_vars_ok : exists m, compute_additive_vars t = Ok m /\ square m /\ forall a b, a < n -> b < n -> exists x, mget2 m a b = Some x /\ (x = false <-> coaffected a b).
Proof.
  assert (Hb : forall op e, In op (t_ops t) -> In e (op_effs op) -> fst (eff_fact e) < n).
  { intros op e Ho He. destruct Ht as ((_ & Hops & _) & _). rewrite Forall_forall in Hops. destruct (Hops op Ho) as [_ Heo]. rewrite Forall_forall in Heo. destruct (Heo e He) as (_ & (x & Hx & _) & _). eapply nth_error_Some_lt; eauto. }
  unfold compute_additive_vars.
  assert (G1 : forall op (es es' : list effect) m, (forall e, In e es -> fst (eff_fact e) < n) -> (forall e, In e es' -> fst (eff_fact e) < n) -> In op (t_ops t) -> square m ->
    exists m', fold_outcome (fun m e1 => fold_outcome (fun m e2 => mark m (fst (eff_fact e1)) (fst (eff_fact e2))) es' m) es m = Ok m' /\ square m' /\
      forall a b, mget2 m' a b = if existsb (fun e => a =? fst (eff_fact e)) es && existsb (fun e => b =? fst (eff_fact e)) es' then Some false else mget2 m a b).
  { intros op. induction es as [|e es IH]; intros es' m He He' Ho Hs; cbn [fold_outcome existsb andb]; [eauto|].
    destruct (mark_fold (fun e2 => (fst (eff_fact e), fst (eff_fact e2))) es' m Hs) as (m1 & E1 & Hs1 & Hv1); [intros x Hx; cbn [fst snd]; split; [apply He; now left|now apply He']|].
    cbn [fst snd] in E1. match type of E1 with ?l = _ => match goal with |- context [bind ?m _] => change m with l end end. rewrite E1. cbn [bind].
    destruct (IH es' m1) as (m' & E' & Hs' & Hv'); auto; [intros; apply He; now right|]. exists m'. splits; auto. intros a b. rewrite Hv', Hv1. cbn [fst snd].
    assert (Ex : existsb (fun x => (a =? fst (eff_fact e)) && (b =? fst (eff_fact x))) es' = (a =? fst (eff_fact e)) && existsb (fun x => b =? fst (eff_fact x)) es').
    { clear. induction es' as [|y l IHl]; cbn [existsb]; [now rewrite andb_false_r|]. rewrite IHl. now destruct (a =? fst (eff_fact e)). }
    rewrite Ex. destruct (a =? fst (eff_fact e)), (existsb (fun e0 => a =? fst (eff_fact e0)) es), (existsb (fun x => b =? fst (eff_fact x)) es'); reflexivity. }
  assert (G2 : forall ops m, (forall op, In op ops -> In op (t_ops t)) -> square m ->
    exists m', fold_outcome (fun m op => fold_outcome (fun m e1 => fold_outcome (fun m e2 => mark m (fst (eff_fact e1)) (fst (eff_fact e2))) (op_effs op) m) (op_effs op) m) ops m = Ok m' /\ square m' /\
      forall a b, mget2 m' a b = if existsb (fun op => existsb (fun e => a =? fst (eff_fact e)) (op_effs op) && existsb (fun e => b =? fst (eff_fact e)) (op_effs op)) ops then Some false else mget2 m a b).
  { induction ops as [|op ops IH]; intros m Hops Hs; cbn [fold_outcome existsb]; [eauto|].
    pose proof (Hops op (or_introl eq_refl)) as Ho. destruct (G1 op (op_effs op) (op_effs op) m) as (m1 & E1 & Hs1 & Hv1); eauto. rewrite E1. cbn [bind].
    destruct (IH m1) as (m' & E' & Hs' & Hv'); auto; [intros; apply Hops; now right|]. exists m'. splits; auto. intros a b. rewrite Hv', Hv1.
    destruct (existsb (fun e => a =? fst (eff_fact e)) (op_effs op) && existsb (fun e => b =? fst (eff_fact e)) (op_effs op)); cbn [orb]; destruct (existsb _ ops); reflexivity. }
  destruct (G2 (t_ops t) (repeat (repeat true n) n)) as (m & E & Hs & Hv); auto.
  { split; [apply repeat_length|]. intros r Hr. apply repeat_spec in Hr. subst r. apply repeat_length. }
  exists m. splits; auto. intros a b Ha Hb'. rewrite Hv. unfold mget2. rewrite (nth_error_repeat _ Ha), (nth_error_repeat _ Hb').
  assert (Hx : forall (op : operator) v, existsb (fun e => v =? fst (eff_fact e)) (op_effs op) = true <-> In v (map fst (efacts op))).
  { intros op v. rewrite existsb_exists, in_map_iff. unfold efacts. split.
    - intros (e & He & E1). apply Nat.eqb_eq in E1. exists (eff_fact e). split; auto. now apply in_map.
    - intros (f & E1 & Hf). apply in_map_iff in Hf. destruct Hf as (e & <- & He). exists e. split; auto. now apply Nat.eqb_eq. }
  eexists. split; [destruct (existsb _ (t_ops t)) eqn:Ex; [instantiate (1 := negb (existsb (fun op => existsb (fun e => a =? fst (eff_fact e)) (op_effs op) && existsb (fun e => b =? fst (eff_fact e)) (op_effs op)) (t_ops t)))|]; rewrite Ex; reflexivity|].
  rewrite negb_false_iff, existsb_exists. unfold coaffected. split; intros (op & Ho & H); exists op; [apply andb_true_iff in H|rewrite andb_true_iff]; rewrite !Hx in *; tauto.
Qed.

Definition additive (p q : list nat) : Prop := forall v1 v2, In v1 p -> In v2 q -> ~ coaffected v1 v2.
Lemma coaffected_dec m : square m -> (forall a b, a < n -> b < n -> exists x, mget2 m a b = Some x /\ (x = false <-> coaffected a b)) ->
  forall p q, (forall v, In v p -> v < n) -> (forall v, In v q -> v < n) -> exists b, are_patterns_additive m p q = Ok b /\ (b = true <-> additive p q).
Proof.
  intros Hs Hm p q Hp Hq. induction p as [|v1 p IH]; cbn [are_patterns_additive].
  - exists true. split; auto. split; auto. intros _ v1 v2 [].
  - assert (H1 : exists b, all_additive m v1 q = Ok b /\ (b = true <-> forall v2, In v2 q -> ~ coaffected v1 v2)).
    { clear IH. induction q as [|v2 q IHq]; cbn [all_additive]; [exists true; split; auto; split; auto; intros _ v2 []|].
      destruct (Hm v1 v2) as (x & Hx & Hc); [apply Hp; now left|apply Hq; now left|]. unfold mget2 in Hx. unfold vget at 1. destruct (nth_error m v1) as [row|]; [|discriminate]. cbn [bind]. unfold vget. rewrite Hx. cbn [bind].
      destruct x.
      - destruct IHq as (b & Eb & Hb); [intros; apply Hq; now right|]. exists b. split; auto. rewrite Hb. split; [intros H u [<-|Hu]; auto; intros Hco; apply Hc in Hco; discriminate|intros H u Hu; apply H; now right].
      - exists false. split; auto. split; [discriminate|]. intros H. exfalso. apply (H v2 (or_introl eq_refl)). now apply Hc. }
    destruct H1 as (b1 & E1 & Hb1). rewrite E1. cbn [bind]. destruct b1.
    + destruct IH as (b & Eb & Hb); [intros; apply Hp; now right|]. exists b. split; auto. rewrite Hb. split.
      * intros H u1 u2 [<-|Hu1] Hu2; [now apply Hb1|now apply H].
      * intros H u1 u2 Hu1 Hu2. apply H; auto. now right.
    + exists false. split; auto. split; [discriminate|]. intros H. apply Hb1. intros v2 Hv2. apply H; auto. now left.
Qed.
Lemma additive_sym p q : additive p q -> additive q p.
Proof. intros H v1 v2 H1 H2 (op & Ho & Ha & Hb). apply (H v2 v1 H2 H1). exists op. auto. Qed.
Lemma additive_touch p q o : additive p q -> touches p o = true -> touches q o = true -> False.
Proof.
  intros Ha H1 H2. unfold Proof_Additive.touches in *. destruct (nth_error (t_ops t) o) as [op|] eqn:Ho; [|discriminate].
  assert (T1 : touches p o = true) by (unfold Proof_Additive.touches; now rewrite Ho). assert (T2 : touches q o = true) by (unfold Proof_Additive.touches; now rewrite Ho).
  apply (touches_spec t p o op Ho) in T1. apply (touches_spec t q o op Ho) in T2. destruct T1 as (v1 & Hv1 & He1), T2 as (v2 & Hv2 & He2).
  apply (Ha v1 v2 Hv1 Hv2). exists op. split; auto. eapply nth_error_In; eauto.
Qed.
Lemma clique_costs ps c : ForallOrdPairs additive ps -> forall o, list_sum (map (fun p => if touches p o then c o else 0) ps) <= c o.
Proof.
  intros HF o. induction HF as [|p ps Hp _ IH]; cbn [map list_sum fold_right]; [lia|]. change (fold_right Nat.add 0) with list_sum. destruct (touches p o) eqn:Et; [|exact IH].
  assert (E : list_sum (map (fun q => if touches q o then c o else 0) ps) = 0); [|lia].
  clear IH. induction Hp as [|q ps Hq _ IHp]; cbn [map list_sum fold_right]; auto. change (fold_right Nat.add 0) with list_sum. destruct (touches q o) eqn:Eq; [exfalso; exact (additive_touch p q o Hq Et Eq)|]. exact IHp.
Qed.
End T.

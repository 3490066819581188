(** The components of the causal graph and the order of merging them. *)
From Coq Require Import Permutation Sorted Relation_Operators Operators_Properties.
From Verif Require Import Outcome Spec_Task Spec_Graph Spec_CausalGraph Model_PQ Model_Graph Model_CausalGraph Model_Sccs Model_MAS Model_MASRun Model_MASAlgorithm Spec_MASAlgorithm Model_MergeStrategy Spec_MergeStrategy.
From Verif Require Import Proof_CausalGraph Prop_Sccs Proof_MS3 Proof_MS4 Proof_MS5.

Lemma arc_lt t u v : task_ok t -> causal_arc t u v -> u < length (t_vars t) /\ v < length (t_vars t).
Proof.
  intros (_ & Ho & Hr & _). rewrite Forall_forall in Ho, Hr.
  assert (E : forall op e, In op (t_ops t) -> In e (op_effs op) -> fst (eff_fact e) < length (t_vars t)). { intros op e H1 H2. destruct (Ho op H1) as [_ H]. rewrite Forall_forall in H. destruct (H e H2) as (_ & K & _). now apply fact_ok_lt in K. }
  intros [(_ & [(op & e & d & H1 & H2 & <- & H3)|(r & d & H1 & <- & H3)])|(_ & op & e & e' & H1 & H2 & H3 & <- & <-)].
  - split; [|eauto]. destruct (Ho op H1) as [K1 K2]. rewrite Forall_forall in K1, K2. destruct (K2 e H2) as (K3 & _). rewrite Forall_forall in K3. destruct H3 as [H3|H3]; [apply K1 in H3|apply K3 in H3]; now apply fact_ok_lt in H3.
  - destruct (Hr r H1) as (K1 & K2 & _). rewrite Forall_forall in K1. apply K1, fact_ok_lt in H3. apply fact_ok_lt in K2. auto.
  - split; eauto.
Qed.
Lemma sorted_nth {A} (R : A -> A -> Prop) : forall l, StronglySorted R l -> forall p p' a b, p < p' -> nth_error l p = Some a -> nth_error l p' = Some b -> R a b.
Proof.
  induction 1 as [|x l HS IH HF]; intros [|p] [|p'] a b Hlt Ha Hb; try discriminate; try lia; cbn [nth_error] in *.
  - inv Ha. rewrite Forall_forall in HF. apply HF. eapply nth_error_In; eauto.
  - apply (IH p p'); auto; lia.
Qed.
Lemma sorted_filter {A} (R : A -> A -> Prop) f : forall l, StronglySorted R l -> StronglySorted R (filter f l).
Proof.
  induction 1 as [|x l HS IH HF]; cbn [filter]; [constructor|]. destruct (f x); auto. constructor; auto. rewrite Forall_forall in *. intros y Hy. apply filter_In in Hy as [Hy _]. auto.
Qed.
Lemma sorted_snoc {A} (R : A -> A -> Prop) a : forall l, StronglySorted R l -> (forall x, In x l -> R x a) -> StronglySorted R (l ++ [a]).
Proof.
  induction 1 as [|x l HS IH HF]; intros H; cbn [app]; [repeat constructor|]. constructor; [apply IH; intros y Hy; apply H; now right|]. rewrite Forall_forall in *. intros y Hy. apply in_app_iff in Hy as [Hy|[<-|[]]]; auto. apply H. now left.
Qed.
Lemma sorted_rev {A} (R : A -> A -> Prop) : forall l, StronglySorted R l -> StronglySorted (fun a b => R b a) (rev l).
Proof.
  induction 1 as [|x l HS IH HF]; cbn [rev]; [constructor|]. apply sorted_snoc; auto. rewrite Forall_forall in HF. intros y Hy. apply HF. now apply in_rev.
Qed.
Lemma nth_sorted {A} (R : A -> A -> Prop) : forall l, (forall p p' a b, p < p' -> nth_error l p = Some a -> nth_error l p' = Some b -> R a b) -> StronglySorted R l.
Proof.
  induction l as [|x l IH]; intros H; constructor.
  - apply IH. intros p p' a b Hlt Ha Hb. apply (H (S p) (S p')); auto; lia.
  - rewrite Forall_forall. intros y Hy. apply In_nth_error in Hy as [p Hp]. apply (H 0 (S p)); auto; lia.
Qed.
Lemma perm_concat (a b : list (list nat)) : Permutation a b -> Permutation (concat a) (concat b).
Proof. induction 1 as [|x a b _ IH|x y a|a b c _ IH1 _ IH2]; cbn [concat]; auto; [now apply Permutation_app_head|rewrite !app_assoc; apply Permutation_app_tail, Permutation_app_comm|eapply Permutation_trans; eauto]. Qed.
Lemma filter_concat_nodup f : forall l : list (list nat), NoDup (concat l) -> NoDup (concat (filter f l)).
Proof.
  induction l as [|C l IH]; cbn [concat filter]; auto. intros H. apply nodup_app_parts in H as (H1 & H2 & H3). destruct (f C); auto. cbn [concat]. apply nodup_app_parts. splits; auto. intros x Hx Hin. apply (H3 x Hx). apply in_concat in Hin as (D & HD & Hx'). apply filter_In in HD as [HD _]. apply in_concat. eauto.
Qed.

Section COMPONENTS.
Variable t : task.
Hypothesis Ht : task_ok t.
Variable sort_sccs : (list nat -> list nat -> bool) -> list (list nat) -> list (list nat).
Hypothesis Hsort : sorts sort_sccs.
Variable o : scc_order.
Local Notation nv := (length (t_vars t)).
Lemma components : exists cs, non_singleton_sccs sort_sccs o t = Ok cs /\ NoDup (concat cs) /\ (forall C, In C cs -> 2 <= length C) /\ (forall C v, In C cs -> In v C -> v < nv) /\
  (forall C u, In C cs -> In u C -> component t u C) /\ (forall u v, connected t u v -> u = v \/ exists C, In C cs /\ In u C /\ In v C) /\
  (forall p p' C C' u u', p < p' -> nth_error cs p = Some C -> nth_error cs p' = Some C' -> In u C -> In u' C' -> in_order t o u u').
Proof.
  destruct (build_exact t Ht) as (G & EG & (_ & _ & _ & Hlen & _) & HG). unfold non_singleton_sccs. rewrite EG. cbn [bind].
  assert (Edge : forall x y, edge (g_successors G) x y <-> causal_arc t x y).
  { intros x y. split.
    - intros (l & Hl & Hy). pose proof (nth_error_Some_lt _ _ _ Hl) as Hx. rewrite Hlen in Hx. destruct (HG x Hx) as (_ & _ & _ & l4 & _ & _ & _ & _ & _ & _ & _ & E4 & [_ H4] & _). rewrite Hl in E4. inv E4. now apply H4.
    - intros Ha. destruct (arc_lt t x y Ht Ha) as [Hx _]. destruct (HG x Hx) as (_ & _ & _ & l4 & _ & _ & _ & _ & _ & _ & _ & E4 & [_ H4] & _). exists l4. split; auto. now apply H4. }
  assert (Reach : forall x y, reach (g_successors G) x y <-> causal_path t x y).
  { intros x y. split.
    - induction 1 as [x|x y z He _ IH]; [apply rt_refl|]. eapply rt_trans; [apply rt_step; apply Edge; eauto|exact IH].
    - intros H. apply clos_rt_rt1n in H. induction H as [x|x y z He _ IH]; [apply reach_refl|]. eapply reach_step; [apply Edge; eauto|exact IH]. }
  destruct (C09_sccs_in_topological_order (g_successors G)) as (sccs & -> & H1 & H2 & H3 & H4). { intros x y He. rewrite Hlen. now apply arc_lt with (u := x), Edge. } cbn [bind]. rewrite Hlen in H1.
  assert (Hin : forall C v, In C sccs -> In v C -> v < nv). { intros C v HC Hv. assert (K : In v (concat sccs)) by (apply in_concat; eauto). apply (Permutation_in _ H1), in_seq in K. lia. }
  assert (Hcov : forall v, v < nv -> exists C, In C sccs /\ In v C). { intros v Hv. apply in_concat. apply (Permutation_in _ (Permutation_sym H1)), in_seq. lia. }
  assert (HND : NoDup (concat sccs)) by (apply (Permutation_NoDup (Permutation_sym H1)), seq_NoDup).
  assert (HCD : forall C, In C sccs -> NoDup C). { intros C HC. apply in_split in HC as (a & b & ->). rewrite concat_app in HND. cbn [concat] in HND. apply nodup_app_parts in HND as (_ & HND & _). apply nodup_app_parts in HND. tauto. }
  assert (Hcomp : forall C u, In C sccs -> In u C -> component t u C).
  { intros C u HC Hu. split; auto. intros v. rewrite (H3 C u v HC Hu). unfold connected. rewrite !Reach. split; [|tauto]. intros [R1 R2]. splits; auto; [eauto|]. assert (Hv : In v C) by (apply (H3 C u v HC Hu); rewrite !Reach; auto). eauto. }
  assert (HcompC : forall C u D, In C sccs -> In u C -> component t u D -> length D = length C).
  { intros C u D HC Hu [N1 M1]. destruct (Hcomp C u HC Hu) as [N2 M2]. apply Permutation_length, NoDup_Permutation; auto. intros v. now rewrite M1, M2. }
  assert (Hperm : Permutation (order_sccs sort_sccs o sccs) sccs). { destruct o; cbn [order_sccs]; auto; [apply Permutation_sym, Permutation_rev| |]; apply Hsort. }
  assert (Hto : forall C, In C (filter (fun c => negb (length c =? 1)) (order_sccs sort_sccs o sccs)) -> In C sccs /\ length C <> 1). { intros C HC. apply filter_In in HC as [HC Hb]. split; [apply (Permutation_in _ Hperm HC)|]. apply negb_true_iff, Nat.eqb_neq in Hb. auto. }
  eexists. split; [reflexivity|]. split; [apply filter_concat_nodup; apply (Permutation_NoDup (perm_concat _ _ (Permutation_sym Hperm))); auto|]. split.
  { intros C HC. destruct (Hto C HC) as [A B]. specialize (H2 C A). destruct C as [|x [|y C]]; cbn [length] in *; [congruence|congruence|lia]. }
  split; [intros C v HC Hv; destruct (Hto C HC); eauto|]. split; [intros C u HC Hu; destruct (Hto C HC); auto|]. split.
  { intros u v Huv. pose proof Huv as (Hu & Hv & _). destruct (Hcov u Hu) as (C & HC & HuC). destruct (Hcomp C u HC HuC) as [_ M]. apply M in Huv. destruct (Nat.eq_dec (length C) 1) as [E|N].
    - left. destruct C as [|x [|y C]]; try discriminate. destruct HuC as [<-|[]]. destruct Huv as [<-|[]]. reflexivity.
    - right. exists C. splits; auto. apply filter_In. split; [apply (Permutation_in _ (Permutation_sym Hperm) HC)|]. now apply negb_true_iff, Nat.eqb_neq. }
  (* order *)
  assert (Htop : StronglySorted (fun C C' => forall x y, In x C -> In y C' -> ~ causal_path t y x) sccs).
  { apply nth_sorted. intros p p' C C' Hlt Hp Hp' x y Hx Hy Hpath.
    assert (Mono : forall y x, reach (g_successors G) y x -> forall p C p' C', nth_error sccs p' = Some C' -> In y C' -> nth_error sccs p = Some C -> In x C -> p' <= p).
    { induction 1 as [z|z1 z2 z3 He _ IH]; intros pa Ca pb Cb E1 I1 E2 I2.
      - assert (K : forall (l : list (list nat)) a b A B, NoDup (concat l) -> nth_error l a = Some A -> nth_error l b = Some B -> In z A -> In z B -> a = b).
        { induction l as [|D l IHl]; intros [|a] [|b] A B ND EA EB IA IB; try discriminate; auto; cbn [nth_error concat] in *; apply nodup_app_parts in ND as (ND1 & ND2 & ND3).
          - inv EA. exfalso. apply (ND3 z IA). apply in_concat. exists B. split; auto. eapply nth_error_In; eauto.
          - inv EB. exfalso. apply (ND3 z IB). apply in_concat. exists A. split; auto. eapply nth_error_In; eauto.
          - f_equal. eapply IHl; eauto. }
        rewrite (K sccs pb pa Cb Ca HND E1 E2 I1 I2). auto.
      - assert (Hz2 : z2 < nv) by (apply (arc_lt t z1 z2 Ht), Edge; auto). destruct (Hcov z2 Hz2) as (D & HD & HzD). apply In_nth_error in HD as [pd Hpd]. transitivity pd; [eapply (H4 pb pd Cb D z1 z2); eauto|eapply IH; eauto]. }
    apply Reach in Hpath. pose proof (Mono y x Hpath p C p' C' Hp' Hy Hp Hx). lia. }
  intros p p' C C' u u' Hlt Hp Hp' Hu Hu'. pose proof (Hto C (nth_error_In _ _ Hp)) as [HC _]. pose proof (Hto C' (nth_error_In _ _ Hp')) as [HC' _]. destruct o; cbn [order_sccs in_order] in *.
  - exact (sorted_nth _ _ (sorted_filter _ _ _ Htop) p p' C C' Hlt Hp Hp' u u' Hu Hu').
  - exact (sorted_nth _ _ (sorted_filter _ _ _ (sorted_rev _ _ Htop)) p p' C C' Hlt Hp Hp' u' u Hu' Hu).
  - destruct (Hsort (fun a b => length b <? length a) sccs) as [_ Hs]. assert (S1 := Hs ltac:(intros a b A; rewrite Nat.ltb_ge; rewrite Nat.ltb_lt in A; lia)). assert (S2 : StronglySorted (fun a b => (length a <? length b) = false) (sort_sccs (fun a b => length b <? length a) sccs)). { apply S1. intros a b c A B. rewrite Nat.ltb_ge in *. lia. }
    pose proof (sorted_nth _ _ (sorted_filter _ _ _ S2) p p' C C' Hlt Hp Hp') as R. rewrite Nat.ltb_ge in R. intros D D' HD HD'. rewrite (HcompC C u D), (HcompC C' u' D'); auto.
  - destruct (Hsort (fun a b => length a <? length b) sccs) as [_ Hs]. assert (S1 := Hs ltac:(intros a b A; rewrite Nat.ltb_ge; rewrite Nat.ltb_lt in A; lia)). assert (S2 : StronglySorted (fun a b => (length b <? length a) = false) (sort_sccs (fun a b => length a <? length b) sccs)). { apply S1. intros a b c A B. rewrite Nat.ltb_ge in *. lia. }
    pose proof (sorted_nth _ _ (sorted_filter _ _ _ S2) p p' C C' Hlt Hp Hp') as R. rewrite Nat.ltb_ge in R. intros D D' HD HD'. rewrite (HcompC C u D), (HcompC C' u' D'); auto.
Qed.
End COMPONENTS.

Lemma connected_sym t u v : connected t u v -> connected t v u. Proof. unfold connected. tauto. Qed.
Lemma connected_trans t u v w : connected t u v -> connected t v w -> connected t u w.
Proof. intros (A1 & A2 & A3 & A4) (B1 & B2 & B3 & B4). unfold connected, causal_path in *. splits; auto; eapply rt_trans; eauto. Qed.

(** From the past of a run to the statement about components. *)
Lemma past_components t o cs h f :
  (forall C u, In C cs -> In u C -> component t u C) -> (forall u v, connected t u v -> u = v \/ exists C, In C cs /\ In u C /\ In v C) ->
  (forall p p' C C' u u', p < p' -> nth_error cs p = Some C -> nth_error cs p' = Some C' -> In u C -> In u' C' -> in_order t o u u') ->
  past t cs h f ->
  (forall q, q < length h -> (exists u, merge_inside t h q u) \/ all_together t h q) /\
  (forall q q' u u', q < q' -> merge_inside t h q u -> merge_inside t h q' u' -> ~ connected t u u' -> in_order t o u u').
Proof.
  intros Hcomp Hcon Hord (H1 & H2 & H3 & H4). split.
  - intros q Hq. destruct (nth_error f q) as [[p|]|] eqn:Ef; [left|right|apply nth_error_None in Ef; lia].
    + destruct (H2 q p Ef) as (i & j & C & E1 & E2 & (v & Hv) & Hin). exists v, i, j. split; auto. intros w Hw. apply (Hcomp C v); [eapply nth_error_In; eauto|auto|auto].
    + intros u v Huv. destruct (H3 q Ef) as (A & B & _). destruct (Hcon u v Huv) as [->|(C & HC & Hu & Hv)].
      * destruct (B v) as (k & Hk & Hm); [apply Huv|]. eauto.
      * destruct (A C HC) as (k & Hk & Hm). exists k. auto.
  - assert (Pos : forall q u, merge_inside t h q u -> exists p C, nth_error f q = Some (Some p) /\ nth_error cs p = Some C /\ In u C).
    { intros q u (i & j & Eij & Hin). pose proof (nth_error_Some_lt _ _ _ Eij) as Hl. destruct (nth_error f q) as [[p|]|] eqn:Ef; [| |apply nth_error_None in Ef; lia].
      - destruct (H2 q p Ef) as (i' & j' & C & E1 & E2 & (v & Hv) & HC). rewrite Eij in E1. inv E1. exists p, C. splits; auto. apply (Hcomp C v (nth_error_In _ _ E2)); [auto|]. apply connected_sym. auto.
      - exfalso. destruct (H3 q Ef) as (_ & _ & i' & j' & v & w & E1 & Hv & Hw & Nvw & HC). rewrite Eij in E1. inv E1. assert (Hvw : connected t v w) by (eapply connected_trans; [apply connected_sym; apply Hin; left; eauto|apply Hin; right; eauto]). destruct (Hcon v w Hvw) as [E|(C & K1 & K2 & K3)]; [congruence|]. exact (HC C K1 K2 K3). }
    intros q q' u u' Hlt Hq Hq' Hn. destruct (Pos q u Hq) as (p & C & F1 & C1 & U1). destruct (Pos q' u' Hq') as (p' & C' & F2 & C2 & U2). pose proof (H4 q q' p p' Hlt F1 F2) as Hle. destruct (Nat.eq_dec p p') as [->|Np].
    + exfalso. apply Hn. rewrite C1 in C2. inv C2. apply (Hcomp C' u (nth_error_In _ _ C1) U1). exact U2.
    + apply (Hord p p' C C'); auto; lia.
Qed.

(** Proofs about operator-counting constraints, part 12: what updating for a state does. *)
From Coq Require Import QArith Lqa Permutation.
From Verif Require Import Outcome Spec_Task Spec_Relaxation Spec_Projection Spec_LP Spec_OperatorCounting Model_PQ Model_PDB Model_PatternCollections Model_Relaxation Model_LPSolver Model_LMCut Model_OperatorCounting Spec_Generators
  Proof_Task Proof_PDB1 Proof_Additive Proof_Collections Prop_PDB Prop_LMCut Proof_OC1 Proof_OC2 Proof_OC3 Proof_OC4 Proof_OC5 Proof_OC6 Proof_OC7 Proof_OC8 Proof_OC9 Proof_OC10 Proof_OC11.
Local Open Scope nat_scope.

Lemma upd_twice {A} (l : list A) i x y : upd (upd l i x) i y = upd l i y.
Proof. revert i. induction l as [|a r IH]; intros [|i]; cbn [upd]; auto. now rewrite IH. Qed.
Lemma fst_filter_nodup {A} (p : nat * A -> bool) l : NoDup (map fst l) -> NoDup (map fst (filter p l)).
Proof.
  induction l as [|x r IH]; cbn [map filter]; intros H; [constructor|]. inv H. destruct (p x); auto. cbn [map]. constructor; auto. intros Hi. apply H2. apply in_map_iff in Hi. destruct Hi as (y & E & Hy). apply filter_In in Hy. apply in_map_iff. exists y. tauto.
Qed.

Section G.
Variable t : task.
Hypothesis Ht : plain_task t.
Hypothesis Hg : NoDup (map fst (t_goal t)).
Variables (P : pqueue) (bag : PQ P -> list (nat * nat)).
Hypothesis HP : pq_contract P bag.
Let n := length (t_ops t).
Variable s : state.
Hypothesis Hs : state_ok t s.

Definition gen_sem (b : nat) (nv : list lpvar) (rs : list lpcon) (cond : (nat -> Q) -> Prop) : Prop :=
  (forall y, vars_ok b nv y -> rows_ok rs y -> cond y) /\
  (forall x, cond x -> exists aux : nat -> Q, forall y, (forall o, o < n -> (y o == x o)%Q) -> (forall i, i < length nv -> (y (b + i)%nat == aux i)%Q) -> vars_ok b nv y /\ rows_ok rs y) /\
  rows_wf n b (length nv) rs.

(** *** Post-hoc optimization *)
Definition pho_row (pl : list nat * Q) : lpcon := con (Some (snd pl)) None (c_terms (pho_constraint t (fst pl))).
Definition pho_bound (pat : list nat) (l : Q) : Prop := exists v, perfect_value (project t pat (task_costs t)) (proj_state pat s) (Some v) /\ l = qn v.
Lemma pho_fold : forall dbs pats lo A B sv, Forall2 (fun db p => db_good t db (p, task_costs t)) dbs pats -> length lo = length pats -> sv_rows sv = A ++ map pho_row (combine pats lo) ++ B ->
  exists dead lo', pho_update dbs (length A) s sv = Ok (dead, with_rows sv (A ++ map pho_row (combine pats lo') ++ B) (sv_temp sv)) /\ length lo' = length pats /\
    (dead = true -> exists pat, In pat pats /\ perfect_value (project t pat (task_costs t)) (proj_state pat s) None) /\
    (dead = false -> Forall2 pho_bound pats lo').
Proof.
  intros dbs pats lo A B sv HF. revert lo A B sv. induction HF as [|db pat dbs pats Hdb HF IH]; intros lo A B sv Hlo Hsv.
  - exists false, []. cbn [pho_update combine map app]. splits; auto; try discriminate. destruct lo; [|cbn in Hlo; lia]. cbn [combine map app] in Hsv. rewrite <- Hsv. now destruct sv.
  - destruct lo as [|l lo]; [cbn in Hlo; lia|]. cbn [pho_update]. destruct (Hdb s Hs) as (v & Ev & Hv). cbn [fst snd] in Hv. rewrite Ev. cbn [bind]. destruct v as [v|].
    + cbn [combine map] in Hsv. pose proof (set_lower_mid sv A (pho_row (pat, l) :: map pho_row (combine pats lo)) B 0 (pho_row (pat, l)) (qn v) Hsv eq_refl) as ES. rewrite Nat.add_0_r in ES. rewrite ES. cbn [bind upd].
      replace (S (length A)) with (length (A ++ [pho_row (pat, qn v)])) by (rewrite app_length; cbn [length]; lia).
      destruct (IH lo (A ++ [pho_row (pat, qn v)]) B (with_rows sv (A ++ (con (Some (qn v)) (c_up (pho_row (pat, l))) (c_terms (pho_row (pat, l))) :: map pho_row (combine pats lo)) ++ B) (sv_temp sv))) as (dead & lo' & E & Hl & Hd & Hnd).
      * cbn [length] in Hlo. lia.
      * cbn [sv_rows with_rows]. rewrite <- app_assoc. reflexivity.
      * exists dead, (qn v :: lo'). splits.
        -- rewrite E. f_equal. f_equal. unfold with_rows. cbn. rewrite <- app_assoc. reflexivity.
        -- cbn [length]. lia.
        -- intros H. destruct (Hd H) as (p & Hp & Hpv). exists p. split; auto. now right.
        -- intros H. constructor; auto. exists v. auto.
    + exists true, (l :: lo). splits; auto; try discriminate.
      * rewrite <- Hsv. now destruct sv.
      * intros _. exists pat. split; auto. now left.
Qed.
Lemma pho_lin y pat : (lin y (c_terms (pho_constraint t pat)) == opsum t (fun o op => ind (affects pat op) * (inject_Z (Z.of_nat (op_cost op)) * y o)))%Q.
Proof.
  unfold lin, pho_constraint. cbn [con c_terms]. rewrite qsum_map, qsum_filter. unfold opsum. apply qsum_ext. intros [o op] Hi. cbn [fst snd]. apply numbered_in in Hi.
  rewrite (relevant_touches t pat o op Hi), (affects_touches t pat o op Hi). unfold qn. reflexivity.
Qed.
Lemma pho_row_ok y pat l : pho_bound pat l -> con_ok y (pho_row (pat, l)) <-> posthoc t pat s y.
Proof.
  intros (v & Hv & ->). unfold con_ok, pho_row, posthoc. cbn [fst snd con c_lo c_up c_terms above below]. rewrite pho_lin. split.
  - intros [H _] v' Hv'. assert (v' = v). { destruct Hv as [V1 V2], Hv' as [W1 W2]. apply Nat.le_antisymm; auto. } subst v'. exact H.
  - intros H. split; auto. exact (H v Hv).
Qed.
Lemma pho_wf b l pat : rows_wf n b 0 [pho_row (pat, l)].
Proof.
  intros r [<-|[]]. unfold pho_row, pho_constraint. cbn [fst con c_terms]. rewrite map_map. cbn [fst]. split.
  - change (fun x : nat * operator => fst x) with (@fst nat operator). apply fst_filter_nodup. rewrite numbered_fst. apply seq_NoDup.
  - intros i a Hi. apply in_map_iff in Hi. destruct Hi as ([o op] & E & Hi). cbn [fst snd] in E. inv E. apply filter_In in Hi. destruct Hi as [Hi _]. apply numbered_in in Hi. left. eapply nth_error_Some_lt; eauto.
Qed.

(** *** Landmarks *)
Definition lm_row (L : list nat) : lpcon := con (Some 1%Q) None (map (fun i => (i, 1%Q)) L).
Lemma lm_constraint_ok L : lm_constraint (map Some L) = Ok (lm_row L).
Proof.
  unfold lm_constraint. assert (E : omap (fun i : option nat => match i with Some o => Ok o | None => UB end) (map Some L) = Ok L). { induction L as [|o r IH]; cbn [map omap bind]; auto. rewrite IH. reflexivity. }
  rewrite E. reflexivity.
Qed.
Lemma lm_row_ok y L : con_ok y (lm_row L) <-> landmark_uses L y.
Proof.
  unfold con_ok, lm_row, landmark_uses. cbn [con c_lo c_up c_terms above below]. assert (E : (lin y (map (fun i => (i, 1%Q)) L) == qsum y L)%Q).
  { unfold lin. rewrite qsum_map. apply qsum_ext. intros. cbn [fst snd]. ring. } rewrite E. tauto.
Qed.
Lemma lms_lists (lms : list (list (option nat) * nat)) (R : list nat -> nat -> Prop) : (forall lm c, In (lm, c) lms -> exists L, lm = map Some L /\ R L c) ->
  exists lms' : list (list nat * nat), lms = map (fun Lw => (map Some (fst Lw), snd Lw)) lms' /\ forall L w, In (L, w) lms' -> R L w.
Proof.
  induction lms as [|[lm c] r IH]; intros H; [exists []; split; auto; intros L w []|]. destruct (H lm c (or_introl eq_refl)) as (L & -> & HR). destruct IH as (r' & -> & Hr); [intros; apply H; now right|].
  exists ((L, c) :: r'). split; auto. intros L' w' [E|Hi]; [now inv E|auto].
Qed.

(** *** Delete relaxation *)
Definition aux_of (val : key -> Q) (ks : list key) (i : nat) : Q := match nth_error ks i with Some k => val k | None => 0%Q end.
Lemma aux_of_ok val tb y k : NoDup (tb_keys tb) -> (forall i, i < length (tb_keys tb) -> (y (tb_base tb + i)%nat == aux_of val (tb_keys tb) i)%Q) -> In k (tb_keys tb) -> (y (idx tb k) == val k)%Q.
Proof. intros Hn H Hk. destruct (In_nth_error _ _ Hk) as [i Hi]. rewrite (idx_nth tb k i Hn Hi), H by (eapply nth_error_Some_lt; eauto). unfold aux_of. rewrite Hi. reflexivity. Qed.
Lemma if_update_ok tb time last A B sv : (forall f, In f last -> is_fact t f) -> sv_rows sv = A ++ (map (if_row t tb last) (all_facts t) ++ if_rest t time tb) ++ B ->
  if_update t (length A) last s sv = Ok (with_rows sv (A ++ (map (if_row t tb (facts_of s)) (all_facts t) ++ if_rest t time tb) ++ B) (sv_temp sv)).
Proof.
  intros Hl Hsv. unfold if_update. set (h := fun (q : Q) (c : lpcon) => con (Some q) (c_up c) (c_terms c)).
  assert (Hh : forall q (sv : solver) (A m B : list lpcon) i c, sv_rows sv = A ++ m ++ B -> nth_error m i = Some c -> set_constraint_lower_bound sv (length A + i) q = Ok (with_rows sv (A ++ upd m i (h q c) ++ B) (sv_temp sv))) by (intros; now apply set_lower_mid).
  rewrite (rows_fold t (fun sv i => set_constraint_lower_bound sv i 0%Q) (h 0%Q) (Hh 0%Q) (fun c => eq_refl) (if_row t tb last) A (if_rest t time tb ++ B) last sv); auto; [|now rewrite Hsv, <- app_assoc]. cbn [bind].
  rewrite (rows_fold t (fun sv i => set_constraint_lower_bound sv i (-1)%Q) (h (-1)%Q) (Hh (-1)%Q) (fun c => eq_refl) (fun f => if existsb (feqb f) last then h 0%Q (if_row t tb last f) else if_row t tb last f) A (if_rest t time tb ++ B) (facts_of s)); auto.
  - unfold with_rows. cbn. f_equal. f_equal. f_equal. rewrite <- app_assoc. f_equal. apply map_ext. intros f. unfold if_row, h. cbn [con c_up c_terms]. destruct (existsb (feqb f) (facts_of s)), (existsb (feqb f) last); reflexivity.
  - intros f Hf. eapply facts_of_ok; eauto.
Qed.
Lemma rr_update_ok a edges delta id ks last A B sv : (forall f, In f last -> is_fact t f) -> sv_rows sv = A ++ rr_rows t a edges delta id (rr_lo last) ks ++ B ->
  rr_update t (length A) last s sv = Ok (with_rows sv (A ++ rr_rows t a edges delta id (rr_lo (facts_of s)) ks ++ B) (sv_temp sv)).
Proof.
  intros Hl Hsv. unfold rr_update. set (h := fun (q : Q) (c : lpcon) => con (Some q) (Some q) (c_terms c)).
  assert (Hh : forall q (sv : solver) (A m B : list lpcon) i c, sv_rows sv = A ++ m ++ B -> nth_error m i = Some c ->
    (let* sv := set_constraint_lower_bound sv (length A + i) q in set_constraint_upper_bound sv (length A + i) q) = Ok (with_rows sv (A ++ upd m i (h q c) ++ B) (sv_temp sv))).
  { intros q sv0 A0 m B0 i c E Hi. rewrite (set_lower_mid sv0 A0 m B0 i c q E Hi). cbn [bind].
    rewrite (set_upper_mid _ A0 (upd m i (con (Some q) (c_up c) (c_terms c))) B0 i (con (Some q) (c_up c) (c_terms c)) q); [|reflexivity|apply upd_nth_eq; eapply nth_error_Some_lt; eauto]. rewrite upd_twice. reflexivity. }
  unfold rr_rows in Hsv. rewrite <- app_assoc in Hsv. set (row := fun last f => kcon id (Some (rr_lo last f)) (Some (rr_lo last f)) (terms2 t f) []).
  match type of Hsv with _ = A ++ _ ++ ?R => set (rest := R) in * end.
  rewrite (rows_fold t (fun sv i => let* sv := set_constraint_lower_bound sv i 0%Q in set_constraint_upper_bound sv i 0%Q) (h 0%Q) (Hh 0%Q) (fun c => eq_refl) (row last) A rest last sv); auto. cbn [bind].
  rewrite (rows_fold t (fun sv i => let* sv := set_constraint_lower_bound sv i 1%Q in set_constraint_upper_bound sv i 1%Q) (h 1%Q) (Hh 1%Q) (fun c => eq_refl) (fun f => if existsb (feqb f) last then h 0%Q (row last f) else row last f) A rest (facts_of s)); auto.
  - unfold with_rows. cbn. f_equal. f_equal. f_equal. unfold rr_rows. rewrite <- app_assoc. fold rest. f_equal. apply map_ext. intros f. unfold row, h, rr_lo, kcon. cbn [con c_up c_terms]. destruct (existsb (feqb f) (facts_of s)), (existsb (feqb f) last); reflexivity.
  - intros f Hf. eapply facts_of_ok; eauto.
Qed.
Lemma acyclic_body a int edges delta fa : acyclic_support t a int edges delta fa <-> exists T E, ac_body t a int edges delta T E fa.
Proof.
  destruct a; cbn [acyclic_support ac_body].
  - split; [intros [E H]; exists (fun _ => 0%Q), E; exact H|intros (_ & E & H); exists E; exact H].
  - split; [intros [T H]; exists T, (fun _ _ => 0%Q); exact H|intros (T & _ & H); exists T; exact H].
  - split; auto. intros _. exists (fun _ => 0%Q), (fun _ _ => 0%Q). auto.
Qed.

Lemma vars_ok_nil b y : vars_ok b [] y. Proof. intros i v H. destruct i; discriminate. Qed.
Lemma sem_direct b rs cond : (forall y, rows_ok rs y <-> cond y) -> rows_wf n b 0 rs -> gen_sem b [] rs cond.
Proof.
  intros H Hw. unfold gen_sem. splits; auto.
  - intros y _ Hr. now apply H.
  - intros x Hx. exists (fun _ => 0%Q). intros y Hy _. split; [apply vars_ok_nil|]. apply H in Hx. intros r Hr. eapply con_ok_ext; [|apply Hx; auto]. intros i a Hi. symmetry. apply Hy. destruct (Hw r Hr) as [_ Hb]. destruct (Hb i a Hi) as [L|L]; [exact L|lia].
Qed.

Lemma gen_sem_ext b nv rs c c' : (forall x, c x <-> c' x) -> gen_sem b nv rs c -> gen_sem b nv rs c'.
Proof. intros H (A1 & A2 & A3). unfold gen_sem. splits; auto; [intros y Hv Hr; apply H; auto|intros x Hx; apply A2; now apply H]. Qed.
Lemma gen_update g gs b nv c nr A B sv lft : gen_ok t g -> gen_inv t g gs b nv c nr -> n <= b -> length (snd lft) = num_props t + 2 -> sv_rows sv = A ++ nr ++ B -> length A = c ->
  exists dead gs' nr' tn temp, update_constraints P t lft s gs sv = Ok (dead, gs', with_rows sv (A ++ nr' ++ B ++ tn) temp) /\ gen_inv t g gs' b nv c nr' /\ length nr' = length nr /\
    (is_lm g = false \/ dead = true -> tn = [] /\ temp = sv_temp sv) /\ (is_lm g = true -> dead = false -> temp = length tn) /\
    (dead = true -> reports_dead t s g) /\ (dead = false -> exists cond, describes t s g cond /\ gen_sem b nv (nr' ++ tn) cond).
Proof.
  intros Hok HI Hb Hlft Hsv HA. destruct g as [| |pats|time int|a int].
  - destruct HI as [-> HI]. destruct (se_update_ok t Ht Hok Hg P gs c nr A B sv s lft HI Hs Hsv HA) as (nr' & E & HI' & Hiff & Hwf). exists false, gs, nr', [], (sv_temp sv). rewrite !app_nil_r. splits; auto; try discriminate.
    + split; auto.
    + assert (Hlen : forall nr0, se_inv t gs c nr0 -> exists props ps, gs = props /\ length nr0 = length (se_rows ps) /\ concat (match gs with SStateEquation p _ => p | _ => [] end) = assign c ps).
      { intros nr0 (props & ps & goal & -> & _ & _ & Ec & _ & _ & HR). exists (SStateEquation props goal), ps. splits; auto. symmetry. clear - HR. unfold rows_like in HR. induction HR; cbn [length]; auto. }
      destruct (Hlen nr HI) as (_ & ps & _ & L1 & C1). destruct (Hlen nr' HI') as (_ & ps' & _ & L2 & C2). rewrite L1, L2. rewrite C1 in C2.
      assert (G : forall ps ps' c, assign c ps = assign c ps' -> length (se_rows ps) = length (se_rows ps')).
      { clear. induction ps as [|p r IH]; intros [|p' r'] c E; cbn [assign] in E; auto.
        - destruct (se_terms p'); discriminate.
        - destruct (se_terms p); discriminate.
        - assert (Et : se_terms p = se_terms p').
          { assert (Hh : exists q q', se_terms q = se_terms p /\ se_terms q' = se_terms p' /\ q = q').
            { exists (match se_terms p with [] => p | _ => set_index c p end), (match se_terms p' with [] => p' | _ => set_index c p' end). splits.
              - destruct (se_terms p) eqn:Z; [exact Z|exact Z].
              - destruct (se_terms p') eqn:Z; [exact Z|exact Z].
              - destruct (se_terms p), (se_terms p'); congruence. }
            destruct Hh as (q & q' & <- & <- & ->). reflexivity. }
          cbn [se_rows]. rewrite <- Et in *. destruct (se_terms p); inversion E; cbn [length]; [eauto|]. f_equal. eauto. }
      symmetry. eauto.
    + intros _. exists (state_equation t s). split; [intros x; tauto|]. apply sem_direct; auto. intros r Hr. destruct (Hwf r Hr) as [H1 H2]. split; auto. intros i q Hi. left. eapply H2; eauto.
  - destruct HI as (-> & -> & ->). cbn [app] in Hsv. cbn [update_constraints]. destruct (C35_lmcut P bag HP t s (fst lft) (snd lft) (lmcut_ok t Ht Hg) Hs Hlft) as (r & E & _ & Hdead & _ & Hlm). rewrite E. cbn [bind]. destruct r as [lms|].
    + destruct (Hlm lms eq_refl) as (H1 & H2 & H3 & _). clear Hlm.
      destruct (lms_lists lms (fun L w => 0 < w /\ action_landmark t s L /\ L <> [] /\ NoDup L /\ forall o, In o L -> exists op, is_op t o op)) as (lms' & El & HR).
      { intros lm w Hi. destruct (H1 lm w Hi) as (Hw & L & -> & Ha & Hne & Hnd & Ho). exists L. splits; auto. intros o Hoi. destruct (Ho o Hoi) as (op & Hop & _). exists op. exact Hop. }
      assert (Ecs : omap (fun lm : list (option nat) * nat => lm_constraint (fst lm)) lms = Ok (map (fun Lw : list nat * nat => lm_row (fst Lw)) lms')).
      { rewrite El. clear. induction lms' as [|Lw r IH]; cbn [map omap]; auto. cbn [fst]. rewrite lm_constraint_ok. cbn [bind]. rewrite IH. reflexivity. }
      rewrite Ecs. cbn [bind]. exists false, SLmCut, [], (map (fun Lw : list nat * nat => lm_row (fst Lw)) lms'), (length (map (fun Lw : list nat * nat => lm_row (fst Lw)) lms')). splits; auto; try discriminate.
      * f_equal. f_equal. unfold add_temporary_constraints. rewrite Hsv. cbn [app]. now rewrite <- app_assoc.
      * cbn. auto.
      * intros [H|H]; discriminate.
      * intros _. exists (fun x => forall L w, In (L, w) lms' -> landmark_uses L x). split.
        -- assert (Hus : forall o, used lms o = list_sum (map (fun lm : list nat * nat => if existsb (Nat.eqb o) (fst lm) then snd lm else 0) lms')).
           { intros o. unfold used. rewrite El, map_map. f_equal. apply map_ext. intros [L w]. cbn [fst snd]. assert (Ex : existsb (fun y : option nat => match y with Some o' => o' =? o | None => false end) (map Some L) = existsb (Nat.eqb o) L). { clear. induction L as [|z r IH]; cbn [map existsb]; auto. now rewrite IH, Nat.eqb_sym. } now rewrite Ex. }
           cbn [describes]. exists lms'. splits; auto.
           ++ intros o op Ho. rewrite <- Hus. apply H2. exact Ho.
           ++ intros f Hf. specialize (H3 f Hf). clear - H3 Hus. induction H3 as [f H|o op e HO Ho He _ IH|r Hr _ IH]; [now apply rr_state|eapply rr_op; eauto|now apply rr_rule]. rewrite <- Hus. exact HO.
           ++ intros x. tauto.
        -- cbn [app]. apply sem_direct.
           ++ intros y. unfold rows_ok. split.
              ** intros H L w Hi. apply lm_row_ok. apply H. apply in_map_iff. exists (L, w). auto.
              ** intros H r Hr. apply in_map_iff in Hr. destruct Hr as ([L w] & <- & Hi). cbn [fst]. apply lm_row_ok. eauto.
           ++ intros r Hr. apply in_map_iff in Hr. destruct Hr as ([L w] & <- & Hi). cbn [fst]. destruct (HR L w Hi) as (_ & _ & _ & Hnd & Ho). unfold lm_row. cbn [con c_terms]. rewrite map_map. cbn [fst]. rewrite map_id. split; auto. intros i q Hiq. apply in_map_iff in Hiq. destruct Hiq as (o & E' & Hoi). inv E'. left. destruct (Ho i Hoi) as [op Hop]. eapply nth_error_Some_lt; eauto.
    + exists true, SLmCut, [], [], (sv_temp sv). rewrite app_nil_r. cbn [app]. splits; auto; try discriminate.
      * f_equal. f_equal. rewrite <- Hsv. now destruct sv.
      * cbn. auto.
      * intros _. now apply Hdead.
  - destruct HI as (-> & dbs & -> & HF & lo & Hlo & ->). cbn [update_constraints]. subst c. destruct (pho_fold dbs pats lo A B sv HF Hlo Hsv) as (dead & lo' & E & Hlo' & Hd & Hnd). rewrite E. cbn [bind fst snd].
    exists dead, (SPosthoc dbs (length A)), (map pho_row (combine pats lo')), [], (sv_temp sv). rewrite !app_nil_r. splits; auto; try discriminate.
    + cbn [gen_inv]. split; auto. exists dbs. splits; auto. exists lo'. auto.
    + rewrite !map_length, !combine_length. lia.
    + intros H. specialize (Hnd H). exists (fun x => forall pat, In pat pats -> posthoc t pat s x). split.
      * cbn [describes]. split; [|tauto]. intros pat Hp. destruct (forall2_in_l _ _ _ _ Hnd Hp) as (l & _ & v & Hv & _). eauto.
      * apply sem_direct.
        -- intros y. unfold rows_ok. clear - Hnd. induction Hnd as [|pat l pats lo Hpl _ IH]; cbn [combine map]; [split; [intros _ pat []|intros _ r []]|]. split.
           ++ intros Hr p [<-|Hp]; [apply (pho_row_ok y pat l Hpl); apply Hr; now left|]. apply IH; auto. intros r Hri. apply Hr. now right.
           ++ intros Hr r [<-|Hri]; [apply (pho_row_ok y pat l Hpl); apply Hr; now left|]. apply IH; auto. intros p Hp. apply Hr. now right.
        -- intros r Hr. apply in_map_iff in Hr. destruct Hr as ([pat l] & <- & _). apply (pho_wf b l pat). now left.
  - destruct HI as (last & -> & Hlast & -> & ->). set (tb := {| tb_base := b; tb_keys := if_keys t time |}). cbn [update_constraints]. subst c. rewrite (if_update_ok tb time last A B sv Hlast Hsv). cbn [bind].
    exists false, (SRelaxIF (length A) (facts_of s)), (map (if_row t tb (facts_of s)) (all_facts t) ++ if_rest t time tb), [], (sv_temp sv). rewrite !app_nil_r. splits; auto; try discriminate.
    + cbn [gen_inv]. exists (facts_of s). splits; auto. intros f Hf. eapply facts_of_ok; eauto.
    + rewrite !app_length, !map_length. auto.
    + intros _. exists (relaxation_if t time int s). split; [intros x; tauto|].
      assert (Hiff := fun y => if_rows_iff t Ht time int tb eq_refl (fun f => existsb (feqb f) (facts_of s)) y s (fun f => facts_of_in s f)). pose proof (if_keys_nodup t time) as Hnd. unfold gen_sem. splits.
      * intros y Hv Hr. assert (HB := proj1 (Hiff y) (conj Hv Hr)). do 5 eexists. exact HB.
      * intros x (U & R & F & TO & TF & HB). exists (aux_of (fun k => match k with KUsed o => U o | KReached f => R f | KFirst o f => F o f | KOpTime o => TO o | KFactTime f => TF f | KEdge _ _ => 0%Q end) (if_keys t time)).
        intros y Hy1 Hy2. rewrite map_length in Hy2. assert (Hval := fun k => aux_of_ok _ tb y k Hnd Hy2). apply (proj2 (Hiff y)).
        refine (if_body_ext t Ht time int s x y U _ R _ F _ TO _ TF _ _ _ _ HB).
        -- intros o op Ho. splits; [symmetry; apply Hy1; eapply nth_error_Some_lt; exact Ho|symmetry; apply (Hval (KUsed o)); apply if_keys_in; eauto|intros Etime; symmetry; apply (Hval (KOpTime o)); apply if_keys_in; eauto].
        -- intros f Hf. split; [symmetry; apply (Hval (KReached f)); apply if_keys_in; auto|intros Etime; symmetry; apply (Hval (KFactTime f)); apply if_keys_in; auto].
        -- intros o op f Ho Hf. symmetry. apply (Hval (KFirst o f)). apply if_keys_in. eauto.
      * intros r Hr. rewrite map_length. apply (if_wf t Ht time tb eq_refl (fun f => if existsb (feqb f) (facts_of s) then (-1)%Q else 0%Q) r); auto.
  - destruct HI as (last & edges & delta & ks & -> & Hlast & Hve & Hks & -> & ->). set (tb := {| tb_base := b; tb_keys := rr_all_keys t a edges |}) in *. cbn [update_constraints]. subst c. rewrite (rr_update_ok a edges delta (idx tb) ks last A B sv Hlast Hsv). cbn [bind].
    pose proof (rr_ve_hve t a edges delta Hve) as Hve'. exists false, (SRelaxRR (length A) (facts_of s)), (rr_rows t a edges delta (idx tb) (rr_lo (facts_of s)) ks), [], (sv_temp sv). rewrite !app_nil_r. splits; auto; try discriminate.
    + cbn [gen_inv]. exists (facts_of s), edges, delta, ks. splits; auto. intros f Hf. eapply facts_of_ok; eauto.
    + unfold rr_rows. rewrite !app_length, !map_length. auto.
    + intros _. exists (fun x => exists f fa, relaxation_rr t int s x f fa /\ acyclic_support t a int edges delta fa). split.
      { cbn [describes]. exists edges, delta. split; [intros Ha; apply (Hve Ha)|tauto]. }
      assert (Hiff := fun y => rr_rows_iff t Ht a int edges delta Hve' tb eq_refl ks Hks (fun f => existsb (feqb f) (facts_of s)) y s (fun f => facts_of_in s f)). pose proof (rr_keys_nodup t Ht a edges delta Hve') as Hnd. unfold gen_sem. splits.
      * intros y Hv Hr. destruct (proj1 (Hiff y)) as [H1 H2]; [split; [exact Hv|exact Hr]|]. do 2 eexists. split; [exact H1|]. apply acyclic_body. do 2 eexists. exact H2.
      * intros x (f & fa & H1 & H2). apply acyclic_body in H2. destruct H2 as (T & E & H2). exists (aux_of (fun k => match k with KReached p => f p | KFirst o p => fa p o | KFactTime p => T p | KEdge q p => E q p | _ => 0%Q end) (rr_all_keys t a edges)).
        intros y Hy1 Hy2. rewrite map_length in Hy2. assert (Hval := fun k => aux_of_ok _ tb y k Hnd Hy2). apply (proj2 (Hiff y)).
        assert (Hfa : forall o op p, is_op t o op -> adds op p = true -> (fa p o == y (idx tb (KFirst o p)))%Q) by (intros o op p Ho Hp; symmetry; apply (Hval (KFirst o p)); apply rr_keys_in; cbn; eauto).
        split.
        -- refine (rr_ext t Ht int s x y f _ fa _ _ _ _ H1); auto.
           ++ intros o op Ho. symmetry. apply Hy1. eapply nth_error_Some_lt; exact Ho.
           ++ intros p Hp. symmetry. apply (Hval (KReached p)). apply rr_keys_in. exact Hp.
        -- refine (ac_ext t Ht a int edges delta Hve' T _ E _ fa _ _ _ _ H2); auto.
           ++ intros Ha p Hp. symmetry. apply (Hval (KFactTime p)). apply rr_keys_in. cbn. auto.
           ++ intros Ha q p Hp. symmetry. apply (Hval (KEdge q p)). apply rr_keys_in. cbn. auto.
      * intros r Hr. rewrite map_length. apply (rr_wf t Ht a edges delta Hve' tb eq_refl ks Hks (rr_lo (facts_of s)) r); auto.
Qed.
End G.

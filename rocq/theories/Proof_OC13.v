(** Proofs about operator-counting constraints, part 13: all generators together. *)
From Coq Require Import QArith Qround Lqa Permutation.
From Verif Require Import Outcome Spec_Task Spec_Relaxation Spec_Projection Spec_LP Spec_OperatorCounting Model_PQ Model_PDB Model_PatternCollections Model_Relaxation Model_LPSolver Model_LMCut Model_OperatorCounting Spec_Generators
  Proof_Task Proof_PDB1 Prop_LMCut Proof_OC1 Proof_OC2 Proof_OC3 Proof_OC4 Proof_OC5 Proof_OC7 Proof_OC9 Proof_OC10 Proof_OC11 Proof_OC12.
Local Open Scope nat_scope.

Lemma vars_ok_app b a c y : vars_ok b (a ++ c) y <-> vars_ok b a y /\ vars_ok (b + length a) c y.
Proof.
  unfold vars_ok. split.
  - intros H. split; intros i v Hi.
    + apply H. rewrite nth_error_app1; auto. eapply nth_error_Some_lt; eauto.
    + rewrite <- Nat.add_assoc. apply H. rewrite nth_error_app2 by lia. now replace (length a + i - length a) with i by lia.
  - intros [H1 H2] i v Hi. destruct (Nat.lt_ge_cases i (length a)) as [L|L].
    + rewrite nth_error_app1 in Hi by auto. auto.
    + rewrite nth_error_app2 in Hi by auto. specialize (H2 _ _ Hi). now replace (b + length a + (i - length a)) with (b + i) in H2 by lia.
Qed.
Lemma rows_wf_mono n b m m' rs b' : rows_wf n b m rs -> b' <= b -> b + m <= b' + m' -> rows_wf n b' m' rs.
Proof. intros H L1 L2 r Hr. destruct (H r Hr) as [H1 H2]. split; auto. intros i a Hi. destruct (H2 i a Hi) as [L|L]; [now left|right; lia]. Qed.
Definition num_lm (gs : list generator) : nat := length (filter is_lm gs).

Section H.
Variable t : task.
Hypothesis Ht : plain_task t.
Hypothesis Hg : NoDup (map fst (t_goal t)).
Variables (P : pqueue) (bag : PQ P -> list (nat * nat)) (qe : PQ P).
Hypothesis HP : pq_contract P bag.
Hypothesis Hqe : bag qe = [].
Let n := length (t_ops t).

Inductive comp : list generator -> list gstate -> nat -> list lpvar -> nat -> list lpcon -> Prop :=
| comp_nil : forall b c, comp [] [] b [] c []
| comp_cons : forall g gs st sts b nv nvs c nr nrs, gen_inv t g st b nv c nr -> comp gs sts (b + length nv) nvs (c + length nr) nrs -> comp (g :: gs) (st :: sts) b (nv ++ nvs) c (nr ++ nrs).
Lemma init_all_ok gs : Forall (gen_ok t) gs -> exists f0, forall fuel, f0 <= fuel -> forall lp, exists sts nvs nrs,
  initialize_all P qe fuel t gs lp = Ok (sts, {| lp_vars := lp_vars lp ++ nvs; lp_cons := lp_cons lp ++ nrs |}) /\ comp gs sts (length (lp_vars lp)) nvs (length (lp_cons lp)) nrs.
Proof.
  induction 1 as [|g gs Hok _ (f2 & IH)].
  - exists 0. intros fuel _ lp. exists [], [], []. cbn [initialize_all]. rewrite !app_nil_r. destruct lp. split; auto. constructor.
  - destruct (gen_init t Ht Hg P bag qe HP Hqe g Hok) as (f1 & Hi). exists (max f1 f2). intros fuel Hf lp. destruct (Hi fuel ltac:(lia) lp) as (st & nv & nr & E & HI). cbn [initialize_all]. rewrite E. cbn [bind fst snd].
    destruct (IH fuel ltac:(lia) {| lp_vars := lp_vars lp ++ nv; lp_cons := lp_cons lp ++ nr |}) as (sts & nvs & nrs & E2 & HC). rewrite E2. cbn [bind fst snd lp_vars lp_cons] in *. exists (st :: sts), (nv ++ nvs), (nr ++ nrs). split; [now rewrite !app_assoc|]. rewrite !app_length in HC. now constructor.
Qed.
Lemma gen_inv_vars g st b nv c nr : gen_inv t g st b nv c nr -> forall v, In v nv -> (v_obj v == 0)%Q /\ (v_int v = true -> match g with GRelaxIF _ int | GRelaxRR _ int => int = true | _ => False end).
Proof.
  assert (Haux : forall w G k, (forall k, (v_obj (w k) == 0)%Q) -> (v_obj (raised w G k) == 0)%Q /\ v_int (raised w G k) = v_int (w k)).
  { intros w G k Hw. destruct k; cbn [raised]; auto. destruct (existsb (feqb f) G); cbn [v_obj v_int]; auto. }
  destruct g as [| |pats|time int|a int]; cbn [gen_inv]; intros HI v Hv.
  - destruct HI as [-> _]. destruct Hv.
  - destruct HI as (_ & -> & _). destruct Hv.
  - destruct HI as (-> & _). destruct Hv.
  - destruct HI as (last & _ & _ & -> & _). apply in_map_iff in Hv. destruct Hv as (k & <- & _). destruct (Haux (if_var t int) (t_goal t) k) as [E1 E2]; [intros []; reflexivity|]. split; auto. rewrite E2. destruct k; cbn; auto.
  - destruct HI as (last & edges & delta & ks & _ & _ & _ & _ & -> & _). apply in_map_iff in Hv. destruct Hv as (k & <- & _). destruct (Haux (rr_var t int) (t_goal t) k) as [E1 E2]; [intros []; reflexivity|]. split; auto. rewrite E2. destruct k; cbn; auto.
Qed.
Lemma comp_vars gs sts b nvs c nrs : comp gs sts b nvs c nrs -> forall v, In v nvs -> (v_obj v == 0)%Q /\ (v_int v = true -> exists g, In g gs /\ match g with GRelaxIF _ int | GRelaxRR _ int => int = true | _ => False end).
Proof.
  induction 1 as [|g gs st sts b nv nvs c nr nrs HI HC IH]; intros v Hv; [destruct Hv|]. apply in_app_or in Hv. destruct Hv as [Hv|Hv].
  - destruct (gen_inv_vars g st b nv c nr HI v Hv) as [H1 H2]. split; auto. intros Hi. exists g. split; [now left|exact (H2 Hi)].
  - destruct (IH v Hv) as [H1 H2]. split; auto. intros Hi. destruct (H2 Hi) as (g' & Hg' & Hm). exists g'. split; [now right|exact Hm].
Qed.

Section U.
Variable s : state.
Hypothesis Hs : state_ok t s.
Lemma sem_nil b : gen_sem t b [] [] (fun _ => True).
Proof. apply sem_direct; [intros y; split; auto; intros _ r []|intros r []]. Qed.
Lemma sem_cons b nv rs c nvs rss cs : n <= b -> gen_sem t b nv rs c -> gen_sem t (b + length nv) nvs rss cs -> gen_sem t b (nv ++ nvs) (rs ++ rss) (fun x => c x /\ cs x).
Proof.
  intros Hb (A1 & A2 & A3) (B1 & B2 & B3). unfold gen_sem. splits.
  - intros y Hv Hr. apply vars_ok_app in Hv. apply rows_ok_app in Hr. destruct Hv, Hr. split; auto.
  - intros x [Hc Hcs]. destruct (A2 x Hc) as [a1 H1]. destruct (B2 x Hcs) as [a2 H2]. exists (fun i => if i <? length nv then a1 i else a2 (i - length nv)). intros y Hy Ha. rewrite app_length in Ha. destruct (H1 y Hy) as [V1 R1].
    + intros i Hi. rewrite Ha by lia. rewrite (proj2 (Nat.ltb_lt _ _) Hi). reflexivity.
    + destruct (H2 y Hy) as [V2 R2].
      * intros i Hi. rewrite <- Nat.add_assoc, Ha by lia. rewrite (proj2 (Nat.ltb_ge _ _)) by lia. now replace (length nv + i - length nv) with i by lia.
      * split; [apply vars_ok_app|apply rows_ok_app]; auto.
  - rewrite app_length. intros r Hr. apply in_app_or in Hr. destruct Hr as [Hr|Hr]; [apply (rows_wf_mono _ _ _ _ _ _ A3 (le_n b)); auto; lia|apply (rows_wf_mono _ _ _ (length nv + length nvs) _ b B3); auto; lia].
Qed.
Lemma sem_perm b nv rs rs' c : (forall r, In r rs <-> In r rs') -> gen_sem t b nv rs c -> gen_sem t b nv rs' c.
Proof.
  intros H (A1 & A2 & A3). unfold gen_sem. splits.
  - intros y Hv Hr. apply A1; auto. intros r Hi. apply Hr. now apply H.
  - intros x Hx. destruct (A2 x Hx) as [a Ha]. exists a. intros y Hy1 Hy2. destruct (Ha y Hy1 Hy2). split; auto. intros r Hi. apply H1. now apply H.
  - intros r Hr. apply A3. now apply H.
Qed.
Lemma update_all_ok : forall gs sts b nvs c nrs, comp gs sts b nvs c nrs -> Forall (gen_ok t) gs -> n <= b -> forall lft, (forall i, length (snd (lft i)) = num_props t + 2) -> forall A B sv i, sv_rows sv = A ++ nrs ++ B -> length A = c ->
  exists dead sts' nrs' tn temp, update_all P t lft s i sts sv = Ok (dead, sts', with_rows sv (A ++ nrs' ++ B ++ tn) temp) /\ comp gs sts' b nvs c nrs' /\ length nrs' = length nrs /\
    (num_lm gs = 0 -> tn = [] /\ temp = sv_temp sv) /\ (num_lm gs <= 1 -> sv_temp sv = 0 -> temp = length tn) /\
    (dead = true -> exists g, In g gs /\ reports_dead t s g) /\
    (dead = false -> exists conds, Forall2 (describes t s) gs conds /\ gen_sem t b nvs (nrs' ++ tn) (fun x => Forall (fun c => c x) conds)).
Proof.
  induction 1 as [b c|g gs st sts b nv nvs c nr nrs HI HC IH]; intros Hok Hb lft Hlft A B sv i Hsv HA.
  - exists false, [], [], [], (sv_temp sv). cbn [update_all app]. rewrite app_nil_r. cbn [app] in Hsv. splits; auto; try discriminate.
    + rewrite <- Hsv. now destruct sv.
    + constructor.
    + intros _. exists []. split; auto. eapply gen_sem_ext; [|apply sem_nil]. intros x. split; auto.
  - inv Hok. rewrite <- app_assoc in Hsv. destruct (gen_update t Ht Hg P bag HP s Hs g st b nv _ nr A (nrs ++ B) sv (lft i) H1 HI Hb (Hlft i) Hsv eq_refl) as (dead & st' & nr' & tn & temp & E & HI' & Hlen & Htn & Htemp & Hdead & Hsem).
    cbn [update_all]. rewrite E. cbn [bind fst snd]. destruct dead.
    + destruct (Htn (or_intror eq_refl)) as [-> ->]. exists true, (st' :: sts), (nr' ++ nrs), [], (sv_temp sv). rewrite !app_nil_r. splits; auto; try discriminate.
      * now rewrite <- !app_assoc.
      * rewrite <- Hlen in HC. now constructor.
      * rewrite !app_length. lia.
      * intros _. exists g. split; auto. now left.
    + destruct (Hsem eq_refl) as (cond & Hd & Hs1). clear Hsem.
      destruct (IH H2 ltac:(lia) lft Hlft (A ++ nr') (B ++ tn) (with_rows sv (A ++ nr' ++ (nrs ++ B) ++ tn) temp) (S i)) as (dead & sts' & nrs' & tn' & temp' & E' & HC' & Hlen' & Htn' & Htemp' & Hdead' & Hsem').
      { cbn [sv_rows with_rows]. rewrite <- !app_assoc. reflexivity. } { rewrite app_length. lia. }
      rewrite E'. cbn [bind fst snd]. exists dead, (st' :: sts'), (nr' ++ nrs'), (tn ++ tn'), temp'. cbn [sv_temp with_rows] in *. unfold num_lm in *. cbn [filter]. splits.
      * f_equal. f_equal. unfold with_rows. cbn. rewrite <- !app_assoc. reflexivity.
      * rewrite <- Hlen in HC'. now constructor.
      * rewrite !app_length. lia.
      * destruct (is_lm g) eqn:El; cbn [length]; [discriminate|]. intros H0. destruct (Htn' H0) as [-> ->]. destruct (Htn (or_introl eq_refl)) as [-> ->]. auto.
      * destruct (is_lm g) eqn:El; cbn [length]; intros L0 Hz.
        -- destruct (Htn' ltac:(lia)) as [-> ->]. rewrite app_nil_r. auto.
        -- destruct (Htn (or_introl eq_refl)) as [-> ->]. cbn [app]. auto.
      * intros Hx. destruct (Hdead' Hx) as (g' & Hg' & Hr). exists g'. split; auto. now right.
      * intros Hx. destruct (Hsem' Hx) as (conds & HF & Hs2). exists (cond :: conds). split; [now constructor|].
        apply (gen_sem_ext t b _ _ (fun x => cond x /\ Forall (fun c => c x) conds)); [intros x; split; [intros [? ?]; now constructor|intros Hf; inv Hf; auto]|].
        apply (sem_perm b _ ((nr' ++ tn) ++ nrs' ++ tn')); [intros r; rewrite !in_app_iff; tauto|]. now apply sem_cons.
Qed.
End U.

(** ** The heuristic *)
Variables (k : solver_kind) (gs : list generator) (int : bool).
Hypothesis Hgs : gs <> [].
Hypothesis Hok : Forall (gen_ok t) gs.
Hypothesis Hsop : k = Soplex -> int = false /\ num_lm gs <= 1 /\ forall g, In g gs -> match g with GRelaxIF _ i | GRelaxRR _ i => i = false | _ => True end.
Definition oc_inv (h : oc) : Prop := exists nvs nrs, comp gs (oc_gens h) n nvs 0 nrs /\
  oc_sv h = {| sv_kind := k; sv_vars := oc_variables t int ++ nvs; sv_rows := nrs; sv_perm := length nrs; sv_temp := 0 |}.
Lemma oc_init_ok : exists f0, forall fuel, f0 <= fuel -> exists h, oc_init P qe k fuel t gs int = Ok h /\ oc_inv h.
Proof.
  destruct (init_all_ok gs Hok) as (f0 & Hi). exists f0. intros fuel Hf. destruct (Hi fuel Hf {| lp_vars := oc_variables t int; lp_cons := [] |}) as (sts & nvs & nrs & E & HC).
  assert (EI : oc_init P qe k fuel t gs int = let* x := initialize_all P qe fuel t gs {| lp_vars := oc_variables t int; lp_cons := [] |} in let* sv := load_problem k (snd x) in Ok {| oc_gens := fst x; oc_sv := sv |}) by (clear - Hgs; destruct gs; [congruence|reflexivity]).
  rewrite EI, E. cbn [bind fst snd lp_vars lp_cons app] in *. unfold load_problem. cbn [lp_vars lp_cons].
  assert (Eint : match k with Soplex => existsb v_int (oc_variables t int ++ nvs) | Cplex => false end = false).
  { case_eq k; intros Ek; auto. destruct (Hsop Ek) as (Hint & _ & Hall). apply not_true_iff_false. rewrite existsb_exists. intros (v & Hv & Hvi). apply in_app_or in Hv. destruct Hv as [Hv|Hv].
    - unfold oc_variables in Hv. apply in_map_iff in Hv. destruct Hv as (op & <- & _). cbn in Hvi. congruence.
    - destruct (comp_vars _ _ _ _ _ _ HC v Hv) as [_ Hx]. destruct (Hx Hvi) as (g & Hg1 & Hm). specialize (Hall g Hg1). destruct g; try contradiction; congruence. }
  rewrite Eint. cbn [bind]. eexists. split; [reflexivity|]. exists nvs, nrs. cbn [oc_gens oc_sv]. split; auto. unfold oc_variables in HC at 1. rewrite map_length in HC. exact HC.
Qed.
Lemma oc_step h s lft : oc_inv h -> state_ok t s -> (forall i, length (snd (lft i)) = num_props t + 2) ->
  negb (has_temporary_constraints (oc_sv h)) = true /\
  exists dead sts' sv', update_all P t lft s 0 (oc_gens h) (oc_sv h) = Ok (dead, sts', sv') /\
    oc_inv {| oc_gens := sts'; oc_sv := clear_temporary_constraints sv' |} /\
    (dead = true -> exists g, In g gs /\ reports_dead t s g) /\
    (dead = false -> exists nvs rs conds, (forall v, In v nvs -> (v_obj v == 0)%Q) /\ sv_vars sv' = oc_variables t int ++ nvs /\ sv_rows sv' = rs /\ Forall2 (describes t s) gs conds /\ gen_sem t n nvs rs (fun x => Forall (fun c => c x) conds)).
Proof.
  intros (nvs & nrs & HC & Esv) Hs Hlft. split; [rewrite Esv; unfold has_temporary_constraints; cbn [sv_kind sv_perm sv_rows sv_temp]; destruct k; [now rewrite Nat.ltb_irrefl|reflexivity]|].
  destruct (update_all_ok s Hs gs (oc_gens h) n nvs 0 nrs HC Hok (le_n _) lft Hlft [] [] (oc_sv h) 0) as (dead & sts' & nrs' & tn & temp & E & HC' & Hlen & _ & Htemp & Hdead & Hsem); [rewrite Esv; cbn [sv_rows app]; now rewrite app_nil_r|reflexivity|].
  cbn [app] in E. exists dead, sts', (with_rows (oc_sv h) (nrs' ++ tn) temp). splits; auto.
  - exists nvs, nrs'. split; auto. cbn [oc_sv]. rewrite Esv. unfold clear_temporary_constraints. cbn [with_rows sv_kind sv_perm sv_rows sv_temp]. case_eq k; intros Ek.
    + unfold with_rows. cbn. f_equal; [|now rewrite Hlen]. rewrite <- Hlen, firstn_app, firstn_all, Nat.sub_diag. cbn [firstn]. now rewrite app_nil_r.
    + destruct (Hsop Ek) as (_ & Hlm & _). rewrite Esv in Htemp. specialize (Htemp Hlm eq_refl). subst temp. destruct (Nat.ltb_spec 0 (length tn)) as [L|L].
      * unfold with_rows. cbn. f_equal; [|now rewrite Hlen]. rewrite <- Hlen, firstn_app, firstn_all, Nat.sub_diag. cbn [firstn]. rewrite app_nil_r. rewrite <- (app_length nrs' tn), skipn_all. now rewrite app_nil_r.
      * destruct tn; [|cbn in L; lia]. unfold with_rows. cbn. rewrite app_nil_r, Hlen. reflexivity.
  - intros Hd. destruct (Hsem Hd) as (conds & HF & Hs1). exists nvs, (nrs' ++ tn), conds. splits; auto.
    + intros v Hv. apply (comp_vars _ _ _ _ _ _ HC' v Hv).
    + rewrite Esv. reflexivity.
Qed.
End H.

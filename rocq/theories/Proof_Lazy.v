(** Soundness and completeness of lazy search. *)
From Coq Require Import Permutation.
From Verif Require Import Outcome Spec_Plan Spec_LazyController Model_SearchSpace Model_Eager Model_Lazy
  Proof_SearchSpace Proof_Trace.

Lemma existsb_mem op l : In op l -> existsb (Nat.eqb op) l = true.
Proof. intros H. apply existsb_exists. exists op; split; auto. apply Nat.eqb_refl. Qed.

Lemma reaches_mono b x y : x <= y -> reaches_bound b y = false -> reaches_bound b x = false.
Proof.
  destruct b as [b|]; cbn [reaches_bound]; auto. intros H H1.
  apply Nat.leb_gt in H1. apply Nat.leb_gt. lia.
Qed.

Lemma oset_insert_incl l x : incl l (oset_insert l x) /\ In x (oset_insert l x) /\
  forall y, In y (oset_insert l x) -> y = x \/ In y l.
Proof.
  unfold oset_insert. destruct (existsb (Nat.eqb x) l) eqn:E.
  - apply existsb_exists in E. destruct E as (y & Hy & E). apply Nat.eqb_eq in E. subst y.
    split; [apply incl_refl|]. split; auto.
  - split; [apply incl_appl, incl_refl|]. split; [apply in_or_app; cbn; auto|].
    intros y Hy. apply in_app_or in Hy. cbn in Hy. intuition.
Qed.

Lemma oset_fold_incl xs : forall l, incl l (fold_left oset_insert xs l) /\
  incl xs (fold_left oset_insert xs l) /\
  forall y, In y (fold_left oset_insert xs l) -> In y xs \/ In y l.
Proof.
  induction xs as [|x xs IH]; intros l; cbn [fold_left].
  - split; [apply incl_refl|]. split; [intros y []|]. auto.
  - destruct (IH (oset_insert l x)) as (A & B & D). destruct (oset_insert_incl l x) as (A' & B' & D').
    split; [intros y Hy; apply A, A'; auto|]. split.
    + intros y [->|Hy]; auto.
    + intros y Hy. destruct (D y Hy) as [H|H]; cbn; auto. destruct (D' y H); auto.
Qed.

Section Lazy.
Variable T : TS.
Variable ct : lazy_controller T.
Variable cfg : lazy_config.
Variable I : LC ct -> Prop.
Variable entries : LC ct -> list (nat * nat).
Hypothesis Hwf : ts_wf T.
Hypothesis HK : lazy_ok ct I entries.

Let ac := adj T (lz_base cfg).
Let bound := ec_bound (lz_base cfg).
Definition normal : Prop := forall o, ac o = ts_cost T o.

Record NInv (sp : space T) : Prop := {
  ni_tinv : TInv T ac sp;
  ni_init : exists n, nth_error sp 0 = Some (ts_init T, n);
  ni_closed : forall id s n, nth_error sp id = Some (s, n) ->
      n = new_info \/ (ni_status n = CLOSED /\ exists g, ni_g n = Some g) \/ ni_status n = DEAD_END;
  ni_normal : normal -> forall id s n g, nth_error sp id = Some (s, n) -> ni_g n = Some g -> ni_real_g n = g;
  ni_bound : normal -> forall id s n g p, nth_error sp id = Some (s, n) -> ni_parent n = Some p ->
      ni_g n = Some g -> reaches_bound bound g = false
}.

Definition edge_ok (sp : space T) (e : nat * nat) : Prop :=
  exists ps pn pg, nth_error sp (fst e) = Some (ps, pn) /\ ni_g pn = Some pg /\
    In (snd e) (ts_app T ps) /\ (normal -> reaches_bound bound (pg + ts_cost T (snd e)) = false).

Definition below (sp sp' : space T) : Prop :=
  forall i s n, nth_error sp i = Some (s, n) -> exists n', nth_error sp' i = Some (s, n') /\
    forall g, ni_g n = Some g -> exists g', ni_g n' = Some g' /\ g' <= g.

Lemma below_refl sp : below sp sp.
Proof. intros i s n H. exists n. split; auto. intros g Hg. exists g. auto. Qed.

Lemma edge_ok_mono sp sp' e : below sp sp' -> edge_ok sp e -> edge_ok sp' e.
Proof.
  intros HB (ps & pn & pg & H & Hg & Ho & Hb). destruct (HB _ _ _ H) as (pn' & H' & Hg').
  destruct (Hg' _ Hg) as (pg' & E & Hle). exists ps, pn', pg'. split; auto. split; auto. split; auto.
  intros N. eapply reaches_mono; [|apply Hb; auto]. lia.
Qed.

Definition cur_ok (st : lazy_state T ct) : Prop :=
  match ls_edge st with
  | None => ls_id st = 0 /\ ls_g st = 0 /\ ls_real_g st = 0 /\
      ls_space st = [(ts_init T, new_info)] /\ entries (ls_c st) = []
  | Some (pid, op) => edge_ok (ls_space st) (pid, op) /\
      exists ps pn pg n, nth_error (ls_space st) pid = Some (ps, pn) /\ ni_g pn = Some pg /\
        nth_error (ls_space st) (ls_id st) = Some (ts_succ T ps op, n) /\
        ls_g st = pg + ac op /\ ls_real_g st = ni_real_g pn + ts_cost T op
  end.

Record LInv (st : lazy_state T ct) : Prop := {
  li_I : I (ls_c st);
  li_n : NInv (ls_space st);
  li_entries : forall e, In e (entries (ls_c st)) -> edge_ok (ls_space st) e;
  li_cur : cur_ok st
}.

Lemma below_upd sp id s n n' : nth_error sp id = Some (s, n) ->
  (forall g, ni_g n = Some g -> exists g', ni_g n' = Some g' /\ g' <= g) -> below sp (upd sp id (s, n')).
Proof.
  intros H Hg i s0 n0 H0. destruct (Nat.eq_dec id i) as [->|Hne].
  - rewrite H in H0. inv H0. exists n'. split; auto. apply upd_nth_eq. eapply nth_error_Some_lt; eauto.
  - exists n0. split; [rewrite upd_nth_neq; auto|]. intros g G; exists g; auto.
Qed.

Lemma below_snoc sp x : below sp (sp ++ [x]).
Proof. intros i s n H. exists n. split; [now apply nth_app_old|]. intros g G; exists g; auto. Qed.

Lemma nth_upd_cases {A} (l : list A) i j x y :
  nth_error (upd l i x) j = Some y -> (j = i /\ y = x) \/ (j <> i /\ nth_error l j = Some y).
Proof.
  intros H. rewrite upd_nth in H. destruct (Nat.eqb_spec i j) as [->|Hne]; cbn [andb] in H.
  - destruct (Nat.ltb_spec j (length l)).
    + inv H; auto.
    + exfalso. assert (nth_error l j = None) by (apply nth_error_None; lia). congruence.
  - right; auto.
Qed.

Lemma NInv_dead sp id s n : NInv sp -> nth_error sp id = Some (s, n) ->
  NInv (upd sp id (s, mark_as_dead_end n)).
Proof.
  intros [A B D E F] H. constructor.
  - apply status_TInv; auto; discriminate.
  - destruct B as [m B]. destruct (Nat.eq_dec id 0) as [->|Hne].
    + rewrite B in H. inv H. eexists. apply upd_nth_eq. eapply nth_error_Some_lt; eauto.
    + exists m. rewrite upd_nth_neq; auto.
  - intros i s0 n0 H0. apply nth_upd_cases in H0. destruct H0 as [[-> H0]|[_ H0]]; eauto. inv H0. auto.
  - intros N i s0 n0 g H0. apply nth_upd_cases in H0. destruct H0 as [[-> H0]|[_ H0]]; eauto. inv H0. exact (E N _ _ _ _ H).
  - intros N i s0 n0 g p H0. apply nth_upd_cases in H0. destruct H0 as [[-> H0]|[_ H0]]; eauto. inv H0. exact (F N _ _ _ _ _ H).
Qed.

Lemma NInv_redirect sp id n pid ps pn op pg : NInv sp ->
  nth_error sp id = Some (ts_succ T ps op, n) -> nth_error sp pid = Some (ps, pn) -> ni_g pn = Some pg ->
  In op (ts_app T ps) -> (normal -> reaches_bound bound (pg + ts_cost T op) = false) ->
  (ni_g n = None \/ exists g, ni_g n = Some g /\ pg + ac op < g) ->
  NInv (upd sp id (ts_succ T ps op, update_parent CLOSED pg (ni_real_g pn) pid op (ac op) (ts_cost T op))).
Proof.
  intros [A B D E F] Hid Hpid Hpg Hop Hb Hold. constructor.
  - eapply redirect_TInv; eauto. discriminate.
  - destruct B as [m B]. destruct (Nat.eq_dec id 0) as [->|Hne].
    + rewrite B in Hid. injection Hid as H1 _. rewrite H1. eexists. apply upd_nth_eq. eapply nth_error_Some_lt; eauto.
    + exists m. rewrite upd_nth_neq; auto.
  - intros i s0 n0 H0. apply nth_upd_cases in H0. destruct H0 as [[-> H0]|[_ H0]]; eauto. inv H0.
    right; left. cbn. split; eauto.
  - intros N i s0 n0 g H0. apply nth_upd_cases in H0. destruct H0 as [[-> H0]|[_ H0]]; eauto. inv H0.
    cbn. intros G; inv G. rewrite (E N _ _ _ _ Hpid Hpg). now rewrite N.
  - intros N i s0 n0 g p H0. apply nth_upd_cases in H0. destruct H0 as [[-> H0]|[_ H0]]; eauto. inv H0.
    cbn. intros _ G; inv G. rewrite N. auto.
Qed.

Lemma NInv_open_initial : NInv [(ts_init T, {| ni_status := CLOSED; ni_g := Some 0; ni_real_g := 0; ni_parent := None |})].
Proof.
  assert (H1 : forall i s n, nth_error [(ts_init T, {| ni_status := CLOSED; ni_g := Some 0; ni_real_g := 0; ni_parent := None |})] i = Some (s, n) ->
    i = 0 /\ s = ts_init T /\ n = {| ni_status := CLOSED; ni_g := Some 0; ni_real_g := 0; ni_parent := None |}).
  { intros [|[|i]] s n H; inv H; auto. }
  constructor.
  - constructor.
    + right. eexists; reflexivity.
    + intros i j s n m Hi Hj. apply H1 in Hi. apply H1 in Hj. destruct Hi as (-> & _), Hj as (-> & _). auto.
    + intros i s n g H _. apply H1 in H. destruct H as (-> & -> & ->). exists [], [0].
      eapply chain_root; reflexivity.
    + intros i s n H. apply H1 in H. destruct H as (-> & -> & ->). discriminate.
  - eexists; reflexivity.
  - intros i s n H. apply H1 in H. destruct H as (-> & -> & ->). right; left. cbn; eauto.
  - intros N i s n g H. apply H1 in H. destruct H as (-> & -> & ->). cbn. congruence.
  - intros N i s n g p H. apply H1 in H. destruct H as (-> & -> & ->). discriminate.
Qed.

Lemma NInv_register sp s sp1 id : NInv sp -> register sp s = (sp1, id) ->
  NInv sp1 /\ below sp sp1 /\ exists n, nth_error sp1 id = Some (s, n).
Proof.
  intros Inv Hr. pose proof Inv as [A B D E F].
  destruct (register_TInv T ac Hwf _ _ _ _ A Hr) as (A1 & n & Hn & _).
  { left. intros ->. destruct B; discriminate. }
  apply register_spec in Hr; auto. destruct Hr as [(-> & _)|(-> & -> & Hf)].
  - split; auto. split; [apply below_refl|eauto].
  - split; [|split; [apply below_snoc|eauto]]. constructor; auto.
    + destruct B as [m B]. exists m. now apply nth_app_old.
    + intros i s0 n0 H. apply nth_app_inv in H. destruct H as [H|[-> H]]; eauto. inv H. auto.
    + intros N i s0 n0 g H. apply nth_app_inv in H. destruct H as [H|[-> H]]; eauto. inv H. discriminate.
    + intros N i s0 n0 g p H. apply nth_app_inv in H. destruct H as [H|[-> H]]; eauto. inv H. discriminate.
Qed.

(* ---------- generating edges ---------- *)

Definition lsame (c c' : LC ct) : Prop := I c' /\ entries c' = entries c.
Lemma lsame_trans c1 c2 c3 : lsame c1 c2 -> lsame c2 c3 -> lsame c1 c3.
Proof. intros [_ E] [H E']. split; congruence. Qed.

Lemma insert_edge_spec id s g rg prefs c op : I c ->
  let c' := insert_edge T ct cfg id s g rg prefs c op in
  I c' /\ incl (entries c) (entries c') /\
  (forall e, In e (entries c') -> In e (entries c) \/ (e = (id, op) /\ reaches_bound bound (rg + ts_cost T op) = false)) /\
  (lazy_safe ct I entries -> solvable_from T s -> bound = None -> In (id, op) (entries c')).
Proof.
  intros HI. cbn zeta. unfold insert_edge. fold bound. destruct (reaches_bound bound (rg + ts_cost T op)) eqn:Eb.
  - split; auto. split; [apply incl_refl|]. split; auto. intros _ _ Hn. rewrite Hn in Eb. discriminate.
  - destruct (l_insert _ _ _ HK c s (g + adj T (lz_base cfg) op) (existsb (Nat.eqb op) prefs) (id, op) HI) as (HI' & k & P).
    split; auto. split; [|split].
    + intros e He. eapply Permutation_in; [symmetry; exact P|]. apply in_or_app; auto.
    + intros e He. apply (Permutation_in _ P) in He. apply in_app_or in He. destruct He as [He|He]; auto.
      apply repeat_spec in He. auto.
    + intros HS Hs _. apply (l_insert_safe _ _ _ HS); auto.
Qed.

Lemma insert_fold_spec id s g rg prefs ops : forall c, I c ->
  let c' := fold_left (insert_edge T ct cfg id s g rg prefs) ops c in
  I c' /\ incl (entries c) (entries c') /\
  (forall e, In e (entries c') -> In e (entries c) \/
     exists op, In op ops /\ e = (id, op) /\ reaches_bound bound (rg + ts_cost T op) = false) /\
  (lazy_safe ct I entries -> solvable_from T s -> bound = None ->
     forall op, In op ops -> In (id, op) (entries c')).
Proof.
  induction ops as [|op ops IH]; intros c HI; cbn [fold_left].
  - split; auto. split; [apply incl_refl|]. split; auto. intros _ _ _ op [].
  - destruct (insert_edge_spec id s g rg prefs c op HI) as (HI1 & A & B & D).
    destruct (IH _ HI1) as (HI2 & A2 & B2 & D2). split; auto. split; [|split].
    + intros e He. apply A2, A; auto.
    + intros e He. destruct (B2 e He) as [H|(o & Ho & -> & Hb)].
      * destruct (B e H) as [H'|[-> H']]; auto. right. exists op. cbn; auto.
      * right. exists o. cbn; auto.
    + intros HS Hs Hn o [->|Ho]; [apply A2; auto|]. apply D2; auto.
Qed.

Lemma lazy_generate_spec c id s g rg : I c ->
  let c' := lazy_generate T ct cfg c id s g rg in
  I c' /\ incl (entries c) (entries c') /\
  (forall e, In e (entries c') -> In e (entries c) \/
     exists op, In op (ts_app T s) /\ e = (id, op) /\ reaches_bound bound (rg + ts_cost T op) = false) /\
  (lazy_safe ct I entries -> solvable_from T s -> bound = None ->
     forall op, In op (ts_app T s) -> In (id, op) (entries c')).
Proof.
  intros HI. cbn zeta. unfold lazy_generate.
  pose proof (l_preferred _ _ _ HK c s g HI) as S1. pose proof (l_preferred_app _ _ _ HK c s g HI) as P1.
  destruct (lc_preferred ct c s g) as [prefs0 c1]; cbn [fst snd] in *.
  assert (exists prefs c2, (if lz_randomize cfg then lc_shuffle ct c1 prefs0 else (prefs0, c1)) = (prefs, c2) /\
    lsame c1 c2 /\ incl prefs (ts_app T s)) as (prefs & c2 & -> & S2 & P2).
  { destruct (lz_randomize cfg).
    - pose proof (l_shuffle _ _ _ HK c1 prefs0 (proj1 S1)) as S2.
      pose proof (l_shuffle_perm _ _ _ HK c1 prefs0 (proj1 S1)) as Q.
      destruct (lc_shuffle ct c1 prefs0) as [p c2]. exists p, c2; cbn [fst snd] in *. split; auto. split; auto.
      intros x Hx. apply P1. eapply Permutation_in; eauto.
    - exists prefs0, c1. split; auto. split; auto. split; auto. apply S1. }
  assert (exists ops c3, successor_operators T ct cfg c2 s prefs = (ops, c3) /\ lsame c2 c3 /\
    incl ops (ts_app T s) /\ incl (ts_app T s) ops) as (ops & c3 & -> & S3 & P3 & P4).
  { unfold successor_operators.
    assert (exists app c3, (if lz_randomize cfg then lc_shuffle ct c2 (ts_app T s) else (ts_app T s, c2)) = (app, c3) /\
      lsame c2 c3 /\ incl app (ts_app T s) /\ incl (ts_app T s) app) as (app & c3 & -> & S3 & P3 & P4).
    { destruct (lz_randomize cfg).
      - pose proof (l_shuffle _ _ _ HK c2 (ts_app T s) (proj1 S2)) as S3.
        pose proof (l_shuffle_perm _ _ _ HK c2 (ts_app T s) (proj1 S2)) as Q.
        destruct (lc_shuffle ct c2 (ts_app T s)) as [p c3]. exists p, c3; cbn [fst snd] in *.
        split; auto. split; auto. split; intros x Hx; [eapply Permutation_in; eauto|eapply Permutation_in; [apply Permutation_sym; exact Q|auto]].
      - exists (ts_app T s), c2. split; auto. split; [split; auto; apply S2|]. split; apply incl_refl. }
    destruct (lz_pref_first cfg).
    - eexists _, _. split; [reflexivity|]. split; auto.
      destruct (oset_fold_incl app (fold_left oset_insert prefs [])) as (A & B & D).
      destruct (oset_fold_incl prefs []) as (A' & B' & D'). split.
      + intros x Hx. destruct (D x Hx) as [H|H]; auto. destruct (D' x H) as [H'|[]]; auto.
      + intros x Hx. apply B, P4; auto.
    - eexists _, _. split; [reflexivity|]. auto. }
  assert (S : lsame c c3) by (eapply lsame_trans; [split; apply S1|eapply lsame_trans; eauto]).
  destruct (insert_fold_spec id s g rg prefs ops c3 (proj1 S)) as (HI' & A & B & D).
  split; auto. rewrite (proj2 S) in *. split; auto. split.
  - intros e He. destruct (B e He) as [H|(op & Ho & H)]; auto. right; exists op; auto.
  - intros HS Hs Hn op Ho. apply D; auto.
Qed.

(* ---------- fetch ---------- *)

Definition good (r : search_result (lazy_state T ct)) : Prop :=
  match r with
  | IN_PROGRESS st' => LInv st' /\ ls_edge st' <> None
  | FAILED _ => True
  | SOLVED plan _ => is_plan T plan /\
      (normal -> forall b, bound = Some b -> plan = [] \/ sum_cost (ts_cost T) plan < b)
  end.

Lemma fetch_spec sp c st : NInv sp -> I c -> (forall e, In e (entries c) -> edge_ok sp e) ->
  exists r, fetch_next_state T ct cfg sp c st = Ok r /\
    (lc_pop ct c = None /\
     r = FAILED {| ls_space := sp; ls_c := c; ls_id := ls_id st; ls_edge := ls_edge st;
                   ls_g := ls_g st; ls_real_g := ls_real_g st |} \/
     exists st' e, r = IN_PROGRESS st' /\ LInv st' /\ ls_edge st' = Some e /\
       lc_pop ct c = Some (e, ls_c st') /\ Permutation (entries c) (e :: entries (ls_c st')) /\
       exists ps pn, nth_error sp (fst e) = Some (ps, pn) /\
         register sp (ts_succ T ps (snd e)) = (ls_space st', ls_id st')).
Proof.
  intros Inv HI He. unfold fetch_next_state. destruct (lc_pop ct c) as [[[pid op] c1]|] eqn:Ep.
  2:{ eexists. split; [reflexivity|]. auto. }
  destruct (l_pop_some _ _ _ HK _ _ _ HI Ep) as (HI1 & P).
  assert (Hin : In (pid, op) (entries c)) by (eapply Permutation_in; [symmetry; exact P|cbn; auto]).
  destruct (He _ Hin) as (ps & pn & pg & Hpid & Hpg & Hop & Hb). cbn [fst snd] in *.
  unfold get_node, vget. rewrite Hpid; cbn [bind]. rewrite (existsb_mem _ _ Hop); cbn [guard bind].
  destruct (register sp (ts_succ T ps op)) as [sp1 sid] eqn:Er.
  unfold get_g. rewrite Hpg; cbn [bind]. eexists. split; [reflexivity|]. right.
  eexists _, (pid, op). split; [reflexivity|].
  destruct (NInv_register _ _ _ _ Inv Er) as (Inv1 & HB & n & Hn).
  split; [|cbn [ls_edge ls_c ls_space ls_id fst snd]; eauto 10].
  constructor; cbn [ls_edge ls_c ls_space ls_id ls_g ls_real_g]; auto.
  - intros e Hi. eapply edge_ok_mono; eauto. apply He. eapply Permutation_in; [symmetry; exact P|cbn; auto].
  - unfold cur_ok; cbn [ls_edge ls_c ls_space ls_id ls_g ls_real_g]. split.
    + eapply edge_ok_mono; eauto.
    + assert (Hsame : nth_error sp1 pid = Some (ps, pn)).
      { apply register_spec in Er; auto. destruct Er as [(-> & _)|(-> & -> & _)]; auto. now apply nth_app_old. }
      exists ps, pn, pg, n. auto.
Qed.

(* ---------- one step ---------- *)

(** What a step does to space and controller before the next edge is fetched. *)
Inductive lres (st : lazy_state T ct) : space T -> LC ct -> Prop :=
| lr_skip : forall s n, nth_error (ls_space st) (ls_id st) = Some (s, n) ->
    (ni_status n = CLOSED \/ ni_status n = DEAD_END) ->
    lres st (ls_space st) (ls_c st)
| lr_dead : forall s n c1 c2, nth_error (ls_space st) (ls_id st) = Some (s, n) ->
    I c1 -> lc_dead ct c1 s (ls_g st) = (true, c2) -> lsame (ls_c st) c2 ->
    lres st (upd (ls_space st) (ls_id st) (s, mark_as_dead_end n)) c2
| lr_expand : forall s n n' g c1, nth_error (ls_space st) (ls_id st) = Some (s, n) ->
    (ni_status n = CLOSED \/ n = new_info) ->
    ts_goal T s = false -> ni_status n' = CLOSED -> ni_g n' = Some g -> lsame (ls_c st) c1 ->
    lres st (upd (ls_space st) (ls_id st) (s, n'))
      (lazy_generate T ct cfg c1 (ls_id st) s (ls_g st) (ls_real_g st)).

Lemma lsame_dead c s g b c' : I c -> lc_dead ct c s g = (b, c') -> lsame c c'.
Proof. intros H E. pose proof (l_dead _ _ _ HK c s g H) as K. now rewrite E in K. Qed.

Lemma lsame_progress c s g r : I c -> lsame c (lc_progress ct c s g r).
Proof. intros H. apply (l_progress _ _ _ HK c s g r H). Qed.

Lemma solved_ok sp id s n g : NInv sp -> nth_error sp id = Some (s, n) -> ni_g n = Some g ->
  ts_goal T s = true -> (ni_parent n = None -> id = 0) ->
  exists plan, trace_path sp id = Ok plan /\ is_plan T plan /\
    (normal -> forall b, bound = Some b -> plan = [] \/ sum_cost (ts_cost T) plan < b).
Proof.
  intros Inv Hid Hg Hgoal Hroot. destruct (ti_chain _ _ _ (ni_tinv _ Inv) _ _ _ _ Hid Hg) as (plan & ids & Hc).
  exists plan. split; [eapply trace_path_chain; eauto|].
  destruct (chain_g _ _ _ _ _ _ Hc) as (s1 & n1 & g1 & E1 & G1 & Sm & P & _).
  rewrite Hid in E1. inv E1. rewrite Hg in G1. inv G1. split; [exists s1; auto|].
  intros N b Hb. inversion Hc as [? Hn0 Hp0 Hg0|id0 s0 n0 pid ps pn op ops0 ids0 pg g0 X1 X2 X3 X4 X5 X6 X7 X8 X9]; subst.
  - auto.
  - right. rewrite Hid in X1. inv X1.
    pose proof (ni_bound _ Inv N _ _ _ _ _ Hid X2 Hg) as Hlt. rewrite Hb in Hlt. cbn in Hlt. apply Nat.leb_gt in Hlt.
    rewrite (sum_cost_ext (ts_cost T) ac) by (intros; symmetry; apply N). lia.
Qed.

Lemma step_pre st : LInv st ->
  (exists plan st', lazy_step T ct cfg st = Ok (SOLVED plan st') /\ good (SOLVED plan st')) \/
  (exists sp c, lres st sp c /\ lazy_step T ct cfg st = fetch_next_state T ct cfg sp c st /\
     NInv sp /\ I c /\ (forall e, In e (entries c) -> edge_ok sp e)).
Proof.
  intros Inv. pose proof Inv as [HI Nn He Hc].
  assert (exists s n, nth_error (ls_space st) (ls_id st) = Some (s, n)) as (s & n & Hid).
  { unfold cur_ok in Hc. destruct (ls_edge st) as [[pid op]|].
    - destruct Hc as (_ & ps & pn & pg & n & _ & _ & H & _). eauto.
    - destruct Hc as (-> & _ & _ & -> & _). cbn; eauto. }
  unfold lazy_step, get_node, vget. rewrite Hid; cbn [bind].
  destruct (ni_closed _ Nn _ _ _ Hid) as [Hnew|[(Hcl & g & Hg)|Hdead]].
  - (* new node *)
    subst n. cbn [is_new is_dead_end_node new_info ni_status status_eqb negb].
    rewrite andb_false_r; cbn [andb bind orb].
    unfold cur_ok in Hc. destruct (ls_edge st) as [[pid op]|] eqn:Ee.
    + destruct Hc as ((ps0 & pn0 & pg0 & Hp0 & Hg0 & Ho0 & Hb0) & ps & pn & pg & n & Hpid & Hpg & Hn & Hcg & Hcr).
      cbn [fst snd] in *. rewrite Hp0 in Hpid. inv Hpid. rewrite Hg0 in Hpg. inv Hpg.
      rewrite Hid in Hn. injection Hn as -> <-.
      rewrite Hp0; cbn [bind].
      assert (S1 : lsame (ls_c st) (lc_notify ct (ls_c st) ps op (ts_succ T ps op))) by (apply (l_notify _ _ _ HK); auto).
      destruct (lc_dead ct _ _ _) as [[|] c2] eqn:Ed.
      * right. rewrite (put_some T _ _ _ _ _ Hid); cbn [bind]. eexists _, _.
        assert (S2 : lsame (ls_c st) c2) by (eapply lsame_trans; [exact S1|eapply lsame_dead; [apply S1|exact Ed]]).
        split; [eapply lr_dead; [exact Hid|apply S1|exact Ed|exact S2]|]. split; [reflexivity|].
        split; [apply NInv_dead; auto|]. split; [apply S2|]. intros e Hi. rewrite (proj2 S2) in Hi.
        eapply edge_ok_mono; [eapply below_upd; eauto; discriminate|auto].
      * unfold get_g. rewrite Hg0; cbn [bind].
        unfold open_new_node, is_new; cbn [new_info ni_status status_eqb guard bind].
        unfold close_node, is_open; cbn [update_parent ni_status status_eqb guard bind].
        rewrite (put_some T _ _ _ _ _ Hid); cbn [bind].
        set (n' := set_status _ CLOSED).
        assert (Hn' : n' = update_parent CLOSED pg (ni_real_g pn) pid op (ac op) (ts_cost T op)) by reflexivity.
        assert (Inv' : NInv (upd (ls_space st) (ls_id st) (ts_succ T ps op, n'))).
        { rewrite Hn'. eapply NInv_redirect; eauto. }
        assert (HB : below (ls_space st) (upd (ls_space st) (ls_id st) (ts_succ T ps op, n'))).
        { eapply below_upd; eauto. discriminate. }
        assert (Hat : nth_error (upd (ls_space st) (ls_id st) (ts_succ T ps op, n')) (ls_id st) = Some (ts_succ T ps op, n')).
        { apply upd_nth_eq. eapply nth_error_Some_lt; eauto. }
        assert (S2 : lsame (ls_c st) c2) by (eapply lsame_trans; [exact S1|eapply lsame_dead; [apply S1|exact Ed]]).
        destruct (ts_goal T (ts_succ T ps op)) eqn:Egoal.
        -- left. destruct (solved_ok _ _ _ n' _ Inv' Hat eq_refl Egoal) as (plan & Ht & Hp & Hb').
           { discriminate. }
           rewrite Ht; cbn [bind]. eexists _, _. split; [reflexivity|]. split; auto.
        -- right. eexists _, _.
           assert (S3 : lsame (ls_c st) (lc_progress ct c2 (ts_succ T ps op) (ls_g st) true)).
           { eapply lsame_trans; [exact S2|apply lsame_progress, S2]. }
           split; [eapply (lr_expand st _ _ n'); [exact Hid|auto|exact Egoal| | |exact S3]; reflexivity|]. split; [reflexivity|].
           split; auto. destruct (lazy_generate_spec _ (ls_id st) (ts_succ T ps op) (ls_g st) (ls_real_g st) (proj1 S3)) as (HI' & A & B & _).
           split; auto. intros e Hi. destruct (B e Hi) as [H|(o & Ho & -> & Hbo)].
           ++ rewrite (proj2 S3) in H. eapply edge_ok_mono; eauto.
           ++ exists (ts_succ T ps op), n', (pg + ac op). cbn [fst snd]. split; auto. split; auto. split; auto.
              intros N. rewrite Hcr in Hbo. rewrite (ni_normal _ Nn N _ _ _ _ Hp0 Hg0) in Hbo. rewrite N. exact Hbo.
    + destruct st as [sp0 c id0 e0 g0 rg0]; cbn [ls_space ls_c ls_id ls_edge ls_g ls_real_g] in *.
      destruct Hc as (-> & -> & -> & -> & Hemp). subst e0. cbn in Hid. injection Hid as <-. cbn [bind].
      set (st := {| ls_space := _ |}) in *.
      destruct (lc_dead ct c (ts_init T) 0) as [[|] c2] eqn:Ed.
      * right. assert (S2 : lsame c c2) by (eapply lsame_dead; [|exact Ed]; auto).
        rewrite (put_some T _ _ (ts_init T) new_info) by reflexivity. cbn [bind].
        eexists _, _. split; [exact (lr_dead st (ts_init T) new_info c c2 eq_refl HI Ed S2)|].
        split; [reflexivity|]. split; [apply NInv_dead; auto|]. split; [apply S2|].
        rewrite (proj2 S2), Hemp. intros e [].
      * assert (S2 : lsame c c2) by (eapply lsame_dead; [|exact Ed]; auto).
        unfold open_initial; cbn [is_new new_info ni_status status_eqb guard bind].
        unfold close_node, is_open; cbn [ni_status status_eqb guard bind].
        rewrite (put_some T _ _ (ts_init T) new_info) by reflexivity. cbn [bind upd].
        set (n' := set_status _ CLOSED).
        assert (Inv' : NInv [(ts_init T, n')]) by apply NInv_open_initial.
        destruct (ts_goal T (ts_init T)) eqn:Egoal.
        -- left. destruct (solved_ok _ 0 _ n' _ Inv' eq_refl eq_refl Egoal) as (plan & Ht & Hp & Hb'); auto.
           rewrite Ht; cbn [bind]. eexists _, _. split; [reflexivity|]. split; auto.
        -- right.
           assert (S3 : lsame c (lc_progress ct (lc_progress ct c2 (ts_init T) 0 false) (ts_init T) 0 true)).
           { eapply lsame_trans; [exact S2|]. eapply lsame_trans; [apply lsame_progress, S2|]. apply lsame_progress, lsame_progress, S2. }
           eexists _, _.
           split; [exact (lr_expand st (ts_init T) new_info n' 0 _ eq_refl (or_intror eq_refl) Egoal eq_refl eq_refl S3)|].
           split; [reflexivity|].
           split; [exact Inv'|]. destruct (lazy_generate_spec _ 0 (ts_init T) 0 0 (proj1 S3)) as (HI' & A & B & _).
           split; [exact HI'|]. intros e Hi. destruct (B e Hi) as [H|(o & Ho & -> & Hbo)].
           ++ rewrite (proj2 S3), Hemp in H. destruct H.
           ++ exists (ts_init T), n', 0. cbn [fst snd]. split; auto.
  - (* closed node *)
    unfold is_new, is_dead_end_node. rewrite Hcl; cbn [status_eqb negb]. rewrite !andb_true_r; cbn [orb].
    unfold get_g. rewrite Hg; cbn [bind].
    assert (Hskip : exists sp c, lres st sp c /\ fetch_next_state T ct cfg (ls_space st) (ls_c st) st = fetch_next_state T ct cfg sp c st /\
      NInv sp /\ I c /\ (forall e, In e (entries c) -> edge_ok sp e)).
    { eexists _, _. split; [eapply lr_skip; eauto|]. split; [reflexivity|]. split; auto. }
    destruct (ec_reopen (lz_base cfg)); cbn [bind]; [|right; exact Hskip].
    destruct (Nat.ltb_spec (ls_g st) g) as [Hlt|_]; cbn [bind]; [|right; exact Hskip].
    unfold cur_ok in Hc. destruct (ls_edge st) as [[pid op]|] eqn:Ee.
    2:{ destruct Hc as (H0 & Hcg & Hcr & Hsp & Hemp). rewrite H0, Hsp in Hid. cbn in Hid. inv Hid. discriminate. }
    destruct Hc as ((ps0 & pn0 & pg0 & Hp0 & Hg0 & Ho0 & Hb0) & ps & pn & pg & nn & Hpid & Hpg & Hn & Hcg & Hcr).
    cbn [fst snd] in *. rewrite Hp0 in Hpid. inv Hpid. rewrite Hg0 in Hpg. inv Hpg.
    rewrite Hid in Hn. injection Hn as -> <-.
    rewrite Hp0; cbn [bind].
    assert (S1 : lsame (ls_c st) (lc_notify ct (ls_c st) ps op (ts_succ T ps op))) by (apply (l_notify _ _ _ HK); auto).
    destruct (lc_dead ct _ _ _) as [[|] c2] eqn:Ed.
    + right. rewrite (put_some T _ _ _ _ _ Hid); cbn [bind]. eexists _, _.
      assert (S2 : lsame (ls_c st) c2) by (eapply lsame_trans; [exact S1|eapply lsame_dead; [apply S1|exact Ed]]).
      split; [eapply lr_dead; [exact Hid|apply S1|exact Ed|exact S2]|]. split; [reflexivity|].
      split; [apply NInv_dead; auto|]. split; [apply S2|]. intros e Hi. rewrite (proj2 S2) in Hi.
      eapply edge_ok_mono; [eapply below_upd; [exact Hid|cbn; intros g0 G; exists g0; auto]|auto].
    + rewrite Hg0; cbn [bind].
      unfold reopen_closed_node, is_closed. rewrite Hcl; cbn [status_eqb guard bind].
      unfold close_node, is_open; cbn [update_parent ni_status status_eqb guard bind].
      rewrite (put_some T _ _ _ _ _ Hid); cbn [bind].
      set (n' := set_status _ CLOSED).
      assert (Hn' : n' = update_parent CLOSED pg (ni_real_g pn) pid op (ac op) (ts_cost T op)) by reflexivity.
      change (adj T (lz_base cfg) op) with (ac op) in *.
      assert (Hlt' : pg + ac op < g) by lia.
      assert (Inv' : NInv (upd (ls_space st) (ls_id st) (ts_succ T ps op, n'))).
      { rewrite Hn'. eapply NInv_redirect; eauto. }
      assert (HB : below (ls_space st) (upd (ls_space st) (ls_id st) (ts_succ T ps op, n'))).
      { eapply below_upd; eauto. intros g0 G. rewrite Hg in G. inv G. exists (pg + ac op). split; [reflexivity|lia]. }
      assert (Hat : nth_error (upd (ls_space st) (ls_id st) (ts_succ T ps op, n')) (ls_id st) = Some (ts_succ T ps op, n')).
      { apply upd_nth_eq. eapply nth_error_Some_lt; eauto. }
      assert (S2 : lsame (ls_c st) c2) by (eapply lsame_trans; [exact S1|eapply lsame_dead; [apply S1|exact Ed]]).
      destruct (ts_goal T (ts_succ T ps op)) eqn:Egoal.
      * left. destruct (solved_ok _ _ _ n' _ Inv' Hat eq_refl Egoal) as (plan & Ht & Hp & Hb').
        { discriminate. }
        rewrite Ht; cbn [bind]. eexists _, _. split; [reflexivity|]. split; auto.
      * right. eexists _, _.
        assert (S3 : lsame (ls_c st) (lc_progress ct c2 (ts_succ T ps op) (ls_g st) true)).
        { eapply lsame_trans; [exact S2|apply lsame_progress, S2]. }
        split; [eapply (lr_expand st _ _ n'); [exact Hid|auto|exact Egoal| | |exact S3]; reflexivity|]. split; [reflexivity|].
        split; auto. destruct (lazy_generate_spec _ (ls_id st) (ts_succ T ps op) (ls_g st) (ls_real_g st) (proj1 S3)) as (HI' & A & B & _).
        split; auto. intros e Hi. destruct (B e Hi) as [H|(o & Ho & -> & Hbo)].
        -- rewrite (proj2 S3) in H. eapply edge_ok_mono; eauto.
        -- exists (ts_succ T ps op), n', (pg + ac op). cbn [fst snd]. split; auto. split; auto. split; auto.
           intros N. rewrite Hcr in Hbo. rewrite (ni_normal _ Nn N _ _ _ _ Hp0 Hg0) in Hbo. rewrite N. exact Hbo.
  - (* dead end *)
    right. unfold is_new, is_dead_end_node. rewrite Hdead; cbn [status_eqb negb]. rewrite andb_false_r; cbn [bind orb].
    eexists _, _. split; [eapply lr_skip; eauto|]. split; [reflexivity|]. split; auto.
Qed.

Lemma step_good st : LInv st -> exists r, lazy_step T ct cfg st = Ok r /\ good r.
Proof.
  intros Inv. destruct (step_pre st Inv) as [(plan & st' & E & G)|(sp & c & _ & E & Nn & HI & He)].
  - eauto.
  - destruct (fetch_spec sp c st Nn HI He) as (r & Er & [(_ & ->)|(st' & e & -> & L & Hedge & _)]); rewrite E, Er; eexists; (split; [reflexivity|]).
    + exact Logic.I.
    + split; auto. congruence.
Qed.

Lemma init_LInv c0 : I c0 -> entries c0 = [] -> LInv (lazy_initialize T ct c0).
Proof.
  intros HI He. destruct (l_notify_initial _ _ _ HK c0 (ts_init T) HI) as (HI1 & E1).
  unfold lazy_initialize, register; cbn [find_state app length].
  assert (H1 : forall i s n, nth_error [(ts_init T, new_info)] i = Some (s, n) ->
    i = 0 /\ s = ts_init T /\ n = new_info).
  { intros [|[|i]] s n H; inv H; auto. }
  constructor; cbn [ls_c ls_space]; auto.
  - constructor.
    + constructor.
      * right. eexists; reflexivity.
      * intros i j s n m Hi Hj. apply H1 in Hi. apply H1 in Hj. destruct Hi as (-> & _), Hj as (-> & _). auto.
      * intros i s n g H. apply H1 in H. destruct H as (-> & -> & ->). discriminate.
      * intros i s n H. apply H1 in H. destruct H as (-> & -> & ->). auto.
    + eexists; reflexivity.
    + intros i s n H. apply H1 in H. tauto.
    + intros N i s n g H. apply H1 in H. destruct H as (-> & -> & ->). discriminate.
    + intros N i s n g p H. apply H1 in H. destruct H as (-> & -> & ->). discriminate.
  - rewrite E1, He. intros e [].
  - unfold cur_ok; cbn [ls_edge ls_id ls_g ls_real_g ls_space ls_c]. rewrite E1. auto.
Qed.

Lemma loop_good fuel : forall st, LInv st ->
  exists r, lazy_loop T ct cfg fuel st = Ok r /\
    match r with SOLVED _ _ => good r | _ => True end.
Proof.
  induction fuel as [|f IH]; intros st Inv; cbn [lazy_loop].
  - eexists; split; [reflexivity|exact Logic.I].
  - destruct (step_good st Inv) as (r & -> & G); cbn [bind]. destruct r as [st'|st'|plan st'].
    + apply IH. apply G.
    + eexists; split; [reflexivity|exact Logic.I].
    + eexists; split; [reflexivity|exact G].
Qed.

Lemma normal_cost : ec_cost_type (lz_base cfg) = NORMAL -> normal.
Proof. intros H o. unfold ac, adj. now rewrite H. Qed.

Theorem lazy_sound fuel c0 plan st : I c0 -> entries c0 = [] ->
  lazy_search T ct cfg fuel c0 = Ok (SOLVED plan st) ->
  is_plan T plan /\
  (ec_cost_type (lz_base cfg) = NORMAL -> forall b, ec_bound (lz_base cfg) = Some b ->
     plan = [] \/ sum_cost (ts_cost T) plan < b).
Proof.
  intros HI He H. destruct (loop_good fuel _ (init_LInv c0 HI He)) as (r & E & G).
  unfold lazy_search in H. rewrite H in E. inv E. destruct G as (P & B). split; auto.
  intros N. apply B. now apply normal_cost.
Qed.

Theorem lazy_no_ub fuel c0 : I c0 -> entries c0 = [] -> exists r, lazy_search T ct cfg fuel c0 = Ok r.
Proof. intros HI He. destruct (loop_good fuel _ (init_LInv c0 HI He)) as (r & E & _). eauto. Qed.

(* ---------- completeness ---------- *)

Section Complete.
Hypothesis HS : lazy_safe ct I entries.
Hypothesis Hnb : bound = None.

(** [pend] is the edge whose target is the current state. *)
Definition settled (sp : space T) (es : list (nat * nat)) (pend : option (nat * nat)) : Prop :=
  forall id s n, nth_error sp id = Some (s, n) ->
    (ni_status n = DEAD_END -> ~ solvable_from T s) /\
    (ni_status n = CLOSED -> ts_goal T s = false /\
       (solvable_from T s -> forall o, In o (ts_app T s) ->
          In (id, o) es \/ pend = Some (id, o) \/
          exists sid sn, nth_error sp sid = Some (ts_succ T s o, sn) /\ ni_status sn <> NEW)).

Definition CInv (st : lazy_state T ct) : Prop :=
  settled (ls_space st) (entries (ls_c st)) (ls_edge st) /\
  (ls_edge st = None \/ exists n, nth_error (ls_space st) 0 = Some (ts_init T, n) /\ ni_status n <> NEW).

Lemma lres_settled st sp c : LInv st -> CInv st -> lres st sp c ->
  settled sp (entries c) None /\
  exists n, nth_error sp 0 = Some (ts_init T, n) /\ ni_status n <> NEW.
Proof.
  intros Inv [HC H0] R. pose proof Inv as [HI Nn He Hc].
  assert (Hcur : exists s n, nth_error (ls_space st) (ls_id st) = Some (s, n) /\
    (ls_edge st = None -> ls_id st = 0 /\ s = ts_init T) /\
    forall pid op, ls_edge st = Some (pid, op) -> forall ps pn, nth_error (ls_space st) pid = Some (ps, pn) -> s = ts_succ T ps op).
  { unfold cur_ok in Hc. destruct (ls_edge st) as [[pid op]|].
    - destruct Hc as (_ & ps & pn & pg & n & A & _ & H & _). exists (ts_succ T ps op), n.
      split; auto. split; [discriminate|]. intros pid' op' E ps' pn' A'. inv E. rewrite A in A'. inv A'. auto.
    - destruct Hc as (-> & _ & _ & -> & _). exists (ts_init T), new_info. split; auto. split; auto. discriminate. }
  destruct Hcur as (s0 & n0 & Hs0 & Hroot & Hedge).
  assert (Hgen : forall sp' es n1, (exists n1', nth_error sp' (ls_id st) = Some (s0, n1')/\ n1' = n1 /\ ni_status n1 <> NEW) ->
     (forall i s n, nth_error sp' i = Some (s, n) -> i <> ls_id st -> nth_error (ls_space st) i = Some (s, n)) ->
     (forall i x, nth_error (ls_space st) i = Some x -> i <> ls_id st -> nth_error sp' i = Some x) ->
     incl (entries (ls_c st)) es ->
     (ni_status n1 = DEAD_END -> ~ solvable_from T s0) ->
     (ni_status n1 = CLOSED -> ts_goal T s0 = false /\
       ((solvable_from T s0 -> forall o, In o (ts_app T s0) -> In (ls_id st, o) es) \/
        ni_status n0 = CLOSED)) ->
     settled sp' es None /\ exists n, nth_error sp' 0 = Some (ts_init T, n) /\ ni_status n <> NEW).
  { intros sp' es n1 (n1' & Hn1 & -> & Hnew) Hback Hfwd Hincl Hd Hcl.
    assert (Htgt : forall s o sid sn, nth_error (ls_space st) sid = Some (ts_succ T s o, sn) -> ni_status sn <> NEW ->
        exists sid' sn', nth_error sp' sid' = Some (ts_succ T s o, sn') /\ ni_status sn' <> NEW).
    { intros s o sid sn Hsid Hst. destruct (Nat.eq_dec sid (ls_id st)) as [->|Hne].
      - rewrite Hs0 in Hsid. inv Hsid. eauto.
      - exists sid, sn. split; auto. }
    assert (Hlift : forall id s n, nth_error (ls_space st) id = Some (s, n) -> ni_status n = CLOSED ->
       solvable_from T s -> forall o, In o (ts_app T s) -> In (id, o) es \/
          exists sid sn, nth_error sp' sid = Some (ts_succ T s o, sn) /\ ni_status sn <> NEW).
    { intros id s n Hid Hst Hsol o Ho. destruct (proj2 (proj2 (HC _ _ _ Hid) Hst) Hsol o Ho) as [H|[H|(sid & sn & H & H')]].
      - auto.
      - right. exists (ls_id st), n1. rewrite (Hedge _ _ H _ _ Hid) in Hn1. auto.
      - right. eapply Htgt; eauto. }
    split.
    - intros id s n Hid. destruct (Nat.eq_dec id (ls_id st)) as [->|Hne].
      + rewrite Hn1 in Hid. inv Hid. split; auto. intros Hst. destruct (Hcl Hst) as (G & Hor). split; auto.
        intros Hsol o Ho. destruct Hor as [H|H]; [left; auto|].
        destruct (Hlift _ _ _ Hs0 H Hsol o Ho); auto.
      + apply Hback in Hid as Hold; auto. destruct (HC _ _ _ Hold) as (A & B). split; auto.
        intros Hst. split; [apply B; auto|]. intros Hsol o Ho. destruct (Hlift _ _ _ Hold Hst Hsol o Ho); auto.
    - destruct H0 as [H0|(m & Hm & Hst)].
      + destruct (Hroot H0) as (Hz & Hs). rewrite Hz, Hs in *. eauto.
      + destruct (Nat.eq_dec (ls_id st) 0) as [Hz|Hne].
        * rewrite Hz in *. rewrite Hs0 in Hm. inv Hm. eauto.
        * exists m. split; auto. }
  assert (Hupd : forall n', let sp' := upd (ls_space st) (ls_id st) (s0, n') in
     nth_error sp' (ls_id st) = Some (s0, n') /\
     (forall i s n, nth_error sp' i = Some (s, n) -> i <> ls_id st -> nth_error (ls_space st) i = Some (s, n)) /\
     (forall i x, nth_error (ls_space st) i = Some x -> i <> ls_id st -> nth_error sp' i = Some x)).
  { intros n' sp'. split; [apply upd_nth_eq; eapply nth_error_Some_lt; eauto|]. split.
    - intros i s n H Hne. apply nth_upd_cases in H. destruct H as [[-> _]|[_ H]]; congruence.
    - intros i x H Hne. unfold sp'. rewrite upd_nth_neq; auto. }
  destruct R as [s n Hid Hst|s n c1 c2 Hid HI1 Hd Hsame|s n n' g c1 Hid Hold Hgoal Hcl Hg Hsame].
  - rewrite Hs0 in Hid. inv Hid. eapply Hgen with (n1 := n).
    + exists n. split; auto. split; auto. destruct Hst as [-> | ->]; discriminate.
    + auto.
    + auto.
    + apply incl_refl.
    + apply (HC _ _ _ Hs0).
    + intros H. split; auto. apply (HC _ _ _ Hs0); auto.
  - rewrite Hs0 in Hid. inv Hid. destruct (Hupd (mark_as_dead_end n)) as (A & B & D).
    eapply Hgen with (n1 := mark_as_dead_end n); auto.
    + exists (mark_as_dead_end n). split; auto. split; auto. discriminate.
    + rewrite (proj2 Hsame). apply incl_refl.
    + intros _. eapply (l_dead_safe _ _ _ HS c1); [auto|]. rewrite Hd. reflexivity.
    + discriminate.
  - rewrite Hs0 in Hid. inv Hid. destruct (Hupd n') as (A & B & D).
    destruct (lazy_generate_spec c1 (ls_id st) s (ls_g st) (ls_real_g st) (proj1 Hsame)) as (_ & Hinc & _ & Hall).
    eapply Hgen with (n1 := n'); auto.
    + exists n'. split; auto. split; auto. congruence.
    + rewrite <- (proj2 Hsame). exact Hinc.
    + congruence.
Qed.

Lemma step_complete st r : LInv st -> CInv st -> lazy_step T ct cfg st = Ok r ->
  match r with
  | IN_PROGRESS st' => CInv st'
  | FAILED _ => ~ solvable_from T (ts_init T)
  | SOLVED _ _ => True
  end.
Proof.
  intros Inv HC Hr. destruct (step_pre st Inv) as [(plan & st' & E & G)|(sp & c & R & E & Nn & HI & He)].
  { rewrite E in Hr. inv Hr. exact Logic.I. }
  destruct (lres_settled _ _ _ Inv HC R) as (Hset & n0 & Hn0 & Hst0).
  rewrite E in Hr. destruct (fetch_spec sp c st Nn HI He) as (r' & Er & Hcase).
  rewrite Er in Hr. inv Hr. destruct Hcase as [(Hpop & ->)|(st' & e & -> & L & Hedge & Hpop & P & ps & pn & Hpid & Hreg)].
  - (* exhausted *)
    pose proof (l_pop_none _ _ _ HK c HI Hpop) as Hemp. rewrite Hemp in Hset.
    intros [os (s' & Hpath & Hgoal)].
    assert (Hgen : forall s os s', path T s os s' -> ts_goal T s' = true ->
      forall id n, nth_error sp id = Some (s, n) -> ni_status n <> NEW -> False).
    { clear os s' Hpath Hgoal. intros s os s' Hp Hgoal.
      induction Hp as [s|s o os s' Ho Hp IH]; intros id n Hid Hst.
      - destruct (Hset _ _ _ Hid) as (A & B). destruct (ni_closed _ Nn _ _ _ Hid) as [->|[(Hcl & _)|Hd]].
        + apply Hst; reflexivity.
        + destruct (B Hcl) as (G & _). congruence.
        + apply (A Hd). exists [], s. split; [constructor|auto].
      - assert (Hsol : solvable_from T s) by (exists (o :: os), s'; split; [constructor; auto|auto]).
        destruct (Hset _ _ _ Hid) as (A & B). destruct (ni_closed _ Nn _ _ _ Hid) as [->|[(Hcl & _)|Hd]].
        + apply Hst; reflexivity.
        + destruct (B Hcl) as (G & Hs). destruct (Hs Hsol o Ho) as [[]|[H|(sid & sn & H & H')]]; [discriminate|].
          eapply (IH Hgoal); eauto.
        + apply (A Hd Hsol). }
    eapply Hgen; eauto.
  - unfold CInv. rewrite Hedge. split; [|right].
    + apply register_spec in Hreg; auto.
      assert (Hfwd : forall i x, nth_error sp i = Some x -> nth_error (ls_space st') i = Some x).
      { destruct Hreg as [(-> & _)|(-> & _)]; auto. intros i x. apply nth_app_old. }
      intros id s n Hid.
      assert (Hcase : nth_error sp id = Some (s, n) \/ n = new_info).
      { destruct Hreg as [(E2 & _)|(E2 & _)]; rewrite E2 in Hid; auto. apply nth_app_inv in Hid. destruct Hid as [H|[_ H]]; auto. inv H; auto. }
      destruct Hcase as [Hold| ->].
      * destruct (Hset _ _ _ Hold) as (A & B). split; auto. intros Hcl. destruct (B Hcl) as (G & Hs). split; auto.
        intros Hsol o Ho. destruct (Hs Hsol o Ho) as [H|[H|(sid & sn & H & H')]].
        -- apply (Permutation_in _ P) in H. destruct H as [->|H]; auto.
        -- discriminate.
        -- right; right. exists sid, sn. split; auto.
      * split; discriminate.
    + apply register_spec in Hreg; auto. exists n0. split; auto. destruct Hreg as [(-> & _)|(-> & _)]; auto. now apply nth_app_old.
Qed.

Theorem lazy_complete fuel c0 st : I c0 -> entries c0 = [] ->
  lazy_search T ct cfg fuel c0 = Ok (FAILED st) -> forall os, ~ is_plan T os.
Proof.
  intros HI He. unfold lazy_search. assert (HC0 : CInv (lazy_initialize T ct c0)).
  { unfold lazy_initialize, register; cbn [find_state app length]. split; [|left; reflexivity].
    cbn [ls_space]. intros [|[|id]] s n H; inv H. split; discriminate. }
  pose proof (init_LInv c0 HI He) as Inv0. revert HC0 Inv0. generalize (lazy_initialize T ct c0).
  induction fuel as [|f IH]; cbn [lazy_loop]; intros st0 HC Inv H; [discriminate|].
  destruct (step_good st0 Inv) as (r & Er & G). rewrite Er in H; cbn [bind] in H.
  pose proof (step_complete st0 r Inv HC Er) as HC'. destruct r as [st'|st'|plan st'].
  - eapply IH; [exact HC'|apply G|exact H].
  - inv H. intros os Hos. apply HC'. exists os. exact Hos.
  - discriminate.
Qed.
End Complete.
End Lazy.

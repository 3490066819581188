(** Proofs: mutex groups, and the task file as a whole. *)
From Coq Require Import Ascii String List.
From Verif Require Import Outcome Spec_Task Spec_Format Model_Task Model_Axioms Model_Parser Proof_Task Proof_Axioms
  Proof_Lexer Proof_Parser Proof_ParseSections.
Local Open Scope nat_scope.
Import ListNotations.
Local Notation z := Z.of_nat.

(** *** Mutex table *)
Definition dims (m : mutex_table) (doms : list nat) : Prop := Forall2 (fun row d => length row = d) m doms.
Definition tab (m : mutex_table) (f g : fact) : Prop :=
  exists row set, nth_error m (fst f) = Some row /\ nth_error row (snd f) = Some set /\ In g set.

Lemma F2_len {A B} (R : A -> B -> Prop) l l' : Forall2 R l l' -> length l = length l'.
Proof. induction 1; cbn; auto. Qed.
Lemma F2_nth {A B} (R : A -> B -> Prop) l l' i y : Forall2 R l l' -> nth_error l' i = Some y ->
  exists x, nth_error l i = Some x /\ R x y.
Proof. intros H; revert i; induction H; intros [|i] E; cbn in *; try discriminate; eauto. injection E as <-; eauto. Qed.
Lemma F2_upd {A B} (R : A -> B -> Prop) l l' i x y : Forall2 R l l' -> nth_error l' i = Some y -> R x y ->
  Forall2 R (upd l i x) l'.
Proof. intros H; revert i; induction H; intros [|i] E Hr; cbn in *; try discriminate; constructor; auto. now injection E as ->. Qed.

Definition infact (doms : list nat) (f : fact) : Prop := exists d, nth_error doms (fst f) = Some d /\ snd f < d.

Lemma set_insert_In f s g : In g (set_insert f s) <-> g = f \/ In g s.
Proof. unfold set_insert. destruct (in_dec fact_eq_dec f s); cbn; intuition congruence. Qed.

Lemma table_insert_ok doms m f1 f2 : dims m doms -> infact doms f1 ->
  exists m', table_insert m f1 f2 = Ok m' /\ dims m' doms /\
    forall f g, tab m' f g <-> tab m f g \/ (f = f1 /\ g = f2).
Proof.
  intros Hd (d & Ed & Hlt). destruct (F2_nth _ _ _ _ _ Hd Ed) as (row & Er & Hl).
  destruct (nth_error row (snd f1)) as [set|] eqn:Es; [|apply nth_error_None in Es; lia].
  pose proof (nth_error_Some_lt _ _ _ Er) as Hm.
  unfold table_insert. unfold vget. rewrite Er. cbn [bind]. rewrite Es. cbn [bind].
  unfold vset. destruct (Nat.ltb_spec (snd f1) (length row)); [|lia]. cbn [bind].
  destruct (Nat.ltb_spec (fst f1) (length m)); [|lia].
  eexists; split; [reflexivity|]. split.
  - eapply F2_upd; eauto. cbn. now rewrite upd_length.
  - intros f g. unfold tab. split.
    + intros (row' & set' & E1 & E2 & Hin). destruct (Nat.eq_dec (fst f1) (fst f)) as [Ef|Ef].
      * rewrite <- Ef in E1. rewrite upd_nth_eq in E1 by auto. injection E1 as <-.
        destruct (Nat.eq_dec (snd f1) (snd f)) as [Ev|Ev].
        -- rewrite <- Ev, upd_nth_eq in E2 by lia. injection E2 as <-.
           apply set_insert_In in Hin as [->|Hin].
           ++ right. split; auto. destruct f, f1; cbn in *; congruence.
           ++ left. exists row, set. rewrite <- Ef, <- Ev. auto.
        -- rewrite upd_nth_neq in E2 by auto. left. exists row, set'. rewrite <- Ef. auto.
      * rewrite upd_nth_neq in E1 by auto. left. eauto.
    + intros [(row' & set' & E1 & E2 & Hin)|(-> & ->)].
      * destruct (Nat.eq_dec (fst f1) (fst f)) as [Ef|Ef].
        -- rewrite <- Ef in *. rewrite Er in E1. injection E1 as <-.
           rewrite upd_nth_eq by auto. exists (upd row (snd f1) (set_insert f2 set)).
           destruct (Nat.eq_dec (snd f1) (snd f)) as [Ev|Ev].
           ++ rewrite <- Ev in *. rewrite Es in E2. injection E2 as <-. exists (set_insert f2 set).
              split; [reflexivity|]. rewrite upd_nth_eq by lia. split; auto. apply set_insert_In; auto.
           ++ exists set'. split; [reflexivity|]. rewrite upd_nth_neq by auto. auto.
        -- exists row', set'. rewrite upd_nth_neq by auto. auto.
      * eexists; exists (set_insert f2 set). rewrite upd_nth_eq by auto. split; [reflexivity|].
        rewrite upd_nth_eq by lia. split; auto. apply set_insert_In; auto.
Qed.

Lemma add_inner_ok doms f1 l : infact doms f1 -> forall m, dims m doms ->
  exists m', fold_outcome (fun m f2 => if negb (fst f1 =? fst f2) then table_insert m f1 f2 else Ok m) l m = Ok m' /\
    dims m' doms /\ forall f g, tab m' f g <-> tab m f g \/ (f = f1 /\ In g l /\ fst f1 <> fst g).
Proof.
  intros Hf. induction l as [|f2 l IH]; intros m Hd; cbn [fold_outcome].
  - exists m. splits; auto. intros f g. split; auto. intros [K|(_ & [] & _)]; auto.
  - destruct (Nat.eqb_spec (fst f1) (fst f2)) as [E|E]; cbn [negb bind].
    + destruct (IH m Hd) as (m' & E' & Hd' & H'). exists m'. splits; auto.
      intros f g. rewrite H'. cbn. split; [tauto|]. intros [K|(-> & [->|K] & Hn)]; auto. congruence.
    + destruct (table_insert_ok doms m f1 f2 Hd Hf) as (m1 & E1 & Hd1 & H1). rewrite E1. cbn [bind].
      destruct (IH m1 Hd1) as (m' & E' & Hd' & H'). exists m'. splits; auto.
      intros f g. rewrite H', H1. cbn. split.
      * intros [[K|(-> & ->)]|(-> & K & Hn)]; auto.
      * intros [K|(-> & [<-|K] & Hn)]; auto.
Qed.

Lemma add_group_ok doms group : Forall (infact doms) group -> forall m, dims m doms ->
  exists m', add_group m group = Ok m' /\ dims m' doms /\
    forall f g, tab m' f g <-> tab m f g \/ (fst f <> fst g /\ In f group /\ In g group).
Proof.
  intros Hg. unfold add_group.
  assert (G : forall l, Forall (infact doms) l -> forall m, dims m doms ->
    exists m', fold_outcome (fun m f1 =>
      fold_outcome (fun m f2 => if negb (fst f1 =? fst f2) then table_insert m f1 f2 else Ok m) group m) l m = Ok m' /\
    dims m' doms /\ forall f g, tab m' f g <-> tab m f g \/ (fst f <> fst g /\ In f l /\ In g group)).
  { induction l as [|f1 l IH]; intros Hl m Hd; cbn [fold_outcome].
    - exists m. splits; auto. intros f g. split; auto. intros [K|(_ & [] & _)]; auto.
    - inversion Hl as [|a b H1 H2]; subst.
      destruct (add_inner_ok doms f1 group H1 m Hd) as (m1 & E1 & Hd1 & K1). rewrite E1. cbn [bind].
      destruct (IH H2 m1 Hd1) as (m' & E' & Hd' & H'). exists m'. splits; auto.
      intros f g. rewrite H', K1. cbn. split.
      + intros [[K|(-> & K & Hn)]|(Hn & K & K')]; auto.
      + intros [K|(Hn & [<-|K] & K')]; auto. }
  intros m Hd. apply G; auto.
Qed.

Lemma add_groups_ok doms gs : Forall (Forall (infact doms)) gs -> forall m, dims m doms ->
  exists m', fold_outcome add_group gs m = Ok m' /\ dims m' doms /\
    forall f g, tab m' f g <-> tab m f g \/ declared_mutex gs f g.
Proof.
  induction gs as [|gr gs IH]; intros Hg m Hd; cbn [fold_outcome].
  - exists m. splits; auto. intros f g. split; auto. intros [K|(_ & x & [] & _)]; auto.
  - inversion Hg as [|a b H1 H2]; subst.
    destruct (add_group_ok doms gr H1 m Hd) as (m1 & E1 & Hd1 & K1). rewrite E1. cbn [bind].
    destruct (IH H2 m1 Hd1) as (m' & E' & Hd' & H'). exists m'. splits; auto.
    intros f g. rewrite H', K1. unfold declared_mutex. split.
    + intros [[K|(Hn & K & K')]|(Hn & x & Hx & K & K')]; auto.
      * right. split; auto. exists gr. cbn; auto.
      * right. split; auto. exists x. cbn; auto.
    + intros [K|(Hn & x & [<-|Hx] & K & K')]; auto. right. split; auto. eauto.
Qed.

Definition doms_of (vars : list evar) : list nat := map ev_dom vars.
Lemma fok_infact vars f : fok vars f <-> infact (doms_of vars) f.
Proof.
  unfold fok, infact, doms_of. split.
  - intros (v & E & H). exists (ev_dom v). split; auto. now apply map_nth_error.
  - intros (d & E & H). destruct (nth_error vars (fst f)) as [v|] eqn:Ev.
    + exists v. split; auto. rewrite (map_nth_error _ _ _ Ev) in E. injection E as <-. auto.
    + apply nth_error_None in Ev. rewrite (proj2 (nth_error_None _ _)) in E; [discriminate|].
      rewrite map_length. auto.
Qed.

Lemma wp_groups c vars n : forall m lx l0 L, dims m (doms_of vars) -> done lx l0 L ->
  wp c (read_groups n vars m) lx (fun m' lx' => exists gs, fold_outcome add_group gs m = Ok m' /\
    done lx' l0 (L ++ flat_map mutex_lines gs) /\ Forall (Forall (fok vars)) gs /\ length gs = n).
Proof.
  induction n as [|n IH]; intros m lx l0 L Hd H; cbn [read_groups].
  - apply wp_ret. exists []. cbn. rewrite app_nil_r. auto.
  - apply wp_bind. eapply wp_magic; [exact H|]. intros lx1 H1.
    apply wp_bind. eapply wp_nat0; [exact H1|]. intros k lx2 H2.
    apply wp_bind. eapply wp_eol; [exact H2|]. intros lx3 H3.
    apply wp_bind. eapply wp_imp; [apply (wp_fact_items c vars k _ _ _ H3)|]. intros gr lx4 (H4 & Hg & Hk).
    apply wp_bind. eapply wp_magic; [exact H4|]. intros lx5 H5.
    destruct (add_group_ok (doms_of vars) gr) with (m := m) as (m1 & E1 & Hd1 & _); auto.
    { eapply Forall_impl; [|exact Hg]. intros f. apply fok_infact. }
    apply wp_bind. unfold wp at 1, lift. rewrite E1.
    eapply wp_imp; [apply IH; [exact Hd1|exact H5]|]. intros m' lx' (gs & E & H6 & Hgs & Hn).
    exists (gr :: gs). cbn [fold_outcome flat_map length]. rewrite E1. cbn [bind]. split; [exact E|]. split; [|auto].
    unfold mutex_lines at 1, fact_lines. rewrite Hk.
    repeat (rewrite <- app_assoc in H6; cbn [app] in H6). repeat (cbn [app]; rewrite <- app_assoc). cbn [app]. exact H6.
Qed.
Lemma c_groups vars gs : forall m m' lx L, Forall (Forall (fok vars)) gs -> fold_outcome add_group gs m = Ok m' ->
  todo lx (flat_map mutex_lines gs ++ L) -> runs (read_groups (length gs) vars m) lx m' (fun lx' => todo lx' L).
Proof.
  induction gs as [|gr gs IH]; intros m m' lx L Hg E H; cbn [read_groups length].
  - cbn in E. injection E as <-. now apply runs_ret.
  - inversion Hg as [|a b H1 H2]; subst. cbn [fold_outcome] in E.
    destruct (add_group m gr) as [m1| | |] eqn:E1; cbn [bind] in E; try discriminate.
    cbn [flat_map] in H. unfold mutex_lines at 1, fact_lines in H. repeat (cbn [app] in H; rewrite <- app_assoc in H). cbn [app] in H.
    eapply runs_bind. eapply runs_imp; [apply c_magic; exact H|]. intros lx1 K1.
    eapply runs_bind. eapply runs_imp; [apply c_nat0; exact K1|]. intros lx2 K2.
    eapply runs_bind. eapply runs_imp; [apply c_eol; exact K2|]. intros lx3 K3.
    eapply runs_bind. eapply runs_imp; [apply (c_fact_items vars gr _ _ H1 K3)|]. intros lx4 K4.
    eapply runs_bind. eapply runs_imp; [apply c_magic; exact K4|]. intros lx5 K5.
    eapply runs_bind with (a := m1). unfold lift. rewrite E1. exists lx5; split; [reflexivity|].
    now apply IH.
Qed.

(** *** From the source to the parser's variables *)
Definition vars0 (svs : list svar) : list evar := map (fun v => evar_of v 0) svs.
Definition vars1 (svs : list svar) (init : list nat) : list evar :=
  map (fun vi => evar_of (fst vi) (snd vi)) (combine svs init).

Lemma set_defaults_eq svs : forall init, length init = length svs -> set_defaults (vars0 svs) init = vars1 svs init.
Proof.
  unfold vars0, vars1. induction svs as [|v svs IH]; intros [|x init] H; cbn in *; try discriminate; auto.
  rewrite IH by lia. reflexivity.
Qed.

Lemma fok_vars0 svs f : fok (vars0 svs) f <-> svars_fact_ok svs f.
Proof.
  unfold fok, svars_fact_ok, vars0. split.
  - intros (v & E & H). rewrite nth_error_map in E. destruct (nth_error svs (fst f)) as [sv|]; [|discriminate].
    injection E as <-. exists sv; auto.
  - intros (sv & E & H). exists (evar_of sv 0). split; auto. now apply map_nth_error with (f := fun v => evar_of v 0).
Qed.

Lemma nth_combine {A B} (l : list A) (l' : list B) i x y :
  nth_error l i = Some x -> nth_error l' i = Some y -> nth_error (combine l l') i = Some (x, y).
Proof. revert l' i; induction l; intros [|b l'] [|i]; cbn; try discriminate; auto. intros [= ->] [= ->]; auto. Qed.
Lemma nth_combine_inv {A B} (l : list A) (l' : list B) i x y :
  nth_error (combine l l') i = Some (x, y) -> nth_error l i = Some x /\ nth_error l' i = Some y.
Proof. revert l' i; induction l; intros [|b l'] [|i]; cbn; try discriminate; auto. intros [= -> ->]; auto. Qed.

Section Vars1.
Variable svs : list svar.
Variable init : list nat.
Hypothesis Hlen : length init = length svs.

Lemma nth_vars1 v ev : nth_error (vars1 svs init) v = Some ev <->
  exists sv x, nth_error svs v = Some sv /\ nth_error init v = Some x /\ ev = evar_of sv x.
Proof.
  unfold vars1. rewrite nth_error_map. split.
  - destruct (nth_error (combine svs init) v) as [[sv x]|] eqn:E; [|discriminate]. intros [= <-].
    apply nth_combine_inv in E as (E1 & E2). exists sv, x; auto.
  - intros (sv & x & E1 & E2 & ->). now rewrite (nth_combine _ _ _ _ _ E1 E2).
Qed.

Lemma init_nth v sv : nth_error svs v = Some sv -> exists x, nth_error init v = Some x.
Proof.
  intros E. apply nth_error_Some_lt in E. destruct (nth_error init v) eqn:K; eauto.
  apply nth_error_None in K. lia.
Qed.

Lemma fok_vars1 f : fok (vars1 svs init) f <-> svars_fact_ok svs f.
Proof.
  unfold fok, svars_fact_ok. split.
  - intros (ev & E & H). apply nth_vars1 in E as (sv & x & E1 & E2 & ->). exists sv; auto.
  - intros (sv & E & H). destruct (init_nth _ _ E) as (x & Ex).
    exists (evar_of sv x). split; auto. apply nth_vars1. eauto.
Qed.
Lemma fok_all fs : Forall (fok (vars1 svs init)) fs <-> Forall (svars_fact_ok svs) fs.
Proof. split; intros H; eapply Forall_impl; try exact H; intros f; apply fok_vars1. Qed.

Lemma opt_z_none o : opt_z o = (-1)%Z <-> o = None.
Proof. destruct o; cbn; split; auto; try discriminate. lia. Qed.

Lemma eff_good_ok e : eff_good (vars1 svs init) e <-> seffect_ok svs e.
Proof.
  unfold eff_good, seffect_ok, slayer. rewrite fok_all, fok_vars1. split.
  - intros (H1 & H2 & H3 & ev & E & Hl). splits; auto.
    + intros p Hp. apply fok_vars1; auto.
    + apply nth_vars1 in E as (sv & x & E1 & E2 & ->). rewrite E1. now apply opt_z_none.
  - intros (H1 & H2 & H3 & H4). splits; auto.
    + intros p Hp. apply fok_vars1; auto.
    + destruct H2 as (sv & E & Hp). cbn in E. rewrite E in H4. destruct (init_nth _ _ E) as (x & Ex).
      exists (evar_of sv x). split; [apply nth_vars1; eauto|]. cbn. now rewrite H4.
Qed.

Lemma op_good_ok m o : op_good m (vars1 svs init) o <->
  (Forall (svars_fact_ok svs) (so_prevail o) /\ so_effs o <> [] /\ Forall (seffect_ok svs) (so_effs o) /\
   (m = true -> (0 <= so_cost o)%Z)).
Proof.
  unfold op_good. rewrite fok_all.
  assert (E : Forall (eff_good (vars1 svs init)) (so_effs o) <-> Forall (seffect_ok svs) (so_effs o)).
  { split; intros H; eapply Forall_impl; try exact H; intros e; apply eff_good_ok. }
  rewrite E. tauto.
Qed.

Hypothesis Hinit : Forall2 (fun x v => x < length (sv_facts v)) init svs.

Lemma rule_good_ok r : rule_good (vars1 svs init) r <-> srule_ok svs init r.
Proof.
  unfold rule_good, srule_ok, slayer. rewrite fok_all, !fok_vars1. split.
  - intros (H1 & H2 & H3 & ev & E & Hl & Ep & En & Hlay). apply nth_vars1 in E as (sv & x & E1 & E2 & ->).
    cbn in *. subst x. rewrite E1. splits; auto.
    destruct (sv_layer sv) as [k|]; [|cbn in Hl; congruence]. exists k; split; auto.
    intros v d Hin k' Ek. destruct (nth_error svs v) as [bv|] eqn:Eb; [|discriminate].
    destruct (init_nth _ _ Eb) as (xb & Exb). rewrite Forall_forall in Hlay.
    destruct (Hlay _ Hin (evar_of bv xb)) as (K1 & K2); [apply nth_vars1; eauto|].
    cbn in K1, K2. rewrite Ek in K1, K2. cbn in K1, K2. split; [lia|]. intros -> K. rewrite Exb in K.
    injection K as ->. now apply K2.
  - intros (H1 & H2 & H3 & H4 & k & Ek & Hlay). splits; auto.
    + destruct H2 as (sv & E & _). cbn in E. exists sv. split; auto. cbn.
      destruct (F2_nth _ _ _ _ _ Hinit E) as (x & Ex & Hx). rewrite H3 in Ex. injection Ex as ->. exact Hx.
    + destruct (nth_error svs (sr_var r)) as [sv|] eqn:E1; [|discriminate].
      exists (evar_of sv (sr_pre r)). cbn. rewrite Ek. splits; auto.
      * apply nth_vars1. eauto.
      * cbn. lia.
      * apply Forall_forall. intros [v d] Hin ev Ev. cbn in Ev.
        apply nth_vars1 in Ev as (bv & xb & Eb & Exb & ->). cbn.
        destruct (sv_layer bv) as [k'|] eqn:Ek'; cbn.
        -- destruct (Hlay v d Hin k') as (K1 & K2); [now rewrite Eb|]. split; [lia|].
           intros K ->. apply K2; [lia|]. exact Exb.
        -- split; lia.
Qed.
End Vars1.

Definition root_of (s : source) (init' : list nat) (m : mutex_table) : root_task :=
  {| rt_task := {| t_vars := t_vars (source_task s); t_ops := t_ops (source_task s); t_rules := t_rules (source_task s);
                   t_init := init'; t_goal := s_goal s |};
     rt_mutexes := m; rt_var_names := map sv_name (s_vars s); rt_fact_names := map sv_facts (s_vars s);
     rt_op_names := map so_name (s_ops s) |}.

Lemma to_variable_of v x : to_variable (evar_of v x) = source_var v x.
Proof.
  unfold to_variable, source_var; cbn. destruct (sv_layer v) as [k|]; cbn; auto.
  destruct (Z.eqb_spec (z k) (-1)); [lia|]. now rewrite Nat2Z.id.
Qed.
Lemma to_operator_of m o : to_operator (eop_of m o) = source_op m o.
Proof. unfold to_operator, source_op, eop_of; cbn. destruct m; reflexivity. Qed.
Lemma to_rules_of rs : flat_map to_rules (map erule_of rs) = map source_rule rs.
Proof. induction rs as [|r rs IH]; cbn; auto. now rewrite IH. Qed.

Lemma names_combine {A B C} (g : A -> C) (l : list A) : forall l' : list B, length l' = length l ->
  map (fun p => g (fst p)) (combine l l') = map g l.
Proof. induction l; intros [|b l'] H; cbn in *; try discriminate; auto. f_equal. apply IHl. lia. Qed.

Lemma source_fact_ok s f : length (s_init s) = length (s_vars s) ->
  svars_fact_ok (s_vars s) f -> fact_ok (source_task s) f.
Proof.
  intros Hl (v & E & H). destruct (init_nth _ _ Hl _ _ E) as (x & Ex).
  exists (source_var v x). split; auto. unfold is_var. cbn. unfold source_vars.
  rewrite nth_error_map, (nth_combine _ _ _ _ _ E Ex). reflexivity.
Qed.
Lemma source_var_nth s v xv : is_var (source_task s) v xv -> exists sv x, nth_error (s_vars s) v = Some sv /\
  nth_error (s_init s) v = Some x /\ xv = source_var sv x.
Proof.
  unfold is_var. cbn. unfold source_vars. rewrite nth_error_map.
  destruct (nth_error (combine (s_vars s) (s_init s)) v) as [[sv x]|] eqn:E; [|discriminate].
  intros [= <-]. apply nth_combine_inv in E as (E1 & E2). eauto.
Qed.
Lemma source_layer s v : length (s_init s) = length (s_vars s) -> layer_of (source_task s) v = slayer (s_vars s) v.
Proof.
  intros Hl. unfold layer_of, slayer. cbn. unfold source_vars. rewrite nth_error_map.
  destruct (nth_error (s_vars s) v) as [sv|] eqn:E.
  - destruct (init_nth _ _ Hl _ _ E) as (x & Ex). now rewrite (nth_combine _ _ _ _ _ E Ex).
  - destruct (nth_error (combine (s_vars s) (s_init s)) v) as [[sv x]|] eqn:K; auto.
    apply nth_combine_inv in K as (K & _). congruence.
Qed.

Lemma source_task_ok s : source_ok s -> task_ok (source_task s).
Proof.
  intros (H1 & H2 & H3 & H4 & H5 & H6 & H7 & H8 & H9).
  pose proof (F2_len _ _ _ H4) as Hl.
  assert (HF : forall fs, Forall (svars_fact_ok (s_vars s)) fs -> Forall (fact_ok (source_task s)) fs).
  { intros fs. apply Forall_impl. intros f. now apply source_fact_ok. }
  split; [|split; [|split; [|split]]].
  - cbn. unfold source_vars. clear - H2 H4. revert H2. induction H4 as [|x v init vs Hx _ IH]; intros H2; cbn; [constructor|].
    destruct (H2 v (or_introl eq_refl)) as (K1 & K2). constructor; [|apply IH; intros; apply H2; right; auto].
    split; cbn; [|split; auto]. destruct (sv_facts v); [congruence|cbn; lia].
  - cbn. apply Forall_forall. intros op Hin. apply in_map_iff in Hin as (o & <- & Hin).
    destruct (H8 o Hin) as (K1 & K2 & K3 & K4). split; cbn.
    + apply Forall_app. split; auto. apply Forall_forall. intros f Hf. apply in_flat_map in Hf as (e & He & Hf).
      rewrite Forall_forall in K3. destruct (K3 e He) as (_ & _ & K5 & _).
      unfold source_pre in Hf. destruct (se_pre e) as [p|]; [|destruct Hf]. destruct Hf as [<-|[]].
      apply source_fact_ok; auto.
    + apply Forall_forall. intros e' He. apply in_map_iff in He as (e & <- & He).
      rewrite Forall_forall in K3. destruct (K3 e He) as (L1 & L2 & L3 & L4).
      split; [|split]; cbn; auto using source_fact_ok. now rewrite source_layer.
  - cbn. apply Forall_forall. intros r' Hr. apply in_map_iff in Hr as (r & <- & Hr).
    rewrite Forall_forall in H9. destruct (H9 r Hr) as (K1 & K2 & K3 & K4 & k & Ek & Hlay).
    split; [|split]; cbn; auto using source_fact_ok.
    unfold slayer in Ek. destruct (nth_error (s_vars s) (sr_var r)) as [sv|] eqn:E; [|discriminate].
    exists (source_var sv (sr_pre r)), k. splits; auto.
    + unfold is_var. cbn. unfold source_vars. now rewrite nth_error_map, (nth_combine _ _ _ _ _ E K3).
    + intros v d Hin x' k' Hx' Hk'. apply source_var_nth in Hx' as (bv & xb & Eb & Exb & ->). cbn in Hk'.
      destruct (Hlay v d Hin k') as (M1 & M2); [unfold slayer; now rewrite Eb|].
      split; auto. cbn. intros Ek' ->. apply M2; auto.
  - unfold state_ok. cbn. unfold source_vars. clear - H4.
    induction H4 as [|x v init vs Hx _ IH]; cbn; constructor; auto.
  - cbn. auto.
Qed.

Lemma source_evaluate s : source_ok s -> exists ax init', make_axeval (source_task s) = Ok ax /\
  evaluate ax (s_init s) = Ok init' /\ state_ok (source_task s) init' /\
  stratified_model (source_task s) (s_init s) init'.
Proof.
  intros Hs. pose proof (source_task_ok s Hs) as Ht.
  destruct (evaluate_correct _ Ht) as (ax & Ea & He).
  destruct (He (s_init s)) as (init' & E & K1 & K2 & _).
  - apply Ht.
  - intros _ v xv Hv _. apply source_var_nth in Hv as (sv & x & _ & Ex & ->). exact Ex.
  - eauto 10.
Qed.

(** What the parser returns for a source. *)
Definition parsed (s : source) (rt : root_task) : Prop :=
  exists ax init' m, make_axeval (source_task s) = Ok ax /\ evaluate ax (s_init s) = Ok init' /\
    fold_outcome add_group (s_mutexes s) (map (fun v => repeat [] (ev_dom v)) (vars0 (s_vars s))) = Ok m /\
    rt = root_of s init' m.

Lemma dims0 vars : dims (map (fun v => repeat [] (ev_dom v)) vars) (doms_of vars).
Proof. unfold dims, doms_of. induction vars; cbn; constructor; auto. apply repeat_length. Qed.

Lemma task_record svs init m goals ops rules :
  length init = length svs ->
  {| t_vars := map to_variable (vars1 svs init); t_ops := map to_operator (map (eop_of m) ops);
     t_rules := flat_map to_rules (map erule_of rules); t_init := init; t_goal := goals |} =
  source_task {| s_metric := m; s_vars := svs; s_mutexes := []; s_init := init; s_goal := goals; s_ops := ops; s_rules := rules |}.
Proof.
  intros Hl. unfold source_task, source_vars; cbn. f_equal.
  - unfold vars1. rewrite map_map. apply map_ext. intros [v x]. apply to_variable_of.
  - rewrite map_map. apply map_ext. apply to_operator_of.
  - apply to_rules_of.
Qed.

Lemma values_Forall2 svs init : length init = length svs ->
  (forall j x, nth_error init j = Some x -> svars_fact_ok svs (j, x)) <->
  Forall2 (fun x v => x < length (sv_facts v)) init svs.
Proof.
  intros Hl. split.
  - revert svs Hl. induction init as [|x init IH]; intros [|v svs] Hl H; cbn in Hl; try discriminate; constructor.
    + destruct (H 0 x eq_refl) as (v' & E & Hx). cbn in E. injection E as <-. exact Hx.
    + apply IH; [lia|]. intros j y E. destruct (H (S j) y E) as (v' & E' & Hy). exists v'; auto.
  - intros H j x E. revert j E. induction H as [|y v l l' Hy _ IH]; intros [|j] E; cbn in *; try discriminate.
    + injection E as ->. exists v; auto.
    + destruct (IH ltac:(lia) j E) as (v' & E' & K). exists v'; auto.
Qed.

Theorem wp_task c lx l0 : done lx l0 [] ->
  wp c (read_task c) lx (fun rt _ => exists s, Forall2 line_is l0 (source_lines s) /\ source_ok s /\ parsed s rt).
Proof.
  intros H. unfold read_task, read_and_verify_version, read_metric, read_variables, read_mutexes, read_initial_state, read_actions.
  apply wp_bind, wp_bind. eapply wp_magic; [exact H|]. intros lx1 H1.
  apply wp_bind. eapply wp_nat0; [exact H1|]. intros version lx2 H2.
  apply wp_if. intros Hv. apply negb_false_iff, Nat.eqb_eq in Hv. subst version.
  apply wp_bind. eapply wp_eol; [exact H2|]. intros lx3 H3.
  eapply wp_magic; [exact H3|]. intros lx4 H4.
  apply wp_bind, wp_bind. eapply wp_magic; [exact H4|]. intros lx5 H5.
  apply wp_bind. eapply wp_int0; [exact H5|]. intros mz lx6 H6.
  apply wp_if. intros Hm. apply negb_false_iff, orb_true_iff in Hm. rewrite !Z.eqb_eq in Hm.
  apply wp_bind. eapply wp_eol; [exact H6|]. intros lx7 H7.
  apply wp_bind. eapply wp_magic; [exact H7|]. intros lx8 H8. apply wp_ret.
  set (metric := (mz =? 1)%Z) in *.
  assert (Em : mz = if metric then 1%Z else 0%Z).
  { unfold metric. destruct Hm as [->| ->]; reflexivity. }
  rewrite Em in H8. clear Em Hm H1 H2 H3 H4 H5 H6 H7 H.
  apply wp_bind, wp_bind. eapply wp_nat0; [exact H8|]. intros nv lx9 H9.
  apply wp_if. intros Hnv. apply Nat.ltb_ge in Hnv.
  apply wp_bind. eapply wp_eol; [exact H9|]. intros lx10 H10.
  eapply wp_imp.
  { apply (wp_repeat c read_variable (fun v => evar_of v 0) var_lines var_good); [|exact H10].
    intros; now apply wp_variable. }
  intros vs lx11 (svs & -> & H11 & Gv & Ev). fold (vars0 svs).
  apply wp_bind, wp_bind. eapply wp_nat0; [exact H11|]. intros ng lx12 H12.
  apply wp_bind. eapply wp_eol; [exact H12|]. intros lx13 H13.
  eapply wp_imp; [apply wp_groups; [apply dims0|exact H13]|].
  intros mt lx14 (gs & Emt & H14 & Gg & Eg).
  apply wp_bind, wp_bind. eapply wp_magic; [exact H14|]. intros lx15 H15.
  apply wp_bind. eapply wp_imp; [apply wp_values; exact H15|]. intros init lx16 (H16 & Hl & Hi).
  assert (Hlen : length init = length svs). { rewrite Hl. unfold vars0. now rewrite map_length. }
  cbn [plus] in Hi.
  assert (Hinit : Forall2 (fun x v => x < length (sv_facts v)) init svs).
  { apply values_Forall2; auto. intros j x E. apply fok_vars0. now apply Hi. }
  apply wp_bind. eapply wp_magic; [exact H16|]. intros lx17 H17. apply wp_ret.
  cbn zeta. rewrite (set_defaults_eq svs init Hlen).
  apply wp_bind. eapply wp_imp; [apply wp_goal; exact H17|]. intros goals lx18 (H18 & Gg1 & Gg2 & Gg3).
  apply wp_bind, wp_bind. eapply wp_nat0; [exact H18|]. intros no lx19 H19.
  apply wp_bind. eapply wp_eol; [exact H19|]. intros lx20 H20.
  eapply wp_imp.
  { apply (wp_repeat c (read_operator c metric (vars1 svs init)) (eop_of metric) op_lines (op_good metric (vars1 svs init))); [|exact H20].
    intros; now apply wp_operator. }
  intros ops' lx21 (ops & -> & H21 & Go & Eo).
  apply wp_bind, wp_bind. eapply wp_nat0; [exact H21|]. intros nr lx22 H22.
  apply wp_bind. eapply wp_eol; [exact H22|]. intros lx23 H23.
  eapply wp_imp.
  { apply (wp_repeat c (read_axiom c (vars1 svs init)) erule_of rule_lines (rule_good (vars1 svs init))); [|exact H23].
    intros; now apply wp_rule. }
  intros rules' lx24 (rules & -> & H24 & Gr & Er).
  apply wp_bind. eapply wp_eoi; [exact H24|]. intros lx25 H25.
  rewrite (task_record _ _ _ _ _ _ Hlen).
  set (s0 := {| s_metric := metric; s_vars := svs; s_mutexes := []; s_init := init; s_goal := goals; s_ops := ops; s_rules := rules |}).
  set (s := {| s_metric := metric; s_vars := svs; s_mutexes := gs; s_init := init; s_goal := goals; s_ops := ops; s_rules := rules |}).
  assert (Hs : source_ok s).
  { split; [|split; [|split; [|split; [|split; [|split; [|split; [|split]]]]]]]; cbn.
    - intros ->. cbn in Ev. lia.
    - intros v Hin. rewrite Forall_forall in Gv. now apply Gv.
    - eapply Forall_impl; [|exact Gg]. intros g Hg. eapply Forall_impl; [|exact Hg]. intros f. apply fok_vars0.
    - exact Hinit.
    - exact Gg2.
    - apply (fok_all svs init Hlen). exact Gg1.
    - exact Gg3.
    - intros o Hin. rewrite Forall_forall in Go. apply (op_good_ok svs init Hlen). now apply Go.
    - eapply Forall_impl; [|exact Gr]. intros r. now apply rule_good_ok. }
  destruct (source_evaluate s Hs) as (ax & init' & Ea & Ee & _).
  apply wp_bind. unfold wp at 1, lift. change (source_task s0) with (source_task s). rewrite Ea. cbn [bind].
  change (s_init s) with init in Ee. rewrite Ee.
  apply wp_ret. exists s. split; [|split; [exact Hs|]].
  - unfold source_lines. cbn [s s_metric s_vars s_mutexes s_init s_goal s_ops s_rules].
    rewrite Ev, Eg, Eo, Er.
    repeat (rewrite <- app_assoc in H25; cbn [app] in H25). repeat (cbn [app]; try rewrite <- app_assoc). exact H25.
  - exists ax, init', mt. splits; auto. unfold root_of. cbn. f_equal.
    + unfold vars1. rewrite map_map. apply (names_combine sv_name). exact Hlen.
    + unfold vars1. rewrite map_map. apply (names_combine sv_facts). exact Hlen.
    + rewrite map_map. reflexivity.
Qed.

Theorem c_task c lx s rt : source_ok s -> parsed s rt -> todo lx (source_lines s) ->
  runs (read_task c) lx rt (fun _ => True).
Proof.
  intros Hs (ax & init' & mt & Ea & Ee & Emt & ->) H.
  pose proof Hs as (K1 & K2 & K3 & K4 & K5 & K6 & K7 & K8 & K9).
  pose proof (F2_len _ _ _ K4) as Hlen.
  destruct s as [metric svs gs init goals ops rules]. cbn [s_metric s_vars s_mutexes s_init s_goal s_ops s_rules] in *.
  unfold source_lines in H. cbn [s_metric s_vars s_mutexes s_init s_goal s_ops s_rules] in H.
  repeat (cbn [app] in H; rewrite <- ?app_assoc in H).
  unfold read_task, read_and_verify_version, read_metric, read_variables, read_mutexes, read_initial_state, read_actions.
  eapply runs_bind. eapply runs_bind. eapply runs_imp; [apply c_magic; exact H|]. intros lx1 H1.
  eapply runs_bind. eapply runs_imp; [apply (c_nat0 _ 3); exact H1|]. intros lx2 H2. cbn [Nat.eqb negb].
  eapply runs_bind. eapply runs_imp; [apply c_eol; exact H2|]. intros lx3 H3.
  eapply runs_imp; [apply c_magic; exact H3|]. intros lx4 H4.
  eapply runs_bind with (a := metric). eapply runs_bind. eapply runs_imp; [apply c_magic; exact H4|]. intros lx5 H5.
  eapply runs_bind. eapply runs_imp; [apply c_int0; exact H5|]. intros lx6 H6. cbn beta.
  assert (Em : negb (((if metric then 1 else 0) =? 1) || ((if metric then 1 else 0) =? 0))%Z = false) by (destruct metric; reflexivity).
  rewrite Em.
  eapply runs_bind. eapply runs_imp; [apply c_eol; exact H6|]. intros lx7 H7.
  eapply runs_bind. eapply runs_imp; [apply c_magic; exact H7|]. intros lx8 H8.
  assert (Em' : ((if metric then 1 else 0) =? 1)%Z = metric) by (destruct metric; reflexivity).
  rewrite Em'. apply runs_ret.
  eapply runs_bind with (a := vars0 svs). eapply runs_bind. eapply runs_imp; [apply c_nat0; exact H8|]. intros lx9 H9. cbn beta.
  assert (En : (length svs <? 1) = false) by (apply Nat.ltb_ge; destruct svs; [congruence|cbn; lia]).
  rewrite En.
  eapply runs_bind. eapply runs_imp; [apply c_eol; exact H9|]. intros lx10 H10.
  eapply runs_imp.
  { apply (c_repeat read_variable (fun v => evar_of v 0) var_lines var_good c_variable); [|exact H10].
    apply Forall_forall. intros v Hv. now apply K2. }
  intros lx11 H11.
  eapply runs_bind with (a := mt). eapply runs_bind. eapply runs_imp; [apply c_nat0; exact H11|]. intros lx12 H12.
  eapply runs_bind. eapply runs_imp; [apply c_eol; exact H12|]. intros lx13 H13.
  eapply runs_imp.
  { eapply c_groups; [|exact Emt|exact H13]. eapply Forall_impl; [|exact K3]. intros g Hg.
    eapply Forall_impl; [|exact Hg]. intros f. apply fok_vars0. }
  intros lx14 H14.
  eapply runs_bind with (a := init). eapply runs_bind. eapply runs_imp; [apply c_magic; exact H14|]. intros lx15 H15.
  assert (El : length (vars0 svs) = length init) by (unfold vars0; rewrite map_length; auto).
  rewrite El. eapply runs_bind. eapply runs_imp; [apply c_values; [|exact H15]|].
  { intros j x Ej. apply fok_vars0. revert j x Ej. apply values_Forall2; auto. }
  intros lx16 H16.
  eapply runs_bind. eapply runs_imp; [apply c_magic; exact H16|]. intros lx17 H17. apply runs_ret.
  cbn zeta. rewrite (set_defaults_eq svs init Hlen).
  eapply runs_bind. eapply runs_imp; [apply c_goal; [| | |exact H17]; auto|].
  { now apply fok_all. }
  intros lx18 H18.
  eapply runs_bind with (a := map (eop_of metric) ops). eapply runs_bind. eapply runs_imp; [apply c_nat0; exact H18|]. intros lx19 H19.
  eapply runs_bind. eapply runs_imp; [apply c_eol; exact H19|]. intros lx20 H20.
  eapply runs_imp.
  { apply (c_repeat (read_operator c metric (vars1 svs init)) (eop_of metric) op_lines (op_good metric (vars1 svs init))).
    - intros; now apply c_operator.
    - apply Forall_forall. intros o Ho. apply op_good_ok; auto.
    - exact H20. }
  intros lx21 H21.
  eapply runs_bind with (a := map erule_of rules). eapply runs_bind. eapply runs_imp; [apply c_nat0; exact H21|]. intros lx22 H22.
  eapply runs_bind. eapply runs_imp; [apply c_eol; exact H22|]. intros lx23 H23.
  eapply runs_imp.
  { rewrite <- (app_nil_r (flat_map rule_lines rules)) in H23.
    apply (c_repeat (read_axiom c (vars1 svs init)) erule_of rule_lines (rule_good (vars1 svs init))) with (L := []).
    - intros; now apply c_rule.
    - eapply Forall_impl; [|exact K9]. intros r. now apply rule_good_ok.
    - exact H23. }
  intros lx24 H24.
  eapply runs_bind. eapply runs_imp; [apply c_eoi; exact H24|]. intros lx25 _.
  rewrite (task_record _ _ _ _ _ _ Hlen).
  eapply runs_bind with (a := init'). exists lx25. split.
  { unfold lift.
    change (source_task {| s_metric := metric; s_vars := svs; s_mutexes := []; s_init := init; s_goal := goals; s_ops := ops; s_rules := rules |})
      with (source_task {| s_metric := metric; s_vars := svs; s_mutexes := gs; s_init := init; s_goal := goals; s_ops := ops; s_rules := rules |}).
    rewrite Ea. cbn [bind]. rewrite Ee. reflexivity. }
  exists lx25. split; auto. unfold ret. f_equal. f_equal. unfold root_of. cbn. f_equal.
  - unfold vars1. rewrite map_map. apply (names_combine sv_name). exact Hlen.
  - unfold vars1. rewrite map_map. apply (names_combine sv_facts). exact Hlen.
  - rewrite map_map. reflexivity.
Qed.

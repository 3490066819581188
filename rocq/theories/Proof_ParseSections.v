(** Proofs: the sections of a task file. *)
From Coq Require Import Ascii String List.
From Verif Require Import Outcome Spec_Task Spec_Format Model_Axioms Model_Parser Proof_Lexer Proof_Parser.
Local Open Scope nat_scope.
Import ListNotations.

Local Notation z := Z.of_nat.

(** Facts *)
Definition fok (vars : list evar) (f : fact) : Prop :=
  exists v, nth_error vars (fst f) = Some v /\ snd f < ev_dom v.

Lemma wp_check c vars var value lx (Q : unit -> lexer -> Prop) :
  ((0 <= value)%Z -> fok vars (var, Z.to_nat value) -> Q tt lx) -> wp c (check_fact vars var value) lx Q.
Proof.
  intros H. unfold check_fact. destruct (nth_error vars var) as [v|] eqn:E; [|apply wp_err].
  apply wp_if. intros K. apply orb_false_iff in K as (K1 & K2). apply Z.ltb_ge in K1. apply Z.leb_gt in K2.
  apply wp_ret, H; auto. exists v. cbn. split; auto. lia.
Qed.
Lemma c_check vars var n lx (Q : lexer -> Prop) : fok vars (var, n) -> Q lx -> runs (check_fact vars var (z n)) lx tt Q.
Proof.
  intros (v & E & Hv) H. cbn in E, Hv. unfold check_fact. rewrite E.
  destruct (Z.ltb_spec (z n) 0); [lia|]. destruct (Z.leb_spec (z (ev_dom v)) (z n)); [lia|]. now apply runs_ret.
Qed.

Definition fact_item (vars : list evar) : P fact :=
  let! var := read_nat in
  let! value := read_nat in
  let! _ := check_fact vars var (z value) in
  let! _ := confirm_end_of_line in
  ret (var, value).

Lemma wp_fact_item c vars lx l0 L : done lx l0 L ->
  wp c (fact_item vars) lx (fun a lx' => exists f : fact, a = f /\ done lx' l0 (L ++ [fact_line f]) /\ fok vars f).
Proof.
  intros H. unfold fact_item.
  apply wp_bind. eapply wp_nat0; [exact H|]. intros var lx1 H1.
  apply wp_bind. eapply wp_nat; [exact H1|]. intros value lx2 H2.
  apply wp_bind. apply wp_check. intros _ Hf. rewrite Nat2Z.id in Hf.
  apply wp_bind. eapply wp_eol; [exact H2|]. intros lx3 H3.
  apply wp_ret. exists (var, value). auto.
Qed.
Lemma c_fact_item vars lx f L : fok vars f -> todo lx ([fact_line f] ++ L) ->
  runs (fact_item vars) lx f (fun lx' => todo lx' L).
Proof.
  destruct f as [var value]. intros Hf H. unfold fact_item.
  eapply runs_bind. eapply runs_imp; [apply c_nat0; exact H|]. intros lx1 H1. cbn in H1.
  eapply runs_bind. eapply runs_imp; [apply c_nat; exact H1|]. intros lx2 H2.
  eapply runs_bind. apply c_check; [exact Hf|].
  eapply runs_bind. eapply runs_imp; [apply c_eol; exact H2|]. intros lx3 H3. now apply runs_ret.
Qed.

Lemma flat_map_single {A B} (g : A -> B) l : flat_map (fun x => [g x]) l = map g l.
Proof. induction l; cbn; congruence. Qed.

Lemma wp_fact_items c vars n lx l0 L : done lx l0 L ->
  wp c (repeat_p n (fact_item vars)) lx (fun fs lx' => done lx' l0 (L ++ map fact_line fs) /\ Forall (fok vars) fs /\ length fs = n).
Proof.
  intros H. eapply wp_imp.
  - apply (wp_repeat c (fact_item vars) (fun f : fact => f) (fun f => [fact_line f]) (fok vars)); [|exact H].
    intros; now apply wp_fact_item.
  - intros fs lx' (xs & -> & H1 & H2 & H3). rewrite map_id, flat_map_single in *. auto.
Qed.
Lemma c_fact_items vars fs lx L : Forall (fok vars) fs -> todo lx (map fact_line fs ++ L) ->
  runs (repeat_p (length fs) (fact_item vars)) lx fs (fun lx' => todo lx' L).
Proof.
  intros Hf H. rewrite <- flat_map_single in H.
  pose proof (c_repeat (fact_item vars) (fun f : fact => f) _ (fok vars) (c_fact_item vars) fs lx L Hf H) as K.
  now rewrite map_id in K.
Qed.

Lemma wp_facts c vars lx l0 L : done lx l0 L ->
  wp c (read_facts false vars) lx (fun fs lx' => done lx' l0 (L ++ fact_lines fs) /\ Forall (fok vars) fs).
Proof.
  intros H. unfold read_facts. apply wp_bind. eapply wp_nat0; [exact H|]. intros n lx1 H1.
  apply wp_bind. eapply wp_eol; [exact H1|]. intros lx2 H2.
  eapply wp_imp; [apply (wp_fact_items c vars n _ _ _ H2)|].
  intros fs lx' (H3 & H4 & <-). split; auto. unfold fact_lines. now rewrite <- app_assoc in H3.
Qed.
Lemma c_facts vars fs lx L : Forall (fok vars) fs -> todo lx (fact_lines fs ++ L) ->
  runs (read_facts false vars) lx fs (fun lx' => todo lx' L).
Proof.
  intros Hf H. unfold read_facts.
  eapply runs_bind. eapply runs_imp; [apply c_nat0; exact H|]. intros lx1 H1.
  eapply runs_bind. eapply runs_imp; [apply c_eol; exact H1|]. intros lx2 H2.
  now apply c_fact_items.
Qed.

Definition fact_ints (fs : list fact) : list Z := flat_map (fun f : fact => [z (fst f); z (snd f)]) fs.

Lemma wp_facts_line c vars lx l0 L : done lx l0 L ->
  wp c (read_facts true vars) lx (fun fs lx' => mid lx' l0 L (z (length fs) :: fact_ints fs) /\ Forall (fok vars) fs).
Proof.
  intros H. unfold read_facts. apply wp_bind. eapply wp_nat0; [exact H|]. intros n lx1 H1.
  apply wp_bind. apply wp_ret.
  assert (G : forall n lx zs, mid lx l0 L zs ->
    wp c (repeat_p n
      (let! var := read_nat in let! value := read_nat in let! _ := check_fact vars var (z value) in
       let! _ := ret tt in ret (var, value))) lx
      (fun fs lx' => mid lx' l0 L (zs ++ fact_ints fs) /\ Forall (fok vars) fs /\ length fs = n)).
  { clear. induction n as [|n IH]; intros lx zs H; cbn [repeat_p].
    - apply wp_ret. cbn. rewrite app_nil_r. auto.
    - apply wp_bind, wp_bind. eapply wp_nat; [exact H|]. intros var lx1 H1.
      apply wp_bind. eapply wp_nat; [exact H1|]. intros value lx2 H2.
      apply wp_bind. apply wp_check. intros _ Hf. rewrite Nat2Z.id in Hf.
      apply wp_bind, wp_ret, wp_ret. apply wp_bind. eapply wp_imp; [apply IH; exact H2|].
      intros fs lx' (H3 & H4 & <-). apply wp_ret. cbn [fact_ints flat_map fst snd length].
      rewrite <- !app_assoc in H3. cbn in H3. auto. }
  eapply wp_imp; [apply G; exact H1|]. intros fs lx' (H2 & H3 & <-). auto.
Qed.
Lemma c_facts_line vars fs zs lx L : Forall (fok vars) fs ->
  todo lx (Row (z (length fs) :: fact_ints fs ++ zs) :: L) ->
  runs (read_facts true vars) lx fs (fun lx' => row lx' zs L).
Proof.
  intros Hf H. unfold read_facts.
  eapply runs_bind. eapply runs_imp; [apply c_nat0; exact H|]. intros lx1 H1.
  eapply runs_bind. apply runs_ret. clear H lx. revert lx1 H1 Hf.
  induction fs as [|[var value] fs IH]; intros lx H Hf; cbn [repeat_p length].
  - apply runs_ret. exact H.
  - inversion Hf as [|f1 l1 H1 H2]; subst. cbn in H.
    eapply runs_bind. eapply runs_bind. eapply runs_imp; [apply c_nat; exact H|]. intros lx1 K1.
    eapply runs_bind. eapply runs_imp; [apply c_nat; exact K1|]. intros lx2 K2.
    eapply runs_bind. apply c_check; [exact H1|]. eapply runs_bind. apply runs_ret. apply runs_ret.
    eapply runs_bind. eapply runs_imp; [apply IH; eauto|]. intros lx3 K3. now apply runs_ret.
Qed.

(** Variables *)
Definition evar_of (v : svar) (d : nat) : evar :=
  {| ev_dom := length (sv_facts v); ev_name := sv_name v; ev_facts := sv_facts v;
     ev_layer := opt_z (sv_layer v); ev_default := d |}.
Definition var_good (v : svar) : Prop :=
  sv_facts v <> [] /\ (sv_layer v <> None -> length (sv_facts v) = 2).

Lemma wp_variable c lx l0 L : done lx l0 L ->
  wp c read_variable lx (fun a lx' => exists v, a = evar_of v 0 /\ done lx' l0 (L ++ var_lines v) /\ var_good v).
Proof.
  intros H. unfold read_variable.
  apply wp_bind. eapply wp_magic; [exact H|]. intros lx1 H1.
  apply wp_bind. eapply wp_line; [exact H1|]. intros name lx2 H2.
  apply wp_bind. eapply wp_int0; [exact H2|]. intros layer lx3 H3.
  apply wp_if. intros Hlay. apply Z.ltb_ge in Hlay.
  apply wp_bind. eapply wp_eol; [exact H3|]. intros lx4 H4.
  apply wp_bind. eapply wp_nat0; [exact H4|]. intros dom lx5 H5.
  apply wp_if. intros Hdom. apply Nat.ltb_ge in Hdom. apply wp_if. intros Hder.
  apply wp_bind. eapply wp_eol; [exact H5|]. intros lx6 H6.
  apply wp_bind. eapply wp_imp.
  { apply (wp_repeat c read_line (fun s : text => s) (fun s => [Raw s]) (fun _ => True)); [|exact H6].
    intros lxa l l1 K. eapply wp_line; [exact K|]. eauto. }
  intros names lx7 (xs & -> & H7 & _ & Hn). rewrite map_id, flat_map_single in *.
  apply wp_bind. eapply wp_magic; [exact H7|]. intros lx8 H8.
  apply wp_ret.
  exists {| sv_name := name; sv_layer := if (layer =? -1)%Z then None else Some (Z.to_nat layer); sv_facts := xs |}.
  assert (El : opt_z (if (layer =? -1)%Z then None else Some (Z.to_nat layer)) = layer).
  { destruct (Z.eqb_spec layer (-1)); cbn; auto. rewrite Z2Nat.id; lia. }
  split; [|split].
  - unfold evar_of; cbn. now rewrite Hn, El.
  - unfold var_lines. cbn [sv_name sv_layer sv_facts]. rewrite El, Hn.
    rewrite <- !app_assoc in H8. cbn [app] in *. exact H8.
  - split; cbn.
    + intros ->. cbn in Hn. lia.
    + intros K. destruct (Z.eqb_spec layer (-1)); [congruence|].
      destruct (Z.leb_spec 0 layer); [|lia]. cbn in Hder. apply negb_false_iff, Nat.eqb_eq in Hder. lia.
Qed.
Lemma c_variable lx v L : var_good v -> todo lx (var_lines v ++ L) ->
  runs read_variable lx (evar_of v 0) (fun lx' => todo lx' L).
Proof.
  intros (G1 & G2) H. unfold read_variable, var_lines in *. rewrite <- !app_assoc in H. cbn [app] in H.
  eapply runs_bind. eapply runs_imp; [apply c_magic; exact H|]. intros lx1 H1.
  eapply runs_bind. eapply runs_imp; [apply c_line; exact H1|]. intros lx2 H2.
  eapply runs_bind. eapply runs_imp; [apply c_int0; exact H2|]. intros lx3 H3.
  assert (El : (opt_z (sv_layer v) <? -1)%Z = false).
  { apply Z.ltb_ge. destruct (sv_layer v); cbn; lia. }
  rewrite El.
  eapply runs_bind. eapply runs_imp; [apply c_eol; exact H3|]. intros lx4 H4.
  eapply runs_bind. eapply runs_imp; [apply c_nat0; exact H4|]. intros lx5 H5.
  assert (Ed : (length (sv_facts v) <? 1) = false).
  { apply Nat.ltb_ge. destruct (sv_facts v); [congruence|cbn; lia]. }
  rewrite Ed.
  assert (Eb : ((0 <=? opt_z (sv_layer v))%Z && negb (length (sv_facts v) =? 2)) = false).
  { destruct (sv_layer v) as [k|]; [|reflexivity]. rewrite G2 by discriminate. apply andb_false_r. }
  rewrite Eb.
  eapply runs_bind. eapply runs_imp; [apply c_eol; exact H5|]. intros lx6 H6.
  eapply runs_bind.
  { rewrite <- (flat_map_single Raw) in H6.
    pose proof (c_repeat read_line (fun s : text => s) (fun s => [Raw s]) (fun _ => True)) as K.
    specialize (K ltac:(intros; now apply c_line) (sv_facts v) lx6 _ ltac:(apply Forall_forall; auto) H6).
    rewrite map_id in K. eapply runs_imp; [exact K|]. intros lx7 H7.
    eapply runs_bind. eapply runs_imp; [apply c_magic; exact H7|]. intros lx8 H8.
    apply runs_ret. exact H8. }
Qed.

(** Effects and operators *)
Definition eff_good (vars : list evar) (e : seffect) : Prop :=
  Forall (fok vars) (se_cond e) /\ fok vars (se_var e, se_post e) /\
  (forall p, se_pre e = Some p -> fok vars (se_var e, p)) /\
  exists v, nth_error vars (se_var e) = Some v /\ ev_layer v = (-1)%Z.
Definition add_effs (op : eop) (es : list seffect) : eop :=
  {| eo_pre := eo_pre op ++ flat_map source_pre es; eo_effs := eo_effs op ++ map source_effect es;
     eo_cost := eo_cost op; eo_name := eo_name op |}.

Lemma add_effs_cons op e es : add_effs (add_effs op [e]) es = add_effs op (e :: es).
Proof. unfold add_effs; cbn. rewrite app_nil_r, <- !app_assoc. reflexivity. Qed.
Lemma add_effs_nil op : add_effs op [] = op.
Proof. unfold add_effs; cbn. rewrite !app_nil_r. now destruct op. Qed.

Lemma wp_at c vars var lx (Q : evar -> lexer -> Prop) :
  (forall v, nth_error vars var = Some v -> Q v lx) -> wp c (variables_at c vars var) lx Q.
Proof.
  intros H. unfold variables_at. destruct (nth_error vars var) as [v|]; [now apply wp_ret, H|].
  destruct c; [apply wp_err|reflexivity].
Qed.
Lemma c_at c vars var v lx (Q : lexer -> Prop) : nth_error vars var = Some v -> Q lx ->
  runs (variables_at c vars var) lx v Q.
Proof. intros E H. unfold variables_at. rewrite E. now apply runs_ret. Qed.

Lemma wp_effect c vars op lx l0 L : done lx l0 L ->
  wp c (read_conditional_effect c vars op) lx (fun op' lx' => exists e, op' = add_effs op [e] /\
    done lx' l0 (L ++ [effect_line e]) /\ eff_good vars e).
Proof.
  intros H. unfold read_conditional_effect.
  apply wp_bind. eapply wp_imp; [apply wp_facts_line; exact H|]. intros conds lx1 (H1 & Hc).
  apply wp_bind. eapply wp_nat; [exact H1|]. intros var lx2 H2.
  apply wp_bind. apply wp_at. intros v Ev. apply wp_if. intros Hl. apply negb_false_iff, Z.eqb_eq in Hl.
  apply wp_bind. eapply wp_int; [exact H2|]. intros vp lx3 H3.
  apply wp_if. intros Hp. apply Z.ltb_ge in Hp.
  set (pre := if (vp =? -1)%Z then None else Some (Z.to_nat vp)).
  assert (Ep : opt_z pre = vp).
  { unfold pre. destruct (Z.eqb_spec vp (-1)); cbn; auto. rewrite Z2Nat.id; lia. }
  assert (W : forall K : Prop, ((forall p, pre = Some p -> fok vars (var, p)) -> K) ->
     forall (Q : list fact -> lexer -> Prop), (K -> Q (eo_pre op ++ match pre with Some p => [(var, p)] | None => [] end) lx3) ->
     wp c (if negb (vp =? -1)%Z
              then let! _ := check_fact vars var vp in ret (eo_pre op ++ [(var, Z.to_nat vp)])
              else ret (eo_pre op)) lx3 Q).
  { intros K HK Q HQ. unfold pre in *. destruct (Z.eqb_spec vp (-1)); cbn [negb].
    - apply wp_ret. rewrite app_nil_r in HQ. apply HQ, HK. discriminate.
    - apply wp_bind. apply wp_check. intros _ Hf. apply wp_ret. apply HQ, HK. intros p [= <-]. exact Hf. }
  apply wp_bind. apply (W (forall p, pre = Some p -> fok vars (var, p))); auto. intros Hpre.
  apply wp_bind. eapply wp_nat; [exact H3|]. intros post lx4 H4.
  apply wp_bind. apply wp_check. intros _ Hf. rewrite Nat2Z.id in Hf.
  apply wp_bind. eapply wp_eol; [exact H4|]. intros lx5 H5.
  apply wp_ret. exists {| se_cond := conds; se_var := var; se_pre := pre; se_post := post |}.
  split; [|split].
  - unfold add_effs, source_pre, source_effect. cbn. now rewrite app_nil_r.
  - unfold effect_line. cbn [se_cond se_var se_pre se_post]. rewrite Ep.
    cbn [app] in H5. rewrite <- !app_assoc in H5. exact H5.
  - split; [exact Hc|]. split; [exact Hf|]. split; [exact Hpre|]. exists v; auto.
Qed.
Lemma c_effect c vars op e lx L : eff_good vars e -> todo lx (effect_line e :: L) ->
  runs (read_conditional_effect c vars op) lx (add_effs op [e]) (fun lx' => todo lx' L).
Proof.
  intros (G1 & G2 & G3 & v & Ev & Hl) H. unfold read_conditional_effect.
  eapply runs_bind. eapply runs_imp; [apply c_facts_line; [exact G1|exact H]|]. intros lx1 H1.
  eapply runs_bind. eapply runs_imp; [apply c_nat; exact H1|]. intros lx2 H2.
  eapply runs_bind. eapply c_at; [exact Ev|]. cbn beta. rewrite Hl. cbn [Z.eqb negb Pos.eqb].
  eapply runs_bind. eapply runs_imp; [apply c_int; exact H2|]. intros lx3 H3.
  assert (Ep : (opt_z (se_pre e) <? -1)%Z = false).
  { apply Z.ltb_ge. destruct (se_pre e); cbn; lia. }
  rewrite Ep.
  eapply runs_bind with (a := eo_pre op ++ source_pre e).
  assert (W : forall Q : lexer -> Prop, Q lx3 -> runs (if negb (opt_z (se_pre e) =? -1)%Z
              then let! _ := check_fact vars (se_var e) (opt_z (se_pre e)) in
                   ret (eo_pre op ++ [(se_var e, Z.to_nat (opt_z (se_pre e)))])
              else ret (eo_pre op)) lx3 (eo_pre op ++ source_pre e) Q).
  { intros Q HQ. unfold source_pre. destruct (se_pre e) as [p|]; cbn [opt_z].
    - destruct (Z.eqb_spec (z p) (-1)); [lia|]. cbn [negb].
      eapply runs_bind. apply c_check; [apply G3; auto|]. rewrite Nat2Z.id. now apply runs_ret.
    - cbn. rewrite app_nil_r. now apply runs_ret. }
  apply W.
  eapply runs_bind. eapply runs_imp; [apply c_nat; exact H3|]. intros lx4 H4.
  eapply runs_bind. apply c_check; [exact G2|].
  eapply runs_bind. eapply runs_imp; [apply c_eol; exact H4|]. intros lx5 H5.
  assert (E : add_effs op [e] =
    {| eo_pre := eo_pre op ++ source_pre e;
       eo_effs := eo_effs op ++ [{| eff_cond := se_cond e; eff_fact := (se_var e, se_post e) |}];
       eo_cost := eo_cost op; eo_name := eo_name op |}).
  { unfold add_effs. cbn. now rewrite app_nil_r. }
  rewrite E. now apply runs_ret.
Qed.

Lemma wp_effects c vars n : forall op lx l0 L, done lx l0 L ->
  wp c (read_effects c n vars op) lx (fun op' lx' => exists es, op' = add_effs op es /\
    done lx' l0 (L ++ map effect_line es) /\ Forall (eff_good vars) es /\ length es = n).
Proof.
  induction n as [|n IH]; intros op lx l0 L H; cbn [read_effects].
  - apply wp_ret. exists []. rewrite add_effs_nil. cbn. rewrite app_nil_r. auto.
  - apply wp_bind. eapply wp_imp; [apply wp_effect; exact H|]. intros op1 lx1 (e & -> & H1 & He).
    eapply wp_imp; [apply IH; exact H1|]. intros op2 lx2 (es & -> & H2 & Hes & <-).
    exists (e :: es). rewrite add_effs_cons. cbn [map length]. rewrite <- app_assoc in H2. splits; auto.
Qed.
Lemma c_effects c vars es : forall op lx L, Forall (eff_good vars) es -> todo lx (map effect_line es ++ L) ->
  runs (read_effects c (length es) vars op) lx (add_effs op es) (fun lx' => todo lx' L).
Proof.
  induction es as [|e es IH]; intros op lx L Hg H; cbn [read_effects length].
  - rewrite add_effs_nil. now apply runs_ret.
  - inversion Hg as [|e1 l1 H1 H2]; subst. rewrite <- add_effs_cons.
    eapply runs_bind. eapply runs_imp; [apply c_effect; [exact H1|exact H]|]. intros lx1 K. now apply IH.
Qed.

Definition eop_of (m : bool) (o : sop) : eop :=
  {| eo_pre := so_prevail o ++ flat_map source_pre (so_effs o); eo_effs := map source_effect (so_effs o);
     eo_cost := if m then so_cost o else 1%Z; eo_name := so_name o |}.
Definition op_good (m : bool) (vars : list evar) (o : sop) : Prop :=
  Forall (fok vars) (so_prevail o) /\ so_effs o <> [] /\ Forall (eff_good vars) (so_effs o) /\
  (m = true -> (0 <= so_cost o)%Z).

Lemma wp_operator c m vars lx l0 L : done lx l0 L ->
  wp c (read_operator c m vars) lx (fun a lx' => exists o, a = eop_of m o /\ done lx' l0 (L ++ op_lines o) /\ op_good m vars o).
Proof.
  intros H. unfold read_operator.
  apply wp_bind. eapply wp_magic; [exact H|]. intros lx1 H1.
  apply wp_bind. eapply wp_line; [exact H1|]. intros name lx2 H2.
  apply wp_bind. eapply wp_imp; [apply wp_facts; exact H2|]. intros pre lx3 (H3 & Hpre).
  apply wp_bind. eapply wp_nat0; [exact H3|]. intros n lx4 H4.
  apply wp_if. intros Hn. apply Nat.ltb_ge in Hn.
  apply wp_bind. eapply wp_eol; [exact H4|]. intros lx5 H5.
  apply wp_bind. eapply wp_imp; [apply wp_effects; exact H5|]. intros op lx6 (es & -> & H6 & Hes & En).
  apply wp_bind. eapply wp_int0; [exact H6|]. intros cost lx7 H7.
  apply wp_if. intros Hc. apply Z.ltb_ge in Hc.
  apply wp_bind. eapply wp_eol; [exact H7|]. intros lx8 H8.
  apply wp_bind. eapply wp_magic; [exact H8|]. intros lx9 H9.
  apply wp_ret. exists {| so_name := name; so_prevail := pre; so_effs := es; so_cost := cost |}.
  split; [|split].
  - reflexivity.
  - unfold op_lines, fact_lines in *. cbn [so_name so_prevail so_effs so_cost]. rewrite En.
    repeat (rewrite <- app_assoc in H9; cbn [app] in H9). repeat (rewrite <- app_assoc; cbn [app]).
    exact H9.
  - split; [exact Hpre|]. split; [|split; [exact Hes|]].
    + cbn. intros ->. cbn in En. lia.
    + cbn. intros ->. exact Hc.
Qed.
Lemma c_operator c m vars o lx L : op_good m vars o -> todo lx (op_lines o ++ L) ->
  runs (read_operator c m vars) lx (eop_of m o) (fun lx' => todo lx' L).
Proof.
  intros (G1 & G2 & G3 & G4) H. unfold read_operator, op_lines in *.
  repeat (rewrite <- app_assoc in H; cbn [app] in H).
  eapply runs_bind. eapply runs_imp; [apply c_magic; exact H|]. intros lx1 H1.
  eapply runs_bind. eapply runs_imp; [apply c_line; exact H1|]. intros lx2 H2.
  eapply runs_bind. eapply runs_imp; [apply c_facts; [exact G1|exact H2]|]. intros lx3 H3.
  eapply runs_bind. eapply runs_imp; [apply c_nat0; exact H3|]. intros lx4 H4.
  assert (En : (length (so_effs o) <? 1) = false).
  { apply Nat.ltb_ge. destruct (so_effs o); [congruence|cbn; lia]. }
  rewrite En.
  eapply runs_bind. eapply runs_imp; [apply c_eol; exact H4|]. intros lx5 H5.
  eapply runs_bind. eapply runs_imp; [apply c_effects; [exact G3|exact H5]|]. intros lx6 H6.
  eapply runs_bind. eapply runs_imp; [apply c_int0; exact H6|]. intros lx7 H7.
  assert (Ec : ((if m then so_cost o else 1) <? 0)%Z = false).
  { apply Z.ltb_ge. destruct m; auto. lia. }
  cbn zeta. rewrite Ec.
  eapply runs_bind. eapply runs_imp; [apply c_eol; exact H7|]. intros lx8 H8.
  eapply runs_bind. eapply runs_imp; [apply c_magic; exact H8|]. intros lx9 H9.
  apply runs_ret. exact H9.
Qed.

(** Rules *)
Definition layered (vars : list evar) (head : Z) (f : fact) : Prop :=
  forall v, nth_error vars (fst f) = Some v -> (ev_layer v <= head)%Z /\ (ev_layer v = head -> snd f <> ev_default v).
Lemma wp_layering c vars head conds lx (Q : unit -> lexer -> Prop) : Forall (fok vars) conds ->
  (Forall (layered vars head) conds -> Q tt lx) -> wp c (check_layering_condition vars head conds) lx Q.
Proof.
  induction conds as [|[var value] r IH]; intros Hf HQ; cbn [check_layering_condition].
  - now apply wp_ret, HQ.
  - inversion Hf as [|f1 l1 (v & Ev & Hv) H2]; subst. cbn in Ev. rewrite Ev.
    apply wp_if. intros K1. apply Z.ltb_ge in K1. apply wp_if. intros K2.
    apply IH; auto. intros K3. apply HQ. constructor; auto.
    intros v' E'. cbn in E'. rewrite Ev in E'. injection E' as <-. split; [lia|].
    intros E. rewrite E, Z.eqb_refl in K2. cbn in K2. apply Nat.eqb_neq in K2. exact K2.
Qed.
Lemma c_layering vars head conds lx (Q : lexer -> Prop) : Forall (fok vars) conds ->
  Forall (layered vars head) conds -> Q lx -> runs (check_layering_condition vars head conds) lx tt Q.
Proof.
  induction conds as [|[var value] r IH]; intros Hf Hl HQ; cbn [check_layering_condition].
  - now apply runs_ret.
  - inversion Hf as [|f1 l1 (v & Ev & Hv) H2]; subst. inversion Hl as [|f1 l1 H3 H4]; subst.
    cbn in Ev. rewrite Ev. destruct (H3 v Ev) as (K1 & K2).
    destruct (Z.ltb_spec head (ev_layer v)); [lia|].
    destruct (Z.eqb_spec (ev_layer v) head) as [E|]; cbn [andb].
    + specialize (K2 E). cbn in K2. apply Nat.eqb_neq in K2. rewrite K2. auto.
    + auto.
Qed.

Definition erule_of (r : srule) : eop :=
  {| eo_pre := [(sr_var r, sr_pre r)]; eo_effs := [{| eff_cond := sr_body r; eff_fact := (sr_var r, sr_post r) |}];
     eo_cost := 0; eo_name := str "<axiom>" |}.
Definition rule_good (vars : list evar) (r : srule) : Prop :=
  Forall (fok vars) (sr_body r) /\ fok vars (sr_var r, sr_post r) /\ fok vars (sr_var r, sr_pre r) /\
  exists v, nth_error vars (sr_var r) = Some v /\ ev_layer v <> (-1)%Z /\ sr_pre r = ev_default v /\
    sr_post r <> ev_default v /\ Forall (layered vars (ev_layer v)) (sr_body r).

Lemma wp_rule c vars lx l0 L : done lx l0 L ->
  wp c (read_axiom c vars) lx (fun a lx' => exists r, a = erule_of r /\ done lx' l0 (L ++ rule_lines r) /\ rule_good vars r).
Proof.
  intros H. unfold read_axiom, read_pre_post_axiom.
  apply wp_bind. eapply wp_magic; [exact H|]. intros lx1 H1.
  apply wp_bind, wp_bind. eapply wp_imp; [apply wp_facts; exact H1|]. intros conds lx2 (H2 & Hc).
  apply wp_bind. eapply wp_nat0; [exact H2|]. intros var lx3 H3.
  apply wp_bind. apply wp_at. intros v Ev. apply wp_if. intros Hl. apply Z.eqb_neq in Hl.
  apply wp_bind. eapply wp_int; [exact H3|]. intros pre lx4 H4.
  apply wp_if. intros Hp. apply Z.eqb_neq in Hp.
  apply wp_bind. apply wp_check. intros Hp0 Hpf.
  apply wp_bind. eapply wp_nat; [exact H4|]. intros post lx5 H5.
  apply wp_bind. apply wp_check. intros _ Hf. rewrite Nat2Z.id in Hf.
  apply wp_if. intros Ed. apply negb_false_iff, Z.eqb_eq in Ed.
  apply wp_if. intros En. apply Nat.eqb_neq in En.
  apply wp_bind. apply wp_layering; [exact Hc|]. intros Hlay.
  apply wp_bind. eapply wp_eol; [exact H5|]. intros lx6 H6.
  apply wp_ret. apply wp_bind. eapply wp_magic; [exact H6|]. intros lx7 H7.
  apply wp_ret. exists {| sr_body := conds; sr_var := var; sr_pre := Z.to_nat pre; sr_post := post |}.
  split; [reflexivity|]. split.
  - unfold rule_lines. cbn [sr_body sr_var sr_pre sr_post]. rewrite Z2Nat.id by auto.
    repeat (rewrite <- app_assoc in H7; cbn [app] in H7). cbn [app]. exact H7.
  - split; [exact Hc|]. split; [exact Hf|]. split; [exact Hpf|]. exists v. cbn.
    splits; auto. rewrite Ed. apply Nat2Z.id.
Qed.
Lemma c_rule c vars r lx L : rule_good vars r -> todo lx (rule_lines r ++ L) ->
  runs (read_axiom c vars) lx (erule_of r) (fun lx' => todo lx' L).
Proof.
  intros (G1 & G2 & G3 & v & Ev & Hl & Ep & En & Hlay) H. unfold read_axiom, read_pre_post_axiom, rule_lines in *.
  cbn [app] in H. repeat (rewrite <- app_assoc in H; cbn [app] in H).
  eapply runs_bind. eapply runs_imp; [apply c_magic; exact H|]. intros lx1 H1.
  eapply runs_bind. eapply runs_bind. eapply runs_imp; [apply c_facts; [exact G1|exact H1]|]. intros lx2 H2.
  eapply runs_bind. eapply runs_imp; [apply c_nat0; exact H2|]. intros lx3 H3.
  eapply runs_bind. eapply c_at; [exact Ev|]. cbn beta.
  destruct (Z.eqb_spec (ev_layer v) (-1)); [congruence|].
  eapply runs_bind. eapply runs_imp; [apply c_int; exact H3|]. intros lx4 H4.
  destruct (Z.eqb_spec (z (sr_pre r)) (-1)); [lia|].
  eapply runs_bind. apply c_check; [exact G3|].
  eapply runs_bind. eapply runs_imp; [apply c_nat; exact H4|]. intros lx5 H5.
  eapply runs_bind. apply c_check; [exact G2|].
  rewrite Ep, Z.eqb_refl. cbn [negb]. apply Nat.eqb_neq in En. rewrite En.
  eapply runs_bind. apply c_layering; [exact G1|exact Hlay|].
  eapply runs_bind. eapply runs_imp; [apply c_eol; exact H5|]. intros lx6 H6.
  apply runs_ret. eapply runs_bind. eapply runs_imp; [apply c_magic; exact H6|]. intros lx7 H7.
  unfold erule_of. rewrite Nat2Z.id, Ep. cbn. now apply runs_ret.
Qed.

(** Initial state *)
Definition value_lines (l : list nat) : list line := map (fun n => Row [z n]) l.
Lemma wp_values c vars n : forall i lx l0 L, done lx l0 L ->
  wp c (read_values vars i n) lx (fun l lx' => done lx' l0 (L ++ value_lines l) /\ length l = n /\
    forall j x, nth_error l j = Some x -> fok vars (i + j, x)).
Proof.
  induction n as [|n IH]; intros i lx l0 L H; cbn [read_values].
  - apply wp_ret. cbn. rewrite app_nil_r. splits; auto. intros [|j] x K; discriminate.
  - apply wp_bind. eapply wp_nat0; [exact H|]. intros x lx1 H1.
    apply wp_bind. eapply wp_eol; [exact H1|]. intros lx2 H2.
    apply wp_bind. apply wp_check. intros _ Hf. rewrite Nat2Z.id in Hf.
    apply wp_bind. eapply wp_imp; [apply IH; exact H2|]. intros l lx3 (H3 & <- & Hl).
    apply wp_ret. cbn [value_lines map length]. rewrite <- app_assoc in H3. splits; auto.
    intros [|j] y K; cbn in K.
    + injection K as <-. now rewrite Nat.add_0_r.
    + rewrite <- Nat.add_succ_comm. auto.
Qed.
Lemma c_values vars l : forall i lx L, (forall j x, nth_error l j = Some x -> fok vars (i + j, x)) ->
  todo lx (value_lines l ++ L) -> runs (read_values vars i (length l)) lx l (fun lx' => todo lx' L).
Proof.
  induction l as [|x l IH]; intros i lx L Hl H; cbn [read_values length].
  - now apply runs_ret.
  - cbn [value_lines map app] in H.
    eapply runs_bind. eapply runs_imp; [apply c_nat0; exact H|]. intros lx1 H1.
    eapply runs_bind. eapply runs_imp; [apply c_eol; exact H1|]. intros lx2 H2.
    eapply runs_bind. apply c_check; [rewrite <- (Nat.add_0_r i); apply Hl; reflexivity|].
    eapply runs_bind. eapply runs_imp; [apply IH; [|exact H2]|].
    + intros j y K. rewrite Nat.add_succ_comm. apply Hl. exact K.
    + intros lx3 H3. now apply runs_ret.
Qed.

(** Goal *)
Lemma goal_vars_unique_spec gs seen :
  goal_vars_unique gs seen = true <-> NoDup (map fst gs) /\ forall x, In x (map fst gs) -> ~ In x seen.
Proof.
  revert seen; induction gs as [|g gs IH]; intros seen; cbn.
  - split; auto. intros _; split; [constructor|intros x []].
  - destruct (existsb (Nat.eqb (fst g)) seen) eqn:E.
    + split; [discriminate|]. intros (_ & H). exfalso.
      apply existsb_exists in E as (y & Hy & Ey). apply Nat.eqb_eq in Ey. subst y.
      apply (H (fst g)); auto.
    + assert (Hn : ~ In (fst g) seen).
      { intros K. assert (existsb (Nat.eqb (fst g)) seen = true); [|congruence].
        apply existsb_exists. exists (fst g). split; auto. apply Nat.eqb_refl. }
      rewrite IH. split.
      * intros (H1 & H2). split.
        -- constructor; auto. intros K. apply (H2 _ K). now left.
        -- intros x [<-|K]; auto. intros K'. apply (H2 _ K). now right.
      * intros (H1 & H2). inversion H1; subst. split; auto.
        intros x K [<-|K']; [contradiction|]. apply (H2 x); auto.
Qed.
Lemma wp_goal c vars lx l0 L : done lx l0 L ->
  wp c (read_goal vars) lx (fun gs lx' => done lx' l0 (L ++ magic "begin_goal" :: fact_lines gs ++ [magic "end_goal"]) /\
    Forall (fok vars) gs /\ gs <> [] /\ NoDup (map fst gs)).
Proof.
  intros H. unfold read_goal.
  apply wp_bind. eapply wp_magic; [exact H|]. intros lx1 H1.
  apply wp_bind. eapply wp_imp; [apply wp_facts; exact H1|]. intros gs lx2 (H2 & Hg).
  apply wp_bind. eapply wp_magic; [exact H2|]. intros lx3 H3.
  destruct gs as [|g gs]; [apply wp_err|].
  destruct (goal_vars_unique (g :: gs) []) eqn:E; [|apply wp_err].
  apply goal_vars_unique_spec in E as (E & _).
  apply wp_ret. repeat (rewrite <- app_assoc in H3; cbn [app] in H3).
  split; [exact H3|]. split; [exact Hg|]. split; [discriminate|exact E].
Qed.
Lemma c_goal vars gs lx L : Forall (fok vars) gs -> gs <> [] -> NoDup (map fst gs) ->
  todo lx (magic "begin_goal" :: fact_lines gs ++ magic "end_goal" :: L) -> runs (read_goal vars) lx gs (fun lx' => todo lx' L).
Proof.
  intros G1 G2 G3 H. unfold read_goal.
  eapply runs_bind. eapply runs_imp; [apply c_magic; exact H|]. intros lx1 H1.
  eapply runs_bind. eapply runs_imp; [apply c_facts; [exact G1|exact H1]|]. intros lx2 H2.
  eapply runs_bind. eapply runs_imp; [apply c_magic; exact H2|]. intros lx3 H3.
  destruct gs as [|g gs]; [congruence|].
  rewrite (proj2 (goal_vars_unique_spec (g :: gs) [])) by (split; [exact G3|auto]). now apply runs_ret.
Qed.

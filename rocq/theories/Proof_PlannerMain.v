(** Proofs about saving plans and the exit code. *)
From Coq Require Import Ascii String List DecimalString DecimalNat.
From Verif Require Import Outcome Spec_Format Spec_Task Spec_Relaxation Spec_CommandLine Spec_PlanFiles
  Model_Parser Model_CommandLine Proof_CommandLine Model_Planner.
Import ListNotations.
Local Open Scope nat_scope.

Lemma to_uint_nonnil n : Nat.to_uint n <> Decimal.Nil.
Proof. intros H. pose proof (DecimalNat.Unsigned.of_to n) as K. rewrite H in K. cbn in K. subst n. discriminate. Qed.
Lemma decimal_inj a b : decimal a = decimal b -> a = b.
Proof.
  unfold decimal. intros H. apply str_inj in H. apply (f_equal NilZero.uint_of_string) in H.
  rewrite !NilZero.usu in H by apply to_uint_nonnil.
  injection H as H. apply DecimalNat.Unsigned.to_uint_inj. exact H.
Qed.
Lemma plan_name_inj name a b : plan_name name true a = plan_name name true b -> a = b.
Proof. unfold plan_name. intros H. apply app_inv_head in H. apply app_inv_head in H. apply decimal_inj; auto. Qed.

Lemma text_eqb_refl a : text_eqb a a = true.
Proof. unfold text_eqb. destruct (list_eq_dec _ _ _); congruence. Qed.
Lemma write_same fs n c : write fs n c n = Some c.
Proof. unfold write. rewrite text_eqb_refl. auto. Qed.
Lemma write_other fs n c x : x <> n -> write fs n c x = fs x.
Proof. unfold write, text_eqb. destruct (list_eq_dec _ _ _); congruence. Qed.

Lemma unit_cost_spec ops : is_unit_cost ops = true <-> forall op, In op ops -> op_cost op = 1.
Proof.
  induction ops as [|o r IH]; simpl; [split; auto; intros _ op []|].
  destruct (op_cost o =? 1) eqn:E; simpl.
  - apply Nat.eqb_eq in E. rewrite IH. split; [intros H op [<-|K]; auto|intros H op K; auto].
  - apply Nat.eqb_neq in E. split; [discriminate|intros H; exfalso; apply E, H; auto].
Qed.
Lemma unit_cost_false ops : is_unit_cost ops = false -> exists op, In op ops /\ op_cost op <> 1.
Proof.
  induction ops as [|o r IH]; simpl; [discriminate|]. destruct (op_cost o =? 1) eqn:E; simpl; intros H.
  - destruct (IH H) as (op & K & L). exists op. auto.
  - apply Nat.eqb_neq in E. exists o. auto.
Qed.

Definition in_range (rt : root_task) (plan : list nat) : Prop := Forall (fun o => o < length (t_ops (rt_task rt))) plan.

Lemma cost_fold t plan : Forall (fun o => o < length (t_ops t)) plan -> forall c,
  fold_outcome (fun c o => let* op := vget (t_ops t) o in Ok (c + op_cost op)) plan c = Ok (c + plan_cost t plan).
Proof.
  induction 1 as [|o plan Ho Hp IH]; intros c; unfold plan_cost in *; simpl; [f_equal; lia|].
  destruct (vget_some _ _ Ho) as (op & E1 & E2). rewrite E2. simpl. rewrite IH, E1. f_equal. unfold list_sum. simpl. lia.
Qed.
Lemma lines_fold names plan : Forall (fun o => o < length names) plan -> forall out, exists steps,
  plan_lines names plan out = Ok (out ++ concat steps) /\
  Forall2 (fun o line => exists name, nth_error names o = Some name /\ line = str "(" ++ name ++ str ")" ++ [newline]) plan steps.
Proof.
  induction 1 as [|o plan Ho Hp IH]; intros out.
  - exists []. unfold plan_lines. simpl. rewrite app_nil_r. split; auto.
  - destruct (vget_some _ _ Ho) as (nm & E1 & E2). destruct (IH (out ++ str "(" ++ nm ++ str ")" ++ [newline])) as (steps & H1 & H2).
    exists ((str "(" ++ nm ++ str ")" ++ [newline]) :: steps). split; [|constructor; eauto].
    unfold plan_lines in *. cbn [fold_outcome]. rewrite E2. cbn [bind]. rewrite H1. cbn [concat]. rewrite <- !app_assoc. reflexivity.
Qed.

Section Save.
Variable writable : text -> bool.
Variable rt : root_task.
Hypothesis Hnames : length (rt_op_names rt) = length (t_ops (rt_task rt)).

Lemma save_plan_ok m fs plan multiple : in_range rt plan ->
  writable (plan_name (pm_name m) (multiple || pm_portfolio m) (pm_num m + 1)) = true ->
  exists c, plan_file (rt_task rt) (rt_op_names rt) plan c /\
    save_plan writable rt m fs plan multiple =
      Ok (Some ({| pm_name := pm_name m; pm_num := pm_num m + 1; pm_portfolio := pm_portfolio m |},
                write fs (plan_name (pm_name m) (multiple || pm_portfolio m) (pm_num m + 1)) c)).
Proof.
  intros Hp Hw. unfold save_plan. cbn zeta.
  set (fname := plan_name (pm_name m) (multiple || pm_portfolio m) (pm_num m + 1)) in *.
  match goal with |- context [writable ?f] => change f with fname end.
  assert (Hp' : Forall (fun o => o < length (rt_op_names rt)) plan) by (rewrite Hnames; exact Hp).
  destruct (lines_fold (rt_op_names rt) plan Hp' []) as (steps & E & HS).
  cbn [app] in E.
  eexists. split; [|rewrite Hw, E; cbn [bind]; unfold calculate_plan_cost; rewrite (cost_fold _ _ Hp); cbn [bind]; reflexivity].
  exists steps. eexists. split; [exact HS|]. split; [|cbn [app]; reflexivity].
  destruct (is_unit_cost (t_ops (rt_task rt))) eqn:U; [left|right]; split; auto.
  - apply unit_cost_spec; auto.
  - apply unit_cost_false; auto.
Qed.
Lemma save_plan_fails m fs plan multiple : writable (plan_name (pm_name m) (multiple || pm_portfolio m) (pm_num m + 1)) = false ->
  save_plan writable rt m fs plan multiple = Ok None.
Proof. intros H. unfold save_plan. cbn zeta. match goal with |- (if writable ?f then _ else _) = _ => change f with (plan_name (pm_name m) (multiple || pm_portfolio m) (pm_num m + 1)) end. rewrite H. reflexivity. Qed.

(** [name.(k+1)], ..., [name.(k+n)] *)
Definition numbered (name : text) (k n : nat) (x : text) : Prop := exists i, i < n /\ x = plan_name name true (k + i + 1).

Lemma save_plans_ok plans : forall m fs, (forall p, In p plans -> in_range rt p) ->
  (forall i, i < length plans -> writable (plan_name (pm_name m) true (pm_num m + i + 1)) = true) ->
  exists fs', save_plans writable rt m fs plans =
    Ok (true, {| pm_name := pm_name m; pm_num := pm_num m + length plans; pm_portfolio := pm_portfolio m |}, fs') /\
  (forall i p, nth_error plans i = Some p -> exists c, fs' (plan_name (pm_name m) true (pm_num m + i + 1)) = Some c /\
     plan_file (rt_task rt) (rt_op_names rt) p c) /\
  (forall x, ~ numbered (pm_name m) (pm_num m) (length plans) x -> fs' x = fs x).
Proof.
  induction plans as [|p plans IH]; intros m fs Hr Hw.
  - exists fs. split; [simpl; rewrite Nat.add_0_r; destruct m; auto|]. split; auto. intros [|i] q E; discriminate.
  - destruct (save_plan_ok m fs p true) as (c & Hc & E); [apply Hr; left; auto|cbn [orb]; specialize (Hw 0); rewrite Nat.add_0_r in Hw; apply Hw; simpl; lia|].
    cbn [orb] in E. cbn [save_plans]. rewrite E. cbn [bind].
    set (m' := {| pm_name := pm_name m; pm_num := pm_num m + 1; pm_portfolio := pm_portfolio m |}).
    destruct (IH m' (write fs (plan_name (pm_name m) true (pm_num m + 1)) c)) as (fs' & E' & A & B).
    { intros q Hq. apply Hr. right. auto. }
    { intros i Hi. unfold m'. cbn [pm_name pm_num]. replace (pm_num m + 1 + i + 1) with (pm_num m + S i + 1) by lia. apply Hw. simpl. lia. }
    unfold m' in *. cbn [pm_name pm_num pm_portfolio] in *. exists fs'. split.
    { rewrite E'. do 3 f_equal. f_equal. simpl. lia. } split.
    + intros [|i] q Hq.
      * simpl in Hq. injection Hq as <-. exists c. split; auto. rewrite Nat.add_0_r. rewrite B; [apply write_same|].
        intros (i & Hi & K). apply plan_name_inj in K. lia.
      * simpl in Hq. destruct (A i q Hq) as (c' & H1 & H2). exists c'. split; auto. rewrite <- H1. f_equal. f_equal. lia.
    + intros x Hx. rewrite B; [apply write_other|].
      * intros ->. apply Hx. exists 0. split; [simpl; lia|]. f_equal. lia.
      * intros (i & Hi & ->). apply Hx. exists (S i). split; [simpl; lia|]. f_equal. lia.
Qed.
End Save.

(** ** The command line of runs with a search *)

Lemma filter_help u rest : filter_args u true (str "--help" :: rest) = str "--help" :: filter_args u true rest.
Proof.
  cbn [filter_args].
  assert (N : forall s, s <> "--help"%string -> teq (str "--help") s = false) by (intros s K; apply teq_false; intros H; apply str_inj in H; congruence).
  rewrite !N by discriminate. reflexivity.
Qed.
Lemma parse_ok_first {A} (construct : text -> outcome A) a rest u o : parse_cmd_line construct (a :: rest) u = Ok o ->
  a <> str "--help" /\ (rest = [] -> a <> str "--internal-git-revision").
Proof.
  intros H. split.
  - intros ->. unfold parse_cmd_line in H. rewrite filter_help in H.
    apply bind_ok in H as (args' & E & H). apply replace_exact in E as (its & Eits & Hok & ->).
    destruct its as [|it its]; [discriminate|]. destruct it as [op k d|s|x]; cbn [render flat_map render_item app] in Eits.
    + injection Eits as E1 _. destruct Hok as [Hok _]. apply Forall_inv in Hok. destruct Hok as [Hp _]. subst op.
      exfalso. destruct Hp as [K|[K|K]]; apply (f_equal (fun t => teq t "--help")) in K; vm_compute in K; discriminate.
    + discriminate Eits.
    + apply (f_equal (fun l : list text => hd [] l)) in Eits. cbn [hd] in Eits. subst x. unfold rewritten in H. cbn [flat_map app parse_cmd_line_aux] in H.
      assert (N : teq (str "--help") "--search" = false) by (apply teq_false; intros K; apply str_inj in K; discriminate).
      rewrite N in H. rewrite (proj2 (teq_spec (str "--help") "--help") eq_refl) in H. discriminate.
  - intros -> ->. vm_compute in H. discriminate.
Qed.

(** *** Exit code 0 of the command line: help *)
Lemma filter_in u args : forall active a, In a (filter_args u active args) -> In a args.
Proof.
  induction args as [|x rest IH]; intros active a H; cbn [filter_args] in H; [auto|].
  repeat match type of H with context [if ?b then _ else _] => destruct b end; try (right; eapply IH; exact H).
  destruct H as [H|H]; [left; auto|right; eapply IH; exact H].
Qed.
Lemma replaced_help args r : replace_old_style_predefinitions args = Ok r -> In (str "--help") r -> In (str "--help") args.
Proof.
  intros E H. apply replace_exact in E as (its & -> & _ & ->). unfold rewritten in H. unfold render.
  apply in_flat_map in H as (it & Hit & H). apply in_flat_map. exists it. split; auto. destruct it as [o k d|s|a]; cbn [render_item] in *; auto.
  - destruct H.
  - destruct H as [H|[H|[]]]; [left; auto|]. destruct (defs_of its) as [|[k d] l]; [right; left; exact H|].
    cbn in H. discriminate.
Qed.
Lemma stoi_exit s k c : stoi_digits s k = Exit c -> c = input_error.
Proof.
  unfold stoi_digits. destruct s as [|x s]; [congruence|]. destruct (digit_value x); [|congruence]. cbn zeta.
  match goal with |- (if ?b then _ else _) = _ -> _ => destruct b end; congruence.
Qed.
Lemma int_arg_exit v c : parse_int_arg v = Exit c -> c = input_error.
Proof.
  unfold parse_int_arg. destruct (skip_space v) as [|x r]; [congruence|].
  destruct (Ascii.eqb x "+"%char); [apply stoi_exit|]. destruct (Ascii.eqb x "-"%char); apply stoi_exit.
Qed.
Lemma aux_exit0 {A} (construct : text -> outcome A) : (forall s, construct s <> Exit 0%Z) ->
  forall n args o, length args <= n -> parse_cmd_line_aux construct args o = Exit 0%Z -> In (str "--help") args.
Proof.
  intros Hc. induction n as [|n IH]; intros args o Hn E; destruct args as [|a rest]; try (cbn in Hn; lia); try discriminate.
  cbn [parse_cmd_line_aux] in E. cbn [length] in Hn.
  destruct (teq a "--search").
  { destruct (o_search o); [discriminate|]. destruct rest as [|s rest]; [discriminate|].
    destruct (construct s) as [al| |c|] eqn:K; cbn [bind] in E; try discriminate.
    - right. right. eapply IH; [|exact E]. cbn [length] in Hn. lia.
    - exfalso. apply (Hc s). congruence. }
  destruct (teq a "--help") eqn:K; [apply teq_spec in K; left; auto|].
  destruct (teq a "--internal-plan-file").
  { destruct rest as [|s rest]; [discriminate|]. right. right. eapply IH; [|exact E]. cbn [length] in Hn. lia. }
  destruct (teq a "--internal-previous-portfolio-plans"); [|discriminate].
  destruct rest as [|s rest]; [discriminate|]. destruct (parse_int_arg s) as [k| |c|] eqn:Kp; cbn [bind] in E; try discriminate.
  - destruct (k <? 0)%Z; [discriminate|]. right. right. eapply IH; [|exact E]. cbn [length] in Hn. lia.
  - apply int_arg_exit in Kp. subst c. unfold input_error in E. discriminate.
Qed.
Lemma parse_exit0 {A} (construct : text -> outcome A) args u : (forall s, construct s <> Exit 0%Z) ->
  parse_cmd_line construct args u = Exit 0%Z -> In (str "--help") args.
Proof.
  intros Hc E. unfold parse_cmd_line in E. cbn zeta in E.
  destruct (replace_old_style_predefinitions (filter_args u true args)) as [r| |c|] eqn:Er; cbn [bind] in E; try discriminate.
  - eapply filter_in, replaced_help; [exact Er|]. eapply aux_exit0; [exact Hc|apply le_n|exact E].
  - destruct (replace_total _ (filter_args u true args) [] 0 false [] (le_n _)) as [[r K]|K];
      unfold replace_old_style_predefinitions in Er; rewrite K in Er; [discriminate|]. injection Er as <-. unfold input_error in E. discriminate.
Qed.

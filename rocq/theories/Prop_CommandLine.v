(** C50: conditional command-line options and old-style predefinitions. *)
From Coq Require Import Ascii String List Sorting.
From Verif Require Import Outcome Spec_Format Spec_CommandLine Model_Parser Model_CommandLine Proof_CommandLine.
Import ListNotations.
Local Open Scope nat_scope.

(** C50.  The arguments used are, in their order, exactly those selected by the switches. *)
Theorem C50_conditional_arguments : forall u args, exists positions,
  StronglySorted lt positions /\
  Forall2 (kept u args) positions (filter_args u true args) /\
  (forall i a, kept u args i a -> In i positions).
Proof.
  intros u args. destruct (filter_positions u args true) as (ps & H1 & H2 & H3). exists ps. split; [exact H1|].
  assert (K : forall i a, sel u true args i a <-> kept u args i a) by (intros i a; unfold sel, kept; intuition).
  split.
  - clear - H2 K. induction H2; constructor; auto. apply K. auto.
  - intros i a H. eapply H3. apply K. exact H.
Qed.
Print Assumptions C50_conditional_arguments.

(** C50.  Argument lists are accepted exactly if they consist of predefinitions with an
    alphanumeric key, at most one search after all predefinitions (and one if there are any)
    and other arguments; the predefinitions become nested lets around the search argument, the
    rest is unchanged.  All other argument lists are input errors. *)
Theorem C50_predefinitions : forall args,
  (forall r, replace_old_style_predefinitions args = Ok r <->
     exists items, args = render items /\ arrangement_ok items /\ r = rewritten items) /\
  ((exists r, replace_old_style_predefinitions args = Ok r) \/
   replace_old_style_predefinitions args = Exit input_error).
Proof.
  intros args. split; [intros r; apply replace_exact|]. eapply replace_total. apply le_n.
Qed.
Print Assumptions C50_predefinitions.

(** C50.  The generated search argument has balanced parentheses if the user's texts have. *)
Theorem C50_balanced : forall items s, arrangement_ok items ->
  (forall k d, In (k, d) (defs_of items) -> balanced d) -> balanced s ->
  balanced (nested_let (defs_of items) s).
Proof.
  intros items s [Hok _] Hd Hs. apply nested_balanced; auto. intros k d Hin. split; [|eauto].
  apply depth_alnum. unfold defs_of in Hin. apply in_flat_map in Hin as (it & Hit & Hin).
  rewrite Forall_forall in Hok. specialize (Hok it Hit). destruct it; simpl in Hin; try tauto.
  destruct Hin as [[= <- <-]|[]]. apply Hok.
Qed.
Print Assumptions C50_balanced.

(** What remains are options with values. *)
Inductive opt := OSearch (s : text) | OPlanFile (f : text) | OPreviousPlans (v : text).
Definition render_opt (o : opt) : list text :=
  match o with
  | OSearch s => [str "--search"; s]
  | OPlanFile f => [str "--internal-plan-file"; f]
  | OPreviousPlans v => [str "--internal-previous-portfolio-plans"; v]
  end.
Definition searches (l : list opt) := flat_map (fun o => match o with OSearch s => [s] | _ => [] end) l.
Definition plan_files (l : list opt) := flat_map (fun o => match o with OPlanFile s => [s] | _ => [] end) l.
Definition previous (l : list opt) := flat_map (fun o => match o with OPreviousPlans s => [s] | _ => [] end) l.

(** C50.  If the remaining arguments are accepted, they are a sequence of options with at most
    one search; the last plan file name counts, and so does the last number of previous plans,
    which is not negative. *)
Theorem C50_options : forall (A : Type) (construct : text -> outcome A) args o,
  parse_cmd_line_aux construct args default_options = Ok o ->
  exists opts, args = flat_map render_opt opts /\
    match searches opts with
    | [] => o_search o = None
    | [s] => exists a, construct s = Ok a /\ o_search o = Some a
    | _ => False
    end /\
    o_filename o = last (plan_files opts) (str "sas_plan") /\
    (o_portfolio o = true <-> previous opts <> []) /\
    match previous opts with [] => o_previous o = 0%Z | _ => parse_int_arg (last (previous opts) []) = Ok (o_previous o) /\ (0 <= o_previous o)%Z end.
Proof.
  intros A construct args o.
  assert (G : forall n args o0, length args <= n -> parse_cmd_line_aux construct args o0 = Ok o ->
    exists opts, args = flat_map render_opt opts /\
      match o_search o0 with
      | Some a => searches opts = [] /\ o_search o = Some a
      | None => match searches opts with [] => o_search o = None | [s] => exists a, construct s = Ok a /\ o_search o = Some a | _ => False end
      end /\
      o_filename o = last (plan_files opts) (o_filename o0) /\
      (o_portfolio o = true <-> o_portfolio o0 = true \/ previous opts <> []) /\
      match previous opts with [] => o_previous o = o_previous o0 | _ => parse_int_arg (last (previous opts) []) = Ok (o_previous o) /\ (0 <= o_previous o)%Z end).
  { clear args. induction n as [|n IH]; intros args o0 Hn E.
    - destruct args; [|simpl in Hn; lia]. cbn in E. injection E as <-. exists []. cbn. splits; auto; [destruct (o_search o0); auto|split; [auto|intros [?|[]]; auto]].
    - destruct args as [|arg rest]. { cbn in E. injection E as <-. exists []. cbn. splits; auto; [destruct (o_search o0); auto|split; [auto|intros [?|[]]; auto]]. }
      cbn [parse_cmd_line_aux] in E. cbn [length] in Hn.
      destruct (teq arg "--search") eqn:E1.
      { apply teq_spec in E1 as ->. destruct (o_search o0) eqn:Es; [discriminate|]. destruct rest as [|a rest]; [discriminate|].
        apply bind_ok in E as (alg & Ha & E). apply IH in E as (opts & -> & S1 & S2 & S3 & S4); [|cbn [length] in Hn; lia].
        cbn [o_search o_filename o_portfolio o_previous] in *. exists (OSearch a :: opts). splits; auto.
        destruct S1 as [S1 S1']. cbn [searches flat_map app]. fold (searches opts). rewrite S1. eauto. }
      destruct (teq arg "--help") eqn:E2; [discriminate|].
      destruct (teq arg "--internal-plan-file") eqn:E3.
      { apply teq_spec in E3 as ->. destruct rest as [|a rest]; [discriminate|].
        apply IH in E as (opts & -> & S1 & S2 & S3 & S4); [|cbn [length] in Hn; lia].
        cbn [o_search o_filename o_portfolio o_previous] in *. exists (OPlanFile a :: opts). splits; auto.
        rewrite S2. cbn [plan_files flat_map app]. fold (plan_files opts). destruct (plan_files opts) as [|x l]; [reflexivity|].
        clear. revert x. induction l as [|y l IH]; intros x; [reflexivity|]. exact (IH y). }
      destruct (teq arg "--internal-previous-portfolio-plans") eqn:E4; [|discriminate].
      apply teq_spec in E4 as ->. destruct rest as [|a rest]; [discriminate|].
      apply bind_ok in E as (k & Ek & E). destruct (k <? 0)%Z eqn:Kz; [discriminate|]. apply Z.ltb_ge in Kz.
      apply IH in E as (opts & -> & S1 & S2 & S3 & S4); [|cbn [length] in Hn; lia].
      cbn [o_search o_filename o_portfolio o_previous] in *. exists (OPreviousPlans a :: opts). splits; auto.
      + rewrite S3. cbn [previous flat_map app]. split; [intros _; right; discriminate|auto].
      + cbn [previous flat_map app]. fold (previous opts). destruct (previous opts) as [|x l] eqn:Ep.
        * rewrite S4. cbn [last]. auto.
        * exact S4. }
  intros E. destruct (G _ args default_options (le_n _) E) as (opts & H1 & H2 & H3 & H4 & H5).
  exists opts. splits; auto. rewrite H4. cbn. split; [intros [?|?]; [discriminate|auto]|auto].
Qed.
Print Assumptions C50_options.

(** A command line with two predefinitions, for unit-cost and for other tasks. *)
Definition ex_args : list text := map str
  ["--evaluator"; "hff=ff()"; "--if-unit-cost"; "--evaluator"; "h=cea(x=1)"; "--if-non-unit-cost"; "--landmarks"; "l=lm()";
   "--always"; "--internal-plan-file"; "p"; "--search"; "eager(hff,h)"]%string.
Example C50_nonvacuous :
  (let* a := replace_old_style_predefinitions (filter_args true true ex_args) in parse_cmd_line_aux Ok a default_options) =
    Ok {| o_search := Some (str "let(hff,ff(),let(h,cea(x=1),eager(hff,h)))"); o_filename := str "p"; o_previous := 0; o_portfolio := false |} /\
  (let* a := replace_old_style_predefinitions (filter_args false true ex_args) in parse_cmd_line_aux Ok a default_options) =
    Ok {| o_search := Some (str "let(hff,ff(),let(l,lm(),eager(hff,h)))"); o_filename := str "p"; o_previous := 0; o_portfolio := false |} /\
  replace_old_style_predefinitions (map str ["--search"; "x"; "--evaluator"; "h=ff()"])%string = Exit input_error.
Proof. splits; vm_compute; reflexivity. Qed.

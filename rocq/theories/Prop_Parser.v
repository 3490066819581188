(** Properties C16 and C17: reading a task file, and mutex queries. *)
From Coq Require Import Ascii String List.
From Verif Require Import Outcome Spec_Task Spec_Format Model_Axioms Model_Parser Proof_Axioms Proof_Registry
  Proof_Lexer Proof_Parser Proof_ParseSections Proof_ParseTask.
Local Open Scope nat_scope.
Import ListNotations.

(** [rt] is the task described by [s]: same variables, operators, rules, goal and names, and the
    initial state with its derived variables evaluated. *)
Definition represents (s : source) (rt : root_task) : Prop :=
  t_vars (rt_task rt) = t_vars (source_task s) /\ t_ops (rt_task rt) = t_ops (source_task s) /\
  t_rules (rt_task rt) = t_rules (source_task s) /\ t_goal (rt_task rt) = s_goal s /\
  stratified_model (source_task s) (s_init s) (t_init (rt_task rt)) /\
  rt_var_names rt = map sv_name (s_vars s) /\ rt_fact_names rt = map sv_facts (s_vars s) /\
  rt_op_names rt = map so_name (s_ops s).

Lemma start_done t : done {| lx_lines := getlines t; lx_tokens := []; lx_pos := 0 |} (nonblank (getlines t)) [].
Proof. exists (nonblank (getlines t)), []. split; [|auto]. split; [|split]; reflexivity. Qed.

Lemma parse_sound c t :
  match parse_task c t with
  | Ok rt => exists s, text_of t s /\ source_ok s /\ parsed s rt
  | UB => c = false
  | Exit k => k = input_error
  | NoFuel => False
  end.
Proof.
  pose proof (wp_task c _ _ (start_done t)) as H. unfold wp in H. unfold parse_task.
  destruct (read_task c _) as [[rt lx']| | |]; auto.
  destruct H as (s & H1 & H2 & H3). exists s; splits; auto.
  exists (getlines t), (nonblank (getlines t)). splits; auto using getlines_lines_of, nonblank_content.
Qed.
Lemma parse_complete c t s rt : text_of t s -> source_ok s -> parsed s rt -> parse_task c t = Ok rt.
Proof.
  intros (ls & cs & H1 & H2 & H3) Hs Hp.
  apply lines_of_getlines in H1. apply content_nonblank in H2. subst ls cs.
  destruct (c_task c {| lx_lines := getlines t; lx_tokens := []; lx_pos := 0 |} s rt Hs Hp) as (lx' & E & _).
  - exists (nonblank (getlines t)). split; auto. split; [|split]; reflexivity.
  - unfold parse_task. now rewrite E.
Qed.
Lemma source_parsed s : source_ok s -> exists rt, parsed s rt.
Proof.
  intros Hs. destruct (source_evaluate s Hs) as (ax & init' & E1 & E2 & _).
  destruct (add_groups_ok (doms_of (vars0 (s_vars s))) (s_mutexes s)) with (m := map (fun v => repeat (@nil fact) (ev_dom v)) (vars0 (s_vars s)))
    as (m & Em & _).
  - destruct Hs as (_ & _ & H & _). eapply Forall_impl; [|exact H]. intros g Hg.
    eapply Forall_impl; [|exact Hg]. intros f Hf. apply fok_infact, fok_vars0, Hf.
  - apply dims0.
  - exists (root_of s init' m), ax, init', m. auto.
Qed.
Lemma parsed_represents s rt : source_ok s -> parsed s rt -> represents s rt.
Proof.
  intros Hs (ax & init' & m & E1 & E2 & E3 & ->). unfold represents, root_of; cbn. splits; auto.
  destruct (source_evaluate s Hs) as (ax' & init'' & E1' & E2' & _ & H).
  rewrite E1 in E1'. injection E1' as <-. rewrite E2 in E2'. injection E2' as <-. exact H.
Qed.

(** C16: every accepted file describes a task that satisfies the restrictions of the format,
    and that task is what the parser returns. *)
Theorem C16_accepted_files_are_well_formed : forall t rt, read_root_task t = Ok rt ->
  exists s, text_of t s /\ source_ok s /\ represents s rt.
Proof.
  intros t rt E. pose proof (parse_sound false t) as H. unfold read_root_task in E. rewrite E in H.
  destruct H as (s & H1 & H2 & H3). exists s; splits; auto. now apply parsed_represents.
Qed.
Print Assumptions C16_accepted_files_are_well_formed.

(** C16: in particular every reference of the task is in range, and the initial state is closed
    under the rules. *)
Lemma task_ok_same_tables t t' : t_vars t' = t_vars t -> t_ops t' = t_ops t -> t_rules t' = t_rules t ->
  t_goal t' = t_goal t -> task_ok t -> state_ok t (t_init t') -> task_ok t'.
Proof.
  destruct t, t'; cbn. intros -> -> -> -> (H1 & H2 & H3 & H4 & H5) H6.
  split; [exact H1|]. split; [exact H2|]. split; [exact H3|]. split; [exact H6|exact H5].
Qed.
Lemma supported_same_tables t t' s k v d : t_vars t' = t_vars t -> t_rules t' = t_rules t ->
  supported t s k v d -> supported t' s k v d.
Proof.
  intros E1 E2 H. induction H as [r v d Hr Eh El Hb IH Ho].
  assert (L : forall v, layer_of t' v = layer_of t v) by (intros; unfold layer_of; now rewrite E1).
  apply (supported_rule t' s k r v d); auto.
  - now rewrite E2.
  - now rewrite L.
  - intros v' d' K K'. rewrite L in K'. eauto.
  - intros v' d' K K'. rewrite L in K'. eauto.
Qed.
Lemma stratified_same_tables t t' s s' : t_vars t' = t_vars t -> t_rules t' = t_rules t ->
  stratified_model t s s' -> stratified_model t' s s'.
Proof.
  intros E1 E2 (H1 & H2 & H3). split; [exact H1|]. split.
  - intros v. unfold layer_of. rewrite E1. apply H2.
  - intros v x k d Hv Hk Hd. unfold is_var in Hv. rewrite E1 in Hv. destruct (H3 v x k d Hv Hk Hd) as (K1 & K2).
    split; intros K.
    + now apply (supported_same_tables t); auto.
    + intros d' Hd' Hsup. apply (K2 K d' Hd'). now apply (supported_same_tables t'); auto.
Qed.

Theorem C16_parsed_tasks_are_well_formed : forall t rt, read_root_task t = Ok rt ->
  task_ok (rt_task rt) /\ t_vars (rt_task rt) <> [] /\ t_goal (rt_task rt) <> [] /\
  NoDup (map fst (t_goal (rt_task rt))) /\ Forall (fun op => op_effs op <> []) (t_ops (rt_task rt)) /\
  stratified_model (rt_task rt) (t_init (rt_task rt)) (t_init (rt_task rt)).
Proof.
  intros t rt E. pose proof (parse_sound false t) as H. unfold read_root_task in E. rewrite E in H.
  destruct H as (s & H1 & H2 & H3). pose proof (parsed_represents _ _ H2 H3) as (R1 & R2 & R3 & R4 & R5 & _).
  destruct H3 as (ax & init' & m & E1 & E2 & E3 & ->).
  destruct (source_evaluate s H2) as (ax' & init'' & E1' & E2' & Hok & _).
  rewrite E1 in E1'. injection E1' as <-. rewrite E2 in E2'. injection E2' as <-.
  pose proof (source_task_ok s H2) as Ht.
  pose proof H2 as (K1 & K2 & K3 & K4 & K5 & K6 & K7 & K8 & K9).
  split; [|split; [|split; [|split; [|split]]]].
  - eapply task_ok_same_tables; eauto.
  - rewrite R1. cbn. unfold source_vars. apply F2_len in K4.
    destruct (s_vars s); [congruence|]. destruct (s_init s); [discriminate|]. discriminate.
  - rewrite R4. exact K5.
  - rewrite R4. exact K7.
  - rewrite R2. cbn. apply Forall_forall. intros op Hin. apply in_map_iff in Hin as (o & <- & Hin).
    destruct (K8 o Hin) as (_ & K & _). cbn. destruct (so_effs o); [congruence|discriminate].
  - eapply stratified_same_tables; eauto. eapply strat_idem; eauto.
Qed.
Print Assumptions C16_parsed_tasks_are_well_formed.

(** C16: every file that describes a task satisfying the restrictions is accepted. *)
Theorem C16_well_formed_files_are_accepted : forall t s, text_of t s -> source_ok s ->
  exists rt, read_root_task t = Ok rt /\ represents s rt.
Proof.
  intros t s H Hs. destruct (source_parsed s Hs) as (rt & Hp).
  exists rt; split; [eapply parse_complete; eauto|now apply parsed_represents].
Qed.
Print Assumptions C16_well_formed_files_are_accepted.

(** C16, safety.  Full claim: for every text [read_root_task t] is [Ok _] or [Exit input_error].
    It fails (see the refutation below) because two accesses to the variable table are not range
    checked.  What holds: with these two checks added ([parse_task true]) the full claim is true,
    and the code behaves the same unless it hits one of these accesses. *)
Theorem C16_no_undefined_behaviour_partial : forall t,
  ((exists rt, parse_task true t = Ok rt) \/ parse_task true t = Exit input_error) /\
  (read_root_task t = parse_task true t \/ (read_root_task t = UB /\ parse_task true t = Exit input_error)).
Proof.
  intros t. pose proof (parse_sound true t) as Ht. pose proof (parse_sound false t) as Hf. unfold read_root_task.
  assert (A : forall c c' rt, parse_task c t = Ok rt -> parse_task c' t = Ok rt).
  { intros c c' rt E. pose proof (parse_sound c t) as H. rewrite E in H. destruct H as (s & H1 & H2 & H3).
    eapply parse_complete; eauto. }
  destruct (parse_task true t) as [rt| |k|] eqn:Et; try discriminate; try contradiction.
  - split; [left; eauto|]. left. now apply (A true).
  - split; [right; now subst|]. subst k.
    destruct (parse_task false t) as [rt'| |k'|] eqn:Ef; try contradiction; auto.
    + exfalso. pose proof (A false true rt' Ef). congruence.
    + left. now subst.
Qed.
Print Assumptions C16_no_undefined_behaviour_partial.

(** *** Examples *)
Fixpoint unlines (ls : list string) : text :=
  match ls with [] => [] | l :: r => str l ++ newline :: unlines r end.

Definition ex_file (affected : string) : text := unlines
  ["begin_version"; "3"; "end_version"; "begin_metric"; "1"; "end_metric"; "3";
   "begin_variable"; "pos"; "-1"; "3"; "Atom a"; "Atom b"; "Atom c"; "end_variable"; "";
   "begin_variable"; "flag"; "-1"; "2"; "Atom d"; "Atom e"; "end_variable";
   "begin_variable"; "done"; "0"; "2"; "Atom f"; "Atom g"; "end_variable";
   "1"; "begin_mutex_group"; "3"; "0 0"; "0 2"; "1 1"; "end_mutex_group";
   "begin_state"; "0"; "0"; "1"; "end_state";
   "begin_goal"; "1"; "2 0"; "end_goal";
   "1"; "begin_operator"; "move a b"; "1"; "1 0"; "2"; affected; "0 1 -1 1"; "7"; "end_operator";
   "1"; "begin_rule"; "1"; "0 2"; "2 1 0"; "end_rule"]%string.

Definition ex_source : source :=
  {| s_metric := true;
     s_vars := [ {| sv_name := str "pos"; sv_layer := None; sv_facts := [str "Atom a"; str "Atom b"; str "Atom c"] |};
                 {| sv_name := str "flag"; sv_layer := None; sv_facts := [str "Atom d"; str "Atom e"] |};
                 {| sv_name := str "done"; sv_layer := Some 0; sv_facts := [str "Atom f"; str "Atom g"] |} ];
     s_mutexes := [[(0, 0); (0, 2); (1, 1)]];
     s_init := [0; 0; 1];
     s_goal := [(2, 0)];
     s_ops := [ {| so_name := str "move a b"; so_prevail := [(1, 0)];
                   so_effs := [ {| se_cond := [(1, 0)]; se_var := 0; se_pre := Some 0; se_post := 2 |};
                                {| se_cond := []; se_var := 1; se_pre := None; se_post := 1 |} ];
                   so_cost := 7 |} ];
     s_rules := [ {| sr_body := [(0, 2)]; sr_var := 2; sr_pre := 1; sr_post := 0 |} ] |}.

(** The file is accepted, so it satisfies the hypotheses of the theorems above, and it is read
    as expected. *)
Example C16_nonvacuous : exists rt, read_root_task (ex_file "1 1 0 0 0 2") = Ok rt /\
  rt_task rt = source_task ex_source /\ rt_op_names rt = [str "move a b"] /\
  are_facts_mutex rt (0, 2) (1, 1) = Ok true /\ are_facts_mutex rt (0, 1) (1, 1) = Ok false.
Proof. eexists. split; [vm_compute; reflexivity|]. vm_compute. auto. Qed.

Example C16_rejects : read_root_task (ex_file "1 1 0 0 0 3") = Exit input_error /\
  read_root_task (ex_file "1 1 0 0 0") = Exit input_error /\ read_root_task (ex_file "1 1 0 0 0x 2") = Exit input_error.
Proof. vm_compute. auto. Qed.

(** C16, refutation of the full safety claim: an effect on a variable number that does not exist
    makes the parser read outside its variable table instead of reporting an input error. *)
Theorem C16_out_of_range_variable_refuted : exists t, read_root_task t = UB.
Proof. exists (ex_file "1 1 0 8 0 2"). vm_compute. reflexivity. Qed.
Print Assumptions C16_out_of_range_variable_refuted.

(** C17: mutex queries answer exactly what the file declares. *)
Theorem C17_mutex_queries : forall t s rt, text_of t s -> source_ok s -> read_root_task t = Ok rt ->
  forall f g, fact_ok (rt_task rt) f -> fact_ok (rt_task rt) g ->
  exists b, are_facts_mutex rt f g = Ok b /\ are_facts_mutex rt g f = Ok b /\
    (b = true <-> (fst f = fst g /\ snd f <> snd g) \/ declared_mutex (s_mutexes s) f g).
Proof.
  intros t s rt Ht Hs E f g Hf Hg.
  destruct (source_parsed s Hs) as (rt' & Hp). pose proof (parse_complete false t s rt' Ht Hs Hp) as E'.
  unfold read_root_task in E. rewrite E in E'. injection E' as <-.
  destruct Hp as (ax & init' & m & E1 & E2 & E3 & ->).
  set (doms := doms_of (vars0 (s_vars s))) in *.
  destruct (add_groups_ok doms (s_mutexes s)) with (m := map (fun v => repeat (@nil fact) (ev_dom v)) (vars0 (s_vars s)))
    as (m' & Em & Hd & Htab).
  { pose proof Hs as (_ & _ & H & _). eapply Forall_impl; [|exact H]. intros gr Hgr.
    eapply Forall_impl; [|exact Hgr]. intros f0 Hf0. apply fok_infact, fok_vars0, Hf0. }
  { apply dims0. }
  rewrite E3 in Em. injection Em as <-.
  assert (Hempty : forall f g, ~ tab (map (fun v => repeat (@nil fact) (ev_dom v)) (vars0 (s_vars s))) f g).
  { intros f0 g0 (row & set & K1 & K2 & K3). rewrite nth_error_map in K1.
    destruct (nth_error (vars0 (s_vars s)) (fst f0)); [|discriminate]. injection K1 as <-.
    apply nth_error_In, repeat_spec in K2. subst set. destruct K3. }
  assert (Hin : forall f, fact_ok (rt_task (root_of s init' m)) f -> infact doms f).
  { intros f0 (xv & Hv & Hx). apply source_var_nth in Hv as (sv & x & Esv & _ & ->). cbn in Hx.
    apply fok_infact, fok_vars0. exists sv; auto. }
  assert (Q : forall f g, infact doms f -> fst f <> fst g ->
    exists b, are_facts_mutex (root_of s init' m) f g = Ok b /\ (b = true <-> declared_mutex (s_mutexes s) f g)).
  { intros f0 g0 (d & Ed & Hlt) Hne. unfold are_facts_mutex.
    apply Nat.eqb_neq in Hne as Hb. rewrite Hb. cbn [rt_mutexes root_of].
    destruct (F2_nth _ _ _ _ _ Hd Ed) as (row & Er & Hl). unfold vget. rewrite Er. cbn [bind].
    destruct (nth_error row (snd f0)) as [set|] eqn:Es; [|apply nth_error_None in Es; lia]. cbn [bind].
    eexists; split; [reflexivity|].
    assert (Hdec : tab m f0 g0 <-> declared_mutex (s_mutexes s) f0 g0).
    { rewrite Htab. specialize (Hempty f0 g0). tauto. }
    rewrite <- Hdec.
    assert (Hiff : tab m f0 g0 <-> In g0 set).
    { split; [|intros; exists row, set; auto]. intros (row' & set' & K1 & K2 & K3).
      rewrite Er in K1. injection K1 as <-. rewrite Es in K2. injection K2 as <-. exact K3. }
    destruct (in_dec fact_eq_dec g0 set) as [K|K]; split; auto; try discriminate; intros; tauto. }
  destruct (Nat.eq_dec (fst f) (fst g)) as [Ee|Ee].
  - exists (negb (snd f =? snd g)). unfold are_facts_mutex. rewrite <- Ee, Nat.eqb_refl.
    splits; auto; [now rewrite Nat.eqb_sym|].
    destruct (Nat.eqb_spec (snd f) (snd g)); cbn; split; auto; try discriminate.
    intros [(_ & K)|(K & _)]; congruence.
  - destruct (Q f g) as (b & Eb & Hb); auto. destruct (Q g f) as (b' & Eb' & Hb'); auto.
    exists b. split; [exact Eb|]. split.
    + rewrite Eb'. f_equal.
      assert (Hsym : declared_mutex (s_mutexes s) f g <-> declared_mutex (s_mutexes s) g f).
      { split; intros (K1 & gr & K2 & K3 & K4); (split; [congruence|]); exists gr; auto. }
      destruct b, b'; auto; exfalso.
      * assert (false = true) by (apply Hb', Hsym, Hb; auto). discriminate.
      * assert (false = true) by (apply Hb, Hsym, Hb'; auto). discriminate.
    + rewrite Hb. split; auto. intros [(K & _)|K]; [congruence|auto].
Qed.
Print Assumptions C17_mutex_queries.

(** C17: no fact is mutex with itself. *)
Theorem C17_mutex_irreflexive : forall rt f, are_facts_mutex rt f f = Ok false.
Proof. intros rt f. unfold are_facts_mutex. now rewrite !Nat.eqb_refl. Qed.
Print Assumptions C17_mutex_irreflexive.

(** The hypotheses of C17 hold for the example file. *)
Example C17_nonvacuous : exists s rt, text_of (ex_file "1 1 0 0 0 2") s /\ source_ok s /\
  read_root_task (ex_file "1 1 0 0 0 2") = Ok rt /\ fact_ok (rt_task rt) (0, 2) /\ fact_ok (rt_task rt) (1, 1).
Proof.
  destruct C16_nonvacuous as (rt & E & Er & _).
  destruct (C16_accepted_files_are_well_formed _ _ E) as (s & H1 & H2 & H3).
  exists s, rt. splits; auto; rewrite Er; eexists; split; try reflexivity; cbn; lia.
Qed.

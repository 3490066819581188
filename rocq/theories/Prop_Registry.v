(** C14, C15: the state registry and successor states. *)
From Verif Require Import Outcome Spec_Task Spec_KeySet Model_Task Model_Axioms Model_IntHashSet Model_Registry Proof_Registry Prop_Axioms.

(** C14.  For every well-formed task and every sequence of initial-state and successor calls
    on a fresh registry, whatever the hash function: either the process ends because the
    hash function does not separate the registered states well enough, or all calls succeed
    and, after the last of them, two states returned by any of the calls have the same ID
    iff they assign the same values, the IDs in use are exactly 0 .. size-1, and looking up
    an ID yields the state that was returned with it, however long ago. *)
Theorem C14_registry_ids_are_states : forall hash t calls, task_ok t -> t_vars t <> [] ->
  (forall v x, is_var t v x -> (N.of_nat (vdom x) <= 2 ^ 31)%N) ->
  stratified_model t (t_init t) (t_init t) ->
  (forall i k o, nth_error calls i = Some (CallSuccessor k o) -> k < i /\ o < length (t_ops t)) ->
  (registry_history hash t calls = Exit abort_exit /\
    exists packed, NoDup packed /\ length packed <= length calls /\ ~ spread (fun i => hash (nth i packed [])) (seq 0 (length packed))) \/
  exists r hs, registry_history hash t calls = Ok (r, hs) /\ length hs = length calls /\
    (forall h h', In h hs -> In h' hs -> (h_id h = h_id h' <-> h_values h = h_values h')) /\
    (forall id, id < reg_size r <-> exists h, In h hs /\ h_id h = id) /\
    (forall h, In h hs -> with_registry t (fun p _ => lookup_state t p r (h_id h)) = Ok h).
Proof.
  intros hash t calls H1 H2 H3 H4 H5. destruct (registry_ok hash t calls H1 H2 H3 H4 H5) as [H|(r & hs & A & B & C & D & E & _)]; [auto|].
  right. exists r, hs. auto.
Qed.
Print Assumptions C14_registry_ids_are_states.

(** C15.  In every such history, the initial-state calls return the task's initial state, and
    a successor call returns the state that the operator's semantics prescribes for the state
    it was called on; the prescribed state is unique. *)
Theorem C15_successors_follow_semantics : forall hash t calls, task_ok t -> t_vars t <> [] ->
  (forall v x, is_var t v x -> (N.of_nat (vdom x) <= 2 ^ 31)%N) ->
  stratified_model t (t_init t) (t_init t) ->
  (forall i k o, nth_error calls i = Some (CallSuccessor k o) -> k < i /\ o < length (t_ops t)) ->
  forall r hs, registry_history hash t calls = Ok (r, hs) ->
  (forall i, nth_error calls i = Some CallInitial -> exists h, nth_error hs i = Some h /\ h_values h = t_init t) /\
  (forall i k o, nth_error calls i = Some (CallSuccessor k o) ->
     exists pred h, nth_error hs k = Some pred /\ nth_error hs i = Some h /\
       state_ok t (h_values h) /\ progress t (h_values pred) o (h_values h) /\
       forall s', state_ok t s' -> progress t (h_values pred) o s' -> s' = h_values h).
Proof.
  intros hash t calls H1 H2 H3 H4 H5 r hs E.
  destruct (registry_ok hash t calls H1 H2 H3 H4 H5) as [[E' _]|(r' & hs' & E' & _ & _ & _ & _ & S & F)]; [congruence|].
  rewrite E in E'. injection E' as <- <-. split.
  - intros i Hi. destruct (Forall2_get_l _ _ _ _ _ F Hi) as (h & Hh & R). exists h. split; auto.
  - intros i k o Hi. destruct (Forall2_get_l _ _ _ _ _ F Hi) as (h & Hh & pred & P1 & P2). exists pred, h.
    assert (Hs : state_ok t (h_values h)) by (apply S; eapply nth_error_In; eauto).
    splits; auto. intros s' Hs' Hp. eapply progress_unique; eauto.
Qed.
Print Assumptions C15_successors_follow_semantics.

(** The same for successors computed without registration. *)
Theorem C15_unregistered_successors_follow_semantics : forall t s o, task_ok t -> state_ok t s ->
  stratified_model t s s -> o < length (t_ops t) ->
  exists s', get_unregistered_successor t s o = Ok s' /\ state_ok t s' /\ progress t s o s'.
Proof. exact unregistered_ok. Qed.
Print Assumptions C15_unregistered_successors_follow_semantics.

Definition ex_init_task : task := {|
  t_vars := t_vars ex_task; t_ops := t_ops ex_task; t_rules := t_rules ex_task; t_init := [0; 1; 0; 0; 0]; t_goal := t_goal ex_task |}.

Lemma ex_init_ok : task_ok ex_init_task /\ stratified_model ex_init_task (t_init ex_init_task) (t_init ex_init_task).
Proof.
  assert (Ht : task_ok ex_init_task).
  { destruct ex_task_ok as (A & B & C & D & E). unfold task_ok. splits; auto. repeat constructor. }
  split; auto. destruct (C13_evaluate_is_stratified_model ex_init_task Ht) as (ax & Ea & H).
  destruct (H [0; 1; 0; 0; 0]) as (s' & Es & _ & Hm & _).
  - repeat constructor.
  - discriminate.
  - replace s' with [0; 1; 0; 0; 0] in Hm; auto.
    assert (R : (let* ax := make_axeval ex_init_task in evaluate ax [0; 1; 0; 0; 0]) = Ok [0; 1; 0; 0; 0]) by (vm_compute; reflexivity).
    rewrite Ea in R. cbn [bind] in R. congruence.
Qed.

(* operator 0 in the initial state (0,1 | 0,0,0) has a conditional effect that does not fire,
   so its result is the initial state again; operator 1 changes variable 0 *)
Example C14_C15_nonvacuous :
  task_ok ex_init_task /\ t_vars ex_init_task <> [] /\
  (forall v x, is_var ex_init_task v x -> (N.of_nat (vdom x) <= 2 ^ 31)%N) /\
  stratified_model ex_init_task (t_init ex_init_task) (t_init ex_init_task) /\
  (let* r := registry_history (fun l => hd 0%N l) ex_init_task [CallInitial; CallSuccessor 0 0; CallSuccessor 1 1; CallInitial; CallSuccessor 2 0] in
   Ok (reg_size (fst r), map h_id (snd r), map h_values (snd r)))
  = Ok (2, [0; 0; 1; 0; 1], [[0; 1; 0; 0; 0]; [0; 1; 0; 0; 0]; [2; 1; 0; 0; 0]; [0; 1; 0; 0; 0]; [2; 1; 0; 0; 0]]).
Proof.
  destruct ex_init_ok as [A B]. split; [exact A|]. split; [discriminate|]. split; [|split; [exact B|vm_compute; reflexivity]].
  intros v x Hx. unfold is_var in Hx. do 5 (destruct v as [|v]; [cbn in Hx; injection Hx as <-; cbn; lia|]). destruct v; discriminate.
Qed.

(** Decision procedures for the examples: well-formed tasks, evaluated states, plans. *)
From Verif Require Import Outcome Spec_Task Spec_Relaxation Model_Task Model_Axioms Proof_Axioms Proof_Task Model_Registry Proof_Registry.

Definition fact_okb (t : task) (f : fact) : bool :=
  match nth_error (t_vars t) (fst f) with Some x => snd f <? vdom x | None => false end.
Definition facts_okb (t : task) (fs : list fact) : bool := forallb (fact_okb t) fs.
Definition rule_okb (t : task) (r : rule) : bool :=
  facts_okb t (r_body r) && fact_okb t (r_head r) &&
  match nth_error (t_vars t) (fst (r_head r)) with
  | Some x => match vlayer x with
    | Some k => negb (snd (r_head r) =? vdefault x) &&
        forallb (fun f => match nth_error (t_vars t) (fst f) with
          | Some y => match vlayer y with Some k' => (k' <=? k) && (negb (k' =? k) || negb (snd f =? vdefault y)) | None => true end
          | None => true end) (r_body r)
    | None => false end
  | None => false end.
Definition effect_okb (t : task) (e : effect) : bool :=
  facts_okb t (eff_cond e) && fact_okb t (eff_fact e) && match layer_of t (fst (eff_fact e)) with None => true | Some _ => false end.
Definition operator_okb (t : task) (op : operator) : bool := facts_okb t (op_pre op) && forallb (effect_okb t) (op_effs op).
Definition variable_okb (x : variable) : bool :=
  (1 <=? vdom x) && (vdefault x <? vdom x) && match vlayer x with Some _ => vdom x =? 2 | None => true end.
Fixpoint state_okb (s : state) (xs : list variable) : bool :=
  match s, xs with [], [] => true | d :: s, x :: xs => (d <? vdom x) && state_okb s xs | _, _ => false end.
Definition task_okb (t : task) : bool :=
  forallb variable_okb (t_vars t) && forallb (operator_okb t) (t_ops t) && forallb (rule_okb t) (t_rules t) &&
  state_okb (t_init t) (t_vars t) && facts_okb t (t_goal t).

Ltac ands H := repeat (let H1 := fresh in let H2 := fresh in apply andb_true_iff in H as [H H1]).
Lemma fact_okb_ok t f : fact_okb t f = true -> fact_ok t f.
Proof. unfold fact_okb, fact_ok, is_var. destruct (nth_error (t_vars t) (fst f)) as [x|]; [|discriminate]. intros H. apply Nat.ltb_lt in H. eauto. Qed.
Lemma facts_okb_ok t fs : facts_okb t fs = true -> Forall (fact_ok t) fs.
Proof. unfold facts_okb. rewrite forallb_forall, Forall_forall. intros H f Hf. now apply fact_okb_ok, H. Qed.
Lemma state_okb_ok t s : state_okb s (t_vars t) = true -> state_ok t s.
Proof.
  unfold state_ok. generalize (t_vars t). induction s as [|d s IH]; intros [|x xs] H; try discriminate; constructor; cbn in H; apply andb_true_iff in H as [H1 H2]; auto.
  now apply Nat.ltb_lt.
Qed.
Lemma forallb_Forall {A} (p : A -> bool) (P : A -> Prop) l : (forall x, p x = true -> P x) -> forallb p l = true -> Forall P l.
Proof. intros Hp H. rewrite forallb_forall in H. apply Forall_forall. auto. Qed.
Lemma task_okb_ok t : task_okb t = true -> task_ok t.
Proof.
  unfold task_okb. intros H. apply andb_true_iff in H as [H H5]. apply andb_true_iff in H as [H H4]. apply andb_true_iff in H as [H H3]. apply andb_true_iff in H as [H1 H2].
  unfold task_ok. splits; [| | |now apply state_okb_ok|now apply facts_okb_ok].
  - eapply forallb_Forall; [|exact H1]. intros x Hx. unfold variable_okb in Hx. apply andb_true_iff in Hx as [Hx H7]. apply andb_true_iff in Hx as [Hx H6]. apply Nat.leb_le in Hx. apply Nat.ltb_lt in H6.
    unfold variable_ok. splits; auto. intros Hn. destruct (vlayer x); [now apply Nat.eqb_eq|contradiction].
  - eapply forallb_Forall; [|exact H2]. intros op Hop. unfold operator_okb in Hop. apply andb_true_iff in Hop as [A B]. split; [now apply facts_okb_ok|].
    eapply forallb_Forall; [|exact B]. intros e He. unfold effect_okb in He. apply andb_true_iff in He as [He E]. apply andb_true_iff in He as [C D]. unfold effect_ok. splits; [now apply facts_okb_ok|now apply fact_okb_ok|].
    destruct (layer_of t (fst (eff_fact e))); congruence.
  - eapply forallb_Forall; [|exact H3]. intros r Hr. unfold rule_okb in Hr. apply andb_true_iff in Hr as [Hr C]. apply andb_true_iff in Hr as [A B]. unfold rule_ok. splits; [now apply facts_okb_ok|now apply fact_okb_ok|].
    unfold is_var. destruct (nth_error (t_vars t) (fst (r_head r))) as [x|]; [|discriminate]. destruct (vlayer x) as [k|] eqn:Ek; [|discriminate]. apply andb_true_iff in C as [C D].
    exists x, k. splits; auto; [intros E; rewrite E, Nat.eqb_refl in C; discriminate|]. intros v d Hin y k' Hy Hk'. rewrite forallb_forall in D. specialize (D _ Hin). cbn [fst snd] in D. rewrite Hy, Hk' in D.
    apply andb_true_iff in D as [D1 D2]. apply Nat.leb_le in D1. split; auto. intros -> ->. rewrite !Nat.eqb_refl in D2. discriminate.
Qed.

Definition evaluatedb (t : task) (s s' : state) : Prop := (let* ax := make_axeval t in evaluate ax s) = Ok s'.
Lemma evaluatedb_ok t s s' : task_ok t -> t_rules t <> [] -> state_ok t s -> evaluatedb t s s' -> stratified_model t s s' /\ state_ok t s'.
Proof.
  intros Ht Hne Hs E. destruct (evaluate_correct t Ht) as (ax & Ea & H). destruct (H s Hs) as (s'' & E' & A & B & _); [intros K; contradiction|].
  unfold evaluatedb in E. rewrite Ea in E. cbn [bind] in E. assert (s'' = s') by congruence. subst. auto.
Qed.

(** Specification: finite-domain planning tasks and their semantics.

    Variables, values, operators and rules are numbered from 0.  A state lists the value of
    every variable.  Derived variables ([vlayer = Some k]) have a default value and get their
    value from rules, layer by layer. *)
From Coq Require Import List Arith.
Import ListNotations.

Definition fact : Type := (nat * nat)%type.          (* variable, value *)
Definition state : Type := list nat.

Record variable := { vdom : nat; vlayer : option nat; vdefault : nat }.
Record effect := { eff_cond : list fact; eff_fact : fact }.
Record operator := { op_pre : list fact; op_effs : list effect; op_cost : nat }.
(** A rule [body -> head]. *)
Record rule := { r_body : list fact; r_head : fact }.

Record task := {
  t_vars : list variable;
  t_ops : list operator;
  t_rules : list rule;
  t_init : state;
  t_goal : list fact
}.

(** [v = d] holds in [s]. *)
Definition holds (s : state) (f : fact) : Prop := nth_error s (fst f) = Some (snd f).
Definition all_hold (s : state) (fs : list fact) : Prop := forall f, In f fs -> holds s f.

(** [o] is the index of an operator whose precondition holds in [s]. *)
Definition applicable (t : task) (s : state) (o : nat) : Prop :=
  exists op, nth_error (t_ops t) o = Some op /\ all_hold s (op_pre op).

Definition goal_state (t : task) (s : state) : Prop := all_hold s (t_goal t).

Definition is_var (t : task) (v : nat) (x : variable) : Prop := nth_error (t_vars t) v = Some x.
Definition layer_of (t : task) (v : nat) : option nat :=
  match nth_error (t_vars t) v with Some x => vlayer x | None => None end.

(** One value per variable, each in its domain. *)
Definition state_ok (t : task) (s : state) : Prop := Forall2 (fun x d => x < vdom d) s (t_vars t).

(** Fact in range. *)
Definition fact_ok (t : task) (f : fact) : Prop :=
  exists x, is_var t (fst f) x /\ snd f < vdom x.

(** Stratified semantics.  [supported t s' k v d]: the fact [v = d] of layer [k] follows from
    the rules, where facts of other layers are read off [s'] and facts of layer [k] must
    themselves be supported. *)
Inductive supported (t : task) (s' : state) (k : nat) : nat -> nat -> Prop :=
| supported_rule : forall r v d, In r (t_rules t) -> r_head r = (v, d) -> layer_of t v = Some k ->
    (forall v' d', In (v', d') (r_body r) -> layer_of t v' = Some k -> supported t s' k v' d') ->
    (forall v' d', In (v', d') (r_body r) -> layer_of t v' <> Some k -> holds s' (v', d')) ->
    supported t s' k v d.

(** [s'] agrees with [s] on the non-derived variables, and each derived variable has a
    supported non-default value, or its default value if there is none. *)
Definition stratified_model (t : task) (s s' : state) : Prop :=
  length s' = length s /\
  (forall v, layer_of t v = None -> nth_error s' v = nth_error s v) /\
  (forall v x k d, is_var t v x -> vlayer x = Some k -> holds s' (v, d) ->
     (d <> vdefault x -> supported t s' k v d) /\
     (d = vdefault x -> forall d', d' <> vdefault x -> ~ supported t s' k v d')).

(** The value the firing effects of an operator give to variable [v], if any; conditions are
    read in [s], and of several firing effects the last one counts. *)
Inductive effect_value (s : state) : list effect -> nat -> option nat -> Prop :=
| effect_value_nil : forall v, effect_value s [] v None
| effect_value_last : forall es e v d, all_hold s (eff_cond e) -> eff_fact e = (v, d) ->
    effect_value s (es ++ [e]) v (Some d)
| effect_value_skip : forall es e v r, (all_hold s (eff_cond e) -> fst (eff_fact e) <> v) ->
    effect_value s es v r -> effect_value s (es ++ [e]) v r.

(** [s'] is the state after operator [o] in [s]. *)
Definition progress (t : task) (s : state) (o : nat) (s' : state) : Prop :=
  exists op s1, nth_error (t_ops t) o = Some op /\ length s1 = length s /\
    (forall v r, v < length s -> effect_value s (op_effs op) v r ->
       nth_error s1 v = match r with Some d => Some d | None => nth_error s v end) /\
    stratified_model t s1 s'.

(** Well-formed tasks (what the input format promises). *)
Definition rule_ok (t : task) (r : rule) : Prop :=
  Forall (fact_ok t) (r_body r) /\ fact_ok t (r_head r) /\
  exists x k, is_var t (fst (r_head r)) x /\ vlayer x = Some k /\ snd (r_head r) <> vdefault x /\
    forall v d, In (v, d) (r_body r) -> forall x' k', is_var t v x' -> vlayer x' = Some k' ->
      k' <= k /\ (k' = k -> d <> vdefault x').
Definition effect_ok (t : task) (e : effect) : Prop :=
  Forall (fact_ok t) (eff_cond e) /\ fact_ok t (eff_fact e) /\ layer_of t (fst (eff_fact e)) = None.
Definition operator_ok (t : task) (op : operator) : Prop :=
  Forall (fact_ok t) (op_pre op) /\ Forall (effect_ok t) (op_effs op).
Definition variable_ok (x : variable) : Prop :=
  1 <= vdom x /\ (vlayer x <> None -> vdefault x < vdom x) /\ (vlayer x <> None -> vdom x = 2).

Definition task_ok (t : task) : Prop :=
  Forall variable_ok (t_vars t) /\ Forall (operator_ok t) (t_ops t) /\ Forall (rule_ok t) (t_rules t) /\
  state_ok t (t_init t) /\ Forall (fact_ok t) (t_goal t).

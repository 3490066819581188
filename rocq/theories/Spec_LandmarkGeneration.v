(** Specification: the delete relaxation as a planning problem, its landmarks, and relaxed
    reachability without given atoms.

    A relaxed state is a set of facts (a list); operators only add facts to it. *)
From Coq Require Import List Arith.
From Verif Require Import Spec_Task.
Import ListNotations.

(** [relaxed_run ops F os F']: applying the operators [os] one after the other to the set [F] of
    facts gives [F'].  Effect conditions are not part of this definition: it is used for operators
    without them. *)
Inductive relaxed_run (ops : list operator) : list fact -> list nat -> list fact -> Prop :=
| rrun_nil : forall F, relaxed_run ops F [] F
| rrun_cons : forall F o op os F', nth_error ops o = Some op -> (forall f, In f (op_pre op) -> In f F) ->
    relaxed_run ops (F ++ map eff_fact (op_effs op)) os F' -> relaxed_run ops F (o :: os) F'.

(** The facts true in the initial state, except for those in [X]. *)
Definition initially_without (t : task) (X : fact -> Prop) (F : list fact) : Prop :=
  forall f, In f F <-> holds (t_init t) f /\ ~ X f.
(** A relaxed plan, reaching exactly the facts [F]. *)
Definition relaxed_plan (t : task) (ops : list operator) (os : list nat) (F : list fact) : Prop :=
  exists F0, initially_without t (fun _ => False) F0 /\ relaxed_run ops F0 os F /\ forall g, In g (t_goal t) -> In g F.
Definition relaxed_solvable (t : task) (ops : list operator) : Prop := exists os F, relaxed_plan t ops os F.
(** [a] is needed: relaxed plans that start without it make it true.  If [a] is not true initially
    this means that every relaxed plan makes it true; otherwise, that its being true initially
    matters. *)
Definition relaxed_landmark (t : task) (ops : list operator) (a : fact) : Prop :=
  forall F0 os F, initially_without t (fun f => f = a) F0 -> relaxed_run ops F0 os F ->
    (forall g, In g (t_goal t) -> In g F) -> In a F.

(** The unary relaxation: one operator for each effect. *)
Definition split_operator (op : operator) : list operator :=
  map (fun e => {| op_pre := op_pre op ++ eff_cond e;
                   op_effs := [{| eff_cond := []; eff_fact := eff_fact e |}];
                   op_cost := op_cost op |}) (op_effs op).
Definition unary_relaxation (ops : list operator) : list operator := flat_map split_operator ops.

Definition no_conditional_effects (t : task) : Prop :=
  forall op e, In op (t_ops t) -> In e (op_effs op) -> eff_cond e = [].
(** No other effect of the operator interferes with an unconditional effect. *)
Definition unconditional_effects_happen (t : task) : Prop :=
  forall op e e', In op (t_ops t) -> In e (op_effs op) -> In e' (op_effs op) -> eff_cond e = [] ->
    fst (eff_fact e') = fst (eff_fact e) -> eff_fact e' = eff_fact e.

(** [avoiding t unary X f]: [f] can be reached in the delete relaxation without ever reaching a
    fact of [X].  Operators with an unconditional effect in [X] are not used at all (unless
    [unary], which allows using the other effects), effects in [X] never.  A rule also needs the
    other value of its variable. *)
Inductive avoiding (t : task) (unary : bool) (X : fact -> Prop) : fact -> Prop :=
| av_init : forall f, holds (t_init t) f -> ~ X f -> avoiding t unary X f
| av_op : forall op e, In op (t_ops t) -> In e (op_effs op) ->
    (unary = false -> forall e', In e' (op_effs op) -> eff_cond e' = [] -> ~ X (eff_fact e')) ->
    ~ X (eff_fact e) ->
    (forall g, In g (op_pre op ++ eff_cond e) -> avoiding t unary X g) -> avoiding t unary X (eff_fact e)
| av_rule : forall r, In r (t_rules t) -> ~ X (r_head r) ->
    avoiding t unary X (fst (r_head r), 1 - snd (r_head r)) ->
    (forall g, In g (r_body r) -> avoiding t unary X g) -> avoiding t unary X (r_head r).

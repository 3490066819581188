(** Specification: what each constraint generator says about operator counts in a state. *)
From Coq Require Import List Arith QArith.
Import ListNotations.
From Verif Require Import Spec_Task Spec_Relaxation Spec_Projection Spec_LP Spec_OperatorCounting Spec_PatternCollections Model_PDB Model_LPSolver Model_OperatorCounting Prop_LMCut.

(** The support of reached facts is acyclic. *)
Definition acyclic_support (t : task) (a : acyclicity) (int : bool) (edges : list (fact * fact)) (delta : list (fact * fact * fact)) (fa : fact -> nat -> Q) : Prop :=
  match a with
  | VertexElimination => edge_order t int edges delta fa
  | TimeLabels => time_labels t int fa
  | NoAcyclicity => True
  end.

(** [describes t s g c]: [c] is the condition on operator counts that generator [g] stands for in
    state [s].  For LM-cut, this is one landmark constraint for each of a list of landmarks with
    costs, as in C35; for the vertex elimination, the graph is some vertex elimination graph. *)
Definition describes (t : task) (s : state) (g : generator) (c : (nat -> Q) -> Prop) : Prop :=
  match g with
  | GStateEquation => forall x, c x <-> state_equation t s x
  | GLmCut => exists lms : list (list nat * nat),
      (forall L w, In (L, w) lms -> (0 < w)%nat /\ action_landmark t s L /\ L <> [] /\ NoDup L /\ forall o, In o L -> exists op, is_op t o op) /\
      (forall o op, is_op t o op -> (list_sum (map (fun lm => if existsb (Nat.eqb o) (fst lm) then snd lm else 0%nat) lms) <= op_cost op)%nat) /\
      (forall f, In f (t_goal t) -> rreach t (fun o => exists op, is_op t o op /\
         list_sum (map (fun lm => if existsb (Nat.eqb o) (fst lm) then snd lm else 0%nat) lms) = op_cost op) s f) /\
      forall x, c x <-> forall L w, In (L, w) lms -> landmark_uses L x
  | GPosthoc pats => (forall pat, In pat pats -> exists v, perfect_value (project t pat (task_costs t)) (proj_state pat s) (Some v)) /\
      forall x, c x <-> forall pat, In pat pats -> posthoc t pat s x
  | GRelaxIF time int => forall x, c x <-> relaxation_if t time int s x
  | GRelaxRR a int => exists edges delta, (a = VertexElimination -> vertex_elimination t edges delta) /\
      forall x, c x <-> exists f fa, relaxation_rr t int s x f fa /\ acyclic_support t a int edges delta fa
  end.

(** The generator finds that there is no plan. *)
Definition reports_dead (t : task) (s : state) (g : generator) : Prop :=
  match g with
  | GLmCut => exists f, In f (t_goal t) /\ ~ rreach t (fun _ => True) s f
  | GPosthoc pats => exists pat, In pat pats /\ perfect_value (project t pat (task_costs t)) (proj_state pat s) None
  | _ => False
  end.

(** What the generators and solvers need.  (C63_refuted_* of Prop_OperatorCounting show why.) *)
Definition generator_supported (t : task) (g : generator) : Prop :=
  match g with
  | GStateEquation => no_noop_effects t
  | GPosthoc pats => forall pat, In pat pats -> pattern_ok t pat /\ (pattern_size t pat <= MAX_STATES)%Z
  | GRelaxRR VertexElimination _ => no_noop_effects t
  | _ => True
  end.
Definition solver_supported (k : solver_kind) (gs : list generator) (int : bool) : Prop :=
  k = Soplex -> int = false /\
    (length (filter (fun g => match g with GLmCut => true | _ => false end) gs) <= 1)%nat /\
    forall g, In g gs -> match g with GRelaxIF _ i | GRelaxRR _ i => i = false | _ => True end.

(** Operator counts that meet all conditions, and their cost. *)
Definition solution (t : task) (int : bool) (conds : list ((nat -> Q) -> Prop)) (x : nat -> Q) : Prop :=
  (forall o op, is_op t o op -> (0 <= x o)%Q /\ (int = true -> integral (x o))) /\ forall c, In c conds -> c x.
Definition counts_cost (t : task) (x : nat -> Q) : Q := opsum t (fun o op => inject_Z (Z.of_nat (op_cost op)) * x o)%Q.

(** Rounding with relative error [u] (and absolute error [u] close to 0). *)
Definition rounds (u : Q) (rnd : Q -> Q) : Prop :=
  forall x b, (- b <= x <= b -> x - u * (b + 1) <= rnd x <= x + u * (b + 1))%Q.

(** Relaxed plans: sets of operators with which all goals are reached when deletions are ignored. *)
Definition relaxed_plan (t : task) (s : state) (os : list nat) : Prop :=
  (forall o, In o os -> exists op, is_op t o op) /\ forall f, In f (t_goal t) -> rreach t (fun o => In o os) s f.
Definition hplus (t : task) (s : state) (v : nat) : Prop := least (fun c => exists os, relaxed_plan t s os /\ plan_cost t os = c) v.

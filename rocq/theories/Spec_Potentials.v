(** Specification: potential functions, and what a solver may answer to a maximization problem. *)
From Coq Require Import List Arith ZArith QArith.
From Verif Require Import Spec_Task Spec_Relaxation Spec_LP.
Import ListNotations.
Local Open Scope nat_scope.

(** A potential function gives a weight to every fact; the potential of a state is the sum of the
    weights of its facts. *)
Definition potential (W : fact -> Q) (s : state) : Q := qsum W (combine (seq 0 (length s)) s).

(** A potential function never exceeds the cost of a step plus the potential after the step, and is
    not positive in goal states. *)
Definition consistent_potential (t : task) (W : fact -> Q) : Prop :=
  forall s o op s', state_ok t s -> nth_error (t_ops t) o = Some op -> applicable t s o -> progress t s o s' ->
    (potential W s <= inject_Z (Z.of_nat (op_cost op)) + potential W s')%Q.
Definition goal_aware_potential (t : task) (W : fact -> Q) : Prop :=
  forall s, state_ok t s -> goal_state t s -> (potential W s <= 0)%Q.

(** An assignment that violates no bound by more than [tol]. *)
Definition near_feasible (tol : Q) (vs : list lpvar) (cs : list lpcon) (x : nat -> Q) : Prop :=
  (forall i v, nth_error vs i = Some v -> above (v_lo v) (x i + tol)%Q /\ below (x i - tol)%Q (v_up v)) /\
  forall c, In c cs -> above (c_lo c) (lin x (c_terms c) + tol)%Q /\ below (lin x (c_terms c) - tol)%Q (c_up c).

(** What a solver may report for a maximization problem without integer variables: a solution, which
    may violate the bounds by [tol] and may be worse by [tol] than feasible assignments, or that there
    is no optimal solution. *)
Definition max_answer (tol : Q) (vs : list lpvar) (cs : list lpcon) (ans : option (list Q)) : Prop :=
  match ans with
  | Some sol => length sol = length vs /\ near_feasible tol vs cs (fun i => nth i sol 0%Q) /\
                forall x, feasible vs cs x -> (objective vs x <= objective vs (fun i => nth i sol 0%Q) + tol)%Q
  | None => (forall x, ~ feasible vs cs x) \/
            forall b, exists x, feasible vs cs x /\ (b < objective vs x)%Q
  end.

(** Specification: what is assumed of the solver that potential heuristics use, and the potential
    functions that can be obtained. *)
From Coq Require Import List ZArith QArith.
From Verif Require Import Outcome Spec_Task Spec_LP Spec_Potentials Model_LPSolver Model_Potentials.
Local Open Scope nat_scope.

(** The objective functions that are used: those for sets of samples, and the one for all states. *)
Definition asked (t : task) (mp : option Q) (cs : list Q) : Prop :=
  (exists samples, Forall (state_ok t) samples /\ sample_coefficients t samples = Ok cs) \/
  (mp <> None /\ all_states_coefficients t = Ok cs).
(** The solver gives correct answers, up to [tol], for the programs it is asked to solve. *)
Definition solver_ok (tol : Q) (t : task) (mp : option Q) (solve : nat -> list lpvar -> list lpcon -> option (list Q)) : Prop :=
  forall lp k cs, construct_lp t mp = Ok lp -> asked t mp cs ->
    max_answer tol (set_objective (lp_vars lp) cs) (lp_cons lp) (solve k (set_objective (lp_vars lp) cs) (lp_cons lp)).
(** The numbers in its solutions are between [-b] and [b]. *)
Definition solver_within (b : Q) (solve : nat -> list lpvar -> list lpcon -> option (list Q)) : Prop :=
  forall k vs cs sol, solve k vs cs = Some sol -> Forall (fun q => - b <= q <= b)%Q sol.

(** The optimizers that exist: created, then any number of optimizations. *)
Inductive optimizer_object (solve : nat -> list lpvar -> list lpcon -> option (list Q)) (t : task) (mp : option Q) : optimizer -> Prop :=
| created : forall o, new_optimizer t mp = Ok o -> optimizer_object solve t mp o
| sampled : forall o samples o', optimizer_object solve t mp o -> Forall (state_ok t) samples -> optimize_for_samples solve t samples o = Ok o' ->
    optimizer_object solve t mp o'
| for_all_states : forall o o', optimizer_object solve t mp o -> optimize_for_all_states solve t o = Ok o' -> optimizer_object solve t mp o'.
(** The potential functions obtained from them, and their weights. *)
Definition obtained (solve : nat -> list lpvar -> list lpcon -> option (list Q)) (t : task) (mp : option Q) (p : pfunction) : Prop :=
  exists o, optimizer_object solve t mp o /\ get_potential_function o = Ok p.
Definition weight (p : pfunction) (f : fact) : Q := nth (snd f) (nth (fst f) p []) 0%Q.

(** Specification: linear programs over the rational numbers, and what a solver may answer. *)
From Coq Require Import List QArith.
Import ListNotations.
Open Scope Q_scope.

(** A variable has bounds ([None]: infinite), an objective coefficient, and may be restricted to
    integers.  A constraint bounds a sum of multiples of variables. *)
Record lpvar := { v_lo : option Q; v_up : option Q; v_obj : Q; v_int : bool }.
Record lpcon := { c_terms : list (nat * Q); c_lo : option Q; c_up : option Q }.

Fixpoint qsum {A : Type} (f : A -> Q) (l : list A) : Q :=
  match l with [] => 0 | a :: r => f a + qsum f r end.

Definition above (lo : option Q) (q : Q) : Prop := match lo with None => True | Some b => b <= q end.
Definition below (q : Q) (up : option Q) : Prop := match up with None => True | Some b => q <= b end.
Definition integral (q : Q) : Prop := exists z, q == inject_Z z.

(** An assignment gives a value to every variable number. *)
Definition lin (x : nat -> Q) (ts : list (nat * Q)) : Q := qsum (fun ic => snd ic * x (fst ic)) ts.
Definition con_ok (x : nat -> Q) (c : lpcon) : Prop := above (c_lo c) (lin x (c_terms c)) /\ below (lin x (c_terms c)) (c_up c).
Definition var_ok (q : Q) (v : lpvar) : Prop := above (v_lo v) q /\ below q (v_up v) /\ (v_int v = true -> integral q).
Definition feasible (vs : list lpvar) (cs : list lpcon) (x : nat -> Q) : Prop :=
  (forall i v, nth_error vs i = Some v -> var_ok (x i) v) /\ (forall c, In c cs -> con_ok x c).
Definition objective (vs : list lpvar) (x : nat -> Q) : Q :=
  qsum (fun iv => v_obj (snd iv) * x (fst iv)) (combine (seq 0 (length vs)) vs).

(** The programs a solver accepts: constraints only mention existing variables, and no variable
    twice. *)
Definition well_formed (vs : list lpvar) (cs : list lpcon) : Prop :=
  forall c, In c cs -> NoDup (map fst (c_terms c)) /\ forall i a, In (i, a) (c_terms c) -> (i < length vs)%nat.

(** What a solver may report for a minimization problem, up to an error [tol] in the objective value:
    an objective value ([Some]), or that there is no optimal solution ([None]). *)
Definition min_answer (tol : Q) (vs : list lpvar) (cs : list lpcon) (ans : option Q) : Prop :=
  match ans with
  | Some obj => (exists x, feasible vs cs x /\ objective vs x <= obj + tol) /\
                forall x, feasible vs cs x -> obj <= objective vs x + tol
  | None => (forall x, ~ feasible vs cs x) \/
            forall b, exists x, feasible vs cs x /\ objective vs x < b
  end.

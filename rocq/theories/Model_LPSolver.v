(** Model of the LP solver interface (lp/lp_solver.h, lp_solver.cc) as far as the rows of the program
    are concerned: loading a program, temporary constraints, changing bounds.  Numbers are rationals;
    [None] is the solver's infinity.  Solving is not modelled: the answer is an input, constrained by
    [min_answer] of Spec_LP.  Names, statistics and writing to files are not modelled. *)
From Coq Require Import QArith.
From Verif Require Import Outcome Spec_LP.

Local Open Scope nat_scope.

Inductive solver_kind := Cplex | Soplex.

(* lp_solver.h:82-116 (LinearProgram) *)
Record lprog := { lp_vars : list lpvar; lp_cons : list lpcon }.

(* The rows the external solver holds; the first [sv_perm] are permanent.
   soplex_solver_interface.h: num_permanent_constraints, num_temporary_constraints;
   the CPLEX interface has no counter for temporary rows ([sv_temp] is not used then). *)
Record solver := { sv_kind : solver_kind; sv_vars : list lpvar; sv_rows : list lpcon; sv_perm : nat; sv_temp : nat }.
Definition with_rows (sv : solver) (rows : list lpcon) (temp : nat) : solver :=
  {| sv_kind := sv_kind sv; sv_vars := sv_vars sv; sv_rows := rows; sv_perm := sv_perm sv; sv_temp := temp |}.

(* cplex_solver_interface.cc:317-373, soplex_solver_interface.cc:61-76 (load_problem) *)
Definition load_problem (k : solver_kind) (lp : lprog) : outcome solver :=
  if match k with Soplex => existsb v_int (lp_vars lp) | Cplex => false end then Exit 34
  else Ok {| sv_kind := k; sv_vars := lp_vars lp; sv_rows := lp_cons lp; sv_perm := length (lp_cons lp); sv_temp := 0 |}.

(* cplex_solver_interface.cc:375-411, soplex_solver_interface.cc:78-82: SoPlex's counter is overwritten *)
Definition add_temporary_constraints (sv : solver) (cs : list lpcon) : solver :=
  with_rows sv (sv_rows sv ++ cs) (length cs).
(* cplex_solver_interface.cc:413-424, soplex_solver_interface.cc:84-91 *)
Definition clear_temporary_constraints (sv : solver) : solver :=
  match sv_kind sv with
  | Cplex => with_rows sv (firstn (sv_perm sv) (sv_rows sv)) 0
  | Soplex => if 0 <? sv_temp sv
              then with_rows sv (firstn (sv_perm sv) (sv_rows sv) ++ skipn (sv_perm sv + sv_temp sv) (sv_rows sv)) 0
              else sv
  end.
(* cplex_solver_interface.cc:595-597, soplex_solver_interface.cc:236-238 *)
Definition has_temporary_constraints (sv : solver) : bool :=
  match sv_kind sv with Cplex => sv_perm sv <? length (sv_rows sv) | Soplex => 0 <? sv_temp sv end.

(* cplex_solver_interface.cc:439-445, soplex_solver_interface.cc:108-116 *)
Definition set_constraint_lower_bound (sv : solver) (i : nat) (b : Q) : outcome solver :=
  let* c := vget (sv_rows sv) i in
  let* rows := vset (sv_rows sv) i {| c_terms := c_terms c; c_lo := Some b; c_up := c_up c |} in
  Ok (with_rows sv rows (sv_temp sv)).
Definition set_constraint_upper_bound (sv : solver) (i : nat) (b : Q) : outcome solver :=
  let* c := vget (sv_rows sv) i in
  let* rows := vset (sv_rows sv) i {| c_terms := c_terms c; c_lo := c_lo c; c_up := Some b |} in
  Ok (with_rows sv rows (sv_temp sv)).

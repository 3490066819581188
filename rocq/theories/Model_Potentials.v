(** Model of potential heuristics (potentials/*.cc).  Numbers are rationals; [rnd] rounds the results
    of floating-point additions.  Solving a linear program is not modelled: the answers of the solver
    are an input [solve], a function of the number of earlier calls and of the program.  Logging and
    timers are not modelled. *)
From Coq Require Import QArith Qround.
From Verif Require Import Outcome Spec_Task Spec_LP Model_Task Model_LPSolver Model_Landmarks Model_OperatorCounting.
Local Open Scope nat_scope.

(* potential_optimizer.cc:17-19 (get_undefined_value) *)
Definition undefined_value (x : variable) : nat := vdom x.
(* potential_optimizer.cc:34-47: LP variables are numbered consecutively, with one more per variable
   for the undefined value *)
Fixpoint lp_var_ids (next : nat) (vs : list variable) : list (list nat) :=
  match vs with [] => [] | x :: r => seq next (vdom x + 1) :: lp_var_ids (next + (vdom x + 1)) r end.
Definition num_lp_vars (vs : list variable) : nat := list_sum (map (fun x => vdom x + 1) vs).
(* potential_optimizer.cc:57-63 *)
Definition get_lp_var_id (ids : list (list nat)) (var val : nat) : outcome nat := let* r := vget ids var in vget r val.

(* potential_optimizer.cc:117-120, 127-134: a map from variables to values; a later entry replaces an
   earlier one *)
Definition pre_value (op : operator) (var : nat) : option nat :=
  option_map snd (find (fun f => fst f =? var) (rev (op_pre op))).
(* potential_optimizer.cc:123-149 (one effect) *)
Definition effect_terms (t : task) (ids : list (list nat)) (op : operator) (e : effect) : outcome (list (nat * Q)) :=
  let var := fst (eff_fact e) in
  let* x := vget (t_vars t) var in
  let pre := match pre_value op var with Some d => d | None => undefined_value x end in
  let* pre_lp := get_lp_var_id ids var pre in
  let* post_lp := get_lp_var_id ids var (snd (eff_fact e)) in
  Ok (if pre_lp =? post_lp then [] else [(pre_lp, 1%Q); (post_lp, (-1)%Q)]).
(* std::sort on pairs of variable and coefficient (potential_optimizer.cc:150); entries for the same
   variable are left in their order *)
Fixpoint insert_term (a : nat * Q) (l : list (nat * Q)) : list (nat * Q) :=
  match l with [] => [a] | b :: r => if fst a <=? fst b then a :: l else b :: insert_term a r end.
Definition sort_terms (l : list (nat * Q)) : list (nat * Q) := fold_right insert_term [] l.
(* potential_optimizer.cc:113-154 (one operator) *)
Definition op_constraint (t : task) (ids : list (list nat)) (op : operator) : outcome lpcon :=
  let* ts := fold_outcome (fun l e => let* l' := effect_terms t ids op e in Ok (l ++ l')) (op_effs op) [] in
  Ok {| c_terms := sort_terms ts; c_lo := None; c_up := Some (inject_Z (Z.of_nat (op_cost op))) |}.

(* potential_optimizer.cc:156-165: the goal value of each variable, or its undefined value *)
Definition full_goal (t : task) : outcome (list nat) :=
  let* g := fold_outcome (fun g f => vset g (fst f) (Some (snd f))) (t_goal t) (repeat None (length (t_vars t))) in
  Ok (map (fun xg => match snd xg with Some d => d | None => undefined_value (fst xg) end) (combine (t_vars t) g)).
(* potential_optimizer.cc:167-180: the bounds of the goal fact of one variable *)
Definition fix_goal (ids : list (list nat)) (lvs : list lpvar) (vg : nat * nat) : outcome (list lpvar) :=
  let* i := get_lp_var_id ids (fst vg) (snd vg) in
  let* v := vget lvs i in
  vset lvs i {| v_lo := Some 0%Q; v_up := Some 0%Q; v_obj := v_obj v; v_int := v_int v |}.
(* potential_optimizer.cc:182-192: the constraints of one variable *)
Definition undef_constraints (ids : list (list nat)) (vx : nat * variable) : outcome (list lpcon) :=
  let* u := get_lp_var_id ids (fst vx) (undefined_value (snd vx)) in
  omap (fun d => let* i := get_lp_var_id ids (fst vx) d in
                 Ok {| c_terms := [(i, 1%Q); (u, (-1)%Q)]; c_lo := None; c_up := Some 0%Q |}) (seq 0 (vdom (snd vx))).
(* potential_optimizer.cc:101-198 (construct_lp); [max_potential]: [None] is infinity *)
Definition construct_lp (t : task) (max_potential : option Q) : outcome lprog :=
  let ids := lp_var_ids 0 (t_vars t) in
  let lvs := repeat {| v_lo := None; v_up := max_potential; v_obj := 1%Q; v_int := false |} (num_lp_vars (t_vars t)) in
  let* ops := omap (op_constraint t ids) (t_ops t) in
  let* g := full_goal t in
  let* lvs := fold_outcome (fix_goal ids) (numbered g) lvs in
  let* us := omap (undef_constraints ids) (numbered (t_vars t)) in
  Ok {| lp_vars := lvs; lp_cons := ops ++ concat us |}.

(* potential_function.h *)
Definition pfunction : Type := list (list Q).
(* potential_optimizer.h: the program in the solver, the potentials, whether the last call found an
   optimal solution, and how often the solver was called *)
Record optimizer := { po_max : option Q; po_vars : list lpvar; po_cons : list lpcon; po_pots : pfunction; po_optimal : bool; po_calls : nat }.
(* potential_optimizer.cc:21-47 *)
Definition new_optimizer (t : task) (max_potential : option Q) : outcome optimizer :=
  if negb (supported_task t) then Exit 34 else
  let* lp := construct_lp t max_potential in
  Ok {| po_max := max_potential; po_vars := lp_vars lp; po_cons := lp_cons lp;
        po_pots := map (fun x => repeat 0%Q (vdom x)) (t_vars t); po_optimal := false; po_calls := 0 |}.
(* potential_optimizer.cc:97-99 *)
Definition potentials_are_bounded (o : optimizer) : bool := match po_max o with Some _ => true | None => false end.

(* lp_solver.h: set_objective_coefficients *)
Definition set_objective (vs : list lpvar) (cs : list Q) : list lpvar :=
  map (fun vc => {| v_lo := v_lo (fst vc); v_up := v_up (fst vc); v_obj := snd vc; v_int := v_int (fst vc) |}) (combine vs cs).

Section Solve.
Variable solve : nat -> list lpvar -> list lpcon -> option (list Q).
Variable rnd : Q -> Q.

(* potential_optimizer.cc:207-214 (extract_lp_solution) *)
Definition extract (t : task) (sol : list Q) (pots : pfunction) : outcome pfunction :=
  fold_outcome (fun p vd =>
    let* i := get_lp_var_id (lp_var_ids 0 (t_vars t)) (fst vd) (snd vd) in
    let* q := vget sol i in
    let* r := vget p (fst vd) in
    let* r' := vset r (snd vd) q in
    vset p (fst vd) r') (all_facts t) pots.
(* potential_optimizer.cc:200-205 with the new objective coefficients (:75-76, :89-90) *)
Definition optimize_for (t : task) (coefficients : list Q) (o : optimizer) : outcome optimizer :=
  let vs := set_objective (po_vars o) coefficients in
  match solve (po_calls o) vs (po_cons o) with
  | Some sol => let* p := extract t sol (po_pots o) in
                Ok {| po_max := po_max o; po_vars := vs; po_cons := po_cons o; po_pots := p; po_optimal := true; po_calls := S (po_calls o) |}
  | None => Ok {| po_max := po_max o; po_vars := vs; po_cons := po_cons o; po_pots := po_pots o; po_optimal := false; po_calls := S (po_calls o) |}
  end.
(* potential_optimizer.cc:82-88 *)
Definition count_fact (ids : list (list nat)) (cs : list Q) (vd : nat * nat) : outcome (list Q) :=
  let* i := get_lp_var_id ids (fst vd) (snd vd) in let* c := vget cs i in vset cs i (c + 1)%Q.
Definition sample_coefficients (t : task) (samples : list state) : outcome (list Q) :=
  fold_outcome (fun cs s => fold_outcome (count_fact (lp_var_ids 0 (t_vars t))) (numbered s) cs) samples
    (repeat 0%Q (num_lp_vars (t_vars t))).
Definition optimize_for_samples (t : task) (samples : list state) (o : optimizer) : outcome optimizer :=
  let* cs := sample_coefficients t samples in optimize_for t cs o.
(* potential_optimizer.cc:53-55 *)
Definition optimize_for_state (t : task) (s : state) (o : optimizer) : outcome optimizer := optimize_for_samples t [s] o.
(* potential_optimizer.cc:65-80; the division is exact here *)
Definition all_states_coefficients (t : task) : outcome (list Q) :=
  fold_outcome (fun cs vd =>
    let* x := vget (t_vars t) (fst vd) in
    let* i := get_lp_var_id (lp_var_ids 0 (t_vars t)) (fst vd) (snd vd) in
    vset cs i (1 / inject_Z (Z.of_nat (vdom x)))%Q) (all_facts t) (repeat 0%Q (num_lp_vars (t_vars t))).
Definition optimize_for_all_states (t : task) (o : optimizer) : outcome optimizer :=
  if negb (potentials_are_bounded o) then Exit 33 else
  let* cs := all_states_coefficients t in
  let* o' := optimize_for t cs o in
  if po_optimal o' then Ok o' else Exit (-6).
(* potential_optimizer.cc:216-220 *)
Definition get_potential_function (o : optimizer) : outcome pfunction := let* _ := guard (po_optimal o) in Ok (po_pots o).

(* potential_function.cc:18-29 *)
Definition sum_potentials (p : pfunction) (s : state) : outcome Q :=
  fold_outcome (fun h vd => let* r := vget p (fst vd) in let* q := vget r (snd vd) in Ok (rnd (h + q)%Q)) (numbered s) 0%Q.
Definition get_value (p : pfunction) (s : state) : outcome Z :=
  let* h := sum_potentials p s in to_int (Qceiling (rnd (h - epsilon)%Q)).
(* potential_heuristic.cc:19-22 *)
Definition potential_heuristic (p : pfunction) (s : state) : outcome Z := let* v := get_value p s in Ok (Z.max 0 v).
(* potential_max_heuristic.cc:19-26 *)
Definition potential_max_heuristic (ps : list pfunction) (s : state) : outcome Z :=
  fold_outcome (fun v p => let* w := get_value p s in Ok (Z.max v w)) ps 0%Z.

(* single_potential_heuristics.cc:17-34 *)
Inductive opt_func := INITIAL_STATE | ALL_STATES.
Definition create_potential_function (t : task) (max_potential : option Q) (f : opt_func) : outcome pfunction :=
  let* o := new_optimizer t max_potential in
  let* o := match f with INITIAL_STATE => optimize_for_state t (t_init t) o | ALL_STATES => optimize_for_all_states t o end in
  get_potential_function o.

(* task_utils/sampling.cc:18-33, task_properties.cc:68-75: the parameter of the distribution of walk
   lengths.  The division 0/0 for tasks without operators gives "not a number", whose conversion to int
   is undefined; arithmetic is exact otherwise. *)
Definition walk_parameter (t : task) (init_h : Z) : outcome Z :=
  if (init_h =? 0)%Z then Ok 10%Z else
  let* _ := guard (negb (length (t_ops t) =? 0)) in
  let avg := (inject_Z (Z.of_nat (list_sum (map op_cost (t_ops t)))) / inject_Z (Z.of_nat (length (t_ops t))))%Q in
  let* _ := guard (negb (Qeq_bool avg 0)) in
  let x := (inject_Z init_h / avg + (1 # 2))%Q in
  let* n := to_int (if Qle_bool 0 x then Qfloor x else Qceiling x) in
  to_int (4 * n)%Z.
(* util.cc:17-33: the samples are an input (any states of the task) *)
Definition sample_without_dead_end_detection (t : task) (samples : list state) (o : optimizer) : outcome optimizer :=
  let* o := optimize_for_state t (t_init t) o in
  let* p := get_potential_function o in
  let* init_h := get_value p (t_init t) in
  let* _ := match samples with [] => Ok 0%Z | _ => walk_parameter t init_h end in
  Ok o.

(* sample_based_potential_heuristics.cc:16-27 *)
Definition filter_dead_ends (t : task) (samples : list state) (o : optimizer) : outcome (list state * optimizer) :=
  let* _ := guard (negb (potentials_are_bounded o)) in
  fold_outcome (fun x s => let* o := optimize_for_state t s (snd x) in
                           Ok (if po_optimal o then fst x ++ [s] else fst x, o)) samples ([], o).
(* sample_based_potential_heuristics.cc:28-37 *)
Definition optimize_for_sampled (t : task) (samples : list state) (o : optimizer) : outcome optimizer :=
  let* o := sample_without_dead_end_detection t samples o in
  let* x := if potentials_are_bounded o then Ok (samples, o) else filter_dead_ends t samples o in
  optimize_for_samples t (fst x) (snd x).
(* sample_based_potential_heuristics.cc:39-55; one list of samples per function *)
Definition sample_based_functions (t : task) (max_potential : option Q) (samples : list (list state)) : outcome (list pfunction) :=
  let* o := new_optimizer t max_potential in
  let* x := fold_outcome (fun x smp => let* o := optimize_for_sampled t smp (snd x) in
                                       let* p := get_potential_function o in Ok (fst x ++ [p], o)) samples ([], o) in
  Ok (fst x).

(* diverse_potential_heuristics.cc:29-62; maps with states as keys are lists of pairs.  [fst]: the map,
   [fst (snd)]: the dead ends *)
Definition filter_sample (t : task) (x : list (state * pfunction) * list state * optimizer) (s : state) : outcome (list (state * pfunction) * list state * optimizer) :=
  let '(m, dead, o) := x in
  if existsb (fun e => state_eqb (fst e) s) m || existsb (state_eqb s) dead then Ok x else
  let* o := optimize_for_state t s o in
  if po_optimal o then let* p := get_potential_function o in Ok (m ++ [(s, p)], dead, o) else Ok (m, dead ++ [s], o).
Definition filter_samples_and_compute_functions (t : task) (samples : list state) (o : optimizer) : outcome (list (state * pfunction) * optimizer) :=
  let* x := fold_outcome (filter_sample t) samples ([], [], o) in Ok (fst (fst x), snd x).
(* diverse_potential_heuristics.cc:64-81 *)
Fixpoint remove_covered_samples (f : pfunction) (m : list (state * pfunction)) : outcome (list (state * pfunction)) :=
  match m with
  | [] => Ok []
  | (s, p) :: r => let* max_h := get_value p s in
                   let* h := get_value f s in
                   let* _ := guard (h <=? max_h)%Z in
                   let* r' := remove_covered_samples f r in
                   Ok (if (h =? max_h)%Z then r' else (s, p) :: r')
  end.
(* diverse_potential_heuristics.cc:83-111; [pick]: which entry is the first one of the hash map *)
Definition find_function (t : task) (pick : list (state * pfunction) -> nat) (m : list (state * pfunction)) (o : optimizer)
  : outcome (pfunction * list (state * pfunction) * optimizer) :=
  let* o := optimize_for_samples t (map fst m) o in
  let* f := get_potential_function o in
  let* m' := remove_covered_samples f m in
  if length m' =? length m then
    let* e := vget m' (pick m' mod length m') in
    let* m'' := remove_covered_samples (snd e) (firstn (pick m' mod length m') m' ++ skipn (S (pick m' mod length m')) m') in
    Ok (snd e, m'', o)
  else Ok (f, m', o).
(* diverse_potential_heuristics.cc:113-127 *)
Fixpoint cover_samples (fuel : nat) (t : task) (pick : list (state * pfunction) -> nat) (max_num : nat) (fs : list pfunction) (m : list (state * pfunction)) (o : optimizer)
  : outcome (list pfunction) :=
  match m with
  | [] => Ok fs
  | _ => if length fs <? max_num then
           match fuel with
           | O => NoFuel
           | S fuel => let* x := find_function t pick m o in
                       cover_samples fuel t pick max_num (fs ++ [fst (fst x)]) (snd (fst x)) (snd x)
           end
         else Ok fs
  end.
(* diverse_potential_heuristics.cc:18-27, 129-153 *)
Definition diverse_functions (fuel : nat) (t : task) (pick : list (state * pfunction) -> nat) (max_num : nat) (max_potential : option Q) (samples : list state) : outcome (list pfunction) :=
  let* o := new_optimizer t max_potential in
  let* o := sample_without_dead_end_detection t samples o in
  let* x := filter_samples_and_compute_functions t samples o in
  cover_samples fuel t pick max_num [] (fst x) (snd x).
End Solve.

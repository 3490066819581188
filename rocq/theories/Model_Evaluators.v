(** Model of the evaluators: heuristic.cc (compute_result with its cache), evaluation_context.cc,
    the sum, max, weight, g, pref and const evaluators, the blind and goal-count heuristics,
    operator_cost.cc with tasks/cost_adapted_task.cc, and utils/math.cc.

    [int] values are [Z]; a signed overflow is [UB]. *)
From Verif Require Import Outcome Spec_Task Model_Task.
Local Open Scope Z_scope.

Definition INT_MAX : Z := 2147483647.
Definition INT_MIN : Z := -2147483648.
Definition INFTY : Z := INT_MAX.      (* evaluation_result.cc:5 *)
Definition UNINITIALIZED : Z := -2.   (* evaluation_result.h:9 *)
Definition DEAD_END : Z := -1.        (* heuristic.h:56 *)
Definition NO_VALUE : Z := -2.        (* heuristic.h:57 *)

(* evaluation_result.h:8-13 *)
Record eresult := { r_value : Z; r_pref : list nat; r_count : bool }.

(** Assignment to [int h : 31] (heuristic.h:24): reduction modulo 2^31 (what gcc and clang do;
    implementation-defined before C++20). *)
Definition bf31 (z : Z) : Z := (z + 2 ^ 30) mod 2 ^ 31 - 2 ^ 30.

(* ---- Heuristic::compute_result ---- *)
Section HEURISTIC.
Variable X : Type.                      (* the internal data of the concrete heuristic *)
(* compute_heuristic(state): the value, the operators passed to set_preferred (without
   duplicates: OrderedSet, see Model_OrderedSet) and the new internal data; states are ids *)
Variable compute : X -> nat -> (Z * list nat) * X.
(* notify_state_transition(parent, op, state) *)
Variable notify : X -> nat -> nat -> nat -> X.

(* heuristic_cache (a PerStateInformation with default HEntry(NO_VALUE, true), heuristic.cc:19-20) *)
Record hobj := { o_x : X; o_cache : nat -> Z * bool }.
Definition new_hobj (x : X) : hobj := {| o_x := x; o_cache := fun _ => (NO_VALUE, true) |}.
Definition cache_set (c : nat -> Z * bool) (s : nat) (e : Z * bool) : nat -> Z * bool :=
  fun s' => if (s' =? s)%nat then e else c s'.

(* heuristic.cc:47-105; [caching] is cache_evaluator_values *)
Definition compute_result (caching : bool) (o : hobj) (s : nat) (calculate_preferred : bool) : outcome (eresult * hobj) :=
  let '(h, dirty) := o_cache o s in
  let '(v, pref, cnt, o) :=
    if negb calculate_preferred && caching && negb (h =? NO_VALUE) && negb dirty
    then (h, [], false, o)
    else let '((v, pref), x) := compute (o_x o) s in
         (v, pref, true, {| o_x := x;
                            o_cache := if caching then cache_set (o_cache o) s (bf31 v, false) else o_cache o |}) in
  let* _ := guard ((v =? DEAD_END) || (0 <=? v)) in
  let '(v, pref) := if v =? DEAD_END then (INFTY, []) else (v, pref) in
  Ok ({| r_value := v; r_pref := pref; r_count := cnt |}, o).

(* landmark_heuristic.cc:223-231 *)
Definition notify_transition (caching : bool) (o : hobj) (p op s : nat) : hobj :=
  {| o_x := notify (o_x o) p op s;
     o_cache := if caching then cache_set (o_cache o) s (fst (o_cache o s), true) else o_cache o |}.

Inductive hcall := HEval (s : nat) (calculate_preferred : bool) | HNotify (p op s : nat).
Fixpoint hrun (caching : bool) (o : hobj) (cs : list hcall) : outcome (list eresult) :=
  match cs with
  | [] => Ok []
  | HEval s cp :: r => let* (e, o) := compute_result caching o s cp in
                       let* es := hrun caching o r in Ok (e :: es)
  | HNotify p op s :: r => hrun caching (notify_transition caching o p op s) r
  end.
End HEURISTIC.
Arguments o_x {X}. Arguments o_cache {X}. Arguments new_hobj {X}.

(* ---- evaluators over an evaluation context ---- *)
Inductive evnode :=
| NHeur (k : nat)                 (* a heuristic object *)
| NG                              (* g_evaluator.cc *)
| NPref                           (* pref_evaluator.cc *)
| NConst (c : Z)                  (* const_evaluator.cc *)
| NSum (l : list nat)             (* sum_evaluator.cc; positions of the subevaluators *)
| NMax (l : list nat)             (* max_evaluator.cc *)
| NWeight (i : nat) (w : Z).      (* weighted_evaluator.cc *)

Section CONTEXT.
Variable evs : list evnode.
Variable W : Type.                                   (* all heuristic objects *)
Variable heval : nat -> W -> outcome (eresult * W).  (* compute_result of heuristic k for the state of the context *)
Variable g : Z.                                      (* g_value; INVALID = -1 *)
Variable is_pref : bool.

(* the evaluator cache and the number of counted evaluations *)
Record ectx := { x_cache : nat -> eresult; x_n : nat; x_w : W }.
Definition no_result : eresult := {| r_value := UNINITIALIZED; r_pref := []; r_count := false |}.
Definition new_ctx (w : W) : ectx := {| x_cache := fun _ => no_result; x_n := 0; x_w := w |}.
Definition value_only (v : Z) : eresult := {| r_value := v; r_pref := []; r_count := false |}.

(* sum_evaluator.cc:17-25 *)
Fixpoint combine_sum (vs : list Z) (acc : Z) : outcome Z :=
  match vs with
  | [] => Ok acc
  | v :: r => let* _ := guard (0 <=? v) in
              let* _ := guard (acc + v <=? INT_MAX) in combine_sum r (acc + v)
  end.
(* max_evaluator.cc:17-24 *)
Fixpoint combine_max (vs : list Z) (acc : Z) : outcome Z :=
  match vs with
  | [] => Ok acc
  | v :: r => let* _ := guard (0 <=? v) in combine_max r (Z.max acc v)
  end.

(* combining_evaluator.cc:35-46: [None] if a component is infinite *)
Fixpoint collect (get : ectx -> nat -> outcome (eresult * ectx)) (c : ectx) (l : list nat) (acc : list Z)
  : outcome (option (list Z) * ectx) :=
  match l with
  | [] => Ok (Some acc, c)
  | i :: r => let* (e, c) := get c i in
              if r_value e =? INFTY then Ok (None, c) else collect get c r (acc ++ [r_value e])
  end.

(* evaluation_context.cc:47-57 with the compute_result functions of the evaluators.  An evaluator
   is created after its subevaluators; the fuel is the depth of nested calls. *)
Fixpoint get_result (fuel : nat) (c : ectx) (i : nat) : outcome (eresult * ectx) :=
  match fuel with
  | O => NoFuel
  | S fuel =>
      if r_value (x_cache c i) =? UNINITIALIZED then
        let* nd := vget evs i in
        let* (r, c) :=
          match nd with
          | NHeur k => let* (r, w) := heval k (x_w c) in
                       Ok (r, {| x_cache := x_cache c; x_n := if r_count r then S (x_n c) else x_n c; x_w := w |})
          | NG => let* _ := guard (negb (g =? -1)) in Ok (value_only g, c)
          | NPref => let* _ := guard (negb (g =? -1)) in Ok (value_only (if is_pref then 0 else 1), c)
          | NConst v => Ok (value_only v, c)
          | NSum l => let* (vs, c) := collect (get_result fuel) c l [] in
                      match vs with
                      | None => Ok (value_only INFTY, c)
                      | Some vs => let* v := combine_sum vs 0 in Ok (value_only v, c)
                      end
          | NMax l => let* (vs, c) := collect (get_result fuel) c l [] in
                      match vs with
                      | None => Ok (value_only INFTY, c)
                      | Some vs => let* v := combine_max vs 0 in Ok (value_only v, c)
                      end
          | NWeight j w => let* (e, c) := get_result fuel c j in
                           if r_value e =? INFTY then Ok (value_only INFTY, c)
                           else let* _ := guard (r_value e * w <=? INT_MAX) in Ok (value_only (r_value e * w), c)
          end in
        Ok (r, {| x_cache := fun j => if (j =? i)%nat then r else x_cache c j; x_n := x_n c; x_w := x_w c |})
      else Ok (x_cache c i, c)
  end.

(* combining_evaluator.cc:17-21, weighted_evaluator.cc:23-25, evaluator.cc:23-25; [hrel] are the
   answers of the heuristics *)
Variable hrel : nat -> bool.
Fixpoint reliable (fuel : nat) (i : nat) : bool :=
  match fuel with
  | O => false
  | S fuel =>
      match nth_error evs i with
      | None => false
      | Some (NHeur k) => hrel k
      | Some (NSum l) | Some (NMax l) => forallb (reliable fuel) l
      | Some (NWeight j _) => reliable fuel j
      | Some _ => true
      end
  end.
End CONTEXT.
Arguments x_cache {W}. Arguments x_n {W}. Arguments x_w {W}. Arguments new_ctx {W}.

(* ---- blind and goal count ---- *)
(* task_properties.cc:77-83 *)
Definition min_operator_cost (t : task) : Z :=
  fold_left (fun m op => Z.min m (Z.of_nat (op_cost op))) (t_ops t) INT_MAX.
(* blind_search_heuristic.cc:22-28 *)
Definition blind (t : task) (s : state) : Z := if is_goalb t s then 0 else min_operator_cost t.
(* goal_count_heuristic.cc:18-29 *)
Definition goalcount (t : task) (s : state) : Z :=
  fold_left (fun n f => if holdsb s f then n else n + 1) (t_goal t) 0.

(* ---- operator costs ---- *)
Inductive cost_type := NORMAL | ONE | PLUSONE.   (* operator_cost.h *)
(* task_properties.cc:14-20 *)
Definition is_unit_cost (t : task) : bool := forallb (fun op => (op_cost op =? 1)%nat) (t_ops t).
(* operator_cost.cc:12-37 and cost_adapted_task.cc:15-24: the cost of operator or rule [index] *)
Definition adapted_cost (ct : cost_type) (t : task) (index : nat) (is_axiom : bool) : outcome Z :=
  if is_axiom then Ok 0
  else let* op := vget (t_ops t) index in
       match ct with
       | NORMAL => Ok (Z.of_nat (op_cost op))
       | ONE => Ok 1
       | PLUSONE => if is_unit_cost t then Ok 1
                    else let* _ := guard (Z.of_nat (op_cost op) + 1 <=? INT_MAX) in Ok (Z.of_nat (op_cost op) + 1)
       end.

(* ---- utils/math.cc ---- *)
(** C++ division truncates; a zero divisor is undefined. *)
Definition cdiv (a b : Z) : outcome Z := if b =? 0 then UB else Ok (Z.quot a b).
(* math.cc:10-15 *)
Definition is_product_within_limit (f1 f2 limit : Z) : outcome bool :=
  let* _ := guard (0 <=? f1) in
  let* _ := guard (0 <=? f2) in
  let* _ := guard (0 <=? limit) in
  if f2 =? 0 then Ok true else let* q := cdiv limit f2 in Ok (f1 <=? q).
(* math.cc:17-20; unsigned operands *)
Definition is_product_within_limit_unsigned (f1 f2 limit : Z) : outcome bool :=
  if f2 =? 0 then Ok true else let* q := cdiv limit f2 in Ok (f1 <=? q).
(* math.cc:22-28 *)
Definition safe_abs (x : Z) : outcome Z :=
  if x =? INT_MIN then
    let* _ := guard (- (x + 1) <=? INT_MAX) in Ok (- (x + 1) + 1)
  else if x <? 0 then let* _ := guard (- x <=? INT_MAX) in Ok (- x) else Ok x.
(* math.cc:30-44 *)
Definition is_product_within_limits (f1 f2 lower upper : Z) : outcome bool :=
  let* _ := guard (lower <? 0) in
  let* _ := guard (0 <=? upper) in
  if (0 <=? f1) && (0 <=? f2) then is_product_within_limit f1 f2 upper
  else if (f1 <? 0) && (f2 <? 0) then
    let* a := safe_abs f1 in let* b := safe_abs f2 in is_product_within_limit_unsigned a b upper
  else
    let* a := safe_abs f1 in let* b := safe_abs f2 in let* l := safe_abs lower in
    is_product_within_limit_unsigned a b l.

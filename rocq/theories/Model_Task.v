(** Model of the task accessors and state predicates used throughout (task_proxy.h,
    task_proxy.cc, task_utils/task_properties.{h,cc}). *)
From Verif Require Import Outcome Spec_Task.

(* abstract_task.h:25-27 *)
Definition fact_eqb (f g : fact) : bool := (fst f =? fst g) && (snd f =? snd g).

(* state[var] == value: task_proxy.h State::operator[] with get_value; reading outside the
   state is undefined in the code, [false] here (facts of well-formed tasks are in range) *)
Definition holdsb (s : state) (f : fact) : bool :=
  match nth_error s (fst f) with Some x => x =? snd f | None => false end.

(* task_properties.h:10-24 is_applicable and is_goal_state, task_proxy.h:750-756
   does_fire: all facts of a condition hold *)
Definition all_holdb (s : state) (fs : list fact) : bool := forallb (holdsb s) fs.

Definition is_goalb (t : task) (s : state) : bool := all_holdb s (t_goal t).

(* all operators whose precondition holds, in ascending order: what the successor generator
   computes (C12) *)
Definition app_ops (t : task) (s : state) : list nat :=
  filter (fun o => match nth_error (t_ops t) o with Some op => all_holdb s (op_pre op) | None => false end)
         (seq 0 (length (t_ops t))).

(* state_registry.cc:106-111 and 89-94 on unpacked values: conditions are tested in the
   predecessor, effects are written in order *)
Definition apply_effects (s : state) (es : list effect) : state :=
  fold_left (fun s1 e => if all_holdb s (eff_cond e) then upd s1 (fst (eff_fact e)) (snd (eff_fact e)) else s1) es s.

(* task_properties.cc:22-24 *)
Definition has_rules (t : task) : bool := match t_rules t with [] => false | _ => true end.

(** The code's representation of a rule is an operator with one conditional effect
    (root_task.cc:352-400); the precondition [head variable = default] is never read. *)

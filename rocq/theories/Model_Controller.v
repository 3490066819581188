(** The controller of eager search built from an open list and evaluators that are
    functions of the state and the g-value (no path-dependent evaluators). *)
From Verif Require Import Outcome Spec_Plan Model_OpenList Model_Eager.

Section Controller.
Variable T : TS.
Variable L : open_list nat.
Variable evs : nat -> ts_state T -> nat -> option nat.   (* evaluator index, state, g *)
Variable boosting : list nat.                            (* evaluators used for boosting *)
Variable preferred : ts_state T -> list nat.             (* preferred operators *)
Variable prune : ts_state T -> list nat -> list nat.     (* pruning method *)

(** [cs_bad] records that an open-list operation had undefined behaviour (shown never to
    happen). *)
Record cstate := { cs_open : OL L; cs_min : list (nat * nat); cs_bad : bool }.

Definition ctx (s : ts_state T) (g : nat) (p : bool) : ectx :=
  {| x_val := fun ev => evs ev s g; x_pref := p |}.

(* search_progress.cc:13-35 (values of infinite evaluators are not recorded: check_progress
   is only called on states that are no dead ends; a mix of finite and infinite values only
   concerns the boosting order) *)
Fixpoint process_value (m : list (nat * nat)) (ev v : nat) : bool * list (nat * nat) :=
  match m with
  | [] => (true, [(ev, v)])
  | (e', v') :: rest =>
      if ev =? e' then (if v <? v' then (true, (e', v) :: rest) else (false, m))
      else let (b, r) := process_value rest ev v in (b, (e', v') :: r)
  end.

(* search_progress.cc:37-55 *)
Fixpoint check_progress (m : list (nat * nat)) (evl : list nat) (x : ectx) : bool * list (nat * nat) :=
  match evl with
  | [] => (false, m)
  | ev :: rest =>
      match x_val x ev with
      | None => check_progress m rest x
      | Some v =>
          let (b1, m1) := process_value m ev v in
          let (b2, m2) := check_progress m1 rest x in
          (b1 || b2, m2)
      end
  end.

Definition ol_controller : controller T := {|
  C := cstate;
  c_notify_initial := fun c _ => c;
  c_notify := fun c _ _ _ => c;
  c_dead := fun c s g p => (ol_dead L (ctx s g p), c);
  c_insert := fun c s g p id =>
    match ol_insert L (cs_open c) (ctx s g p) id with
    | Ok q => {| cs_open := q; cs_min := cs_min c; cs_bad := cs_bad c |}
    | _ => {| cs_open := cs_open c; cs_min := cs_min c; cs_bad := true |}
    end;
  c_pop := fun c =>
    if ol_empty L (cs_open c) then None
    else match ol_remove_min L (cs_open c) with
         | Ok (id, q) => Some (id, {| cs_open := q; cs_min := cs_min c; cs_bad := cs_bad c |})
         | _ => Some (0, {| cs_open := cs_open c; cs_min := cs_min c; cs_bad := true |})
         end;
  (* eager_search.cc:97-98, 268-271, 312-317 *)
  c_progress := fun c s g reward =>
    let (b, m) := check_progress (cs_min c) boosting (ctx s g false) in
    {| cs_open := if b && reward then ol_boost L (cs_open c) else cs_open c; cs_min := m; cs_bad := cs_bad c |};
  c_preferred := fun c s _ => (preferred s, c);
  c_prune := fun c s ops => (prune s ops, c);
  c_has_lazy := false;
  c_lazy_unchanged := fun c _ _ => (None, c)
|}.

Definition cs_init : cstate := {| cs_open := ol_init L; cs_min := []; cs_bad := false |}.
End Controller.
Arguments cs_open {L}.
Arguments cs_min {L}.
Arguments cs_bad {L}.

(* ---------- A*: search_algorithms/search_common.cc:108-128, plugin_astar.cc:44-67 ---------- *)

(** f = sum(g, h): infinity if h is infinite (evaluators/combining_evaluator.cc:36-46,
    sum_evaluator.cc:17-25, g_evaluator.cc:17-21).  Evaluator 0 is f, evaluator 1 is h. *)
Definition astar_evs {T : TS} (h : ts_state T -> option nat) (ev : nat) (s : ts_state T) (g : nat)
  : option nat :=
  match ev with
  | 0 => match h s with Some v => Some (g + v) | None => None end
  | _ => h s
  end.

Definition astar_open (reliable : bool) : open_list nat :=
  tie_breaking nat (fun _ => reliable) [0; 1] false false.

Definition astar_controller (T : TS) (h : ts_state T -> option nat) (reliable : bool) : controller T :=
  ol_controller T (astar_open reliable) (astar_evs h) [0; 1] (fun _ => []) (fun _ ops => ops).

(** astar(h, cost_type, bound) *)
Definition astar_config (ct : OperatorCost) (unit_cost : bool) (bound : option nat) : eager_config :=
  {| ec_reopen := true; ec_cost_type := ct; ec_unit_cost := unit_cost; ec_bound := bound |}.

Definition astar (T : TS) (h : ts_state T -> option nat) (reliable : bool) (cfg : eager_config)
  (fuel : nat) : outcome (search_result (eager_state T (astar_controller T h reliable))) :=
  eager_search T (astar_controller T h reliable) cfg fuel (cs_init (astar_open reliable)).

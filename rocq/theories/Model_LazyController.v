(** The controller of lazy search built from an edge open list, evaluators that are functions
    of the state and the g-value, and a random number stream. *)
From Verif Require Import Outcome Spec_Plan Model_OpenList Model_Controller Model_Rng Model_Lazy.

Section Controller.
Variable T : TS.
Variable L : open_list (nat * nat).
Variable evs : nat -> ts_state T -> nat -> option nat.   (* evaluator index, state, g *)
Variable boosting : list nat.                            (* evaluators used for boosting *)
Variable preferred : ts_state T -> list nat.             (* preferred operators *)
Variable r : nat -> nat.                                 (* random numbers *)

(** [lk_bad] records that an open-list operation had undefined behaviour (shown never to
    happen). *)
Record lstate := { lk_open : OL L; lk_min : list (nat * nat); lk_rng : nat; lk_bad : bool }.

Definition lz_controller : lazy_controller T := {|
  LC := lstate;
  lc_notify_initial := fun c _ => c;
  lc_notify := fun c _ _ _ => c;
  lc_dead := fun c s g => (ol_dead L (ctx T evs s g true), c);
  lc_progress := fun c s g reward =>
    let (b, m) := check_progress (lk_min c) boosting (ctx T evs s g true) in
    {| lk_open := if b && reward then ol_boost L (lk_open c) else lk_open c; lk_min := m;
       lk_rng := lk_rng c; lk_bad := lk_bad c |};
  lc_preferred := fun c s _ => (preferred s, c);
  lc_shuffle := fun c l =>
    let (l', k) := shuffle r (lk_rng c) l in
    (l', {| lk_open := lk_open c; lk_min := lk_min c; lk_rng := k; lk_bad := lk_bad c |});
  lc_insert := fun c s g p e =>
    match ol_insert L (lk_open c) (ctx T evs s g p) e with
    | Ok q => {| lk_open := q; lk_min := lk_min c; lk_rng := lk_rng c; lk_bad := lk_bad c |}
    | _ => {| lk_open := lk_open c; lk_min := lk_min c; lk_rng := lk_rng c; lk_bad := true |}
    end;
  lc_pop := fun c =>
    if ol_empty L (lk_open c) then None
    else match ol_remove_min L (lk_open c) with
         | Ok (e, q) => Some (e, {| lk_open := q; lk_min := lk_min c; lk_rng := lk_rng c; lk_bad := lk_bad c |})
         | _ => Some ((0, 0), {| lk_open := lk_open c; lk_min := lk_min c; lk_rng := lk_rng c; lk_bad := true |})
         end
|}.

Definition lk_init : lstate := {| lk_open := ol_init L; lk_min := []; lk_rng := 0; lk_bad := false |}.
End Controller.
Arguments lk_open {L}.
Arguments lk_min {L}.
Arguments lk_rng {L}.
Arguments lk_bad {L}.

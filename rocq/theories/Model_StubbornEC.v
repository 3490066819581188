(** Model of pruning/stubborn_sets_ec.{h,cc}: stubborn sets with active operators and
    necessary enabling sets for disabled operators.

    The tables that the code computes once (preconditions by variable, domain transition graphs,
    reachability, interference) are functions here; they are recomputed where the code looks them up.
    The flags nes_computed are a set of facts. *)
From Verif Require Import Outcome Spec_Task Model_Task Model_MAS Model_Stubborn.

Section EC.
Variable t : task.

(* stubborn_sets_ec.cc:130-142; -1 is None *)
Definition pre_on_var (o v : nat) : option nat :=
  match nth_error (t_ops t) o with
  | Some op => fold_left (fun acc f => if fst f =? v then Some (snd f) else acc) (op_pre op) None
  | None => None
  end.
(* 16-22 *)
Definition is_v_applicable (v o : nat) (s : state) : bool :=
  match pre_on_var o v with None => true | Some d => match nth_error s v with Some x => d =? x | None => false end end.
(* 24-70: the arcs of the domain transition graph of v that leave the value d *)
Definition dtg (v d : nat) : list nat :=
  flat_map (fun o => match nth_error (t_ops t) o with
    | Some op => flat_map (fun e => if fst (eff_fact e) =? v then
          match pre_on_var o v with
          | None => [snd (eff_fact e)]
          | Some p => if p =? d then [snd (eff_fact e)] else []
          end else []) (op_effs op)
    | None => [] end) (seq 0 (num_operators t)).
(* 72-80 *)
Fixpoint recurse_forwards (v fuel cur : nat) (reachable : list bool) : outcome (list bool) :=
  let* b := vget reachable cur in
  if b : bool then Ok reachable
  else match fuel with
       | O => NoFuel
       | S f => let* r := vset reachable cur true in
                fold_outcome (fun r x => recurse_forwards v f x r) (dtg v cur) r
       end.
(* 144-158 *)
Definition reachability_map (v start : nat) : outcome (list bool) :=
  recurse_forwards v (dom_size t v) start (repeat false (dom_size t v)).
(* 160-181 *)
Fixpoint all_active (s : state) (pres : list fact) : outcome bool :=
  match pres with
  | [] => Ok true
  | p :: r =>
      let* cur := vget s (fst p) in
      let* reach := reachability_map (fst p) cur in
      let* b := vget reach (snd p) in
      if b : bool then all_active s r else Ok false
  end.
Definition active_operators (s : state) : outcome (list bool) :=
  fold_outcome (fun acc o => let* b := all_active s (s_pre t o) in Ok (acc ++ [b])) (seq 0 (num_operators t)) [].
(* 83-102 *)
Fixpoint conflicting_vars (facts1 : list fact) : list fact -> list nat :=
  fix go facts2 :=
    match facts1, facts2 with
    | f1 :: r1, f2 :: r2 =>
        if fst f1 <? fst f2 then conflicting_vars r1 facts2
        else if fst f2 <? fst f1 then go r2
        else (if negb (snd f2 =? snd f1) then [fst f2] else []) ++ conflicting_vars r1 r2
    | _, _ => []
    end.
(* 183-199 *)
Definition conflicting_and_disabling (o1 : nat) : list nat :=
  filter (fun o2 => negb (o1 =? o2) && (can_conflict t o1 o2 || can_disable t o2 o1)) (seq 0 (num_operators t)).
(* 201-213 *)
Definition disabled (o1 : nat) : list nat :=
  filter (fun o2 => negb (o2 =? o1) && can_disable t o1 o2) (seq 0 (num_operators t)).

(* stubborn_sets_ec.h:9-17 and the fields of the base classes that a call to prune uses *)
Record ec_state := { e_stub : list bool; e_queue : list nat; e_written : list bool; e_nes : list fact }.
Variable active : list bool.

(* 219-228 *)
Definition ec_enqueue (s : state) (e : ec_state) (o : nat) : outcome ec_state :=
  let* b := vget (e_stub e) o in
  if b : bool then Ok e
  else
    let* sq := enqueue (e_stub e, e_queue e) o in
    Ok {| e_stub := fst sq; e_queue := snd sq; e_nes := e_nes e;
          e_written := match find_unsatisfied (s_pre t o) s with
                       | None => fold_left (fun w f => upd w (fst f) true) (s_eff t o) (e_written e)
                       | Some _ => e_written e end |}.
Definition ec_enqueue_active (s : state) (e : ec_state) (o : nat) : outcome ec_state :=
  let* b := vget active o in if b : bool then ec_enqueue s e o else Ok e.
(* 230-242 *)
Definition add_nes (s : state) (f : fact) (e : ec_state) : outcome ec_state :=
  let* e := fold_outcome (ec_enqueue_active s) (achievers t f) e in
  Ok {| e_stub := e_stub e; e_queue := e_queue e; e_written := e_written e; e_nes := f :: e_nes e |}.
Definition add_nes_once (s : state) (f : fact) (e : ec_state) : outcome ec_state :=
  if memf f (e_nes e) then Ok e else add_nes s f e.
(* 262-280 *)
Definition apply_s5 (s : state) (o : nat) (e : ec_state) : outcome ec_state :=
  match find (fun f => negb (holdsb s f) && nth (fst f) (e_written e) false) (s_pre t o) with
  | Some f => add_nes_once s f e
  | None => match find_unsatisfied (s_pre t o) s with
            | None => UB
            | Some f => add_nes_once s f e
            end
  end.
(* 301-325: one disabled operator *)
Definition handle_disabled (s : state) (o : nat) (e : ec_state) (o2 : nat) : outcome ec_state :=
  let* b := vget active o2 in
  if b : bool then
    match conflicting_vars (s_eff t o) (s_pre t o2) with
    | [] => Ok e
    | vs => if existsb (fun v => is_v_applicable v o2 s) vs then ec_enqueue s e o2 else apply_s5 s o2 e
    end
  else Ok e.
(* 296-331 *)
Definition handle_ec (s : state) (o : nat) (e : ec_state) : outcome ec_state :=
  match find_unsatisfied (s_pre t o) s with
  | None =>
      let* e := fold_outcome (ec_enqueue_active s) (conflicting_and_disabling o) e in
      fold_outcome (handle_disabled s o) (disabled o) e
  | Some _ => apply_s5 s o e
  end.
(* stubborn_sets_action_centric.cc:31-42 *)
Fixpoint loop_ec (s : state) (fuel : nat) (e : ec_state) : outcome (list bool) :=
  match e_queue e with
  | [] => Ok (e_stub e)
  | o :: q =>
      match fuel with
      | O => NoFuel
      | S f =>
          let* e := handle_ec s o {| e_stub := e_stub e; e_queue := q; e_written := e_written e; e_nes := e_nes e |} in
          loop_ec s f e
      end
  end.
End EC.

(* 282-294 *)
Definition compute_ec (t : task) (s : state) : outcome (list bool) :=
  let* active := active_operators t s in
  match find_unsatisfied (s_goal t) s with
  | None => UB
  | Some g =>
      let* e := add_nes t active s g {| e_stub := repeat false (num_operators t); e_queue := [];
                                        e_written := repeat false (length (t_vars t)); e_nes := [] |} in
      loop_ec t active s (num_operators t) e
  end.
Definition prune_ec (t : task) (s : state) (op_ids : list nat) : outcome (list nat) := prune_with (compute_ec t s) op_ids.

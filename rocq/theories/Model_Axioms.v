(** Model of axioms.{h,cc}: evaluation of derived variables.

    Pointers to literals are facts (variable, value) and pointers to rules are indices into
    the rule vector.  The queue is used as a stack: its head is queue.back(). *)
From Verif Require Import Outcome Spec_Task Model_Task.

(* axioms.h:33-45 without the mutable counter *)
Record arule := { ar_count : nat; ar_var : nat; ar_val : nat }.

(* axioms.h:18-66.  [ax_lits[v][d]] is condition_of of the literal v = d; a default value
   of [None] is -1. *)
Record axeval := {
  ax_has : bool;
  ax_lits : list (list (list nat));
  ax_rules : list arule;
  ax_nbf : list (list nat);
  ax_defaults : list (option nat)
}.

(* axioms.cc:48 *)
Definition push_condition (rid : nat) (lits : list (list (list nat))) (f : fact) : outcome (list (list (list nat))) :=
  let* row := vget lits (fst f) in
  let* c := vget row (snd f) in
  vset lits (fst f) (upd row (snd f) (c ++ [rid])).
(* axioms.cc:41-50; [rid] is the index of the first rule in the list *)
Fixpoint cross_ref (rs : list rule) (rid : nat) (lits : list (list (list nat))) : outcome (list (list (list nat))) :=
  match rs with
  | [] => Ok lits
  | r :: rest =>
      let* lits' := fold_outcome (push_condition rid) (r_body r) lits in
      cross_ref rest (S rid) lits'
  end.

(* axioms.cc:53-59: last_layer + 1 *)
Definition num_layers (vars : list variable) : nat :=
  fold_left (fun n x => match vlayer x with Some k => Nat.max n (S k) | None => n end) vars 0.

(* axioms.cc:61-72 *)
Fixpoint fill_nbf (vars : list variable) (v : nat) (layers : nat) (nbf : list (list nat)) : outcome (list (list nat)) :=
  match vars with
  | [] => Ok nbf
  | x :: rest =>
      let* nbf' :=
        match vlayer x with
        | Some k =>
            if S k =? layers then Ok nbf
            else let* row := vget nbf k in vset nbf k (row ++ [v])
        | None => Ok nbf
        end in
      fill_nbf rest (S v) layers nbf'
  end.

(* axioms.cc:26-37: the head must index an existing literal, and must not be the default
   value of its variable (line 31) *)
Definition make_rule (t : task) (lits : list (list (list nat))) (r : rule) : outcome arule :=
  let* row := vget lits (fst (r_head r)) in
  let* _ := vget row (snd (r_head r)) in
  let* x := vget (t_vars t) (fst (r_head r)) in
  let* _ := guard (negb (snd (r_head r) =? vdefault x)) in
  Ok {| ar_count := length (r_body r); ar_var := fst (r_head r); ar_val := snd (r_head r) |}.
Fixpoint make_rules (t : task) (lits : list (list (list nat))) (rs : list rule) : outcome (list arule) :=
  match rs with
  | [] => Ok []
  | r :: rest => let* a := make_rule t lits r in let* l := make_rules t lits rest in Ok (a :: l)
  end.

(* axioms.cc:13-82 *)
Definition make_axeval (t : task) : outcome axeval :=
  if has_rules t then
    let lits0 := map (fun x => repeat [] (vdom x)) (t_vars t) in
    let* rs := make_rules t lits0 (t_rules t) in
    let* lits := cross_ref (t_rules t) 0 lits0 in
    let n := num_layers (t_vars t) in
    let* nbf := fill_nbf (t_vars t) 0 n (repeat [] n) in
    Ok {| ax_has := true; ax_lits := lits; ax_rules := rs; ax_nbf := nbf;
          ax_defaults := map (fun x => match vlayer x with Some _ => Some (vdefault x) | None => None end) (t_vars t) |}
  else
    Ok {| ax_has := false; ax_lits := []; ax_rules := []; ax_nbf := []; ax_defaults := [] |}.

(* axioms.cc:89-97 *)
Fixpoint init_queue (ax : axeval) (ds : list (option nat)) (v : nat) (s : state) (q : list fact) : outcome (state * list fact) :=
  match ds with
  | [] => Ok (s, q)
  | Some d :: rest => let* s' := vset s v d in init_queue ax rest (S v) s' q
  | None :: rest =>
      let* x := vget s v in
      let* row := vget (ax_lits ax) v in
      let* _ := vget row x in
      init_queue ax rest (S v) s ((v, x) :: q)
  end.

(* axioms.cc:114-119 and 131-136 *)
Definition fire (r : arule) (s : state) (q : list fact) : outcome (state * list fact) :=
  let* x := vget s (ar_var r) in
  if x =? ar_val r then Ok (s, q)
  else let* s' := vset s (ar_var r) (ar_val r) in Ok (s', (ar_var r, ar_val r) :: q).

(* axioms.cc:99-121: rules without conditions *)
Definition fire_trivial (sq : state * list fact) (r : arule) : outcome (state * list fact) :=
  if ar_count r =? 0 then fire r (fst sq) (snd sq) else Ok sq.

(* the mutable part of the evaluator: counters of unsatisfied conditions, state, queue *)
Record axstate := { xs_unsat : list Z; xs_state : state; xs_queue : list fact }.

(* axioms.cc:129-137 *)
Definition visit_rule (ax : axeval) (st : axstate) (rid : nat) : outcome axstate :=
  let* n := vget (xs_unsat st) rid in
  let* u := vset (xs_unsat st) rid (n - 1)%Z in
  if (n - 1 =? 0)%Z then
    let* r := vget (ax_rules ax) rid in
    let* sq := fire r (xs_state st) (xs_queue st) in
    Ok {| xs_unsat := u; xs_state := fst sq; xs_queue := snd sq |}
  else Ok {| xs_unsat := u; xs_state := xs_state st; xs_queue := xs_queue st |}.

(* axioms.cc:125-139 *)
Fixpoint horn_loop (fuel : nat) (ax : axeval) (st : axstate) : outcome axstate :=
  match fuel with
  | O => NoFuel
  | S f =>
      match xs_queue st with
      | [] => Ok st
      | l :: q =>
          let* row := vget (ax_lits ax) (fst l) in
          let* rids := vget row (snd l) in
          let* st' := fold_outcome (visit_rule ax) rids {| xs_unsat := xs_unsat st; xs_state := xs_state st; xs_queue := q |} in
          horn_loop f ax st'
      end
  end.

(* axioms.cc:148-154 *)
Definition push_default (ax : axeval) (st : axstate) (v : nat) : outcome axstate :=
  let* d := vget (ax_defaults ax) v in
  match d with
  | None => UB
  | Some d =>
      let* x := vget (xs_state st) v in
      if x =? d then Ok {| xs_unsat := xs_unsat st; xs_state := xs_state st; xs_queue := (v, d) :: xs_queue st |}
      else Ok st
  end.

(* axioms.cc:123-156; [n] layers are left, the first of them is [layer].  Fuel of the inner
   loop: every iteration pops one literal, and every push is due to a rule whose counter
   drops to zero. *)
Fixpoint layers_loop (n layer : nat) (ax : axeval) (st : axstate) : outcome axstate :=
  match n with
  | O => Ok st
  | S n' =>
      let* st1 := horn_loop (S (length (xs_queue st) + length (ax_rules ax))) ax st in
      let* st2 :=
        if n' =? 0 then Ok st1
        else let* row := vget (ax_nbf ax) layer in fold_outcome (push_default ax) row st1 in
      layers_loop n' (S layer) ax st2
  end.

(* axioms.cc:84-157 *)
Definition evaluate (ax : axeval) (s : state) : outcome state :=
  if ax_has ax then
    let* sq := init_queue ax (ax_defaults ax) 0 s [] in
    let* sq1 := fold_outcome fire_trivial (ax_rules ax) sq in
    let* st := layers_loop (length (ax_nbf ax)) 0 ax
      {| xs_unsat := map (fun r => Z.of_nat (ar_count r)) (ax_rules ax); xs_state := fst sq1; xs_queue := snd sq1 |} in
    let* _ := guard (match xs_queue st with [] => true | _ => false end) in   (* 88, at the next call *)
    Ok (xs_state st)
  else Ok s.

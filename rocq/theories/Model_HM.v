(** Model of the h^m heuristic: heuristics/hm_heuristic.cc.

    The value [numeric_limits<int>::max()] is [None]; other values are natural numbers (sums of
    costs are assumed to stay below that limit).  The [std::map] from tuples to values is an
    association list in the order of insertion, which is the lexicographic order of the keys
    and hence the iteration order of the map. *)
From Verif Require Import Outcome Spec_Task Model_Task.
From Verif Require Import Model_MAS.

Definition tuple := list fact.                        (* hm_heuristic.h:19 *)
Definition table := list (tuple * option nat).        (* hm_heuristic.h:27 *)

Fixpoint tuple_eqb (a b : tuple) : bool :=
  match a, b with
  | [], [] => true
  | f :: a, g :: b => fact_eqb f g && tuple_eqb a b
  | _, _ => false
  end.
Definition mem (f : fact) (l : list fact) : bool := existsb (fact_eqb f) l.

(* std::map::find *)
Fixpoint lookup (tab : table) (t : tuple) : option (option nat) :=
  match tab with
  | [] => None
  | (k, v) :: r => if tuple_eqb k t then Some v else lookup r t
  end.
Definition store (tab : table) (t : tuple) (v : option nat) : table :=
  map (fun e => if tuple_eqb (fst e) t then (fst e, v) else e) tab.

(* hm_heuristic.cc:206-219 generate_all_tuples_aux: [vars] are the variables from [i] on *)
Fixpoint all_tuples_aux (vars : list variable) (i sz : nat) (base : tuple) : list tuple :=
  match vars with
  | [] => []
  | x :: r =>
      flat_map (fun j => let tup := base ++ [(i, j)] in
        tup :: (if 1 <? sz then all_tuples_aux r (S i) (sz - 1) tup else [])) (seq 0 (vdom x))
      ++ all_tuples_aux r (S i) sz base
  end.
(* hm_heuristic.cc:201-204 *)
Definition all_tuples (t : task) (m : nat) : list tuple := all_tuples_aux (t_vars t) 0 m [].

(* hm_heuristic.cc:227-245 generate_all_partial_tuples_aux: [l] are the facts from [index] on *)
Fixpoint partial_aux (l : list fact) (tup : tuple) (sz : nat) : list tuple :=
  match l with
  | [] => []
  | f :: r => (tup ++ [f]) :: (if sz =? 1 then [] else partial_aux r (tup ++ [f]) (sz - 1)) ++ partial_aux r tup sz
  end.
(* hm_heuristic.cc:221-225 *)
Definition partial_tuples (m : nat) (base : tuple) : list tuple := partial_aux base [] m.

(* hm_heuristic.cc:155-170; [true]: 0, [false]: numeric_limits<int>::max() *)
Definition tuple_in_tuple (tup big : tuple) : bool := forallb (fun f => mem f big) tup.

(* [a > b] on values *)
Definition greater (a b : option nat) : bool :=
  match a, b with
  | Some x, Some y => y <? x
  | None, Some _ => true
  | _, None => false
  end.

(* hm_heuristic.cc:131-144; std::map::at throws if the tuple is missing, which terminates the
   program (SIGABRT) *)
Definition eval (m : nat) (tab : table) (tup : tuple) : outcome (option nat) :=
  fold_outcome (fun mx t =>
    match lookup tab t with
    | Some h => Ok (if greater h mx then h else mx)
    | None => Exit (-6)
    end) (partial_tuples m tup) (Some 0).

(* the table and the member was_updated *)
Definition hm_st := (table * bool)%type.

(* hm_heuristic.cc:146-153; for a missing tuple the assertion fails ([operator[]] would insert it) *)
Definition update_entry (st : hm_st) (tup : tuple) (val : nat) : outcome hm_st :=
  match lookup (fst st) tup with
  | None => UB
  | Some v => if greater v (Some val) then Ok (store (fst st) tup (Some val), true) else Ok st
  end.

(* hm_heuristic.cc:172-178 *)
Definition operator_pre (op : operator) : tuple := sort trans_le (op_pre op).
(* hm_heuristic.cc:180-188 *)
Definition operator_eff (op : operator) : tuple := sort trans_le (map eff_fact (op_effs op)).
(* hm_heuristic.cc:190-199 *)
Definition contradict_effect_of (op : operator) (f : fact) : bool :=
  existsb (fun e => (fst (eff_fact e) =? fst f) && negb (snd (eff_fact e) =? snd f)) (op_effs op).

(* hm_heuristic.cc:99-107 *)
Fixpoint extend_pre (tup t pre : tuple) : tuple :=
  match tup with
  | [] => pre
  | f :: r => extend_pre r t (if mem f t then pre else if mem f pre then pre else pre ++ [f])
  end.
(* hm_heuristic.cc:111-119 *)
Fixpoint is_valid (vars : list nat) (pre : tuple) : bool :=
  match pre with
  | [] => true
  | f :: r => if existsb (Nat.eqb (fst f)) vars then false else is_valid (fst f :: vars) r
  end.
(* hm_heuristic.cc:86-127: the body of the loop over the table *)
Definition extend_one (m : nat) (op : operator) (t : tuple) (st : hm_st) (tup : tuple) : outcome hm_st :=
  if negb (existsb (contradict_effect_of op) tup) && (length t <? length tup) && tuple_in_tuple t tup
  then
    let pre := sort trans_le (extend_pre tup t (operator_pre op)) in
    if is_valid [] pre then
      let* c2 := eval m (fst st) pre in
      match c2 with
      | Some c2 => update_entry st tup (c2 + op_cost op)
      | None => Ok st
      end
    else Ok st
  else Ok st.
(* hm_heuristic.cc:85-129: updates change values, not keys, so the loop runs over the keys *)
Definition extend_tuple (m : nat) (op : operator) (st : hm_st) (t : tuple) : outcome hm_st :=
  fold_outcome (extend_one m op t) (map fst (fst st)) st.

(* hm_heuristic.cc:72-79 *)
Definition handle_partial_eff (m : nat) (op : operator) (c1 : nat) (st : hm_st) (pe : tuple) : outcome hm_st :=
  let* st := update_entry st pe (c1 + op_cost op) in
  if length pe <? m then extend_tuple m op st pe else Ok st.
(* hm_heuristic.cc:65-80 *)
Definition handle_op (m : nat) (st : hm_st) (op : operator) : outcome hm_st :=
  let* c1 := eval m (fst st) (operator_pre op) in
  match c1 with
  | Some c1 => fold_outcome (handle_partial_eff m op c1) (partial_tuples m (operator_eff op)) st
  | None => Ok st
  end.
(* hm_heuristic.cc:60-83 *)
Fixpoint update_table (fuel : nat) (t : task) (m : nat) (tab : table) : outcome table :=
  match fuel with
  | 0 => NoFuel
  | S fuel =>
      let* st := fold_outcome (handle_op m) (t_ops t) (tab, false) in
      if snd st then update_table fuel t m (fst st) else Ok (fst st)
  end.

(* task_properties.h:get_fact_pairs of a state *)
Definition state_facts (s : state) : tuple := combine (seq 0 (length s)) s.
(* hm_heuristic.cc:52-58 *)
Definition init_table (keys : list tuple) (s : state) : table :=
  map (fun k => (k, if tuple_in_tuple k (state_facts s) then Some 0 else None)) keys.

(* hm_heuristic.cc:34-50; the result [None] is DEAD_END *)
Definition hm_heuristic (fuel : nat) (t : task) (m : nat) (s : state) : outcome (option nat) :=
  if is_goalb t s then Ok (Some 0)
  else
    let* tab := update_table fuel t m (init_table (all_tuples t m) s) in
    eval m tab (t_goal t).
(* hm_heuristic.cc:30-32 *)
Definition hm_dead_ends_reliable (t : task) : bool :=
  negb (has_rules t) && negb (existsb (fun op => existsb (fun e => match eff_cond e with [] => false | _ => true end) (op_effs op)) (t_ops t)).

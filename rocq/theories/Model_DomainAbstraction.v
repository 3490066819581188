(** Model of tasks/domain_abstracted_task_factory.cc and tasks/domain_abstracted_task.cc.

    Simplifications: the unordered_map of value groups is the list of its entries in iteration
    order; the abstracted task is given by its operators and goal as its accessors return them.
    [self_move] is what assigning a moved string to itself leaves behind, which the C++ standard
    does not specify. *)
From Coq Require Import String.
From Coq Require Import List.
From Verif Require Import Outcome Spec_Task.
Import ListNotations.
Local Open Scope nat_scope.

Section Factory.
Variable self_move : string -> string.

(* domain_abstracted_task_factory.cc:97-106 *)
Fixpoint combined_fact_name (sep : string) (names : list string) (values : list nat) : outcome string :=
  match values with
  | [] => Ok ""%string
  | v :: r => let* s := vget names v in let* rest := combined_fact_name " OR " names r in Ok (sep ++ (s ++ rest))%string
  end.

Definition in_union (groups : list (list nat)) (x : nat) : bool := existsb (existsb (Nat.eqb x)) groups.
(* 125-131; x = move(y) leaves the empty string in y *)
Definition move_single (groups : list (list nat)) (st : list nat * list string * nat) (before : nat) : outcome (list nat * list string * nat) :=
  let '(vm, names, next) := st in
  if in_union groups before then Ok st
  else
    let* vm := vset vm before next in
    let* s := vget names before in
    let* names := (if before =? next then vset names next (self_move s)
                   else let* names := vset names next s in vset names before ""%string) in
    Ok (vm, names, S next).
(* 136-144 *)
Definition add_group (st : list nat * list string * nat) (gn : list nat * string) : outcome (list nat * list string * nat) :=
  let '(vm, names, next) := st in
  let* vm := fold_outcome (fun vm before => vset vm before next) (fst gn) vm in
  let* names := vset names next (snd gn) in
  Ok (vm, names, S next).
(* 108-151 *)
Definition combine_values (dom : nat) (vm : list nat) (names : list string) (groups : list (list nat)) : outcome (nat * list nat * list string) :=
  let* combined := fold_outcome (fun acc g => let* s := combined_fact_name ""%string names g in Ok (acc ++ [s])) groups [] in
  let* (p, num_single) := fold_outcome (move_single groups) (seq 0 dom) (vm, names, 0) in
  let '(vm, names) := p in
  let* (q, _) := fold_outcome add_group (combine groups combined) (vm, names, num_single) in
  let '(vm, names) := q in
  let new_domain_size := num_single + List.length groups in
  Ok (new_domain_size, vm, firstn new_domain_size names ++ repeat ""%string (new_domain_size - List.length names)).

Definition tables : Type := list nat * list (list nat) * list (list string).
(* 79-95 *)
Definition initialize (t : task) (fact_name : nat -> nat -> string) : tables :=
  (map vdom (t_vars t),
   map (fun x => seq 0 (vdom x)) (t_vars t),
   map (fun p => map (fact_name (fst p)) (seq 0 (vdom (snd p)))) (combine (seq 0 (List.length (t_vars t))) (t_vars t))).
Definition combine_var (st : tables) (vg : nat * list (list nat)) : outcome tables :=
  let '(doms, vms, names) := st in
  let '(var, groups) := vg in
  let* dom := vget doms var in
  let* vm := vget vms var in
  let* ns := vget names var in
  let* (p, ns') := combine_values dom vm ns groups in
  let '(dom', vm') := p in
  let* doms := vset doms var dom' in
  let* vms := vset vms var vm' in
  let* names := vset names var ns' in
  Ok (doms, vms, names).

(* domain_abstracted_task.h: get_abstract_fact; domain_abstracted_task.cc:79-88 *)
Definition abstract_fact (vms : list (list nat)) (f : fact) : outcome fact :=
  let* vm := vget vms (fst f) in
  let* x := vget vm (snd f) in
  Ok (fst f, x).
Fixpoint map_outcome {A B} (f : A -> outcome B) (l : list A) : outcome (list B) :=
  match l with [] => Ok [] | x :: r => let* y := f x in let* ys := map_outcome f r in Ok (y :: ys) end.
Definition convert_state (vms : list (list nat)) (s : state) : outcome state :=
  map_outcome (fun var => let* x := vget s var in let* vm := vget vms var in vget vm x) (seq 0 (List.length vms)).
(* domain_abstracted_task.cc:59-69 *)
Definition abstract_effect (vms : list (list nat)) (e : effect) : outcome effect :=
  let* f := abstract_fact vms (eff_fact e) in Ok {| eff_cond := eff_cond e; eff_fact := f |}.
Definition abstract_operator (vms : list (list nat)) (op : operator) : outcome operator :=
  let* pre := map_outcome (abstract_fact vms) (op_pre op) in
  let* effs := map_outcome (abstract_effect vms) (op_effs op) in
  Ok {| op_pre := pre; op_effs := effs; op_cost := op_cost op |}.
Definition has_conditional_effects (t : task) : bool :=
  existsb (fun op => existsb (fun e => match eff_cond e with [] => false | _ => true end) (op_effs op)) (t_ops t).

(* domain_abstracted_task_factory.cc:36-77 and domain_abstracted_task.cc:29-47 *)
Definition build_tables (t : task) (fact_name : nat -> nat -> string) (value_groups : list (nat * list (list nat))) : outcome tables :=
  match t_rules t with
  | _ :: _ => Exit (-6)
  | [] => if has_conditional_effects t then Exit (-6)
          else fold_outcome combine_var value_groups (initialize t fact_name)
  end.
Definition build_domain_abstracted_task (t : task) (fact_name : nat -> nat -> string) (value_groups : list (nat * list (list nat)))
  : outcome (task * list (list nat) * list (list string)) :=
  let* (p, names) := build_tables t fact_name value_groups in
  let '(doms, vms) := p in
  let* init := convert_state vms (t_init t) in
  let* goals := map_outcome (abstract_fact vms) (t_goal t) in
  let* ops := map_outcome (abstract_operator vms) (t_ops t) in
  Ok ({| t_vars := map (fun p => {| vdom := fst p; vlayer := vlayer (snd p); vdefault := vdefault (snd p) |}) (combine doms (t_vars t));
         t_ops := ops; t_rules := t_rules t; t_init := init; t_goal := goals |}, vms, names).
End Factory.

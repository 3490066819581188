(** Model of tasks/default_value_axioms_task.cc.

    Simplifications: each row of the dependency vectors is collected separately instead of by one
    loop over all axioms; sets whose order of iteration is unspecified (unordered_set, HashSet) or
    does not influence the set of added axioms (set of sets) are lists in insertion order. *)
From Coq Require Import List.
From Verif Require Import Outcome Spec_Task Model_Sccs.
Import ListNotations.
Local Open Scope nat_scope.

(* default_value_axioms_task.h:42-45 *)
Inductive axiom_handling := APPROXIMATE_NEGATIVE | APPROXIMATE_NEGATIVE_CYCLES.

(** *** std::set<FactPair> *)
Definition fact_eqb (f g : fact) : bool := (fst f =? fst g) && (snd f =? snd g).
Definition fact_ltb (f g : fact) : bool := (fst f <? fst g) || ((fst f =? fst g) && (snd f <? snd g)).
Definition fset := list fact.
Fixpoint set_add (f : fact) (l : fset) : fset :=
  match l with
  | [] => [f]
  | g :: r => if fact_eqb f g then l else if fact_ltb f g then f :: l else g :: set_add f r
  end.
Definition set_mem (f : fact) (l : fset) : bool := existsb (fact_eqb f) l.
Fixpoint fset_eqb (a b : fset) : bool :=
  match a, b with
  | [], [] => true
  | x :: a, y :: b => fact_eqb x y && fset_eqb a b
  | _, _ => false
  end.

Section Task.
Variable t : task.
Variable axioms : axiom_handling.
Let n := length (t_vars t).

Definition is_derived (v : nat) : bool := match layer_of t v with Some _ => true | None => false end.
Definition default_value (v : nat) : nat := match nth_error (t_vars t) v with Some x => vdefault x | None => 0 end.
Definition domain_size (v : nat) : nat := match nth_error (t_vars t) v with Some x => vdom x | None => 0 end.

(* 34-54 *)
Definition rules_for (v : nat) : list rule := filter (fun r => fst (r_head r) =? v) (t_rules t).
Definition dependencies (default : bool) (v : nat) : list nat :=
  flat_map (fun r => flat_map (fun c => if is_derived (fst c) && Bool.eqb (snd c =? default_value (fst c)) default
                                        then [fst c] else []) (r_body r)) (rules_for v).
Definition nondefault_dependencies : list (list nat) := map (dependencies false) (seq 0 n).
Definition default_dependencies : list (list nat) := map (dependencies true) (seq 0 n).
Definition axiom_ids_for_var : list (list rule) := map rules_for (seq 0 n).

(* 62-73: var_to_scc; nullptr is dereferenced if the variable is in no component *)
Definition make_sccs : outcome (list (list nat)) :=
  match axioms with
  | APPROXIMATE_NEGATIVE_CYCLES => compute_maximal_sccs nondefault_dependencies
  | APPROXIMATE_NEGATIVE => Ok []
  end.
Definition scc_size (sccs : list (list nat)) (v : nat) : outcome nat :=
  match find (existsb (Nat.eqb v)) sccs with Some C => Ok (length C) | None => UB end.
(* 82-83 and 189-191: the rule for the default value gets an empty body *)
Definition approximated (sccs : list (list nat)) (v : nat) : outcome bool :=
  match axioms with
  | APPROXIMATE_NEGATIVE => Ok true
  | APPROXIMATE_NEGATIVE_CYCLES => let* k := scc_size sccs v in Ok (1 <? k)
  end.

(** *** Which values are needed (127-217) *)
Definition pair_eqb (a b : nat * bool) : bool := (fst a =? fst b) && Bool.eqb (snd a) (snd b).
Definition add_needed (st : list (nat * bool) * list (nat * bool)) (p : nat * bool) : list (nat * bool) * list (nat * bool) :=
  let '(needed, queue) := st in
  if existsb (pair_eqb p) needed then (needed, queue) else (needed ++ [p], queue ++ [p]).
(* 137-169 *)
Definition condition_pairs (fs : list fact) : list (nat * bool) :=
  flat_map (fun f => if is_derived (fst f) then [(fst f, snd f =? default_value (fst f))] else []) fs.
Definition initial_pairs : list (nat * bool) :=
  condition_pairs (t_goal t) ++
  flat_map (fun op => condition_pairs (op_pre op) ++ flat_map (fun e => condition_pairs (eff_cond e)) (op_effs op)) (t_ops t).
(* 182-206: the pairs that a pair depends on *)
Definition successors (sccs : list (list nat)) (p : nat * bool) : outcome (list (nat * bool)) :=
  let '(v, default) := p in
  let* skip := (if default : bool then approximated sccs v else Ok false) in
  if skip : bool then Ok []
  else
    let* nd := vget nondefault_dependencies v in
    let* d := vget default_dependencies v in
    Ok (map (fun w => (w, default)) nd ++ map (fun w => (w, negb default)) d).
Fixpoint process (fuel : nat) (sccs : list (list nat)) (needed queue : list (nat * bool)) : outcome (list (nat * bool)) :=
  match queue with
  | [] => Ok needed
  | p :: queue =>
      match fuel with
      | 0 => NoFuel
      | S fuel =>
          let* ps := successors sccs p in
          let '(needed, queue) := fold_left add_needed ps (needed, queue) in
          process fuel sccs needed queue
      end
  end.
Definition needed_pairs (sccs : list (list nat)) : outcome (list (nat * bool)) :=
  let start := fst (fold_left add_needed initial_pairs ([], [])) in
  process (2 * n) sccs start start.
Definition default_needed (sccs : list (list nat)) : outcome (list nat) :=
  let* needed := needed_pairs sccs in
  Ok (map fst (filter (fun p : nat * bool => snd p) needed)).

(** *** Hitting sets (261-312) *)
(* 268-284 *)
Definition uniquely_used (sets : list fset) (hs : fset) : fset :=
  fold_left (fun acc S =>
      match filter (fun f => set_mem f hs) S with
      | [f] => filter (fun g => negb (fact_eqb f g)) acc
      | _ => acc
      end) sets hs.
Definition add_result (hs : fset) (results : list fset) : list fset :=
  if existsb (fset_eqb hs) results then results else results ++ [hs].
Fixpoint collect (sets rest : list fset) (hs : fset) (vars : list nat) (results : list fset) {struct rest} : list fset :=
  match rest with
  | [] => match uniquely_used sets hs with [] => add_result hs results | _ => results end
  | set :: rest =>
      if existsb (fun f => set_mem f hs) set then collect sets rest hs vars results
      else fold_left (fun results f =>
             if existsb (Nat.eqb (fst f)) vars then results
             else collect sets rest (set_add f hs) (fst f :: vars) results) set results
  end.

(* 234-246 *)
Definition cnf_clause (r : rule) : fset :=
  fold_left (fun acc c =>
      fold_left (fun acc x => if x =? snd c then acc else set_add (fst c, x) acc) (seq 0 (domain_size (fst c))) acc)
    (r_body r) [].
(* 219-258 *)
Definition add_for_var (head : fact) (rules : list rule) : list rule :=
  match rules with
  | [] => [{| r_body := []; r_head := head |}]
  | _ =>
      let cnf := map cnf_clause rules in
      map (fun c => {| r_body := c; r_head := head |}) (collect cnf cnf [] [] [])
  end.

(* 75-104 *)
Definition default_value_axioms : outcome (list rule) :=
  let* sccs := make_sccs in
  let* vars := default_needed sccs in
  fold_outcome (fun acc v =>
      let* rules := vget axiom_ids_for_var v in
      let head := (v, default_value v) in
      let* a := approximated sccs v in
      Ok (acc ++ if a : bool then [{| r_body := []; r_head := head |}] else add_for_var head rules)) vars [].

(* 314-417: everything else is delegated to the parent; an added axiom costs 0, has the body as its
   only effect's condition and the other value of the head as precondition, as rules have *)
Definition extended_task : outcome task :=
  let* added := default_value_axioms in
  Ok {| t_vars := t_vars t; t_ops := t_ops t; t_rules := t_rules t ++ added; t_init := t_init t; t_goal := t_goal t |}.
End Task.

(* 419-427 get_default_value_axioms_task_if_needed *)
Definition extended_if_needed (t : task) (axioms : axiom_handling) : outcome task :=
  match t_rules t with [] => Ok t | _ => extended_task t axioms end.

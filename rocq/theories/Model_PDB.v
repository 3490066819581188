(** Model of pattern databases: pdbs/pattern_database.cc, pdbs/pattern_database_factory.cc,
    pdbs/match_tree.cc, pdbs/abstract_operator.cc.

    Integers are natural numbers except for hash effects; the code checks that the number of
    abstract states fits into an int.  Sums of operator costs are assumed to fit as well.  Plan
    computation (used by the CEGAR pattern generators) is not modelled. *)
From Verif Require Import Outcome Spec_Task Model_Task Model_PQ Model_Graph.
From Verif Require Model_Evaluators.

Definition SEARCH_CRITICAL_ERROR : Z := 32%Z.    (* utils/system.h:48 *)
Definition SEARCH_UNSUPPORTED : Z := 34%Z.       (* utils/system.h:50 *)

(* pattern_database.h:11-15 *)
Record projection := { pj_pattern : list nat; pj_doms : list nat; pj_mults : list nat; pj_num : nat }.

(* pattern_database.cc:25-38 *)
Fixpoint make_projection (t : task) (vars : list nat) (pj : projection) : outcome projection :=
  match vars with
  | [] => Ok pj
  | v :: r =>
      let* var := vget (t_vars t) v in
      let* fits := Model_Evaluators.is_product_within_limit (Z.of_nat (pj_num pj)) (Z.of_nat (vdom var)) Model_Evaluators.INT_MAX in
      if fits then
        make_projection t r {| pj_pattern := pj_pattern pj ++ [v]; pj_doms := pj_doms pj ++ [vdom var];
                               pj_mults := pj_mults pj ++ [pj_num pj]; pj_num := pj_num pj * vdom var |}
      else Exit SEARCH_CRITICAL_ERROR
  end.
Fixpoint sorted_unique (l : list nat) : bool :=
  match l with
  | x :: (y :: _) as r => (x <? y) && sorted_unique r
  | _ => true
  end.
(* pattern_database.cc:15-24; task_properties.cc:22-57 (verify_no_axioms, verify_no_conditional_effects) *)
Definition new_projection (t : task) (pat : list nat) : outcome projection :=
  if has_rules t then Exit SEARCH_UNSUPPORTED
  else if existsb (fun op => existsb (fun e => match eff_cond e with [] => false | _ => true end) (op_effs op)) (t_ops t)
  then Exit SEARCH_UNSUPPORTED
  else let* _ := guard (sorted_unique pat) in
       make_projection t pat {| pj_pattern := []; pj_doms := []; pj_mults := []; pj_num := 1 |}.

(* pattern_database.cc:41-47 *)
Fixpoint rank_from (s : state) (pat mults : list nat) (index : nat) : outcome nat :=
  match pat, mults with
  | [], _ => Ok index
  | v :: pat, m :: mults => let* x := vget s v in rank_from s pat mults (index + m * x)
  | _, [] => UB
  end.
Definition rank (pj : projection) (s : state) : outcome nat := rank_from s (pj_pattern pj) (pj_mults pj) 0.
(* pattern_database.cc:49-52 *)
Definition unrank (pj : projection) (index var : nat) : outcome nat :=
  let* m := vget (pj_mults pj) var in
  let* d := vget (pj_doms pj) var in
  if (m =? 0) || (d =? 0) then UB else Ok ((index / m) mod d).

(* pattern_database_factory.cc:109-114 *)
Definition variable_to_index (t : task) (pat : list nat) : outcome (list (option nat)) :=
  fold_outcome (fun v2i iv => vset v2i (snd iv) (Some (fst iv))) (combine (seq 0 (length pat)) pat)
    (repeat None (length (t_vars t))).

(* abstract_operator.h *)
Record abs_op := { ao_id : nat; ao_cost : nat; ao_pre : list fact; ao_hash : Z }.

(** std::sort of FactPairs (abstract_task.h: by variable, then value). *)
Definition fact_ltb (f g : fact) : bool := (fst f <? fst g) || ((fst f =? fst g) && (snd f <? snd g)).
Fixpoint finsert (f : fact) (l : list fact) : list fact :=
  match l with [] => [f] | g :: r => if fact_ltb g f then g :: finsert f r else f :: l end.
Definition fsort (l : list fact) : list fact := fold_right finsert [] l.
Fixpoint adjacent_distinct (l : list fact) : bool :=
  match l with
  | f :: (g :: _) as r => negb (fst f =? fst g) && adjacent_distinct r
  | _ => true
  end.

(* pattern_database_factory.cc:129-141 *)
Fixpoint hash_effect (mults : list nat) (pre eff : list fact) : outcome Z :=
  match pre, eff with
  | [], [] => Ok 0%Z
  | (v, new_val) :: pre, (v', old_val) :: eff =>
      let* _ := guard (v =? v') in
      let* m := vget mults v in
      let* h := hash_effect mults pre eff in
      Ok ((Z.of_nat new_val - Z.of_nat old_val) * Z.of_nat m + h)%Z
  | _, _ => UB
  end.
(* pattern_database_factory.cc:116-144 *)
Definition build_abstract_operator (pj : projection) (id cost : nat) (prev pre eff : list fact) : outcome abs_op :=
  let regression := fsort (prev ++ eff) in
  let* _ := guard (adjacent_distinct regression) in
  let* h := hash_effect (pj_mults pj) pre eff in
  Ok {| ao_id := id; ao_cost := cost; ao_pre := regression; ao_hash := h |}.

(* pattern_database_factory.cc:146-180 *)
Fixpoint multiply_out (pj : projection) (id cost : nat) (ewp prev pre eff : list fact) (ops : list abs_op)
  : outcome (list abs_op) :=
  match ewp with
  | [] => match eff with
          | [] => Ok ops
          | _ => let* ao := build_abstract_operator pj id cost prev pre eff in Ok (ops ++ [ao])
          end
  | (v, e) :: r =>
      let* dom := vget (pj_doms pj) v in
      fold_outcome (fun ops i =>
        if i =? e then multiply_out pj id cost r (prev ++ [(v, i)]) pre eff ops
        else multiply_out pj id cost r prev (pre ++ [(v, i)]) (eff ++ [(v, e)]) ops) (seq 0 dom) ops
  end.

(* pattern_database_factory.cc:182-229: the pairs about pattern variables *)
Definition index_of (v2i : list (option nat)) (v : nat) : outcome (option nat) := vget v2i v.
Fixpoint split_effects (v2i : list (option nat)) (op : operator) (effs : list effect) (eff ewp : list fact) : outcome (list fact * list fact) :=
  match effs with
  | [] => Ok (eff, ewp)
  | e :: r =>
      let '(v, d) := eff_fact e in
      let* i := index_of v2i v in
      match i with
      | None => split_effects v2i op r eff ewp
      | Some i => if existsb (fun f => fst f =? v) (op_pre op)
                  then split_effects v2i op r (eff ++ [(i, d)]) ewp
                  else split_effects v2i op r eff (ewp ++ [(i, d)])
      end
  end.
Fixpoint split_pre (v2i : list (option nat)) (op : operator) (fs : list fact) (pre prev : list fact) : outcome (list fact * list fact) :=
  match fs with
  | [] => Ok (pre, prev)
  | (v, d) :: r =>
      let* i := index_of v2i v in
      match i with
      | None => split_pre v2i op r pre prev
      | Some i => (* has_precond_and_effect_on_var[v]; set only for pattern variables *)
                  if existsb (fun e => fst (eff_fact e) =? v) (op_effs op)
                  then split_pre v2i op r (pre ++ [(i, d)]) prev
                  else split_pre v2i op r pre (prev ++ [(i, d)])
      end
  end.
Definition abstract_operators_for_op (pj : projection) (v2i : list (option nat)) (id : nat) (op : operator) (cost : nat)
    (ops : list abs_op) : outcome (list abs_op) :=
  let* (eff, ewp) := split_effects v2i op (op_effs op) [] [] in
  let* (pre, prev) := split_pre v2i op (op_pre op) [] [] in
  multiply_out pj id cost ewp prev pre eff ops.
(* pattern_database_factory.cc:231-242; [costs] is empty or has one entry per operator *)
Definition abstract_operators (t : task) (pj : projection) (v2i : list (option nat)) (costs : list nat) : outcome (list abs_op) :=
  fold_outcome (fun ops io =>
    let* cost := match costs with [] => Ok (op_cost (snd io)) | _ => vget costs (fst io) end in
    abstract_operators_for_op pj v2i (fst io) (snd io) cost ops)
    (combine (seq 0 (length (t_ops t))) (t_ops t)) [].

(* match_tree.cc:14-35; [MNil] is the null pointer, a leaf has var_id LEAF_NODE *)
Inductive mtree :=
| MNil
| MLeaf (ops : list nat)
| MNode (ops : list nat) (var : nat) (succ : list mtree) (star : mtree).

(* match_tree.cc:75-123; the fuel is the depth of the tree *)
Fixpoint minsert (fuel : nat) (doms : list nat) (op : nat) (pres : list fact) (t : mtree) : outcome mtree :=
  match fuel with
  | O => NoFuel
  | S fuel =>
      match pres with
      | [] => Ok (match t with
                  | MNil => MLeaf [op]
                  | MLeaf ops => MLeaf (ops ++ [op])
                  | MNode ops v succ star => MNode (ops ++ [op]) v succ star
                  end)
      | (v, x) :: r =>
          let* dom := vget doms v in
          let '(ops, v', succ, star) :=
            match t with
            | MNil => ([], v, repeat MNil dom, MNil)
            | MLeaf ops => (ops, v, repeat MNil dom, MNil)
            | MNode ops v' succ star => if v <? v' then ([], v, repeat MNil dom, t) else (ops, v', succ, star)
            end in
          if v' =? v then
            let* child := vget succ x in
            let* child := minsert fuel doms op r child in
            let* succ := vset succ x child in
            Ok (MNode ops v' succ star)
          else
            let* star := minsert fuel doms op pres star in
            Ok (MNode ops v' succ star)
      end
  end.
(* match_tree.cc:130-164 *)
Fixpoint mget (val : nat -> outcome nat) (t : mtree) : outcome (list nat) :=
  match t with
  | MNil => Ok []
  | MLeaf ops => Ok ops
  | MNode ops v succ star =>
      let* x := val v in
      let* l1 := (fix at_pos (l : list mtree) (i : nat) : outcome (list nat) :=
                    match l, i with
                    | [], _ => UB
                    | c :: _, O => mget val c
                    | _ :: l, S i => at_pos l i
                    end) succ x in
      let* l2 := mget val star in
      Ok (ops ++ l1 ++ l2)
  end.

(* pattern_database_factory.cc:244-252 *)
Definition match_tree (pj : projection) (ops : list abs_op) : outcome mtree :=
  fold_outcome (fun t io => minsert (S (length (pj_doms pj))) (pj_doms pj) (fst io) (ao_pre (snd io)) t)
    (combine (seq 0 (length ops)) ops) MNil.

(* pattern_database_factory.cc:254-262 *)
Definition abstract_goals (t : task) (v2i : list (option nat)) : outcome (list fact) :=
  fold_outcome (fun gs f => let* i := index_of v2i (fst f) in
                            match i with Some i => Ok (gs ++ [(i, snd f)]) | None => Ok gs end) (t_goal t) [].
(* pattern_database_factory.cc:264-273 *)
Fixpoint is_goal_state (pj : projection) (goals : list fact) (index : nat) : outcome bool :=
  match goals with
  | [] => Ok true
  | (v, d) :: r => let* x := unrank pj index v in if x =? d then is_goal_state pj r index else Ok false
  end.

Section PDB.
Variable P : pqueue.
Variable q0 : PQ P.                                      (* an empty queue *)

(* pattern_database_factory.cc:312-316 *)
Definition regress (pj : projection) (ops : list abs_op) (mt : mtree) (index : nat) : outcome (list (nat * nat)) :=
  let* ids := mget (unrank pj index) mt in
  fold_outcome (fun es id =>
    let* ao := vget ops id in
    let p := (Z.of_nat index + ao_hash ao)%Z in
    let* _ := guard (0 <=? p)%Z in
    Ok (es ++ [(Z.to_nat p, ao_cost ao)])) ids [].

(* pattern_database_factory.cc:275-329 *)
Definition compute_distances (fuel : nat) (pj : projection) (goals : list fact) (ops : list abs_op) (mt : mtree) : outcome dists :=
  let* (d, q) := fold_outcome (fun dq i =>
      let '(d, q) := dq in
      let* g := is_goal_state pj goals i in
      if g then Ok (d ++ [Some 0], pq_push P q 0 i) else Ok (d ++ [None], q)) (seq 0 (pj_num pj)) ([], q0) in
  dijkstra P (regress pj ops mt) fuel d q.

Record pdb := { db_pj : projection; db_dist : dists }.
(* pattern_database_factory.cc:398-420 *)
Definition compute_pdb (fuel : nat) (t : task) (pat : list nat) (costs : list nat) : outcome pdb :=
  let* pj := new_projection t pat in
  let* _ := guard ((length costs =? 0) || (length costs =? length (t_ops t))) in
  let* v2i := variable_to_index t pat in
  let* ops := abstract_operators t pj v2i costs in
  let* mt := match_tree pj ops in
  let* goals := abstract_goals t v2i in
  let* d := compute_distances fuel pj goals ops mt in
  Ok {| db_pj := pj; db_dist := d |}.
(* pattern_database.cc:59-61; [None] is infinity *)
Definition pdb_value (db : pdb) (s : state) : outcome (option nat) :=
  let* i := rank (db_pj db) s in vget (db_dist db) i.
End PDB.

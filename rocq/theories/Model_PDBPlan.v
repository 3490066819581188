(** Pattern databases with plans: src/search/pdbs/pattern_database_factory.cc, the parts guarded by
    compute_plan.  Extends Model_PDB.v (which models the construction without a plan).

    Random choices are parameters: [shuffle i l] reorders the operators of the i-th step and
    [choose i l] is the position of the operator picked from them. *)
From Verif Require Import Outcome Spec_Task Model_PQ Model_Graph Model_PDB.
Import ListNotations.

(** pattern_database_factory.cc:309-316, with the numbers of the abstract operators. *)
Definition regress_gen (pj : projection) (ops : list abs_op) (mt : mtree) (index : nat) : outcome (list (nat * nat * nat)) :=
  let* ids := mget (unrank pj index) mt in
  fold_outcome (fun es id =>
    let* ao := vget ops id in
    let p := (Z.of_nat index + ao_hash ao)%Z in
    let* _ := guard (0 <=? p)%Z in
    Ok (es ++ [(Z.to_nat p, ao_cost ao, id)])) ids [].

Section Plan.
Variable P : pqueue.
Variable q0 : PQ P.                                      (* an empty queue *)

(** pattern_database_factory.cc:313-324; [g] is generating_op_ids. *)
Definition relax_gen (dist : nat) (dqg : dists * PQ P * list nat) (e : nat * nat * nat) : outcome (dists * PQ P * list nat) :=
  let '(d, q, g) := dqg in let '(pred, cost, id) := e in
  let alt := dist + cost in
  let* old := vget d pred in
  if olt alt old then
    let* d := vset d pred (Some alt) in
    let* g := vset g pred id in
    Ok (d, pq_push P q alt pred, g)
  else Ok (d, q, g).

(** pattern_database_factory.cc:300-326 the Dijkstra loop with compute_plan. *)
Fixpoint dijkstra_gen (edges : nat -> outcome (list (nat * nat * nat))) (fuel : nat) (d : dists) (q : PQ P) (g : list nat) : outcome (dists * list nat) :=
  match fuel with
  | O => NoFuel
  | S fuel =>
      match pq_pop P q with
      | None => Ok (d, g)
      | Some ((distance, state), q) =>
          let* sd := vget d state in
          match sd with
          | None => UB
          | Some sd =>
              if sd <? distance then dijkstra_gen edges fuel d q g
              else let* es := edges state in
                   let* (dq, g) := fold_outcome (relax_gen sd) es (d, q, g) in
                   dijkstra_gen edges fuel (fst dq) (snd dq) g
          end
      end
  end.

(** pattern_database_factory.cc:275-329 compute_distances; resize fills generating_op_ids with 0. *)
Definition compute_distances_gen (fuel : nat) (pj : projection) (goals : list fact) (ops : list abs_op) (mt : mtree) : outcome (dists * list nat) :=
  let* (d, q) := fold_outcome (fun dq i =>
      let '(d, q) := dq in
      let* g := is_goal_state pj goals i in
      if g then Ok (d ++ [Some 0], pq_push P q 0 i) else Ok (d ++ [None], q)) (seq 0 (pj_num pj)) ([], q0) in
  dijkstra_gen (regress_gen pj ops mt) fuel d q (repeat 0 (pj_num pj)).

Variable shuffle : nat -> list nat -> list nat.
Variable choose : nat -> list nat -> nat.
(** pattern_database_factory.cc:356-374 the operators of the same cost with the same transition. *)
Definition equivalent_ops (pj : projection) (ops : list abs_op) (mt : mtree) (current successor cost : nat) : outcome (list nat) :=
  let* ids := mget (unrank pj successor) mt in
  fold_outcome (fun r id =>
    let* ao := vget ops id in
    if (Z.of_nat successor + ao_hash ao =? Z.of_nat current)%Z && (cost =? ao_cost ao) then Ok (r ++ [ao_id ao]) else Ok r) ids [].
(** pattern_database_factory.cc:350-386 the loop. *)
Fixpoint follow (fuel i : nat) (pj : projection) (goals : list fact) (ops : list abs_op) (mt : mtree) (g : list nat) (wildcard : bool) (current : nat)
    (plan : list (list nat)) : outcome (list (list nat)) :=
  let* b := is_goal_state pj goals current in
  if b : bool then Ok plan
  else
    match fuel with
    | O => NoFuel
    | S fuel =>
        let* id := vget g current in
        let* op := vget ops id in
        let s := (Z.of_nat current - ao_hash op)%Z in
        let* _ := guard (0 <=? s)%Z in
        let successor := Z.to_nat s in
        let* l := equivalent_ops pj ops mt current successor (ao_cost op) in
        let* step := (if wildcard then Ok (shuffle i l) else let* o := vget l (choose i l) in Ok [o]) in
        follow fuel (i + 1) pj goals ops mt g wildcard successor (plan ++ [step])
    end.
(** pattern_database_factory.cc:331-390 compute_plan. *)
Definition compute_plan (t : task) (pj : projection) (goals : list fact) (ops : list abs_op) (mt : mtree) (d : dists) (g : list nat) (wildcard : bool) : outcome (list (list nat)) :=
  let* current := rank pj (t_init t) in
  let* x := vget d current in
  match x with
  | None => Ok []
  | Some _ => follow (pj_num pj) 0 pj goals ops mt g wildcard current []
  end.
(** pattern_database_factory.cc:398-420 with compute_plan, 431-440 compute_pdb_and_plan. *)
Definition compute_pdb_and_plan (fuel : nat) (t : task) (pat : list nat) (costs : list nat) (wildcard : bool) : outcome (pdb * list (list nat)) :=
  let* pj := new_projection t pat in
  let* _ := guard ((length costs =? 0) || (length costs =? length (t_ops t))) in
  let* v2i := variable_to_index t pat in
  let* ops := abstract_operators t pj v2i costs in
  let* mt := match_tree pj ops in
  let* goals := abstract_goals t v2i in
  let* (d, g) := compute_distances_gen fuel pj goals ops mt in
  let* plan := compute_plan t pj goals ops mt d g wildcard in
  Ok ({| db_pj := pj; db_dist := d |}, plan).
End Plan.

(** Dijkstra's algorithm over an explicit graph with a priority queue of (distance, state)
    entries, as written in pdbs/pattern_database_factory.cc:300-325 and
    merge_and_shrink/distances.cc:100-124, and the breadth-first search of
    merge_and_shrink/distances.cc:48-62.

    [None] is numeric_limits<int>::max(); distances are natural numbers (that the sums of costs
    stay below 2^31 - 1 is assumed, not modelled). *)
From Verif Require Import Outcome Model_PQ.

Section GRAPH.
Variable P : pqueue.
(* the outgoing edges (target, cost) of a state, as the program computes them *)
Variable edges : nat -> outcome (list (nat * nat)).

Definition dists := list (option nat).
Definition olt (c : nat) (d : option nat) : bool := match d with None => true | Some d => c <? d end.

(* pattern_database_factory.cc:313-324, distances.cc:113-122 *)
Definition relax (dist : nat) (dq : dists * PQ P) (e : nat * nat) : outcome (dists * PQ P) :=
  let '(d, q) := dq in let '(succ, cost) := e in
  let alt := dist + cost in
  let* old := vget d succ in
  if olt alt old then let* d := vset d succ (Some alt) in Ok (d, pq_push P q alt succ) else Ok (d, q).

Fixpoint dijkstra (fuel : nat) (d : dists) (q : PQ P) : outcome dists :=
  match fuel with
  | O => NoFuel
  | S fuel =>
      match pq_pop P q with
      | None => Ok d
      | Some ((distance, state), q) =>
          let* sd := vget d state in
          match sd with
          | None => UB                                  (* a queued state has a distance *)
          | Some sd =>
              if sd <? distance then dijkstra fuel d q
              else let* es := edges state in
                   let* (d, q) := fold_outcome (relax sd) es (d, q) in
                   dijkstra fuel d q
          end
      end
  end.

(* distances.cc:48-62 *)
Definition bfs_relax (state : nat) (dq : dists * list nat) (succ : nat) : outcome (dists * list nat) :=
  let '(d, q) := dq in
  let* sd := vget d state in
  match sd with
  | None => UB
  | Some sd =>
      let* old := vget d succ in
      if olt (sd + 1) old then let* d := vset d succ (Some (sd + 1)) in Ok (d, q ++ [succ]) else Ok (d, q)
  end.
Fixpoint bfs (fuel : nat) (graph : list (list nat)) (d : dists) (q : list nat) : outcome dists :=
  match fuel with
  | O => NoFuel
  | S fuel =>
      match q with
      | [] => Ok d
      | state :: q =>
          let* succs := vget graph state in
          let* (d, q) := fold_outcome (bfs_relax state) succs (d, q) in
          bfs fuel graph d q
      end
  end.
End GRAPH.

(** C09: strongly connected components. *)
From Verif Require Import Outcome Spec_Graph Model_Sccs Proof_Sccs.

(** For every directed graph the result lists each vertex in exactly one component, two
    vertices share a component exactly when each reaches the other, and edges lead only to
    the same or to later components. *)
Theorem C09_sccs_in_topological_order : forall g, well_formed g ->
  exists cs, compute_maximal_sccs g = Ok cs /\ sccs_in_topological_order g cs.
Proof. exact sccs_correct. Qed.
Print Assumptions C09_sccs_in_topological_order.

Example C09_nonvacuous :
  let g := [[1; 3]; [2; 2]; [0; 4]; [4]; [5]; [4; 5]; [0; 6]] in
  well_formed g /\ compute_maximal_sccs g = Ok [[6]; [0; 1; 2]; [3]; [4; 5]].
Proof.
  split; [|vm_compute; reflexivity]. intros x y (l & Hl & Hy).
  do 7 (destruct x as [|x]; [cbn in Hl; injection Hl as <-; cbn in Hy; cbn; lia|]). destruct x; discriminate.
Qed.

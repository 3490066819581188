(** C06: priority queues. *)
From Verif Require Import Outcome Spec_PriorityQueue Model_PriorityQueue Proof_PriorityQueue.

(** Every sequence of calls on a fresh AdaptiveQueue that respects the interface, with fewer
    than 2^31 real and virtual pushes, is answered as by a bag from which an entry with
    least key is popped. *)
Theorem C06_adaptive_queue_is_priority_queue : forall (V : Type) (ops : list (pq_op V)),
  legal INT_MAX_KEY 0 ops -> (pushes ops <= INT_MAX_KEY)%Z ->
  exists a rs, aq_run aq_make ops = Ok (a, rs) /\ bag_run [] ops rs (aq_entries a).
Proof. exact @aq_history. Qed.
Print Assumptions C06_adaptive_queue_is_priority_queue.

(** The same for a fresh HeapQueue. *)
Theorem C06_heap_queue_is_priority_queue : forall (V : Type) (ops : list (pq_op V)),
  legal INT_MAX_KEY 0 ops -> (pushes ops <= INT_MAX_KEY)%Z ->
  exists a rs, aq_run (AHeap []) ops = Ok (a, rs) /\ bag_run [] ops rs (aq_entries a).
Proof. exact @hq_history. Qed.
Print Assumptions C06_heap_queue_is_priority_queue.

(** A history that switches from buckets to a heap at its fourth push. *)
Example C06_nonvacuous :
  let ops := [QPush 7 0; QPush 3 1; QPush 7 2; QPop; QPush 500 3; QPush 1 4; QPop; QPop; QEmpty; QPop; QPop; QEmpty] in
  legal INT_MAX_KEY 0 ops /\ (pushes ops <= INT_MAX_KEY)%Z /\
  (let* r := aq_run aq_make ops in Ok (snd r)) =
    Ok [RNone; RNone; RNone; REntry 3%Z 1; RNone; RNone; REntry 1%Z 4; REntry 7%Z 0; RBool false; REntry 7%Z 2; REntry 500%Z 3; RBool true] /\
  (exists h, (let* r := aq_run aq_make (firstn 5 ops) in Ok (fst r)) = Ok (AHeap h)).
Proof.
  cbv zeta. split; [cbn; unfold INT_MAX_KEY; lia|]. split; [cbn; unfold INT_MAX_KEY; lia|].
  split; [vm_compute; reflexivity|]. eexists. vm_compute. reflexivity.
Qed.

(** C08: equivalence relation refinement. *)
From Verif Require Import Outcome Spec_Partition Model_Equivalence Proof_Equivalence.

(** Starting from one block of distinct elements, any sequence of refinements by
    duplicate-free sets of elements gives a partition of the elements in which two elements
    share a block exactly when no refining set tells them apart. *)
Theorem C08_refine_is_common_refinement : forall elements, NoDup elements -> forall Xs,
  (forall X, In X Xs -> NoDup X /\ incl X elements) ->
  exists r, refine_all elements Xs = Ok r /\ is_partition elements (partition_of r) /\
    forall a b, In a elements -> In b elements ->
      (same_block (partition_of r) a b <-> indistinguishable Xs a b).
Proof. exact refine_nil. Qed.
Print Assumptions C08_refine_is_common_refinement.

Example C08_nonvacuous :
  NoDup [0; 1; 2; 3; 4; 5] /\
  (forall X, In X [[4; 2; 0]; [0; 1]; [5]] -> NoDup X /\ incl X [0; 1; 2; 3; 4; 5]) /\
  (let* r := refine_all [0; 1; 2; 3; 4; 5] [[4; 2; 0]; [0; 1]; [5]] in Ok (partition_of r))
  = Ok [[3]; [4; 2]; [0]; [1]; [5]].
Proof.
  split; [repeat constructor; cbn; intuition discriminate|]. split; [|vm_compute; reflexivity].
  intros X HX. cbn in HX. destruct HX as [<-|[<-|[<-|[]]]];
    (split; [repeat constructor; cbn; intuition discriminate|]);
    intros y Hy; cbn in *; intuition.
Qed.

(** The precondition on duplicates is needed: a refining vector that lists an element twice
    splits it from elements that it cannot be told apart from. *)
Theorem C08_duplicates_refuted : exists elements X r a b,
  NoDup elements /\ incl X elements /\ refine_all elements [X] = Ok r /\
  In a elements /\ In b elements /\ indistinguishable [X] a b /\ ~ same_block (partition_of r) a b.
Proof.
  exists [1; 2; 3], [1; 1; 2]. eexists. exists 1, 2.
  split; [repeat constructor; cbn; intuition discriminate|].
  split; [intros y Hy; cbn in *; intuition|].
  split; [vm_compute; reflexivity|]. split; [cbn; auto|]. split; [cbn; auto|]. split.
  - intros X [<-|[]]. cbn. tauto.
  - intros (B & HB & H1 & H2). cbn in HB. repeat destruct HB as [HB|HB]; subst; cbn in H1, H2; intuition discriminate.
Qed.
Print Assumptions C08_duplicates_refuted.

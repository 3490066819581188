(** C10: maximal cliques. *)
From Verif Require Import Outcome Spec_Graph Model_MaxCliques Proof_MaxCliques.
From Coq Require Import Sorted.

(** For every undirected graph with sorted adjacency lists, the result lists every maximal
    clique once and nothing else. *)
Theorem C10_all_maximal_cliques_once : forall g, undirected g -> (forall l, In l g -> StronglySorted lt l) ->
  exists cs, compute_max_cliques g = Ok cs /\
    (forall K, In K cs -> maximal_clique g K) /\
    (forall K, maximal_clique g K -> exists K', In K' cs /\ same_set K K') /\
    ForallOrdPairs (fun A B => ~ same_set A B) cs.
Proof. exact max_cliques_correct. Qed.
Print Assumptions C10_all_maximal_cliques_once.

(** A triangle 0-1-2, a path 2-3-4 and an isolated vertex 5. *)
Example C10_nonvacuous :
  let g := [[1; 2]; [0; 2]; [0; 1; 3]; [2; 4]; [3]; []] in
  undirected g /\ (forall l, In l g -> StronglySorted lt l) /\
  compute_max_cliques g = Ok [[5]; [4; 3]; [2; 3]; [2; 0; 1]].
Proof.
  cbv zeta. split.
  { assert (H : forall x y, edge [[1; 2]; [0; 2]; [0; 1; 3]; [2; 4]; [3]; []] x y ->
      In (x, y) [(0,1);(0,2);(1,0);(1,2);(2,0);(2,1);(2,3);(3,2);(3,4);(4,3)]).
    { intros x y (l & Hl & Hy). do 6 (destruct x as [|x]; [cbn in Hl; injection Hl as <-; cbn in Hy; cbn; intuition (subst; auto 12)|]).
      destruct x; discriminate. }
    assert (H' : forall x y, In (x, y) [(0,1);(0,2);(1,0);(1,2);(2,0);(2,1);(2,3);(3,2);(3,4);(4,3)] ->
      edge [[1; 2]; [0; 2]; [0; 1; 3]; [2; 4]; [3]; []] x y).
    { intros x y Hin. cbn in Hin. repeat destruct Hin as [Hin|Hin]; try contradiction; injection Hin as <- <-;
        (eexists; split; [reflexivity|cbn; auto]). }
    split; [|split].
    - intros x y He. apply H in He. cbn in He. cbn. repeat destruct He as [He|He]; try contradiction; injection He as <- <-; lia.
    - intros x y He. apply H'. apply H in He. cbn in He. repeat destruct He as [He|He]; try contradiction; injection He as <- <-; cbn; auto 12.
    - intros x He. apply H in He. cbn in He. repeat destruct He as [He|He]; try contradiction; injection He; intros; lia. }
  split; [|vm_compute; reflexivity].
  intros l Hl. cbn in Hl. repeat destruct Hl as [<-|Hl]; try contradiction; repeat constructor.
Qed.

(** The priority queue of integers that the heuristics use
    (algorithms/priority_queues.h:331-397 AdaptiveQueue<int>).

    The heuristics are modelled for any queue that answers as the property proved of the
    adaptive queue (C06) says: the stored entries form a bag, and [pop] returns an entry
    with a smallest key.  (C06 requires keys below 2^31 - 1, which is assumed here.) *)
From Coq Require Import Permutation.
From Verif Require Import Outcome.

Record pqueue := {
  PQ : Type;
  pq_clear : PQ -> PQ;
  pq_push : PQ -> nat -> nat -> PQ;                       (* key, value *)
  pq_pop : PQ -> option ((nat * nat) * PQ)                (* None: empty() *)
}.

Record pq_contract (P : pqueue) (bag : PQ P -> list (nat * nat)) : Prop := {
  pq_clear_ok : forall q, bag (pq_clear P q) = [];
  pq_push_ok : forall q k v, Permutation (bag (pq_push P q k v)) ((k, v) :: bag q);
  pq_pop_none : forall q, pq_pop P q = None -> bag q = [];
  pq_pop_some : forall q k v q', pq_pop P q = Some ((k, v), q') ->
    Permutation (bag q) ((k, v) :: bag q') /\ forall k' v', In (k', v') (bag q') -> k <= k'
}.

(** A simple instance: an unsorted list. *)
Fixpoint lmin (best : nat * nat) (l : list (nat * nat)) : (nat * nat) * list (nat * nat) :=
  match l with
  | [] => (best, [])
  | e :: r => if fst e <? fst best then let (b, r') := lmin e r in (b, best :: r')
              else let (b, r') := lmin best r in (b, e :: r')
  end.
Definition list_pq : pqueue := {|
  PQ := list (nat * nat);
  pq_clear := fun _ => [];
  pq_push := fun q k v => (k, v) :: q;
  pq_pop := fun q => match q with [] => None | e :: r => Some (lmin e r) end
|}.

Lemma lmin_spec l : forall b b' l', lmin b l = (b', l') ->
  Permutation (b :: l) (b' :: l') /\ fst b' <= fst b /\ forall e, In e l' -> fst b' <= fst e.
Proof.
  induction l as [|e r IH]; intros b b' l' H; cbn [lmin] in H.
  - inversion H; subst. repeat split; auto. intros e [].
  - destruct (Nat.ltb_spec (fst e) (fst b)) as [Hl|Hl].
    + destruct (lmin e r) as [b1 r1] eqn:E; inversion H; subst b' l'.
      destruct (IH _ _ _ E) as (Hp & Hle & Hall). repeat split.
      * eapply perm_trans; [apply perm_skip, Hp|]. apply perm_swap.
      * lia.
      * intros e' [<-|He]; [lia|auto].
    + destruct (lmin b r) as [b1 r1] eqn:E; inversion H; subst b' l'.
      destruct (IH _ _ _ E) as (Hp & Hle & Hall). repeat split; auto.
      * eapply perm_trans; [apply perm_swap|]. eapply perm_trans; [apply perm_skip, Hp|]. apply perm_swap.
      * intros e' [<-|He]; [lia|auto].
Qed.

Lemma list_pq_contract : pq_contract list_pq (fun q => q).
Proof.
  constructor; cbn [list_pq PQ pq_clear pq_push pq_pop]; auto.
  - intros [|e r]; [auto|discriminate].
  - intros [|e r] k v q' H; [discriminate|]. inversion H as [H1].
    destruct (lmin_spec _ _ _ _ H1) as (Hp & Hle & Hall). split; [exact Hp|].
    intros k' v' Hin. apply (Hall (k', v') Hin).
Qed.

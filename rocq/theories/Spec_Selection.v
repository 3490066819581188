(** Specification for the selection of merge candidates by scoring functions.
    [the_lts] (Proof_MAS1) reads a factor as a labelled transition system, [active] lists the labels in use. *)
From Coq Require Import List Arith Permutation.
From Verif Require Import Outcome Spec_Task Spec_Relaxation Spec_FTS Spec_Shrink Model_PQ Model_MAS Model_MASAlgorithm Spec_MASAlgorithm Model_MergeStrategy Spec_MergeStrategy Proof_MAS1.
Import ListNotations.

(** The factors of a pair. *)
Definition systems (F : fts) (c : nat * nat) (A B : lts) : Prop :=
  exists f g, get_factor F (fst c) = Ok f /\ get_factor F (snd c) = Ok g /\ A = the_lts (f_ts f) /\ B = the_lts (f_ts g).

(** ** Scores: fractions, or infinity *)
(** A pair is goal relevant if one of the systems has a state that is not a goal state. *)
Definition some_non_goal (T : lts) : Prop := exists s, s < l_n T /\ ~ l_goal T s.
Definition goal_relevance (F : fts) (c : nat * nat) (x : score) : Prop :=
  exists A B, systems F c A B /\ ((some_non_goal A \/ some_non_goal B) /\ x = Some (0, 1) \/ ~ some_non_goal A /\ ~ some_non_goal B /\ x = None).
(** DFP: labels that matter in both systems; how close to the goal do their transitions lead? *)
Definition irrelevant (T : lts) (a : nat) : Prop := forall s s', s < l_n T -> s' < l_n T -> (l_step T a s s' <-> s = s').
Definition leads_to (lc : nat -> nat -> Prop) (T : lts) (a k : nat) : Prop :=
  exists s s' g, l_step T a s s' /\ l_goal T g /\ lpath lc (l_step T) s' k g.
Definition joint (lc : nat -> nat -> Prop) (A B : lts) (k : nat) : Prop :=
  exists a c j1 j2, lc a c /\ ~ irrelevant A a /\ ~ irrelevant B a /\ least (leads_to lc A a) j1 /\ least (leads_to lc B a) j2 /\ k = Nat.max j1 j2.
Definition dfp (F : fts) (c : nat * nat) (x : score) : Prop :=
  exists A B, systems F c A B /\
    ((exists k, least (joint (active (F_labels F)) A B) k /\ x = Some (k, 1)) \/ ((forall k, ~ joint (active (F_labels F)) A B k) /\ x = None)).
(** MIASM: the share of the states that are on a path from the initial state to a goal state, in the
    product of the two systems after shrinking them with the strategy [s] and the limits. *)
Definition alive_share (s : shrink_strategy) (max_states before_merge threshold : nat) (F : fts) (c : nat * nat) (x : score) : Prop :=
  let lc := active (F_labels F) in
  exists A B A' B' T cls1 cls2 alive, systems F c A B /\
    all_grouped (l_n A) cls1 /\ is_image lc A cls1 A' /\ all_grouped (l_n B) cls2 /\ is_image lc B cls2 B' /\ is_product lc A' B' T /\
    (match s with ShrinkBisimulation _ _ => True | _ => l_n A' <= before_merge /\ l_n B' <= before_merge /\ l_n A' * l_n B' <= max_states end) /\
    (l_n A <= Nat.min before_merge threshold -> l_n B <= Nat.min before_merge threshold -> l_n A * l_n B <= max_states -> A' = A /\ B' = B) /\
    NoDup alive /\ (forall z, In z alive <-> z < l_n T /\ from_init lc T z /\ reaches_goal lc T z) /\
    0 < l_n T /\ x = Some (length alive, l_n T).
Definition smaller (a b : score) : Prop :=
  match a, b with Some (x, y), Some (u, v) => x * v < u * y | Some _, None => True | None, _ => False end.

(** ** One scoring function *)
(** The candidates with the smallest score remain. *)
Definition best_ones (rates : nat * nat -> score -> Prop) (cands r : list (nat * nat)) : Prop :=
  exists sc, (forall c, In c cands -> rates c (sc c)) /\ forall c, In c r <-> In c cands /\ forall c', In c' cands -> ~ smaller (sc c') (sc c).
(** The order of the systems for total_order: atomic systems are [0 .. n-1], products [n .. 2n-2]. *)
Definition system_sequence (a : atomic_order) (p : product_order) (atomic_first : bool) (n : nat) (ol : list nat) : Prop :=
  exists at_ pr,
    (match a with AtomicReverseLevel => at_ = seq 0 n | AtomicLevel => at_ = rev (seq 0 n) | AtomicRandom => Permutation at_ (seq 0 n) end) /\
    (match p with OldToNew => pr = seq n (n - 1) | NewToOld => pr = rev (seq n (n - 1)) | ProductRandom => Permutation pr (seq n (n - 1)) end) /\
    ol = if atomic_first then at_ ++ pr else pr ++ at_.
(** Pairs are compared by the system that is earlier in the order, then by the other one. *)
Definition sorted_pair (ol : list nat) (c : nat * nat) (a b : nat) : Prop := before ol a b /\ (c = (a, b) \/ c = (b, a)).
Definition earlier_pair (ol : list nat) (c c' : nat * nat) : Prop :=
  exists a b a' b', sorted_pair ol c a b /\ sorted_pair ol c' a' b' /\ (before ol a a' \/ a = a' /\ before ol b b').
(** [past]: the systems in which the strategy may have rated a pair earlier. *)
Definition narrows (past : fts -> Prop) (F : fts) (ol : list nat) (s : scoring) (cands r : list (nat * nat)) : Prop :=
  match s with
  | GoalRelevance => best_ones (goal_relevance F) cands r
  | DFP => best_ones (dfp F) cands r
  | TotalOrder _ _ _ => exists c, r = [c] /\ In c cands /\ forall c', In c' cands -> c' = c \/ earlier_pair ol c c'
  | SingleRandom => exists c, r = [c] /\ In c cands
  | MIASM sh m b th caching =>
      best_ones (fun c x => if caching then exists F0, past F0 /\ alive_share sh m b th F0 c x else alive_share sh m b th F c x) cands r
  end.

(** ** One after the other, until one candidate is left; [k]: the position of the scoring function *)
Inductive narrowed (past : fts -> Prop) (F : fts) (ols : nat -> list nat) : nat -> list scoring -> list (nat * nat) -> list (nat * nat) -> Prop :=
| narrowed_all : forall k cands, narrowed past F ols k [] cands cands
| narrowed_one : forall k s l cands c, narrows past F (ols k) s cands [c] -> narrowed past F ols k (s :: l) cands [c]
| narrowed_next : forall k s l cands mid r, narrows past F (ols k) s cands mid -> 2 <= length mid -> narrowed past F ols (S k) l mid r -> narrowed past F ols k (s :: l) cands r.

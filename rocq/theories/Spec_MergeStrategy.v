(** Specification for merge strategies. *)
From Coq Require Import List Arith Permutation Sorted Relation_Operators.
From Verif Require Import Outcome Spec_Task Spec_CausalGraph Model_MAS Model_MASAlgorithm Model_MergeStrategy.
Import ListNotations.

(** What is assumed of random choices: shuffling rearranges, random numbers are in range, and two
    chosen groups are different. *)
Definition random_ok (shuffle : nat -> bool -> list nat -> list nat) (random : nat -> nat -> nat -> nat)
    (pick : nat -> nat -> nat * nat -> bool -> list (list nat) -> nat * nat) : Prop :=
  (forall k b l, Permutation (shuffle k b l) l) /\
  (forall n k m, 0 < m -> random n k m < m) /\
  (forall n k c b gs, 2 <= length gs -> fst (pick n k c b gs) < length gs /\ snd (pick n k c b gs) < length gs /\ fst (pick n k c b gs) <> snd (pick n k c b gs)).

(** What std::sort guarantees: a rearrangement; for a strict weak order nothing precedes something smaller. *)
Definition sorts (sort : (list nat -> list nat -> bool) -> list (list nat) -> list (list nat)) : Prop :=
  forall less l, Permutation (sort less l) l /\
    ((forall a b, less a b = true -> less b a = false) -> (forall a b c, less b a = false -> less c b = false -> less c a = false) -> StronglySorted (fun a b => less b a = false) (sort less l)).

(** Options of a scoring function (C70_limits), and scoring functions that leave one candidate only. *)
Definition scoring_ok (s : scoring) : Prop := match s with MIASM _ m b _ _ => 1 <= b <= m | _ => True end.
Definition breaks_ties (s : scoring) : Prop := match s with TotalOrder _ _ _ | SingleRandom => True | _ => False end.

(** The variables in factor [k] after the merges [h] of a task with [n] variables, and the factors
    that are left. *)
Inductive member (n : nat) (h : list (nat * nat)) : nat -> nat -> Prop :=
| member_atomic : forall v, v < n -> member n h v v
| member_first : forall q i j v, nth_error h q = Some (i, j) -> member n h i v -> member n h (n + q) v
| member_second : forall q i j v, nth_error h q = Some (i, j) -> member n h j v -> member n h (n + q) v.
Definition left_over (n : nat) (h : list (nat * nat)) (k : nat) : Prop := k < n + length h /\ forall i j, In (i, j) h -> k <> i /\ k <> j.
(** Strongly connected components of the causal graph. *)
Definition causal_path (t : task) : nat -> nat -> Prop := clos_refl_trans nat (causal_arc t).
Definition connected (t : task) (u v : nat) : Prop := u < length (t_vars t) /\ v < length (t_vars t) /\ causal_path t u v /\ causal_path t v u.
Definition component (t : task) (u : nat) (C : list nat) : Prop := NoDup C /\ forall v, In v C <-> connected t u v.
(** Merge [q] combines factors with variables of the component of [u] only. *)
Definition merge_inside (t : task) (h : list (nat * nat)) (q u : nat) : Prop :=
  exists i j, nth_error h q = Some (i, j) /\ forall v, member (length (t_vars t)) (firstn q h) i v \/ member (length (t_vars t)) (firstn q h) j v -> connected t u v.
(** Before merge [q], every component is contained in one of the factors. *)
Definition all_together (t : task) (h : list (nat * nat)) (q : nat) : Prop :=
  forall u v, connected t u v -> exists k, left_over (length (t_vars t)) (firstn q h) k /\ member (length (t_vars t)) (firstn q h) k u /\ member (length (t_vars t)) (firstn q h) k v.
(** The order in which components are merged. *)
Definition in_order (t : task) (o : scc_order) (u u' : nat) : Prop :=
  match o with
  | Topological => ~ causal_path t u' u
  | ReverseTopological => ~ causal_path t u u'
  | Decreasing => forall C C', component t u C -> component t u' C' -> length C' <= length C
  | Increasing => forall C C', component t u C -> component t u' C' -> length C <= length C'
  end.

(** Variable orders.  [before]: [v] precedes [w] in the list. *)
Definition before (l : list nat) (v w : nat) : Prop := exists a b c, l = a ++ v :: b ++ w :: c.
Definition goal_var (t : task) (v : nat) : Prop := exists x, In (v, x) (t_goal t).
Definition feeds (t : task) (chosen : list nat) (v : nat) : Prop := exists u, In u chosen /\ pre_eff t v u.
Definition relevant (t : task) (v : nat) : Prop := exists g, goal_var t g /\ clos_refl_trans nat (pre_eff t) v g.
Definition needs_relevance (o : var_order) : Prop := o = CgGoalLevel \/ o = CgGoalRandom \/ o = GoalCgLevel.
(** The order that breaks ties: descending, ascending, or any order. *)
Definition base_order (o : var_order) (n : nat) (base : list nat) : Prop :=
  match o with
  | CgGoalLevel | GoalCgLevel | Level => base = rev (seq 0 n)
  | ReverseLevel => base = seq 0 n
  | CgGoalRandom | RandomOrder => Permutation base (seq 0 n)
  end.
(** After the variables [chosen], [v] comes next although [w] has not been chosen either. *)
Definition comes_first (t : task) (o : var_order) (base chosen : list nat) (v w : nat) : Prop :=
  match o with
  | CgGoalLevel | CgGoalRandom =>
      (feeds t chosen v /\ (~ feeds t chosen w \/ before base v w)) \/
      (~ feeds t chosen v /\ ~ feeds t chosen w /\ goal_var t v /\ (~ goal_var t w \/ before base v w))
  | GoalCgLevel =>
      (goal_var t v /\ (~ goal_var t w \/ before base v w)) \/
      (~ goal_var t v /\ ~ goal_var t w /\ feeds t chosen v /\ (~ feeds t chosen w \/ before base v w))
  | _ => before base v w
  end.
Definition follows_order (t : task) (o : var_order) (base vs : list nat) : Prop :=
  Permutation vs (seq 0 (length (t_vars t))) /\
  forall k v w, nth_error vs k = Some v -> In w (skipn (S k) vs) -> comes_first t o base (firstn k vs) v w.
(** The merges of a linear tree over the variables [vs]: the first two, then each product with the next. *)
Definition linear_merge (vs : list nat) (q : nat) : nat * nat := (match q with 0 => nth 0 vs 0 | S p => length vs + p end, nth (S q) vs 0).

(** Options with which a strategy can always go on. *)
Definition selector_ok (l : list scoring) : Prop := Forall scoring_ok l /\ Exists breaks_ties l.
Definition strategy_ok (t : task) (s : strategy_option) : Prop :=
  match s with
  | MergePrecomputedLinear o => needs_relevance o -> forall v, v < length (t_vars t) -> relevant t v
  | MergeStateless l => selector_ok l
  | MergeSccs _ l => selector_ok l
  end.

(** * Score-based filtering *)
(** Operators mention a variable once, except that conditional effects may set it several times. *)
Definition mentions_once (t : task) : Prop :=
  forall op, In op (t_ops t) -> NoDup (map fst (op_pre op)) /\ ((forall e, In e (op_effs op) -> eff_cond e = []) -> NoDup (map (fun e => fst (eff_fact e)) (op_effs op))).

(** Merge-and-shrink: labels, transition systems with grouped labels, distances, abstraction
    mappings, the factored transition system and the heuristic.

    Abstract states, labels, local labels and factors are numbers; PRUNED_STATE and an unset entry
    (-1) are [None]; INF is [None] in costs and distances (that sums of costs stay below 2^31 - 1 is
    assumed, not modelled).  Logging, statistics and incorporated_variables are left out. *)
From Verif Require Import Outcome Spec_Task Model_PQ Model_Graph.

(** * Labels (merge_and_shrink/labels.h:60-95, labels.cc:36-64) *)
(* labels.h:64: label_costs, [None] for the labels that have been replaced *)
Definition label_costs := list (option nat).

Definition omin (a b : option nat) : option nat :=
  match a, b with Some x, Some y => Some (Nat.min x y) | Some x, None => Some x | None, _ => b end.
(* labels.cc:61-64; reading the cost of a replaced label violates the assertion *)
Definition get_label_cost (L : label_costs) (l : nat) : outcome nat :=
  let* c := vget L l in match c with Some c => Ok c | None => UB end.
(* the loops of labels.cc:49-56, transition_system.cc:53-58 and :239-243 *)
Definition min_cost (L : label_costs) (ls : list nat) : outcome (option nat) :=
  fold_outcome (fun acc l => let* c := get_label_cost L l in Ok (omin acc (Some c))) ls None.
(* labels.cc:42-59 *)
Definition reduce_labels (L : label_costs) (olds : list nat) : outcome label_costs :=
  let* (L, c) := fold_outcome (fun Lc old =>
      let '(L, acc) := Lc in
      let* c := get_label_cost L old in
      let* L := vset L old None in
      Ok (L, omin acc (Some c))) olds (L, None) in
  Ok (L ++ [c]).

(** * Transition systems (transition_system.h:40-140) *)
Definition trans := (nat * nat)%type.                       (* transition_system.h:20-35: source, target *)
(* transition_system.h:46-110 LocalLabelInfo *)
Record info := { i_labels : list nat; i_trans : list trans; i_cost : option nat }.
(* transition_system.h:98-100 *)
Definition is_active (i : info) : bool := match i_labels i with [] => false | _ => true end.
(* transition_system.cc:78-82; the cost -1 of a deactivated entry is never read *)
Definition deactivated : info := {| i_labels := []; i_trans := []; i_cost := None |}.
(* transition_system.h:150-190 TransitionSystem *)
Record tsys := {
  ts_l2l : list (option nat);       (* label_to_local_label *)
  ts_infos : list info;             (* local_label_infos *)
  ts_n : nat;                       (* num_states *)
  ts_goals : list bool;             (* goal_states *)
  ts_init : option nat              (* init_state *)
}.

(* std::sort on labels and on transitions (transition_system.h:31-35: lexicographic) *)
Fixpoint insert {A} (le : A -> A -> bool) (x : A) (l : list A) : list A :=
  match l with [] => [x] | y :: r => if le x y then x :: l else y :: insert le x r end.
Definition sort {A} (le : A -> A -> bool) (l : list A) : list A := fold_right (insert le) [] l.
Definition trans_le (a b : trans) : bool := (fst a <? fst b) || ((fst a =? fst b) && (snd a <=? snd b)).
Definition trans_eqb (a b : trans) : bool := (fst a =? fst b) && (snd a =? snd b).
(* utils/collections.h:21-26 sort_unique *)
Fixpoint unique (l : list trans) : list trans :=
  match l with
  | [] => []
  | x :: r => match r with y :: _ => if trans_eqb x y then unique r else x :: unique r | [] => [x] end
  end.
Definition sort_unique (l : list trans) : list trans := unique (sort trans_le l).
Fixpoint trans_list_eqb (a b : list trans) : bool :=
  match a, b with
  | [], [] => true
  | x :: a, y :: b => trans_eqb x y && trans_list_eqb a b
  | _, _ => false
  end.

(* label_to_local_label[label] = k for the labels of a list *)
Definition set_local (m : list (option nat)) (ls : list nat) (k : option nat) : outcome (list (option nat)) :=
  fold_outcome (fun m l => vset m l k) ls m.

(** ** Merging (transition_system.cc:153-284) *)
(* buckets[ts_local_label2].push_back(label) *)
Fixpoint add_to_bucket (bs : list (nat * list nat)) (k l : nat) : list (nat * list nat) :=
  match bs with
  | [] => [(k, [l])]
  | (k', ls) :: r => if k' =? k then (k', ls ++ [l]) :: r else (k', ls) :: add_to_bucket r k l
  end.
(* transition_system.cc:206-210; a label without local label would index position -1 *)
Definition distribute (T2 : tsys) (group1 : list nat) : outcome (list (nat * list nat)) :=
  fold_outcome (fun bs l =>
    let* k := vget (ts_l2l T2) l in
    match k with Some k => Ok (add_to_bucket bs k l) | None => UB end) group1 [].

(* transition_system.cc:221-234 *)
Definition product_trans (n2 : nat) (tr1 tr2 : list trans) : list trans :=
  flat_map (fun t1 => map (fun t2 => (fst t1 * n2 + fst t2, snd t1 * n2 + snd t2)) tr2) tr1.

Definition merge_state := (list (option nat) * list info * list nat)%type.   (* l2l, infos, dead labels *)
(* transition_system.cc:214-254, without the check for vector::max_size *)
Definition merge_bucket (L : label_costs) (T2 : tsys) (tr1 : list trans) (st : merge_state) (b : nat * list nat) : outcome merge_state :=
  let '(l2l, infos, dead) := st in
  let* i2 := vget (ts_infos T2) (fst b) in
  match product_trans (ts_n T2) tr1 (i_trans i2) with
  | [] => Ok (l2l, infos, dead ++ snd b)
  | new =>
      let labels := sort Nat.leb (snd b) in
      let* c := min_cost L labels in
      let* l2l := set_local l2l labels (Some (length infos)) in
      Ok (l2l, infos ++ [{| i_labels := labels; i_trans := sort trans_le new; i_cost := c |}], dead)
  end.

Section MERGE.
(* the iteration order of unordered_map (any permutation of its entries) *)
Variable ord : list (nat * list nat) -> list (nat * list nat).
(* transition_system.cc:197-256: one group of the first system *)
Definition merge_group (L : label_costs) (T2 : tsys) (st : merge_state) (i1 : info) : outcome merge_state :=
  if is_active i1 then
    let* buckets := distribute T2 (i_labels i1) in
    fold_outcome (merge_bucket L T2 (i_trans i1)) (ord buckets) st
  else Ok st.

(* transition_system.cc:153-284; maxl = labels.get_max_num_labels() *)
Definition merge_ts (L : label_costs) (maxl : nat) (T1 T2 : tsys) : outcome tsys :=
  let* st := fold_outcome (merge_group L T2) (ts_infos T1) (repeat None maxl, [], []) in
  let '(l2l, infos, dead) := st in
  let* fin :=
    match dead with
    | [] => Ok (l2l, infos)
    | _ =>
        let labels := sort Nat.leb dead in
        let* c := min_cost L labels in
        let* l2l := set_local l2l labels (Some (length infos)) in
        Ok (l2l, infos ++ [{| i_labels := labels; i_trans := []; i_cost := c |}])
    end in
  Ok {| ts_l2l := fst fin;
        ts_infos := snd fin;
        ts_n := ts_n T1 * ts_n T2;
        ts_goals := flat_map (fun g1 => map (fun g2 => g1 && g2) (ts_goals T2)) (ts_goals T1);
        ts_init := match ts_init T1, ts_init T2 with
                   | Some a, Some b => Some (a * ts_n T2 + b)
                   | _, _ => None
                   end |}.
End MERGE.

(** ** Combining locally equivalent labels (transition_system.cc:286-322, :64-76) *)
Definition merge_infos (a b : info) : info :=
  {| i_labels := sort Nat.leb (i_labels a ++ i_labels b); i_trans := i_trans a; i_cost := omin (i_cost a) (i_cost b) |}.
Definition combine_pair (k1 : nat) (st : list (option nat) * list info) (k2 : nat) : outcome (list (option nat) * list info) :=
  let '(l2l, infos) := st in
  let* a := vget infos k1 in
  let* b := vget infos k2 in
  if is_active b && trans_list_eqb (i_trans a) (i_trans b) then
    let* l2l := set_local l2l (i_labels b) (Some k1) in
    let* infos := vset infos k1 (merge_infos a b) in
    let* infos := vset infos k2 deactivated in
    Ok (l2l, infos)
  else Ok st.
Definition combine_from (st : list (option nat) * list info) (k1 : nat) : outcome (list (option nat) * list info) :=
  let* a := vget (snd st) k1 in
  if is_active a then fold_outcome (combine_pair k1) (seq (S k1) (length (snd st) - S k1)) st else Ok st.
Definition combine_labels (l2l : list (option nat)) (infos : list info) : outcome (list (option nat) * list info) :=
  fold_outcome combine_from (seq 0 (length infos)) (l2l, infos).

(** ** Abstraction (transition_system.cc:324-387, utils.cc:174-187) *)
Definition classes := list (list nat).                       (* types.h:22-23 *)
(* utils.cc:174-187 *)
Definition abstraction_mapping (n : nat) (eq : classes) : outcome (list (option nat)) :=
  let* (m, _) := fold_outcome (fun mk cls =>
      let '(m, k) := mk in
      let* m := fold_outcome (fun m s => vset m s (Some k)) cls m in
      Ok (m, S k)) eq (repeat None n, 0) in
  Ok m.
(* transition_system.cc:336-349 *)
Fixpoint any_goal (goals : list bool) (cls : list nat) : outcome bool :=
  match cls with [] => Ok false | s :: r => let* g := vget goals s in if g then Ok true else any_goal goals r end.
(* transition_system.cc:366-371 *)
Definition map_trans (m : list (option nat)) (acc : list trans) (t : trans) : outcome (list trans) :=
  let* a := vget m (fst t) in
  let* b := vget m (snd t) in
  match a, b with Some a, Some b => Ok (acc ++ [(a, b)]) | _, _ => Ok acc end.
Definition abstract_info (m : list (option nat)) (i : info) : outcome info :=
  let* tr := fold_outcome (map_trans m) (i_trans i) [] in
  Ok {| i_labels := i_labels i; i_trans := sort_unique tr; i_cost := i_cost i |}.
Fixpoint omap {A B} (f : A -> outcome B) (l : list A) : outcome (list B) :=
  match l with [] => Ok [] | x :: r => let* y := f x in let* ys := omap f r in Ok (y :: ys) end.
(* transition_system.cc:324-387; an initial state that was pruned before would index position -1 *)
Definition abstract_ts (T : tsys) (eq : classes) (m : list (option nat)) : outcome tsys :=
  let* goals := omap (any_goal (ts_goals T)) eq in
  let* infos := omap (abstract_info m) (ts_infos T) in
  let* (l2l, infos) := combine_labels (ts_l2l T) infos in
  let* init := match ts_init T with Some s => vget m s | None => UB end in
  Ok {| ts_l2l := l2l; ts_infos := infos; ts_n := length eq; ts_goals := goals; ts_init := init |}.

(** ** Label reduction (transition_system.cc:389-483, :33-58) *)
Definition label_mapping := list (nat * list nat).           (* new label, old labels *)
Definition member (l : nat) (ls : list nat) : bool := existsb (fun x => l =? x) ls.
(* transition_system.cc:42-50: the two ranges are sorted without duplicates, so set_difference
   keeps the labels that are not in the second one *)
Definition remove_labels (i : info) (olds : list nat) : info :=
  {| i_labels := filter (fun l => negb (member l olds)) (i_labels i); i_trans := i_trans i; i_cost := i_cost i |}.
(* transition_system.cc:33-39 *)
Definition same_cost_mapping (i : info) (new : nat) (olds : list nat) : info :=
  {| i_labels := i_labels (remove_labels i olds) ++ [new]; i_trans := i_trans i; i_cost := i_cost i |}.
(* transition_system.cc:417-431 *)
Definition reduce_equivalent (st : list (option nat) * list info) (mp : nat * list nat) : outcome (list (option nat) * list info) :=
  let '(l2l, infos) := st in
  let '(new, olds) := mp in
  match olds with
  | [] => UB                                                 (* front() of an empty vector *)
  | first :: _ =>
      let* k := vget l2l first in
      match k with
      | None => UB
      | Some k =>
          let* i := vget infos k in
          let* infos := vset infos k (same_cost_mapping i new olds) in
          let* l2l := vset l2l new (Some k) in
          let* l2l := set_local l2l olds None in
          Ok (l2l, infos)
      end
  end.
(* transition_system.cc:447-458: local_label_to_old_labels and the transitions of the new label;
   the insertion order of unordered_map does not matter, the entries are about different groups *)
Definition collect_label (infos : list info) (st : list (option nat) * list nat * list trans * list (nat * list nat)) (old : nat) :
  outcome (list (option nat) * list nat * list trans * list (nat * list nat)) :=
  let '(l2l, seen, tr, removed) := st in
  let* k := vget l2l old in
  match k with
  | None => UB
  | Some k =>
      let* i := vget infos k in
      let '(seen, tr) := if member k seen then (seen, tr) else (k :: seen, tr ++ i_trans i) in
      let* l2l := vset l2l old None in
      Ok (l2l, seen, tr, add_to_bucket removed k old)
  end.
(* transition_system.cc:441-471 *)
Definition reduce_combinable (L : label_costs) (st : list (option nat) * list info * list (nat * list nat)) (mp : nat * list nat) :
  outcome (list (option nat) * list info * list (nat * list nat)) :=
  let '(l2l, infos, removed) := st in
  let '(new, olds) := mp in
  let* (l2l, seen, tr, removed) := fold_outcome (collect_label infos) olds (l2l, [], [], removed) in
  let* l2l := vset l2l new (Some (length infos)) in
  let* c := get_label_cost L new in
  Ok (l2l, infos ++ [{| i_labels := [new]; i_trans := sort_unique tr; i_cost := Some c |}], removed).
(* transition_system.cc:477-480 *)
Definition remove_from (L : label_costs) (infos : list info) (e : nat * list nat) : outcome (list info) :=
  let* i := vget infos (fst e) in
  let i := remove_labels i (snd e) in
  let* c := min_cost L (i_labels i) in
  vset infos (fst e) {| i_labels := i_labels i; i_trans := i_trans i; i_cost := c |}.
(* transition_system.cc:389-483; L are the label costs after the reduction *)
Definition reduce_ts (L : label_costs) (mp : label_mapping) (only_equivalent : bool) (T : tsys) : outcome tsys :=
  let* (l2l, infos) :=
    if only_equivalent then fold_outcome reduce_equivalent mp (ts_l2l T, ts_infos T)
    else
      let* (l2l, infos, removed) := fold_outcome (reduce_combinable L) mp (ts_l2l T, ts_infos T, []) in
      let* infos := fold_outcome (remove_from L) removed infos in
      combine_labels l2l infos in
  Ok {| ts_l2l := l2l; ts_infos := infos; ts_n := ts_n T; ts_goals := ts_goals T; ts_init := ts_init T |}.

(** * Distances (distances.cc) *)
(* distances.h:24-35; [None]: not computed *)
Record distances := { d_init : option dists; d_goal : option dists }.
(* distances.cc:19-24 *)
Definition no_distances : distances := {| d_init := None; d_goal := None |}.
(* iteration over the active groups, transition_system.cc:89-104 *)
Definition active_infos (T : tsys) : list info := filter is_active (ts_infos T).
(* distances.cc:33-46 *)
Definition is_unit_cost (T : tsys) : bool := forallb (fun i => match i_cost i with Some 1 => true | _ => false end) (active_infos T).
(* graph[s].push_back(x) *)
Definition push_edge {A} (g : list (list A)) (s : nat) (x : A) : outcome (list (list A)) :=
  let* l := vget g s in vset g s (l ++ [x]).
(* distances.cc:64-73, :82-90; [flip]: backward graph *)
Definition unit_graph (T : tsys) (flip : bool) : outcome (list (list nat)) :=
  fold_outcome (fun g i =>
    fold_outcome (fun g t => if flip then push_edge g (snd t) (fst t) else push_edge g (fst t) (snd t)) (i_trans i) g)
    (active_infos T) (repeat [] (ts_n T)).
(* distances.cc:126-137, :145-156 *)
Definition cost_graph (T : tsys) (flip : bool) : outcome (list (list (nat * nat))) :=
  fold_outcome (fun g i =>
    match i_cost i with
    | None => UB                                             (* adding INF overflows *)
    | Some c => fold_outcome (fun g t => if flip then push_edge g (snd t) (fst t, c) else push_edge g (fst t) (snd t, c)) (i_trans i) g
    end)
    (active_infos T) (repeat [] (ts_n T)).
(* distances.cc:74-79, :92-98: the source states get distance 0 and are queued in order *)
Definition goal_list (T : tsys) : list nat := filter (fun s => nth s (ts_goals T) false) (seq 0 (ts_n T)).

Section DIST.
Variable P : pqueue.
Variable q0 : PQ P.                     (* a new, empty queue *)
Definition search_from (T : tsys) (flip : bool) (srcs : list nat) : outcome dists :=
  let* d := fold_outcome (fun d s => vset d s (Some 0)) srcs (repeat None (ts_n T)) in
  if is_unit_cost T then
    let* g := unit_graph T flip in
    bfs (S (length srcs + ts_n T)) g d srcs
  else
    let* g := cost_graph T flip in
    dijkstra P (fun s => vget g s) (S (length srcs + list_sum (map (@length _) g))) d
      (fold_left (fun q s => pq_push P q 0 s) srcs q0).
Definition compute_init_distances (T : tsys) : outcome dists :=
  match ts_init T with Some s => search_from T false [s] | None => UB end.
Definition compute_goal_distances (T : tsys) : outcome dists := search_from T true (goal_list T).
(* distances.cc:168-260 *)
Definition compute_distances (T : tsys) (ci cg : bool) (D : distances) : outcome distances :=
  if ts_n T =? 0 then Ok {| d_init := Some []; d_goal := Some [] |}
  else
    let* di := if ci then let* d := compute_init_distances T in Ok (Some d) else Ok (d_init D) in
    let* dg := if cg then let* d := compute_goal_distances T in Ok (Some d) else Ok (d_goal D) in
    Ok {| d_init := di; d_goal := dg |}.

Definition oeqb (a b : option nat) : bool :=
  match a, b with Some x, Some y => x =? y | None, None => true | _, _ => false end.
(* distances.cc:262-340: the common value of a class; [Ok None] if the states disagree *)
Definition class_value (d : dists) (cls : list nat) : outcome (option (option nat)) :=
  match cls with
  | [] => UB
  | s :: r =>
      let* x := vget d s in
      fold_outcome (fun acc s' => match acc with None => Ok None | Some x => let* y := vget d s' in Ok (if oeqb y x then Some x else None) end) r (Some x)
  end.
Fixpoint class_values (d : dists) (eq : classes) : outcome (option dists) :=
  match eq with
  | [] => Ok (Some [])
  | cls :: r =>
      let* x := class_value d cls in
      match x with
      | None => Ok None
      | Some x => let* xs := class_values d r in Ok (option_map (cons x) xs)
      end
  end.
(* distances.cc:262-340; T is the abstracted system.  The program compares init and goal distances in
   one loop and stops at the first disagreement of either. *)
Definition abstract_distances (T : tsys) (eq : classes) (ci cg : bool) (D : distances) : outcome distances :=
  let* di := if ci then match d_init D with None => UB | Some d => let* x := class_values d eq in Ok (option_map Some x) end else Ok (Some None) in
  let* dg := if cg then match d_goal D with None => UB | Some d => let* x := class_values d eq in Ok (option_map Some x) end else Ok (Some None) in
  match di, dg with
  | Some di, Some dg => Ok {| d_init := di; d_goal := dg |}
  | _, _ => compute_distances T ci cg no_distances
  end.
End DIST.

(** * Abstraction mappings (merge_and_shrink_representation.cc) *)
Inductive rep :=
| Leaf (var : nat) (table : list (option nat)) (dom : nat)
| Node (l r : rep) (table : list (list (option nat))) (dom : nat).
(* merge_and_shrink_representation.cc:23-25 *)
Definition rep_dom (r : rep) : nat := match r with Leaf _ _ d => d | Node _ _ _ d => d end.
(* merge_and_shrink_representation.cc:27-33 *)
Definition new_leaf (var dom : nat) : rep := Leaf var (map Some (seq 0 dom)) dom.
(* merge_and_shrink_representation.cc:84-102 *)
Definition new_node (l r : rep) : rep :=
  Node l r (map (fun i => map (fun j => Some (i * rep_dom r + j)) (seq 0 (rep_dom r))) (seq 0 (rep_dom l))) (rep_dom l * rep_dom r).
(* merge_and_shrink_representation.cc:46-55, :117-129 *)
Definition map_entry (m : list (option nat)) (e : option nat) : outcome (option nat) := match e with None => Ok None | Some s => vget m s end.
Definition table_dom (es : list (option nat)) : nat := fold_left (fun d e => match e with None => d | Some s => Nat.max d (s + 1) end) es 0.
Definition abstract_rep (m : list (option nat)) (r : rep) : outcome rep :=
  match r with
  | Leaf v tab _ => let* tab := omap (map_entry m) tab in Ok (Leaf v tab (table_dom tab))
  | Node a b tab _ => let* tab := omap (omap (map_entry m)) tab in Ok (Node a b tab (table_dom (concat tab)))
  end.
(* merge_and_shrink_representation.cc:57-60, :131-137 *)
Fixpoint get_value (r : rep) (s : state) : outcome (option nat) :=
  match r with
  | Leaf v tab _ => let* x := vget s v in vget tab x
  | Node a b tab _ =>
      let* x := get_value a s in
      let* y := get_value b s in
      match x, y with Some x, Some y => let* row := vget tab x in vget row y | _, _ => Ok None end
  end.
(* merge_and_shrink_representation.cc:62-69, :139-148 *)
Definition entry_set (e : option nat) : bool := match e with Some _ => true | None => false end.
Fixpoint is_total (r : rep) : bool :=
  match r with
  | Leaf _ tab _ => forallb entry_set tab
  | Node a b tab _ => forallb (forallb entry_set) tab && is_total a && is_total b
  end.
(* merge_and_shrink_representation.cc:35-44, :104-115: the root table then holds goal distances.
   PRUNED_STATE and INF are both [None]: compute_heuristic treats them alike. *)
Definition set_distances (d : dists) (r : rep) : outcome rep := abstract_rep d r.

(** * The factored transition system (factored_transition_system.cc) *)
Record factor := { f_ts : tsys; f_rep : rep; f_dist : distances }.
Record fts := { F_labels : label_costs; F_max : nat; F_factors : list (option factor) }.
Definition get_factor (F : fts) (i : nat) : outcome factor :=
  let* f := vget (F_factors F) i in match f with Some f => Ok f | None => UB end.
Definition set_factors (F : fts) (fs : list (option factor)) : fts := {| F_labels := F_labels F; F_max := F_max F; F_factors := fs |}.

(* factored_transition_system.cc:110-126 *)
Fixpoint reduce_all (L : label_costs) (mp : label_mapping) (comb : nat) (i : nat) (fs : list (option factor)) : outcome (list (option factor)) :=
  match fs with
  | [] => Ok []
  | None :: r => let* r := reduce_all L mp comb (S i) r in Ok (None :: r)
  | Some f :: r =>
      let* T := reduce_ts L mp (negb (i =? comb)) (f_ts f) in
      let* r := reduce_all L mp comb (S i) r in
      Ok (Some {| f_ts := T; f_rep := f_rep f; f_dist := f_dist f |} :: r)
  end.
Definition apply_label_mapping (F : fts) (mp : label_mapping) (comb : nat) : outcome fts :=
  let* L := fold_outcome (fun L e => reduce_labels L (snd e)) mp (F_labels F) in
  let* fs := reduce_all L mp comb 0 (F_factors F) in
  Ok {| F_labels := L; F_max := F_max F; F_factors := fs |}.

Section FTS.
Variable P : pqueue.
Variable q0 : PQ P.
Variable ord : list (nat * list nat) -> list (nat * list nat).
Variable ci cg : bool.                  (* compute_init_distances, compute_goal_distances *)

(* factored_transition_system.cc:128-157 *)
Definition apply_abstraction (F : fts) (i : nat) (eq : classes) : outcome fts :=
  let* f := get_factor F i in
  if length eq =? ts_n (f_ts f) then Ok F
  else
    let* m := abstraction_mapping (ts_n (f_ts f)) eq in
    let* T := abstract_ts (f_ts f) eq m in
    let* D := if ci || cg then abstract_distances P q0 T eq ci cg (f_dist f) else Ok (f_dist f) in
    let* r := abstract_rep m (f_rep f) in
    Ok (set_factors F (upd (F_factors F) i (Some {| f_ts := T; f_rep := r; f_dist := D |}))).

(* factored_transition_system.cc:159-191 *)
Definition merge_factors (F : fts) (i j : nat) : outcome fts :=
  let* f := get_factor F i in
  let* g := get_factor F j in
  let* T := merge_ts ord (F_labels F) (F_max F) (f_ts f) (f_ts g) in
  let* D := if ci || cg then compute_distances P q0 T ci cg no_distances else Ok no_distances in
  Ok (set_factors F (upd (upd (F_factors F) i None) j None ++
                     [Some {| f_ts := T; f_rep := new_node (f_rep f) (f_rep g); f_dist := D |}])).

(* utils.cc:128-172 *)
Definition is_inf (d : option dists) (s : nat) : outcome bool :=
  match d with None => UB | Some d => let* x := vget d s in Ok (match x with None => true | Some _ => false end) end.
Definition prune_classes (D : distances) (pu pi : bool) (n : nat) : outcome classes :=
  fold_outcome (fun eq s =>
    let* a := if pu then is_inf (d_init D) s else Ok false in
    let* b := if pi then is_inf (d_goal D) s else Ok false in
    Ok (if a || b then eq else eq ++ [[s]])) (seq 0 n) [].
Definition prune_step (F : fts) (i : nat) (pu pi : bool) : outcome fts :=
  let* f := get_factor F i in
  let* eq := prune_classes (f_dist f) pu pi (ts_n (f_ts f)) in
  apply_abstraction F i eq.

(** * Atomic factors (fts_factory.cc) *)
(* fts_factory.cc:165-171: of several preconditions on a variable the last one counts *)
Definition pre_value (op : operator) (v : nat) : option nat :=
  fold_left (fun acc f => if fst f =? v then Some (snd f) else acc) (op_pre op) None.
(* fts_factory.cc:173-240: the transitions of one effect on variable v with domain size dom.  The
   program collects the transitions of all variables in one pass over the operator. *)
Definition effect_trans (dom : nat) (op : operator) (v : nat) (e : effect) : list trans :=
  let range := match pre_value op v with None => seq 0 dom | Some x => [x] end in
  let own := fold_left (fun acc f => if fst f =? v then Some (snd f) else acc) (eff_cond e) None in
  let other := existsb (fun f => negb (fst f =? v)) (eff_cond e) in
  flat_map (fun x => if match own with None => true | Some y => y =? x end then [(x, snd (eff_fact e))] else []) range ++
  match eff_cond e with
  | [] => []
  | _ => flat_map (fun x => if other || match own with None => true | Some y => negb (x =? y) end then [(x, x)] else []) range
  end.
Definition effs_on (op : operator) (v : nat) : list effect := filter (fun e => fst (eff_fact e) =? v) (op_effs op).
Definition pres_on (op : operator) (v : nat) : list fact := filter (fun f => fst f =? v) (op_pre op).
(* fts_factory.cc:156-163: an operator is relevant for the variables it mentions *)
Definition relevant (op : operator) (v : nat) : bool :=
  match effs_on op v, pres_on op v with [], [] => false | _, _ => true end.
(* fts_factory.cc:254-278 *)
Definition op_trans (dom : nat) (op : operator) (v : nat) : list trans :=
  match effs_on op v with
  | [] => map (fun f => (snd f, snd f)) (pres_on op v)
  | es => flat_map (effect_trans dom op v) es
  end.
(* task_has_conditional_effects, as far as the operators have been read *)
Definition cond_seen (ops : list operator) : bool :=
  existsb (fun op => existsb (fun e => match eff_cond e with [] => false | _ => true end) (op_effs op)) ops.
(* fts_factory.cc:306-330, transition_system.cc:25-31 *)
Fixpoint add_group (infos : list info) (k : nat) (tr : list trans) (label cost : nat) : list info * nat :=
  match infos with
  | [] => ([{| i_labels := [label]; i_trans := tr; i_cost := Some cost |}], k)
  | i :: r =>
      if trans_list_eqb tr (i_trans i)
      then ({| i_labels := i_labels i ++ [label]; i_trans := i_trans i; i_cost := omin (i_cost i) (Some cost) |} :: r, k)
      else let '(r, k) := add_group r (S k) tr label cost in (i :: r, k)
  end.
(* fts_factory.cc:241-332 for variable v; done = the operators read before *)
Fixpoint build_ops (dom v : nat) (done ops : list operator) (l2l : list (option nat)) (infos : list info) : outcome (list (option nat) * list info) :=
  match ops with
  | [] => Ok (l2l, infos)
  | op :: r =>
      let label := length done in
      if relevant op v then
        let tr := op_trans dom op v in
        let tr := if cond_seen (done ++ [op]) then sort_unique tr else tr in
        let '(infos, k) := add_group infos 0 tr label (op_cost op) in
        let* l2l := vset l2l label (Some k) in
        build_ops dom v (done ++ [op]) r l2l infos
      else build_ops dom v (done ++ [op]) r l2l infos
  end.
(* fts_factory.cc:334-368 *)
Definition irrelevant_labels (ops : list operator) (v : nat) : list nat :=
  filter (fun l => match nth_error ops l with Some op => negb (relevant op v) | None => false end) (seq 0 (length ops)).
(* fts_factory.cc:113-139 *)
Definition goal_value (t : task) (v : nat) : option nat := option_map snd (find (fun f => fst f =? v) (t_goal t)).
(* fts_factory.cc:99-113: label costs and the maximal number of labels *)
Definition initial_labels (t : task) : label_costs := map (fun op => Some (op_cost op)) (t_ops t).
Definition max_labels (t : task) : nat := 2 * length (t_ops t) - 1.
Definition atomic_ts (t : task) (v : nat) : outcome tsys :=
  let* x := vget (t_vars t) v in
  let* i := vget (t_init t) v in
  let* (l2l, infos) := build_ops (vdom x) v [] (t_ops t) (repeat None (max_labels t)) [] in
  let irr := irrelevant_labels (t_ops t) v in
  let* (l2l, infos) :=
    match irr with
    | [] => Ok (l2l, infos)
    | _ =>
        let* c := min_cost (initial_labels t) irr in
        let* l2l := set_local l2l irr (Some (length infos)) in
        Ok (l2l, infos ++ [{| i_labels := irr; i_trans := map (fun s => (s, s)) (seq 0 (vdom x)); i_cost := c |}])
    end in
  Ok {| ts_l2l := l2l; ts_infos := infos; ts_n := vdom x;
        ts_goals := map (fun d => match goal_value t v with None => true | Some g => d =? g end) (seq 0 (vdom x));
        ts_init := Some i |}.
(* fts_factory.cc:384-458, factored_transition_system.cc:35-57 *)
Definition atomic_factor (t : task) (v : nat) : outcome factor :=
  let* x := vget (t_vars t) v in
  let* T := atomic_ts t v in
  let* D := if ci || cg then compute_distances P q0 T ci cg no_distances else Ok no_distances in
  Ok {| f_ts := T; f_rep := new_leaf v (vdom x); f_dist := D |}.
Definition create_fts (t : task) : outcome fts :=
  let* fs := omap (atomic_factor t) (seq 0 (length (t_vars t))) in
  Ok {| F_labels := initial_labels t; F_max := max_labels t; F_factors := map Some fs |}.

(** * The heuristic (merge_and_shrink_heuristic.cc:45-139) *)
(* merge_and_shrink_heuristic.cc:45-63 *)
Definition extract_factor (f : factor) : outcome rep :=
  let* D := match d_goal (f_dist f) with Some _ => Ok (f_dist f) | None => compute_distances P q0 (f_ts f) false true (f_dist f) end in
  match d_goal D with Some d => set_distances d (f_rep f) | None => UB end.
(* transition_system.cc:554-563 *)
Definition is_solvable (f : factor) : outcome bool :=
  match ts_init (f_ts f) with
  | None => Ok false
  | Some s => match d_goal (f_dist f) with None => Ok true | Some d => let* x := vget d s in Ok (match x with None => false | Some _ => true end) end
  end.
(* factored_transition_system.cc:228-241 *)
Definition is_trivial (f : factor) : bool := is_total (f_rep f) && forallb (fun b => b) (ts_goals (f_ts f)).
Definition active_factors (F : fts) : list factor := flat_map (fun f => match f with Some f => [f] | None => [] end) (F_factors F).
(* merge_and_shrink_heuristic.cc:65-81 *)
Fixpoint first_unsolvable (fs : list factor) : outcome (option factor) :=
  match fs with [] => Ok None | f :: r => let* b := is_solvable f in if b then first_unsolvable r else Ok (Some f) end.
(* merge_and_shrink_heuristic.cc:83-124 *)
Definition extract_factors (F : fts) : outcome (list rep) :=
  let* u := first_unsolvable (active_factors F) in
  match u with
  | Some f => let* r := extract_factor f in Ok [r]
  | None => omap extract_factor (filter (fun f => negb (is_trivial f)) (active_factors F))
  end.
(* merge_and_shrink_heuristic.cc:126-139; [None] is DEAD_END *)
Definition compute_heuristic (rs : list rep) (s : state) : outcome (option nat) :=
  fold_outcome (fun h r =>
    match h with
    | None => Ok None
    | Some h => let* c := get_value r s in Ok (match c with None => None | Some c => Some (Nat.max h c) end)
    end) rs (Some 0).
End FTS.

(** Merge-and-shrink: exact label reduction, the shrink strategies, the size limits and the main loop.

    Numbers of states and labels are natural numbers (that they stay below 2^31 is assumed).  Random
    choices, the iteration order of unordered_map, the time limit and the merge strategy (see
    Model_MergeStrategy.v) are parameters.  Logging and statistics are left out. *)
From Verif Require Import Outcome Spec_Task Model_PQ Model_Graph Model_Equivalence Model_MAS.

(** * Exact label reduction (label_reduction.cc) *)
Inductive lr_method := TwoSystems | AllSystems | AllSystemsFixpoint.      (* label_reduction.h:36-40 *)
Inductive lr_order := Regular | Reverse | Random.                         (* label_reduction.h:48-52 *)

(* label_reduction.cc:48-69; vars: the number of variables, shuffle: rng->shuffle *)
Definition system_order (o : lr_order) (shuffle : list nat -> list nat) (vars : nat) : list nat :=
  let m := vars * 2 - 1 in
  match o with
  | Regular => seq 0 m
  | Random => shuffle (seq 0 m)
  | Reverse => map (fun i => m - 1 - i) (seq 0 m)
  end.

(* labels.cc:9-34: iteration over the labels in use *)
Definition active_labels (L : label_costs) : list nat :=
  filter (fun l => match nth_error L l with Some (Some _) => true | _ => false end) (seq 0 (length L)).

(* label_reduction.cc:128-139: the label groups of all systems but one, in the order of refinement *)
Fixpoint other_groups (ts_index i : nat) (fs : list (option factor)) : list (list nat) :=
  match fs with
  | [] => []
  | f :: r =>
      match f with
      | Some f => if i =? ts_index then [] else map i_labels (active_infos (f_ts f))
      | None => []
      end ++ other_groups ts_index (S i) r
  end.
(* label_reduction.cc:110-140 *)
Definition compute_combinable_equivalence_relation (ts_index : nat) (F : fts) : outcome eqrel :=
  refine_all (active_labels (F_labels F)) (other_groups ts_index 0 (F_factors F)).

Section LABELREDUCTION.
Variable ord : list (nat * list nat) -> list (nat * list nat).   (* iteration order of unordered_map *)

(* label_reduction.cc:79-85 *)
Definition cost_to_labels (L : label_costs) (block : list nat) : outcome (list (nat * list nat)) :=
  fold_outcome (fun m l => let* c := get_label_cost L l in Ok (add_to_bucket m c l)) block [].
(* label_reduction.cc:86-102 *)
Definition add_mapping (st : label_mapping * nat) (entry : nat * list nat) : label_mapping * nat :=
  let '(mp, next) := st in
  if 1 <? length (snd entry) then (mp ++ [(next, sort Nat.leb (snd entry))], S next) else st.
(* label_reduction.cc:71-108 *)
Definition compute_label_mapping (rel : eqrel) (L : label_costs) : outcome label_mapping :=
  let* (mp, _) := fold_outcome (fun (st : label_mapping * nat) block =>
      let* m := cost_to_labels L block in
      Ok (fold_left add_mapping (ord m) st)) (partition_of rel) ([], length L) in
  Ok mp.
(* label_reduction.cc:159-165: one attempt with one system *)
Definition label_mapping_for (ts_index : nat) (F : fts) : outcome label_mapping :=
  let* rel := compute_combinable_equivalence_relation ts_index F in
  compute_label_mapping rel (F_labels F).
Definition reduce_once (ts_index : nat) (F : fts) : outcome fts :=
  let* mp := label_mapping_for ts_index F in
  match mp with [] => Ok F | _ => apply_label_mapping F mp ts_index end.

(* label_reduction.cc:180-183, :240-245: skip the indices of systems that do not exist (yet) *)
Fixpoint skip_invalid (fuel : nat) (order : list nat) (num : nat) (wrap : bool) (tso : nat) : outcome nat :=
  match fuel with
  | 0 => NoFuel
  | S fuel =>
      let* x := vget order tso in
      if num <=? x
      then skip_invalid fuel order num wrap (if wrap && (S tso =? length order) then 0 else S tso)
      else Ok tso
  end.
(* label_reduction.cc:236-245 *)
Definition next_index (order : list nat) (num tso : nat) : outcome nat :=
  skip_invalid (S (length order)) order num true (if S tso =? length order then 0 else S tso).

(* label_reduction.cc:210-246; bounded: max_iterations is the number of systems (the bound INF of the
   other method is not modelled: running out of fuel is an error there) *)
Fixpoint reduce_loop (fuel : nat) (bounded : bool) (order : list nat) (num tso unsuccessful : nat) (F : fts) : outcome fts :=
  match fuel with
  | 0 => if bounded then Ok F else NoFuel
  | S fuel =>
      let* ts_index := vget order tso in
      let* f := vget (F_factors F) ts_index in
      let* mp := match f with Some _ => label_mapping_for ts_index F | None => Ok [] end in
      let* (F, unsuccessful) :=
        match mp with
        | [] => Ok (F, S unsuccessful)
        | _ => let* F := apply_label_mapping F mp ts_index in Ok (F, 1)
        end in
      if unsuccessful =? num then Ok F
      else
        let* tso := next_index order num tso in
        reduce_loop fuel bounded order num tso unsuccessful F
  end.

(* label_reduction.cc:142-248 *)
Definition reduce (m : lr_method) (order : list nat) (i j : nat) (F : fts) : outcome fts :=
  let num := length (F_factors F) in
  match m with
  | TwoSystems => let* F := reduce_once i F in reduce_once j F
  | AllSystems =>
      let* tso := skip_invalid (S (length order)) order num false 0 in
      reduce_loop num true order num tso 0 F
  | AllSystemsFixpoint =>
      let* tso := skip_invalid (S (length order)) order num false 0 in
      reduce_loop (S (length (active_labels (F_labels F))) * S num) false order num tso 0 F
  end.
End LABELREDUCTION.

(** * Size limits *)
(* utils.cc:17-52; is_product_within_limit is [<=?] (see C58), int(sqrt(x)) is the integer square
   root for the numbers that occur *)
Definition compute_shrink_sizes (size1 size2 before_merge after_merge : nat) : nat * nat :=
  let n1 := Nat.min size1 before_merge in
  let n2 := Nat.min size2 before_merge in
  if n1 * n2 <=? after_merge then (n1, n2)
  else
    let balanced := Nat.sqrt after_merge in
    if n1 <=? balanced then (n1, after_merge / n1)
    else if n2 <=? balanced then (after_merge / n2, n2)
    else (balanced, balanced).

(* merge_and_shrink_algorithm.cc:71-122; -1 stands for an option that is not set; verify_argument
   ends the program with an input error (component_errors.cc) *)
Definition handle_shrink_limit_defaults (max_states before_merge threshold : Z) : outcome (Z * Z * Z) :=
  (let max_states := if (max_states =? -1) && (before_merge =? -1) then 50000 else max_states in
   let '(max_states, before_merge) :=
     if before_merge =? -1 then (max_states, max_states)
     else if max_states =? -1 then
       (if before_merge * before_merge <=? 2147483647 then before_merge * before_merge else 2147483647, before_merge)
     else (max_states, before_merge) in
   let before_merge := if max_states <? before_merge then max_states else before_merge in
   if max_states <? 1 then Exit 33
   else if before_merge <? 1 then Exit 33
   else
     let threshold := if threshold =? -1 then max_states else threshold in
     if threshold <? 1 then Exit 33
     else Ok (max_states, before_merge, if max_states <? threshold then max_states else threshold))%Z.

(** * Shrink strategies *)
(** ** Buckets (shrink_bucket_based.cc) *)
(* shrink_bucket_based.cc:68-79; pick: the positions of the two groups that rng->choose returns *)
Fixpoint combine_groups (fuel : nat) (pick : list (list nat) -> nat * nat) (budget : nat) (groups : list (list nat)) : outcome (list (list nat)) :=
  if length groups <=? budget then Ok groups
  else
    match fuel with
    | 0 => NoFuel
    | S fuel =>
        let '(i1, i2) := pick groups in
        let* g1 := vget groups i1 in
        let* g2 := vget groups i2 in
        let* gs := vset groups i1 (g2 ++ g1) in
        let* gs := vset gs i2 [] in
        let last := length gs - 1 in
        let* a := vget gs i2 in
        let* b := vget gs last in
        let* gs := vset gs i2 b in
        let* gs := vset gs last a in
        combine_groups fuel pick budget (removelast gs)
    end.
(* shrink_bucket_based.cc:62-64: group.insert_after(group.before_begin(), ...) on the last group *)
Definition add_to_last (rel : classes) (bucket : list nat) : outcome classes :=
  match rev rel with
  | [] => UB
  | g :: r => Ok (rev r ++ [bucket ++ g])
  end.
(* shrink_bucket_based.cc:29-92; to_go: num_states_to_go, remaining buckets include this one *)
Fixpoint compute_abstraction (pick : list (list nat) -> nat * nat) (target : nat) (first : bool) (to_go : nat) (buckets : list (list nat)) (rel : classes) : outcome classes :=
  match buckets with
  | [] => Ok rel
  | bucket :: rest =>
      let remaining := (Z.of_nat target - Z.of_nat (length rel))%Z in
      let to_go := to_go - length bucket in
      let budget := (remaining - Z.of_nat to_go)%Z in
      let* rel :=
        if (Z.of_nat (length bucket) <=? budget)%Z then Ok (rel ++ map (fun s => [s]) bucket)
        else if (budget <=? 1)%Z then
          let rel := if (Z.of_nat (length buckets) <=? remaining)%Z || first then rel ++ [[]] else rel in
          add_to_last rel bucket
        else
          let* groups := combine_groups (length bucket) pick (Z.to_nat budget) (map (fun s => [s]) bucket) in
          Ok (rel ++ groups) in
      compute_abstraction pick target false to_go rest rel
  end.
Definition bucket_based (pick : list (list nat) -> nat * nat) (target : nat) (buckets : list (list nat)) : outcome classes :=
  compute_abstraction pick target true (list_sum (map (@length nat) buckets)) buckets [].

(* shrink_random.cc:20-32 *)
Definition random_buckets (T : tsys) : list (list nat) := [seq 0 (ts_n T)].

(** ** f and h values (shrink_fh.cc) *)
(* INF is the greatest value *)
Definition ole (a b : option nat) : bool :=
  match a, b with _, None => true | None, Some _ => false | Some x, Some y => x <=? y end.
(* a std::map with keys in ascending order: m[k] is created with value d if it does not exist *)
Fixpoint map_update {A} (m : list (option nat * A)) (k : option nat) (d : A) (upd : A -> A) : list (option nat * A) :=
  match m with
  | [] => [(k, upd d)]
  | (k', a) :: r =>
      if oeqb k' k then (k', upd a) :: r
      else if ole k' k then (k', a) :: map_update r k d upd
      else (k, upd d) :: m
  end.
(* shrink_fh.cc:36-55, :108-116 *)
Definition f_value (g h : option nat) : option nat := match g, h with Some g, Some h => Some (g + h) | _, _ => None end.
Definition state_values (D : distances) (s : nat) : outcome (option nat * option nat) :=
  match d_init D, d_goal D with
  | Some di, Some dg => let* g := vget di s in let* h := vget dg s in Ok (f_value g h, h)
  | _, _ => UB
  end.
Definition in_direction {A} (high : bool) (l : list A) : list A := if high then rev l else l.
(* shrink_fh.cc:97-137, :69-95 *)
Definition ordered_buckets_use_map (f_high h_high : bool) (n : nat) (D : distances) : outcome (list (list nat)) :=
  let* m := fold_outcome (fun m s =>
      let* (f, h) := state_values D s in
      Ok (map_update m f [] (fun row => map_update row h [] (fun bucket => bucket ++ [s])))) (seq 0 n) [] in
  Ok (flat_map (fun row => map snd (in_direction h_high (snd row))) (in_direction f_high m)).
(* shrink_fh.cc:139-188 *)
Definition ordered_buckets_use_vector (f_high h_high : bool) (n : nat) (D : distances) (max_f max_h : nat) : outcome (list (list nat)) :=
  let table := map (fun f => repeat [] (Nat.min f max_h + 1)) (seq 0 (max_f + 1)) in
  let* table := fold_outcome (fun (table : list (list (list nat))) s =>
      let* (f, h) := state_values D s in
      match f, h with
      | Some f, Some h =>
          let* row := vget table f in
          let* bucket := vget row h in
          let* row := vset row h (bucket ++ [s]) in
          vset table f row
      | _, _ => UB
      end) (seq 0 n) table in
  Ok (flat_map (fun row => filter (fun b => match b with [] => false | _ => true end) (in_direction h_high row)) (in_direction f_high table)).
(* shrink_fh.cc:29-66; with a dead state max_f is INF, and INF * INF / 2 exceeds every size *)
Definition omax (a b : option nat) : option nat := match a, b with Some x, Some y => Some (Nat.max x y) | _, _ => None end.
Definition fh_buckets (f_high h_high : bool) (T : tsys) (D : distances) : outcome (list (list nat)) :=
  let* (mf, mh) := fold_outcome (fun (acc : option nat * option nat) s =>
      let* (f, h) := state_values D s in Ok (omax (fst acc) f, omax (snd acc) h)) (seq 0 (ts_n T)) (Some 0, Some 0) in
  match mf, mh with
  | Some max_f, Some max_h =>
      if 2 * ts_n T <? max_f * max_f then ordered_buckets_use_map f_high h_high (ts_n T) D
      else ordered_buckets_use_vector f_high h_high (ts_n T) D max_f max_h
  | _, _ => ordered_buckets_use_map f_high h_high (ts_n T) D
  end.

(** ** Bisimulation (shrink_bisimulation.cc) *)
(* shrink_bisimulation.cc:48-74: h_and_goal is -1 for goal states; here [Some 0] for goal states,
   [Some (S h)] and, for IRRELEVANT, [None] *)
Record signature := { sg_hg : option nat; sg_group : nat; sg_succ : list trans; sg_state : nat }.
Definition h_and_goal (goal : bool) (h : option nat) : option nat := if goal then Some 0 else option_map S h.
(* shrink_bisimulation.cc:31, :65-74; successor signatures are compared lexicographically *)
Fixpoint succ_le (a b : list trans) : bool :=
  match a, b with
  | [], _ => true
  | _ :: _, [] => false
  | x :: a, y :: b => if trans_eqb x y then succ_le a b else trans_le x y
  end.
Definition sig_le (a b : signature) : bool :=
  if negb (oeqb (sg_hg a) (sg_hg b)) then ole (sg_hg a) (sg_hg b)
  else if negb (sg_group a =? sg_group b) then sg_group a <=? sg_group b
  else if negb (trans_list_eqb (sg_succ a) (sg_succ b)) then succ_le (sg_succ a) (sg_succ b)
  else sg_state a <=? sg_state b.

(* h value and goal status of a state; a goal state has h value 0 (assertion) *)
Definition state_info (T : tsys) (dg : dists) (s : nat) : outcome (bool * option nat) :=
  let* h := vget dg s in
  let* g := vget (ts_goals T) s in
  if g && negb (oeqb h (Some 0)) then UB else Ok (g, h).
(* shrink_bisimulation.cc:95-132; h_to_group is an association list *)
Definition initialize_groups (T : tsys) (dg : dists) : outcome (list nat * nat) :=
  let* st := fold_outcome (fun (st : list nat * list (option nat * nat) * nat) s =>
      let '(s2g, m, num) := st in
      let* (g, h) := state_info T dg s in
      if g : bool then Ok (s2g ++ [0], m, num)
      else match find (fun e => oeqb (fst e) h) m with
           | Some e => Ok (s2g ++ [snd e], m, num)
           | None => Ok (s2g ++ [num], m ++ [(h, num)], S num)
           end) (seq 0 (ts_n T)) ([], [], 1) in
  Ok (fst (fst st), snd st).

(* shrink_bisimulation.cc:183-208: the transitions of a label group that are considered *)
Definition keep_transition (greedy : bool) (dg : dists) (cost : option nat) (t : trans) : outcome bool :=
  if greedy then
    let* a := vget dg (fst t) in
    let* b := vget dg (snd t) in
    match a, b, cost with
    | Some a, Some b, Some c => if b + c <? a then UB else Ok (b + c =? a)
    | Some _, Some _, None => UB
    | _, _, _ => Ok false
    end
  else Ok true.
Definition add_successor (greedy : bool) (dg : dists) (s2g : list nat) (k : nat) (i : info) (succs : list (list trans)) (t : trans) : outcome (list (list trans)) :=
  let* keep := keep_transition greedy dg (i_cost i) t in
  if keep : bool then
    let* g := vget s2g (snd t) in
    let* l := vget succs (fst t) in
    vset succs (fst t) (l ++ [(k, g)])
  else Ok succs.
Definition successor_signatures (greedy : bool) (T : tsys) (dg : dists) (s2g : list nat) : outcome (list (list trans)) :=
  let* (succs, _) := fold_outcome (fun (st : list (list trans) * nat) i =>
      let '(succs, k) := st in
      let* succs := fold_outcome (add_successor greedy dg s2g k i) (i_trans i) succs in
      Ok (succs, S k)) (active_infos T) (repeat [] (ts_n T), 0) in
  Ok succs.
(* shrink_bisimulation.cc:134-233, without the two sentinels *)
Definition compute_signatures (greedy : bool) (T : tsys) (dg : dists) (s2g : list nat) : outcome (list signature) :=
  let* succs := successor_signatures greedy T dg s2g in
  let* sigs := omap (fun s =>
      let* (g, h) := state_info T dg s in
      let* group := vget s2g s in
      let* succ := vget succs s in
      Ok {| sg_hg := h_and_goal g h; sg_group := group; sg_succ := sort_unique succ; sg_state := s |}) (seq 0 (ts_n T)) in
  Ok (sort sig_le sigs).

(* shrink_bisimulation.cc:280-288, :313-319: where a signature stands relative to the one before it
   (the start sentinel, of group -1, is [None]) *)
Inductive rel_to_prev := NewBlock | NewGroup | SameGroup.
Definition compare_prev (prev : option signature) (cur : signature) : rel_to_prev :=
  match prev with
  | None => NewBlock
  | Some p => if negb (sg_group p =? sg_group cur) then NewBlock
              else if negb (trans_list_eqb (sg_succ p) (sg_succ cur)) then NewGroup else SameGroup
  end.
(* shrink_bisimulation.cc:267-290 *)
Fixpoint count_groups (prev : option signature) (level : list signature) (old new : nat) : nat * nat :=
  match level with
  | [] => (old, new)
  | s :: r => match compare_prev prev s with
              | NewBlock => count_groups (Some s) r (S old) (S new)
              | NewGroup => count_groups (Some s) r old (S new)
              | SameGroup => count_groups (Some s) r old new
              end
  end.
(* shrink_bisimulation.cc:307-331; the flag in the result: the limit was reached *)
Fixpoint split_level (target : nat) (prev : option signature) (cur : option nat) (level : list signature) (s2g : list nat) (num : nat) : outcome (list nat * nat * bool) :=
  match level with
  | [] => Ok (s2g, num, false)
  | s :: r =>
      let '(cur, num) := match compare_prev prev s with
                         | NewBlock => (Some (sg_group s), num)
                         | NewGroup => (Some num, S num)
                         | SameGroup => (cur, num)
                         end in
      match cur with
      | None => UB                                            (* the assertion in line 323 *)
      | Some g =>
          let* s2g := vset s2g (sg_state s) g in
          if num =? target then Ok (s2g, num, true)
          else split_level target (Some s) (Some g) r s2g num
      end
  end.
(* the signatures with the same h_and_goal at the front of the list *)
Fixpoint take_level (hg : option nat) (sigs : list signature) : list signature * list signature :=
  match sigs with
  | [] => ([], [])
  | s :: r => if oeqb (sg_hg s) hg then let '(a, b) := take_level hg r in (s :: a, b) else ([], sigs)
  end.
Definition last_of (prev : option signature) (level : list signature) : option signature := fold_left (fun _ s => Some s) level prev.
Record split_result := { r_s2g : list nat; r_num : nat; r_stable : bool; r_stop : bool }.
(* shrink_bisimulation.cc:258-336; use_up: at_limit *)
Fixpoint split_levels (fuel : nat) (use_up : bool) (target : nat) (prev : option signature) (sigs : list signature) (st : split_result) : outcome split_result :=
  match sigs with
  | [] => Ok st
  | s :: _ =>
      match fuel with
      | 0 => NoFuel
      | S fuel =>
          let '(level, rest) := take_level (sg_hg s) sigs in
          let '(old, new) := count_groups prev level 0 0 in
          if negb use_up && (target + old <? r_num st + new) then
            Ok {| r_s2g := r_s2g st; r_num := r_num st; r_stable := r_stable st; r_stop := true |}
          else if negb (new =? old) then
            let* (s2g, num, full) := split_level target prev None level (r_s2g st) (r_num st) in
            let st := {| r_s2g := s2g; r_num := num; r_stable := false; r_stop := r_stop st |} in
            if full : bool then Ok st else split_levels fuel use_up target (last_of prev level) rest st
          else split_levels fuel use_up target (last_of prev level) rest st
      end
  end.
(* shrink_bisimulation.cc:246-337 *)
Fixpoint refine_groups (fuel : nat) (greedy use_up : bool) (target : nat) (T : tsys) (dg : dists) (s2g : list nat) (num : nat) : outcome (list nat * nat) :=
  if target <=? num then Ok (s2g, num)
  else
    match fuel with
    | 0 => NoFuel
    | S fuel =>
        let* sigs := compute_signatures greedy T dg s2g in
        let* r := split_levels (length sigs) use_up target None sigs {| r_s2g := s2g; r_num := num; r_stable := true; r_stop := false |} in
        if r_stable r || r_stop r then Ok (r_s2g r, r_num r)
        else refine_groups fuel greedy use_up target T dg (r_s2g r) (r_num r)
    end.
(* shrink_bisimulation.cc:346-355 *)
Definition collect_groups (s2g : list nat) (num : nat) : outcome classes :=
  let* (rel, _) := fold_outcome (fun (st : classes * nat) g =>
      let '(rel, s) := st in
      let* c := vget rel g in
      let* rel := vset rel g (s :: c) in
      Ok (rel, S s)) s2g (repeat [] num, 0) in
  Ok rel.
(* shrink_bisimulation.cc:235-358 *)
Definition bisimulation_classes (greedy use_up : bool) (T : tsys) (D : distances) (target : nat) : outcome classes :=
  match d_goal D with
  | None => UB
  | Some dg =>
      let* (s2g, num) := initialize_groups T dg in
      let* (s2g, num) := refine_groups (S (ts_n T)) greedy use_up target T dg s2g num in
      collect_groups s2g num
  end.

(** ** The strategies (shrink_strategy.h:33-55) *)
Inductive shrink_strategy := ShrinkBisimulation (greedy use_up : bool) | ShrinkFH (f_high h_high : bool) | ShrinkRandom.
(* shrink_bisimulation.h:42-48, shrink_fh.h:49-55, shrink_random.h:18-24 *)
Definition requires_init_distances (s : shrink_strategy) : bool := match s with ShrinkFH _ _ => true | _ => false end.
Definition requires_goal_distances (s : shrink_strategy) : bool := match s with ShrinkRandom => false | _ => true end.
(* shrink_bucket_based.cc:95-100 and above *)
Definition shrink_classes (pick : list (list nat) -> nat * nat) (s : shrink_strategy) (T : tsys) (D : distances) (target : nat) : outcome classes :=
  match s with
  | ShrinkBisimulation greedy use_up => bisimulation_classes greedy use_up T D target
  | ShrinkFH f_high h_high => let* b := fh_buckets f_high h_high T D in bucket_based pick target b
  | ShrinkRandom => bucket_based pick target (random_buckets T)
  end.

(** * The algorithm (merge_and_shrink_algorithm.cc) *)
Record mas_options := {
  o_shrink : shrink_strategy;
  o_reduction : option (lr_method * bool * bool);     (* method, before_shrinking, before_merging *)
  o_order : list nat;                                 (* transition_system_order, see system_order *)
  o_prune_unreachable : bool;
  o_prune_irrelevant : bool;
  o_max_states : nat;
  o_before_merge : nat;
  o_threshold : nat;
  o_merge_init : bool;                                (* what the merge strategy requires *)
  o_merge_goal : bool
}.

(* merge_strategy.h:11-37, merge_strategy_factory.h:25-27: start is compute_merge_strategy, get_next is
   the call in the n-th iteration, and the strategy's own data are passed on explicitly *)
Record merge_strategy := {
  ms_state : Type;
  ms_start : fts -> outcome ms_state;
  ms_get_next : nat -> ms_state -> fts -> outcome (nat * nat * ms_state)
}.

Section ALGORITHM.
Variable P : pqueue.
Variable q0 : PQ P.
Variable ord : list (nat * list nat) -> list (nat * list nat).
Variable O : mas_options.
(* the choices of the n-th shrinking, and whether the n-th iteration finds the time limit exceeded at
   its k-th check *)
Variable pick : nat -> list (list nat) -> nat * nat.
Variable MS : merge_strategy.
Variable timeout : nat -> nat -> bool.

(* merge_and_shrink_algorithm.cc:411-418 *)
Definition o_ci : bool := requires_init_distances (o_shrink O) || o_merge_init O || o_prune_unreachable O.
Definition o_cg : bool := requires_goal_distances (o_shrink O) || o_merge_goal O || o_prune_irrelevant O.

(* utils.cc:61-89 *)
Definition shrink_factor (n : nat) (F : fts) (i new_size : nat) : outcome fts :=
  let* f := get_factor F i in
  if Nat.min new_size (o_threshold O) <? ts_n (f_ts f) then
    let* cls := shrink_classes (pick n) (o_shrink O) (f_ts f) (f_dist f) new_size in
    apply_abstraction P q0 o_ci o_cg F i cls
  else Ok F.
(* utils.cc:91-126 *)
Definition shrink_before_merge_step (n : nat) (F : fts) (i j : nat) : outcome fts :=
  let* f := get_factor F i in
  let* g := get_factor F j in
  let '(s1, s2) := compute_shrink_sizes (ts_n (f_ts f)) (ts_n (f_ts g)) (o_before_merge O) (o_max_states O) in
  let* F := shrink_factor (2 * n) F i s1 in
  shrink_factor (2 * n + 1) F j s2.

(* merge_and_shrink_algorithm.cc:281-287, :307-313 *)
Definition reduce_step (before_shrinking : bool) (F : fts) (i j : nat) : outcome fts :=
  match o_reduction O with
  | Some (m, bs, bm) => if (if before_shrinking then bs else bm) then reduce ord m (o_order O) i j F else Ok F
  | None => Ok F
  end.
(* merge_and_shrink_algorithm.cc:338-349, :436-442 *)
Definition prune_factor (F : fts) (i : nat) : outcome fts :=
  if o_prune_unreachable O || o_prune_irrelevant O
  then prune_step P q0 o_ci o_cg F i (o_prune_unreachable O) (o_prune_irrelevant O) else Ok F.
(* factored_transition_system.cc:223-226 *)
Definition is_factor_solvable (F : fts) (i : nat) : outcome bool := let* f := get_factor F i in is_solvable f.
Definition num_active (F : fts) : nat := length (active_factors F).

(* merge_and_shrink_algorithm.cc:269-379 *)
Fixpoint main_loop (fuel n : nat) (m : ms_state MS) (F : fts) : outcome fts :=
  if num_active F <=? 1 then Ok F
  else
    match fuel with
    | 0 => NoFuel
    | S fuel =>
        let* (i, j, m) := ms_get_next MS n m F in
        if timeout n 0 then Ok F else
        let* F := reduce_step true F i j in
        if timeout n 1 then Ok F else
        let* F := shrink_before_merge_step n F i j in
        if timeout n 2 then Ok F else
        let* F := reduce_step false F i j in
        if timeout n 3 then Ok F else
        let merged := length (F_factors F) in
        let* F := merge_factors P q0 ord o_ci o_cg F i j in
        if timeout n 4 then Ok F else
        let* F := prune_factor F merged in
        let* b := is_factor_solvable F merged in
        if negb b then Ok F
        else if timeout n 5 then Ok F else main_loop fuel (S n) m F
    end.
(* merge_and_shrink_algorithm.cc:432-450: the flag tells that a factor is unsolvable *)
Fixpoint prune_atomic (is : list nat) (F : fts) : outcome (fts * bool) :=
  match is with
  | [] => Ok (F, false)
  | i :: r =>
      let* F := prune_factor F i in
      let* b := is_factor_solvable F i in
      if b then prune_atomic r F else Ok (F, true)
  end.
(* merge_and_shrink_algorithm.cc:395-477; no_time: main_loop_max_time is 0 *)
Definition build_factored_transition_system (t : task) (no_time : bool) : outcome fts :=
  let* F := create_fts P q0 o_ci o_cg t in
  let* (F, unsolvable) := prune_atomic (seq 0 (length (F_factors F))) F in
  if negb unsolvable && negb no_time then
    let* m := ms_start MS F in                          (* :262-263 *)
    main_loop (num_active F) 0 m F
  else Ok F.
End ALGORITHM.

(** Model of Cartesian abstractions (src/search/cartesian_abstractions): Cartesian sets, the
    refinement hierarchy, the transition system and their joint refinement.

    Simplifications: ids are natural numbers and UNDEFINED is [None]; a bitset is a list of
    Booleans (C07 relates the program's bitsets to it); the hash set of goal ids is a list without
    duplicates; abstract states are addressed by their id (their position).  Failed assertions are
    [UB].  Counters are integers without overflow.  Logging is left out. *)
From Verif Require Import Outcome Spec_Task Spec_Cartesian Model_Task.
From Verif Require Model_MAS.

(* ---- cartesian_set.h:13-36, cartesian_set.cc ---- *)
Definition cset := list (list bool).
(* cartesian_set.cc:8-15 *)
Definition full_cset (doms : list nat) : cset := map (fun d => repeat true d) doms.
(* cartesian_set.h:29-31 *)
Definition cs_test (c : cset) (var value : nat) : outcome bool := let* b := vget c var in vget b value.
(* cartesian_set.cc:17-23 *)
Definition cs_put (x : bool) (c : cset) (var value : nat) : outcome cset :=
  let* b := vget c var in let* b := vset b value x in vset c var b.
Definition cs_add := cs_put true.
Definition cs_remove := cs_put false.
(* cartesian_set.cc:30-36 *)
Definition cs_fill (x : bool) (c : cset) (var : nat) : outcome cset :=
  let* b := vget c var in vset c var (repeat x (length b)).
Definition cs_add_all := cs_fill true.
Definition cs_remove_all := cs_fill false.
(* cartesian_set.cc:25-28 *)
Definition cs_set_single (c : cset) (var value : nat) : outcome cset :=
  let* c := cs_remove_all c var in cs_add c var value.
(* cartesian_set.cc:38-40 *)
Definition cs_count (c : cset) (var : nat) : outcome nat := let* b := vget c var in Ok (length (filter (fun x => x) b)).
(* cartesian_set.cc:42-44 *)
Definition cs_intersects (c c' : cset) (var : nat) : outcome bool :=
  let* a := vget c var in let* b := vget c' var in Ok (existsb (fun p => fst p && snd p) (combine a b)).

(* ---- abstract_state.cc ---- *)
(* abstract_state.cc:26-52 *)
Definition split_domain (c : cset) (var : nat) (wanted : list nat) : outcome (cset * cset) :=
  let* _ := guard (1 <=? length wanted) in
  let* n := cs_count c var in
  let* _ := guard (length wanted <? n) in
  let* c2 := cs_remove_all c var in
  fold_outcome (fun (cc : cset * cset) value =>
    let* b := cs_test c var value in
    let* _ := guard b in
    let* c1 := cs_remove (fst cc) var value in
    let* c2 := cs_add (snd cc) var value in
    Ok (c1, c2)) wanted (c, c2).
(* abstract_state.cc:54-65 *)
Definition regress (c : cset) (op : operator) : outcome cset :=
  let* c := fold_outcome (fun c e => cs_add_all c (fst (eff_fact e))) (op_effs op) c in
  fold_outcome (fun c f => cs_set_single c (fst f) (snd f)) (op_pre op) c.
(* abstract_state.cc:80-86 *)
Fixpoint includes_facts (c : cset) (fs : list fact) : outcome bool :=
  match fs with
  | [] => Ok true
  | f :: r => let* b := cs_test c (fst f) (snd f) in if b then includes_facts c r else Ok false
  end.
(* abstract_state.cc:72-78 *)
Definition includes_state (c : cset) (s : state) : outcome bool := includes_facts c (combine (seq 0 (length s)) s).

(* abstract_state.h: the id is the position in the vector of states *)
Record astate := { a_node : nat; a_set : cset }.

(* ---- refinement_hierarchy.h:51-104, refinement_hierarchy.cc ---- *)
Inductive node := Leaf (state_id : nat) | Inner (var value left right : nat).
Definition is_split (n : node) : bool := match n with Leaf _ => false | Inner _ _ _ _ => true end.
(* refinement_hierarchy.cc:30-37; an id in range *)
Definition node_split (nodes : list node) (i var value lnode rnode : nat) : outcome (list node) :=
  vset nodes i (Inner var value lnode rnode).
(* refinement_hierarchy.cc:50-54 *)
Definition add_node (nodes : list node) (state_id : nat) : list node * nat := (nodes ++ [Leaf state_id], length nodes).
(* refinement_hierarchy.cc:65-76 *)
Definition hier_split (nodes : list node) (node_id var : nat) (values : list nat) (left_id right_id : nat) : outcome (list node * (nat * nat)) :=
  let (nodes, rnode) := add_node nodes right_id in
  let* (nodes, helper) := fold_outcome (fun (p : list node * nat) value =>
    let (nodes, helper) := p in
    let (nodes, new_helper) := add_node nodes left_id in
    let* nodes := node_split nodes helper var value new_helper rnode in
    Ok (nodes, new_helper)) values (nodes, node_id) in
  Ok (nodes, (helper, rnode)).
(* refinement_hierarchy.cc:56-63, refinement_hierarchy.h:85-90 *)
Fixpoint node_of (fuel : nat) (nodes : list node) (s : state) (id : nat) : outcome nat :=
  match fuel with
  | O => NoFuel
  | S fuel =>
      let* n := vget nodes id in
      match n with
      | Leaf _ => Ok id
      | Inner var value lnode rnode => let* d := vget s var in node_of fuel nodes s (if d =? value then rnode else lnode)
      end
  end.
(* refinement_hierarchy.cc:78-82 after the conversion of the state to the (sub)task *)
Definition abstract_state_id (nodes : list node) (s : state) : outcome nat :=
  let* id := node_of (length nodes) nodes s 0 in
  let* n := vget nodes id in
  match n with Leaf i => Ok i | Inner _ _ _ _ => UB end.

(* ---- transition_system.cc ---- *)
Record tsystem := {
  c_pre : list (list fact);              (* preconditions_by_operator, sorted *)
  c_post : list (list fact);             (* postconditions_by_operator, sorted *)
  c_in : list (list (nat * nat));        (* operator, source *)
  c_out : list (list (nat * nat));       (* operator, target *)
  c_loops : list (list nat);
  c_num_non_loops : Z;
  c_num_loops : Z }.
Definition with_in (ts : tsystem) x := {| c_pre := c_pre ts; c_post := c_post ts; c_in := x; c_out := c_out ts; c_loops := c_loops ts; c_num_non_loops := c_num_non_loops ts; c_num_loops := c_num_loops ts |}.
Definition with_out (ts : tsystem) x := {| c_pre := c_pre ts; c_post := c_post ts; c_in := c_in ts; c_out := x; c_loops := c_loops ts; c_num_non_loops := c_num_non_loops ts; c_num_loops := c_num_loops ts |}.
Definition with_loops (ts : tsystem) x := {| c_pre := c_pre ts; c_post := c_post ts; c_in := c_in ts; c_out := c_out ts; c_loops := x; c_num_non_loops := c_num_non_loops ts; c_num_loops := c_num_loops ts |}.
Definition with_num (ts : tsystem) n l := {| c_pre := c_pre ts; c_post := c_post ts; c_in := c_in ts; c_out := c_out ts; c_loops := c_loops ts; c_num_non_loops := n; c_num_loops := l |}.

(* transition_system.cc:18-29 *)
Definition preconditions_of (op : operator) : list fact := Model_MAS.sort Model_MAS.trans_le (op_pre op).
(* std::map<int,int>: a sorted list of entries; map[k] = v *)
Fixpoint map_put (m : list (nat * nat)) (k v : nat) : list (nat * nat) :=
  match m with
  | [] => [(k, v)]
  | (k', v') :: r => if k <? k' then (k, v) :: m else if k =? k' then (k, v) :: r else (k', v') :: map_put r k v
  end.
(* transition_system.cc:31-47 *)
Definition postconditions_of (op : operator) : list fact :=
  let m := fold_left (fun m f => map_put m (fst f) (snd f)) (op_pre op) [] in
  fold_left (fun m e => map_put m (fst (eff_fact e)) (snd (eff_fact e))) (op_effs op) m.
(* transition_system.cc:59-69 *)
Fixpoint lookup_value (fs : list fact) (var : nat) : option nat :=
  match fs with
  | [] => None
  | f :: r => if fst f =? var then Some (snd f) else if var <? fst f then None else lookup_value r var
  end.
(* transition_system.cc:88-94 *)
Definition pre_value (ts : tsystem) (op var : nat) : outcome (option nat) := let* fs := vget (c_pre ts) op in Ok (lookup_value fs var).
Definition post_value (ts : tsystem) (op var : nat) : outcome (option nat) := let* fs := vget (c_post ts) op in Ok (lookup_value fs var).
(* transition_system.cc:71-78 *)
Definition remove_target (tr : list (nat * nat)) (state_id : nat) : outcome (list (nat * nat)) :=
  let* _ := guard (existsb (fun t => snd t =? state_id) tr) in
  Ok (filter (fun t => negb (snd t =? state_id)) tr).
(* transition_system.cc:96-101 *)
Definition enlarge (ts : tsystem) : tsystem :=
  with_loops (with_in (with_out ts (c_out ts ++ [[]])) (c_in ts ++ [[]])) (c_loops ts ++ [[]]).
(* transition_system.cc:112-117 *)
Definition add_transition (ts : tsystem) (src op target : nat) : outcome tsystem :=
  let* _ := guard (negb (src =? target)) in
  let* o := vget (c_out ts) src in
  let* out := vset (c_out ts) src (o ++ [(op, target)]) in
  let* i := vget (c_in ts) target in
  let* inc := vset (c_in ts) target (i ++ [(op, src)]) in
  Ok (with_num (with_in (with_out ts out) inc) (c_num_non_loops ts + 1) (c_num_loops ts)).
(* transition_system.cc:119-123 *)
Definition add_loop (ts : tsystem) (state_id op : nat) : outcome tsystem :=
  let* l := vget (c_loops ts) state_id in
  let* ls := vset (c_loops ts) state_id (l ++ [op]) in
  Ok (with_num (with_loops ts ls) (c_num_non_loops ts) (c_num_loops ts + 1)).
(* transition_system.cc:80-86, :103-110 *)
Definition initial_tsystem (t : task) : outcome tsystem :=
  let ts := enlarge {| c_pre := map preconditions_of (t_ops t); c_post := map postconditions_of (t_ops t);
                       c_in := []; c_out := []; c_loops := []; c_num_non_loops := 0; c_num_loops := 0 |} in
  fold_outcome (fun ts o => add_loop ts 0 o) (seq 0 (length (c_pre ts))) ts.

Definition mem (x : nat) (l : list nat) : bool := existsb (Nat.eqb x) l.
(* transition_system.cc:133-140, :178-185: remove the old transitions from the lists of the neighbours *)
Definition remove_old (old : list (nat * nat)) (v : nat) (lists : list (list (nat * nat))) : outcome (list (list (nat * nat))) :=
  let* (lists, _) := fold_outcome (fun (p : list (list (nat * nat)) * list nat) (t : nat * nat) =>
    let (lists, updated) := p in
    let u := snd t in
    if mem u updated then Ok (lists, updated)
    else let* l := vget lists u in
         let* l := remove_target l v in
         let* lists := vset lists u l in
         Ok (lists, u :: updated)) old (lists, []) in
  Ok lists.

(* transition_system.cc:125-168 *)
Definition rewire_incoming (old : list (nat * nat)) (states : list astate) (v1 v2 : nat) (s1 s2 : cset) (var : nat) (ts : tsystem) : outcome tsystem :=
  let* out := remove_old old v1 (c_out ts) in
  let ts := with_num (with_out ts out) (c_num_non_loops ts - Z.of_nat (length old)) (c_num_loops ts) in
  fold_outcome (fun ts (t : nat * nat) =>
    let (op, u) := t in
    let* us := vget states u in
    let* post := post_value ts op var in
    match post with
    | None =>
        let* b := cs_intersects (a_set us) s1 var in
        let* ts := if b then add_transition ts u op v1 else Ok ts in
        let* b2 := if negb b then Ok true else cs_intersects (a_set us) s2 var in
        if b2 then add_transition ts u op v2 else Ok ts
    | Some d =>
        let* b := cs_test s1 var d in
        if b then add_transition ts u op v1
        else let* b2 := cs_test s2 var d in
             let* _ := guard b2 in
             add_transition ts u op v2
    end) old ts.

(* transition_system.cc:170-219 *)
Definition rewire_outgoing (old : list (nat * nat)) (states : list astate) (v1 v2 : nat) (s1 s2 : cset) (var : nat) (ts : tsystem) : outcome tsystem :=
  let* inc := remove_old old v1 (c_in ts) in
  let ts := with_num (with_in ts inc) (c_num_non_loops ts - Z.of_nat (length old)) (c_num_loops ts) in
  fold_outcome (fun ts (t : nat * nat) =>
    let (op, w) := t in
    let* ws := vget states w in
    let* pre := pre_value ts op var in
    let* post := post_value ts op var in
    match post, pre with
    | None, None =>
        let* b := cs_intersects s1 (a_set ws) var in
        let* ts := if b then add_transition ts v1 op w else Ok ts in
        let* b2 := if negb b then Ok true else cs_intersects s2 (a_set ws) var in
        if b2 then add_transition ts v2 op w else Ok ts
    | None, Some _ => UB                            (* assert *)
    | Some _, None =>
        let* ts := add_transition ts v1 op w in
        add_transition ts v2 op w
    | Some _, Some p =>
        let* b := cs_test s1 var p in
        if b then add_transition ts v1 op w
        else let* b2 := cs_test s2 var p in
             let* _ := guard b2 in
             add_transition ts v2 op w
    end) old ts.

(* transition_system.cc:221-274 *)
Definition rewire_loops (old : list nat) (v1 v2 : nat) (s1 s2 : cset) (var : nat) (ts : tsystem) : outcome tsystem :=
  let* ts := fold_outcome (fun ts op =>
    let* pre := pre_value ts op var in
    let* post := post_value ts op var in
    match pre with
    | None =>
        match post with
        | None => let* ts := add_loop ts v1 op in add_loop ts v2 op
        | Some q =>
            let* b := cs_test s2 var q in
            if b then let* ts := add_transition ts v1 op v2 in add_loop ts v2 op
            else let* b1 := cs_test s1 var q in
                 let* _ := guard b1 in
                 let* ts := add_loop ts v1 op in add_transition ts v2 op v1
        end
    | Some p =>
        match post with
        | None => UB                                  (* assert *)
        | Some q =>
            let* b := cs_test s1 var p in
            if b then
              let* b1 := cs_test s1 var q in
              if b1 then add_loop ts v1 op
              else let* b2 := cs_test s2 var q in
                   let* _ := guard b2 in
                   add_transition ts v1 op v2
            else
              let* b2 := cs_test s2 var p in
              let* _ := guard b2 in
              let* b1 := cs_test s1 var q in
              if b1 then add_transition ts v2 op v1
              else let* b2 := cs_test s2 var q in
                   let* _ := guard b2 in
                   add_loop ts v2 op
        end
    end) old ts in
  Ok (with_num ts (c_num_non_loops ts) (c_num_loops ts - Z.of_nat (length old))).

(* transition_system.cc:276-299; moving a vector out leaves it empty (asserted) *)
Definition rewire (states : list astate) (v1 v2 : nat) (s1 s2 : cset) (var : nat) (ts : tsystem) : outcome tsystem :=
  let* old_in := vget (c_in ts) v1 in
  let* inc := vset (c_in ts) v1 [] in
  let* old_out := vget (c_out ts) v1 in
  let* out := vset (c_out ts) v1 [] in
  let* old_loops := vget (c_loops ts) v1 in
  let* ls := vset (c_loops ts) v1 [] in
  let ts := enlarge (with_loops (with_out (with_in ts inc) out) ls) in
  let* ts := rewire_incoming old_in states v1 v2 s1 s2 var ts in
  let* ts := rewire_outgoing old_out states v1 v2 s1 s2 var ts in
  rewire_loops old_loops v1 v2 s1 s2 var ts.

(* ---- abstraction.h, abstraction.cc ---- *)
Record abstraction := {
  ab_ts : tsystem;
  ab_cinit : state;                   (* concrete_initial_state *)
  ab_goal_facts : list fact;
  ab_nodes : list node;               (* the refinement hierarchy *)
  ab_states : list astate;
  ab_init : nat;
  ab_goals : list nat }.

(* abstraction.cc:21-30, :67-74, abstract_state.cc:100-103 *)
Definition initial_abstraction (t : task) : outcome abstraction :=
  let* ts := initial_tsystem t in
  Ok {| ab_ts := ts; ab_cinit := t_init t; ab_goal_facts := t_goal t; ab_nodes := [Leaf 0];
        ab_states := [{| a_node := 0; a_set := full_cset (map vdom (t_vars t)) |}];
        ab_init := 0; ab_goals := [0] |}.
(* abstraction.cc:60-65 *)
Definition mark_all_states_as_goals (A : abstraction) : abstraction :=
  {| ab_ts := ab_ts A; ab_cinit := ab_cinit A; ab_goal_facts := ab_goal_facts A; ab_nodes := ab_nodes A;
     ab_states := ab_states A; ab_init := ab_init A; ab_goals := seq 0 (length (ab_states A)) |}.

(* std::unordered_set<int> *)
Definition set_insert (l : list nat) (x : nat) : list nat := if mem x l then l else l ++ [x].
Definition set_erase (l : list nat) (x : nat) : list nat := filter (fun y => negb (y =? x)) l.

(* abstraction.cc:76-137; [v] is the id of the state *)
Definition refine (A : abstraction) (v var : nat) (wanted : list nat) : outcome abstraction :=
  let* st := vget (ab_states A) v in
  let v1 := v in
  let v2 := length (ab_states A) in
  let* (nodes, nn) := hier_split (ab_nodes A) (a_node st) var wanted v1 v2 in
  let* (s1, s2) := split_domain (a_set st) var wanted in
  let* init := if v =? ab_init A then
                 let* b := includes_state s1 (ab_cinit A) in Ok (if b then v1 else v2)
               else Ok (ab_init A) in
  let* goals := if mem v (ab_goals A) then
                  let g := set_erase (ab_goals A) v in
                  let* b1 := includes_facts s1 (ab_goal_facts A) in
                  let g := if b1 then set_insert g v1 else g in
                  let* b2 := includes_facts s2 (ab_goal_facts A) in
                  Ok (if b2 then set_insert g v2 else g)
                else Ok (ab_goals A) in
  let* ts := rewire (ab_states A) v1 v2 s1 s2 var (ab_ts A) in
  let* states := vset (ab_states A) v1 {| a_node := fst nn; a_set := s1 |} in
  Ok {| ab_ts := ts; ab_cinit := ab_cinit A; ab_goal_facts := ab_goal_facts A; ab_nodes := nodes;
        ab_states := states ++ [{| a_node := snd nn; a_set := s2 |}]; ab_init := init; ab_goals := goals |}.

(** What callers see: abstract_state.cc:22-24 contains, transition_system.cc:301-311
    get_outgoing_transitions and get_loops, abstraction.cc:35-45 get_initial_state and get_goals,
    refinement_hierarchy.cc:78-82 get_abstract_state_id. *)
Definition view_of (A : abstraction) : view := {|
  w_num := length (ab_states A);
  w_contains := fun i f => exists a, nth_error (ab_states A) i = Some a /\ cs_test (a_set a) (fst f) (snd f) = Ok true;
  w_trans := fun u o v => exists l, nth_error (c_out (ab_ts A)) u = Some l /\ In (o, v) l;
  w_loop := fun u o => exists l, nth_error (c_loops (ab_ts A)) u = Some l /\ In o l;
  w_init := ab_init A;
  w_goal := fun i => In i (ab_goals A);
  w_lookup := fun s => match abstract_state_id (ab_nodes A) s with Ok i => Some i | _ => None end |}.

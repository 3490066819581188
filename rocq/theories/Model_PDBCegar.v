(** Pattern collections by counterexample-guided refinement: src/search/pdbs/cegar.cc.

    The random number generator is a set of parameters: [shuffle k], [choose k] for the plan of the k-th
    pattern database, [pick i] for the flaw of the i-th iteration.  [expired i] is the timer at the i-th
    check.  The queue and its fuel are those of Model_PDB.v.  Not modelled: logging. *)
From Verif Require Import Outcome Spec_Task Model_PQ Model_Graph Model_MAS Model_Evaluators Model_PDB Model_PDBPlan.
Import ListNotations.
Definition SEARCH_UNSOLVABLE : Z := 11%Z.        (* utils/system.h:40 *)

(** cegar.cc:29-66 PatternInfo. *)
Record pattern_info := { pi_db : pdb; pi_plan : list (list nat); pi_unsolvable : bool; pi_solved : bool }.
(* cegar.cc:49-51 get_pattern; pattern_database.h get_size *)
Definition pi_pattern (x : pattern_info) : list nat := pj_pattern (db_pj (pi_db x)).
Definition pi_size (x : pattern_info) : Z := Z.of_nat (pj_num (db_pj (pi_db x))).
(* cegar.cc:61-63 mark_as_solved *)
Definition mark_as_solved (x : pattern_info) : pattern_info :=
  {| pi_db := pi_db x; pi_plan := pi_plan x; pi_unsolvable := pi_unsolvable x; pi_solved := true |}.

(** cegar.cc:82-98 the members that change; [c_index] is variable_to_collection_index, [c_count] the
    number of databases computed so far. *)
Record cegar := { c_black : list nat; c_coll : list (option pattern_info); c_index : nat -> option nat; c_size : Z; c_count : nat }.

Section Cegar.
Variable P : pqueue.
Variable q0 : PQ P.
Variable pdb_fuel : nat.
Variable shuffle : nat -> nat -> list nat -> list nat.
Variable choose : nat -> nat -> list nat -> nat.
Variable pick : nat -> list (nat * nat) -> nat.
Variable expired : nat -> bool.
Variable t : task.
Variables max_pdb_size max_collection_size : Z.
Variable wildcard : bool.

(** cegar.cc:219-253 compute_pattern_info. *)
Definition compute_pattern_info (k : nat) (pat : list nat) : outcome pattern_info :=
  let* (db, plan) := compute_pdb_and_plan P q0 (shuffle k) (choose k) pdb_fuel t pat [] wildcard in
  let* v := pdb_value db (t_init t) in
  Ok {| pi_db := db; pi_plan := plan; pi_unsolvable := match v with None => true | Some _ => false end; pi_solved := false |}.

(** cegar.cc:434-438 add_pattern_for_var. *)
Definition add_pattern_for_var (c : cegar) (v : nat) : outcome cegar :=
  let* x := compute_pattern_info (c_count c) [v] in
  let* _ := guard (c_size c + pi_size x <=? INT_MAX)%Z in
  Ok {| c_black := c_black c; c_coll := c_coll c ++ [Some x];
        c_index := fun u => if u =? v then Some (length (c_coll c)) else c_index c u;
        c_size := (c_size c + pi_size x)%Z; c_count := c_count c + 1 |}.
(** cegar.cc:255-266 compute_initial_collection. *)
Definition compute_initial_collection (goals : list fact) (black : list nat) : outcome cegar :=
  fold_outcome (fun c g => add_pattern_for_var c (fst g)) goals
    {| c_black := black; c_coll := []; c_index := fun _ => None; c_size := 0; c_count := 0 |}.

(** cegar.cc:273-280 apply_op_to_state. *)
Definition apply_op_to_state (s : state) (op : operator) : outcome state :=
  fold_outcome (fun s e => vset s (fst (eff_fact e)) (snd (eff_fact e))) (op_effs op) s.
(** cegar.cc:282-300 get_violated_preconditions (only the variables). *)
Definition violated_preconditions (black : list nat) (op : operator) (s : state) : outcome (list nat) :=
  fold_outcome (fun fl f =>
    if existsb (Nat.eqb (fst f)) black then Ok fl
    else let* x := vget s (fst f) in if x =? snd f then Ok fl else Ok (fl ++ [fst f])) (op_pre op) [].
(** cegar.cc:312-336 the operators of one step: the new state, and the flaws unless one is applied. *)
Fixpoint apply_step (black : list nat) (ops : list nat) (s : state) (flaws : list nat) : outcome (state * list nat) :=
  match ops with
  | [] => Ok (s, flaws)
  | o :: r =>
      let* op := vget (t_ops t) o in
      let* fl := violated_preconditions black op s in
      match fl with
      | [] => let* s := apply_op_to_state s op in Ok (s, [])
      | _ => apply_step black r s (flaws ++ fl)
      end
  end.
(** cegar.cc:302-353 apply_plan. *)
Fixpoint apply_plan (black : list nat) (plan : list (list nat)) (s : state) : outcome (state * list nat) :=
  match plan with
  | [] => Ok (s, [])
  | step :: plan =>
      let* (s, fl) := apply_step black step s [] in
      match fl with [] => apply_plan black plan s | _ => Ok (s, fl) end
  end.
(* task_properties.h is_goal_state *)
Fixpoint all_hold (goals : list fact) (s : state) : outcome bool :=
  match goals with
  | [] => Ok true
  | f :: r => let* x := vget s (fst f) in if x =? snd f then all_hold r s else Ok false
  end.
(* cegar.cc:394-402 *)
Definition goal_flaws (black : list nat) (goals : list fact) (s : state) : outcome (list nat) :=
  fold_outcome (fun fl f =>
    let* x := vget s (fst f) in
    if negb (x =? snd f) && negb (existsb (Nat.eqb (fst f)) black) then Ok (fl ++ [fst f]) else Ok fl) goals [].
(** cegar.cc:355-417 get_flaws_for_pattern: whether the task is solved, whether the pattern is to be
    marked as solved, the variables of the new flaws. *)
Definition flaws_for_pattern (goals : list fact) (black : list nat) (x : pattern_info) : outcome (bool * bool * list nat) :=
  if pi_unsolvable x then Exit SEARCH_UNSOLVABLE
  else
    let* (s, fl) := apply_plan black (pi_plan x) (t_init t) in
    match fl with
    | [] =>
        let* g := all_hold (t_goal t) s in
        if g : bool then (match black with [] => Ok (true, false, []) | _ => Ok (false, true, []) end)
        else let* gf := goal_flaws black goals s in
             match gf with [] => Ok (false, true, []) | _ => Ok (false, false, gf) end
    | _ => Ok (false, false, fl)
    end.
(** cegar.cc:419-433 get_flaws, from collection index [i]. *)
Fixpoint get_flaws (goals : list fact) (black : list nat) (is : list nat) (coll : list (option pattern_info)) (flaws : list (nat * nat))
    : outcome (option nat * list (option pattern_info) * list (nat * nat)) :=
  match is with
  | [] => Ok (None, coll, flaws)
  | i :: is =>
      let* x := vget coll i in
      match x with
      | None => get_flaws goals black is coll flaws
      | Some x =>
          if pi_solved x then get_flaws goals black is coll flaws
          else
            let* (b, fl) := flaws_for_pattern goals black x in
            if fst b : bool then Ok (Some i, coll, flaws)
            else
              let* coll := (if snd b : bool then vset coll i (Some (mark_as_solved x)) else Ok coll) in
              get_flaws goals black is coll (flaws ++ map (pair i) fl)
      end
  end.

(* dereferencing a unique_ptr of the collection *)
Definition cget (c : cegar) (i : nat) : outcome pattern_info :=
  let* x := vget (c_coll c) i in match x with Some x => Ok x | None => UB end.
(** cegar.cc:440-449 can_merge_patterns. *)
Definition can_merge_patterns (c : cegar) (i j : nat) : outcome bool :=
  let* x := cget c i in
  let* y := cget c j in
  let* b := is_product_within_limit (pi_size x) (pi_size y) max_pdb_size in
  if negb b then Ok false
  else
    let* _ := guard (c_size c + (pi_size x * pi_size y - pi_size x - pi_size y) <=? INT_MAX)%Z in
    Ok (c_size c + (pi_size x * pi_size y - pi_size x - pi_size y) <=? max_collection_size)%Z.
(** cegar.cc:451-484 merge_patterns. *)
Definition merge_patterns (c : cegar) (i j : nat) : outcome cegar :=
  let* x := cget c i in
  let* y := cget c j in
  let* z := compute_pattern_info (c_count c) (sort Nat.leb (pi_pattern x ++ pi_pattern y)) in
  let* coll := vset (c_coll c) i (Some z) in
  let* coll := vset coll j None in
  Ok {| c_black := c_black c; c_coll := coll;
        c_index := fun u => if existsb (Nat.eqb u) (pi_pattern y) then Some i else c_index c u;
        c_size := (c_size c - pi_size x - pi_size y + pi_size z)%Z; c_count := c_count c + 1 |}.
(** cegar.cc:486-494 can_add_variable_to_pattern. *)
Definition can_add_variable (c : cegar) (i v : nat) : outcome bool :=
  let* x := cget c i in
  let* var := vget (t_vars t) v in
  let* b := is_product_within_limit (pi_size x) (Z.of_nat (vdom var)) max_pdb_size in
  if negb b then Ok false
  else
    let* _ := guard (c_size c + (pi_size x * Z.of_nat (vdom var) - pi_size x) <=? INT_MAX)%Z in
    Ok (c_size c + (pi_size x * Z.of_nat (vdom var) - pi_size x) <=? max_collection_size)%Z.
(** cegar.cc:496-512 add_variable_to_pattern. *)
Definition add_variable (c : cegar) (i v : nat) : outcome cegar :=
  let* x := cget c i in
  let* z := compute_pattern_info (c_count c) (sort Nat.leb (pi_pattern x ++ [v])) in
  let* coll := vset (c_coll c) i (Some z) in
  Ok {| c_black := c_black c; c_coll := coll; c_index := fun u => if u =? v then Some i else c_index c u;
        c_size := (c_size c - pi_size x + pi_size z)%Z; c_count := c_count c + 1 |}.
Definition blacklist (c : cegar) (v : nat) : cegar :=
  {| c_black := v :: c_black c; c_coll := c_coll c; c_index := c_index c; c_size := c_size c; c_count := c_count c |}.
(** cegar.cc:514-566 refine; an empty list of flaws and a failing assertion are undefined behaviour. *)
Definition refine (k : nat) (c : cegar) (flaws : list (nat * nat)) : outcome cegar :=
  let* (i, v) := vget flaws (pick k flaws) in
  match c_index c v with
  | Some j =>
      let* _ := guard (negb (j =? i)) in
      let* b := can_merge_patterns c i j in
      if b : bool then merge_patterns c i j else Ok (blacklist c v)
  | None =>
      let* b := can_add_variable c i v in
      if b : bool then add_variable c i v else Ok (blacklist c v)
  end.

Fixpoint some_infos (l : list (option pattern_info)) : list pattern_info :=
  match l with [] => [] | Some x :: r => x :: some_infos r | None :: r => some_infos r end.
(** cegar.cc:594-655 the loop and the result: whether the task was solved, and the databases.  (That
    the patterns are validated once more has no effect: they are sorted.) *)
Fixpoint cegar_loop (fuel k : nat) (goals : list fact) (c : cegar) : outcome (bool * list pdb) :=
  if expired k then Ok (false, map pi_db (some_infos (c_coll c)))
  else
    match fuel with
    | 0 => NoFuel
    | S fuel =>
        let* (r, flaws) := get_flaws goals (c_black c) (seq 0 (length (c_coll c))) (c_coll c) [] in
        let c := {| c_black := c_black c; c_coll := snd r; c_index := c_index c; c_size := c_size c; c_count := c_count c |} in
        match fst r with
        | Some i => let* x := cget c i in Ok (true, [pi_db x])
        | None =>
            match flaws with
            | [] => Ok (false, map pi_db (some_infos (c_coll c)))
            | _ => let* c := refine k c flaws in cegar_loop fuel (k + 1) goals c
            end
        end
    end.
(** cegar.cc:568-655 compute_pattern_collection. *)
Definition cegar_collection (goals : list fact) (black : list nat) : outcome (bool * list pdb) :=
  let* c := compute_initial_collection goals black in
  cegar_loop (S (length goals + 2 * length (t_vars t))) 0 goals c.
End Cegar.
(** cegar.cc:671-699 generate_pattern_with_cegar: both limits are the given one. *)
Definition cegar_pattern P q0 pdb_fuel shuffle choose pick expired t (max_pdb_size : Z) (wildcard : bool) (goal : fact) (black : list nat) : outcome pdb :=
  let* (b, dbs) := cegar_collection P q0 pdb_fuel shuffle choose pick expired t max_pdb_size max_pdb_size wildcard [goal] black in
  if 1 <? length dbs then Exit SEARCH_CRITICAL_ERROR
  else vget dbs 0.

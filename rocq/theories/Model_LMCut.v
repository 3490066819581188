(** Model of the landmark-cut heuristic: heuristics/lm_cut_landmarks.{h,cc},
    lm_cut_heuristic.cc.

    Propositions are numbered: fact (v, d) has number [prop_id t (v, d)] (the code keeps a vector
    per variable), the artificial goal is [num_props t] and the artificial precondition
    [num_props t + 1].  Pointers to propositions and operators are their numbers.  Integers are
    unbounded naturals; the subtraction that could become negative is guarded. *)
From Verif Require Import Outcome Spec_Task Model_Task Model_PQ Model_Relaxation.

(* lm_cut_landmarks.h:17-22 *)
Inductive pstat := UNREACHED | REACHED | GOAL_ZONE | BEFORE_GOAL_ZONE.
Definition pstat_eqb (a b : pstat) : bool :=
  match a, b with
  | UNREACHED, UNREACHED | REACHED, REACHED | GOAL_ZONE, GOAL_ZONE | BEFORE_GOAL_ZONE, BEFORE_GOAL_ZONE => true
  | _, _ => false
  end.

(* lm_cut_landmarks.h:24-44; [l_id = None] is operator number -1 *)
Record lop := { l_pre : list nat; l_eff : list nat; l_base : nat; l_id : option nat }.

(* lm_cut_landmarks.cc:44-51: precondition_of and effect_of: one entry per occurrence *)
Fixpoint occ_from (f : lop -> list nat) (us : list lop) (i p : nat) : list nat :=
  match us with
  | [] => []
  | u :: r => repeat i (count_occ Nat.eq_dec (f u) p) ++ occ_from f r (S i) p
  end.

Section LMC.
Variable P : pqueue.
Variable ops : list lop.
Variable tot : nat.          (* number of propositions, with the two artificial ones *)
Variable gp ap : nat.        (* artificial goal and artificial precondition *)

(* status and h_max_cost of the propositions; cost, unsatisfied_preconditions and
   (h_max_supporter, h_max_supporter_cost) of the operators; the queue.  The last two are set
   together; [None] is (nullptr, INT_MAX). *)
Record lstate := {
  c_st : list pstat; c_h : list nat;
  c_cost : list nat; c_unsat : list nat; c_sup : list (option (nat * nat)); c_q : PQ P }.

(* lm_cut_landmarks.h:80-87 *)
Definition lenq (c : nat) (st : lstate) (p : nat) : outcome lstate :=
  let* s := vget (c_st st) p in
  let* h := vget (c_h st) p in
  if pstat_eqb s UNREACHED || (c <? h) then
    let* ss := vset (c_st st) p REACHED in
    let* hs := vset (c_h st) p c in
    Ok {| c_st := ss; c_h := hs; c_cost := c_cost st; c_unsat := c_unsat st; c_sup := c_sup st;
          c_q := pq_push P (c_q st) c p |}
  else Ok st.

(* lm_cut_landmarks.cc:119-132: the body of the loop over the triggered operators *)
Definition trigger (p pc : nat) (st : lstate) (i : nat) : outcome lstate :=
  let* n := vget (c_unsat st) i in
  let* _ := guard (0 <? n) in
  let* un := vset (c_unsat st) i (n - 1) in
  if n - 1 =? 0 then
    let* u := vget ops i in
    let* c := vget (c_cost st) i in
    let* sup := vset (c_sup st) i (Some (p, pc)) in
    fold_outcome (lenq (pc + c)) (l_eff u)
      {| c_st := c_st st; c_h := c_h st; c_cost := c_cost st; c_unsat := un; c_sup := sup; c_q := c_q st |}
  else Ok {| c_st := c_st st; c_h := c_h st; c_cost := c_cost st; c_unsat := un; c_sup := c_sup st; c_q := c_q st |}.

(* lm_cut_landmarks.cc:108-135 and 151-180: the loop of both explorations *)
Fixpoint lexplore (trig : nat -> nat -> lstate -> nat -> outcome lstate) (fuel : nat) (st : lstate) : outcome lstate :=
  match fuel with
  | O => NoFuel
  | S fuel =>
      match pq_pop P (c_q st) with
      | None => Ok st
      | Some ((d, p), q) =>
          let st1 := {| c_st := c_st st; c_h := c_h st; c_cost := c_cost st; c_unsat := c_unsat st; c_sup := c_sup st; c_q := q |} in
          let* pc := vget (c_h st) p in
          let* _ := guard (pc <=? d) in
          if pc <? d then lexplore trig fuel st1
          else let* st2 := fold_outcome (trig p pc) (occ_from l_pre ops 0 p) st1 in
               lexplore trig fuel st2
      end
  end.

(* lm_cut_landmarks.cc:78-103 and 246-248; [h0] are the old h_max_cost values; fuel: every
   operator pushes its effects once *)
Definition first_exploration (q0 : PQ P) (h0 : list nat) (I : list nat) : outcome lstate :=
  let st := {| c_st := repeat UNREACHED tot; c_h := h0; c_cost := map l_base ops;
               c_unsat := map (fun u => length (l_pre u)) ops; c_sup := map (fun _ => None) ops;
               c_q := pq_clear P q0 |} in
  let* st := fold_outcome (lenq 0) I st in
  let* st := lenq 0 st ap in
  lexplore trigger (S (list_sum (map (fun u => length (l_eff u)) ops) + S (length I))) st.

(* lm_cut_landmarks.h:120-126 *)
Definition update_sup (st : lstate) (u : lop) (q : nat) : outcome nat :=
  fold_outcome (fun cur j => let* a := vget (c_h st) j in
                             let* b := vget (c_h st) cur in
                             Ok (if b <? a then j else cur)) (l_pre u) q.
(* lm_cut_landmarks.cc:162-178 *)
Definition retrigger (p pc : nat) (st : lstate) (i : nat) : outcome lstate :=
  let* su := vget (c_sup st) i in
  match su with
  | None => Ok st
  | Some (q, old) =>
      if (q =? p) && (pc <? old) then
        let* u := vget ops i in
        let* n := vget (c_unsat st) i in
        let* _ := guard (n =? 0) in
        let* q' := update_sup st u q in
        let* new := vget (c_h st) q' in
        let* sup := vset (c_sup st) i (Some (q', new)) in
        let st' := {| c_st := c_st st; c_h := c_h st; c_cost := c_cost st; c_unsat := c_unsat st; c_sup := sup; c_q := c_q st |} in
        if new =? old then Ok st'
        else let* _ := guard (new <? old) in
             let* c := vget (c_cost st) i in
             fold_outcome (lenq (new + c)) (l_eff u) st'
      else Ok st
  end.
(* lm_cut_landmarks.cc:137-181.  add_virtual_pushes only influences the representation of the
   queue.  Fuel: every push decreases the cost of a proposition. *)
Definition cut_enqueue (st : lstate) (i : nat) : outcome lstate :=
  let* su := vget (c_sup st) i in
  match su with
  | None => UB
  | Some (_, sc) => let* u := vget ops i in
                    let* c := vget (c_cost st) i in
                    fold_outcome (lenq (sc + c)) (l_eff u) st
  end.
Definition incremental (st : lstate) (cut : list nat) : outcome lstate :=
  let fuel := S (list_sum (c_h st)) in
  let* st := fold_outcome cut_enqueue cut st in
  lexplore retrigger fuel st.

(* lm_cut_landmarks.cc:227-240; recursion depth: every nested call marks a proposition *)
Fixpoint plateau (fuel : nat) (st : lstate) (ss : list pstat) (g : nat) : outcome (list pstat) :=
  match fuel with
  | O => NoFuel
  | S fuel =>
      let* s := vget ss g in
      if pstat_eqb s GOAL_ZONE then Ok ss
      else fold_outcome (fun ss i =>
             let* c := vget (c_cost st) i in
             if c =? 0 then
               let* su := vget (c_sup st) i in
               match su with None => Ok ss | Some (q, _) => plateau fuel st ss q end
             else Ok ss) (occ_from l_eff ops 0 g) (upd ss g GOAL_ZONE)
  end.

(* lm_cut_landmarks.cc:203-208 *)
Fixpoint any_zone (ss : list pstat) (es : list nat) : outcome bool :=
  match es with
  | [] => Ok false
  | e :: r => let* s := vget ss e in if pstat_eqb s GOAL_ZONE then Ok true else any_zone ss r
  end.
(* lm_cut_landmarks.cc:212-218; the back of the vector is the head of the list *)
Definition push_before (x : list pstat * list nat) (e : nat) : outcome (list pstat * list nat) :=
  let '(ss, stk) := x in
  let* s := vget ss e in
  if pstat_eqb s BEFORE_GOAL_ZONE then Ok x
  else let* _ := guard (pstat_eqb s REACHED) in Ok (upd ss e BEFORE_GOAL_ZONE, e :: stk).
(* lm_cut_landmarks.cc:200-221 *)
Definition trigger_cut (st : lstate) (p : nat) (x : list pstat * list nat * list nat) (i : nat)
  : outcome (list pstat * list nat * list nat) :=
  let '(ss, stk, cut) := x in
  let* su := vget (c_sup st) i in
  match su with
  | None => Ok x
  | Some (q, _) =>
      if q =? p then
        let* u := vget ops i in
        let* z := any_zone ss (l_eff u) in
        if z then let* c := vget (c_cost st) i in
                  let* _ := guard (0 <? c) in
                  Ok (ss, stk, cut ++ [i])
        else let* (ss, stk) := fold_outcome push_before (l_eff u) (ss, stk) in Ok (ss, stk, cut)
      else Ok x
  end.
Fixpoint second_loop (fuel : nat) (st : lstate) (ss : list pstat) (stk cut : list nat) : outcome (list pstat * list nat) :=
  match fuel with
  | O => NoFuel
  | S fuel =>
      match stk with
      | [] => Ok (ss, cut)
      | p :: stk => let* (ss, stk, cut) := fold_outcome (trigger_cut st p) (occ_from l_pre ops 0 p) (ss, stk, cut) in
                    second_loop fuel st ss stk cut
      end
  end.
(* lm_cut_landmarks.cc:183-225; fuel: every proposition is pushed at most once *)
Definition set_before (x : list pstat * list nat) (p : nat) : outcome (list pstat * list nat) :=
  let* ss := vset (fst x) p BEFORE_GOAL_ZONE in Ok (ss, p :: snd x).
Definition second_exploration (st : lstate) (ss : list pstat) (I : list nat) : outcome (list pstat * list nat) :=
  let* x := fold_outcome set_before (ap :: I) (ss, []) in
  second_loop (S tot) st (fst x) (snd x) [].

(* lm_cut_landmarks.cc:293-295 *)
Fixpoint vgets (l : list nat) (is : list nat) : outcome (list nat) :=
  match is with [] => Ok [] | i :: r => let* x := vget l i in let* xs := vgets l r in Ok (x :: xs) end.
Definition min_of (l : list nat) : outcome nat :=
  match l with [] => UB | x :: r => Ok (fold_left Nat.min r x) end.
(* lm_cut_landmarks.cc:296-297; a negative cost would violate the assertion in
   enqueue_if_necessary *)
Definition reduce (cc : nat) (costs : list nat) (i : nat) : outcome (list nat) :=
  let* c := vget costs i in
  let* _ := guard (cc <=? c) in
  vset costs i (c - cc).
(* lm_cut_landmarks.cc:302-308 *)
Definition cut_ids (cut : list nat) : outcome (list (option nat)) :=
  fold_outcome (fun l i => let* u := vget ops i in Ok (l ++ [l_id u])) cut [].
(* lm_cut_landmarks.cc:321-328 *)
Definition reset_status (ss : list pstat) : outcome (list pstat) :=
  let ss := map (fun s => match s with GOAL_ZONE | BEFORE_GOAL_ZONE => REACHED | _ => s end) ss in
  let* ss := vset ss gp REACHED in
  vset ss ap REACHED.

(* lm_cut_landmarks.cc:286-331; fuel: every round decreases the sum of the operator costs *)
Fixpoint rounds (fuel : nat) (st : lstate) (I : list nat) (acc : list (list (option nat) * nat))
  : outcome (list (list (option nat) * nat)) :=
  let* h := vget (c_h st) gp in
  if h =? 0 then Ok acc
  else
    match fuel with
    | O => NoFuel
    | S fuel =>
        let* ss := plateau (S tot) st (c_st st) gp in
        let* (ss, cut) := second_exploration st ss I in
        let* cs := vgets (c_cost st) cut in
        let* cc := min_of cs in
        let* costs := fold_outcome (reduce cc) cut (c_cost st) in
        let* ids := cut_ids cut in
        let* st := incremental {| c_st := ss; c_h := c_h st; c_cost := costs; c_unsat := c_unsat st;
                                  c_sup := c_sup st; c_q := c_q st |} cut in
        let* ss := reset_status (c_st st) in
        rounds fuel {| c_st := ss; c_h := c_h st; c_cost := c_cost st; c_unsat := c_unsat st;
                       c_sup := c_sup st; c_q := c_q st |} I (acc ++ [(ids, cc)])
    end.

(* lm_cut_landmarks.cc:266-332: [None] is a dead end; otherwise the landmarks passed to the
   callbacks, in order *)
Definition landmarks (q0 : PQ P) (h0 I : list nat) : outcome (option (list (list (option nat) * nat))) :=
  let* st := first_exploration q0 h0 I in
  let* g := vget (c_st st) gp in
  if pstat_eqb g UNREACHED then Ok None
  else let* lms := rounds (S (list_sum (c_cost st))) st I [] in Ok (Some lms).
End LMC.
Arguments c_st {P}. Arguments c_h {P}. Arguments c_cost {P}. Arguments c_unsat {P}. Arguments c_sup {P}. Arguments c_q {P}.

(* lm_cut_landmarks.cc:68-77 *)
Definition mk_lop (ap : nat) (pre eff : list nat) (id : option nat) (base : nat) : lop :=
  {| l_pre := match pre with [] => [ap] | _ => pre end; l_eff := eff; l_base := base; l_id := id |}.
(* lm_cut_landmarks.cc:54-66 *)
Fixpoint lops_of (t : task) (o : nat) (os : list operator) : list lop :=
  match os with
  | [] => []
  | op :: r => mk_lop (S (num_props t)) (map (prop_id t) (op_pre op)) (map (fun e => prop_id t (eff_fact e)) (op_effs op))
                 (Some o) (op_cost op) :: lops_of t (S o) r
  end.
(* lm_cut_landmarks.cc:13-52.  Tasks with derived variables or conditional effects are rejected
   (verify_no_axioms, verify_no_conditional_effects: exit code 34). *)
Definition lmcut_ops (t : task) : list lop :=
  lops_of t 0 (t_ops t) ++ [mk_lop (S (num_props t)) (map (prop_id t) (t_goal t)) [num_props t] None 0].
Definition lmcut_supported (t : task) : bool :=
  match t_rules t with [] => true | _ => false end &&
  forallb (fun op => forallb (fun e => match eff_cond e with [] => true | _ => false end) (op_effs op)) (t_ops t).
Definition lmcut_landmarks (P : pqueue) (t : task) (q0 : PQ P) (h0 : list nat) (s : state)
  : outcome (option (list (list (option nat) * nat))) :=
  if lmcut_supported t then
    landmarks P (lmcut_ops t) (num_props t + 2) (num_props t) (S (num_props t)) q0 h0 (state_props t s)
  else Exit 34.
(* lm_cut_heuristic.cc:26-37 *)
Definition lmcut (P : pqueue) (t : task) (q0 : PQ P) (h0 : list nat) (s : state) : outcome (option nat) :=
  let* r := lmcut_landmarks P t q0 h0 s in
  Ok (option_map (fun lms => list_sum (map snd lms)) r).

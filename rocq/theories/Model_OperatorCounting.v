(** Model of the operator-counting heuristic: operator_counting/operator_counting_heuristic.cc and the
    constraint generators state_equation_constraints.cc, lm_cut_constraints.cc, pho_constraints.cc,
    delete_relaxation_if_constraints.cc and delete_relaxation_rr_constraints.cc.

    Coefficients and bounds are rationals (they are integers here, exactly represented by doubles).
    The tables that map operators and facts to LP variables are one list of keys per generator, in the
    order in which the code creates the variables.  Iterating over a hash set is modelled as
    iterating in insertion order. *)
From Coq Require Import QArith Qround.
From Verif Require Import Outcome Spec_Task Spec_LP Spec_OperatorCounting Model_Task Model_PQ Model_PDB Model_PatternCollections
  Model_LMCut Model_LPSolver.
From Verif Require Model_Landmarks.

Local Open Scope nat_scope.

Fixpoint omap {A B} (f : A -> outcome B) (l : list A) : outcome (list B) :=
  match l with [] => Ok [] | x :: r => let* y := f x in let* ys := omap f r in Ok (y :: ys) end.
Fixpoint pos_of {A} (eqb : A -> A -> bool) (a : A) (l : list A) : option nat :=
  match l with [] => None | b :: r => if eqb a b then Some 0%nat else option_map S (pos_of eqb a r) end.

(* Operators with their numbers, and the loops over effects and preconditions of all operators. *)
Definition numbered {A} (l : list A) : list (nat * A) := combine (seq 0 (length l)) l.
Definition op_effects (t : task) : list (nat * fact) :=
  concat (map (fun io => map (fun e => (fst io, eff_fact e)) (op_effs (snd io))) (numbered (t_ops t))).
Definition op_pres (t : task) : list (nat * fact) :=
  concat (map (fun io => map (fun f => (fst io, f)) (op_pre (snd io))) (numbered (t_ops t))).
(* Facts, variable by variable. *)
Definition all_facts (t : task) : list fact :=
  concat (map (fun ix => map (pair (fst ix)) (seq 0 (vdom (snd ix)))) (numbered (t_vars t))).
Definition fact_pos (t : task) (f : fact) : outcome nat :=
  match pos_of feqb f (all_facts t) with Some i => Ok i | None => UB end.

Definition con (lo up : option Q) (ts : list (nat * Q)) : lpcon := {| c_terms := ts; c_lo := lo; c_up := up |}.
(* lp_solver.cc:45-48 *)
Definition insert (c : lpcon) (i : nat) (q : Q) : lpcon := con (c_lo c) (c_up c) (c_terms c ++ [(i, q)]).

(** ** State equation *)
(* state_equation_constraints.h (Proposition); sets are increasing lists *)
Record proposition := { always_produced_by : list nat; sometimes_produced_by : list nat; always_consumed_by : list nat;
                        constraint_index : option nat }.
Definition new_proposition : proposition :=
  {| always_produced_by := []; sometimes_produced_by := []; always_consumed_by := []; constraint_index := None |}.
Fixpoint set_insert (x : nat) (l : list nat) : list nat :=
  match l with
  | [] => [x]
  | y :: r => if x <? y then x :: l else if x =? y then l else y :: set_insert x r
  end.
Definition produce_always (o : nat) (p : proposition) := {| always_produced_by := set_insert o (always_produced_by p);
  sometimes_produced_by := sometimes_produced_by p; always_consumed_by := always_consumed_by p; constraint_index := constraint_index p |}.
Definition produce_sometimes (o : nat) (p : proposition) := {| always_produced_by := always_produced_by p;
  sometimes_produced_by := set_insert o (sometimes_produced_by p); always_consumed_by := always_consumed_by p; constraint_index := constraint_index p |}.
Definition consume_always (o : nat) (p : proposition) := {| always_produced_by := always_produced_by p;
  sometimes_produced_by := sometimes_produced_by p; always_consumed_by := set_insert o (always_consumed_by p); constraint_index := constraint_index p |}.
Definition upd_prop (props : list (list proposition)) (v d : nat) (g : proposition -> proposition) : outcome (list (list proposition)) :=
  let* row := vget props v in let* p := vget row d in let* row := vset row d (g p) in vset props v row.
(* state_equation_constraints.cc:35-39, 89-92: a value per variable, -1 or INT_MAX (None) if there is none *)
Definition fact_vector (n : nat) (fs : list fact) : outcome (list (option nat)) :=
  fold_outcome (fun pv f => vset pv (fst f) (Some (snd f))) fs (repeat None n).
(* state_equation_constraints.cc:40-54; a failed assertion is UB *)
Definition se_effect (o : nat) (pv : list (option nat)) (props : list (list proposition)) (e : effect) : outcome (list (list proposition)) :=
  let (var, post) := eff_fact e in
  let* pre := vget pv var in
  match pre with
  | Some pre => if pre =? post then UB else
                let* props := upd_prop props var post (produce_always o) in
                upd_prop props var pre (consume_always o)
  | None => upd_prop props var post (produce_sometimes o)
  end.
(* state_equation_constraints.cc:26-56 *)
Definition build_propositions (t : task) : outcome (list (list proposition)) :=
  fold_outcome (fun props io =>
    let* pv := fact_vector (length (t_vars t)) (op_pre (snd io)) in
    fold_outcome (se_effect (fst io) pv) (op_effs (snd io)) props)
    (numbered (t_ops t)) (map (fun x => repeat new_proposition (vdom x)) (t_vars t)).
(* state_equation_constraints.cc:19-24, 58-74 *)
Definition se_terms (p : proposition) : list (nat * Q) :=
  map (fun o => (o, 1%Q)) (always_produced_by p) ++ map (fun o => (o, 1%Q)) (sometimes_produced_by p) ++
  map (fun o => (o, (-1)%Q)) (always_consumed_by p).
Definition se_add (x : list lpcon * list proposition) (p : proposition) : list lpcon * list proposition :=
  match se_terms p with
  | [] => (fst x, snd x ++ [p])
  | ts => (fst x ++ [con None None ts],
           snd x ++ [{| always_produced_by := always_produced_by p; sometimes_produced_by := sometimes_produced_by p;
                        always_consumed_by := always_consumed_by p; constraint_index := Some (length (fst x)) |}])
  end.
Definition se_add_row (x : list lpcon * list (list proposition)) (row : list proposition) : list lpcon * list (list proposition) :=
  let y := fold_left se_add row (fst x, []) in (fst y, snd x ++ [snd y]).
Definition se_add_constraints (props : list (list proposition)) (rows : list lpcon) : list lpcon * list (list proposition) :=
  fold_left se_add_row props (rows, []).
(* task_utils/task_properties.cc:22-57: verify_no_axioms, verify_no_conditional_effects *)
Definition supported_task (t : task) : bool := lmcut_supported t.
(* state_equation_constraints.cc:95-121 *)
Definition se_bound (s : state) (goal : list (option nat)) (var : nat) (sv : solver) (dp : nat * proposition) : outcome solver :=
  match constraint_index (snd dp) with
  | None => Ok sv
  | Some i =>
      let* cur := vget s var in
      let* g := vget goal var in
      let lb := if cur =? fst dp then (-1)%Q else 0%Q in
      let lb := match g with Some d => if d =? fst dp then (lb + 1)%Q else lb | None => lb end in
      set_constraint_lower_bound sv i lb
  end.
Definition se_update (props : list (list proposition)) (goal : list (option nat)) (s : state) (sv : solver) : outcome solver :=
  fold_outcome (fun sv vr => fold_outcome (se_bound s goal (fst vr)) (numbered (snd vr)) sv) (numbered props) sv.

(** ** Auxiliary variables of the delete-relaxation constraints *)
Inductive key :=
| KUsed (o : nat)                 (* U_o *)
| KReached (f : fact)             (* R_f; f_p *)
| KFirst (o : nat) (f : fact)     (* F_{o,f}; f_{p,a} *)
| KOpTime (o : nat)               (* T_o *)
| KFactTime (f : fact)            (* T_f; t_p *)
| KEdge (f g : fact).             (* e_{i,j} *)
Definition key_eqb (a b : key) : bool :=
  match a, b with
  | KUsed o, KUsed o' | KOpTime o, KOpTime o' => o =? o'
  | KReached f, KReached f' | KFactTime f, KFactTime f' => feqb f f'
  | KFirst o f, KFirst o' f' => (o =? o') && feqb f f'
  | KEdge f g, KEdge f' g' => feqb f f' && feqb g g'
  | _, _ => false
  end.
(* The first variable number and the keys of the variables from there on. *)
Record table := { tb_base : nat; tb_keys : list key }.
Definition id_of (tb : table) (k : key) : outcome nat :=
  match pos_of key_eqb k (tb_keys tb) with Some i => Ok (tb_base tb + i) | None => UB end.
Definition aux_var (int : bool) (lo up : Q) : lpvar := {| v_lo := Some lo; v_up := Some up; v_obj := 0%Q; v_int := int |}.
(* delete_relaxation_if_constraints.cc:117-119, delete_relaxation_rr_constraints.cc:375-377 *)
Definition raise_lower (tb : table) (vs : list lpvar) (f : fact) : outcome (list lpvar) :=
  let* i := id_of tb (KReached f) in
  let* v := vget vs i in
  vset vs i {| v_lo := Some 1%Q; v_up := v_up v; v_obj := v_obj v; v_int := v_int v |}.
(* appending a term to the constraint of a fact *)
Definition insert_at (cbase : nat) (t : task) (tb : table) (q : Q) (rows : list lpcon) (of : nat * fact) : outcome (list lpcon) :=
  let* p := fact_pos t (snd of) in
  let* i := id_of tb (KFirst (fst of) (snd of)) in
  let* c := vget rows (cbase + p) in
  vset rows (cbase + p) (insert c i q).

(** ** Delete relaxation, Imai and Fukunaga *)
Definition qn (n : nat) : Q := inject_Z (Z.of_nat n).
(* delete_relaxation_if_constraints.cc:56-102 *)
Definition if_keys (t : task) (time : bool) : list key :=
  let os := seq 0 (length (t_ops t)) in
  map KUsed os ++ map KReached (all_facts t) ++ concat (map (fun o => map (KFirst o) (all_facts t)) os) ++
  if time then map KOpTime os ++ map KFactTime (all_facts t) else [].
Definition if_var (t : task) (int : bool) (k : key) : lpvar :=
  match k with
  | KOpTime _ | KFactTime _ => aux_var int 0 (qn (length (t_ops t)))
  | _ => aux_var int 0 1
  end.
(* delete_relaxation_if_constraints.cc:104-220 *)
Definition if_constraints (t : task) (time : bool) (tb : table) (rows : list lpcon) : outcome (list lpcon) :=
  let id := id_of tb in
  let* c1 := omap (fun f => let* r := id (KReached f) in Ok (con (Some 0%Q) None [(r, (-1)%Q)])) (all_facts t) in
  let* rows' := fold_outcome (insert_at (length rows) t tb 1%Q) (op_effects t) (rows ++ c1) in
  let* c2 := omap (fun of => let* u := id (KUsed (fst of)) in let* f := id (KFirst (fst of) (snd of)) in
                             Ok (con (Some 0%Q) None [(u, 1%Q); (f, (-1)%Q)])) (op_effects t) in
  let* c3 := omap (fun of => let* r := id (KReached (snd of)) in let* u := id (KUsed (fst of)) in
                             Ok (con (Some 0%Q) None [(r, 1%Q); (u, (-1)%Q)])) (op_pres t) in
  let* c4 := if time then omap (fun of => let* to := id (KOpTime (fst of)) in let* tf := id (KFactTime (snd of)) in
                             Ok (con (Some 0%Q) None [(to, 1%Q); (tf, (-1)%Q)])) (op_pres t) else Ok [] in
  let m := qn (length (t_ops t) + 1) in
  let* c5 := if time then omap (fun of => let* tf := id (KFactTime (snd of)) in let* to := id (KOpTime (fst of)) in
                             let* f := id (KFirst (fst of) (snd of)) in
                             Ok (con (Some (1 - m)%Q) None [(tf, 1%Q); (to, (-1)%Q); (f, (- m)%Q)])) (op_effects t) else Ok [] in
  let* c6 := omap (fun o => let* u := id (KUsed o) in Ok (con (Some 0%Q) None [(o, 1%Q); (u, (-1)%Q)])) (seq 0 (length (t_ops t))) in
  Ok (rows' ++ c2 ++ c3 ++ c4 ++ c5 ++ c6).
Definition if_init (t : task) (time int : bool) (lp : lprog) : outcome (table * nat * lprog) :=
  let tb := {| tb_base := length (lp_vars lp); tb_keys := if_keys t time |} in
  let* vs := fold_outcome (raise_lower tb) (t_goal t) (lp_vars lp ++ map (if_var t int) (tb_keys tb)) in
  let* rows := if_constraints t time tb (lp_cons lp) in
  Ok (tb, length (lp_cons lp), {| lp_vars := vs; lp_cons := rows |}).
(* The facts of a state, in the order of the variables. *)
Definition facts_of (s : state) : list fact := numbered s.
(* delete_relaxation_if_constraints.cc:229-243 *)
Definition if_update (t : task) (cbase : nat) (last : list fact) (s : state) (sv : solver) : outcome solver :=
  let* sv := fold_outcome (fun sv f => let* p := fact_pos t f in set_constraint_lower_bound sv (cbase + p) 0%Q) last sv in
  fold_outcome (fun sv f => let* p := fact_pos t f in set_constraint_lower_bound sv (cbase + p) (-1)%Q) (facts_of s) sv.

(** ** Delete relaxation, Rankooh and Rintanen *)
(* The vertex elimination graph; nodes are numbered like [all_facts].
   delete_relaxation_rr_constraints.cc:17-32 *)
Record node := { nd_pred : list nat; nd_succ : list nat; nd_elim : bool; nd_in : nat }.
Section OC.
Variable P : pqueue.
Variable qe : PQ P.              (* the empty queue *)
Record vegraph := { ve_nodes : list node; ve_delta : list (nat * nat * nat); ve_edges : list (nat * nat); ve_queue : PQ P }.
Definition edge_eqb (a b : nat * nat) : bool := (fst a =? fst b) && (snd a =? snd b).
Definition triple_eqb (a b : nat * nat * nat) : bool := edge_eqb (fst a) (fst b) && (snd a =? snd b).
(* delete_relaxation_rr_constraints.cc:42-49 *)
Definition add_edge (g : vegraph) (a b : nat) : outcome vegraph :=
  if existsb (edge_eqb (a, b)) (ve_edges g) then Ok g else
  let* na := vget (ve_nodes g) a in
  let* ns := vset (ve_nodes g) a {| nd_pred := nd_pred na; nd_succ := nd_succ na ++ [b]; nd_elim := nd_elim na; nd_in := nd_in na |} in
  let* nb := vget ns b in
  let* ns := vset ns b {| nd_pred := nd_pred nb ++ [a]; nd_succ := nd_succ nb; nd_elim := nd_elim nb; nd_in := nd_in nb |} in
  Ok {| ve_nodes := ns; ve_delta := ve_delta g; ve_edges := ve_edges g ++ [(a, b)]; ve_queue := ve_queue g |}.
Definition alive (g : vegraph) (a : nat) : outcome bool := let* n := vget (ve_nodes g) a in Ok (negb (nd_elim n)).
(* those of the nodes [l] that are not eliminated *)
Fixpoint alive_of (g : vegraph) (l : list nat) : outcome (list nat) :=
  match l with
  | [] => Ok []
  | a :: r => let* b := alive g a in let* l := alive_of g r in Ok (if b then a :: l else l)
  end.
(* :51-64 *)
Definition push_fact (g : vegraph) (a : nat) : outcome vegraph :=
  let* n := vget (ve_nodes g) a in
  if nd_elim n then Ok g else
  let* ps := alive_of g (nd_pred n) in
  let d := length ps in
  let* ns := vset (ve_nodes g) a {| nd_pred := nd_pred n; nd_succ := nd_succ n; nd_elim := false; nd_in := d |} in
  Ok {| ve_nodes := ns; ve_delta := ve_delta g; ve_edges := ve_edges g; ve_queue := pq_push P (ve_queue g) d a |}.
(* :77-118 *)
Definition ve_shortcut (a : nat) (g : vegraph) (pq : nat * nat) : outcome vegraph :=
  let* g := add_edge g (fst pq) (snd pq) in
  let d := (fst pq, a, snd pq) in
  Ok {| ve_nodes := ve_nodes g; ve_delta := if existsb (triple_eqb d) (ve_delta g) then ve_delta g else ve_delta g ++ [d];
        ve_edges := ve_edges g; ve_queue := ve_queue g |}.
Definition eliminate (g : vegraph) (a : nat) : outcome vegraph :=
  let* n := vget (ve_nodes g) a in
  let* ps := alive_of g (nd_pred n) in
  let* ss := alive_of g (nd_succ n) in
  let shortcuts := filter (fun pq => negb (fst pq =? snd pq)) (list_prod ps ss) in
  let* ns := vset (ve_nodes g) a {| nd_pred := nd_pred n; nd_succ := nd_succ n; nd_elim := true; nd_in := nd_in n |} in
  let* g := fold_outcome (ve_shortcut a) shortcuts {| ve_nodes := ns; ve_delta := ve_delta g; ve_edges := ve_edges g; ve_queue := ve_queue g |} in
  let* n := vget (ve_nodes g) a in
  fold_outcome (fun g b => let* l := alive g b in if l then push_fact g b else Ok g) (nd_succ n) g.
(* :66-75, 151-153 *)
Fixpoint ve_loop (fuel : nat) (g : vegraph) : outcome vegraph :=
  match fuel with
  | 0 => NoFuel
  | S fuel =>
      match pq_pop P (ve_queue g) with
      | None => Ok g
      | Some ((k, a), q) =>
          let g := {| ve_nodes := ve_nodes g; ve_delta := ve_delta g; ve_edges := ve_edges g; ve_queue := q |} in
          let* n := vget (ve_nodes g) a in
          if (nd_in n =? k) && negb (nd_elim n) then let* g := eliminate g a in ve_loop fuel g
          else ve_loop fuel g
      end
  end.
(* The precondition/effect pairs of the operators in the order of the loops *)
Definition op_pre_eff (t : task) : list (nat * fact * fact) :=
  concat (map (fun io => concat (map (fun f => map (fun e => (fst io, f, eff_fact e)) (op_effs (snd io))) (op_pre (snd io)))) (numbered (t_ops t))).
Definition op_eff_pre (t : task) : list (nat * fact * fact) :=
  concat (map (fun io => concat (map (fun e => map (fun f => (fst io, eff_fact e, f)) (op_pre (snd io))) (op_effs (snd io)))) (numbered (t_ops t))).
(* :120-136, 138-145, 148-154 *)
Definition ve_graph (t : task) : outcome vegraph :=
  let n := length (all_facts t) in
  let g := {| ve_nodes := repeat {| nd_pred := []; nd_succ := []; nd_elim := false; nd_in := 0 |} n; ve_delta := []; ve_edges := []; ve_queue := qe |} in
  let* g := fold_outcome (fun g x => let '(_, f, e) := x in if feqb f e then Ok g else
                                     let* a := fact_pos t f in let* b := fact_pos t e in add_edge g a b) (op_pre_eff t) g in
  let* g := fold_outcome push_fact (seq 0 n) g in
  ve_loop (S (n + n * n)) g.

(* :201-283 *)
Definition rr_keys (t : task) : list key :=
  map KReached (all_facts t) ++ map (fun of => KFirst (fst of) (snd of)) (op_effects t).
Definition rr_var (t : task) (int : bool) (k : key) : lpvar :=
  match k with
  | KFactTime _ => aux_var int 1 (qn (length (all_facts t)))
  | _ => aux_var int 0 1
  end.
(* :341-362; constraint3_ids is an association list *)
Definition pair_eqb (a b : fact * fact) : bool := feqb (fst a) (fst b) && feqb (snd a) (snd b).
Fixpoint assoc {B} (k : fact * fact) (l : list ((fact * fact) * B)) : option B :=
  match l with [] => None | (k', b) :: r => if pair_eqb k k' then Some b else assoc k r end.
Definition rr_step3 (tb : table) (x : list lpcon * list ((fact * fact) * nat)) (y : nat * fact * fact)
  : outcome (list lpcon * list ((fact * fact) * nat)) :=
  let '(o, eff, pre) := y in
  if feqb pre eff then Ok x else
  let* x := match assoc (pre, eff) (snd x) with
            | Some _ => Ok x
            | None => let* r := id_of tb (KReached pre) in
                      Ok (fst x ++ [con (Some 0%Q) (Some 1%Q) [(r, 1%Q)]], ((pre, eff), length (fst x)) :: snd x)
            end in
  match assoc (pre, eff) (snd x) with
  | None => UB
  | Some i => let* f := id_of tb (KFirst o eff) in
              let* c := vget (fst x) i in
              let* rows := vset (fst x) i (insert c f (-1)%Q) in
              Ok (rows, snd x)
  end.
(* :285-399 *)
Definition rr_constraints (t : task) (tb : table) (rows : list lpcon) : outcome (list lpcon) :=
  let id := id_of tb in
  let* c2 := omap (fun f => let* r := id (KReached f) in Ok (con (Some 0%Q) (Some 0%Q) [(r, 1%Q)])) (all_facts t) in
  let* rows := fold_outcome (insert_at (length rows) t tb (-1)%Q) (op_effects t) (rows ++ c2) in
  let* x := fold_outcome (rr_step3 tb) (op_eff_pre t) (rows, []) in
  let* c5 := omap (fun of => let* f := id (KFirst (fst of) (snd of)) in
                             Ok (con (Some 0%Q) None [(f, (-1)%Q); (fst of, 1%Q)])) (op_effects t) in
  Ok (fst x ++ c5).
(* :401-468 *)
Definition ve_constraints (t : task) (tb : table) (edges : list (fact * fact)) (delta : list (fact * fact * fact)) : outcome (list lpcon) :=
  let id := id_of tb in
  let* c6 := omap (fun x : nat * fact * fact => let '(o, pre, eff) := x in
                   let* e := id (KEdge pre eff) in let* f := id (KFirst o eff) in
                   Ok (con (Some 0%Q) None [(e, 1%Q); (f, (-1)%Q)])) (op_pre_eff t) in
  let* c7 := omap (fun e : fact * fact => let* i := id (KEdge (fst e) (snd e)) in let* j := id (KEdge (snd e) (fst e)) in
                   Ok (con None (Some 1%Q) [(i, 1%Q); (j, 1%Q)]))
                  (filter (fun e : fact * fact => existsb (pair_eqb (snd e, fst e)) edges) edges) in
  let* c8 := omap (fun d : fact * fact * fact => let '(i, j, k) := d in
                   let* ij := id (KEdge i j) in let* jk := id (KEdge j k) in let* ik := id (KEdge i k) in
                   Ok (con None (Some 1%Q) [(ij, 1%Q); (jk, 1%Q); (ik, (-1)%Q)])) delta in
  Ok (c6 ++ c7 ++ c8).
(* :470-509 *)
Definition tl_constraints (t : task) (tb : table) : outcome (list lpcon) :=
  let id := id_of tb in
  let n := qn (length (all_facts t)) in
  omap (fun x : nat * fact * fact => let '(o, pre, eff) := x in
        let* a := id (KFactTime pre) in let* b := id (KFactTime eff) in let* f := id (KFirst o eff) in
        Ok (con None (Some (n - 1)%Q) [(a, 1%Q); (b, (-1)%Q); (f, n)]))
       (filter (fun x : nat * fact * fact => negb (feqb (snd (fst x)) (snd x))) (op_pre_eff t)).
Definition nth_fact (t : task) (i : nat) : outcome fact := vget (all_facts t) i.
(* :511-538 *)
Definition rr_init (t : task) (a : acyclicity) (int : bool) (lp : lprog) : outcome (table * nat * lprog) :=
  let tb := {| tb_base := length (lp_vars lp); tb_keys := rr_keys t |} in
  let* rows := rr_constraints t tb (lp_cons lp) in
  let* vs := fold_outcome (raise_lower tb) (t_goal t) (lp_vars lp ++ map (rr_var t int) (tb_keys tb)) in
  let extend ks := {| tb_base := tb_base tb; tb_keys := tb_keys tb ++ ks |} in
  match a with
  | NoAcyclicity => Ok (tb, length (lp_cons lp), {| lp_vars := vs; lp_cons := rows |})
  | TimeLabels =>
      let ks := map KFactTime (all_facts t) in
      let tb := extend ks in
      let* c9 := tl_constraints t tb in
      Ok (tb, length (lp_cons lp), {| lp_vars := vs ++ map (rr_var t int) ks; lp_cons := rows ++ c9 |})
  | VertexElimination =>
      let* g := ve_graph t in
      let* edges := omap (fun e => let* f := nth_fact t (fst e) in let* f' := nth_fact t (snd e) in Ok (f, f')) (ve_edges g) in
      let* delta := omap (fun d => let* f := nth_fact t (fst (fst d)) in let* f' := nth_fact t (snd (fst d)) in
                                   let* f'' := nth_fact t (snd d) in Ok (f, f', f'')) (ve_delta g) in
      let ks := map (fun e => KEdge (fst e) (snd e)) edges in
      let tb := extend ks in
      let* c678 := ve_constraints t tb edges delta in
      Ok (tb, length (lp_cons lp), {| lp_vars := vs ++ map (rr_var t int) ks; lp_cons := rows ++ c678 |})
  end.
(* :540-558 *)
Definition rr_update (t : task) (cbase : nat) (last : list fact) (s : state) (sv : solver) : outcome solver :=
  let set q sv f := let* p := fact_pos t f in
                    let* sv := set_constraint_lower_bound sv (cbase + p) q in
                    set_constraint_upper_bound sv (cbase + p) q in
  let* sv := fold_outcome (set 0%Q) last sv in
  fold_outcome (set 1%Q) (facts_of s) sv.

(** ** Constraint generators *)
(* pho_constraints takes the patterns that its pattern generator delivers *)
Inductive generator :=
| GStateEquation
| GLmCut
| GPosthoc (pats : list (list nat))
| GRelaxIF (time int : bool)
| GRelaxRR (a : acyclicity) (int : bool).
(* What a generator remembers after initialize_constraints *)
Inductive gstate :=
| SStateEquation (props : list (list proposition)) (goal : list (option nat))
| SLmCut
| SPosthoc (dbs : list pdb) (offset : nat)
| SRelaxIF (cbase : nat) (last : list fact)
| SRelaxRR (cbase : nat) (last : list fact).

(* pho_constraints.cc:24-50 *)
Definition pho_constraint (t : task) (pat : list nat) : lpcon :=
  con (Some 0%Q) None (map (fun io => (fst io, qn (op_cost (snd io)))) (filter (fun io => is_operator_relevant pat (snd io)) (numbered (t_ops t)))).
(* constraint_generator.h:42-43 (initialize_constraints) of the five generators *)
Definition initialize_constraints (fuel : nat) (t : task) (g : generator) (lp : lprog) : outcome (gstate * lprog) :=
  match g with
  | GStateEquation =>                                    (* state_equation_constraints.cc:76-93 *)
      if supported_task t then
        let* props := build_propositions t in
        let x := se_add_constraints props (lp_cons lp) in
        let* goal := fact_vector (length (t_vars t)) (t_goal t) in
        Ok (SStateEquation (snd x) goal, {| lp_vars := lp_vars lp; lp_cons := fst x |})
      else Exit 34
  | GLmCut => if supported_task t then Ok (SLmCut, lp) else Exit 34       (* lm_cut_constraints.cc:18-23 *)
  | GPosthoc pats =>
      let* dbs := compute_pdbs P qe fuel t pats in
      Ok (SPosthoc dbs (length (lp_cons lp)), {| lp_vars := lp_vars lp; lp_cons := lp_cons lp ++ map (pho_constraint t) pats |})
  | GRelaxIF time int => let* x := if_init t time int lp in Ok (SRelaxIF (snd (fst x)) [], snd x)
  | GRelaxRR a int => let* x := rr_init t a int lp in Ok (SRelaxRR (snd (fst x)) [], snd x)
  end.

(* lm_cut_constraints.cc:31-38; the artificial operators have number -1, which is no LP variable *)
Definition lm_constraint (ids : list (option nat)) : outcome lpcon :=
  let* is := omap (fun i => match i with Some o => Ok o | None => UB end) ids in
  Ok (con (Some 1%Q) None (map (fun i => (i, 1%Q)) is)).
(* pho_constraints.cc:52-65 *)
Fixpoint pho_update (dbs : list pdb) (i : nat) (s : state) (sv : solver) : outcome (bool * solver) :=
  match dbs with
  | [] => Ok (false, sv)
  | db :: r => let* h := pdb_value db s in
               match h with
               | None => Ok (true, sv)
               | Some h => let* sv := set_constraint_lower_bound sv i (qn h) in pho_update r (S i) s sv
               end
  end.
(* constraint_generator.h:52-53 (update_constraints); [lft] is what the landmark generator's queue and
   cost array hold from earlier evaluations *)
Definition update_constraints (t : task) (lft : PQ P * list nat) (s : state) (g : gstate) (sv : solver) : outcome (bool * gstate * solver) :=
  match g with
  | SStateEquation props goal => let* sv := se_update props goal s sv in Ok (false, g, sv)
  | SLmCut =>                                            (* lm_cut_constraints.cc:25-46 *)
      let* r := lmcut_landmarks P t (fst lft) (snd lft) s in
      match r with
      | None => Ok (true, g, sv)
      | Some lms => let* cs := omap (fun lm => lm_constraint (fst lm)) lms in
                    Ok (false, g, add_temporary_constraints sv cs)
      end
  | SPosthoc dbs offset => let* x := pho_update dbs offset s sv in Ok (fst x, g, snd x)
  | SRelaxIF cbase last => let* sv := if_update t cbase last s sv in Ok (false, SRelaxIF cbase (facts_of s), sv)
  | SRelaxRR cbase last => let* sv := rr_update t cbase last s sv in Ok (false, SRelaxRR cbase (facts_of s), sv)
  end.

(** ** The heuristic *)
Record oc := { oc_gens : list gstate; oc_sv : solver }.
(* operator_counting_heuristic.cc:15-42; an empty list of generators is rejected (utils/component_errors.h:19-25) *)
Fixpoint initialize_all (fuel : nat) (t : task) (gs : list generator) (lp : lprog) : outcome (list gstate * lprog) :=
  match gs with
  | [] => Ok ([], lp)
  | g :: r => let* x := initialize_constraints fuel t g lp in
              let* y := initialize_all fuel t r (snd x) in
              Ok (fst x :: fst y, snd y)
  end.
Definition oc_variables (t : task) (int : bool) : list lpvar :=
  map (fun op => {| v_lo := Some 0%Q; v_up := None; v_obj := qn (op_cost op); v_int := int |}) (t_ops t).
Definition oc_init (k : solver_kind) (fuel : nat) (t : task) (gs : list generator) (int : bool) : outcome oc :=
  match gs with
  | [] => Exit 33
  | _ => let* x := initialize_all fuel t gs {| lp_vars := oc_variables t int; lp_cons := [] |} in
         let* sv := load_problem k (snd x) in
         Ok {| oc_gens := fst x; oc_sv := sv |}
  end.
(* operator_counting_heuristic.cc:47-53, without the return *)
Fixpoint update_all (t : task) (lft : nat -> PQ P * list nat) (s : state) (i : nat) (gs : list gstate) (sv : solver) : outcome (bool * list gstate * solver) :=
  match gs with
  | [] => Ok (false, [], sv)
  | g :: r => let* x := update_constraints t (lft i) s g sv in
              if fst (fst x) then Ok (true, snd (fst x) :: r, snd x) else
              let* y := update_all t lft s (S i) r (snd x) in
              Ok (fst (fst y), snd (fst x) :: snd (fst y), snd y)
  end.
Definition DEAD_END : Z := (-1)%Z.            (* heuristic.h:53 *)
Definition epsilon : Q := Model_Landmarks.epsilon.     (* 0.01 as a double *)
(* static_cast<int>(ceil(...)): undefined outside the range of int *)
Definition to_int (z : Z) : outcome Z := if ((-2147483648 <=? z) && (z <=? 2147483647))%Z then Ok z else UB.
(* operator_counting_heuristic.cc:44-65; [rnd] rounds the result of the subtraction, [ans] is what the
   solver says about the program it holds: the objective value if there is an optimal solution *)
Definition oc_compute (rnd : Q -> Q) (t : task) (lft : nat -> PQ P * list nat) (ans : option Q) (h : oc) (s : state) : outcome (Z * oc) :=
  let* _ := guard (negb (has_temporary_constraints (oc_sv h))) in
  let* x := update_all t lft s 0 (oc_gens h) (oc_sv h) in
  let h' := {| oc_gens := snd (fst x); oc_sv := clear_temporary_constraints (snd x) |} in
  if fst (fst x) then Ok (DEAD_END, h') else
  match ans with
  | Some obj => let* r := to_int (Qceiling (rnd (obj - epsilon)%Q)) in Ok (r, h')
  | None => Ok (DEAD_END, h')
  end.
(* The program that is solved in this evaluation, if any. *)
Definition oc_program (t : task) (lft : nat -> PQ P * list nat) (h : oc) (s : state) : option (list lpvar * list lpcon) :=
  match update_all t lft s 0 (oc_gens h) (oc_sv h) with
  | Ok (false, _, sv) => Some (sv_vars sv, sv_rows sv)
  | _ => None
  end.
End OC.

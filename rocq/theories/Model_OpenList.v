(** Model of open_list.h and of the best-first, tie-breaking and alternation open lists.

    Evaluator values are [option nat]; [None] is EvaluationResult::INFTY.  That finite
    evaluator values stay below INFTY (INT_MAX) is assumed. *)
From Verif Require Import Outcome Spec_OpenList.

(** evaluation_context.cc:45-87: within one context every evaluator has one value
    ([x_val], indexed by evaluator), and a preferred flag. *)
Record ectx := { x_val : nat -> option nat; x_pref : bool }.

(* evaluation_context.cc:75-77 *)
Definition is_infinite (x : ectx) (ev : nat) : bool :=
  match x_val x ev with None => true | Some _ => false end.

(** open_list.h:13-125: the interface. *)
Record open_list (E : Type) := {
  OL : Type;
  ol_init : OL;
  ol_do_insertion : OL -> ectx -> E -> outcome OL;
  ol_remove_min : OL -> outcome (E * OL);
  ol_empty : OL -> bool;
  ol_clear : OL -> OL;
  ol_boost : OL -> OL;
  ol_dead : ectx -> bool;
  ol_rel_dead : ectx -> bool;
  ol_only_pref : bool
}.
Arguments OL {E}.
Arguments ol_init {E}.
Arguments ol_do_insertion {E}.
Arguments ol_remove_min {E}.
Arguments ol_empty {E}.
Arguments ol_clear {E}.
Arguments ol_boost {E}.
Arguments ol_dead {E}.
Arguments ol_rel_dead {E}.
Arguments ol_only_pref {E}.

(* open_list.h:142-149 *)
Definition ol_insert {E} (L : open_list E) (q : OL L) (x : ectx) (e : E) : outcome (OL L) :=
  if ol_only_pref L && negb (x_pref x) then Ok q
  else if ol_dead L x then Ok q
  else ol_do_insertion L q x e.

(* ---------- map<Key, deque<Entry>> ---------- *)
Section Buckets.
Context {K E : Type}.
Variable cmp : K -> K -> comparison.

(** buckets[key].push_back(entry): the map is kept sorted by key. *)
Fixpoint bm_push (m : list (K * list E)) (k : K) (e : E) : list (K * list E) :=
  match m with
  | [] => [(k, [e])]
  | (k', b) :: rest =>
      match cmp k k' with
      | Lt => (k, [e]) :: m
      | Eq => (k', b ++ [e]) :: rest
      | Gt => (k', b) :: bm_push rest k e
      end
  end.

(** front of the first bucket; the bucket is erased when it becomes empty. *)
Definition bm_pop (m : list (K * list E)) : outcome (E * list (K * list E)) :=
  match m with
  | (k, e :: []) :: rest => Ok (e, rest)
  | (k, e :: b) :: rest => Ok (e, (k, b) :: rest)
  | _ => UB
  end.

Record bucket_queue := { bq_map : list (K * list E); bq_size : nat }.

Definition bq_insert (q : bucket_queue) (k : K) (e : E) : bucket_queue :=
  {| bq_map := bm_push (bq_map q) k e; bq_size := S (bq_size q) |}.

Definition bq_remove (q : bucket_queue) : outcome (E * bucket_queue) :=
  match bq_size q with
  | O => UB
  | S n => let* (e, m) := bm_pop (bq_map q) in Ok (e, {| bq_map := m; bq_size := n |})
  end.
End Buckets.
Arguments bucket_queue : clear implicits.

(* ---------- best-first: open_lists/best_first_open_list.cc:41-97 ---------- *)
Definition best_first (E : Type) (reliable : nat -> bool) (ev : nat) (pref_only : bool) : open_list E :=
  {| OL := bucket_queue nat E;
     ol_init := {| bq_map := []; bq_size := 0 |};                      (* 41-45 *)
     ol_do_insertion := fun q x e =>                                   (* 47-53 *)
       match x_val x ev with
       | None => UB                                                    (* evaluation_context.cc:81 *)
       | Some key => Ok (bq_insert Nat.compare q key e)
       end;
     ol_remove_min := fun q => bq_remove q;                            (* 55-68 *)
     ol_empty := fun q => bq_size q =? 0;                              (* 70-73 *)
     ol_clear := fun _ => {| bq_map := []; bq_size := 0 |};            (* 75-79 *)
     ol_boost := fun q => q;                                           (* open_list.h:138-140 *)
     ol_dead := fun x => is_infinite x ev;                             (* 87-91 *)
     ol_rel_dead := fun x => is_infinite x ev && reliable ev;          (* 93-97 *)
     ol_only_pref := pref_only |}.

(* ---------- tie-breaking: open_lists/tiebreaking_open_list.cc:53-141 ---------- *)

(** operator< on int with INFTY on top *)
Definition val_cmp (a b : option nat) : comparison :=
  match a, b with
  | Some x, Some y => Nat.compare x y
  | Some _, None => Lt
  | None, Some _ => Gt
  | None, None => Eq
  end.

(** operator< on vector<int> *)
Fixpoint lex_cmp (a b : list (option nat)) : comparison :=
  match a, b with
  | [], [] => Eq
  | [], _ :: _ => Lt
  | _ :: _, [] => Gt
  | x :: xs, y :: ys => match val_cmp x y with Eq => lex_cmp xs ys | c => c end
  end.

(* tiebreaking_open_list.cc:133-141, also pareto 213-221 and type_based 118-127 *)
Definition any_reliable_infinite (reliable : nat -> bool) (evs : list nat) (x : ectx) : bool :=
  existsb (fun ev => is_infinite x ev && reliable ev) evs.
(* tiebreaking_open_list.cc:127-130 *)
Definition all_infinite (evs : list nat) (x : ectx) : bool := forallb (is_infinite x) evs.

Definition tie_breaking (E : Type) (reliable : nat -> bool) (evs : list nat)
  (unsafe_pruning pref_only : bool) : open_list E :=
  {| OL := bucket_queue (list (option nat)) E;
     ol_init := {| bq_map := []; bq_size := 0 |};
     ol_do_insertion := fun q x e => Ok (bq_insert lex_cmp q (map (x_val x) evs) e);  (* 63-74 *)
     ol_remove_min := fun q => bq_remove q;                                     (* 76-89 *)
     ol_empty := fun q => bq_size q =? 0;
     ol_clear := fun _ => {| bq_map := []; bq_size := 0 |};
     ol_boost := fun q => q;
     ol_dead := fun x =>                                                        (* 114-131 *)
       if any_reliable_infinite reliable evs x then true
       else if unsafe_pruning && match evs with ev :: _ => is_infinite x ev | [] => false end then true
       else all_infinite evs x;
     ol_rel_dead := any_reliable_infinite reliable evs;
     ol_only_pref := pref_only |}.

(* ---------- alternation: open_lists/alternation_open_list.cc:42-125 ---------- *)

(** The state of the vector of sublists (which may be of different classes). *)
Fixpoint sub_states {E} (Ls : list (open_list E)) : Type :=
  match Ls with
  | [] => unit
  | L :: rest => (OL L * sub_states rest)%type
  end.

Fixpoint subs_init {E} (Ls : list (open_list E)) : sub_states Ls :=
  match Ls with
  | [] => tt
  | L :: rest => (ol_init L, subs_init rest)
  end.

(* 57-58 *)
Fixpoint subs_insert {E} (Ls : list (open_list E)) : sub_states Ls -> ectx -> E -> outcome (sub_states Ls) :=
  match Ls with
  | [] => fun st _ _ => Ok st
  | L :: rest => fun st x e =>
      let* q := ol_insert L (fst st) x e in
      let* qs := subs_insert rest (snd st) x e in
      Ok (q, qs)
  end.

(* open_lists[i]->empty() for all i *)
Fixpoint subs_empty {E} (Ls : list (open_list E)) : sub_states Ls -> list bool :=
  match Ls with
  | [] => fun _ => []
  | L :: rest => fun st => ol_empty L (fst st) :: subs_empty rest (snd st)
  end.

(* open_lists[i]->remove_min() *)
Fixpoint subs_remove {E} (Ls : list (open_list E)) : sub_states Ls -> nat -> outcome (E * sub_states Ls) :=
  match Ls with
  | [] => fun _ _ => UB
  | L :: rest => fun st i =>
      match i with
      | O => let* (e, q) := ol_remove_min L (fst st) in Ok (e, (q, snd st))
      | S j => let* (e, qs) := subs_remove rest (snd st) j in Ok (e, (fst st, qs))
      end
  end.

(* 87-88 *)
Fixpoint subs_clear {E} (Ls : list (open_list E)) : sub_states Ls -> sub_states Ls :=
  match Ls with
  | [] => fun _ => tt
  | L :: rest => fun st => (ol_clear L (fst st), subs_clear rest (snd st))
  end.

(* 63-69; [i] is the index of the head of the two lists *)
Fixpoint alt_best (i : nat) (empties : list bool) (prios : list Z) (best : option (nat * Z))
  : option (nat * Z) :=
  match empties, prios with
  | e :: es, p :: ps =>
      let best' :=
        if negb e && match best with None => true | Some (_, bp) => (p <? bp)%Z end
        then Some (i, p) else best in
      alt_best (S i) es ps best'
  | _, _ => best
  end.

Record alt_state {E} (Ls : list (open_list E)) := { alt_subs : sub_states Ls; alt_prio : list Z }.
Arguments alt_subs {E Ls}.
Arguments alt_prio {E Ls}.

(* 91-96 *)
Fixpoint boost_prios {E} (Ls : list (open_list E)) (ps : list Z) (amount : Z) : list Z :=
  match Ls, ps with
  | L :: rest, p :: ps' =>
      (if ol_only_pref L then (p - amount)%Z else p) :: boost_prios rest ps' amount
  | _, _ => ps
  end.

Definition alternation (E : Type) (Ls : list (open_list E)) (boost : Z) : open_list E :=
  {| OL := alt_state Ls;
     ol_init := {| alt_subs := subs_init Ls; alt_prio := repeat 0%Z (length Ls) |};   (* 42-52 *)
     ol_do_insertion := fun q x e =>                                                (* 54-59 *)
       let* s := subs_insert Ls (alt_subs q) x e in
       Ok {| alt_subs := s; alt_prio := alt_prio q |};
     ol_remove_min := fun q =>                                                      (* 61-75 *)
       match alt_best 0 (subs_empty Ls (alt_subs q)) (alt_prio q) None with
       | None => UB
       | Some (best, p) =>
           let* (e, s) := subs_remove Ls (alt_subs q) best in
           Ok (e, {| alt_subs := s; alt_prio := upd (alt_prio q) best (p + 1)%Z |})
       end;
     ol_empty := fun q => forallb (fun b => b) (subs_empty Ls (alt_subs q));        (* 77-83 *)
     ol_clear := fun q =>                                                           (* 85-89: priorities kept *)
       {| alt_subs := subs_clear Ls (alt_subs q); alt_prio := alt_prio q |};
     ol_boost := fun q =>                                                           (* 91-96 *)
       {| alt_subs := alt_subs q; alt_prio := boost_prios Ls (alt_prio q) boost |};
     ol_dead := fun x =>                                                            (* 105-116 *)
       if existsb (fun L => ol_rel_dead L x) Ls then true
       else forallb (fun L => ol_dead L x) Ls;
     ol_rel_dead := fun x => existsb (fun L => ol_rel_dead L x) Ls;                 (* 118-125 *)
     ol_only_pref := false |}.

(** A sequence of calls of insert, remove_min and clear; the results of remove_min. *)
Fixpoint ol_run {E} (L : open_list E) (q : OL L) (ops : list (pq_op ectx E))
  : outcome (list E * OL L) :=
  match ops with
  | [] => Ok ([], q)
  | PInsert x e :: rest => let* q' := ol_insert L q x e in ol_run L q' rest
  | PRemove :: rest =>
      let* (e, q') := ol_remove_min L q in
      let* (outs, q'') := ol_run L q' rest in
      Ok (e :: outs, q'')
  | PClear :: rest => ol_run L (ol_clear L q) rest
  end.

(** The index of the sublist from which the next remove_min of an alternation list takes. *)
Definition alt_served {E} {Ls : list (open_list E)} (q : alt_state Ls) : option nat :=
  option_map fst (alt_best 0 (subs_empty Ls (alt_subs q)) (alt_prio q) None).

(** Calls on an open list, including boost_preferred. *)
Inductive ol_call (E : Type) := CInsert (x : ectx) (e : E) | CRemove | CBoost | CClear.
Arguments CInsert {E}.
Arguments CRemove {E}.
Arguments CBoost {E}.
Arguments CClear {E}.

Definition ol_step {E} (L : open_list E) (q : OL L) (c : ol_call E) : outcome (OL L) :=
  match c with
  | CInsert x e => ol_insert L q x e
  | CRemove => let* (_, q') := ol_remove_min L q in Ok q'
  | CBoost => Ok (ol_boost L q)
  | CClear => Ok (ol_clear L q)
  end.

(** The states in which the removals of a run start. *)
Fixpoint removals {E} (L : open_list E) (q : OL L) (cs : list (ol_call E)) : list (OL L) :=
  match cs with
  | [] => []
  | c :: rest =>
      let tail := match ol_step L q c with Ok q' => removals L q' rest | _ => [] end in
      match c with CRemove => q :: tail | _ => tail end
  end.

Definition num_boosts {E} (cs : list (ol_call E)) : nat :=
  length (filter (fun c => match c with CBoost => true | _ => false end) cs).

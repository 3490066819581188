(** Model of the Pareto, type-based and epsilon-greedy open lists.

    Random integers come from an arbitrary stream [r], real numbers compared with epsilon from an
    arbitrary stream [coin] of outcomes of the comparison; the state holds the position in the
    stream.  Hash maps are association lists (their iteration order has no effect). *)
From Verif Require Import Outcome Spec_OpenList Model_OpenList Model_Rng Model_OrderedSet Model_Heap.

Notation okey := (list (option nat)).
Definition okey_eqb (a b : okey) : bool := match lex_cmp a b with Eq => true | _ => false end.

(* unordered_map *)
Section HashMap.
Context {V : Type}.
Fixpoint hm_find (m : list (okey * V)) (k : okey) : option V :=
  match m with [] => None | (k', v) :: r => if okey_eqb k k' then Some v else hm_find r k end.
Fixpoint hm_set (m : list (okey * V)) (k : okey) (v : V) : list (okey * V) :=
  match m with
  | [] => [(k, v)]
  | (k', v') :: r => if okey_eqb k k' then (k', v) :: r else (k', v') :: hm_set r k v
  end.
Definition hm_erase (m : list (okey * V)) (k : okey) : list (okey * V) :=
  filter (fun kv => negb (okey_eqb k (fst kv))) m.
End HashMap.

(* utils/collections.h:50-57 swap_and_pop_from_vector *)
Definition swap_and_pop {T} (v : list T) (pos : nat) : outcome (T * list T) :=
  let* x := vget v pos in Ok (x, removelast (swap v pos (length v - 1))).

(* ---------- type-based: open_lists/type_based_open_list.cc ---------- *)
Section TB.
Variable E : Type.
Variable r : nat -> nat.
Variable reliable : nat -> bool.
Variable evs : list nat.

Record tb_state := { tb_kb : list (okey * list E); tb_idx : list (okey * nat); tb_rng : nat }.  (* 22-28 *)

(* 48-67 *)
Definition tb_insert (q : tb_state) (x : ectx) (e : E) : outcome tb_state :=
  let key := map (x_val x) evs in
  match hm_find (tb_idx q) key with
  | None => Ok {| tb_kb := tb_kb q ++ [(key, [e])]; tb_idx := hm_set (tb_idx q) key (length (tb_kb q)); tb_rng := tb_rng q |}
  | Some i =>
      let* kb := vget (tb_kb q) i in
      let* kbs := vset (tb_kb q) i (fst kb, snd kb ++ [e]) in
      Ok {| tb_kb := kbs; tb_idx := tb_idx q; tb_rng := tb_rng q |}
  end.
(* 75-91 *)
Definition tb_remove (q : tb_state) : outcome (E * tb_state) :=
  let* (bucket_id, k1) := random_int r (tb_rng q) (length (tb_kb q)) in
  let* kb := vget (tb_kb q) bucket_id in
  let* (pos, k2) := random_int r k1 (length (snd kb)) in
  let* (result, bucket) := swap_and_pop (snd kb) pos in
  let* kbs := vset (tb_kb q) bucket_id (fst kb, bucket) in
  match bucket with
  | [] =>
      let* back := vget kbs (length kbs - 1) in
      let idx := hm_set (tb_idx q) (fst back) bucket_id in
      let idx := hm_erase idx (fst kb) in
      let* (_, kbs) := swap_and_pop kbs bucket_id in
      Ok (result, {| tb_kb := kbs; tb_idx := idx; tb_rng := k2 |})
  | _ => Ok (result, {| tb_kb := kbs; tb_idx := tb_idx q; tb_rng := k2 |})
  end.

Definition type_based : open_list E :=
  {| OL := tb_state;
     ol_init := {| tb_kb := []; tb_idx := []; tb_rng := 0 |};                       (* 69-73 *)
     ol_do_insertion := tb_insert;
     ol_remove_min := tb_remove;
     ol_empty := fun q => match tb_kb q with [] => true | _ => false end;           (* 93-96 *)
     ol_clear := fun q => {| tb_kb := []; tb_idx := []; tb_rng := tb_rng q |};      (* 98-102 *)
     ol_boost := fun q => q;
     ol_dead := fun x => if any_reliable_infinite reliable evs x then true else all_infinite evs x;  (* 104-116 *)
     ol_rel_dead := any_reliable_infinite reliable evs;                             (* 118-127 *)
     ol_only_pref := false |}.
End TB.

(* ---------- Pareto: open_lists/pareto_open_list.cc ---------- *)
Section Pareto.
Variable E : Type.
Variable r : nat -> nat.
Variable reliable : nat -> bool.
Variable evs : list nat.
Variable state_uniform : bool.
Variable pref_only : bool.

Record pa_state := { pa_buckets : list (okey * list E); pa_nd : list okey; pa_rng : nat }.   (* 25-33 *)

(* 69-81; both keys have evaluators.size() entries (asserted) *)
Fixpoint dominates_from (are_different : bool) (v1 v2 : okey) : bool :=
  match v1, v2 with
  | a :: v1, b :: v2 =>
      match val_cmp a b with
      | Gt => false
      | Lt => dominates_from true v1 v2
      | Eq => dominates_from are_different v1 v2
      end
  | _, _ => are_different
  end.
Definition dominates (v1 v2 : okey) : bool := dominates_from false v1 v2.
(* 83-90 *)
Definition is_nondominated (vec : okey) (cands : list okey) : bool :=
  negb (existsb (fun c => dominates c vec) cands).

(* std::set<KeyType>: sorted by operator< *)
Fixpoint set_insert (k : okey) (s : list okey) : list okey :=
  match s with
  | [] => [k]
  | x :: rest => match lex_cmp k x with Lt => k :: s | Eq => s | Gt => x :: set_insert k rest end
  end.
Definition set_erase (k : okey) (s : list okey) : list okey := filter (fun x => negb (okey_eqb k x)) s.
Definition set_count (k : okey) (s : list okey) : bool := existsb (okey_eqb k) s.

(* 92-120 *)
Definition remove_key (buckets : list (okey * list E)) (nd : list okey) (key : okey)
  : list (okey * list E) * list okey :=
  let nd := set_erase key nd in
  let buckets := hm_erase buckets key in
  let cands := fold_left (fun cs kb =>
    if negb (set_count (fst kb) nd) && dominates key (fst kb) && is_nondominated (fst kb) nd
    then set_insert (fst kb) cs else cs) buckets [] in
  (buckets, fold_left (fun nd c => if is_nondominated c cands then set_insert c nd else nd) cands nd).

(* 122-157 *)
Definition pa_insert (q : pa_state) (x : ectx) (e : E) : outcome pa_state :=
  let key := map (x_val x) evs in
  let bucket := match hm_find (pa_buckets q) key with Some b => b | None => [] end in
  let newkey := match bucket with [] => true | _ => false end in
  let buckets := hm_set (pa_buckets q) key (bucket ++ [e]) in
  let nd :=
    if newkey && is_nondominated key (pa_nd q)
    then set_insert key (filter (fun k => negb (dominates key k)) (pa_nd q))
    else pa_nd q in
  Ok {| pa_buckets := buckets; pa_nd := nd; pa_rng := pa_rng q |}.

(* 161-173; [it->size()] is the length of the key *)
Fixpoint pa_select (keys : list okey) (selected : okey) (seen k : nat) : outcome (okey * nat) :=
  match keys with
  | [] => Ok (selected, k)
  | it :: rest =>
      let numerator := if state_uniform then length it else 1 in
      let seen := seen + numerator in
      let* (x, k) := random_int r k seen in
      pa_select rest (if x <? numerator then it else selected) seen k
  end.
(* 159-180; dereferencing begin() of an empty set is undefined *)
Definition pa_remove (q : pa_state) : outcome (E * pa_state) :=
  match pa_nd q with
  | [] => UB
  | first :: _ =>
      let* (selected, k) := pa_select (pa_nd q) first 0 (pa_rng q) in
      match hm_find (pa_buckets q) selected with
      | Some (result :: bucket) =>
          match bucket with
          | [] => let '(buckets, nd) := remove_key (hm_set (pa_buckets q) selected []) (pa_nd q) selected in
                  Ok (result, {| pa_buckets := buckets; pa_nd := nd; pa_rng := k |})
          | _ => Ok (result, {| pa_buckets := hm_set (pa_buckets q) selected bucket; pa_nd := pa_nd q; pa_rng := k |})
          end
      | _ => UB
      end
  end.

Definition pareto : open_list E :=
  {| OL := pa_state;
     ol_init := {| pa_buckets := []; pa_nd := []; pa_rng := 0 |};                     (* 59-67 *)
     ol_do_insertion := pa_insert;
     ol_remove_min := pa_remove;
     ol_empty := fun q => match pa_nd q with [] => true | _ => false end;             (* 182-185 *)
     ol_clear := fun q => {| pa_buckets := []; pa_nd := []; pa_rng := pa_rng q |};    (* 187-191 *)
     ol_boost := fun q => q;
     ol_dead := fun x => if any_reliable_infinite reliable evs x then true else all_infinite evs x;  (* 200-211 *)
     ol_rel_dead := any_reliable_infinite reliable evs;                               (* 213-221 *)
     ol_only_pref := pref_only |}.
End Pareto.

(* ---------- epsilon-greedy: open_lists/epsilon_greedy_open_list.cc ---------- *)
Section EG.
Variable E : Type.
Variable r : nat -> nat.
Variable coin : nat -> bool.
Variable reliable : nat -> bool.
Variable ev : nat.
Variable pref_only : bool.

(* 22-33; the identifiers are unbounded here (the code uses int) *)
Record hnode := { hn_id : nat; hn_h : Z; hn_entry : E }.
Definition hn_gt (a b : hnode) : bool :=
  (hn_h b <? hn_h a)%Z || ((hn_h a =? hn_h b)%Z && (hn_id b <? hn_id a)).
Definition hn_le (a b : hnode) : bool := negb (hn_gt a b).
Definition INT_MIN : Z := (-2147483648)%Z.

Record eg_state := { eg_heap : list hnode; eg_size : nat; eg_next : nat; eg_rng : nat }.   (* 35-40 *)

(* 61-72 *)
Fixpoint adjust_heap_up (fuel : nat) (heap : list hnode) (pos : nat) : outcome (list hnode) :=
  match fuel with
  | O => NoFuel
  | S f =>
      if pos =? 0 then Ok heap
      else
        let parent_pos := (pos - 1) / 2 in
        let* x := vget heap pos in
        let* p := vget heap parent_pos in
        if hn_gt x p then Ok heap else adjust_heap_up f (swap heap pos parent_pos) parent_pos
  end.
(* 74-81; the value of an infinite estimate must not be asked for (evaluation_context.cc:81) *)
Definition eg_insert (q : eg_state) (x : ectx) (e : E) : outcome eg_state :=
  match x_val x ev with
  | None => UB
  | Some h =>
      let* heap := heap_push hn_le (eg_heap q) {| hn_id := eg_next q; hn_h := Z.of_nat h; hn_entry := e |} in
      Ok {| eg_heap := heap; eg_size := S (eg_size q); eg_next := S (eg_next q); eg_rng := eg_rng q |}
  end.
(* 95-108 *)
Definition eg_remove (q : eg_state) : outcome (E * eg_state) :=
  match eg_size q with
  | O => UB
  | S size' =>
      let k := S (eg_rng q) in
      let* (heap, k) :=
        if coin (eg_rng q) then
          let* (pos, k) := random_int r k (eg_size q) in
          let* n := vget (eg_heap q) pos in
          let* heap := vset (eg_heap q) pos {| hn_id := hn_id n; hn_h := INT_MIN; hn_entry := hn_entry n |} in
          let* heap := adjust_heap_up (S pos) heap pos in
          Ok (heap, k)
        else Ok (eg_heap q, k) in
      let* (node, heap) := heap_pop hn_le heap in
      Ok (hn_entry node, {| eg_heap := heap; eg_size := size'; eg_next := eg_next q; eg_rng := k |})
  end.

Definition epsilon_greedy : open_list E :=
  {| OL := eg_state;
     ol_init := {| eg_heap := []; eg_size := 0; eg_next := 0; eg_rng := 0 |};          (* 83-93 *)
     ol_do_insertion := eg_insert;
     ol_remove_min := eg_remove;
     ol_empty := fun q => eg_size q =? 0;                                              (* 128-131 *)
     ol_clear := fun q => {| eg_heap := []; eg_size := 0; eg_next := 0; eg_rng := eg_rng q |};   (* 133-138 *)
     ol_boost := fun q => q;
     ol_dead := fun x => is_infinite x ev;                                             (* 110-114 *)
     ol_rel_dead := fun x => is_infinite x ev && reliable ev;                          (* 116-120 *)
     ol_only_pref := pref_only |}.
End EG.

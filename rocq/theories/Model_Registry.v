(** Model of state_registry.{h,cc} on top of the packed pool (segmented_vector.h), the hash
    set of IDs (int_hash_set.h), the packer (int_packer.cc) and the derived-variable
    evaluator (axioms.cc).

    Simplifications: the hash of a packed state (utils/hash.h) is an arbitrary function
    [hash] of its words; a [State] object (task_proxy.h:594-641) is its ID with its values,
    where values that the code unpacks on demand are unpacked at once; writing one variable
    into a buffer of the pool stores back all words of that buffer. *)
From Verif Require Import Outcome Spec_Task Model_Task Model_Axioms Model_IntPacker Model_SegmentedVector Model_IntHashSet.

(* task_properties.cc:169-178 *)
Definition state_packer (t : task) : outcome IntPacker :=
  make_packer (map (fun x => N.of_nat (vdom x)) (t_vars t)).

Definition word_bytes : nat := 4.    (* sizeof(PackedStateBin) *)

(* task_proxy.h:594-641 *)
Record handle := { h_id : nat; h_values : state }.

(* state_registry.h:165-168 *)
Record registry := { reg_pool : sav N; reg_ids : hset; reg_init : option handle }.

Fixpoint words_eqb (a b : list N) : bool :=
  match a, b with
  | [], [] => true
  | x :: a', y :: b' => N.eqb x y && words_eqb a' b'
  | _, _ => false
  end.

Section Registry.
Variable hash : list N -> N.
Variable t : task.
Variable p : IntPacker.
Variable ax : axeval.

(* state_registry.cc:121-123 *)
Definition bins : nat := num_bins p.

(* the words [j, j+k) of the buffer with index [id] *)
Fixpoint read_words (pool : sav N) (id j k : nat) : outcome (list N) :=
  match k with
  | O => Ok []
  | S k' =>
      let* w := sav_get word_bytes bins pool id j in
      let* r := read_words pool id (S j) k' in
      Ok (w :: r)
  end.
Definition read_buffer (pool : sav N) (id : nat) : outcome (list N) := read_words pool id 0 bins.

Fixpoint write_words (pool : sav N) (id j : nat) (l : list N) : outcome (sav N) :=
  match l with
  | [] => Ok pool
  | w :: r => let* pool' := sav_set word_bytes bins pool id j w in write_words pool' id (S j) r
  end.
(* state_packer.set(buffer, var, value) on a buffer of the pool *)
Definition set_in_pool (pool : sav N) (id var value : nat) : outcome (sav N) :=
  let* buf := read_buffer pool id in
  let* buf' := packer_set p buf var (N.of_nat value) in
  write_words pool id 0 buf'.

(* state_registry.h:125-132; IDs outside the pool are excluded in [insert_id_or_pop_state] *)
Definition id_hash (pool : sav N) (id : nat) : N :=
  match read_buffer pool id with Ok l => hash l | _ => 0%N end.
(* state_registry.h:146-150 *)
Definition id_equal (pool : sav N) (lhs rhs : nat) : bool :=
  match read_buffer pool lhs, read_buffer pool rhs with
  | Ok a, Ok b => words_eqb a b
  | Ok _, _ | _, Ok _ => false
  | _, _ => true
  end.

(* state_registry.cc:22-38.  The guard is the validity of the buffers that hashing and
   comparing read. *)
Definition insert_id_or_pop_state (r : registry) : outcome (registry * nat) :=
  match sav_size (reg_pool r) with
  | O => UB
  | S id =>
      let* _ := guard (forallb (fun b => match bkey b with Some k => k <? S id | None => true end) (buckets (reg_ids r))) in
      let* (ids, (res, is_new)) := hset_insert (id_hash (reg_pool r)) (id_equal (reg_pool r)) (reg_ids r) id in
      let* pool := if is_new then Ok (reg_pool r) else sav_pop_back word_bytes bins (reg_pool r) in
      let* _ := guard (num_entries ids =? sav_size pool) in
      Ok ({| reg_pool := pool; reg_ids := ids; reg_init := reg_init r |}, res)
  end.

(* task_proxy.h:782-805: all values of a packed state *)
Fixpoint unpack_from (buf : list N) (var k : nat) : outcome state :=
  match k with
  | O => Ok []
  | S k' =>
      let* x := packer_get p buf var in
      let* r := unpack_from buf (S var) k' in
      Ok (N.to_nat x :: r)
  end.
(* state_registry.cc:40-43 *)
Definition lookup_state (r : registry) (id : nat) : outcome handle :=
  let* buf := read_buffer (reg_pool r) id in
  let* values := unpack_from buf 0 (length (t_vars t)) in
  Ok {| h_id := id; h_values := values |}.
(* 45-49: the buffer must exist, the values are the given ones *)
Definition lookup_state_with (r : registry) (id : nat) (values : state) : outcome handle :=
  let* _ := read_buffer (reg_pool r) id in
  Ok {| h_id := id; h_values := values |}.

(* 59-61 *)
Fixpoint pack_values (buf : list N) (var : nat) (values : state) : outcome (list N) :=
  match values with
  | [] => Ok buf
  | x :: r => let* buf' := packer_set p buf var (N.of_nat x) in pack_values buf' (S var) r
  end.

(* 51-67 *)
Definition get_initial_state (r : registry) : outcome (registry * handle) :=
  match reg_init r with
  | Some h => Ok (r, h)
  | None =>
      let* buffer := pack_values (repeat 0%N bins) 0 (t_init t) in
      let* pool := sav_push_back word_bytes bins (reg_pool r) buffer in
      let* (r1, id) := insert_id_or_pop_state {| reg_pool := pool; reg_ids := reg_ids r; reg_init := reg_init r |} in
      let* h := lookup_state r1 id in
      Ok ({| reg_pool := reg_pool r1; reg_ids := reg_ids r1; reg_init := Some h |}, h)
  end.

(* 96-98 *)
Fixpoint set_values_in_pool (pool : sav N) (id var : nat) (values : state) : outcome (sav N) :=
  match values with
  | [] => Ok pool
  | x :: r => let* pool' := set_in_pool pool id var x in set_values_in_pool pool' id (S var) r
  end.

(* 106-111 *)
Fixpoint set_effects_in_pool (pool : sav N) (id : nat) (pred : state) (es : list effect) : outcome (sav N) :=
  match es with
  | [] => Ok pool
  | e :: r =>
      let* pool' := if all_holdb pred (eff_cond e) then set_in_pool pool id (fst (eff_fact e)) (snd (eff_fact e)) else Ok pool in
      set_effects_in_pool pool' id pred r
  end.

(* 73-119 *)
Definition get_successor_state (r : registry) (pred : handle) (o : nat) : outcome (registry * handle) :=
  let* op := vget (t_ops t) o in
  let* buf := read_buffer (reg_pool r) (h_id pred) in
  let* pool := sav_push_back word_bytes bins (reg_pool r) buf in
  let id := sav_size pool - 1 in
  if has_rules t then
    let new_values := apply_effects (h_values pred) (op_effs op) in
    let* new_values := evaluate ax new_values in
    let* pool := set_values_in_pool pool id 0 new_values in
    let* (r1, id) := insert_id_or_pop_state {| reg_pool := pool; reg_ids := reg_ids r; reg_init := reg_init r |} in
    let* h := lookup_state_with r1 id new_values in
    Ok (r1, h)
  else
    let* pool := set_effects_in_pool pool id (h_values pred) (op_effs op) in
    let* (r1, id) := insert_id_or_pop_state {| reg_pool := pool; reg_ids := reg_ids r; reg_init := reg_init r |} in
    let* h := lookup_state r1 id in
    Ok (r1, h).

(* state_registry.h:230-232 *)
Definition reg_size (r : registry) : nat := num_entries (reg_ids r).

(** Histories of calls.  The predecessor of a successor call is the state returned by an
    earlier call, named by its position. *)
Inductive call := CallInitial | CallSuccessor (result : nat) (op : nat).

Definition call_step (rh : registry * list handle) (c : call) : outcome (registry * list handle) :=
  match c with
  | CallInitial => let* (r, h) := get_initial_state (fst rh) in Ok (r, snd rh ++ [h])
  | CallSuccessor k o =>
      let* pred := vget (snd rh) k in
      let* (r, h) := get_successor_state (fst rh) pred o in
      Ok (r, snd rh ++ [h])
  end.
Definition run_calls (calls : list call) (rh : registry * list handle) : outcome (registry * list handle) :=
  fold_outcome call_step calls rh.

(* state_registry.cc:11-20 *)
Definition empty_registry : registry := {| reg_pool := sav_empty; reg_ids := hset_make; reg_init := None |}.
End Registry.

Definition with_registry {A} (t : task) (f : IntPacker -> axeval -> outcome A) : outcome A :=
  let* p := state_packer t in
  let* ax := make_axeval t in
  f p ax.

(** A fresh registry for [t] after the given calls, with the states the calls returned. *)
Definition registry_history (hash : list N -> N) (t : task) (calls : list call) : outcome (registry * list handle) :=
  with_registry t (fun p ax => run_calls hash t p ax calls (empty_registry, [])).

(* task_proxy.cc:46-66: successor without registration *)
Definition get_unregistered_successor (t : task) (values : state) (o : nat) : outcome state :=
  let* ax := make_axeval t in
  let* op := vget (t_ops t) o in
  let new_values := apply_effects values (op_effs op) in
  if has_rules t then evaluate ax new_values else Ok new_values.

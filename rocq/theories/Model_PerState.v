(** Model of per_state_information.h, per_state_array.h, per_state_bitset.{h,cc} and
    algorithms/subscriber.h for one PerStateInformation (PerStateArray, PerStateBitset) object
    and any number of registries.

    Pointers to registries and to vectors are numbers.  A registry is reduced to whether it is
    alive and to its size().  The heap contains the SegmentedVectors; deleted ones are [None] and
    any use of them is undefined.  Entry references are the pair of vector and index: segments
    never move, so the C++ reference stays at the same cell when the vector grows.  Not modelled:
    the order of iteration over the hash maps (only deletions depend on it). *)
From Coq Require Import List NArith.
From Verif Require Import Outcome Spec_PerState Model_SegmentedVector Model_DynamicBitset.
Import ListNotations.
Local Open Scope nat_scope.

Definition search_critical_error : Z := 32.      (* utils/system.h:48 *)
Definition abort_code : Z := (-6)%Z.

Section PerState.
Context {I A V : Type}.
Variable vmake : outcome V.                       (* new SegmentedVector / SegmentedArrayVector *)
Variable vsize : V -> nat.
Variable vresize : V -> nat -> outcome V.         (* with the default entry *)
Variable vget : V -> nat -> I -> outcome A.
Variable vput : V -> nat -> I -> A -> outcome V.
Variable missing : I -> outcome A.                (* const access to an entry that does not exist *)

Record world := {
  w_size : nat -> option nat;         (* registries: size() of the live ones *)
  w_services : list nat;              (* registries this object is subscribed to *)
  w_heap : list (option V);
  w_entries : list (nat * nat);       (* entries_by_registry: registry -> vector *)
  w_cached_registry : option nat;
  w_cached_entries : option nat;
  w_refs : list (nat * nat)           (* the references handed out, held by the caller *)
}.

(* per_state_information.h:98-106, per_state_array.h:121-125 *)
Definition w_init : world :=
  {| w_size := fun _ => None; w_services := []; w_heap := []; w_entries := []; w_cached_registry := None;
     w_cached_entries := None; w_refs := [] |}.

Definition find_entries (l : list (nat * nat)) (r : nat) : option nat :=
  match find (fun e => fst e =? r) l with Some e => Some (snd e) | None => None end.
Definition is_cached (w : world) (r : nat) : bool :=
  match w_cached_registry w with Some c => c =? r | None => false end.
Definition set_cache (w : world) (r a : nat) : world :=
  {| w_size := w_size w; w_services := w_services w; w_heap := w_heap w; w_entries := w_entries w;
     w_cached_registry := Some r; w_cached_entries := Some a; w_refs := w_refs w |}.

(* subscriber.h:90-95 (the assertions are the guard) *)
Definition subscribe (w : world) (r : nat) : outcome world :=
  let* _ := guard (negb (existsb (Nat.eqb r) (w_services w))) in
  Ok {| w_size := w_size w; w_services := r :: w_services w; w_heap := w_heap w; w_entries := w_entries w;
        w_cached_registry := w_cached_registry w; w_cached_entries := w_cached_entries w; w_refs := w_refs w |}.
(* subscriber.h:97-102 *)
Definition unsubscribe (w : world) (r : nat) : outcome world :=
  let* _ := guard (existsb (Nat.eqb r) (w_services w)) in
  Ok {| w_size := w_size w; w_services := filter (fun x => negb (x =? r)) (w_services w); w_heap := w_heap w; w_entries := w_entries w;
        w_cached_registry := w_cached_registry w; w_cached_entries := w_cached_entries w; w_refs := w_refs w |}.

(* per_state_information.h:55-72, per_state_array.h:82-101 *)
Definition get_entries (w : world) (r : nat) : outcome (world * nat) :=
  if is_cached w r then
    match w_cached_entries w with Some a => Ok (w, a) | None => UB end
  else
    match find_entries (w_entries w) r with
    | Some a => Ok (set_cache w r a, a)
    | None =>
        let* v := vmake in
        let a := length (w_heap w) in
        let w := {| w_size := w_size w; w_services := w_services w; w_heap := w_heap w ++ [Some v];
                    w_entries := (r, a) :: w_entries w; w_cached_registry := Some r; w_cached_entries := Some a; w_refs := w_refs w |} in
        let* w := subscribe w r in
        Ok (w, a)
    end.
(* per_state_information.h:80-95, per_state_array.h:103-118: None is nullptr *)
Definition get_entries_const (w : world) (r : nat) : outcome (world * option nat) :=
  if is_cached w r then
    match w_cached_entries w with Some a => Ok (w, Some a) | None => UB end
  else
    match find_entries (w_entries w) r with
    | Some a => Ok (set_cache w r a, Some a)
    | None => Ok (w, None)
    end.

Definition vec_at (w : world) (a : nat) : outcome V :=
  match nth_error (w_heap w) a with Some (Some v) => Ok v | _ => UB end.
Definition put_vec (w : world) (a : nat) (v : option V) : world :=
  {| w_size := w_size w; w_services := w_services w; w_heap := upd (w_heap w) a v; w_entries := w_entries w;
     w_cached_registry := w_cached_registry w; w_cached_entries := w_cached_entries w; w_refs := w_refs w |}.

(* per_state_information.h:117-134, per_state_array.h:136-153; None: an unregistered state *)
Definition access (w : world) (registry : option nat) (id : nat) : outcome world :=
  match registry with
  | None => Exit search_critical_error
  | Some r =>
      match w_size w r with
      | None => UB                                       (* dangling registry *)
      | Some virtual_size =>
          let* (w, a) := get_entries w r in
          let* _ := guard (id <? virtual_size) in        (* assertions 127, 129 *)
          let* v := vec_at w a in
          let* v := (if vsize v <? virtual_size then vresize v virtual_size else Ok v) in
          let w := put_vec w a (Some v) in
          let* _ := guard (id <? vsize v) in             (* segmented_vector.h:102-107 *)
          Ok {| w_size := w_size w; w_services := w_services w; w_heap := w_heap w; w_entries := w_entries w;
                w_cached_registry := w_cached_registry w; w_cached_entries := w_cached_entries w; w_refs := w_refs w ++ [(a, id)] |}
      end
  end.
(* per_state_information.h:136-156, per_state_array.h:155-178 *)
Definition const_read (w : world) (registry : option nat) (id : nat) (j : I) : outcome (world * A) :=
  match registry with
  | None => Exit search_critical_error
  | Some r =>
      match w_size w r with
      | None => UB
      | Some n =>
          let* (w, a) := get_entries_const w r in
          match a with
          | None => let* x := missing j in Ok (w, x)
          | Some a =>
              let* _ := guard (id <? n) in
              let* v := vec_at w a in
              if vsize v <=? id then let* x := missing j in Ok (w, x)
              else let* x := vget v id j in Ok (w, x)
          end
      end
  end.

Definition read_ref (w : world) (k : nat) (j : I) : outcome A :=
  match nth_error (w_refs w) k with
  | Some (a, id) => let* v := vec_at w a in vget v id j
  | None => UB
  end.
Definition write_ref (w : world) (k : nat) (j : I) (x : A) : outcome world :=
  match nth_error (w_refs w) k with
  | Some (a, id) => let* v := vec_at w a in let* v := vput v id j x in Ok (put_vec w a (Some v))
  | None => UB
  end.

(* per_state_information.h:158-166, per_state_array.h:180-188; delete of nullptr has no effect *)
Definition notify_service_destroyed (w : world) (r : nat) : outcome world :=
  let* w := match find_entries (w_entries w) r with
            | Some a => let* _ := vec_at w a in Ok (put_vec w a None)
            | None => Ok w
            end in
  let cached := is_cached w r in
  Ok {| w_size := w_size w; w_services := w_services w; w_heap := w_heap w;
        w_entries := filter (fun e => negb (fst e =? r)) (w_entries w);
        w_cached_registry := if cached then None else w_cached_registry w;
        w_cached_entries := if cached then None else w_cached_entries w; w_refs := w_refs w |}.
(* subscriber.h:78-88: the registry's destructor *)
Definition destroy_registry (w : world) (r : nat) : outcome world :=
  let* w := if existsb (Nat.eqb r) (w_services w)
            then let* w := notify_service_destroyed w r in unsubscribe w r
            else Ok w in
  Ok {| w_size := set_nat (w_size w) r None; w_services := w_services w; w_heap := w_heap w; w_entries := w_entries w;
        w_cached_registry := w_cached_registry w; w_cached_entries := w_cached_entries w; w_refs := w_refs w |}.
Definition set_size (w : world) (r : nat) (n : option nat) : world :=
  {| w_size := set_nat (w_size w) r n; w_services := w_services w; w_heap := w_heap w; w_entries := w_entries w;
     w_cached_registry := w_cached_registry w; w_cached_entries := w_cached_entries w; w_refs := w_refs w |}.

(* per_state_information.h:111-115 and subscriber.h:52-62: destructor of this object *)
Definition destroy (w : world) : outcome world :=
  let* w := fold_outcome (fun w e => let* _ := vec_at w (snd e) in Ok (put_vec w (snd e) None)) (w_entries w) w in
  fold_outcome unsubscribe (w_services w) w.

Definition wstep (w : world) (e : pevent I A) : outcome (world * option A) :=
  match e with
  | PNew r => Ok (set_size w r (Some 0), None)
  | PGrow r => Ok (set_size w r (match w_size w r with Some n => Some (S n) | None => None end), None)
  | PDestroy r => let* w := destroy_registry w r in Ok (w, None)
  | PAccess r id => let* w := access w (Some r) id in Ok (w, None)
  | PRead k j => let* x := read_ref w k j in Ok (w, Some x)
  | PWrite k j x => let* w := write_ref w k j x in Ok (w, None)
  | PConst r id j => let* (w, x) := const_read w (Some r) id j in Ok (w, Some x)
  end.
Fixpoint wrun (w : world) (es : list (pevent I A)) : outcome (world * list (option A)) :=
  match es with
  | [] => Ok (w, [])
  | e :: es => let* (w, o) := wstep w e in let* (w, os) := wrun w es in Ok (w, o :: os)
  end.
End PerState.
Arguments world : clear implicits.

(** PerStateInformation<Entry>: the index is [tt]. *)
Section Info.
Context {A : Type}.
Variable sizeof_entry : nat.
Variable default_value : A.
Definition info_step := wstep (I := unit) (Ok sv_empty) (@sv_size A) (fun v n => sv_resize sizeof_entry v n default_value)
  (fun v i _ => sv_get sizeof_entry v i) (fun v i _ x => sv_set sizeof_entry v i x) (fun _ => Ok default_value).
Definition info_run := wrun (I := unit) (Ok sv_empty) (@sv_size A) (fun v n => sv_resize sizeof_entry v n default_value)
  (fun v i _ => sv_get sizeof_entry v i) (fun v i _ x => sv_set sizeof_entry v i x) (fun _ => Ok default_value).
End Info.

(** PerStateArray<Element> *)
Section Array.
Context {A : Type}.
Variable sizeof_element : nat.
Variable default_array : list A.
Let n := length default_array.
(* segmented_vector.h:188-197: an assertion in debug mode, a division by zero otherwise *)
Definition sav_make : outcome (sav A) := if n =? 0 then UB else Ok sav_empty.
(* per_state_array.h:45-53: the index is in bounds *)
Definition view_get (v : sav A) (i j : nat) : outcome A := let* _ := guard (j <? n) in sav_get sizeof_element n v i j.
Definition view_put (v : sav A) (i j : nat) (x : A) : outcome (sav A) := let* _ := guard (j <? n) in sav_set sizeof_element n v i j x.
Definition array_resize (v : sav A) (k : nat) : outcome (sav A) := sav_resize sizeof_element n v k default_array.
Definition array_step := wstep (I := nat) sav_make (@sav_size A) array_resize view_get view_put (fun _ => Exit abort_code).
Definition array_run := wrun (I := nat) sav_make (@sav_size A) array_resize view_get view_put (fun _ => Exit abort_code).
End Array.

(** PerStateBitset *)
Definition bits_per_block : nat := 32.                       (* per_state_bitset.h:10-17 *)
Definition ps_bit_index (pos : nat) : nat := pos mod bits_per_block.    (* per_state_bitset.cc:13-15 *)
Definition ps_block_index (pos : nat) : nat := pos / bits_per_block.    (* 9-11 *)
Definition ps_num_blocks (num_bits : nat) : nat := (num_bits + bits_per_block - 1) / bits_per_block.   (* 5-7 *)
(* 17-19: an unsigned 32-bit shift *)
Definition ps_bit_mask (pos : nat) : N := (N.shiftl 1 (N.of_nat (ps_bit_index pos)) mod 2 ^ 32)%N.
Definition block_complement (x : N) : N := N.lxor x (2 ^ 32 - 1).       (* ~ *)

(* 56-68 pack_bit_vector *)
Definition pack_bit_vector (bits : list bool) : outcome (list N) :=
  let num_bits := length bits in
  fold_outcome (fun (packed : list N) i =>
      let* b := Outcome.vget bits i in
      if b : bool then
        let* x := Outcome.vget packed (ps_block_index i) in
        vset packed (ps_block_index i) (N.lor x (ps_bit_mask i))
      else Ok packed)
    (seq 0 num_bits) (repeat 0%N (ps_num_blocks num_bits)).

Section Bitset.
Variable num_bits : nat.
Variable default_blocks : list N.
Let step := array_step 4 default_blocks.
Definition bits_of (o : option N) (i : nat) : outcome bool :=
  match o with Some x => Ok (negb (N.land x (ps_bit_mask i) =? 0)%N) | None => UB end.
Definition rmw (w : world (sav N)) (k b : nat) (f : N -> N) : outcome (world (sav N)) :=
  let* (w, o) := step w (PRead k b) in
  match o with
  | Some x => let* (w, _) := step w (PWrite k b (f x)) in Ok w
  | None => UB
  end.
Definition bstep (w : world (sav N)) (e : bevent) : outcome (world (sav N) * option bool) :=
  let plain (o : outcome (world (sav N) * option N)) := let* (w, _) := o in Ok (w, None) in
  match e with
  | BNew r => plain (step w (PNew r))
  | BGrow r => plain (step w (PGrow r))
  | BDestroy r => plain (step w (PDestroy r))
  | BAccess r id => plain (step w (PAccess r id))                              (* 75-77 *)
  | BSet k i =>                                                                (* 21-25 *)
      let* _ := guard (i <? num_bits) in
      let* w := rmw w k (ps_block_index i) (fun x => N.lor x (ps_bit_mask i)) in Ok (w, None)
  | BReset k i =>                                                              (* 27-31 *)
      let* _ := guard (i <? num_bits) in
      let* w := rmw w k (ps_block_index i) (fun x => N.land x (block_complement (ps_bit_mask i))) in Ok (w, None)
  | BResetAll k =>                                                             (* 33-37 *)
      let* w := fold_outcome (fun w b => let* (w, _) := step w (PWrite k b 0%N) in Ok w) (seq 0 (length default_blocks)) w in
      Ok (w, None)
  | BTest k i =>                                                               (* 39-43 *)
      let* _ := guard (i <? num_bits) in
      let* (w, o) := step w (PRead k (ps_block_index i)) in
      let* b := bits_of o i in Ok (w, Some b)
  | BIntersect k other =>                                                      (* 45-50 *)
      let* w := fold_outcome (fun w b =>
          let* (w, o) := step w (PRead other b) in
          match o with Some y => rmw w k b (fun x => N.land x y) | None => UB end) (seq 0 (length default_blocks)) w in
      Ok (w, None)
  | BConstTest r id i =>                                                       (* 79-83, 89-91 *)
      let* _ := guard (i <? num_bits) in
      let* (w, o) := step w (PConst r id (ps_block_index i)) in
      let* b := bits_of o i in Ok (w, Some b)
  end.
Fixpoint brun (w : world (sav N)) (es : list bevent) : outcome (world (sav N) * list (option bool)) :=
  match es with
  | [] => Ok (w, [])
  | e :: es => let* (w, o) := bstep w e in let* (w, os) := brun w es in Ok (w, o :: os)
  end.
End Bitset.
(* 70-73 *)
Definition bitset_run (default_bits : list bool) (es : list bevent) : outcome (world (sav N) * list (option bool)) :=
  let* blocks := pack_bit_vector default_bits in
  brun (length default_bits) blocks w_init es.

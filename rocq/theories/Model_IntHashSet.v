(** Model of algorithms/int_hash_set.h.

    Keys are naturals (the public insert asserts [key >= 0]); hashes are 32-bit numbers.
    Loops carry fuel: the number of buckets for the two searches, and for the mutual
    recursion insert -> enlarge -> rehash -> insert the number of doublings that are still
    possible.  All integer arithmetic on indices stays below 2^31 because the capacity is
    at most 2^30 (line 142 is where this is enforced, see [enlarge]). *)
From Verif Require Import Outcome.

Section M.
Variable hasher : nat -> N.             (* 102 *)
Variable equal : nat -> nat -> bool.    (* 103 *)

Definition MAX_DISTANCE : nat := 32.                 (* 81 *)
Definition MAX_BUCKETS : N := 4294967295.            (* 82-83 *)
Definition INT_MAX : N := 2147483647.

Record bucket := { bkey : option nat; bhash : N }.   (* 85-100; [None] is empty_bucket_key *)
Definition empty_bucket : bucket := {| bkey := None; bhash := 0 |}.
Definition full (b : bucket) : bool := match bkey b with Some _ => true | None => false end.

Record hset := { buckets : list bucket; num_entries : nat; num_resizes : nat }.   (* 104-106 *)
Definition capacity (s : hset) : nat := length (buckets s).   (* 108-110 *)

(* 145-153 *)
Definition get_bucket (n : nat) (h : N) : nat := N.to_nat (N.land h (N.of_nat n - 1)).

(* 159-167 *)
Definition get_distance (n i1 i2 : nat) : outcome nat :=
  let* _ := guard (i1 <? n) in
  let* _ := guard (i2 <? n) in
  Ok (if i1 <=? i2 then i2 - i1 else n + i2 - i1).

(* 169-176 *)
Fixpoint find_next_free (fuel : nat) (bs : list bucket) (i : nat) : outcome nat :=
  match fuel with
  | O => NoFuel
  | S f =>
      let* b := vget bs i in
      if full b then find_next_free f bs (get_bucket (length bs) (N.of_nat (i + 1))) else Ok i
  end.

(* 181-188: [k] iterations are left, the next one is number [i] *)
Fixpoint find_equal_from (k i : nat) (bs : list bucket) (ideal : nat) (key : nat) (h : N) : outcome (option nat) :=
  match k with
  | O => Ok None
  | S k' =>
      let index := get_bucket (length bs) (N.of_nat (ideal + i)) in
      let* b := vget bs index in
      match bkey b with
      | Some key' =>
          if N.eqb (bhash b) h && equal key' key then Ok (Some key')
          else find_equal_from k' (S i) bs ideal key h
      | None => find_equal_from k' (S i) bs ideal key h
      end
  end.
(* 178-190 *)
Definition find_equal_key (bs : list bucket) (key : nat) (h : N) : outcome (option nat) :=
  find_equal_from MAX_DISTANCE 0 bs (get_bucket (length bs) h) key h.

(* 239-254: try the offsets [offset], [offset] - 1, ..., 1 *)
Fixpoint find_swap (offset : nat) (bs : list bucket) (free : nat) : outcome (option nat) :=
  match offset with
  | O => Ok None
  | S o =>
      let n := length bs in
      let* _ := guard (offset <? n) in
      let candidate := get_bucket n (N.of_nat (free + n - offset)) in
      let* b := vget bs candidate in
      let* d := get_distance n (get_bucket n (bhash b)) free in
      if d <? MAX_DISTANCE then Ok (Some candidate) else find_swap o bs free
  end.

(* 249 *)
Definition swap_buckets (bs : list bucket) (i j : nat) : outcome (list bucket) :=
  let* x := vget bs i in
  let* y := vget bs j in
  let* bs1 := vset bs i y in
  vset bs1 j x.

(* 235-261: the result is the table with the free bucket moved, and the index of the free
   bucket; [None] instead of an index when no candidate could be swapped (the swaps made
   before that stay in place) *)
Fixpoint move_free (fuel : nat) (bs : list bucket) (ideal free : nat) : outcome (list bucket * option nat) :=
  match fuel with
  | O => NoFuel
  | S f =>
      let* d := get_distance (length bs) ideal free in
      if d <? MAX_DISTANCE then Ok (bs, Some free)
      else
        let* c := find_swap (Nat.min MAX_DISTANCE (length bs) - 1) bs free in
        match c with
        | None => Ok (bs, None)
        | Some c => let* bs' := swap_buckets bs c free in move_free f bs' ideal c
        end
  end.

(* 112-127 is [rehash], 129-143 [enlarge], 206-267 the private [insert].  The three are
   mutually recursive; [fuel] bounds the nesting of enlarge calls. *)
Definition is_power_of_2 (n : N) : bool := N.eqb (N.land n (n - 1)) 0.

(* utils/system.h: exit code of a process ended by abort() *)
Definition abort_exit : Z := -6.

Section Step.
Variable insert_rec : hset -> nat -> N -> outcome (hset * (nat * bool)).

Definition rehash (s : hset) (new_capacity : nat) : outcome hset :=
  let before := num_entries s in
  let old := buckets s in
  let s0 := {| buckets := repeat empty_bucket new_capacity; num_entries := 0; num_resizes := num_resizes s |} in
  let* s1 := fold_outcome (fun s b =>
      match bkey b with
      | Some k => let* r := insert_rec s k (bhash b) in Ok (fst r)
      | None => Ok s
      end) old s0 in
  let* _ := guard (num_entries s1 =? before) in
  Ok {| buckets := buckets s1; num_entries := num_entries s1; num_resizes := S (num_resizes s1) |}.

(* The argument of rehash is an int.  For 2^30 buckets the guard of line 133 does not fire,
   the doubled value 2^31 becomes negative, the assertion of line 113 fails in debug builds
   and vector::resize throws an uncaught length_error in release builds: both abort. *)
Definition enlarge (s : hset) : outcome hset :=
  let n := N.of_nat (capacity s) in
  let* _ := guard (is_power_of_2 n) in
  if (MAX_BUCKETS / 2 <? n)%N then Exit 32
  else if (INT_MAX <? n * 2)%N then Exit abort_exit
  else rehash s (2 * capacity s).

Definition insert_body (s : hset) (key : nat) (h : N) : outcome (hset * (nat * bool)) :=
  let* _ := guard (N.eqb (hasher key) h) in
  let* e := find_equal_key (buckets s) key h in
  match e with
  | Some k => Ok (s, (k, false))
  | None =>
      let* _ := guard (num_entries s <=? capacity s) in
      let* s1 := if num_entries s =? capacity s then enlarge s else Ok s in
      let* _ := guard (num_entries s1 <? capacity s1) in
      let ideal := get_bucket (capacity s1) h in
      let* free := find_next_free (capacity s1) (buckets s1) ideal in
      let* m := move_free (capacity s1) (buckets s1) ideal free in
      match m with
      | (bs, None) =>
          let* s2 := enlarge {| buckets := bs; num_entries := num_entries s1; num_resizes := num_resizes s1 |} in
          insert_rec s2 key h
      | (bs, Some f) =>
          let* b := vget bs f in
          let* _ := guard (negb (full b)) in
          let* bs' := vset bs f {| bkey := Some key; bhash := h |} in
          Ok ({| buckets := bs'; num_entries := S (num_entries s1); num_resizes := num_resizes s1 |}, (key, true))
      end
  end.
End Step.

Fixpoint insert_rec (fuel : nat) (s : hset) (key : nat) (h : N) : outcome (hset * (nat * bool)) :=
  match fuel with
  | O => NoFuel
  | S f => insert_body (insert_rec f) s key h
  end.

(* 270-276 *)
Definition hset_make : hset := {| buckets := [empty_bucket]; num_entries := 0; num_resizes := 0 |}.

(* 289-292 *)
Definition hset_insert (s : hset) (key : nat) : outcome (hset * (nat * bool)) :=
  insert_rec 32 s key (hasher key).

Fixpoint hset_run (s : hset) (ks : list nat) : outcome (hset * list (nat * bool)) :=
  match ks with
  | [] => Ok (s, [])
  | k :: r =>
      let* (s1, a) := hset_insert s k in
      let* (s2, l) := hset_run s1 r in
      Ok (s2, a :: l)
  end.
End M.

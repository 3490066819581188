(** Model of algorithms/segmented_vector.h.

    Memory: a segment is a list of cells; a cell is [None] while it holds no constructed
    object.  Reading, writing or destroying an unconstructed cell, constructing over a live
    object, and any access outside a segment are undefined behaviour.  Element sizes are
    in bytes. *)
From Verif Require Import Outcome Spec_Vector.

(* segmented_vector.h:56, 158 *)
Definition SEGMENT_BYTES : nat := 8 * 1024.

Section Cells.
Context {A : Type}.

(* read through a pointer into a segment *)
Definition cell_get (segs : list (list (option A))) (s o : nat) : outcome A :=
  let* seg := vget segs s in
  let* c := vget seg o in
  match c with Some x => Ok x | None => UB end.
(* assignment to a live object *)
Definition cell_put (segs : list (list (option A))) (s o : nat) (x : A) : outcome (list (list (option A))) :=
  let* seg := vget segs s in
  let* c := vget seg o in
  match c with Some _ => vset segs s (upd seg o (Some x)) | None => UB end.
(* allocator construct: placement new into raw memory *)
Definition cell_construct (segs : list (list (option A))) (s o : nat) (x : A) : outcome (list (list (option A))) :=
  let* seg := vget segs s in
  let* c := vget seg o in
  match c with None => vset segs s (upd seg o (Some x)) | Some _ => UB end.
(* allocator destroy *)
Definition cell_destroy (segs : list (list (option A))) (s o : nat) : outcome (list (list (option A))) :=
  let* seg := vget segs s in
  let* c := vget seg o in
  match c with Some _ => vset segs s (upd seg o None) | None => UB end.
End Cells.

(* ---------- SegmentedVector, segmented_vector.h:52-152 ---------- *)
Section SegmentedVector.
Context {A : Type}.
Variable sizeof_entry : nat.

(* 58-60 *)
Definition SEGMENT_ELEMENTS : nat :=
  if 1 <=? SEGMENT_BYTES / sizeof_entry then SEGMENT_BYTES / sizeof_entry else 1.

Record sv := { sv_segments : list (list (option A)); sv_size : nat }.   (* 64-65 *)
Definition sv_empty : sv := {| sv_segments := []; sv_size := 0 |}.   (* 84-85 *)

Definition sv_get_segment (i : nat) := i / SEGMENT_ELEMENTS.          (* 67-69 *)
Definition sv_get_offset (i : nat) := i mod SEGMENT_ELEMENTS.         (* 71-73 *)

(* 102-114: operator[] as an rvalue *)
Definition sv_get (v : sv) (i : nat) : outcome A :=
  let* _ := guard (i <? sv_size v) in
  cell_get (sv_segments v) (sv_get_segment i) (sv_get_offset i).
(* 102-107: assignment through operator[] *)
Definition sv_set (v : sv) (i : nat) (x : A) : outcome sv :=
  let* _ := guard (i <? sv_size v) in
  let* segs := cell_put (sv_segments v) (sv_get_segment i) (sv_get_offset i) x in
  Ok {| sv_segments := segs; sv_size := sv_size v |}.

(* 120-131 with add_segment 75-79 *)
Definition sv_push_back (v : sv) (x : A) : outcome sv :=
  let s := sv_get_segment (sv_size v) in
  let o := sv_get_offset (sv_size v) in
  let* segs1 :=
    if s =? length (sv_segments v) then
      let* _ := guard (o =? 0) in
      Ok (sv_segments v ++ [repeat None SEGMENT_ELEMENTS])
    else Ok (sv_segments v) in
  let* segs2 := cell_construct segs1 s o x in
  Ok {| sv_segments := segs2; sv_size := S (sv_size v) |}.

(* 133-142; the_size - 1 wraps around for an empty vector, so operator[] asserts *)
Definition sv_pop_back (v : sv) : outcome sv :=
  match sv_size v with
  | O => UB
  | S n =>
      let* segs := cell_destroy (sv_segments v) (sv_get_segment n) (sv_get_offset n) in
      Ok {| sv_segments := segs; sv_size := n |}
  end.

Fixpoint sv_pops (k : nat) (v : sv) : outcome sv :=
  match k with O => Ok v | S k' => let* v' := sv_pop_back v in sv_pops k' v' end.
Fixpoint sv_pushes (k : nat) (v : sv) (x : A) : outcome sv :=
  match k with O => Ok v | S k' => let* v' := sv_push_back v x in sv_pushes k' v' x end.

(* 144-151: each iteration of the first (second) loop lowers (raises) the size by one, so
   the number of iterations is the difference of the sizes when the loop starts *)
Definition sv_resize (v : sv) (n : nat) (x : A) : outcome sv :=
  let* v1 := sv_pops (sv_size v - n) v in
  sv_pushes (n - sv_size v1) v1 x.

Definition sv_step (v : sv) (op : vec_op A) : outcome sv :=
  match op with
  | VPush x => sv_push_back v x
  | VPop => sv_pop_back v
  | VResize n x => sv_resize v n x
  | VSet i x => sv_set v i x
  end.
Definition sv_run (ops : list (vec_op A)) : outcome sv := fold_outcome sv_step ops sv_empty.
End SegmentedVector.
Arguments sv : clear implicits.

(* ---------- SegmentedArrayVector, segmented_vector.h:154-277 ---------- *)
Section SegmentedArrayVector.
Context {A : Type}.
Variable sizeof_element : nat.
Variable elements_per_array : nat.

(* 191-194 *)
Definition arrays_per_segment : nat :=
  Nat.max (SEGMENT_BYTES / (elements_per_array * sizeof_element)) 1.
Definition elements_per_segment : nat := elements_per_array * arrays_per_segment.

Record sav := { sav_segments : list (list (option A)); sav_size : nat }.
Definition sav_empty : sav := {| sav_segments := []; sav_size := 0 |}.

Definition sav_get_segment (i : nat) := i / arrays_per_segment.                           (* 169-171 *)
Definition sav_get_offset (i : nat) := (i mod arrays_per_segment) * elements_per_array.   (* 173-175 *)

(* 223-235, followed by an access to element [j] of the array *)
Definition sav_get (v : sav) (i j : nat) : outcome A :=
  let* _ := guard (i <? sav_size v) in
  cell_get (sav_segments v) (sav_get_segment i) (sav_get_offset i + j).
Definition sav_set (v : sav) (i j : nat) (x : A) : outcome sav :=
  let* _ := guard (i <? sav_size v) in
  let* segs := cell_put (sav_segments v) (sav_get_segment i) (sav_get_offset i + j) x in
  Ok {| sav_segments := segs; sav_size := sav_size v |}.

(* 249-252: copy loop; [k] elements remain to be copied from the head of [src]; reading
   past the end of the given array is undefined *)
Fixpoint copy_in (k : nat) (segs : list (list (option A))) (s dest : nat) (src : list A) : outcome (list (list (option A))) :=
  match k with
  | O => Ok segs
  | S k' =>
      match src with
      | [] => UB
      | x :: src' => let* segs' := cell_construct segs s dest x in copy_in k' segs' s (S dest) src'
      end
  end.

(* 241-254 *)
Definition sav_push_back (v : sav) (entry : list A) : outcome sav :=
  let s := sav_get_segment (sav_size v) in
  let o := sav_get_offset (sav_size v) in
  let* segs1 :=
    if s =? length (sav_segments v) then
      let* _ := guard (o =? 0) in
      Ok (sav_segments v ++ [repeat None elements_per_segment])
    else Ok (sav_segments v) in
  let* segs2 := copy_in elements_per_array segs1 s o entry in
  Ok {| sav_segments := segs2; sav_size := S (sav_size v) |}.

(* 257-260: [k] cells are left to destroy, starting at offset [o] *)
Fixpoint destroy_run (k : nat) (segs : list (list (option A))) (s o : nat) : outcome (list (list (option A))) :=
  match k with
  | O => Ok segs
  | S k' => let* segs' := cell_destroy segs s o in destroy_run k' segs' s (S o)
  end.

(* 256-267 *)
Definition sav_pop_back (v : sav) : outcome sav :=
  match sav_size v with
  | O => UB
  | S n =>
      let* segs := destroy_run elements_per_array (sav_segments v) (sav_get_segment n) (sav_get_offset n) in
      Ok {| sav_segments := segs; sav_size := n |}
  end.

Fixpoint sav_pops (k : nat) (v : sav) : outcome sav :=
  match k with O => Ok v | S k' => let* v' := sav_pop_back v in sav_pops k' v' end.
Fixpoint sav_pushes (k : nat) (v : sav) (x : list A) : outcome sav :=
  match k with O => Ok v | S k' => let* v' := sav_push_back v x in sav_pushes k' v' x end.

(* 269-276 *)
Definition sav_resize (v : sav) (n : nat) (x : list A) : outcome sav :=
  let* v1 := sav_pops (sav_size v - n) v in
  sav_pushes (n - sav_size v1) v1 x.

Definition sav_step (v : sav) (op : avec_op A) : outcome sav :=
  match op with
  | APush a => sav_push_back v a
  | APop => sav_pop_back v
  | AResize n a => sav_resize v n a
  | ASet i j x => sav_set v i j x
  end.
Definition sav_run (ops : list (avec_op A)) : outcome sav := fold_outcome sav_step ops sav_empty.
End SegmentedArrayVector.
Arguments sav : clear implicits.

(** C03, C04: segmented vectors behave like plain vectors. *)
From Verif Require Import Outcome Spec_Vector Model_SegmentedVector Proof_SegmentedVector.

(** C03.  For every element size and every sequence of push_back, pop_back, resize and
    element assignments that is legal for a plain vector, the segmented vector has the same
    size and the same element at every index, and reads past the end are rejected.  A
    sequence that is illegal for a plain vector is undefined here too. *)
Theorem C03_segmented_vector_is_vector : forall (A : Type) (sizeof_entry : nat) (ops : list (vec_op A)),
  match vec_run [] ops with
  | Some l => exists v, sv_run sizeof_entry ops = Ok v /\ sv_size v = length l /\
      forall i, sv_get sizeof_entry v i = match nth_error l i with Some x => Ok x | None => UB end
  | None => sv_run sizeof_entry ops = UB
  end.
Proof. exact (fun A sz ops => @sv_history A sz ops). Qed.
Print Assumptions C03_segmented_vector_is_vector.

(* 2048 four-byte entries per segment: 2050 pushes need a second segment *)
Example C03_nonvacuous :
  let ops := VResize 2050 7 :: VSet 2049 9 :: VPush 5 :: VPop :: [VSet 3 1] in
  (exists l, vec_run [] ops = Some l /\ length l = N.to_nat 2050 /\ nth_error l (N.to_nat 2049) = Some 9) /\
  (let* v := sv_run 4 ops in Ok (length (sv_segments v))) = Ok 2.
Proof. split; [eexists; split; [reflexivity|split; vm_compute; reflexivity] | vm_compute; reflexivity]. Qed.

(** C04.  The same for vectors of arrays of a fixed positive length: every legal history
    succeeds, and afterwards every element of every array reads as in the plain vector of
    arrays. *)
Theorem C04_segmented_array_vector_is_vector :
  forall (A : Type) (sizeof_element elements_per_array : nat), 0 < elements_per_array ->
  forall (ops : list (avec_op A)) l, avec_run elements_per_array [] ops = Some l ->
  exists v, sav_run sizeof_element elements_per_array ops = Ok v /\ sav_size v = length l /\
    forall i a j, nth_error l i = Some a -> j < elements_per_array ->
      exists x, nth_error a j = Some x /\ sav_get sizeof_element elements_per_array v i j = Ok x.
Proof. exact (fun A sz epa H ops l => @sav_history A sz epa H ops l). Qed.
Print Assumptions C04_segmented_array_vector_is_vector.

(* arrays of three 4-byte elements: 682 per segment *)
Example C04_nonvacuous :
  let ops := AResize 683 [1; 2; 3] :: ASet 682 1 8 :: APush [4; 5; 6] :: APop :: [ASet 0 2 9] in
  0 < 3 /\ (exists l, avec_run 3 [] ops = Some l /\ nth_error l 682 = Some [1; 8; 3] /\ nth_error l 681 = Some [1; 2; 3]) /\
  (let* v := sav_run 4 3 ops in Ok (length (sav_segments v))) = Ok 2.
Proof. split; [lia|]. split; [eexists; split; [reflexivity|split; vm_compute; reflexivity] | vm_compute; reflexivity]. Qed.

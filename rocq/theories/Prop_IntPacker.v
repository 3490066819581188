(** C01, C02: packed storage of variable values. *)
From Verif Require Import Outcome Spec_Store Model_IntPacker Proof_IntPacker.

(** C01.  For every list of ranges, building the packer succeeds, and on a buffer of
    [num_bins p] words any sequence of in-range writes succeeds and leaves every variable
    with the value last written to it (or its previous value if it was not written). *)
Theorem C01_packed_readback : forall ranges : list N,
  Forall (fun r => (1 <= r <= 2 ^ 31)%N) ranges ->
  exists p, make_packer ranges = Ok p /\
    forall buf writes, length buf = num_bins p ->
      Forall (fun '(v, x) => exists r, nth_error ranges v = Some r /\ (x < r)%N) writes ->
      exists buf', packer_sets p buf writes = Ok buf' /\ length buf' = num_bins p /\
        forall v, v < length ranges ->
          (exists x, packer_get p buf v = Ok x) /\
          packer_get p buf' v =
            match last_write writes v with Some x => Ok x | None => packer_get p buf v end.
Proof. exact make_packer_readback. Qed.
Print Assumptions C01_packed_readback.

(** C02.  The layout: each variable reads a field of enough bits inside one 32-bit word
    with index below [num_bins p]; fields of different variables do not overlap; there are
    never more words than variables. *)
Theorem C02_packed_layout : forall ranges : list N,
  Forall (fun r => (1 <= r <= 2 ^ 31)%N) ranges ->
  exists p (fields : list (nat * nat * nat)),
    make_packer ranges = Ok p /\ num_bins p <= length ranges /\ length fields = length ranges /\
    (forall v b s sz r, nth_error fields v = Some (b, s, sz) -> nth_error ranges v = Some r ->
       b < num_bins p /\ s + sz <= 32 /\ (r <= 2 ^ N.of_nat sz)%N /\
       forall buf w, nth_error buf b = Some w -> packer_get p buf v = Ok (bit_field w s sz)) /\
    (forall v b s sz v' s' sz', v <> v' ->
       nth_error fields v = Some (b, s, sz) -> nth_error fields v' = Some (b, s', sz') ->
       s + sz <= s' \/ s' + sz' <= s).
Proof. exact make_packer_layout. Qed.
Print Assumptions C02_packed_layout.

Example C01_C02_nonvacuous :
  let ranges := [2; 3; 70000; 5; 2147483647; 1; 65536; 2; 2]%N in
  Forall (fun r => (1 <= r <= 2 ^ 31)%N) ranges /\
  (let* p := make_packer ranges in
   let* b := packer_sets p (repeat 12345%N (num_bins p)) [(2, 69999%N); (4, 2147483646%N); (8, 1%N)] in
   let* x := packer_get p b 2 in
   let* y := packer_get p b 4 in
   let* z := packer_get p b 8 in
   Ok (num_bins p, x, y, z)) = Ok (3, 69999%N, 2147483646%N, 1%N).
Proof. split; [repeat constructor; discriminate | vm_compute; reflexivity]. Qed.

(** Model of algorithms/int_packer.{h,cc}: packing of small unsigned ints into 32-bit words.

    Words ([Bin] = unsigned int) are [N] below 2^32; bit positions, variable indices and
    word indices are [nat]; values and ranges are [N].  Left shifts are truncated to 32 bits
    explicitly. *)
From Verif Require Import Outcome.
Local Open Scope nat_scope.

(* algorithms/int_packer.cc:8 *)
Definition BITS_PER_BIN : nat := 32.
Definition WORD : N := (2 ^ 32)%N.

(* [unsigned << n]: defined in C++ only for n < 32; result modulo 2^32. *)
Definition shl32 (x : N) (n : nat) : outcome N :=
  if n <? BITS_PER_BIN then Ok (N.shiftl x (N.of_nat n) mod WORD)%N else UB.

(* [~x] on unsigned int. *)
Definition not32 (x : N) : N := N.lxor x (N.ones 32).

(* algorithms/int_packer.cc:10-23 *)
Definition get_bit_mask (from to : nat) : outcome N :=
  let* _ := guard ((from <=? to) && (to <=? BITS_PER_BIN)) in
  let length := to - from in
  if length =? BITS_PER_BIN then
    let* _ := guard (from =? 0) in
    Ok (not32 0)
  else
    let* a := shl32 1 length in
    shl32 (a - 1)%N from.

(* algorithms/int_packer.cc:31-34: the while loop, with fuel 32 (the shift by 32 is UB). *)
Fixpoint bit_size_loop (fuel : nat) (num_bits : nat) (range : N) : outcome nat :=
  match fuel with
  | O => NoFuel
  | S f =>
      let* p := shl32 1 num_bits in
      if (p <? range)%N then bit_size_loop f (S num_bits) range else Ok num_bits
  end.

(* algorithms/int_packer.cc:25-35 *)
Definition get_bit_size_for_range (range : N) : outcome nat :=
  let* _ := guard (1 <=? range)%N in
  if (range =? 1)%N then Ok 1 else bit_size_loop 33 0 range.

(* algorithms/int_packer.cc:37-53.  [vi_bin = None] is the default-constructed
   bin_index = -1. *)
Record VariableInfo := {
  vi_range : N;
  vi_bin : option nat;
  vi_shift : nat;
  vi_read_mask : N;
  vi_clear_mask : N
}.

(* algorithms/int_packer.cc:44-49 *)
Definition mk_info (range : N) (bin_index shift : nat) : outcome VariableInfo :=
  let* bit_size := get_bit_size_for_range range in
  let* mask := get_bit_mask shift (shift + bit_size) in
  Ok {| vi_range := range; vi_bin := Some bin_index; vi_shift := shift;
        vi_read_mask := mask; vi_clear_mask := not32 mask |}.

(* algorithms/int_packer.cc:51-53 *)
Definition default_info : VariableInfo :=
  {| vi_range := 0; vi_bin := None; vi_shift := 0; vi_read_mask := 0; vi_clear_mask := 0 |}.

(* algorithms/int_packer.cc:58-60 *)
Definition vi_get (vi : VariableInfo) (buffer : list N) : outcome N :=
  match vi_bin vi with
  | None => UB
  | Some b =>
      let* w := vget buffer b in
      Ok (N.shiftr (N.land w (vi_read_mask vi)) (N.of_nat (vi_shift vi)))
  end.

(* algorithms/int_packer.cc:62-66 *)
Definition vi_set (vi : VariableInfo) (buffer : list N) (value : N) : outcome (list N) :=
  let* _ := guard (value <? vi_range vi)%N in
  match vi_bin vi with
  | None => UB
  | Some b =>
      let* w := vget buffer b in
      let* v := shl32 value (vi_shift vi) in
      vset buffer b (N.lor (N.land w (vi_clear_mask vi)) v)
  end.

(* algorithms/int_packer.h:21-30 *)
Record IntPacker := { var_infos : list VariableInfo; num_bins : nat }.

(* algorithms/int_packer.cc:76-82 *)
Definition packer_get (p : IntPacker) (buffer : list N) (var : nat) : outcome N :=
  let* vi := vget (var_infos p) var in vi_get vi buffer.
Definition packer_set (p : IntPacker) (buffer : list N) (var : nat) (value : N)
  : outcome (list N) :=
  let* vi := vget (var_infos p) var in vi_set vi buffer value.

(* algorithms/int_packer.cc:96-100: buckets of variables by number of bits.  A bucket is a
   [list] whose head is the back() of the C++ vector. *)
Fixpoint fill_buckets (ranges : list N) (n : nat) (b2v : list (list nat))
  : outcome (list (list nat)) :=
  match n with
  | O => Ok b2v
  | S var =>
      let* r := vget ranges var in
      let* bits := get_bit_size_for_range r in
      let* bucket := vget b2v bits in
      let* b2v' := vset b2v bits (var :: bucket) in
      fill_buckets ranges var b2v'
  end.

(* algorithms/int_packer.cc:120-122 *)
Fixpoint largest_fit (b2v : list (list nat)) (bits : nat) : outcome nat :=
  match bits with
  | O => Ok 0
  | S b =>
      let* bucket := vget b2v bits in
      match bucket with
      | [] => largest_fit b2v b
      | _ :: _ => Ok bits
      end
  end.

(* algorithms/int_packer.cc:118-139: the loop of pack_one_bin; returns the updated infos,
   buckets and the number of variables added. *)
Fixpoint pack_one_bin_loop (fuel : nat) (ranges : list N) (bin_index used_bits : nat)
    (infos : list VariableInfo) (b2v : list (list nat)) (count : nat)
  : outcome (list VariableInfo * list (list nat) * nat) :=
  match fuel with
  | O => NoFuel
  | S f =>
      let* bits := largest_fit b2v (BITS_PER_BIN - used_bits) in
      if bits =? 0 then Ok (infos, b2v, count)
      else
        let* bucket := vget b2v bits in
        match bucket with
        | [] => UB
        | var :: rest =>
            let* b2v' := vset b2v bits rest in
            let* r := vget ranges var in
            let* vi := mk_info r bin_index used_bits in
            let* infos' := vset infos var vi in
            pack_one_bin_loop f ranges bin_index (used_bits + bits) infos' b2v' (S count)
        end
  end.

(* algorithms/int_packer.cc:102-104: bins are packed until all variables are placed.
   Inner fuel 33: a bin of 32 bits takes at most 32 variables. *)
Fixpoint pack_loop (fuel : nat) (ranges : list N) (nbins packed : nat)
    (infos : list VariableInfo) (b2v : list (list nat))
  : outcome IntPacker :=
  match fuel with
  | O => NoFuel
  | S f =>
      if packed =? length ranges then Ok {| var_infos := infos; num_bins := nbins |}
      else
        let* (infos', b2v', n) :=
          pack_one_bin_loop (S BITS_PER_BIN) ranges nbins 0 infos b2v 0 in
        pack_loop f ranges (S nbins) (packed + n) infos' b2v'
  end.

(* algorithms/int_packer.cc:69-71 and 84-105 *)
Definition make_packer (ranges : list N) : outcome IntPacker :=
  let* b2v := fill_buckets ranges (length ranges) (repeat [] (S BITS_PER_BIN)) in
  pack_loop (S (length ranges)) ranges 0 0 (repeat default_info (length ranges)) b2v.

(* A sequence of writes through the public interface. *)
Definition packer_sets (p : IntPacker) (buffer : list N) (writes : list (nat * N))
  : outcome (list N) :=
  fold_outcome (fun b '(var, value) => packer_set p b var value) writes buffer.

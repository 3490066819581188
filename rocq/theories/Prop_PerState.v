(** C57: information attached to states. *)
From Coq Require Import List NArith.
From Verif Require Import Outcome Spec_PerState Model_SegmentedVector Model_PerState Proof_PerState Proof_PerState2.
Import ListNotations.
Local Open Scope nat_scope.

Definition all_freed {V} (w : world V) : Prop :=
  exists w', destroy w = Ok w' /\ w_services w' = [] /\ forall a v, nth_error (w_heap w') a <> Some (Some v).
Definition no_index (_ _ : unit) : bool := true.

(** For every legal history of creating, growing and destroying registries (at possibly reused
    addresses) and of accesses, reads and writes through references held for any time, every read
    returns the value last written for that registry and state, or the default; nothing undefined
    happens, and destroying the object releases all memory and subscriptions. *)
Theorem C57_information : forall (A : Type) (sizeof_entry : nat) (d : A) es,
  plegal no_index (fun _ => True) (fun _ => d) (ps_init (fun _ => d)) es ->
  exists w, info_run sizeof_entry d w_init es = Ok (w, snd (prun no_index (fun _ => d) (ps_init (fun _ => d)) es)) /\ all_freed w.
Proof.
  intros A sz d es HL. destruct (info_run_spec sz d es HL) as (w & E & R). exists w. split; [exact E|].
  destruct (destroy_world _ _ _ _ _ _ _ R) as (w' & E' & S & F). exists w'. splits; auto. intros a v H. destruct (F a); congruence.
Qed.
Print Assumptions C57_information.

(** The same for arrays, with const reads only of entries that exist (those of states that were
    registered at the last non-const access). *)
Theorem C57_array : forall (A : Type) (sizeof_element : nat) (d : list A) (x0 : A) es,
  d <> [] ->
  let default j := nth j d x0 in
  plegal Nat.eqb (fun j => j < length d) default (ps_init default) es -> pexisting Nat.eqb default (ps_init default) es ->
  exists w, array_run sizeof_element d w_init es = Ok (w, snd (prun Nat.eqb default (ps_init default) es)) /\ all_freed w.
Proof.
  intros A sz d x0 es Hd default HL HE. destruct (array_run_spec sz d x0 es Hd HL HE) as (w & E & R). exists w. split; [exact E|].
  destruct (destroy_world _ _ _ _ _ _ _ R) as (w' & E' & S & F). exists w'. splits; auto. intros a v H. destruct (F a); congruence.
Qed.
Print Assumptions C57_array.

(** Bit sets: set, reset, test, intersection, for any number of bits. *)
Theorem C57_bitset : forall (bits : list bool) es,
  bits <> [] ->
  let default i := nth i bits false in
  blegal (length bits) default (ps_init default) es ->
  exists w, bitset_run bits es = Ok (w, snd (bspec_run default (ps_init default) es)) /\ all_freed w.
Proof.
  intros bits es Hb default HL. destruct (bitset_run_spec bits es Hb HL) as (w & bl & t & E & R). exists w. split; [exact E|].
  destruct (destroy_world _ _ _ _ _ _ _ R) as (w' & E' & S & F). exists w'. splits; auto. intros a v H. destruct (F a); congruence.
Qed.
Print Assumptions C57_bitset.

(** Finding: arrays without elements (for example a bit set for a task without landmarks) are
    undefined at the first access: SegmentedArrayVector divides by the number of elements. *)
Theorem C57_empty_array_refuted : forall (A : Type) sizeof_element r,
  array_run (A := A) sizeof_element [] w_init [PNew r; PGrow r; PAccess r 0] = UB /\
  bitset_run [] [BNew r; BGrow r; BAccess r 0] = UB.
Proof.
  intros A sz r. unfold array_run, bitset_run. cbn. unfold set_nat, array_step. cbn. unfold access, set_size, set_nat. cbn. rewrite !Nat.eqb_refl. cbn. auto.
Qed.
Print Assumptions C57_empty_array_refuted.

(** Finding: const reads of arrays do not return the default for entries that do not exist; the
    program aborts.  (PerStateInformation returns the default.) *)
Theorem C57_array_default_refuted : forall (A : Type) sizeof_element (d : list A) r j,
  array_run sizeof_element d w_init [PNew r; PGrow r; PConst r 0 j] = Exit abort_code.
Proof. intros A sz d r j. unfold array_run. cbn. unfold set_nat. rewrite !Nat.eqb_refl. cbn. reflexivity. Qed.
Print Assumptions C57_array_default_refuted.

(** States that belong to no registry are rejected. *)
Theorem C57_unregistered : forall (I A V : Type) vmake vsize vresize vget missing (w : world V) id (j : I),
  access vmake vsize vresize w None id = Exit search_critical_error /\
  const_read (A := A) vsize vget missing w None id j = Exit search_critical_error.
Proof. intros. split; reflexivity. Qed.
Print Assumptions C57_unregistered.

(** Two registries used alternately, a reference held while the registry grows, a registry
    destroyed and another created at the same address. *)
Definition ps_ex : list (pevent unit nat) :=
  [PNew 7; PGrow 7; PNew 8; PGrow 8; PAccess 7 0; PWrite 0 tt 5; PAccess 8 0; PWrite 1 tt 6; PGrow 7; PGrow 7; PAccess 7 2; PRead 0 tt; PRead 2 tt;
   PWrite 0 tt 9; PConst 7 0 tt; PConst 8 0 tt; PConst 7 1 tt; PDestroy 7; PNew 7; PGrow 7; PConst 7 0 tt; PAccess 7 0; PRead 3 tt; PRead 1 tt].
Definition ps_bits_ex : list bevent :=
  [BNew 1; BGrow 1; BGrow 1; BAccess 1 0; BAccess 1 1; BTest 0 0; BTest 0 33; BSet 0 33; BSet 0 2; BTest 0 33; BTest 1 33; BReset 0 0; BTest 0 0;
   BIntersect 0 1; BTest 0 2; BTest 0 33; BSet 1 39; BConstTest 1 1 39; BResetAll 1; BConstTest 1 1 0].
Example C57_nonvacuous :
  plegal no_index (fun _ => True) (fun _ => 1) (ps_init (fun _ => 1)) ps_ex /\
  snd (prun no_index (fun _ => 1) (ps_init (fun _ => 1)) ps_ex) =
    [None; None; None; None; None; None; None; None; None; None; None; Some 5; Some 1;
     None; Some 9; Some 6; Some 1; None; None; None; Some 1; None; Some 1; Some 6] /\
  match info_run 4 1 w_init ps_ex with Ok (_, out) => out = snd (prun no_index (fun _ => 1) (ps_init (fun _ => 1)) ps_ex) | _ => False end /\
  let bits := true :: repeat false 38 ++ [true] in
  blegal (length bits) (fun i => nth i bits false) (ps_init (fun i => nth i bits false)) ps_bits_ex /\
  match bitset_run bits ps_bits_ex with
  | Ok (_, out) => out = [None; None; None; None; None; Some true; Some false; None; None; Some true; Some false; None; Some false;
                          None; Some false; Some false; None; Some true; None; Some false]
  | _ => False end.
Proof.
  split; [|split; [reflexivity|split; [vm_compute; reflexivity|split; [|vm_compute; reflexivity]]]].
  - repeat (split; [first [reflexivity | discriminate | (eexists; split; [reflexivity|cbn; repeat constructor]) | (split; [exact Logic.I|]; first [(eexists; reflexivity) | (eexists; split; [reflexivity|cbn; repeat constructor])])]|]).
    exact Logic.I.
  - cbn [ps_bits_ex].
    assert (H : forall P : Prop, P -> P) by auto.
    repeat (split; [first [reflexivity | discriminate | (eexists; split; [reflexivity|cbn; repeat constructor])
      | (eexists; reflexivity) | (split; eexists; reflexivity) | (split; [apply Nat.ltb_lt; vm_compute; reflexivity|]; first [(eexists; reflexivity) | (apply Nat.ltb_lt; vm_compute; reflexivity)])]|]).
    exact Logic.I.
Qed.

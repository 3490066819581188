(** Specification of information attached to registered states: a map from (registry, state,
    element) to values with a default, and handles on entries.  Registries are created, grow by
    one state at a time and are destroyed; an address can be reused by a later registry. *)
From Coq Require Import List Arith Bool.
Import ListNotations.

Inductive pevent (I A : Type) :=
| PNew (r : nat)                      (* a registry is created at address r *)
| PGrow (r : nat)                     (* it registers a new state *)
| PDestroy (r : nat)
| PAccess (r id : nat)                (* info[state]: yields a new handle (numbered in order) *)
| PRead (k : nat) (j : I)             (* read element j through handle k *)
| PWrite (k : nat) (j : I) (x : A)    (* write element j through handle k *)
| PConst (r id : nat) (j : I).        (* read of element j through a const object *)
Arguments PNew {I A}. Arguments PGrow {I A}. Arguments PDestroy {I A}. Arguments PAccess {I A}.
Arguments PRead {I A}. Arguments PWrite {I A}. Arguments PConst {I A}.

Section Spec.
Context {I A : Type}.
Variable I_eqb : I -> I -> bool.
Variable valid : I -> Prop.
Variable default : I -> A.

Record pspec := {
  ps_size : nat -> option nat;               (* number of states of a live registry *)
  ps_value : nat -> nat -> I -> A;
  ps_touched : nat -> nat;                   (* states of the registry at the last non-const access *)
  ps_handles : list (option (nat * nat))     (* None: its registry was destroyed *)
}.
Definition ps_init : pspec :=
  {| ps_size := fun _ => None; ps_value := fun _ _ => default; ps_touched := fun _ => 0; ps_handles := [] |}.

Definition set_nat {B} (f : nat -> B) (r : nat) (b : B) : nat -> B := fun r' => if r' =? r then b else f r'.

(** The events a correct caller produces. *)
Definition pallowed (s : pspec) (e : pevent I A) : Prop :=
  match e with
  | PNew r => ps_size s r = None
  | PGrow r | PDestroy r => ps_size s r <> None
  | PAccess r id => exists n, ps_size s r = Some n /\ id < n
  | PRead k j | PWrite k j _ => valid j /\ exists x, nth_error (ps_handles s) k = Some (Some x)
  | PConst r id j => valid j /\ exists n, ps_size s r = Some n /\ id < n
  end.

Definition pstep (s : pspec) (e : pevent I A) : pspec :=
  match e with
  | PNew r => {| ps_size := set_nat (ps_size s) r (Some 0); ps_value := ps_value s; ps_touched := ps_touched s; ps_handles := ps_handles s |}
  | PGrow r => {| ps_size := set_nat (ps_size s) r (match ps_size s r with Some n => Some (S n) | None => None end);
                  ps_value := ps_value s; ps_touched := ps_touched s; ps_handles := ps_handles s |}
  | PDestroy r => {| ps_size := set_nat (ps_size s) r None; ps_value := set_nat (ps_value s) r (fun _ => default);
                     ps_touched := set_nat (ps_touched s) r 0;
                     ps_handles := map (fun h => match h with Some (r', id) => if r' =? r then None else Some (r', id) | None => None end) (ps_handles s) |}
  | PAccess r id => {| ps_size := ps_size s; ps_value := ps_value s;
                       ps_touched := set_nat (ps_touched s) r (match ps_size s r with Some n => n | None => 0 end);
                       ps_handles := ps_handles s ++ [Some (r, id)] |}
  | PWrite k j x =>
      match nth_error (ps_handles s) k with
      | Some (Some (r, id)) =>
          {| ps_size := ps_size s;
             ps_value := fun r' id' j' => if (r' =? r) && (id' =? id) && I_eqb j' j then x else ps_value s r' id' j';
             ps_touched := ps_touched s; ps_handles := ps_handles s |}
      | _ => s
      end
  | PRead _ _ | PConst _ _ _ => s
  end.

(** The value a read returns. *)
Definition pout (s : pspec) (e : pevent I A) : option A :=
  match e with
  | PRead k j => match nth_error (ps_handles s) k with Some (Some (r, id)) => Some (ps_value s r id j) | _ => None end
  | PConst r id j => Some (ps_value s r id j)
  | _ => None
  end.

Fixpoint prun (s : pspec) (es : list (pevent I A)) : pspec * list (option A) :=
  match es with
  | [] => (s, [])
  | e :: es => let '(s', out) := prun (pstep s e) es in (s', pout s e :: out)
  end.
Fixpoint plegal (s : pspec) (es : list (pevent I A)) : Prop :=
  match es with [] => True | e :: es => pallowed s e /\ plegal (pstep s e) es end.
(** Const reads of arrays only of entries that exist. *)
Definition pexists (s : pspec) (e : pevent I A) : Prop :=
  match e with PConst r id _ => id < ps_touched s r | _ => True end.
Fixpoint pexisting (s : pspec) (es : list (pevent I A)) : Prop :=
  match es with [] => True | e :: es => pexists s e /\ pexisting (pstep s e) es end.
End Spec.
Arguments pspec : clear implicits.

(** Bit sets: the elements are bits. *)
Inductive bevent :=
| BNew (r : nat) | BGrow (r : nat) | BDestroy (r : nat)
| BAccess (r id : nat)
| BSet (k i : nat) | BReset (k i : nat) | BResetAll (k : nat) | BTest (k i : nat)
| BIntersect (k other : nat)
| BConstTest (r id i : nat).

Section Bits.
Variable num_bits : nat.
Variable default : nat -> bool.
Definition live_handle {I A} (s : pspec I A) (k : nat) : Prop := exists x, nth_error (ps_handles s) k = Some (Some x).
Definition ballowed (s : pspec nat bool) (e : bevent) : Prop :=
  match e with
  | BNew r => ps_size s r = None
  | BGrow r | BDestroy r => ps_size s r <> None
  | BAccess r id => exists n, ps_size s r = Some n /\ id < n
  | BSet k i | BReset k i | BTest k i => i < num_bits /\ live_handle s k
  | BResetAll k => live_handle s k
  | BIntersect k other => live_handle s k /\ live_handle s other
  | BConstTest r id i => i < num_bits /\ id < ps_touched s r
  end.
(** Bit [i] of the entry with handle [k]. *)
Definition handle_value (s : pspec nat bool) (k i : nat) : bool :=
  match nth_error (ps_handles s) k with Some (Some (r, id)) => ps_value s r id i | _ => false end.
Definition change_entry (s : pspec nat bool) (k : nat) (f : nat -> bool) : pspec nat bool :=
  match nth_error (ps_handles s) k with
  | Some (Some (r, id)) =>
      {| ps_size := ps_size s; ps_value := fun r' id' i => if (r' =? r) && (id' =? id) then f i else ps_value s r' id' i;
         ps_touched := ps_touched s; ps_handles := ps_handles s |}
  | _ => s
  end.
Definition bspec_step (s : pspec nat bool) (e : bevent) : pspec nat bool :=
  match e with
  | BNew r => pstep Nat.eqb default s (PNew r)
  | BGrow r => pstep Nat.eqb default s (PGrow r)
  | BDestroy r => pstep Nat.eqb default s (PDestroy r)
  | BAccess r id => pstep Nat.eqb default s (PAccess r id)
  | BSet k i => change_entry s k (fun i' => if i' =? i then true else handle_value s k i')
  | BReset k i => change_entry s k (fun i' => if i' =? i then false else handle_value s k i')
  | BResetAll k => change_entry s k (fun _ => false)
  | BIntersect k other => change_entry s k (fun i => handle_value s k i && handle_value s other i)
  | BTest _ _ | BConstTest _ _ _ => s
  end.
Definition bspec_out (s : pspec nat bool) (e : bevent) : option bool :=
  match e with
  | BTest k i => Some (handle_value s k i)
  | BConstTest r id i => Some (ps_value s r id i)
  | _ => None
  end.
Fixpoint bspec_run (s : pspec nat bool) (es : list bevent) : pspec nat bool * list (option bool) :=
  match es with
  | [] => (s, [])
  | e :: es => let '(s', out) := bspec_run (bspec_step s e) es in (s', bspec_out s e :: out)
  end.
Fixpoint blegal (s : pspec nat bool) (es : list bevent) : Prop :=
  match es with [] => True | e :: es => ballowed s e /\ blegal (bspec_step s e) es end.
End Bits.

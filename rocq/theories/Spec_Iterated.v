(** Specification of a sequence of improving plans. *)
From Coq Require Import List.
Import ListNotations.

Definition below (c : nat) (b : option nat) : Prop := forall x, b = Some x -> c < x.

(** [saved] is strictly decreasing in cost and stays below the bound [b]. *)
Inductive improving {P : Type} (cost : P -> nat) : option nat -> list P -> Prop :=
| imp_nil : forall b, improving cost b []
| imp_cons : forall b p ps, below (cost p) b -> improving cost (Some (cost p)) ps -> improving cost b (p :: ps).

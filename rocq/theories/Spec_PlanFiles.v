(** Specification: plan files. *)
From Coq Require Import Ascii String List Arith.
From Coq Require Import DecimalString.
From Verif Require Import Spec_Format Spec_Task Spec_Relaxation Spec_CommandLine.
Import ListNotations.
Local Open Scope nat_scope.

(** Decimal notation. *)
Definition decimal (n : nat) : text := str (NilZero.string_of_uint (Nat.to_uint n)).

(** The files of a directory. *)
Definition files := text -> option text.

(** [file] is the plan file of [plan]: a line "(name)" per operator, then the cost of the plan
    and the kind of task. *)
Definition plan_file (t : task) (names : list text) (plan : list nat) (file : text) : Prop :=
  exists steps kind,
    Forall2 (fun o line => exists name, nth_error names o = Some name /\ line = str "(" ++ name ++ str ")" ++ [newline]) plan steps /\
    (kind = str "unit cost" /\ (forall op, In op (t_ops t) -> op_cost op = 1) \/
     kind = str "general cost" /\ (exists op, In op (t_ops t) /\ op_cost op <> 1)) /\
    file = concat steps ++ str "; cost = " ++ decimal (plan_cost t plan) ++ str " (" ++ kind ++ str ")" ++ [newline].

(** The file name for the [k]-th plan. *)
Definition plan_name (name : text) (numbered : bool) (k : nat) : text :=
  if numbered then name ++ str "." ++ decimal k else name.

(** Specification: conditional command-line arguments and old-style predefinitions. *)
From Coq Require Import Ascii String List Arith Bool.
From Verif Require Import Spec_Format.
Import ListNotations.
Local Open Scope nat_scope.


(** *** Conditional arguments *)

(** The switches and whether the arguments after them count for a task ([u]: unit cost). *)
Inductive switch (u : bool) : text -> bool -> Prop :=
| switch_unit : switch u (str "--if-unit-cost") u
| switch_non_unit : switch u (str "--if-non-unit-cost") (negb u)
| switch_always : switch u (str "--always") true.

(** Argument [a] at position [i] is to be used: it is no switch, and the last switch before it
    (if there is one) selects it. *)
Definition kept (u : bool) (args : list text) (i : nat) (a : text) : Prop :=
  nth_error args i = Some a /\ (forall b, ~ switch u a b) /\
  ((forall j x b, j < i -> nth_error args j = Some x -> ~ switch u x b) \/
   exists j x, j < i /\ nth_error args j = Some x /\ switch u x true /\
     forall j' x' b, j < j' < i -> nth_error args j' = Some x' -> ~ switch u x' b).

(** *** Predefinitions *)

Inductive item :=
| Predef (option key definition : text)    (* option key=definition *)
| Search (algorithm : text)                (* --search algorithm *)
| Other (argument : text).

Definition render_item (it : item) : list text :=
  match it with
  | Predef o k d => [o; k ++ str "=" ++ d]
  | Search s => [str "--search"; s]
  | Other a => [a]
  end.
Definition render (its : list item) : list text := flat_map render_item its.

Definition predef_option (o : text) : Prop :=
  o = str "--evaluator" \/ o = str "--heuristic" \/ o = str "--landmarks".
(** ASCII letters and digits. *)
Definition alnum (c : ascii) : Prop :=
  let n := nat_of_ascii c in 48 <= n <= 57 \/ 65 <= n <= 90 \/ 97 <= n <= 122.

Definition item_ok (it : item) : Prop :=
  match it with
  | Predef o k d => predef_option o /\ Forall alnum k
  | Search _ => True
  | Other a => ~ predef_option a /\ a <> str "--search"
  end.
Definition is_predef (it : item) : Prop := match it with Predef _ _ _ => True | _ => False end.
Definition is_search (it : item) : Prop := match it with Search _ => True | _ => False end.

(** At most one search, predefinitions only before it, and none without it. *)
Definition arrangement_ok (its : list item) : Prop :=
  Forall item_ok its /\
  ((forall it, In it its -> ~ is_predef it /\ ~ is_search it) \/
   exists before s after, its = before ++ Search s :: after /\
     (forall it, In it before -> ~ is_search it) /\
     (forall it, In it after -> ~ is_predef it /\ ~ is_search it)).

(** let(k1,d1,let(k2,d2,...s...)) *)
Fixpoint nested_let (defs : list (text * text)) (s : text) : text :=
  match defs with
  | [] => s
  | (k, d) :: rest => str "let(" ++ k ++ str "," ++ d ++ str "," ++ nested_let rest s ++ str ")"
  end.
Definition defs_of (its : list item) : list (text * text) :=
  flat_map (fun it => match it with Predef _ k d => [(k, d)] | _ => [] end) its.
(** The arguments with the predefinitions moved into the search argument. *)
Definition rewritten (its : list item) : list text :=
  flat_map (fun it => match it with
                      | Predef _ _ _ => []
                      | Search s => [str "--search"; nested_let (defs_of its) s]
                      | Other a => [a] end) its.

(** Parentheses: [depth n s m] reads [s] from nesting depth [n] to [m], never below zero. *)
Inductive depth : nat -> text -> nat -> Prop :=
| depth_nil : forall n, depth n [] n
| depth_open : forall n s m, depth (S n) s m -> depth n ("("%char :: s) m
| depth_close : forall n s m, depth n s m -> depth (S n) (")"%char :: s) m
| depth_other : forall n c s m, c <> "("%char -> c <> ")"%char -> depth n s m -> depth n (c :: s) m.
Definition balanced (s : text) : Prop := depth 0 s 0.

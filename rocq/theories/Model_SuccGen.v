(** Model of task_utils/successor_generator{,_factory,_internals}.{h,cc}.

    Simplifications: a contiguous range [begin, end) of the sorted operator vector is the
    sublist itself; the choice between a vector and a hash map for a switch node compares
    two memory estimates (successor_generator_factory.cc:213-216, utils/collections.h) and is an arbitrary
    function [use_hash] of the domain size and the number of children here. *)
From Verif Require Import Outcome Spec_Task Model_Task.

(* successor_generator_internals.h:13-107 *)
Inductive gen :=
| GForkBinary (g1 g2 : gen)
| GForkMulti (children : list gen)
| GSwitchVector (var : nat) (by_value : list (option gen))
| GSwitchHash (var : nat) (by_value : list (nat * gen))
| GSwitchSingle (var value : nat) (g : gen)
| GLeafVector (ops : list nat)
| GLeafSingle (op : nat).

(* the generate_applicable_ops methods, successor_generator_internals.cc:81-176: the
   operators appended to the output vector *)
Fixpoint generate (g : gen) (s : state) : outcome (list nat) :=
  match g with
  | GForkBinary g1 g2 =>                                       (* 81-85 *)
      let* a := generate g1 s in let* b := generate g2 s in Ok (a ++ b)
  | GForkMulti l =>                                            (* 97-101 *)
      (fix go (l : list gen) : outcome (list nat) :=
         match l with
         | [] => Ok []
         | g :: r => let* a := generate g s in let* b := go r in Ok (a ++ b)
         end) l
  | GSwitchVector v l =>                                       (* 109-117 *)
      let* val := vget s v in
      (fix at_ (l : list (option gen)) (n : nat) : outcome (list nat) :=
         match l, n with
         | [], _ => UB
         | o :: _, O => match o with Some g => generate g s | None => Ok [] end
         | _ :: r, S m => at_ r m
         end) l val
  | GSwitchHash v l =>                                         (* 126-134 *)
      let* val := vget s v in
      (fix find (l : list (nat * gen)) : outcome (list nat) :=
         match l with
         | [] => Ok []
         | (k, g) :: r => if k =? val then generate g s else find r
         end) l
  | GSwitchSingle v value g =>                                 (* 143-148 *)
      let* val := vget s v in
      if value =? val then generate g s else Ok []
  | GLeafVector ops => Ok ops                                  (* 155-167 *)
  | GLeafSingle op => Ok [op]                                  (* 173-176 *)
  end.

(* OperatorInfo, successor_generator_factory.cc:74-106 *)
Definition opinfo : Type := (nat * list fact)%type.

(* abstract_task.h:21-23 *)
Definition fact_ltb (a b : fact) : bool :=
  (fst a <? fst b) || ((fst a =? fst b) && (snd a <? snd b)).
(* vector<FactPair>::operator<: lexicographic *)
Fixpoint facts_ltb (a b : list fact) : bool :=
  match a, b with
  | _, [] => false
  | [], _ :: _ => true
  | x :: a', y :: b' => if fact_ltb x y then true else if fact_ltb y x then false else facts_ltb a' b'
  end.
(* 86-88 *)
Definition opinfo_ltb (a b : opinfo) : bool := facts_ltb (snd a) (snd b).

(* std::sort and std::stable_sort: stable insertion sort *)
Fixpoint insert {A} (ltb : A -> A -> bool) (x : A) (l : list A) : list A :=
  match l with
  | [] => [x]
  | y :: r => if ltb y x then y :: insert ltb x r else x :: l
  end.
Definition stable_sort {A} (ltb : A -> A -> bool) (l : list A) : list A := fold_right (insert ltb) [] l.

(* 95-101; [None] is -1 *)
Definition get_var (depth : nat) (o : opinfo) : outcome (option nat) :=
  if depth =? length (snd o) then Ok None
  else let* f := vget (snd o) depth in Ok (Some (fst f)).
(* 103-105 *)
Definition get_value (depth : nat) (o : opinfo) : outcome (option nat) :=
  let* f := vget (snd o) depth in Ok (Some (snd f)).

Definition key_eqb (a b : option nat) : bool :=
  match a, b with Some x, Some y => x =? y | None, None => true | _, _ => false end.

(* 147-157 OperatorGrouper::next, the do-while loop: operators with key [k] at the front of
   the range, and the rest *)
Fixpoint take_group (key : opinfo -> outcome (option nat)) (k : option nat) (l : list opinfo)
  : outcome (list opinfo * list opinfo) :=
  match l with
  | [] => Ok ([], [])
  | x :: r =>
      let* kx := key x in
      if key_eqb kx k then let* (g, rest) := take_group key k r in Ok (x :: g, rest)
      else Ok ([], l)
  end.
(* 236-237 / 250-251: all groups; each one shortens the range *)
Fixpoint groups (fuel : nat) (key : opinfo -> outcome (option nat)) (l : list opinfo)
  : outcome (list (option nat * list opinfo)) :=
  match l with
  | [] => Ok []
  | x :: r =>
      match fuel with
      | O => NoFuel
      | S f =>
          let* k := key x in
          let* (g, rest) := take_group key k r in
          let* gs := groups f key rest in
          Ok ((k, x :: g) :: gs)
      end
  end.

(* 166-179 *)
Definition construct_fork (nodes : list gen) : gen :=
  match nodes with
  | [a] => a
  | [a; b] => GForkBinary a b
  | _ => GForkMulti nodes
  end.

(* 181-196 *)
Definition construct_leaf (l : list opinfo) : gen :=
  match map fst l with
  | [o] => GLeafSingle o
  | ops => GLeafVector ops
  end.

(* generator_by_value[k] = g on an unordered_map *)
Fixpoint assoc_set (l : list (nat * gen)) (k : nat) (g : gen) : list (nat * gen) :=
  match l with
  | [] => [(k, g)]
  | (k', g') :: r => if k' =? k then (k, g) :: r else (k', g') :: assoc_set r k g
  end.

Section Factory.
Variable use_hash : nat -> nat -> bool.
Variable t : task.

(* 198-229 *)
Definition construct_switch (var : nat) (vg : list (nat * gen)) : outcome gen :=
  let* x := vget (t_vars t) var in
  match vg with
  | [] => UB                                                   (* 204 *)
  | [(value, g)] => Ok (GSwitchSingle var value g)
  | _ =>
      if use_hash (vdom x) (length vg) then
        Ok (GSwitchHash var (fold_left (fun m vg => assoc_set m (fst vg) (snd vg)) vg []))
      else
        let* l := fold_outcome (fun l vg => vset l (fst vg) (Some (snd vg))) vg (repeat None (vdom x)) in
        Ok (GSwitchVector var l)
  end.

(* 231-263; the recursion depth is at most the length of a precondition plus one *)
Fixpoint construct_recursive (fuel depth : nat) (range : list opinfo) : outcome gen :=
  match fuel with
  | O => NoFuel
  | S f =>
      let* var_groups := groups (length range) (get_var depth) range in
      let* nodes := (fix each (l : list (option nat * list opinfo)) : outcome (list gen) :=
        match l with
        | [] => Ok []
        | (None, g) :: r => let* rest := each r in Ok (construct_leaf g :: rest)
        | (Some var, g) :: r =>
            let* value_groups := groups (length g) (get_value depth) g in
            let* vg := (fix each_value (l : list (option nat * list opinfo)) : outcome (list (nat * gen)) :=
              match l with
              | [] => Ok []
              | (None, _) :: _ => UB
              | (Some value, g) :: r =>
                  let* child := construct_recursive f (S depth) g in
                  let* rest := each_value r in
                  Ok ((value, child) :: rest)
              end) value_groups in
            let* node := construct_switch var vg in
            let* rest := each r in
            Ok (node :: rest)
        end) var_groups in
      Ok (construct_fork nodes)
  end.

(* 265-273 *)
Definition build_sorted_precondition (op : operator) : list fact := stable_sort fact_ltb (op_pre op).

(* 275-290 *)
Definition create : outcome gen :=
  let infos := combine (seq 0 (length (t_ops t))) (map build_sorted_precondition (t_ops t)) in
  let sorted := stable_sort opinfo_ltb infos in
  construct_recursive (S (list_max (map (fun o => length (snd o)) infos))) 0 sorted.

(* successor_generator.cc:11-21 *)
Definition successor_generator (s : state) : outcome (list nat) :=
  let* g := create in generate g s.
End Factory.

(** Binary heaps in a vector: std::push_heap and std::pop_heap as libstdc++ implements them
    (bits/stl_heap.h, __push_heap and __adjust_heap), used by std::priority_queue in
    algorithms/priority_queues.h and directly in open_lists/epsilon_greedy_open_list.cc.

    [le x y] is the negation of the C++ comparator called on (x, y): with comparator
    "greater", the front of the vector is a least element.  Moving values into a hole and
    storing the held value at the end is modelled by swapping the held value along. *)
From Verif Require Import Outcome Model_OrderedSet.

Section M.
Context {T : Type}.
Variable le : T -> T -> bool.

Definition parent (i : nat) : nat := (i - 1) / 2.

(* __push_heap: move the element at [i] up *)
Fixpoint sift_up (fuel : nat) (l : list T) (i : nat) : outcome (list T) :=
  match fuel with
  | O => NoFuel
  | S f =>
      if i =? 0 then Ok l
      else
        let* x := vget l i in
        let* p := vget l (parent i) in
        if le p x then Ok l else sift_up f (swap l i (parent i)) (parent i)
  end.

(* __adjust_heap: move the hole at [i] down to a leaf along the smaller children *)
Fixpoint sift_down (fuel : nat) (l : list T) (i : nat) : outcome (list T * nat) :=
  match fuel with
  | O => NoFuel
  | S f =>
      if 2 * i + 2 <? length l then
        let* r := vget l (2 * i + 2) in
        let* c := vget l (2 * i + 1) in
        let child := if le r c then 2 * i + 2 else 2 * i + 1 in
        sift_down f (swap l i child) child
      else if 2 * i + 2 =? length l then Ok (swap l i (2 * i + 1), 2 * i + 1)
      else Ok (l, i)
  end.

(* push_back followed by push_heap *)
Definition heap_push (l : list T) (x : T) : outcome (list T) :=
  sift_up (S (length l)) (l ++ [x]) (length l).

(* front, then pop_heap and pop_back *)
Definition heap_pop (l : list T) : outcome (T * list T) :=
  match l with
  | [] => UB
  | top :: _ =>
      let l1 := removelast (swap l 0 (length l - 1)) in
      match l1 with
      | [] => Ok (top, [])
      | _ =>
          let* d := sift_down (S (length l1)) l1 0 in
          let* l2 := sift_up (S (snd d)) (fst d) (snd d) in
          Ok (top, l2)
      end
  end.
End M.

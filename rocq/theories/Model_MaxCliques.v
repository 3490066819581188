(** Model of algorithms/max_cliques.cc (Bron-Kerbosch with pivoting). *)
From Verif Require Import Outcome.

(* utils::is_sorted_unique *)
Fixpoint is_sorted_unique (l : list nat) : bool :=
  match l with
  | [] => true
  | x :: t => match t with [] => true | y :: _ => (x <? y) && is_sorted_unique t end
  end.

(* std::set_intersection of two sorted ranges, with back_inserter *)
Fixpoint set_intersection (a b : list nat) {struct a} : list nat :=
  let fix inner (b : list nat) : list nat :=
    match a with
    | [] => []
    | x :: a' =>
        match b with
        | [] => []
        | y :: b' => if x <? y then set_intersection a' b
                     else if y <? x then inner b'
                     else x :: set_intersection a' b'
        end
    end in inner b.

(* std::set_difference *)
Fixpoint set_difference (a b : list nat) {struct a} : list nat :=
  let fix inner (b : list nat) : list nat :=
    match a with
    | [] => []
    | x :: a' =>
        match b with
        | [] => a
        | y :: b' => if x <? y then x :: set_difference a' b
                     else if y <? x then inner b'
                     else set_difference a' b'
        end
    end in inner b.

(* 86: cand.erase(lower_bound(q)): erase the first element that is not less than q *)
Fixpoint erase_lower_bound (l : list nat) (q : nat) : outcome (list nat) :=
  match l with
  | [] => UB
  | x :: t => if x <? q then let* t' := erase_lower_bound t q in Ok (x :: t') else Ok t
  end.

Section M.
Variable graph : list (list nat).

(* 20-47 *)
Definition get_maximizing_vertex (subg cand : list nat) : outcome nat :=
  let* _ := guard (is_sorted_unique subg) in
  let* _ := guard (is_sorted_unique cand) in
  let* v0 := vget subg 0 in
  let* r := fold_outcome (fun acc v =>
      let '(best, max) := acc in
      let* adj := vget graph v in
      let k := length (set_intersection cand adj) in
      Ok (if max <? k then (v, k) else (best, max))) subg (v0, 0) in
  Ok (fst r).

(* 64-90: [ext] holds ext_u in reverse, so that its head is ext_u.back(); the result is
   max_cliques *)
Fixpoint branch (expand : list nat -> list nat -> list nat -> list (list nat) -> outcome (list (list nat)))
    (subg : list nat) (ext cand current : list nat) (out : list (list nat)) : outcome (list (list nat)) :=
  match ext with
  | [] => Ok out
  | q :: ext' =>
      let* adj := vget graph q in
      let subg_q := set_intersection subg adj in
      let cand_q := set_intersection cand adj in
      let* out1 := expand subg_q cand_q (current ++ [q]) out in
      let* cand1 := erase_lower_bound cand q in
      branch expand subg ext' cand1 current out1
  end.

(* 49-92 *)
Fixpoint expand (fuel : nat) (subg cand current : list nat) (out : list (list nat)) : outcome (list (list nat)) :=
  match fuel with
  | O => NoFuel
  | S f =>
      match subg with
      | [] => Ok (out ++ [current])
      | _ =>
          let* u := get_maximizing_vertex subg cand in
          let* adj := vget graph u in
          let ext_u := set_difference cand adj in
          branch (expand f) subg (rev ext_u) cand current out
      end
  end.

(* 100-117 *)
Definition compute_max_cliques : outcome (list (list nat)) :=
  let vertices := seq 0 (length graph) in
  expand (S (length graph)) vertices vertices [] [].
End M.

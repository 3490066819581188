(** Model of algorithms/sccs.cc (Tarjan's algorithm).  The recursion depth of the C++ code is
    limited by the call stack; the model is not. *)
From Verif Require Import Outcome.

Record tarjan := {   (* 43-52 *)
  t_num : list Z; t_min : list Z; t_idx : list Z; t_stack : list nat; t_next : Z; t_sccs : list (list nat) }.

(* 24 and 27: dfs_minima[vertex] = min(dfs_minima[vertex], m) *)
Definition lower_min (s : tarjan) (v : nat) (m : Z) : outcome tarjan :=
  let* old := vget (t_min s) v in
  let* mins := vset (t_min s) v (Z.min old m) in
  Ok {| t_num := t_num s; t_min := mins; t_idx := t_idx s; t_stack := t_stack s; t_next := t_next s; t_sccs := t_sccs s |}.

(* 31-40 *)
Definition pop_scc (s : tarjan) (v : nat) : outcome tarjan :=
  let* index := vget (t_idx s) v in
  let k := Z.to_nat index in
  let scc := skipn k (t_stack s) in
  let* idx := fold_outcome (fun idx x => vset idx x (-1)%Z) scc (t_idx s) in
  let* _ := guard (k <=? length (t_stack s)) in
  Ok {| t_num := t_num s; t_min := t_min s; t_idx := idx; t_stack := firstn k (t_stack s); t_next := t_next s;
        t_sccs := t_sccs s ++ [scc] |}.

(* 8-41; [fuel] bounds the recursion depth *)
Fixpoint dfs (fuel : nat) (g : list (list nat)) (v : nat) (s : tarjan) : outcome tarjan :=
  match fuel with
  | O => NoFuel
  | S f =>
      let d := t_next s in
      let* nums := vset (t_num s) v d in
      let* mins := vset (t_min s) v d in
      let* idx := vset (t_idx s) v (Z.of_nat (length (t_stack s))) in
      let s0 := {| t_num := nums; t_min := mins; t_idx := idx; t_stack := t_stack s ++ [v]; t_next := (d + 1)%Z; t_sccs := t_sccs s |} in
      let* succs := vget g v in
      let* s1 := fold_outcome (fun s succ =>
          let* succ_num := vget (t_num s) succ in
          if (succ_num =? -1)%Z then
            let* s' := dfs f g succ s in
            let* m := vget (t_min s') succ in
            lower_min s' v m
          else
            let* on_stack := vget (t_idx s) succ in
            if (succ_num <? d)%Z && negb (on_stack =? -1)%Z then lower_min s v succ_num else Ok s)
        succs s0 in
      let* m := vget (t_min s1) v in
      if (m =? d)%Z then pop_scc s1 v else Ok s1
  end.

(* 43-62 *)
Definition compute_maximal_sccs (g : list (list nat)) : outcome (list (list nat)) :=
  let n := length g in
  let s0 := {| t_num := repeat (-1)%Z n; t_min := repeat (-1)%Z n; t_idx := repeat (-1)%Z n; t_stack := []; t_next := 0; t_sccs := [] |} in
  let* s := fold_outcome (fun s i =>
      let* num := vget (t_num s) i in
      if (num =? -1)%Z then dfs (S n) g i s else Ok s) (seq 0 n) s0 in
  Ok (rev (t_sccs s)).

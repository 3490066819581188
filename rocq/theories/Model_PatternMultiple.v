(** The generators that call a pattern generator again and again:
    src/search/pdbs/pattern_collection_generator_multiple.cc and its two instances, and
    pattern_collection_generator_disjoint_cegar.cc.

    Time points are natural numbers: [now k j] is the j-th reading of the clock in iteration [k] (differences
    of time points are never negative, as the clock does not run backwards), [expired k] the check of
    the time limit in iteration [k].  The set of generated patterns is the list of the patterns of the
    generated databases.  Not modelled: logging. *)
From Verif Require Import Outcome Spec_Task Model_PQ Model_Evaluators Model_PDB Model_PDBCegar Model_PatternGenerators.
Import ListNotations.

Definition pdb_pattern (db : pdb) : list nat := pj_pattern (db_pj db).
(** pattern_collection_generator_multiple.h the members that change, and the local variables of
    compute_patterns (multiple.cc:182-200). *)
Record multi := { m_remaining : Z; m_blacklisting : bool; m_last : nat; m_nongoals : list nat; m_dbs : list pdb }.

(** utils.cc:64-80 get_non_goal_variables. *)
Definition non_goal_variables (t : task) : outcome (list nat) :=
  let* is_goal := fold_outcome (fun b (f : fact) => vset b (fst f) true) (t_goal t) (repeat false (length (t_vars t))) in
  fold_outcome (fun r v => let* b := vget is_goal v in if b : bool then Ok r else Ok (r ++ [v])) (seq 0 (length (t_vars t))) [].

Section Multiple.
Variable gen : nat -> Z -> fact -> list nat -> outcome pdb.        (* compute_pattern in iteration k *)
Variable now : nat -> nat -> nat.
Variable expired : nat -> bool.
Variable rnd : nat -> nat -> nat.                                  (* rng->random(n) *)
Variable shuffle : nat -> list nat -> list nat.
Variables stagnation_limit start_time : nat.
Variable on_stagnation : bool.
Variable max_pdb_size : Z.

(** multiple.cc:38-53 check_blacklist_trigger_timer. *)
Definition check_trigger (k : nat) (m : multi) : multi :=
  if negb (m_blacklisting m) && (start_time <? now k 0)
  then {| m_remaining := m_remaining m; m_blacklisting := true; m_last := now k 1; m_nongoals := m_nongoals m; m_dbs := m_dbs m |}
  else m.
(** multiple.cc:55-81 get_blacklisted_variables. *)
Definition get_blacklisted (k : nat) (m : multi) : outcome (list nat * multi) :=
  match m_blacklisting m, m_nongoals m with
  | true, _ :: _ =>
      let size := rnd k (length (m_nongoals m)) + 1 in
      let vs := shuffle k (m_nongoals m) in
      let* _ := guard (size <=? length vs) in
      Ok (firstn size vs, {| m_remaining := m_remaining m; m_blacklisting := m_blacklisting m; m_last := m_last m; m_nongoals := vs; m_dbs := m_dbs m |})
  | _, _ => Ok ([], m)
  end.
(** multiple.cc:83-101 handle_generated_pattern. *)
Definition handle (k : nat) (m : multi) (db : pdb) : outcome multi :=
  if existsb (fun d => if list_eq_dec Nat.eq_dec (pdb_pattern d) (pdb_pattern db) then true else false) (m_dbs m) then Ok m
  else
    let* _ := guard (INT_MIN <=? m_remaining m - Z.of_nat (pj_num (db_pj db)))%Z in
    Ok {| m_remaining := (m_remaining m - Z.of_nat (pj_num (db_pj db)))%Z; m_blacklisting := m_blacklisting m; m_last := now k 2;
          m_nongoals := m_nongoals m; m_dbs := m_dbs m ++ [db] |}.
(** multiple.cc:130-158 check_for_stagnation. *)
Definition check_stagnation (k : nat) (m : multi) : bool * multi :=
  if stagnation_limit <? now k 3 - m_last m then
    if on_stagnation then
      if m_blacklisting m then (true, m)
      else (false, {| m_remaining := m_remaining m; m_blacklisting := true; m_last := now k 4; m_nongoals := m_nongoals m; m_dbs := m_dbs m |})
    else (true, m)
  else (false, m).
(** multiple.cc:103-128, 206-232 the loop: the databases and the number of iterations. *)
Fixpoint multiple_loop (fuel k gi : nat) (goals : list fact) (m : multi) : outcome (list pdb * nat) :=
  match fuel with
  | 0 => NoFuel
  | S fuel =>
      let m := check_trigger k m in
      let* (black, m) := get_blacklisted k m in
      let* g := vget goals gi in
      let* db := gen k (Z.min (m_remaining m) max_pdb_size) g black in
      let* m := handle k m db in
      if (m_remaining m <=? 0)%Z then Ok (m_dbs m, k + 1)
      else if expired k then Ok (m_dbs m, k + 1)
      else
        let (stop, m) := check_stagnation k m in
        if stop : bool then Ok (m_dbs m, k + 1)
        else multiple_loop fuel (k + 1) ((gi + 1) mod length goals) goals m
  end.
(** multiple.cc:164-242 compute_patterns; [goals]: the goals in random order. *)
Definition multiple (fuel : nat) (t : task) (goals : list fact) (max_collection_size : Z) : outcome (list pdb * nat) :=
  let* ng := non_goal_variables t in
  multiple_loop fuel 0 0 goals
    {| m_remaining := max_collection_size; m_blacklisting := false; m_last := 0; m_nongoals := ng; m_dbs := [] |}.
End Multiple.

(** multiple_cegar.cc:32-41 compute_pattern. *)
Definition gen_cegar P q0 pdb_fuel shuffle choose pick (time_up : nat -> nat -> bool) t wildcard (k : nat) (limit : Z) (g : fact) (black : list nat) : outcome pdb :=
  cegar_pattern P q0 pdb_fuel (shuffle k) (choose k) (pick k) (time_up k) t limit wildcard g black.
(** multiple_random.cc:43-56 compute_pattern (blacklisting is not supported).  The neighbour lists stay
    shuffled between calls; here each call shuffles the original lists. *)
Definition gen_random P q0 pdb_fuel (shuffle : nat -> nat -> list nat -> list nat) (time_up : nat -> nat -> bool) t (nb : list (list nat)) (k : nat) (limit : Z) (g : fact) (black : list nat) : outcome pdb :=
  let* p := generate_random_pattern (shuffle k) (time_up k) limit t (fst g) nb in
  compute_pdb P q0 pdb_fuel t p [].

(** Specification: the text format of planning tasks (the translator's output format, version 3).

    A file is read line by line; lines of white space do not count.  The meaning of a file is
    given by the record [source]: [source_lines] lists the lines a file with that content has,
    a line being either literal text or a row of integers. *)
From Coq Require Import Ascii String List Arith ZArith Bool.
From Verif Require Import Spec_Task.
Import ListNotations.

Definition text := list ascii.
Definition str (s : string) : text := list_ascii_of_string s.

(** White space of the C locale: space, tab, newline, vertical tab, form feed, return. *)
Definition is_space (c : ascii) : bool :=
  let n := nat_of_ascii c in (n =? 32) || ((9 <=? n) && (n <=? 13)).
Definition newline : ascii := ascii_of_nat 10.
Definition blank (s : text) : Prop := forall c, In c s -> is_space c = true.

(** [ls] are the lines of [t]. *)
Inductive lines_of : text -> list text -> Prop :=
| lines_last : forall l, ~ In newline l -> lines_of l [l]
| lines_more : forall l t ls, ~ In newline l -> lines_of t ls -> lines_of (l ++ newline :: t) (l :: ls).

(** [ls'] are the lines of [ls] that are not blank. *)
Inductive content : list text -> list text -> Prop :=
| content_nil : content [] []
| content_skip : forall l ls ls', blank l -> content ls ls' -> content (l :: ls) ls'
| content_keep : forall l ls ls', ~ blank l -> content ls ls' -> content (l :: ls) (l :: ls').

(** [ws] are the maximal runs of non-space characters of [s]. *)
Inductive words : text -> list text -> Prop :=
| words_nil : forall s, blank s -> words s []
| words_cons : forall b w rest ws, blank b -> w <> [] -> (forall c, In c w -> is_space c = false) ->
    (rest = [] \/ exists c r, rest = c :: r /\ is_space c = true) -> words rest ws ->
    words (b ++ w ++ rest) (w :: ws).

(** Decimal numbers. *)
Definition digit (d : nat) : ascii := ascii_of_nat (48 + d).
Inductive decimal : text -> Z -> Prop :=
| decimal_one : forall d, d < 10 -> decimal [digit d] (Z.of_nat d)
| decimal_more : forall s z d, decimal s z -> d < 10 -> decimal (s ++ [digit d]) (10 * z + Z.of_nat d).
Definition int_min : Z := - 2 ^ 31.
Definition int_max : Z := 2 ^ 31 - 1.
Inductive int_token : text -> Z -> Prop :=
| int_plain : forall s z, decimal s z -> (z <= int_max)%Z -> int_token s z
| int_plus : forall s z, decimal s z -> (z <= int_max)%Z -> int_token ("+"%char :: s) z
| int_minus : forall s z, decimal s z -> (int_min <= - z)%Z -> int_token ("-"%char :: s) (- z).

(** Lines, and what a line of text may look like. *)
Inductive line := Raw (s : text) | Row (zs : list Z).
Definition line_is (s : text) (l : line) : Prop :=
  match l with
  | Raw r => s = r
  | Row zs => exists ws, words s ws /\ Forall2 int_token ws zs
  end.

(** Content of a file. *)
Record svar := { sv_name : text; sv_layer : option nat; sv_facts : list text }.
Record seffect := { se_cond : list fact; se_var : nat; se_pre : option nat; se_post : nat }.
Record sop := { so_name : text; so_prevail : list fact; so_effs : list seffect; so_cost : Z }.
Record srule := { sr_body : list fact; sr_var : nat; sr_pre : nat; sr_post : nat }.
Record source := {
  s_metric : bool;
  s_vars : list svar;
  s_mutexes : list (list fact);
  s_init : list nat;
  s_goal : list fact;
  s_ops : list sop;
  s_rules : list srule
}.

Local Notation z := Z.of_nat.
Definition magic (s : string) : line := Raw (str s).
Definition opt_z (o : option nat) : Z := match o with Some n => z n | None => -1 end.
Definition fact_line (f : fact) : line := Row [z (fst f); z (snd f)].
Definition fact_lines (fs : list fact) : list line := Row [z (length fs)] :: map fact_line fs.
Definition var_lines (v : svar) : list line :=
  [magic "begin_variable"; Raw (sv_name v); Row [opt_z (sv_layer v)]; Row [z (length (sv_facts v))]]
  ++ map Raw (sv_facts v) ++ [magic "end_variable"].
Definition mutex_lines (g : list fact) : list line :=
  magic "begin_mutex_group" :: fact_lines g ++ [magic "end_mutex_group"].
Definition effect_line (e : seffect) : line :=
  Row (z (length (se_cond e)) :: flat_map (fun f : fact => [z (fst f); z (snd f)]) (se_cond e)
       ++ [z (se_var e); opt_z (se_pre e); z (se_post e)]).
Definition op_lines (o : sop) : list line :=
  [magic "begin_operator"; Raw (so_name o)] ++ fact_lines (so_prevail o) ++
  [Row [z (length (so_effs o))]] ++ map effect_line (so_effs o) ++ [Row [so_cost o]; magic "end_operator"].
Definition rule_lines (r : srule) : list line :=
  magic "begin_rule" :: fact_lines (sr_body r) ++ [Row [z (sr_var r); z (sr_pre r); z (sr_post r)]; magic "end_rule"].

Definition source_lines (s : source) : list line :=
  [magic "begin_version"; Row [3%Z]; magic "end_version";
   magic "begin_metric"; Row [if s_metric s then 1%Z else 0%Z]; magic "end_metric"] ++
  Row [z (length (s_vars s))] :: flat_map var_lines (s_vars s) ++
  Row [z (length (s_mutexes s))] :: flat_map mutex_lines (s_mutexes s) ++
  magic "begin_state" :: map (fun n => Row [z n]) (s_init s) ++ [magic "end_state"] ++
  magic "begin_goal" :: fact_lines (s_goal s) ++ [magic "end_goal"] ++
  Row [z (length (s_ops s))] :: flat_map op_lines (s_ops s) ++
  Row [z (length (s_rules s))] :: flat_map rule_lines (s_rules s).

(** [t] is a text with content [s]. *)
Definition text_of (t : text) (s : source) : Prop :=
  exists ls cs, lines_of t ls /\ content ls cs /\ Forall2 line_is cs (source_lines s).

(** Restrictions on the content. *)
Definition svars_fact_ok (vs : list svar) (f : fact) : Prop :=
  exists v, nth_error vs (fst f) = Some v /\ snd f < length (sv_facts v).
Definition slayer (vs : list svar) (v : nat) : option nat :=
  match nth_error vs v with Some x => sv_layer x | None => None end.
Definition seffect_ok (vs : list svar) (e : seffect) : Prop :=
  Forall (svars_fact_ok vs) (se_cond e) /\ svars_fact_ok vs (se_var e, se_post e) /\
  (forall p, se_pre e = Some p -> svars_fact_ok vs (se_var e, p)) /\ slayer vs (se_var e) = None.
Definition srule_ok (vs : list svar) (init : list nat) (r : srule) : Prop :=
  Forall (svars_fact_ok vs) (sr_body r) /\ svars_fact_ok vs (sr_var r, sr_post r) /\
  nth_error init (sr_var r) = Some (sr_pre r) /\ sr_post r <> sr_pre r /\
  exists k, slayer vs (sr_var r) = Some k /\
    forall v d, In (v, d) (sr_body r) -> forall k', slayer vs v = Some k' ->
      k' <= k /\ (k' = k -> nth_error init v <> Some d).
Definition source_ok (s : source) : Prop :=
  s_vars s <> [] /\
  (forall v, In v (s_vars s) -> sv_facts v <> [] /\ (sv_layer v <> None -> length (sv_facts v) = 2)) /\
  Forall (Forall (svars_fact_ok (s_vars s))) (s_mutexes s) /\
  Forall2 (fun x v => x < length (sv_facts v)) (s_init s) (s_vars s) /\
  s_goal s <> [] /\ Forall (svars_fact_ok (s_vars s)) (s_goal s) /\ NoDup (map fst (s_goal s)) /\
  (forall o, In o (s_ops s) -> Forall (svars_fact_ok (s_vars s)) (so_prevail o) /\ so_effs o <> [] /\
     Forall (seffect_ok (s_vars s)) (so_effs o) /\ (s_metric s = true -> (0 <= so_cost o)%Z)) /\
  Forall (srule_ok (s_vars s) (s_init s)) (s_rules s).

(** The planning task a file describes, up to the values of derived variables in the initial
    state (which [s_init] gives only as default values). *)
Definition source_effect (e : seffect) : effect :=
  {| eff_cond := se_cond e; eff_fact := (se_var e, se_post e) |}.
Definition source_pre (e : seffect) : list fact :=
  match se_pre e with Some p => [(se_var e, p)] | None => [] end.
Definition source_op (metric : bool) (o : sop) : operator :=
  {| op_pre := so_prevail o ++ flat_map source_pre (so_effs o);
     op_effs := map source_effect (so_effs o);
     op_cost := if metric then Z.to_nat (so_cost o) else 1 |}.
Definition source_rule (r : srule) : rule := {| r_body := sr_body r; r_head := (sr_var r, sr_post r) |}.
Definition source_var (v : svar) (init : nat) : variable :=
  {| vdom := length (sv_facts v); vlayer := sv_layer v; vdefault := init |}.
Definition source_vars (s : source) : list variable :=
  map (fun vi => source_var (fst vi) (snd vi)) (combine (s_vars s) (s_init s)).
Definition source_task (s : source) : task :=
  {| t_vars := source_vars s; t_ops := map (source_op (s_metric s)) (s_ops s);
     t_rules := map source_rule (s_rules s); t_init := s_init s; t_goal := s_goal s |}.

(** Facts declared mutually exclusive. *)
Definition declared_mutex (groups : list (list fact)) (f g : fact) : Prop :=
  fst f <> fst g /\ exists grp, In grp groups /\ In f grp /\ In g grp.

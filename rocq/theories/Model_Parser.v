(** Model: reading a planning task (tasks/root_task.cc, utils/task_lexer.cc).

    Error contexts and line numbers only affect messages and are not modelled.  Memory is
    unbounded: reserve()/resize() never fail.  [isspace] is that of the C locale, with bytes
    above 127 (for which the C++ call has a negative argument) taken as non-space. *)
From Coq Require Import Ascii String List.
From Verif Require Import Outcome Spec_Task Spec_Format Model_Axioms.
Local Open Scope nat_scope.
Import ListNotations.

(* utils/system.h:49, and abort() *)
Definition input_error : Z := 33.
Definition abort_signal : Z := -6.

(** *** Lexer *)

(* task_lexer.cc:16-22 *)
Fixpoint is_whitespace (s : text) : bool :=
  match s with [] => true | c :: r => if is_space c then is_whitespace r else false end.

(* The stream: its remaining lines, as getline delivers them. *)
Fixpoint getlines (t : text) : list text :=
  match t with
  | [] => [[]]
  | c :: r => if Ascii.eqb c newline then [] :: getlines r
              else match getlines r with l :: ls => (c :: l) :: ls | [] => [[c]] end
  end.

(* task_lexer.cc:51-63; [] stands for end of file *)
Fixpoint get_next_nonempty_line (ls : list text) : text * list text :=
  match ls with
  | [] => ([], [])
  | l :: r => if is_whitespace l then get_next_nonempty_line r else (l, r)
  end.

(* istringstream >> word, repeated (task_lexer.cc:70-76) *)
Fixpoint tokenize (s : text) (word : text) : list text :=
  match s with
  | [] => match word with [] => [] | _ => [rev word] end
  | c :: r => if is_space c then match word with [] => tokenize r [] | _ => rev word :: tokenize r [] end
              else tokenize r (c :: word)
  end.

(* task_lexer.h:38-52 *)
Record lexer := { lx_lines : list text; lx_tokens : list text; lx_pos : nat }.
Definition sentinel : text := [newline].

Definition P (A : Type) := lexer -> outcome (A * lexer).
Definition ret {A} (a : A) : P A := fun lx => Ok (a, lx).
Definition perror {A} : P A := fun _ => Exit input_error.   (* throw TaskParserError, root_task.cc:725-729 *)
Definition pub {A} : P A := fun _ => UB.
Definition pbind {A B} (p : P A) (f : A -> P B) : P B :=
  fun lx => match p lx with Ok (a, lx') => f a lx' | UB => UB | Exit c => Exit c | NoFuel => NoFuel end.
Notation "'let!' x := m 'in' k" := (pbind m (fun x => k))
  (at level 200, x name, m at level 100, k at level 200, right associativity).
Definition lift {A} (o : outcome A) : P A :=
  fun lx => match o with Ok a => Ok (a, lx) | UB => UB | Exit c => Exit c | NoFuel => NoFuel end.

Definition text_eqb (a b : text) : bool := if list_eq_dec ascii_dec a b then true else false.

(* task_lexer.cc:65-82 *)
Definition initialize_tokens : P unit := fun lx =>
  let (line, rest) := get_next_nonempty_line (lx_lines lx) in
  match line with
  | [] => Exit input_error
  | _ => Ok (tt, {| lx_lines := rest; lx_tokens := tokenize line [] ++ [sentinel]; lx_pos := lx_pos lx |})
  end.

(* task_lexer.cc:84-90 *)
Definition pop_token : P text := fun lx =>
  match nth_error (lx_tokens lx) (lx_pos lx) with
  | Some t => Ok (t, {| lx_lines := lx_lines lx; lx_tokens := lx_tokens lx; lx_pos := S (lx_pos lx) |})
  | None => UB
  end.

Definition in_line_mode (lx : lexer) : bool := match lx_tokens lx with [] => false | _ => true end.

(* task_lexer.cc:100-109 *)
Definition lread : P text := fun lx =>
  let p := let! t := pop_token in if text_eqb t sentinel then perror else ret t in
  if in_line_mode lx then p lx else (let! _ := initialize_tokens in p) lx.

(* task_lexer.cc:111-121 *)
Definition read_line : P text := fun lx =>
  if in_line_mode lx then Exit abort_signal
  else
    let (line, rest) := get_next_nonempty_line (lx_lines lx) in
    match line with
    | [] => Exit input_error
    | _ => Ok (line, {| lx_lines := rest; lx_tokens := lx_tokens lx; lx_pos := lx_pos lx |})
    end.

(* task_lexer.cc:123-137 *)
Definition confirm_end_of_line : P unit := fun lx =>
  if in_line_mode lx then
    (let! t := pop_token in
     fun lx1 => if text_eqb t sentinel then Ok (tt, {| lx_lines := lx_lines lx1; lx_tokens := []; lx_pos := 0 |})
                else Exit input_error) lx
  else Exit abort_signal.

(* task_lexer.cc:139-147 *)
Definition confirm_end_of_input : P unit := fun lx =>
  if in_line_mode lx then Exit abort_signal
  else
    let (line, rest) := get_next_nonempty_line (lx_lines lx) in
    match line with
    | [] => Ok (tt, {| lx_lines := rest; lx_tokens := lx_tokens lx; lx_pos := lx_pos lx |})
    | _ => Exit input_error
    end.

(** *** Numbers *)

Definition digit_value (c : ascii) : option nat :=
  let n := nat_of_ascii c in if (48 <=? n) && (n <=? 57) then Some (n - 48) else None.

(* the digits stoi consumes: value and unconsumed rest *)
Fixpoint digits (s : text) (acc : Z) : Z * text :=
  match s with
  | [] => (acc, [])
  | c :: r => match digit_value c with Some d => digits r (10 * acc + Z.of_nat d) | None => (acc, s) end
  end.

(* root_task.cc:220-241: stoi accepts an optional sign and at least one digit, throws
   invalid_argument without a digit and out_of_range if the value is not an int; a rest is an error.
   (stoi also skips leading white space, which tokens do not have.) *)
Definition parse_int (token : text) : P Z :=
  let number (s : text) (sign : Z) : P Z :=
    match s with
    | c :: _ =>
        match digit_value c with
        | Some _ => let (v, rest) := digits s 0 in
            let n := (sign * v)%Z in
            if ((n <? int_min) || (int_max <? n))%Z then perror
            else match rest with [] => ret n | _ => perror end
        | None => perror
        end
    | [] => perror
    end in
  match token with
  | c :: r => if Ascii.eqb c "+"%char then number r 1%Z
              else if Ascii.eqb c "-"%char then number r (-1)%Z
              else number token 1%Z
  | [] => perror
  end.

(* root_task.cc:252-255 *)
Definition read_int : P Z := let! t := lread in parse_int t.
(* root_task.cc:244-250, 258-262; the result is a non-negative int, here a nat *)
Definition read_nat : P nat := let! n := read_int in if (n <? 0)%Z then perror else ret (Z.to_nat n).
(* root_task.cc:268-275 *)
Definition read_magic_line (m : string) : P unit :=
  let! l := read_line in if text_eqb l (str m) then ret tt else perror.

(* for (int i = 0; i < n; ++i) with a result pushed back each time *)
Fixpoint repeat_p {A} (n : nat) (p : P A) : P (list A) :=
  match n with
  | O => ret []
  | S n' => let! a := p in let! l := repeat_p n' p in ret (a :: l)
  end.

(** *** Sections *)

(* root_task.cc:21-27; axiom_layer is -1 for variables that are not derived.
   axiom_default_value is set by read_task before it is read. *)
Record evar := { ev_dom : nat; ev_name : text; ev_facts : list text; ev_layer : Z; ev_default : nat }.
(* root_task.cc:29-40 *)
Record eop := { eo_pre : list fact; eo_effs : list effect; eo_cost : Z; eo_name : text }.

(* root_task.cc:184-194 *)
Definition check_fact (vars : list evar) (var : nat) (value : Z) : P unit :=
  match nth_error vars var with
  | None => perror
  | Some v => if ((value <? 0) || (Z.of_nat (ev_dom v) <=? value))%Z then perror else ret tt
  end.

(* root_task.cc:196-218 *)
Fixpoint check_layering_condition (vars : list evar) (head : Z) (conds : list fact) : P unit :=
  match conds with
  | [] => ret tt
  | (var, value) :: r =>
      match nth_error vars var with
      | None => pub
      | Some v =>
          if (head <? ev_layer v)%Z then perror
          else if (ev_layer v =? head)%Z && (value =? ev_default v) then perror
          else check_layering_condition vars head r
      end
  end.

(* root_task.cc:278-304 *)
Definition read_facts (single_line : bool) (vars : list evar) : P (list fact) :=
  let! count := read_nat in
  let! _ := if single_line then ret tt else confirm_end_of_line in
  repeat_p count
    (let! var := read_nat in
     let! value := read_nat in
     let! _ := check_fact vars var (Z.of_nat value) in
     let! _ := if single_line then ret tt else confirm_end_of_line in
     ret (var, value)).

(* root_task.cc:306-350; the loop stores the i-th name in fact_names[i], resized to domain_size *)
Definition read_variable : P evar :=
  let! _ := read_magic_line "begin_variable" in
  let! name := read_line in
  let! layer := read_int in
  if (layer <? -1)%Z then perror else
  let! _ := confirm_end_of_line in
  let! dom := read_nat in
  if dom <? 1 then perror else
  if (0 <=? layer)%Z && negb (dom =? 2) then perror else
  let! _ := confirm_end_of_line in
  let! names := repeat_p dom read_line in
  let! _ := read_magic_line "end_variable" in
  ret {| ev_dom := dom; ev_name := name; ev_facts := names; ev_layer := layer; ev_default := 0 |}.

Section Checked.
(** [checked = false] is the code of /repo.  With [checked = true] the two unchecked accesses
    [variables[var]] (root_task.cc:357 and 407) are preceded by a range check. *)
Variable checked : bool.

Definition variables_at (vars : list evar) (var : nat) : P evar :=
  match nth_error vars var with
  | Some v => ret v
  | None => if checked then perror else pub
  end.

(* root_task.cc:352-400: adds one precondition and one effect *)
Definition read_pre_post_axiom (vars : list evar) (op : eop) : P eop :=
  let! conditions := read_facts false vars in
  let! var := read_nat in
  let! v := variables_at vars var in
  if (ev_layer v =? -1)%Z then perror else
  let! value_pre := read_int in
  if (value_pre =? -1)%Z then perror else
  let! _ := check_fact vars var value_pre in
  let! value_post := read_nat in
  let! _ := check_fact vars var (Z.of_nat value_post) in
  if negb (value_pre =? Z.of_nat (ev_default v))%Z then perror else
  if value_post =? ev_default v then perror else
  let! _ := check_layering_condition vars (ev_layer v) conditions in
  let! _ := confirm_end_of_line in
  ret {| eo_pre := eo_pre op ++ [(var, Z.to_nat value_pre)];
         eo_effs := eo_effs op ++ [{| eff_cond := conditions; eff_fact := (var, value_post) |}];
         eo_cost := eo_cost op; eo_name := eo_name op |}.

(* root_task.cc:402-431 *)
Definition read_conditional_effect (vars : list evar) (op : eop) : P eop :=
  let! conditions := read_facts true vars in
  let! var := read_nat in
  let! v := variables_at vars var in
  if negb (ev_layer v =? -1)%Z then perror else
  let! value_pre := read_int in
  if (value_pre <? -1)%Z then perror else
  let! pre := if negb (value_pre =? -1)%Z
              then let! _ := check_fact vars var value_pre in ret (eo_pre op ++ [(var, Z.to_nat value_pre)])
              else ret (eo_pre op) in
  let! value_post := read_nat in
  let! _ := check_fact vars var (Z.of_nat value_post) in
  let! _ := confirm_end_of_line in
  ret {| eo_pre := pre;
         eo_effs := eo_effs op ++ [{| eff_cond := conditions; eff_fact := (var, value_post) |}];
         eo_cost := eo_cost op; eo_name := eo_name op |}.

Fixpoint read_effects (n : nat) (vars : list evar) (op : eop) : P eop :=
  match n with
  | O => ret op
  | S n' => let! op' := read_conditional_effect vars op in read_effects n' vars op'
  end.

(* root_task.cc:433-480 *)
Definition read_operator (use_metric : bool) (vars : list evar) : P eop :=
  let! _ := read_magic_line "begin_operator" in
  let! name := read_line in
  let! pre := read_facts false vars in
  let! count := read_nat in
  if count <? 1 then perror else
  let! _ := confirm_end_of_line in
  let! op := read_effects count vars {| eo_pre := pre; eo_effs := []; eo_cost := 0; eo_name := name |} in
  let! specified_cost := read_int in
  let cost := if use_metric then specified_cost else 1%Z in
  if (cost <? 0)%Z then perror else
  let! _ := confirm_end_of_line in
  let! _ := read_magic_line "end_operator" in
  ret {| eo_pre := eo_pre op; eo_effs := eo_effs op; eo_cost := cost; eo_name := eo_name op |}.

(* root_task.cc:482-497 *)
Definition read_axiom (vars : list evar) : P eop :=
  let! _ := read_magic_line "begin_rule" in
  let! op := read_pre_post_axiom vars {| eo_pre := []; eo_effs := []; eo_cost := 0; eo_name := str "<axiom>" |} in
  let! _ := read_magic_line "end_rule" in
  ret op.

(* root_task.cc:499-512 *)
Definition read_and_verify_version : P unit :=
  let! _ := read_magic_line "begin_version" in
  let! version := read_nat in
  if negb (version =? 3) then perror else
  let! _ := confirm_end_of_line in
  read_magic_line "end_version".

(* root_task.cc:514-528 *)
Definition read_metric : P bool :=
  let! _ := read_magic_line "begin_metric" in
  let! m := read_int in
  if negb ((m =? 1) || (m =? 0))%Z then perror else
  let! _ := confirm_end_of_line in
  let! _ := read_magic_line "end_metric" in
  ret (m =? 1)%Z.

(* root_task.cc:530-546 *)
Definition read_variables : P (list evar) :=
  let! count := read_nat in
  if count <? 1 then perror else
  let! _ := confirm_end_of_line in
  repeat_p count read_variable.

(* vector<vector<set<FactPair>>>; a set is a list without repetitions *)
Definition mutex_table := list (list (list fact)).
Definition fact_eq_dec (f g : fact) : {f = g} + {f <> g}.
Proof. decide equality; apply Nat.eq_dec. Defined.
Definition set_insert (f : fact) (s : list fact) : list fact := if in_dec fact_eq_dec f s then s else f :: s.

(* root_task.cc:606-607 *)
Definition table_insert (m : mutex_table) (f1 f2 : fact) : outcome mutex_table :=
  let* row := vget m (fst f1) in
  let* set := vget row (snd f1) in
  let* row' := vset row (snd f1) (set_insert f2 set) in
  vset m (fst f1) row'.

(* root_task.cc:592-610 *)
Definition add_group (m : mutex_table) (group : list fact) : outcome mutex_table :=
  fold_outcome (fun m f1 =>
    fold_outcome (fun m f2 => if negb (fst f1 =? fst f2) then table_insert m f1 f2 else Ok m) group m) group m.

Fixpoint read_groups (n : nat) (vars : list evar) (m : mutex_table) : P mutex_table :=
  match n with
  | O => ret m
  | S n' =>
      let! _ := read_magic_line "begin_mutex_group" in
      let! num_facts := read_nat in
      let! _ := confirm_end_of_line in
      let! group := repeat_p num_facts
        (let! var := read_nat in
         let! value := read_nat in
         let! _ := check_fact vars var (Z.of_nat value) in
         let! _ := confirm_end_of_line in
         ret (var, value)) in
      let! _ := read_magic_line "end_mutex_group" in
      let! m' := lift (add_group m group) in
      read_groups n' vars m'
  end.

(* root_task.cc:548-615 *)
Definition read_mutexes (vars : list evar) : P mutex_table :=
  let! n := read_nat in
  let! _ := confirm_end_of_line in
  read_groups n vars (map (fun v => repeat [] (ev_dom v)) vars).

(* root_task.cc:617-638 *)
Fixpoint read_values (vars : list evar) (i n : nat) : P (list nat) :=
  match n with
  | O => ret []
  | S n' =>
      let! x := read_nat in
      let! _ := confirm_end_of_line in
      let! _ := check_fact vars i (Z.of_nat x) in
      let! l := read_values vars (S i) n' in
      ret (x :: l)
  end.
Definition read_initial_state (vars : list evar) : P (list nat) :=
  let! _ := read_magic_line "begin_state" in
  let! l := read_values vars 0 (length vars) in
  let! _ := read_magic_line "end_state" in
  ret l.

(* root_task.cc:653-661 *)
Fixpoint goal_vars_unique (goals : list fact) (seen : list nat) : bool :=
  match goals with
  | [] => true
  | g :: r => if existsb (Nat.eqb (fst g)) seen then false else goal_vars_unique r (fst g :: seen)
  end.

(* root_task.cc:640-664 *)
Definition read_goal (vars : list evar) : P (list fact) :=
  let! _ := read_magic_line "begin_goal" in
  let! goals := read_facts false vars in
  let! _ := read_magic_line "end_goal" in
  match goals with
  | [] => perror      (* exits with the same code *)
  | _ => if goal_vars_unique goals [] then ret goals else perror
  end.

(* root_task.cc:666-683 *)
Definition read_actions (is_axiom use_metric : bool) (vars : list evar) : P (list eop) :=
  let! count := read_nat in
  let! _ := confirm_end_of_line in
  repeat_p count (if is_axiom then read_axiom vars else read_operator use_metric vars).

(* root_task.cc:695-697 *)
Fixpoint set_defaults (vars : list evar) (init : list nat) : list evar :=
  match vars, init with
  | v :: vs, x :: xs =>
      {| ev_dom := ev_dom v; ev_name := ev_name v; ev_facts := ev_facts v; ev_layer := ev_layer v;
         ev_default := x |} :: set_defaults vs xs
  | _, _ => vars
  end.

(** The root task: the task proper, and what else the interface offers. *)
Record root_task := {
  rt_task : task;
  rt_mutexes : mutex_table;
  rt_var_names : list text;
  rt_fact_names : list (list text);
  rt_op_names : list text
}.

(* The interface of RootTask presents variables, operators and axioms as in [task]; rules have a
   single effect, whose precondition (the default value of the head) is implicit in [rule]. *)
Definition to_variable (v : evar) : variable :=
  {| vdom := ev_dom v; vlayer := if (ev_layer v =? -1)%Z then None else Some (Z.to_nat (ev_layer v));
     vdefault := ev_default v |}.
Definition to_operator (o : eop) : operator :=
  {| op_pre := eo_pre o; op_effs := eo_effs o; op_cost := Z.to_nat (eo_cost o) |}.
Definition to_rules (o : eop) : list rule :=
  map (fun e => {| r_body := eff_cond e; r_head := eff_fact e |}) (eo_effs o).

(* root_task.cc:688-720 *)
Definition read_task : P root_task :=
  let! _ := read_and_verify_version in
  let! use_metric := read_metric in
  let! variables := read_variables in
  let! mutexes := read_mutexes variables in
  let! init := read_initial_state variables in
  let variables := set_defaults variables init in
  let! goals := read_goal variables in
  let! operators := read_actions false use_metric variables in
  let! axioms := read_actions true use_metric variables in
  let! _ := confirm_end_of_input in
  let t0 := {| t_vars := map to_variable variables; t_ops := map to_operator operators;
               t_rules := flat_map to_rules axioms; t_init := init; t_goal := goals |} in
  let! init' := lift (let* ax := make_axeval t0 in evaluate ax init) in
  ret {| rt_task := {| t_vars := t_vars t0; t_ops := t_ops t0; t_rules := t_rules t0; t_init := init'; t_goal := goals |};
         rt_mutexes := mutexes; rt_var_names := map ev_name variables; rt_fact_names := map ev_facts variables;
         rt_op_names := map eo_name operators |}.

(* root_task.cc:722-730, 880-886 *)
Definition parse_task (t : text) : outcome root_task :=
  match read_task {| lx_lines := getlines t; lx_tokens := []; lx_pos := 0 |} with
  | Ok (rt, _) => Ok rt
  | UB => UB
  | Exit c => Exit c
  | NoFuel => NoFuel
  end.
End Checked.

(* root_task.cc:880-886 *)
Definition read_root_task : text -> outcome root_task := parse_task false.

(* root_task.cc:793-802 *)
Definition are_facts_mutex (rt : root_task) (f1 f2 : fact) : outcome bool :=
  if fst f1 =? fst f2 then Ok (negb (snd f1 =? snd f2))
  else
    let* row := vget (rt_mutexes rt) (fst f1) in
    let* set := vget row (snd f1) in
    Ok (if in_dec fact_eq_dec f2 set then true else false).

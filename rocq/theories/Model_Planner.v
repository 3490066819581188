(** Model of plan_manager.cc, the plan-saving part of search_algorithm.cc / iterated_search.cc
    and main() (planner.cc).

    Not modelled: log output, timers, signals and memory limits, the output of --help.  Costs
    and plan numbers are unbounded (int in the code). *)
From Coq Require Import Ascii String List.
From Verif Require Import Outcome Spec_Format Spec_Task Spec_CommandLine Spec_PlanFiles Model_Parser Model_CommandLine.
Import ListNotations.
Local Open Scope nat_scope.

(* plan_manager.cc:14-21 *)
Definition calculate_plan_cost (t : task) (plan : list nat) : outcome nat :=
  fold_outcome (fun c o => let* op := vget (t_ops t) o in Ok (c + op_cost op)) plan 0.

(* task_properties.cc:14-20 *)
Fixpoint is_unit_cost (ops : list operator) : bool :=
  match ops with [] => true | op :: r => if negb (op_cost op =? 1) then false else is_unit_cost r end.

(* plan_manager.h:13-16 *)
Record manager := { pm_name : text; pm_num : nat; pm_portfolio : bool }.

Definition write (fs : files) (name content : text) : files :=
  fun x => if text_eqb x name then Some content else fs x.

(* plan_manager.cc:60-64: one line per operator, written after [out] *)
Definition plan_lines (names : list text) (plan : list nat) (out : text) : outcome text :=
  fold_outcome (fun out o => let* name := vget names o in Ok (out ++ str "(" ++ name ++ str ")" ++ [newline])) plan out.

Section Save.
Variable writable : text -> bool.      (* whether the file can be opened *)

(* plan_manager.cc:43-73 save_plan; [None]: the file cannot be opened, the process ends with the
   input-error code.  (The assertion plan_number == 1 is not part of release builds.) *)
Definition save_plan (rt : root_task) (m : manager) (fs : files) (plan : list nat) (multiple : bool)
  : outcome (option (manager * files)) :=
  let plan_number := pm_num m + 1 in
  let filename := if multiple || pm_portfolio m then pm_name m ++ str "." ++ decimal plan_number else pm_name m in
  if writable filename then
    let* lines := plan_lines (rt_op_names rt) plan [] in
    let* cost := calculate_plan_cost (rt_task rt) plan in
    let unit_cost := is_unit_cost (t_ops (rt_task rt)) in
    let content := lines ++ str "; cost = " ++ decimal cost ++ str " (" ++
        (if unit_cost then str "unit cost" else str "general cost") ++ str ")" ++ [newline] in
    Ok (Some ({| pm_name := pm_name m; pm_num := pm_num m + 1; pm_portfolio := pm_portfolio m |},
              write fs filename content))
  else Ok None.

(** A finished search: the plans saved while searching (iterated_search.cc:135-138), the plan of
    found_solution() / get_plan(), and whether save_plan_if_necessary saves it
    (search_algorithm.cc:106-110) or does nothing (iterated_search.cc:197-200). *)
Record run := { run_saved : list (list nat); run_plan : option (list nat); run_final : bool }.

(** Saving several plans; the first component tells whether all files could be opened. *)
Fixpoint save_plans (rt : root_task) (m : manager) (fs : files) (plans : list (list nat))
  : outcome (bool * manager * files) :=
  match plans with
  | [] => Ok (true, m, fs)
  | p :: rest =>
      let* r := save_plan rt m fs p true in
      match r with
      | Some (m', fs') => save_plans rt m' fs' rest
      | None => Ok (false, m, fs)
      end
  end.

(** An exception from exit_with ends main with the exit code (planner.cc:81-85). *)
Definition catch {A} (o : outcome A) (fs : files) (k : A -> outcome (Z * files)) : outcome (Z * files) :=
  match o with Ok a => k a | Exit c => Ok (c, fs) | UB => UB | NoFuel => NoFuel end.

Definition success : Z := 0.                 (* utils/system.h:37-49 *)
Definition unsolved_incomplete : Z := 12.

(* planner.cc:55-80: search, save, exit code *)
Definition run_search (rt : root_task) (alg : root_task -> outcome run) (m : manager) (fs : files)
  : outcome (Z * files) :=
  catch (alg rt) fs (fun r =>
    let* x := save_plans rt m fs (run_saved r) in
    let '(ok, m, fs) := x in
    if ok then
      let* y := match run_plan r with
                | Some plan => if run_final r then save_plan rt m fs plan false else Ok (Some (m, fs))
                | None => Ok (Some (m, fs))
                end in
      match y with
      | Some (_, fs) => Ok (match run_plan r with Some _ => success | None => unsolved_incomplete end, fs)
      | None => Ok (input_error, fs)
      end
    else Ok (input_error, fs)).

(* planner.cc:15-86 main; [args] is argv without the program name, [input] the standard input.
   The result is the exit code and the files afterwards. *)
Definition planner (construct : text -> outcome (root_task -> outcome run)) (args : list text) (input : text) (fs : files)
  : outcome (Z * files) :=
  match args with
  | [] => Ok (input_error, fs)
  | a :: rest =>
      if (match rest with [] => true | _ => false end) && teq a "--internal-git-revision" then Ok (0%Z, fs)
      else
        catch (if teq a "--help" then Ok None else let* rt := read_root_task input in Ok (Some rt)) fs (fun task =>
        let unit_cost := match task with Some rt => is_unit_cost (t_ops (rt_task rt)) | None => false end in
        catch (parse_cmd_line construct args unit_cost) fs (fun o =>
        match o_search o with
        | None => UB                 (* planner.cc:65 search_algorithm->search() on a null pointer *)
        | Some alg =>
            match task with
            | None => UB             (* bind_task on a null task *)
            | Some rt => run_search rt alg {| pm_name := o_filename o; pm_num := Z.to_nat (o_previous o);
                                              pm_portfolio := o_portfolio o |} fs
            end
        end))
  end.
End Save.

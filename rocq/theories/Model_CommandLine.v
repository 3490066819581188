(** Model of command_line.cc (and the parts of utils/strings.cc it uses).
    Not modelled: the output of --help, error messages. *)
From Coq Require Import Ascii String List.
From Verif Require Import Outcome Spec_Format Spec_CommandLine Model_Parser.
Import ListNotations.
Local Open Scope nat_scope.

Definition teq (a : text) (b : string) : bool := text_eqb a (str b).

(* utils/strings.cc:53-57 (isalnum of the C locale; bytes above 127, for which the C++ call has
   a negative argument, are not alphanumeric) *)
Definition isalnum (c : ascii) : bool :=
  let n := nat_of_ascii c in
  ((48 <=? n) && (n <=? 57)) || ((65 <=? n) && (n <=? 90)) || ((97 <=? n) && (n <=? 122)).
Definition is_alpha_numeric (s : text) : bool := forallb isalnum s.

(* utils/strings.cc:37-51 split(s, "=", 1): at the first separator, if there is one *)
Fixpoint split_once (sep : ascii) (s : text) : option (text * text) :=
  match s with
  | [] => None
  | c :: r => if Ascii.eqb c sep then Some ([], r)
              else match split_once sep r with Some (a, b) => Some (c :: a, b) | None => None end
  end.

(* command_line.cc:40-86.  [buf] is the stream new_search_argument. *)
Fixpoint replace_loop (args : list text) (new_args : list text) (num : nat) (has : bool) (buf : text)
  : outcome (list text) :=
  match args with
  | [] => if negb has && (0 <? num) then Exit input_error else Ok new_args
  | arg :: rest =>
      if teq arg "--evaluator" || teq arg "--heuristic" || teq arg "--landmarks" then
        if has then Exit input_error
        else match rest with
             | [] => Exit input_error
             | a :: rest' =>
                 match split_once "="%char a with
                 | None => Exit input_error
                 | Some (key, definition) =>
                     if negb (is_alpha_numeric key) then Exit input_error
                     else replace_loop rest' new_args (S num) has
                            (buf ++ str "let(" ++ key ++ str "," ++ definition ++ str ",")
                 end
             end
      else if teq arg "--search" then
        if has then Exit input_error
        else match rest with
             | [] => Exit input_error
             | a :: rest' =>
                 let buf := buf ++ a ++ repeat ")"%char num in
                 replace_loop rest' (new_args ++ [str "--search"; buf]) num true buf
             end
      else replace_loop rest (new_args ++ [arg]) num has buf
  end.
Definition replace_old_style_predefinitions (args : list text) : outcome (list text) :=
  replace_loop args [] 0 false [].

(* command_line.cc:29-38 parse_int_arg: stoi skips white space, accepts a sign and at least one
   digit and ignores what follows. *)
Fixpoint skip_space (s : text) : text :=
  match s with [] => [] | c :: r => if is_space c then skip_space r else s end.
Definition stoi_digits (s : text) (sign : Z) : outcome Z :=
  match s with
  | c :: _ =>
      match digit_value c with
      | Some _ => let n := (sign * fst (digits s 0))%Z in
                  if ((n <? int_min) || (int_max <? n))%Z then Exit input_error else Ok n
      | None => Exit input_error
      end
  | [] => Exit input_error
  end.
Definition parse_int_arg (value : text) : outcome Z :=
  match skip_space value with
  | c :: r => if Ascii.eqb c "+"%char then stoi_digits r 1
              else if Ascii.eqb c "-"%char then stoi_digits r (-1)
              else stoi_digits (c :: r) 1
  | [] => Exit input_error
  end.

(* command_line.h:11-16 struct ParsedSearchOptions *)
Record options (A : Type) := {
  o_search : option A; o_filename : text; o_previous : Z; o_portfolio : bool }.
Arguments o_search {A}. Arguments o_filename {A}. Arguments o_previous {A}. Arguments o_portfolio {A}.
Definition default_options {A} : options A :=
  {| o_search := None; o_filename := str "sas_plan"; o_previous := 0%Z; o_portfolio := false |}.

(* command_line.cc:88-167 parse_cmd_line_aux.  [construct] interprets the argument of --search
   (tokenizing, parsing, decorating and constructing, 105-119); it yields an object or an input error. *)
Section Options.
Context {A : Type}.
Variable construct : text -> outcome A.
Fixpoint parse_cmd_line_aux (args : list text) (o : options A) : outcome (options A) :=
  match args with
  | [] => Ok o
  | arg :: rest =>
      if teq arg "--search" then
        match o_search o with
        | Some _ => Exit input_error
        | None =>
            match rest with
            | [] => Exit input_error
            | a :: rest' =>
                let* alg := construct a in
                parse_cmd_line_aux rest' {| o_search := Some alg; o_filename := o_filename o;
                                            o_previous := o_previous o; o_portfolio := o_portfolio o |}
            end
        end
      else if teq arg "--help" then Exit 0
      else if teq arg "--internal-plan-file" then
        match rest with
        | [] => Exit input_error
        | a :: rest' => parse_cmd_line_aux rest' {| o_search := o_search o; o_filename := a;
                                                    o_previous := o_previous o; o_portfolio := o_portfolio o |}
        end
      else if teq arg "--internal-previous-portfolio-plans" then
        match rest with
        | [] => Exit input_error
        | a :: rest' =>
            let* n := parse_int_arg a in
            if (n <? 0)%Z then Exit input_error
            else parse_cmd_line_aux rest' {| o_search := o_search o; o_filename := o_filename o;
                                             o_previous := n; o_portfolio := true |}
        end
      else Exit input_error
  end.

(* command_line.cc:169-187 parse_cmd_line; [args] is argv without the program name *)
Fixpoint filter_args (unit_cost active : bool) (args : list text) : list text :=
  match args with
  | [] => []
  | arg :: rest =>
      if teq arg "--if-unit-cost" then filter_args unit_cost unit_cost rest
      else if teq arg "--if-non-unit-cost" then filter_args unit_cost (negb unit_cost) rest
      else if teq arg "--always" then filter_args unit_cost true rest
      else if active then arg :: filter_args unit_cost active rest
      else filter_args unit_cost active rest
  end.
Definition parse_cmd_line (args : list text) (unit_cost : bool) : outcome (options A) :=
  let args := filter_args unit_cost true args in
  let* args := replace_old_style_predefinitions args in
  parse_cmd_line_aux args default_options.
End Options.

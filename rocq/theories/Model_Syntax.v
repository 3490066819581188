(** Model of parser/syntax_analyzer.cc and parser/token_stream.cc.

    A token stream is modelled by the tokens from the current position on.  The unordered map of
    keyword arguments is modelled by the list of its entries in insertion order.  Errors are
    ContextErrors, which end the program with an input error (command_line.cc:105-119).  Not
    modelled: error messages, resource limits on the recursion depth. *)
From Coq Require Import Ascii String List.
From Verif Require Import Outcome Spec_Format Spec_Options Model_Parser Model_Lexer.
Import ListNotations.
Local Open Scope nat_scope.

Definition ty_eqb (a b : token_type) : bool :=
  match a, b with
  | OPENING_PARENTHESIS, OPENING_PARENTHESIS | CLOSING_PARENTHESIS, CLOSING_PARENTHESIS
  | OPENING_BRACKET, OPENING_BRACKET | CLOSING_BRACKET, CLOSING_BRACKET | COMMA, COMMA | EQUALS, EQUALS
  | LET, LET | BOOLEAN, BOOLEAN | STRING, STRING | FLOAT, FLOAT | INTEGER, INTEGER | IDENTIFIER, IDENTIFIER => true
  | _, _ => false
  end.
Fixpoint text_eq (a b : text) : bool :=
  match a, b with
  | [], [] => true
  | x :: a, y :: b => Ascii.eqb x y && text_eq a b
  | _, _ => false
  end.

Definition error {A} : outcome A := Exit input_error.
(* token_stream.cc:35-43 *)
Definition peek (ts : list token) : outcome token := match ts with t :: _ => Ok t | [] => error end.
(* token_stream.cc:45-50 *)
Definition pop (ts : list token) : outcome (token * list token) := match ts with t :: r => Ok (t, r) | [] => error end.
(* token_stream.cc:52-66 *)
Definition pop_type (ty : token_type) (ts : list token) : outcome (token * list token) :=
  let* (t, r) := pop ts in if ty_eqb (tk_type t) ty then Ok (t, r) else error.
(* token_stream.cc:76-85, from the position where [ts] remained to the one where [rest] remains *)
Definition stream_str (ts rest : list token) : text :=
  fold_left (fun out t => out ++ tk_content t) (firstn (length ts - length rest) ts) [].

Definition args := (list ast * list (text * ast))%type.

(* syntax_analyzer.cc:49-72 *)
Definition parse_argument (parse_node : list token -> outcome (ast * list token)) (st : args) (ts : list token)
  : outcome (args * list token) :=
  let '(positional, keyword) := st in
  match ts with
  | x :: e :: r =>
      if ty_eqb (tk_type x) IDENTIFIER && ty_eqb (tk_type e) EQUALS then
        if existsb (fun k => text_eq (fst k) (tk_content x)) keyword then error else
        let* (a, rest) := parse_node r in
        Ok ((positional, keyword ++ [(tk_content x, a)]), rest)
      else
        match keyword with
        | _ :: _ => error
        | [] => let* (a, rest) := parse_node ts in Ok ((positional ++ [a], keyword), rest)
        end
  | _ =>
      match keyword with
      | _ :: _ => error
      | [] => let* (a, rest) := parse_node ts in Ok ((positional ++ [a], keyword), rest)
      end
  end.

(* syntax_analyzer.cc:108-141; every round consumes a comma *)
Fixpoint parse_sequence {S} (func : S -> list token -> outcome (S * list token)) (terminal : token_type)
  (fuel : nat) (st : S) (ts : list token) : outcome (S * list token) :=
  match fuel with
  | 0 => NoFuel
  | Datatypes.S fuel =>
      let* t := peek ts in
      if ty_eqb (tk_type t) terminal then Ok (st, ts) else
      let* (st, ts) := func st ts in
      let* next := peek ts in
      if ty_eqb (tk_type next) terminal then Ok (st, ts)
      else if ty_eqb (tk_type next) COMMA then
        let* (_, ts) := pop ts in
        let* t := peek ts in
        if ty_eqb (tk_type t) terminal then error        (* trailing commas are forbidden *)
        else parse_sequence func terminal fuel st ts
      else error
  end.

(* syntax_analyzer.cc:74-106 *)
Definition parse_let (parse_node : list token -> outcome (ast * list token)) (ts : list token) : outcome (ast * list token) :=
  let* (_, ts) := pop_type LET ts in
  let* (_, ts) := pop_type OPENING_PARENTHESIS ts in
  let* (x, ts) := pop_type IDENTIFIER ts in
  let* (_, ts) := pop_type COMMA ts in
  let* (definition, ts) := parse_node ts in
  let* (_, ts) := pop_type COMMA ts in
  let* (nested, ts) := parse_node ts in
  let* (_, ts) := pop_type CLOSING_PARENTHESIS ts in
  Ok (Let (tk_content x) definition nested, ts).

(* syntax_analyzer.cc:143-171 *)
Definition parse_function (parse_node : list token -> outcome (ast * list token)) (ts0 : list token) : outcome (ast * list token) :=
  let* (x, ts) := pop_type IDENTIFIER ts0 in
  let* (_, ts) := pop_type OPENING_PARENTHESIS ts in
  let* (st, ts) := parse_sequence (parse_argument parse_node) CLOSING_PARENTHESIS (Datatypes.S (length ts)) ([], []) ts in
  let* (_, ts) := pop_type CLOSING_PARENTHESIS ts in
  Ok (Call (tk_content x) (fst st) (snd st) (stream_str ts0 ts), ts).

(* syntax_analyzer.cc:173-187 *)
Definition parse_literal (ts : list token) : outcome (ast * list token) :=
  let* (t, ts) := pop ts in
  if existsb (ty_eqb (tk_type t)) [BOOLEAN; STRING; INTEGER; FLOAT; IDENTIFIER] then Ok (Literal t, ts) else error.

(* syntax_analyzer.cc:195-199 *)
Definition parse_element (parse_node : list token -> outcome (ast * list token)) (els : list ast) (ts : list token)
  : outcome (list ast * list token) :=
  let* (a, ts) := parse_node ts in Ok (els ++ [a], ts).
(* syntax_analyzer.cc:189-203 *)
Definition parse_list (parse_node : list token -> outcome (ast * list token)) (ts : list token) : outcome (ast * list token) :=
  let* (_, ts) := pop_type OPENING_BRACKET ts in
  let* (els, ts) := parse_sequence (parse_element parse_node) CLOSING_BRACKET (Datatypes.S (length ts)) [] ts in
  let* (_, ts) := pop_type CLOSING_BRACKET ts in
  Ok (List_ els, ts).

(* syntax_analyzer.cc:205-244; a nested node starts after at least one consumed token *)
Fixpoint parse_node (fuel : nat) (ts : list token) : outcome (ast * list token) :=
  match fuel with
  | 0 => NoFuel
  | Datatypes.S fuel =>
      let* t := peek ts in
      if negb (existsb (ty_eqb (tk_type t)) [OPENING_BRACKET; LET; BOOLEAN; STRING; INTEGER; FLOAT; IDENTIFIER]) then error else
      match tk_type t with
      | OPENING_BRACKET => parse_list (parse_node fuel) ts
      | LET => parse_let (parse_node fuel) ts
      | BOOLEAN | STRING | INTEGER | FLOAT => parse_literal ts
      | IDENTIFIER =>
          match ts with
          | _ :: t1 :: _ => if ty_eqb (tk_type t1) OPENING_PARENTHESIS then parse_function (parse_node fuel) ts else parse_literal ts
          | _ => parse_literal ts
          end
      | _ => Exit (-6)                                     (* ABORT *)
      end
  end.

(* syntax_analyzer.cc:246-259 *)
Definition parse (ts : list token) : outcome ast :=
  match ts with
  | [] => error
  | _ =>
      let* (a, rest) := parse_node (Datatypes.S (length ts)) ts in
      match rest with [] => Ok a | _ => error end
  end.

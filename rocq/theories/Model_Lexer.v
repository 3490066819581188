(** Model of parser/lexical_analyzer.cc.

    std::regex with the ECMAScript grammar tries alternatives from left to right and repetitions
    greedily, with backtracking; [matches] lists the possible matches in this order and the
    library returns the first.  Characters are compared ignoring case (regex_constants::icase,
    C locale).  Not modelled: the text of error messages; resource limits of std::regex (its
    recursion can exhaust the stack on very long tokens). *)
From Coq Require Import Ascii String List.
From Verif Require Import Outcome Spec_Format Spec_Options Model_Parser.
Import ListNotations.
Local Open Scope nat_scope.

Inductive re :=
| Eps
| Cls (f : ascii -> bool)       (* a character class *)
| Seq (a b : re)
| Alt (a b : re)
| Star (a : re)
| WordBoundary.                 (* \b *)

Definition digitb (c : ascii) : bool := (48 <=? code c) && (code c <=? 57).
Definition letterb (c : ascii) : bool := ((65 <=? code c) && (code c <=? 90)) || ((97 <=? code c) && (code c <=? 122)).
Definition wordb (c : ascii) : bool := digitb c || letterb c || Ascii.eqb c "_"%char.
Definition spaceb (c : ascii) : bool := ((9 <=? code c) && (code c <=? 13)) || (code c =? 32).

(** A position: the character before it (if any) and the text after it. *)
Definition pos := (option ascii * text)%type.
Definition is_word (c : option ascii) : bool := match c with Some c => wordb c | None => false end.

Fixpoint matches (r : re) (p : pos) : list pos :=
  match r with
  | Eps => [p]
  | Cls f => match snd p with c :: t => if f c then [(Some c, t)] else [] | [] => [] end
  | Seq a b => flat_map (matches b) (matches a p)
  | Alt a b => matches a p ++ matches b p
  | Star a =>
      (fix go (n : nat) (p : pos) : list pos :=
         match n with
         | 0 => [p]
         | S n => flat_map (fun q => if length (snd q) <? length (snd p) then go n q else []) (matches a p) ++ [p]
         end) (length (snd p)) p
  | WordBoundary => if Bool.eqb (is_word (fst p)) (is_word (hd_error (snd p))) then [] else [p]
  end.

(** Notation of regular expressions. *)
Definition chr (c : ascii) : re := Cls (fun x => Ascii.eqb (lower x) (lower c)).
Fixpoint lit (s : text) : re := match s with [] => Eps | c :: r => Seq (chr c) (lit r) end.
Definition opt (r : re) : re := Alt r Eps.
Definition D : re := Cls digitb.
Definition sgn : re := Cls (fun c => Ascii.eqb c "+"%char || Ascii.eqb c "-"%char).                 (* [+-] *)
Definition kmg : re := Cls (fun c => existsb (Ascii.eqb (lower c)) [ "k"; "m"; "g" ]%char).          (* [kmg] *)
Definition W : re := Cls wordb.
Definition expo : re := Seq (chr "e") (Seq (opt sgn) (Seq D (Star D))).                             (* e[+-]?\d+ *)
Definition multi : re := Seq kmg WordBoundary.                                                      (* [kmg]\b *)

(* lexical_analyzer.cc:20-44 construct_token_type_expressions *)
Definition expression (ty : token_type) : re :=
  match ty with
  | OPENING_PARENTHESIS => chr "("
  | CLOSING_PARENTHESIS => chr ")"
  | OPENING_BRACKET => chr "["
  | CLOSING_BRACKET => chr "]"
  | COMMA => chr ","
  | EQUALS => chr "="
  | LET => lit (str "let")
  | BOOLEAN => Alt (lit (str "true")) (lit (str "false"))
  | STRING =>                                                     (* "(\\\\|\\"|\\n|[^"\\])*" *)
      Seq (chr quote) (Seq (Star (Alt (lit [backslash; backslash]) (Alt (lit [backslash; quote])
        (Alt (lit [backslash; "n"%char]) (Cls (fun c => negb (Ascii.eqb c quote || Ascii.eqb c backslash)))))))
        (chr quote))
  | FLOAT =>                     (* [+-]?(((\d*\.\d+|\d+\.)(e[+-]?\d+|[kmg]\b)?)|\d+e[+-]?\d+) *)
      Seq (opt sgn)
        (Alt (Seq (Alt (Seq (Star D) (Seq (chr ".") (Seq D (Star D)))) (Seq D (Seq (Star D) (chr "."))))
                  (opt (Alt expo multi)))
             (Seq D (Seq (Star D) expo)))
  | INTEGER =>                   (* [+-]?(infinity|\d+([kmg]\b)?) *)
      Seq (opt sgn) (Alt (lit (str "infinity")) (Seq D (Seq (Star D) (opt multi))))
  | IDENTIFIER => Seq (Cls (fun c => letterb c || Ascii.eqb c "_"%char)) (Star W)   (* [a-zA-Z_]\w* *)
  end.
Definition token_type_expressions : list (token_type * re) :=
  map (fun ty => (ty, expression ty))
    [OPENING_PARENTHESIS; CLOSING_PARENTHESIS; OPENING_BRACKET; CLOSING_BRACKET; COMMA; EQUALS;
     LET; BOOLEAN; STRING; FLOAT; INTEGER; IDENTIFIER].

(* lexical_analyzer.cc:13-17 build_regex "^\s*(r)\s*", 92-96 regex_search with match_continuous:
   the matches as pairs of the positions before and after the group and at the end *)
Definition search (r : re) (t : text) : list (pos * pos * pos) :=
  flat_map (fun p1 => flat_map (fun p2 => map (fun p3 => (p1, p2, p3)) (matches (Star (Cls spaceb)) p2))
                               (matches r p1))
           (matches (Star (Cls spaceb)) (None, t)).

(* lexical_analyzer.cc:90-101 *)
Fixpoint next_token (table : list (token_type * re)) (t : text) : option (token * text) :=
  match table with
  | [] => None
  | (ty, r) :: rest =>
      match search r t with
      | (p1, p2, p3) :: _ =>
          let raw := firstn (length (snd p1) - length (snd p2)) (snd p1) in      (* match[1] *)
          (* token_stream.cc:14-24 Token::Token *)
          Some ({| tk_content := match ty with BOOLEAN | INTEGER | FLOAT | IDENTIFIER => map lower raw | _ => raw end;
                   tk_type := ty |}, snd p3)
      | [] => next_token rest t
      end
  end.

(* lexical_analyzer.cc:77-110 split_tokens; context.error ends the program with an input error
   (command_line.cc:105-119).  Every round consumes a character, so the length is enough fuel. *)
Fixpoint split_loop (fuel : nat) (t : text) (acc : list token) : outcome (list token) :=
  match t with
  | [] => Ok acc
  | _ =>
      match fuel with
      | 0 => NoFuel
      | S fuel =>
          match next_token token_type_expressions t with
          | Some (tok, rest) => split_loop fuel rest (acc ++ [tok])
          | None => Exit input_error
          end
      end
  end.
Definition split_tokens (t : text) : outcome (list token) := split_loop (length t) t [].

(** Specification of the option language: tokens and grammar. *)
From Coq Require Import Ascii String List Arith Bool.
From Verif Require Import Spec_Format.
Import ListNotations.
Local Open Scope nat_scope.

Inductive token_type :=
| OPENING_PARENTHESIS | CLOSING_PARENTHESIS | OPENING_BRACKET | CLOSING_BRACKET | COMMA | EQUALS
| LET | BOOLEAN | STRING | FLOAT | INTEGER | IDENTIFIER.
Record token := { tk_content : text; tk_type : token_type }.

(** *** Characters (ASCII) *)
Definition code := nat_of_ascii.
Definition digit (c : ascii) : Prop := 48 <= code c <= 57.
Definition letter (c : ascii) : Prop := 65 <= code c <= 90 \/ 97 <= code c <= 122.
Definition word_char (c : ascii) : Prop := digit c \/ letter c \/ c = "_"%char.
Definition space (c : ascii) : Prop := 9 <= code c <= 13 \/ code c = 32.
Definition lower (c : ascii) : ascii :=
  if (65 <=? code c) && (code c <=? 90) then ascii_of_nat (code c + 32) else c.
Definition lower_text : text -> text := map lower.
Definition backslash : ascii := "\"%char.
Definition quote : ascii := """"%char.

(** *** Lexemes *)
Definition digits1 (s : text) : Prop := s <> [] /\ Forall digit s.
Definition sign (s : text) : Prop := s = [] \/ s = str "+" \/ s = str "-".
(** k, m or g, not directly followed by more of a word *)
Definition multiplier (s rest : text) : Prop :=
  (exists c, s = [c] /\ In (lower c) [ "k"; "m"; "g" ]%char) /\
  match rest with c :: _ => ~ word_char c | [] => True end.
Definition exponent (s : text) : Prop :=
  exists c sg ds, s = c :: sg ++ ds /\ lower c = "e"%char /\ sign sg /\ digits1 ds.
Definition string_item (s : text) : Prop :=
  s = [backslash; backslash] \/ s = [backslash; quote] \/ (exists c, s = [backslash; c] /\ lower c = "n"%char) \/
  exists c, s = [c] /\ c <> quote /\ c <> backslash.

(** [s], directly followed by [rest], is a lexeme of the given type. *)
Definition lexeme (ty : token_type) (s rest : text) : Prop :=
  match ty with
  | OPENING_PARENTHESIS => s = str "("
  | CLOSING_PARENTHESIS => s = str ")"
  | OPENING_BRACKET => s = str "["
  | CLOSING_BRACKET => s = str "]"
  | COMMA => s = str ","
  | EQUALS => s = str "="
  | LET => lower_text s = str "let"
  | BOOLEAN => lower_text s = str "true" \/ lower_text s = str "false"
  | STRING => exists items, s = quote :: concat items ++ [quote] /\ Forall string_item items
  | FLOAT => exists sg m x, s = sg ++ m ++ x /\ sign sg /\
      ((exists a b, m = a ++ "."%char :: b /\ Forall digit a /\ Forall digit b /\ (a <> [] \/ b <> []) /\
          (x = [] \/ exponent x \/ multiplier x rest)) \/
       (digits1 m /\ exponent x))
  | INTEGER => exists sg m x, s = sg ++ m ++ x /\ sign sg /\
      ((lower_text m = str "infinity" /\ x = []) \/ (digits1 m /\ (x = [] \/ multiplier x rest)))
  | IDENTIFIER => exists c w, s = c :: w /\ (letter c \/ c = "_"%char) /\ Forall word_char w
  end.

(** The order in which the types are tried. *)
Definition token_order : list token_type :=
  [OPENING_PARENTHESIS; CLOSING_PARENTHESIS; OPENING_BRACKET; CLOSING_BRACKET; COMMA; EQUALS;
   LET; BOOLEAN; STRING; FLOAT; INTEGER; IDENTIFIER].
Definition before (a b : token_type) : Prop := exists l1 l2 l3, token_order = l1 ++ a :: l2 ++ b :: l3.

(** [s] starts with a lexeme [raw] of type [ty]. *)
Definition starts (s : text) (ty : token_type) (raw : text) : Prop :=
  exists rest, s = raw ++ rest /\ lexeme ty raw rest.

(** Case does not matter except in strings. *)
Definition content_of (ty : token_type) (raw : text) : text :=
  match ty with BOOLEAN | FLOAT | INTEGER | IDENTIFIER => lower_text raw | _ => raw end.

(** Tokens of a text: white space is skipped, then the first type with a lexeme there and its
    longest lexeme count. *)
Inductive tokens : text -> list token -> Prop :=
| tokens_nil : tokens [] []
| tokens_cons : forall ws raw ws' rest ty toks,
    Forall space ws -> Forall space ws' -> match rest with c :: _ => ~ space c | [] => True end ->
    starts (raw ++ ws' ++ rest) ty raw ->
    (forall raw', starts (raw ++ ws' ++ rest) ty raw' -> length raw' <= length raw) ->
    (forall ty' raw', before ty' ty -> ~ starts (raw ++ ws' ++ rest) ty' raw') ->
    tokens rest toks ->
    tokens (ws ++ raw ++ ws' ++ rest) ({| tk_content := content_of ty raw; tk_type := ty |} :: toks).

(** *** Grammar *)
Inductive ast :=
| Literal (value : token)
| List_ (elements : list ast)
| Let (variable : text) (definition nested : ast)
| Call (name : text) (positional : list ast) (keyword : list (text * ast)) (unparsed : text).

Definition literal_type (ty : token_type) : Prop :=
  ty = BOOLEAN \/ ty = STRING \/ ty = FLOAT \/ ty = INTEGER \/ ty = IDENTIFIER.
Definition is_tok (ty : token_type) (t : token) : Prop := tk_type t = ty.
Definition contents (ts : list token) : text := concat (map tk_content ts).

(** Argument lists without the parentheses: arguments separated by commas. *)
Inductive node : list token -> ast -> Prop :=
| node_literal : forall t, literal_type (tk_type t) -> node [t] (Literal t)
| node_list : forall t1 ts t2 els, is_tok OPENING_BRACKET t1 -> elements ts els -> is_tok CLOSING_BRACKET t2 ->
    node (t1 :: ts ++ [t2]) (List_ els)
| node_let : forall t1 t2 x c1 ts1 d c2 ts2 n t3,
    is_tok LET t1 -> is_tok OPENING_PARENTHESIS t2 -> is_tok IDENTIFIER x -> is_tok COMMA c1 ->
    node ts1 d -> is_tok COMMA c2 -> node ts2 n -> is_tok CLOSING_PARENTHESIS t3 ->
    node (t1 :: t2 :: x :: c1 :: ts1 ++ c2 :: ts2 ++ [t3]) (Let (tk_content x) d n)
| node_call : forall x t1 ts t2 pos kw,
    is_tok IDENTIFIER x -> is_tok OPENING_PARENTHESIS t1 -> arguments ts pos kw -> is_tok CLOSING_PARENTHESIS t2 ->
    NoDup (map fst kw) ->
    node (x :: t1 :: ts ++ [t2]) (Call (tk_content x) pos kw (contents (x :: t1 :: ts ++ [t2])))
with elements : list token -> list ast -> Prop :=
| el_nil : elements [] []
| el_one : forall ts a, node ts a -> elements ts [a]
| el_cons : forall ts a c ts' l, node ts a -> is_tok COMMA c -> elements ts' l -> l <> [] ->
    elements (ts ++ c :: ts') (a :: l)
with arguments : list token -> list ast -> list (text * ast) -> Prop :=
| arg_kw : forall ts kw, keywords ts kw -> arguments ts [] kw
| arg_one : forall ts a, node ts a -> arguments ts [a] []
| arg_cons : forall ts a c ts' pos kw, node ts a -> is_tok COMMA c -> arguments ts' pos kw -> pos <> [] \/ kw <> [] ->
    arguments (ts ++ c :: ts') (a :: pos) kw
with keywords : list token -> list (text * ast) -> Prop :=
| kw_nil : keywords [] []
| kw_one : forall x e ts a, is_tok IDENTIFIER x -> is_tok EQUALS e -> node ts a -> keywords (x :: e :: ts) [(tk_content x, a)]
| kw_cons : forall x e ts a c ts' kw, is_tok IDENTIFIER x -> is_tok EQUALS e -> node ts a -> is_tok COMMA c -> keywords ts' kw -> kw <> [] ->
    keywords (x :: e :: ts ++ c :: ts') ((tk_content x, a) :: kw).

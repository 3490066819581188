(** C49: option strings are split into tokens and parsed exactly as the option language says. *)
From Coq Require Import Ascii String List.
From Verif Require Import Outcome Spec_Format Spec_Options Model_Parser Model_Lexer Model_Syntax Proof_OptionLexer Proof_Syntax.
Import ListNotations.
Local Open Scope nat_scope.

(** The lexer finds exactly the tokens of the language; otherwise it reports an input error. *)
Theorem C49_tokens_exact (t : text) :
  (forall toks, split_tokens t = Ok toks <-> tokens t toks) /\
  ((exists toks, split_tokens t = Ok toks) \/ split_tokens t = Exit 33%Z).
Proof. exact (split_tokens_exact t). Qed.
Print Assumptions C49_tokens_exact.

(** Nothing of the input is lost: it is the sequence of the lexemes with white space between them. *)
Theorem C49_tokens_cover (t : text) toks : split_tokens t = Ok toks -> t <> [] ->
  exists (ws : text) (pieces : list (text * text)),
    t = ws ++ concat (map (fun p => fst p ++ snd p) pieces) /\ Forall space ws /\
    Forall2 (fun p tk => fst p <> [] /\ tk_content tk = content_of (tk_type tk) (fst p) /\ Forall space (snd p) /\
                         exists rest, lexeme (tk_type tk) (fst p) rest) pieces toks.
Proof.
  intros H Hne. apply C49_tokens_exact in H. induction H as [|ws raw ws' rest ty toks H1 H2 H3 H4 H5 H6 H7 IH]; [congruence|].
  assert (P : raw <> [] /\ exists r, lexeme ty raw r).
  { destruct H4 as (r & _ & L). split; [|eauto]. apply lexeme_first in L as (c & r' & -> & _). discriminate. }
  destruct P as [P1 P2]. destruct rest as [|c rest].
  - exists ws, [(raw, ws')]. cbn [map concat fst snd app]. rewrite !app_nil_r. splits; auto.
    assert (toks = []) as -> by (eapply tokens_fun; [exact H7|constructor]). repeat constructor; auto.
  - destruct IH as (ws2 & ps & E & Hw & HF); [discriminate|]. destruct ws2 as [|d ws2].
    + exists ws, ((raw, ws') :: ps). cbn [map concat fst snd app] in *. rewrite E, <- app_assoc. splits; auto.
    + exfalso. cbn [app] in E. injection E as -> _. apply H3. exact (Forall_inv Hw).
Qed.
Print Assumptions C49_tokens_cover.

(** The parser accepts exactly the sentences of the grammar and returns their tree; otherwise it
    reports an input error. *)
Theorem C49_parser_exact (toks : list token) :
  (forall a, parse toks = Ok a <-> node toks a) /\
  ((exists a, parse toks = Ok a) \/ parse toks = Exit 33%Z).
Proof. exact (parse_exact toks). Qed.
Print Assumptions C49_parser_exact.

(** Every sentence has one tree only. *)
Theorem C49_unambiguous toks a b : node toks a -> node toks b -> a = b.
Proof. intros Ha Hb. apply C49_parser_exact in Ha. apply C49_parser_exact in Hb. congruence. Qed.
Print Assumptions C49_unambiguous.

(** A name is one token, unless it starts like a reserved word. *)
Definition name (s : text) : Prop := exists c w, s = c :: w /\ (letter c \/ c = "_"%char) /\ Forall word_char w.
Definition starts_reserved (s : text) : Prop :=
  exists r rest, In r [str "let"; str "true"; str "false"; str "infinity"] /\ lower_text s = r ++ rest.
Definition name_startb (c : ascii) : bool := letterb c || Ascii.eqb c "_"%char.
Lemma name_start_char : forall c, name_startb c = true ->
  ~ In c [ "("; ")"; "["; "]"; ","; "="; """"; "+"; "-"; "." ]%char /\ digitb c = false.
Proof.
  intros c H. assert (K : existsb (Ascii.eqb c) [ "("; ")"; "["; "]"; ","; "="; """"; "+"; "-"; "." ]%char = false /\ digitb c = false).
  { revert c H. chars. }
  destruct K as [K1 K2]. split; auto. intros Hin. rewrite <- not_true_iff_false in K1. apply K1. apply existsb_exists. exists c. split; auto. apply Ascii.eqb_refl.
Qed.
Theorem C49_names (s : text) : name s -> ~ starts_reserved s ->
  split_tokens s = Ok [{| tk_content := lower_text s; tk_type := IDENTIFIER |}].
Proof.
  intros (c & w & -> & Hc & Hw) Hr. apply C49_tokens_exact. set (s := c :: w) in *.
  assert (Hcc : ~ In c [ "("; ")"; "["; "]"; ","; "="; """"; "+"; "-"; "." ]%char /\ digitb c = false).
  { apply name_start_char. unfold name_startb. rewrite orb_true_iff, letterb_spec, Ascii.eqb_eq. auto. }
  destruct Hcc as [Hp Hd].
  assert (HD : forall raw x rest, digits1 raw -> s <> raw ++ x ++ rest).
  { intros [|d raw] x rest [Hn Hf] E; [congruence|]. cbn [app] in E. injection E as <- _. apply Forall_inv in Hf. apply digitb_spec in Hf. congruence. }
  assert (HR : forall r raw rest, In r [str "let"; str "true"; str "false"; str "infinity"] -> lower_text raw = r -> s <> raw ++ rest).
  { intros r raw rest Hin E Es. apply Hr. exists r, (lower_text rest). split; auto. rewrite Es. unfold lower_text in *. rewrite map_app. rewrite E. reflexivity. }
  assert (HS : forall sg rest, sign sg -> s = sg ++ rest -> sg = []).
  { intros sg rest [->|[->| ->]] E; auto; exfalso; injection E as -> _; apply Hp; cbn; tauto. }
  replace s with ([] ++ s ++ [] ++ []) at 1 by (cbn [app]; apply app_nil_r).
  apply (tokens_cons [] s [] [] IDENTIFIER []); auto; cbn [app]; rewrite ?app_nil_r.
  - exists []. rewrite app_nil_r. split; auto. exists c, w. auto.
  - intros raw' (r & E & _). apply (f_equal (@length ascii)) in E. rewrite app_length in E. lia.
  - intros ty raw Hb (rest & E & L).
    assert (Hty : In ty [OPENING_PARENTHESIS; CLOSING_PARENTHESIS; OPENING_BRACKET; CLOSING_BRACKET; COMMA; EQUALS; LET; BOOLEAN; STRING; FLOAT; INTEGER]).
    { refine (proj1 (before_in _ IDENTIFIER [] ty _) Hb). reflexivity. }
    clear Hb. destruct ty; cbn [lexeme] in L.
    1-6: subst raw; injection E as -> _; apply Hp; cbn; tauto.
    + eapply HR; [|exact L|exact E]. cbn. tauto.
    + destruct L as [L|L]; (eapply HR; [|exact L|exact E]); cbn; tauto.
    + destruct L as (items & -> & _). injection E as -> _. apply Hp. cbn. tauto.
    + destruct L as (sg & m & x & -> & Hs & L). rewrite <- !app_assoc in E. rewrite (HS sg _ Hs E) in E. cbn [app] in E.
      destruct L as [(a & b & -> & Ha & _)|[Hm _]].
      * destruct a as [|d a]; cbn [app] in E; injection E as -> _; [apply Hp; cbn; tauto|]. apply Forall_inv in Ha. apply digitb_spec in Ha. congruence.
      * exact (HD _ _ _ Hm E).
    + destruct L as (sg & m & x & -> & Hs & L). rewrite <- !app_assoc in E. rewrite (HS sg _ Hs E) in E. cbn [app] in E.
      destruct L as [[Hm ->]|[Hm _]].
      * eapply HR; [|exact Hm|exact E]. cbn. tauto.
      * exact (HD _ _ _ Hm E).
    + cbn in Hty. intuition discriminate.
  - constructor.
Qed.
Print Assumptions C49_names.

(** Finding: the reserved words are recognised inside names as well: the condition of
    [C49_names] is needed.  "letter" is read as the reserved word "let" and a name "ter". *)
Theorem C49_reserved_prefix_refuted :
  exists s, name s /\ split_tokens s = Ok [{| tk_content := str "let"; tk_type := LET |}; {| tk_content := str "ter"; tk_type := IDENTIFIER |}].
Proof.
  exists (str "letter"). split; [|vm_compute; reflexivity].
  assert (H : forall c, letterb c = true -> letter c) by (intros; apply letterb_spec; auto).
  exists "l"%char, (str "etter"). split; [reflexivity|]. split; [left; apply H; reflexivity|].
  repeat (constructor; [right; left; apply H; reflexivity|]). constructor.
Qed.
Print Assumptions C49_reserved_prefix_refuted.

(** A string with nested calls, a list, keyword arguments and literals of several types. *)
Example C49_nonvacuous :
  let T := fun s ty => {| tk_content := str s; tk_type := ty |} in
  let input := str "let(H, lmcut(), Eager( [H, 1.5K],  bound =infinity))" in
  let toks := [T "let" LET; T "(" OPENING_PARENTHESIS; T "h" IDENTIFIER; T "," COMMA; T "lmcut" IDENTIFIER; T "(" OPENING_PARENTHESIS;
     T ")" CLOSING_PARENTHESIS; T "," COMMA; T "eager" IDENTIFIER; T "(" OPENING_PARENTHESIS; T "[" OPENING_BRACKET; T "h" IDENTIFIER;
     T "," COMMA; T "1.5k" FLOAT; T "]" CLOSING_BRACKET; T "," COMMA; T "bound" IDENTIFIER; T "=" EQUALS; T "infinity" INTEGER;
     T ")" CLOSING_PARENTHESIS; T ")" CLOSING_PARENTHESIS]%string in
  let tree := Let (str "h") (Call (str "lmcut") [] [] (str "lmcut()"))
     (Call (str "eager") [List_ [Literal (T "h" IDENTIFIER); Literal (T "1.5k" FLOAT)]] [(str "bound", Literal (T "infinity" INTEGER))]
        (str "eager([h,1.5k],bound=infinity)"))%string in
  split_tokens input = Ok toks /\ tokens input toks /\ parse toks = Ok tree /\ node toks tree /\
  split_tokens (str "astar(;)") = Exit 33%Z /\
  (let* ts := split_tokens (str "eager(a=1,)") in parse ts) = Exit 33%Z /\
  (let* ts := split_tokens (str "eager(a=1,a=2)") in parse ts) = Exit 33%Z /\
  (let* ts := split_tokens (str "eager(a=1,2)") in parse ts) = Exit 33%Z /\
  split_tokens (str "LMcut_2") = Ok [{| tk_content := str "lmcut_2"; tk_type := IDENTIFIER |}].
Proof.
  intros T input toks tree.
  assert (E1 : split_tokens input = Ok toks) by (vm_compute; reflexivity).
  assert (E2 : parse toks = Ok tree) by (vm_compute; reflexivity).
  split; [exact E1|]. split; [apply C49_tokens_exact; exact E1|]. split; [exact E2|]. split; [apply C49_parser_exact; exact E2|].
  repeat (split; [vm_compute; reflexivity|]). vm_compute. reflexivity.
Qed.

(** The syntax analyzer accepts exactly the grammar. *)
From Coq Require Import Ascii String List.
From Verif Require Import Outcome Spec_Format Spec_Options Model_Parser Model_Lexer Model_Syntax.
Import ListNotations.
Local Open Scope nat_scope.

Lemma ty_eqb_spec a b : ty_eqb a b = true <-> a = b.
Proof. destruct a, b; cbn; split; intro; try reflexivity; discriminate. Qed.
Lemma ty_eqb_refl a : ty_eqb a a = true.
Proof. apply ty_eqb_spec. reflexivity. Qed.
Lemma ty_eqb_false a b : ty_eqb a b = false <-> a <> b.
Proof. rewrite <- ty_eqb_spec. destruct (ty_eqb a b); split; congruence. Qed.
Lemma text_eq_spec a : forall b, text_eq a b = true <-> a = b.
Proof.
  induction a as [|x a IH]; intros [|y b]; cbn; split; intro H; try reflexivity; try discriminate.
  - apply andb_true_iff in H as [H1 H2]. apply Ascii.eqb_eq in H1. apply IH in H2. subst. reflexivity.
  - injection H as -> ->. rewrite Ascii.eqb_refl. apply IH. reflexivity.
Qed.
Lemma pop_type_ok ty ts t r : pop_type ty ts = Ok (t, r) -> ts = t :: r /\ tk_type t = ty.
Proof.
  unfold pop_type. destruct ts as [|t' r']; cbn [pop bind]; [discriminate|]. destruct (ty_eqb _ _) eqn:E; [|discriminate]. intros [= -> ->].
  split; auto. apply ty_eqb_spec. auto.
Qed.
Lemma pop_type_intro ty t r : is_tok ty t -> pop_type ty (t :: r) = Ok (t, r).
Proof. unfold pop_type, is_tok. intros <-. cbn [pop bind]. rewrite ty_eqb_refl. reflexivity. Qed.
Lemma peek_ok ts t : peek ts = Ok t -> exists r, ts = t :: r.
Proof. destruct ts; cbn; [discriminate|]. intros [= ->]. eauto. Qed.
Lemma fold_contents ts : forall out, fold_left (fun out t => out ++ tk_content t) ts out = out ++ contents ts.
Proof.
  induction ts as [|t ts IH]; intros out; cbn [fold_left]; [rewrite app_nil_r; reflexivity|]. rewrite IH. unfold contents. cbn [map concat].
  rewrite <- app_assoc. reflexivity.
Qed.
Lemma stream_str_app used rest : stream_str (used ++ rest) rest = contents used.
Proof.
  unfold stream_str. rewrite app_length. replace (length used + length rest - length rest) with (length used) by lia.
  rewrite firstn_app, firstn_all, Nat.sub_diag, firstn_O, app_nil_r, fold_contents. reflexivity.
Qed.

(** *** Whatever is accepted is in the grammar *)
Definition sound (pn : list token -> outcome (ast * list token)) : Prop :=
  forall ts a rest, pn ts = Ok (a, rest) -> exists used, ts = used ++ rest /\ node used a.
Definition not_at (ty : token_type) (ts : list token) : Prop := match ts with t :: _ => tk_type t <> ty | [] => True end.
Definition at_ (ty : token_type) (ts : list token) : Prop := match ts with t :: _ => tk_type t = ty | [] => False end.

(** One round of [parse_sequence]. *)
Lemma sequence_inv {S} func terminal fuel (st : S) ts r : parse_sequence func terminal fuel st ts = Ok r ->
  exists f, fuel = Datatypes.S f /\
  ((at_ terminal ts /\ r = (st, ts)) \/
   (not_at terminal ts /\ exists st1 ts1, func st ts = Ok (st1, ts1) /\
     ((at_ terminal ts1 /\ r = (st1, ts1)) \/
      (exists c ts2, ts1 = c :: ts2 /\ is_tok COMMA c /\ not_at terminal ts2 /\ parse_sequence func terminal f st1 ts2 = Ok r)))).
Proof.
  destruct fuel as [|f]; [discriminate|]. cbn [parse_sequence]. intros H. exists f. split; auto.
  apply bind_ok in H as (t & Ht & H). apply peek_ok in Ht as (r0 & ->). destruct (ty_eqb (tk_type t) terminal) eqn:E.
  - injection H as <-. left. cbn. apply ty_eqb_spec in E. auto.
  - right. apply ty_eqb_false in E. split; [exact E|]. apply bind_ok in H as ([st1 ts1] & Hf & H). exists st1, ts1. split; auto.
    apply bind_ok in H as (nx & Hn & H). apply peek_ok in Hn as (r1 & ->). destruct (ty_eqb (tk_type nx) terminal) eqn:E1.
    + injection H as <-. left. cbn. apply ty_eqb_spec in E1. auto.
    + right. destruct (ty_eqb (tk_type nx) COMMA) eqn:E2; [|discriminate]. cbn [pop bind] in H. apply bind_ok in H as (t2 & Ht2 & H).
      apply peek_ok in Ht2 as (r2 & ->). destruct (ty_eqb (tk_type t2) terminal) eqn:E3; [discriminate|].
      exists nx, (t2 :: r2). apply ty_eqb_spec in E2. apply ty_eqb_false in E3. splits; auto.
Qed.

Lemma list_sound pn : sound pn -> forall fuel els0 ts els1 rest,
  parse_sequence (parse_element pn) CLOSING_BRACKET fuel els0 ts = Ok (els1, rest) ->
  exists used els, ts = used ++ rest /\ els1 = els0 ++ els /\ elements used els /\ (not_at CLOSING_BRACKET ts -> els <> []).
Proof.
  intros Hp. induction fuel as [|fuel IH]; intros els0 ts els1 rest H; [discriminate|].
  apply sequence_inv in H as (f & [= <-] & H). destruct H as [[Ha [= -> ->]]|[Hn (st1 & ts1 & Hf & H)]].
  - exists [], []. splits; auto; [rewrite app_nil_r; auto|constructor|]. destruct ts; cbn in *; [tauto|congruence].
  - unfold parse_element in Hf. apply bind_ok in Hf as ([a ts'] & Hpn & [= <- <-]). apply Hp in Hpn as (u & -> & Hu).
    destruct H as [[Ha [= -> ->]]|(c & ts2 & -> & Hc & Hn2 & H)].
    + exists u, [a]. splits; auto; [constructor; auto|discriminate].
    + apply IH in H as (u2 & l2 & -> & -> & Hl & Hne). exists (u ++ c :: u2), (a :: l2). splits.
      * rewrite <- app_assoc. reflexivity.
      * rewrite <- app_assoc. reflexivity.
      * constructor; auto.
      * discriminate.
Qed.

Lemma existsb_key (kw : list (text * ast)) x : existsb (fun k => text_eq (fst k) x) kw = false <-> ~ In x (map fst kw).
Proof.
  rewrite <- not_true_iff_false, existsb_exists. split; intros H K; apply H.
  - apply in_map_iff in K as (k & <- & K). exists k. split; auto. apply text_eq_spec. auto.
  - destruct K as (k & K & E). apply text_eq_spec in E as <-. apply in_map. auto.
Qed.
Lemma argument_inv pn pos kw ts st rest : parse_argument pn (pos, kw) ts = Ok (st, rest) ->
  (exists x e r a, ts = x :: e :: r /\ is_tok IDENTIFIER x /\ is_tok EQUALS e /\ ~ In (tk_content x) (map fst kw) /\ pn r = Ok (a, rest) /\
     st = (pos, kw ++ [(tk_content x, a)])) \/
  (exists a, kw = [] /\ pn ts = Ok (a, rest) /\ st = (pos ++ [a], [])).
Proof.
  assert (P : match kw with _ :: _ => error | [] => let* (a, rest) := pn ts in Ok ((pos ++ [a], kw), rest) end = Ok (st, rest) ->
    exists a, kw = [] /\ pn ts = Ok (a, rest) /\ st = (pos ++ [a], [])).
  { destruct kw; [|discriminate]. intros H. apply bind_ok in H as ([a r] & H & [= <- <-]). eauto. }
  destruct ts as [|x [|e r]]; cbn [parse_argument]; intros H; [right; apply P; auto..|].
  destruct (_ && _) eqn:E; [|right; apply P; auto]. apply andb_true_iff in E as [E1 E2]. apply ty_eqb_spec in E1, E2.
  destruct (existsb _ _) eqn:Ek; [discriminate|]. apply existsb_key in Ek. apply bind_ok in H as ([a r'] & H & [= <- <-]).
  left. exists x, e, r, a. splits; auto.
Qed.

Lemma NoDup_snoc {A} (l : list A) x : NoDup l -> ~ In x l -> NoDup (l ++ [x]).
Proof.
  induction 1 as [|y l Hy Hl IH]; intros Hx; cbn; [constructor; auto; constructor|]. constructor.
  - rewrite in_app_iff. cbn. intros [K|[K|[]]]; [auto|]. subst. apply Hx. left; auto.
  - apply IH. intro K. apply Hx. right. auto.
Qed.
Lemma args_sound pn : sound pn -> forall fuel pos0 kw0 ts pos1 kw1 rest,
  parse_sequence (parse_argument pn) CLOSING_PARENTHESIS fuel (pos0, kw0) ts = Ok ((pos1, kw1), rest) ->
  NoDup (map fst kw0) ->
  exists used p k, ts = used ++ rest /\ pos1 = pos0 ++ p /\ kw1 = kw0 ++ k /\ NoDup (map fst kw1) /\
    (kw0 = [] -> arguments used p k) /\ (kw0 <> [] -> p = [] /\ keywords used k) /\
    (not_at CLOSING_PARENTHESIS ts -> p <> [] \/ k <> []).
Proof.
  intros Hp. induction fuel as [|fuel IH]; intros pos0 kw0 ts pos1 kw1 rest H ND; [discriminate|].
  apply sequence_inv in H as (f & [= <-] & H). destruct H as [[Ha [= -> -> ->]]|[Hn (st1 & ts1 & Hf & H)]].
  - exists [], [], []. rewrite !app_nil_r. splits; auto.
    + intros _. apply arg_kw, kw_nil.
    + intros _. split; auto. apply kw_nil.
    + destruct ts; cbn in *; [tauto|congruence].
  - apply argument_inv in Hf as [(x & e & r & a & -> & Hx & He & Hnin & Hpn & ->)|(a & -> & Hpn & ->)].
    + apply Hp in Hpn as (u & -> & Hu).
      assert (ND' : NoDup (map fst (kw0 ++ [(tk_content x, a)]))) by (rewrite map_app; apply NoDup_snoc; auto).
      assert (Hne : kw0 ++ [(tk_content x, a)] <> []) by (destruct kw0; discriminate).
      destruct H as [[Ha [= -> -> ->]]|(c & ts2 & -> & Hc & Hn2 & H)].
      * exists (x :: e :: u), [], [(tk_content x, a)]. splits; auto.
        -- rewrite app_nil_r. auto.
        -- intros _. apply arg_kw. constructor; auto.
        -- intros _. split; auto. constructor; auto.
        -- right. discriminate.
      * apply IH in H as (u2 & p & k & -> & -> & -> & ND2 & _ & Hk & Hne2); auto. destruct (Hk Hne) as [-> Hk2].
        assert (Hke : k <> []) by (destruct (Hne2 Hn2); congruence).
        assert (KW : keywords (x :: e :: u ++ c :: u2) ((tk_content x, a) :: k)) by (constructor; auto).
        exists (x :: e :: u ++ c :: u2), [], ((tk_content x, a) :: k). splits; auto.
        -- cbn [app]. rewrite <- app_assoc. reflexivity.
        -- rewrite <- app_assoc. reflexivity.
        -- intros _. apply arg_kw. auto.
        -- right. discriminate.
    + apply Hp in Hpn as (u & -> & Hu). destruct H as [[Ha [= -> -> ->]]|(c & ts2 & -> & Hc & Hn2 & H)].
      * exists u, [a], []. splits; auto.
        -- intros _. apply arg_one. auto.
        -- congruence.
        -- left. discriminate.
      * apply IH in H as (u2 & p & k & -> & -> & -> & ND2 & Ha & _ & Hne2); auto.
        exists (u ++ c :: u2), (a :: p), k. splits; auto.
        -- rewrite <- app_assoc. reflexivity.
        -- rewrite <- app_assoc. reflexivity.
        -- intros _. apply arg_cons; auto.
        -- congruence.
        -- left. discriminate.
Qed.

Lemma literal_ok ts a rest : parse_literal ts = Ok (a, rest) -> exists t, ts = t :: rest /\ a = Literal t /\ literal_type (tk_type t).
Proof.
  unfold parse_literal. destruct ts as [|t r]; [discriminate|]. cbn [pop bind]. destruct (existsb _ _) eqn:E; [|discriminate].
  intros [= <- <-]. exists t. splits; auto. apply existsb_exists in E as (ty & H & E). apply ty_eqb_spec in E as <-.
  unfold literal_type. cbn [In] in H. intuition.
Qed.
Theorem node_sound fuel : sound (parse_node fuel).
Proof.
  induction fuel as [|fuel IH]; intros ts a rest H; [discriminate|]. cbn [parse_node] in H.
  apply bind_ok in H as (t & Ht & H). destruct (negb _); [discriminate|].
  assert (L : parse_literal ts = Ok (a, rest) -> exists used, ts = used ++ rest /\ node used a).
  { intros K. apply literal_ok in K as (t' & -> & -> & K). exists [t']. split; auto. constructor; auto. }
  destruct (tk_type t) eqn:Et; try discriminate; auto.
  - unfold parse_list in H. apply bind_ok in H as ([b ts1] & H1 & H). apply pop_type_ok in H1 as [-> Hb].
    apply bind_ok in H as ([els ts2] & H1 & H). apply (list_sound _ IH) in H1 as (u & l & -> & -> & Hl & _).
    apply bind_ok in H as ([c ts3] & H1 & [= <- <-]). apply pop_type_ok in H1 as [-> Hc].
    exists (b :: u ++ [c]). split; [cbn [app]; rewrite <- app_assoc; reflexivity|]. constructor; auto.
  - unfold parse_let in H. repeat (apply bind_ok in H as ([? ?] & ?H1 & H)). injection H as <- <-.
    repeat match goal with H : pop_type _ _ = Ok _ |- _ => apply pop_type_ok in H as [? ?] | H : parse_node _ _ = Ok _ |- _ => apply IH in H as (? & ? & ?) end.
    subst. match goal with |- exists used, ?t1 :: ?t2 :: ?x :: ?c1 :: ?ts1 ++ ?c2 :: ?ts2 ++ ?t3 :: ?r = _ /\ _ => exists (t1 :: t2 :: x :: c1 :: ts1 ++ c2 :: ts2 ++ [t3]) end.
    split; [cbn [app]; rewrite <- app_assoc; cbn [app]; rewrite <- app_assoc; reflexivity|apply node_let; auto].
  - destruct ts as [|t0 [|t1 r]]; auto. destruct (ty_eqb (tk_type t1) OPENING_PARENTHESIS); auto.
    unfold parse_function in H. apply bind_ok in H as ([x ts1] & H1 & H). apply pop_type_ok in H1 as [E1 Hx]. 
    apply bind_ok in H as ([b ts2] & H1 & H). apply pop_type_ok in H1 as [-> Hb].
    apply bind_ok in H as ([[pos kw] ts3] & H1 & H). apply (args_sound _ IH) in H1 as (u & p & k & E2 & -> & -> & ND & Ha & _); [|constructor].
    apply bind_ok in H as ([c ts4] & H1 & [= <- <-]). apply pop_type_ok in H1 as [-> Hc].
    exists (x :: b :: u ++ [c]). assert (E : t0 :: t1 :: r = (x :: b :: u ++ [c]) ++ ts4).
    { rewrite E1, E2. cbn [app]. rewrite <- app_assoc. reflexivity. }
    split; auto. rewrite E, stream_str_app. cbn [app fst snd]. constructor; auto.
Qed.

(** *** Everything in the grammar is accepted *)
Definition stop (rest : list token) : Prop :=
  match rest with t :: _ => tk_type t = COMMA \/ tk_type t = CLOSING_PARENTHESIS \/ tk_type t = CLOSING_BRACKET | [] => True end.
Scheme node_mut := Minimality for node Sort Prop
  with elements_mut := Minimality for elements Sort Prop
  with arguments_mut := Minimality for arguments Sort Prop
  with keywords_mut := Minimality for keywords Sort Prop.
Combined Scheme grammar_mut from node_mut, elements_mut, arguments_mut, keywords_mut.

Definition node_start (ty : token_type) : Prop := In ty [OPENING_BRACKET; LET; BOOLEAN; STRING; INTEGER; FLOAT; IDENTIFIER].
Lemma node_hd ts a : node ts a -> exists t r, ts = t :: r /\ node_start (tk_type t).
Proof.
  unfold node_start, is_tok. intros H. inversion H; subst; unfold is_tok in *; eexists _, _; (split; [reflexivity|]);
    try match goal with H : literal_type _ |- _ => destruct H as [->|[->|[->|[->| ->]]]] end;
    try match goal with H : tk_type ?t = _ |- In (tk_type ?t) _ => rewrite H end; cbn; tauto.
Qed.
Lemma node_not_at ts a rest ty : node ts a -> ty = CLOSING_BRACKET \/ ty = CLOSING_PARENTHESIS -> not_at ty (ts ++ rest).
Proof.
  intros H Ht. apply node_hd in H as (t & r & -> & H). cbn. intros E. rewrite E in H. unfold node_start in H. cbn in H.
  destruct Ht as [-> | ->]; intuition discriminate.
Qed.
Lemma node_no_keyword ts a rest : node ts a -> stop rest ->
  match ts ++ rest with x :: e :: _ => ty_eqb (tk_type x) IDENTIFIER && ty_eqb (tk_type e) EQUALS = false | _ => True end.
Proof.
  intros H Hs. inversion H; subst; unfold is_tok in *; cbn [app].
  - destruct rest as [|e r]; auto. cbn in Hs. destruct Hs as [->|[->| ->]]; apply andb_false_r.
  - rewrite H0. reflexivity || (destruct ((ts0 ++ [t2]) ++ rest); auto).
  - rewrite H0. reflexivity.
  - rewrite H1. apply andb_false_r.
Qed.
Lemma argument_positional pn pos ts a rest : node ts a -> stop rest -> pn (ts ++ rest) = Ok (a, rest) ->
  parse_argument pn (pos, []) (ts ++ rest) = Ok ((pos ++ [a], []), rest).
Proof.
  intros H Hs Hp. pose proof (node_no_keyword _ _ rest H Hs) as K. unfold parse_argument.
  destruct (ts ++ rest) as [|x [|e r]]; [rewrite Hp; reflexivity..|]. rewrite K, Hp. reflexivity.
Qed.
Lemma sequence_last {S} func terminal f (st st1 : S) ts rest : not_at terminal (ts ++ rest) -> ts <> [] -> at_ terminal rest ->
  func st (ts ++ rest) = Ok (st1, rest) -> parse_sequence func terminal (Datatypes.S f) st (ts ++ rest) = Ok (st1, rest).
Proof.
  intros Hn Hts Ha Hf. cbn [parse_sequence]. destruct ts as [|t ts]; [congruence|]. cbn [app peek bind] in *. apply ty_eqb_false in Hn. rewrite Hn, Hf.
  cbn [bind]. destruct rest as [|c r]; [destruct Ha|]. cbn [peek bind]. cbn in Ha. rewrite Ha, ty_eqb_refl. reflexivity.
Qed.
Lemma sequence_comma {S} func terminal f (st st1 : S) ts c rest : not_at terminal (ts ++ c :: rest) -> ts <> [] -> is_tok COMMA c -> terminal <> COMMA ->
  rest <> [] -> not_at terminal rest ->
  func st (ts ++ c :: rest) = Ok (st1, c :: rest) ->
  parse_sequence func terminal (Datatypes.S f) st (ts ++ c :: rest) = parse_sequence func terminal f st1 rest.
Proof.
  intros Hn Hts Hc Hct Hr Hnr Hf. cbn [parse_sequence]. destruct ts as [|t ts]; [congruence|]. cbn [app peek bind] in *. apply ty_eqb_false in Hn. rewrite Hn, Hf.
  cbn [bind peek pop]. unfold is_tok in Hc. rewrite Hc. rewrite (proj2 (ty_eqb_false COMMA terminal)) by congruence. cbn [ty_eqb].
  destruct rest as [|t2 r]; [congruence|]. cbn [peek bind]. apply ty_eqb_false in Hnr. rewrite Hnr. reflexivity.
Qed.
Lemma node_ne ts a : node ts a -> ts <> [].
Proof. intros H. apply node_hd in H as (t & r & -> & _). discriminate. Qed.
Lemma elements_start ts l rest : elements ts l -> l <> [] -> ts <> [] /\ not_at CLOSING_BRACKET (ts ++ rest).
Proof.
  intros H Hl. inversion H; subst; [congruence| |].
  - split; [eapply node_ne; eauto|eapply node_not_at; eauto].
  - split; [destruct ts0; discriminate|]. rewrite <- app_assoc. eapply node_not_at; eauto.
Qed.
Lemma keywords_start ts k rest : keywords ts k -> k <> [] -> ts <> [] /\ not_at CLOSING_PARENTHESIS (ts ++ rest).
Proof.
  intros H Hl. inversion H; subst; unfold is_tok in *; [congruence| |]; (split; [discriminate|]); cbn; congruence.
Qed.
Lemma arguments_start ts p k rest : arguments ts p k -> p <> [] \/ k <> [] -> ts <> [] /\ not_at CLOSING_PARENTHESIS (ts ++ rest).
Proof.
  intros H Hl. inversion H; subst.
  - eapply keywords_start; eauto. destruct Hl; congruence.
  - split; [eapply node_ne; eauto|eapply node_not_at; eauto].
  - split; [destruct ts0; discriminate|]. rewrite <- app_assoc. eapply node_not_at; eauto.
Qed.

Theorem grammar_complete :
  (forall ts a, node ts a -> forall fuel rest, length ts <= fuel -> stop rest -> parse_node fuel (ts ++ rest) = Ok (a, rest)) /\
  (forall ts l, elements ts l -> forall fuel n els rest, length ts <= fuel -> length ts < n -> at_ CLOSING_BRACKET rest ->
     parse_sequence (parse_element (parse_node fuel)) CLOSING_BRACKET n els (ts ++ rest) = Ok (els ++ l, rest)) /\
  (forall ts p k, arguments ts p k -> forall fuel n pos rest, length ts <= fuel -> length ts < n -> at_ CLOSING_PARENTHESIS rest ->
     NoDup (map fst k) ->
     parse_sequence (parse_argument (parse_node fuel)) CLOSING_PARENTHESIS n (pos, []) (ts ++ rest) = Ok ((pos ++ p, k), rest)) /\
  (forall ts k, keywords ts k -> forall fuel n pos kw rest, length ts <= fuel -> length ts < n -> at_ CLOSING_PARENTHESIS rest ->
     NoDup (map fst (kw ++ k)) ->
     parse_sequence (parse_argument (parse_node fuel)) CLOSING_PARENTHESIS n (pos, kw) (ts ++ rest) = Ok ((pos, kw ++ k), rest)).
Proof.
  assert (SB : forall rest, at_ CLOSING_BRACKET rest -> stop rest) by (intros [|t r]; cbn; tauto).
  assert (SP : forall rest, at_ CLOSING_PARENTHESIS rest -> stop rest) by (intros [|t r]; cbn; tauto).
  apply grammar_mut.
  - (* literal *) intros t Ht fuel rest Hf Hs. destruct fuel as [|fuel]; [cbn in Hf; lia|]. cbn [app parse_node peek bind].
    assert (L : parse_literal (t :: rest) = Ok (Literal t, rest)).
    { unfold parse_literal. cbn [pop bind]. destruct Ht as [->|[->|[->|[->| ->]]]]; reflexivity. }
    destruct Ht as [E|[E|[E|[E|E]]]]; rewrite E; cbn [existsb ty_eqb orb negb]; auto.
    destruct rest as [|t1 r]; auto. cbn in Hs. destruct Hs as [->|[->| ->]]; auto.
  - (* list *) intros t1 ts t2 els H1 He IH H2 fuel rest Hf Hs. destruct fuel as [|fuel]; [cbn in Hf; lia|]. cbn [app parse_node peek bind].
    cbn [length] in Hf. rewrite app_length in Hf. cbn [length] in Hf.
    unfold is_tok in H1. rewrite H1. cbn [existsb ty_eqb orb negb]. unfold parse_list. rewrite pop_type_intro by exact H1. cbn [bind].
    rewrite <- app_assoc. cbn [app]. rewrite IH; [|lia| |exact H2]. 
    + cbn [bind]. rewrite pop_type_intro by exact H2. reflexivity.
    + rewrite app_length. cbn [length]. lia.
  - (* let *) intros t1 t2 x c1 ts1 d c2 ts2 n t3 H1 H2 H3 H4 Hd IHd H5 Hn IHn H6 fuel rest Hf Hs.
    destruct fuel as [|fuel]; [cbn in Hf; lia|]. cbn [app parse_node peek bind]. cbn [length] in Hf. rewrite app_length in Hf. cbn [length] in Hf.
    rewrite app_length in Hf. cbn [length] in Hf.
    unfold is_tok in H1. rewrite H1. cbn [existsb ty_eqb orb negb]. unfold parse_let.
    rewrite pop_type_intro by exact H1. cbn [bind]. rewrite pop_type_intro by exact H2. cbn [bind]. rewrite pop_type_intro by exact H3. cbn [bind].
    rewrite pop_type_intro by exact H4. cbn [bind]. rewrite <- app_assoc. cbn [app]. rewrite IHd; [|lia|left; exact H5]. cbn [bind].
    rewrite pop_type_intro by exact H5. cbn [bind]. rewrite <- app_assoc. cbn [app]. rewrite IHn; [|lia|right; left; exact H6]. cbn [bind].
    rewrite pop_type_intro by exact H6. reflexivity.
  - (* call *) intros x t1 ts t2 pos kw H1 H2 Ha IH H3 ND fuel rest Hf Hs. destruct fuel as [|fuel]; [cbn in Hf; lia|].
    cbn [length] in Hf. rewrite app_length in Hf. cbn [length] in Hf.
    replace ((x :: t1 :: ts ++ [t2]) ++ rest) with (x :: t1 :: ts ++ t2 :: rest) by (cbn [app]; rewrite <- app_assoc; reflexivity).
    cbn [parse_node peek bind]. unfold is_tok in H1, H2. rewrite H1, H2. cbn [existsb ty_eqb orb negb]. unfold parse_function.
    rewrite pop_type_intro by exact H1. cbn [bind]. rewrite pop_type_intro by exact H2. cbn [bind].
    rewrite IH; [|lia|rewrite app_length; cbn [length]; lia|exact H3|exact ND]. cbn [bind]. rewrite pop_type_intro by exact H3. cbn [bind fst snd app].
    do 3 f_equal. rewrite <- (stream_str_app _ rest). f_equal. cbn [app]. rewrite <- app_assoc. reflexivity.
  - (* elements *) intros fuel n els rest Hf Hn Ha. destruct n as [|n]; [lia|]. cbn [app parse_sequence]. destruct rest as [|c r]; [destruct Ha|].
    cbn [peek bind]. cbn in Ha. rewrite Ha. cbn [ty_eqb]. rewrite app_nil_r. reflexivity.
  - intros ts a Hnd IH fuel n els rest Hf Hn Ha. destruct n as [|n]; [lia|]. apply sequence_last; auto.
    + eapply node_not_at; eauto.
    + eapply node_ne; eauto.
    + unfold parse_element. rewrite IH; auto.
  - intros ts a c ts' l Hnd IH Hc Hel IHl Hl fuel n els rest Hf Hn Ha. destruct n as [|n]; [lia|]. rewrite app_length in *. cbn [length] in *.
    rewrite <- app_assoc. cbn [app]. destruct (elements_start _ _ rest Hel Hl) as [K1 K2].
    rewrite (sequence_comma _ _ _ _ (els ++ [a])); auto.
    + rewrite IHl; auto; try lia. rewrite <- app_assoc. reflexivity.
    + eapply node_not_at; eauto.
    + eapply node_ne; eauto.
    + discriminate.
    + destruct ts'; [congruence|discriminate].
    + unfold parse_element. rewrite IH; [reflexivity|lia|left; exact Hc].
  - (* arguments *) intros ts kw Hk IH fuel n pos rest Hf Hn Ha ND. rewrite IH; auto. rewrite app_nil_r. reflexivity.
  - intros ts a Hnd IH fuel n pos rest Hf Hn Ha ND. destruct n as [|n]; [lia|]. apply sequence_last; auto.
    + eapply node_not_at; eauto.
    + eapply node_ne; eauto.
    + apply argument_positional; auto.
  - intros ts a c ts' pos kw Hnd IH Hc Hel IHl Hl fuel n pos0 rest Hf Hn Ha ND. destruct n as [|n]; [lia|]. rewrite app_length in *. cbn [length] in *.
    rewrite <- app_assoc. cbn [app]. destruct (arguments_start _ _ _ rest Hel Hl) as [K1 K2].
    rewrite (sequence_comma (S:=args) _ _ _ _ (pos0 ++ [a], []) ts c (ts' ++ rest)); auto.
    + rewrite IHl; auto; try lia. rewrite <- app_assoc. reflexivity.
    + eapply node_not_at; eauto.
    + eapply node_ne; eauto.
    + discriminate.
    + destruct ts'; [congruence|discriminate].
    + apply argument_positional; auto; [left; exact Hc|]. apply IH; [lia|left; exact Hc].
  - (* keywords *) intros fuel n pos kw rest Hf Hn Ha ND. destruct n as [|n]; [lia|]. cbn [app parse_sequence]. destruct rest as [|c r]; [destruct Ha|].
    cbn [peek bind]. cbn in Ha. rewrite Ha. cbn [ty_eqb]. rewrite app_nil_r. reflexivity.
  - intros x e ts a Hx He Hnd IH fuel n pos kw rest Hf Hn Ha ND. destruct n as [|n]; [lia|]. cbn [length] in *.
    unfold is_tok in Hx, He. apply sequence_last; auto.
    + cbn. congruence.
    + discriminate.
    + cbn [app parse_argument]. rewrite Hx, He. cbn [ty_eqb andb]. rewrite map_app in ND. cbn [map] in ND. apply NoDup_remove_2 in ND.
      rewrite app_nil_r in ND. rewrite (proj2 (existsb_key kw (tk_content x)) ND). rewrite IH; auto. lia.
  - intros x e ts a c ts' k Hx He Hnd IH Hc Hk IHk Hne fuel n pos kw rest Hf Hn Ha ND. destruct n as [|n]; [lia|].
    cbn [length] in *. rewrite app_length in *. cbn [length] in *.
    replace ((x :: e :: ts ++ c :: ts') ++ rest) with ((x :: e :: ts) ++ c :: (ts' ++ rest)) by (cbn [app]; rewrite <- app_assoc; reflexivity).
    destruct (keywords_start _ _ rest Hk Hne) as [K1 K2]. unfold is_tok in Hx, He.
    rewrite (sequence_comma (S:=args) _ _ _ _ (pos, kw ++ [(tk_content x, a)]) (x :: e :: ts) c (ts' ++ rest)); auto.
    + rewrite IHk; auto; try lia; rewrite <- app_assoc; [reflexivity|]. exact ND.
    + cbn. congruence.
    + discriminate.
    + discriminate.
    + destruct ts'; [congruence|discriminate].
    + cbn [app parse_argument]. rewrite Hx, He. cbn [ty_eqb andb]. rewrite map_app in ND. cbn [map] in ND. apply NoDup_remove_2 in ND.
      rewrite in_app_iff in ND. rewrite (proj2 (existsb_key kw (tk_content x))) by tauto. rewrite IH; auto; [lia|]. left. exact Hc.
Qed.

(** *** Anything else is an error *)
Definition good {A} (o : outcome A) : Prop := (exists a, o = Ok a) \/ o = Exit input_error.
Lemma good_bind {A B} (o : outcome A) (f : A -> outcome B) : good o -> (forall a, o = Ok a -> good (f a)) -> good (bind o f).
Proof. intros [[a ->]| ->] H; cbn [bind]; [apply H; auto|right; reflexivity]. Qed.
Lemma good_ok {A} (a : A) : good (Ok a). Proof. left. eauto. Qed.
Lemma good_error {A} : good (@error A). Proof. right. reflexivity. Qed.
Lemma good_peek ts : good (peek ts). Proof. destruct ts; [apply good_error|apply good_ok]. Qed.
Lemma good_pop ts : good (pop ts). Proof. destruct ts; [apply good_error|apply good_ok]. Qed.
Lemma good_pop_type ty ts : good (pop_type ty ts).
Proof. apply good_bind; [apply good_pop|]. intros [t r] _. destruct (ty_eqb _ _); [apply good_ok|apply good_error]. Qed.
Definition good_upto {S} (n : nat) (f : S -> list token -> outcome (S * list token)) : Prop :=
  forall st ts, length ts < n -> good (f st ts) /\ forall st' ts', f st ts = Ok (st', ts') -> length ts' <= length ts.
Lemma good_sequence {S} (func : S -> _) terminal N : good_upto N func -> forall fuel st ts, length ts < fuel -> length ts < N ->
  good (parse_sequence func terminal fuel st ts).
Proof.
  intros G. induction fuel as [|fuel IH]; intros st ts Hf Hn; [lia|]. cbn [parse_sequence]. apply good_bind; [apply good_peek|].
  intros t _. destruct (ty_eqb _ _); [apply good_ok|]. destruct (G st ts Hn) as [G1 G2]. apply good_bind; auto. intros [st1 ts1] E. apply G2 in E.
  apply good_bind; [apply good_peek|]. intros nx _. destruct (ty_eqb _ _); [apply good_ok|]. destruct (ty_eqb _ _); [|apply good_error].
  destruct ts1 as [|c ts2]; [apply good_error|]. cbn [pop bind]. cbn [length] in E. apply good_bind; [apply good_peek|]. intros t2 _.
  destruct (ty_eqb _ _); [apply good_error|]. apply IH; lia.
Qed.
Lemma pn_upto fuel : (forall ts, length ts < fuel -> good (parse_node fuel ts)) -> good_upto fuel (parse_element (parse_node fuel)) /\
  good_upto fuel (parse_argument (parse_node fuel)).
Proof.
  intros H.
  assert (L : forall ts a rest, parse_node fuel ts = Ok (a, rest) -> length rest <= length ts).
  { intros ts a rest E. apply node_sound in E as (u & -> & _). rewrite app_length. lia. }
  split.
  - intros st ts Hl. split.
    + apply good_bind; auto. intros [a r] _. apply good_ok.
    + intros st' ts' E. unfold parse_element in E. apply bind_ok in E as ([a r] & E & [= <- <-]). eauto.
  - intros [pos kw] ts Hl. split.
    + assert (P : good (match kw with _ :: _ => error | [] => let* (a, rest) := parse_node fuel ts in Ok ((pos ++ [a], kw), rest) end)).
      { destruct kw; [|apply good_error]. apply good_bind; auto. intros [a r] _. apply good_ok. }
      unfold parse_argument. destruct ts as [|x [|e r]]; auto. destruct (_ && _); auto. destruct (existsb _ _); [apply good_error|].
      apply good_bind; [apply H; cbn [length] in Hl; lia|]. intros [a rr] _. apply good_ok.
    + intros st' ts' E. apply argument_inv in E as [(x & e & r & a & -> & _ & _ & _ & E & _)|(a & _ & E & _)]; [apply L in E; cbn [length]; lia|eauto].
Qed.
Lemma good_literal ts : good (parse_literal ts).
Proof. apply good_bind; [apply good_pop|]. intros [t r] _. destruct (existsb _ _); [apply good_ok|apply good_error]. Qed.
Theorem good_node fuel : forall ts, length ts < fuel -> good (parse_node fuel ts).
Proof.
  induction fuel as [|fuel IH]; intros ts Hl; [lia|]. destruct (pn_upto fuel IH) as [GE GA]. cbn [parse_node].
  apply good_bind; [apply good_peek|]. intros t Ht. apply peek_ok in Ht as (r & ->). cbn [length] in Hl.
  assert (P : forall ty ts t r, pop_type ty ts = Ok (t, r) -> length ts = S (length r)).
  { intros ty ts' t' r' E. apply pop_type_ok in E as [-> _]. reflexivity. }
  assert (L : forall ts a rest, parse_node fuel ts = Ok (a, rest) -> length rest <= length ts).
  { intros ts a rest E. apply node_sound in E as (u & -> & _). rewrite app_length. lia. }
  destruct (tk_type t) eqn:Et; cbn [existsb ty_eqb orb negb]; try apply good_error; try apply good_literal.
  - unfold parse_list. apply good_bind; [apply good_pop_type|]. intros [b ts1] E1. apply P in E1. cbn [length] in E1.
    apply good_bind; [apply (good_sequence _ _ fuel); auto; lia|]. intros [els ts2] _. apply good_bind; [apply good_pop_type|].
    intros [c ts3] _. apply good_ok.
  - unfold parse_let. do 4 (apply good_bind; [apply good_pop_type|]; let e := fresh "E" in intros [? ?] e; apply P in e). cbn [length] in *.
    apply good_bind; [apply IH; lia|]. intros [? ?] E3. apply L in E3. apply good_bind; [apply good_pop_type|]. intros [? ?] E4. apply P in E4.
    apply good_bind; [apply IH; lia|]. intros [? ?] E5. apply good_bind; [apply good_pop_type|]. intros [? ?] _. apply good_ok.
  - destruct r as [|t1 r]; [apply good_literal|]. destruct (ty_eqb _ _); [|apply good_literal]. unfold parse_function. cbn [length] in Hl.
    do 2 (apply good_bind; [apply good_pop_type|]; let e := fresh "E" in intros [? ?] e; apply P in e). cbn [length] in *.
    apply good_bind; [apply (good_sequence _ _ fuel); auto; lia|]. intros [st ts2] _. apply good_bind; [apply good_pop_type|].
    intros [c ts3] _. apply good_ok.
Qed.

Theorem parse_exact ts :
  (forall a, parse ts = Ok a <-> node ts a) /\ ((exists a, parse ts = Ok a) \/ parse ts = Exit input_error).
Proof.
  split.
  - intros a. split.
    + unfold parse. destruct ts as [|t r]; [discriminate|]. intros H. apply bind_ok in H as ([a' rest] & H & E). destruct rest; [|discriminate].
      injection E as ->. apply node_sound in H as (u & -> & H). rewrite app_nil_r. auto.
    + intros H. unfold parse. destruct ts as [|t r]; [apply node_ne in H; congruence|]. 
      rewrite <- (app_nil_r (t :: r)) at 2. rewrite (proj1 grammar_complete _ _ H); [reflexivity|lia|exact I].
  - change (good (parse ts)). unfold parse. destruct ts as [|t r]; [apply good_error|]. apply good_bind; [apply good_node; cbn; lia|].
    intros [a rest] _. destruct rest; [apply good_ok|apply good_error].
Qed.

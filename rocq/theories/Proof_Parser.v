(** Proofs: what the sections of the task parser accept. *)
From Coq Require Import Ascii String List.
From Verif Require Import Outcome Spec_Task Spec_Format Model_Axioms Model_Parser Proof_Lexer.
Local Open Scope nat_scope.
Import ListNotations.

(** *** Lexer states *)
Definition mode_line (lx : lexer) (ls : list text) : Prop :=
  lx_tokens lx = [] /\ lx_pos lx = 0 /\ nonblank (lx_lines lx) = ls.
Definition mode_tok (lx : lexer) (ts : list text) (ls : list text) : Prop :=
  (exists pre, lx_tokens lx = pre ++ ts ++ [sentinel] /\ length pre = lx_pos lx) /\
  nonblank (lx_lines lx) = ls /\ (forall t, In t ts -> t <> sentinel).

Lemma text_eqb_spec a b : reflect (a = b) (text_eqb a b).
Proof. unfold text_eqb. destruct (list_eq_dec ascii_dec a b); constructor; auto. Qed.
Lemma text_eqb_refl a : text_eqb a a = true.
Proof. destruct (text_eqb_spec a a); congruence. Qed.

Lemma mode_tok_line lx ts ls : mode_tok lx ts ls -> in_line_mode lx = true.
Proof.
  intros ((pre & E & _) & _). unfold in_line_mode. rewrite E.
  destruct pre; [destruct ts|]; reflexivity.
Qed.
Lemma mode_line_line lx ls : mode_line lx ls -> in_line_mode lx = false.
Proof. intros (E & _). unfold in_line_mode. now rewrite E. Qed.

Lemma pop_cons lx t ts ls : mode_tok lx (t :: ts) ls ->
  exists lx', pop_token lx = Ok (t, lx') /\ mode_tok lx' ts ls /\ t <> sentinel.
Proof.
  intros ((pre & E & Hp) & Hl & Ht). unfold pop_token. rewrite E, <- Hp.
  rewrite nth_error_app2, Nat.sub_diag by lia. cbn.
  eexists; split; [reflexivity|]. split; [|apply Ht; left; auto].
  split; [|split].
  - exists (pre ++ [t]). cbn. split; [now rewrite <- app_assoc|]. rewrite app_length; cbn; lia.
  - exact Hl.
  - intros x K; apply Ht; right; auto.
Qed.
Lemma pop_nil lx ls : mode_tok lx [] ls -> exists lx', pop_token lx = Ok (sentinel, lx') /\ lx_lines lx' = lx_lines lx.
Proof.
  intros ((pre & E & Hp) & Hl & Ht). unfold pop_token. rewrite E, <- Hp.
  rewrite nth_error_app2, Nat.sub_diag by lia. cbn. eauto.
Qed.

Lemma lread_cons lx t ts ls : mode_tok lx (t :: ts) ls -> exists lx', lread lx = Ok (t, lx') /\ mode_tok lx' ts ls.
Proof.
  intros H. unfold lread. rewrite (mode_tok_line _ _ _ H). unfold pbind.
  destruct (pop_cons _ _ _ _ H) as (lx' & E & H' & Hn). rewrite E.
  destruct (text_eqb_spec t sentinel); [congruence|]. exists lx'; auto.
Qed.
Lemma lread_nil lx ls : mode_tok lx [] ls -> lread lx = Exit input_error.
Proof.
  intros H. unfold lread. rewrite (mode_tok_line _ _ _ H). unfold pbind.
  destruct (pop_nil _ _ H) as (lx' & E & _). rewrite E, text_eqb_refl. reflexivity.
Qed.

Lemma init_tokens lx s ls : mode_line lx (s :: ls) ->
  exists lx' ts, initialize_tokens lx = Ok (tt, lx') /\ words s ts /\ ts <> [] /\ mode_tok lx' ts ls.
Proof.
  intros (Et & Ep & El). unfold initialize_tokens.
  destruct (next_line_cons _ _ _ El) as (Hw & r & E & Hr). rewrite E.
  destruct s as [|c s0] eqn:Es; [discriminate|]. rewrite <- Es in *.
  eexists; exists (tokenize s []). split; [reflexivity|].
  pose proof (tokenize_words s) as Hws. splits; auto.
  - eapply words_nonempty; eauto.
  - split; [|split].
    + exists []. cbn. auto.
    + exact Hr.
    + intros t K. eapply words_not_sentinel; eauto.
Qed.
Lemma lread_start lx s ls : mode_line lx (s :: ls) ->
  exists t ts lx', words s (t :: ts) /\ lread lx = Ok (t, lx') /\ mode_tok lx' ts ls.
Proof.
  intros H. destruct (init_tokens _ _ _ H) as (lx1 & ts & E & Hw & Hne & H1).
  destruct ts as [|t ts]; [congruence|].
  destruct (lread_cons _ _ _ _ H1) as (lx2 & E2 & H2).
  exists t, ts, lx2; splits; auto.
  unfold lread in *. rewrite (mode_line_line _ _ H). rewrite (mode_tok_line _ _ _ H1) in E2.
  unfold pbind in *. now rewrite E.
Qed.
Lemma lread_start_nil lx : mode_line lx [] -> lread lx = Exit input_error.
Proof.
  intros H. unfold lread. rewrite (mode_line_line _ _ H). unfold pbind, initialize_tokens.
  destruct H as (_ & _ & El). destruct (next_line_nil _ El) as (r & E & _). rewrite E. reflexivity.
Qed.

(** *** Soundness: what has been read so far *)

(** [done lx l0 L]: the lines from [l0] on that have been consumed read as [L]. *)
Definition done (lx : lexer) (l0 : list text) (L : list line) : Prop :=
  exists ls u, mode_line lx ls /\ l0 = u ++ ls /\ Forall2 line_is u L.
(** The same, and the integers [zs] of the next line. *)
Definition mid (lx : lexer) (l0 : list text) (L : list line) (zs : list Z) : Prop :=
  exists s ls u ws ts, mode_tok lx ts ls /\ l0 = u ++ s :: ls /\ Forall2 line_is u L /\
    words s (ws ++ ts) /\ Forall2 int_token ws zs.

(** No result but success with [Q], or the input error; undefined behaviour only without the checks. *)
Definition wp {A} (c : bool) (p : P A) (lx : lexer) (Q : A -> lexer -> Prop) : Prop :=
  match p lx with Ok (a, lx') => Q a lx' | UB => c = false | Exit k => k = input_error | NoFuel => False end.

Lemma wp_bind {A B} c (p : P A) (f : A -> P B) lx Q :
  wp c p lx (fun a lx1 => wp c (f a) lx1 Q) -> wp c (pbind p f) lx Q.
Proof. unfold wp, pbind. destruct (p lx) as [[a lx1]| | |]; auto. Qed.
Lemma wp_ret {A} c (a : A) lx (Q : A -> lexer -> Prop) : Q a lx -> wp c (ret a) lx Q.
Proof. auto. Qed.
Lemma wp_err {A} c lx (Q : A -> lexer -> Prop) : wp c perror lx Q.
Proof. reflexivity. Qed.
Lemma wp_if {A} c (b : bool) (p : P A) lx Q : (b = false -> wp c p lx Q) -> wp c (if b then perror else p) lx Q.
Proof. destruct b; auto using wp_err. Qed.
Lemma wp_imp {A} c (p : P A) lx (Q Q' : A -> lexer -> Prop) :
  wp c p lx Q -> (forall a lx', Q a lx' -> Q' a lx') -> wp c p lx Q'.
Proof. unfold wp. destruct (p lx) as [[a lx1]| | |]; auto. Qed.

Lemma wp_line c lx l0 L (Q : text -> lexer -> Prop) : done lx l0 L ->
  (forall s lx', done lx' l0 (L ++ [Raw s]) -> Q s lx') -> wp c read_line lx Q.
Proof.
  intros (ls & u & Hm & -> & Hu) HQ. unfold wp, read_line. rewrite (mode_line_line _ _ Hm).
  destruct Hm as (Et & Ep & El). destruct ls as [|s ls].
  - destruct (next_line_nil _ El) as (r & E & _). rewrite E. reflexivity.
  - destruct (next_line_cons _ _ _ El) as (Hw & r & E & Hr). rewrite E.
    destruct s as [|c0 s0] eqn:Es; [discriminate|]. rewrite <- Es in *. apply HQ.
    exists ls, (u ++ [s]). split; [split; [|split]; auto|]. split; [now rewrite <- app_assoc|].
    apply Forall2_app; auto. constructor; auto. reflexivity.
Qed.
Lemma wp_magic c m lx l0 L (Q : unit -> lexer -> Prop) : done lx l0 L ->
  (forall lx', done lx' l0 (L ++ [magic m]) -> Q tt lx') -> wp c (read_magic_line m) lx Q.
Proof.
  intros H HQ. unfold read_magic_line. apply wp_bind. eapply wp_line; [exact H|].
  intros s lx' H'. destruct (text_eqb_spec s (str m)) as [->|]; [|apply wp_err]. apply wp_ret. auto.
Qed.

Lemma wp_parse c t lx (Q : Z -> lexer -> Prop) : (forall z, int_token t z -> Q z lx) -> wp c (parse_int t) lx Q.
Proof. intros H. unfold wp. destruct (parse_int_cases t) as [(z & Hz & E)|E]; rewrite E; cbn; auto. Qed.

Lemma wp_int0 c lx l0 L (Q : Z -> lexer -> Prop) : done lx l0 L ->
  (forall z lx', mid lx' l0 L [z] -> Q z lx') -> wp c read_int lx Q.
Proof.
  intros (ls & u & Hm & -> & Hu) HQ. unfold read_int. apply wp_bind. unfold wp at 1.
  destruct ls as [|s ls]; [rewrite lread_start_nil; auto|].
  destruct (lread_start _ _ _ Hm) as (t & ts & lx' & Hw & E & Hm'). rewrite E.
  apply wp_parse. intros z Hz. apply HQ. exists s, ls, u, [t], ts. splits; auto.
Qed.
Lemma wp_int c lx l0 L zs (Q : Z -> lexer -> Prop) : mid lx l0 L zs ->
  (forall z lx', mid lx' l0 L (zs ++ [z]) -> Q z lx') -> wp c read_int lx Q.
Proof.
  intros (s & ls & u & ws & ts & Hm & -> & Hu & Hw & Hz) HQ. unfold read_int. apply wp_bind. unfold wp at 1.
  destruct ts as [|t ts]; [rewrite (lread_nil _ _ Hm); auto|].
  destruct (lread_cons _ _ _ _ Hm) as (lx' & E & Hm'). rewrite E.
  apply wp_parse. intros z Hz'. apply HQ. exists s, ls, u, (ws ++ [t]), ts.
  splits; auto; [now rewrite <- app_assoc|]. apply Forall2_app; auto.
Qed.
Lemma wp_nat0 c lx l0 L (Q : nat -> lexer -> Prop) : done lx l0 L ->
  (forall n lx', mid lx' l0 L [Z.of_nat n] -> Q n lx') -> wp c read_nat lx Q.
Proof.
  intros H HQ. unfold read_nat. apply wp_bind. eapply wp_int0; [exact H|]. intros z lx' H'.
  apply wp_if. intros Hz. apply Z.ltb_ge in Hz. apply wp_ret, HQ. now rewrite Z2Nat.id.
Qed.
Lemma wp_nat c lx l0 L zs (Q : nat -> lexer -> Prop) : mid lx l0 L zs ->
  (forall n lx', mid lx' l0 L (zs ++ [Z.of_nat n]) -> Q n lx') -> wp c read_nat lx Q.
Proof.
  intros H HQ. unfold read_nat. apply wp_bind. eapply wp_int; [exact H|]. intros z lx' H'.
  apply wp_if. intros Hz. apply Z.ltb_ge in Hz. apply wp_ret, HQ. now rewrite Z2Nat.id.
Qed.
Lemma wp_eol c lx l0 L zs (Q : unit -> lexer -> Prop) : mid lx l0 L zs ->
  (forall lx', done lx' l0 (L ++ [Row zs]) -> Q tt lx') -> wp c confirm_end_of_line lx Q.
Proof.
  intros (s & ls & u & ws & ts & Hm & -> & Hu & Hw & Hz) HQ. unfold wp, confirm_end_of_line.
  rewrite (mode_tok_line _ _ _ Hm). unfold pbind.
  destruct ts as [|t ts].
  - destruct (pop_nil _ _ Hm) as (lx' & E & El). rewrite E, text_eqb_refl. apply HQ.
    exists ls, (u ++ [s]). split; [|split].
    + split; [reflexivity|]. split; [reflexivity|]. cbn [lx_lines]. rewrite El. apply Hm.
    + now rewrite <- app_assoc.
    + apply Forall2_app; auto. constructor; auto. exists ws. rewrite app_nil_r in Hw. auto.
  - destruct (pop_cons _ _ _ _ Hm) as (lx' & E & _ & Hn). rewrite E.
    destruct (text_eqb_spec t sentinel); [congruence|]. reflexivity.
Qed.
Lemma wp_eoi c lx l0 L (Q : unit -> lexer -> Prop) : done lx l0 L ->
  (forall lx', Forall2 line_is l0 L -> Q tt lx') -> wp c confirm_end_of_input lx Q.
Proof.
  intros (ls & u & Hm & -> & Hu) HQ. unfold wp, confirm_end_of_input. rewrite (mode_line_line _ _ Hm).
  destruct Hm as (Et & Ep & El). destruct ls as [|s ls].
  - destruct (next_line_nil _ El) as (r & E & _). rewrite E. apply HQ. now rewrite app_nil_r.
  - destruct (next_line_cons _ _ _ El) as (Hw & r & E & Hr). rewrite E. destruct s; [discriminate|reflexivity].
Qed.

Lemma wp_repeat {A X} c (p : P A) (f : X -> A) (lines : X -> list line) (good : X -> Prop) :
  (forall lx l0 L, done lx l0 L ->
     wp c p lx (fun a lx' => exists x, a = f x /\ done lx' l0 (L ++ lines x) /\ good x)) ->
  forall n lx l0 L, done lx l0 L ->
  wp c (repeat_p n p) lx (fun l lx' => exists xs, l = map f xs /\
     done lx' l0 (L ++ flat_map lines xs) /\ Forall good xs /\ length xs = n).
Proof.
  intros Hp. induction n as [|n IH]; intros lx l0 L H; cbn [repeat_p].
  - apply wp_ret. exists []. cbn. rewrite app_nil_r. auto.
  - apply wp_bind. eapply wp_imp; [apply (Hp _ _ _ H)|]. intros a lx1 (x & -> & H1 & Hx).
    apply wp_bind. eapply wp_imp; [apply (IH _ _ _ H1)|]. intros l lx2 (xs & -> & H2 & Hl & Hn).
    apply wp_ret. exists (x :: xs). cbn [flat_map length map]. rewrite app_assoc. splits; auto.
Qed.

(** *** Completeness: what is still to be read *)
Definition todo (lx : lexer) (L : list line) : Prop := exists ls, mode_line lx ls /\ Forall2 line_is ls L.
Definition row (lx : lexer) (zs : list Z) (L : list line) : Prop :=
  exists ts ls, mode_tok lx ts ls /\ Forall2 int_token ts zs /\ Forall2 line_is ls L.
Definition runs {A} (p : P A) (lx : lexer) (a : A) (Q : lexer -> Prop) : Prop :=
  exists lx', p lx = Ok (a, lx') /\ Q lx'.

Lemma runs_bind {A B} (p : P A) (f : A -> P B) lx a b Q :
  runs p lx a (fun lx1 => runs (f a) lx1 b Q) -> runs (pbind p f) lx b Q.
Proof. intros (lx1 & E & lx2 & E2 & H). exists lx2. unfold pbind. now rewrite E. Qed.
Lemma runs_ret {A} (a : A) lx (Q : lexer -> Prop) : Q lx -> runs (ret a) lx a Q.
Proof. intros H; exists lx; auto. Qed.
Lemma runs_imp {A} (p : P A) lx a (Q Q' : lexer -> Prop) :
  runs p lx a Q -> (forall lx', Q lx' -> Q' lx') -> runs p lx a Q'.
Proof. intros (lx' & E & H) HQ. exists lx'; auto. Qed.

Lemma c_line lx s L : todo lx (Raw s :: L) -> runs read_line lx s (fun lx' => todo lx' L).
Proof.
  intros (ls & Hm & Hl). inversion Hl as [|s1 l1 l L1 Hs Hl']; subst. cbn in Hs. subst s1. unfold runs, read_line. rewrite (mode_line_line _ _ Hm).
  destruct Hm as (Et & Ep & El). destruct (next_line_cons _ _ _ El) as (Hw & r & E & Hr). rewrite E.
  destruct s as [|c0 s0] eqn:Es; [discriminate|]. rewrite <- Es in *.
  eexists; split; [reflexivity|]. exists l. split; auto. split; [|split]; auto.
Qed.
Lemma c_magic lx m L : todo lx (magic m :: L) -> runs (read_magic_line m) lx tt (fun lx' => todo lx' L).
Proof.
  intros H. unfold read_magic_line. eapply runs_bind. eapply runs_imp; [apply c_line; exact H|].
  intros lx' H'. cbn beta. rewrite text_eqb_refl. now apply runs_ret.
Qed.
Lemma c_int0 lx z zs L : todo lx (Row (z :: zs) :: L) -> runs read_int lx z (fun lx' => row lx' zs L).
Proof.
  intros (ls & Hm & Hl). inversion Hl as [|s1 l1 l L1 Hs Hl']; subst. destruct Hs as (ws & Hw & Hz).
  destruct (lread_start _ _ _ Hm) as (t & ts & lx' & Hw' & E & Hm').
  rewrite (words_tokenize _ _ Hw), <- (words_tokenize _ _ Hw') in Hz. inversion Hz as [|t1 z1 ts1 zs1 H2 H3]; subst.
  unfold runs, read_int, pbind. rewrite E, (parse_int_token _ _ H2). cbn.
  eexists; split; [reflexivity|]. exists ts, l; auto.
Qed.
Lemma c_int lx z zs L : row lx (z :: zs) L -> runs read_int lx z (fun lx' => row lx' zs L).
Proof.
  intros (ts & ls & Hm & Hz & Hl). inversion Hz as [|t1 z1 l zs1 H1 H3]; subst.
  destruct (lread_cons _ _ _ _ Hm) as (lx' & E & Hm').
  unfold runs, read_int, pbind. rewrite E, (parse_int_token _ _ H1). cbn.
  eexists; split; [reflexivity|]. exists l, ls; auto.
Qed.
Lemma c_nat_of (lx : lexer) n (Q : lexer -> Prop) : runs read_int lx (Z.of_nat n) Q -> runs read_nat lx n Q.
Proof.
  intros H. unfold read_nat. eapply runs_bind. eapply runs_imp; [exact H|]. intros lx' H'. cbn beta.
  destruct (Z.ltb_spec (Z.of_nat n) 0); [lia|]. rewrite Nat2Z.id. now apply runs_ret.
Qed.
Lemma c_nat0 lx n zs L : todo lx (Row (Z.of_nat n :: zs) :: L) -> runs read_nat lx n (fun lx' => row lx' zs L).
Proof. intros H. apply c_nat_of, c_int0, H. Qed.
Lemma c_nat lx n zs L : row lx (Z.of_nat n :: zs) L -> runs read_nat lx n (fun lx' => row lx' zs L).
Proof. intros H. apply c_nat_of, c_int, H. Qed.
Lemma c_eol lx L : row lx [] L -> runs confirm_end_of_line lx tt (fun lx' => todo lx' L).
Proof.
  intros (ts & ls & Hm & Hz & Hl). inv Hz. unfold runs, confirm_end_of_line.
  rewrite (mode_tok_line _ _ _ Hm). unfold pbind.
  destruct (pop_nil _ _ Hm) as (lx' & E & El). rewrite E, text_eqb_refl.
  eexists; split; [reflexivity|]. exists ls; split; auto. split; [reflexivity|]. split; [reflexivity|].
  cbn [lx_lines]. rewrite El. apply Hm.
Qed.
Lemma c_eoi lx : todo lx [] -> runs confirm_end_of_input lx tt (fun _ => True).
Proof.
  intros (ls & Hm & Hl). inv Hl. unfold runs, confirm_end_of_input. rewrite (mode_line_line _ _ Hm).
  destruct Hm as (_ & _ & El). destruct (next_line_nil _ El) as (r & E & _). rewrite E. eauto.
Qed.
Lemma c_repeat {A X} (p : P A) (f : X -> A) (lines : X -> list line) (good : X -> Prop) :
  (forall lx x L, good x -> todo lx (lines x ++ L) -> runs p lx (f x) (fun lx' => todo lx' L)) ->
  forall l lx L, Forall good l -> todo lx (flat_map lines l ++ L) ->
  runs (repeat_p (length l) p) lx (map f l) (fun lx' => todo lx' L).
Proof.
  intros Hp. induction l as [|a l IH]; intros lx L Hg H; cbn [repeat_p length map].
  - now apply runs_ret.
  - inversion Hg as [|a1 l1 Ha Hl]; subst. cbn [flat_map] in H. rewrite <- app_assoc in H.
    eapply runs_bind. eapply runs_imp; [apply (Hp lx a _ Ha H)|]. intros lx1 H1.
    eapply runs_bind. eapply runs_imp; [apply (IH lx1 L Hl H1)|]. intros lx2 H2. now apply runs_ret.
Qed.

(** Relaxed exploration reaches exactly the facts that can be reached without the excluded ones. *)
From Verif Require Import Outcome Spec_Task Spec_Relaxation Spec_Landmarks Spec_LandmarkGeneration Model_DefaultRules Model_LandmarkGeneration.
From Verif Require Import Proof_DefaultRules Proof_OC1.
Local Open Scope nat_scope.

Lemma has_fact_ok t f : has_fact t f = true <-> fact_ok t f.
Proof.
  unfold has_fact, fact_ok, is_var. destruct (nth_error (t_vars t) (fst f)) as [x|] eqn:E.
  - rewrite Nat.ltb_lt. split; [intros; exists x; auto|intros (y & Hy & H)]. injection Hy as <-. auto.
  - split; [discriminate|intros (y & Hy & _); discriminate].
Qed.
Lemma fget_ok {A} t (m : fact -> A) f : fact_ok t f -> fget t m f = Ok (m f).
Proof. intros H. unfold fget. apply has_fact_ok in H. now rewrite H. Qed.
Lemma fput_ok {A} t (m : fact -> A) f a : fact_ok t f -> fput t m f a = Ok (fput_at m f a).
Proof. intros H. unfold fput. apply has_fact_ok in H. now rewrite H. Qed.
Lemma fput_same {A} (m : fact -> A) f a : fput_at m f a f = a.
Proof. unfold fput_at. now rewrite (proj2 (fact_eqb_spec f f) eq_refl). Qed.
Lemma fput_other {A} (m : fact -> A) f g a : g <> f -> fput_at m f a g = m g.
Proof. intros H. unfold fput_at. apply fact_eqb_false in H. now rewrite H. Qed.
Lemma fact_dec (f g : fact) : {f = g} + {f <> g}.
Proof. destruct (fact_eqb f g) eqn:E; [left; now apply fact_eqb_spec|right; now apply fact_eqb_false]. Qed.
Lemma mem_fact_In f l : mem_fact f l = true <-> In f l.
Proof. unfold mem_fact. rewrite existsb_exists. split; [intros (g & H & E); apply fact_eqb_spec in E; now subst|intros H; exists f; split; auto; now apply fact_eqb_spec]. Qed.
Lemma mem_id_In i l : mem_id i l = true <-> In i l.
Proof. unfold mem_id. rewrite existsb_exists. split; [intros (g & H & E); apply Z.eqb_eq in E; now subst|intros H; exists i; split; auto; now apply Z.eqb_eq]. Qed.
Lemma NoDup_snoc {A} (l : list A) a : NoDup l -> ~ In a l -> NoDup (l ++ [a]).
Proof.
  induction 1 as [|b l Hb Hl IH]; intros Ha; cbn [app]; [constructor; auto; constructor|]. constructor.
  - intros H. apply in_app_iff in H as [H|[->|[]]]; [auto|]. apply Ha. now left.
  - apply IH. intros H. apply Ha. now right.
Qed.
Lemma in_numbered {A} (l : list A) i x : In (i, x) (combine (seq 0 (length l)) l) <-> nth_error l i = Some x.
Proof.
  assert (G : forall k, In (i, x) (combine (seq k (length l)) l) <-> k <= i /\ nth_error l (i - k) = Some x).
  { induction l as [|y r IH]; intros k; cbn [length seq combine].
    - split; [intros []|intros [_ H]; destruct (i - k); discriminate].
    - cbn [In]. rewrite IH. split.
      + intros [E|[H1 H2]]; [injection E as -> ->; split; [lia|now rewrite Nat.sub_diag]|split; [lia|]]. replace (i - k) with (S (i - S k)) by lia. exact H2.
      + intros [H1 H2]. destruct (Nat.eq_dec i k) as [->|Hne]; [left; rewrite Nat.sub_diag in H2; injection H2 as ->; auto|right; split; [lia|]]. replace (i - k) with (S (i - S k)) in H2 by lia. exact H2. }
  rewrite (G 0), Nat.sub_0_r. split; [tauto|split; [lia|auto]].
Qed.
Lemma state_atom s f : In f (combine (seq 0 (length s)) s) <-> holds s f.
Proof. destruct f as [v d]. rewrite in_numbered. reflexivity. Qed.
Lemma holds_ok t s f : state_ok t s -> holds s f -> fact_ok t f.
Proof.
  intros H Hh. unfold holds in Hh. destruct f as [v d]. cbn [fst snd] in *. unfold fact_ok, is_var. cbn [fst snd].
  revert v Hh. induction H as [|x y l l' Hxy HF IH]; intros [|v] Hh; cbn [nth_error] in *; try discriminate; [injection Hh as <-; eauto|auto].
Qed.
Lemma all_facts_In t f : In f (all_facts t) <-> fact_ok t f.
Proof.
  unfold all_facts. rewrite in_flat_map. split.
  - intros ((v & x) & H & Hf). apply in_numbered in H. apply in_map_iff in Hf as (d & <- & Hd). apply in_seq in Hd. exists x. cbn [fst snd] in *. split; [auto|lia].
  - intros (x & Hx & Hd). exists (fst f, x). split; [now apply in_numbered|]. apply in_map_iff. exists (snd f). cbn [fst snd]. split; [now destruct f|]. apply in_seq. lia.
Qed.

(** Unary operators *)
Lemma unary_In t u : In u (unary_operators t) <->
  (exists o op e, nth_error (t_ops t) o = Some op /\ In e (op_effs op) /\ u = {| uo_id := Z.of_nat o; uo_pre := op_pre op ++ eff_cond e; uo_eff := eff_fact e |}) \/
  (exists k r, nth_error (t_rules t) k = Some r /\ u = {| uo_id := (- Z.of_nat k - 1)%Z; uo_pre := (fst (r_head r), 1 - snd (r_head r)) :: r_body r; uo_eff := r_head r |}).
Proof.
  unfold unary_operators, operators, axioms. rewrite in_flat_map. split.
  - intros (x & Hx & Hu). apply in_app_iff in Hx as [Hx|Hx]; apply in_map_iff in Hx as ((o & y) & <- & Hx); apply in_numbered in Hx; apply in_map_iff in Hu as (e & <- & He).
    + left. exists o, y, e. auto.
    + right. cbn in He. destruct He as [<-|[]]. exists o, y. auto.
  - intros [(o & op & e & H1 & H2 & ->)|(k & r & H1 & ->)].
    + exists (as_operator (o, op)). split; [apply in_app_iff; left; apply in_map, in_numbered; auto|]. apply in_map_iff. exists e. auto.
    + exists (as_axiom (k, r)). split; [apply in_app_iff; right; apply in_map, in_numbered; auto|]. now left.
Qed.

Lemma count_const {A} (i j : nat) (l : list A) : count_occ Nat.eq_dec (map (fun _ => j) l) i = if j =? i then length l else 0.
Proof. induction l as [|a l IH]; cbn [map count_occ length]; [now destruct (j =? i)|]. rewrite IH. destruct (Nat.eq_dec j i) as [->|H]; [now rewrite Nat.eqb_refl|]. apply Nat.eqb_neq in H. now rewrite H. Qed.
Lemma precondition_of_count us f i : count_occ Nat.eq_dec (precondition_of us f) i = match nth_error us i with Some u => length (filter (fact_eqb f) (uo_pre u)) | None => 0 end.
Proof.
  unfold precondition_of. assert (G : forall l k, count_occ Nat.eq_dec (flat_map (fun p : nat * unary => map (fun _ => fst p) (filter (fact_eqb f) (uo_pre (snd p)))) (combine (seq k (length l)) l)) i
    = if i <? k then 0 else match nth_error l (i - k) with Some u => length (filter (fact_eqb f) (uo_pre u)) | None => 0 end).
  { induction l as [|u l IH]; intros k; cbn [length seq combine flat_map]; [destruct (i <? k); [auto|now destruct (i - k)]|].
    rewrite count_occ_app, IH, count_const. cbn [fst snd]. destruct (Nat.eqb_spec k i) as [->|Hne].
    - rewrite Nat.ltb_irrefl, Nat.sub_diag. cbn [nth_error]. destruct (Nat.ltb_spec i (S i)); lia.
    - destruct (Nat.ltb_spec i (S k)), (Nat.ltb_spec i k); try lia. replace (i - k) with (S (i - S k)) by lia. reflexivity. }
  rewrite (G us 0). cbn [Nat.ltb]. now rewrite Nat.sub_0_r.
Qed.
Lemma precondition_of_lt us f i : In i (precondition_of us f) -> i < length us.
Proof.
  intros H. apply (count_occ_In Nat.eq_dec) in H. rewrite precondition_of_count in H. destruct (nth_error us i) eqn:E; [|lia]. apply nth_error_Some. congruence.
Qed.

Section Exploration.
Variable t : task.
Hypothesis Hro : relax_ok t.
Hypothesis Hinit : state_ok t (t_init t).
Let us := unary_operators t.

Lemma unary_ok u : In u us -> Forall (fact_ok t) (uo_pre u) /\ fact_ok t (uo_eff u).
Proof.
  destruct Hro as (HO & HR & _). intros H. apply unary_In in H as [(o & op & e & H1 & H2 & ->)|(k & r & H1 & ->)]; cbn [uo_pre uo_eff].
  - apply nth_error_In in H1. destruct (HO op H1) as [HP HE]. destruct (HE e H2) as [HC HF]. split; auto. apply Forall_app. auto.
  - apply nth_error_In in H1. destruct (HR r H1) as (HB & HH & x & Hx & Hd). split; auto. constructor; auto. exists x. cbn [fst snd]. split; [auto|]. lia.
Qed.
Lemma new_exploration_ok : new_exploration t = Ok {| ex_reached := fun _ => false; ex_excluded := fun _ => false |}.
Proof.
  unfold new_exploration. replace (forallb _ _) with true; [reflexivity|]. symmetry. apply forallb_forall. intros u Hu. destruct (unary_ok u Hu) as [H1 H2].
  rewrite (proj2 (has_fact_ok t _) H2), andb_true_r. apply forallb_forall. rewrite Forall_forall in H1. intros f Hf. apply has_fact_ok. auto.
Qed.

Variables (X : list fact) (un : bool).
Hypothesis HX : Forall (fact_ok t) X.
Let inX (f : fact) : Prop := In f X.
Let av := avoiding t un inX.

Definition forbidden (u : unary) : Prop :=
  inX (uo_eff u) \/ un = false /\ exists o op e, uo_id u = Z.of_nat o /\ nth_error (t_ops t) o = Some op /\ In e (op_effs op) /\ eff_cond e = [] /\ inX (eff_fact e).
Lemma av_unary u : In u us -> ~ forbidden u -> (forall g, In g (uo_pre u) -> av g) -> av (uo_eff u).
Proof.
  intros Hu Hf Hp. apply unary_In in Hu as [(o & op & e & H1 & H2 & ->)|(k & r & H1 & ->)]; cbn [uo_pre uo_eff] in *.
  - apply av_op with op; auto.
    + eapply nth_error_In; eauto.
    + intros Eu e' He' Hc Hx. apply Hf. right. split; auto. exists o, op, e'. cbn [uo_id]. auto.
    + intros Hx. apply Hf. left. auto.
  - apply av_rule.
    + eapply nth_error_In; eauto.
    + intros Hx. apply Hf. left. auto.
    + apply Hp. now left.
    + intros g Hg. apply Hp. now right.
Qed.
Lemma av_ind' (P : fact -> Prop) :
  (forall f, holds (t_init t) f -> ~ inX f -> P f) ->
  (forall u, In u us -> ~ forbidden u -> (forall g, In g (uo_pre u) -> P g) -> P (uo_eff u)) -> forall f, av f -> P f.
Proof.
  intros H1 H2 f Hf. induction Hf as [f Hh Hx|op e Ho He Hu Hx Hp IH|r Hr Hx Ha IHa Hp IH]; auto.
  - apply In_nth_error in Ho as (o & Ho). change (eff_fact e) with (uo_eff {| uo_id := Z.of_nat o; uo_pre := op_pre op ++ eff_cond e; uo_eff := eff_fact e |}). apply H2; auto.
    + apply unary_In. left. exists o, op, e. auto.
    + intros [HF|(Eu & o' & op' & e' & E1 & E2 & E3 & E4 & E5)]; [auto|]. cbn [uo_id] in E1. apply Nat2Z.inj in E1. subst o'. assert (op' = op) by congruence. subst op'. eapply Hu; eauto.
  - apply In_nth_error in Hr as (k & Hr). change (r_head r) with (uo_eff {| uo_id := (- Z.of_nat k - 1)%Z; uo_pre := (fst (r_head r), 1 - snd (r_head r)) :: r_body r; uo_eff := r_head r |}). apply H2.
    + apply unary_In. right. exists k, r. auto.
    + intros [HF|(Eu & o' & op' & e' & E1 & _)]; [auto|]. cbn [uo_id] in E1. lia.
    + intros g [<-|Hg]; auto.
Qed.

(** The excluded operators *)
Variable excl : fact -> bool.
Hypothesis Hexcl : forall f, fact_ok t f -> (excl f = true <-> inX f).

Lemma excluded_ops : exists ids, get_excluded_operators t excl un = Ok ids /\
  forall i, In i ids <-> un = false /\ exists o op e, i = Z.of_nat o /\ nth_error (t_ops t) o = Some op /\ In e (op_effs op) /\ eff_cond e = [] /\ inX (eff_fact e).
Proof.
  unfold get_excluded_operators. destruct un; [exists []; split; auto; intros i; split; [intros []|intros [E _]; discriminate]|].
  set (P := fun (x : op_or_axiom) => exists e, In e (a_effs x) /\ eff_cond e = [] /\ inX (eff_fact e)).
  assert (B : forall x, In x (operators t) -> exists b : bool, fold_outcome (fun (b : bool) e => if b then Ok true else
        if (match eff_cond e with [] => true | _ => false end) then fget t excl (eff_fact e) else Ok false) (a_effs x) false = Ok b /\ (b = true <-> P x)).
  { intros x Hx. apply in_map_iff in Hx as ((o & op) & <- & Hx). apply in_numbered, nth_error_In in Hx. cbn [a_effs as_operator fst snd]. unfold P. cbn [a_effs as_operator fst snd].
    destruct Hro as (HO & _). destruct (HO op Hx) as [_ HE].
    destruct (fold_inv (fun (b : bool) e => if b then Ok true else if (match eff_cond e with [] => true | _ => false end) then fget t excl (eff_fact e) else Ok false)
      (fun pre b => b = true <-> exists e, In e pre /\ eff_cond e = [] /\ inX (eff_fact e)) (op_effs op) false) as (b & Eb & Hb).
    - split; [discriminate|intros (e & [] & _)].
    - intros pre e post b E Hb. assert (He : In e (op_effs op)) by (rewrite E; apply in_app_iff; right; now left). destruct (HE e He) as [_ HF]. destruct b.
      + exists true. split; auto. split; auto. intros _. destruct (proj1 Hb eq_refl) as (e' & H1 & H2). exists e'. split; auto. apply in_app_iff. auto.
      + destruct (eff_cond e) eqn:Ec.
        * rewrite fget_ok by auto. eexists. split; [reflexivity|]. rewrite Hexcl by auto. split.
          -- intros H. exists e. split; auto. apply in_app_iff. right. now left.
          -- intros (e' & H1 & H2 & H3). apply in_app_iff in H1 as [H1|[<-|[]]]; auto. exfalso. enough (false = true) by discriminate. apply Hb. eauto.
        * exists false. split; auto. split; [discriminate|]. intros (e' & H1 & H2 & H3). apply in_app_iff in H1 as [H1|[<-|[]]]; [|congruence]. apply Hb. eauto.
    - exists b. auto. }
  destruct (fold_inv (fun acc x => let* b := fold_outcome (fun (b : bool) e => if b then Ok true else
        if (match eff_cond e with [] => true | _ => false end) then fget t excl (eff_fact e) else Ok false) (a_effs x) false in Ok (if b then acc ++ [a_id x] else acc))
    (fun pre acc => forall i, In i acc <-> exists x, In x pre /\ i = a_id x /\ P x) (operators t) []) as (ids & E & H).
  - intros i. split; [intros []|intros (x & [] & _)].
  - intros pre x post acc E H. assert (Hx : In x (operators t)) by (rewrite E; apply in_app_iff; right; now left). destruct (B x Hx) as (b & Eb & Hb). rewrite Eb. cbn [bind]. eexists. split; [reflexivity|].
    intros i. destruct b.
    + rewrite in_app_iff, H. split.
      * intros [(y & H1 & H2)|[<-|[]]]; [exists y; split; auto; apply in_app_iff; auto|exists x; split; [apply in_app_iff; right; now left|]]. split; auto. now apply Hb.
      * intros (y & H1 & H2). apply in_app_iff in H1 as [H1|[<-|[]]]; [left; eauto|right; left; now destruct H2].
    + rewrite H. split; intros (y & H1 & H2 & H3).
      * exists y. split; auto. apply in_app_iff. auto.
      * apply in_app_iff in H1 as [H1|[<-|[]]]; [eauto|]. apply Hb in H3. discriminate.
  - exists ids. split; auto. intros i. rewrite H. split.
    + intros (x & H1 & -> & (e & H3 & H4 & H5)). split; auto. apply in_map_iff in H1 as ((o & op) & <- & H1). apply in_numbered in H1. exists o, op, e. auto.
    + intros (_ & o & op & e & -> & H1 & H2 & H3 & H4). exists (as_operator (o, op)). split; [apply in_map, in_numbered; auto|]. split; auto. exists e. auto.
Qed.

Variable ids : list Z.
Hypothesis Hids : forall i, In i ids <-> un = false /\ exists o op e, i = Z.of_nat o /\ nth_error (t_ops t) o = Some op /\ In e (op_effs op) /\ eff_cond e = [] /\ inX (eff_fact e).

Lemma is_excluded_spec u : In u us -> (is_excluded excl ids u = true <-> forbidden u).
Proof.
  intros Hu. destruct (unary_ok u Hu) as [_ Hf]. unfold is_excluded, forbidden. rewrite orb_true_iff, Hexcl, mem_id_In, Hids by auto. reflexivity.
Qed.

(** Invariant: [P] are the processed facts, [pending] the operators still to be triggered by the
    last one. *)
Definition unprocessed (P : fact -> bool) (u : unary) : nat := length (filter (fun g => negb (P g)) (uo_pre u)).
Record inv (P : fact -> bool) (pending : list nat) (unsat : list nat) (re : fact -> bool) (q : list fact) : Prop := {
  i_split : forall g, re g = true <-> P g = true \/ In g q;
  i_nodup : NoDup q /\ forall g, In g q -> P g = false;
  i_sound : forall g, re g = true -> fact_ok t g /\ av g;
  i_init : forall g, holds (t_init t) g -> ~ inX g -> re g = true;
  i_len : length unsat = length us;
  i_count : forall i u, nth_error us i = Some u -> ~ forbidden u -> nth_error unsat i = Some (unprocessed P u + count_occ Nat.eq_dec pending i);
  i_zero : forall i u, nth_error us i = Some u -> ~ forbidden u -> nth_error unsat i = Some 0 -> re (uo_eff u) = true
}.

Lemma inv_enqueue P pending unsat re q f : inv P pending unsat re q -> fact_ok t f -> av f ->
  forall re' q', enqueue_if_necessary (re, q) f = (re', q') -> inv P pending unsat re' q' /\ re' f = true /\ forall g, re g = true -> re' g = true.
Proof.
  intros I Hk Ha re' q' E. unfold enqueue_if_necessary in E. destruct (re f) eqn:Er; injection E as <- <-; [auto|].
  assert (G : forall g, fput_at re f true g = true <-> g = f \/ re g = true).
  { intros g. destruct (fact_dec g f) as [->|Hn]; [rewrite fput_same; tauto|rewrite fput_other by auto; tauto]. }
  assert (Nq : ~ In f q) by (intros H; assert (K := proj2 (i_split _ _ _ _ _ I f) (or_intror H)); congruence).
  assert (NP : P f = false) by (destruct (P f) eqn:E; auto; assert (K := proj2 (i_split _ _ _ _ _ I f) (or_introl E)); congruence).
  destruct I as [I1 [I2 I2'] I3 I4 I5 I6 I7]. split; [constructor|split].
  - intros g. rewrite G, I1, in_app_iff. cbn [In]. intuition.
  - split.
    + apply NoDup_snoc; auto.
    + intros g Hg. apply in_app_iff in Hg as [Hg|[<-|[]]]; auto.
  - intros g Hg. apply G in Hg as [->|Hg]; auto.
  - intros g H1 H2. apply G. auto.
  - auto.
  - auto.
  - intros i u H1 H2 H3. apply G. eauto.
  - apply fput_same.
  - intros g Hg. apply G. auto.
Qed.

Definition opex := map (is_excluded excl ids) us.
Lemma opex_nth i u : nth_error us i = Some u -> nth_error opex i = Some (is_excluded excl ids u).
Proof. intros H. unfold opex. now rewrite nth_error_map, H. Qed.

Lemma trigger_ok P i pending unsat re q : i < length us -> inv P (i :: pending) unsat re q -> (forall u, nth_error us i = Some u -> forall g, In g (uo_pre u) -> P g = true -> av g) ->
  exists unsat' re' q', trigger us opex (unsat, (re, q)) i = Ok (unsat', (re', q')) /\ inv P pending unsat' re' q'.
Proof.
  intros Hi I Hp. destruct (nth_error us i) as [u|] eqn:Eu; [|apply nth_error_None in Eu; lia]. unfold trigger. unfold vget at 1. rewrite (opex_nth i u Eu). cbn [bind].
  destruct (is_excluded excl ids u) eqn:Ex.
  - eexists _, _, _. split; [reflexivity|]. apply is_excluded_spec in Ex; [|eapply nth_error_In; eauto]. destruct I as [I1 I2 I3 I4 I5 I6 I7]. constructor; auto.
    intros j w H1 H2. rewrite (I6 j w H1 H2). cbn [count_occ]. destruct (Nat.eq_dec i j) as [<-|]; auto. exfalso. apply H2. congruence.
  - assert (Nf : ~ forbidden u) by (intros H; apply is_excluded_spec in H; [congruence|eapply nth_error_In; eauto]).
    assert (C := i_count _ _ _ _ _ I i u Eu Nf). cbn [count_occ] in C. destruct (Nat.eq_dec i i) as [_|]; [|congruence].
    unfold vget at 1. rewrite C. cbn [bind]. rewrite Nat.add_succ_r. unfold vset. assert (Hl := i_len _ _ _ _ _ I). rewrite (proj2 (Nat.ltb_lt i (length unsat))) by lia. cbn [bind].
    unfold vget. rewrite Eu. cbn [bind].
    set (n := unprocessed P u + count_occ Nat.eq_dec pending i) in *.
    assert (U : forall j, nth_error (upd unsat i n) j = if i =? j then Some n else nth_error unsat j).
    { intros j. rewrite upd_nth. destruct (Nat.eqb_spec i j) as [<-|]; cbn [andb]; auto. now rewrite (proj2 (Nat.ltb_lt i (length unsat))) by lia. }
    assert (I' : inv P pending (upd unsat i n) re q \/ n = 0).
    { destruct n as [|n'] eqn:En; [auto|left]. destruct I as [I1 I2 I3 I4 I5 I6 I7]. constructor; auto.
      - now rewrite upd_length.
      - intros j w H1 H2. rewrite U. destruct (Nat.eqb_spec i j) as [<-|Hne]; [assert (w = u) by congruence; subst w; unfold n in En; now rewrite En|].
        rewrite (I6 j w H1 H2). cbn [count_occ]. destruct (Nat.eq_dec i j); [congruence|auto].
      - intros j w H1 H2. rewrite U. destruct (Nat.eqb_spec i j) as [<-|Hne]; [discriminate|eauto]. }
    destruct (Nat.eqb_spec n 0) as [En|En].
    + assert (Hav : av (uo_eff u)).
      { apply av_unary; auto; [eapply nth_error_In; eauto|]. intros g Hg. apply (Hp u eq_refl g Hg). destruct (P g) eqn:EP; auto. exfalso.
        assert (In g (filter (fun g => negb (P g)) (uo_pre u))) by (apply filter_In; rewrite EP; auto). unfold n, unprocessed in En. destruct (filter (fun g => negb (P g)) (uo_pre u)); [destruct H|cbn in En; lia]. }
      assert (Hk : fact_ok t (uo_eff u)) by (apply unary_ok; eapply nth_error_In; eauto).
      destruct (enqueue_if_necessary (re, q) (uo_eff u)) as [re' q'] eqn:Ee. destruct (inv_enqueue P (i :: pending) unsat re q (uo_eff u) I Hk Hav re' q' Ee) as (J & Jf & _).
      eexists _, _, _. split; [reflexivity|]. destruct J as [I1 I2 I3 I4 I5 I6 I7]. constructor; auto.
      * now rewrite upd_length.
      * intros j w H1 H2. rewrite U. destruct (Nat.eqb_spec i j) as [<-|Hne]; [assert (w = u) by congruence; subst w; auto|].
        rewrite (I6 j w H1 H2). cbn [count_occ]. destruct (Nat.eq_dec i j); [congruence|auto].
      * intros j w H1 H2. rewrite U. destruct (Nat.eqb_spec i j) as [<-|Hne]; [intros _; congruence|eauto].
    + eexists _, _, _. split; [reflexivity|]. destruct I' as [I'|]; [auto|lia].
Qed.

Lemma triggers_ok P : (forall g, P g = true -> av g) -> forall l unsat re q, (forall i, In i l -> i < length us) -> inv P l unsat re q ->
  exists unsat' re' q', fold_outcome (trigger us opex) l (unsat, (re, q)) = Ok (unsat', (re', q')) /\ inv P [] unsat' re' q'.
Proof.
  intros HP. induction l as [|i l IH]; intros unsat re q Hl I; cbn [fold_outcome]; [eexists _, _, _; split; [reflexivity|auto]|].
  destruct (trigger_ok P i l unsat re q) as (unsat' & re' & q' & E & I'); auto; [apply Hl; now left|]. rewrite E. cbn [bind]. apply IH; auto. intros j Hj. apply Hl. now right.
Qed.

Lemma unprocessed_add P f u : P f = false -> unprocessed P u = unprocessed (fput_at P f true) u + length (filter (fact_eqb f) (uo_pre u)).
Proof.
  intros HP. unfold unprocessed. induction (uo_pre u) as [|g l IH]; cbn [filter length]; auto. destruct (fact_dec g f) as [->|Hn].
  - rewrite HP, fput_same, (proj2 (fact_eqb_spec f f) eq_refl). cbn [negb length]. lia.
  - rewrite fput_other by auto. assert (fact_eqb f g = false) as -> by (apply fact_eqb_false; congruence). destruct (negb (P g)); cbn [length]; lia.
Qed.

Lemma filter_less {A} (p q : A -> bool) l : (forall x, In x l -> q x = true -> p x = true) -> length (filter q l) <= length (filter p l).
Proof. induction l as [|a l IH]; intros H; cbn [filter]; auto. assert (IH' := IH (fun x Hx => H x (or_intror Hx))). destruct (q a) eqn:E; [rewrite (H a (or_introl eq_refl) E); cbn; lia|]. destruct (p a); cbn; lia. Qed.
Lemma filter_less_strict {A} (p q : A -> bool) l a : (forall x, In x l -> q x = true -> p x = true) -> In a l -> p a = true -> q a = false -> length (filter q l) < length (filter p l).
Proof.
  induction l as [|b l IH]; intros H Ha Hp Hq; [destruct Ha|]. cbn [filter]. assert (H' := fun x Hx => H x (or_intror Hx)). destruct Ha as [->|Ha].
  - rewrite Hp, Hq. cbn. assert (K := filter_less p q l H'). lia.
  - specialize (IH H' Ha Hp Hq). destruct (q b) eqn:E; [rewrite (H b (or_introl eq_refl) E); cbn; lia|]. destruct (p b); cbn; lia.
Qed.

Lemma exploration_ok : forall fuel P unsat re q, inv P [] unsat re q -> length (filter (fun f => negb (P f)) (all_facts t)) < fuel ->
  exists re', relaxed_exploration us opex fuel unsat (re, q) = Ok re' /\ forall f, re' f = true <-> av f.
Proof.
  induction fuel as [|fuel IH]; intros P unsat re q I Hf; [lia|]. destruct q as [|f q]; cbn [relaxed_exploration].
  - exists re. split; auto. destruct I as [I1 I2 I3 I4 I5 I6 I7]. intros f. split; [intros H; now apply I3|]. apply (av_ind' (fun f => re f = true)); auto.
    intros u Hu Hn Hp. apply In_nth_error in Hu as (i & Hi). apply (I7 i u Hi Hn). rewrite (I6 i u Hi Hn). cbn [count_occ]. f_equal. rewrite Nat.add_0_r. unfold unprocessed.
    replace (filter _ _) with (@nil fact); auto. symmetry. clear -Hp I1. induction (uo_pre u) as [|g l IHl]; auto. cbn [filter]. assert (Hg := Hp g (or_introl eq_refl)). apply I1 in Hg as [Hg|[]]. rewrite Hg. cbn. apply IHl. intros x Hx. apply Hp. now right.
  - assert (Pf : P f = false) by (apply (proj2 (i_nodup _ _ _ _ _ I)); now left).
    assert (J : inv (fput_at P f true) (precondition_of us f) unsat re q).
    { destruct I as [I1 [I2 I2'] I3 I4 I5 I6 I7]. inversion I2 as [|? ? Hn I2'']; subst. constructor; auto.
      - intros g. rewrite I1. cbn [In]. destruct (fact_dec g f) as [->|Hne]; [rewrite fput_same; tauto|rewrite fput_other by auto]. intuition congruence.
      - split; auto. intros g Hg. rewrite fput_other; [apply I2'; now right|]. intros ->. auto.
      - intros i u H1 H2. rewrite (I6 i u H1 H2). cbn [count_occ]. rewrite precondition_of_count, H1, (unprocessed_add P f u Pf). f_equal. lia. }
    assert (Pa : forall g, fput_at P f true g = true -> av g) by (intros g Hg; apply (i_sound _ _ _ _ _ J); apply (i_split _ _ _ _ _ J); auto).
    destruct (triggers_ok (fput_at P f true) Pa (precondition_of us f) unsat re q) as (unsat' & re' & q' & E & J'); auto; [apply precondition_of_lt|].
    rewrite E. cbn [bind fst snd]. apply (IH (fput_at P f true)); auto.
    enough (length (filter (fun g => negb (fput_at P f true g)) (all_facts t)) < length (filter (fun g => negb (P g)) (all_facts t))) by lia.
    apply (filter_less_strict _ _ _ f).
    + intros g _ Hg. destruct (fact_dec g f) as [->|Hne]; [now rewrite Pf|]. now rewrite fput_other in Hg by auto.
    + apply all_facts_In. apply (i_sound _ _ _ _ _ I). apply (i_split _ _ _ _ _ I). right. now left.
    + now rewrite Pf.
    + now rewrite fput_same.
Qed.

(** Setting up *)
Record pre_inv (re : fact -> bool) (q : list fact) : Prop := {
  p_split : forall g, re g = true <-> In g q;
  p_nodup : NoDup q;
  p_sound : forall g, re g = true -> fact_ok t g /\ av g
}.
Lemma pre_enqueue re q f : pre_inv re q -> fact_ok t f -> av f -> forall re' q', enqueue_if_necessary (re, q) f = (re', q') ->
  pre_inv re' q' /\ re' f = true /\ forall g, re g = true -> re' g = true.
Proof.
  intros I Hk Ha re' q' E. unfold enqueue_if_necessary in E. destruct (re f) eqn:Er; injection E as <- <-; [auto|]. destruct I as [I1 I2 I3].
  assert (G : forall g, fput_at re f true g = true <-> g = f \/ re g = true).
  { intros g. destruct (fact_dec g f) as [->|Hn]; [rewrite fput_same; tauto|rewrite fput_other by auto; tauto]. }
  split; [constructor|split].
  - intros g. rewrite G, I1, in_app_iff. cbn [In]. intuition.
  - apply NoDup_snoc; auto. intros H. apply I1 in H. congruence.
  - intros g Hg. apply G in Hg as [->|Hg]; auto.
  - apply fput_same.
  - intros g Hg. apply G. auto.
Qed.

Lemma state_reached : exists re q, set_state_atoms_reached t (t_init t) excl (fun _ => false, []) = Ok (re, q) /\ pre_inv re q /\
  forall g, holds (t_init t) g -> ~ inX g -> re g = true.
Proof.
  unfold set_state_atoms_reached. destruct (fold_inv (fun rq f => let* x := fget t excl f in Ok (if x then rq else enqueue_if_necessary rq f))
    (fun pre (rq : queue) => pre_inv (fst rq) (snd rq) /\ forall g, In g pre -> ~ inX g -> fst rq g = true) (combine (seq 0 (length (t_init t))) (t_init t)) (fun _ => false, [])) as ([re q] & E & H1 & H2).
  - split; [|intros g []]. constructor; cbn [fst snd]; [intros g; split; [discriminate|intros []]|constructor|discriminate].
  - intros pre f post [re q] E [H1 H2]. cbn [fst snd] in *. assert (Hh : holds (t_init t) f) by (apply state_atom; rewrite E; apply in_app_iff; right; now left).
    assert (Hk := holds_ok t _ f Hinit Hh). rewrite fget_ok by auto. cbn [bind]. eexists. split; [reflexivity|]. destruct (excl f) eqn:Ee.
    + split; auto. intros g Hg Hx. apply in_app_iff in Hg as [Hg|[<-|[]]]; auto. exfalso. apply Hx. now apply Hexcl.
    + assert (Ha : av f) by (apply av_init; auto; intros Hx; apply Hexcl in Hx; auto; congruence).
      destruct (enqueue_if_necessary (re, q) f) as [re' q'] eqn:Eq. destruct (pre_enqueue re q f H1 Hk Ha re' q' Eq) as (J1 & J2 & J3). cbn [fst snd]. split; auto.
      intros g Hg Hx. apply in_app_iff in Hg as [Hg|[<-|[]]]; auto.
  - exists re, q. cbn [fst snd] in *. splits; auto. intros g Hg Hx. apply H2; auto. now apply state_atom.
Qed.

Lemma operators_ready l : forall re q, (forall u, In u l -> In u us) -> pre_inv re q -> exists re' q',
  fold_left (fun rq u => if is_excluded excl ids u then rq else if length (uo_pre u) =? 0 then enqueue_if_necessary rq (uo_eff u) else rq) l (re, q) = (re', q') /\
  pre_inv re' q' /\ (forall g, re g = true -> re' g = true) /\ forall u, In u l -> ~ forbidden u -> uo_pre u = [] -> re' (uo_eff u) = true.
Proof.
  induction l as [|u l IH]; intros re q Hl I; cbn [fold_left]; [exists re, q; splits; auto; intros u []|].
  assert (Hu : In u us) by (apply Hl; now left). assert (Hl' : forall u, In u l -> In u us) by (intros; apply Hl; now right).
  destruct (is_excluded excl ids u) eqn:Ex.
  - destruct (IH re q Hl' I) as (re' & q' & E & H1 & H2 & H3). exists re', q'. splits; auto. intros w [<-|Hw]; auto. intros Hn _. exfalso. apply Hn. now apply is_excluded_spec.
  - assert (Nf : ~ forbidden u) by (intros H; apply is_excluded_spec in H; [congruence|auto]). destruct (Nat.eqb_spec (length (uo_pre u)) 0) as [E0|E0].
    + assert (Ep : uo_pre u = []) by (destruct (uo_pre u); [auto|discriminate]).
      assert (Ha : av (uo_eff u)) by (apply av_unary; auto; rewrite Ep; intros g []).
      destruct (enqueue_if_necessary (re, q) (uo_eff u)) as [re1 q1] eqn:Eq. destruct (pre_enqueue re q (uo_eff u) I (proj2 (unary_ok u Hu)) Ha re1 q1 Eq) as (J1 & J2 & J3).
      destruct (IH re1 q1 Hl' J1) as (re' & q' & E & H1 & H2 & H3). exists re', q'. splits; auto. intros w [<-|Hw]; auto.
    + destruct (IH re q Hl' I) as (re' & q' & E & H1 & H2 & H3). exists re', q'. splits; auto. intros w [<-|Hw]; auto. intros _ Ep. rewrite Ep in E0. now elim E0.
Qed.

Lemma prepared re q : pre_inv re q -> (forall g, holds (t_init t) g -> ~ inX g -> re g = true) ->
  exists re' q', fold_left (fun rq u => if is_excluded excl ids u then rq else if length (uo_pre u) =? 0 then enqueue_if_necessary rq (uo_eff u) else rq) us (re, q) = (re', q') /\
  inv (fun _ => false) [] (map (fun u => length (uo_pre u)) us) re' q'.
Proof.
  intros I Hi. destruct (operators_ready us re q (fun u H => H) I) as (re' & q' & E & [J1 J2 J3] & Jm & Jz). exists re', q'. split; auto. constructor; auto.
  - intros g. rewrite J1. split; auto. intros [H|H]; [discriminate|auto].
  - now rewrite map_length.
  - intros i u Hu Hn. rewrite nth_error_map, Hu. cbn [option_map count_occ]. f_equal. rewrite Nat.add_0_r. unfold unprocessed. f_equal. symmetry. induction (uo_pre u) as [|g l IH]; auto. cbn. f_equal. exact IH.
  - intros i u Hu Hn Hz. rewrite nth_error_map, Hu in Hz. cbn [option_map] in Hz. injection Hz as Hz. apply Jz; auto; [eapply nth_error_In; eauto|]. destruct (uo_pre u); [auto|discriminate].
Qed.
End Exploration.

Lemma flags_set t l : forall (m : fact -> bool) b, Forall (fact_ok t) l -> exists m', fold_outcome (fun m f => fput t m f b) l m = Ok m' /\
  forall f, m' f = if mem_fact f l then b else m f.
Proof.
  intros m b Hl. destruct (fold_inv (fun m f => fput t m f b) (fun pre (m' : fact -> bool) => forall f, m' f = if mem_fact f pre then b else m f) l m) as (m' & E & H).
  - intros f. reflexivity.
  - intros pre f post m1 E H. assert (Hf : fact_ok t f) by (rewrite Forall_forall in Hl; apply Hl; rewrite E; apply in_app_iff; right; now left). rewrite fput_ok by auto. eexists. split; [reflexivity|].
    intros g. destruct (fact_dec g f) as [->|Hn].
    + rewrite fput_same. assert (mem_fact f (pre ++ [f]) = true) as -> by (apply mem_fact_In, in_app_iff; right; now left). auto.
    + rewrite fput_other, H by auto. assert (mem_fact g (pre ++ [f]) = mem_fact g pre) as ->; auto.
      unfold mem_fact. rewrite existsb_app. cbn. apply fact_eqb_false in Hn. rewrite Hn. now rewrite !orb_false_r.
  - eauto.
Qed.

(** The exploration is exact, and leaves no flag behind. *)
Theorem reachability_ok t ex X un : relax_ok t -> state_ok t (t_init t) -> Forall (fact_ok t) X -> (forall f, ex_excluded ex f = false) ->
  exists re ex', compute_relaxed_reachability t ex X un = Ok (re, ex') /\ (forall f, ex_excluded ex' f = false) /\
    forall f, re f = true <-> avoiding t un (fun g => In g X) f.
Proof.
  intros Hro Hi HX Hex. unfold compute_relaxed_reachability, setup_exploration_queue.
  destruct (flags_set t X (ex_excluded ex) true HX) as (excl & E1 & H1). rewrite E1. cbn [bind].
  assert (Hexcl : forall f, fact_ok t f -> (excl f = true <-> In f X)).
  { intros f _. rewrite H1, <- mem_fact_In. destruct (mem_fact f X); [tauto|]. rewrite Hex. tauto. }
  destruct (state_reached t Hi X un excl Hexcl) as (re0 & q0 & E2 & P0 & Q0). rewrite E2. cbn [bind].
  unfold initialize_operator_data. destruct (excluded_ops t Hro X un excl Hexcl) as (ids & E3 & Hids). rewrite E3. cbn [bind].
  destruct (prepared t Hro X un excl Hexcl ids Hids re0 q0 P0 Q0) as (re1 & q1 & E4 & I1). rewrite E4. cbn [bind].
  destruct (flags_set t X excl false HX) as (excl' & E5 & H5). rewrite E5. cbn [bind].
  destruct (exploration_ok t Hro X un excl Hexcl ids Hids (S (length (all_facts t))) (fun _ => false) (map (fun u => length (uo_pre u)) (unary_operators t)) re1 q1 I1) as (re & E6 & H6).
  { clear. induction (all_facts t) as [|a l IH]; cbn [filter negb length] in *; lia. }
  unfold opex in E6. rewrite E6. cbn [bind]. eexists _, _. split; [reflexivity|]. split; auto.
  intros f. cbn [ex_excluded]. rewrite H5. destruct (mem_fact f X) eqn:Em; auto. rewrite H1, Em. apply Hex.
Qed.

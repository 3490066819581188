(** lm_zg: the labels at the fixed point are exact. *)
From Verif Require Import Outcome Spec_Task Spec_Relaxation Spec_Landmarks Spec_LandmarkGeneration Model_DefaultRules Model_LandmarkGeneration.
From Verif Require Import Proof_DefaultRules Proof_OC1 Proof_LG1 Proof_LG2 Proof_LG3.
Local Open Scope nat_scope.

Lemma add_fact_In l a b : In b (add_fact l a) <-> In b l \/ b = a.
Proof. unfold add_fact. destruct (mem_fact a l) eqn:E; [apply mem_fact_In in E; intuition (subst; auto)|]. rewrite in_app_iff. cbn [In]. intuition. Qed.
Lemma add_fact_NoDup l a : NoDup l -> NoDup (add_fact l a).
Proof. intros H. unfold add_fact. destruct (mem_fact a l) eqn:E; auto. apply NoDup_snoc; auto. intros K. apply mem_fact_In in K. congruence. Qed.
Lemma add_facts_In l : forall acc b, In b (fold_left add_fact l acc) <-> In b acc \/ In b l.
Proof. induction l as [|a l IH]; intros acc b; cbn [fold_left In]; [tauto|]. rewrite IH, add_fact_In. intuition. Qed.
Lemma add_facts_NoDup l : forall acc, NoDup acc -> NoDup (fold_left add_fact l acc).
Proof. induction l as [|a l IH]; intros acc H; cbn [fold_left]; auto. apply IH, add_fact_NoDup, H. Qed.
Lemma reached_iff (l : list fact) : is_reached l = true <-> l <> [].
Proof. destruct l; cbn; split; congruence. Qed.
Lemma in_nonempty {A} (a : A) l : In a l -> l <> [].
Proof. destruct l; [intros []|discriminate]. Qed.

Section Sum.
Variable w : list fact -> nat.
Definition total (fs : list fact) (m : layer) : nat := fold_right (fun f s => w (m f) + s) 0 fs.
Lemma total_le fs (m m' : layer) : (forall f, In f fs -> w (m' f) <= w (m f)) -> total fs m' <= total fs m.
Proof. induction fs as [|f fs IH]; intros H; cbn [total fold_right]; auto. assert (w (m' f) <= w (m f)) by (apply H; now left). assert (total fs m' <= total fs m) by (apply IH; intros; apply H; now right). unfold total in *. lia. Qed.
Lemma total_lt fs (m m' : layer) f : (forall f, In f fs -> w (m' f) <= w (m f)) -> In f fs -> w (m' f) < w (m f) -> total fs m' < total fs m.
Proof.
  induction fs as [|g fs IH]; intros H Hf Hw; [destruct Hf|]. destruct Hf as [->|Hf]; cbn [total fold_right].
  - assert (total fs m' <= total fs m) by (apply total_le; intros; apply H; now right). unfold total in *. lia.
  - assert (w (m' g) <= w (m g)) by (apply H; now left). assert (total fs m' < total fs m) by (apply IH; auto; intros; apply H; now right). unfold total in *. lia.
Qed.
End Sum.

Section Labels.
Variables (io : list Z -> list Z) (il : list fact -> list fact).
Hypothesis Hio : forall l i, In i (io l) <-> In i l.
Hypothesis Hil : forall l a, In a (il l) <-> In a l.
Variable t : task.
Hypothesis Hro : relax_ok t.
Hypothesis Hinit : state_ok t (t_init t).
Notation av a := (avoiding t true (fun b => b = a)).
Notation R := (avoiding t true (fun _ => False)).
Definition conds (x : op_or_axiom) (e : effect) : list fact := a_pre x ++ eff_cond e.

Lemma av_step X x e : In x (ops_and_axioms t) -> In e (a_effs x) -> ~ X (eff_fact e) -> (forall g, In g (conds x e) -> avoiding t true X g) -> avoiding t true X (eff_fact e).
Proof.
  intros Hx He HX Hp. apply in_app_iff in Hx as [Hx|Hx]; apply in_map_iff in Hx as ((k & y) & <- & Hx); apply in_numbered in Hx; unfold conds in Hp; cbn [as_operator as_axiom a_pre a_effs fst snd] in *.
  - apply av_op with y; auto; [eapply nth_error_In; eauto|discriminate].
  - destruct He as [<-|[]]. cbn [eff_fact eff_cond] in *. apply av_rule; auto; [eapply nth_error_In; eauto|apply Hp; now left|]. intros g Hg. apply Hp. now right.
Qed.
Lemma av_cases X (P : fact -> Prop) : (forall f, holds (t_init t) f -> ~ X f -> P f) ->
  (forall x e, In x (ops_and_axioms t) -> In e (a_effs x) -> ~ X (eff_fact e) -> (forall g, In g (conds x e) -> avoiding t true X g /\ P g) -> P (eff_fact e)) ->
  forall f, avoiding t true X f -> P f.
Proof.
  intros H1 H2 f Hf. induction Hf as [f Hh Hx|op e Ho He Hu Hx Hp IH|r Hr Hx Ha IHa Hp IH]; auto.
  - apply In_nth_error in Ho as (o & Ho). apply (H2 (as_operator (o, op)) e); auto. apply in_app_iff. left. now apply in_map, in_numbered.
  - apply In_nth_error in Hr as (k & Hr). apply (H2 (as_axiom (k, r)) {| eff_cond := r_body r; eff_fact := r_head r |}); auto.
    + apply in_app_iff. right. now apply in_map, in_numbered.
    + now left.
    + intros g [<-|Hg]; auto.
Qed.
Lemma av_fact X f : avoiding t true X f -> fact_ok t f.
Proof.
  apply (av_cases X (fact_ok t)).
  - intros g Hg _. eapply holds_ok; eauto.
  - intros x e Hx He _ _. destruct (op_axiom_ok t x Hro Hx) as [_ H]. apply H. auto.
Qed.
Lemma av_dec a f : fact_ok t a -> av a f \/ ~ av a f.
Proof.
  intros Ha. destruct (reachability_ok t {| ex_reached := fun _ => false; ex_excluded := fun _ => false |} [a] true Hro Hinit (Forall_cons _ Ha (Forall_nil _))) as (re & ex' & _ & _ & H); [auto|].
  assert (K : re f = true <-> av a f) by (rewrite H; split; apply av_fewer; intros g; cbn [In]; intuition congruence). destruct (re f); [left; now apply K|right; intros C; apply K in C; discriminate].
Qed.
Lemma av_R X f : avoiding t true X f -> R f.
Proof. apply av_fewer. intros g []. Qed.
Lemma conds_ok x e : In x (ops_and_axioms t) -> In e (a_effs x) -> Forall (fact_ok t) (a_pre x) /\ Forall (fact_ok t) (eff_cond e) /\ fact_ok t (eff_fact e).
Proof. intros Hx He. destruct (op_axiom_ok t x Hro Hx) as [H1 H2]. destruct (H2 e He). auto. Qed.
(** A landmark of all ways ... of one condition. *)
Lemma all_avoid a fs : fact_ok t a -> (forall g, In g fs -> av a g) \/ exists g, In g fs /\ ~ av a g.
Proof.
  intros Ha. induction fs as [|f fs [IH|(g & Hg & Hn)]]; [left; intros g []| |right; exists g; split; auto; now right].
  destruct (av_dec a f Ha) as [H|H]; [left; intros g [<-|Hg]; auto|right; exists f; split; auto; now left].
Qed.

(** ** Layers *)
Record layer_ok (m : layer) : Prop := {
  lo_reach : forall f, m f <> [] -> R f /\ In f (m f) /\ NoDup (m f) /\ Forall (fact_ok t) (m f);
  lo_lower : forall f a, m f <> [] -> fact_ok t a -> ~ av a f -> In a (m f);
  lo_init : forall f, holds (t_init t) f -> m f = [f]
}.
Definition same (l l' : list fact) : Prop := forall a, In a l <-> In a l'.
Lemma same_reached l l' : same l l' -> l <> [] -> l' <> [].
Proof. intros H K. destruct l as [|a l]; [congruence|]. apply (in_nonempty a), H. now left. Qed.
Definition settled (m m' : layer) x e : Prop :=
  (forall c, In c (conds x e) -> m c <> []) -> m' (eff_fact e) <> [] /\ forall a, In a (m' (eff_fact e)) -> a = eff_fact e \/ exists c, In c (conds x e) /\ In a (m c).
Definition consistent (m : layer) (T : list Z) : Prop := forall x e, In x (ops_and_axioms t) -> In e (a_effs x) -> ~ In (a_id x) T -> settled m m x e.

Let n := length (all_facts t).
Definition weight (l : list fact) : nat := match l with [] => S n | _ => length l end.
Notation M := (total weight (all_facts t)).
Lemma label_short m f : layer_ok m -> length (m f) <= n.
Proof.
  intros H. destruct (m f) as [|b l] eqn:E; [cbn; lia|]. assert (K : m f <> []) by congruence. destruct (lo_reach m H f K) as (_ & _ & H1 & H2). rewrite <- E. apply NoDup_incl_length; auto.
  intros a Ha. rewrite Forall_forall in H2. apply all_facts_In. auto.
Qed.
Lemma weight_le m f : layer_ok m -> weight (m f) <= S n.
Proof. intros H. assert (K := label_short m f H). unfold weight. destruct (m f); lia. Qed.
Lemma total_bound m : layer_ok m -> M m <= n * S n.
Proof.
  intros H. assert (G : forall fs, total weight fs m <= length fs * S n); [|apply G].
  intros fs. induction fs as [|f fs IH]; cbn [total fold_right length]; [lia|]. assert (K := weight_le m f H). change (fold_right (fun f0 s => weight (m f0) + s) 0 fs) with (total weight fs m). lia.
Qed.

Lemma conditions_ok m fs : Forall (fact_ok t) fs -> exists b, conditions_reached t m fs = Ok b /\ (b = true <-> forall f, In f fs -> m f <> []).
Proof.
  induction 1 as [|f fs Hf _ (b & E & IH)]; cbn [conditions_reached]; [exists true; split; auto; split; auto; intros _ f []|]. rewrite (fget_ok t m f Hf). cbn [bind]. destruct (is_reached (m f)) eqn:Er.
  - exists b. split; auto. rewrite IH. apply reached_iff in Er. split; [intros H g [<-|Hg]; auto|intros H g Hg; apply H; now right].
  - exists false. split; auto. split; [discriminate|]. intros H. assert (K : m f <> []) by (apply H; now left). apply reached_iff in K. congruence.
Qed.
Lemma union_ok m fs : Forall (fact_ok t) fs -> exists u, union_of_condition_labels t m fs = Ok u /\ NoDup u /\ forall a, In a u <-> exists c, In c fs /\ In a (m c).
Proof.
  intros Hfs. unfold union_of_condition_labels. destruct (fold_inv (fun acc f => let* l := fget t m f in Ok (fold_left add_fact l acc)) (fun pre u => NoDup u /\ forall a, In a u <-> exists c, In c pre /\ In a (m c)) fs []) as (u & E & H).
  - split; [constructor|]. intros a. cbn [In]. split; [intros []|intros (c & [] & _)].
  - intros pre f post u E [H1 H2]. rewrite Forall_forall in Hfs. rewrite (fget_ok t m f); [|apply Hfs; rewrite E; apply in_app_iff; right; now left]. cbn [bind]. eexists. split; [reflexivity|].
    split; [now apply add_facts_NoDup|]. intros a. rewrite add_facts_In, H2. split.
    + intros [(c & K1 & K2)|K]; [exists c; split; auto; apply in_app_iff; auto|exists f; split; auto; apply in_app_iff; right; now left].
    + intros (c & K1 & K2). apply in_app_iff in K1 as [K1|[<-|[]]]; eauto.
  - eauto.
Qed.

(** One effect *)
Record shrunk (m m' : layer) : Prop := {
  sh_keep : forall f, m f <> [] -> m' f <> [];
  sh_incl : forall f a, m f <> [] -> In a (m' f) -> In a (m f)
}.
Lemma shrunk_refl m : shrunk m m.
Proof. constructor; auto. Qed.
Lemma shrunk_trans m1 m2 m3 : shrunk m1 m2 -> shrunk m2 m3 -> shrunk m1 m3.
Proof. intros [A1 A2] [B1 B2]. constructor; auto. Qed.

Lemma effect_ok m0 m x e u : layer_ok m0 -> layer_ok m -> shrunk m0 m -> In x (ops_and_axioms t) -> In e (a_effs x) ->
  (forall c, In c (conds x e) -> m0 c <> []) -> NoDup u -> (forall a, In a u <-> exists c, In c (conds x e) /\ In a (m0 c)) -> length (m (eff_fact e)) <> 1 ->
  let l := m (eff_fact e) in let r := propagate_labels l u (eff_fact e) in let m' := fput_at m (eff_fact e) (fst r) in
  layer_ok m' /\ shrunk m m' /\ settled m0 m' x e /\ (forall f, f <> eff_fact e -> m' f = m f) /\
  (snd r = false -> same (m (eff_fact e)) (m' (eff_fact e)) /\ weight (m' (eff_fact e)) = weight (m (eff_fact e))) /\ (snd r = true -> weight (m' (eff_fact e)) < weight (m (eff_fact e))).
Proof.
  intros Hm0 Hm Hs Hx He Hc Hu Hin Hl1 l r m'. set (f := eff_fact e) in *. destruct (conds_ok x e Hx He) as (C1 & C2 & C3). fold f in C3.
  assert (Eput : m' f = fst r) by apply fput_same. assert (Eoth : forall g, g <> f -> m' g = m g) by (intros g Hg; now apply fput_other).
  assert (Hr : forall a, In a (fst r) <-> a = f \/ In a u /\ (l <> [] -> In a l)).
  { intros a. unfold r, propagate_labels. cbn [fst]. rewrite add_fact_In. destruct (is_reached l) eqn:E.
    - apply reached_iff in E. rewrite filter_In, mem_fact_In. tauto.
    - assert (l = []) by (destruct l; auto; discriminate). intuition. }
  assert (Hnd : NoDup (fst r)).
  { unfold r, propagate_labels. cbn [fst]. apply add_fact_NoDup. destruct (is_reached l) eqn:E; auto. apply NoDup_filter. apply reached_iff in E. now destruct (lo_reach m Hm f E) as (_ & _ & K & _). }
  assert (Hne : fst r <> []) by (apply (in_nonempty f), Hr; auto).
  assert (HR : R f) by (apply (av_step (fun _ => False) x e); auto; intros g Hg; now apply (lo_reach m0 Hm0 g); apply Hc).
  assert (Hok' : layer_ok m').
  { constructor.
    - intros g Hg. destruct (fact_dec g f) as [->|Ng]; [|rewrite (Eoth g Ng) in *; now apply lo_reach]. rewrite Eput in *. splits; auto.
      + apply Hr. auto.
      + apply Forall_forall. intros a Ha. apply Hr in Ha as [->|[Ha _]]; auto. apply Hin in Ha as (c & K1 & K2). destruct (lo_reach m0 Hm0 c (Hc c K1)) as (_ & _ & _ & K3). rewrite Forall_forall in K3. auto.
    - intros g a Hg Ha Hn. destruct (fact_dec g f) as [->|Ng]; [|rewrite (Eoth g Ng) in *; now apply (lo_lower m Hm)]. rewrite Eput. apply Hr. destruct (fact_dec a f) as [->|Naf]; auto. right. split.
      + apply Hin. destruct (all_avoid a (conds x e) Ha) as [K|(c & K1 & K2)]; [|exists c; split; auto; apply (lo_lower m0 Hm0); auto]. exfalso. apply Hn. apply (av_step _ x e); auto.
      + intros K. apply (lo_lower m Hm); auto.
    - intros g Hg. destruct (fact_dec g f) as [->|Ng]; [|rewrite (Eoth g Ng) in *; now apply (lo_init m Hm)]. elim Hl1. rewrite (lo_init m Hm f Hg). reflexivity. }
  assert (Hsub : l <> [] -> forall a, In a (fst r) -> In a l).
  { intros K a Ha. apply Hr in Ha as [->|[_ Ha]]; auto. now destruct (lo_reach m Hm f K) as (_ & K2 & _). }
  assert (Hsnd : snd r = negb (length l =? length (fst r))) by reflexivity.
  splits; auto.
  - constructor.
    + intros g Hg. destruct (fact_dec g f) as [->|Ng]; [now rewrite Eput|rewrite (Eoth g Ng); auto].
    + intros g a Hg Ha. destruct (fact_dec g f) as [->|Ng]; [|rewrite (Eoth g Ng) in Ha; auto]. rewrite Eput in Ha. now apply Hsub.
  - intros _. fold f. rewrite Eput. split; auto. intros a Ha. apply Hr in Ha as [->|[Ha _]]; auto. right. now apply Hin.
  - rewrite Eput. intros K. rewrite Hsnd in K. apply negb_false_iff, Nat.eqb_eq in K. change (m f) with l. assert (Hln : l <> []) by (destruct l; [destruct (fst r); [congruence|discriminate]|discriminate]). split.
    + intros a. split; [|now apply Hsub]. intros Ha. assert (I : incl (fst r) l) by (intros b Hb; now apply Hsub). apply (NoDup_length_incl Hnd (Nat.eq_le_incl _ _ K) I a Ha).
    + unfold weight. destruct (fst r); [congruence|]. destruct l; [congruence|]. auto.
  - rewrite Eput. intros K. rewrite Hsnd in K. apply negb_true_iff, Nat.eqb_neq in K. change (m f) with l. assert (L := label_short m' f Hok'). rewrite Eput in L. assert (W : forall k : list fact, k <> [] -> weight k = length k) by (intros [|]; [congruence|reflexivity]). rewrite (W (fst r) Hne).
    assert (D : l = [] \/ l <> []) by (clear; destruct l; [left; auto|right; discriminate]). destruct D as [D|D].
    + rewrite D. cbn [weight]. lia.
    + rewrite (W l D). assert (length (fst r) <= length l) by (apply NoDup_incl_length; auto; intros a Ha; now apply Hsub). lia.
Qed.

Lemma settled_shrunk m0 m m' x e : settled m0 m x e -> shrunk m m' -> settled m0 m' x e.
Proof. intros H S Hc. destruct (H Hc) as [H1 H2]. split; [now apply (sh_keep m m' S)|]. intros a Ha. apply H2. now apply (sh_incl m m' S). Qed.
Lemma same_refl l : same l l. Proof. intros a. tauto. Qed.
Lemma same_trans l1 l2 l3 : same l1 l2 -> same l2 l3 -> same l1 l3.
Proof. intros H K a. rewrite (H a). apply K. Qed.
Lemma single m f : layer_ok m -> length (m f) = 1 -> m f = [f].
Proof. intros H E. assert (K : m f <> []) by (destruct (m f); [discriminate|discriminate]). destruct (lo_reach m H f K) as (_ & H1 & _). destruct (m f) as [|b [|? ?]]; try discriminate. destruct H1 as [->|[]]. auto. Qed.

Lemma operator_ok m0 m x : layer_ok m0 -> layer_ok m -> shrunk m0 m -> In x (ops_and_axioms t) -> (forall c, In c (a_pre x) -> m0 c <> []) ->
  exists m' ch, apply_operator_and_propagate_labels t x m0 m = Ok (m', ch) /\ layer_ok m' /\ shrunk m m' /\ (forall e, In e (a_effs x) -> settled m0 m' x e) /\
    (forall f, ~ In f ch -> same (m f) (m' f)) /\ M m' <= M m /\ (ch <> [] -> M m' < M m).
Proof.
  intros Hm0 Hm Hs Hx Hpre. unfold apply_operator_and_propagate_labels. destruct (op_axiom_ok t x Hro Hx) as [Hp He]. destruct (union_ok m0 (a_pre x) Hp) as (u & Eu & Hu1 & Hu2). rewrite Eu. cbn [bind].
  destruct (fold_inv (fun (st : layer * list fact) e =>
    let a := eff_fact e in
    let* l := fget t (fst st) a in
    if length l =? 1 then Ok st else
    let* b := conditions_reached t m0 (eff_cond e) in
    if b then
      let* c := union_of_condition_labels t m0 (eff_cond e) in
      let (l', changed) := propagate_labels l (fold_left add_fact u c) a in
      let* m := fput t (fst st) a l' in
      Ok (m, if changed then add_fact (snd st) a else snd st)
    else Ok st) (fun pre (st : layer * list fact) => layer_ok (fst st) /\ shrunk m (fst st) /\ (forall e, In e pre -> settled m0 (fst st) x e) /\
      (forall f, ~ In f (snd st) -> same (m f) (fst st f)) /\ M (fst st) <= M m /\ (snd st <> [] -> M (fst st) < M m)) (a_effs x) (m, [])) as ([m' ch] & E & H).
  - cbn [fst snd]. splits; auto; [apply shrunk_refl|intros e []|intros; apply same_refl|congruence].
  - intros pre e post [m1 ch] E (I1 & I2 & I3 & I4 & I5 & I6). cbn [fst snd] in *. assert (Hin : In e (a_effs x)) by (rewrite E; apply in_app_iff; right; now left). destruct (He e Hin) as [Hcond Hf].
    cbv zeta. rewrite (fget_ok t m1 _ Hf). cbn [bind]. destruct (length (m1 (eff_fact e)) =? 1) eqn:El.
    { apply Nat.eqb_eq in El. eexists. split; [reflexivity|]. cbn [fst snd]. splits; auto. intros e' He'. apply in_app_iff in He' as [He'|[<-|[]]]; auto. intros _. rewrite (single m1 _ I1 El). split; [discriminate|]. intros a [<-|[]]. auto. }
    apply Nat.eqb_neq in El. destruct (conditions_ok m0 (eff_cond e) Hcond) as (b & Eb & Hb). rewrite Eb. cbn [bind]. destruct b.
    + destruct (union_ok m0 (eff_cond e) Hcond) as (c & Ec & Hc1 & Hc2). rewrite Ec. cbn [bind].
      assert (Hc : forall g, In g (conds x e) -> m0 g <> []) by (intros g Hg; apply in_app_iff in Hg as [Hg|Hg]; auto; now apply Hb).
      destruct (effect_ok m0 m1 x e (fold_left add_fact u c) Hm0 I1 (shrunk_trans _ _ _ Hs I2) Hx Hin Hc) as (K1 & K2 & K3 & K4 & K5 & K6); auto.
      { now apply add_facts_NoDup. }
      { intros a. rewrite add_facts_In, Hc2, Hu2. unfold conds. split; [intros [(g & G1 & G2)|(g & G1 & G2)]; exists g; rewrite in_app_iff; auto|]. intros (g & G1 & G2). apply in_app_iff in G1 as [G1|G1]; eauto. }
      destruct (propagate_labels (m1 (eff_fact e)) (fold_left add_fact u c) (eff_fact e)) as [l' changed] eqn:Epl. cbn [fst snd] in *. rewrite (fput_ok t m1 _ l' Hf). cbn [bind]. eexists. split; [reflexivity|]. cbn [fst snd].
      set (m2 := fput_at m1 (eff_fact e) l') in *.
      assert (Hwle : forall f, In f (all_facts t) -> weight (m2 f) <= weight (m1 f)).
      { intros f _. destruct (fact_dec f (eff_fact e)) as [->|Nf]; [|rewrite (K4 f Nf); auto]. destruct changed; [specialize (K6 eq_refl); lia|]. destruct (K5 eq_refl). lia. }
      assert (Hle : M m2 <= M m1) by (apply total_le; auto).
      assert (Hlt : changed = true -> M m2 < M m1) by (intros Ech; apply (total_lt weight (all_facts t) m1 m2 (eff_fact e)); auto; now apply all_facts_In).
      splits; auto.
      * eapply shrunk_trans; eauto.
      * intros e' He'. apply in_app_iff in He' as [He'|[<-|[]]]; auto. eapply settled_shrunk; eauto.
      * intros f Nf. destruct changed.
        -- rewrite add_fact_In in Nf. rewrite (K4 f) by tauto. apply I4. tauto.
        -- destruct (fact_dec f (eff_fact e)) as [->|Nfe]; [|rewrite (K4 f Nfe); auto]. eapply same_trans; [apply I4; auto|]. apply K5. auto.
      * lia.
      * intros Nc. destruct changed; [specialize (Hlt eq_refl); lia|]. specialize (I6 Nc). lia.
    + eexists. split; [reflexivity|]. cbn [fst snd]. splits; auto. intros e' He'. apply in_app_iff in He' as [He'|[<-|[]]]; auto. intros Hc. exfalso. assert (K : false = true); [|discriminate]. apply Hb. intros f Hf'. apply Hc, in_app_iff. auto.
  - exists m', ch. split; [exact E|]. exact H.
Qed.

Lemma triggers_In f i : In i (triggers t f) <-> exists x, In x (ops_and_axioms t) /\ a_id x = i /\ In f (triggers_of x).
Proof.
  unfold triggers. rewrite in_flat_map. split.
  - intros (x & Hx & H). apply in_map_iff in H as (g & <- & Hg). apply filter_In in Hg as [Hg E]. apply fact_eqb_spec in E. subst g. eauto.
  - intros (x & Hx & <- & Hf). exists x. split; auto. apply in_map_iff. exists f. split; auto. apply filter_In. split; auto. now apply fact_eqb_spec.
Qed.
Lemma conds_trigger x e c : In e (a_effs x) -> In c (conds x e) -> In c (triggers_of x).
Proof. intros He Hc. unfold triggers_of. apply in_app_iff. apply in_app_iff in Hc as [Hc|Hc]; auto. right. apply in_flat_map. eauto. Qed.
Definition valid_ids (T : list Z) : Prop := forall i, In i T -> exists x, In x (ops_and_axioms t) /\ a_id x = i.
Lemma changed_triggers ch i : forall nt, In i (fold_left (fun acc f => fold_left add_id (triggers t f) acc) ch nt) <-> In i nt \/ exists f, In f ch /\ In i (triggers t f).
Proof.
  induction ch as [|f ch IH]; intros nt; cbn [fold_left In]; [split; [auto|intros [|(f & [] & _)]; auto]|]. rewrite IH, add_ids_In. split.
  - intros [[H|H]|(g & H1 & H2)]; eauto.
  - intros [H|(g & [<-|H1] & H2)]; eauto.
Qed.

Lemma settled_same m m' x e : settled m m' x e -> (forall c, In c (conds x e) -> same (m c) (m' c)) -> settled m' m' x e.
Proof.
  intros H Hs Hc. destruct H as [H1 H2].
  { intros c K. specialize (Hc c K). destruct (m c) as [|b l] eqn:E; [|discriminate]. assert (S := Hs c K). rewrite E in S. destruct (m' c) as [|b l]; [congruence|]. destruct (proj2 (S b) (or_introl eq_refl)). }
  split; auto. intros a Ha. destruct (H2 a Ha) as [|(c & K1 & K2)]; auto. right. exists c. split; auto. now apply Hs.
Qed.

Lemma round_ok m T : layer_ok m -> valid_ids T -> consistent m T -> exists m' nt chg, propagate_round io il t T m = Ok (m', nt, chg) /\ layer_ok m' /\ valid_ids nt /\
  (chg = true -> consistent m' nt /\ M m' < M m) /\ (chg = false -> consistent m' []).
Proof.
  intros Hm HT HC. unfold propagate_round. destruct (fold_inv (fun (st : layer * list Z * bool) i =>
    let '(next, next_triggers, changes) := st in
    let* x := get_operator_or_axiom t i in
    let* b := conditions_reached t m (a_pre x) in
    if b then
      let* r := apply_operator_and_propagate_labels t x m next in
      match snd r with
      | [] => Ok (fst r, next_triggers, changes)
      | _ :: _ => Ok (fst r, fold_left (fun acc f => fold_left add_id (triggers t f) acc) (il (snd r)) next_triggers, true)
      end
    else Ok st) (fun pre (st : layer * list Z * bool) => let '(m1, nt, chg) := st in
      layer_ok m1 /\ shrunk m m1 /\ (forall x e, In x (ops_and_axioms t) -> In (a_id x) pre -> In e (a_effs x) -> settled m m1 x e) /\ valid_ids nt /\
      (forall f, same (m f) (m1 f) \/ chg = true /\ forall i, In i (triggers t f) -> In i nt) /\ M m1 <= M m /\ (chg = true -> M m1 < M m)) (io T) (m, [], false)) as ([[m' nt] chg] & E & I1 & I2 & I3 & I4 & I5 & I6 & I7).
  - splits; auto; [apply shrunk_refl|intros i []|intros f; left; apply same_refl|discriminate].
  - intros pre i post [[m1 nt] chg] E (I1 & I2 & I3 & I4 & I5 & I6 & I7). assert (Hi : In i T) by (apply Hio; rewrite E; apply in_app_iff; right; now left). destruct (HT i Hi) as (x & Hx & Ei).
    assert (Eg : get_operator_or_axiom t i = Ok x) by (rewrite <- Ei; now apply get_op_ok). rewrite Eg. cbn [bind].
    assert (U : forall y, In y (ops_and_axioms t) -> a_id y = i -> y = x) by (intros y Hy Ey; assert (K1 := get_op_ok t y Hy); congruence).
    destruct (op_axiom_ok t x Hro Hx) as [Hp He]. destruct (conditions_ok m (a_pre x) Hp) as (b & Eb & Hb). rewrite Eb. cbn [bind]. destruct b.
    + destruct (operator_ok m m1 x Hm I1 I2 Hx (proj1 Hb eq_refl)) as (m2 & ch & E2 & K1 & K2 & K3 & K4 & K5 & K6). rewrite E2. cbn [bind fst snd].
      assert (S3 : forall y e, In y (ops_and_axioms t) -> In (a_id y) (pre ++ [i]) -> In e (a_effs y) -> settled m m2 y e).
      { intros y e Hy Hin Hye. apply in_app_iff in Hin as [Hin|[Hin|[]]]; [eapply settled_shrunk; eauto|]. rewrite (U y Hy (eq_sym Hin)) in *. auto. }
      destruct ch as [|f0 ch0] eqn:Ech.
      * eexists. split; [reflexivity|]. cbv beta iota. splits; auto; [eapply shrunk_trans; eauto| | |].
        -- intros f. destruct (I5 f) as [K|K]; auto. left. eapply same_trans; eauto.
        -- lia.
        -- intros Hc. specialize (I7 Hc). lia.
      * rewrite <- Ech in *. assert (Hlt : M m2 < M m1) by (apply K6; rewrite Ech; discriminate). eexists. split; [reflexivity|]. cbv beta iota. splits; auto; [eapply shrunk_trans; eauto| | |lia|lia].
        -- intros j Hj. apply changed_triggers in Hj as [Hj|(f & _ & Hj)]; auto. apply triggers_In in Hj as (y & Hy & Ey & _). eauto.
        -- intros f. destruct (in_dec fact_dec f ch) as [Hf|Hf].
           ++ right. split; auto. intros j Hj. apply changed_triggers. right. exists f. split; auto. now apply Hil.
           ++ destruct (I5 f) as [K|[_ K]]; [left; eapply same_trans; eauto|right]. split; auto. intros j Hj. apply changed_triggers. auto.
    + eexists. split; [reflexivity|]. cbv beta iota. splits; auto. intros y e Hy Hin Hye. apply in_app_iff in Hin as [Hin|[Hin|[]]]; auto. rewrite (U y Hy (eq_sym Hin)) in *.
      intros Hc. exfalso. assert (K : false = true); [|discriminate]. apply Hb. intros f Hf'. apply Hc, in_app_iff. auto.
  - exists m', nt, chg. split; [exact E|]. assert (S : forall x e, In x (ops_and_axioms t) -> In e (a_effs x) -> settled m m' x e).
    { intros x e Hx He. destruct (in_dec Z.eq_dec (a_id x) T) as [Hin|Hin]; [apply I3; auto; now apply Hio|]. eapply settled_shrunk; eauto. }
    splits; auto.
    + intros Hc. split; auto. intros x e Hx He Hn. eapply settled_same; [apply S; auto|]. intros c Hcc. destruct (I5 c) as [K|[_ K]]; auto. elim Hn. apply K. apply triggers_In. exists x. splits; auto. eapply conds_trigger; eauto.
    + intros Hc x e Hx He _. eapply settled_same; [apply S; auto|]. intros c _. destruct (I5 c) as [K|[K _]]; auto. congruence.
Qed.
Lemma fixed_point_ok : forall fuel m T, layer_ok m -> valid_ids T -> consistent m T -> M m < fuel ->
  exists m', propagate_labels_until_fixed_point_reached io il t fuel T m = Ok m' /\ layer_ok m' /\ consistent m' [].
Proof.
  induction fuel as [|fuel IH]; intros m T Hm HT HC Hf; [lia|]. cbn [propagate_labels_until_fixed_point_reached]. destruct (round_ok m T Hm HT HC) as (m' & nt & chg & E & K1 & K2 & K3 & K4). rewrite E. cbn [bind]. destruct chg.
  - destruct (K3 eq_refl). apply IH; auto. lia.
  - exists m'. auto.
Qed.

Lemma init_layer : exists m T, initialize_relaxed_plan_graph t = Ok (m, T) /\ (forall f, holds (t_init t) f -> m f = [f]) /\ (forall f, m f <> [] -> holds (t_init t) f) /\
  forall i, In i T <-> exists f, holds (t_init t) f /\ In i (triggers t f).
Proof.
  unfold initialize_relaxed_plan_graph. destruct (fold_inv (fun (st : layer * list Z) f =>
    let* l := fget t (fst st) f in
    let* m := fput t (fst st) f (add_fact l f) in
    Ok (m, fold_left add_id (triggers t f) (snd st))) (fun pre (st : layer * list Z) => (forall f, In f pre -> fst st f = [f]) /\ (forall f, ~ In f pre -> fst st f = []) /\ forall i, In i (snd st) <-> exists f, In f pre /\ In i (triggers t f))
    (combine (seq 0 (length (t_init t))) (t_init t)) ((fun _ => []) : layer, [] : list Z)) as ([m T] & E & H1 & H2 & H3).
  - cbn [fst snd]. splits; auto; [intros f []|]. intros i. split; [intros []|intros (f & [] & _)].
  - intros pre f post [m T] E (H1 & H2 & H3). cbn [fst snd] in *. assert (Hf : fact_ok t f) by (eapply holds_ok; eauto; apply state_atom; rewrite E; apply in_app_iff; right; now left).
    rewrite (fget_ok t m f Hf). cbn [bind]. rewrite (fput_ok t m f _ Hf). cbn [bind]. eexists. split; [reflexivity|]. cbn [fst snd].
    assert (Ef : add_fact (m f) f = [f]).
    { destruct (in_dec fact_dec f pre) as [K|K]; [rewrite (H1 f K)|rewrite (H2 f K); reflexivity]. unfold add_fact. replace (mem_fact f [f]) with true; auto. symmetry. apply mem_fact_In. now left. }
    rewrite Ef. splits.
    + intros g Hg. destruct (fact_dec g f) as [->|Ng]; [apply fput_same|rewrite fput_other; auto]. apply in_app_iff in Hg as [Hg|[Hg|[]]]; auto. congruence.
    + intros g Hg. rewrite in_app_iff in Hg. cbn [In] in Hg. rewrite fput_other; auto.
    + intros i. rewrite add_ids_In, H3. split.
      * intros [(g & K1 & K2)|K]; [exists g|exists f]; rewrite in_app_iff; cbn [In]; auto.
      * intros (g & K1 & K2). apply in_app_iff in K1 as [K1|[<-|[]]]; eauto.
  - rewrite E. exists m, T. cbn [fst snd] in *. splits; auto.
    + intros f Hf. apply H1, state_atom, Hf.
    + intros f Hf. apply state_atom. destruct (in_dec fact_dec f (combine (seq 0 (length (t_init t))) (t_init t))) as [K|K]; auto. elim Hf. auto.
    + intros i. rewrite H3. split; intros (f & K1 & K2); exists f; split; auto; now apply state_atom.
Qed.

Theorem labels_exact : exists m, build_relaxed_plan_graph_with_labels io il t = Ok m /\ (forall f, m f <> [] <-> R f) /\
  (forall f, NoDup (m f)) /\ forall f a, R f -> (In a (m f) <-> fact_ok t a /\ ~ av a f).
Proof.
  unfold build_relaxed_plan_graph_with_labels. replace (triggers_in_range t) with true.
  2:{ symmetry. apply forallb_forall. intros x Hx. apply forallb_forall. intros f Hf. apply has_fact_ok. destruct (op_axiom_ok t x Hro Hx) as [Hp He]. unfold triggers_of in Hf. apply in_app_iff in Hf as [Hf|Hf]; [rewrite Forall_forall in Hp; auto|].
      apply in_flat_map in Hf as (e & He' & Hf). destruct (He e He') as [K _]. rewrite Forall_forall in K. auto. }
  cbn [guard bind]. destruct init_layer as (m0 & T0 & E0 & I1 & I2 & I3). rewrite E0. cbn [bind fst snd].
  assert (Hok : layer_ok m0).
  { constructor; auto.
    - intros f Hf. apply I2 in Hf. rewrite (I1 f Hf). assert (fact_ok t f) by (eapply holds_ok; eauto). splits.
      + apply av_init; auto.
      + now left.
      + constructor; [intros []|constructor].
      + auto.
    - intros f a Hf Ha Hn. apply I2 in Hf. rewrite (I1 f Hf). destruct (fact_dec f a) as [->|N]; [now left|]. elim Hn. apply av_init; auto. }
  destruct (fixed_point_ok (S (length (all_facts t) * S (length (all_facts t)))) m0 (fold_left add_id (operators_without_preconditions t) T0)) as (m & E & Hm & HC); auto.
  - intros i Hi. apply add_ids_In in Hi as [Hi|Hi].
    + apply I3 in Hi as (f & _ & Hi). apply triggers_In in Hi as (x & Hx & Ei & _). eauto.
    + apply in_map_iff in Hi as (x & <- & Hx). apply filter_In in Hx as [Hx _]. eauto.
  - intros x e Hx He Hn Hc. exfalso. apply Hn, add_ids_In. destruct (conds x e) as [|c cs] eqn:Ec.
    + right. unfold operators_without_preconditions. apply in_map_iff. exists x. split; auto. apply filter_In. split; auto. apply app_eq_nil in Ec as [-> _]. auto.
    + left. apply I3. exists c. split; [apply I2, Hc; now left|]. apply triggers_In. exists x. splits; auto. eapply conds_trigger; eauto. rewrite Ec. now left.
  - assert (K := total_bound m0 Hok). unfold n in *. lia.
  - rewrite E. exists m. split; auto.
    assert (HR : forall f, R f -> m f <> []).
    { apply av_cases.
      - intros f Hf _. rewrite (lo_init m Hm f Hf). discriminate.
      - intros x e Hx He _ H. apply (HC x e); auto. intros c Hcc. now apply H. }
    splits.
    + intros f. split; auto. intros Hf. now apply (lo_reach m Hm).
    + intros f. destruct (m f) as [|b l] eqn:Ef; [constructor|]. rewrite <- Ef. apply (lo_reach m Hm). congruence.
    + intros f a Hf. split.
      * intros Ha. split; [destruct (lo_reach m Hm f (HR f Hf)) as (_ & _ & _ & K); rewrite Forall_forall in K; auto|]. intros Hav. revert Ha. revert f Hav Hf.
        assert (G : forall f, av a f -> ~ In a (m f)); [|intros f Hav _; now apply G]. apply av_cases.
        -- intros f Hf Nf. rewrite (lo_init m Hm f Hf). intros [K|[]]. auto.
        -- intros x e Hx He Nf H Hin. destruct (HC x e Hx He) as [_ K]; [intros []| |].
           ++ intros c Hcc. apply HR. eapply av_R. now apply H.
           ++ destruct (K a Hin) as [->|(c & K1 & K2)]; [now apply Nf|]. destruct (H c K1). auto.
      * intros [Ha Hn]. apply (lo_lower m Hm); auto.
Qed.

(** Two facts cannot each be needed for the other. *)
Lemma landmark_antisym a b : a <> b -> R a -> av b a \/ av a b.
Proof.
  intros Nab Ha. assert (G : forall f, R f -> avoiding t true (fun g => g = a \/ g = b) f \/ av b a \/ av a b).
  { apply (av_cases (fun _ => False) (fun f => avoiding t true (fun g => g = a \/ g = b) f \/ av b a \/ av a b)).
    - intros f Hf _. destruct (fact_dec f a) as [->|]; [right; left; apply av_init; auto|]. destruct (fact_dec f b) as [->|]; [right; right; apply av_init; auto|]. left. apply av_init; auto. intros [|]; auto.
    - intros x e Hx He _ H. assert (K : (forall g, In g (conds x e) -> avoiding t true (fun g => g = a \/ g = b) g) \/ av b a \/ av a b).
      { induction (conds x e) as [|c cs IH]; [left; intros g []|]. destruct (H c (or_introl eq_refl)) as [_ [K|K]]; auto. destruct IH as [IH|IH]; auto; [intros g Hg; apply H; now right|]. left. intros g [<-|Hg]; auto. }
      destruct K as [K|K]; auto.
      destruct (fact_dec (eff_fact e) a) as [Ea|Na].
      { right; left. rewrite <- Ea. apply (av_step (fun g => g = b) x e Hx He); [congruence|]. intros g Hg. apply (av_fewer t true (fun g => g = a \/ g = b)); auto. }
      destruct (fact_dec (eff_fact e) b) as [Eb|Nb].
      { right; right. rewrite <- Eb. apply (av_step (fun g => g = a) x e Hx He); [congruence|]. intros g Hg. apply (av_fewer t true (fun g => g = a \/ g = b)); auto. }
      left. apply (av_step _ x e); auto. intros [|]; auto. }
  destruct (G a Ha) as [K|K]; auto. elim (av_not_X _ _ _ _ K). auto.
Qed.
End Labels.

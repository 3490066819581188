(** Simplification, proposition numbering, and the correspondence between the exploration's
    derivations and those of the specification. *)
From Coq Require Import Permutation.
From Verif Require Import Outcome Spec_Task Spec_Relaxation Model_Task Model_PQ Model_Relaxation Proof_Dijkstra.

(* ---- modes ---- *)
Lemma hmax_mode_ok : mode_ok hmax_mode (fun _ => True).
Proof. constructor; cbn; intros; auto; lia. Qed.

Lemma increase_cost_min m x c : increase_cost m x c = Nat.min m (x + c).
Proof. unfold increase_cost. destruct (Nat.ltb_spec m (x + c)); lia. Qed.

Lemma hadd_mode_ok m : mode_ok (hadd_mode m) (fun c => c <= m).
Proof. constructor; cbn; intros; rewrite ?increase_cost_min; lia. Qed.

(** addition without clamping *)
Definition sum_mode : rmode := {| m_acc := fun _ cur c => cur + c; m_goal := Nat.add |}.
Lemma sum_mode_ok : mode_ok sum_mode (fun _ => True).
Proof. constructor; cbn; intros; auto; lia. Qed.

Lemma hmax_uval b cs : uval hmax_mode b cs = b + list_max cs.
Proof.
  unfold uval. cbn [hmax_mode m_acc].
  enough (forall x, b <= x -> fold_left (fun cur c => Nat.max cur (b + c)) cs x = Nat.max x (b + list_max cs)) as E
    by (rewrite E by lia; lia).
  induction cs as [|c r IH]; intros x Hx; cbn [fold_left list_max fold_right]; [lia|].
  rewrite IH by lia. unfold list_max. lia.
Qed.
Lemma hadd_uval m b cs : b <= m -> uval (hadd_mode m) b (map (Nat.min m) cs) = Nat.min m (b + list_sum cs).
Proof.
  unfold uval. cbn [hadd_mode m_acc]. revert b. induction cs as [|c r IH]; intros b Hb; cbn [map fold_left list_sum fold_right]; [lia|].
  rewrite increase_cost_min.
  assert (G : forall x y, x = Nat.min m y -> fold_left (fun cur c => increase_cost m cur c) (map (Nat.min m) r) x = Nat.min m (y + list_sum r)).
  { clear. induction r as [|c r IH]; intros x y ->; cbn [map fold_left list_sum fold_right]; [f_equal; lia|].
    rewrite increase_cost_min. rewrite (IH _ (y + c)) by lia. f_equal. change (list_sum r) with (fold_right Nat.add 0 r). lia. }
  rewrite (G _ (b + c)) by lia. f_equal. change (list_sum r) with (fold_right Nat.add 0 r). lia.
Qed.
Lemma sum_uval b cs : uval sum_mode b cs = b + list_sum cs.
Proof.
  unfold uval. cbn [sum_mode m_acc]. revert b. induction cs as [|c r IH]; intros b; cbn [fold_left list_sum fold_right]; [lia|].
  rewrite IH. change (list_sum r) with (fold_right Nat.add 0 r). lia.
Qed.

(* ---- choice on finite lists ---- *)
Lemma list_choice {A} (dec : forall a b : A, {a = b} + {a <> b}) (Q : A -> nat -> Prop) (l : list A) :
  (forall a, In a l -> exists c, Q a c) -> exists k, forall a, In a l -> Q a (k a).
Proof.
  induction l as [|a r IH]; intros Hl.
  - exists (fun _ => 0). intros a [].
  - destruct IH as [k Hk]; [intros; apply Hl; now right|]. destruct (Hl a (or_introl eq_refl)) as [c Hc].
    exists (fun b => if dec a b then c else k b). intros b Hb. destruct (dec a b) as [->|Hne]; auto.
    destruct Hb as [->|Hb]; [congruence|auto].
Qed.
Lemma fact_dec (a b : fact) : {a = b} + {a <> b}.
Proof. decide equality; apply Nat.eq_dec. Qed.

(* ---- sort_unique ---- *)
Lemma su_insert_in x l y : In y (su_insert x l) <-> y = x \/ In y l.
Proof.
  induction l as [|a r IH]; cbn [su_insert]; [cbn; intuition|].
  destruct (Nat.ltb_spec x a); [cbn; intuition|]. destruct (Nat.eqb_spec x a); [subst; cbn; intuition|].
  cbn [In]. rewrite IH. intuition.
Qed.
Lemma sort_unique_in l y : In y (sort_unique l) <-> In y l.
Proof. induction l as [|a r IH]; cbn [sort_unique fold_right]; [reflexivity|]. rewrite su_insert_in. fold (sort_unique r). rewrite IH. cbn; intuition. Qed.
Fixpoint asc (l : list nat) : Prop :=
  match l with [] => True | x :: r => (forall y, In y r -> x < y) /\ asc r end.
Lemma su_insert_asc x l : asc l -> asc (su_insert x l).
Proof.
  induction l as [|a r IH]; cbn [su_insert]; intros Ha; [cbn; intuition|]. destruct Ha as [Ha1 Ha2].
  destruct (Nat.ltb_spec x a).
  - cbn [asc]. split; [|split; auto]. intros y [<-|Hy]; auto. specialize (Ha1 y Hy). lia.
  - destruct (Nat.eqb_spec x a); [cbn [asc]; auto|]. cbn [asc]. split; auto.
    intros y Hy. apply su_insert_in in Hy. destruct Hy as [->|Hy]; [lia|auto].
Qed.
Lemma asc_nodup l : asc l -> NoDup l.
Proof.
  induction l as [|a r IH]; intros Ha; constructor; destruct Ha as [H1 H2]; auto.
  intros Hin. specialize (H1 a Hin). lia.
Qed.
Lemma sort_unique_asc l : asc (sort_unique l).
Proof. induction l as [|a r IH]; cbn [sort_unique fold_right]; [exact I|]. now apply su_insert_asc. Qed.
Lemma sort_unique_nodup l : NoDup (sort_unique l).
Proof. apply asc_nodup, sort_unique_asc. Qed.

(* ---- simplify ---- *)
Lemma ukey_eqb_spec a b : ukey_eqb a b = true <-> a = b.
Proof.
  unfold ukey_eqb. destruct a as [l x], b as [l' x']; cbn [fst snd]. rewrite andb_true_iff, Nat.eqb_eq.
  destruct (list_eq_dec Nat.eq_dec l l') as [->|Hne].
  - split; [intros [_ ->]; auto|intros H; inversion H; auto].
  - split; [intros [H _]; discriminate|intros H; inversion H; contradiction].
Qed.

Definition Ix (done : list uop) (m : list (ukey * (nat * nat))) : Prop :=
  forall k, match find_key k m with
            | None => forall u, In u done -> key_of u <> k
            | Some (c, j) => exists u, nth_error done j = Some u /\ key_of u = k /\ u_cost u = c /\
                               forall u', In u' done -> key_of u' = k -> c <= u_cost u'
            end.

Lemma find_ins k v m k' : find_key k' (ins_key k v m) =
  if ukey_eqb k' k then Some (match find_key k m with Some v' => if uval_ltb v v' then v else v' | None => v end)
  else find_key k' m.
Proof.
  induction m as [|[k1 v1] r IH]; cbn [ins_key find_key].
  - destruct (ukey_eqb k' k) eqn:E; auto.
  - destruct (ukey_eqb k k1) eqn:E1.
    + apply ukey_eqb_spec in E1; subst k1. cbn [find_key]. destruct (ukey_eqb k' k) eqn:E; auto.
    + cbn [find_key]. destruct (ukey_eqb k' k1) eqn:E2.
      * destruct (ukey_eqb k' k) eqn:E; auto. apply ukey_eqb_spec in E, E2. subst.
        assert (ukey_eqb k1 k1 = true) by (now apply ukey_eqb_spec). congruence.
      * apply IH.
Qed.

Lemma index_ops_Ix us : forall done m, Ix done m -> Ix (done ++ us) (index_ops us (length done) m).
Proof.
  induction us as [|u r IH]; intros done m HI; cbn [index_ops]; [now rewrite app_nil_r|].
  replace (done ++ u :: r) with ((done ++ [u]) ++ r) by (now rewrite <- app_assoc).
  replace (S (length done)) with (length (done ++ [u])) by (rewrite app_length; cbn; lia).
  apply IH. intros k. rewrite find_ins. destruct (ukey_eqb k (key_of u)) eqn:E.
  - apply ukey_eqb_spec in E; subst k. specialize (HI (key_of u)). destruct (find_key (key_of u) m) as [[c j]|] eqn:Ef.
    + destruct HI as (u1 & Hn & Hk & Hc & Hmin). unfold uval_ltb; cbn [fst snd].
      assert (Hj : j < length done) by (apply nth_error_Some; congruence).
      destruct (Nat.ltb_spec (u_cost u) c) as [Hlt|Hge]; cbn [orb].
      * exists u. rewrite nth_error_app2, Nat.sub_diag by lia. splits; auto.
        intros u' Hu' Hk'. apply in_app_iff in Hu'. destruct Hu' as [Hu'|[<-|[]]]; auto. specialize (Hmin u' Hu' Hk'). lia.
      * destruct (Nat.ltb_spec (length done) j); [lia|]. rewrite andb_false_r.
        exists u1. rewrite nth_error_app1 by lia. splits; auto.
        intros u' Hu' Hk'. apply in_app_iff in Hu'. destruct Hu' as [Hu'|[<-|[]]]; auto.
    + exists u. rewrite nth_error_app2, Nat.sub_diag by lia. splits; auto.
      intros u' Hu' Hk'. apply in_app_iff in Hu'. destruct Hu' as [Hu'|[<-|[]]]; auto. exfalso. eapply HI; eauto.
  - specialize (HI k). destruct (find_key k m) as [[c j]|] eqn:Ef.
    + destruct HI as (u1 & Hn & Hk & Hc & Hmin).
      assert (Hj : j < length done) by (apply nth_error_Some; congruence).
      exists u1. rewrite nth_error_app1 by lia. splits; auto.
      intros u' Hu' Hk'. apply in_app_iff in Hu'. destruct Hu' as [Hu'|[<-|[]]]; auto.
      subst k. assert (ukey_eqb (key_of u) (key_of u) = true) by (now apply ukey_eqb_spec). congruence.
    + intros u' Hu'. apply in_app_iff in Hu'. destruct Hu' as [Hu'|[<-|[]]]; auto.
      intros He. subst k. assert (ukey_eqb (key_of u) (key_of u) = true) by (now apply ukey_eqb_spec). congruence.
Qed.
Lemma index_Ix us : Ix us (index_ops us 0 []).
Proof. apply (index_ops_Ix us [] []). intros k. cbn. intros u []. Qed.

Lemma masked_incl l : forall m, incl (masked l m) l.
Proof.
  induction l as [|x r IH]; intros m; cbn [masked]; [apply incl_refl|].
  destruct (Nat.odd m); intros y Hy.
  - destruct Hy as [<-|Hy]; [now left|right; eapply IH; eauto].
  - right; eapply IH; eauto.
Qed.
Lemma masked_length l : forall m, length (masked l m) <= length l.
Proof. induction l as [|x r IH]; intros m; cbn [masked length]; auto. destruct (Nat.odd m); cbn [length]; specialize (IH (Nat.div2 m)); lia. Qed.
Lemma masked_strict l : forall m, m < 2 ^ length l - 1 -> length (masked l m) < length l.
Proof.
  induction l as [|x r IH]; intros m Hm; cbn [masked length] in *; [cbn in Hm; lia|].
  rewrite Nat.pow_succ_r' in Hm.
  destruct (Nat.odd m) eqn:Eo; cbn [length].
  - assert (Hlt : Nat.div2 m < 2 ^ length r - 1).
    { pose proof (Nat.div2_odd m) as Hd. rewrite Eo in Hd. cbn in Hd. lia. }
    specialize (IH _ Hlt). lia.
  - pose proof (masked_length r (Nat.div2 m)). lia.
Qed.
Lemma masked_nodup l : NoDup l -> forall m, NoDup (masked l m).
Proof.
  induction l as [|x r IH]; intros Hn m; cbn [masked]; auto. inversion Hn; subst.
  destruct (Nat.odd m); auto. constructor; auto. intros Hin. apply masked_incl in Hin. contradiction.
Qed.

Lemma remove_sub m us : forall i u, In u (remove_dominated m us i) -> In u us.
Proof.
  induction us as [|a r IH]; intros i u; cbn [remove_dominated]; auto.
  destruct (is_dominated m i a); [right; eauto|]. intros [<-|Hu]; [now left|right; eauto].
Qed.
Lemma simplify_sub us u : In u (simplify us) -> In u us.
Proof. apply remove_sub. Qed.
Lemma remove_keep m us : forall i j u, nth_error us j = Some u -> is_dominated m (i + j) u = false ->
  In u (remove_dominated m us i).
Proof.
  induction us as [|a r IH]; intros i [|j] u Hn Hd; cbn in Hn; try discriminate; cbn [remove_dominated].
  - inversion Hn; subst. rewrite Nat.add_0_r in Hd. rewrite Hd. now left.
  - rewrite Nat.add_succ_r in Hd. destruct (is_dominated m i a); [|right]; apply (IH (S i) j); auto.
Qed.

Lemma simplify_dom us : forall u, In u us ->
  exists u', In u' (simplify us) /\ u_eff u' = u_eff u /\ incl (u_pre u') (u_pre u) /\ u_cost u' <= u_cost u.
Proof.
  pose proof (index_Ix us) as HI. unfold simplify. set (m := index_ops us 0 []) in *.
  intros u. remember (length (u_pre u)) as L eqn:HL. revert u HL.
  induction L as [L IH] using lt_wf_ind. intros u HL Hu.
  pose proof (HI (key_of u)) as Hk. destruct (find_key (key_of u) m) as [[c j]|] eqn:Ef.
  2:{ exfalso. eapply Hk; eauto. }
  destruct Hk as (u1 & Hn & Hkey & Hc & Hmin). specialize (Hmin u Hu eq_refl).
  assert (Hpre1 : u_pre u1 = u_pre u) by (unfold key_of in Hkey; congruence).
  assert (Heff1 : u_eff u1 = u_eff u) by (unfold key_of in Hkey; congruence).
  destruct (is_dominated m j u1) eqn:Ed.
  - unfold is_dominated in Ed. rewrite Hkey, Ef in Ed. cbn [snd] in Ed. rewrite Nat.eqb_refl in Ed. cbn [negb] in Ed.
    destruct (max_pre_to_test <? length (u_pre u1)); [discriminate|].
    apply existsb_exists in Ed. destruct Ed as (mask & Hmask & Hx). apply in_seq in Hmask.
    pose proof (HI (masked (u_pre u1) mask, u_eff u1)) as Hk2.
    destruct (find_key (masked (u_pre u1) mask, u_eff u1) m) as [[c2 j2]|]; [|discriminate].
    cbn [fst] in Hx. apply Nat.leb_le in Hx.
    destruct Hk2 as (u2 & Hn2 & Hkey2 & Hc2 & _).
    assert (Hpre2 : u_pre u2 = masked (u_pre u1) mask) by (unfold key_of in Hkey2; congruence).
    assert (Heff2 : u_eff u2 = u_eff u1) by (unfold key_of in Hkey2; congruence).
    assert (Hlt : length (u_pre u2) < L).
    { rewrite HL, Hpre2, <- Hpre1. apply masked_strict. cbn in Hmask. lia. }
    destruct (IH _ Hlt u2 eq_refl (nth_error_In _ _ Hn2)) as (u3 & Hin3 & He3 & Hi3 & Hc3).
    exists u3. splits; auto; [congruence| |lia].
    intros q Hq. apply Hi3 in Hq. rewrite Hpre2 in Hq. apply masked_incl in Hq. now rewrite <- Hpre1.
  - exists u1. splits; auto; [|rewrite Hpre1; apply incl_refl|lia].
    apply (remove_keep m us 0 j); auto.
Qed.

(* ---- derivations and simplification ---- *)
Section MODE.
Variable M : rmode.
Variable ok : nat -> Prop.
Hypothesis HM : mode_ok M ok.

Definition ops_ok (us : list uop) : Prop := forall u, In u us -> NoDup (u_pre u) /\ ok (u_cost u).

Lemma uval_ok' b cs : ok b -> (forall c, In c cs -> ok c) -> ok (uval M b cs).
Proof.
  intros Hb. unfold uval.
  enough (forall x, ok x -> (forall c, In c cs -> ok c) -> ok (fold_left (m_acc M b) cs x)) by auto.
  induction cs as [|c r IH]; intros x Hx Hc; cbn; auto.
  apply IH; [|intros; apply Hc; now right]. apply (mo_ok _ _ HM); auto. apply Hc; now left.
Qed.
Lemma der_ok' us I p c : ops_ok us -> der M us I p c -> ok c.
Proof.
  intros Hus. induction 1 as [p Hp|u k Hu Hq IH]; [apply (mo_ok0 _ _ HM)|].
  apply uval_ok'; [now apply Hus|]. intros c Hc. apply in_map_iff in Hc. destruct Hc as (q & <- & Hq'). auto.
Qed.
Lemma uval_perm b l l' : Permutation l l' -> uval M b l = uval M b l'.
Proof. intros Hp. apply fold_left_perm; auto. apply (mo_comm _ _ HM). Qed.
Lemma uval_mono b b' l l' : b <= b' -> Forall2 le l l' -> uval M b l <= uval M b' l'.
Proof.
  intros Hb HF. unfold uval.
  enough (G : forall x x', x <= x' -> fold_left (m_acc M b) l x <= fold_left (m_acc M b') l' x') by auto.
  induction HF; intros z z' Hz; cbn [fold_left]; auto. apply IHHF. apply (mo_mono _ _ HM); auto.
Qed.
Lemma uval_app b l r : ok b -> (forall c, In c (l ++ r) -> ok c) -> uval M b l <= uval M b (l ++ r).
Proof.
  intros Hb Hok. unfold uval. rewrite fold_left_app.
  assert (Hx : ok (fold_left (m_acc M b) l b)) by (apply uval_ok'; auto; intros; apply Hok, in_or_app; auto).
  revert Hx. generalize (fold_left (m_acc M b) l b).
  assert (Hr : forall c, In c r -> ok c) by (intros; apply Hok, in_or_app; auto). clear Hok.
  induction r as [|a r IH]; intros x Hx; cbn [fold_left]; auto.
  etransitivity; [apply (mo_grow _ _ HM) with (b := b) (a := a); auto|].
  apply IH; [intros; apply Hr; now right|]. apply (mo_ok _ _ HM); auto. apply Hr; now left.
Qed.
Lemma nodup_split (l l' : list nat) : NoDup l -> NoDup l' -> incl l l' ->
  Permutation l' (l ++ filter (fun x => negb (inb l x)) l').
Proof.
  intros Hn Hn' Hi. apply NoDup_Permutation; auto.
  - assert (Hnf : NoDup (filter (fun x => negb (inb l x)) l')) by (now apply NoDup_filter).
    clear Hi. induction l as [|a r IH]; [exact Hnf|].
    inversion Hn; subst. cbn [app].
    assert (Hd : forall x, In x (filter (fun x => negb (inb (a :: r) x)) l') -> ~ In x (a :: r)).
    { intros x Hx. apply filter_In in Hx. destruct Hx as [_ Hx]. apply negb_true_iff, inb_false in Hx. auto. }
    assert (G : forall s f : list nat, NoDup s -> NoDup f -> (forall x, In x f -> ~ In x s) -> NoDup (s ++ f)).
    { clear. induction s as [|y s IHs]; intros f Hs Hf Hd; cbn; auto. inversion Hs; subst. constructor.
      - intros Hin. apply in_app_iff in Hin. destruct Hin as [Hin|Hin]; [contradiction|]. apply (Hd y Hin). now left.
      - apply IHs; auto. intros x Hx Hxs. apply (Hd x Hx). now right. }
    apply (G (a :: r)); auto.
  - intros x. rewrite in_app_iff, filter_In. split.
    + intros Hx. destruct (inb l x) eqn:E; [left; now apply inb_spec|right; auto].
    + intros [Hx|[Hx _]]; auto.
Qed.
Lemma uval_incl b (k : nat -> nat) l l' : ok b -> NoDup l -> NoDup l' -> incl l l' ->
  (forall q, In q l' -> ok (k q)) -> uval M b (map k l) <= uval M b (map k l').
Proof.
  intros Hb Hn Hn' Hi Hok. rewrite (uval_perm b _ _ (Permutation_map k (nodup_split l l' Hn Hn' Hi))).
  rewrite map_app. apply uval_app; auto. intros c Hc. apply in_app_iff in Hc.
  destruct Hc as [Hc|Hc]; apply in_map_iff in Hc; destruct Hc as (q & <- & Hq); apply Hok; auto.
  apply filter_In in Hq. apply Hq.
Qed.

Lemma F2_map {A} (k k' : A -> nat) l : (forall q, In q l -> k q <= k' q) -> Forall2 le (map k l) (map k' l).
Proof. induction l as [|a r IH]; intros Hl; cbn; constructor; [apply Hl; now left|apply IH; intros; apply Hl; now right]. Qed.

Lemma der_weaken us us' I p c : (forall u, In u us' -> In u us) -> der M us' I p c -> der M us I p c.
Proof. intros Hs. induction 1; [now apply der_init|]. apply der_op; auto. Qed.

Lemma der_simplify us I p c : ops_ok us -> der M us I p c -> exists c', der M (simplify us) I p c' /\ c' <= c.
Proof.
  intros Hus Hd. induction Hd as [p Hp|u k Hu Hq IH].
  - exists 0. split; auto. now apply der_init.
  - destruct (list_choice Nat.eq_dec (fun q c' => der M (simplify us) I q c' /\ c' <= k q) (u_pre u) IH) as [k' Hk'].
    destruct (simplify_dom us u Hu) as (u' & Hu' & He & Hi & Hc).
    pose proof (Hus u' (simplify_sub _ _ Hu')) as [Hn' Hok']. destruct (Hus u Hu) as [Hn Hok].
    exists (uval M (u_cost u') (map k' (u_pre u'))). split.
    + rewrite <- He. apply der_op; auto. intros q Hq'. apply Hk'. now apply Hi.
    + etransitivity; [apply uval_mono with (b' := u_cost u); [exact Hc|apply F2_map; intros; apply le_n]|].
      etransitivity; [apply (uval_incl (u_cost u) k' (u_pre u') (u_pre u)); auto|].
      * intros q Hq'. eapply der_ok'; [|apply Hk'; auto]. intros v Hv. apply Hus. now apply simplify_sub.
      * apply uval_mono; auto. apply F2_map. intros q Hq'. now apply Hk'.
Qed.

Theorem least_simplify us I p c : ops_ok us -> (least (der M (simplify us) I p) c <-> least (der M us I p) c).
Proof.
  intros Hus. assert (Hs : forall c, der M (simplify us) I p c -> der M us I p c).
  { intros d. apply der_weaken. intros u. apply simplify_sub. }
  split; intros [H1 H2]; split.
  - auto.
  - intros c' Hd. destruct (der_simplify us I p c' Hus Hd) as (c2 & Hd2 & Hle). specialize (H2 c2 Hd2). lia.
  - destruct (der_simplify us I p c Hus H1) as (c2 & Hd2 & Hle). pose proof (H2 c2 (Hs _ Hd2)). replace c with c2 by lia. auto.
  - intros c' Hd. auto.
Qed.
End MODE.

(* ---- proposition numbers ---- *)
Lemma offsets_length vars : forall o, length (offsets o vars) = length vars.
Proof. induction vars as [|x r IH]; intros o; cbn; auto. Qed.
Lemma offsets_nth vars : forall o v, v < length vars ->
  nth v (offsets o vars) 0 = o + list_sum (map vdom (firstn v vars)).
Proof.
  induction vars as [|x r IH]; intros o [|v] Hv; cbn [length] in Hv; try lia; cbn [offsets nth firstn map].
  - cbn. lia.
  - rewrite IH by lia. change (list_sum (vdom x :: map vdom (firstn v r))) with (vdom x + list_sum (map vdom (firstn v r))). lia.
Qed.
Lemma list_sum_app' a b : list_sum (a ++ b) = list_sum a + list_sum b.
Proof. apply list_sum_app. Qed.
Lemma firstn_sum (vars : list variable) v w : v <= w -> list_sum (map vdom (firstn v vars)) <= list_sum (map vdom (firstn w vars)).
Proof.
  revert v w; induction vars as [|x r IH]; intros [|v] [|w] Hle; cbn [firstn map]; try (cbn; lia).
  change (vdom x + list_sum (map vdom (firstn v r)) <= vdom x + list_sum (map vdom (firstn w r))).
  specialize (IH v w ltac:(lia)). lia.
Qed.
Lemma firstn_sum_S (vars : list variable) v x : nth_error vars v = Some x ->
  list_sum (map vdom (firstn (S v) vars)) = list_sum (map vdom (firstn v vars)) + vdom x.
Proof.
  revert v; induction vars as [|y r IH]; intros [|v] Hn; cbn in Hn; try discriminate.
  - inversion Hn; subst. cbn. lia.
  - rewrite firstn_cons. cbn [map]. change (vdom y + list_sum (map vdom (firstn (S v) r)) = list_sum (map vdom (firstn (S v) (y :: r))) + vdom x).
    rewrite (IH v Hn). rewrite firstn_cons. cbn [map].
    change (list_sum (vdom y :: map vdom (firstn v r))) with (vdom y + list_sum (map vdom (firstn v r))). lia.
Qed.
Lemma prop_id_range t f : fact_ok t f -> exists x, is_var t (fst f) x /\
  list_sum (map vdom (firstn (fst f) (t_vars t))) <= prop_id t f < list_sum (map vdom (firstn (S (fst f)) (t_vars t))).
Proof.
  intros (x & Hx & Hlt). exists x. split; auto. unfold prop_id. rewrite offsets_nth by (apply nth_error_Some; unfold is_var in Hx; congruence).
  rewrite (firstn_sum_S _ _ _ Hx). lia.
Qed.
Lemma prop_id_lt t f : fact_ok t f -> prop_id t f < num_props t.
Proof.
  intros Hf. destruct (prop_id_range t f Hf) as (x & Hx & Hr). unfold num_props.
  assert (Hl : S (fst f) <= length (t_vars t)) by (apply nth_error_Some; unfold is_var in Hx; congruence).
  pose proof (firstn_sum (t_vars t) _ _ Hl) as Hs. rewrite firstn_all in Hs. lia.
Qed.
Lemma prop_id_inj t f g : fact_ok t f -> fact_ok t g -> prop_id t f = prop_id t g -> f = g.
Proof.
  intros Hf Hg He. destruct (prop_id_range t f Hf) as (x & Hx & Hr). destruct (prop_id_range t g Hg) as (y & Hy & Hs).
  assert (E : fst f = fst g).
  { destruct (lt_eq_lt_dec (fst f) (fst g)) as [[Hlt|Heq]|Hlt]; auto; exfalso.
    - pose proof (firstn_sum (t_vars t) (S (fst f)) (fst g) Hlt). lia.
    - pose proof (firstn_sum (t_vars t) (S (fst g)) (fst f) Hlt). lia. }
  destruct f as [v d], g as [v' d']; cbn [fst] in *. subst v'. f_equal. unfold prop_id in He; cbn [fst snd] in He. lia.
Qed.

Lemma state_facts_in s : forall v f, In f (state_facts s v) <-> exists i, fst f = v + i /\ nth_error s i = Some (snd f).
Proof.
  induction s as [|d r IH]; intros v f; cbn [state_facts].
  - split; [intros []|]. intros (i & _ & Hn). destruct i; discriminate.
  - cbn [In]. rewrite IH. split.
    + intros [<-|(i & H1 & H2)]; [exists 0; cbn; split; auto|exists (S i); cbn; split; auto; lia].
    + intros ([|i] & H1 & H2); cbn in H2.
      * left. inversion H2; subst. destruct f; cbn in *. f_equal; lia.
      * right. exists i. split; auto; lia.
Qed.
Lemma state_facts_holds s f : In f (state_facts s 0) <-> holds s f.
Proof.
  rewrite state_facts_in. unfold holds. split.
  - intros (i & H1 & H2). cbn in H1. congruence.
  - intros Hh. exists (fst f). auto.
Qed.
Lemma holds_ok t s f : state_ok t s -> holds s f -> fact_ok t f.
Proof.
  intros Hs Hh. unfold state_ok, holds in *.
  assert (G : forall (l : state) vs i d, Forall2 (fun x y => x < vdom y) l vs -> nth_error l i = Some d ->
              exists x, nth_error vs i = Some x /\ d < vdom x).
  { clear. intros l vs i d HF. revert i. induction HF as [|a b la lb Hab HF IH]; intros [|i] Hn; cbn in Hn; try discriminate.
    - inversion Hn; subst. exists b. auto.
    - apply IH in Hn. exact Hn. }
  destruct (G _ _ _ _ Hs Hh) as (x & Hx & Hlt). exists x. auto.
Qed.
Lemma state_len t s : state_ok t s -> length s = length (t_vars t).
Proof. intros Hs. induction Hs; cbn; auto. Qed.

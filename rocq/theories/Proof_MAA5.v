(** Shrinking by buckets, and the size limits. *)
From Coq Require Import Permutation.
From Verif Require Import Outcome Spec_Task Model_PQ Model_Graph Model_Equivalence Model_MAS Spec_FTS Model_MASAlgorithm.
From Verif Require Import Proof_MAA1.

(** rng->choose gives positions of two different groups *)
Definition picks_two (pick : list (list nat) -> nat * nat) : Prop :=
  forall gs, 2 <= length gs -> fst (pick gs) < length gs /\ snd (pick gs) < length gs /\ fst (pick gs) <> snd (pick gs).

Lemma removelast_perm {A} (l : list A) x : Permutation (removelast (l ++ [x])) l.
Proof. rewrite removelast_last. reflexivity. Qed.
Lemma concat_upd_perm (gs : list (list nat)) i g x : nth_error gs i = Some g -> Permutation (g ++ concat (upd gs i x)) (x ++ concat gs).
Proof.
  revert i. induction gs as [|h r IH]; intros [|i] H; cbn [nth_error] in H; try discriminate; cbn [upd concat].
  - inv H. rewrite !app_assoc. apply Permutation_app_tail, Permutation_app_comm.
  - specialize (IH i H). rewrite app_assoc. eapply perm_trans; [apply Permutation_app_tail, Permutation_app_comm|]. rewrite <- app_assoc. eapply perm_trans; [apply Permutation_app_head, IH|]. rewrite !app_assoc. apply Permutation_app_tail, Permutation_app_comm.
Qed.
Lemma snoc_of {A} (l : list A) : l <> [] -> exists r x, l = r ++ [x].
Proof. intros H. destruct (exists_last H) as (r & x & E). exists r, x. exact E. Qed.

Lemma combine_groups_ok pick budget : picks_two pick -> 1 <= budget -> forall fuel gs, length gs <= fuel + budget -> (forall g, In g gs -> g <> []) ->
  exists gs', combine_groups fuel pick budget gs = Ok gs' /\ length gs' <= budget /\ (length gs <= budget -> gs' = gs) /\ Permutation (concat gs') (concat gs) /\ (forall g, In g gs' -> g <> []).
Proof.
  intros Hp Hb. induction fuel as [|fuel IH]; intros gs Hl Hne; cbn [combine_groups]; destruct (Nat.leb_spec (length gs) budget) as [Hle|Hgt]; try (exists gs; splits; auto; fail); [lia|].
  destruct (Hp gs) as (P1 & P2 & P3); [lia|]. destruct (pick gs) as [i1 i2]. cbn [fst snd] in *.
  destruct (nth_error gs i1) as [g1|] eqn:E1; [|apply nth_error_None in E1; lia]. destruct (nth_error gs i2) as [g2|] eqn:E2; [|apply nth_error_None in E2; lia].
  rewrite (proj2 (vget_ok _ _ _) E1), (proj2 (vget_ok _ _ _) E2). cbn [bind]. unfold vset at 1. rewrite (proj2 (Nat.ltb_lt i1 (length gs)) P1). cbn [bind].
  unfold vset at 1. rewrite upd_length, (proj2 (Nat.ltb_lt i2 (length gs)) P2). cbn [bind]. rewrite !upd_length.
  set (h := upd (upd gs i1 (g2 ++ g1)) i2 []).
  assert (Hhl : length h = length gs) by (unfold h; now rewrite !upd_length).
  assert (Hh2 : nth_error h i2 = Some []) by (unfold h; apply upd_nth_eq; rewrite upd_length; auto).
  rewrite (proj2 (vget_ok _ _ _) Hh2). cbn [bind].
  destruct (nth_error h (length gs - 1)) as [b|] eqn:Eb; [|apply nth_error_None in Eb; lia]. rewrite (proj2 (vget_ok _ _ _) Eb). cbn [bind].
  unfold vset at 1. rewrite Hhl, (proj2 (Nat.ltb_lt i2 (length gs)) P2). cbn [bind]. unfold vset. rewrite upd_length, Hhl. rewrite (proj2 (Nat.ltb_lt (length gs - 1) (length gs))) by lia. cbn [bind].
  set (k := upd (upd h i2 b) (length gs - 1) []).
  assert (Hkl : length k = length gs) by (unfold k; rewrite !upd_length; auto).
  assert (Hkn : nth_error k (length gs - 1) = Some []) by (unfold k; apply upd_nth_eq; rewrite upd_length, Hhl; lia).
  destruct (snoc_of k) as (k' & x & Ek); [intros E; rewrite E in Hkl; cbn [length] in Hkl; lia|].
  assert (Hk' : length k' = length gs - 1) by (rewrite Ek, app_length in Hkl; cbn [length] in Hkl; lia).
  assert (x = []). { rewrite Ek in Hkn. rewrite nth_error_app2 in Hkn by lia. rewrite Hk', Nat.sub_diag in Hkn. cbn [nth_error] in Hkn. congruence. } subst x.
  assert (Hrl : removelast k = k') by (rewrite Ek; apply removelast_last). rewrite Hrl.
  assert (HP : Permutation (concat k') (concat gs)).
  { assert (K1 : Permutation (concat k') (concat k)) by (rewrite Ek, concat_app; cbn [concat app]; now rewrite !app_nil_r).
    assert (K2 : Permutation (b ++ concat k) (b ++ concat h)).
    { destruct (Nat.eq_dec i2 (length gs - 1)) as [Ei|Ni].
      - subst i2. assert (b = []) by congruence. subst b. unfold k. assert (Eu : upd h (length gs - 1) [] = h) by (apply upd_same; auto). now rewrite !Eu.
      - assert (A := concat_upd_perm h i2 [] b Hh2). cbn [app] in A. assert (B := concat_upd_perm (upd h i2 b) (length gs - 1) b []). cbn [app] in B. rewrite <- A. unfold k. rewrite B; auto. rewrite upd_nth_neq; auto. }
    apply Permutation_app_inv_l in K2.
    assert (K3 : Permutation (g2 ++ concat h) (concat (upd gs i1 (g2 ++ g1)))) by (unfold h; apply (concat_upd_perm (upd gs i1 (g2 ++ g1)) i2 g2 []); rewrite upd_nth_neq; auto).
    assert (K4 : Permutation (g1 ++ concat (upd gs i1 (g2 ++ g1))) ((g2 ++ g1) ++ concat gs)) by now apply concat_upd_perm.
    eapply perm_trans; [exact K1|]. eapply perm_trans; [exact K2|]. apply (Permutation_app_inv_l (g2 ++ g1)). rewrite <- K4. eapply perm_trans; [apply Permutation_app_tail, Permutation_app_comm|]. rewrite <- app_assoc. apply Permutation_app_head, K3. }
  assert (Hne' : forall g, In g k' -> g <> []).
  { intros g Hg ->. apply In_nth_error in Hg as [p Hp']. pose proof (nth_error_Some_lt _ _ _ Hp') as Hplt.
    assert (Hkp : nth_error k p = Some []) by (rewrite Ek, nth_error_app1 by auto; auto). unfold k in Hkp. rewrite upd_nth_neq in Hkp by lia.
    assert (Hin : forall q g, nth_error h q = Some g -> q <> i2 -> g <> []).
    { intros q g Hq Nq. unfold h in Hq. rewrite upd_nth_neq in Hq by auto. destruct (Nat.eq_dec q i1) as [->|N1].
      - rewrite upd_nth_eq in Hq by auto. inv Hq. intros E. apply app_eq_nil in E as [_ E]. apply (Hne g1); auto. eapply nth_error_In; eauto.
      - rewrite upd_nth_neq in Hq by auto. apply Hne. eapply nth_error_In; eauto. }
    destruct (Nat.eq_dec p i2) as [->|Np].
    - rewrite upd_nth_eq in Hkp by (rewrite Hhl; auto). inv Hkp. apply (Hin _ _ Eb); auto. lia.
    - rewrite upd_nth_neq in Hkp by auto. exact (Hin p [] Hkp Np eq_refl). }
  destruct (IH k') as (gs' & E' & L' & _ & P' & N'); auto; [lia|]. exists gs'. splits; auto; [lia|]. eapply perm_trans; eauto.
Qed.

Lemma add_to_last_ok rel b : rel <> [] -> exists r g, rel = r ++ [g] /\ add_to_last rel b = Ok (r ++ [b ++ g]).
Proof. intros H. destruct (snoc_of rel H) as (r & g & ->). exists r, g. split; auto. unfold add_to_last. rewrite rev_app_distr. cbn [rev app]. now rewrite rev_involutive. Qed.
Lemma concat_singles (b : list nat) : concat (map (fun s => [s]) b) = b.
Proof. induction b; cbn [map concat app]; congruence. Qed.

Definition within (buckets : list (list nat)) (c : list nat) : Prop := exists b, In b buckets /\ incl c b.
Lemma compute_abstraction_ok pick target all : picks_two pick -> 1 <= target -> forall buckets first rel,
  (forall b, In b buckets -> b <> [] /\ In b all) -> (forall c, In c rel -> c <> []) -> length rel <= target -> (first = true <-> rel = []) ->
  (forall c, In c rel -> length all <= target -> within all c) ->
  (length all <= target -> (Z.of_nat (length buckets) <= Z.of_nat target - Z.of_nat (length rel))%Z) ->
  exists cls, compute_abstraction pick target first (list_sum (map (@length nat) buckets)) buckets rel = Ok cls /\
    Permutation (concat cls) (concat buckets ++ concat rel) /\ (forall c, In c cls -> c <> []) /\ length cls <= target /\
    (forall c, In c cls -> length all <= target -> within all c) /\
    (list_sum (map (@length nat) buckets) + length rel <= target -> cls = rel ++ map (fun s => [s]) (concat buckets)).
Proof.
  intros Hp Ht. induction buckets as [|b rest IH]; intros first rel Hb Hne Hl Hf Hw Hr; cbn [compute_abstraction map list_sum concat].
  { exists rel. splits; auto. cbn [map]. intros _. now rewrite app_nil_r. }
  assert (Hsum : list_sum (map (@length nat) (b :: rest)) = length b + list_sum (map (@length nat) rest)) by reflexivity. cbn [map] in Hsum. rewrite Hsum.
  replace (length b + list_sum (map (@length nat) rest) - length b) with (list_sum (map (@length nat) rest)) by lia. set (to_go := list_sum (map (@length nat) rest)) in *.
  assert (Hrest : length rest <= to_go).
  { unfold to_go. assert (G : forall b', In b' rest -> b' <> []) by (intros b' H'; apply Hb; now right). clear -G. induction rest as [|x r IH]; [cbn; lia|]. change (list_sum (map (@length nat) (x :: r))) with (length x + list_sum (map (@length nat) r)). cbn [length]. pose proof (G x (or_introl eq_refl)). destruct x; [congruence|]. cbn [length]. assert (length r <= list_sum (map (@length nat) r)) by (apply IH; intros; apply G; now right). lia. }
  destruct (Hb b (or_introl eq_refl)) as [Hbn Hba]. assert (Hbl : 1 <= length b) by (destruct b; [congruence|cbn [length]; lia]).
  assert (Hb' : forall x, In x rest -> x <> [] /\ In x all) by (intros x Hx; apply Hb; now right).
  assert (Step : forall rel1, (forall c, In c rel1 -> c <> []) -> length rel1 <= target -> rel1 <> [] -> (forall c, In c rel1 -> length all <= target -> within all c) ->
    (length all <= target -> (Z.of_nat (length rest) <= Z.of_nat target - Z.of_nat (length rel1))%Z) -> Permutation (concat rel1) (b ++ concat rel) ->
    (length b + to_go + length rel <= target -> rel1 = rel ++ map (fun s => [s]) b) ->
    exists cls, compute_abstraction pick target false to_go rest rel1 = Ok cls /\ Permutation (concat cls) ((b ++ concat rest) ++ concat rel) /\ (forall c, In c cls -> c <> []) /\ length cls <= target /\
      (forall c, In c cls -> length all <= target -> within all c) /\ (length b + to_go + length rel <= target -> cls = rel ++ map (fun s => [s]) (b ++ concat rest))).
  { intros rel1 A B C D E F G. destruct (IH false rel1) as (cls & X1 & X2 & X3 & X4 & X5 & X6); auto; [split; [discriminate|congruence]|]. exists cls. splits; auto.
    - eapply perm_trans; [exact X2|]. eapply perm_trans; [apply Permutation_app_head, F|]. rewrite app_assoc. apply Permutation_app_tail, Permutation_app_comm.
    - intros Hs. specialize (G Hs). rewrite X6; [rewrite G, map_app; now rewrite app_assoc|]. rewrite G, app_length, map_length. lia. }
  set (remaining := (Z.of_nat target - Z.of_nat (length rel))%Z) in *.
  destruct (Z.leb_spec (Z.of_nat (length b)) (remaining - Z.of_nat to_go)) as [C1|C1]; cbn [bind].
  - apply Step.
    + intros c Hc. apply in_app_iff in Hc as [Hc|Hc]; auto. apply in_map_iff in Hc as (s & <- & _). discriminate.
    + rewrite app_length, map_length. lia.
    + destruct rel; [|discriminate]. cbn [app]. destruct b; [congruence|discriminate].
    + intros c Hc Ha. apply in_app_iff in Hc as [Hc|Hc]; auto. apply in_map_iff in Hc as (s & <- & Hs). exists b. split; auto. intros x [<-|[]]. auto.
    + intros _. rewrite app_length, map_length. lia.
    + rewrite concat_app, concat_singles. apply Permutation_app_comm.
    + auto.
  - destruct (Z.leb_spec (remaining - Z.of_nat to_go) 1) as [C2|C2]; cbn [bind].
    + destruct ((Z.of_nat (length (b :: rest)) <=? remaining)%Z || first) eqn:Eo.
      * assert (Hroom : length rel < target) by (apply orb_true_iff in Eo as [Eo|Eo]; [apply Z.leb_le in Eo; cbn [length] in Eo; lia|apply Hf in Eo; subst rel; cbn [length]; lia]).
        unfold add_to_last. rewrite rev_app_distr. cbn [rev app bind]. rewrite rev_involutive, app_nil_r. apply Step.
        -- intros c Hc. apply in_app_iff in Hc as [Hc|[<-|[]]]; auto.
        -- rewrite app_length. cbn [length]. lia.
        -- destruct rel; discriminate.
        -- intros c Hc Ha. apply in_app_iff in Hc as [Hc|[<-|[]]]; auto. exists b. split; auto. intros x; auto.
        -- intros Ha. specialize (Hr Ha). rewrite app_length. cbn [length] in *. lia.
        -- rewrite concat_app. cbn [concat]. rewrite app_nil_r. apply Permutation_app_comm.
        -- intros Hs. lia.
      * apply orb_false_iff in Eo as [Eo1 Eo2]. apply Z.leb_gt in Eo1. assert (Hrn : rel <> []) by (intros E; apply Hf in E; congruence).
        destruct (add_to_last_ok rel b Hrn) as (r & g & Er & ->). cbn [bind]. apply Step.
        -- intros c Hc. apply in_app_iff in Hc as [Hc|[<-|[]]]; [apply Hne; rewrite Er; apply in_app_iff; auto|]. intros E. apply app_eq_nil in E as [E _]. congruence.
        -- rewrite Er, app_length in Hl. rewrite app_length. cbn [length] in *. lia.
        -- destruct r; discriminate.
        -- intros c Hc Ha. specialize (Hr Ha). cbn [length] in *. lia.
        -- intros Ha. specialize (Hr Ha). cbn [length] in *. lia.
        -- rewrite Er, !concat_app. cbn [concat]. rewrite !app_nil_r. rewrite app_assoc. eapply perm_trans; [apply Permutation_app_tail, Permutation_app_comm|]. rewrite <- app_assoc. reflexivity.
        -- intros Hs. lia.
    + destruct (combine_groups_ok pick (Z.to_nat (remaining - Z.of_nat to_go)) Hp ltac:(lia) (length b) (map (fun s => [s]) b)) as (gs & -> & G1 & _ & G3 & G4).
      { rewrite map_length. lia. }
      { intros g Hg. apply in_map_iff in Hg as (s & <- & _). discriminate. }
      cbn [bind]. rewrite concat_singles in G3. apply Step.
      * intros c Hc. apply in_app_iff in Hc as [Hc|Hc]; auto.
      * rewrite app_length. lia.
      * intros E. apply app_eq_nil in E as [_ E]. subst gs. cbn [concat] in G3. apply Permutation_nil in G3. congruence.
      * intros c Hc Ha. apply in_app_iff in Hc as [Hc|Hc]; auto. exists b. split; auto. intros x Hx. apply (Permutation_in _ G3). apply in_concat. eauto.
      * intros _. rewrite app_length. lia.
      * rewrite concat_app. eapply perm_trans; [apply Permutation_app_comm|]. now apply Permutation_app_tail.
      * intros Hs. lia.
Qed.

Lemma bucket_based_ok pick target buckets : picks_two pick -> 1 <= target -> (forall b, In b buckets -> b <> []) ->
  exists cls, bucket_based pick target buckets = Ok cls /\ Permutation (concat cls) (concat buckets) /\ (forall c, In c cls -> c <> []) /\ length cls <= target /\
    (length buckets <= target -> forall c, In c cls -> within buckets c) /\
    (length (concat buckets) <= target -> cls = map (fun s => [s]) (concat buckets)).
Proof.
  intros Hp Ht Hb. unfold bucket_based.
  destruct (compute_abstraction_ok pick target buckets Hp Ht buckets true []) as (cls & A & B & C & D & E & F); auto; try (intros c []; fail); try (cbn [length]; lia); try tauto.
  - exists cls. splits; auto; [cbn [concat] in B; now rewrite app_nil_r in B|]. intros Hs. apply F. cbn [length]. assert (G : list_sum (map (@length nat) buckets) = length (concat buckets)); [|lia]. clear. induction buckets as [|b r IH]; auto. change (list_sum (map (@length nat) (b :: r))) with (length b + list_sum (map (@length nat) r)). cbn [concat]. rewrite app_length. lia.
Qed.

(** ** Sizes *)
Lemma compute_shrink_sizes_ok s1 s2 before after : 1 <= s1 -> 1 <= s2 -> 1 <= before -> before <= after ->
  let '(n1, n2) := compute_shrink_sizes s1 s2 before after in
  1 <= n1 <= Nat.min s1 before /\ 1 <= n2 <= Nat.min s2 before /\ n1 * n2 <= after /\
  (Nat.min s1 before * Nat.min s2 before <= after -> n1 = Nat.min s1 before /\ n2 = Nat.min s2 before).
Proof.
  intros H1 H2 Hb Ha. unfold compute_shrink_sizes. cbv zeta. set (m1 := Nat.min s1 before). set (m2 := Nat.min s2 before).
  assert (M1 : 1 <= m1) by (unfold m1; lia). assert (M2 : 1 <= m2) by (unfold m2; lia). assert (Hm1 : m1 <= after) by (unfold m1; lia). assert (Hm2 : m2 <= after) by (unfold m2; lia).
  destruct (Nat.leb_spec (m1 * m2) after) as [L|L]; [splits; auto|].
  pose proof (Nat.sqrt_specif after) as [Q1 Q2]. set (b := Nat.sqrt after) in *.
  assert (Qb : 1 <= b) by (destruct b; lia).
  destruct (Nat.leb_spec m1 b) as [L1|L1].
  - assert (D := Nat.div_mod after m1 ltac:(lia)). assert (Dm := Nat.mod_upper_bound after m1 ltac:(lia)). 
      assert (D1 : 1 <= after / m1) by (destruct (after / m1) eqn:E; [rewrite Nat.mul_0_r in D; lia|lia]). assert (D2 : after / m1 <= m2) by (apply Nat.lt_succ_r, Nat.div_lt_upper_bound; lia). splits; lia.
  - destruct (Nat.leb_spec m2 b) as [L2|L2].
    + assert (D := Nat.div_mod after m2 ltac:(lia)). assert (Dm := Nat.mod_upper_bound after m2 ltac:(lia)). 
      assert (D1 : 1 <= after / m2) by (destruct (after / m2) eqn:E; [rewrite Nat.mul_0_r in D; lia|lia]). assert (D2 : after / m2 <= m1) by (apply Nat.lt_succ_r, Nat.div_lt_upper_bound; lia). splits; lia.
    + splits; lia.
Qed.

Lemma handle_defaults_ok a b c : exists r, handle_shrink_limit_defaults a b c = r /\ (r = Exit 33 \/ exists m s th, r = Ok (m, s, th) /\ (1 <= s <= m /\ 1 <= th <= m)%Z).
Proof.
  eexists. split; [reflexivity|]. unfold handle_shrink_limit_defaults. cbv zeta.
  set (a1 := if (a =? -1)%Z && (b =? -1)%Z then 50000%Z else a). destruct (if (b =? -1)%Z then (a1, a1) else _) as [m s].
  destruct (Z.ltb_spec m 1); auto. set (s1 := if (m <? s)%Z then m else s). destruct (Z.ltb_spec s1 1); auto. set (th := if (c =? -1)%Z then m else c). destruct (Z.ltb_spec th 1); auto.
  right. do 3 eexists. split; [reflexivity|]. unfold s1 in *. destruct (Z.ltb_spec m s), (Z.ltb_spec m th); lia.
Qed.

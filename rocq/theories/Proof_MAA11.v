(** The main loop of merge-and-shrink. *)
From Coq Require Import Permutation.
From Verif Require Import Outcome Spec_Task Spec_Relaxation Spec_Projection Spec_Partition Model_PQ Model_Graph Model_Equivalence Model_MAS Spec_FTS Model_MASRun Model_MASAlgorithm Spec_LabelReduction Spec_Shrink Spec_MASAlgorithm.
From Verif Require Import Proof_MAS1 Proof_MAS2 Proof_MAS6 Proof_MAS7 Proof_MAS11 Proof_MAS12 Proof_MAS13 Proof_OC1 Proof_MAA1 Proof_MAA4 Proof_MAA5 Proof_MAA8 Proof_MAA9 Proof_MAA10.

(** ** Numbers and sizes of factors *)
Definition na (fs : list (option factor)) : nat := length (flat_map (fun f => match f with Some f => [f] | None => [] end) fs).
Definition prodn (fs : list (option factor)) : nat := fold_right (fun f p => match f with Some f => ts_n (f_ts f) * p | None => p end) 1 fs.
Lemma num_active_na F : num_active F = na (F_factors F). Proof. reflexivity. Qed.
Definition le_f (a b : option factor) : Prop := match a, b with Some f, Some f' => ts_n (f_ts f') <= ts_n (f_ts f) | None, None => True | _, _ => False end.
Definition smaller (F F' : fts) : Prop := Forall2 le_f (F_factors F) (F_factors F').
Lemma forall2_of {A B} (R : A -> B -> Prop) : forall l l', length l' = length l -> (forall k a b, nth_error l k = Some a -> nth_error l' k = Some b -> R a b) -> Forall2 R l l'.
Proof. induction l as [|a l IH]; intros [|b l'] Hl H; try discriminate; constructor; [apply (H 0); auto|]. apply IH; [now inversion Hl|]. intros k. exact (H (S k)). Qed.
Lemma forall2_len {A B} (R : A -> B -> Prop) l l' : Forall2 R l l' -> length l' = length l. Proof. induction 1; cbn [length]; lia. Qed.
Lemma forall2_at {A B} (R : A -> B -> Prop) l l' k a b : Forall2 R l l' -> nth_error l k = Some a -> nth_error l' k = Some b -> R a b.
Proof. intros H. revert k. induction H as [|x y l l' Hxy H IH]; intros [|k] E1 E2; cbn [nth_error] in *; try discriminate; [congruence|eauto]. Qed.
Lemma le_f_refl a : le_f a a. Proof. destruct a; cbn [le_f]; auto. Qed.
Lemma smaller_refl F : smaller F F. Proof. apply forall2_of; auto. intros k a b E1 E2. rewrite E1 in E2. inversion E2. apply le_f_refl. Qed.
Lemma le_list_trans a b : Forall2 le_f a b -> forall c, Forall2 le_f b c -> Forall2 le_f a c.
Proof.
  induction 1 as [|x y a b Hxy H IH]; intros c Hc; inversion Hc as [|y' z b' c' Hyz Hc' Eb Ec]; subst; constructor; auto.
  destruct x as [x|], y as [y|], z as [z|]; cbn [le_f] in *; try contradiction; auto. lia.
Qed.
Lemma smaller_trans F F' F'' : smaller F F' -> smaller F' F'' -> smaller F F''.
Proof. intros A B. exact (le_list_trans _ _ A _ B). Qed.
Lemma smaller_len F F' : smaller F F' -> length (F_factors F') = length (F_factors F). Proof. apply forall2_len. Qed.
Lemma smaller_na F F' : smaller F F' -> num_active F' = num_active F.
Proof. rewrite !num_active_na. unfold smaller, na. induction 1 as [|x y l l' Hxy H IH]; cbn [flat_map length]; auto. rewrite !app_length, IH. destruct x, y; cbn [le_f length] in *; auto; contradiction. Qed.
Lemma smaller_prod F F' : smaller F F' -> prodn (F_factors F') <= prodn (F_factors F).
Proof. unfold smaller. induction 1 as [|x y l l' Hxy H IH]; cbn [prodn fold_right]; auto. fold (prodn l) (prodn l'). destruct x, y; cbn [le_f] in *; try contradiction; auto. now apply Nat.mul_le_mono. Qed.
Lemma smaller_at F F' i f : smaller F F' -> nth_error (F_factors F) i = Some (Some f) -> exists f', nth_error (F_factors F') i = Some (Some f') /\ ts_n (f_ts f') <= ts_n (f_ts f).
Proof.
  intros H Hi. pose proof (nth_error_Some_lt _ _ _ Hi) as Hlt. rewrite <- (smaller_len _ _ H) in Hlt. destruct (nth_error (F_factors F') i) as [b|] eqn:E; [|apply nth_error_None in E; lia].
  pose proof (forall2_at _ _ _ _ _ _ H Hi E) as R. destruct b as [f'|]; [|destruct R]. exists f'. auto.
Qed.
Lemma smaller_back F F' i f' : smaller F F' -> nth_error (F_factors F') i = Some (Some f') -> exists f, nth_error (F_factors F) i = Some (Some f) /\ ts_n (f_ts f') <= ts_n (f_ts f).
Proof.
  intros H Hi. pose proof (nth_error_Some_lt _ _ _ Hi) as Hlt. rewrite (smaller_len _ _ H) in Hlt. destruct (nth_error (F_factors F) i) as [b|] eqn:E; [|apply nth_error_None in E; lia].
  pose proof (forall2_at _ _ _ _ _ _ H E Hi) as R. destruct b as [f|]; [|destruct R]. exists f. auto.
Qed.
Lemma same_but_smaller i F F' f f' : same_but i F F' -> nth_error (F_factors F) i = Some (Some f) -> nth_error (F_factors F') i = Some (Some f') -> ts_n (f_ts f') <= ts_n (f_ts f) -> smaller F F'.
Proof.
  intros (_ & B & C) Hf Hf' Hle. apply forall2_of; auto. intros k a b E1 E2. destruct (Nat.eq_dec k i) as [->|Nk]; [rewrite Hf in E1; rewrite Hf' in E2; inversion E1; inversion E2; subst; exact Hle|].
  rewrite C in E2 by auto. rewrite E1 in E2. inversion E2. apply le_f_refl.
Qed.
Lemma same_shape_smaller F F' : same_shape F F' -> smaller F F'.
Proof.
  intros [A B]. apply forall2_of; auto. intros k a b E1 E2. specialize (B k). rewrite E1, E2 in B. destruct a, b; cbn [le_f]; auto. destruct B as (_ & _ & -> & _). lia.
Qed.
Lemma smaller_occupied F F' : smaller F F' -> occupied F' = occupied F.
Proof. unfold smaller, occupied. induction 1 as [|x y l l' Hxy H IH]; cbn [map]; auto. rewrite IH. destruct x, y; cbn [le_f] in *; auto; contradiction. Qed.
Lemma map_upd {A B} (f : A -> B) : forall l i x, map f (upd l i x) = upd (map f l) i (f x).
Proof. induction l as [|a l IH]; intros [|i] x; cbn [upd map]; auto. now rewrite IH. Qed.
Lemma na_app a b : na (a ++ b) = na a + na b. Proof. unfold na. now rewrite flat_map_app, app_length. Qed.
Lemma na_upd : forall fs i f, nth_error fs i = Some (Some f) -> S (na (upd fs i None)) = na fs.
Proof. induction fs as [|a fs IH]; intros [|i] f H; cbn [nth_error] in H; try discriminate; cbn [upd]; unfold na in *; cbn [flat_map]; rewrite !app_length; [inversion H; reflexivity|]. rewrite <- (IH i f H). lia. Qed.
Lemma prodn_app a b : prodn (a ++ b) = prodn a * prodn b.
Proof.
  induction a as [|[f|] a IH]; [change (prodn b = 1 * prodn b); lia| |exact IH].
  change (ts_n (f_ts f) * prodn (a ++ b) = ts_n (f_ts f) * prodn a * prodn b). rewrite IH. lia.
Qed.
Lemma prodn_upd : forall fs i f, nth_error fs i = Some (Some f) -> prodn fs = ts_n (f_ts f) * prodn (upd fs i None).
Proof.
  induction fs as [|a fs IH]; intros [|i] f H; cbn [nth_error] in H; try discriminate; cbn [upd prodn fold_right]; fold (prodn fs).
  - inversion H; subst. reflexivity.
  - fold (prodn (upd fs i None)). rewrite (IH i f H). destruct a; lia.
Qed.
Lemma prodn_pos fs : (forall i f, nth_error fs i = Some (Some f) -> 1 <= ts_n (f_ts f)) -> 1 <= prodn fs.
Proof.
  induction fs as [|a fs IH]; intros H; cbn [prodn fold_right]; [lia|]. fold (prodn fs). assert (1 <= prodn fs) by (apply IH; intros i; exact (H (S i))). destruct a as [f|]; [|auto]. specialize (H 0 f eq_refl). nia.
Qed.

Section RUNS.
Variable P : pqueue.
Variable bag : PQ P -> list (nat * nat).
Hypothesis HP : pq_contract P bag.
Variable q0 : PQ P.
Hypothesis Hq0 : bag q0 = [].
Variable ord : list (nat * list nat) -> list (nat * list nat).
Hypothesis Hord : forall b, Permutation (ord b) b.
Variable t : task.
Hypothesis Ht : mas_task t.
Variable O : mas_options.
Notation ci := (o_ci O).
Notation cg := (o_cg O).
Notation built := (built P q0 ord ci cg t).
Notation SOLV := (SOLV cg).
Variable pick : nat -> list (list nat) -> nat * nat.
Hypothesis Hpick : forall n, picks_two (pick n).
Variable MS : merge_strategy.
Hypothesis Hmerge : good_merges P q0 ord O t MS.
Variable timeout : nat -> nat -> bool.
Notation nv := (length (t_vars t)).
Hypothesis Horder : NoDup (o_order O) /\ forall k, k < 2 * nv - 1 -> In k (o_order O).
Hypothesis Hlim : 1 <= o_before_merge O <= o_max_states O.

Lemma inv_of e F : built e F -> exists lab, Inv ci cg t lab F.
Proof. exact (built_inv P bag HP q0 Hq0 ord Hord ci cg t Ht e F). Qed.
Lemma solv_is e F i f : built e F -> nth_error (F_factors F) i = Some (Some f) -> (is_solvable f = Ok true <-> solv cg (F_labels F) f).
Proof. intros HB Hi. destruct (inv_of e F HB) as [lab HI]. exact (solvable_iff ci cg t (F_labels F) lab f (in_fac _ _ _ _ _ HI i f Hi)). Qed.
Lemma solv_pos e F i f : built e F -> nth_error (F_factors F) i = Some (Some f) -> solv cg (F_labels F) f -> 1 <= ts_n (f_ts f) /\ ts_init (f_ts f) <> None.
Proof. intros HB Hi (x & Hx & _). destruct (inv_of e F HB) as [lab HI]. pose proof (w_init _ _ _ (fi_wf _ _ _ _ _ _ (in_fac _ _ _ _ _ HI i f Hi)) x Hx). split; [lia|congruence]. Qed.

(** ** Label reduction *)
Lemma reduce_step_ok e F b i j : built e F -> SOLV F -> 0 < length (F_factors F) <= 2 * nv - 1 ->
  exists F', reduce_step ord O b F i j = Ok F' /\ built e F' /\ SOLV F' /\ smaller F F'.
Proof.
  intros HB HS [L1 L2]. unfold reduce_step. assert (Hno : exists F', Ok F = Ok F' /\ built e F' /\ SOLV F' /\ smaller F F') by (exists F; splits; auto using smaller_refl).
  destruct (o_reduction O) as [[[m bs] bm]|]; [|exact Hno]. destruct (if b then bs else bm); [|exact Hno].
  destruct (reduce_ok P bag HP q0 Hq0 ord Hord ci cg t Ht e F m (o_order O) i j HB) as (F' & E & (A & B & _) & _).
  - destruct (F_factors F); [cbn [length] in L1; lia|discriminate].
  - apply Horder.
  - intros k Hk. apply Horder. lia.
  - exists F'. splits; auto using same_shape_smaller. intros k f' Hk. apply (solv_is e F' k f' A Hk). pose proof (proj2 B k) as Bk. rewrite Hk in Bk. destruct (nth_error (F_factors F) k) as [[f|]|] eqn:Ek; try contradiction.
    destruct Bk as (_ & Bd & _ & _ & Bi). pose proof (proj2 (solv_is e F k f HB Ek) (HS k f Ek)) as Hs. unfold is_solvable in *. now rewrite Bi, Bd.
Qed.

(** ** Shrinking *)
Lemma shrink_step_ok e F n i j f g : built e F -> SOLV F -> i <> j -> nth_error (F_factors F) i = Some (Some f) -> nth_error (F_factors F) j = Some (Some g) ->
  exists e' F' f' g', shrink_before_merge_step P q0 O pick n F i j = Ok F' /\ built e' F' /\ SOLV F' /\ smaller F F' /\
    nth_error (F_factors F') i = Some (Some f') /\ nth_error (F_factors F') j = Some (Some g') /\
    (bucket_strategy (o_shrink O) -> ts_n (f_ts f') * ts_n (f_ts g') <= o_max_states O) /\
    (exact_strategy (o_shrink O) -> ts_n (f_ts f) * ts_n (f_ts g) <= o_before_merge O -> e' = e).
Proof.
  intros HB HS Nij Hf Hg. unfold shrink_before_merge_step. rewrite (proj2 (get_factor_ok F i f) Hf), (proj2 (get_factor_ok F j g) Hg). cbn [bind].
  destruct (solv_pos e F i f HB Hf (HS i f Hf)) as [Pf _]. destruct (solv_pos e F j g HB Hg (HS j g Hg)) as [Pg _].
  pose proof (compute_shrink_sizes_ok _ _ _ _ Pf Pg (proj1 Hlim) (proj2 Hlim)) as Hc. destruct (compute_shrink_sizes _ _ _ _) as [s1 s2]. destruct Hc as (C1 & C2 & C3 & C4).
  destruct (shrink_factor_ok P bag HP q0 Hq0 ord Hord ci cg t Ht O eq_refl eq_refl pick Hpick e F (2 * n) i f s1 HB HS Hf (proj1 C1)) as (e1 & F1 & f1 & -> & HB1 & HS1 & SB1 & Hf1 & Le1 & Bu1 & Ex1). cbn [bind].
  assert (Hg1 : nth_error (F_factors F1) j = Some (Some g)) by (rewrite (proj2 (proj2 SB1)); auto).
  destruct (shrink_factor_ok P bag HP q0 Hq0 ord Hord ci cg t Ht O eq_refl eq_refl pick Hpick e1 F1 (2 * n + 1) j g s2 HB1 HS1 Hg1 (proj1 C2)) as (e2 & F2 & g2 & -> & HB2 & HS2 & SB2 & Hg2 & Le2 & Bu2 & Ex2).
  assert (Hf2 : nth_error (F_factors F2) i = Some (Some f1)) by (rewrite (proj2 (proj2 SB2)); auto).
  exists e2, F2, f1, g2. splits; auto.
  - eapply smaller_trans; [exact (same_but_smaller i F F1 f f1 SB1 Hf Hf1 Le1)|exact (same_but_smaller j F1 F2 g g2 SB2 Hg1 Hg2 Le2)].
  - intros Hb. etransitivity; [apply Nat.mul_le_mono; [exact (Bu1 Hb)|exact (Bu2 Hb)]|exact C3].
  - intros Hx Hle. assert (ts_n (f_ts f) <= o_before_merge O /\ ts_n (f_ts g) <= o_before_merge O) as [M1 M2] by nia. rewrite !Nat.min_l in C4 by auto. destruct C4 as [-> ->]; [lia|]. rewrite Ex2, Ex1; auto.
Qed.

(** ** Pruning *)
Lemma prune_factor_ok e F i f : built e F -> nth_error (F_factors F) i = Some (Some f) -> ts_init (f_ts f) <> None ->
  exists F' f' b, prune_factor P q0 O F i = Ok F' /\ built e F' /\ same_but i F F' /\ smaller F F' /\ nth_error (F_factors F') i = Some (Some f') /\
    is_factor_solvable F' i = Ok b /\ is_solvable f' = Ok b.
Proof.
  intros HB Hf Hi. unfold prune_factor. assert (Hsol : forall F' f', built e F' -> nth_error (F_factors F') i = Some (Some f') -> exists b, is_factor_solvable F' i = Ok b /\ is_solvable f' = Ok b).
  { intros F' f' HB' Hf'. destruct (inv_of e F' HB') as [lab HI]. destruct (is_solvable_ok ci cg t (F_labels F') lab f' (in_fac _ _ _ _ _ HI i f' Hf')) as [b E]. exists b. split; auto. unfold is_factor_solvable. rewrite (proj2 (get_factor_ok F' i f') Hf'). exact E. }
  destruct (o_prune_unreachable O || o_prune_irrelevant O).
  2:{ destruct (Hsol F f HB Hf) as (b & A & B). exists F, f, b. splits; auto using same_but_refl, smaller_refl. }
  assert (Hu : o_prune_unreachable O = true -> ci = true) by (intros E; unfold o_ci; rewrite E; now rewrite orb_true_r).
  assert (Hr : o_prune_irrelevant O = true -> cg = true) by (intros E; unfold o_cg; rewrite E; now rewrite orb_true_r).
  destruct (inv_of e F HB) as [lab HI]. pose proof (proj2 (get_factor_ok F i f) Hf) as Gf.
  destruct (prune_sound P bag HP q0 Hq0 ci cg t Ht lab F i f _ _ HI Gf Hi Hu Hr) as (cls & F' & E & HG & _ & HI' & _ & Hc). assert (HB' : built e F') by (eapply built_prune; eauto). rewrite E.
  destruct Hc as [[-> _]|(f' & EF & HIm & _)].
  - destruct (Hsol F f HB' Hf) as (b & A & B). exists F, f, b. splits; auto using same_but_refl, smaller_refl.
  - pose proof (nth_error_Some_lt _ _ _ Hf) as Li. subst F'. set (F' := set_factors F (upd (F_factors F) i (Some f'))) in *.
    assert (Hf' : nth_error (F_factors F') i = Some (Some f')) by (cbn [F' set_factors F_factors]; now rewrite upd_nth_eq).
    assert (SB : same_but i F F') by (unfold same_but, F'; cbn [set_factors F_factors F_labels]; splits; auto; [now rewrite upd_length|intros k Nk; now rewrite upd_nth_neq by auto]).
    destruct (Hsol F' f' HB' Hf') as (b & A & B). exists F', f', b. splits; auto. eapply same_but_smaller; eauto. pose proof HIm as (Hn & _). cbn [the_lts l_n] in Hn. rewrite Hn. now apply classes_le.
Qed.

(** ** The loop *)
Definition within_limit (F : fts) : Prop := bucket_strategy (o_shrink O) -> forall i f, nv <= i -> nth_error (F_factors F) i = Some (Some f) -> ts_n (f_ts f) <= o_max_states O.
Lemma within_smaller F F' : smaller F F' -> within_limit F -> within_limit F'.
Proof. intros H W Hb i f' Hi Hf'. destruct (smaller_back F F' i f' H Hf') as (f & Hf & Hle). specialize (W Hb i f Hi Hf). lia. Qed.
Variable N : nat.
Definition exact_run : Prop := exact_strategy (o_shrink O) /\ N <= o_before_merge O.
Definition outcome_ok (e : bool) (F : fts) : Prop :=
  (exact_run -> e = true) /\ within_limit F /\ length (F_factors F) + num_active F <= 2 * nv /\ (nv <> 0 -> 1 <= num_active F) /\
  ((forall n k, timeout n k = false) -> num_active F <= 1 \/ exists i f, nth_error (F_factors F) i = Some (Some f) /\ is_solvable f = Ok false).

Notation usable := (usable P q0 ord O t).
Lemma usable_of e F : built e F -> SOLV F -> usable F.
Proof. intros HB HS. split; [eauto|]. intros i f Hf. apply get_factor_ok in Hf. apply (solv_is e F i f HB Hf), (HS i f Hf). Qed.
Lemma main_loop_ok : forall fuel n m e F, (exists h, strategy_run P q0 ord O t MS h m F) -> built e F -> SOLV F -> (exact_run -> e = true) -> within_limit F -> nv <= length (F_factors F) -> length (F_factors F) + num_active F <= 2 * nv -> (nv <> 0 -> 1 <= num_active F) -> prodn (F_factors F) <= N -> num_active F <= fuel ->
  exists e' F', main_loop P q0 ord O pick MS timeout fuel n m F = Ok F' /\ built e' F' /\ outcome_ok e' F'.
Proof.
  assert (Stop : forall e F n k, built e F -> (exact_run -> e = true) -> within_limit F -> length (F_factors F) + num_active F <= 2 * nv -> (nv <> 0 -> 1 <= num_active F) -> timeout n k = true -> exists e' F', Ok F = Ok F' /\ built e' F' /\ outcome_ok e' F').
  { intros e F n k A B C D D' E. exists e, F. split; [reflexivity|]. split; [exact A|]. unfold outcome_ok. splits; auto. intros H. rewrite H in E. discriminate. }
  induction fuel as [|fuel IH]; intros n m e F Hinv HB HS He HW Hnv Hcnt Hna Hpr Hfuel; cbn [main_loop]; destruct (Nat.leb_spec (num_active F) 1) as [H1|H1]; try lia;
    try (exists e, F; split; [reflexivity|]; split; [exact HB|]; unfold outcome_ok; splits; auto; fail).
  destruct Hinv as [hist Hinv]. destruct (proj2 Hmerge hist m F n Hinv H1) as (i & j & m' & Enext & Nij & [f Hf] & [g Hg]). rewrite Enext. cbn [bind]. apply get_factor_ok in Hf, Hg.
  destruct (timeout n 0) eqn:T0; [eauto|].
  assert (Lpos : 0 < length (F_factors F)) by (pose proof (nth_error_Some_lt _ _ _ Hf); lia).
  destruct (reduce_step_ok e F true i j HB HS) as (F1 & -> & HB1 & HS1 & S1); [lia|]. cbn [bind].
  pose proof (within_smaller _ _ S1 HW) as HW1. pose proof (smaller_len _ _ S1) as L1. pose proof (smaller_na _ _ S1) as A1. pose proof (smaller_prod _ _ S1) as P1.
  destruct (timeout n 1) eqn:T1; [apply (Stop e F1 n 1); auto; lia|].
  destruct (smaller_at F F1 i f S1 Hf) as (f1 & Hf1 & _). destruct (smaller_at F F1 j g S1 Hg) as (g1 & Hg1 & _).
  destruct (shrink_step_ok e F1 n i j f1 g1 HB1 HS1 Nij Hf1 Hg1) as (e2 & F2 & f2 & g2 & -> & HB2 & HS2 & S2 & Hf2 & Hg2 & Bu & Ex). cbn [bind].
  pose proof (within_smaller _ _ S2 HW1) as HW2. pose proof (smaller_len _ _ S2) as L2. pose proof (smaller_na _ _ S2) as A2. pose proof (smaller_prod _ _ S2) as P2.
  assert (Two : forall F' (f' g' : factor) e', built e' F' -> SOLV F' -> nth_error (F_factors F') i = Some (Some f') -> nth_error (F_factors F') j = Some (Some g') ->
    prodn (F_factors F') = ts_n (f_ts f') * ts_n (f_ts g') * prodn (upd (upd (F_factors F') i None) j None) /\ 1 <= prodn (upd (upd (F_factors F') i None) j None)).
  { intros F' f' g' e' HB' HS' Hf' Hg'. split.
    - rewrite (prodn_upd _ i f' Hf'). rewrite (prodn_upd (upd (F_factors F') i None) j g') by (rewrite upd_nth_neq; auto). lia.
    - apply prodn_pos. intros k h Hk. assert (Hk' : nth_error (F_factors F') k = Some (Some h)).
      { destruct (Nat.eq_dec k j) as [->|Kj]; [rewrite upd_nth_eq in Hk by (rewrite upd_length; eapply nth_error_Some_lt; eauto); discriminate|]. rewrite upd_nth_neq in Hk by auto.
        destruct (Nat.eq_dec k i) as [->|Ki]; [rewrite upd_nth_eq in Hk by (eapply nth_error_Some_lt; eauto); discriminate|]. now rewrite upd_nth_neq in Hk by auto. }
      exact (proj1 (solv_pos e' F' k h HB' Hk' (HS' k h Hk'))). }
  assert (He2 : exact_run -> e2 = true).
  { intros Hx. pose proof Hx as [Hx1 Hx2]. rewrite Ex; auto. destruct (Two F1 f1 g1 e HB1 HS1 Hf1 Hg1) as [Q1 Q2]. nia. }
  destruct (timeout n 2) eqn:T2; [apply (Stop e2 F2 n 2); auto; lia|].
  destruct (reduce_step_ok e2 F2 false i j HB2 HS2) as (F3 & E3 & HB3 & HS3 & S3); [lia|]. rewrite E3. cbn [bind].
  pose proof (within_smaller _ _ S3 HW2) as HW3. pose proof (smaller_len _ _ S3) as L3. pose proof (smaller_na _ _ S3) as A3. pose proof (smaller_prod _ _ S3) as P3.
  destruct (timeout n 3) eqn:T3; [apply (Stop e2 F3 n 3); auto; lia|].
  destruct (smaller_at F2 F3 i f2 S3 Hf2) as (f3 & Hf3 & Lf3). destruct (smaller_at F2 F3 j g2 S3 Hg2) as (g3 & Hg3 & Lg3).
  destruct (inv_of e2 F3 HB3) as [lab HI3]. destruct (solv_pos e2 F3 i f3 HB3 Hf3 (HS3 i f3 Hf3)) as [_ Nf]. destruct (solv_pos e2 F3 j g3 HB3 Hg3 (HS3 j g3 Hg3)) as [_ Ng].
  pose proof (proj2 (get_factor_ok F3 i f3) Hf3) as Gf. pose proof (proj2 (get_factor_ok F3 j g3) Hg3) as Gg.
  destruct (merge_sound P bag HP q0 Hq0 ord Hord ci cg t Ht lab F3 i j f3 g3 HI3 Gf Gg Nf Ng) as (T & D & Em & HPr & _).
  set (new := {| f_ts := T; f_rep := new_node (f_rep f3) (f_rep g3); f_dist := D |}) in *. set (F4 := set_factors F3 (upd (upd (F_factors F3) i None) j None ++ [Some new])) in *.
  assert (HB4 : built e2 F4) by (eapply built_merge; eauto). rewrite Em. cbn [bind].
  pose proof HPr as (Hn & _ & Hini & _). cbn [the_lts l_n l_init] in Hn, Hini.
  assert (L4 : length (F_factors F4) = S (length (F_factors F3))) by (cbn [F4 set_factors F_factors]; rewrite app_length, !upd_length; cbn [length]; lia).
  assert (A4 : S (num_active F4) = num_active F3).
  { rewrite !num_active_na. cbn [F4 set_factors F_factors]. rewrite na_app. change (na [Some new]) with 1. rewrite <- (na_upd _ i f3 Hf3), <- (na_upd (upd (F_factors F3) i None) j g3) by (rewrite upd_nth_neq; auto). lia. }
  assert (P4 : prodn (F_factors F4) = prodn (F_factors F3)).
  { cbn [F4 set_factors F_factors]. rewrite prodn_app. cbn [prodn fold_right]. change (f_ts new) with T. rewrite Hn. destruct (Two F3 f3 g3 e2 HB3 HS3 Hf3 Hg3) as [-> _]. fold (prodn (upd (upd (F_factors F3) i None) j None)). lia. }
  assert (Hnew : nth_error (F_factors F4) (length (F_factors F3)) = Some (Some new)) by (cbn [F4 set_factors F_factors]; rewrite nth_error_app2 by (rewrite !upd_length; lia); rewrite !upd_length, Nat.sub_diag; reflexivity).
  assert (HW4 : within_limit F4).
  { intros Hb k h Hk Hh. cbn [F4 set_factors F_factors] in Hh. apply merged_nth in Hh. destruct Hh as [(_ & _ & Hh)|[_ ->]]; [exact (HW3 Hb k h Hk Hh)|]. change (f_ts new) with T. rewrite Hn. etransitivity; [apply Nat.mul_le_mono; eassumption|exact (Bu Hb)]. }
  destruct (timeout n 4) eqn:T4; [apply (Stop e2 F4 n 4); auto; lia|].
  destruct (prune_factor_ok e2 F4 (length (F_factors F3)) new HB4 Hnew) as (F5 & f5 & b & -> & HB5 & SB5 & S5 & Hf5 & Eb & Eb'). { change (f_ts new) with T. rewrite Hini. destruct (ts_init (f_ts f3)); [|congruence]. destruct (ts_init (f_ts g3)); [discriminate|congruence]. }
  cbn [bind]. rewrite Eb. cbn [bind].
  pose proof (within_smaller _ _ S5 HW4) as HW5. pose proof (smaller_len _ _ S5) as L5. pose proof (smaller_na _ _ S5) as A5. pose proof (smaller_prod _ _ S5) as P5.
  destruct b; cbn [negb].
  - destruct (timeout n 5) eqn:T5; [apply (Stop e2 F5 n 5); auto; lia|]. 
    assert (HS5 : SOLV F5). { intros k h Hk. destruct (Nat.eq_dec k (length (F_factors F3))) as [->|Nk].
    + rewrite Hf5 in Hk. inversion Hk; subst h. now apply (solv_is e2 F5 (length (F_factors F3)) f5).
    + rewrite (proj2 (proj2 SB5)) in Hk by auto. rewrite (proj1 SB5). cbn [F4 set_factors F_factors F_labels] in *. apply merged_nth in Hk. destruct Hk as [(_ & _ & Hk)|[-> _]]; [exact (HS3 k h Hk)|congruence]. }
    apply (IH (S n) m' e2); auto; try lia. exists (hist ++ [(i, j)]). eapply run_next; [exact Hinv|exact H1|exact Enext|exact (usable_of e2 F5 HB5 HS5)|]. rewrite (smaller_occupied _ _ S5). unfold merged. cbn [F4 set_factors F_factors occupied]. unfold occupied at 1. cbn [F_factors set_factors F4].
    rewrite map_app, !map_upd. cbn [map]. change (map _ (F_factors F3)) with (occupied F3). now rewrite (smaller_occupied _ _ S3), (smaller_occupied _ _ S2), (smaller_occupied _ _ S1).
  - exists e2, F5. split; [reflexivity|]. split; [exact HB5|]. unfold outcome_ok. splits; auto; try lia. intros _. right. eauto.
Qed.

Lemma prune_atomic_ok : forall is e F, built e F -> NoDup is -> (forall i, In i is -> exists f, nth_error (F_factors F) i = Some (Some f) /\ ts_init (f_ts f) <> None) ->
  (forall i f, ~ In i is -> nth_error (F_factors F) i = Some (Some f) -> solv cg (F_labels F) f) ->
  exists F' b, prune_atomic P q0 O is F = Ok (F', b) /\ built e F' /\ smaller F F' /\ (b = false -> SOLV F') /\ (b = true -> exists i f, nth_error (F_factors F') i = Some (Some f) /\ is_solvable f = Ok false).
Proof.
  induction is as [|i is IH]; intros e F HB HD Hin Hout; cbn [prune_atomic].
  - exists F, false. splits; auto using smaller_refl; [|discriminate]. intros _ i f Hf. apply (Hout i); auto.
  - destruct (Hin i (or_introl eq_refl)) as (f & Hf & Hi). inversion HD as [|? ? Hni HD']; subst.
    destruct (prune_factor_ok e F i f HB Hf Hi) as (F1 & f1 & b & -> & HB1 & SB & S1 & Hf1 & Eb & Eb'). cbn [bind]. rewrite Eb. cbn [bind]. destruct b.
    + destruct (IH e F1 HB1 HD') as (F' & b & E & A & B & C & D).
      * intros k Hk. destruct (Hin k (or_intror Hk)) as (h & Hh & Hk'). exists h. split; auto. rewrite (proj2 (proj2 SB)); auto. intros ->. contradiction.
      * intros k h Hk Hh. destruct (Nat.eq_dec k i) as [->|Nk]; [rewrite Hf1 in Hh; inversion Hh; subst h; now apply (solv_is e F1 i f1)|]. rewrite (proj2 (proj2 SB)) in Hh by auto. rewrite (proj1 SB). apply (Hout k); auto. intros [->|?]; congruence.
      * exists F', b. splits; auto. eapply smaller_trans; eauto.
    + exists F1, true. splits; auto; [discriminate|]. intros _. eauto.
Qed.

Lemma create_shape F : create_fts P q0 ci cg t = Ok F -> built true F /\ length (F_factors F) = nv /\ num_active F = nv /\
  (forall i, i < nv -> exists f, nth_error (F_factors F) i = Some (Some f) /\ ts_init (f_ts f) <> None) /\
  prodn (F_factors F) = fold_right (fun x p => vdom x * p) 1 (t_vars t).
Proof.
  intros E. assert (HB : built true F) by now apply built_start. destruct (create_ok P bag HP q0 Hq0 ci cg t Ht) as (F' & E' & _ & HI & HL & HA). rewrite E in E'. inversion E'; subst F'. clear E'.
  assert (HS : exists fs, F_factors F = map Some fs).
  { unfold create_fts in E. apply bind_ok in E. destruct E as (fs & _ & E). inversion E; subst. cbn [F_factors]. eauto. }
  destruct HS as [fs HS]. rewrite HS in *. rewrite map_length in HL.
  split; [exact HB|]. split; [now rewrite map_length|]. split; [|split].
  - rewrite num_active_na, HS. rewrite <- HL. unfold na. clear. induction fs as [|f fs IH]; cbn [map flat_map app length]; auto.
  - intros i Hi. destruct (nth_error fs i) as [f|] eqn:Ef; [|apply nth_error_None in Ef; lia]. exists f. rewrite nth_error_map, Ef. split; [reflexivity|].
    destruct (HA i f) as (HF & Habs & _); [now rewrite nth_error_map, Ef|]. destruct (Habs (t_init t) (init_state t Ht)) as (x & _ & Hx). rewrite (fi_init _ _ _ _ _ _ HF _ Hx). discriminate.
  - assert (Hd : forall v f, nth_error fs v = Some f -> exists xv, nth_error (t_vars t) v = Some xv /\ ts_n (f_ts f) = vdom xv).
    { intros v f Hf. destruct (HA v f) as (_ & _ & _ & _ & H); [now rewrite nth_error_map, Hf|]. exact H. }
    revert HL Hd. clear. generalize (t_vars t). induction fs as [|f fs IH]; intros [|x xs] HL Hd; try discriminate; auto. cbn [map fold_right]. change (ts_n (f_ts f) * prodn (map Some fs) = vdom x * fold_right (fun x p => vdom x * p) 1 xs).
    rewrite (IH xs); [|now inversion HL|intros v; exact (Hd (S v))]. destruct (Hd 0 f eq_refl) as (y & Hy & ->). inversion Hy. reflexivity.
Qed.

Lemma create_occupied F : create_fts P q0 ci cg t = Ok F -> occupied F = repeat true nv.
Proof.
  intros E. destruct (create_shape F E) as (_ & L & _ & H & _). unfold occupied. rewrite <- L. apply nth_error_ext. intros k. rewrite nth_error_map. destruct (Nat.lt_ge_cases k (length (F_factors F))) as [Hk|Hk].
  - destruct (H k) as (f & Hf & _); [lia|]. rewrite Hf. symmetry. rewrite (nth_error_nth' _ true) by (now rewrite repeat_length). now rewrite nth_repeat.
  - rewrite (proj2 (nth_error_None _ _) Hk). symmetry. apply nth_error_None. now rewrite repeat_length.
Qed.

Lemma build_ok no_time : fold_right (fun x p => vdom x * p) 1 (t_vars t) <= N ->
  exists e F, build_factored_transition_system P q0 ord O pick MS timeout t no_time = Ok F /\ built e F /\
    (exact_run -> e = true) /\ within_limit F /\ length (F_factors F) + num_active F <= 2 * nv /\ (nv <> 0 -> 1 <= num_active F) /\
    (no_time = false -> (forall n k, timeout n k = false) -> num_active F <= 1 \/ exists i f, nth_error (F_factors F) i = Some (Some f) /\ is_solvable f = Ok false).
Proof.
  intros Hdom. unfold build_factored_transition_system. destruct (create_ok P bag HP q0 Hq0 ci cg t Ht) as (F0 & E0 & _). rewrite E0. cbn [bind]. destruct (create_shape F0 E0) as (HB0 & L0 & A0 & HI0 & P0).
  destruct (prune_atomic_ok (seq 0 (length (F_factors F0))) true F0 HB0 (seq_NoDup _ _)) as (F1 & b & -> & HB1 & S1 & Hf & Hb).
  - intros i Hi. apply in_seq in Hi. apply HI0. lia.
  - intros i f Hni Hf. destruct Hni. apply in_seq. pose proof (nth_error_Some_lt _ _ _ Hf). lia.
  - cbn [bind]. pose proof (smaller_len _ _ S1) as L1. pose proof (smaller_na _ _ S1) as A1. pose proof (smaller_prod _ _ S1) as P1.
    assert (HW : within_limit F1) by (intros _ i f Hi Hfi; pose proof (nth_error_Some_lt _ _ _ Hfi); lia).
    destruct b; cbn [negb andb].
    + exists true, F1. splits; auto; try lia.
    + destruct no_time; cbn [negb].
      * exists true, F1. splits; auto; try lia.
      * assert (U1 : usable F1) by exact (usable_of true F1 HB1 (Hf eq_refl)). assert (O1 : occupied F1 = repeat true nv) by (rewrite (smaller_occupied _ _ S1); exact (create_occupied F0 E0)). destruct (proj1 Hmerge F1 U1 O1) as (m & Em). rewrite Em. cbn [bind].
        destruct (main_loop_ok (num_active F1) 0 m true F1 (ex_intro _ [] (run_start _ _ _ _ _ _ _ _ U1 O1 Em)) HB1 (Hf eq_refl)) as (e & F & E & HB & (C1 & C2 & C3 & C4 & C5)); auto; try lia. exists e, F. splits; auto.
Qed.

Lemma unsolvable_value e F i f : built e F -> nth_error (F_factors F) i = Some (Some f) -> is_solvable f = Ok false ->
  exists rs, extract_factors P q0 F = Ok rs /\ compute_heuristic rs (t_init t) = Ok None.
Proof.
  intros HB Hf Hs. destruct (inv_of e F HB) as [lab HI]. unfold extract_factors.
  assert (G : forall fs, (forall g, In g fs -> exists k, nth_error (F_factors F) k = Some (Some g)) -> In f fs -> exists g k, first_unsolvable fs = Ok (Some g) /\ nth_error (F_factors F) k = Some (Some g) /\ is_solvable g = Ok false).
  { induction fs as [|g fs IH]; intros Hall Hin; [destruct Hin|]. cbn [first_unsolvable]. destruct (Hall g (or_introl eq_refl)) as [k Hk]. destruct (is_solvable_ok ci cg t (F_labels F) lab g (in_fac _ _ _ _ _ HI k g Hk)) as [b Eb]. rewrite Eb. cbn [bind]. destruct b.
    - apply IH; [intros h Hh; apply Hall; now right|]. destruct Hin as [->|Hin]; [congruence|auto].
    - exists g, k. auto. }
  destruct (G (active_factors F)) as (g & k & -> & Hk & Hg); [intros g Hg; now apply active_In in Hg|apply active_In; eauto|]. cbn [bind].
  pose proof (in_fac _ _ _ _ _ HI k g Hk) as HF. destruct (extract_ok P bag HP q0 Hq0 ci cg t (F_labels F) lab g HF) as (r & d & -> & Hd & Hv). cbn [bind]. exists [r]. split; [reflexivity|].
  destruct (abs_total ci cg t (F_labels F) lab g (t_init t) HF (init_state t Ht)) as (x & Hx & Bx). unfold compute_heuristic. cbn [fold_outcome]. rewrite (Hv _ x (init_state t Ht) Hx). cbn [bind].
  destruct x as [x|]; [|reflexivity]. pose proof (fi_init _ _ _ _ _ _ HF _ Hx) as Hini. destruct (nth x d None) as [c|] eqn:Ec; [|reflexivity]. exfalso.
  assert (Hsv : solv cg (F_labels F) g).
  { exists x. split; auto. intros _. pose proof (proj2 Hd x (Bx x eq_refl)) as Hl. rewrite Ec in Hl. destruct Hl as [(q & Q1 & Q2) _]. exists q, c. auto. }
  apply (solv_is e F k g HB Hk) in Hsv. congruence.
Qed.
End RUNS.

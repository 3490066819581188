(** Epsilon-greedy list as a whole, and what random draws can achieve. *)
From Coq Require Import Permutation Sorted.
From Verif Require Import Outcome Spec_OpenList Model_OpenList Spec_OpenListContract Spec_RandomOpenList Proof_OpenList
  Model_Rng Model_OpenList2 Proof_OpenList2 Proof_OpenList3.
From Verif Require Import Model_Heap Proof_Heap.

Section EGlist.
Variables (E : Type) (reliable : nat -> bool) (ev : nat) (pref_only : bool).
Notation L r coin := (epsilon_greedy E r coin reliable ev pref_only).
Notation key := (bf_key ev pref_only).
Lemma egl_nil k : egR {| eg_heap := []; eg_size := 0; eg_next := 0; eg_rng := k |} ([] : list (nat * E)).
Proof.
  constructor; cbn [eg_heap eg_size eg_next]; auto.
  - exists []. splits; auto; [constructor|intros p []].
  - intros i Hi x y Hx Hy. destruct i; discriminate.
Qed.
Lemma egl_insert r coin q l x e : egR q l -> exists q', ol_insert (L r coin) q x e = Ok q' /\ egR q' (match key x with Some k => l ++ [(k, e)] | None => l end).
Proof.
  intros HR. unfold ol_insert, bf_key. cbn [ol_only_pref epsilon_greedy ol_dead ol_do_insertion]. destruct (pref_only && negb (x_pref x)); [eauto|]. unfold is_infinite. destruct (x_val x ev) as [h|] eqn:Ex; [|eauto]. now apply eg_insert_R.
Qed.
Lemma egl_empty r coin (q : eg_state E) l : egR q l -> (ol_empty (L r coin) q = true <-> l = []).
Proof. intros HR. cbn [ol_empty epsilon_greedy]. rewrite (eg_sz _ _ HR), Nat.eqb_eq. destruct l; cbn; split; congruence. Qed.
Lemma egl_remove_nil r coin (q : eg_state E) : egR q [] -> ol_remove_min (L r coin) q = UB.
Proof. intros HR. cbn [ol_remove_min epsilon_greedy]. unfold eg_remove. now rewrite (eg_sz _ _ HR). Qed.
Lemma egl_clear r coin (q : eg_state E) (l : list (nat * E)) : egR q l -> egR (ol_clear (L r coin) q) [].
Proof. intros _. apply egl_nil. Qed.
Lemma stable_any {K} (lt : K -> K -> Prop) (l : list (K * E)) k e l' : stable_min lt l k e l' -> any_pick l k e l'.
Proof. intros (l1 & l2 & H1 & H2 & _). exists l1, l2. auto. Qed.
Lemma egl_remove_any r coin (q : eg_state E) l : egR q l -> l <> [] ->
  exists k e q' l', ol_remove_min (L r coin) q = Ok (e, q') /\ any_pick l k e l' /\ egR q' l' /\ (coin (eg_rng E q) = false -> stable_min lt l k e l').
Proof.
  intros HR Hl. destruct (coin (eg_rng E q)) eqn:Ec.
  - destruct (eg_promote r coin q l HR Hl Ec) as (n & k & l1 & l2 & q' & _ & Hr & El & HR' & _). exists k, (hn_entry E n), q', (l1 ++ l2). splits; auto; [exists l1, l2; auto|discriminate].
  - destruct (eg_remove_min r coin q l HR Hl Ec) as (k & e & q' & l' & H1 & H2 & H3). exists k, e, q', l'. splits; auto. eapply stable_any; eauto.
Qed.
Lemma egl_run r coin ops outs q : ol_run (L r coin) (ol_init (L r coin)) ops = Ok (outs, q) -> exists l, rq_history any_pick key [] ops outs l /\ egR q l.
Proof.
  intros H. pose proof (run_history (L r coin) egR any_pick key (egl_insert r coin)) as Hh.
  assert (Hr : forall (q0 : eg_state E) l, egR q0 l -> l <> [] -> exists k e q' l', ol_remove_min (L r coin) q0 = Ok (e, q') /\ any_pick l k e l' /\ egR q' l').
  { intros q0 l HR Hl. destruct (egl_remove_any r coin q0 l HR Hl) as (k & e & q' & l' & A & B & C & _). eauto 8. }
  specialize (Hh Hr (egl_remove_nil r coin) (egl_clear r coin) ops _ _ (egl_nil 0)). cbn [ol_init epsilon_greedy] in H. rewrite H in Hh. exact Hh.
Qed.
Lemma egl_behaves r coin : behaves_like (L r coin) any_pick key.
Proof.
  apply (run_behaves (L r coin) egR); auto using egl_insert, egl_remove_nil, egl_empty. - apply egl_nil. - intros q l HR Hl. destruct (egl_remove_any r coin q l HR Hl) as (k & e & q' & l' & A & B & C & _). eauto 8. - apply egl_clear.
Qed.
Lemma egl_behaves_min r coin : (forall i, coin i = false) -> behaves_like (L r coin) (stable_min lt) key.
Proof.
  intros Hc. apply (run_behaves (L r coin) egR); auto using egl_insert, egl_remove_nil, egl_empty. - apply egl_nil. - intros q l HR Hl. destruct (egl_remove_any r coin q l HR Hl) as (k & e & q' & l' & A & _ & C & D). exists k, e, q', l'. auto. - apply egl_clear.
Qed.
Definition eg_ents (q : eg_state E) : list E := map (hn_entry E) (eg_heap E q).
Lemma egl_ents (q : eg_state E) l : egR q l -> Permutation (eg_ents q) (map snd l).
Proof.
  intros [(N & -> & _ & _ & Hp) _ _]. unfold eg_ents. eapply Permutation_trans; [apply Permutation_map; exact Hp|]. rewrite !map_map. apply Permutation_refl.
Qed.
Lemma egl_contract r coin : ol_contract (L r coin) (fun q => exists l, egR q l) eg_ents.
Proof.
  apply (run_contract (L r coin) egR any_pick key); auto using egl_insert, egl_empty, egl_ents.
  - apply egl_nil.
  - intros q l HR Hl. destruct (egl_remove_any r coin q l HR Hl) as (k & e & q' & l' & A & B & C & _). eauto 8.
  - apply egl_clear.
  - apply any_pick_perm.
  - intros x H. cbn [ol_dead epsilon_greedy] in H. apply is_infinite_true in H. eauto.
  - intros x H. cbn [ol_rel_dead epsilon_greedy] in H. apply andb_true_iff in H as [H _]. apply is_infinite_true in H. eauto.
Qed.
Lemma egl_accepting r coin : pref_only = false -> ol_accepting (L r coin) (fun q => exists l, egR q l) eg_ents.
Proof. intros Hp. apply (run_accepting (L r coin) egR key); auto using egl_insert, egl_ents. intros x Hx. unfold bf_key. rewrite Hp. cbn [andb]. auto. Qed.
(** Promotion reaches the node at any drawn position, hence every entry. *)
Lemma egl_promote_all (q : eg_state E) l k e : egR q l -> In (k, e) l ->
  exists r q' l', ol_remove_min (L r (fun _ => true)) q = Ok (e, q') /\ any_pick l k e l' /\ egR q' l'.
Proof.
  intros HR Hin. pose proof HR as [(N & El & Hs & Hn & Hp) Hh Hz].
  assert (HinN : exists i, In (i, (k, e)) N) by (rewrite El in Hin; apply in_map_iff in Hin as ([i p] & Ep & HiN); cbn [snd] in Ep; subst p; eauto). destruct HinN as (i & HiN).
  assert (Hh' : In (to_node (i, (k, e))) (eg_heap E q)) by (eapply Permutation_in; [apply Permutation_sym; exact Hp|]; now apply in_map). apply In_nth_error in Hh' as (pos & Hpos).
  assert (Hl : l <> []) by (intros ->; destruct Hin). assert (Hsz : pos < eg_size E q).
  { rewrite Hz, El, map_length. apply nth_error_Some_lt in Hpos. apply Permutation_length in Hp. rewrite map_length in Hp. lia. }
  destruct (eg_promote (fun _ => pos) (fun _ => true) q l HR Hl eq_refl) as (n & k' & l1 & l2 & q' & Hnth & Hr & El' & HR' & (i' & _ & Hnode)).
  rewrite Nat.mod_small in Hnth by auto. rewrite Hpos in Hnth. inversion Hnth; subst n. cbn [to_node hn_entry fst snd] in *.
  assert (k' = k) by (inversion Hnode; lia). subst k'. exists (fun _ => pos), q', (l1 ++ l2). splits; auto. exists l1, l2. auto.
Qed.
End EGlist.

(* ---------- type-based: two independent draws ---------- *)
Section TBdraws.
Context {E : Type}.
Lemma tb_two_draws (q : tb_state E) l : tbR q l -> exists ks ents, NoDup ks /\ (forall k, In k ks -> ents k <> []) /\
  Permutation l (flat_map (fun k => map (pair k) (ents k)) ks) /\
  (l <> [] -> forall r, exists k e q' l', nth_error ks (r (tb_rng E q) mod length ks) = Some k /\ nth_error (ents k) (r (S (tb_rng E q)) mod length (ents k)) = Some e /\
     tb_remove E r q = Ok (e, q') /\ any_pick l k e l' /\ tbR q' l').
Proof.
  intros HR. pose proof HR as [H1 H2 H3 H4]. set (ents := fun k => match hm_find (tb_kb E q) k with Some b => b | None => [] end).
  assert (He : forall k b, In (k, b) (tb_kb E q) -> ents k = b) by (intros k b Hin; unfold ents; now rewrite (hm_in_find _ _ _ H1 Hin)).
  exists (map fst (tb_kb E q)), ents. splits; auto.
  - intros k Hk. apply in_map_iff in Hk as ([k' b] & <- & Hin). cbn [fst]. rewrite (He _ _ Hin). exact (H2 _ Hin).
  - eapply Permutation_trans; [exact H4|]. unfold pairs. rewrite !flat_map_concat_map, map_map. erewrite map_ext_in; [apply Permutation_refl|]. intros [k b] Hin. cbn [fst snd]. now rewrite (He _ _ Hin).
  - intros Hl r. destruct (tb_remove_R r q l HR Hl) as (k & b & e & q' & A & B & C & D). rewrite map_length.
    assert (Hin : In (k, e) l).
    { eapply Permutation_in; [apply Permutation_sym; exact H4|]. unfold pairs. apply in_flat_map. exists (k, b). split; [eapply nth_error_In; eauto|]. cbn [fst snd]. apply in_map. eapply nth_error_In; eauto. }
    apply in_split in Hin as (l1 & l2 & El). exists k, e, q', (l1 ++ l2). rewrite (He k b) by (eapply nth_error_In; eauto). splits; auto.
    + now rewrite (map_nth_error fst _ _ A).
    + exists l1, l2. auto.
    + apply D. rewrite El. apply Permutation_sym, Permutation_middle.
Qed.
Lemma tb_reach_all (q : tb_state E) l k e : tbR q l -> In (k, e) l -> exists r q' l', tb_remove E r q = Ok (e, q') /\ any_pick l k e l'.
Proof.
  intros HR Hin. destruct (tb_two_draws q l HR) as (ks & ents & Hn & He & Hp & Hd). assert (Hl : l <> []) by (intros ->; destruct Hin).
  pose proof (Permutation_in _ Hp Hin) as Hin'. apply in_flat_map in Hin' as (k' & Hk & Hm). apply in_map_iff in Hm as (e' & Eq & He'). inversion Eq; subst k' e'.
  apply In_nth_error in Hk as (i & Hi). apply In_nth_error in He' as (j & Hj). pose proof (nth_error_Some_lt _ _ _ Hi). pose proof (nth_error_Some_lt _ _ _ Hj).
  destruct (Hd Hl (fun n => if n =? tb_rng E q then i else j)) as (k' & e' & q' & l' & A & B & C & D & _).
  rewrite Nat.eqb_refl, Nat.mod_small in A by auto. rewrite Hi in A. inversion A; subst k'. replace (S (tb_rng E q) =? tb_rng E q) with false in B by (symmetry; apply Nat.eqb_neq; lia). rewrite Nat.mod_small in B by auto. rewrite Hj in B. inversion B; subst e'. eauto.
Qed.
End TBdraws.
Section TBrun.
Variables (E : Type) (reliable : nat -> bool) (evs : list nat).
Lemma tbl_run r ops outs q : ol_run (type_based E r reliable evs) (ol_init (type_based E r reliable evs)) ops = Ok (outs, q) -> exists l, rq_history any_pick (vec_key reliable evs false) [] ops outs l /\ tbR q l.
Proof.
  intros H. pose proof (run_history (type_based E r reliable evs) tbR any_pick (vec_key reliable evs false) (tbl_insert E r reliable evs) (fun q l => tb_any r q l) (tbl_remove_nil E r reliable evs) (tbl_clear E r reliable evs) ops _ _ (tbl_init E r reliable evs)) as Hh. rewrite H in Hh. exact Hh.
Qed.
End TBrun.

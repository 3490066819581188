(** Proofs about operator-counting constraints, part 7: delete relaxation after Rankooh and Rintanen. *)
From Coq Require Import QArith Lqa Permutation.
From Verif Require Import Outcome Spec_Task Spec_Relaxation Spec_Projection Spec_LP Spec_OperatorCounting Model_LPSolver Model_LMCut Model_PQ Model_OperatorCounting
  Proof_Task Proof_PerState2 Proof_OC1 Proof_OC2 Proof_OC4 Proof_OC5 Proof_OC6.
Local Open Scope nat_scope.

Lemma upd_map {A B} (l : list A) (row row' : A -> B) i a : NoDup l -> nth_error l i = Some a -> (forall b, In b l -> b <> a -> row' b = row b) ->
  upd (map row l) i (row' a) = map row' l.
Proof.
  intros Hn Ha H. apply nth_error_ext. intros j. rewrite upd_nth, map_length, !nth_error_map. destruct (Nat.eqb_spec i j) as [<-|Hne].
  - assert (Hlt : i <? length l = true) by (apply Nat.ltb_lt; eapply nth_error_Some_lt; eauto). now rewrite Hlt, Ha.
  - cbn [andb]. destruct (nth_error l j) as [b|] eqn:Ej; [|reflexivity]. cbn [option_map]. f_equal. symmetry. apply H; [eapply nth_error_In; eauto|]. intros ->. apply Hne. eapply NoDup_nth_error; eauto; [eapply nth_error_Some_lt; eauto|congruence].
Qed.
Lemma pair_eqb_eq a b : pair_eqb a b = true <-> a = b.
Proof. unfold pair_eqb. rewrite andb_true_iff, !feqb_eq. destruct a, b; cbn [fst snd]. split; [intros [-> ->]; auto|intros E; inv E; auto]. Qed.
Lemma pos_of_none {A} (eqb : A -> A -> bool) (Heq : forall a b, eqb a b = true <-> a = b) a l : ~ In a l -> pos_of eqb a l = None.
Proof. induction l as [|b r IH]; intros H; cbn [pos_of]; auto. destruct (eqb a b) eqn:E; [exfalso; apply Heq in E; subst; apply H; now left|]. rewrite IH; auto. intros Hi. apply H. now right. Qed.
Lemma pos_of_last {A} (eqb : A -> A -> bool) (Heq : forall a b, eqb a b = true <-> a = b) a l : ~ In a l -> pos_of eqb a (l ++ [a]) = Some (length l).
Proof.
  induction l as [|b r IH]; intros H; cbn [pos_of app length].
  - now rewrite (proj2 (Heq a a) eq_refl).
  - destruct (eqb a b) eqn:E; [exfalso; apply Heq in E; subst; apply H; now left|]. rewrite IH; auto. intros Hi. apply H. now right.
Qed.
Lemma pos_of_other {A} (eqb : A -> A -> bool) (Heq : forall a b, eqb a b = true <-> a = b) a b l : a <> b -> pos_of eqb a (l ++ [b]) = pos_of eqb a l.
Proof.
  intros Hne. induction l as [|c r IH]; cbn [pos_of app].
  - destruct (eqb a b) eqn:E; auto. apply Heq in E. congruence.
  - now rewrite IH.
Qed.
Lemma length_all_facts t : length (all_facts t) = list_sum (map vdom (t_vars t)).
Proof.
  unfold all_facts, numbered. generalize (t_vars t) as vs. assert (G : forall vs k, length (concat (map (fun ix : nat * variable => map (pair (fst ix)) (seq 0 (vdom (snd ix)))) (combine (seq k (length vs)) vs))) = list_sum (map vdom vs)); [|intros vs; apply G].
  induction vs as [|x r IH]; intros k; cbn [length seq combine map concat fst snd]; auto. rewrite app_length, map_length, seq_length, IH. reflexivity.
Qed.
Lemma filter_fst_nodup (l : list (nat * fact * fact)) (e f : fact) : NoDup l -> NoDup (map (fun y : nat * fact * fact => fst (fst y)) (filter (fun y : nat * fact * fact => feqb (snd (fst y)) e && feqb (snd y) f) l)).
Proof.
  intros Hn. assert (Hn' := NoDup_filter (fun y : nat * fact * fact => feqb (snd (fst y)) e && feqb (snd y) f) Hn).
  assert (Hs : forall y, In y (filter (fun y : nat * fact * fact => feqb (snd (fst y)) e && feqb (snd y) f) l) -> y = (fst (fst y), e, f)).
  { intros [[o e'] f'] H. apply filter_In in H. destruct H as [_ H]. cbn [fst snd] in H. apply andb_true_iff in H. destruct H as [H1 H2]. apply feqb_eq in H1, H2. cbn [fst]. congruence. }
  revert Hn' Hs. generalize (filter (fun y : nat * fact * fact => feqb (snd (fst y)) e && feqb (snd y) f) l). intros l'. induction l' as [|a r IH]; intros Hn' Hs; cbn [map]; [constructor|]. inv Hn'. constructor; [|apply IH; auto; intros; apply Hs; now right].
  intros Hi. apply in_map_iff in Hi. destruct Hi as (b & E & Hb). apply H1. rewrite (Hs a) by now left. rewrite (Hs b) in Hb by now right. now rewrite <- E.
Qed.
Lemma in_extend {A} (l : list A) a b : In a (l ++ [b]) <-> In a l \/ a = b.
Proof. rewrite in_app_iff. cbn [In]. intuition. Qed.

Section RR.
Variable t : task.
Hypothesis Ht : plain_task t.
Variable (a : acyclicity) (int : bool).
Variables (edges : list (fact * fact)) (delta : list (fact * fact * fact)).
Hypothesis Hve : a = VertexElimination ->
  NoDup edges /\ (forall q p, In (q, p) edges -> is_fact t q /\ is_fact t p /\ q <> p) /\
  (forall o pre eff, In (o, pre, eff) (op_pre_eff t) -> pre <> eff /\ In (pre, eff) edges) /\
  (forall i j k, In (i, j, k) delta -> In (i, j) edges /\ In (j, k) edges /\ In (i, k) edges).

Definition extra_keys : list key := match a with
  | VertexElimination => map (fun e : fact * fact => KEdge (fst e) (snd e)) edges
  | TimeLabels => map KFactTime (all_facts t)
  | NoAcyclicity => [] end.
Definition rr_all_keys : list key := rr_keys t ++ extra_keys.
Definition rr_key (k : key) : Prop := match k with
  | KReached f => is_fact t f
  | KFirst o f => exists op, is_op t o op /\ adds op f = true
  | KFactTime f => a = TimeLabels /\ is_fact t f
  | KEdge q p => a = VertexElimination /\ In (q, p) edges
  | _ => False end.
Lemma in_effs o f : In (o, f) (op_effects t) <-> exists op, is_op t o op /\ adds op f = true.
Proof.
  rewrite in_op_effects. split.
  - intros (op & e & Ho & He & E). exists op. split; auto. apply adds_spec. eauto.
  - intros (op & Ho & Ha). apply adds_spec in Ha. destruct Ha as (e & He & E). eauto 6.
Qed.
Lemma base_keys_in k : In k (rr_keys t) <-> match k with KReached f => is_fact t f | KFirst o f => exists op, is_op t o op /\ adds op f = true | _ => False end.
Proof.
  clear Hve.  unfold rr_keys. rewrite in_app_iff, !in_map_iff. split.
  - intros [(f & <- & Hf)|([o f] & <- & Hf)]; [now apply in_facts|]. cbn [fst snd]. now apply in_effs.
  - destruct k as [o|f|o f|o|f|f g]; try tauto.
    + intros H. left. exists f. split; auto. now apply in_facts.
    + intros H. right. exists (o, f). split; auto. now apply in_effs.
Qed.
Lemma extra_keys_in k : In k extra_keys <-> match k with KFactTime f => a = TimeLabels /\ is_fact t f | KEdge q p => a = VertexElimination /\ In (q, p) edges | _ => False end.
Proof.
  clear Hve. unfold extra_keys. split.
  - case_eq a; intros Ea H; try (destruct H; fail); apply in_map_iff in H; destruct H as (z & <- & Hz).
    + destruct z. auto.
    + split; auto. now apply in_facts.
  - destruct k as [o|f|o f|o|f|q p]; try tauto; intros [-> H].
    + apply in_map_iff. exists f. split; auto. now apply in_facts.
    + apply in_map_iff. exists (q, p). auto.
Qed.
Lemma rr_keys_in k : In k rr_all_keys <-> rr_key k.
Proof. clear Hve. unfold rr_all_keys. rewrite in_app_iff, base_keys_in, extra_keys_in. destruct k; cbn [rr_key]; tauto. Qed.
Lemma rr_keys_nodup : NoDup rr_all_keys.
Proof.
  unfold rr_all_keys. apply nodup_app.
  - unfold rr_keys. apply nodup_app.
    + apply FinFun.Injective_map_NoDup; [intros x y E; now inv E|apply all_facts_nodup].
    + apply FinFun.Injective_map_NoDup; [intros [x1 x2] [y1 y2] E; now inv E|now apply op_effects_nodup].
    + intros k H1 H2. apply in_map_iff in H1, H2. destruct H1 as (x & <- & _), H2 as (y & E & _). discriminate.
  - unfold extra_keys. case_eq a; intros Ea; [| |constructor]; (apply FinFun.Injective_map_NoDup; [|]).
    + intros [x1 x2] [y1 y2] E. now inv E.
    + now destruct (Hve Ea).
    + intros x y E. now inv E.
    + apply all_facts_nodup.
  - intros k H1 H2. apply base_keys_in in H1. apply extra_keys_in in H2. destruct k; tauto.
Qed.

(** The rows, as functions of the numbers of the variables. *)
Variable id : key -> nat.
Definition kcon (lo up : option Q) (kts : list (key * Q)) (ots : list (nat * Q)) : lpcon := con lo up (map (fun kq : key * Q => (id (fst kq), snd kq)) kts ++ ots).
Definition terms2 (f : fact) : list (key * Q) := (KReached f, 1%Q) :: map (fun of : nat * fact => (KFirst (fst of) f, (-1)%Q)) (filter (fun of => feqb (snd of) f) (op_effects t)).
Definition terms3 (done : list (nat * fact * fact)) (k : fact * fact) : list (key * Q) :=
  (KReached (fst k), 1%Q) :: map (fun y : nat * fact * fact => (KFirst (fst (fst y)) (snd k), (-1)%Q)) (filter (fun y : nat * fact * fact => feqb (snd (fst y)) (snd k) && feqb (snd y) (fst k)) done).
Definition row3 done k := kcon (Some 0%Q) (Some 1%Q) (terms3 done k) [].
Definition pairs3 (done : list (nat * fact * fact)) (ks : list (fact * fact)) : Prop :=
  NoDup ks /\ forall pre eff, In (pre, eff) ks <-> pre <> eff /\ exists o, In (o, eff, pre) done.
Definition rows5 : list lpcon := map (fun of : nat * fact => kcon (Some 0%Q) None [(KFirst (fst of) (snd of), (-1)%Q)] [(fst of, 1%Q)]) (op_effects t).
Definition extra_rows : list lpcon := match a with
  | NoAcyclicity => []
  | TimeLabels => map (fun x : nat * fact * fact => kcon None (Some (qn (length (all_facts t)) - 1)%Q)
       [(KFactTime (snd (fst x)), 1%Q); (KFactTime (snd x), (-1)%Q); (KFirst (fst (fst x)) (snd x), qn (length (all_facts t)))] [])
       (filter (fun x : nat * fact * fact => negb (feqb (snd (fst x)) (snd x))) (op_pre_eff t))
  | VertexElimination =>
      map (fun x : nat * fact * fact => kcon (Some 0%Q) None [(KEdge (snd (fst x)) (snd x), 1%Q); (KFirst (fst (fst x)) (snd x), (-1)%Q)] []) (op_pre_eff t) ++
      map (fun e : fact * fact => kcon None (Some 1%Q) [(KEdge (fst e) (snd e), 1%Q); (KEdge (snd e) (fst e), 1%Q)] []) (filter (fun e : fact * fact => existsb (pair_eqb (snd e, fst e)) edges) edges) ++
      map (fun d : fact * fact * fact => kcon None (Some 1%Q) [(KEdge (fst (fst d)) (snd (fst d)), 1%Q); (KEdge (snd (fst d)) (snd d), 1%Q); (KEdge (fst (fst d)) (snd d), (-1)%Q)] []) delta
  end.
Definition rr_rows (lo : fact -> Q) (ks : list (fact * fact)) : list lpcon :=
  map (fun f => kcon (Some (lo f)) (Some (lo f)) (terms2 f) []) (all_facts t) ++ (map (row3 (op_eff_pre t)) ks ++ rows5) ++ extra_rows.

Section Build.
Variable tb : table.
Hypothesis Htb : tb_keys tb = rr_keys t.
Hypothesis Hid : forall k, In k (rr_keys t) -> idx tb k = id k.
Lemma idb k : match k with KReached f => is_fact t f | KFirst o f => exists op, is_op t o op /\ adds op f = true | _ => False end -> id_of tb k = Ok (id k).
Proof. intros H. apply base_keys_in in H. rewrite <- (Hid k H). apply id_of_ok. now rewrite Htb. Qed.
Lemma step3_ok rows0 l : (forall o eff pre, In (o, eff, pre) l -> is_fact t pre /\ exists op, is_op t o op /\ adds op eff = true) ->
  exists ks al, fold_outcome (rr_step3 tb) l (rows0, []) = Ok (rows0 ++ map (row3 l) ks, al) /\ pairs3 l ks.
Proof.
  intros Hl.
  destruct (fold_inv (rr_step3 tb) (fun done x => exists ks, fst x = rows0 ++ map (row3 done) ks /\ pairs3 done ks /\
     forall k, assoc k (snd x) = option_map (fun i => length rows0 + i) (pos_of pair_eqb k ks)) l (rows0, [])) as ([rows al] & E & ks & E1 & Hp & _).
  - exists []. cbn [fst snd map]. rewrite app_nil_r. splits; auto. split; [constructor|]. intros pre eff. split; [intros []|intros (_ & o & [])].
  - intros done [[o eff] pre] post [rows al] El (ks & Er & [Hn Hk] & Ha). cbn [fst snd] in Er, Ha. subst rows. destruct (Hl o eff pre) as [Hpre Heff]; [rewrite El; apply in_or_app; right; now left|].
    unfold rr_step3. destruct (feqb pre eff) eqn:Epe.
    + apply feqb_eq in Epe. subst eff. eexists. split; [reflexivity|]. exists ks. cbn [fst snd]. splits; auto.
      * f_equal. apply map_ext_in. intros [p q] Hi. unfold row3, terms3. rewrite filter_app. cbn [filter fst snd]. destruct (feqb pre q && feqb pre p) eqn:Eb; [|now rewrite app_nil_r].
        exfalso. apply andb_true_iff in Eb. destruct Eb as [E1 E2]. apply feqb_eq in E1, E2. apply Hk in Hi. destruct Hi as [Hne _]. congruence.
      * split; auto. intros p q. rewrite Hk. split; intros [Hne (o' & Hi)]; split; auto; exists o'; [apply in_extend; auto|]. apply in_extend in Hi. destruct Hi as [Hi|Hi]; [auto|inv Hi; congruence].
    + assert (Hne : pre <> eff) by (intros ->; rewrite feqb_refl in Epe; discriminate).
      assert (Hmid : exists ks' al', NoDup ks' /\ (forall k, In k ks' <-> In k ks \/ k = (pre, eff)) /\ (forall k, assoc k al' = option_map (fun i => length rows0 + i) (pos_of pair_eqb k ks')) /\
         (let* x := match assoc (pre, eff) al with Some _ => Ok (rows0 ++ map (row3 done) ks, al) | None => let* r := id_of tb (KReached pre) in
            Ok ((rows0 ++ map (row3 done) ks) ++ [con (Some 0%Q) (Some 1%Q) [(r, 1%Q)]], ((pre, eff), length (rows0 ++ map (row3 done) ks)) :: al) end in Ok x) = Ok (rows0 ++ map (row3 done) ks', al')).
      { rewrite Ha. destruct (in_dec (fun x y : fact * fact => ltac:(repeat decide equality) : {x = y} + {x <> y}) (pre, eff) ks) as [Hi|Hi].
        - destruct (pos_of_in pair_eqb pair_eqb_eq _ _ Hi) as [i Ei]. rewrite Ei. cbn [option_map bind]. exists ks, al. splits; auto. intros k. split; [auto|intros [H| ->]; auto].
        - rewrite (pos_of_none pair_eqb pair_eqb_eq _ _ Hi). cbn [option_map]. rewrite (idb (KReached pre)) by exact Hpre. cbn [bind]. exists (ks ++ [(pre, eff)]), (((pre, eff), length (rows0 ++ map (row3 done) ks)) :: al). splits.
          + apply (Permutation_NoDup (Permutation_cons_append ks (pre, eff))). constructor; auto.
          + intros k. apply in_extend.
          + intros k. cbn [assoc]. destruct (pair_eqb k (pre, eff)) eqn:Ek.
            * apply pair_eqb_eq in Ek. subst k. rewrite (pos_of_last pair_eqb pair_eqb_eq _ _ Hi). cbn [option_map]. now rewrite app_length, map_length.
            * rewrite (pos_of_other pair_eqb pair_eqb_eq); [apply Ha|]. intros ->. rewrite (proj2 (pair_eqb_eq _ _) eq_refl) in Ek. discriminate.
          + f_equal. f_equal. rewrite map_app, <- app_assoc. f_equal. f_equal. cbn [map]. f_equal. unfold row3, terms3, kcon. cbn [fst snd].
            assert (Ef : filter (fun y : nat * fact * fact => feqb (snd (fst y)) eff && feqb (snd y) pre) done = []).
            { destruct (filter _ done) as [|[[o' e'] f'] r] eqn:Ef; auto. exfalso. assert (H : In (o', e', f') ((o', e', f') :: r)) by now left. rewrite <- Ef in H. apply filter_In in H. destruct H as [H1 H2]. cbn [fst snd] in H2.
              apply andb_true_iff in H2. destruct H2 as [H2 H3]. apply feqb_eq in H2, H3. subst. apply Hi, Hk. eauto. }
            rewrite Ef. reflexivity. }
      destruct Hmid as (ks' & al' & Hn' & Hk' & Ha' & Em). cbn [fst snd].
      assert (Em' : match assoc (pre, eff) al with Some _ => Ok (rows0 ++ map (row3 done) ks, al) | None => let* r := id_of tb (KReached pre) in
            Ok ((rows0 ++ map (row3 done) ks) ++ [con (Some 0%Q) (Some 1%Q) [(r, 1%Q)]], ((pre, eff), length (rows0 ++ map (row3 done) ks)) :: al) end = Ok (rows0 ++ map (row3 done) ks', al')).
      { destruct (match assoc (pre, eff) al with Some _ => _ | None => _ end); cbn [bind] in Em; congruence. }
      rewrite Em'. cbn [bind fst snd]. clear Em Em'.
      assert (Hi : In (pre, eff) ks') by (apply Hk'; auto). destruct (pos_of_in pair_eqb pair_eqb_eq _ _ Hi) as [i Ei]. rewrite Ha', Ei. cbn [option_map]. apply (pos_of_some pair_eqb pair_eqb_eq) in Ei.
      rewrite (idb (KFirst o eff)) by exact Heff. cbn [bind].
      assert (Hm : nth_error (map (row3 done) ks') i = Some (row3 done (pre, eff))) by now apply map_nth_error.
      pose proof (vget_app_mid rows0 (map (row3 done) ks') [] i _ Hm) as V. rewrite app_nil_r in V. rewrite V. cbn [bind].
      rewrite (proj2 (vset_ok _ _ _ _) (conj (ltac:(rewrite app_length, map_length; apply nth_error_Some_lt in Ei; lia) : length rows0 + i < length (rows0 ++ map (row3 done) ks')) eq_refl)). cbn [bind].
      eexists. split; [reflexivity|]. exists ks'. cbn [fst snd]. splits; auto.
      * pose proof (upd_app_mid rows0 (map (row3 done) ks') [] i) as U. rewrite !app_nil_r in U. rewrite U by (rewrite map_length; eapply nth_error_Some_lt; eauto). rewrite app_nil_r. f_equal.
        rewrite <- (upd_map ks' (row3 done) (row3 (done ++ [(o, eff, pre)])) i (pre, eff) Hn' Ei).
        -- f_equal. unfold row3, terms3, kcon, insert. rewrite filter_app. cbn [filter fst snd con c_lo c_up c_terms]. rewrite !feqb_refl. cbn [andb]. rewrite !app_nil_r. cbn [map fst snd]. rewrite !map_app. cbn [map fst snd]. reflexivity.
        -- intros [p q] _ Hpq. unfold row3, terms3. rewrite filter_app. cbn [filter fst snd]. destruct (feqb eff q && feqb pre p) eqn:Eb; [|now rewrite app_nil_r].
           exfalso. apply andb_true_iff in Eb. destruct Eb as [E1 E2]. apply feqb_eq in E1, E2. congruence.
      * split; auto. intros p q. rewrite Hk', Hk. split.
        -- intros [[H (o' & Ho')]|H]; [split; auto; exists o'; apply in_extend; auto|]. inv H. split; auto. exists o. apply in_extend. auto.
        -- intros [H (o' & Ho')]. apply in_extend in Ho'. destruct Ho' as [Ho'|Ho']; [left; eauto|]. inv Ho'. auto.
  - exists ks, al. cbn [fst] in E1. subst rows. auto.
Qed.
Lemma rr_constraints_ok rows : exists ks, pairs3 (op_eff_pre t) ks /\
  rr_constraints t tb rows = Ok (rows ++ map (fun f => kcon (Some 0%Q) (Some 0%Q) (terms2 f) []) (all_facts t) ++ map (row3 (op_eff_pre t)) ks ++ rows5).
Proof.
  unfold rr_constraints. rewrite (omap_ok _ (fun f => con (Some 0%Q) (Some 0%Q) [(id (KReached f), 1%Q)])).
  2: { intros f Hf. rewrite (idb (KReached f)); [reflexivity|]. now apply in_facts. }
  cbn [bind]. rewrite (insert_fold t tb (-1)%Q (Some 0%Q) (Some 0%Q) (fun f => [(id (KReached f), 1%Q)]) rows (op_effects t)).
  2: { intros [o f] Hi. cbn [fst snd]. pose proof (eff_in t Ht o f Hi) as [_ Hf]. split; auto. rewrite Htb. apply (base_keys_in (KFirst o f)). now apply in_effs. }
  cbn [bind]. destruct (step3_ok (rows ++ map (fun f => con (Some 0%Q) (Some 0%Q) ([(id (KReached f), 1%Q)] ++ map (fun of : nat * fact => (idx tb (KFirst (fst of) f), (-1)%Q)) (filter (fun of => feqb (snd of) f) (op_effects t)))) (all_facts t)) (op_eff_pre t)) as (ks & al & E & Hp).
  { intros o eff pre Hi. apply in_op_eff_pre in Hi. destruct Hi as (op & e & Ho & He & Ee & Hpre). split; [eapply pre_fact; eauto|]. exists op. split; auto. apply adds_spec. eauto. }
  rewrite E. cbn [bind]. rewrite (omap_ok _ (fun of : nat * fact => con (Some 0%Q) None [(id (KFirst (fst of) (snd of)), (-1)%Q); (fst of, 1%Q)])).
  2: { intros [o f] Hi. cbn [fst snd]. rewrite (idb (KFirst o f)); [reflexivity|]. now apply in_effs. }
  cbn [bind fst]. exists ks. split; auto. rewrite <- !app_assoc. f_equal. f_equal. f_equal. apply map_ext. intros f. unfold kcon, terms2. rewrite app_nil_r. cbn [map fst snd app]. f_equal. f_equal. rewrite map_map. cbn [fst snd].
  apply map_ext_in. intros [o g] Hi. cbn [fst]. f_equal. apply Hid. apply filter_In in Hi. destruct Hi as [Hi Eg]. cbn [snd] in Eg. apply feqb_eq in Eg. subst g. apply base_keys_in. now apply in_effs.
Qed.
End Build.

Section Extra.
Variable tb : table.
Hypothesis Htb : tb_keys tb = rr_all_keys.
Hypothesis Hid : forall k, id k = idx tb k.
Lemma idx_all k : rr_key k -> id_of tb k = Ok (id k).
Proof. intros H. rewrite Hid. apply id_of_ok. rewrite Htb. now apply rr_keys_in. Qed.
Lemma pe_in o pre eff : In (o, pre, eff) (op_pre_eff t) -> is_fact t pre /\ is_fact t eff /\ exists op, is_op t o op /\ adds op eff = true /\ In pre (op_pre op).
Proof.
  intros Hi. apply in_op_pre_eff in Hi. destruct Hi as (op & e & Ho & He & Ee & Hpre). splits; [eapply pre_fact; eauto|subst eff; eapply eff_fact_ok; eauto|]. exists op. splits; auto. apply adds_spec. eauto.
Qed.
Lemma ve_constraints_ok : a = VertexElimination -> ve_constraints t tb edges delta = Ok extra_rows.
Proof.
  intros Ea. destruct (Hve Ea) as (V1 & V2 & V3 & V4). unfold ve_constraints.
  rewrite (omap_ok _ (fun x : nat * fact * fact => kcon (Some 0%Q) None [(KEdge (snd (fst x)) (snd x), 1%Q); (KFirst (fst (fst x)) (snd x), (-1)%Q)] [])).
  2: { intros [[o pre] eff] Hi. cbn [fst snd]. rewrite (idx_all (KEdge pre eff)) by (split; auto; eapply V3; eauto). cbn [bind]. apply pe_in in Hi. destruct Hi as (_ & _ & op & Ho & Ha & _). rewrite (idx_all (KFirst o eff)) by (exists op; auto). reflexivity. }
  cbn [bind]. rewrite (omap_ok _ (fun e : fact * fact => kcon None (Some 1%Q) [(KEdge (fst e) (snd e), 1%Q); (KEdge (snd e) (fst e), 1%Q)] [])).
  2: { intros [q p] Hi. cbn [fst snd]. apply filter_In in Hi. destruct Hi as [Hi Hr]. cbn [fst snd] in Hr. apply existsb_exists in Hr. destruct Hr as (e & He & Ee). apply pair_eqb_eq in Ee. subst e.
       rewrite (idx_all (KEdge q p)) by (split; auto). cbn [bind]. rewrite (idx_all (KEdge p q)) by (split; auto). reflexivity. }
  cbn [bind]. rewrite (omap_ok _ (fun d : fact * fact * fact => kcon None (Some 1%Q) [(KEdge (fst (fst d)) (snd (fst d)), 1%Q); (KEdge (snd (fst d)) (snd d), 1%Q); (KEdge (fst (fst d)) (snd d), (-1)%Q)] [])).
  2: { intros [[i j] k] Hi. cbn [fst snd]. destruct (V4 i j k Hi) as (H1 & H2 & H3). rewrite (idx_all (KEdge i j)) by (split; auto). cbn [bind]. rewrite (idx_all (KEdge j k)) by (split; auto). cbn [bind]. rewrite (idx_all (KEdge i k)) by (split; auto). reflexivity. }
  cbn [bind]. unfold extra_rows. rewrite Ea. reflexivity.
Qed.
Lemma tl_constraints_ok : a = TimeLabels -> tl_constraints t tb = Ok extra_rows.
Proof.
  intros Ea. unfold tl_constraints, extra_rows. rewrite Ea. apply omap_ok. intros [[o pre] eff] Hi. cbn [fst snd]. apply filter_In in Hi. destruct Hi as [Hi _]. apply pe_in in Hi. destruct Hi as (Hp & He & op & Ho & Ha & _).
  rewrite (idx_all (KFactTime pre)) by (split; auto). cbn [bind]. rewrite (idx_all (KFactTime eff)) by (split; auto). cbn [bind]. rewrite (idx_all (KFirst o eff)) by (exists op; auto). reflexivity.
Qed.
End Extra.
End RR.

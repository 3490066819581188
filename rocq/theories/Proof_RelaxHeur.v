(** h^max and h^add are exact; h^max is admissible and consistent. *)
From Coq Require Import Permutation.
From Verif Require Import Outcome Spec_Task Spec_Relaxation Model_Task Proof_Task Model_PQ Model_Relaxation
  Proof_Dijkstra Proof_Relaxation.

Lemma NoDup_map_in {A B} (f : A -> B) l : NoDup l ->
  (forall x y, In x l -> In y l -> f x = f y -> x = y) -> NoDup (map f l).
Proof.
  induction 1 as [|a r Ha Hr IH]; intros Hinj; cbn; constructor.
  - intros Hin. apply in_map_iff in Hin. destruct Hin as (b & Hb & Hbr). assert (b = a) by (apply Hinj; [now right|now left|auto]). now subst.
  - apply IH. intros; apply Hinj; auto; now right.
Qed.

Lemma F2_impl {A B} (P Q : A -> B -> Prop) l1 l2 : (forall a b, P a b -> Q a b) -> Forall2 P l1 l2 -> Forall2 Q l1 l2.
Proof. intros Hi HF. induction HF; constructor; auto. Qed.

Lemma unary_of_ops_in t ops : forall o u, In u (unary_of_ops t o ops) <->
  exists i op e, nth_error ops i = Some op /\ In e (op_effs op) /\
    u = {| u_pre := sort_unique (map (prop_id t) (op_pre op) ++ map (prop_id t) (eff_cond e));
           u_eff := prop_id t (eff_fact e); u_cost := op_cost op; u_no := Some (o + i) |}.
Proof.
  induction ops as [|op r IH]; intros o u; cbn [unary_of_ops].
  - split; [intros []|]. intros ([|i] & op & e & Hn & _); discriminate.
  - rewrite in_app_iff, IH. unfold unary_of_op. rewrite in_map_iff. split.
    + intros [(e & <- & He)|(i & op' & e & Hn & He & ->)].
      * exists 0, op, e. rewrite Nat.add_0_r. auto.
      * exists (S i), op', e. rewrite Nat.add_succ_r. auto.
    + intros ([|i] & op' & e & Hn & He & ->); cbn in Hn.
      * left. inversion Hn; subst. exists e. rewrite Nat.add_0_r. auto.
      * right. exists i, op', e. rewrite Nat.add_succ_r. auto.
Qed.

Section CORR.
Variable M : rmode.
Variable ok : nat -> Prop.
Hypothesis HM : mode_ok M ok.
Variable comb : list nat -> nat.
Variable R : nat -> nat.
Hypothesis HR : forall b cs, ok b -> uval M b (map R cs) = R (b + comb cs).
Hypothesis HR0 : R 0 = 0.
Hypothesis HRm : forall a b, a <= b -> R a <= R b.
Hypothesis HRok : forall a, ok (R a).
Hypothesis HZ : forall b, ok b -> m_acc M b b 0 = b.

Variable t : task.
Hypothesis Ht : relax_ok t.
Hypothesis Hcost : forall op, In op (t_ops t) -> ok (op_cost op).
Variable s : state.
Hypothesis Hs : state_ok t s.

Notation us := (unary_ops t).
Notation I := (state_props t s).
Notation rc := (rcost comb t s).

Lemma ops_ok_unary : ops_ok ok us.
Proof.
  intros u Hu. apply in_app_iff in Hu. destruct Hu as [Hu|Hu].
  - apply unary_of_ops_in in Hu. destruct Hu as (i & op & e & Hn & He & ->). cbn. split; [apply sort_unique_nodup|].
    apply Hcost. now apply nth_error_In with i.
  - apply in_map_iff in Hu. destruct Hu as (r & <- & Hr). cbn [u_pre u_cost unary_of_rule]. split; [apply sort_unique_nodup|]. apply (mo_ok0 _ _ HM).
Qed.

Lemma state_prop_in f : In (prop_id t f) (map (prop_id t) (state_facts s 0)) -> fact_ok t f -> holds s f.
Proof.
  intros Hin Hf. apply in_map_iff in Hin. destruct Hin as (g & Hg & Hin). apply state_facts_holds in Hin.
  assert (g = f) by (apply (prop_id_inj t); auto; now apply (holds_ok t s)). now subst.
Qed.
Lemma holds_prop_in f : holds s f -> In (prop_id t f) I.
Proof. intros Hh. unfold state_props. apply in_map. now apply state_facts_holds. Qed.

Lemma der_of_pre u fs xs (k : fact -> nat) : In u us -> NoDup fs -> Forall (fact_ok t) fs ->
  NoDup xs -> (forall x, In x xs -> In x I) -> (length xs <= 1) -> (forall x g, In x xs -> In g fs -> x <> prop_id t g) ->
  (forall q, In q (u_pre u) <-> In q xs \/ exists g, In g fs /\ q = prop_id t g) ->
  (forall g, In g fs -> exists c, der M us I (prop_id t g) c /\ c <= R (k g)) ->
  exists c, der M us I (u_eff u) c /\ c <= R (u_cost u + comb (map k fs)).
Proof.
  intros Hu Hnd Hfs Hxs HxI Hxl Hdis Hpre Hk.
  destruct (ops_ok_unary u Hu) as [Hun Huc].
  assert (Hinj : forall x y, In x fs -> In y fs -> prop_id t x = prop_id t y -> x = y).
  { intros x y Hx Hy. rewrite Forall_forall in Hfs. apply prop_id_inj; auto. }
  destruct (list_choice Nat.eq_dec (fun q c => der M us I q c /\ forall g, In g fs -> prop_id t g = q -> c <= R (k g))
              (map (prop_id t) fs)) as [kp Hkp].
  { intros q Hq. apply in_map_iff in Hq. destruct Hq as (g & <- & Hg). destruct (Hk g Hg) as (c & Hc & Hle).
    exists c. split; auto. intros g' Hg' He. rewrite (Hinj g' g Hg' Hg He). auto. }
  set (kk := fun q => if inb xs q then 0 else kp q).
  assert (Hperm : Permutation (u_pre u) (xs ++ map (prop_id t) fs)).
  { apply NoDup_Permutation; auto.
    - assert (Hm : NoDup (map (prop_id t) fs)) by (now apply NoDup_map_in).
      destruct xs as [|x [|y l]]; cbn in *; auto; [|lia]. constructor; auto.
      intros Hin. apply in_map_iff in Hin. destruct Hin as (g & Hg & Hgf). apply (Hdis x g); auto.
    - intros q. rewrite Hpre, in_app_iff, in_map_iff. split; intros [Hq|(g & H1 & H2)]; eauto. }
  exists (uval M (u_cost u) (map kk (u_pre u))). split.
  - apply der_op; auto. intros q Hq. apply Hpre in Hq. unfold kk. destruct (inb xs q) eqn:E.
    + apply der_init. apply HxI. now apply inb_spec.
    + apply inb_false in E. destruct Hq as [Hq|(g & Hg & ->)]; [contradiction|]. apply Hkp. now apply in_map.
  - rewrite (uval_perm M ok HM _ _ _ (Permutation_map kk Hperm)), map_app.
    assert (E0 : uval M (u_cost u) (map kk xs ++ map kk (map (prop_id t) fs)) = uval M (u_cost u) (map kk (map (prop_id t) fs))).
    { destruct xs as [|x [|y l]]; cbn [map app length] in *; auto; [|lia]. unfold uval. cbn [fold_left].
      replace (kk x) with 0; [now rewrite HZ|]. unfold kk. now rewrite (proj2 (inb_spec [x] x)) by now left. }
    rewrite E0, <- HR by auto. rewrite !map_map. apply (uval_mono M ok HM); auto.
    apply F2_map. intros g Hg. unfold kk. destruct (inb xs (prop_id t g)); [lia|]. apply (Hkp (prop_id t g)); auto. now apply in_map.
Qed.

Lemma rcost_der f c : rc f c -> fact_ok t f /\ exists c', der M us I (prop_id t f) c' /\ c' <= R c.
Proof.
  destruct Ht as (Hops & Hrules & _).
  induction 1 as [f Hh|pre f c fs k Hop Hnd Hfs Hk IH].
  - split; [now apply (holds_ok t s)|]. exists 0. split; [|lia]. apply der_init. now apply holds_prop_in.
  - assert (Hfok : Forall (fact_ok t) fs) by (apply Forall_forall; intros g Hg; now apply IH).
    inversion Hop as [op e Hin He|r Hr]; subst.
    + destruct (Hops op Hin) as [Hp1 Hp2]. destruct (Hp2 e He) as [Hc1 Hc2]. split; auto.
      apply In_nth_error in Hin. destruct Hin as [i Hi].
      set (u := {| u_pre := sort_unique (map (prop_id t) (op_pre op) ++ map (prop_id t) (eff_cond e));
           u_eff := prop_id t (eff_fact e); u_cost := op_cost op; u_no := Some (0 + i) |}).
      apply (der_of_pre u fs [] k); auto.
      * apply in_or_app. left. apply unary_of_ops_in. exists i, op, e. auto.
      * constructor.
      * intros x [].
      * intros q. cbn [u_pre u In]. rewrite sort_unique_in, <- map_app, in_map_iff. split.
        -- intros (g & <- & Hg). right. exists g. split; auto. now apply Hfs.
        -- intros [[]|(g & Hg & ->)]. exists g. split; auto. now apply Hfs.
      * intros g Hg. apply IH; auto.
    + destruct (Hrules r Hr) as (Hb & Hh & x & Hx & Hdom). split; auto.
      destruct (state_ok_get t s _ x Hs Hx) as (d & Hd & Hlt).
      destruct (Nat.eq_dec d (snd (r_head r))) as [->|Hne].
      { exists 0. split; [|lia]. apply der_init. apply holds_prop_in. now rewrite surjective_pairing with (p := r_head r). }
      set (other := (fst (r_head r), 1 - snd (r_head r))).
      assert (Hhd : snd (r_head r) < 2) by (destruct Hh as (x' & Hx' & Hl); unfold is_var in *; congruence).
      assert (Ho : holds s other) by (unfold other; replace (1 - snd (r_head r)) with d by lia; auto).
      assert (Hin : In (unary_of_rule t r) us) by (apply in_or_app; right; now apply in_map).
      destruct (in_dec fact_dec other (r_body r)) as [Hio|Hio].
      * apply (der_of_pre (unary_of_rule t r) fs [] k); auto.
        -- constructor.
        -- intros y [].
        -- intros q. cbn [u_pre unary_of_rule In]. rewrite sort_unique_in. cbn [In]. fold other. rewrite in_map_iff. split.
           ++ intros [<-|(g & <- & Hg)]; right; [exists other|exists g]; split; auto; now apply Hfs.
           ++ intros [[]|(g & Hg & ->)]. right. exists g. split; auto. now apply Hfs.
        -- intros g Hg. apply IH; auto.
      * apply (der_of_pre (unary_of_rule t r) fs [prop_id t other] k); auto.
        -- constructor; [intros []|constructor].
        -- intros y [<-|[]]. now apply holds_prop_in.
        -- intros y g [<-|[]] Hg He. apply Hio. apply Hfs. replace other with g; auto.
           apply (prop_id_inj t); auto; [rewrite Forall_forall in Hfok; auto|now apply (holds_ok t s)].
        -- intros q. cbn [u_pre unary_of_rule In]. rewrite sort_unique_in. cbn [In]. fold other. rewrite in_map_iff. split.
           ++ intros [<-|(g & <- & Hg)]; auto. right. exists g. split; auto. now apply Hfs.
           ++ intros [[<-|[]]|(g & Hg & ->)]; auto. right. exists g. split; auto. now apply Hfs.
        -- intros g Hg. apply IH; auto.
Qed.

Lemma der_rcost p c : der M us I p c -> forall f, fact_ok t f -> prop_id t f = p -> exists c', rc f c' /\ R c' <= c.
Proof.
  destruct Ht as (Hops & Hrules & _).
  induction 1 as [p Hp|u k Hu Hq IH]; intros f Hf Hpf.
  - exists 0. split; [|lia]. subst p. apply rc_state. now apply state_prop_in.
  - destruct (ops_ok_unary u Hu) as [Hun Huc].
    (* facts whose propositions are among the preconditions *)
    assert (G : forall pre cst, relaxed_op t pre f cst -> u_cost u = cst -> Forall (fact_ok t) pre ->
               (forall g, In g pre -> In (prop_id t g) (u_pre u)) ->
               exists c', rc f c' /\ R c' <= uval M (u_cost u) (map k (u_pre u))).
    { intros pre cs Hro Hcs Hfo Hsub. set (fs := nodup fact_dec pre).
      assert (Hfsin : forall g, In g fs <-> In g pre) by (intros g; apply nodup_In).
      assert (Hnd : NoDup fs) by apply NoDup_nodup.
      rewrite Forall_forall in Hfo.
      destruct (list_choice fact_dec (fun g c => rc g c /\ R c <= k (prop_id t g)) fs) as [k' Hk'].
      { intros g Hg. apply Hfsin in Hg. apply (IH (prop_id t g)); auto. }
      exists (cs + comb (map k' fs)). split.
      - apply rc_op with pre; auto. intros g Hg. now apply Hk'.
      - rewrite <- Hcs, <- HR by auto. rewrite map_map.
        etransitivity; [apply (uval_mono M ok HM) with (b' := u_cost u) (l' := map k (map (prop_id t) fs)); auto|].
        { rewrite map_map. apply F2_map. intros g Hg. now apply Hk'. }
        apply (uval_incl M ok HM); auto.
        + apply NoDup_map_in; auto. intros x y Hx Hy. apply prop_id_inj; apply Hfo; now apply Hfsin.
        + intros q Hq'. apply in_map_iff in Hq'. destruct Hq' as (g & <- & Hg). apply Hsub. now apply Hfsin.
        + intros q Hq'. eapply der_ok'; [exact HM|exact ops_ok_unary|now apply Hq]. }
    pose proof Hu as Hu0. apply in_app_iff in Hu0. destruct Hu0 as [Hu0|Hu0].
    + apply unary_of_ops_in in Hu0. destruct Hu0 as (i & op & e & Hn & He & Eu).
      assert (Hin : In op (t_ops t)) by (now apply nth_error_In with i).
      destruct (Hops op Hin) as [Hp1 Hp2]. destruct (Hp2 e He) as [Hc1 Hc2].
      assert (f = eff_fact e) by (apply (prop_id_inj t); auto; rewrite Hpf, Eu; reflexivity). subst f.
      apply (G (op_pre op ++ eff_cond e) (op_cost op)); auto.
      * now apply ro_effect.
      * now rewrite Eu.
      * apply Forall_app; auto.
      * intros g Hg. rewrite Eu. cbn [u_pre]. rewrite sort_unique_in, <- map_app. now apply in_map.
    + apply in_map_iff in Hu0. destruct Hu0 as (r & Eu & Hr).
      destruct (Hrules r Hr) as (Hb & Hh & x & Hx & Hdom).
      assert (f = r_head r) by (apply (prop_id_inj t); auto; rewrite Hpf, <- Eu; reflexivity). subst f.
      apply (G (r_body r) 0); auto.
      * now apply ro_rule.
      * now rewrite <- Eu.
      * intros g Hg. rewrite <- Eu. cbn [u_pre unary_of_rule]. rewrite sort_unique_in. right. now apply in_map.
Qed.

Lemma least_corr f m : fact_ok t f -> least (der M us I (prop_id t f)) m ->
  (exists c, rc f c /\ R c <= m) /\ forall c, rc f c -> m <= R c.
Proof.
  intros Hf [Hd Hmin]. split.
  - eapply der_rcost; eauto.
  - intros c Hc. destruct (rcost_der f c Hc) as (_ & c' & Hd' & Hle). specialize (Hmin c' Hd'). lia.
Qed.

(** The heuristic built by the code. *)
Lemma rheur_ok_make : rheur_ok (make_rheur t) ok.
Proof.
  destruct Ht as (Hops & Hrules & Hg). pose proof ops_ok_unary as Huo.
  assert (G : forall u, In u us -> (forall p, In p (u_pre u) -> p < num_props t) /\ u_eff u < num_props t).
  { intros u Hu. apply in_app_iff in Hu. destruct Hu as [Hu|Hu].
    - apply unary_of_ops_in in Hu. destruct Hu as (i & op & e & Hn & He & ->).
      destruct (Hops op (nth_error_In _ _ Hn)) as [Hp1 Hp2]. destruct (Hp2 e He) as [Hc1 Hc2]. cbn. split; [|now apply prop_id_lt].
      intros p Hp. rewrite sort_unique_in, <- map_app in Hp. apply in_map_iff in Hp. destruct Hp as (g & <- & Hgi).
      rewrite Forall_forall in Hp1, Hc1. apply prop_id_lt. apply in_app_iff in Hgi. destruct Hgi; auto.
    - apply in_map_iff in Hu. destruct Hu as (r & <- & Hr). destruct (Hrules r Hr) as (Hb & Hh & x & Hx & Hdom).
      cbn [u_pre u_eff unary_of_rule]. split; [|now apply prop_id_lt]. intros p Hp. rewrite sort_unique_in in Hp. destruct Hp as [<-|Hp].
      + apply prop_id_lt. exists x. cbn [fst snd]. split; auto. lia.
      + apply in_map_iff in Hp. destruct Hp as (g & <- & Hgi). rewrite Forall_forall in Hb. apply prop_id_lt; auto. }
  constructor; cbn [make_rheur r_ops r_n r_goals].
  - intros u Hu. apply simplify_sub in Hu. split; [now apply Huo|now apply G].
  - intros u Hu. apply simplify_sub in Hu. now apply G.
  - intros u Hu. apply simplify_sub in Hu. now apply Huo.
  - intros g Hgi. apply in_map_iff in Hgi. destruct Hgi as (f & <- & Hf). rewrite Forall_forall in Hg. apply prop_id_lt; auto.
Qed.
Lemma state_props_lt : forall p, In p I -> p < num_props t.
Proof.
  intros p Hp. unfold state_props in Hp. apply in_map_iff in Hp. destruct Hp as (f & <- & Hf).
  apply prop_id_lt. apply (holds_ok t s); auto. now apply state_facts_holds.
Qed.

Variable P : pqueue.
Variable bag : PQ P -> list (nat * nat).
Hypothesis HP : pq_contract P bag.

Notation H := (make_rheur t).
Notation derS := (der M (r_ops H) I).

Lemma goal_value_spec st D : Final P M H I st D -> forall gs total, (forall g, In g gs -> In g (r_goals H)) ->
  exists h, goal_value M (x_cost st) gs total = Ok h /\
    match h with
    | Some v => exists ms, Forall2 (fun g m => least (derS g) m) gs ms /\ v = fold_left (m_goal M) ms total
    | None => exists g, In g gs /\ forall c, ~ derS g c
    end.
Proof.
  intros HF. induction gs as [|g r IH]; intros total Hg; cbn [goal_value].
  - exists (Some total). split; auto. exists []. split; [constructor|reflexivity].
  - assert (Hgg : In g (r_goals H)) by (apply Hg; now left).
    assert (Hgl : g < length (x_cost st)) by (rewrite (f_len1 _ _ _ _ _ _ HF); now apply (ro_goals _ _ rheur_ok_make)).
    rewrite (vget_cst P st g Hgl). cbn [bind]. destruct (cst P st g) as [c|] eqn:Ec.
    + destruct (IH (m_goal M total c)) as (h & Eh & Hh); [intros; apply Hg; now right|]. exists h. split; auto.
      destruct h as [v|].
      * destruct Hh as (ms & HF2 & ->). exists (c :: ms). split; auto. constructor; auto.
        assert (HgD : In g D).
        { destruct (f_done _ _ _ _ _ _ HF) as [Hd|Hd]; auto. apply (Hd g c). now apply (f_sound _ _ _ _ _ _ HF). }
        destruct (f_least _ _ _ _ _ _ HF g HgD) as (c' & Hc' & Hl). congruence.
      * destruct Hh as (g' & Hg' & Hn). exists g'. split; auto. now right.
    + exists None. split; auto. exists g. split; [now left|]. intros c Hd.
      assert (HgD : In g D) by (destruct (f_done _ _ _ _ _ _ HF) as [Hx|Hx]; eauto).
      destruct (f_least _ _ _ _ _ _ HF g HgD) as (c' & Hc' & _). congruence.
Qed.

Lemma compute_spec q0 by0 : length by0 = num_props t ->
  exists st D h, compute P M H q0 by0 I = Ok (st, h) /\ Final P M H I st D /\
    match h with
    | Some v => exists ms, Forall2 (fun g m => least (der M us I g) m) (map (prop_id t) (t_goal t)) ms /\ v = fold_left (m_goal M) ms 0
    | None => exists f, In f (t_goal t) /\ forall c, ~ rc f c
    end.
Proof.
  intros Hby.
  destruct (exploration P bag HP M ok HM H rheur_ok_make I state_props_lt q0 by0 Hby) as (st & D & E & HF).
  destruct (goal_value_spec st D HF (r_goals H) 0 (fun g Hg => Hg)) as (h & Eh & Hh).
  exists st, D, h. split.
  - unfold compute. destruct (setup P H q0 by0) as [st1| | |]; try discriminate. cbn [bind] in *.
    destruct (setup_state P st1 I) as [st2| | |]; try discriminate. cbn [bind] in *. rewrite E. cbn [bind]. now rewrite Eh.
  - split; auto. destruct h as [v|].
    + destruct Hh as (ms & HF2 & ->). exists ms. split; auto. cbn [make_rheur r_goals r_ops] in HF2.
      eapply F2_impl; [|exact HF2]. intros g m Hl. apply (least_simplify M ok HM us I g m ops_ok_unary). exact Hl.
    + destruct Hh as (g & Hg & Hn). cbn [make_rheur r_goals] in Hg. apply in_map_iff in Hg. destruct Hg as (f & <- & Hf).
      exists f. split; auto. intros c Hc. destruct (rcost_der f c Hc) as (_ & c' & Hd & _).
      destruct (der_simplify M ok HM us I _ _ ops_ok_unary Hd) as (c2 & Hd2 & _). now apply (Hn c2).
Qed.
End CORR.

(** Least costs exist: run the exploration with unclamped sums. *)
Lemma least_exists_gen M comb : mode_ok M (fun _ => True) -> (forall b cs, uval M b (map (fun x => x) cs) = b + comb cs) ->
  (forall b, m_acc M b b 0 = b) ->
  forall t s f, relax_ok t -> state_ok t s -> (exists c, rcost comb t s f c) -> exists c, least (rcost comb t s f) c.
Proof.
  intros HM HR HZ t s f Ht Hs [c Hc].
  destruct (rcost_der M (fun _ => True) HM comb (fun x => x) (fun b cs _ => HR b cs) eq_refl (fun b _ => HZ b) t Ht (fun _ _ => Logic.I) s Hs f c Hc) as (Hf & c' & Hd & Hle).
  set (H := {| r_n := num_props t; r_ops := unary_ops t; r_goals := [prop_id t f] |}).
  assert (HH : rheur_ok H (fun _ => True)).
  { assert (G : forall u, In u (unary_ops t) -> NoDup (u_pre u) /\ (forall p, In p (u_pre u) -> p < num_props t) /\ u_eff u < num_props t).
    { intros u Hu. destruct Ht as (Hops & Hrules & _). apply in_app_iff in Hu. destruct Hu as [Hu|Hu].
      - apply unary_of_ops_in in Hu. destruct Hu as (i & op & e & Hn & He & ->).
        destruct (Hops op (nth_error_In _ _ Hn)) as [Hp1 Hp2]. destruct (Hp2 e He) as [Hc1 Hc2]. cbn. split; [apply sort_unique_nodup|]. split; [|now apply prop_id_lt].
        intros p Hp. rewrite sort_unique_in, <- map_app in Hp. apply in_map_iff in Hp. destruct Hp as (g & <- & Hgi).
        rewrite Forall_forall in Hp1, Hc1. apply prop_id_lt. apply in_app_iff in Hgi. destruct Hgi; auto.
      - apply in_map_iff in Hu. destruct Hu as (r & <- & Hr). destruct (Hrules r Hr) as (Hb & Hh & x & Hx & Hdom).
        cbn [u_pre u_eff unary_of_rule]. split; [apply sort_unique_nodup|]. split; [|now apply prop_id_lt]. intros p Hp. rewrite sort_unique_in in Hp. destruct Hp as [<-|Hp].
        + apply prop_id_lt. exists x. cbn [fst snd]. split; auto. lia.
        + apply in_map_iff in Hp. destruct Hp as (g & <- & Hgi). rewrite Forall_forall in Hb. apply prop_id_lt; auto. }
    constructor; cbn [H r_ops r_n r_goals].
    - intros u Hu. destruct (G u Hu) as (G1 & G2 & G3); auto.
    - intros u Hu. now apply G.
    - auto.
    - intros g [<-|[]]. now apply prop_id_lt. }
  destruct (exploration list_pq _ list_pq_contract M _ HM H HH (state_props t s)
              (state_props_lt t s Hs) [] (repeat None (num_props t)) (repeat_length _ _)) as (st & D & E & HF).
  assert (HfD : In (prop_id t f) D).
  { destruct (f_done _ _ _ _ _ _ HF) as [Hx|Hx]; [apply (Hx _ c'); exact Hd|apply Hx; now left]. }
  destruct (f_least _ _ _ _ _ _ HF _ HfD) as (m & _ & Hl).
  destruct (least_corr M (fun _ => True) HM comb (fun x => x) (fun b cs _ => HR b cs) eq_refl (fun b _ => HZ b) t Ht (fun _ _ => Logic.I) s Hs f m Hf Hl) as ((c0 & Hc0 & Hle0) & Hmin).
  exists c0. split; auto. intros c1 Hc1. specialize (Hmin c1 Hc1). lia.
Qed.

Lemma map_id' (cs : list nat) : map (fun x => x) cs = cs.
Proof. apply map_id. Qed.

Lemma sum_least t s f : relax_ok t -> state_ok t s -> (exists c, rcost list_sum t s f c) -> exists c, least (rcost list_sum t s f) c.
Proof.
  intros Ht Hs. apply (least_exists_gen sum_mode list_sum sum_mode_ok); auto.
  intros b cs. rewrite map_id'. apply sum_uval.
Qed.

Lemma least_fun (Q : nat -> Prop) a b : least Q a -> least Q b -> a = b.
Proof. intros [Ha1 Ha2] [Hb1 Hb2]. specialize (Ha2 b Hb1). specialize (Hb2 a Ha1). lia. Qed.

Lemma hmax_HR b cs : True -> uval hmax_mode b (map (fun x => x) cs) = b + list_max cs.
Proof. intros _. rewrite map_id'. apply hmax_uval. Qed.
Lemma hmax_HZ b : True -> m_acc hmax_mode b b 0 = b.
Proof. intros _. cbn. lia. Qed.

Lemma fold_max ms : forall x, fold_left Nat.max ms x = Nat.max x (list_max ms).
Proof. induction ms as [|m r IH]; intros x; cbn [fold_left list_max fold_right]; [lia|]. rewrite IH. unfold list_max. lia. Qed.
Lemma fold_inc mx ms : forall x, x <= mx -> fold_left (increase_cost mx) ms x = Nat.min mx (x + list_sum ms).
Proof.
  induction ms as [|m r IH]; intros x Hx; cbn [fold_left list_sum fold_right]; [lia|].
  rewrite increase_cost_min, IH by lia. change (list_sum r) with (fold_right Nat.add 0 r). lia.
Qed.

Section HMAX.
Variable P : pqueue.
Variable bag : PQ P -> list (nat * nat).
Hypothesis HP : pq_contract P bag.

Theorem hmax_exact t s q0 by0 : relax_ok t -> state_ok t s -> length by0 = num_props t ->
  exists v, hmax P t q0 by0 s = Ok v /\ hmax_value t s (t_goal t) v.
Proof.
  intros Ht Hs Hby.
  destruct (compute_spec hmax_mode _ hmax_mode_ok list_max (fun x => x) hmax_HR eq_refl hmax_HZ t Ht (fun _ _ => Logic.I) s Hs P bag HP q0 by0 Hby)
    as (st & D & h & E & _ & Hh).
  exists h. split; [unfold hmax; rewrite E; reflexivity|]. unfold hmax_value, rvalue. destruct h as [v|]; auto.
  destruct Hh as (ms & HF & ->). exists ms. split.
  - destruct Ht as (H1 & H2 & Hg). assert (Ht : relax_ok t) by (split; auto). clear E.
    revert ms HF. induction (t_goal t) as [|f r IH]; intros ms HF; inversion HF; subst; constructor.
    + inversion Hg; subst.
      destruct (least_corr hmax_mode _ hmax_mode_ok list_max (fun x => x) hmax_HR eq_refl hmax_HZ t Ht (fun _ _ => Logic.I) s Hs f y) as ((c & Hc & Hle) & Hmin); auto.
      pose proof (Hmin c Hc). replace y with c by lia. split; auto. intros c' Hc'. specialize (Hmin c' Hc'). lia.
    + apply IH; auto. now inversion Hg.
  - cbn [hmax_mode m_goal]. rewrite fold_max. reflexivity.
Qed.

Lemma hadd_HR mx b cs : b <= mx -> uval (hadd_mode mx) b (map (Nat.min mx) cs) = Nat.min mx (b + list_sum cs).
Proof. apply hadd_uval. Qed.
Lemma hadd_HZ mx b : b <= mx -> m_acc (hadd_mode mx) b b 0 = b.
Proof. intros Hb. cbn. rewrite increase_cost_min. lia. Qed.

Lemma hadd_compute mx t s q0 by0 : relax_ok t -> state_ok t s -> length by0 = num_props t ->
  (forall op, In op (t_ops t) -> op_cost op <= mx) ->
  exists st D h v, compute P (hadd_mode mx) (make_rheur t) q0 by0 (state_props t s) = Ok (st, h) /\
    Final P (hadd_mode mx) (make_rheur t) (state_props t s) st D /\
    hadd_value t s (t_goal t) v /\ h = option_map (Nat.min mx) v.
Proof.
  intros Ht Hs Hby Hc.
  destruct (compute_spec (hadd_mode mx) _ (hadd_mode_ok mx) list_sum (Nat.min mx) (hadd_HR mx) (Nat.min_0_r mx) (hadd_HZ mx) t Ht Hc s Hs P bag HP q0 by0 Hby)
    as (st & D & h & E & HFin & Hh).
  exists st, D, h. unfold hadd_value, rvalue. destruct h as [v|].
  2:{ exists None. splits; auto. }
  destruct Hh as (ms & HF & ->).
  assert (G : exists cs, Forall2 (fun f c => least (rcost list_sum t s f) c) (t_goal t) cs /\ ms = map (Nat.min mx) cs).
  { destruct Ht as (H1 & H2 & Hg). assert (Ht : relax_ok t) by (split; auto). clear E HFin.
    revert ms HF. induction (t_goal t) as [|f r IH]; intros ms HF; inversion HF; subst.
    - exists []. split; [constructor|reflexivity].
    - inversion Hg; subst. destruct (IH ltac:(assumption) _ ltac:(eassumption)) as (cs & HF2 & ->).
      destruct (least_corr (hadd_mode mx) _ (hadd_mode_ok mx) list_sum (Nat.min mx) (hadd_HR mx) (Nat.min_0_r mx) (hadd_HZ mx) t Ht Hc s Hs f y) as ((c & Hcc & Hle) & Hmin); auto.
      destruct (sum_least t s f Ht Hs (ex_intro _ c Hcc)) as (c0 & Hc0 & Hmin0).
      exists (c0 :: cs). split; [constructor; [split; auto|auto]|]. cbn [map]. f_equal.
      pose proof (Hmin c0 Hc0). pose proof (Hmin0 c Hcc). lia. }
  destruct G as (cs & HF2 & ->). exists (Some (list_sum cs)). splits; auto.
  - exists cs. auto.
  - cbn [option_map]. f_equal. cbn [hadd_mode m_goal].
    assert (G : forall x y, x = Nat.min mx y -> fold_left (increase_cost mx) (map (Nat.min mx) cs) x = Nat.min mx (y + list_sum cs)).
    { clear. induction cs as [|c r IH]; intros x y ->; cbn [map fold_left list_sum fold_right]; [f_equal; lia|].
      rewrite increase_cost_min. rewrite (IH _ (y + c)) by lia. f_equal. change (list_sum r) with (fold_right Nat.add 0 r). lia. }
    rewrite (G 0 0); [reflexivity|lia].
Qed.
End HMAX.

(* ---- h^max: admissible and consistent ---- *)
Lemma effect_value_some s es v d : effect_value s es v (Some d) ->
  exists e, In e es /\ all_hold s (eff_cond e) /\ eff_fact e = (v, d).
Proof.
  intros H. remember (Some d) as r eqn:Er. induction H; try discriminate.
  - inversion Er; subst. exists e. split; [apply in_or_app; right; now left|auto].
  - destruct (IHeffect_value Er) as (e' & Hin & Hx). exists e'. split; [apply in_or_app; now left|auto].
Qed.

Lemma progress_facts t s o s' : no_derived t -> progress t s o s' ->
  exists op, nth_error (t_ops t) o = Some op /\
    forall f, holds s' f -> holds s f \/ exists e, In e (op_effs op) /\ all_hold s (eff_cond e) /\ eff_fact e = f.
Proof.
  intros [_ Hl] (op & s1 & Hop & Hlen & Hv & Hstr). exists op. split; auto. intros [v d] Hh. unfold holds in *; cbn [fst snd] in *.
  destruct Hstr as (Hlen' & Hb & _). rewrite (Hb v (Hl v)) in Hh.
  assert (Hvl : v < length s) by (rewrite <- Hlen; apply nth_error_Some; congruence).
  destruct (effect_value_total s (op_effs op) v) as [r Hr]. rewrite (Hv v r Hvl Hr) in Hh. destruct r as [d'|]; auto.
  inversion Hh; subst d'. right. now apply effect_value_some.
Qed.

Lemma list_max_le' l c : (forall x, In x l -> x <= c) -> list_max l <= c.
Proof. intros Hl. apply list_max_le. now apply Forall_forall. Qed.

Lemma list_max_add (k k' : fact -> nat) a fs : (forall g, In g fs -> k' g <= a + k g) -> list_max (map k' fs) <= a + list_max (map k fs).
Proof.
  intros Hk. apply list_max_le'. intros x Hx. apply in_map_iff in Hx. destruct Hx as (g & <- & Hg).
  specialize (Hk g Hg). assert (Hm : k g <= list_max (map k fs)).
  { pose proof (proj1 (list_max_le (map k fs) (list_max (map k fs))) (le_n _)) as HF. rewrite Forall_forall in HF. apply HF. now apply in_map. }
  lia.
Qed.

Lemma rmax_step t s o s' op : no_derived t -> applicable t s o -> progress t s o s' -> nth_error (t_ops t) o = Some op ->
  forall f c, rcost list_max t s' f c -> exists c', rcost list_max t s f c' /\ c' <= op_cost op + c.
Proof.
  intros Hnd (op1 & Hop1 & Hpre) Hpr Hop f c Hc. rewrite Hop in Hop1; inversion Hop1; subst op1.
  destruct (progress_facts t s o s' Hnd Hpr) as (op2 & Hop2 & Hfacts). rewrite Hop in Hop2; inversion Hop2; subst op2.
  induction Hc as [f Hh|pre f c fs k Hro Hn Hfs Hk IH].
  - destruct (Hfacts f Hh) as [Hs|(e & He & Hcond & <-)].
    + exists 0. split; [now apply rc_state|lia].
    + exists (op_cost op + list_max (map (fun _ : fact => 0) (nodup fact_dec (op_pre op ++ eff_cond e)))). split.
      * apply rc_op with (op_pre op ++ eff_cond e); [apply ro_effect; auto; now apply nth_error_In with o|apply NoDup_nodup|intros; apply nodup_In|].
        intros g Hg. apply nodup_In, in_app_iff in Hg. apply rc_state. destruct Hg; auto.
      * assert (list_max (map (fun _ : fact => 0) (nodup fact_dec (op_pre op ++ eff_cond e))) <= 0); [|lia].
        apply list_max_le'. intros x Hx. apply in_map_iff in Hx. destruct Hx as (g & <- & _). lia.
  - destruct (list_choice fact_dec (fun g c' => rcost list_max t s g c' /\ c' <= op_cost op + k g) fs IH) as [k' Hk'].
    exists (c + list_max (map k' fs)). split.
    + apply rc_op with pre; auto. intros g Hg. now apply Hk'.
    + pose proof (list_max_add k k' (op_cost op) fs (fun g Hg => proj2 (Hk' g Hg))). lia.
Qed.

Lemma rmax_path t s os s' : no_derived t -> task_path t s os s' ->
  forall f, holds s' f -> exists c, rcost list_max t s f c /\ c <= plan_cost t os.
Proof.
  intros Hnd Hp. induction Hp as [s|s o s1 os s2 Happ Hpr Hp IH]; intros f Hf.
  - exists 0. split; [now apply rc_state|cbn; lia].
  - destruct (IH f Hf) as (c & Hc & Hle). pose proof Happ as (op & Hop & _).
    destruct (rmax_step t s o s1 op Hnd Happ Hpr Hop f c Hc) as (c' & Hc' & Hle'). exists c'. split; auto.
    unfold plan_cost in *. cbn [map list_sum fold_right]. rewrite Hop. change (fold_right Nat.add 0) with list_sum. lia.
Qed.

Lemma hmax_value_le t s gs v B : hmax_value t s gs v -> (forall f, In f gs -> exists c, rcost list_max t s f c /\ c <= B) ->
  exists x, v = Some x /\ x <= B.
Proof.
  intros Hv Hb. destruct v as [x|].
  - destruct Hv as (cs & HF & ->). exists (list_max cs). split; auto. apply list_max_le'. intros c Hc.
    revert Hb. induction HF as [|f c0 gs' cs' Hl HF IH]; intros Hb; [destruct Hc|].
    destruct Hc as [->|Hc]; [|apply IH; auto; intros; apply Hb; now right].
    destruct (Hb f (or_introl eq_refl)) as (c' & Hc' & Hle). destruct Hl as [_ Hl]. specialize (Hl c' Hc'). lia.
  - destruct Hv as (f & Hf & Hn). destruct (Hb f Hf) as (c & Hc & _). exfalso. now apply (Hn c).
Qed.

Theorem hmax_value_admissible t s v os : no_derived t -> hmax_value t s (t_goal t) v -> task_plan_from t s os ->
  exists x, v = Some x /\ x <= plan_cost t os.
Proof.
  intros Hnd Hv (s' & Hp & Hg). apply (hmax_value_le t s (t_goal t) v); auto. intros f Hf. eapply rmax_path; eauto.
Qed.

Theorem hmax_value_consistent t s o s' op v v' : no_derived t -> applicable t s o -> progress t s o s' ->
  nth_error (t_ops t) o = Some op -> hmax_value t s (t_goal t) v -> hmax_value t s' (t_goal t) (Some v') ->
  exists x, v = Some x /\ x <= op_cost op + v'.
Proof.
  intros Hnd Happ Hpr Hop Hv (cs & HF & ->). apply (hmax_value_le t s (t_goal t) v); auto.
  intros f Hf. assert (Hc : exists c, rcost list_max t s' f c /\ c <= list_max cs).
  { clear -HF Hf. induction HF as [|g c0 gs' cs' [Hl _] HF IH]; [destruct Hf|]. cbn [list_max fold_right]. destruct Hf as [->|Hf].
    - exists c0. split; auto. lia.
    - destruct (IH Hf) as (c & Hc & Hle). exists c. split; auto. unfold list_max in *. lia. }
  destruct Hc as (c & Hc & Hle). destruct (rmax_step t s o s' op Hnd Happ Hpr Hop f c Hc) as (c' & Hc' & Hle').
  exists c'. split; auto. lia.
Qed.

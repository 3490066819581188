(** Shrinking by f and h values: the buckets. *)
From Coq Require Import Permutation Sorted.
From Verif Require Import Outcome Spec_Task Model_PQ Model_Graph Model_Equivalence Model_MAS Spec_FTS Model_MASAlgorithm Spec_Shrink.
From Verif Require Import Proof_MAS2 Proof_OC1 Proof_Pot5 Proof_MAA1.

Lemma oeqb_spec a b : oeqb a b = true <-> a = b.
Proof. destruct a, b; cbn [oeqb]; split; try discriminate; auto; [intros H; apply Nat.eqb_eq in H; congruence|intros H; inv H; apply Nat.eqb_refl]. Qed.
Lemma less_irr a : ~ less a a. Proof. destruct a; cbn [less]; [lia|tauto]. Qed.
Lemma less_trans a b c : less a b -> less b c -> less a c. Proof. destruct a, b, c; cbn [less]; try tauto; lia. Qed.
Lemma less_total a b : a = b \/ less a b \/ less b a.
Proof. destruct a as [x|], b as [y|]; cbn [less]; auto. destruct (Nat.lt_trichotomy x y) as [?|[->|?]]; auto. Qed.
Lemma ole_less a b : ole a b = true -> a <> b -> less a b.
Proof. destruct a as [x|], b as [y|]; cbn [ole less]; try discriminate; auto. intros H N. apply Nat.leb_le in H. assert (x <> y) by congruence. lia. Qed.
Lemma ole_false a b : ole a b = false -> less b a.
Proof. destruct a as [x|], b as [y|]; cbn [ole less]; try discriminate; auto. intros H. now apply Nat.leb_gt in H. Qed.

(** ** Ordered maps *)
Definition ksorted {A} (m : list (option nat * A)) : Prop := StronglySorted less (map fst m).
Lemma ksorted_cons {A} k (a : A) r : ksorted ((k, a) :: r) <-> ksorted r /\ forall e, In e r -> less k (fst e).
Proof.
  unfold ksorted. cbn [map fst]. split.
  - intros H. inversion H; subst. split; auto. intros e He. rewrite Forall_forall in H3. apply H3. now apply in_map.
  - intros [H1 H2]. constructor; auto. apply Forall_forall. intros x Hx. apply in_map_iff in Hx as (e & <- & He). auto.
Qed.
Lemma ksorted_unique {A} (m : list (option nat * A)) k a b : ksorted m -> In (k, a) m -> In (k, b) m -> a = b.
Proof.
  induction m as [|[k' c] r IH]; intros Hs Ha Hb; [destruct Ha|]. apply ksorted_cons in Hs as [Hs Hl]. destruct Ha as [Ea|Ha], Hb as [Eb|Hb].
  - congruence.
  - inv Ea. apply Hl in Hb. cbn [fst] in Hb. destruct (less_irr _ Hb).
  - inv Eb. apply Hl in Ha. cbn [fst] in Ha. destruct (less_irr _ Ha).
  - auto.
Qed.
Lemma map_update_ok {A} (k : option nat) (d : A) u : forall m, ksorted m -> ksorted (map_update m k d u) /\
  (forall k' v, In (k', v) (map_update m k d u) <-> k' <> k /\ In (k', v) m \/ k' = k /\ exists old, (In (k, old) m \/ old = d /\ forall x, ~ In (k, x) m) /\ v = u old).
Proof.
  induction m as [|[k0 a] r IH]; intros Hs; cbn [map_update].
  - split; [apply ksorted_cons; split; auto; intros e []|]. intros k' v. cbn [In]. split.
    + intros [E|[]]. inv E. right. split; auto. exists d. auto.
    + intros [[_ []]|[-> (old & [[]|[-> _]] & ->)]]. auto.
  - pose proof Hs as Hs'. apply ksorted_cons in Hs as [Hs Hl]. destruct (IH Hs) as [I1 I2]. destruct (oeqb k0 k) eqn:E0.
    + apply oeqb_spec in E0. subst k0. split; [apply ksorted_cons; split; auto|]. intros k' v. cbn [In]. split.
      * intros [E|Hin]; [inv E; right; split; auto; exists a; auto|]. pose proof (Hl _ Hin) as Hk. cbn [fst] in Hk. left. split; auto. intros ->. exact (less_irr _ Hk).
      * intros [[N [E|Hin]]|[-> (old & [[E|Hin]|[-> Hn]] & ->)]]; auto; [congruence| | |].
        -- inv E. auto.
        -- apply Hl in Hin. cbn [fst] in Hin. destruct (less_irr _ Hin).
        -- destruct (Hn a). auto.
    + assert (N0 : k0 <> k) by (intros ->; rewrite (proj2 (oeqb_spec k k) eq_refl) in E0; discriminate).
      destruct (ole k0 k) eqn:E1.
      * pose proof (ole_less _ _ E1 N0) as Hk. split.
        -- apply ksorted_cons. split; auto. intros [k' v] He. cbn [fst]. apply I2 in He as [[_ He]|[-> _]]; auto. apply (Hl _ He).
        -- intros k' v. cbn [In]. rewrite I2. split.
           ++ intros [E|[[N Hin]|[-> (old & Hold & ->)]]]; [inv E; left; auto|auto|]. right. split; auto. exists old. split; auto. destruct Hold as [Ho|[-> Hn]]; auto. right. split; auto. intros x [E|Hx]; [inv E; congruence|]. exact (Hn x Hx).
           ++ intros [[N [E|Hin]]|[-> (old & Hold & ->)]]; auto. right. right. split; auto. exists old. split; auto. destruct Hold as [[E|Ho]|[-> Hn]]; auto; [inv E; congruence|]. right. split; auto. intros x Hx. apply (Hn x). auto.
      * pose proof (ole_false _ _ E1) as Hk. split.
        -- apply ksorted_cons. split; auto. intros e [<-|He]; auto. exact (less_trans _ k0 _ Hk (Hl _ He)).
        -- assert (Hno : forall x, ~ In (k, x) ((k0, a) :: r)). { intros x [E|Hx]; [inv E; congruence|]. apply Hl in Hx. cbn [fst] in Hx. exact (less_irr _ (less_trans _ _ _ Hk Hx)). }
           intros k' v. change (In (k', v) ((k, u d) :: (k0, a) :: r) <-> k' <> k /\ In (k', v) ((k0, a) :: r) \/ k' = k /\ (exists old, (In (k, old) ((k0, a) :: r) \/ old = d /\ (forall x, ~ In (k, x) ((k0, a) :: r))) /\ v = u old)). split.
           ++ intros [E|Hin]; [inv E; right; split; auto; exists d; auto|]. left. split; auto. intros ->. exact (Hno v Hin).
           ++ intros [[N Hin]|[-> (old & [Ho|[-> _]] & ->)]]; [now right|destruct (Hno _ Ho)|now left].
Qed.

(** ordering of a map in one direction *)
Lemma sorted_rev {A} (R : A -> A -> Prop) l : StronglySorted R l -> StronglySorted (fun a b => R b a) (rev l).
Proof.
  induction 1 as [|a l Hs IH Hf]; cbn [rev]; [constructor|]. clear Hs. induction (rev l) as [|x r IHr] eqn:E in IH, l, Hf |- *.
  - cbn [app]. repeat constructor.
  - cbn [app]. inversion IH; subst. constructor.
    + apply (IHr (rev r)); [|now rewrite rev_involutive|auto]. assert (l = rev (x :: r)) by (rewrite <- E; now rewrite rev_involutive). subst l. cbn [rev] in Hf. apply Forall_app in Hf. tauto.
    + apply Forall_app. split; auto. constructor; auto. assert (In x l) by (apply in_rev; rewrite E; now left). rewrite Forall_forall in Hf. now apply Hf.
Qed.
Lemma in_direction_In {A} hi (l : list A) x : In x (in_direction hi l) <-> In x l.
Proof. destruct hi; cbn [in_direction]; [symmetry; apply in_rev|tauto]. Qed.
Lemma in_direction_map {A B} (g : A -> B) hi l : map g (in_direction hi l) = in_direction hi (map g l).
Proof. destruct hi; cbn [in_direction]; auto. apply map_rev. Qed.
Lemma in_direction_sorted hi l : StronglySorted less l -> StronglySorted (comes_first hi) (in_direction hi l).
Proof. destruct hi; cbn [in_direction]; auto. apply sorted_rev. Qed.

Lemma sorted_app {A} (R : A -> A -> Prop) l1 l2 : StronglySorted R l1 -> StronglySorted R l2 -> (forall a b, In a l1 -> In b l2 -> R a b) -> StronglySorted R (l1 ++ l2).
Proof.
  induction 1 as [|a l Hs IH Hf]; intros H2 H; cbn [app]; auto. constructor; [apply IH; auto; intros; apply H; auto; now right|]. apply Forall_app. split; auto. apply Forall_forall. intros b Hb. apply H; auto. now left.
Qed.

(** ** Buckets with keys *)
Definition number {A} (l : list A) : list (option nat * A) := combine (map Some (seq 0 (length l))) l.
Lemma number_In {A} (l : list A) k v : In (k, v) (number l) <-> exists i, k = Some i /\ nth_error l i = Some v.
Proof.
  unfold number. assert (G : forall s, In (k, v) (combine (map Some (seq s (length l))) l) <-> exists i, k = Some (s + i) /\ nth_error l i = Some v).
  { induction l as [|x r IH]; intros s; cbn [length seq map combine].
    - split; [intros []|intros (i & _ & H); destruct i; discriminate].
    - cbn [In]. rewrite IH. split.
      + intros [E|(i & -> & Hi)]; [inv E; exists 0; rewrite Nat.add_0_r; auto|exists (S i); rewrite <- plus_n_Sm; auto].
      + intros ([|i] & -> & Hi); cbn [nth_error] in Hi; [inv Hi; left; now rewrite Nat.add_0_r|]. right. exists i. rewrite <- plus_n_Sm. auto. }
  apply G.
Qed.
Lemma number_sorted {A} (l : list A) : ksorted (number l).
Proof.
  unfold number. assert (G : forall s, ksorted (combine (map Some (seq s (length l))) l)).
  { induction l as [|x r IH]; intros s; cbn [length seq map combine]; [constructor|]. apply ksorted_cons. split; auto. intros [k v] He. apply in_combine_l in He. apply in_map_iff in He as (i & <- & Hi). apply in_seq in Hi. cbn [fst less]. lia. }
  apply G.
Qed.
Lemma number_snd {A} (l : list A) : map snd (number l) = l.
Proof. unfold number. generalize 0. induction l as [|x r IH]; intros s; cbn [length seq map combine snd]; auto. now rewrite IH. Qed.

Section KEYS.
Variables (f_high h_high : bool) (di dg : list (option nat)) (n : nat).
Hypotheses (Hdi : length di = n) (Hdg : length dg = n).
Notation key := (option nat * option nat)%type.
Definition key_of (s : nat) : key := (f_of di dg s, h_of dg s).
Definition key_lt (a b : key) : Prop := comes_first f_high (fst a) (fst b) \/ fst a = fst b /\ comes_first h_high (snd a) (snd b).
Lemma comes_irr hi a : ~ comes_first hi a a.
Proof. destruct hi; apply less_irr. Qed.
Lemma key_lt_irr a : ~ key_lt a a.
Proof. intros [H|[_ H]]; exact (comes_irr _ _ H). Qed.

Definition keyed (kb : list (key * list nat)) : Prop :=
  StronglySorted key_lt (map fst kb) /\
  (forall k b, In (k, b) kb -> b <> [] /\ NoDup b /\ forall s, In s b <-> s < n /\ key_of s = k) /\
  (forall s, s < n -> exists b, In (key_of s, b) kb).
Lemma keyed_ok kb : keyed kb -> ordered_by_fh f_high h_high n di dg (map snd kb).
Proof.
  intros (K1 & K2 & K3). unfold ordered_by_fh.
  assert (Hin : forall b, In b (map snd kb) -> exists k, In (k, b) kb) by (intros b Hb; apply in_map_iff in Hb as ([k b'] & <- & Hb); eauto). splits.
  - clear K3 Hin. induction kb as [|[k b] r IH]; cbn [map snd concat]; [constructor|]. cbn [map fst] in K1. inversion K1; subst. apply NoDup_app_disj.
    + apply (K2 k b). now left.
    + apply IH; auto. intros k' b' Hk. apply K2. now right.
    + intros s Hs Hc. apply in_concat in Hc as (b' & Hb' & Hs'). apply in_map_iff in Hb' as ([k' b''] & <- & Hk'). cbn [snd] in Hs'. destruct (K2 k b (or_introl eq_refl)) as (_ & _ & A). destruct (K2 k' b'' (or_intror Hk')) as (_ & _ & B). apply A in Hs as [_ Ea]. apply B in Hs' as [_ Eb].
      assert (Ek : k' = k) by congruence. rewrite Ek in Hk'. rewrite Forall_forall in H2. apply (key_lt_irr k). apply H2. apply in_map_iff. exists (k, b''). auto.
  - intros s. rewrite in_concat. split.
    + intros (b & Hb & Hs). destruct (Hin b Hb) as [k Hk]. apply (K2 k b Hk) in Hs. tauto.
    + intros Hs. destruct (K3 s Hs) as [b Hb]. exists b. split; [apply in_map_iff; exists (key_of s, b); auto|]. apply (K2 _ _ Hb). auto.
  - intros b Hb. destruct (Hin b Hb) as [k Hk]. apply (K2 k b Hk).
  - intros b s t Hb Hs Ht. destruct (Hin b Hb) as [k Hk]. apply (K2 k b Hk) in Hs as [_ Hs]. apply (K2 k b Hk) in Ht as [_ Ht]. unfold key_of in *. split; congruence.
  - intros p q b b' s t Hpq Hb Hb' Hs Ht. rewrite nth_error_map in Hb, Hb'. destruct (nth_error kb p) as [[k x]|] eqn:Ep; [|discriminate]. destruct (nth_error kb q) as [[k' x']|] eqn:Eq; [|discriminate]. cbn [option_map snd] in *. inv Hb. inv Hb'.
    apply (K2 k b (nth_error_In _ _ Ep)) in Hs as [_ Hs]. apply (K2 k' b' (nth_error_In _ _ Eq)) in Ht as [_ Ht].
    assert (Hlt : key_lt k k').
    { clear -K1 Ep Eq Hpq. revert p q Ep Eq Hpq. induction kb as [|[k0 b0] r IH]; intros p q Ep Eq Hpq; [destruct p; discriminate|]. cbn [map fst] in K1. inversion K1; subst. destruct q as [|q]; [lia|]. cbn [nth_error] in Eq. destruct p as [|p]; cbn [nth_error] in Ep.
      - inv Ep. rewrite Forall_forall in H2. apply H2. apply nth_error_In in Eq. apply in_map_iff. exists (k', b'). auto.
      - apply (IH H1 p q); auto. lia. }
    rewrite <- Hs, <- Ht in Hlt. exact Hlt.
Qed.

Lemma state_values_ok s : s < n -> state_values {| d_init := Some di; d_goal := Some dg |} s = Ok (key_of s).
Proof.
  intros Hs. unfold state_values. cbn [d_init d_goal]. rewrite (proj2 (vget_ok di s (nth s di None))) by (apply nth_error_nth'; lia). rewrite (proj2 (vget_ok dg s (nth s dg None))) by (apply nth_error_nth'; lia). cbn [bind]. reflexivity.
Qed.

(** rows and their entries *)
Definition flatten (m : list (option nat * list (option nat * list nat))) : list (key * list nat) :=
  flat_map (fun row => map (fun e => ((fst row, fst e), snd e)) (in_direction h_high (snd row))) (in_direction f_high m).
Lemma flatten_snd m : map snd (flatten m) = flat_map (fun row => map snd (in_direction h_high (snd row))) (in_direction f_high m).
Proof. unfold flatten. induction (in_direction f_high m) as [|r l IH]; cbn [flat_map]; auto. rewrite map_app, IH. f_equal. rewrite map_map. reflexivity. Qed.
Lemma flatten_In m f h b : In ((f, h), b) (flatten m) <-> exists row, In (f, row) m /\ In (h, b) row.
Proof.
  unfold flatten. rewrite in_flat_map. split.
  - intros ([f' row] & Hr & He). apply in_direction_In in Hr. cbn [fst snd] in He. apply in_map_iff in He as ([h' b'] & E & He). apply in_direction_In in He. cbn [fst snd] in E. inv E. eauto.
  - intros (row & Hr & He). exists (f, row). split; [now apply in_direction_In|]. apply in_map_iff. exists (h, b). split; auto. now apply in_direction_In.
Qed.
Lemma flatten_sorted m : ksorted m -> (forall f row, In (f, row) m -> ksorted row) -> StronglySorted key_lt (map fst (flatten m)).
Proof.
  intros Hm Hr. unfold flatten. unfold ksorted in Hm. apply (in_direction_sorted f_high) in Hm. rewrite <- in_direction_map in Hm.
  assert (Hr' : forall f row, In (f, row) (in_direction f_high m) -> ksorted row) by (intros f row H; apply in_direction_In in H; eauto). clear Hr. revert Hm Hr'.
  induction (in_direction f_high m) as [|[f row] l IH]; intros Hm Hr; cbn [flat_map map fst snd]; [constructor|]. cbn [map fst] in Hm. inversion Hm; subst. rewrite map_app. apply sorted_app.
  - specialize (Hr f row (or_introl eq_refl)). unfold ksorted in Hr. apply (in_direction_sorted h_high) in Hr. rewrite <- in_direction_map in Hr. revert Hr. generalize (in_direction h_high row) as es. clear. induction es as [|[h b] es IH]; intros H; cbn [map fst snd]; [constructor|]. cbn [map fst] in H. inversion H; subst. constructor; auto. apply Forall_forall. intros k Hk. apply in_map_iff in Hk as (e & <- & Hk). apply in_map_iff in Hk as (e' & <- & He). cbn [fst snd]. right. cbn [fst snd]. split; auto. rewrite Forall_forall in H3. apply H3. now apply in_map.
  - apply IH; auto. intros f' row' Hin. apply (Hr f'). now right.
  - intros a b Ha Hb. apply in_map_iff in Ha as (e & <- & Ha). apply in_map_iff in Ha as (e1 & <- & _). apply in_map_iff in Hb as (e' & <- & Hb). apply in_flat_map in Hb as ([f' row'] & Hf' & Hb). apply in_map_iff in Hb as (e2 & <- & _). left. cbn [fst snd]. rewrite Forall_forall in H2. apply H2. apply in_map_iff. exists (f', row'). auto.
Qed.

(** ** The map version *)
Definition MI (pre : list nat) (m : list (option nat * list (option nat * list nat))) : Prop :=
  ksorted m /\ (forall f row, In (f, row) m -> ksorted row) /\
  (forall f row h b, In (f, row) m -> In (h, b) row -> b <> [] /\ NoDup b /\ forall s, In s b <-> In s pre /\ key_of s = (f, h)) /\
  (forall s, In s pre -> exists row b, In (fst (key_of s), row) m /\ In (snd (key_of s), b) row).
Lemma use_map_ok : exists bs, ordered_buckets_use_map f_high h_high n {| d_init := Some di; d_goal := Some dg |} = Ok bs /\ ordered_by_fh f_high h_high n di dg bs.
Proof.
  unfold ordered_buckets_use_map.
  destruct (fold_inv (fun m s => let* (f, h) := state_values {| d_init := Some di; d_goal := Some dg |} s in Ok (map_update m f [] (fun row => map_update row h [] (fun bucket => bucket ++ [s])))) MI (seq 0 n) []) as (m & E & M1 & M2 & M3 & M4).
  - unfold MI. splits; [constructor|intros f row []|intros f row h b []|intros s []].
  - intros pre x post m Hseq (M1 & M2 & M3 & M4). assert (Hx : x < n) by (assert (In x (seq 0 n)) by (rewrite Hseq; apply in_app_iff; right; now left); apply in_seq in H; lia).
    assert (Hxp : ~ In x pre) by (pose proof (seq_NoDup n 0) as Hd; rewrite Hseq in Hd; apply NoDup_remove_2 in Hd; intros Hp; apply Hd, in_app_iff; auto).
    rewrite (state_values_ok x Hx). unfold key_of at 1. cbn [bind]. eexists. split; [reflexivity|]. set (f := f_of di dg x) in *. set (h := h_of dg x) in *. assert (Kx : key_of x = (f, h)) by reflexivity.
    set (ur := fun row : list (option nat * list nat) => map_update row h [] (fun bucket => bucket ++ [x])).
    destruct (map_update_ok f [] ur m M1) as [U1 U2].
    assert (Hrow : forall old, (In (f, old) m \/ old = [] /\ forall y, ~ In (f, y) m) -> ksorted old /\ forall h' b, In (h', b) old -> b <> [] /\ NoDup b /\ forall s, In s b <-> In s pre /\ key_of s = (f, h')).
    { intros old [Ho|[-> _]]; [split; [eauto|intros h' b Hb; eauto]|]. split; [constructor|intros h' b []]. }
    assert (Hold : exists old, In (f, old) m \/ old = [] /\ forall y, ~ In (f, y) m).
    { assert (D : (exists y, In (f, y) m) \/ forall y, ~ In (f, y) m).
      { clear. induction m as [|[k a] r [(y & Hy)|IH]]; [right; intros y []|left; exists y; now right|]. destruct (oeqb k f) eqn:Ek.
        - apply oeqb_spec in Ek. subst. left. exists a. now left.
        - right. intros y [Ey|Hy]; [inv Ey; rewrite (proj2 (oeqb_spec f f) eq_refl) in Ek; discriminate|exact (IH y Hy)]. }
      destruct D as [(y & Hy)|D]; [exists y; auto|exists []; auto]. }
    unfold MI. splits; auto.
    + intros f' row Hin. apply U2 in Hin as [[_ Hin]|[_ (old & Ho & ->)]]; [eauto|]. destruct (Hrow old Ho) as [R1 _]. apply map_update_ok; auto.
    + intros f' row h' b Hin Hb. apply U2 in Hin as [[Nf Hin]|[-> (old & Ho & ->)]].
      * destruct (M3 f' row h' b Hin Hb) as (A & B & C). splits; auto. intros s. rewrite C, in_app_iff. cbn [In]. split; [tauto|]. intros [[Hs|[<-|[]]] Hk]; auto. rewrite Kx in Hk. inv Hk. congruence.
      * destruct (Hrow old Ho) as [R1 R2]. unfold ur in Hb. destruct (map_update_ok h [] (fun bucket => bucket ++ [x]) old R1) as [_ V2]. apply V2 in Hb as [[Nh Hb]|[-> (ob & Hob & ->)]].
        -- destruct (R2 h' b Hb) as (A & B & C). splits; auto. intros s. rewrite C, in_app_iff. cbn [In]. split; [tauto|]. intros [[Hs|[<-|[]]] Hk]; auto. rewrite Kx in Hk. inv Hk. congruence.
        -- assert (HB : NoDup ob /\ forall s, In s ob <-> In s pre /\ key_of s = (f, h)).
           { destruct Hob as [Hob|[-> Hn]]; [destruct (R2 h ob Hob) as (_ & B & C); auto|]. split; [constructor|]. intros s. split; [intros []|]. intros [Hs Hk]. exfalso.
             destruct (M4 s Hs) as (row & b & A & B). rewrite Hk in A, B. cbn [fst snd] in A, B. destruct Ho as [Ho|[-> Hno]]; [|exact (Hno row A)]. assert (row = old) by exact (ksorted_unique m f row old M1 A Ho). subst row. exact (Hn b B). }
           destruct HB as [HB1 HB2]. splits.
           ++ intros Eb. apply app_eq_nil in Eb as [_ Eb]. discriminate.
           ++ apply NoDup_app_disj; auto; [repeat constructor; intros []|]. intros s Hs [<-|[]]. apply HB2 in Hs. tauto.
           ++ intros s. rewrite !in_app_iff, HB2. cbn [In]. split; [intros [[? ?]|[<-|[]]]; auto|]. intros [[?|[<-|[]]] ?]; auto.
    + intros s Hs. assert (G : forall k hh, (exists row b, In (k, row) m /\ In (hh, b) row) \/ (k, hh) = (f, h) -> exists row b, In (k, row) (map_update m f [] ur) /\ In (hh, b) row).
      { intros k hh Hc. destruct (oeqb k f) eqn:Ek.
        - apply oeqb_spec in Ek. subst k. destruct Hold as [old Ho]. destruct (Hrow old Ho) as [R1 _]. destruct (map_update_ok h [] (fun bucket => bucket ++ [x]) old R1) as [_ V2].
          assert (Hin : exists b, In (hh, b) (ur old)).
          { destruct (oeqb hh h) eqn:Eh.
            - apply oeqb_spec in Eh. subst hh.
              assert (D : (exists y, In (h, y) old) \/ forall y, ~ In (h, y) old).
              { clear. induction old as [|[k a] r [(y & Hy)|IH]]; [right; intros y []|left; exists y; now right|]. destruct (oeqb k h) eqn:Ek.
                - apply oeqb_spec in Ek. subst. left. exists a. now left.
                - right. intros y [Ey|Hy]; [inv Ey; rewrite (proj2 (oeqb_spec h h) eq_refl) in Ek; discriminate|exact (IH y Hy)]. }
              destruct D as [(y & Hy)|D]; [exists (y ++ [x])|exists ([] ++ [x])]; apply V2; right; (split; [reflexivity|]); [exists y; auto|exists []; auto].
            - assert (Nh : hh <> h) by (intros ->; rewrite (proj2 (oeqb_spec h h) eq_refl) in Eh; discriminate). destruct Hc as [(row & b & A & B)|E']; [|congruence]. exists b. apply V2. left. split; auto.
              destruct Ho as [Ho|[-> Hno]]; [|destruct (Hno row A)]. assert (row = old) by exact (ksorted_unique m f row old M1 A Ho). now subst row. }
          destruct Hin as [b Hb]. exists (ur old), b. split; auto. apply U2. right. split; auto. exists old. auto.
        - assert (Nk : k <> f) by (intros ->; rewrite (proj2 (oeqb_spec f f) eq_refl) in Ek; discriminate). destruct Hc as [(row & b & A & B)|E']; [|congruence]. exists row, b. split; auto. apply U2. auto. }
      apply in_app_iff in Hs as [Hs|[<-|[]]]; apply G; auto.
  - cbn [app] in E. rewrite E. cbn [bind]. eexists. split; [reflexivity|]. rewrite <- flatten_snd. apply keyed_ok. unfold keyed. splits.
    + now apply flatten_sorted.
    + intros [f h] b Hin. apply flatten_In in Hin as (row & A & B). destruct (M3 f row h b A B) as (X & Y & Z). splits; auto. intros s. rewrite Z, in_seq. split; intros [? ?]; split; auto; lia.
    + intros s Hs. destruct (M4 s) as (row & b & A & B); [apply in_seq; lia|]. exists b. rewrite (surjective_pairing (key_of s)). apply flatten_In. eauto.
Qed.

(** ** The vector version *)
Definition VI (max_f max_h : nat) (pre : list nat) (table : list (list (list nat))) : Prop :=
  length table = max_f + 1 /\ forall f row, nth_error table f = Some row -> length row = Nat.min f max_h + 1 /\
    forall h b, nth_error row h = Some b -> NoDup b /\ forall s, In s b <-> In s pre /\ key_of s = (Some f, Some h).
Lemma use_vector_ok max_f max_h : (forall s, s < n -> exists f h, key_of s = (Some f, Some h) /\ f <= max_f /\ h <= max_h) ->
  exists bs, ordered_buckets_use_vector f_high h_high n {| d_init := Some di; d_goal := Some dg |} max_f max_h = Ok bs /\ ordered_by_fh f_high h_high n di dg bs.
Proof.
  intros Hmax. unfold ordered_buckets_use_vector.
  assert (Hfh : forall s f h, key_of s = (Some f, Some h) -> h <= f).
  { intros s f h E. unfold key_of, f_of, h_of in E. destruct (nth s di None), (nth s dg None); inv E. lia. }
  set (step := fun (table : list (list (list nat))) s => let* (f, h) := state_values {| d_init := Some di; d_goal := Some dg |} s in
      match f, h with
      | Some f, Some h => let* row := vget table f in let* bucket := vget row h in let* row := vset row h (bucket ++ [s]) in vset table f row
      | _, _ => UB
      end).
  destruct (fold_inv step (VI max_f max_h) (seq 0 n) (map (fun f => repeat [] (Nat.min f max_h + 1)) (seq 0 (max_f + 1)))) as (tab & E & V1 & V2).
  - unfold VI. split; [now rewrite map_length, seq_length|]. intros f row Hr. rewrite nth_error_map in Hr. destruct (nth_error (seq 0 (max_f + 1)) f) as [x|] eqn:Ex; [|discriminate]. cbn [option_map] in Hr. inv Hr.
    assert (x = f). { pose proof (nth_error_Some_lt _ _ _ Ex) as Hlt. rewrite seq_length in Hlt. apply (nth_error_nth _ _ 0) in Ex. rewrite seq_nth in Ex by auto. lia. } subst x. rewrite repeat_length. split; auto.
    intros h b Hb. apply nth_error_In in Hb. apply repeat_spec in Hb. subst b. split; [constructor|]. intros s. split; [intros []|intros [[] _]].
  - intros pre x post tab Hseq [V1 V2]. assert (Hx : x < n) by (assert (In x (seq 0 n)) by (rewrite Hseq; apply in_app_iff; right; now left); apply in_seq in H; lia).
    assert (Hxp : ~ In x pre) by (pose proof (seq_NoDup n 0) as Hd; rewrite Hseq in Hd; apply NoDup_remove_2 in Hd; intros Hp; apply Hd, in_app_iff; auto).
    unfold step. rewrite (state_values_ok x Hx). destruct (Hmax x Hx) as (f & h & Ek & Lf & Lh). pose proof (Hfh x f h Ek) as Lhf. rewrite Ek. cbn [bind].
    destruct (nth_error tab f) as [row|] eqn:Er; [|apply nth_error_None in Er; lia]. rewrite (proj2 (vget_ok _ _ _) Er). cbn [bind]. destruct (V2 f row Er) as [L1 L2].
    destruct (nth_error row h) as [b|] eqn:Eb; [|apply nth_error_None in Eb; lia]. rewrite (proj2 (vget_ok _ _ _) Eb). cbn [bind].
    unfold vset at 1. rewrite (proj2 (Nat.ltb_lt h (length row))) by lia. cbn [bind]. unfold vset. rewrite (proj2 (Nat.ltb_lt f (length tab))) by lia. eexists. split; [reflexivity|]. split; [now rewrite upd_length|].
    intros f' row' Hr'. destruct (Nat.eq_dec f' f) as [->|Nf].
    + rewrite upd_nth_eq in Hr' by lia. inv Hr'. rewrite upd_length. split; auto. intros h' b' Hb'. destruct (Nat.eq_dec h' h) as [->|Nh].
      * rewrite upd_nth_eq in Hb' by lia. inv Hb'. destruct (L2 h b Eb) as [B1 B2]. split.
        -- apply NoDup_app_disj; auto; [repeat constructor; intros []|]. intros s Hs [<-|[]]. apply B2 in Hs. tauto.
        -- intros s. rewrite !in_app_iff, B2. cbn [In]. split; [intros [[? ?]|[<-|[]]]; auto|]. intros [[?|[<-|[]]] ?]; auto.
      * rewrite upd_nth_neq in Hb' by auto. destruct (L2 h' b' Hb') as [B1 B2]. split; auto. intros s. rewrite B2, in_app_iff. cbn [In]. split; [tauto|]. intros [[?|[<-|[]]] Hk]; auto. rewrite Ek in Hk. inv Hk. congruence.
    + rewrite upd_nth_neq in Hr' by auto. destruct (V2 f' row' Hr') as [L1' L2']. split; auto. intros h' b' Hb'. destruct (L2' h' b' Hb') as [B1 B2]. split; auto. intros s. rewrite B2, in_app_iff. cbn [In]. split; [tauto|]. intros [[?|[<-|[]]] Hk]; auto. rewrite Ek in Hk. inv Hk. congruence.
  - cbn [app] in E. rewrite E. cbn [bind]. eexists. split; [reflexivity|]. set (ne := fun b : list nat => match b with [] => false | _ => true end).
    set (m := number (map number tab)).
    assert (Em : flat_map (fun row => filter ne (in_direction h_high row)) (in_direction f_high tab) = map snd (filter (fun e => ne (snd e)) (flatten m))).
    { assert (G1 : forall (l : list (key * list nat)), map snd (filter (fun e => ne (snd e)) l) = filter ne (map snd l)) by (induction l as [|e l IH]; cbn [filter map]; auto; destruct (ne (snd e)); cbn [map]; now rewrite IH).
      rewrite G1, flatten_snd. unfold m.
      assert (G2 : forall (l : list (option nat * list (option nat * list nat))), filter ne (flat_map (fun row => map snd (in_direction h_high (snd row))) l) = flat_map (fun row => filter ne (in_direction h_high (map snd row))) (map snd l)).
      { induction l as [|e l IH]; cbn [flat_map map]; auto. rewrite filter_app, IH. f_equal. now rewrite in_direction_map. }
      rewrite G2, in_direction_map, number_snd. clear. assert (G3 : in_direction f_high (map number tab) = map number (in_direction f_high tab)) by (symmetry; apply in_direction_map). rewrite G3. clear G3. induction (in_direction f_high tab) as [|r l IH]; cbn [flat_map map]; auto. rewrite IH, number_snd. reflexivity. }
    change (ordered_by_fh f_high h_high n di dg (flat_map (fun row => filter ne (in_direction h_high row)) (in_direction f_high tab))). rewrite Em. apply keyed_ok.
    assert (HI : forall f h b, In ((f, h), b) (flatten m) <-> exists i j row, f = Some i /\ h = Some j /\ nth_error tab i = Some row /\ nth_error row j = Some b).
    { intros f h b. rewrite flatten_In. unfold m. split.
      - intros (row & A & B). apply number_In in A as (i & -> & Hi). rewrite nth_error_map in Hi. destruct (nth_error tab i) as [r|] eqn:Et; [|discriminate]. cbn [option_map] in Hi. inv Hi. apply number_In in B as (j & -> & Hj). exists i, j, r. auto.
      - intros (i & j & row & -> & -> & A & B). exists (number row). split; [apply number_In; exists i; split; auto; rewrite nth_error_map, A; reflexivity|]. apply number_In. eauto. }
    unfold keyed. splits.
    + assert (G : StronglySorted key_lt (map fst (flatten m))).
      { apply flatten_sorted; [apply number_sorted|]. intros f row Hin. apply number_In in Hin as (i & _ & Hi). rewrite nth_error_map in Hi. destruct (nth_error tab i); [|discriminate]. cbn [option_map] in Hi. inv Hi. apply number_sorted. }
      revert G. generalize (flatten m) as l. clear. induction l as [|e l IH]; intros G; cbn [filter map]; [constructor|]. cbn [map] in G. inversion G; subst. destruct (ne (snd e)); auto. cbn [map]. constructor; auto. rewrite Forall_forall in *. intros k Hk. apply H2. apply in_map_iff in Hk as (e' & <- & He). apply filter_In in He as [He _]. now apply in_map.
    + intros [f h] b Hin. apply filter_In in Hin as [Hin Hne]. apply HI in Hin as (i & j & row & -> & -> & A & B). destruct (V2 i row A) as [_ L]. destruct (L j b B) as [B1 B2]. splits; auto.
      * intros ->. discriminate.
      * intros s. rewrite B2, in_seq. split; intros [? ?]; split; auto; lia.
    + intros s Hs. destruct (Hmax s Hs) as (f & h & Ek & Lf & Lh). pose proof (Hfh s f h Ek) as Lhf.
      destruct (nth_error tab f) as [row|] eqn:Er; [|apply nth_error_None in Er; lia]. destruct (V2 f row Er) as [L1 L2]. destruct (nth_error row h) as [b|] eqn:Eb; [|apply nth_error_None in Eb; lia]. destruct (L2 h b Eb) as [B1 B2].
      exists b. rewrite Ek. apply filter_In. split; [apply HI; exists f, h, row; auto|]. cbn [snd]. assert (Hin : In s b) by (apply B2; split; auto; apply in_seq; lia). destruct b; [destruct Hin|reflexivity].
Qed.

Lemma maxima_ok : exists mf mh, fold_outcome (fun (acc : option nat * option nat) s =>
      let* (f, h) := state_values {| d_init := Some di; d_goal := Some dg |} s in Ok (omax (fst acc) f, omax (snd acc) h)) (seq 0 n) (Some 0, Some 0) = Ok (mf, mh) /\
  forall F H, mf = Some F -> mh = Some H -> forall s, s < n -> exists f h, key_of s = (Some f, Some h) /\ f <= F /\ h <= H.
Proof.
  destruct (fold_inv (fun (acc : option nat * option nat) s => let* (f, h) := state_values {| d_init := Some di; d_goal := Some dg |} s in Ok (omax (fst acc) f, omax (snd acc) h))
    (fun pre acc => forall F H, acc = (Some F, Some H) -> forall s, In s pre -> exists f h, key_of s = (Some f, Some h) /\ f <= F /\ h <= H) (seq 0 n) (Some 0, Some 0)) as ([mf mh] & E & I).
  - intros F H _ s [].
  - intros pre x post [a b] Hseq I. assert (Hx : x < n) by (assert (In x (seq 0 n)) by (rewrite Hseq; apply in_app_iff; right; now left); apply in_seq in H; lia).
    rewrite (state_values_ok x Hx). destruct (key_of x) as [f h] eqn:Ek. cbn [bind fst snd]. eexists. split; [reflexivity|]. intros F H EE s Hs. destruct a as [a|], f as [f|]; try discriminate. destruct b as [b|], h as [h|]; try discriminate. cbn [omax] in EE. inv EE.
    apply in_app_iff in Hs as [Hs|[<-|[]]].
    + destruct (I a b eq_refl s Hs) as (f' & h' & A & B & C). exists f', h'. splits; auto; lia.
    + exists f, h. splits; auto; lia.
  - exists mf, mh. split; auto. intros F H -> -> s Hs. apply (I F H eq_refl). apply in_seq. lia.
Qed.
Lemma fh_buckets_ok T : ts_n T = n -> exists bs, fh_buckets f_high h_high T {| d_init := Some di; d_goal := Some dg |} = Ok bs /\ ordered_by_fh f_high h_high n di dg bs.
Proof.
  intros HT. unfold fh_buckets. rewrite HT. destruct maxima_ok as (mf & mh & -> & HM). cbn [bind]. destruct mf as [F|]; [|apply use_map_ok]. destruct mh as [H|]; [|apply use_map_ok].
  destruct (2 * n <? F * F); [apply use_map_ok|]. apply use_vector_ok. exact (HM F H eq_refl eq_refl).
Qed.
End KEYS.

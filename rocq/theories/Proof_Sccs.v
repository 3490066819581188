(** Tarjan's algorithm computes the strongly connected components in topological order. *)
From Verif Require Import Outcome Spec_Graph Model_Sccs.
From Coq Require Import Permutation.

Lemma reach_trans g x y z : reach g x y -> reach g y z -> reach g x z.
Proof. induction 1; auto. intros. econstructor; eauto. Qed.
Lemma reach_edge g x y : edge g x y -> reach g x y.
Proof. intros. econstructor; eauto. constructor. Qed.

Definition znth (l : list Z) (v : nat) : Z := nth v l (-1)%Z.
Lemma znth_Some l v x : nth_error l v = Some x -> znth l v = x.
Proof. intros H. unfold znth. now apply nth_error_nth. Qed.
Lemma znth_lt l v : znth l v <> (-1)%Z -> v < length l.
Proof. intros H. destruct (Nat.lt_ge_cases v (length l)); auto. unfold znth in H. rewrite nth_overflow in H; congruence. Qed.
Lemma nth_znth l v : v < length l -> nth_error l v = Some (znth l v).
Proof. intros H. unfold znth. now apply nth_error_nth'. Qed.
Lemma znth_upd l v d x : v < length l -> znth (upd l v d) x = if x =? v then d else znth l x.
Proof.
  intros H. destruct (Nat.eqb_spec x v) as [->|Hn].
  - apply znth_Some. now apply upd_nth_eq.
  - destruct (Nat.lt_ge_cases x (length l)).
    + apply znth_Some. rewrite upd_nth_neq by auto. now apply nth_znth.
    + unfold znth. rewrite !nth_overflow; auto. now rewrite upd_length.
Qed.

Definition unv (l : list Z) : nat := length (filter (fun x => (x =? -1)%Z) l).
Lemma unv_upd l v d : nth_error l v = Some (-1)%Z -> d <> (-1)%Z -> unv l = S (unv (upd l v d)).
Proof.
  intros H Hd. destruct (upd_split l v d _ H) as (l1 & l2 & -> & _ & ->). unfold unv. rewrite !filter_app, !app_length. cbn.
  destruct (Z.eqb_spec d (-1)); [contradiction|]. cbn. lia.
Qed.

Section P.
Variable g : list (list nat).
Hypothesis Hg : well_formed g.
Notation n := (length g).
Notation num s := (znth (t_num s)).

Record wf (s : tarjan) (G : list nat) : Prop := {
  w_len1 : length (t_num s) = n;
  w_len2 : length (t_min s) = n;
  w_len3 : length (t_idx s) = n;
  w_next : (0 <= t_next s)%Z;
  w_range : forall v, (-1 <= num s v < t_next s)%Z;
  w_sorted : forall i j x y, i < j -> nth_error (t_stack s) i = Some x -> nth_error (t_stack s) j = Some y -> (num s x < num s y)%Z;
  w_on : forall v i, nth_error (t_stack s) i = Some v -> nth_error (t_idx s) v = Some (Z.of_nat i);
  w_off : forall v, v < n -> ~ In v (t_stack s) -> nth_error (t_idx s) v = Some (-1)%Z;
  w_vis : forall v, num s v <> (-1)%Z <-> In v (t_stack s) \/ In v (concat (t_sccs s));
  w_disj : forall v, In v (t_stack s) -> ~ In v (concat (t_sccs s));
  w_gray : incl G (t_stack s);
  w_closed : forall x y, num s x <> (-1)%Z -> ~ In x G -> edge g x y -> num s y <> (-1)%Z;
  w_topo : forall i C x y, nth_error (t_sccs s) i = Some C -> In x C -> edge g x y ->
    exists j D, j <= i /\ nth_error (t_sccs s) j = Some D /\ In y D;
  w_scc : forall C, In C (t_sccs s) -> C <> [] /\ forall x, In x C -> forall y, In y C <-> reach g x y /\ reach g y x;
  w_nodup : NoDup (concat (t_sccs s));
  w_order : forall i j x y, i <= j -> nth_error (t_stack s) i = Some x -> nth_error (t_stack s) j = Some y -> reach g x y;
  w_back : forall y, In y (t_stack s) -> exists x, In x G /\ (num s x <= num s y)%Z /\ reach g y x }.

Lemma wf_stack_nodup s G : wf s G -> NoDup (t_stack s).
Proof.
  intros H. apply NoDup_nth_error. intros i j Hi E.
  destruct (nth_error (t_stack s) i) as [x|] eqn:Ei; [|apply nth_error_None in Ei; lia].
  destruct (Nat.lt_trichotomy i j) as [Hl|[?|Hl]]; auto.
  - pose proof (w_sorted _ _ H i j x x Hl Ei (eq_sym E)). lia.
  - pose proof (w_sorted _ _ H j i x x Hl (eq_sym E) Ei). lia.
Qed.

Lemma stack_visited s G v : wf s G -> In v (t_stack s) -> num s v <> (-1)%Z.
Proof. intros H Hv. apply (w_vis _ _ H). auto. Qed.
Lemma stack_lt s G v : wf s G -> In v (t_stack s) -> v < n.
Proof. intros H Hv. rewrite <- (w_len1 _ _ H). apply znth_lt. eapply stack_visited; eauto. Qed.
Lemma sccs_visited s G v : wf s G -> In v (concat (t_sccs s)) -> num s v <> (-1)%Z.
Proof. intros H Hv. apply (w_vis _ _ H). auto. Qed.

Lemma sccs_closed s G x y : wf s G -> reach g x y -> In x (concat (t_sccs s)) -> In y (concat (t_sccs s)).
Proof.
  intros H Hr. induction Hr as [|x z y He Hr IH]; auto. intros Hx. apply IH.
  apply in_concat in Hx. destruct Hx as (C & HC & Hx). apply In_nth_error in HC. destruct HC as [i Hi].
  destruct (w_topo _ _ H i C x z Hi Hx He) as (j & D & _ & Hj & Hz). apply in_concat. exists D. split; auto. eapply nth_error_In; eauto.
Qed.

(* what a call leaves unchanged *)
Record frame (s s' : tarjan) : Prop := {
  f_num : forall x, num s x <> (-1)%Z -> num s' x = num s x;
  f_min : forall x, num s x <> (-1)%Z -> nth_error (t_min s') x = nth_error (t_min s) x;
  f_next : (t_next s <= t_next s')%Z;
  f_new : forall x, num s x = (-1)%Z -> num s' x = (-1)%Z \/ (t_next s <= num s' x)%Z;
  f_unv : unv (t_num s') <= unv (t_num s) }.

Definition low_ok (s : tarjan) (v : nat) (suf : list nat) (l : Z) : Prop :=
  (suf = [] /\ l = t_next s) \/ (exists y, In y (t_stack s) /\ l = num s y /\ reach g v y).

Definition post (s : tarjan) (G : list nat) (v : nat) (s' : tarjan) : Prop :=
  exists suf l, wf s' G /\ frame s s' /\ t_stack s' = t_stack s ++ suf /\ num s' v = t_next s /\
    nth_error (t_min s') v = Some l /\ low_ok s v suf l /\
    (forall x y, In x suf -> In y (t_stack s) -> edge g x y -> (l <= num s y)%Z).

(* the state after 12-15 *)
Definition entered (s : tarjan) (v : nat) : tarjan :=
  {| t_num := upd (t_num s) v (t_next s); t_min := upd (t_min s) v (t_next s);
     t_idx := upd (t_idx s) v (Z.of_nat (length (t_stack s))); t_stack := t_stack s ++ [v];
     t_next := t_next s + 1; t_sccs := t_sccs s |}.

Lemma entered_num s G v x : wf s G -> v < n -> num (entered s v) x = if x =? v then t_next s else num s x.
Proof. intros H Hv. cbn. apply znth_upd. now rewrite (w_len1 _ _ H). Qed.

Lemma snoc_nth {A} (l : list A) v i x : nth_error (l ++ [v]) i = Some x ->
  (i < length l /\ nth_error l i = Some x) \/ (i = length l /\ x = v).
Proof.
  intros H. destruct (Nat.lt_ge_cases i (length l)).
  - rewrite nth_error_app1 in H; auto.
  - rewrite nth_error_app2 in H by lia. destruct (i - length l) as [|k] eqn:E; cbn in H; [|destruct k; discriminate].
    injection H as ->. right. split; auto. lia.
Qed.

Lemma entered_wf s G v : wf s G -> v < n -> num s v = (-1)%Z -> (forall x, In x G -> reach g x v) -> wf (entered s v) (v :: G).
Proof.
  intros H Hv Hun HG.
  assert (Hnst : ~ In v (t_stack s)) by (intros Hin; apply (stack_visited _ _ _ H) in Hin; contradiction).
  assert (Hnsc : ~ In v (concat (t_sccs s))) by (intros Hin; apply (sccs_visited _ _ _ H) in Hin; contradiction).
  assert (Hst : forall x, In x (t_stack s) -> (x =? v) = false) by (intros x Hx; apply Nat.eqb_neq; intros ->; contradiction).
  assert (Hrv : forall x, In x (t_stack s) -> reach g x v).
  { intros x Hx. destruct (w_back _ _ H x Hx) as (q & Hq & _ & Hr). eapply reach_trans; eauto. }
  pose proof (w_next _ _ H) as Hn0.
  constructor.
  - cbn. rewrite upd_length. apply H.
  - cbn. rewrite upd_length. apply H.
  - cbn. rewrite upd_length. apply H.
  - cbn. lia.
  - intros x. rewrite (entered_num s G) by auto. cbn [t_next entered]. destruct (x =? v); [lia|]. pose proof (w_range _ _ H x). lia.
  - intros i j x y Hij Hi Hj. rewrite !(entered_num s G) by auto. cbn [t_stack entered] in *.
    apply snoc_nth in Hi, Hj. destruct Hj as [[Hjl Hj]|[-> ->]]; destruct Hi as [[Hil Hi]|[-> ->]]; try lia.
    + rewrite !Hst by (eapply nth_error_In; eauto). eapply (w_sorted _ _ H i j); eauto.
    + rewrite Hst by (eapply nth_error_In; eauto). rewrite Nat.eqb_refl. apply (w_range _ _ H).
  - intros x i Hi. cbn [t_stack t_idx entered] in *. apply snoc_nth in Hi. destruct Hi as [[Hil Hi]|[-> ->]].
    + rewrite upd_nth_neq by (intros <-; apply Hnst; eapply nth_error_In; eauto). now apply (w_on _ _ H).
    + apply upd_nth_eq. now rewrite (w_len3 _ _ H).
  - intros x Hx Hin. cbn [t_stack t_idx entered] in *. rewrite in_app_iff in Hin. rewrite upd_nth_neq by (intros <-; apply Hin; cbn; auto).
    apply (w_off _ _ H); auto.
  - intros x. rewrite (entered_num s G) by auto. cbn [t_stack t_sccs entered]. rewrite in_app_iff. cbn [In].
    destruct (Nat.eqb_spec x v) as [->|Hx].
    + split; [auto|]. intros _. lia.
    + rewrite (w_vis _ _ H). intuition congruence.
  - intros x. cbn [t_stack t_sccs entered]. rewrite in_app_iff. intros [Hx|[<-|[]]]; auto. now apply (w_disj _ _ H).
  - intros x. cbn [t_stack entered]. rewrite in_app_iff. intros [<-|Hx]; [right; now left|]. left. now apply (w_gray _ _ H).
  - intros x y. rewrite !(entered_num s G) by auto. intros Hx HnG He. destruct (Nat.eqb_spec y v); [lia|].
    destruct (Nat.eqb_spec x v) as [->|Hxv]; [exfalso; apply HnG; now left|]. apply (w_closed _ _ H x y); auto. intros Hin. apply HnG. now right.
  - exact (w_topo _ _ H).
  - exact (w_scc _ _ H).
  - exact (w_nodup _ _ H).
  - intros i j x y Hij Hi Hj. cbn [t_stack entered] in *. apply snoc_nth in Hi, Hj.
    destruct Hj as [[Hjl Hj]|[-> ->]]; destruct Hi as [[Hil Hi]|[-> ->]]; try lia.
    + eapply (w_order _ _ H i j); eauto.
    + apply Hrv. eapply nth_error_In; eauto.
    + constructor.
  - intros y. cbn [t_stack entered]. rewrite in_app_iff. intros [Hy|[<-|[]]].
    + destruct (w_back _ _ H y Hy) as (x & Hx & Hle & Hr). exists x. splits; [now right| |exact Hr].
      rewrite !(entered_num s G) by auto. rewrite !Hst; auto. now apply (w_gray _ _ H).
    + exists v. splits; [now left|lia|constructor].
Qed.

Lemma entered_frame s G v : wf s G -> v < n -> num s v = (-1)%Z -> frame s (entered s v) /\ unv (t_num s) = S (unv (t_num (entered s v))).
Proof.
  intros H Hv Hun. pose proof (w_next _ _ H).
  assert (Hu : unv (t_num s) = S (unv (t_num (entered s v)))).
  { cbn. apply unv_upd; [|lia]. rewrite nth_znth by (rewrite (w_len1 _ _ H); auto). now rewrite Hun. }
  split; auto. constructor.
  - intros x Hx. rewrite (entered_num s G) by auto. destruct (Nat.eqb_spec x v); [subst; contradiction|auto].
  - intros x Hx. cbn. apply upd_nth_neq. intros ->. contradiction.
  - cbn. lia.
  - intros x Hx. rewrite (entered_num s G) by auto. destruct (x =? v); [right; lia|auto].
  - lia.
Qed.

Lemma frame_trans s1 s2 s3 : frame s1 s2 -> frame s2 s3 -> frame s1 s3.
Proof.
  intros [A1 A2 A3 A4 A5] [B1 B2 B3 B4 B5]. constructor; try lia.
  - intros x Hx. rewrite B1, A1; auto. now rewrite A1.
  - intros x Hx. rewrite B2, A2; auto. now rewrite A1.
  - intros x Hx. destruct (Z.eq_dec (num s2 x) (-1)) as [E|E].
    + destruct (B4 x E); [auto|right; lia].
    + destruct (A4 x Hx); [contradiction|]. right. rewrite B1; auto.
Qed.

(* lowering the minimum of [v] *)
Definition with_min (s : tarjan) (mins : list Z) : tarjan :=
  {| t_num := t_num s; t_min := mins; t_idx := t_idx s; t_stack := t_stack s; t_next := t_next s; t_sccs := t_sccs s |}.
Lemma lower_min_ok s v m l : nth_error (t_min s) v = Some l -> lower_min s v m = Ok (with_min s (upd (t_min s) v (Z.min l m))).
Proof.
  intros H. unfold lower_min, vget, vset. rewrite H. cbn [bind]. pose proof (nth_error_Some_lt _ _ _ H).
  destruct (Nat.ltb_spec v (length (t_min s))); [reflexivity|lia].
Qed.
Lemma with_min_wf s G mins : wf s G -> length mins = n -> wf (with_min s mins) G.
Proof. intros [] Hl. constructor; auto. Qed.

(* loop invariant of 17-29 *)
Definition linv (s : tarjan) (G : list nat) (v : nat) (P : list nat) (sk : tarjan) : Prop :=
  exists suf l, wf sk (v :: G) /\
    (forall x, num (entered s v) x <> (-1)%Z -> num sk x = num (entered s v) x) /\
    (forall x, num s x <> (-1)%Z -> nth_error (t_min sk) x = nth_error (t_min s) x) /\
    (t_next s + 1 <= t_next sk)%Z /\
    (forall x, num (entered s v) x = (-1)%Z -> num sk x = (-1)%Z \/ (t_next s + 1 <= num sk x)%Z) /\
    unv (t_num sk) <= unv (t_num (entered s v)) /\
    t_stack sk = t_stack s ++ v :: suf /\ nth_error (t_min sk) v = Some l /\ (l <= t_next s)%Z /\
    (l = t_next s \/ exists y, In y (t_stack s) /\ l = num s y /\ reach g v y) /\
    (forall x y, In x suf -> In y (t_stack s) -> edge g x y -> (l <= num s y)%Z) /\
    (forall y, In y P -> num sk y <> (-1)%Z /\ (In y (t_stack s) -> (l <= num s y)%Z)).

Lemma In_stack_idx s G x : wf s G -> In x (t_stack s) -> exists i, nth_error (t_idx s) x = Some (Z.of_nat i).
Proof. intros H Hx. apply In_nth_error in Hx. destruct Hx as [i Hi]. exists i. now apply (w_on _ _ H). Qed.

Definition dfs_ok (f : nat) : Prop := forall s G v, wf s G -> v < n -> num s v = (-1)%Z -> (forall x, In x G -> reach g x v) ->
  unv (t_num s) <= f -> exists s', dfs f g v s = Ok s' /\ post s G v s'.

Lemma loop_step f s G v P c sk : dfs_ok f -> wf s G -> v < n -> num s v = (-1)%Z -> (forall x, In x G -> reach g x v) ->
  unv (t_num (entered s v)) <= f -> edge g v c -> linv s G v P sk ->
  exists sk', (let* succ_num := vget (t_num sk) c in
          if (succ_num =? -1)%Z then
            let* s' := dfs f g c sk in
            let* m := vget (t_min s') c in
            lower_min s' v m
          else
            let* on_stack := vget (t_idx sk) c in
            if (succ_num <? t_next s)%Z && negb (on_stack =? -1)%Z then lower_min sk v succ_num else Ok sk) = Ok sk' /\ linv s G v (P ++ [c]) sk'.
Proof.
  intros IHf H Hv Hun HG Hfu He (suf & l & Hw & Hnum & Hmin & Hnx & Hnew & Hunv & Hst & El & Hl & Hlow & Hsuf & HP).
  assert (Hc : c < n) by (eapply Hg; eauto).
  assert (Hold : forall x, In x (t_stack s) -> num sk x = num s x).
  { intros x Hx. assert (Hxv : x <> v) by (intros ->; apply (stack_visited _ _ _ H) in Hx; contradiction).
    assert (E : num (entered s v) x = num s x) by (rewrite (entered_num s G) by auto; destruct (Nat.eqb_spec x v); [contradiction|auto]).
    rewrite <- E. apply Hnum. rewrite E. eapply stack_visited; eauto. }
  assert (Hvnum : num sk v = t_next s).
  { rewrite Hnum; rewrite (entered_num s G), Nat.eqb_refl by auto; auto. pose proof (w_next _ _ H). lia. }
  unfold vget at 1. rewrite nth_znth by (rewrite (w_len1 _ _ Hw); auto). cbn [bind].
  destruct (Z.eqb_spec (num sk c) (-1)) as [Ec|Ec].
  - (* unvisited child *)
    destruct (IHf sk (v :: G) c Hw Hc Ec) as (s' & Es' & Hpost).
    { intros x [<-|Hx]; [now apply reach_edge|]. eapply reach_trans; [apply HG; auto|now apply reach_edge]. }
    { lia. }
    rewrite Es'. cbn [bind]. destruct Hpost as (suf' & lc & Hw' & [F1 F2 F3 F4 F5] & Hst' & Hcn & Elc & Hlowc & Hsufc).
    unfold vget. rewrite Elc. cbn [bind].
    assert (Hv' : num sk v <> (-1)%Z) by (rewrite Hvnum; pose proof (w_next _ _ H); lia).
    assert (El' : nth_error (t_min s') v = Some l) by (rewrite (F2 v Hv'); auto).
    rewrite (lower_min_ok _ _ _ _ El'). eexists. split; [reflexivity|].
    exists (suf ++ suf'), (Z.min l lc).
    assert (Hvl : v < length (t_min s')) by (rewrite (w_len2 _ _ Hw'); auto).
    splits.
    + apply with_min_wf; auto. rewrite upd_length. apply Hw'.
    + intros x Hx. cbn [with_min t_num]. rewrite F1; auto. now rewrite Hnum.
    + intros x Hx. cbn [with_min t_min]. assert (x <> v) by (intros ->; contradiction). rewrite upd_nth_neq by auto.
      rewrite F2, Hmin; auto. rewrite Hnum; rewrite (entered_num s G) by auto; destruct (Nat.eqb_spec x v); try contradiction; auto.
    + cbn [with_min t_next t_num]. lia.
    + intros x Hx. cbn [with_min t_num]. destruct (Z.eq_dec (num sk x) (-1)) as [E|E].
      * destruct (F4 x E); [auto|right; lia].
      * destruct (Hnew x Hx); [contradiction|]. right. rewrite F1; auto.
    + cbn [with_min t_next t_num]. lia.
    + cbn. rewrite Hst', Hst, <- app_assoc. reflexivity.
    + cbn. now apply upd_nth_eq.
    + lia.
    + destruct Hlowc as [[-> ->]|(y & Hy & Ey & Hr)].
      * rewrite Z.min_l by lia. exact Hlow.
      * rewrite Hst, in_app_iff in Hy. destruct Hy as [Hy|Hy].
        -- rewrite (Hold y Hy) in Ey. destruct (Z.min_spec l lc) as [[_ ->]|[_ ->]]; [exact Hlow|].
           right. exists y. splits; auto. econstructor; eauto.
        -- assert (l <= lc)%Z.
           { rewrite Ey. apply Z.le_trans with (t_next s); auto. destruct Hy as [<-|Hy]; [lia|].
             apply In_nth_error in Hy. destruct Hy as [i Hi].
             assert (Hlt : (num sk v < num sk y)%Z).
             { apply (w_sorted _ _ Hw (length (t_stack s)) (length (t_stack s) + S i)); [lia| |].
               - rewrite Hst, nth_error_app2, Nat.sub_diag; auto.
               - rewrite Hst, nth_error_app2 by lia. replace (length (t_stack s) + S i - length (t_stack s)) with (S i) by lia. exact Hi. }
             lia. }
           rewrite Z.min_l by lia. exact Hlow.
    + intros x y Hx Hy Hxy. rewrite in_app_iff in Hx. destruct Hx as [Hx|Hx].
      * pose proof (Hsuf x y Hx Hy Hxy). lia.
      * assert (Hy' : In y (t_stack sk)) by (rewrite Hst, in_app_iff; auto). pose proof (Hsufc x y Hx Hy' Hxy). rewrite (Hold y Hy) in H0. lia.
    + intros y Hy. rewrite in_app_iff in Hy. cbn [with_min t_num]. destruct Hy as [Hy|[<-|[]]].
      * destruct (HP y Hy) as [Hy1 Hy2]. split; [rewrite F1; auto|]. intros Hin. specialize (Hy2 Hin). lia.
      * split; [rewrite Hcn; pose proof (w_next _ _ Hw); lia|]. intros Hin.
        exfalso. apply (stack_visited _ _ c Hw); auto. rewrite Hst, in_app_iff. auto.
  - (* visited *)
    assert (Hcs : In c (t_stack s) -> (num sk c < t_next s)%Z) by (intros Hin; rewrite (Hold c Hin); apply (w_range _ _ H)).
    destruct (In_dec Nat.eq_dec c (t_stack sk)) as [Hin|Hin].
    + destruct (In_stack_idx _ _ _ Hw Hin) as [i Hi]. unfold vget. rewrite Hi. cbn [bind].
      destruct (Z.eqb_spec (Z.of_nat i) (-1)); [lia|]. cbn [negb]. rewrite andb_true_r.
      destruct (Z.ltb_spec (num sk c) (t_next s)) as [Hlt|Hge].
      * rewrite (lower_min_ok _ _ _ _ El). eexists. split; [reflexivity|].
        assert (Hcin : In c (t_stack s)).
        { rewrite Hst, in_app_iff in Hin. destruct Hin as [Hin|Hin]; auto. exfalso. destruct Hin as [<-|Hin]; [lia|].
          apply In_nth_error in Hin. destruct Hin as [k Hk].
          assert ((num sk v < num sk c)%Z).
          { apply (w_sorted _ _ Hw (length (t_stack s)) (length (t_stack s) + S k)); [lia| |].
            - rewrite Hst, nth_error_app2, Nat.sub_diag; auto.
            - rewrite Hst, nth_error_app2 by lia. replace (length (t_stack s) + S k - length (t_stack s)) with (S k) by lia. exact Hk. }
          lia. }
        assert (Hvl : v < length (t_min sk)) by (rewrite (w_len2 _ _ Hw); auto).
        exists suf, (Z.min l (num sk c)). splits.
        -- apply with_min_wf; auto. rewrite upd_length. apply Hw.
        -- exact Hnum.
        -- intros x Hx. cbn. assert (x <> v) by (intros ->; contradiction). rewrite upd_nth_neq by auto. auto.
        -- exact Hnx.
        -- exact Hnew.
        -- exact Hunv.
        -- exact Hst.
        -- cbn. now apply upd_nth_eq.
        -- lia.
        -- destruct (Z.min_spec l (num sk c)) as [[_ ->]|[_ ->]]; [exact Hlow|]. right. exists c. rewrite (Hold c Hcin).
           splits; auto. now apply reach_edge.
        -- intros x y Hx Hy Hxy. pose proof (Hsuf x y Hx Hy Hxy). lia.
        -- intros y Hy. cbn [with_min t_num]. rewrite in_app_iff in Hy. destruct Hy as [Hy|[<-|[]]].
           ++ destruct (HP y Hy) as [Hy1 Hy2]. split; auto. intros Hq. specialize (Hy2 Hq). lia.
           ++ split; auto. intros _. rewrite (Hold c Hcin). lia.
      * eexists. split; [reflexivity|]. exists suf, l. splits; auto. intros y Hy. rewrite in_app_iff in Hy. destruct Hy as [Hy|[<-|[]]]; auto.
        split; auto. intros Hq. apply Hcs in Hq. lia.
    + unfold vget. rewrite (w_off _ _ Hw c Hc Hin). cbn [bind Z.eqb negb]. rewrite andb_false_r. eexists. split; [reflexivity|].
      exists suf, l. splits; auto. intros y Hy. rewrite in_app_iff in Hy. destruct Hy as [Hy|[<-|[]]]; auto.
      split; auto. intros Hq. exfalso. apply Hin. rewrite Hst, in_app_iff. auto.
Qed.

Lemma fold_reset : forall scc idx, (forall x, In x scc -> x < length idx) ->
  exists idx', fold_outcome (fun idx x => vset idx x (-1)%Z) scc idx = Ok idx' /\ length idx' = length idx /\
    forall x, nth_error idx' x = if existsb (Nat.eqb x) scc then (if x <? length idx then Some (-1)%Z else None) else nth_error idx x.
Proof.
  induction scc as [|a scc IH]; intros idx Hin; cbn [fold_outcome existsb].
  - exists idx. splits; auto.
  - unfold vset at 1. destruct (Nat.ltb_spec a (length idx)); [|specialize (Hin a ltac:(now left)); lia]. cbn [bind].
    destruct (IH (upd idx a (-1)%Z)) as (idx' & -> & Hl & Hx).
    { intros x Hx. rewrite upd_length. apply Hin. now right. }
    exists idx'. splits; auto; [now rewrite Hl, upd_length|]. intros x. rewrite Hx, upd_length.
    destruct (existsb (Nat.eqb x) scc); [now rewrite orb_true_r|]. rewrite orb_false_r, upd_nth.
    rewrite (Nat.eqb_sym a x). destruct (Nat.eqb_spec x a) as [->|]; cbn [andb]; auto.
    destruct (Nat.ltb_spec a (length idx)); auto. lia.
Qed.

Lemma finish s G v sk succs : wf s G -> v < n -> num s v = (-1)%Z -> (forall x, In x G -> reach g x v) ->
  nth_error g v = Some succs -> linv s G v succs sk ->
  exists s', (let* m := vget (t_min sk) v in if (m =? t_next s)%Z then pop_scc sk v else Ok sk) = Ok s' /\ post s G v s'.
Proof.
  intros H Hv Hun HG Hsucc (suf & l & Hw & Hnum & Hmin & Hnx & Hnew & Hunv & Hst & El & Hl & Hlow & Hsuf & HP).
  destruct (entered_frame s G v H Hv Hun) as [Hfr0 Hu0].
  assert (Hfr : frame s sk).
  { destruct Hfr0 as [A1 A2 A3 A4 A5]. constructor.
    - intros x Hx. rewrite Hnum; rewrite A1; auto.
    - exact Hmin.
    - lia.
    - intros x Hx. destruct (Z.eq_dec (num (entered s v) x) (-1)) as [E|E].
      + destruct (Hnew x E); [auto|right; lia].
      + destruct (A4 x Hx); [contradiction|]. right. rewrite Hnum; auto.
    - lia. }
  assert (Hvnum : num sk v = t_next s).
  { rewrite Hnum; rewrite (entered_num s G), Nat.eqb_refl by auto; auto. pose proof (w_next _ _ H). lia. }
  assert (Hold : forall x, In x (t_stack s) -> num sk x = num s x).
  { intros x Hx. apply (f_num _ _ Hfr). eapply stack_visited; eauto. }
  assert (Hvn : ~ In v (t_stack s)) by (intros Hq; apply (stack_visited _ _ _ H) in Hq; contradiction).
  assert (Hbl : forall x, In x (v :: suf) -> forall y, edge g x y -> num sk y <> (-1)%Z /\ (In y (t_stack s) -> (l <= num s y)%Z)).
  { intros x [<-|Hx] y Hy.
    - destruct Hy as (l0 & E0 & Hy). rewrite Hsucc in E0. injection E0 as <-. now apply HP.
    - split; [|intros Hq; eapply Hsuf; eauto]. apply (w_closed _ _ Hw x y).
      + eapply stack_visited; eauto. rewrite Hst, in_app_iff. right. now right.
      + intros Hq. pose proof (wf_stack_nodup _ _ Hw) as Hnd. rewrite Hst in Hnd.
        destruct Hq as [<-|Hq]; [apply NoDup_remove_2 in Hnd; apply Hnd; rewrite in_app_iff; auto|].
        assert (Hgs : In x (t_stack s)) by now apply (w_gray _ _ H).
        clear - Hnd Hgs Hx. induction (t_stack s) as [|a t IH]; [destruct Hgs|]. cbn in Hnd. inv Hnd. destruct Hgs as [->|Hgs]; auto.
        apply H1. rewrite in_app_iff. right. now right.
      + auto. }
  unfold vget. rewrite El. cbn [bind]. destruct (Z.eqb_spec l (t_next s)) as [El2|El2].
  - (* the component is complete *)
    assert (Hnoleave : forall x y, reach g x y -> In x (v :: suf) -> In y (v :: suf) \/ In y (concat (t_sccs sk))).
    { intros x y Hr. induction Hr as [|x z y He Hr IH]; auto. intros Hx. destruct (Hbl x Hx z He) as [Hz1 Hz2].
      apply (w_vis _ _ Hw) in Hz1. destruct Hz1 as [Hz1|Hz1]; [|right; eapply sccs_closed; eauto].
      rewrite Hst, in_app_iff in Hz1. destruct Hz1 as [Hz1|Hz1]; auto.
      specialize (Hz2 Hz1). pose proof (w_range _ _ H z). lia. }
    assert (Hvr : forall x, In x (v :: suf) -> reach g v x).
    { intros x Hx. apply In_nth_error in Hx. destruct Hx as [i Hi].
      apply (w_order _ _ Hw (length (t_stack s)) (length (t_stack s) + i)); [lia| |].
      - rewrite Hst, nth_error_app2, Nat.sub_diag; auto.
      - rewrite Hst, nth_error_app2 by lia. replace (length (t_stack s) + i - length (t_stack s)) with i by lia. exact Hi. }
    assert (Hdisj : forall x, In x (v :: suf) -> ~ In x (concat (t_sccs sk))).
    { intros x Hx. apply (w_disj _ _ Hw). rewrite Hst, in_app_iff. auto. }
    assert (Hsdisj : forall x, In x (t_stack s) -> ~ In x (v :: suf)).
    { intros x Hx Hq. pose proof (wf_stack_nodup _ _ Hw) as Hnd. rewrite Hst in Hnd. clear - Hnd Hx Hq.
      induction (t_stack s) as [|a t IH]; [destruct Hx|]. cbn in Hnd. inv Hnd. destruct Hx as [->|Hx]; auto.
      apply H1. rewrite in_app_iff. auto. }
    assert (Hrv : forall x, In x (v :: suf) -> reach g x v).
    { intros x Hx. assert (Hxs : In x (t_stack sk)) by (rewrite Hst, in_app_iff; auto).
      destruct (w_back _ _ Hw x Hxs) as (q & Hq & _ & Hr). destruct Hq as [<-|Hq]; auto.
      pose proof (w_gray _ _ H q Hq) as Hqs. destruct (Hnoleave x q Hr Hx) as [Hq'|Hq'].
      - exfalso. eapply Hsdisj; eauto.
      - exfalso. apply (w_disj _ _ Hw q); auto. rewrite Hst, in_app_iff. auto. }
    unfold pop_scc.
    assert (Hidx : nth_error (t_idx sk) v = Some (Z.of_nat (length (t_stack s)))).
    { apply (w_on _ _ Hw). rewrite Hst, nth_error_app2, Nat.sub_diag; auto. }
    unfold vget. rewrite Hidx. cbn [bind]. rewrite Nat2Z.id.
    assert (Esk : skipn (length (t_stack s)) (t_stack sk) = v :: suf).
    { rewrite Hst, skipn_app, Nat.sub_diag, skipn_all. reflexivity. }
    assert (Efi : firstn (length (t_stack s)) (t_stack sk) = t_stack s).
    { rewrite Hst, firstn_app, Nat.sub_diag, firstn_all. apply app_nil_r. }
    rewrite Esk, Efi.
    destruct (fold_reset (v :: suf) (t_idx sk)) as (idx' & -> & Hidl & Hidn).
    { intros x Hx. rewrite (w_len3 _ _ Hw). eapply stack_lt; eauto. rewrite Hst, in_app_iff. auto. }
    cbn [bind]. assert (Hle : length (t_stack s) <= length (t_stack sk)) by (rewrite Hst, app_length; lia).
    destruct (Nat.leb_spec (length (t_stack s)) (length (t_stack sk))); [|lia]. cbn [guard bind].
    assert (Hex : forall x, existsb (Nat.eqb x) (v :: suf) = true <-> In x (v :: suf)).
    { intros x. rewrite existsb_exists. split.
      - intros (y & Hy & E). apply Nat.eqb_eq in E. now subst.
      - intros Hx. exists x. split; auto. apply Nat.eqb_refl. }
    eexists. split; [reflexivity|]. exists [], l. splits.
    + constructor; cbn [t_num t_min t_idx t_stack t_next t_sccs].
      * apply Hw. * apply Hw. * rewrite Hidl. apply Hw. * apply Hw. * apply Hw.
      * intros i j x y Hij Hi Hj. rewrite !Hold by (eapply nth_error_In; eauto). eapply (w_sorted _ _ H i j); eauto.
      * intros x i Hi. rewrite Hidn. destruct (existsb (Nat.eqb x) (v :: suf)) eqn:E.
        { exfalso. apply Hex in E. eapply Hsdisj; eauto. eapply nth_error_In; eauto. }
        apply (w_on _ _ Hw). rewrite Hst, nth_error_app1; auto. eapply nth_error_Some_lt; eauto.
      * intros x Hx Hin. rewrite Hidn, (w_len3 _ _ Hw). destruct (existsb (Nat.eqb x) (v :: suf)) eqn:E.
        { destruct (Nat.ltb_spec x n); auto. lia. }
        apply (w_off _ _ Hw); auto. rewrite Hst, in_app_iff. intros [Hq|Hq]; auto. apply Hex in Hq. congruence.
      * intros x. rewrite (w_vis _ _ Hw), Hst, concat_app, !in_app_iff. cbn [concat]. rewrite app_nil_r. tauto.
      * intros x Hx. rewrite concat_app, in_app_iff. cbn [concat]. rewrite app_nil_r. intros [Hq|Hq].
        { revert Hq. apply (w_disj _ _ Hw). rewrite Hst, in_app_iff. auto. }
        { eapply Hsdisj; eauto. }
      * apply H.
      * intros x y Hx HxG He. destruct (Nat.eq_dec x v) as [->|Hxv]; [apply (Hbl v ltac:(now left) y He)|].
        apply (w_closed _ _ Hw x y); auto. intros [?|?]; auto.
      * intros i C x y Hi Hx He. apply snoc_nth in Hi. destruct Hi as [[Hil Hi]|[-> ->]].
        { destruct (w_topo _ _ Hw i C x y Hi Hx He) as (j & D & Hj & HD & Hy). exists j, D. splits; auto.
          rewrite nth_error_app1; auto. eapply nth_error_Some_lt; eauto. }
        { destruct (Hnoleave x y (reach_edge _ _ _ He) Hx) as [Hy|Hy].
          - exists (length (t_sccs sk)), (v :: suf). splits; auto. rewrite nth_error_app2, Nat.sub_diag; auto.
          - apply in_concat in Hy. destruct Hy as (D & HD & Hy). apply In_nth_error in HD. destruct HD as [j Hj].
            pose proof (nth_error_Some_lt _ _ _ Hj). exists j, D. splits; auto; [lia|]. now rewrite nth_error_app1. }
      * intros C HC. rewrite in_app_iff in HC. destruct HC as [HC|[<-|[]]]; [now apply (w_scc _ _ Hw)|].
        split; [discriminate|]. intros x Hx y. split.
        { intros Hy. split; (eapply reach_trans; [apply Hrv|apply Hvr]; auto). }
        { intros [Hr1 Hr2]. destruct (Hnoleave x y Hr1 Hx) as [Hy|Hy]; auto. exfalso. apply (Hdisj x Hx). eapply sccs_closed; eauto. }
      * rewrite concat_app. cbn [concat]. rewrite app_nil_r.
        assert (Hnd : NoDup (v :: suf)).
        { pose proof (wf_stack_nodup _ _ Hw) as Hnd. rewrite Hst in Hnd. clear - Hnd. induction (t_stack s); cbn in Hnd; auto. inv Hnd; auto. }
        clear - Hnd Hdisj Hw. pose proof (w_nodup _ _ Hw) as Hn1. induction (concat (t_sccs sk)) as [|a t IH]; cbn; auto.
        inv Hn1. constructor.
        { rewrite in_app_iff. intros [Hq|Hq]; auto. apply (Hdisj a Hq). now left. }
        { apply IH; auto. intros x Hx Hq. apply (Hdisj x Hx). now right. }
      * apply H.
      * intros y Hy. destruct (w_back _ _ H y Hy) as (x & Hx & Hxy & Hr). exists x. splits; auto.
        rewrite !Hold; auto. now apply (w_gray _ _ H).
    + destruct Hfr as [A1 A2 A3 A4 A5]. constructor; auto.
    + cbn. now rewrite app_nil_r.
    + exact Hvnum.
    + exact El.
    + left. split; auto.
    + intros x y [].
  - (* the component continues below [v] *)
    destruct Hlow as [?|(y0 & Hy0 & Ey0 & Hr0)]; [contradiction|].
    eexists. split; [reflexivity|]. exists (v :: suf), l. splits; auto.
    + destruct Hw as [W1 W2 W3 W4 W5 W6 W7 W8 W9 W10 W11 W12 W13 W14 W15 W16 W17]. constructor; auto.
      * intros x Hx. apply W11. now right.
      * intros x y Hx HxG He. destruct (Nat.eq_dec x v) as [->|Hxv]; [apply (Hbl v ltac:(now left) y He)|].
        apply (W12 x y); auto. intros [?|?]; auto.
      * intros y Hy. destruct (W17 y Hy) as (x & [<-|Hx] & Hxy & Hr); [|exists x; splits; auto].
        destruct (w_back _ _ H y0 Hy0) as (x & Hx & Hxy0 & Hrx). exists x. splits; auto.
        { rewrite (Hold x) by now apply (w_gray _ _ H). lia. }
        { eapply reach_trans; [exact Hr|]. eapply reach_trans; eauto. }
    + right. exists y0. splits; auto.
    + intros x y Hx Hy He. now apply (Hbl x Hx y He).
Qed.

Lemma dfs_correct : forall f, dfs_ok f.
Proof.
  induction f as [|f IHf]; intros s G v H Hv Hun HG Hfu.
  - destruct (entered_frame s G v H Hv Hun) as [_ Hu]. lia.
  - destruct (entered_frame s G v H Hv Hun) as [Hfr Hu]. cbn [dfs].
    unfold vset at 1 2 3. rewrite (w_len1 _ _ H), (w_len2 _ _ H), (w_len3 _ _ H).
    destruct (Nat.ltb_spec v n); [|lia]. cbn [bind].
    destruct (vget_some g v Hv) as (succs & Es & ->). cbn [bind].
    change {| t_num := upd (t_num s) v (t_next s); t_min := upd (t_min s) v (t_next s);
              t_idx := upd (t_idx s) v (Z.of_nat (length (t_stack s))); t_stack := t_stack s ++ [v];
              t_next := t_next s + 1; t_sccs := t_sccs s |} with (entered s v).
    assert (Hinit : linv s G v [] (entered s v)).
    { exists [], (t_next s). splits; auto; try lia.
      - now apply entered_wf.
      - intros x Hx. cbn. apply upd_nth_neq. intros <-. contradiction.
      - cbn. lia.
      - cbn. apply upd_nth_eq. now rewrite (w_len2 _ _ H).
      - intros x y [].
      - intros y []. }
    match goal with |- context [fold_outcome ?body succs _] => set (F := body) end.
    assert (Hloop : forall rest P sk, succs = P ++ rest -> linv s G v P sk ->
      exists sk', fold_outcome F rest sk = Ok sk' /\ linv s G v succs sk').
    { induction rest as [|c rest IH]; intros P sk E Hi.
      - exists sk. split; auto. now rewrite E, app_nil_r.
      - cbn [fold_outcome]. destruct (loop_step f s G v P c sk IHf H Hv Hun HG) as (sk1 & E1 & Hi1); auto.
        + lia.
        + exists succs. split; auto. rewrite E, in_app_iff. right. now left.
        + unfold F at 1. rewrite E1. cbn [bind]. apply (IH (P ++ [c])); auto. now rewrite <- app_assoc. }
    destruct (Hloop succs [] (entered s v) eq_refl Hinit) as (sk & -> & Hsk). cbn [bind].
    eapply finish; eauto.
Qed.

Lemma sccs_correct : exists cs, compute_maximal_sccs g = Ok cs /\ sccs_in_topological_order g cs.
Proof.
  unfold compute_maximal_sccs.
  match goal with |- context [fold_outcome ?body _ ?st] => set (F := body); set (s0 := st) end.
  assert (Hrep : forall v, znth (repeat (-1)%Z n) v = (-1)%Z).
  { intros v. unfold znth. destruct (nth_in_or_default v (repeat (-1)%Z n) (-1)%Z) as [Hin|]; auto. now apply repeat_spec in Hin. }
  assert (Hnil : forall {A} i (x : A), nth_error [] i = Some x -> False) by (intros A [|i] x; discriminate).
  assert (H0 : wf s0 []).
  { unfold s0. constructor; cbn [t_num t_min t_idx t_stack t_next t_sccs concat]; try (apply repeat_length); try lia.
    - intros v. rewrite Hrep. lia.
    - intros i j x y _ Hi. now apply Hnil in Hi.
    - intros v i Hi. now apply Hnil in Hi.
    - intros v Hv _. rewrite nth_error_repeat; auto.
    - intros v. rewrite Hrep. cbn [In]. intuition.
    - intros v [].
    - intros x [].
    - intros x y Hx. rewrite Hrep in Hx. contradiction.
    - intros i C x y Hi. now apply Hnil in Hi.
    - intros C [].
    - constructor.
    - intros i j x y _ Hi. now apply Hnil in Hi.
    - intros y []. }
  assert (Hloop : forall k m s, m + k = n -> wf s [] -> (forall v, v < m -> num s v <> (-1)%Z) ->
    exists s', fold_outcome F (seq m k) s = Ok s' /\ wf s' [] /\ forall v, v < n -> num s' v <> (-1)%Z).
  { induction k as [|k IH]; intros m s Hm Hw Hv; cbn [seq fold_outcome].
    - exists s. splits; auto. intros v Hvn. apply Hv. lia.
    - unfold F at 1. unfold vget. rewrite nth_znth by (rewrite (w_len1 _ _ Hw); lia). cbn [bind].
      destruct (Z.eqb_spec (num s m) (-1)) as [E|E].
      + destruct (dfs_correct (S n) s [] m Hw ltac:(lia) E) as (s' & -> & Hp).
        * intros x [].
        * unfold unv. rewrite <- (w_len1 _ _ Hw). clear. induction (t_num s); cbn; [lia|]. destruct (a =? -1)%Z; cbn; lia.
        * cbn [bind]. destruct Hp as (suf & l & Hw' & Hfr & _ & Hm' & _). apply IH; auto; [lia|].
          intros v Hvm. destruct (Nat.eq_dec v m) as [->|]; [rewrite Hm'; pose proof (w_next _ _ Hw); lia|].
          rewrite (f_num _ _ Hfr); apply Hv; lia.
      + cbn [bind]. apply IH; auto; [lia|]. intros v Hvm. destruct (Nat.eq_dec v m) as [->|]; auto. apply Hv. lia. }
  destruct (Hloop n 0 s0 eq_refl H0 ltac:(lia)) as (s & -> & Hw & Hall). cbn [bind].
  assert (Hstk : t_stack s = []).
  { destruct (t_stack s) as [|y t] eqn:E; auto. destruct (w_back _ _ Hw y) as (x & [] & _). rewrite E. now left. }
  exists (rev (t_sccs s)). split; auto. unfold sccs_in_topological_order.
  assert (Hperm : Permutation (concat (rev (t_sccs s))) (concat (t_sccs s))).
  { clear. induction (t_sccs s) as [|C L IH]; cbn; auto. rewrite concat_app. cbn. rewrite app_nil_r.
    eapply Permutation_trans; [apply Permutation_app_comm|]. now apply Permutation_app_head. }
  splits.
  - eapply Permutation_trans; [exact Hperm|]. apply NoDup_Permutation; [apply Hw|apply seq_NoDup|].
    intros x. rewrite in_seq. split.
    + intros Hx. apply (sccs_visited _ _ _ Hw) in Hx. apply znth_lt in Hx. rewrite (w_len1 _ _ Hw) in Hx. lia.
    + intros Hx. assert (Hx' : num s x <> (-1)%Z) by (apply Hall; lia). apply (w_vis _ _ Hw) in Hx'. rewrite Hstk in Hx'. destruct Hx' as [[]|]; auto.
  - intros C HC. apply in_rev in HC. now apply (w_scc _ _ Hw).
  - intros C x y HC Hx. apply in_rev in HC. now apply (w_scc _ _ Hw).
  - intros i j C D x y Hi Hj Hx Hy He.
    assert (Hrev : forall i (C : list nat), nth_error (rev (t_sccs s)) i = Some C -> i < length (t_sccs s) /\ nth_error (t_sccs s) (length (t_sccs s) - 1 - i) = Some C).
    { clear. intros i C H. pose proof (nth_error_Some_lt _ _ _ H) as Hl. rewrite rev_length in Hl. split; auto.
      pose proof (nth_error_nth _ _ [] H) as Hn. rewrite rev_nth in Hn by auto.
      rewrite <- Hn. replace (length (t_sccs s) - 1 - i) with (length (t_sccs s) - S i) by lia. apply nth_error_nth'. lia. }
    apply Hrev in Hi, Hj. destruct Hi as [Hil Hi], Hj as [Hjl Hj].
    destruct (w_topo _ _ Hw _ _ _ _ Hi Hx He) as (j' & D' & Hj' & HD' & Hy').
    assert (Hjj : j' = length (t_sccs s) - 1 - j).
    { pose proof (w_nodup _ _ Hw) as Hnd. clear - Hnd HD' Hy' Hj Hy.
      assert (Hgen : forall (L : list (list nat)) a b A B z, NoDup (concat L) -> nth_error L a = Some A -> nth_error L b = Some B -> In z A -> In z B -> a = b).
      { clear. induction L as [|X L IH]; intros a b A B z Hnd Ha Hb HA HB; [destruct a; discriminate|]. cbn in Hnd.
        assert (Hdis : In z X -> ~ In z (concat L)).
        { intros H1 H2. clear - Hnd H1 H2. induction X as [|q X IH]; [destruct H1|]. cbn in Hnd. inv Hnd.
          destruct H1 as [->|H1]; auto. apply H3. rewrite in_app_iff. auto. }
        assert (Hnd' : NoDup (concat L)). { clear - Hnd. induction X; cbn in Hnd; auto. inv Hnd; auto. }
        destruct a as [|a], b as [|b]; cbn in Ha, Hb; auto.
        - injection Ha as <-. exfalso. apply (Hdis HA). apply in_concat. exists B. split; auto. eapply nth_error_In; eauto.
        - injection Hb as <-. exfalso. apply (Hdis HB). apply in_concat. exists A. split; auto. eapply nth_error_In; eauto.
        - f_equal. eapply IH; eauto. }
      eapply Hgen; eauto. }
    lia.
Qed.
End P.

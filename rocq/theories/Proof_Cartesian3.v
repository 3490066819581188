(** Adding transitions and self-loops to the transition system; removing old ones. *)
From Verif Require Import Outcome Spec_Task Model_Cartesian Proof_LMCut1 Proof_Cartesian1.

Definition O (ts : tsystem) (u : nat) : list (nat * nat) := nth u (c_out ts) [].
Definition I (ts : tsystem) (w : nat) : list (nat * nat) := nth w (c_in ts) [].
Definition Lp (ts : tsystem) (u : nat) : list nat := nth u (c_loops ts) [].
Definition triple : Type := (nat * nat * nat)%type.      (* source, operator, target *)
Definition sel_out (u : nat) (T : list triple) : list (nat * nat) := map (fun x => (snd (fst x), snd x)) (filter (fun x => fst (fst x) =? u) T).
Definition sel_in (w : nat) (T : list triple) : list (nat * nat) := map (fun x => (snd (fst x), fst (fst x))) (filter (fun x => snd x =? w) T).
Definition sel_loop (u : nat) (L : list (nat * nat)) : list nat := map snd (filter (fun x => fst x =? u) L).

Lemma sel_out_In u T o w : In (o, w) (sel_out u T) <-> In (u, o, w) T.
Proof.
  unfold sel_out. rewrite in_map_iff. split.
  - intros ([[a b] c] & E & H). apply filter_In in H as [H1 H2]. cbn in *. apply Nat.eqb_eq in H2. injection E as -> ->. now subst.
  - intros H. exists (u, o, w). split; auto. apply filter_In. split; auto. cbn. apply Nat.eqb_refl.
Qed.
Lemma sel_in_In w T o u : In (o, u) (sel_in w T) <-> In (u, o, w) T.
Proof.
  unfold sel_in. rewrite in_map_iff. split.
  - intros ([[a b] c] & E & H). apply filter_In in H as [H1 H2]. cbn in *. apply Nat.eqb_eq in H2. injection E as -> ->. now subst.
  - intros H. exists (u, o, w). split; auto. apply filter_In. split; auto. cbn. apply Nat.eqb_refl.
Qed.
Lemma sel_loop_In u L o : In o (sel_loop u L) <-> In (u, o) L.
Proof.
  unfold sel_loop. rewrite in_map_iff. split.
  - intros ([a b] & E & H). apply filter_In in H as [H1 H2]. cbn in *. apply Nat.eqb_eq in H2. now subst.
  - intros H. exists (u, o). split; auto. apply filter_In. split; auto. cbn. apply Nat.eqb_refl.
Qed.
Lemma NoDup_map_filter {A B} (f : A -> B) (p : A -> bool) l : NoDup l -> (forall x y, p x = true -> p y = true -> f x = f y -> x = y) -> NoDup (map f (filter p l)).
Proof.
  intros Hn Hf. induction Hn as [|a l Ha Hn IH]; cbn; [constructor|]. destruct (p a) eqn:E; auto. cbn. constructor; auto.
  intros H. apply in_map_iff in H as (b & Hb & H). apply filter_In in H as [H1 H2]. assert (b = a) by (apply Hf; auto). now subst.
Qed.
Lemma sel_out_NoDup u T : NoDup T -> NoDup (sel_out u T).
Proof. intros H. apply NoDup_map_filter; auto. intros [[a b] c] [[a' b'] c'] H1 H2 E. cbn in *. apply Nat.eqb_eq in H1, H2. congruence. Qed.
Lemma sel_in_NoDup u T : NoDup T -> NoDup (sel_in u T).
Proof. intros H. apply NoDup_map_filter; auto. intros [[a b] c] [[a' b'] c'] H1 H2 E. cbn in *. apply Nat.eqb_eq in H1, H2. congruence. Qed.
Lemma sel_loop_NoDup u L : NoDup L -> NoDup (sel_loop u L).
Proof. intros H. apply NoDup_map_filter; auto. intros [a b] [a' b'] H1 H2 E. cbn in *. apply Nat.eqb_eq in H1, H2. congruence. Qed.
Lemma NoDup_app {A} (l1 l2 : list A) : NoDup l1 -> NoDup l2 -> (forall x, In x l1 -> ~ In x l2) -> NoDup (l1 ++ l2).
Proof.
  induction 1 as [|a l1 Ha Hn IH]; intros H2 Hd; [exact H2|]. cbn. constructor.
  - intros H. apply in_app_or in H as [H|H]; [auto|]. apply (Hd a); [now left|auto].
  - apply IH; auto. intros x Hx. apply Hd. now right.
Qed.

(** [ts'] is [ts] with the transitions [T] and self-loops [L] added. *)
Record ext (ts ts' : tsystem) (T : list triple) (L : list (nat * nat)) : Prop := {
  x_pre : c_pre ts' = c_pre ts; x_post : c_post ts' = c_post ts;
  x_lo : length (c_out ts') = length (c_out ts); x_li : length (c_in ts') = length (c_in ts); x_ll : length (c_loops ts') = length (c_loops ts);
  x_out : forall u, O ts' u = O ts u ++ sel_out u T;
  x_in : forall w, I ts' w = I ts w ++ sel_in w T;
  x_loop : forall u, Lp ts' u = Lp ts u ++ sel_loop u L;
  x_n : c_num_non_loops ts' = (c_num_non_loops ts + Z.of_nat (length T))%Z;
  x_l : c_num_loops ts' = (c_num_loops ts + Z.of_nat (length L))%Z }.

Lemma sel_out_app u T T' : sel_out u (T ++ T') = sel_out u T ++ sel_out u T'.
Proof. unfold sel_out. now rewrite filter_app, map_app. Qed.
Lemma sel_in_app u T T' : sel_in u (T ++ T') = sel_in u T ++ sel_in u T'.
Proof. unfold sel_in. now rewrite filter_app, map_app. Qed.
Lemma sel_loop_app u T T' : sel_loop u (T ++ T') = sel_loop u T ++ sel_loop u T'.
Proof. unfold sel_loop. now rewrite filter_app, map_app. Qed.
Lemma ext_refl ts : ext ts ts [] [].
Proof. constructor; auto; intros; try (cbn; now rewrite app_nil_r); cbn; lia. Qed.
Lemma ext_trans a b c T T' L L' : ext a b T L -> ext b c T' L' -> ext a c (T ++ T') (L ++ L').
Proof.
  intros [P1 P2 P3 P4 P5 P6 P7 P8 P9 P10] [Q1 Q2 Q3 Q4 Q5 Q6 Q7 Q8 Q9 Q10]. constructor; try congruence; try (rewrite app_length, Nat2Z.inj_add; lia).
  - intros u. rewrite Q6, P6, sel_out_app, app_assoc. auto.
  - intros u. rewrite Q7, P7, sel_in_app, app_assoc. auto.
  - intros u. rewrite Q8, P8, sel_loop_app, app_assoc. auto.
Qed.

Definition sized (n : nat) (pre post : list (list fact)) (ts : tsystem) : Prop :=
  c_pre ts = pre /\ c_post ts = post /\ length (c_out ts) = n /\ length (c_in ts) = n /\ length (c_loops ts) = n.
Lemma ext_sized n pre post ts ts' T L : sized n pre post ts -> ext ts ts' T L -> sized n pre post ts'.
Proof. intros (A & B & C & D & E) [P1 P2 P3 P4 P5 P6 P7 P8 P9 P10]. unfold sized. splits; congruence. Qed.

Lemma add_transition_ok n pre post ts u o w : sized n pre post ts -> u < n -> w < n -> u <> w -> exists ts', add_transition ts u o w = Ok ts' /\ ext ts ts' [(u, o, w)] [].
Proof.
  intros (A & B & C & D & E) Hu Hw Hne. unfold add_transition. apply Nat.eqb_neq in Hne. rewrite Hne. cbn [negb guard bind]. unfold vget.
  rewrite (nth_error_nth' (c_out ts) []) by lia. cbn [bind]. rewrite vset_lt by lia. cbn [bind]. rewrite (nth_error_nth' (c_in ts) []) by lia. cbn [bind].
  rewrite vset_lt by lia. cbn [bind]. eexists. split; [reflexivity|]. constructor; cbn; auto; try (now rewrite upd_length); try lia.
  - intros v. unfold O. cbn. rewrite nth_upd by lia. unfold sel_out. cbn. destruct (Nat.eqb_spec u v) as [->|]; cbn; [auto|now rewrite app_nil_r].
  - intros v. unfold I. cbn. rewrite nth_upd by lia. unfold sel_in. cbn. destruct (Nat.eqb_spec w v) as [->|]; cbn; [auto|now rewrite app_nil_r].
  - intros v. unfold Lp. cbn. now rewrite app_nil_r.
Qed.
Lemma add_loop_ok n pre post ts u o : sized n pre post ts -> u < n -> exists ts', add_loop ts u o = Ok ts' /\ ext ts ts' [] [(u, o)].
Proof.
  intros (A & B & C & D & E) Hu. unfold add_loop, vget. rewrite (nth_error_nth' (c_loops ts) []) by lia. cbn [bind]. rewrite vset_lt by lia. cbn [bind].
  eexists. split; [reflexivity|]. constructor; cbn; auto; try (now rewrite upd_length); try lia; intros v; unfold O, I, Lp; cbn; try now rewrite app_nil_r.
  rewrite nth_upd by lia. unfold sel_loop. cbn. destruct (Nat.eqb_spec u v) as [->|]; cbn; [auto|now rewrite app_nil_r].
Qed.

(** A loop whose every step adds the transitions and self-loops given by [PT] and [PL]. *)
Lemma fold_ext {A} n pre post (f : tsystem -> A -> outcome tsystem) (PT : A -> triple -> Prop) (PL : A -> nat * nat -> Prop) :
  (forall a b x, PT a x -> PT b x -> a = b) -> (forall a b x, PL a x -> PL b x -> a = b) ->
  forall old, NoDup old ->
  (forall ts a, In a old -> sized n pre post ts -> exists ts' T L, f ts a = Ok ts' /\ ext ts ts' T L /\ NoDup T /\ NoDup L /\
    (forall x, In x T <-> PT a x) /\ (forall x, In x L <-> PL a x)) ->
  forall ts, sized n pre post ts -> exists ts' T L, fold_outcome f old ts = Ok ts' /\ ext ts ts' T L /\ NoDup T /\ NoDup L /\
    (forall x, In x T <-> exists a, In a old /\ PT a x) /\ (forall x, In x L <-> exists a, In a old /\ PL a x).
Proof.
  intros D1 D2. induction 1 as [|a old Ha Hn IH]; intros Hstep ts Hs.
  - exists ts, [], []. cbn [fold_outcome]. splits; auto using NoDup_nil, ext_refl; intros x; cbn; split; try tauto; intros (a & [] & _).
  - cbn [fold_outcome]. destruct (Hstep ts a (or_introl eq_refl) Hs) as (ts1 & T1 & L1 & E1 & X1 & N1 & M1 & P1 & Q1). rewrite E1. cbn [bind].
    destruct (IH (fun ts b Hb => Hstep ts b (or_intror Hb)) ts1 (ext_sized _ _ _ _ _ _ _ Hs X1)) as (ts2 & T2 & L2 & E2 & X2 & N2 & M2 & P2 & Q2).
    exists ts2, (T1 ++ T2), (L1 ++ L2). splits; auto.
    + eapply ext_trans; eauto.
    + apply NoDup_app; auto. intros x H1 H2. apply P1 in H1. apply P2 in H2 as (b & Hb & H2). rewrite <- (D1 _ _ _ H1 H2) in Hb. auto.
    + apply NoDup_app; auto. intros x H1 H2. apply Q1 in H1. apply Q2 in H2 as (b & Hb & H2). rewrite <- (D2 _ _ _ H1 H2) in Hb. auto.
    + intros x. rewrite in_app_iff, P1, P2. split.
      * intros [H|(b & Hb & H)]; [exists a; split; [now left|auto]|exists b; split; [now right|auto]].
      * intros (b & [<-|Hb] & H); [auto|right; eauto].
    + intros x. rewrite in_app_iff, Q1, Q2. split.
      * intros [H|(b & Hb & H)]; [exists a; split; [now left|auto]|exists b; split; [now right|auto]].
      * intros (b & [<-|Hb] & H); [auto|right; eauto].
Qed.

(* ---- removing the old transitions ---- *)
Lemma mem_In x l : mem x l = true <-> In x l.
Proof. unfold mem. rewrite existsb_exists. split; [intros (y & H & E); apply Nat.eqb_eq in E; now subst|intros H; exists x; split; auto; apply Nat.eqb_refl]. Qed.
Definition keep (v : nat) (t : nat * nat) : bool := negb (snd t =? v).
Lemma filter_id {A} (p : A -> bool) l : (forall x, In x l -> p x = true) -> filter p l = l.
Proof. induction l as [|a l IH]; intros H; auto. cbn. rewrite (H a (or_introl eq_refl)). f_equal. apply IH. intros; apply H; now right. Qed.
Lemma remove_old_ok old v lists : (forall o u, In (o, u) old <-> u < length lists /\ In (o, v) (nth u lists [])) ->
  exists lists', remove_old old v lists = Ok lists' /\ length lists' = length lists /\ forall u, nth u lists' [] = filter (keep v) (nth u lists []).
Proof.
  intros Hold. unfold remove_old.
  assert (G : forall old' lists1 upd1, incl old' old -> length lists1 = length lists ->
    (forall u, nth u lists1 [] = if mem u upd1 then filter (keep v) (nth u lists []) else nth u lists []) ->
    exists lists' upd', fold_outcome (fun (p : list (list (nat * nat)) * list nat) (t : nat * nat) =>
      let (lists, updated) := p in let u := snd t in
      if mem u updated then Ok (lists, updated)
      else let* l := vget lists u in let* l := remove_target l v in let* lists := vset lists u l in Ok (lists, u :: updated)) old' (lists1, upd1) = Ok (lists', upd') /\
    length lists' = length lists /\ (forall u, nth u lists' [] = if mem u upd' then filter (keep v) (nth u lists []) else nth u lists []) /\
    (forall u, In u upd1 \/ In u (map snd old') -> In u upd')).
  { induction old' as [|[o u] old' IH]; intros lists1 upd1 Hi Hl Hn.
    - exists lists1, upd1. splits; auto. intros u [H|[]]; auto.
    - cbn [fold_outcome snd]. destruct (mem u upd1) eqn:E.
      + cbn [bind]. destruct (IH lists1 upd1) as (l' & u' & E1 & E2 & E3 & E4); auto; [intros x Hx; apply Hi; now right|]. exists l', u'. splits; auto.
        intros w [H|[<-|H]]; auto. apply E4. left. now apply mem_In.
      + destruct (proj1 (Hold o u) (Hi _ (or_introl eq_refl))) as [Hu Hin]. unfold vget. rewrite (nth_error_nth' lists1 []) by lia. cbn [bind].
        unfold remove_target. rewrite Hn, E.
        assert (Ex : existsb (fun t : nat * nat => snd t =? v) (nth u lists []) = true) by (apply existsb_exists; exists (o, v); split; auto; cbn; apply Nat.eqb_refl).
        rewrite Ex. cbn [guard bind]. rewrite vset_lt by lia. cbn [bind].
        destruct (IH (upd lists1 u (filter (fun t : nat * nat => negb (snd t =? v)) (nth u lists []))) (u :: upd1)) as (l' & u' & E1 & E2 & E3 & E4).
        * intros x Hx; apply Hi; now right.
        * rewrite upd_length. auto.
        * intros w. rewrite nth_upd by lia. cbn [mem existsb]. rewrite (Nat.eqb_sym w u). destruct (Nat.eqb_spec u w) as [->|]; cbn [orb]; [reflexivity|]. apply Hn.
        * exists l', u'. splits; auto. intros w [H|[<-|H]]; auto; apply E4; left; [now right|now left]. }
  destruct (G old lists [] (incl_refl _) eq_refl) as (l' & u' & E1 & E2 & E3 & E4); [reflexivity|].
  match goal with |- context [bind ?m _] => replace m with (Ok (l', u')) by (symmetry; exact E1) end. cbn [bind]. exists l'. splits; auto.
  intros u. rewrite E3. destruct (mem u u') eqn:E; auto. symmetry. apply filter_id. intros [o w] Hin. unfold keep. cbn. apply negb_true_iff, Nat.eqb_neq. intros ->.
  assert (Hu : In u u'); [|apply mem_In in Hu; congruence]. apply E4. right. apply in_map_iff. exists (o, u). split; auto. apply Hold. split; auto.
  destruct (le_lt_dec (length lists) u); auto. rewrite nth_overflow in Hin by auto. destruct Hin.
Qed.

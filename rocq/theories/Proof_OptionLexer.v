(** Proofs about the lexer. *)
From Coq Require Import Ascii String List Sorting.
From Verif Require Import Outcome Spec_Format Spec_Options Model_Parser Model_Lexer.
Import ListNotations.
Local Open Scope nat_scope.

(** *** Meaning of regular expressions *)
Definition lastc (prev : option ascii) (s : text) : option ascii := fold_left (fun _ c => Some c) s prev.
Lemma lastc_app p s1 s2 : lastc p (s1 ++ s2) = lastc (lastc p s1) s2.
Proof. apply fold_left_app. Qed.

(** [M r prev s rest]: [r] matches [s] between [prev] and [rest]. *)
Inductive M : re -> option ascii -> text -> text -> Prop :=
| M_eps : forall p rest, M Eps p [] rest
| M_cls : forall f p c rest, f c = true -> M (Cls f) p [c] rest
| M_seq : forall a b p s1 s2 rest, M a p s1 (s2 ++ rest) -> M b (lastc p s1) s2 rest -> M (Seq a b) p (s1 ++ s2) rest
| M_alt1 : forall a b p s rest, M a p s rest -> M (Alt a b) p s rest
| M_alt2 : forall a b p s rest, M b p s rest -> M (Alt a b) p s rest
| M_star0 : forall a p rest, M (Star a) p [] rest
| M_star : forall a p s1 s2 rest, s1 <> [] -> M a p s1 (s2 ++ rest) -> M (Star a) (lastc p s1) s2 rest -> M (Star a) p (s1 ++ s2) rest
| M_wb : forall p rest, is_word p <> is_word (hd_error rest) -> M WordBoundary p [] rest.

Definition spec_list (r : re) (p : pos) (l : list pos) : Prop :=
  forall q, In q l <-> exists s, snd p = s ++ snd q /\ fst q = lastc (fst p) s /\ M r (fst p) s (snd q).

Lemma matches_exact r : forall p, spec_list r p (matches r p).
Proof.
  induction r as [|f|a IHa b IHb|a IHa b IHb|a IHa|]; intros [prev t]; unfold spec_list; cbn [fst snd].
  - intros q. cbn. split.
    + intros [<-|[]]. exists []. repeat split; constructor.
    + intros (s & H1 & H2 & H3). inversion H3; subst. simpl in *. left. destruct q; cbn in *; subst; reflexivity.
  - intros [qp qt]. cbn. destruct t as [|c t].
    + split; [intros []|]. intros (s & H1 & H2 & H3). inversion H3; subst. discriminate.
    + destruct (f c) eqn:E; split.
      * intros [[= <- <-]|[]]. exists [c]. repeat split. constructor; auto.
      * intros (s & H1 & H2 & H3). inversion H3; subst. cbn in *. injection H1 as -> ->. left. auto.
      * intros [].
      * intros (s & H1 & H2 & H3). inversion H3; subst. cbn in *. injection H1 as -> ->. congruence.
  - intros q. cbn [matches]. rewrite in_flat_map. split.
    + intros (x & Hx & Hq). destruct (proj1 (IHa _ _) Hx) as (s1 & A1 & A2 & A3). destruct (proj1 (IHb _ _) Hq) as (s2 & B1 & B2 & B3).
      cbn [fst snd] in *. exists (s1 ++ s2). rewrite <- app_assoc, <- B1. repeat split; auto.
      * rewrite lastc_app, <- A2. auto.
      * constructor; [rewrite <- B1; auto|rewrite <- A2; auto].
    + intros (s & H1 & H2 & H3). inversion H3; subst. exists (lastc prev s1, s2 ++ snd q). split.
      * apply IHa. cbn. exists s1. rewrite <- app_assoc. auto.
      * apply IHb. cbn. exists s2. rewrite <- lastc_app. auto.
  - intros q. cbn [matches]. rewrite in_app_iff. rewrite (IHa (prev, t) q), (IHb (prev, t) q). cbn [fst snd]. split.
    + intros [(s & A1 & A2 & A3)|(s & A1 & A2 & A3)]; exists s; repeat split; auto; [apply M_alt1|apply M_alt2]; auto.
    + intros (s & H1 & H2 & H3). inversion H3; subst; [left|right]; exists s; auto.
  - intros q. cbn [matches fst snd].
    assert (G : forall n p, length (snd p) <= n -> spec_list (Star a) p
      ((fix go (n : nat) (p : pos) : list pos :=
         match n with
         | 0 => [p]
         | S n => flat_map (fun q => if length (snd q) <? length (snd p) then go n q else []) (matches a p) ++ [p]
         end) n p)).
    { clear q prev t. induction n as [|n IH]; intros [prev t] Hn; unfold spec_list; cbn [fst snd] in *; intros q.
      - destruct t; [|simpl in Hn; lia]. split.
        + intros [<-|[]]. exists []. repeat split; constructor.
        + intros (s & H1 & H2 & H3). symmetry in H1. apply app_eq_nil in H1 as [-> H1]. left. destruct q; cbn in *; subst; reflexivity.
      - rewrite in_app_iff, in_flat_map. split.
        + intros [(x & Hx & Hq)|[<-|[]]]; [|exists []; repeat split; constructor].
          destruct (length (snd x) <? length t) eqn:L; [|destruct Hq]. apply Nat.ltb_lt in L.
          destruct (proj1 (IHa _ _) Hx) as (s1 & A1 & A2 & A3). cbn [fst snd] in *.
          destruct (proj1 (IH x ltac:(lia) q) Hq) as (s2 & B1 & B2 & B3).
          exists (s1 ++ s2). rewrite <- app_assoc, <- B1. split; [auto|]. split; [rewrite lastc_app, <- A2; auto|].
          apply M_star.
          * intros ->. simpl in A1. subst t. exact (Nat.lt_irrefl _ L).
          * rewrite <- B1. auto.
          * rewrite <- A2. auto.
        + intros (s & H1 & H2 & H3). inversion H3 as [| | | | |? ? ?|? ? s1 s2 ? Hs Ha Hst|]; subst.
          * right. left. destruct q; cbn in *; subst; reflexivity.
          * left. exists (lastc prev s1, s2 ++ snd q). split.
            -- apply IHa. cbn. exists s1. rewrite <- app_assoc. auto.
            -- cbn [snd]. rewrite <- app_assoc in *. rewrite !app_length in *. assert (length s1 <> 0) by (destruct s1; simpl; congruence).
               rewrite (proj2 (Nat.ltb_lt _ _)) by lia. apply IH; [cbn; rewrite app_length; lia|]. cbn. exists s2. rewrite <- lastc_app. auto. }
    apply (G (length t) (prev, t)). cbn. lia.
  - intros q. cbn [matches fst snd]. destruct (Bool.eqb _ _) eqn:E; split.
    + intros [].
    + intros (s & H1 & H2 & H3). inversion H3; subst. apply eqb_prop in E. simpl in *. congruence.
    + intros [<-|[]]. exists []. repeat split. constructor. intros K. rewrite K, eqb_reflx in E. discriminate.
    + intros (s & H1 & H2 & H3). inversion H3; subst. left. destruct q; cbn in *; subst; reflexivity.
Qed.

(** *** Longest first *)
Definition le_rest (p q : pos) : Prop := length (snd p) <= length (snd q).
Definition desc (l : list pos) : Prop := StronglySorted le_rest l.
Definition Desc (r : re) : Prop := forall p, desc (matches r p).

Lemma desc_app l1 l2 : desc l1 -> desc l2 -> (forall p q, In p l1 -> In q l2 -> le_rest p q) -> desc (l1 ++ l2).
Proof.
  induction 1 as [|x l1 Hs IH Hx]; simpl; auto. intros H2 H. constructor.
  - apply IH; auto.
  - apply Forall_app. split; auto. rewrite Forall_forall. intros q Hq. apply H; auto.
Qed.
Lemma desc_all l : (forall p q, In p l -> In q l -> le_rest p q) -> desc l.
Proof. induction l; intros H; constructor; auto; [apply IHl; auto|rewrite Forall_forall]; intros; apply H; simpl; auto. Qed.

Lemma matches_shorter r p q : In q (matches r p) -> length (snd q) <= length (snd p).
Proof. intros H. apply matches_exact in H as (s & -> & _). rewrite app_length. lia. Qed.

Lemma cls_desc f : Desc (Cls f).
Proof. intros [prev [|c t]]; cbn; [constructor|]. destruct (f c); repeat constructor. Qed.
Lemma eps_desc : Desc Eps.
Proof. intros p. repeat constructor. Qed.
Lemma seq_cls_desc f b : Desc b -> Desc (Seq (Cls f) b).
Proof. intros H [prev [|c t]]; cbn [matches snd flat_map]; [constructor|]. destruct (f c); cbn [flat_map]; [rewrite app_nil_r; apply H|constructor]. Qed.
Lemma alt_desc a b : Desc a -> Desc b -> (forall p q q', In q (matches a p) -> In q' (matches b p) -> le_rest q q') -> Desc (Alt a b).
Proof. intros Ha Hb H p. cbn [matches]. apply desc_app; auto. intros; eapply H; eauto. Qed.
Lemma opt_desc a : Desc a -> Desc (opt a).
Proof. intros Ha. apply alt_desc; auto; [apply eps_desc|]. intros p q q' H [<-|[]]. apply matches_shorter in H. exact H. Qed.

(** One step of a greedy repetition of a class. *)
Definition golist f := (fix go (n : nat) (p : pos) : list pos :=
         match n with
         | 0 => [p]
         | S n => flat_map (fun q => if length (snd q) <? length (snd p) then go n q else []) (matches (Cls f) p) ++ [p]
         end).
Lemma star_cls_cons f prev c t : matches (Star (Cls f)) (prev, c :: t) =
  if f c then matches (Star (Cls f)) (Some c, t) ++ [(prev, c :: t)] else [(prev, c :: t)].
Proof.
  change (matches (Star (Cls f)) (prev, c :: t)) with (golist f (length (c :: t)) (prev, c :: t)).
  change (matches (Star (Cls f)) (Some c, t)) with (golist f (length t) (Some c, t)).
  cbn [length golist]. cbn [matches snd]. destruct (f c); [|reflexivity].
  cbn [flat_map snd length]. rewrite (proj2 (Nat.ltb_lt _ _)) by lia. rewrite app_nil_r. reflexivity.
Qed.
Lemma star_cls_nil f prev : matches (Star (Cls f)) (prev, []) = [(prev, [])].
Proof. reflexivity. Qed.

Lemma seq_star_cons f b prev c t : matches (Seq (Star (Cls f)) b) (prev, c :: t) =
  if f c then matches (Seq (Star (Cls f)) b) (Some c, t) ++ matches b (prev, c :: t) else matches b (prev, c :: t).
Proof.
  cbn [matches]. change (flat_map (matches b) (matches (Star (Cls f)) (prev, c :: t)) = if f c then flat_map (matches b) (matches (Star (Cls f)) (Some c, t)) ++ matches b (prev, c :: t) else matches b (prev, c :: t)).
  rewrite star_cls_cons. destruct (f c).
  - rewrite flat_map_app. cbn [flat_map]. now rewrite app_nil_r.
  - cbn [flat_map]. now rewrite app_nil_r.
Qed.
Lemma seq_star_desc f b : Desc b ->
  (forall prev c t q, f c = true -> In q (matches b (prev, c :: t)) -> snd q = c :: t) -> Desc (Seq (Star (Cls f)) b).
Proof.
  intros Hb H [prev t]. revert prev. induction t as [|c t IH]; intros prev.
  - change (desc (flat_map (matches b) [(prev, [])])). cbn [flat_map]. rewrite app_nil_r. apply Hb.
  - rewrite seq_star_cons. destruct (f c) eqn:E; [|apply Hb]. apply desc_app; auto.
    intros p q Hp Hq. apply matches_shorter in Hp. cbn [snd] in Hp. apply (H prev c t q E) in Hq. unfold le_rest. rewrite Hq. simpl. lia.
Qed.
Lemma star_desc f : Desc (Star (Cls f)).
Proof.
  intros [prev t]. revert prev. induction t as [|c t IH]; intros prev; [repeat constructor|].
  rewrite star_cls_cons. destruct (f c); [|repeat constructor]. apply desc_app; auto; [repeat constructor|].
  intros p q Hp [<-|[]]. apply matches_shorter in Hp. unfold le_rest. simpl in *. lia.
Qed.
Lemma seq_opt_desc f b : Desc b -> (forall prev c t, f c = true -> matches b (prev, c :: t) = []) -> Desc (Seq (opt (Cls f)) b).
Proof.
  intros Hb H [prev t]. cbn [matches opt snd]. destruct t as [|c t]; cbn [app flat_map].
  - rewrite app_nil_r. apply Hb.
  - destruct (f c) eqn:E; cbn [app flat_map]; rewrite ?app_nil_r; [|apply Hb].
    match goal with |- desc (_ ++ ?y) => replace y with (@nil pos) by (symmetry; exact (H prev c t E)) end. rewrite app_nil_r. apply Hb.
Qed.
Lemma seq_assoc a b c p : matches (Seq (Seq a b) c) p = matches (Seq a (Seq b c)) p.
Proof.
  cbn [matches]. induction (matches a p) as [|x l IH]; auto. cbn [flat_map]. rewrite flat_map_app, IH. reflexivity.
Qed.
Lemma seq_alt a b c p : matches (Seq (Alt a b) c) p = matches (Seq a c) p ++ matches (Seq b c) p.
Proof. cbn [matches]. apply flat_map_app. Qed.
Lemma lit_desc s : Desc (lit s).
Proof. induction s as [|c s IH]; cbn [lit]; [apply eps_desc|apply seq_cls_desc; auto]. Qed.

(** *** First characters *)
Definition First (r : re) (f : ascii -> bool) : Prop :=
  forall p q, In q (matches r p) -> exists c t, snd p = c :: t /\ f c = true /\ length (snd q) <= length t.
Lemma first_none r f prev c t : First r f -> f c = false -> matches r (prev, c :: t) = [].
Proof.
  intros H E. destruct (matches r (prev, c :: t)) as [|q l] eqn:El; auto. exfalso.
  destruct (H (prev, c :: t) q) as (c' & t' & A & B & _); [rewrite El; left; auto|]. cbn in A. injection A as -> ->. congruence.
Qed.
Lemma first_seq_cls f b : First (Seq (Cls f) b) f.
Proof.
  intros [prev t] q H. cbn [matches snd] in H. destruct t as [|c t]; [destruct H|]. destruct (f c) eqn:E; [|destruct H].
  cbn [flat_map] in H. rewrite app_nil_r in H. exists c, t. repeat split; auto. apply matches_shorter in H. exact H.
Qed.
Lemma first_cls f : First (Cls f) f.
Proof. intros [prev t] q H. cbn [matches snd] in H. destruct t as [|c t]; [destruct H|]. destruct (f c) eqn:E; [|destruct H]. destruct H as [<-|[]]. exists c, t. repeat split; auto. Qed.
Lemma first_alt a b f g : First a f -> First b g -> First (Alt a b) (fun c => f c || g c).
Proof.
  intros Ha Hb p q H. cbn [matches] in H. apply in_app_iff in H as [H|H].
  - destruct (Ha p q H) as (c & t & A & B & C). exists c, t. rewrite B. auto.
  - destruct (Hb p q H) as (c & t & A & B & C). exists c, t. rewrite B, orb_true_r. auto.
Qed.
Lemma alt_disjoint a b f g : First a f -> First b g -> (forall c, f c = true -> g c = true -> False) -> Desc a -> Desc b -> Desc (Alt a b).
Proof.
  intros Ha Hb H Da Db. apply alt_desc; auto. intros p q q' H1 H2. exfalso.
  destruct (Ha p q H1) as (c & t & A & B & _). destruct (Hb p q' H2) as (c' & t' & A' & B' & _). rewrite A in A'. injection A' as <- <-. eauto.
Qed.

(** Character facts are checked for all 256 characters. *)
Ltac chars := let c := fresh "c" in intros c; destruct c as [[] [] [] [] [] [] [] []]; vm_compute; try reflexivity; try discriminate; auto.

Lemma expo_desc : Desc expo.
Proof.
  apply seq_cls_desc. apply seq_opt_desc.
  - apply seq_cls_desc, star_desc.
  - intros prev c t. assert (K : forall c, Ascii.eqb c "+" || Ascii.eqb c "-" = true -> digitb c = false) by chars.
    intros E. eapply first_none; [apply first_seq_cls|]. apply K. exact E.
Qed.
Lemma multi_desc : Desc multi.
Proof. apply seq_cls_desc. intros p. cbn. destruct (Bool.eqb _ _); repeat constructor. Qed.
Lemma first_expo : First expo (fun c => Ascii.eqb (lower c) (lower "e")).
Proof. apply first_seq_cls. Qed.
Lemma first_multi : First multi (fun c => existsb (Ascii.eqb (lower c)) [ "k"; "m"; "g" ]%char).
Proof. apply first_seq_cls. Qed.
Definition S_ : re := opt (Alt expo multi).
Lemma S_desc : Desc S_.
Proof.
  apply opt_desc. apply (alt_disjoint _ _ _ _ first_expo first_multi).
  - chars.
  - apply expo_desc.
  - apply multi_desc.
Qed.
Lemma opt_digit r f prev c t q : First r f -> (forall c, digitb c = true -> f c = false) -> digitb c = true ->
  In q (matches (opt r) (prev, c :: t)) -> snd q = c :: t.
Proof.
  intros Hf Hd Hc H. cbn [opt matches] in H. rewrite (first_none r f prev c t Hf (Hd c Hc)) in H. destruct H as [<-|[]]. reflexivity.
Qed.
Lemma S_digit prev c t q : digitb c = true -> In q (matches S_ (prev, c :: t)) -> snd q = c :: t.
Proof. intros Hc. apply (opt_digit _ _ prev c t q (first_alt _ _ _ _ first_expo first_multi)); [|exact Hc]. chars. Qed.

Lemma integer_desc : Desc (expression INTEGER).
Proof.
  assert (F1 : First (lit (str "infinity")) (fun x => Ascii.eqb (lower x) (lower "i"))) by apply first_seq_cls.
  assert (F2 : First (Seq D (Seq (Star D) (opt multi))) digitb) by apply first_seq_cls.
  apply seq_opt_desc.
  - apply (alt_disjoint _ _ _ _ F1 F2); [chars|apply lit_desc|]. apply seq_cls_desc, seq_star_desc; [apply opt_desc, multi_desc|].
    intros prev c t q. apply opt_digit with (1 := first_multi). chars.
  - intros prev c t E. eapply first_none; [apply (first_alt _ _ _ _ F1 F2)|].
    revert c E. chars.
Qed.

(** Text of digits followed by something else is read in one way only. *)
Lemma digits_unique (a : text) : forall b c x d y, Forall (fun c => digitb c = true) a -> Forall (fun c => digitb c = true) b ->
  digitb c = false -> digitb d = false -> a ++ c :: x = b ++ d :: y -> a = b /\ c = d /\ x = y.
Proof.
  induction a as [|u a IH]; intros [|v b] c x d y Ha Hb Hc Hd E; simpl in E.
  - injection E as -> ->. auto.
  - injection E as -> ->. apply Forall_inv in Hb. congruence.
  - injection E as <- <-. apply Forall_inv in Ha. congruence.
  - injection E as <- E. destruct (IH b c x d y) as (-> & -> & ->); auto; eapply Forall_inv_tail; eauto.
Qed.
Lemma M_star_digits f p s rest : M (Star (Cls f)) p s rest -> Forall (fun c => f c = true) s.
Proof.
  remember (Star (Cls f)) as r eqn:Er. induction 1 as [| | | | | |? ? ? ? ? Hs Ha _ Hst IH|]; try discriminate; [constructor|].
  injection Er as ->. inversion Ha; subst. simpl. constructor; auto.
Qed.
Lemma star_intro f s : forall p rest, Forall (fun c => f c = true) s -> M (Star (Cls f)) p s rest.
Proof.
  induction s as [|c s IH]; intros p rest H; [constructor|]. apply (M_star (Cls f) p [c] s rest); [discriminate| |].
  - constructor. apply Forall_inv in H. auto.
  - apply IH. eapply Forall_inv_tail; eauto.
Qed.
Lemma M_cls_inv f p s rest : M (Cls f) p s rest -> exists c, s = [c] /\ f c = true.
Proof. inversion 1; subst. eauto. Qed.
Lemma M_seq_inv a b p s rest : M (Seq a b) p s rest -> exists s1 s2, s = s1 ++ s2 /\ M a p s1 (s2 ++ rest) /\ M b (lastc p s1) s2 rest.
Proof. inversion 1; subst. eauto. Qed.
Lemma M_seq_cls f b p s rest : M (Seq (Cls f) b) p s rest <-> exists c s2, s = c :: s2 /\ f c = true /\ M b (Some c) s2 rest.
Proof.
  split.
  - intros H. apply M_seq_inv in H as (s1 & s2 & -> & H1 & H2). apply M_cls_inv in H1 as (c & -> & H1). exists c, s2. auto.
  - intros (c & s2 & -> & H1 & H2). apply (M_seq (Cls f) b p [c] s2 rest); [constructor; auto|exact H2].
Qed.
Lemma M_seq_star f b p s rest : M (Seq (Star (Cls f)) b) p s rest <->
  exists s1 s2, s = s1 ++ s2 /\ Forall (fun c => f c = true) s1 /\ M b (lastc p s1) s2 rest.
Proof.
  split.
  - intros H. apply M_seq_inv in H as (s1 & s2 & -> & H1 & H2). exists s1, s2. repeat split; auto. eapply M_star_digits; eauto.
  - intros (s1 & s2 & -> & H1 & H2). constructor; auto. apply star_intro; auto.
Qed.
Lemma M_alt a b p s rest : M (Alt a b) p s rest <-> M a p s rest \/ M b p s rest.
Proof. split; [inversion 1; subst; auto|intros [H|H]; [apply M_alt1|apply M_alt2]; auto]. Qed.
Lemma M_eps_inv p s rest : M Eps p s rest <-> s = [].
Proof. split; [inversion 1; auto|intros ->; constructor]. Qed.
Lemma M_opt a p s rest : M (opt a) p s rest <-> M a p s rest \/ s = [].
Proof. unfold opt. rewrite M_alt, M_eps_inv. tauto. Qed.
Lemma M_seq_opt f b p s rest : M (Seq (opt (Cls f)) b) p s rest <->
  M b p s rest \/ exists c s2, s = c :: s2 /\ f c = true /\ M b (Some c) s2 rest.
Proof.
  split.
  - intros H. apply M_seq_inv in H as (s1 & s2 & -> & H1 & H2). apply M_opt in H1 as [H1| ->]; [|left; exact H2].
    apply M_cls_inv in H1 as (c & -> & H1). right. exists c, s2. auto.
  - intros [H|(c & s2 & -> & H1 & H2)].
    + apply (M_seq (opt (Cls f)) b p [] s rest); [apply M_opt; auto|exact H].
    + apply (M_seq (opt (Cls f)) b p [c] s2 rest); [apply M_opt; left; constructor; auto|exact H2].
Qed.
Lemma M_star_cls f p s rest : M (Star (Cls f)) p s rest <-> Forall (fun c => f c = true) s.
Proof. split; [apply M_star_digits|apply star_intro]. Qed.

Lemma dot_not_digit c : Ascii.eqb (lower c) (lower ".") = true -> digitb c = false.
Proof. revert c. chars. Qed.
Lemma e_not_digit c : Ascii.eqb (lower c) (lower "e") = true -> digitb c = false.
Proof. revert c. chars. Qed.


Lemma seq_ext a b b' : (forall p, matches b p = matches b' p) -> forall p, matches (Seq a b) p = matches (Seq a b') p.
Proof. intros H p. cbn [matches]. apply flat_map_ext. exact H. Qed.
Lemma dots_read p q : In q (matches (Seq (Alt (Seq (Star D) (Seq (chr ".") (Seq D (Star D)))) (Seq D (Seq (Star D) (chr ".")))) S_) p) ->
  exists a c x, snd p = a ++ c :: x /\ Forall (fun c => digitb c = true) a /\ Ascii.eqb (lower c) (lower ".") = true.
Proof.
  intros H. apply matches_exact in H as (s & E & _ & H). rewrite E. clear E. apply M_seq_inv in H as (s1 & s2 & -> & H & _).
  apply M_alt in H as [H|H].
  - apply M_seq_star in H as (a & y & -> & Ha & H). apply M_seq_cls in H as (c & z & -> & Hc & _).
    exists a, c, ((z ++ s2) ++ snd q). rewrite <- ?app_assoc. cbn [app]. rewrite <- ?app_assoc. auto.
  - apply M_seq_cls in H as (d & y & -> & Hd & H). apply M_seq_star in H as (a & z & -> & Ha & H). apply M_cls_inv in H as (c & -> & Hc).
    exists (d :: a), c, (s2 ++ snd q). cbn [app]. rewrite <- ?app_assoc. cbn [app]. auto.
Qed.
Lemma exp_read p q : In q (matches (Seq D (Seq (Star D) expo)) p) ->
  exists a c x, snd p = a ++ c :: x /\ Forall (fun c => digitb c = true) a /\ Ascii.eqb (lower c) (lower "e") = true.
Proof.
  intros H. apply matches_exact in H as (s & E & _ & H). rewrite E. clear E.
  apply M_seq_cls in H as (d & y & -> & Hd & H). apply M_seq_star in H as (a & z & -> & Ha & H). apply M_seq_cls in H as (c & w & -> & Hc & _).
  exists (d :: a), c, (w ++ snd q). cbn [app]. rewrite <- ?app_assoc. cbn [app]. auto.
Qed.

Lemma mantissa_desc : Desc (Seq (Alt (Seq (Star D) (Seq (chr ".") (Seq D (Star D)))) (Seq D (Seq (Star D) (chr ".")))) S_).
Proof.
  assert (HAS : Desc (Seq (Star D) (Seq (chr ".") (Seq D (Seq (Star D) S_))))).
  { apply seq_star_desc.
    - apply seq_cls_desc, seq_cls_desc, seq_star_desc; [apply S_desc|]. apply S_digit.
    - intros prev c t q Hc H. exfalso. erewrite first_none in H; [destruct H|apply first_seq_cls|].
      cbn beta. destruct (Ascii.eqb _ _) eqn:E; auto. apply dot_not_digit in E. congruence. }
  assert (HBS : Desc (Seq D (Seq (Star D) (Seq (chr ".") S_)))).
  { apply seq_cls_desc, seq_star_desc; [apply seq_cls_desc, S_desc|].
    intros prev c t q Hc H. exfalso. erewrite first_none in H; [destruct H|apply first_seq_cls|].
    cbn beta. destruct (Ascii.eqb _ _) eqn:E; auto. apply dot_not_digit in E. congruence. }
  assert (EA : forall p, matches (Seq (Seq (Star D) (Seq (chr ".") (Seq D (Star D)))) S_) p = matches (Seq (Star D) (Seq (chr ".") (Seq D (Seq (Star D) S_)))) p).
  { intros p. rewrite seq_assoc. apply seq_ext. intros p'. rewrite seq_assoc. apply seq_ext. intros p2. apply seq_assoc. }
  assert (EB : forall p, matches (Seq (Seq D (Seq (Star D) (chr "."))) S_) p = matches (Seq D (Seq (Star D) (Seq (chr ".") S_))) p).
  { intros p. rewrite seq_assoc. apply seq_ext. intros p'. apply seq_assoc. }
  intros p. rewrite seq_alt, EA, EB. apply desc_app; [apply HAS|apply HBS|].
  intros q q' Hq Hq'. apply matches_exact in Hq as (s & E & _ & H). apply matches_exact in Hq' as (s' & E' & _ & H').
  apply M_seq_star in H as (a & y & -> & Ha & H). apply M_seq_cls in H as (c & z & -> & Hc & H). apply M_seq_cls in H as (d & w & -> & Hd & H).
  apply M_seq_cls in H' as (d' & y' & -> & Hd' & H'). apply M_seq_star in H' as (a' & z' & -> & Ha' & H'). apply M_seq_cls in H' as (c' & w' & -> & Hc' & H').
  unfold le_rest. rewrite E in E'. rewrite <- app_assoc in E'. cbn [app] in E'. rewrite <- app_assoc in E'. cbn [app] in E'.
  destruct (digits_unique a (d' :: a') c (d :: w ++ snd q) c' (w' ++ snd q')) as (-> & <- & E2); auto.
  - apply dot_not_digit; auto.
  - apply dot_not_digit; auto.
  - assert (K : In (lastc (Some c) w', snd q') (matches S_ (Some c, w' ++ snd q'))) by (apply matches_exact; exists w'; auto).
    rewrite <- E2 in K. apply S_digit in K; auto. cbn [snd] in K. rewrite K. cbn [length]. rewrite app_length. lia.
Qed.
Lemma float_desc : Desc (expression FLOAT).
Proof.
  apply seq_opt_desc.
  - apply alt_desc; [apply mantissa_desc| |].
    + apply seq_cls_desc, seq_star_desc; [apply expo_desc|].
      intros prev c t q Hc H. exfalso. erewrite first_none in H; [destruct H|apply first_expo|].
      cbn beta. destruct (Ascii.eqb _ _) eqn:E; auto. apply e_not_digit in E. congruence.
    + intros p q q' H H'. exfalso. apply dots_read in H as (a & c & x & E & Ha & Hc). apply exp_read in H' as (b & d & y & E' & Hb & Hd).
      rewrite E in E'. destruct (digits_unique a b c x d y) as (_ & <- & _); auto.
      * apply dot_not_digit; auto.
      * apply e_not_digit; auto.
      * revert Hc Hd. revert c E E'. clear. intros c _ _. revert c. chars.
  - intros prev c t Hc. destruct (matches _ _) as [|q l] eqn:El; auto. exfalso.
    assert (Hin : In q (matches (Alt (Seq (Alt (Seq (Star D) (Seq (chr ".") (Seq D (Star D)))) (Seq D (Seq (Star D) (chr ".")))) S_) (Seq D (Seq (Star D) expo))) (prev, c :: t))).
    { unfold S_. rewrite El. left. auto. }
    cbn [matches] in Hin. apply in_app_iff in Hin as [Hin|Hin].
    + apply dots_read in Hin as ([|u a] & d & x & E & Ha & Hd); cbn in E; injection E as E _; subst c.
      * clear - Hc Hd. revert d Hc Hd. chars.
      * apply Forall_inv in Ha. clear - Hc Ha. revert u Hc Ha. chars.
    + apply exp_read in Hin as ([|u a] & d & x & E & Ha & Hd); cbn in E; injection E as E _; subst c.
      * clear - Hc Hd. revert d Hc Hd. chars.
      * apply Forall_inv in Ha. clear - Hc Ha. revert u Hc Ha. chars.
Qed.

(** *** Lexemes *)
Lemma chr_spec a c : Ascii.eqb (lower a) (lower c) = true <-> lower a = lower c.
Proof. apply Ascii.eqb_eq. Qed.
Lemma lit_spec s : forall p x rest, M (lit s) p x rest <-> map lower x = map lower s.
Proof.
  induction s as [|c s IH]; intros p x rest; cbn [lit map].
  - rewrite M_eps_inv. split; [intros ->; auto|]. destruct x; [auto|discriminate].
  - unfold chr. rewrite M_seq_cls. split.
    + intros (d & y & -> & Hd & H). apply IH in H. apply chr_spec in Hd. cbn [map]. congruence.
    + destruct x as [|d y]; [discriminate|]. cbn [map]. intros [= H1 H2]. exists d, y. split; auto. split; [apply chr_spec; auto|apply IH; auto].
Qed.
Lemma digitb_spec c : digitb c = true <-> digit c.
Proof. unfold digitb, digit. rewrite andb_true_iff, !Nat.leb_le. tauto. Qed.
Lemma letterb_spec c : letterb c = true <-> letter c.
Proof. unfold letterb, letter. rewrite orb_true_iff, !andb_true_iff, !Nat.leb_le. tauto. Qed.
Lemma wordb_spec c : wordb c = true <-> word_char c.
Proof. unfold wordb, word_char. rewrite !orb_true_iff, digitb_spec, letterb_spec, Ascii.eqb_eq. tauto. Qed.
Lemma spaceb_spec c : spaceb c = true <-> space c.
Proof. unfold spaceb, space. rewrite orb_true_iff, andb_true_iff, !Nat.leb_le, Nat.eqb_eq. tauto. Qed.
Lemma Forall_iff {A} (P Q : A -> Prop) l : (forall x, P x <-> Q x) -> Forall P l <-> Forall Q l.
Proof. intros H. split; apply Forall_impl; intros; apply H; auto. Qed.
Lemma digits_spec s : Forall (fun c => digitb c = true) s <-> Forall digit s.
Proof. apply Forall_iff, digitb_spec. Qed.

(** The lower-case forms of the characters used. *)
Lemma lower_is c d : lower c = lower d -> In d [ "("; ")"; "["; "]"; ","; "="; "."; """"; "\" ]%char -> c = d.
Proof.
  intros Hc Hd. cbn [In] in Hd.
  repeat match type of Hd with _ \/ _ => destruct Hd as [<-|Hd] end; try tauto; revert c Hc; chars.
Qed.
Lemma sgn_spec c : Ascii.eqb c "+" || Ascii.eqb c "-" = true <-> c = "+"%char \/ c = "-"%char.
Proof. rewrite orb_true_iff, !Ascii.eqb_eq. tauto. Qed.
Lemma expo_spec p s rest : M expo p s rest <-> exponent s.
Proof.
  unfold expo, exponent. unfold chr. rewrite M_seq_cls. split.
  - intros (c & y & -> & Hc & H). apply chr_spec in Hc. unfold sgn in H. apply M_seq_opt in H as [H|(d & z & -> & Hd & H)];
      unfold D in H; apply M_seq_cls in H as (u & w & -> & Hu & H); apply M_star_cls in H.
    + exists c, [], (u :: w). split; [reflexivity|]. split; [exact Hc|]. split; [left; auto|]. split; [discriminate|].
      constructor; [apply digitb_spec; auto|apply digits_spec; auto].
    + exists c, [d], (u :: w). split; [reflexivity|]. split; [exact Hc|]. split; [|split; [discriminate|]].
      * apply sgn_spec in Hd as [-> | ->]; [right; left|right; right]; reflexivity.
      * constructor; [apply digitb_spec; auto|apply digits_spec; auto].
  - intros (c & sg & ds & -> & Hc & Hs & Hn & Hd). exists c, (sg ++ ds). split; auto. split; [apply chr_spec; auto|].
    destruct ds as [|u w]; [congruence|]. assert (Hm : forall p, M (Seq D (Star D)) p (u :: w) rest).
    { intros p'. unfold D. apply M_seq_cls. exists u, w. split; auto. split; [apply digitb_spec, (Forall_inv Hd)|]. apply M_star_cls, digits_spec, (Forall_inv_tail Hd). }
    unfold sgn. apply M_seq_opt. destruct Hs as [->|[->| ->]]; [left; apply Hm|right|right]; eexists _, (u :: w); (split; [reflexivity|]); (split; [reflexivity|apply Hm]).
Qed.
Lemma multi_spec p s rest : M multi p s rest <-> multiplier s rest.
Proof.
  unfold multi, kmg. rewrite M_seq_cls. unfold multiplier.
  assert (K : forall c, existsb (Ascii.eqb (lower c)) [ "k"; "m"; "g" ]%char = true <-> In (lower c) [ "k"; "m"; "g" ]%char).
  { intros c. rewrite existsb_exists. split; [intros (x & Hx & E); apply Ascii.eqb_eq in E; rewrite E; auto|intros H; exists (lower c); split; auto; apply Ascii.eqb_refl]. }
  assert (K2 : forall c, existsb (Ascii.eqb (lower c)) [ "k"; "m"; "g" ]%char = true -> wordb c = true) by chars.
  split.
  - intros (c & y & -> & Hc & H). inversion H as [| | | | | | |? ? Hw]; subst. split; [exists c; split; auto; apply K; auto|].
    cbn [is_word] in Hw. rewrite (K2 c Hc) in Hw. destruct rest as [|d r]; auto. cbn in Hw. rewrite <- wordb_spec. congruence.
  - intros ((c & -> & Hc) & Hr). apply K in Hc. exists c, []. split; auto. split; [exact Hc|]. constructor. cbn [is_word].
    rewrite (K2 c Hc). destruct rest as [|d r]; [discriminate|]. cbn. rewrite <- wordb_spec in Hr. congruence.
Qed.
Lemma S_spec p s rest : M S_ p s rest <-> s = [] \/ exponent s \/ multiplier s rest.
Proof. unfold S_. rewrite M_opt, M_alt, expo_spec, multi_spec. tauto. Qed.

Lemma chr_lexeme d p s rest : In d [ "("; ")"; "["; "]"; ","; "=" ]%char -> M (chr d) p s rest <-> s = [d].
Proof.
  intros Hd. split.
  - intros H. apply M_cls_inv in H as (c & -> & H). apply chr_spec in H. apply lower_is in H; [subst; reflexivity|]. cbn in *. tauto.
  - intros ->. constructor. apply chr_spec. auto.
Qed.
Lemma string_item_spec p s rest :
  M (Alt (lit [backslash; backslash]) (Alt (lit [backslash; quote]) (Alt (lit [backslash; "n"%char]) (Cls (fun c => negb (Ascii.eqb c quote || Ascii.eqb c backslash)))))) p s rest <-> string_item s.
Proof.
  assert (E2 : forall a b, In a [ "\" ]%char -> map lower s = [lower a; lower b] <-> exists c, s = [a; c] /\ lower c = lower b).
  { intros a b Ha. split.
    - destruct s as [|x [|y [|]]]; try discriminate. cbn [map]. intros [= H1 H2]. apply lower_is in H1; [|cbn in *; tauto]. subst. eauto.
    - intros (c & -> & Hc). cbn [map]. rewrite Hc. reflexivity. }
  rewrite !M_alt, !lit_spec. unfold string_item. cbn [map]. rewrite !E2 by (left; reflexivity). split.
  - intros [(c & -> & H)|[(c & -> & H)|[(c & -> & H)|H]]].
    + left. apply lower_is in H; [subst; auto|cbn; tauto].
    + right. left. apply lower_is in H; [subst; auto|cbn; tauto].
    + right. right. left. eauto.
    + apply M_cls_inv in H as (c & -> & H). right. right. right. exists c. split; auto.
      apply negb_true_iff, orb_false_iff in H as [H1 H2]. apply Ascii.eqb_neq in H1, H2. auto.
  - intros [->|[->|[(c & -> & H)|(c & -> & H1 & H2)]]].
    + left. eexists. split; reflexivity.
    + right. left. eexists. split; reflexivity.
    + right. right. left. exists c. split; auto.
    + right. right. right. constructor. apply negb_true_iff, orb_false_iff. split; apply Ascii.eqb_neq; auto.
Qed.
Lemma star_items r (P : text -> Prop) : (forall p s rest, M r p s rest <-> P s) -> (~ P []) ->
  forall p s rest, M (Star r) p s rest <-> exists items, s = concat items /\ Forall P items.
Proof.
  intros HP Hn p s rest. split.
  - intros H. remember (Star r) as r' eqn:Er. induction H; try discriminate.
    + exists []. auto.
    + injection Er as ->. destruct (IHM2 eq_refl) as (items & -> & Hi). exists (s1 :: items). split; auto. constructor; auto. eapply HP; eauto.
  - intros (items & -> & Hi). revert p. induction Hi as [|x l Hx Hl IH]; intros p; [constructor|]. cbn [concat]. apply M_star.
    + intros ->. auto.
    + apply HP. auto.
    + apply IH.
Qed.

Lemma expression_spec ty p s rest : M (expression ty) p s rest <-> lexeme ty s rest.
Proof.
  destruct ty; cbn [expression lexeme].
  1-6: apply chr_lexeme; cbn; tauto.
  - rewrite lit_spec. reflexivity.
  - rewrite M_alt, !lit_spec. reflexivity.
  - unfold chr at 1. rewrite M_seq_cls. split.
    + intros (c & y & -> & Hc & H). apply chr_spec, lower_is in Hc; [|cbn; tauto]. subst c.
      apply M_seq_inv in H as (s1 & s2 & -> & H1 & H2). apply M_cls_inv in H2 as (c & -> & Hc). apply chr_spec, lower_is in Hc; [|cbn; tauto]. subst c.
      apply (star_items _ string_item) in H1 as (items & -> & Hi); [exists items; auto|intros; apply string_item_spec|].
      intros [K|[K|[(c & K & _)|(c & K & _)]]]; discriminate.
    + intros (items & -> & Hi). exists quote, (concat items ++ [quote]). split; auto. split; [reflexivity|]. constructor.
      * apply (star_items _ string_item); [intros; apply string_item_spec| |eauto].
        intros [K|[K|[(c & K & _)|(c & K & _)]]]; discriminate.
      * constructor. reflexivity.
  - assert (G : forall p s, M (Alt (Seq (Alt (Seq (Star D) (Seq (chr ".") (Seq D (Star D)))) (Seq D (Seq (Star D) (chr ".")))) (opt (Alt expo multi))) (Seq D (Seq (Star D) expo))) p s rest <->
      exists m x, s = m ++ x /\ ((exists a b, m = a ++ "."%char :: b /\ Forall digit a /\ Forall digit b /\ (a <> [] \/ b <> []) /\
          (x = [] \/ exponent x \/ multiplier x rest)) \/ (digits1 m /\ exponent x))).
    { clear p s. intros p s. rewrite M_alt. split.
      - intros [H|H].
        + apply M_seq_inv in H as (m & x & -> & H & Hx). apply S_spec in Hx. exists m, x. split; auto. left. apply M_alt in H as [H|H].
          * apply M_seq_star in H as (a & y & -> & Ha & H). apply M_seq_cls in H as (c & z & -> & Hc & H).
            unfold D in H. apply M_seq_cls in H as (d & w & -> & Hd & H). apply M_star_cls in H. apply chr_spec, lower_is in Hc; [|cbn; tauto]. subst c.
            exists a, (d :: w). splits; auto; [apply digits_spec; auto|constructor; [apply digitb_spec; auto|apply digits_spec; auto]|right; discriminate].
          * unfold D in H. apply M_seq_cls in H as (d & y & -> & Hd & H). apply M_seq_star in H as (a & z & -> & Ha & H).
            apply M_cls_inv in H as (c & -> & Hc). apply chr_spec, lower_is in Hc; [|cbn; tauto]. subst c.
            exists (d :: a), []. splits; auto; [constructor; [apply digitb_spec; auto|apply digits_spec; auto]|left; discriminate].
        + unfold D in H. apply M_seq_cls in H as (d & y & -> & Hd & H). apply M_seq_star in H as (a & z & -> & Ha & H). apply expo_spec in H.
          exists (d :: a), z. split; auto. right. split; auto. split; [discriminate|]. constructor; [apply digitb_spec; auto|apply digits_spec; auto].
      - intros (m & x & -> & [(a & b & -> & Ha & Hb & Hn & Hx)|[[Hn Hm] Hx]]).
        + left. constructor; [|apply S_spec; auto]. apply M_alt. destruct b as [|d w].
          * right. destruct a as [|d a]; [tauto|]. unfold D. apply M_seq_cls. exists d, (a ++ ["."%char]). split; auto. split; [apply digitb_spec, (Forall_inv Ha)|].
            apply M_seq_star. exists a, ["."%char]. splits; auto; [apply digits_spec, (Forall_inv_tail Ha)|]. constructor. reflexivity.
          * left. unfold D at 1. apply M_seq_star. exists a, ("."%char :: d :: w). splits; auto; [apply digits_spec; auto|].
            unfold chr. apply M_seq_cls. eexists _, _. split; [reflexivity|]. split; [reflexivity|]. apply M_seq_cls. eexists _, _. split; [reflexivity|].
            split; [apply digitb_spec, (Forall_inv Hb)|]. apply M_star_cls, digits_spec, (Forall_inv_tail Hb).
        + right. destruct m as [|d a]; [congruence|]. unfold D. apply M_seq_cls. exists d, (a ++ x). split; auto. split; [apply digitb_spec, (Forall_inv Hm)|].
          apply M_seq_star. exists a, x. splits; auto; [apply digits_spec, (Forall_inv_tail Hm)|apply expo_spec; auto]. }
    unfold sgn. rewrite M_seq_opt. rewrite (G p s). split.
    + intros [(m & x & -> & H)|(c & s2 & -> & Hc & H)].
      * exists [], m, x. split; auto. split; [left; auto|auto].
      * apply G in H as (m & x & -> & H). exists [c], m, x. split; auto. split; auto. apply sgn_spec in Hc as [-> | ->]; [right; left|right; right]; reflexivity.
    + intros (sg & m & x & -> & Hs & H). destruct Hs as [->|[->| ->]]; [left; exists m, x; auto|right|right];
        eexists _, (m ++ x); (split; [reflexivity|]); (split; [reflexivity|]); apply G; exists m, x; auto.
  - assert (G : forall p s, M (Alt (lit (str "infinity")) (Seq D (Seq (Star D) (opt multi)))) p s rest <->
      exists m x, s = m ++ x /\ ((lower_text m = str "infinity" /\ x = []) \/ (digits1 m /\ (x = [] \/ multiplier x rest)))).
    { clear p s. intros p s. rewrite M_alt, lit_spec. split.
      - intros [H|H].
        + exists s, []. rewrite app_nil_r. split; auto. 
        + unfold D in H. apply M_seq_cls in H as (d & y & -> & Hd & H). apply M_seq_star in H as (a & z & -> & Ha & H).
          rewrite M_opt, multi_spec in H. exists (d :: a), z. split; auto. right. split; [|tauto]. split; [discriminate|]. constructor; [apply digitb_spec; auto|apply digits_spec; auto].
      - intros (m & x & -> & [[H ->]|[[Hn Hm] Hx]]).
        + left. rewrite app_nil_r. exact H.
        + right. destruct m as [|d a]; [congruence|]. unfold D. apply M_seq_cls. exists d, (a ++ x). split; auto. split; [apply digitb_spec, (Forall_inv Hm)|].
          apply M_seq_star. exists a, x. splits; auto; [apply digits_spec, (Forall_inv_tail Hm)|]. rewrite M_opt, multi_spec. tauto. }
    unfold sgn. rewrite M_seq_opt. rewrite (G p s). split.
    + intros [(m & x & -> & H)|(c & s2 & -> & Hc & H)].
      * exists [], m, x. split; auto. split; [left; auto|auto].
      * apply G in H as (m & x & -> & H). exists [c], m, x. split; auto. split; auto. apply sgn_spec in Hc as [-> | ->]; [right; left|right; right]; reflexivity.
    + intros (sg & m & x & -> & Hs & H). destruct Hs as [->|[->| ->]]; [left; exists m, x; auto|right|right];
        eexists _, (m ++ x); (split; [reflexivity|]); (split; [reflexivity|]); apply G; exists m, x; auto.
  - rewrite M_seq_cls. split.
    + intros (c & w & -> & Hc & H). apply M_star_cls in H. exists c, w. split; auto. rewrite orb_true_iff, letterb_spec, Ascii.eqb_eq in Hc. split; auto.
      eapply Forall_iff; [|exact H]. intros x. symmetry. apply wordb_spec.
    + intros (c & w & -> & Hc & H). exists c, w. split; auto. rewrite orb_true_iff, letterb_spec, Ascii.eqb_eq. split; auto.
      apply M_star_cls. eapply Forall_iff; [|exact H]. intros x. apply wordb_spec.
Qed.

(** Strings end at the first quote that is not escaped. *)
Lemma string_unique items : forall items' x y, Forall string_item items -> Forall string_item items' ->
  concat items ++ quote :: x = concat items' ++ quote :: y -> x = y.
Proof.
  induction items as [|i items IH]; intros [|j items'] x y Hi Hj E; cbn [concat app] in E.
  - congruence.
  - exfalso. apply Forall_inv in Hj. destruct Hj as [->|[->|[(c & -> & _)|(c & -> & H & _)]]]; cbn in E; try discriminate. injection E as <- _. congruence.
  - exfalso. apply Forall_inv in Hi. destruct Hi as [->|[->|[(c & -> & _)|(c & -> & H & _)]]]; cbn in E; try discriminate. injection E as -> _. congruence.
  - assert (K : i = j /\ concat items ++ quote :: x = concat items' ++ quote :: y).
    { assert (Hi' := Forall_inv Hi). assert (Hj' := Forall_inv Hj).
      destruct Hi' as [->|[->|[(c & -> & Hc)|(c & -> & Hc1 & Hc2)]]]; destruct Hj' as [->|[->|[(d & -> & Hd)|(d & -> & Hd1 & Hd2)]]];
        cbn [app] in E; inversion E; subst; try congruence; auto; try (exfalso; congruence); exfalso; revert Hc || revert Hd; vm_compute; discriminate. }
    destruct K as [-> K]. apply (IH items'); [exact (Forall_inv_tail Hi)|exact (Forall_inv_tail Hj)|exact K].
Qed.
Lemma string_desc : Desc (expression STRING).
Proof.
  intros p. apply desc_all. intros q q' H H'. apply matches_exact in H as (s & E & _ & H). apply matches_exact in H' as (s' & E' & _ & H').
  apply expression_spec in H as (items & -> & Hi). apply expression_spec in H' as (items' & -> & Hi'). unfold le_rest.
  rewrite E in E'. cbn [app] in E'. rewrite <- !app_assoc in E'. cbn [app] in E'. injection E' as E'.
  apply string_unique in E'; auto. rewrite E'. auto.
Qed.
Lemma boolean_desc : Desc (expression BOOLEAN).
Proof.
  apply (alt_disjoint _ _ _ _ (first_seq_cls _ _) (first_seq_cls _ _)); [chars|apply (lit_desc (str "true"))|apply (lit_desc (str "false"))].
Qed.
Theorem expression_desc ty : Desc (expression ty).
Proof.
  destruct ty; try apply cls_desc; [apply lit_desc|apply boolean_desc|apply string_desc|apply float_desc|apply integer_desc|].
  apply seq_cls_desc, star_desc.
Qed.

(** *** Tokens *)
Fixpoint strip (t : text) : text := match t with c :: r => if spaceb c then strip r else t | [] => [] end.
Definition nonspace (t : text) : Prop := match t with c :: _ => ~ space c | [] => True end.
Lemma strip_spec t : exists ws, t = ws ++ strip t /\ Forall space ws /\ nonspace (strip t).
Proof.
  induction t as [|c t (ws & E & H1 & H2)]; [exists []; cbn; auto|]. cbn [strip]. destruct (spaceb c) eqn:Es.
  - exists (c :: ws). cbn [app]. split; [f_equal; auto|]. split; [constructor; auto; apply spaceb_spec; auto|auto].
  - exists []. split; [reflexivity|]. split; [constructor|]. cbn. rewrite <- spaceb_spec. congruence.
Qed.
Lemma strip_unique ws core : Forall space ws -> nonspace core -> strip (ws ++ core) = core.
Proof.
  induction 1 as [|c ws Hc Hw IH]; intros Hn; cbn [app strip].
  - destruct core as [|c r]; auto. cbn in *. destruct (spaceb c) eqn:E; auto. apply spaceb_spec in E. tauto.
  - apply spaceb_spec in Hc. rewrite Hc. auto.
Qed.

Lemma digit_not_space c : digit c -> ~ space c.
Proof. unfold digit, space. lia. Qed.
Lemma lower_not_space d : In d ["l"; "t"; "f"; "i"]%char -> forall c, lower c = d -> spaceb c <> true.
Proof.
  intros H. assert (K : existsb (Ascii.eqb d) ["l"; "t"; "f"; "i"]%char = true).
  { apply existsb_exists. exists d. split; auto. apply Ascii.eqb_eq. auto. }
  clear H. intros c <-. revert c K. chars.
Qed.
Lemma letter_not_space : forall c, letterb c = true -> spaceb c <> true.
Proof. chars. Qed.
Lemma lexeme_first ty s rest : lexeme ty s rest -> exists c r, s = c :: r /\ ~ space c.
Proof.
  assert (N : forall d, In d [ "("; ")"; "["; "]"; ","; "="; """"; "+"; "-"; "." ]%char -> ~ space d).
  { intros d H. rewrite <- spaceb_spec. cbn [In] in H. repeat match type of H with _ \/ _ => destruct H as [<-|H] end; try tauto; vm_compute; discriminate. }
  assert (K : forall d l, In d ["l"; "t"; "f"; "i"]%char -> lower_text s = d :: l -> exists c r, s = c :: r /\ ~ space c).
  { intros d l Hd E. destruct s as [|c r]; [discriminate|]. exists c, r. split; auto. cbn [lower_text map] in E. injection E as E _.
    rewrite <- spaceb_spec. exact (lower_not_space d Hd c E). }
  assert (KD : forall m, digits1 m -> exists c r, m = c :: r /\ ~ space c).
  { intros m [Hn Hm]. destruct m as [|c r]; [congruence|]. exists c, r. split; auto. apply digit_not_space. exact (Forall_inv Hm). }
  assert (KS : forall sg m, sign sg -> (exists c r, m = c :: r /\ ~ space c) -> exists c r, sg ++ m = c :: r /\ ~ space c).
  { intros sg m [->|[->| ->]] H; auto; eexists _, _; (split; [reflexivity|]); apply N; cbn; tauto. }
  destruct ty; cbn [lexeme].
  1-6: intros ->; eexists _, _; split; [reflexivity|apply N; cbn; tauto].
  - apply K. cbn. tauto.
  - intros [H|H]; eapply K; try exact H; cbn; tauto.
  - intros (items & -> & _). eexists _, _. split; [reflexivity|apply N; cbn; tauto].
  - intros (sg & m & x & -> & Hs & H). apply KS; auto. destruct H as [(a & b & -> & Ha & Hb & _)|[H _]].
    + destruct a as [|c a]; [eexists _, _; split; [reflexivity|apply N; cbn; tauto]|]. exists c. eexists. split; [reflexivity|]. apply digit_not_space, (Forall_inv Ha).
    + destruct (KD m H) as (c & r & -> & Hc). eexists _, _. split; [reflexivity|auto].
  - intros (sg & m & x & -> & Hs & H). apply KS; auto. destruct H as [[H ->]|[H _]].
    + destruct m as [|c r]; [discriminate|]. exists c. eexists. split; [reflexivity|]. cbn [lower_text map] in H. injection H as H _. rewrite <- spaceb_spec. refine (lower_not_space _ _ c H). cbn. tauto.
    + destruct (KD m H) as (c & r & -> & Hc). eexists _, _. split; [reflexivity|auto].
  - intros (c & w & -> & Hc & _). exists c, w. split; auto. rewrite <- spaceb_spec. rewrite <- letterb_spec in Hc. destruct Hc as [Hc| ->]; [|vm_compute; discriminate].
    apply letter_not_space; auto.
Qed.
Lemma no_lexeme_at_space ty q : (exists c t, snd q = c :: t /\ spaceb c = true) -> matches (expression ty) q = [].
Proof.
  intros (c & t & E & Hc). destruct (matches (expression ty) q) as [|x l] eqn:El; auto. exfalso.
  assert (H : In x (matches (expression ty) q)) by (rewrite El; left; auto).
  apply matches_exact in H as (s & Es & _ & H). apply expression_spec, lexeme_first in H as (d & r & -> & Hd).
  cbn [app] in Es. assert (K : c :: t = d :: r ++ snd x) by (transitivity (snd q); [symmetry; exact E|exact Es]).
  injection K as -> _. apply Hd, spaceb_spec. auto.
Qed.

Lemma star_space t : forall prev, exists ws l, t = ws ++ strip t /\ Forall space ws /\
  matches (Star (Cls spaceb)) (prev, t) = (lastc prev ws, strip t) :: l /\
  forall q, In q l -> exists c t', snd q = c :: t' /\ spaceb c = true.
Proof.
  induction t as [|c t IH]; intros prev.
  - exists [], []. rewrite star_cls_nil. splits; [reflexivity|constructor|reflexivity|intros q []].
  - rewrite star_cls_cons. cbn [strip]. destruct (spaceb c) eqn:E.
    + destruct (IH (Some c)) as (ws & l & H1 & H2 & H3 & H4). exists (c :: ws), (l ++ [(prev, c :: t)]). cbn [app]. splits.
      * f_equal. auto.
      * constructor; auto. apply spaceb_spec; auto.
      * transitivity (((lastc (Some c) ws, strip t) :: l) ++ [(prev, c :: t)]); [f_equal; exact H3|reflexivity].
      * intros q Hq. apply in_app_iff in Hq as [Hq|[<-|[]]]; auto. exists c, t. auto.
    + exists [], []. splits; [reflexivity|constructor|reflexivity|intros q []].
Qed.

(** [raw] is the longest lexeme of type [ty] at the start of [core]. *)
Definition longest (core : text) (ty : token_type) (raw : text) : Prop :=
  starts core ty raw /\ forall raw', starts core ty raw' -> length raw' <= length raw.

Lemma starts_match ty prev core raw : starts core ty raw <-> exists q, In q (matches (expression ty) (prev, core)) /\ core = raw ++ snd q.
Proof.
  split.
  - intros (rest & -> & H). exists (lastc prev raw, rest). split; auto. apply matches_exact. exists raw. splits; auto. apply expression_spec. auto.
  - intros (q & Hq & E). apply matches_exact in Hq as (s & Es & _ & H). cbn [fst snd] in *. exists (snd q). split; auto.
    rewrite E in Es. apply app_inv_tail in Es as <-. eapply expression_spec; eauto.
Qed.

Lemma search_spec ty t :
  (search (expression ty) t = [] /\ forall raw, ~ starts (strip t) ty raw) \/
  (exists raw p1 p2 p3 l, search (expression ty) t = (p1, p2, p3) :: l /\ snd p1 = strip t /\ strip t = raw ++ snd p2 /\
     snd p3 = strip (snd p2) /\ longest (strip t) ty raw).
Proof.
  destruct (star_space t None) as (ws & l & E & Hw & Em & Hl). set (p1 := (lastc None ws, strip t)) in *.
  assert (Es : search (expression ty) t = flat_map (fun p2 => map (fun p3 => (p1, p2, p3)) (matches (Star (Cls spaceb)) p2)) (matches (expression ty) p1)).
  { unfold search. rewrite Em. cbn [flat_map].
    match goal with |- ?x ++ ?y = _ => assert (Ey : y = []) end.
    { clear -Hl. induction l as [|q l IH]; auto. cbn [flat_map]. rewrite IH; [|intros; apply Hl; right; auto].
      rewrite (no_lexeme_at_space ty q); auto. apply Hl. left; auto. }
    rewrite Ey, app_nil_r. reflexivity. }
  pose proof (starts_match ty (lastc None ws) (strip t)) as SM. fold p1 in SM. pose proof (expression_desc ty p1) as Hd.
  destruct (matches (expression ty) p1) as [|p2 ms] eqn:Er.
  - left. rewrite Es. split; auto. intros raw H. apply SM in H as (q & [] & _).
  - right. destruct p2 as [pv rest2]. destruct (star_space rest2 pv) as (ws2 & l2 & E2 & Hw2 & Em2 & _).
    assert (Hin : In (pv, rest2) (matches (expression ty) p1)) by (rewrite Er; left; auto).
    apply matches_exact in Hin as (raw & Eraw & _ & HM). cbn [fst snd p1] in Eraw.
    exists raw, p1, (pv, rest2), (lastc pv ws2, strip rest2). eexists. splits.
    + rewrite Es. cbn [flat_map]. rewrite Em2. cbn [map app]. reflexivity.
    + reflexivity.
    + exact Eraw.
    + reflexivity.
    + split; [apply SM; exists (pv, rest2); split; [left; auto|exact Eraw]|].
      intros raw' H. apply SM in H as (q & Hq & Eq).
      assert (Hle : le_rest (pv, rest2) q).
      { inversion Hd as [|? ? ? Hf]; subst. destruct Hq as [<-|Hq]; [unfold le_rest; auto|]. rewrite Forall_forall in Hf. auto. }
      unfold le_rest in Hle. cbn [snd] in *. rewrite Eraw in Eq. apply (f_equal (@length ascii)) in Eq. rewrite !app_length in Eq. lia.
Qed.

Definition tok (ty : token_type) (raw : text) : token := {| tk_content := content_of ty raw; tk_type := ty |}.
Lemma next_token_spec t tys :
  match next_token (map (fun ty => (ty, expression ty)) tys) t with
  | Some (tk, rest) => exists l1 ty l2 raw, tys = l1 ++ ty :: l2 /\ (forall ty' raw', In ty' l1 -> ~ starts (strip t) ty' raw') /\
      longest (strip t) ty raw /\ tk = tok ty raw /\ exists r, strip t = raw ++ r /\ rest = strip r
  | None => forall ty raw, In ty tys -> ~ starts (strip t) ty raw
  end.
Proof.
  induction tys as [|ty tys IH]; cbn [map next_token]; [intros ty raw []|].
  destruct (search_spec ty t) as [[E H]|(raw & p1 & p2 & p3 & l & E & E1 & E2 & E3 & H)]; rewrite E.
  - destruct (next_token _ t) as [[tk rest]|].
    + destruct IH as (l1 & ty1 & l2 & raw & -> & H1 & H2). exists (ty :: l1), ty1, l2, raw. split; auto. split; auto.
      intros ty' raw' [<-|K]; auto.
    + intros ty' raw [<-|K]; auto.
  - exists [], ty, tys, raw. split; auto. split; [intros ty' raw' []|]. split; auto. split.
    + unfold tok. rewrite E1, E2, app_length. replace (length raw + length (snd p2) - length (snd p2)) with (length raw) by lia.
      rewrite firstn_app, firstn_all, Nat.sub_diag, firstn_O, app_nil_r. destruct ty; reflexivity.
    + exists (snd p2). auto.
Qed.

Lemma two_positions {A} (l1 : list A) : forall a l2 m1 b m2, l1 ++ a :: l2 = m1 ++ b :: m2 ->
  In b l1 \/ In a m1 \/ (l1 = m1 /\ a = b).
Proof.
  induction l1 as [|x l1 IH]; intros a l2 [|y m1] b m2 E; cbn [app] in E.
  - injection E as E _. right. right. auto.
  - injection E as E _. right. left. left. auto.
  - injection E as E _. left. left. auto.
  - injection E as -> E. destruct (IH _ _ _ _ _ E) as [K|[K|[K1 K2]]]; [left; right; auto|right; left; right; auto|right; right; subst; auto].
Qed.
Lemma order_nodup : NoDup token_order.
Proof. repeat constructor; cbn; intuition discriminate. Qed.
Lemma before_in l1 ty l2 ty' : token_order = l1 ++ ty :: l2 -> before ty' ty <-> In ty' l1.
Proof.
  intros E. split.
  - intros (m1 & m2 & m3 & E'). pose proof order_nodup as ND. rewrite E in E'. 
    replace (m1 ++ ty' :: m2 ++ ty :: m3) with ((m1 ++ ty' :: m2) ++ ty :: m3) in E' by (rewrite <- app_assoc; reflexivity).
    destruct (two_positions _ _ _ _ _ _ E') as [K|[K|[K _]]].
    + exfalso. rewrite E in ND. apply NoDup_remove_2 in ND. apply ND. apply in_or_app. auto.
    + exfalso. rewrite E, E' in ND. apply NoDup_remove_2 in ND. apply ND. apply in_or_app. auto.
    + rewrite K. apply in_or_app. right. left. auto.
  - intros H. apply in_split in H as (a & b & ->). exists a, b, l2. rewrite E, <- app_assoc. reflexivity.
Qed.
Lemma starts_prefix core ty raw raw' : starts core ty raw -> starts core ty raw' -> length raw = length raw' -> raw = raw'.
Proof.
  intros (r & E & _) (r' & E' & _) L. rewrite E in E'. clear E. revert raw' E' L.
  induction raw as [|c raw IH]; intros [|c' raw'] E L; cbn in *; try discriminate; auto. injection E as -> E. f_equal. apply IH; auto.
Qed.

Lemma round t : t <> [] ->
  match next_token token_type_expressions t with
  | Some (tk, rest) => length rest < length t /\ (forall toks, tokens rest toks -> tokens t (tk :: toks))
  | None => forall toks, ~ tokens t toks
  end /\
  forall tk toks, tokens t (tk :: toks) -> exists rest, next_token token_type_expressions t = Some (tk, rest) /\ tokens rest toks.
Proof.
  intros Hne. pose proof (next_token_spec t token_order) as NS. change (map (fun ty => (ty, expression ty)) token_order) with token_type_expressions in NS.
  assert (INV : forall toks, tokens t toks -> exists ty raw rest tl, toks = tok ty raw :: tl /\ strip t = raw ++ rest /\ longest (strip t) ty raw /\
     (forall ty' raw', before ty' ty -> ~ starts (strip t) ty' raw') /\ tokens (strip rest) tl).
  { intros toks H. inversion H as [E|ws raw ws' rest ty tl H1 H2 H3 H4 H5 H6 H7 E1 E2]; subst; [congruence|].
    assert (Es : strip (ws ++ raw ++ ws' ++ rest) = raw ++ ws' ++ rest).
    { apply strip_unique; auto. destruct H4 as (r & _ & L). apply lexeme_first in L as (c & r' & -> & Hc). cbn. auto. }
    exists ty, raw, (ws' ++ rest), tl. rewrite Es. splits; auto; [split; auto|]. rewrite strip_unique; auto. }
  destruct (next_token token_type_expressions t) as [[tk rest]|].
  - destruct NS as (l1 & ty & l2 & raw & E & Hb & Hl & -> & r & Er & ->). split; [split|].
    + destruct (strip_spec t) as (ws & Et & _). destruct (strip_spec r) as (ws2 & Er2 & _).
      assert (Hraw : raw <> []). { destruct Hl as [(q & _ & L) _]. apply lexeme_first in L as (c & r' & -> & _). discriminate. }
      apply (f_equal (@length ascii)) in Et. apply (f_equal (@length ascii)) in Er2. apply (f_equal (@length ascii)) in Er.
      rewrite !app_length in *. destruct raw; [congruence|]. cbn [length] in Er. lia.
    + intros toks H. destruct (strip_spec t) as (ws & Et & Hw & _). destruct (strip_spec r) as (ws2 & Er2 & Hw2 & Hn2).
      destruct Hl as [Hs Hl].
      assert (Ec : raw ++ ws2 ++ strip r = strip t) by (rewrite <- Er2; symmetry; exact Er).
      assert (G : tokens (ws ++ raw ++ ws2 ++ strip r) (tok ty raw :: toks)).
      { apply tokens_cons; auto; try (rewrite Ec; auto).
        intros ty' raw' K. apply Hb. eapply before_in; eauto. }
      rewrite Ec, <- Et in G. exact G.
    + intros tk toks H. destruct (INV _ H) as (ty2 & raw2 & rest2 & tl & E2 & Es2 & Hl2 & Hb2 & Ht). injection E2 as -> ->.
      assert (ty = ty2) as <-.
      { destruct (before_in l1 ty l2 ty2 E) as [_ B].
        assert (In ty2 token_order) as K by (clear; destruct ty2; cbn; tauto). rewrite E in K. apply in_app_iff in K as [K|[K|K]]; auto.
        - exfalso. eapply (Hb ty2 raw2); eauto. apply Hl2.
        - exfalso. apply in_split in K as (k1 & k2 & ->). apply (Hb2 ty raw); [|apply Hl]. exists l1, k1, k2. exact E. }
      assert (raw = raw2) as <-.
      { destruct Hl as [Hs Hl], Hl2 as [Hs2 Hl2]. eapply starts_prefix; eauto. apply Nat.le_antisymm; auto. }
      exists (strip r). split; auto. rewrite Er in Es2. apply app_inv_head in Es2 as ->. auto.
  - split.
    + intros toks H. destruct (INV _ H) as (ty & raw & rest & tl & _ & _ & [Hs _] & _). apply (NS ty raw); auto. destruct ty; cbn; tauto.
    + intros tk toks H. exfalso. destruct (INV _ H) as (ty & raw & rest & tl' & _ & _ & [Hs _] & _). apply (NS ty raw); auto. destruct ty; cbn; tauto.
Qed.

Lemma split_loop_spec fuel : forall t acc, length t <= fuel ->
  (exists toks, split_loop fuel t acc = Ok (acc ++ toks) /\ tokens t toks) \/
  (split_loop fuel t acc = Exit input_error /\ forall toks, ~ tokens t toks).
Proof.
  induction fuel as [|fuel IH]; intros t acc Hf.
  - destruct t; [|cbn in Hf; lia]. left. exists []. cbn. rewrite app_nil_r. split; auto. constructor.
  - destruct t as [|c t0]; [left; exists []; cbn; rewrite app_nil_r; split; auto; constructor|].
    set (t := c :: t0) in *. assert (Hne : t <> []) by discriminate. destruct (round t Hne) as [R1 R2].
    change (split_loop (S fuel) t acc) with (match next_token token_type_expressions t with
          | Some (tok, rest) => split_loop fuel rest (acc ++ [tok]) | None => Exit input_error end).
    destruct (next_token token_type_expressions t) as [[tk rest]|].
    + destruct R1 as [Hlen Hcons]. destruct (IH rest (acc ++ [tk])) as [(toks & E & Ht)|[E Hno]]; [lia| |].
      * left. exists (tk :: toks). rewrite E, <- app_assoc. split; auto.
      * right. split; auto. intros toks Ht. destruct toks as [|tk' toks]; [inversion Ht; subst; congruence|].
        destruct (R2 _ _ Ht) as (rest' & [= <- <-] & Ht'). eapply Hno; eauto.
    + right. split; auto.
Qed.
Lemma tokens_fun t toks : tokens t toks -> forall toks', tokens t toks' -> toks = toks'.
Proof.
  remember (length t) as n eqn:En. revert t toks En. induction n as [n IH] using lt_wf_ind. intros t toks -> H toks' H'.
  destruct t as [|c t0].
  - assert (G : forall toks, tokens [] toks -> toks = []).
    { intros l K. inversion K as [|ws raw ws' rest ty tl H1 H2 H3 H4 H5 H6 H7 E1 E2]; auto. subst.
      symmetry in E1 || idtac. destruct H4 as (r & _ & L). apply lexeme_first in L as (x & y & -> & _). destruct ws; discriminate. }
    rewrite (G _ H), (G _ H'). reflexivity.
  - set (t := c :: t0) in *. assert (Hne : t <> []) by discriminate. destruct (round t Hne) as [R1 R2].
    destruct toks as [|a toks]; [inversion H; subst; congruence|]. destruct toks' as [|b toks']; [inversion H'; subst; congruence|].
    destruct (R2 _ _ H) as (r1 & E1 & K1). destruct (R2 _ _ H') as (r2 & E2 & K2). rewrite E1 in E2. injection E2 as <- <-. f_equal.
    rewrite E1 in R1. eapply (IH (length r1)); [apply R1|reflexivity|exact K1|exact K2].
Qed.
Theorem split_tokens_exact t :
  (forall toks, split_tokens t = Ok toks <-> tokens t toks) /\
  ((exists toks, split_tokens t = Ok toks) \/ split_tokens t = Exit input_error).
Proof.
  destruct (split_loop_spec (length t) t [] (le_n _)) as [(toks & E & H)|[E H]]; unfold split_tokens; rewrite E.
  - split; [|left; eauto]. intros toks'. cbn [app]. split; [intros [= <-]; auto|]. intros H'. f_equal. eapply tokens_fun; eauto.
  - split; [|auto]. intros toks'. split; [discriminate|]. intros K. destruct (H _ K).
Qed.

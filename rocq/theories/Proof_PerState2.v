(** Instances for PerStateInformation and PerStateArray; PerStateBitset. *)
From Coq Require Import List NArith.
From Verif Require Import Outcome Spec_Vector Spec_PerState Model_SegmentedVector Proof_SegmentedVector Model_DynamicBitset Proof_DynamicBitset Model_PerState Proof_PerState.
Import ListNotations.
Local Open Scope nat_scope.

Lemma fold_outcome_app {X Y} (f : Y -> X -> outcome Y) l1 l2 b :
  fold_outcome f (l1 ++ l2) b = let* c := fold_outcome f l1 b in fold_outcome f l2 c.
Proof. revert b. induction l1 as [|x l1 IH]; intros b; cbn; auto. destruct (f b x); cbn; auto. Qed.

(** *** PerStateInformation *)
Section Info.
Context {A : Type}.
Variable sz : nat.
Variable d : A.
Definition info_good (v : sv A) : Prop := exists l, sv_rep sz v l.
Lemma info_make : exists v, Ok (@sv_empty A) = Ok v /\ info_good v /\ sv_size v = 0.
Proof. exists sv_empty. splits; auto. exists []. apply sv_empty_rep. Qed.
Lemma info_resize v n : info_good v -> sv_size v <= n -> exists v', sv_resize sz v n d = Ok v' /\ info_good v' /\ sv_size v' = n /\
  forall i (j : unit), True -> i < n -> sv_get sz v' i = if i <? sv_size v then sv_get sz v i else Ok d.
Proof.
  intros [l R] Hn. destruct (sv_resize_rep sz v l n d R) as (v' & E & R'). exists v'. assert (Hs := proj2 R). rewrite Hs in *.
  rewrite vec_resize_grow in R' by auto. assert (Hs' := proj2 R'). rewrite app_length, repeat_length in Hs'. splits; auto; [eexists; eauto|lia|].
  intros i _ _ Hi. rewrite (sv_get_rep _ _ _ i R'), (sv_get_rep _ _ _ i R). destruct (Nat.ltb_spec i (length l)).
  - rewrite nth_error_app1 by auto. reflexivity.
  - rewrite nth_error_app2 by auto. rewrite nth_error_repeat by lia. reflexivity.
Qed.
Lemma info_put v i (j : unit) x : info_good v -> i < sv_size v -> True -> exists v', sv_set sz v i x = Ok v' /\ info_good v' /\ sv_size v' = sv_size v /\
  forall i' (j' : unit), i' < sv_size v -> True -> sv_get sz v' i' = if (i' =? i) && true then Ok x else sv_get sz v i'.
Proof.
  intros [l R] Hi _. assert (Hs := proj2 R). pose proof (sv_set_rep sz v l i x R) as K. assert (Hi' : i < length l) by lia.
  rewrite (proj2 (Nat.ltb_lt _ _) Hi') in K. destruct K as (v' & E & R'). exists v'. rewrite vec_set_upd in R' by auto. assert (Hs' := proj2 R').
  rewrite upd_length in Hs'. splits; auto; [eexists; eauto|lia|].
  intros i' _ Hi2 _. rewrite (sv_get_rep _ _ _ i' R'), (sv_get_rep _ _ _ i' R). rewrite andb_true_r. destruct (Nat.eqb_spec i' i) as [->|Hne].
  - rewrite nth_upd_eq by auto. reflexivity.
  - rewrite nth_upd_ne by auto. reflexivity.
Qed.
End Info.

(** *** PerStateArray *)
Section Array.
Context {A : Type}.
Variable sz : nat.
Variable d : list A.
Variable x0 : A.
Hypothesis d_ne : d <> [].
Let n := length d.
Definition array_good (v : sav A) : Prop := exists l, sav_rep sz n v l.
Definition array_default (j : nat) : A := nth j d x0.
Lemma n_pos : 0 < n. Proof. unfold n. destruct d; [congruence|cbn; lia]. Qed.
Lemma array_make : exists v, sav_make d = Ok v /\ array_good v /\ sav_size v = 0.
Proof.
  unfold sav_make. pose proof n_pos as P. unfold n in P. destruct (Nat.eqb_spec (length d) 0); [lia|]. exists sav_empty. splits; auto. exists []. apply sav_empty_rep.
Qed.
Lemma array_len (v : sav A) l : sav_rep sz n v l -> sav_size v = length l. Proof. intros (_ & H & _). auto. Qed.
Lemma array_get (v : sav A) l i j : sav_rep sz n v l -> j < n -> i < length l -> exists a x, nth_error l i = Some a /\ nth_error a j = Some x /\ view_get sz d v i j = Ok x.
Proof.
  intros R Hj Hi. destruct (nth_error l i) as [a|] eqn:E; [|apply nth_error_None in E; lia].
  destruct (sav_get_rep sz n n_pos v l i j a R E Hj) as (x & Hx & G). exists a, x. splits; auto. unfold view_get. fold n. rewrite (proj2 (Nat.ltb_lt _ _) Hj). cbn [guard bind]. auto.
Qed.
Lemma array_resize_spec v k : array_good v -> sav_size v <= k -> exists v', array_resize sz d v k = Ok v' /\ array_good v' /\ sav_size v' = k /\
  forall i j, j < n -> i < k -> view_get sz d v' i j = if i <? sav_size v then view_get sz d v i j else Ok (array_default j).
Proof.
  intros [l R] Hk. assert (Hs := array_len _ _ R). assert (ES : avec_step n l (AResize k d) = Some (vec_resize l k d)) by (cbn [avec_step]; unfold n; rewrite Nat.eqb_refl; reflexivity).
  destruct (sav_step_rep sz n n_pos v l _ _ R ES) as (v' & E & R'). cbn [sav_step] in E. exists v'. rewrite Hs in *.
  rewrite vec_resize_grow in R' by auto. assert (Hs' := array_len _ _ R'). rewrite app_length, repeat_length in Hs'. splits; auto; [eexists; eauto|lia|].
  intros i j Hj Hi. destruct (array_get v' _ i j R' Hj) as (a' & x' & E1 & E2 & ->); [rewrite app_length, repeat_length; lia|].
  destruct (Nat.ltb_spec i (length l)) as [Hl|Hl].
  - destruct (array_get v l i j R Hj Hl) as (a & x & F1 & F2 & ->). rewrite nth_error_app1 in E1 by auto. congruence.
  - rewrite nth_error_app2 in E1 by auto. rewrite nth_error_repeat in E1 by lia. injection E1 as <-. f_equal. unfold array_default. symmetry.
    apply nth_error_nth. auto.
Qed.
Lemma array_put v i j x : array_good v -> i < sav_size v -> j < n -> exists v', view_put sz d v i j x = Ok v' /\ array_good v' /\ sav_size v' = sav_size v /\
  forall i' j', i' < sav_size v -> j' < n -> view_get sz d v' i' j' = if (i' =? i) && (j' =? j) then Ok x else view_get sz d v i' j'.
Proof.
  intros [l R] Hi Hj. assert (Hs := array_len _ _ R). rewrite Hs in *. destruct (array_get v l i j R Hj Hi) as (a & y & F1 & F2 & _).
  destruct (sav_set_rep sz n n_pos v l i j a x R F1 Hj) as (v' & E & R').
  assert (La : length a = n). { destruct R as (_ & _ & H). rewrite Forall_forall in H. apply H. eapply nth_error_In; eauto. }
  rewrite !vec_set_upd in R' by (rewrite ?La; auto). exists v'. assert (Hs' := array_len _ _ R'). rewrite upd_length in Hs'. splits; auto.
  - unfold view_put. fold n. rewrite (proj2 (Nat.ltb_lt _ _) Hj). cbn [guard bind]. auto.
  - eexists; eauto.
  - intros i' j' Hi' Hj'. destruct (array_get v' _ i' j' R' Hj') as (a' & x' & E1 & E2 & ->); [rewrite upd_length; auto|].
    destruct (array_get v l i' j' R Hj' Hi') as (a2 & x2 & G1 & G2 & ->). destruct (Nat.eqb_spec i' i) as [->|Hne].
    + rewrite nth_upd_eq in E1 by auto. injection E1 as <-. cbn [andb]. destruct (Nat.eqb_spec j' j) as [->|Hnj].
      * rewrite nth_upd_eq in E2 by (rewrite La; auto). congruence.
      * rewrite nth_upd_ne in E2 by auto. congruence.
    + rewrite nth_upd_ne in E1 by auto. cbn [andb]. congruence.
Qed.
End Array.

(** *** The generic theorems at these instances *)
Definition unit_eqb (_ _ : unit) : bool := true.
Lemma unit_eqb_spec a b : unit_eqb a b = true <-> a = b.
Proof. destruct a, b. split; auto. Qed.
Definition info_Rel {A} (sz : nat) (d : A) := Rel (fun _ : unit => True) (fun _ => d) (@sv_size A) (fun v i _ => sv_get sz v i) (info_good sz).
Definition array_Rel {A} (sz : nat) (d : list A) (x0 : A) := Rel (fun j => j < length d) (array_default d x0) (@sav_size A) (view_get sz d) (array_good sz d).

Lemma info_run_spec {A} sz (d : A) es : plegal unit_eqb (fun _ => True) (fun _ => d) (ps_init (fun _ => d)) es ->
  exists w, info_run sz d w_init es = Ok (w, snd (prun unit_eqb (fun _ => d) (ps_init (fun _ => d)) es)) /\
            info_Rel sz d w (fst (prun unit_eqb (fun _ => d) (ps_init (fun _ => d)) es)).
Proof.
  intros HL. unfold info_run, info_Rel. apply (run_spec (I := unit) unit_eqb (fun _ => True) (fun _ => d)); auto.
  - apply info_make.
  - apply info_resize.
  - apply info_put.
  - apply Rel_init.
Qed.
Lemma array_run_spec {A} sz (d : list A) x0 es : d <> [] -> plegal Nat.eqb (fun j => j < length d) (array_default d x0) (ps_init (array_default d x0)) es ->
  pexisting Nat.eqb (array_default d x0) (ps_init (array_default d x0)) es ->
  exists w, array_run sz d w_init es = Ok (w, snd (prun Nat.eqb (array_default d x0) (ps_init (array_default d x0)) es)) /\
            array_Rel sz d x0 w (fst (prun Nat.eqb (array_default d x0) (ps_init (array_default d x0)) es)).
Proof.
  intros Hd HL HE. unfold array_run, array_Rel. apply (run_spec (I := nat) Nat.eqb (fun j => j < length d) (array_default d x0)); auto.
  - apply array_make; auto.
  - apply array_resize_spec; auto.
  - apply array_put; auto.
  - apply Rel_init.
Qed.
Lemma array_step_spec {A} sz (d : list A) x0 w s e : d <> [] -> array_Rel sz d x0 w s -> pallowed (fun j => j < length d) s e -> pexists s e ->
  exists w', array_step sz d w e = Ok (w', pout s e) /\ array_Rel sz d x0 w' (pstep Nat.eqb (array_default d x0) s e).
Proof.
  intros Hd R HL HE. unfold array_step, array_Rel. apply (step_spec (I := nat) Nat.eqb (fun j => j < length d) (array_default d x0)); auto.
  - apply array_make; auto.
  - apply array_resize_spec; auto.
  - apply array_put; auto.
Qed.

(** *** Bits *)
Lemma B32 : 0 < 32. Proof. lia. Qed.
Lemma bit_mask_test i k : N.testbit (ps_bit_mask i) (N.of_nat k) = (k =? ps_bit_index i).
Proof. exact (testbit_mask 32 B32 i k). Qed.
Lemma complement_test x k : N.testbit (block_complement x) (N.of_nat k) = xorb (N.testbit x (N.of_nat k)) (k <? 32).
Proof. exact (testbit_not 32 B32 x k). Qed.
Lemma bit_test x i : negb (N.land x (ps_bit_mask i) =? 0)%N = N.testbit x (N.of_nat (ps_bit_index i)).
Proof. exact (land_mask 32 B32 x i). Qed.
Lemma split_pos i : ps_block_index i * 32 + ps_bit_index i = i /\ ps_bit_index i < 32.
Proof. exact (pos_split 32 B32 i). Qed.
Lemma num_blocks_lt n i : i < n -> ps_block_index i < ps_num_blocks n.
Proof.
  intros H. unfold ps_num_blocks, ps_block_index, bits_per_block. pose proof (Nat.div_mod i 32 ltac:(lia)). pose proof (Nat.div_mod (n + 32 - 1) 32 ltac:(lia)).
  pose proof (Nat.mod_upper_bound i 32 ltac:(lia)). pose proof (Nat.mod_upper_bound (n + 32 - 1) 32 ltac:(lia)). nia.
Qed.
Lemma same_pos i i' : ps_block_index i = ps_block_index i' -> ps_bit_index i = ps_bit_index i' -> i = i'.
Proof. intros. pose proof (split_pos i). pose proof (split_pos i'). lia. Qed.

(** Bit [i] of a sequence of blocks. *)
Definition bit_in (f : nat -> N) (i : nat) : bool := N.testbit (f (ps_block_index i)) (N.of_nat (ps_bit_index i)).

Lemma pack_spec bits : exists bl, pack_bit_vector bits = Ok bl /\ length bl = ps_num_blocks (length bits) /\
  forall i, i < length bits -> bit_in (fun b => nth b bl 0%N) i = nth i bits false.
Proof.
  unfold pack_bit_vector.
  assert (F : forall m, m <= length bits -> exists bl,
    fold_outcome (fun (packed : list N) i => let* b := Outcome.vget bits i in if b : bool then
        let* x := Outcome.vget packed (ps_block_index i) in vset packed (ps_block_index i) (N.lor x (ps_bit_mask i)) else Ok packed)
      (seq 0 m) (repeat 0%N (ps_num_blocks (length bits))) = Ok bl /\ length bl = ps_num_blocks (length bits) /\
    forall i, i < length bits -> bit_in (fun b => nth b bl 0%N) i = (i <? m) && nth i bits false).
  { induction m as [|m IH]; intros Hm.
    - exists (repeat 0%N (ps_num_blocks (length bits))). splits; auto; [apply repeat_length|]. intros i Hi. unfold bit_in. rewrite nth_repeat. apply N.bits_0.
    - destruct IH as (bl & E & L & HB); [lia|]. rewrite seq_S, fold_outcome_app, E. cbn [bind fold_outcome plus].
      assert (Hv : Outcome.vget bits m = Ok (nth m bits false)). { apply vget_ok. apply nth_error_nth'. lia. } rewrite Hv. cbn [bind].
      assert (Hb := num_blocks_lt (length bits) m ltac:(lia)). rewrite <- L in Hb.
      destruct (nth m bits false) eqn:Eb.
      + assert (Hx : Outcome.vget bl (ps_block_index m) = Ok (nth (ps_block_index m) bl 0%N)) by (apply vget_ok, nth_error_nth'; auto).
        rewrite Hx. cbn [bind]. unfold vset. rewrite (proj2 (Nat.ltb_lt _ _) Hb). cbn [bind]. eexists. split; [reflexivity|]. rewrite upd_length. split; auto.
        intros i Hi. specialize (HB i Hi). unfold bit_in in *. destruct (Nat.eq_dec (ps_block_index i) (ps_block_index m)) as [Eq|Ne].
        * rewrite Eq in *. assert (Hn : nth (ps_block_index m) (upd bl (ps_block_index m) (N.lor (nth (ps_block_index m) bl 0%N) (ps_bit_mask m))) 0%N = N.lor (nth (ps_block_index m) bl 0%N) (ps_bit_mask m)) by (apply nth_error_nth, nth_upd_eq; auto).
          rewrite Hn, N.lor_spec, bit_mask_test, HB. destruct (Nat.eqb_spec (ps_bit_index i) (ps_bit_index m)) as [E2|N2].
          -- assert (i = m) by (apply same_pos; auto). subst i. rewrite Eb, orb_true_r. rewrite (proj2 (Nat.ltb_lt m (S m))) by lia. reflexivity.
          -- rewrite orb_false_r. assert (i <> m) by congruence. f_equal. destruct (Nat.ltb_spec i m), (Nat.ltb_spec i (S m)); auto; lia.
        * assert (Hn : nth (ps_block_index i) (upd bl (ps_block_index m) (N.lor (nth (ps_block_index m) bl 0%N) (ps_bit_mask m))) 0%N = nth (ps_block_index i) bl 0%N).
          { assert (Hi2 := num_blocks_lt _ _ Hi). rewrite <- L in Hi2. apply nth_error_nth. rewrite nth_upd_ne by auto. apply nth_error_nth'; auto. }
          rewrite Hn, HB. assert (i <> m) by congruence. f_equal. destruct (Nat.ltb_spec i m), (Nat.ltb_spec i (S m)); auto; lia.
      + exists bl. splits; auto. intros i Hi. rewrite HB by auto. destruct (Nat.eq_dec i m) as [->|Hne].
        * rewrite Eb, !andb_false_r. reflexivity.
        * f_equal. destruct (Nat.ltb_spec i m), (Nat.ltb_spec i (S m)); auto; lia. }
  destruct (F (length bits) (le_n _)) as (bl & E & L & H). exists bl. splits; auto. intros i Hi. rewrite H by auto. rewrite (proj2 (Nat.ltb_lt _ _) Hi). reflexivity.
Qed.

Section BitsetSim.
Variable bits : list bool.
Variable blocks : list N.
Hypothesis bits_ne : bits <> [].
Hypothesis blocks_len : length blocks = ps_num_blocks (length bits).
Hypothesis blocks_bits : forall i, i < length bits -> bit_in (fun b => nth b blocks 0%N) i = nth i bits false.
Let nb := length bits.
Let dflt (i : nat) : bool := nth i bits false.
Let bd := array_default blocks 0%N.

Lemma blocks_ne : blocks <> [].
Proof. intros E. assert (0 < nb) by (unfold nb; destruct bits; [congruence|cbn; lia]). pose proof (num_blocks_lt nb 0 H) as K. unfold nb in K. rewrite <- blocks_len, E in K. cbn in K. lia. Qed.
Lemma block_valid i : i < nb -> ps_block_index i < length blocks.
Proof. intros H. rewrite blocks_len. apply num_blocks_lt; auto. Qed.

Record BRel (t : pspec nat N) (s : pspec nat bool) : Prop := {
  B_size : ps_size t = ps_size s;
  B_touched : ps_touched t = ps_touched s;
  B_handles : ps_handles t = ps_handles s;
  B_value : forall r id i, i < nb -> ps_value s r id i = bit_in (ps_value t r id) i
}.
Let R := array_Rel 4 blocks 0%N.

(** The blocks of one entry change. *)
Record changed (t t' : pspec nat N) (r id : nat) (F : nat -> N) : Prop := {
  C_size : ps_size t' = ps_size t;
  C_touched : ps_touched t' = ps_touched t;
  C_handles : ps_handles t' = ps_handles t;
  C_value : forall r' id' b, ps_value t' r' id' b = if (r' =? r) && (id' =? id) then F b else ps_value t r' id' b
}.
Lemma changed_refl t r id : changed t t r id (ps_value t r id).
Proof. split; auto. intros. destruct (Nat.eqb_spec r' r), (Nat.eqb_spec id' id); cbn [andb]; subst; auto. Qed.

Lemma write_changed t k b x r id : nth_error (ps_handles t) k = Some (Some (r, id)) ->
  changed t (pstep Nat.eqb bd t (PWrite k b x)) r id (fun b' => if b' =? b then x else ps_value t r id b').
Proof.
  intros H. cbn [pstep]. rewrite H. split; auto. intros. cbn [ps_value]. destruct (Nat.eqb_spec r' r), (Nat.eqb_spec id' id); cbn [andb]; subst; auto.
Qed.
Lemma changed_trans t t1 t2 r id F G : changed t t1 r id F -> changed t1 t2 r id G -> changed t t2 r id G.
Proof. intros [a b c d] [a' b' c' d']. split; try congruence. intros. rewrite d', d. destruct ((r' =? r) && (id' =? id)); auto. Qed.
Lemma changed_ext t t1 r id F G : changed t t1 r id F -> (forall b, F b = G b) -> changed t t1 r id G.
Proof. intros [a b c d] H. split; auto. intros. rewrite d, H. auto. Qed.
Lemma changed_own t t1 r id F b : changed t t1 r id F -> ps_value t1 r id b = F b.
Proof. intros [_ _ _ d]. rewrite d, !Nat.eqb_refl. reflexivity. Qed.

Lemma BRel_changed t t' s k r id F f : BRel t s -> nth_error (ps_handles t) k = Some (Some (r, id)) -> changed t t' r id F ->
  (forall i, i < nb -> f i = bit_in F i) -> BRel t' (change_entry s k f).
Proof.
  intros [a b c d] H [a' b' c' d'] HF. unfold change_entry. rewrite <- c, H. split; cbn [ps_size ps_touched ps_handles ps_value]; try congruence.
  intros r' id' i Hi. unfold bit_in. rewrite d'. destruct ((r' =? r) && (id' =? id)); [apply HF; auto|]. rewrite d by auto. reflexivity.
Qed.

Lemma read_ok w t k b r id : R w t -> nth_error (ps_handles t) k = Some (Some (r, id)) -> b < length blocks ->
  exists w', array_step 4 blocks w (PRead k b) = Ok (w', Some (ps_value t r id b)) /\ R w' t.
Proof.
  intros HR Hk Hb. destruct (array_step_spec 4 blocks 0%N w t (PRead k b) blocks_ne HR) as (w' & E & R').
  - split; eauto.
  - exact Logic.I.
  - cbn [pout pstep] in *. rewrite Hk in E. eauto.
Qed.
Lemma write_ok w t k b x r id : R w t -> nth_error (ps_handles t) k = Some (Some (r, id)) -> b < length blocks ->
  exists w' t', array_step 4 blocks w (PWrite k b x) = Ok (w', None) /\ R w' t' /\ changed t t' r id (fun b' => if b' =? b then x else ps_value t r id b').
Proof.
  intros HR Hk Hb. destruct (array_step_spec 4 blocks 0%N w t (PWrite k b x) blocks_ne HR) as (w' & E & R').
  - split; eauto.
  - exact Logic.I.
  - eexists w', _. split; [exact E|]. split; [exact R'|]. apply write_changed; auto.
Qed.
Lemma rmw_ok w t k b f r id : R w t -> nth_error (ps_handles t) k = Some (Some (r, id)) -> b < length blocks ->
  exists w' t', rmw blocks w k b f = Ok w' /\ R w' t' /\ changed t t' r id (fun b' => if b' =? b then f (ps_value t r id b') else ps_value t r id b').
Proof.
  intros HR Hk Hb. unfold rmw. destruct (read_ok w t k b r id HR Hk Hb) as (w1 & -> & R1). cbn [bind].
  destruct (write_ok w1 t k b (f (ps_value t r id b)) r id R1 Hk Hb) as (w2 & t2 & -> & R2 & C). cbn [bind]. exists w2, t2. splits; auto.
  eapply changed_ext; [exact C|]. intros b'. cbn beta. destruct (Nat.eqb_spec b' b); subst; auto.
Qed.

(** A loop that sets the blocks one after the other. *)
Lemma loop_ok w t r id (body : world (sav N) -> nat -> outcome (world (sav N))) (F : nat -> N) : R w t ->
  (forall w t' m, m < length blocks -> R w t' -> changed t t' r id (fun b => if b <? m then F b else ps_value t r id b) ->
    exists w' t'', body w m = Ok w' /\ R w' t'' /\ changed t' t'' r id (fun b' => if b' =? m then F m else ps_value t' r id b')) ->
  exists w' t', fold_outcome body (seq 0 (length blocks)) w = Ok w' /\ R w' t' /\ changed t t' r id (fun b => if b <? length blocks then F b else ps_value t r id b).
Proof.
  intros HR Hbody. assert (K : forall m, m <= length blocks -> exists w' t', fold_outcome body (seq 0 m) w = Ok w' /\ R w' t' /\ changed t t' r id (fun b => if b <? m then F b else ps_value t r id b)).
  { induction m as [|m IH]; intros Hm.
    - exists w, t. cbn [seq fold_outcome]. splits; auto. eapply changed_ext; [apply changed_refl|]. reflexivity.
    - destruct IH as (w1 & t1 & E & R1 & C1); [lia|]. rewrite seq_S, fold_outcome_app, E. cbn [bind plus fold_outcome].
      destruct (Hbody w1 t1 m ltac:(lia) R1 C1) as (w2 & t2 & -> & R2 & C2). cbn [bind]. exists w2, t2. splits; auto.
      eapply changed_ext; [eapply changed_trans; eauto|]. intros b. cbn beta. rewrite (changed_own _ _ _ _ _ b C1).
      destruct (Nat.eqb_spec b m), (Nat.ltb_spec b m), (Nat.ltb_spec b (S m)); subst; auto; lia. }
  apply K. auto.
Qed.

Lemma bit_step w t s e : R w t -> BRel t s -> ballowed nb s e -> exists w' t', bstep nb blocks w e = Ok (w', bspec_out s e) /\ R w' t' /\ BRel t' (bspec_step dflt s e).
Proof.
  intros HR HB HA. assert (HBk := B_handles _ _ HB).
  assert (P : forall e' , pallowed (fun j => j < length blocks) t e' -> pexists t e' -> pout t e' = None ->
     exists w', (let* (w, _) := array_step 4 blocks w e' in Ok (w, @None bool)) = Ok (w', None) /\ R w' (pstep Nat.eqb bd t e')).
  { intros e' H1 H2 H3. destruct (array_step_spec 4 blocks 0%N w t e' blocks_ne HR H1 H2) as (w' & -> & R'). cbn [bind]. eauto. }
  destruct e as [r|r|r|r id|k i|k i|k|k i|k o|r id i]; cbn [bstep bspec_out bspec_step ballowed] in *.
  - destruct (P (PNew r)) as (w' & -> & R'); [cbn; rewrite (B_size _ _ HB); auto|exact Logic.I|reflexivity|]. eexists _, _. splits; [reflexivity|exact R'|].
    destruct HB as [a b c d]. split; cbn; auto. rewrite a. auto.
  - destruct (P (PGrow r)) as (w' & -> & R'); [cbn; rewrite (B_size _ _ HB); auto|exact Logic.I|reflexivity|]. eexists _, _. splits; [reflexivity|exact R'|].
    destruct HB as [a b c d]. split; cbn; auto. rewrite a. auto.
  - destruct (P (PDestroy r)) as (w' & -> & R'); [cbn; rewrite (B_size _ _ HB); auto|exact Logic.I|reflexivity|]. eexists _, _. splits; [reflexivity|exact R'|].
    destruct HB as [a b c d]. split; cbn; rewrite ?a, ?b, ?c; auto. intros r' id i Hi. unfold set_nat. destruct (r' =? r); auto.
    symmetry. unfold dflt. rewrite <- blocks_bits by auto. reflexivity.
  - destruct (P (PAccess r id)) as (w' & -> & R'); [cbn; rewrite (B_size _ _ HB); auto|exact Logic.I|reflexivity|]. eexists _, _. splits; [reflexivity|exact R'|].
    destruct HB as [a b c d]. split; cbn; rewrite ?a, ?b, ?c; auto.
  - destruct HA as [Hi ([r id] & Hk)]. rewrite <- HBk in Hk. rewrite (proj2 (Nat.ltb_lt _ _) Hi). cbn [guard bind].
    destruct (rmw_ok w t k (ps_block_index i) (fun x => N.lor x (ps_bit_mask i)) r id HR Hk (block_valid i Hi)) as (w' & t' & -> & R' & C). cbn [bind].
    eexists _, _. splits; [reflexivity|exact R'|]. eapply BRel_changed; eauto. intros i' Hi'. unfold handle_value. rewrite <- HBk, Hk. rewrite (B_value _ _ HB) by auto.
    unfold bit_in. destruct (Nat.eqb_spec (ps_block_index i') (ps_block_index i)) as [E|E].
    + rewrite N.lor_spec, bit_mask_test. destruct (Nat.eqb_spec i' i) as [->|Hne].
      * rewrite Nat.eqb_refl, orb_true_r. reflexivity.
      * destruct (Nat.eqb_spec (ps_bit_index i') (ps_bit_index i)); [exfalso; apply Hne, same_pos; auto|]. rewrite orb_false_r. reflexivity.
    + destruct (Nat.eqb_spec i' i); [congruence|]. reflexivity.
  - destruct HA as [Hi ([r id] & Hk)]. rewrite <- HBk in Hk. rewrite (proj2 (Nat.ltb_lt _ _) Hi). cbn [guard bind].
    destruct (rmw_ok w t k (ps_block_index i) (fun x => N.land x (block_complement (ps_bit_mask i))) r id HR Hk (block_valid i Hi)) as (w' & t' & -> & R' & C). cbn [bind].
    eexists _, _. splits; [reflexivity|exact R'|]. eapply BRel_changed; eauto. intros i' Hi'. unfold handle_value. rewrite <- HBk, Hk. rewrite (B_value _ _ HB) by auto.
    unfold bit_in. destruct (Nat.eqb_spec (ps_block_index i') (ps_block_index i)) as [E|E].
    + rewrite N.land_spec, complement_test, bit_mask_test. assert (Hb := proj2 (split_pos i')). rewrite (proj2 (Nat.ltb_lt _ _) Hb). destruct (Nat.eqb_spec i' i) as [->|Hne].
      * rewrite Nat.eqb_refl, andb_false_r. reflexivity.
      * destruct (Nat.eqb_spec (ps_bit_index i') (ps_bit_index i)); [exfalso; apply Hne, same_pos; auto|]. cbn [xorb]. rewrite andb_true_r. reflexivity.
    + destruct (Nat.eqb_spec i' i); [congruence|]. reflexivity.
  - destruct HA as ([r id] & Hk). rewrite <- HBk in Hk.
    destruct (loop_ok w t r id (fun w b => let* (w, _) := array_step 4 blocks w (PWrite k b 0%N) in Ok w) (fun _ => 0%N) HR) as (w' & t' & -> & R' & C).
    { intros w1 t1 m Hm R1 C1. destruct (write_ok w1 t1 k m 0%N r id R1) as (w2 & t2 & -> & R2 & C2); auto; [rewrite (C_handles _ _ _ _ _ C1); auto|]. cbn [bind]. eauto. }
    cbn [bind]. eexists _, _. splits; [reflexivity|exact R'|]. eapply BRel_changed; eauto. intros i Hi. unfold bit_in.
    rewrite (proj2 (Nat.ltb_lt _ _) (block_valid i Hi)). symmetry. apply N.bits_0.
  - destruct HA as [Hi ([r id] & Hk)]. rewrite <- HBk in Hk. rewrite (proj2 (Nat.ltb_lt _ _) Hi). cbn [guard bind].
    destruct (read_ok w t k _ r id HR Hk (block_valid i Hi)) as (w' & -> & R'). cbn [bind bits_of]. eexists _, _. splits; [|exact R'|auto].
    rewrite bit_test. unfold handle_value. rewrite <- HBk, Hk. rewrite (B_value _ _ HB) by auto. reflexivity.
  - destruct HA as [([r id] & Hk) ([r2 id2] & Ho)]. rewrite <- HBk in Hk, Ho.
    destruct (loop_ok w t r id (fun w b => let* (w, o0) := array_step 4 blocks w (PRead o b) in
          match o0 with Some y => rmw blocks w k b (fun x => N.land x y) | None => UB end) (fun b => N.land (ps_value t r id b) (ps_value t r2 id2 b)) HR) as (w' & t' & -> & R' & C).
    { intros w1 t1 m Hm R1 C1. assert (Hh := C_handles _ _ _ _ _ C1). destruct (read_ok w1 t1 o m r2 id2 R1) as (w2 & -> & R2); auto; [congruence|]. cbn [bind].
      assert (V1 : ps_value t1 r2 id2 m = ps_value t r2 id2 m).
      { rewrite (C_value _ _ _ _ _ C1). destruct (Nat.eqb_spec r2 r), (Nat.eqb_spec id2 id); cbn [andb]; subst; auto. rewrite Nat.ltb_irrefl. reflexivity. }
      assert (V2 : ps_value t1 r id m = ps_value t r id m) by (rewrite (changed_own _ _ _ _ _ m C1), Nat.ltb_irrefl; reflexivity).
      destruct (rmw_ok w2 t1 k m (fun x => N.land x (ps_value t1 r2 id2 m)) r id R2) as (w3 & t3 & E3 & R3 & C3); auto; [congruence|].
      exists w3, t3. splits; auto. eapply changed_ext; [exact C3|]. intros b. cbn beta. destruct (Nat.eqb_spec b m) as [->|]; [|reflexivity]. rewrite V1, V2. reflexivity. }
    cbn [bind]. eexists _, _. splits; [reflexivity|exact R'|]. eapply BRel_changed; eauto. intros i Hi. unfold handle_value. rewrite <- HBk, Hk, Ho.
    rewrite !(B_value _ _ HB) by auto. unfold bit_in. rewrite (proj2 (Nat.ltb_lt _ _) (block_valid i Hi)), N.land_spec. reflexivity.
  - destruct HA as [Hi Hid]. rewrite (proj2 (Nat.ltb_lt _ _) Hi). cbn [guard bind].
    destruct (array_step_spec 4 blocks 0%N w t (PConst r id (ps_block_index i)) blocks_ne HR) as (w' & -> & R').
    { split; [apply block_valid; auto|]. assert (Ht : id < ps_touched t r) by (rewrite (B_touched _ _ HB); auto).
      destruct (in_dec Nat.eq_dec r (map fst (w_entries w))) as [Hin|Hni].
      - apply in_map_iff in Hin as ([r0 a] & E & Hin). cbn in E; subst. destruct (R_vec _ _ _ _ _ _ _ HR _ _ Hin) as (v & n & _ & _ & Hn & Hle). exists n. split; auto. lia.
      - rewrite (R_none _ _ _ _ _ _ _ HR _ Hni) in Ht. lia. }
    { cbn. rewrite (B_touched _ _ HB). auto. }
    cbn [bind bits_of pout]. eexists _, _. splits; [|exact R'|auto]. rewrite bit_test, (B_value _ _ HB) by auto. reflexivity.
Qed.

Lemma bit_run es : forall w t s, R w t -> BRel t s -> blegal nb dflt s es ->
  exists w' t', brun nb blocks w es = Ok (w', snd (bspec_run dflt s es)) /\ R w' t' /\ BRel t' (fst (bspec_run dflt s es)).
Proof.
  induction es as [|e es IH]; intros w t s HR HB HL; cbn [brun bspec_run].
  - exists w, t. auto.
  - destruct HL as [H1 H2]. destruct (bit_step w t s e HR HB H1) as (w1 & t1 & -> & R1 & B1). cbn [bind].
    destruct (IH w1 t1 _ R1 B1 H2) as (w2 & t2 & -> & R2 & B2). cbn [bind]. destruct (bspec_run dflt (bspec_step dflt s e) es) as [s' out]. exists w2, t2. auto.
Qed.
Lemma BRel_init : BRel (ps_init bd) (ps_init dflt).
Proof. split; auto. intros r id i Hi. cbn. unfold dflt. rewrite <- blocks_bits by auto. reflexivity. Qed.
End BitsetSim.

Lemma bitset_run_spec bits es : bits <> [] -> blegal (length bits) (fun i => nth i bits false) (ps_init (fun i => nth i bits false)) es ->
  exists w blocks t, bitset_run bits es = Ok (w, snd (bspec_run (fun i => nth i bits false) (ps_init (fun i => nth i bits false)) es)) /\ array_Rel 4 blocks 0%N w t.
Proof.
  intros Hb HL. unfold bitset_run. destruct (pack_spec bits) as (bl & -> & L & H). cbn [bind].
  destruct (bit_run bits bl Hb L H es w_init (ps_init (array_default bl 0%N)) (ps_init (fun i => nth i bits false))) as (w & t & E & R' & _); auto.
  - apply Rel_init.
  - apply BRel_init; auto.
  - exists w, bl, t. auto.
Qed.

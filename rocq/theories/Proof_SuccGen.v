(** The successor generator lists the applicable operators in the order of the sorted
    operator vector. *)
From Coq Require Import Permutation Sorted.
From Verif Require Import Outcome Spec_Task Model_Task Proof_Task Model_SuccGen.

(* ---------- orders ---------- *)
Lemma fact_ltb_iff a b : fact_ltb a b = true <-> fst a < fst b \/ (fst a = fst b /\ snd a < snd b).
Proof. unfold fact_ltb. rewrite orb_true_iff, andb_true_iff, !Nat.ltb_lt, Nat.eqb_eq. tauto. Qed.
Lemma fact_ltb_false a b : fact_ltb a b = false <-> ~ (fst a < fst b \/ (fst a = fst b /\ snd a < snd b)).
Proof. rewrite <- fact_ltb_iff. destruct (fact_ltb a b); split; congruence. Qed.

Lemma fact_ltb_antisym a b : fact_ltb a b = false -> fact_ltb b a = false -> a = b.
Proof. rewrite !fact_ltb_false. destruct a, b; cbn. intros. f_equal; lia. Qed.

(** [facts_le a b]: a is not after b *)
Definition facts_le (a b : list fact) : Prop := facts_ltb b a = false.

Lemma facts_le_refl a : facts_le a a.
Proof.
  unfold facts_le. induction a as [|x a IH]; auto. cbn [facts_ltb].
  destruct (fact_ltb x x) eqn:E; auto. apply fact_ltb_iff in E; lia.
Qed.
Lemma facts_ltb_asym a b : facts_ltb a b = true -> facts_ltb b a = false.
Proof.
  revert b; induction a as [|x a IH]; intros [|y b]; simpl; try discriminate; auto.
  destruct (fact_ltb x y) eqn:E1, (fact_ltb y x) eqn:E2; try discriminate; auto.
  apply fact_ltb_iff in E1, E2. lia.
Qed.
Lemma facts_le_trans a b c : facts_le a b -> facts_le b c -> facts_le a c.
Proof.
  unfold facts_le. revert a c; induction b as [|y b IH]; intros [|x a] [|z c]; simpl; auto; try discriminate.
  destruct (fact_ltb y x) eqn:E1; try discriminate. destruct (fact_ltb z y) eqn:E2; try discriminate.
  destruct (fact_ltb x y) eqn:E3, (fact_ltb y z) eqn:E4, (fact_ltb z x) eqn:E5, (fact_ltb x z) eqn:E6; auto;
    rewrite ?fact_ltb_iff, ?fact_ltb_false in *; try lia. Qed.

(* ---------- sorting ---------- *)
Section Sort.
Context {A : Type}.
Variable ltb : A -> A -> bool.
Variable le : A -> A -> Prop.
Hypothesis le_lt : forall a b, ltb a b = true -> le a b.
Hypothesis le_nlt : forall a b, ltb a b = false -> le b a.
Hypothesis le_trans : forall a b c, le a b -> le b c -> le a c.

Lemma insert_perm x l : Permutation (x :: l) (insert ltb x l).
Proof.
  induction l as [|y l IH]; cbn [insert]; auto. destruct (ltb y x); auto.
  rewrite perm_swap. now constructor.
Qed.
Lemma sort_perm l : Permutation l (stable_sort ltb l).
Proof. induction l as [|x l IH]; cbn; auto. rewrite <- insert_perm. now constructor. Qed.

Lemma insert_sorted x l : StronglySorted le l -> StronglySorted le (insert ltb x l).
Proof.
  induction 1 as [|y l Hs IH Hf]; cbn [insert]; [repeat constructor|].
  destruct (ltb y x) eqn:E.
  - constructor; auto. rewrite Forall_forall in *. intros z Hz.
    apply (Permutation_in _ (Permutation_sym (insert_perm x l))) in Hz. destruct Hz as [<-|Hz]; auto.
  - constructor; [constructor; auto|]. constructor; auto.
    rewrite Forall_forall in *. intros z Hz. eapply le_trans; [apply le_nlt; eauto|auto].
Qed.
Lemma sort_sorted l : StronglySorted le (stable_sort ltb l).
Proof. induction l as [|x l IH]; cbn; [constructor|]. apply insert_sorted; auto. Qed.
End Sort.

Definition info_le (a b : opinfo) : Prop := facts_le (snd a) (snd b).
Lemma infos_sorted l : StronglySorted info_le (stable_sort opinfo_ltb l).
Proof.
  apply sort_sorted.
  - intros a b H. apply facts_ltb_asym. exact H.
  - intros a b H. exact H.
  - intros a b c. apply facts_le_trans.
Qed.

(* ---------- grouping ---------- *)
Lemma key_eqb_spec a b : key_eqb a b = true <-> a = b.
Proof.
  destruct a, b; cbn; rewrite ?Nat.eqb_eq; split; try congruence; try (intros H; discriminate).
Qed.

Section Groups.
Variable key : opinfo -> outcome (option nat).
Variable kv : opinfo -> option nat.

Lemma take_group_ok k : forall l, (forall x, In x l -> key x = Ok (kv x)) ->
  exists g rest, take_group key k l = Ok (g, rest) /\ l = g ++ rest /\ (forall x, In x g -> kv x = k) /\
    match rest with [] => True | y :: _ => kv y <> k end.
Proof.
  induction l as [|x l IH]; intros H.
  - exists [], []; splits; auto. intros x [].
  - cbn [take_group]. rewrite H by (left; auto). cbn [bind].
    destruct (key_eqb (kv x) k) eqn:E.
    + apply key_eqb_spec in E. destruct IH as (g & rest & G1 & G2 & G3 & G4); [intros; apply H; right; auto|].
      rewrite G1. cbn [bind]. exists (x :: g), rest; splits; auto; [simpl; congruence|].
      intros y [<-|Hy]; auto.
    + exists [], (x :: l); splits; auto; [intros y []|]. intros E2. apply key_eqb_spec in E2. congruence.
Qed.

Lemma groups_ok : forall fuel l, length l <= fuel -> (forall x, In x l -> key x = Ok (kv x)) ->
  exists gs, groups fuel key l = Ok gs /\ concat (map snd gs) = l /\
    (forall k g, In (k, g) gs -> g <> [] /\ forall x, In x g -> kv x = k) /\
    (forall gs1 k g k' g' gs2, gs = gs1 ++ (k, g) :: (k', g') :: gs2 -> k <> k').
Proof.
  induction fuel as [|fuel IH]; intros l Hl Hk.
  - destruct l; [|simpl in Hl; lia]. exists []; splits; cbn; auto; [intros k g []|intros [|a gs1]; discriminate].
  - destruct l as [|x l].
    { exists []; splits; cbn; auto; [intros k g []|intros [|a gs1]; discriminate]. }
    cbn [groups]. rewrite Hk by (left; auto). cbn [bind].
    destruct (take_group_ok (kv x) l) as (g & rest & G1 & G2 & G3 & G4); [intros; apply Hk; right; auto|].
    rewrite G1. cbn [bind].
    destruct (IH rest) as (gs & A1 & A2 & A3 & A5).
    { simpl in Hl. subst l. rewrite app_length in Hl. lia. }
    { intros y Hy. apply Hk. right. subst l. apply in_app_iff; auto. }
    rewrite A1. cbn [bind]. eexists; splits; [reflexivity| | |]; auto.
    + cbn [map concat snd]. rewrite A2. simpl. congruence.
    + intros k h [E|Hin]; [inv E|auto]. split; [discriminate|]. intros y [<-|Hy]; auto.
    + intros gs1 k h k' h' gs2 E. destruct gs1 as [|a gs1]; cbn [app] in E; [|inv E; eapply A5; eauto].
      injection E as <- <- E. subst gs. cbn in G4. intros Ek.
      destruct (A3 k' h' (or_introl eq_refl)) as [B1 B2]. destruct h' as [|y h']; [congruence|].
      rewrite <- A2 in G4. cbn in G4. apply G4. rewrite Ek. apply B2. left; auto.
Qed.
End Groups.

(* ---------- generators ---------- *)
Lemma generate_fork nodes s : forall res, Forall2 (fun g r => generate g s = Ok r) nodes res ->
  generate (construct_fork nodes) s = Ok (concat res).
Proof.
  intros res H.
  assert (M : generate (GForkMulti nodes) s = Ok (concat res)).
  { cbn [generate]. induction H as [|g r gs rs Hg Hgs IH]; [reflexivity|].
    rewrite Hg. cbn [bind]. rewrite IH. reflexivity. }
  unfold construct_fork. destruct nodes as [|a [|b [|c nodes]]]; auto.
  - destruct res as [|ra [|rb res]]; [inversion H| |inversion H; subst; match goal with X : Forall2 _ [] _ |- _ => inversion X end].
    inversion H; subst. cbn [concat]. rewrite app_nil_r. auto.
  - cbn [generate] in M |- *. destruct (generate a s) as [x| | |]; cbn [bind] in M |- *; try discriminate.
    destruct (generate b s) as [y| | |]; cbn [bind] in M |- *; try discriminate. now rewrite app_nil_r in M.
Qed.

Lemma generate_leaf l s : generate (construct_leaf l) s = Ok (map fst l).
Proof. unfold construct_leaf. destruct (map fst l) as [|o [|p r]]; reflexivity. Qed.

Fixpoint assoc_get (l : list (nat * gen)) (k : nat) : option gen :=
  match l with [] => None | (k', g) :: r => if k' =? k then Some g else assoc_get r k end.

Lemma assoc_set_get l k g k' : assoc_get (assoc_set l k g) k' = if k =? k' then Some g else assoc_get l k'.
Proof.
  induction l as [|(a, b) l IH]; cbn [assoc_set assoc_get]; [reflexivity|].
  destruct (Nat.eqb_spec a k) as [->|Hne]; cbn [assoc_get].
  - destruct (Nat.eqb_spec k k'); auto.
  - rewrite IH. destruct (Nat.eqb_spec a k'), (Nat.eqb_spec k k'); auto. congruence.
Qed.

Lemma fold_assoc vg : forall m, NoDup (map fst vg) -> (forall k, In k (map fst vg) -> assoc_get m k = None) ->
  forall k, assoc_get (fold_left (fun m vg => assoc_set m (fst vg) (snd vg)) vg m) k =
    match assoc_get vg k with Some g => Some g | None => assoc_get m k end.
Proof.
  induction vg as [|(a, g) vg IH]; intros m Hn Hm k; [reflexivity|].
  cbn [fold_left assoc_get fst snd]. cbn [map fst] in Hn. inv Hn. rewrite IH; auto.
  - rewrite assoc_set_get. destruct (Nat.eqb_spec a k) as [->|Hne]; auto.
    destruct (assoc_get vg k) eqn:E; auto. exfalso. apply H1.
    clear - E. induction vg as [|(b, h) vg IH]; cbn in *; [discriminate|]. destruct (Nat.eqb_spec b k); auto.
  - intros k' Hk'. rewrite assoc_set_get. destruct (Nat.eqb_spec a k') as [->|]; [contradiction|]. apply Hm. right; auto.
Qed.

Lemma fold_vector vg n : forall l : list (option gen), NoDup (map fst vg) -> length l = n -> (forall k, In k (map fst vg) -> k < n) ->
  exists l', fold_outcome (fun l vg => vset l (fst vg) (Some (snd vg))) vg l = Ok l' /\ length l' = n /\
  forall k, k < n -> nth_error l' k = match assoc_get vg k with Some g => Some (Some g) | None => nth_error l k end.
Proof.
  induction vg as [|(a, g) vg IH]; intros l Hn Hl Hb; [exists l; splits; auto|].
  cbn [fold_outcome fst snd assoc_get]. cbn [map fst] in Hn, Hb. inv Hn.
  rewrite (proj2 (vset_ok _ _ _ _) (conj (Hb a (or_introl eq_refl)) eq_refl)). cbn [bind].
  destruct (IH (upd l a (Some g))) as (l' & A1 & A2 & A3); auto.
  { apply upd_length. }
  { intros; apply Hb; right; auto. }
  exists l'; splits; auto. intros k Hk. rewrite A3 by auto.
  destruct (Nat.eqb_spec a k) as [->|Hne].
  - destruct (assoc_get vg k) eqn:E.
    + exfalso. apply H1. clear - E. induction vg as [|(b, h) vg IH]; cbn in *; [discriminate|]. destruct (Nat.eqb_spec b k); auto.
    + apply upd_nth_eq; auto.
  - rewrite upd_nth_neq by auto. reflexivity.
Qed.

Lemma generate_vector v l s x : nth_error s v = Some x ->
  generate (GSwitchVector v l) s = match nth_error l x with Some (Some g) => generate g s | Some None => Ok [] | None => UB end.
Proof.
  intros H. cbn [generate]. rewrite (proj2 (vget_ok _ _ _) H). cbn [bind]. clear H.
  revert x; induction l as [|o l IH]; intros [|x]; auto. apply IH.
Qed.
Lemma generate_hash v l s x : nth_error s v = Some x ->
  generate (GSwitchHash v l) s = match assoc_get l x with Some g => generate g s | None => Ok [] end.
Proof.
  intros H. cbn [generate]. rewrite (proj2 (vget_ok _ _ _) H). cbn [bind]. clear H.
  induction l as [|(k, g) l IH]; auto. cbn [assoc_get]. destruct (k =? x); auto.
Qed.

Section Factory.
Variable use_hash : nat -> nat -> bool.
Variable t : task.

Lemma construct_switch_ok v x vg : is_var t v x -> vg <> [] -> NoDup (map fst vg) ->
  (forall k, In k (map fst vg) -> k < vdom x) ->
  exists g, construct_switch use_hash t v vg = Ok g /\
    forall s d, nth_error s v = Some d -> d < vdom x ->
      generate g s = match assoc_get vg d with Some c => generate c s | None => Ok [] end.
Proof.
  intros Hx Hne Hn Hb. unfold construct_switch. unfold is_var in Hx. rewrite (proj2 (vget_ok _ _ _) Hx). cbn [bind].
  destruct vg as [|(value, g0) [|vg1 vg]]; [congruence| |].
  - eexists; split; [reflexivity|]. intros s d Hd _. cbn [generate]. rewrite (proj2 (vget_ok _ _ _) Hd). cbn [bind assoc_get].
    destruct (value =? d); auto.
  - set (w := (value, g0) :: vg1 :: vg) in *. destruct (use_hash (vdom x) (length w)).
    + eexists; split; [reflexivity|]. intros s d Hd _. rewrite (generate_hash _ _ _ _ Hd).
      rewrite fold_assoc; auto. destruct (assoc_get w d); auto.
    + destruct (fold_vector w (vdom x) (repeat None (vdom x)) Hn) as (l & A1 & A2 & A3); auto; [apply repeat_length|].
      rewrite A1. cbn [bind]. eexists; split; [reflexivity|]. intros s d Hd Hdb.
      rewrite (generate_vector _ _ _ _ Hd), A3 by auto.
      destruct (assoc_get w d); auto. rewrite nth_error_repeat; auto.
Qed.

Definition suffix_ok (s : state) (depth : nat) (o : opinfo) : bool := all_holdb s (skipn depth (snd o)).
Definition suffix_le (depth : nat) (a b : opinfo) : Prop := facts_le (skipn depth (snd a)) (skipn depth (snd b)).

Lemma skipn_nth {A} (l : list A) n x : nth_error l n = Some x -> skipn n l = x :: skipn (S n) l.
Proof. revert l; induction n as [|n IH]; intros [|y l] H; cbn in *; try discriminate; [congruence|]. rewrite (IH l H). destruct l; auto. Qed.

Lemma filter_concat {A} (f : A -> bool) ls : filter f (concat ls) = concat (map (filter f) ls).
Proof. induction ls as [|l ls IH]; cbn; auto. rewrite filter_app, IH. auto. Qed.

Lemma sorted_app_l {A} (R : A -> A -> Prop) l1 l2 : StronglySorted R (l1 ++ l2) -> StronglySorted R l1.
Proof. induction l1; intros H; [constructor|]. inv H. constructor; auto. apply Forall_app in H3. tauto. Qed.
Lemma sorted_app_r {A} (R : A -> A -> Prop) l1 l2 : StronglySorted R (l1 ++ l2) -> StronglySorted R l2.
Proof. induction l1; intros H; auto. inv H. auto. Qed.
Lemma sorted_cross {A} (R : A -> A -> Prop) l1 l2 x y : StronglySorted R (l1 ++ l2) -> In x l1 -> In y l2 -> R x y.
Proof.
  induction l1; intros H Hx Hy; [destruct Hx|]. inv H. destruct Hx as [<-|Hx]; auto.
  rewrite Forall_forall in H3. apply H3. apply in_app_iff; auto.
Qed.
Lemma sorted_concat {A} (R : A -> A -> Prop) ls l : StronglySorted R (concat ls) -> In l ls -> StronglySorted R l.
Proof.
  induction ls as [|m ls IH]; intros H []; cbn in H.
  - subst. eapply sorted_app_l; eauto.
  - apply IH; auto. eapply sorted_app_r; eauto.
Qed.
Lemma sorted_map_iff {A} (R R' : A -> A -> Prop) l : (forall x y, In x l -> In y l -> R x y -> R' x y) -> StronglySorted R l -> StronglySorted R' l.
Proof.
  intros H Hs. induction Hs as [|x l Hs IH Hf]; constructor.
  - apply IH. intros; apply H; auto; right; auto.
  - rewrite Forall_forall in *. intros y Hy. apply H; [left|right|]; auto.
Qed.

Definition var_key (depth : nat) (o : opinfo) : option nat := option_map fst (nth_error (snd o) depth).
Definition val_key (depth : nat) (o : opinfo) : option nat := option_map snd (nth_error (snd o) depth).

Lemma get_var_key depth o : depth <= length (snd o) -> get_var depth o = Ok (var_key depth o).
Proof.
  intros H. unfold get_var, var_key. destruct (Nat.eqb_spec depth (length (snd o))) as [->|Hne].
  - rewrite (proj2 (nth_error_None _ _)); auto.
  - destruct (vget_some (snd o) depth) as (f & F1 & F2); [lia|]. rewrite F2, F1. reflexivity.
Qed.
Lemma get_value_key depth o : depth < length (snd o) -> get_value depth o = Ok (val_key depth o).
Proof.
  intros H. unfold get_value, val_key. destruct (vget_some (snd o) depth) as (f & F1 & F2); [lia|]. rewrite F2, F1. reflexivity.
Qed.

Lemma construct_ok : forall fuel depth (range : list opinfo),
  (forall o, In o range -> depth <= length (snd o) /\ length (snd o) - depth < fuel /\ Forall (fact_ok t) (snd o)) ->
  StronglySorted (suffix_le depth) range ->
  0 < fuel ->
  exists g, construct_recursive use_hash t fuel depth range = Ok g /\
    forall s, state_ok t s -> generate g s = Ok (map fst (filter (suffix_ok s depth) range)).
Proof.
  induction fuel as [|fuel IH]; intros depth range Hr Hs Hf; [lia|].
  cbn [construct_recursive].
  destruct (groups_ok (get_var depth) (var_key depth) (length range) range (le_n _)) as (gs & A1 & A2 & A3 & _).
  { intros o Ho. apply get_var_key. apply Hr; auto. }
  rewrite A1. cbn [bind].
  match goal with |- exists g, (let* _ := ?F gs in _) = Ok g /\ _ => set (each := F) end.
  (* every group *)
  assert (G : forall k g, In (k, g) gs -> (forall o, In o g -> In o range) /\ StronglySorted (suffix_le depth) g).
  { intros k g Hin. assert (Hg : In g (map snd gs)) by (apply in_map_iff; exists (k, g); auto).
    split.
    - intros o Ho. rewrite <- A2. apply in_concat. exists g; auto.
    - eapply sorted_concat; [|exact Hg]. rewrite A2; auto. }
  assert (E : exists nodes, each gs = Ok nodes /\ forall s, state_ok t s ->
     Forall2 (fun n r => generate n s = Ok r) nodes (map (fun kg => map fst (filter (suffix_ok s depth) (snd kg))) gs)).
  { clear A1 A2. induction gs as [|(k, g) gs IHgs].
    - exists []; split; [reflexivity|]. intros; constructor.
    - destruct IHgs as (nodes & N1 & N2); [intros; apply (A3 k0 g0); right; auto | intros; apply (G k0 g0); right; auto|].
      destruct (A3 k g (or_introl eq_refl)) as [Gne Gk]. destruct (G k g (or_introl eq_refl)) as [Gin Gs].
      destruct k as [v|].
      + (* switch *)
        assert (Hlong : forall o, In o g -> exists f, nth_error (snd o) depth = Some f /\ fst f = v /\ depth < length (snd o)).
        { intros o Ho. specialize (Gk o Ho). unfold var_key in Gk.
          destruct (nth_error (snd o) depth) as [f|] eqn:Ef; [|discriminate]. cbn in Gk. inv Gk.
          exists f; splits; auto. eapply nth_error_Some_lt; eauto. }
        destruct (groups_ok (get_value depth) (val_key depth) (length g) g (le_n _)) as (vs & B1 & B2 & B3 & B5).
        { intros o Ho. apply get_value_key. destruct (Hlong o Ho) as (f & _ & _ & H); auto. }
        (* the value groups *)
        assert (V : forall k h, In (k, h) vs -> h <> [] /\ (forall o, In o h -> In o g) /\ StronglySorted (suffix_le depth) h /\
            exists d, k = Some d /\ forall o, In o h -> nth_error (snd o) depth = Some (v, d)).
        { intros k h Hin. destruct (B3 k h Hin) as [C1 C2].
          assert (Hh : In h (map snd vs)) by (apply in_map_iff; exists (k, h); auto).
          assert (Hhg : forall o, In o h -> In o g) by (intros o Ho; rewrite <- B2; apply in_concat; exists h; auto).
          splits; auto.
          - eapply sorted_concat; [|exact Hh]. rewrite B2; auto.
          - destruct h as [|o0 h0] eqn:Eh; [congruence|].
            destruct (Hlong o0 (Hhg o0 (or_introl eq_refl))) as ((v0, d0) & F1 & F2 & _). cbn in F2. subst v0.
            exists d0. split.
            + rewrite <- (C2 o0 (or_introl eq_refl)). unfold val_key. now rewrite F1.
            + intros o Ho. destruct (Hlong o (Hhg o Ho)) as ((v1, d1) & G1 & G2 & _). cbn in G2. subst v1.
              pose proof (C2 o Ho) as K1. pose proof (C2 o0 (or_introl eq_refl)) as K2. unfold val_key in K1, K2.
              rewrite G1 in K1. rewrite F1 in K2. cbn in K1, K2.
              assert (d1 = d0) by congruence. subst d1. exact G1. }
        (* strictly increasing values *)
        assert (Inc : StronglySorted (fun a b => match fst a, fst b with Some d, Some e => d < e | _, _ => False end) vs).
        { assert (Gs' : StronglySorted (suffix_le depth) (concat (map snd vs))) by (rewrite B2; auto).
          clear B1 B2 B3 Gs. revert Gs' V B5. clear. induction vs as [|(k, h) vs IH]; intros Gs V B5; constructor.
          - apply IH.
            + cbn in Gs. eapply sorted_app_r; eauto.
            + intros k0 h0 Hin. destruct (V k0 h0 (or_intror Hin)) as (V1 & V2 & V3 & V4). splits; eauto.
            + intros gs1 k0 g0 k' g' gs2 ->. eapply (B5 ((k, h) :: gs1)). reflexivity.
          - assert (Le : forall k' h', In (k', h') vs -> exists d e, k = Some d /\ k' = Some e /\ d <= e).
            { intros k' h' Hin. destruct (V k h (or_introl eq_refl)) as (V1 & _ & _ & d & V4 & V5).
              destruct (V k' h' (or_intror Hin)) as (W1 & _ & _ & e & W4 & W5).
              exists d, e; splits; auto. destruct h as [|o h]; [congruence|]. destruct h' as [|o' h']; [congruence|].
              assert (Hle : suffix_le depth o o').
              { eapply (sorted_cross _ (o :: h) (concat (map snd vs))); [exact Gs|left; auto|].
                apply in_concat. exists (o' :: h'). split; [apply in_map_iff; exists (k', o' :: h'); auto|left; auto]. }
              unfold suffix_le in Hle. rewrite (skipn_nth _ _ _ (V5 o (or_introl eq_refl))), (skipn_nth _ _ _ (W5 o' (or_introl eq_refl))) in Hle.
              unfold facts_le in Hle. cbn [facts_ltb] in Hle. destruct (fact_ltb (v, e) (v, d)) eqn:E; [discriminate|].
              apply fact_ltb_false in E. cbn in E. lia. }
            destruct vs as [|(k1, h1) vs]; [constructor|].
            assert (Hk1 : exists d e, k = Some d /\ k1 = Some e /\ d < e).
            { destruct (Le k1 h1 (or_introl eq_refl)) as (d & e & -> & -> & Hde). exists d, e; splits; auto.
              assert (Some d <> Some e) by (eapply (B5 []); reflexivity). assert (d <> e) by congruence. lia. }
            destruct Hk1 as (d & e & -> & -> & Hde).
            assert (IHs : StronglySorted (fun a b : option nat * list opinfo => match fst a, fst b with Some d, Some e => d < e | _, _ => False end) ((Some e, h1) :: vs)).
            { apply IH.
              - cbn in Gs. eapply sorted_app_r; eauto.
              - intros k0 h0 Hin. destruct (V k0 h0 (or_intror Hin)) as (V1 & V2 & V3 & V4). splits; eauto.
              - intros gs1 k0 g0 k' g' gs2 E. eapply (B5 ((Some d, h) :: gs1)). rewrite E. reflexivity. }
            inv IHs. constructor; [cbn; auto|]. rewrite Forall_forall in *. intros [kz hz] Hz.
            specialize (H2 _ Hz). cbn in *. destruct kz; [lia|auto]. }
        match goal with |- exists nodes, each ?X = _ /\ _ => assert (Eeach : each X =
           let* value_groups := groups (length g) (get_value depth) g in
           let* vg := (fix each_value (l : list (option nat * list opinfo)) : outcome (list (nat * gen)) :=
              match l with
              | [] => Ok []
              | (None, _) :: _ => UB
              | (Some value, g) :: r =>
                  let* child := construct_recursive use_hash t fuel (S depth) g in
                  let* rest := each_value r in
                  Ok ((value, child) :: rest)
              end) value_groups in
           let* node := construct_switch use_hash t v vg in
           let* rest := each gs in
           Ok (node :: rest)) by reflexivity; rewrite Eeach; clear Eeach end.
        rewrite B1. cbn [bind].
        match goal with |- exists nodes, (let* _ := ?F vs in _) = Ok nodes /\ _ => set (each_value := F) end.
        assert (EV : exists vg, each_value vs = Ok vg /\ map fst vg = map (fun kh => match fst kh with Some d => d | None => 0 end) vs /\
           forall s, state_ok t s -> forall d, 
             match assoc_get vg d with Some c => generate c s | None => Ok [] end =
             Ok (map fst (concat (map (fun kh => if key_eqb (fst kh) (Some d) then filter (suffix_ok s (S depth)) (snd kh) else []) vs)))).
        { clear B1 B2 B3 B5. revert V Inc. clear - IH Hr Gin Hf.
          induction vs as [|(k, h) vs IHvs]; intros V Inc.
          - exists []; splits; auto.
          - inv Inc. destruct IHvs as (vg & E1 & E2 & E3); auto.
            { intros k0 h0 Hin. apply V. right; auto. }
            destruct (V k h (or_introl eq_refl)) as (V1 & V2 & V3 & d & -> & V5).
            assert (Hfuel : 0 < fuel).
            { destruct h as [|o h]; [congruence|]. pose proof (V5 o (or_introl eq_refl)) as Hn. apply nth_error_Some_lt in Hn.
              destruct (Hr o (Gin o (V2 o (or_introl eq_refl)))) as (_ & H & _). lia. }
            destruct (IH (S depth) h) as (c & C1 & C2); auto.
            { intros o Ho. pose proof (V5 o Ho) as Hn. apply nth_error_Some_lt in Hn.
              destruct (Hr o (Gin o (V2 o Ho))) as (X1 & X2 & X3). splits; auto; lia. }
            { eapply sorted_map_iff; [|exact V3]. intros a b Ha Hb Hab. unfold suffix_le in *.
              rewrite (skipn_nth _ _ _ (V5 a Ha)), (skipn_nth _ _ _ (V5 b Hb)) in Hab.
              unfold facts_le in *. cbn [facts_ltb] in Hab.
              destruct (fact_ltb (v, d) (v, d)) eqn:E; [apply fact_ltb_iff in E; lia|]. auto. }
            exists ((d, c) :: vg). splits.
            + change (each_value ((Some d, h) :: vs)) with
                (let* child := construct_recursive use_hash t fuel (S depth) h in
                 let* rest := each_value vs in Ok ((d, child) :: rest)).
              rewrite C1. cbn [bind]. rewrite E1. reflexivity.
            + cbn [map fst]. congruence.
            + intros s Hs e. cbn [assoc_get map concat fst snd key_eqb].
              destruct (Nat.eqb_spec d e) as [->|Hne]; [|cbn [app]; apply E3; auto].
              rewrite (C2 s Hs).
              replace (concat (map (fun kh => if key_eqb (fst kh) (Some e) then filter (suffix_ok s (S depth)) (snd kh) else []) vs)) with (@nil opinfo); [now rewrite app_nil_r|].
              symmetry. rewrite Forall_forall in H2. clear - H2. induction vs as [|(k, h') vs IH]; auto. cbn.
              rewrite IH by (intros x Hx; apply H2; right; auto).
              specialize (H2 _ (or_introl eq_refl)). cbn in H2. destruct k as [d|]; cbn; auto.
              destruct (Nat.eqb_spec d e); auto. lia. }
        destruct EV as (vg & E1 & E2 & E3). rewrite E1. cbn [bind].
        assert (Hvs : vs <> []). { intros ->. cbn in B2. congruence. }
        assert (Hdom : exists x, is_var t v x /\ forall d h, In (Some d, h) vs -> d < vdom x).
        { destruct g as [|o0 g0] eqn:Eg; [congruence|].
          assert (Hfo : forall o, In o (o0 :: g0) -> forall e, nth_error (snd o) depth = Some (v, e) -> exists x, is_var t v x /\ e < vdom x).
          { intros o Ho e He. destruct (Hr o (Gin o Ho)) as (_ & _ & X3). rewrite Forall_forall in X3.
            apply (X3 (v, e)). eapply nth_error_In; eauto. }
          destruct (Hlong o0 (or_introl eq_refl)) as ((v0, e0) & F1 & F2 & _). cbn in F2. subst v0.
          destruct (Hfo o0 (or_introl eq_refl) e0 F1) as (x & Hx & _). exists x; split; auto.
          intros d h Hin. destruct (V (Some d) h Hin) as (V1 & V2 & _ & d' & V4 & V5). inv V4.
          destruct h as [|o h]; [congruence|].
          destruct (Hfo o (V2 o (or_introl eq_refl)) d' (V5 o (or_introl eq_refl))) as (x' & Hx' & Hd').
          unfold is_var in *. congruence. }
        destruct Hdom as (x & Hx & Hdom).
        destruct (construct_switch_ok v x vg Hx) as (node & S1 & S2).
        { destruct vs as [|kh vs']; [congruence|]. destruct vg; [discriminate|congruence]. }
        { rewrite E2. clear - Inc. induction Inc as [|a l Hs IH Hfa]; cbn; constructor; auto.
          intros Hin. apply in_map_iff in Hin. destruct Hin as (b & B1 & B2). rewrite Forall_forall in Hfa. specialize (Hfa b B2).
          destruct (fst a), (fst b); try contradiction. lia. }
        { rewrite E2. intros k Hk. apply in_map_iff in Hk. destruct Hk as ((k0, h) & K1 & K2).
          destruct (V k0 h K2) as (_ & _ & _ & d & -> & _). cbn in K1. subst. eapply Hdom; eauto. }
        rewrite S1. cbn [bind]. rewrite N1. cbn [bind]. exists (node :: nodes); split; [reflexivity|].
        intros s Hst. cbn [map snd]. constructor; [|apply N2; auto].
        destruct (state_ok_get _ _ _ _ Hst Hx) as (d & Hd & Hdr). unfold holds in Hd. cbn in Hd.
        rewrite (S2 s d Hd Hdr), (E3 s Hst d). f_equal. f_equal. rewrite <- B2, filter_concat, map_map. f_equal.
        apply map_ext_in. intros (k, h) Hin. cbn [fst snd].
        destruct (V k h Hin) as (_ & _ & _ & e & -> & V5). cbn [key_eqb].
        assert (Hfil : forall o, In o h -> suffix_ok s depth o = (e =? d) && suffix_ok s (S depth) o).
        { intros o Ho. unfold suffix_ok. rewrite (skipn_nth _ _ _ (V5 o Ho)). unfold all_holdb. cbn [forallb]. f_equal.
          unfold holdsb. cbn [fst snd]. rewrite Hd. apply Nat.eqb_sym. }
        rewrite (filter_ext_in _ _ h Hfil).
        destruct (e =? d); cbn [andb]; auto. clear. induction h; auto.
      + (* leaf *)
        change (each ((None, g) :: gs)) with (let* rest := each gs in Ok (construct_leaf g :: rest)).
        rewrite N1. cbn [bind]. exists (construct_leaf g :: nodes); split; [reflexivity|].
        intros s Hst. cbn [map snd]. constructor; [|apply N2; auto].
        rewrite generate_leaf. f_equal. f_equal.
        assert (Hall : forall o, In o g -> suffix_ok s depth o = true).
        { intros o Ho. specialize (Gk o Ho). unfold var_key in Gk. unfold suffix_ok.
          destruct (nth_error (snd o) depth) eqn:En; [discriminate|]. apply nth_error_None in En.
          rewrite skipn_all2 by auto. reflexivity. }
        clear - Hall. induction g as [|o g IH]; auto. cbn. rewrite Hall by (left; auto). f_equal. apply IH. intros; apply Hall; right; auto. }
  destruct E as (nodes & N1 & N2). rewrite N1. cbn [bind]. eexists; split; [reflexivity|].
  intros s Hst. rewrite (generate_fork nodes s _ (N2 s Hst)). f_equal.
  rewrite <- A2, filter_concat, concat_map, !map_map. reflexivity.
Qed.
End Factory.

Lemma combine_seq_nth {A} (l : list A) : forall a i x, nth_error (combine (seq a (length l)) l) i = Some x ->
  fst x = a + i /\ nth_error l i = Some (snd x).
Proof.
  induction l as [|y l IH]; intros a [|i] x H; cbn in *; try discriminate.
  - inv H. cbn. split; auto.
  - destruct (IH (S a) i x H). split; auto. lia.
Qed.

Lemma all_holdb_perm s l1 l2 : Permutation l1 l2 -> all_holdb s l1 = all_holdb s l2.
Proof.
  intros H. apply eq_true_iff_eq. rewrite !all_holdb_spec. unfold all_hold.
  split; intros G f Hf; apply G; [eapply Permutation_in; [symmetry|]; eauto | eapply Permutation_in; eauto].
Qed.

Lemma filter_perm {A} (f : A -> bool) l1 l2 : Permutation l1 l2 -> Permutation (filter f l1) (filter f l2).
Proof.
  induction 1 as [|x l1 l2 H IH|x y l|l1 l2 l3 H1 IH1 H2 IH2]; cbn [filter].
  - constructor.
  - destruct (f x); auto.
  - destruct (f x), (f y); auto. constructor.
  - etransitivity; eauto.
Qed.

Lemma create_ok use_hash t : task_ok t -> exists g, create use_hash t = Ok g /\
  forall s, state_ok t s -> exists ops, generate g s = Ok ops /\ NoDup ops /\ forall o, In o ops <-> applicable t s o.
Proof.
  intros Ht. unfold create.
  set (infos := combine (seq 0 (length (t_ops t))) (map build_sorted_precondition (t_ops t))).
  assert (Hinf : forall x, In x infos <-> exists op, nth_error (t_ops t) (fst x) = Some op /\ snd x = build_sorted_precondition op).
  { intros x. unfold infos. rewrite <- (map_length build_sorted_precondition (t_ops t)). split.
    - intros Hin. apply In_nth_error in Hin. destruct Hin as (i & Hi).
      apply combine_seq_nth in Hi. destruct Hi as [H1 H2]. cbn in H1. rewrite H1.
      rewrite nth_error_map in H2. destruct (nth_error (t_ops t) i) as [op|]; [|discriminate]. cbn in H2. inv H2. exists op; auto.
    - intros (op & H1 & H2). assert (G : forall (l : list (list fact)) a i y, nth_error l i = Some y -> In (a + i, y) (combine (seq a (length l)) l)).
      { clear. induction l as [|z l IH]; intros a [|i] y H; cbn in *; try discriminate.
        - inv H. left. f_equal; lia.
        - right. replace (a + S i) with (S a + i) by lia. auto. }
      destruct x as [i y]. cbn in *. apply (G _ 0 i y). erewrite map_nth_error; eauto. congruence. }
  pose proof (sort_perm opinfo_ltb infos) as Hp.
  destruct (construct_ok use_hash t (S (list_max (map (fun o => length (snd o)) infos))) 0 (stable_sort opinfo_ltb infos)) as (g & G1 & G2); try lia.
  { intros o Ho. apply (Permutation_in _ (Permutation_sym Hp)) in Ho. splits; [lia| |].
    - pose proof (proj1 (list_max_le (map (fun o => length (snd o)) infos) _) (le_n _)) as M.
      rewrite Forall_forall in M. specialize (M (length (snd o))). 
      assert (length (snd o) <= list_max (map (fun o => length (snd o)) infos)) by (apply M; apply in_map_iff; eauto). lia.
    - apply Hinf in Ho. destruct Ho as (op & O1 & O2). rewrite O2. destruct Ht as (_ & Hops & _).
      rewrite Forall_forall in Hops. destruct (Hops op) as [Hpre _]; [eapply nth_error_In; eauto|].
      eapply Permutation_Forall; [apply sort_perm|exact Hpre]. }
  { eapply sorted_map_iff; [|apply infos_sorted]. intros a b _ _ H. exact H. }
  rewrite G1. exists g; split; auto. intros s Hs. eexists; split; [apply G2; auto|]. split.
  - assert (Hnd : NoDup (map fst infos)).
    { unfold infos. assert (G : forall (l : list (list fact)) a n, NoDup (map fst (combine (seq a n) l)) /\ forall x, In x (map fst (combine (seq a n) l)) -> a <= x).
      { clear. induction l as [|y l IH]; intros a [|n]; cbn; try (split; [constructor | intros x []]; fail).
        destruct (IH (S a) n) as [I1 I2]. split.
        - constructor; auto. intros C. apply I2 in C. lia.
        - intros x [<-|Hx]; auto. apply I2 in Hx. lia. }
      apply G. }
    eapply (Permutation_NoDup (l := map fst (filter (suffix_ok s 0) infos))).
    + apply Permutation_map. now apply filter_perm.
    + clear - Hnd. induction infos as [|x l IH]; cbn [map filter] in *; [constructor|]. inv Hnd.
      destruct (suffix_ok s 0 x); auto. cbn. constructor; auto.
      intros C. apply H1. apply in_map_iff in C. destruct C as (z & Z1 & Z2). apply filter_In in Z2. apply in_map_iff. exists z; tauto.
  - intros o. rewrite in_map_iff. unfold applicable. split.
    + intros ((i, pre) & <- & Hin). apply filter_In in Hin. destruct Hin as [Hin Hok].
      apply (Permutation_in _ (Permutation_sym Hp)) in Hin. apply Hinf in Hin. destruct Hin as (op & O1 & O2).
      cbn [fst snd] in *. exists op; split; auto. subst pre.
      change (all_holdb s (stable_sort fact_ltb (op_pre op)) = true) in Hok. rewrite <- (all_holdb_perm s _ _ (sort_perm fact_ltb (op_pre op))) in Hok.
      now apply all_holdb_spec.
    + intros (op & O1 & O2). exists (o, build_sorted_precondition op). split; auto. apply filter_In. split.
      * apply (Permutation_in _ Hp). apply Hinf. exists op; auto.
      * change (all_holdb s (stable_sort fact_ltb (op_pre op)) = true). rewrite <- (all_holdb_perm s _ _ (sort_perm fact_ltb (op_pre op))).
        now apply all_holdb_spec.
Qed.

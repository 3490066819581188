(** Abstraction mappings. *)
From Verif Require Import Outcome Spec_Task Model_MAS Spec_FTS Proof_MAS1 Proof_MAS2 Proof_MAS3.

Fixpoint rwf (t : task) (r : rep) : Prop :=
  match r with
  | Leaf v tab d => (exists xv, nth_error (t_vars t) v = Some xv /\ length tab = vdom xv) /\ forall k, In (Some k) tab <-> k < d
  | Node a b tab d => rwf t a /\ rwf t b /\ length tab = rep_dom a /\ (forall row, In row tab -> length row = rep_dom b) /\
                      forall k, (exists row, In row tab /\ In (Some k) row) <-> k < d
  end.

Lemma state_var t s v xv : state_ok t s -> nth_error (t_vars t) v = Some xv -> exists x, nth_error s v = Some x /\ x < vdom xv.
Proof.
  intros H. unfold state_ok in H. revert v. induction H as [|x d s vs Hx _ IH]; intros [|v] Hv; cbn [nth_error] in *; try discriminate; [inversion Hv; subst; eauto|eauto].
Qed.

Lemma get_value_ok t s : state_ok t s -> forall r, rwf t r -> exists x, get_value r s = Ok x /\ forall k, x = Some k -> k < rep_dom r.
Proof.
  intros Hs. induction r as [v tab d|a IHa b IHb tab d]; cbn [rwf get_value rep_dom].
  - intros [(xv & Hv & Hl) Hd]. destruct (state_var t s v xv Hs Hv) as (x & Hx & Hlt). unfold vget at 1. rewrite Hx. cbn [bind]. destruct (vget_some tab x) as (e & He & ->); [lia|].
    exists e. split; auto. intros k ->. apply Hd. eapply nth_error_In; eauto.
  - intros (Wa & Wb & Hl & Hr & Hd). destruct (IHa Wa) as (x & -> & Hx), (IHb Wb) as (y & -> & Hy). cbn [bind].
    destruct x as [x|]; [|exists None; split; auto; discriminate]. destruct y as [y|]; [|exists None; split; auto; discriminate].
    destruct (vget_some tab x) as (row & Hrow & ->); [rewrite Hl; auto|]. cbn [bind]. destruct (vget_some row y) as (e & He & ->); [rewrite (Hr row) by (eapply nth_error_In; eauto); auto|].
    exists e. split; auto. intros k ->. apply Hd. exists row. split; eapply nth_error_In; eauto.
Qed.

Lemma new_leaf_ok t v xv : nth_error (t_vars t) v = Some xv -> rwf t (new_leaf v (vdom xv)) /\
  forall s x, nth_error s v = Some x -> x < vdom xv -> get_value (new_leaf v (vdom xv)) s = Ok (Some x).
Proof.
  intros Hv. split.
  - cbn [new_leaf rwf]. split; [exists xv; split; auto; now rewrite map_length, seq_length|]. intros k. rewrite in_map_iff. split.
    + intros (x & E & Hx). inversion E; subst. apply in_seq in Hx. lia.
    + intros H. exists k. split; auto. apply in_seq. lia.
  - intros s x Hx Hlt. cbn [new_leaf get_value]. unfold vget at 1. rewrite Hx. cbn [bind]. unfold vget.
    assert (E : nth_error (seq 0 (vdom xv)) x = Some x) by (rewrite (nth_error_nth' (seq 0 (vdom xv)) 0) by (now rewrite seq_length); now rewrite seq_nth).
    now rewrite (map_nth_error Some x (seq 0 (vdom xv)) E).
Qed.

Lemma pair_bound m n k : k < m * n <-> exists i j, i < m /\ j < n /\ k = i * n + j.
Proof.
  split.
  - intros H. assert (n <> 0) by (intros ->; lia). exists (k / n), (k mod n). splits; [apply Nat.div_lt_upper_bound; lia|now apply Nat.mod_upper_bound|]. rewrite Nat.mul_comm. now apply Nat.div_mod.
  - intros (i & j & Hi & Hj & ->). nia.
Qed.
Lemma new_node_ok t a b : rwf t a -> rwf t b -> rwf t (new_node a b) /\
  forall s x y, get_value a s = Ok x -> get_value b s = Ok y -> (forall k, x = Some k -> k < rep_dom a) -> (forall k, y = Some k -> k < rep_dom b) ->
    get_value (new_node a b) s = Ok (match x, y with Some i, Some j => Some (i * rep_dom b + j) | _, _ => None end).
Proof.
  intros Wa Wb. split.
  - cbn [new_node rwf]. splits; auto; [now rewrite map_length, seq_length| |].
    + intros row H. apply in_map_iff in H as (i & <- & _). now rewrite map_length, seq_length.
    + intros k. rewrite pair_bound. split.
      * intros (row & H & Hk). apply in_map_iff in H as (i & <- & Hi). apply in_map_iff in Hk as (j & E & Hj). inversion E; subst. apply in_seq in Hi, Hj. exists i, j. splits; lia.
      * intros (i & j & Hi & Hj & ->). eexists. split; [apply in_map_iff; exists i; split; [reflexivity|apply in_seq; lia]|]. apply in_map_iff. exists j. split; auto. apply in_seq. lia.
  - intros s x y Ha Hb Hx Hy. cbn [new_node get_value]. rewrite Ha, Hb. cbn [bind]. destruct x as [i|]; auto. destruct y as [j|]; auto.
    assert (Ei : nth_error (seq 0 (rep_dom a)) i = Some i) by (rewrite (nth_error_nth' (seq 0 (rep_dom a)) 0) by (rewrite seq_length; auto); rewrite seq_nth; auto).
    assert (Ej : nth_error (seq 0 (rep_dom b)) j = Some j) by (rewrite (nth_error_nth' (seq 0 (rep_dom b)) 0) by (rewrite seq_length; auto); rewrite seq_nth; auto).
    unfold vget at 1. rewrite (map_nth_error (fun i => map (fun j => Some (i * rep_dom b + j)) (seq 0 (rep_dom b))) i (seq 0 (rep_dom a)) Ei). cbn [bind]. unfold vget.
    now rewrite (map_nth_error (fun j => Some (i * rep_dom b + j)) j (seq 0 (rep_dom b)) Ej).
Qed.

(** ** Applying a mapping to the root table *)
Definition mapped (m : list (option nat)) (e e' : option nat) : Prop := e' = match e with None => None | Some k => nth k m None end.
Lemma map_entries_ok m tab : (forall k, In (Some k) tab -> k < length m) -> exists tab', omap (map_entry m) tab = Ok tab' /\ Forall2 (mapped m) tab tab'.
Proof.
  intros H. apply omap_ok. intros [k|] He; cbn [map_entry].
  - destruct (vget_some m k (H k He)) as (x & Hx & ->). exists x. split; auto. unfold mapped. symmetry. now apply nth_error_nth.
  - exists None. split; auto. reflexivity.
Qed.
Lemma Forall2_In_r {A B} (R : A -> B -> Prop) l l' y : Forall2 R l l' -> In y l' -> exists x, In x l /\ R x y.
Proof. induction 1 as [|a b l l' H _ IH]; intros []; [subst; exists a; split; auto; now left|]. destruct IH as (x & A1 & A2); auto. exists x. split; auto. now right. Qed.
Lemma Forall2_In_l {A B} (R : A -> B -> Prop) l l' x : Forall2 R l l' -> In x l -> exists y, In y l' /\ R x y.
Proof. induction 1 as [|a b l l' H _ IH]; intros []; [subst; exists b; split; auto; now left|]. destruct IH as (y & A1 & A2); auto. exists y. split; auto. now right. Qed.

Lemma table_dom_ok es n : (forall k, In (Some k) es <-> k < n) -> table_dom es = n.
Proof.
  intros H. unfold table_dom.
  assert (G : forall es d, let r := fold_left (fun d e => match e with None => d | Some s => Nat.max d (s + 1) end) es d in
    d <= r /\ (forall k, In (Some k) es -> k < r) /\ (r = d \/ exists k, In (Some k) es /\ r = S k)).
  { clear. induction es as [|[s|] es IH]; intros d; cbn [fold_left].
    - splits; auto; [intros k []].
    - destruct (IH (Nat.max d (s + 1))) as (A & B & C). cbn zeta in *. splits; [lia| |].
      + intros k [E|Hk]; auto. inversion E; subst. lia.
      + destruct C as [C|(k & Hk & C)]; [|right; exists k; split; auto; now right]. rewrite C. destruct (Nat.max_spec d (s + 1)) as [[_ ->]|[_ ->]]; auto. right. exists s. split; [now left|lia].
    - destruct (IH d) as (A & B & C). cbn zeta in *. splits; auto; [intros k [E|Hk]; [discriminate|auto]|]. destruct C as [C|(k & Hk & C)]; auto. right. exists k. split; auto. now right. }
  destruct (G es 0) as (_ & B & C). cbn zeta in *. apply Nat.le_antisymm.
  - destruct C as [->|(k & Hk & ->)]; [lia|]. apply H in Hk. lia.
  - destruct n as [|n]; [lia|]. assert (Hn : In (Some n) es) by (apply H; lia). specialize (B n Hn). lia.
Qed.

Lemma abstract_rep_value t m r : rwf t r -> rep_dom r = length m -> exists r', abstract_rep m r = Ok r' /\
  forall s, state_ok t s -> forall x, get_value r s = Ok x -> get_value r' s = Ok (match x with None => None | Some k => nth k m None end).
Proof.
  destruct r as [v tab d|a b tab d]; cbn [rwf rep_dom abstract_rep].
  - intros [_ Hd] ->. destruct (map_entries_ok m tab) as (tab' & -> & HF); [intros k Hk; now apply Hd|]. cbn [bind]. eexists. split; [reflexivity|]. intros s _ x Hx. cbn [get_value] in *.
    destruct (vget s v) as [y| | |]; try discriminate. cbn [bind] in *. unfold vget in *. pose proof (Forall2_nth _ _ _ HF y) as Hn. destruct (nth_error tab y) as [e|]; [|discriminate]. destruct (nth_error tab' y) as [e'|]; [|contradiction]. inversion Hx; subst. now rewrite Hn.
  - intros (Wa & Wb & Hl & Hr & Hd) ->.
    destruct (omap_ok (omap (map_entry m)) (fun row row' => Forall2 (mapped m) row row') tab) as (tab' & -> & HF).
    { intros row Hrow. destruct (map_entries_ok m row) as (row' & E & H); [intros k Hk; apply Hd; eauto|]. eauto. }
    cbn [bind]. eexists. split; [reflexivity|]. intros s Hs x Hx. cbn [get_value] in *. destruct (get_value a s) as [xa| | |]; try discriminate. cbn [bind] in *. destruct (get_value b s) as [xb| | |]; try discriminate. cbn [bind] in *.
    destruct xa as [i|]; [|inversion Hx; auto]. destruct xb as [j|]; [|inversion Hx; auto]. unfold vget in *. pose proof (Forall2_nth _ _ _ HF i) as Hn. destruct (nth_error tab i) as [row|]; [|discriminate]. destruct (nth_error tab' i) as [row'|]; [|contradiction].
    cbn [bind] in *. pose proof (Forall2_nth _ _ _ Hn j) as Hn2. destruct (nth_error row j) as [e|]; [|discriminate]. destruct (nth_error row' j) as [e'|]; [|contradiction]. inversion Hx; subst. now rewrite Hn2.
Qed.

Lemma abstract_rep_ok t n cls m r : rwf t r -> rep_dom r = n -> length m = n -> grouping n cls -> (forall s k, nth_error m s = Some (Some k) <-> in_class cls k s) ->
  exists r', abstract_rep m r = Ok r' /\ rwf t r' /\ rep_dom r' = length cls /\
  forall s, state_ok t s -> forall x, get_value r s = Ok x -> get_value r' s = Ok (match x with None => None | Some k => nth k m None end).
Proof.
  intros W Hn Hm HG Hcl. destruct (abstract_rep_value t m r W (eq_trans Hn (eq_sym Hm))) as (r' & E & Hv). exists r'. split; auto.
  assert (Himg : forall k, k < length cls <-> exists x, x < n /\ nth x m None = Some k).
  { intros k. split.
    - intros Hk. destruct (nth_error cls k) as [c|] eqn:Ec; [|apply nth_error_None in Ec; lia]. destruct HG as (_ & Hne & Hlt). assert (Hin : In c cls) by (eapply nth_error_In; eauto).
      destruct c as [|x c']; [exfalso; now apply (Hne [] Hin)|]. exists x. assert (Hc : in_class cls k x) by (exists (x :: c'); split; auto; now left). split.
      + apply Hlt. apply in_concat. exists (x :: c'). split; auto. now left.
      + apply nth_error_nth. now apply Hcl.
    - intros (x & Hx & Hnx). rewrite <- Hm in Hx. pose proof (nth_error_nth' m None Hx) as Hq. rewrite Hnx in Hq. apply Hcl in Hq as (c & Hc & _). eapply nth_error_Some_lt; eauto. }
  destruct r as [v tab d|a b tab d]; cbn [rwf rep_dom abstract_rep] in *.
  - destruct W as [(xv & Hxv & Hl) Hd]. destruct (map_entries_ok m tab) as (tab' & E' & HF); [intros k Hk; apply Hd in Hk; lia|]. rewrite E' in E. cbn [bind] in E. inversion E; subst r'. cbn [rwf rep_dom].
    assert (Hk : forall k, In (Some k) tab' <-> k < length cls).
    { intros k. rewrite Himg. split.
      - intros Hin. destruct (Forall2_In_r _ _ _ _ HF Hin) as ([x|] & Hx & Hmx); unfold mapped in Hmx; [|discriminate]. exists x. split; auto. rewrite <- Hn. now apply Hd.
      - intros (x & Hx & Hnx). rewrite <- Hn in Hx. apply Hd in Hx. destruct (Forall2_In_l _ _ _ _ HF Hx) as (y & Hy & Hmy). unfold mapped in Hmy. rewrite Hnx in Hmy. now subst. }
    splits; auto.
    + exists xv. split; auto. now rewrite (Forall2_len _ _ _ HF).
    + now rewrite (table_dom_ok tab' (length cls) Hk).
    + now apply table_dom_ok.
  - destruct W as (Wa & Wb & Hl & Hr & Hd). destruct (omap_ok (omap (map_entry m)) (fun row row' => Forall2 (mapped m) row row') tab) as (tab' & E' & HF).
    { intros row Hrow. destruct (map_entries_ok m row) as (row' & Er & H); [intros k Hk; rewrite Hm, <- Hn; apply Hd; eauto|]. eauto. }
    rewrite E' in E. cbn [bind] in E. inversion E; subst r'. cbn [rwf rep_dom].
    assert (Hk : forall k, (exists row, In row tab' /\ In (Some k) row) <-> k < length cls).
    { intros k. rewrite Himg. split.
      - intros (row' & Hrow' & Hin). destruct (Forall2_In_r _ _ _ _ HF Hrow') as (row & Hrow & HFr). destruct (Forall2_In_r _ _ _ _ HFr Hin) as ([x|] & Hx & Hmx); unfold mapped in Hmx; [|discriminate].
        exists x. split; auto. rewrite <- Hn. apply Hd. eauto.
      - intros (x & Hx & Hnx). rewrite <- Hn in Hx. apply Hd in Hx as (row & Hrow & Hx). destruct (Forall2_In_l _ _ _ _ HF Hrow) as (row' & Hrow' & HFr). destruct (Forall2_In_l _ _ _ _ HFr Hx) as (y & Hy & Hmy).
        unfold mapped in Hmy. rewrite Hnx in Hmy. subst. eauto. }
    assert (Htd : table_dom (concat tab') = length cls).
    { apply table_dom_ok. intros k. rewrite <- Hk, in_concat. split; intros (row & A & B); eauto. }
    rewrite Htd. splits; auto.
    + now rewrite (Forall2_len _ _ _ HF).
    + intros row' Hrow'. destruct (Forall2_In_r _ _ _ _ HF Hrow') as (row & Hrow & HFr). rewrite (Forall2_len _ _ _ HFr). auto.
Qed.

Lemma is_total_ok t s : state_ok t s -> forall r, rwf t r -> is_total r = true -> forall x, get_value r s = Ok x -> x <> None.
Proof.
  intros Hs. induction r as [v tab d|a IHa b IHb tab d]; cbn [rwf is_total get_value].
  - intros _ Ht x Hx. rewrite forallb_forall in Ht. destruct (vget s v) as [y| | |]; try discriminate. cbn [bind] in Hx. unfold vget in Hx. destruct (nth_error tab y) as [e|] eqn:E; [|discriminate]. inversion Hx; subst. apply nth_error_In in E. specialize (Ht x E). destruct x; [discriminate|discriminate].
  - intros (Wa & Wb & _) Ht x Hx. apply andb_true_iff in Ht as [Ht Tb]. apply andb_true_iff in Ht as [Ht Ta]. destruct (get_value a s) as [xa| | |]; try discriminate. cbn [bind] in Hx. destruct (get_value b s) as [xb| | |]; try discriminate. cbn [bind] in Hx.
    specialize (IHa Wa Ta xa eq_refl). specialize (IHb Wb Tb xb eq_refl). destruct xa as [i|]; [|congruence]. destruct xb as [j|]; [|congruence].
    rewrite forallb_forall in Ht. unfold vget in Hx. destruct (nth_error tab i) as [row|] eqn:E; [|discriminate]. cbn [bind] in Hx. destruct (nth_error row j) as [e|] eqn:E2; [|discriminate]. inversion Hx; subst.
    apply nth_error_In in E, E2. specialize (Ht row E). rewrite forallb_forall in Ht. specialize (Ht x E2). destruct x; discriminate.
Qed.

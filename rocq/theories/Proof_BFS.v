(** Correctness of [bfs]. *)
From Verif Require Import Outcome Spec_Relaxation Model_Graph Proof_Graph.

Section BFS.
Variable n : nat.
Variable graph : list (list nat).
Hypothesis Hgl : length graph = n.
Hypothesis Hgb : forall s t, In t (nth s graph []) -> t < n.
Variable src : nat -> Prop.
Definition unit_edges (s : nat) : list (nat * nat) := map (fun t => (t, 1)) (nth s graph []).
Notation E := unit_edges.
Notation dget d s := (nth s d (@None nat)).
Notation rel d c t := (exists c', dget d t = Some c' /\ c' <= S c).

(** [A] are the queued states at distance [k], [B] those at distance [k + 1]; [cur] has the
    successors [rest] left. *)
Record BInv (d : dists) (k : nat) (A B : list nat) (cur : option nat) (rest : list nat) : Prop := {
  bi_len : length d = n;
  bi_src : forall s, src s -> dget d s = Some 0;
  bi_sound : forall s c, dget d s = Some c -> walk_cost E src s c;
  bi_max : forall s c, dget d s = Some c -> c <= S k;
  bi_A : forall s, In s A -> dget d s = Some k;
  bi_B : forall s, In s B -> dget d s = Some (S k);
  bi_cur : forall s, cur = Some s -> dget d s = Some k;
  bi_rest : forall s, cur = Some s -> incl rest (nth s graph []);
  bi_done : forall s c t, dget d s = Some c -> ~ In s A -> ~ In s B -> In t (nth s graph []) -> (cur = Some s /\ In t rest) \/ rel d c t
}.

Definition unset (d : dists) : nat := length (filter (fun x => match x with None => true | _ => false end) d).
Lemma unset_upd d i c : nth_error d i = Some None -> S (unset (upd d i (Some c))) = unset d.
Proof.
  revert i. induction d as [|x d IH]; intros [|i] H; cbn [nth_error] in H; try discriminate.
  - inversion H; subst. reflexivity.
  - unfold unset in *. cbn [upd filter]. destruct x; cbn [length]; now rewrite <- (IH i H).
Qed.

Lemma bfs_relax_inv d k A B s t rest : BInv d k A B (Some s) (t :: rest) ->
  exists d' B', bfs_relax s (d, A ++ B) t = Ok (d', A ++ B') /\ BInv d' k A B' (Some s) rest /\ length B' + unset d' <= length B + unset d.
Proof.
  intros [Hl Hs Hso Hm HA HB Hc Hrest Hd]. unfold bfs_relax. specialize (Hc s eq_refl) as Hcs. specialize (Hrest s eq_refl) as Hin.
  assert (Hts : In t (nth s graph [])) by (apply Hin; now left). assert (Ht : t < n) by eauto.
  assert (Hsn : s < length d) by (eapply dget_lt; eauto).
  rewrite (dget_vget d s Hsn), Hcs. cbn [bind]. rewrite (dget_vget d t) by lia. cbn [bind]. destruct (dget d t) as [c|] eqn:Et; cbn [olt].
  - assert (c <= S k) by eauto. replace (k + 1 <? c) with false by (symmetry; apply Nat.ltb_ge; lia). exists d, B. splits; auto.
    constructor; auto.
    + intros s' E1 x Hx. inversion E1; subst s'. apply Hin; now right.
    + intros s' c' t' H1 H2 H3 H4. destruct (Hd s' c' t' H1 H2 H3 H4) as [[E1 [<-|Hin']]|Hr]; auto. right. inversion E1; subst s'. rewrite Hcs in H1; inversion H1; subst. exists c. split; auto.
  - unfold vset. rewrite (proj2 (Nat.ltb_lt t (length d))) by lia. cbn [bind]. exists (upd d t (Some (k + 1))), (B ++ [t]). rewrite app_assoc. split; [reflexivity|].
    assert (Hget : forall x, dget (upd d t (Some (k + 1))) x = if t =? x then Some (k + 1) else dget d x) by (intros x; apply dget_upd; lia).
    assert (Hkeep : forall x c, dget d x = Some c -> dget (upd d t (Some (k + 1))) x = Some c) by (intros x c Hx; rewrite Hget; destruct (Nat.eqb_spec t x); [congruence|auto]).
    split.
    + constructor; auto.
      * now rewrite upd_length.
      * intros x c. rewrite Hget. destruct (Nat.eqb_spec t x) as [<-|]; [|auto]. intros Hx; inversion Hx; subst. apply (wc_edge _ _ s k t 1); [auto|].
        unfold unit_edges. apply in_map_iff. eauto.
      * intros x c. rewrite Hget. destruct (Nat.eqb_spec t x) as [<-|]; [|eauto]. intros Hx; inversion Hx; lia.
      * intros x Hx. apply in_app_or in Hx as [Hx|[<-|[]]]; auto. rewrite Hget, Nat.eqb_refl. f_equal; lia.
      * intros s' E1 x Hx. inversion E1; subst s'. apply Hin; now right.
      * intros x c y H1 H2 H3 H4. rewrite Hget in H1. destruct (Nat.eqb_spec t x) as [<-|Hne]; [exfalso; apply H3, in_or_app; right; now left|].
        assert (H3' : ~ In x B) by (intros Hb; apply H3, in_or_app; auto). destruct (Hd x c y H1 H2 H3' H4) as [[E1 [<-|Hin']]|(c' & G1 & G2)]; auto.
        -- right. inversion E1; subst x. rewrite Hcs in H1; inversion H1; subst. exists (c + 1). split; [|lia]. rewrite Hget, Nat.eqb_refl. auto.
        -- right. exists c'. split; auto.
    + rewrite app_length; cbn [length]. pose proof (unset_upd d t (k + 1)) as U. rewrite (nth_error_nth' d None) in U by lia. rewrite Et in U. specialize (U eq_refl). lia.
Qed.

Lemma bfs_relax_all s k A : forall rest d B, BInv d k A B (Some s) rest ->
  exists d' B', fold_outcome (bfs_relax s) rest (d, A ++ B) = Ok (d', A ++ B') /\ BInv d' k A B' (Some s) [] /\ length B' + unset d' <= length B + unset d.
Proof.
  induction rest as [|t rest IH]; intros d B H; cbn [fold_outcome].
  - exists d, B. splits; auto.
  - destruct (bfs_relax_inv _ _ _ _ _ _ _ H) as (d1 & B1 & -> & H1 & L1). cbn [bind]. destruct (IH d1 B1 H1) as (d2 & B2 & -> & H2 & L2). exists d2, B2. splits; auto. lia.
Qed.

Lemma BInv_none d k A B cur : BInv d k A B cur [] -> BInv d k A B None [].
Proof.
  intros [Hl H0 Hso Hm HA HB Hc Hrest Hd]. constructor; auto; try discriminate.
  intros x c t H1 H2 H3 H4. destruct (Hd x c t H1 H2 H3 H4) as [[_ []]|]; auto.
Qed.

Lemma bfs_loop : forall fuel d k A B cur, BInv d k A B cur [] -> length A + length B + unset d < fuel ->
  exists d', bfs fuel graph d (A ++ B) = Ok d' /\ exact_dists E src n d'.
Proof.
  induction fuel as [|fuel IH]; intros d k A B cur H Hf; [lia|].
  apply (BInv_none d k A B cur) in H. clear cur. set (cur := @None nat) in *.
  assert (Step : forall k s A B, BInv d k (s :: A) B cur [] -> length (s :: A) + length B + unset d < S fuel ->
            exists d', bfs (S fuel) graph d ((s :: A) ++ B) = Ok d' /\ exact_dists E src n d').
  { clear - IH Hgl Hgb. intros k s A B H Hf. cbn [app bfs].
    assert (Hs : s < n) by (rewrite <- (bi_len _ _ _ _ _ _ H); eapply dget_lt, (bi_A _ _ _ _ _ _ H); now left).
    unfold vget. rewrite (nth_error_nth' graph []) by lia. cbn [bind].
    assert (H' : BInv d k A B (Some s) (nth s graph [])).
    { destruct H as [Hl H0 Hso Hm HA HB Hc Hrest Hd]. constructor; auto.
      - intros x Hx. apply HA. now right.
      - intros x Ex. inversion Ex; subst. apply HA. now left.
      - intros x Ex. inversion Ex; subst. apply incl_refl.
      - intros x c t H1 H2 H3 H4. destruct (Nat.eq_dec s x) as [<-|Hne]; auto.
        destruct (Hd x c t H1) as [[_ []]|]; auto. intros [|]; auto. }
    destruct (bfs_relax_all s k A _ d B H') as (d' & B' & -> & H1 & L). cbn [bind]. apply (IH d' k A B' (Some s)); auto. cbn [length] in Hf. lia. }
  destruct A as [|s A]; [|now apply (Step k s A B)]. destruct B as [|s B].
  - exists d. split; [reflexivity|]. destruct H as [Hl H0 Hso Hm HA HB Hc Hrest Hd]. apply (exact_final n E (fun s => Ok (E s))); auto.
    { intros s t w _ Hin. unfold unit_edges in Hin. apply in_map_iff in Hin as (t' & Et & Hin). inversion Et; subst. eauto. }
    { intros s Hs. rewrite <- Hl. eapply dget_lt; eauto. }
    intros s c e H1 H2. unfold unit_edges in H2. apply in_map_iff in H2 as (t & <- & Ht). destruct (Hd s c t H1 (fun x => x) (fun x => x) Ht) as [[_ []]|(c' & G1 & G2)].
    exists c'. cbn [fst snd]. split; auto. lia.
  - destruct (Step (S k) s B []) as (d' & E' & X).
    + destruct H as [Hl H0 Hso Hm HA HB Hc Hrest Hd]. constructor; auto.
      * intros x c Hx. apply Hm in Hx. lia.
      * intros x [].
      * intros x Ex. subst cur. discriminate.
    + cbn [length] in *. lia.
    + exists d'. split; auto. cbn [app]. rewrite app_nil_r in E'. exact E'.
Qed.

Theorem bfs_exact fuel d q : length d = n -> (forall s, s < n -> src s /\ nth s d None = Some 0 \/ ~ src s /\ nth s d None = None) ->
  (forall s, In s q <-> src s) -> (forall s, src s -> s < n) -> length q + n < fuel ->
  exists d', bfs fuel graph d q = Ok d' /\ exact_dists E src n d'.
Proof.
  intros Hl Hd Hq Hsrc Hf.
  assert (H0 : forall s c, dget d s = Some c -> c = 0 /\ src s).
  { intros s c Hs. assert (s < n) by (rewrite <- Hl; eapply dget_lt; eauto). destruct (Hd s H) as [[? E1]|[? E1]]; rewrite E1 in Hs; inversion Hs; auto. }
  assert (H1 : forall s, src s -> dget d s = Some 0) by (intros s Hs; destruct (Hd s (Hsrc s Hs)) as [[? E1]|[? E1]]; auto; contradiction).
  replace q with (q ++ []) by apply app_nil_r. apply (bfs_loop fuel d 0 q [] None).
  - constructor; auto; try discriminate.
    + intros s c Hs. destruct (H0 s c Hs) as [-> ?]. now constructor.
    + intros s c Hs. destruct (H0 s c Hs) as [-> ?]. lia.
    + intros s Hs. apply H1, Hq, Hs.
    + intros s [].
    + intros s c t Hs Hn. exfalso. apply Hn, Hq. eapply H0; eauto.
  - assert (unset d <= length d) by (unfold unset; clear; induction d as [|[|] d IH]; cbn [filter length]; lia). cbn [length]. lia.
Qed.
End BFS.

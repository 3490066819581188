(** Correctness of [dijkstra] and [bfs]. *)
From Coq Require Import Permutation.
From Verif Require Import Outcome Spec_Relaxation Model_PQ Model_Graph.

(** Costs of the walks from the source states. *)
Inductive walk_cost (E : nat -> list (nat * nat)) (src : nat -> Prop) : nat -> nat -> Prop :=
| wc_src : forall s, src s -> walk_cost E src s 0
| wc_edge : forall s c s' w, walk_cost E src s c -> In (s', w) (E s) -> walk_cost E src s' (c + w).

(** [d] lists exactly the costs of cheapest walks. *)
Definition exact_dists (E : nat -> list (nat * nat)) (src : nat -> Prop) (n : nat) (d : list (option nat)) : Prop :=
  length d = n /\
  forall s, s < n ->
    match nth s d None with
    | Some c => least (walk_cost E src s) c
    | None => forall c, ~ walk_cost E src s c
    end.

Section PROOF.
Variable P : pqueue.
Variable bag : PQ P -> list (nat * nat).
Hypothesis HP : pq_contract P bag.
Variable n : nat.
Variable E : nat -> list (nat * nat).
Variable edges : nat -> outcome (list (nat * nat)).
Hypothesis Hedges : forall s, s < n -> edges s = Ok (E s).
Hypothesis Hbound : forall s t w, s < n -> In (t, w) (E s) -> t < n.
Variable src : nat -> Prop.
Hypothesis Hsrc : forall s, src s -> s < n.

Notation dget d s := (nth s d (@None nat)).
Definition relaxed (d : dists) (c : nat) (e : nat * nat) : Prop :=
  exists c', dget d (fst e) = Some c' /\ c' <= c + snd e.

Lemma dget_vget (d : dists) s : s < length d -> vget d s = Ok (dget d s).
Proof. intros H. unfold vget. now rewrite (nth_error_nth' d None H). Qed.
Lemma dget_upd (d : dists) i x s : i < length d -> dget (upd d i x) s = if i =? s then x else dget d s.
Proof.
  intros H. destruct (Nat.ltb_spec s (length d)) as [Hs|Hs].
  - pose proof (upd_nth d i s x) as U. rewrite (nth_error_nth' (upd d i x) None) in U by now rewrite upd_length.
    rewrite (nth_error_nth' d None Hs) in U. rewrite (proj2 (Nat.ltb_lt i (length d)) H), andb_true_r in U.
    destruct (Nat.eqb_spec i s); cbn [andb] in U; congruence.
  - rewrite !nth_overflow by (try rewrite upd_length; lia). destruct (Nat.eqb_spec i s); [lia|auto].
Qed.
Lemma dget_lt (d : dists) s c : dget d s = Some c -> s < length d.
Proof. intros H. destruct (Nat.ltb_spec s (length d)); auto. rewrite nth_overflow in H by lia. discriminate. Qed.

(** The final argument, shared by both algorithms: sound distances with every edge relaxed are exact. *)
Lemma exact_final d : length d = n -> (forall s, src s -> dget d s = Some 0) ->
  (forall s c, dget d s = Some c -> walk_cost E src s c) ->
  (forall s c e, dget d s = Some c -> In e (E s) -> relaxed d c e) ->
  exact_dists E src n d.
Proof.
  intros Hl H0 Hs Hr. split; auto.
  assert (G : forall s c, walk_cost E src s c -> exists c', dget d s = Some c' /\ c' <= c).
  { induction 1 as [s Hs0|s c s' w _ (c1 & E1 & L1) Hin]; [exists 0; auto|].
    destruct (Hr s c1 (s', w) E1 Hin) as (c' & E' & L'). cbn [fst snd] in *. exists c'. split; auto. lia. }
  intros s Hsn. destruct (dget d s) as [c|] eqn:Ed.
  - split; [auto|]. intros c' Hc'. destruct (G s c' Hc') as (c2 & E2 & L2). rewrite Ed in E2. inversion E2; subst; auto.
  - intros c Hc. destruct (G s c Hc) as (c2 & E2 & _). congruence.
Qed.

(* ---- Dijkstra ---- *)
Record DInv (d : dists) (q : PQ P) (D : list nat) (cur : nat) (rest : list (nat * nat)) (L : nat) : Prop := {
  di_len : length d = n;
  di_src : forall s, src s -> dget d s = Some 0;
  di_sound : forall s c, dget d s = Some c -> walk_cost E src s c;
  di_nodup : NoDup (bag q);
  di_bag : forall k s, In (k, s) (bag q) -> exists c, dget d s = Some c /\ c <= k /\ L <= k /\ (In s D -> c < k);
  di_live : forall s c, dget d s = Some c -> In s D \/ In (c, s) (bag q);
  di_dnodup : NoDup D;
  di_done : forall s, In s D -> exists c, dget d s = Some c /\ c <= L /\
              forall e, In e (E s) -> (s = cur /\ In e rest) \/ relaxed d c e
}.

Lemma relax_inv d q D cur e rest L : DInv d q D cur (e :: rest) L -> dget d cur = Some L -> In cur D -> In e (E cur) ->
  exists d' q', relax P L (d, q) e = Ok (d', q') /\ DInv d' q' D cur rest L /\ dget d' cur = Some L /\
    length (bag q') <= S (length (bag q)).
Proof.
  intros HI Hcur HcD Hin. destruct e as [t w]. pose proof HI as [Hl Hs0 Hso Hnd Hb Hlv HDn HDo].
  assert (Hcn : cur < n) by (rewrite <- Hl; eapply dget_lt; eauto).
  assert (Ht : t < n) by (eapply Hbound; eauto).
  cbn [relax]. rewrite dget_vget by lia. cbn [bind].
  destruct (olt (L + w) (dget d t)) eqn:Eo.
  - unfold vset. rewrite Hl, (proj2 (Nat.ltb_lt t n) Ht). cbn [bind]. do 2 eexists. split; [reflexivity|].
    assert (HtD : ~ In t D).
    { intros HtD. destruct (HDo t HtD) as (c & Ec & Lc & _). rewrite Ec in Eo. cbn [olt] in Eo. apply Nat.ltb_lt in Eo. lia. }
    assert (Htc : t <> cur) by congruence.
    pose proof (pq_push_ok _ _ HP q (L + w) t) as Hp.
    assert (Hmono : forall s c, dget d s = Some c -> exists c', dget (upd d t (Some (L + w))) s = Some c' /\ c' <= c).
    { intros s c Hs. rewrite dget_upd by lia. destruct (Nat.eqb_spec t s) as [->|]; [|eauto]. exists (L + w). split; auto.
      rewrite Hs in Eo. cbn [olt] in Eo. apply Nat.ltb_lt in Eo. lia. }
    splits.
    + constructor.
      * now rewrite upd_length.
      * intros s Hs. rewrite dget_upd by lia. destruct (Nat.eqb_spec t s) as [->|]; auto. rewrite (Hs0 s Hs) in Eo. cbn [olt] in Eo. apply Nat.ltb_lt in Eo. lia.
      * intros s c. rewrite dget_upd by lia. destruct (Nat.eqb_spec t s) as [->|]; auto. intros Heq. inversion Heq; subst. eapply wc_edge; eauto.
      * apply (Permutation_NoDup (Permutation_sym Hp)). constructor; auto. intros Hi. destruct (Hb _ _ Hi) as (c & Ec & Lc & _). rewrite Ec in Eo. cbn [olt] in Eo. apply Nat.ltb_lt in Eo. lia.
      * intros k s Hks. apply (Permutation_in _ Hp) in Hks. destruct Hks as [Heq|Hks].
        -- inversion Heq; subst. exists (L + w). rewrite dget_upd by lia. rewrite Nat.eqb_refl. splits; auto; try lia. intros; contradiction.
        -- destruct (Hb _ _ Hks) as (c & Ec & Lc & Lk & HD). destruct (Hmono _ _ Ec) as (c' & Ec' & Lc'). exists c'. splits; auto; try lia. intros H. specialize (HD H). lia.
      * intros s c. rewrite dget_upd by lia. destruct (Nat.eqb_spec t s) as [->|].
        -- intros Heq; inversion Heq; subst. right. apply (Permutation_in _ (Permutation_sym Hp)). now left.
        -- intros Hs. destruct (Hlv s c Hs) as [|Hi]; auto. right. apply (Permutation_in _ (Permutation_sym Hp)). now right.
      * auto.
      * intros s HsD. destruct (HDo s HsD) as (c & Ec & Lc & He). assert (s <> t) by congruence. exists c. rewrite dget_upd by lia. destruct (Nat.eqb_spec t s); [congruence|]. splits; auto.
        intros e' He'. destruct (He e' He') as [[-> [<-|Hr]]|(c' & Er & Lr)].
        -- right. exists (L + w). cbn [fst snd]. rewrite dget_upd by lia. rewrite Nat.eqb_refl. split; auto. rewrite Hcur in Ec. inversion Ec; subst. lia.
        -- left; auto.
        -- right. destruct (Hmono _ _ Er) as (c2 & E2 & L2). exists c2. split; auto. lia.
    + rewrite dget_upd by lia. destruct (Nat.eqb_spec t cur); [congruence|auto].
    + rewrite (Permutation_length Hp). cbn [length]. lia.
  - do 2 eexists. split; [reflexivity|]. splits; auto. constructor; auto.
    intros s HsD. destruct (HDo s HsD) as (c & Ec & Lc & He). exists c. splits; auto.
    intros e' He'. destruct (He e' He') as [[-> [<-|Hr]]|Hr]; auto.
    right. rewrite Hcur in Ec. inversion Ec; subst c. destruct (dget d t) as [dt|] eqn:Edt; [|discriminate]. cbn [olt] in Eo. apply Nat.ltb_ge in Eo. exists dt. auto.
Qed.

Lemma relax_all cur L D : forall rest d q, DInv d q D cur rest L -> dget d cur = Some L -> In cur D -> incl rest (E cur) ->
  exists d' q', fold_outcome (relax P L) rest (d, q) = Ok (d', q') /\ DInv d' q' D cur [] L /\ length (bag q') <= length (bag q) + length rest.
Proof.
  induction rest as [|e rest IH]; intros d q HI Hc HD Hinc.
  - exists d, q. splits; auto. lia.
  - destruct (relax_inv _ _ _ _ _ _ _ HI Hc HD (Hinc e (or_introl eq_refl))) as (d1 & q1 & E1 & HI1 & Hc1 & Hl1).
    destruct (IH d1 q1 HI1 Hc1 HD) as (d2 & q2 & E2 & HI2 & Hl2); [intros x Hx; apply Hinc; now right|].
    exists d2, q2. splits; auto.
    + cbn [fold_outcome]. rewrite E1. cbn [bind]. exact E2.
    + cbn [length]. lia.
Qed.

(* the edges of the states that have not been expanded *)
Definition deg_left (D : list nat) : nat :=
  list_sum (map (fun s => if in_dec Nat.eq_dec s D then 0 else length (E s)) (seq 0 n)).

Lemma deg_left_cons D s : s < n -> ~ In s D -> deg_left (s :: D) + length (E s) = deg_left D.
Proof.
  intros Hs HD. unfold deg_left.
  assert (G : forall l, NoDup l ->
    list_sum (map (fun s0 => if in_dec Nat.eq_dec s0 (s :: D) then 0 else length (E s0)) l) + (if in_dec Nat.eq_dec s l then length (E s) else 0) =
    list_sum (map (fun s0 => if in_dec Nat.eq_dec s0 D then 0 else length (E s0)) l)).
  { induction l as [|x l IH]; intros Hnd; [reflexivity|]. inversion Hnd as [|? ? Hx Hnd']; subst. specialize (IH Hnd').
    cbn [map list_sum]. change (list_sum (?a :: ?r)) with (a + list_sum r).
    destruct (Nat.eq_dec s x) as [->|Hne].
    - destruct (in_dec Nat.eq_dec x (x :: D)) as [_|Hn]; [|destruct Hn; now left].
      destruct (in_dec Nat.eq_dec x D); [contradiction|]. destruct (in_dec Nat.eq_dec x (x :: l)) as [_|Hn]; [|destruct Hn; now left].
      destruct (in_dec Nat.eq_dec x l); [contradiction|]. lia.
    - destruct (in_dec Nat.eq_dec s (x :: l)) as [[->|Hi]|Hn]; [congruence| |].
      + destruct (in_dec Nat.eq_dec s l) as [_|]; [|contradiction].
        destruct (in_dec Nat.eq_dec x (s :: D)) as [[->|]|Hn]; [congruence| |]; destruct (in_dec Nat.eq_dec x D); try contradiction; try lia.
        destruct Hn; now right.
      + destruct (in_dec Nat.eq_dec s l) as [Hi|_]; [destruct Hn; now right|].
        destruct (in_dec Nat.eq_dec x (s :: D)) as [[->|]|Hn']; [congruence| |]; destruct (in_dec Nat.eq_dec x D); try contradiction; try lia.
        destruct Hn'; now right. }
  specialize (G (seq 0 n) (seq_NoDup n 0)). destruct (in_dec Nat.eq_dec s (seq 0 n)) as [_|Hn]; [exact G|].
  destruct Hn. apply in_seq. lia.
Qed.

Lemma dijkstra_loop : forall fuel d q D cur L, DInv d q D cur [] L -> length (bag q) + deg_left D < fuel ->
  exists d', dijkstra P edges fuel d q = Ok d' /\ exact_dists E src n d'.
Proof.
  induction fuel as [|fuel IH]; intros d q D cur L HI Hf; [lia|]. pose proof HI as [Hl Hs0 Hso Hnd Hb Hlv HDn HDo].
  cbn [dijkstra]. destruct (pq_pop P q) as [[[k s] q']|] eqn:Ep.
  - destruct (pq_pop_some _ _ HP _ _ _ _ Ep) as [Hp Hmin].
    assert (Hks : In (k, s) (bag q)) by (apply (Permutation_in _ (Permutation_sym Hp)); now left).
    destruct (Hb _ _ Hks) as (c & Ec & Lc & LL & HDc).
    assert (Hsn : s < n) by (rewrite <- Hl; eapply dget_lt; eauto).
    rewrite dget_vget by lia. cbn [bind]. rewrite Ec.
    pose proof (Permutation_length Hp) as Hlen. cbn [length] in Hlen.
    assert (Hnd' : NoDup ((k, s) :: bag q')) by (apply (Permutation_NoDup Hp); auto).
    destruct (Nat.ltb_spec c k) as [Hlt|Hge].
    + apply (IH d q' D cur L); [|lia]. constructor; auto.
      * now inversion Hnd'.
      * intros k0 s1 Hi. apply Hb. apply (Permutation_in _ (Permutation_sym Hp)). now right.
      * intros s1 c1 H1. destruct (Hlv s1 c1 H1) as [|Hi]; auto. apply (Permutation_in _ Hp) in Hi. destruct Hi as [Heq|]; auto. inversion Heq; subst. rewrite Ec in H1; inversion H1; lia.
    + assert (c = k) by lia. subst c. assert (HsD : ~ In s D) by (intros H; specialize (HDc H); lia).
      rewrite (Hedges s Hsn). cbn [bind].
      destruct (relax_all s k (s :: D) (E s) d q') as (d2 & q2 & E2 & HI2 & Hl2); auto using incl_refl.
      * constructor; auto.
        -- now inversion Hnd'.
        -- intros k0 s1 Hi. destruct (Hb k0 s1) as (c1 & E1 & L1 & _ & HD1); [apply (Permutation_in _ (Permutation_sym Hp)); now right|].
           exists c1. splits; auto. { eapply Hmin; eauto. }
           intros [<-|H]; auto. rewrite Ec in E1; inversion E1; subst c1. destruct (Nat.eq_dec k k0) as [<-|]; [|lia].
           inversion Hnd'; contradiction.
        -- intros s1 c1 H1. destruct (Hlv s1 c1 H1) as [|Hi]; [left; now right|]. apply (Permutation_in _ Hp) in Hi. destruct Hi as [Heq|]; auto. inversion Heq; subst. left; now left.
        -- now constructor.
        -- intros s1 [<-|H1].
           ++ exists k. splits; auto.
           ++ destruct (HDo s1 H1) as (c1 & E1 & L1 & He). exists c1. splits; auto; [lia|]. intros e He'. destruct (He e He') as [[_ []]|]; auto.
      * now left.
      * rewrite E2. cbn [bind]. apply (IH d2 q2 (s :: D) s k HI2). pose proof (deg_left_cons D s Hsn HsD). lia.
  - exists d. split; auto. pose proof (pq_pop_none _ _ HP _ Ep) as Hbe. apply exact_final; auto.
    intros s c e Hs He. destruct (Hlv s c Hs) as [HsD|Hi]; [|rewrite Hbe in Hi; destruct Hi].
    destruct (HDo s HsD) as (c1 & E1 & _ & Hr). rewrite Hs in E1; inversion E1; subst c1. destruct (Hr e He) as [[_ []]|]; auto.
Qed.

(** All source states have distance 0 and one queue entry, all others are unreached. *)
Theorem dijkstra_exact fuel d q : length d = n ->
  (forall s, s < n -> (src s /\ dget d s = Some 0) \/ (~ src s /\ dget d s = None)) ->
  NoDup (bag q) -> (forall k s, In (k, s) (bag q) <-> k = 0 /\ src s) ->
  length (bag q) + list_sum (map (fun s => length (E s)) (seq 0 n)) < fuel ->
  exists d', dijkstra P edges fuel d q = Ok d' /\ exact_dists E src n d'.
Proof.
  intros Hl Hd Hnd Hb Hf. apply (dijkstra_loop fuel d q [] 0 0); [|exact Hf]. constructor; auto.
  - intros s Hs. destruct (Hd s (Hsrc s Hs)) as [[_ ?]|[? _]]; tauto.
  - intros s c Hs. pose proof (dget_lt _ _ _ Hs) as Hlt. rewrite Hl in Hlt. destruct (Hd s Hlt) as [[H1 H2]|[_ H2]]; [|congruence].
    rewrite H2 in Hs. inversion Hs; subst. now constructor.
  - intros k s Hi. apply Hb in Hi. destruct Hi as [-> Hs]. destruct (Hd s (Hsrc s Hs)) as [[_ H]|[H _]]; [|contradiction].
    exists 0. splits; auto. intros [].
  - intros s c Hs. right. pose proof (dget_lt _ _ _ Hs) as Hlt. rewrite Hl in Hlt. destruct (Hd s Hlt) as [[H1 H2]|[_ H2]]; [|congruence].
    rewrite H2 in Hs. inversion Hs; subst. apply Hb. auto.
  - constructor.
  - intros s [].
Qed.
End PROOF.

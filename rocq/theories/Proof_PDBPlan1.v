(** Dijkstra with generating operators: they lead to the goal with the right cost. *)
From Coq Require Import Permutation.
From Verif Require Import Outcome Spec_Relaxation Model_PQ Model_Graph Proof_Graph Model_PDBPlan.

Section GEN.
Variable P : pqueue.
Variable bag : PQ P -> list (nat * nat).
Hypothesis HP : pq_contract P bag.
Variable n : nat.
Variable EL : nat -> list (nat * nat * nat).
Notation E := (fun s => map fst (EL s)).
Variable edges : nat -> outcome (list (nat * nat)).
Variable edgesL : nat -> outcome (list (nat * nat * nat)).
Hypothesis Hedges : forall s, s < n -> edges s = Ok (E s).
Hypothesis HedgesL : forall s, s < n -> edgesL s = Ok (EL s).
Hypothesis Hbound : forall s t w, s < n -> In (t, w) (E s) -> t < n.
Variable src : nat -> Prop.
Hypothesis Hsrc : forall s, src s -> s < n.
Notation dget d s := (nth s d (@None nat)).

(** The generating operator of [s] leads to an expanded state [p] with the right distance. *)
Definition gen_edge (d : dists) (g : list nat) (s p : nat) : Prop :=
  exists c c' w id, dget d s = Some c /\ dget d p = Some c' /\ c = c' + w /\ nth_error g s = Some id /\ In (s, w, id) (EL p).
Definition GInv (d : dists) (g : list nat) (D : list nat) (rk : nat -> nat) : Prop :=
  length g = n /\ (forall s, In s D -> rk s < length D) /\
  forall s c, dget d s = Some c -> ~ src s -> exists p, In p D /\ gen_edge d g s p /\ (In s D -> rk p < rk s).

Lemma relax_gen_inv d q g D cur e rest L rk : DInv P bag n E src d q D cur (fst e :: rest) L -> dget d cur = Some L -> In cur D -> In e (EL cur) -> GInv d g D rk ->
  exists d' q' g', relax_gen P L (d, q, g) e = Ok (d', q', g') /\ relax P L (d, q) (fst e) = Ok (d', q') /\
    DInv P bag n E src d' q' D cur rest L /\ dget d' cur = Some L /\ length (bag q') <= S (length (bag q)) /\ GInv d' g' D rk.
Proof.
  intros HI Hc HD Hin HG. assert (HinE : In (fst e) (map fst (EL cur))) by now apply in_map.
  destruct (relax_inv P bag HP n E Hbound src d q D cur (fst e) rest L HI Hc HD HinE) as (d' & q' & Er & HI' & Hc' & Hl').
  destruct e as [[t w] id]. cbn [fst] in *. pose proof HI as [Hl Hs0 Hso Hnd Hb Hlv HDn HDo].
  assert (Hcn : cur < n) by (rewrite <- Hl; eapply dget_lt; eauto).
  assert (Ht : t < n) by (eapply Hbound; eauto).
  destruct HG as (Gl & Gr & Gs). pose proof Er as Er0. cbn [relax_gen relax] in *. rewrite dget_vget in * by lia. cbn [bind] in *.
  destruct (olt (L + w) (dget d t)) eqn:Eo.
  - unfold vset in *. rewrite Hl, (proj2 (Nat.ltb_lt t n) Ht) in *. cbn [bind] in *. rewrite Gl, (proj2 (Nat.ltb_lt t n) Ht). cbn [bind]. injection Er as <- <-.
    do 3 eexists. split; [reflexivity|]. splits; auto.
    assert (HtD : ~ In t D).
    { intros HtD. destruct (HDo t HtD) as (c & Ec & Lc & _). rewrite Ec in Eo. cbn [olt] in Eo. apply Nat.ltb_lt in Eo. lia. }
    unfold GInv. splits; auto; [now rewrite upd_length|].
    intros s c. rewrite dget_upd by lia. destruct (Nat.eqb_spec t s) as [<-|Hne].
    + intros Heq Hns. injection Heq as <-. exists cur. splits; auto; [|contradiction]. exists (L + w), L, w, id. rewrite !dget_upd by lia. rewrite Nat.eqb_refl.
      destruct (Nat.eqb_spec t cur); [subst; contradiction|]. splits; auto. rewrite upd_nth, Nat.eqb_refl, Gl, (proj2 (Nat.ltb_lt t n) Ht). reflexivity.
    + intros Hs Hns. destruct (Gs s c Hs Hns) as (p & Hp & (c1 & c' & w1 & id1 & E1 & E2 & E3 & E4 & E5) & Hrk). exists p. splits; auto. exists c1, c', w1, id1.
      rewrite !dget_upd by lia. destruct (Nat.eqb_spec t s); [congruence|]. destruct (Nat.eqb_spec t p); [subst; contradiction|]. splits; auto.
      rewrite upd_nth. destruct (Nat.eqb_spec t s); [congruence|]. cbn [andb]. exact E4.
  - injection Er as <- <-. do 3 eexists. split; [reflexivity|]. splits; auto. unfold GInv. splits; auto.
Qed.

Lemma relax_gen_all cur L D rk : forall rest d q g, DInv P bag n E src d q D cur (map fst rest) L -> dget d cur = Some L -> In cur D -> incl rest (EL cur) -> GInv d g D rk ->
  exists d' q' g', fold_outcome (relax_gen P L) rest (d, q, g) = Ok (d', q', g') /\ fold_outcome (relax P L) (map fst rest) (d, q) = Ok (d', q') /\
    DInv P bag n E src d' q' D cur [] L /\ length (bag q') <= length (bag q) + length rest /\ GInv d' g' D rk.
Proof.
  induction rest as [|e rest IH]; intros d q g HI Hc HD Hinc HG.
  - exists d, q, g. splits; auto. lia.
  - destruct (relax_gen_inv d q g D cur e (map fst rest) L rk HI Hc HD (Hinc e (or_introl eq_refl)) HG) as (d1 & q1 & g1 & E1 & E1' & HI1 & Hc1 & Hl1 & HG1).
    destruct (IH d1 q1 g1 HI1 Hc1 HD) as (d2 & q2 & g2 & E2 & E2' & HI2 & Hl2 & HG2); auto; [intros x Hx; apply Hinc; now right|].
    exists d2, q2, g2. splits; auto.
    + cbn [fold_outcome]. rewrite E1. cbn [bind]. exact E2.
    + cbn [fold_outcome map]. rewrite E1'. cbn [bind]. exact E2'.
    + cbn [length]. lia.
Qed.

Definition gen_final (d : dists) (g : list nat) : Prop :=
  exists rk : nat -> nat, forall s c, dget d s = Some c -> rk s < n /\ (~ src s -> exists p, gen_edge d g s p /\ rk p < rk s).

Lemma dijkstra_gen_loop : forall fuel d q g D cur L rk, DInv P bag n E src d q D cur [] L -> GInv d g D rk -> length (bag q) + deg_left n E D < fuel ->
  exists d' g', dijkstra_gen P edgesL fuel d q g = Ok (d', g') /\ dijkstra P edges fuel d q = Ok d' /\ length g' = n /\ gen_final d' g'.
Proof.
  induction fuel as [|fuel IH]; intros d q g D cur L rk HI HG Hf; [lia|]. pose proof HI as [Hl Hs0 Hso Hnd Hb Hlv HDn HDo].
  cbn [dijkstra_gen dijkstra]. destruct (pq_pop P q) as [[[k s] q']|] eqn:Ep.
  - destruct (pq_pop_some _ _ HP _ _ _ _ Ep) as [Hp Hmin].
    assert (Hks : In (k, s) (bag q)) by (apply (Permutation_in _ (Permutation_sym Hp)); now left).
    destruct (Hb _ _ Hks) as (c & Ec & Lc & LL & HDc).
    assert (Hsn : s < n) by (rewrite <- Hl; eapply dget_lt; eauto).
    rewrite dget_vget by lia. cbn [bind]. rewrite Ec.
    pose proof (Permutation_length Hp) as Hlen. cbn [length] in Hlen.
    assert (Hnd' : NoDup ((k, s) :: bag q')) by (apply (Permutation_NoDup Hp); auto).
    destruct (Nat.ltb_spec c k) as [Hlt|Hge].
    + apply (IH d q' g D cur L rk); [|auto|lia]. constructor; auto.
      * now inversion Hnd'.
      * intros k0 s1 Hi. apply Hb. apply (Permutation_in _ (Permutation_sym Hp)). now right.
      * intros s1 c1 H1. destruct (Hlv s1 c1 H1) as [|Hi]; auto. apply (Permutation_in _ Hp) in Hi. destruct Hi as [Heq|]; auto. inversion Heq; subst. rewrite Ec in H1; inversion H1; lia.
    + assert (c = k) by lia. subst c. assert (HsD : ~ In s D) by (intros H; specialize (HDc H); lia).
      rewrite (Hedges s Hsn), (HedgesL s Hsn). cbn [bind].
      destruct (relax_gen_all s k (s :: D) (fun x => if x =? s then length D else rk x) (EL s) d q' g) as (d2 & q2 & g2 & E2 & E2' & HI2 & Hl2 & HG2); auto using incl_refl.
      * constructor; auto.
        -- now inversion Hnd'.
        -- intros k0 s1 Hi. destruct (Hb k0 s1) as (c1 & E1 & L1 & _ & HD1); [apply (Permutation_in _ (Permutation_sym Hp)); now right|].
           exists c1. splits; auto. { eapply Hmin; eauto. }
           intros [<-|H]; auto. rewrite Ec in E1; inversion E1; subst c1. destruct (Nat.eq_dec k k0) as [<-|]; [|lia].
           inversion Hnd'; contradiction.
        -- intros s1 c1 H1. destruct (Hlv s1 c1 H1) as [|Hi]; [left; now right|]. apply (Permutation_in _ Hp) in Hi. destruct Hi as [Heq|]; auto. inversion Heq; subst. left; now left.
        -- now constructor.
        -- intros s1 [<-|H1].
           ++ exists k. splits; auto.
           ++ destruct (HDo s1 H1) as (c1 & E1 & L1 & He). exists c1. splits; auto; [lia|]. intros e He'. destruct (He e He') as [[_ []]|]; auto.
      * now left.
      * destruct HG as (Gl & Gr & Gs). unfold GInv. splits; auto.
        -- intros x [<-|Hx]; [rewrite Nat.eqb_refl; cbn [length]; lia|]. destruct (Nat.eqb_spec x s); cbn [length]; [lia|]. specialize (Gr x Hx). lia.
        -- intros x cx Hx Hnx. destruct (Gs x cx Hx Hnx) as (p & Hpp & Hg & Hrk). exists p. splits; auto; [now right|].
           assert (p <> s) by (intros ->; contradiction). destruct (Nat.eqb_spec p s); [contradiction|].
           intros [<-|Hi]; [rewrite Nat.eqb_refl; apply Gr; auto|]. destruct (Nat.eqb_spec x s) as [->|]; [contradiction|auto].
      * rewrite E2, E2'. cbn [bind fst snd]. apply (IH d2 q2 g2 (s :: D) s k _ HI2 HG2). pose proof (deg_left_cons n E D s Hsn HsD) as Hdl. cbn beta in Hdl. rewrite map_length in Hdl. lia.
  - pose proof (pq_pop_none _ _ HP _ Ep) as Hbe. exists d, g. destruct HG as (Gl & Gr & Gs). splits; auto. exists rk. intros s c Hs.
    assert (Hin : forall s c, dget d s = Some c -> In s D). { intros s1 c1 H1. destruct (Hlv s1 c1 H1) as [HsD|Hi]; auto. rewrite Hbe in Hi; destruct Hi. }
    assert (HDl : length D <= n).
    { rewrite <- (seq_length n 0). apply NoDup_incl_length; auto. intros x Hx. destruct (HDo x Hx) as (cx & Ecx & _). apply dget_lt in Ecx. apply in_seq. lia. }
    split; [specialize (Gr s (Hin s c Hs)); lia|]. intros Hns. destruct (Gs s c Hs Hns) as (p & Hp & Hg & Hrk). exists p. split; auto. apply Hrk. eauto.
Qed.

Theorem dijkstra_gen_ok fuel d q : length d = n ->
  (forall s, s < n -> (src s /\ dget d s = Some 0) \/ (~ src s /\ dget d s = None)) ->
  NoDup (bag q) -> (forall k s, In (k, s) (bag q) <-> k = 0 /\ src s) ->
  length (bag q) + list_sum (map (fun s => length (E s)) (seq 0 n)) < fuel ->
  exists d' g', dijkstra_gen P edgesL fuel d q (repeat 0 n) = Ok (d', g') /\ dijkstra P edges fuel d q = Ok d' /\ length g' = n /\ gen_final d' g'.
Proof.
  intros Hl Hd Hnd Hb Hf. apply (dijkstra_gen_loop fuel d q (repeat 0 n) [] 0 0 (fun _ => 0)); [|split; [apply repeat_length|split; [intros s []|]]|exact Hf].
  - constructor; auto.
    + intros s Hs. destruct (Hd s (Hsrc s Hs)) as [[_ ?]|[? _]]; tauto.
    + intros s c Hs. pose proof (dget_lt _ _ _ Hs) as Hlt. rewrite Hl in Hlt. destruct (Hd s Hlt) as [[H1 H2]|[_ H2]]; [|congruence].
      rewrite H2 in Hs. inversion Hs; subst. now constructor.
    + intros k s Hi. apply Hb in Hi. destruct Hi as [-> Hs]. destruct (Hd s (Hsrc s Hs)) as [[_ H]|[H _]]; [|contradiction].
      exists 0. splits; auto. intros [].
    + intros s c Hs. right. pose proof (dget_lt _ _ _ Hs) as Hlt. rewrite Hl in Hlt. destruct (Hd s Hlt) as [[H1 H2]|[_ H2]]; [|congruence].
      rewrite H2 in Hs. inversion Hs; subst. apply Hb. auto.
    + constructor.
    + intros s [].
  - intros s c Hs Hns. pose proof (dget_lt _ _ _ Hs) as Hlt. rewrite Hl in Hlt. destruct (Hd s Hlt) as [[H1 _]|[_ H2]]; [contradiction|congruence].
Qed.
End GEN.

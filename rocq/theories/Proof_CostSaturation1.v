(** Distances under given costs, saturated costs and remaining costs. *)
From Coq Require Import Permutation.
From Verif Require Import Outcome Spec_Relaxation Model_PQ Model_Graph Model_Cartesian Model_CostSaturation Proof_LMCut1 Proof_Graph Proof_MAS6.

(** The edges of finite cost. *)
Definition fedges (costs : list cost) (tr : list (nat * nat)) : list (nat * nat) :=
  flat_map (fun e => match nth (fst e) costs None with None => [] | Some c => [(snd e, c)] end) tr.
Lemma finite_edges_ok costs : forall tr, (forall o v, In (o, v) tr -> o < length costs) -> finite_edges costs tr = Ok (fedges costs tr).
Proof.
  induction tr as [|[o v] tr IH]; intros H; cbn [finite_edges fedges flat_map fst snd]; auto.
  destruct (vget_some costs o) as (c & Hc & ->); [apply (H o v); now left|]. cbn [bind]. rewrite IH by (intros; eapply H; right; eauto). cbn [bind].
  rewrite (nth_error_nth _ _ None Hc). destruct c; reflexivity.
Qed.
Lemma fedges_In costs tr v c : In (v, c) (fedges costs tr) <-> exists o, In (o, v) tr /\ nth o costs None = Some c.
Proof.
  unfold fedges. rewrite in_flat_map. split.
  - intros ([o w] & H & Hi). cbn [fst snd] in Hi. destruct (nth o costs None) as [c'|] eqn:E; [|destruct Hi]. destruct Hi as [Hi|[]]. injection Hi as -> ->. eauto.
  - intros (o & H & E). exists (o, v). split; auto. cbn [fst snd]. rewrite E. now left.
Qed.
Lemma fedges_length costs tr : length (fedges costs tr) <= length tr.
Proof. unfold fedges. induction tr as [|[o v] tr IH]; cbn [flat_map length fst snd]; auto. rewrite app_length. destruct (nth o costs None); cbn; lia. Qed.

Section D.
Variable P : pqueue.
Variable bag : PQ P -> list (nat * nat).
Hypothesis HP : pq_contract P bag.
Variable q0 : PQ P.
Hypothesis Hq0 : bag q0 = [].

Lemma distances_ok tr costs starts n : length tr = n -> (forall s o v, s < n -> In (o, v) (nth s tr []) -> o < length costs /\ v < n) ->
  NoDup starts -> (forall s, In s starts -> s < n) ->
  exists d, compute_distances P q0 tr costs starts = Ok d /\ exact_dists (fun s => fedges costs (nth s tr [])) (fun s => In s starts) n d.
Proof.
  intros Hn Htr Hnd Hs. unfold compute_distances. rewrite Hn.
  destruct (zero_all starts (repeat None n)) as (d0 & -> & Hl & Hd); [rewrite repeat_length; exact Hs|]. cbn [bind]. rewrite repeat_length in Hl.
  assert (Hd0 : forall s, s < n -> In s starts /\ nth s d0 None = Some 0 \/ ~ In s starts /\ nth s d0 None = None).
  { intros s Hlt. specialize (Hd s). destruct (Model_MAS.member s starts) eqn:Em.
    - left. split; [now apply Proof_MAS1.member_In|]. now apply nth_error_nth.
    - right. split; [now apply Proof_MAS1.member_not|]. apply nth_error_nth. rewrite Hd. apply nth_error_repeat. exact Hlt. }
  pose proof (push_all P bag HP starts q0) as Hp. rewrite Hq0, app_nil_r in Hp.
  destruct (dijkstra_exact P bag HP n (fun s => fedges costs (nth s tr [])) (fun s => let* l := vget tr s in finite_edges costs l))
    with (src := fun s => In s starts) (fuel := S (length starts + list_sum (map (@length _) tr))) (d := d0) (q := fold_left (fun q s => pq_push P q 0 s) starts q0) as (d & E & Hex); auto.
  - intros s Hlt. destruct (vget_some tr s) as (l & Hl' & ->); [lia|]. cbn [bind]. rewrite (nth_error_nth _ _ [] Hl'). apply finite_edges_ok. intros o v Hin. apply (Htr s o v Hlt). now rewrite (nth_error_nth _ _ [] Hl').
  - intros s v w Hlt Hin. apply fedges_In in Hin as (o & Hin & _). now apply (Htr s o v Hlt).
  - eapply Permutation_NoDup; [symmetry; exact Hp|]. clear -Hnd. induction Hnd as [|x l Hx _ IH]; cbn [map]; constructor; auto. intros Hi. apply in_map_iff in Hi. destruct Hi as (y & Ey & Hy). inversion Ey; subst; contradiction.
  - intros k s. rewrite (Permutation_in' eq_refl Hp), in_map_iff. split; [intros (x & X & Hx); inversion X; subst; auto|intros [-> Hx]; eauto].
  - rewrite (Permutation_length Hp), map_length.
    enough (list_sum (map (fun s => length (fedges costs (nth s tr []))) (seq 0 n)) <= list_sum (map (@length _) tr)) by lia.
    assert (Q : map (@length _) tr = map (fun s => length (nth s tr [])) (seq 0 n)) by (rewrite <- Hn, <- (map_map (fun s => nth s tr []) (@length _)), map_nth_seq; reflexivity). rewrite Q. generalize (seq 0 n). intros l. unfold list_sum. induction l as [|a l IH]; cbn; auto. pose proof (fedges_length costs (nth a tr [])). lia.
  - exists d. auto.
Qed.

(** What exactness gives along edges. *)
Lemma exact_start E src n d s : exact_dists E src n d -> s < n -> src s -> nth_error d s = Some (Some 0).
Proof.
  intros [Hl H] Hs Hsrc. specialize (H s Hs). rewrite <- Hl in Hs. rewrite (nth_error_nth' d None Hs). destruct (nth s d None) as [c|].
  - destruct H as [_ H]. specialize (H 0 (wc_src _ _ _ Hsrc)). do 2 f_equal. lia.
  - destruct (H 0 (wc_src _ _ _ Hsrc)).
Qed.
Lemma exact_edge E src n d s v c ds : exact_dists E src n d -> s < n -> v < n -> In (v, c) (E s) -> nth_error d s = Some (Some ds) ->
  exists dv, nth_error d v = Some (Some dv) /\ dv <= ds + c.
Proof.
  intros [Hl H] Hs Hv Hin Hds. pose proof (H s Hs) as H1. pose proof (H v Hv) as H2. rewrite (nth_error_nth _ _ None Hds) in H1. destruct H1 as [H1 _].
  assert (Hw : walk_cost E src v (ds + c)) by (econstructor; eauto). rewrite <- Hl in Hv. rewrite (nth_error_nth' d None Hv).
  destruct (nth v d None) as [dv|]; [|destruct (H2 _ Hw)]. destruct H2 as [_ H2]. exists dv. split; auto.
Qed.
End D.

(** ** Saturated costs *)
Definition sat_inv (n : nat) (base : option Z) (D : nat -> Z -> Prop) (sat : list (option Z)) : Prop :=
  length sat = n /\ forall o, o < n -> exists y, nth_error sat o = Some y /\
    (forall z, D o z -> exists x, y = Some x /\ (z <= x)%Z) /\ (forall x, y = Some x -> D o x \/ base = Some x) /\
    (forall b, base = Some b -> exists x, y = Some x /\ (b <= x)%Z).
Lemma sat_inv_iff n base D D' sat : (forall o z, D o z <-> D' o z) -> sat_inv n base D sat -> sat_inv n base D' sat.
Proof.
  intros E [H1 H2]. split; auto. intros o Ho. destruct (H2 o Ho) as (y & A & B & C & F). exists y. splits; auto.
  - intros z Hz. apply B. now apply E.
  - intros x Hx. rewrite <- E. auto.
Qed.
Lemma raise_inv n base D sat o z : sat_inv n base D sat -> o < n ->
  exists sat', raise_cost sat o z = Ok sat' /\ sat_inv n base (fun o' z' => D o' z' \/ (o' = o /\ z' = z)) sat'.
Proof.
  intros [H1 H2] Ho. destruct (H2 o Ho) as (y & A & B & C & F). unfold raise_cost, vget. rewrite A. cbn [bind]. rewrite vset_lt by lia.
  eexists. split; [reflexivity|]. split; [now rewrite upd_length|]. intros o' Ho'. destruct (Nat.eq_dec o o') as [<-|Hne].
  - rewrite upd_nth_eq by lia. eexists. split; [reflexivity|]. destruct y as [y|].
    + splits.
      * intros z' [Hz|[_ ->]]; [destruct (B z' Hz) as (x & E & Hx); injection E as <-|]; eexists; split; try reflexivity; lia.
      * intros x E. injection E as <-. destruct (Z.max_spec y z) as [[_ ->]|[_ ->]]; auto. destruct (C y eq_refl); auto.
      * intros b Hb. destruct (F b Hb) as (x & E & Hx). injection E as <-. eexists; split; [reflexivity|lia].
    + splits.
      * intros z' [Hz|[_ ->]]; [destruct (B z' Hz) as (x & E & Hx); discriminate|]. eexists; split; [reflexivity|lia].
      * intros x E. injection E as <-. auto.
      * intros b Hb. destruct (F b Hb) as (x & E & Hx). discriminate.
  - rewrite upd_nth_neq by auto. destruct (H2 o' Ho') as (y' & A' & B' & C' & F'). exists y'. splits; auto.
    + intros z' [Hz|[E _]]; [auto|congruence].
    + intros x E. destruct (C' x E); auto.
Qed.
Lemma sat_fold {A} n base (f : list (option Z) -> A -> outcome (list (option Z))) (Da : A -> nat -> Z -> Prop) : forall l,
  (forall a D sat, In a l -> sat_inv n base D sat -> exists sat', f sat a = Ok sat' /\ sat_inv n base (fun o z => D o z \/ Da a o z) sat') ->
  forall D sat, sat_inv n base D sat -> exists sat', fold_outcome f l sat = Ok sat' /\ sat_inv n base (fun o z => D o z \/ exists a, In a l /\ Da a o z) sat'.
Proof.
  induction l as [|a l IH]; intros Hf D sat Hi; cbn [fold_outcome].
  - exists sat. split; auto. revert Hi. apply sat_inv_iff. intros o z. split; auto. intros [H|(a & [] & _)]; auto.
  - destruct (Hf a D sat (or_introl eq_refl) Hi) as (sat1 & -> & Hi1). cbn [bind].
    destruct (IH (fun a' D' s' Ha => Hf a' D' s' (or_intror Ha)) _ _ Hi1) as (sat' & -> & Hi'). exists sat'. split; auto. revert Hi'. apply sat_inv_iff.
    intros o z. split.
    + intros [[H|H]|(a' & Ha & H)]; [auto|right; exists a; split; [now left|auto]|right; exists a'; split; [now right|auto]].
    + intros [H|(a' & [<-|Ha] & H)]; [auto|auto|right; eauto].
Qed.

Section S.
Variables (general : bool) (ts : tsystem) (g h : dists) (n : nat).
Notation nops := (length (c_pre ts)).
Hypothesis Lg : length g = n.
Hypothesis Lh : length h = n.
Hypothesis Lo : length (c_out ts) = n.
Hypothesis Ll : length (c_loops ts) = n.
Hypothesis Ho : forall s o v, In (o, v) (nth s (c_out ts) []) -> o < nops /\ v < n.
Hypothesis Hl : forall s o, In o (nth s (c_loops ts) []) -> o < nops.

(** The costs demanded by a state. *)
Definition demand (s o : nat) (z : Z) : Prop :=
  exists gv hv, nth_error g s = Some (Some gv) /\ nth_error h s = Some (Some hv) /\
    ((exists v hv', In (o, v) (nth s (c_out ts) []) /\ nth_error h v = Some (Some hv') /\ z = Z.of_nat hv - Z.of_nat hv')%Z \/
     (general = true /\ In o (nth s (c_loops ts) []) /\ z = 0%Z)).

Lemma saturate_state_ok base D sat s : s < n -> sat_inv nops base D sat ->
  exists sat', saturate_state general ts g h sat s = Ok sat' /\ sat_inv nops base (fun o z => D o z \/ demand s o z) sat'.
Proof.
  intros Hs Hi. unfold saturate_state. destruct (vget_some g s) as (gv & Eg & ->); [lia|]. cbn [bind]. destruct (vget_some h s) as (hv & Eh & ->); [lia|]. cbn [bind].
  assert (Skip : (gv = None \/ hv = None) -> sat_inv nops base (fun o z => D o z \/ demand s o z) sat).
  { intros Hn. revert Hi. apply sat_inv_iff. intros o z. split; auto. intros [H|(g' & h' & A & B & _)]; auto. destruct Hn; congruence. }
  destruct gv as [gv|]; [|exists sat; split; auto]. destruct hv as [hv|]; [|exists sat; split; auto].
  destruct (vget_some (c_out ts) s) as (out & Eo & ->); [lia|]. cbn [bind].
  destruct (sat_fold nops base (fun sat (tr : nat * nat) => let* succ_h := vget h (snd tr) in match succ_h with None => Ok sat | Some succ_h => raise_cost sat (fst tr) (Z.of_nat hv - Z.of_nat succ_h) end)
     (fun tr o z => exists hv', fst tr = o /\ nth_error h (snd tr) = Some (Some hv') /\ z = (Z.of_nat hv - Z.of_nat hv')%Z) out) with (D := D) (sat := sat) as (sat1 & E1 & I1); auto.
  { intros [o v] D' sat' Hin Hi'. cbn [fst snd]. destruct (Ho s o v) as [Ho1 Ho2]; [now rewrite (nth_error_nth _ _ [] Eo)|].
    destruct (vget_some h v) as (hv' & Ehv & ->); [lia|]. cbn [bind]. destruct hv' as [hv'|].
    - destruct (raise_inv nops base D' sat' o (Z.of_nat hv - Z.of_nat hv') Hi' Ho1) as (sat2 & E2 & I2). exists sat2. split; auto. revert I2. apply sat_inv_iff.
      intros o' z. split; (intros [H|H]; [auto|right]); [destruct H as [-> ->]; exists hv'; auto|]. destruct H as (hv2 & <- & E & ->). rewrite Ehv in E. injection E as <-. auto.
    - exists sat'. split; auto. revert Hi'. apply sat_inv_iff. intros o' z. split; auto. intros [H|(hv2 & _ & E & _)]; auto. congruence. }
  rewrite E1. cbn [bind]. destruct general eqn:Eg'.
  - destruct (vget_some (c_loops ts) s) as (ls & El & ->); [lia|]. cbn [bind].
    destruct (sat_fold nops base (fun sat o => raise_cost sat o 0%Z) (fun a o z => o = a /\ z = 0%Z) ls) with (D := fun o z => D o z \/ exists a : nat * nat, In a out /\ exists hv', fst a = o /\ nth_error h (snd a) = Some (Some hv') /\ z = (Z.of_nat hv - Z.of_nat hv')%Z) (sat := sat1) as (sat2 & E2 & I2); auto.
    { intros a D' sat' Ha Hi'. apply raise_inv; auto. apply (Hl s). now rewrite (nth_error_nth _ _ [] El). }
    exists sat2. split; auto. revert I2. apply sat_inv_iff. intros o z. unfold demand. rewrite Eg', (nth_error_nth _ _ [] Eo), (nth_error_nth _ _ [] El). split.
    + intros [[H|(a & Ha & hv' & <- & H1 & H2)]|(a & Ha & -> & ->)]; [auto|right|right]; exists gv, hv; splits; auto. left. exists (snd a), hv'. splits; auto. now destruct a.
    + intros [H|(g' & h' & A & B & [(v & hv' & C1 & C2 & C3)|(_ & C1 & C2)])]; auto.
      * left. right. exists (o, v). split; auto. exists hv'. splits; auto. congruence.
      * right. exists o. auto.
  - exists sat1. split; auto. revert I1. apply sat_inv_iff. intros o z. unfold demand. rewrite Eg', (nth_error_nth _ _ [] Eo). split.
    + intros [H|(a & Ha & hv' & <- & H1 & H2)]; [auto|right]. exists gv, hv; splits; auto. left. exists (snd a), hv'. splits; auto. now destruct a.
    + intros [H|(g' & h' & A & B & [(v & hv' & C1 & C2 & C3)|(C & _)])]; [auto| |discriminate]. right. exists (o, v). split; auto. exists hv'. splits; auto. congruence.
Qed.

Lemma saturated_ok : exists sat, compute_saturated_costs general ts g h = Ok sat /\
  sat_inv nops (if general then None else Some 0%Z) (fun o z => exists s, s < n /\ demand s o z) sat.
Proof.
  unfold compute_saturated_costs. set (base := if general then None else Some 0%Z).
  destruct (sat_fold nops base (saturate_state general ts g h) demand (seq 0 (length h))) with (D := fun (_ : nat) (_ : Z) => False) (sat := repeat base nops) as (sat & E & Hi).
  - intros s D sat Hs Hi. apply in_seq in Hs. apply saturate_state_ok; auto. lia.
  - split; [apply repeat_length|]. intros o Ho'. exists base. splits.
    + now apply nth_error_repeat.
    + intros z [].
    + auto.
    + intros b Hb. exists b. split; auto. lia.
  - exists sat. split; auto. revert Hi. apply sat_inv_iff. intros o z. split.
    + intros [[]|(s & Hs & H)]. apply in_seq in Hs. exists s. split; auto. lia.
    + intros (s & Hs & H). right. exists s. split; auto. apply in_seq. lia.
Qed.
End S.

(** ** Remaining costs *)
Lemma reduce_ok : forall rem sat, length rem = length sat ->
  (forall o r x, nth_error rem o = Some (Some r) -> nth_error sat o = Some (Some x) -> (x <= Z.of_nat r)%Z) ->
  exists rem', reduce_remaining_costs rem sat = Ok rem' /\ length rem' = length rem /\
    forall o r x, nth_error rem o = Some (Some r) -> nth_error sat o = Some (Some x) -> nth_error rem' o = Some (Some (Z.to_nat (Z.of_nat r - x))).
Proof.
  induction rem as [|r rem IH]; intros [|x sat] L H; try discriminate; cbn [reduce_remaining_costs].
  - exists []. splits; auto. intros [|o]; discriminate.
  - destruct (IH sat) as (rem' & -> & L' & H'); [cbn in L; lia|intros o r' x' A B; apply (H (S o)); auto|].
    assert (Hr : exists r', reduce_cost r x = Ok r' /\ forall r0 x0, r = Some r0 -> x = Some x0 -> r' = Some (Z.to_nat (Z.of_nat r0 - x0))).
    { unfold reduce_cost. destruct r as [r|]; [|eexists; split; [reflexivity|discriminate]]. destruct x as [x|]; [|eexists; split; [reflexivity|discriminate]].
      specialize (H 0 r x eq_refl eq_refl). destruct (Z.leb_spec x (Z.of_nat r)); [|lia]. eexists; split; [reflexivity|]. intros r0 x0 [= <-] [= <-]. reflexivity. }
    destruct Hr as (r' & -> & Hr). cbn [bind]. exists (r' :: rem'). splits; auto; [cbn; lia|]. intros [|o] r0 x0; cbn [nth_error].
    + intros [= ->] [= ->]. f_equal. now apply Hr.
    + apply H'.
Qed.

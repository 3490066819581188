(** Splitting a state keeps the transition system exact. *)
From Verif Require Import Outcome Spec_Task Spec_Cartesian Model_Task Model_Cartesian Proof_Task Proof_LMCut1 Proof_Cartesian1 Proof_Cartesian2 Proof_Cartesian3.

Section TS.
Variable t : task.
Hypothesis Ht : cartesian_task t.
Notation N := (length (t_vars t)).
Notation edge := (edge t).

Definition op_edge (o : nat) (a b : cset) : Prop := exists op, nth_error (t_ops t) o = Some op /\ edge op a b.
Definition pres := map preconditions_of (t_ops t).
Definition posts := map postconditions_of (t_ops t).

Record TSI (cs : nat -> cset) (n : nat) (ts : tsystem) : Prop := {
  i_sized : sized n pres posts ts;
  i_out : forall u o w, In (o, w) (O ts u) <-> u < n /\ w < n /\ u <> w /\ op_edge o (cs u) (cs w);
  i_in : forall u o w, In (o, u) (I ts w) <-> u < n /\ w < n /\ u <> w /\ op_edge o (cs u) (cs w);
  i_loop : forall u o, In o (Lp ts u) <-> u < n /\ op_edge o (cs u) (cs u);
  i_nd_out : forall u, NoDup (O ts u); i_nd_in : forall u, NoDup (I ts u); i_nd_loop : forall u, NoDup (Lp ts u) }.

Lemma values_ok n ts o op y : sized n pres posts ts -> nth_error (t_ops t) o = Some op -> pre_value ts o y = Ok (preV op y) /\ post_value ts o y = Ok (postV op y).
Proof.
  intros (E1 & E2 & _) Ho. unfold pre_value, post_value, vget. rewrite E1, E2. unfold pres, posts. rewrite !nth_error_map, Ho. cbn. auto.
Qed.
Lemma post_none op y : (exists o, nth_error (t_ops t) o = Some op) -> postV op y = None -> preV op y = None.
Proof.
  intros [o Ho] H. destruct (ct_op t Ht o op Ho) as (Hn & _). rewrite (postV_spec op y Hn), last_eff_none in H. destruct (last_eff _ _ _); congruence.
Qed.

(** The split. *)
Variable cs : nat -> cset.
Variables n v x : nat.
Variables c s1 s2 : cset.
Hypothesis Hv : v < n.
Hypothesis Hx : x < N.
Hypothesis Hc : cs v = c.
Hypothesis Hshape : forall i, i < n -> shape (cs i) (doms t).
Hypothesis Hs1 : shape s1 (doms t).
Hypothesis Hs2 : shape s2 (doms t).
Hypothesis A1 : forall y d, y <> x -> has s1 y d <-> has c y d.
Hypothesis A2 : forall y d, y <> x -> has s2 y d <-> has c y d.
Hypothesis U : forall d, has c x d <-> has s1 x d \/ has s2 x d.
Hypothesis D : forall d, has s1 x d -> has s2 x d -> False.
Hypothesis Ne1 : exists d, has s1 x d.
Hypothesis Ne2 : exists d, has s2 x d.

Definition cs' (i : nat) : cset := if i =? v then s1 else if i =? n then s2 else cs i.
Definition part (a b : cset) : Prop := (forall y d, y <> x -> has a y d <-> has b y d) /\ forall d, has a x d -> has b x d.
Lemma part_refl a : part a a. Proof. split; tauto. Qed.
Lemma part1 : part s1 c. Proof. split; [exact A1|]. intros d H. apply U. auto. Qed.
Lemma part2 : part s2 c. Proof. split; [exact A2|]. intros d H. apply U. auto. Qed.
Lemma edge_part op a b a' b' : part a a' -> part b b' -> edge op a b <-> edge op a' b' /\ step1 op x a b.
Proof.
  intros [Pa Qa] [Pb Qb]. split.
  - intros H. split; [|apply H; exact Hx]. intros y Hy. specialize (H y Hy). unfold step1 in *. destruct (Nat.eq_dec y x) as [->|Hne].
    + destruct H as [H1 H2]. split; [destruct (preV op x); auto|]. destruct (postV op x); auto. destruct H2 as (d & H3 & H4). exists d. auto.
    + destruct H as [H1 H2]. split; [destruct (preV op y); auto; now apply Pa|]. destruct (postV op y); [now apply Pb|]. destruct H2 as (d & H3 & H4). exists d. split; [now apply Pa|now apply Pb].
  - intros [H H0] y Hy. specialize (H y Hy). unfold step1 in *. destruct (Nat.eq_dec y x) as [->|Hne]; [exact H0|].
    destruct H as [H1 H2]. split; [destruct (preV op y); auto; now apply Pa|]. destruct (postV op y); [now apply Pb|]. destruct H2 as (d & H3 & H4). exists d. split; [now apply Pa|now apply Pb].
Qed.
Lemma lt_dom a d : shape a (doms t) -> has c x d -> cs_test a x d = Ok (nth d (nth x a []) false).
Proof.
  intros S H. assert (Sc := Hshape v Hv). rewrite Hc in Sc. apply has_lt in H as [_ H]. destruct S as [S1 S2], Sc as [_ Sc]. rewrite Sc in H. apply test_ok; [|now rewrite S2].
  rewrite S1. unfold doms. rewrite map_length. exact Hx.
Qed.
Lemma lt_len i : i < n -> x < length (cs i).
Proof. intros H. destruct (Hshape i H) as [E _]. rewrite E. unfold doms. rewrite map_length. exact Hx. Qed.
Lemma lt_len1 : x < length s1.
Proof. destruct Hs1 as [E _]. rewrite E. unfold doms. rewrite map_length. exact Hx. Qed.
Lemma lt_len2 : x < length s2.
Proof. destruct Hs2 as [E _]. rewrite E. unfold doms. rewrite map_length. exact Hx. Qed.

Lemma nd1 {A} (a : A) : NoDup [a]. Proof. repeat constructor; intros []. Qed.
Lemma nd2 {A} (a b : A) : a <> b -> NoDup [a; b]. Proof. intros H. repeat constructor; cbn; intuition. Qed.

Variable states : list astate.
Hypothesis Hlen : length states = n.
Hypothesis Hstates : forall i a, nth_error states i = Some a -> a_set a = cs i.

(* incoming transitions *)
Definition PTin (a : nat * nat) (y : triple) : Prop :=
  exists op, nth_error (t_ops t) (fst a) = Some op /\
  ((y = (snd a, fst a, v) /\ step1 op x (cs (snd a)) s1) \/ (y = (snd a, fst a, n) /\ step1 op x (cs (snd a)) s2)).
Definition none (a : nat * nat) (y : nat * nat) : Prop := False.
Lemma none_ok a : forall y, In y [] <-> none a y.
Proof. intros y. unfold none. cbn. tauto. Qed.

Lemma incoming_step ts o u : sized (S n) pres posts ts -> u < n -> u <> v -> op_edge o (cs u) c ->
  exists ts' T L, (let* us := vget states u in
    let* post := post_value ts o x in
    match post with
    | None =>
        let* b := cs_intersects (a_set us) s1 x in
        let* ts := if b then add_transition ts u o v else Ok ts in
        let* b2 := if negb b then Ok true else cs_intersects (a_set us) s2 x in
        if b2 then add_transition ts u o n else Ok ts
    | Some d =>
        let* b := cs_test s1 x d in
        if b then add_transition ts u o v
        else let* b2 := cs_test s2 x d in
             let* _ := guard b2 in
             add_transition ts u o n
    end) = Ok ts' /\ ext ts ts' T L /\ NoDup T /\ NoDup L /\ (forall y, In y T <-> PTin (o, u) y) /\ (forall y, In y L <-> none (o, u) y).
Proof.
  intros Sz Hu Hne (op & Hop & He). destruct (vget_some states u) as (a & Ha & Ev); [lia|]. rewrite Ev. cbn [bind]. rewrite (Hstates u a Ha).
  rewrite (proj2 (values_ok _ ts o op x Sz Hop)). cbn [bind]. destruct (He x Hx) as [He1 He2].
  assert (Hne' : n <> v) by lia. assert (Hun : u <> n) by lia.
  unfold PTin. cbn [fst snd]. destruct (postV op x) as [q|] eqn:Eq.
  - rewrite (lt_dom s1 q Hs1 He2). cbn [bind]. destruct (nth q (nth x s1 []) false) eqn:E1.
    + destruct (add_transition_ok (S n) pres posts ts u o v Sz) as (ts' & Et & Xt); [lia|lia|auto|]. exists ts', [(u, o, v)], []. splits; auto using nd1, NoDup_nil, none_ok.
      * intros y. cbn [In]. split.
        -- intros [<-|[]]. exists op. split; auto. left. split; auto. split; auto. rewrite Eq. exact E1.
        -- intros (op' & Ho' & [[-> _]|[-> Hs]]); auto. exfalso. assert (op' = op) by congruence. subst op'. destruct Hs as [_ Hs]. rewrite Eq in Hs. exact (D q E1 Hs).
    + rewrite (lt_dom s2 q Hs2 He2). cbn [bind]. assert (E2 : has s2 x q) by (apply U in He2 as [H|H]; auto; unfold has in H; congruence). unfold has in E2. rewrite E2. cbn [guard bind].
      destruct (add_transition_ok (S n) pres posts ts u o n Sz) as (ts' & Et & Xt); [lia|lia|auto|]. exists ts', [(u, o, n)], []. splits; auto using nd1, NoDup_nil, none_ok.
      * intros y. cbn [In]. split.
        -- intros [<-|[]]. exists op. split; auto. right. split; auto. split; auto. rewrite Eq. exact E2.
        -- intros (op' & Ho' & [[-> Hs]|[-> _]]); auto. exfalso. assert (op' = op) by congruence. subst op'. destruct Hs as [_ Hs]. rewrite Eq in Hs. unfold has in Hs. congruence.
  - assert (Ep : preV op x = None) by (apply post_none; eauto).
    destruct (intersects_ok (cs u) s1 x (doms t) (Hshape u Hu) Hs1 (lt_len u Hu)) as (b & Eb & Hb). rewrite Eb. cbn [bind].
    destruct (intersects_ok (cs u) s2 x (doms t) (Hshape u Hu) Hs2 (lt_len u Hu)) as (b2 & Eb2 & Hb2).
    assert (K1 : step1 op x (cs u) s1 <-> b = true) by (unfold step1; rewrite Ep, Eq, Hb; tauto).
    assert (K2 : step1 op x (cs u) s2 <-> b2 = true) by (unfold step1; rewrite Ep, Eq, Hb2; tauto).
    assert (K3 : b = false -> b2 = true).
    { intros ->. destruct He2 as (d & H1 & H2). apply U in H2 as [H2|H2]; [|apply Hb2; eauto]. assert (false = true) by (apply Hb; eauto). discriminate. }
    destruct b.
    + destruct (add_transition_ok (S n) pres posts ts u o v Sz) as (ts1 & Et & Xt); [lia|lia|auto|]. rewrite Et. cbn [bind negb]. rewrite Eb2. cbn [bind].
      assert (Sz1 := ext_sized _ _ _ _ _ _ _ Sz Xt). destruct b2.
      * destruct (add_transition_ok (S n) pres posts ts1 u o n Sz1) as (ts' & Et' & Xt'); [lia|lia|auto|]. exists ts', [(u, o, v); (u, o, n)], [].
        splits; auto using NoDup_nil, none_ok; [exact (ext_trans _ _ _ _ _ _ _ Xt Xt')|apply nd2; congruence|]. intros y. cbn [In]. split.
        -- intros [<-|[<-|[]]]; exists op; split; auto; [left|right]; split; auto; [now apply K1|now apply K2].
        -- intros (op' & Ho' & [[-> _]|[-> _]]); auto.
      * exists ts1, [(u, o, v)], []. splits; auto using nd1, NoDup_nil, none_ok. intros y. cbn [In]. split.
        -- intros [<-|[]]. exists op. split; auto. left. split; auto. now apply K1.
        -- intros (op' & Ho' & [[-> _]|[-> Hs]]); auto. assert (op' = op) by congruence. subst op'. apply K2 in Hs. discriminate.
    + cbn [bind negb]. destruct (add_transition_ok (S n) pres posts ts u o n Sz) as (ts' & Et & Xt); [lia|lia|auto|]. exists ts', [(u, o, n)], []. splits; auto using nd1, NoDup_nil, none_ok.
      intros y. cbn [In]. split.
      * intros [<-|[]]. exists op. split; auto. right. split; auto. apply K2. auto.
      * intros (op' & Ho' & [[-> Hs]|[-> _]]); auto. assert (op' = op) by congruence. subst op'. apply K1 in Hs. discriminate.
Qed.

(* outgoing transitions *)
Definition PTout (a : nat * nat) (y : triple) : Prop :=
  exists op, nth_error (t_ops t) (fst a) = Some op /\
  ((y = (v, fst a, snd a) /\ step1 op x s1 (cs (snd a))) \/ (y = (n, fst a, snd a) /\ step1 op x s2 (cs (snd a)))).

Lemma outgoing_step ts o w : sized (S n) pres posts ts -> w < n -> w <> v -> op_edge o c (cs w) ->
  exists ts' T L, (let* ws := vget states w in
    let* pre := pre_value ts o x in
    let* post := post_value ts o x in
    match post, pre with
    | None, None =>
        let* b := cs_intersects s1 (a_set ws) x in
        let* ts := if b then add_transition ts v o w else Ok ts in
        let* b2 := if negb b then Ok true else cs_intersects s2 (a_set ws) x in
        if b2 then add_transition ts n o w else Ok ts
    | None, Some _ => UB
    | Some _, None =>
        let* ts := add_transition ts v o w in
        add_transition ts n o w
    | Some _, Some p =>
        let* b := cs_test s1 x p in
        if b then add_transition ts v o w
        else let* b2 := cs_test s2 x p in
             let* _ := guard b2 in
             add_transition ts n o w
    end) = Ok ts' /\ ext ts ts' T L /\ NoDup T /\ NoDup L /\ (forall y, In y T <-> PTout (o, w) y) /\ (forall y, In y L <-> none (o, w) y).
Proof.
  intros Sz Hw Hne (op & Hop & He). destruct (vget_some states w) as (a & Ha & Ev); [lia|]. rewrite Ev. cbn [bind]. rewrite (Hstates w a Ha).
  rewrite (proj1 (values_ok _ ts o op x Sz Hop)), (proj2 (values_ok _ ts o op x Sz Hop)). cbn [bind]. destruct (He x Hx) as [He1 He2].
  assert (Hne' : n <> v) by lia. assert (Hwn : w <> n) by lia.
  unfold PTout. cbn [fst snd]. destruct (postV op x) as [q|] eqn:Eq.
  - destruct (preV op x) as [p|] eqn:Ep.
    + rewrite (lt_dom s1 p Hs1 He1). cbn [bind]. destruct (nth p (nth x s1 []) false) eqn:E1.
      * destruct (add_transition_ok (S n) pres posts ts v o w Sz) as (ts' & Et & Xt); [lia|lia|auto|]. exists ts', [(v, o, w)], []. splits; auto using nd1, NoDup_nil, none_ok.
        intros y. cbn [In]. split.
        -- intros [<-|[]]. exists op. split; auto. left. split; auto. split; rewrite ?Ep, ?Eq; auto.
        -- intros (op' & Ho' & [[-> _]|[-> Hs]]); auto. exfalso. assert (op' = op) by congruence. subst op'. destruct Hs as [Hs _]. rewrite Ep in Hs. exact (D p E1 Hs).
      * rewrite (lt_dom s2 p Hs2 He1). cbn [bind]. assert (E2 : has s2 x p) by (apply U in He1 as [H|H]; auto; unfold has in H; congruence). unfold has in E2. rewrite E2. cbn [guard bind].
        destruct (add_transition_ok (S n) pres posts ts n o w Sz) as (ts' & Et & Xt); [lia|lia|auto|]. exists ts', [(n, o, w)], []. splits; auto using nd1, NoDup_nil, none_ok.
        intros y. cbn [In]. split.
        -- intros [<-|[]]. exists op. split; auto. right. split; auto. split; rewrite ?Ep, ?Eq; auto.
        -- intros (op' & Ho' & [[-> Hs]|[-> _]]); auto. exfalso. assert (op' = op) by congruence. subst op'. destruct Hs as [Hs _]. rewrite Ep in Hs. unfold has in Hs. congruence.
    + destruct (add_transition_ok (S n) pres posts ts v o w Sz) as (ts1 & Et & Xt); [lia|lia|auto|]. rewrite Et. cbn [bind]. assert (Sz1 := ext_sized _ _ _ _ _ _ _ Sz Xt).
      destruct (add_transition_ok (S n) pres posts ts1 n o w Sz1) as (ts' & Et' & Xt'); [lia|lia|auto|]. exists ts', [(v, o, w); (n, o, w)], [].
      splits; auto using NoDup_nil, none_ok; [exact (ext_trans _ _ _ _ _ _ _ Xt Xt')|apply nd2; congruence|]. intros y. cbn [In]. split.
      * intros [<-|[<-|[]]]; exists op; split; auto; [left|right]; split; auto; split; rewrite ?Ep, ?Eq; auto.
      * intros (op' & Ho' & [[-> _]|[-> _]]); auto.
  - assert (Ep : preV op x = None) by (apply post_none; eauto). rewrite Ep.
    destruct (intersects_ok s1 (cs w) x (doms t) Hs1 (Hshape w Hw) lt_len1) as (b & Eb & Hb). rewrite Eb. cbn [bind].
    destruct (intersects_ok s2 (cs w) x (doms t) Hs2 (Hshape w Hw) lt_len2) as (b2 & Eb2 & Hb2).
    assert (K1 : step1 op x s1 (cs w) <-> b = true) by (unfold step1; rewrite Ep, Eq, Hb; tauto).
    assert (K2 : step1 op x s2 (cs w) <-> b2 = true) by (unfold step1; rewrite Ep, Eq, Hb2; tauto).
    assert (K3 : b = false -> b2 = true).
    { intros ->. destruct He2 as (d & H1 & H2). apply U in H1 as [H1|H1]; [|apply Hb2; eauto]. assert (false = true) by (apply Hb; eauto). discriminate. }
    destruct b.
    + destruct (add_transition_ok (S n) pres posts ts v o w Sz) as (ts1 & Et & Xt); [lia|lia|auto|]. rewrite Et. cbn [bind negb]. rewrite Eb2. cbn [bind].
      assert (Sz1 := ext_sized _ _ _ _ _ _ _ Sz Xt). destruct b2.
      * destruct (add_transition_ok (S n) pres posts ts1 n o w Sz1) as (ts' & Et' & Xt'); [lia|lia|auto|]. exists ts', [(v, o, w); (n, o, w)], [].
        splits; auto using NoDup_nil, none_ok; [exact (ext_trans _ _ _ _ _ _ _ Xt Xt')|apply nd2; congruence|]. intros y. cbn [In]. split.
        -- intros [<-|[<-|[]]]; exists op; split; auto; [left|right]; split; auto; [now apply K1|now apply K2].
        -- intros (op' & Ho' & [[-> _]|[-> _]]); auto.
      * exists ts1, [(v, o, w)], []. splits; auto using nd1, NoDup_nil, none_ok. intros y. cbn [In]. split.
        -- intros [<-|[]]. exists op. split; auto. left. split; auto. now apply K1.
        -- intros (op' & Ho' & [[-> _]|[-> Hs]]); auto. assert (op' = op) by congruence. subst op'. apply K2 in Hs. discriminate.
    + cbn [bind negb]. destruct (add_transition_ok (S n) pres posts ts n o w Sz) as (ts' & Et & Xt); [lia|lia|auto|]. exists ts', [(n, o, w)], []. splits; auto using nd1, NoDup_nil, none_ok.
      intros y. cbn [In]. split.
      * intros [<-|[]]. exists op. split; auto. right. split; auto. apply K2. auto.
      * intros (op' & Ho' & [[-> Hs]|[-> _]]); auto. assert (op' = op) by congruence. subst op'. apply K1 in Hs. discriminate.
Qed.

(* self-loops *)
Definition sv (i : nat) : cset := if i =? v then s1 else s2.
Definition PTloop (o : nat) (y : triple) : Prop :=
  exists op, nth_error (t_ops t) o = Some op /\
  ((y = (v, o, n) /\ step1 op x s1 s2) \/ (y = (n, o, v) /\ step1 op x s2 s1)).
Definition PLloop (o : nat) (y : nat * nat) : Prop :=
  exists op, nth_error (t_ops t) o = Some op /\
  ((y = (v, o) /\ step1 op x s1 s1) \/ (y = (n, o) /\ step1 op x s2 s2)).

Lemma loop_step ts o : sized (S n) pres posts ts -> op_edge o c c ->
  exists ts' T L, (let* pre := pre_value ts o x in
    let* post := post_value ts o x in
    match pre with
    | None =>
        match post with
        | None => let* ts := add_loop ts v o in add_loop ts n o
        | Some q =>
            let* b := cs_test s2 x q in
            if b then let* ts := add_transition ts v o n in add_loop ts n o
            else let* b1 := cs_test s1 x q in
                 let* _ := guard b1 in
                 let* ts := add_loop ts v o in add_transition ts n o v
        end
    | Some p =>
        match post with
        | None => UB
        | Some q =>
            let* b := cs_test s1 x p in
            if b then
              let* b1 := cs_test s1 x q in
              if b1 then add_loop ts v o
              else let* b2 := cs_test s2 x q in
                   let* _ := guard b2 in
                   add_transition ts v o n
            else
              let* b2 := cs_test s2 x p in
              let* _ := guard b2 in
              let* b1 := cs_test s1 x q in
              if b1 then add_transition ts n o v
              else let* b2 := cs_test s2 x q in
                   let* _ := guard b2 in
                   add_loop ts n o
        end
    end) = Ok ts' /\ ext ts ts' T L /\ NoDup T /\ NoDup L /\ (forall y, In y T <-> PTloop o y) /\ (forall y, In y L <-> PLloop o y).
Proof.
  intros Sz (op & Hop & He). rewrite (proj1 (values_ok _ ts o op x Sz Hop)), (proj2 (values_ok _ ts o op x Sz Hop)). cbn [bind]. destruct (He x Hx) as [He1 He2].
  assert (Hne' : n <> v) by lia. assert (Hne2 : v <> n) by lia.
  assert (PT : forall y, PTloop o y <-> (y = (v, o, n) /\ step1 op x s1 s2) \/ (y = (n, o, v) /\ step1 op x s2 s1)).
  { intros y. split; [intros (op' & H1 & H2); assert (op' = op) by congruence; now subst op'|intros H; exists op; auto]. }
  assert (PL : forall y, PLloop o y <-> (y = (v, o) /\ step1 op x s1 s1) \/ (y = (n, o) /\ step1 op x s2 s2)).
  { intros y. split; [intros (op' & H1 & H2); assert (op' = op) by congruence; now subst op'|intros H; exists op; auto]. }
  destruct (add_loop_ok (S n) pres posts ts v o Sz) as (tl1 & El1 & Xl1); [lia|]. destruct (add_loop_ok (S n) pres posts ts n o Sz) as (tl2 & El2 & Xl2); [lia|].
  destruct (add_transition_ok (S n) pres posts ts v o n Sz) as (t12 & E12 & X12); [lia|lia|auto|]. destruct (add_transition_ok (S n) pres posts ts n o v Sz) as (t21 & E21 & X21); [lia|lia|auto|].
  assert (Szl1 := ext_sized _ _ _ _ _ _ _ Sz Xl1). assert (Szt12 := ext_sized _ _ _ _ _ _ _ Sz X12).
  assert (ST : forall a b, step1 op x a b <-> match preV op x with Some p => has a x p | None => True end /\ match postV op x with Some q => has b x q | None => exists d, has a x d /\ has b x d end) by (intros; reflexivity).
  assert (Hno : forall q, has c x q -> (nth q (nth x s1 []) false = true /\ ~ has s2 x q) \/ (nth q (nth x s1 []) false = false /\ has s2 x q)).
  { intros q Hq. destruct (nth q (nth x s1 []) false) eqn:E; [left|right]; split; auto; [intros H; exact (D q E H)|]. apply U in Hq as [H|H]; auto. unfold has in H. congruence. }
  destruct (preV op x) as [p|] eqn:Ep; [destruct (postV op x) as [q|] eqn:Eq; [|exfalso; assert (preV op x = None) by (apply post_none; eauto); congruence]|].
  - rewrite (lt_dom s1 p Hs1 He1). cbn [bind]. destruct (Hno p He1) as [[Hp1 Hp2]|[Hp1 Hp2]]; rewrite Hp1.
    + rewrite (lt_dom s1 q Hs1 He2). cbn [bind]. destruct (Hno q He2) as [[Hq1 Hq2]|[Hq1 Hq2]]; rewrite Hq1.
      * exists tl1, [], [(v, o)]. splits; auto using nd1, NoDup_nil.
        -- intros y. rewrite PT, !ST. cbn [In]. tauto.
        -- intros y. rewrite PL, !ST. cbn [In]. assert (Hp3 : has s1 x p) by exact Hp1. assert (Hq3 : has s1 x q) by exact Hq1. split; [intros [<-|[]]; auto|]. intros [[-> _]|[-> [H _]]]; [auto|tauto].
      * rewrite (lt_dom s2 q Hs2 He2). cbn [bind]. unfold has in Hq2. rewrite Hq2. cbn [guard bind]. exists t12, [(v, o, n)], []. splits; auto using nd1, NoDup_nil.
        -- intros y. rewrite PT, !ST. cbn [In]. assert (Hp3 : has s1 x p) by exact Hp1. assert (Hq3 : has s2 x q) by exact Hq2. split; [intros [<-|[]]; auto|]. intros [[-> _]|[-> [H _]]]; [auto|tauto].
        -- intros y. rewrite PL, !ST. cbn [In]. unfold has at 2. rewrite Hq1. split; [tauto|]. intros [[_ [_ H]]|[_ [H _]]]; [discriminate|tauto].
    + rewrite (lt_dom s2 p Hs2 He1). cbn [bind]. assert (Hp3 := Hp2). unfold has in Hp2. rewrite Hp2. cbn [guard bind]. rewrite (lt_dom s1 q Hs1 He2). cbn [bind].
      assert (Hp4 : ~ has s1 x p) by (unfold has; congruence).
      destruct (Hno q He2) as [[Hq1 Hq2]|[Hq1 Hq2]]; rewrite Hq1.
      * exists t21, [(n, o, v)], []. splits; auto using nd1, NoDup_nil; intros y; [rewrite PT|rewrite PL]; rewrite !ST; cbn [In]; assert (Hq3 : has s1 x q) by exact Hq1.
        -- split; [intros [<-|[]]; auto|]. intros [[_ [H _]]|[-> _]]; [tauto|auto].
        -- tauto.
      * rewrite (lt_dom s2 q Hs2 He2). cbn [bind]. assert (Hq3 := Hq2). unfold has in Hq2. rewrite Hq2. cbn [guard bind]. assert (Hq4 : ~ has s1 x q) by (unfold has; congruence).
        exists tl2, [], [(n, o)]. splits; auto using nd1, NoDup_nil; intros y; [rewrite PT|rewrite PL]; rewrite !ST; cbn [In].
        -- tauto.
        -- split; [intros [<-|[]]; auto|]. intros [[_ [H _]]|[-> _]]; [tauto|auto].
  - destruct (postV op x) as [q|] eqn:Eq.
    + rewrite (lt_dom s2 q Hs2 He2). cbn [bind]. destruct (Hno q He2) as [[Hq1 Hq2]|[Hq1 Hq2]].
      * assert (Hq3 : nth q (nth x s2 []) false = false) by (destruct (nth q (nth x s2 []) false) eqn:E; auto; destruct Hq2; exact E). rewrite Hq3. rewrite (lt_dom s1 q Hs1 He2). cbn [bind]. rewrite Hq1. cbn [guard bind].
        rewrite El1. cbn [bind]. destruct (add_transition_ok (S n) pres posts tl1 n o v Szl1) as (ts' & Et & Xt); [lia|lia|auto|].
        exists ts', [(n, o, v)], [(v, o)]. splits; auto using nd1; [exact (ext_trans _ _ _ _ _ _ _ Xl1 Xt)| |]; intros y; [rewrite PT|rewrite PL]; rewrite !ST; cbn [In]; assert (Hq4 : has s1 x q) by exact Hq1.
        -- split; [intros [<-|[]]; auto|]. intros [[_ [_ H]]|[-> _]]; [tauto|auto].
        -- split; [intros [<-|[]]; auto|]. intros [[-> _]|[_ [_ H]]]; [auto|tauto].
      * assert (Hq3 := Hq2). unfold has in Hq3. rewrite Hq3. rewrite E12. cbn [bind]. destruct (add_loop_ok (S n) pres posts t12 n o Szt12) as (ts' & Et & Xt); [lia|].
        assert (Hq4 : ~ has s1 x q) by (unfold has; congruence).
        exists ts', [(v, o, n)], [(n, o)]. splits; auto using nd1; [exact (ext_trans _ _ _ _ _ _ _ X12 Xt)| |]; intros y; [rewrite PT|rewrite PL]; rewrite !ST; cbn [In].
        -- split; [intros [<-|[]]; auto|]. intros [[-> _]|[_ [_ H]]]; [auto|tauto].
        -- split; [intros [<-|[]]; auto|]. intros [[_ [_ H]]|[-> _]]; [tauto|auto].
    + rewrite El1. cbn [bind]. destruct (add_loop_ok (S n) pres posts tl1 n o Szl1) as (ts' & Et & Xt); [lia|].
      exists ts', [], [(v, o); (n, o)]. splits; auto using NoDup_nil; [exact (ext_trans _ _ _ _ _ _ _ Xl1 Xt)|apply nd2; congruence| |]; intros y; [rewrite PT|rewrite PL]; rewrite !ST; cbn [In].
      * split; [tauto|]. intros [[_ [_ (d & H1 & H2)]]|[_ [_ (d & H1 & H2)]]]; exact (D d ltac:(assumption) ltac:(assumption)).
      * destruct Ne1 as [d1 Hd1], Ne2 as [d2 Hd2]. split; [intros [<-|[<-|[]]]; [left|right]; splits; eauto|]. intros [[-> _]|[-> _]]; auto.
Qed.

Lemma nth_snoc_nil {A} (l : list (list A)) u : nth u (l ++ [[]]) [] = nth u l [].
Proof.
  destruct (lt_eq_lt_dec u (length l)) as [[H| ->]|H].
  - now rewrite app_nth1.
  - rewrite app_nth2, Nat.sub_diag by lia. symmetry. apply nth_overflow. lia.
  - rewrite !nth_overflow; auto; [lia|rewrite app_length; cbn; lia].
Qed.
Lemma cs'_v : cs' v = s1. Proof. unfold cs'. now rewrite Nat.eqb_refl. Qed.
Lemma cs'_n : cs' n = s2. Proof. unfold cs'. destruct (Nat.eqb_spec n v); [lia|]. now rewrite Nat.eqb_refl. Qed.
Lemma cs'_o u : u <> v -> u <> n -> cs' u = cs u.
Proof. intros H1 H2. unfold cs'. destruct (Nat.eqb_spec u v), (Nat.eqb_spec u n); tauto. Qed.
Lemma op_edge_part o a b a' b' : part a a' -> part b b' -> op_edge o a b <-> exists op, nth_error (t_ops t) o = Some op /\ edge op a' b' /\ step1 op x a b.
Proof. intros Pa Pb. unfold op_edge. split; intros (op & Ho & H); exists op; split; auto; now apply (edge_part op a b a' b' Pa Pb). Qed.

Lemma M1 old T : (forall o u, In (o, u) old <-> u < n /\ v < n /\ u <> v /\ op_edge o (cs u) (cs v)) ->
  (forall y, In y T <-> exists a, In a old /\ PTin a y) ->
  forall u o w, In (u, o, w) T <-> u < n /\ u <> v /\ (w = v \/ w = n) /\ op_edge o (cs' u) (cs' w).
Proof.
  intros Hold HT u o w. rewrite HT. split.
  - intros ([o' u'] & Hin & op & Hop & H). cbn [fst snd] in *. apply Hold in Hin as (H1 & _ & H2 & op' & Hop' & He). assert (op' = op) by congruence. subst op'. rewrite Hc in He.
    destruct H as [[E Hs]|[E Hs]]; injection E as -> -> ->; splits; auto; rewrite cs'_o by lia; [rewrite cs'_v|rewrite cs'_n].
    + apply (op_edge_part o' _ _ _ _ (part_refl _) part1). eauto.
    + apply (op_edge_part o' _ _ _ _ (part_refl _) part2). eauto.
  - intros (H1 & H2 & H3 & He). rewrite cs'_o in He by lia. destruct H3 as [-> | ->]; [rewrite cs'_v in He; apply (op_edge_part o _ _ _ _ (part_refl _) part1) in He|rewrite cs'_n in He; apply (op_edge_part o _ _ _ _ (part_refl _) part2) in He];
      destruct He as (op & Hop & He & Hs); exists (o, u); (split; [apply Hold; splits; auto; exists op; rewrite Hc; auto|]); exists op; cbn [fst snd]; auto.
Qed.
Lemma M2 old T : (forall o w, In (o, w) old <-> v < n /\ w < n /\ v <> w /\ op_edge o (cs v) (cs w)) ->
  (forall y, In y T <-> exists a, In a old /\ PTout a y) ->
  forall u o w, In (u, o, w) T <-> w < n /\ w <> v /\ (u = v \/ u = n) /\ op_edge o (cs' u) (cs' w).
Proof.
  intros Hold HT u o w. rewrite HT. split.
  - intros ([o' w'] & Hin & op & Hop & H). cbn [fst snd] in *. apply Hold in Hin as (_ & H1 & H2 & op' & Hop' & He). assert (op' = op) by congruence. subst op'. rewrite Hc in He.
    destruct H as [[E Hs]|[E Hs]]; injection E as -> -> ->; splits; auto; rewrite (cs'_o w') by lia; [rewrite cs'_v|rewrite cs'_n].
    + apply (op_edge_part o' _ _ _ _ part1 (part_refl _)). eauto.
    + apply (op_edge_part o' _ _ _ _ part2 (part_refl _)). eauto.
  - intros (H1 & H2 & H3 & He). rewrite (cs'_o w) in He by lia. destruct H3 as [-> | ->]; [rewrite cs'_v in He; apply (op_edge_part o _ _ _ _ part1 (part_refl _)) in He|rewrite cs'_n in He; apply (op_edge_part o _ _ _ _ part2 (part_refl _)) in He];
      destruct He as (op & Hop & He & Hs); exists (o, w); (split; [apply Hold; splits; auto; exists op; rewrite Hc; auto|]); exists op; cbn [fst snd]; auto.
Qed.
Lemma M3 old T L : (forall o, In o old <-> v < n /\ op_edge o (cs v) (cs v)) ->
  (forall y, In y T <-> exists a, In a old /\ PTloop a y) -> (forall y, In y L <-> exists a, In a old /\ PLloop a y) ->
  (forall u o w, In (u, o, w) T <-> u <> w /\ (u = v \/ u = n) /\ (w = v \/ w = n) /\ op_edge o (cs' u) (cs' w)) /\
  (forall u o, In (u, o) L <-> (u = v \/ u = n) /\ op_edge o (cs' u) (cs' u)).
Proof.
  intros Hold HT HL. assert (Hvn : v <> n) by lia. split.
  - intros u o w. rewrite HT. split.
    + intros (o' & Hin & op & Hop & H). apply Hold in Hin as (_ & op' & Hop' & He). assert (op' = op) by congruence. subst op'. rewrite Hc in He.
      destruct H as [[E Hs]|[E Hs]]; injection E as -> -> ->; splits; auto; rewrite cs'_v, cs'_n.
      * apply (op_edge_part o' _ _ _ _ part1 part2). eauto.
      * apply (op_edge_part o' _ _ _ _ part2 part1). eauto.
    + intros (H1 & [-> | ->] & [-> | ->] & He); try tauto; rewrite cs'_v, cs'_n in He; [apply (op_edge_part o _ _ _ _ part1 part2) in He|apply (op_edge_part o _ _ _ _ part2 part1) in He];
      destruct He as (op & Hop & He & Hs); exists o; (split; [apply Hold; split; auto; exists op; rewrite Hc; auto|]); exists op; auto.
  - intros u o. rewrite HL. split.
    + intros (o' & Hin & op & Hop & H). apply Hold in Hin as (_ & op' & Hop' & He). assert (op' = op) by congruence. subst op'. rewrite Hc in He.
      destruct H as [[E Hs]|[E Hs]]; injection E as -> ->; split; auto; rewrite ?cs'_v, ?cs'_n.
      * apply (op_edge_part o' _ _ _ _ part1 part1). eauto.
      * apply (op_edge_part o' _ _ _ _ part2 part2). eauto.
    + intros ([-> | ->] & He); rewrite ?cs'_v, ?cs'_n in He; [apply (op_edge_part o _ _ _ _ part1 part1) in He|apply (op_edge_part o _ _ _ _ part2 part2) in He];
      destruct He as (op & Hop & He & Hs); exists o; (split; [apply Hold; split; auto; exists op; rewrite Hc; auto|]); exists op; auto.
Qed.

Lemma O_empty ts u : length (c_out ts) <= u -> O ts u = []. Proof. intros. unfold O. now rewrite nth_overflow. Qed.
Lemma In_nil_eq {A} (l : list A) : (forall y, In y l <-> False) -> l = [].
Proof. destruct l as [|a l]; auto. intros H. destruct (proj1 (H a)). now left. Qed.

Theorem rewire_ok ts : TSI cs n ts -> exists ts', rewire states v n s1 s2 x ts = Ok ts' /\ TSI cs' (S n) ts'.
Proof.
  intros [Sz Ho Hi Hl No Ni Nl]. destruct Sz as (Sp & Sq & So & Si & Sl). unfold rewire, vget. rewrite (nth_error_nth' (c_in ts) []) by lia. cbn [bind]. rewrite vset_lt by lia. cbn [bind].
  rewrite (nth_error_nth' (c_out ts) []) by lia. cbn [bind]. rewrite vset_lt by lia. cbn [bind]. rewrite (nth_error_nth' (c_loops ts) []) by lia. cbn [bind]. rewrite vset_lt by lia. cbn [bind].
  change (nth v (c_in ts) []) with (I ts v). change (nth v (c_out ts) []) with (O ts v). change (nth v (c_loops ts) []) with (Lp ts v).
  set (ts0 := enlarge _).
  assert (O0 : forall u, O ts0 u = if u =? v then [] else O ts u).
  { intros u. unfold O, ts0, enlarge. cbn. rewrite nth_snoc_nil. rewrite nth_upd by lia. rewrite Nat.eqb_sym. reflexivity. }
  assert (I0 : forall u, I ts0 u = if u =? v then [] else I ts u).
  { intros u. unfold I, ts0, enlarge. cbn. rewrite nth_snoc_nil. rewrite nth_upd by lia. rewrite Nat.eqb_sym. reflexivity. }
  assert (L0 : forall u, Lp ts0 u = if u =? v then [] else Lp ts u).
  { intros u. unfold Lp, ts0, enlarge. cbn. rewrite nth_snoc_nil. rewrite nth_upd by lia. rewrite Nat.eqb_sym. reflexivity. }
  assert (Sz0 : sized (S n) pres posts ts0).
  { unfold sized, ts0, enlarge. cbn. splits; auto; rewrite app_length, upd_length; cbn; lia. }
  clearbody ts0.
  (* incoming *)
  unfold rewire_incoming at 1.
  destruct (remove_old_ok (I ts v) v (c_out ts0)) as (out1 & Er & Lr & Hr).
  { intros o u. change (nth u (c_out ts0) []) with (O ts0 u). rewrite O0, Hi. destruct Sz0 as (_ & _ & -> & _). destruct (Nat.eqb_spec u v) as [->|Hne]; cbn [In]; [tauto|]. rewrite Ho. intuition lia. }
  rewrite Er. cbn [bind].
  set (ts1 := with_num _ _ _). assert (Sz1 : sized (S n) pres posts ts1).
  { destruct Sz0 as (Z1 & Z2 & Z3 & Z4 & Z5). unfold sized, ts1. cbn. splits; auto. congruence. }
  assert (O1 : forall u, O ts1 u = filter (keep v) (O ts0 u)) by (intros u; unfold O at 1, ts1; cbn; apply Hr).
  assert (I1 : forall u, I ts1 u = I ts0 u) by reflexivity.
  assert (L1 : forall u, Lp ts1 u = Lp ts0 u) by reflexivity. clearbody ts1.
  assert (Hold1 : forall o u, In (o, u) (I ts v) <-> u < n /\ v < n /\ u <> v /\ op_edge o (cs u) (cs v)) by (intros; apply Hi).
  match goal with |- context [fold_outcome ?f (I ts v) ts1] => destruct (fold_ext (S n) pres posts f PTin none) with (old := I ts v) (ts := ts1) as (ts2 & T1 & K1 & E2 & X2 & N2 & _ & P2 & Q2) end.
  { intros a b y (op & _ & [[-> _]|[-> _]]) (op' & _ & [[E _]|[E _]]); injection E; destruct a, b; cbn; intros; congruence. }
  { intros a b y []. }
  { apply Ni. }
  { intros ts' [o u] Hin Hsz. apply Hold1 in Hin as (G1 & _ & G2 & G3). rewrite Hc in G3. exact (incoming_step ts' o u Hsz G1 G2 G3). }
  { exact Sz1. }
  rewrite E2. cbn [bind]. assert (K1 = []) by (apply In_nil_eq; intros y; rewrite Q2; split; [intros (a & _ & [])|tauto]). subst K1.
  assert (MM1 := M1 _ _ Hold1 P2). assert (Sz2 := ext_sized _ _ _ _ _ _ _ Sz1 X2).
  (* outgoing *)
  unfold rewire_outgoing at 1.
  assert (Hold2 : forall o w, In (o, w) (O ts v) <-> v < n /\ w < n /\ v <> w /\ op_edge o (cs v) (cs w)) by (intros; apply Ho).
  assert (NoV : forall o w, ~ In (o, v) (sel_in w T1)) by (intros o w H; apply sel_in_In in H; apply MM1 in H; lia).
  destruct (remove_old_ok (O ts v) v (c_in ts2)) as (in3 & Er3 & Lr3 & Hr3).
  { intros o w. change (nth w (c_in ts2) []) with (I ts2 w). rewrite (x_in _ _ _ _ X2), I1, I0, Ho, in_app_iff. destruct Sz2 as (_ & _ & _ & -> & _). specialize (NoV o w).
    destruct (Nat.eqb_spec w v) as [->|Hne]; cbn [In]; [tauto|]. rewrite Hi. intuition lia. }
  rewrite Er3. cbn [bind].
  set (ts3 := with_num _ _ _). assert (Sz3 : sized (S n) pres posts ts3).
  { destruct Sz2 as (Z1 & Z2 & Z3 & Z4 & Z5). unfold sized, ts3. cbn. splits; auto. congruence. }
  assert (I3 : forall u, I ts3 u = filter (keep v) (I ts2 u)) by (intros u; unfold I at 1, ts3; cbn; apply Hr3).
  assert (O3 : forall u, O ts3 u = O ts2 u) by reflexivity.
  assert (L3 : forall u, Lp ts3 u = Lp ts2 u) by reflexivity. clearbody ts3.
  match goal with |- context [fold_outcome ?f (O ts v) ts3] => destruct (fold_ext (S n) pres posts f PTout none) with (old := O ts v) (ts := ts3) as (ts4 & T2 & K2 & E4 & X4 & N4 & _ & P4 & Q4) end.
  { intros a b y (op & _ & [[-> _]|[-> _]]) (op' & _ & [[E _]|[E _]]); injection E; destruct a, b; cbn; intros; congruence. }
  { intros a b y []. }
  { apply No. }
  { intros ts' [o w] Hin Hsz. apply Hold2 in Hin as (_ & G1 & G2 & G3). rewrite Hc in G3. exact (outgoing_step ts' o w Hsz G1 (not_eq_sym G2) G3). }
  { exact Sz3. }
  rewrite E4. cbn [bind]. assert (K2 = []) by (apply In_nil_eq; intros y; rewrite Q4; split; [intros (a & _ & [])|tauto]). subst K2.
  assert (MM2 := M2 _ _ Hold2 P4). assert (Sz4 := ext_sized _ _ _ _ _ _ _ Sz3 X4).
  (* loops *)
  unfold rewire_loops at 1.
  assert (Hold3 : forall o, In o (Lp ts v) <-> v < n /\ op_edge o (cs v) (cs v)) by (intros; apply Hl).
  match goal with |- context [fold_outcome ?f (Lp ts v) ts4] => destruct (fold_ext (S n) pres posts f PTloop PLloop) with (old := Lp ts v) (ts := ts4) as (ts5 & T3 & K3 & E5 & X5 & N5 & N5' & P5 & Q5) end.
  { intros a b y (op & _ & [[-> _]|[-> _]]) (op' & _ & [[E _]|[E _]]); injection E; intros; congruence. }
  { intros a b y (op & _ & [[-> _]|[-> _]]) (op' & _ & [[E _]|[E _]]); injection E; intros; congruence. }
  { apply Nl. }
  { intros ts' o Hin Hsz. apply Hold3 in Hin as (_ & G3). rewrite Hc in G3. exact (loop_step ts' o Hsz G3). }
  { exact Sz4. }
  rewrite E5. cbn [bind]. destruct (M3 _ _ _ Hold3 P5 Q5) as [MM3 ML3]. eexists. split; [reflexivity|].
  assert (Sz5 := ext_sized _ _ _ _ _ _ _ Sz4 X5).
  set (tsf := with_num _ _ _).
  assert (Of : forall u, O tsf u = filter (keep v) (if u =? v then [] else O ts u) ++ sel_out u (T1 ++ T2 ++ T3)).
  { intros u. change (O tsf u) with (O ts5 u). rewrite (x_out _ _ _ _ X5), (x_out _ _ _ _ X4), O3, (x_out _ _ _ _ X2), O1, O0. rewrite !sel_out_app. now rewrite !app_assoc. }
  assert (If : forall u, I tsf u = filter (keep v) (if u =? v then [] else I ts u) ++ sel_in u (T1 ++ T2 ++ T3)).
  { intros u. change (I tsf u) with (I ts5 u). rewrite (x_in _ _ _ _ X5), (x_in _ _ _ _ X4), I3, (x_in _ _ _ _ X2), I1, I0. rewrite !sel_in_app, filter_app.
    rewrite (filter_id _ (sel_in u T1)); [now rewrite !app_assoc|]. intros [o w] Hin. unfold keep. cbn. apply negb_true_iff, Nat.eqb_neq. intros ->. exact (NoV _ _ Hin). }
  assert (Lf : forall u, Lp tsf u = (if u =? v then [] else Lp ts u) ++ sel_loop u K3).
  { intros u. change (Lp tsf u) with (Lp ts5 u). rewrite (x_loop _ _ _ _ X5), (x_loop _ _ _ _ X4), L3, (x_loop _ _ _ _ X2), L1, L0. cbn. now rewrite !app_nil_r. }
  assert (Szf : sized (S n) pres posts tsf) by exact Sz5. clearbody tsf.
  assert (MT : forall u o w, In (u, o, w) (T1 ++ T2 ++ T3) <-> u < S n /\ w < S n /\ u <> w /\ op_edge o (cs' u) (cs' w) /\ (u = v \/ u = n \/ w = v \/ w = n)).
  { intros u o w. rewrite !in_app_iff, MM1, MM2, MM3. split.
    - intros [(H1 & H2 & H3 & H4)|[(H1 & H2 & H3 & H4)|(H1 & H2 & H3 & H4)]]; splits; auto; lia.
    - intros (H1 & H2 & H3 & H4 & H5). destruct (Nat.eq_dec u v), (Nat.eq_dec u n), (Nat.eq_dec w v), (Nat.eq_dec w n); try (exfalso; lia);
      try (right; right; splits; auto; fail); try (left; splits; auto; lia); right; left; splits; auto; lia. }
  assert (NT : NoDup (T1 ++ T2 ++ T3)).
  { apply NoDup_app; auto; [apply NoDup_app; auto|]; intros [[u o] w]; rewrite ?in_app_iff, ?MM1, ?MM2, ?MM3; intros; lia. }
  constructor.
  - exact Szf.
  - intros u o w. rewrite Of, in_app_iff, sel_out_In, MT, filter_In. unfold keep. cbn [snd]. rewrite negb_true_iff, Nat.eqb_neq. split.
    + intros [[H1 H2]|H]; [|tauto]. destruct (Nat.eqb_spec u v) as [->|Hne]; [destruct H1|]. apply Ho in H1 as (G1 & G2 & G3 & G4). splits; try lia. rewrite !cs'_o by lia. exact G4.
    + intros (H1 & H2 & H3 & H4). destruct (Nat.eq_dec u v); [right; splits; auto|]. destruct (Nat.eq_dec u n); [right; splits; auto|]. destruct (Nat.eq_dec w v); [right; splits; auto|]. destruct (Nat.eq_dec w n); [right; splits; auto|].
      left. split; auto. destruct (Nat.eqb_spec u v); [tauto|]. apply Ho. rewrite !cs'_o in H4 by lia. splits; auto; lia.
  - intros u o w. rewrite If, in_app_iff, sel_in_In, MT, filter_In. unfold keep. cbn [snd]. rewrite negb_true_iff, Nat.eqb_neq. split.
    + intros [[H1 H2]|H]; [|tauto]. destruct (Nat.eqb_spec w v) as [Ew|Hne]; [destruct H1|]. apply Hi in H1 as (G1 & G2 & G3 & G4). splits; try lia. rewrite !cs'_o by lia. exact G4.
    + intros (H1 & H2 & H3 & H4). destruct (Nat.eq_dec u v); [right; splits; auto|]. destruct (Nat.eq_dec u n); [right; splits; auto|]. destruct (Nat.eq_dec w v); [right; splits; auto|]. destruct (Nat.eq_dec w n); [right; splits; auto|].
      left. split; auto. destruct (Nat.eqb_spec w v); [tauto|]. apply Hi. rewrite !cs'_o in H4 by lia. splits; auto; lia.
  - intros u o. rewrite Lf, in_app_iff, sel_loop_In, ML3. split.
    + intros [H|H]; [|split; [lia|tauto]]. destruct (Nat.eqb_spec u v) as [->|Hne]; [destruct H|]. apply Hl in H as [G1 G2]. split; [lia|]. rewrite cs'_o by lia. exact G2.
    + intros [H1 H2]. destruct (Nat.eq_dec u v); [right; auto|]. destruct (Nat.eq_dec u n); [right; auto|]. left. destruct (Nat.eqb_spec u v); [tauto|]. apply Hl. rewrite cs'_o in H2 by lia. split; auto; lia.
  - intros u. rewrite Of. apply NoDup_app; [apply NoDup_filter; destruct (u =? v); [constructor|apply No]|apply sel_out_NoDup; auto|].
    intros [o w] H1 H2. apply filter_In in H1 as [H1 H3]. apply sel_out_In in H2. apply MT in H2. unfold keep in H3. cbn in H3. rewrite negb_true_iff, Nat.eqb_neq in H3.
    destruct (Nat.eqb_spec u v); [destruct H1|]. apply Ho in H1. lia.
  - intros u. rewrite If. apply NoDup_app; [apply NoDup_filter; destruct (u =? v); [constructor|apply Ni]|apply sel_in_NoDup; auto|].
    intros [o w] H1 H2. apply filter_In in H1 as [H1 H3]. apply sel_in_In in H2. apply MT in H2. unfold keep in H3. cbn in H3. rewrite negb_true_iff, Nat.eqb_neq in H3.
    destruct (Nat.eqb_spec u v); [destruct H1|]. apply Hi in H1. lia.
  - intros u. rewrite Lf. apply NoDup_app; [destruct (u =? v); [constructor|apply Nl]|apply sel_loop_NoDup; auto|].
    intros o H1 H2. apply sel_loop_In in H2. apply ML3 in H2. destruct (Nat.eqb_spec u v); [destruct H1|]. apply Hl in H1. lia.
Qed.
End TS.

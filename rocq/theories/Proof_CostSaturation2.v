(** Consistency of the sum of abstract goal distances under successively reduced costs. *)
From Verif Require Import Outcome Spec_Task Spec_Relaxation Spec_Cartesian Model_Task Model_PQ Model_Graph Model_Cartesian Model_CostSaturation.
From Verif Require Import Proof_Task Proof_LMCut1 Proof_Graph Proof_Cartesian2 Proof_CostSaturation1 Proof_MAS11.

(** The abstract state of a state of the original task. *)
Definition absid (st : subtask) (A : abstraction) (s : state) (i : nat) : Prop :=
  exists s', st_conv st s = Ok s' /\ abstract_state_id (ab_nodes A) s' = Ok i.

(** What the abstractions must satisfy. *)
Record good (t : task) (st : subtask) (A : abstraction) : Prop := {
  gd_pre : length (c_pre (ab_ts A)) = length (t_ops t);
  gd_lout : length (c_out (ab_ts A)) = length (ab_states A);
  gd_lin : length (c_in (ab_ts A)) = length (ab_states A);
  gd_lloops : length (c_loops (ab_ts A)) = length (ab_states A);
  gd_out : forall s o v, In (o, v) (nth s (c_out (ab_ts A)) []) -> o < length (t_ops t) /\ v < length (ab_states A) /\ s < length (ab_states A);
  gd_mirror : forall s o v, In (o, v) (nth s (c_out (ab_ts A)) []) <-> In (o, s) (nth v (c_in (ab_ts A)) []);
  gd_loops : forall s o, In o (nth s (c_loops (ab_ts A)) []) -> o < length (t_ops t);
  gd_conv : forall s, state_ok t s -> exists i, absid st A s i /\ i < length (ab_states A);
  gd_init : absid st A (t_init t) (ab_init A);
  gd_step : forall s o s' i j, state_ok t s -> applicable t s o -> progress t s o s' -> absid st A s i -> absid st A s' j ->
    (i = j /\ In o (nth i (c_loops (ab_ts A)) [])) \/ In (o, j) (nth i (c_out (ab_ts A)) []);
  gd_gnd : NoDup (ab_goals A);
  gd_glt : forall i, In i (ab_goals A) -> i < length (ab_states A);
  gd_goal : forall s i, state_ok t s -> goal_state t s -> absid st A s i -> In i (ab_goals A) }.

Lemma absid_fun st A s i j : absid st A s i -> absid st A s j -> i = j.
Proof. intros (a & E1 & E2) (b & E3 & E4). congruence. Qed.

Definition finite (rem : list (option nat)) (os : list nat) : Prop := forall o, In o os -> exists c, nth_error rem o = Some (Some c).
Definition rcost (rem : list (option nat)) (os : list nat) : nat := list_sum (map (fun o => match nth_error rem o with Some (Some c) => c | _ => 0 end) os).

Section ONE.
Variable P : pqueue.
Variable bag : PQ P -> list (nat * nat).
Hypothesis HP : pq_contract P bag.
Variable q0 : PQ P.
Hypothesis Hq0 : bag q0 = [].
Variable t : task.
Hypothesis Ht : cartesian_task t.
Variable general : bool.
Variable cegar : nat -> task -> list (option nat) -> outcome abstraction.
Notation nops := (length (t_ops t)).

Lemma build_one_ok k st rem A : cegar k (st_task st) rem = Ok A -> good t st A -> length rem = nops ->
  exists rem' f, build_one P q0 cegar general k rem st = Ok (rem', f) /\ length rem' = nops /\
    (forall s, state_ok t s -> exists v, get_value f s = Ok v) /\
    (forall s, state_ok t s -> goal_state t s -> get_value f s = Ok (Some 0)) /\
    (forall p0 s1 os s2 b, task_path t (t_init t) p0 s1 -> task_path t s1 os s2 -> finite rem (p0 ++ os) -> get_value f s2 = Ok (Some b) ->
       exists a, get_value f s1 = Ok (Some a) /\ finite rem' (p0 ++ os) /\ a + rcost rem' os <= rcost rem os + b).
Proof.
  intros EA [G1 G2 G3 G4 G5 G6 G7 G8 G9 G10 G11 G12 G13] Lr. unfold build_one. rewrite EA. cbn [bind]. set (n := length (ab_states A)) in *. set (ts := ab_ts A) in *.
  assert (Hin : ab_init A < n). { destruct (G8 (t_init t)) as (i & Hi & Hlt); [apply Ht|]. now rewrite (absid_fun _ _ _ _ _ G9 Hi). }
  destruct (distances_ok P bag HP q0 Hq0 (c_out ts) rem [ab_init A] n) as (g & -> & Xg); auto.
  { intros s o v _ H. apply G5 in H. rewrite Lr. tauto. }
  { repeat constructor. intros []. }
  { intros s [<-|[]]. exact Hin. }
  cbn [bind]. destruct (distances_ok P bag HP q0 Hq0 (c_in ts) rem (ab_goals A) n) as (h & -> & Xh); auto.
  { intros s o v _ H. apply G6 in H. apply G5 in H. rewrite Lr. tauto. }
  cbn [bind]. pose proof (proj1 Xg) as Lg. pose proof (proj1 Xh) as Lh.
  destruct (saturated_ok general ts g h n Lg Lh G2 G4) as (sat & -> & Hsat).
  { intros s o v H. apply G5 in H. rewrite G1. tauto. }
  { intros s o H. rewrite G1. eapply G7; eauto. }
  cbn [bind]. destruct Hsat as [Ls Hsat]. rewrite G1 in Ls, Hsat.
  assert (Hrelax : forall s o v c hv', In (o, v) (nth s (c_out ts) []) -> nth_error rem o = Some (Some c) -> nth_error h v = Some (Some hv') -> exists hv, nth_error h s = Some (Some hv) /\ hv <= hv' + c).
  { intros s o v c hv' Ho Hc Hv. destruct (G5 s o v Ho) as (_ & Hv1 & Hv2). eapply (exact_edge _ _ _ _ v s c hv' Xh); auto. apply fedges_In. exists o. split; [now apply G6|]. now apply nth_error_nth. }
  assert (Hub : forall o r x, nth_error rem o = Some (Some r) -> nth_error sat o = Some (Some x) -> (x <= Z.of_nat r)%Z).
  { intros o r x Hr Hx. assert (Ho : o < nops) by (rewrite <- Lr; eapply nth_error_Some_lt; eauto). destruct (Hsat o Ho) as (y & E & _ & D & _). rewrite Hx in E. injection E as <-.
    destruct (D x eq_refl) as [(s & _ & gv & hv & _ & Hh & [(v & hv' & Hv1 & Hv2 & ->)|(_ & _ & ->)])|E].
    - destruct (Hrelax s o v r hv' Hv1 Hr Hv2) as (hv2 & E & Hle). rewrite Hh in E. injection E as <-. lia.
    - lia.
    - destruct general; [discriminate|]. injection E as <-. lia. }
  destruct (reduce_ok rem sat) as (rem' & -> & Lr' & Hred); [congruence|exact Hub|]. cbn [bind].
  eexists rem', _. split; [reflexivity|]. set (f := {| hf_conv := _ |}).
  assert (Val : forall s i, absid st A s i -> get_value f s = vget h i).
  { intros s i (s' & E1 & E2). unfold get_value, f. cbn [hf_conv hf_nodes hf_values]. rewrite E1. cbn [bind]. rewrite E2. reflexivity. }
  split; [congruence|]. split; [|split].
  - intros s Hs. destruct (G8 s Hs) as (i & Hi & Hlt). destruct (vget_some h i) as (v & _ & E); [lia|]. exists v. now rewrite (Val s i Hi).
  - intros s Hs Hg. destruct (G8 s Hs) as (i & Hi & Hlt). rewrite (Val s i Hi). apply vget_ok. apply (exact_start _ _ _ _ i Xh); auto. apply (G13 s); auto.
  - (* along a path from a state with finite initial distance *)
    assert (Main : forall s os s2, task_path t s os s2 -> state_ok t s -> forall i j b gi, absid st A s i -> nth_error g i = Some (Some gi) -> finite rem os -> absid st A s2 j -> nth_error h j = Some (Some b) ->
              (exists gj, nth_error g j = Some (Some gj)) /\ exists a, nth_error h i = Some (Some a) /\ finite rem' os /\ a + rcost rem' os <= rcost rem os + b).
    { induction 1 as [s|s o s' os s2 Happ Hprog Hpath IH]; intros Hs i j b gi Hi Hg Hf Hj Hb.
      - assert (i = j) by (eapply absid_fun; eauto). subst j. split; [eauto|]. exists b. splits; auto; [intros o []|cbn; lia].
      - assert (Hs' : state_ok t s') by (apply (next_ok t Ht s o s'); auto). destruct (G8 s' Hs') as (i' & Hi' & Hlt').
        destruct (Hf o (or_introl eq_refl)) as (c & Hc).
        assert (Hg' : exists gi', nth_error g i' = Some (Some gi')).
        { destruct (G10 s o s' i i' Hs Happ Hprog Hi Hi') as [[<- _]|Ho]; [eauto|]. destruct (G5 _ _ _ Ho) as (_ & _ & Hlt).
          destruct (exact_edge _ _ _ _ i i' c gi Xg Hlt Hlt') as (gi' & E & _); eauto. apply fedges_In. exists o. split; auto. now apply nth_error_nth. }
        destruct Hg' as (gi' & Hg'). destruct (IH Hs' i' j b gi' Hi' Hg') as (Hgj & a' & Ha' & Hf' & Hle); auto. { intros o' Ho'. apply Hf. now right. }
        split; auto. assert (Step : exists a x, nth_error h i = Some (Some a) /\ nth_error sat o = Some (Some x) /\ (Z.of_nat a - Z.of_nat a' <= x)%Z).
        { assert (Ho' : o < nops) by (rewrite <- Lr; eapply nth_error_Some_lt; eauto). destruct (Hsat o Ho') as (y & Ey & Y1 & Y2 & Y3).
          destruct (G10 s o s' i i' Hs Happ Hprog Hi Hi') as [[<- Ho]|Ho].
          - exists a'. destruct general eqn:Egen.
            + destruct (Y1 0%Z) as (x & -> & Hx). { exists i. split; [lia|]. exists gi, a'. splits; auto. }
              exists x. splits; auto. lia.
            + destruct (Y3 0%Z eq_refl) as (x & -> & Hx). exists x. splits; auto. lia.
          - destruct (G5 _ _ _ Ho) as (_ & _ & Hlt). destruct (Hrelax i o i' c a' Ho Hc Ha') as (a & Ea & _). exists a.
            destruct (Y1 (Z.of_nat a - Z.of_nat a')%Z) as (x & -> & Hx). { exists i. split; auto. exists gi, a. splits; auto. left. eauto. }
            exists x. splits; auto. }
        destruct Step as (a & x & Ea & Ex & Hx). exists a. assert (Ec := Hred o c x Hc Ex). assert (Hxc := Hub o c x Hc Ex). splits; auto.
        + intros o' [<-|Ho']; [eauto|auto].
        + unfold rcost, list_sum in *. cbn [map fold_right]. rewrite Ec, Hc. lia. }
    intros p0 s1 os s2 b Hp0 Hos Hf Hb. assert (S0 : state_ok t (t_init t)) by apply Ht.
    assert (S1 : state_ok t s1). { clear - Hp0 Ht S0. revert S0. induction Hp0; auto. intros. apply IHHp0. eapply next_ok; eauto. }
    assert (S2 : state_ok t s2). { clear - Hos Ht S1. revert S1. induction Hos; auto. intros. apply IHHos. eapply next_ok; eauto. }
    destruct (G8 s1 S1) as (i & Hi & Hlt). destruct (G8 s2 S2) as (j & Hj & _). rewrite (Val s2 j Hj) in Hb. apply vget_ok in Hb.
    assert (G0 : nth_error g (ab_init A) = Some (Some 0)) by (apply (exact_start _ _ _ _ _ Xg); auto; now left).
    destruct (Main _ _ _ (task_path_app t _ _ _ _ _ Hp0 Hos) S0 (ab_init A) j b 0 G9 G0 Hf Hj Hb) as (_ & a0 & _ & Hfin & _).
    (* initial distance of s1 *)
    assert (Gs : forall s p s', task_path t s p s' -> state_ok t s -> forall i i' gi, absid st A s i -> absid st A s' i' -> finite rem p -> nth_error g i = Some (Some gi) -> exists gi', nth_error g i' = Some (Some gi')).
    { clear - Ht G8 G10 G5 Xg. induction 1 as [s|s o s' p s2 Happ Hprog _ IH]; intros Hs i i2 gi Hi Hi2 Hf Hg.
      - assert (i = i2) by (eapply absid_fun; eauto). subst. eauto.
      - assert (Hs' : state_ok t s') by (apply (next_ok t Ht s o s'); auto). destruct (G8 s' Hs') as (i' & Hi' & Hlt'). destruct (Hf o (or_introl eq_refl)) as (c & Hc).
        assert (Hg' : exists gi', nth_error g i' = Some (Some gi')).
        { destruct (G10 s o s' i i' Hs Happ Hprog Hi Hi') as [[<- _]|Ho]; [eauto|]. destruct (G5 _ _ _ Ho) as (_ & _ & Hlt).
          destruct (exact_edge _ _ _ _ i i' c gi Xg Hlt Hlt') as (gi' & E & _); eauto. apply fedges_In. exists o. split; auto. now apply nth_error_nth. }
        destruct Hg' as (gi' & Hg'). apply (IH Hs' i' i2 gi'); auto. intros o' Ho'. apply Hf. now right. }
    destruct (Gs _ _ _ Hp0 S0 (ab_init A) i 0 G9 Hi) as (gi & Hgi); auto. { intros o Ho. apply Hf. apply in_or_app. auto. }
    destruct (Main _ _ _ Hos S1 i j b gi Hi Hgi) as (_ & a & Ha & _ & Hle); auto. { intros o Ho. apply Hf. apply in_or_app. auto. }
    exists a. splits; auto. rewrite (Val s1 i Hi). now apply vget_ok.
Qed.

(** ** All abstractions *)
Variable abort : nat -> bool.

(** The functions so far with the remaining costs. *)
Record sat_ok (rem : list (option nat)) (fs : list hfunction) : Prop := {
  so_len : length rem = nops;
  so_val : forall f s, In f fs -> state_ok t s -> exists v, get_value f s = Ok v;
  so_goal : forall s, state_ok t s -> goal_state t s -> compute_heuristic fs s = Ok (Some 0);
  so_path : forall p0 s1 os s2 b, task_path t (t_init t) p0 s1 -> task_path t s1 os s2 -> compute_heuristic fs s2 = Ok (Some b) ->
     exists a, compute_heuristic fs s1 = Ok (Some a) /\ finite rem (p0 ++ os) /\ a + rcost rem os <= plan_cost t os + b }.

Lemma heur_app fs f s : forall v, get_value f s = Ok v -> compute_heuristic (fs ++ [f]) s =
  let* x := compute_heuristic fs s in Ok (match x, v with Some a, Some b => Some (a + b) | _, _ => None end).
Proof.
  intros v Hv. induction fs as [|f0 fs IH]; cbn [app compute_heuristic bind].
  - rewrite Hv. cbn [bind]. destruct v as [v|]; auto. cbn [bind]. now rewrite Nat.add_0_r.
  - destruct (get_value f0 s) as [[v0|]| | |]; cbn [bind]; auto. rewrite IH. destruct (compute_heuristic fs s) as [[x|]| | |]; cbn [bind]; auto. destruct v; auto. do 2 f_equal. now rewrite Nat.add_assoc.
Qed.
Lemma path_state_ok s os s' : task_path t s os s' -> state_ok t s -> state_ok t s'.
Proof. induction 1; auto. intros. apply IHtask_path. eapply next_ok; eauto. Qed.
Lemma path_ops s os s' : task_path t s os s' -> forall o, In o os -> o < nops.
Proof. induction 1 as [|s o s' os s2 (op & Ho & _) _ _ IH]; [intros o []|]. intros o' [<-|Ho']; auto. eapply nth_error_Some_lt; eauto. Qed.

Lemma sat_start : sat_ok (map (fun op => Some (op_cost op)) (t_ops t)) [].
Proof.
  constructor.
  - apply map_length.
  - intros f s [].
  - reflexivity.
  - intros p0 s1 os s2 b H1 H2 E. cbn in E. injection E as <-. exists 0. splits; auto.
    + intros o Ho. assert (Hlt : o < nops). { apply in_app_or in Ho as [Ho|Ho]; [eapply path_ops; [exact H1|auto]|eapply path_ops; [exact H2|auto]]. }
      rewrite nth_error_map. destruct (nth_error (t_ops t) o) as [op|] eqn:E; [cbn; eauto|]. apply nth_error_None in E. lia.
    + unfold rcost, plan_cost. replace (map _ os) with (map (fun o => match nth_error (t_ops t) o with Some op => op_cost op | None => 0 end) os); [lia|].
      apply map_ext. intros o. rewrite nth_error_map. destruct (nth_error (t_ops t) o); reflexivity.
Qed.

Lemma dead_end_ok fs s : state_ok t s -> (forall f, In f fs -> exists v, get_value f s = Ok v) -> exists b, state_is_dead_end fs s = Ok b.
Proof.
  intros Hs. induction fs as [|f fs IH]; intros H; cbn [state_is_dead_end]; [eauto|]. destruct (H f (or_introl eq_refl)) as ([v|] & ->); cbn [bind]; eauto. apply IH. intros f' Hf'. apply H. now right.
Qed.
Lemma abort_ok rem fs k : sat_ok rem fs -> exists b, should_abort abort t fs k = Ok b.
Proof.
  intros H. unfold should_abort. destruct (abort k); [eauto|]. apply dead_end_ok; [apply Ht|]. intros f Hf. apply (so_val _ _ H); auto. apply Ht.
Qed.

Lemma sat_step k st rem fs A : cegar k (st_task st) rem = Ok A -> good t st A -> sat_ok rem fs ->
  exists rem' f, build_one P q0 cegar general k rem st = Ok (rem', f) /\ sat_ok rem' (fs ++ [f]).
Proof.
  intros EA HA [S1 S2 S3 S4]. destruct (build_one_ok k st rem A EA HA S1) as (rem' & f & E & L & V & G & Pth). exists rem', f. split; auto. constructor; auto.
  - intros f' s Hf Hs. apply in_app_or in Hf as [Hf|[<-|[]]]; auto.
  - intros s Hs Hg. rewrite (heur_app fs f s _ (G s Hs Hg)), (S3 s Hs Hg). reflexivity.
  - intros p0 s1 os s2 b H1 H2 Hb. assert (Q1 : state_ok t s1) by (eapply path_state_ok; [exact H1|apply Ht]). assert (Q2 : state_ok t s2) by (eapply path_state_ok; [exact H2|exact Q1]).
    destruct (V s2 Q2) as (v2 & Ev2). rewrite (heur_app fs f s2 _ Ev2) in Hb. destruct (compute_heuristic fs s2) as [[b1|]| | |] eqn:E1; cbn [bind] in Hb; try discriminate. destruct v2 as [b2|]; [|discriminate]. injection Hb as <-.
    destruct (S4 p0 s1 os s2 b1 H1 H2 E1) as (a1 & Ea1 & Hf & Hle). destruct (Pth p0 s1 os s2 b2 H1 H2 Hf Ev2) as (a2 & Ea2 & Hf2 & Hle2).
    exists (a1 + a2). rewrite (heur_app fs f s1 _ Ea2), Ea1. cbn [bind]. splits; auto. lia.
Qed.

Lemma build_ok : forall subtasks rem fs k, (forall k st rem, In st subtasks -> length rem = nops -> exists A, cegar k (st_task st) rem = Ok A /\ good t st A) -> sat_ok rem fs ->
  exists rem' fs' k', build_abstractions P q0 cegar abort general t subtasks (rem, fs, k) = Ok (rem', fs', k') /\ sat_ok rem' fs'.
Proof.
  induction subtasks as [|st subtasks IH]; intros rem fs k Hgood Hs; cbn [build_abstractions]; [eauto 6|].
  destruct (Hgood k st rem (or_introl eq_refl) (so_len _ _ Hs)) as (A & EA & HA). destruct (sat_step k st rem fs A EA HA Hs) as (rem' & f & -> & Hs').
  cbn [bind]. destruct (abort_ok rem' (fs ++ [f]) k Hs') as (b & ->). cbn [bind]. destruct b; [eauto 6|]. apply IH; auto. intros. eapply Hgood; eauto. now right.
Qed.
Lemma build_all_ok : forall gens rem fs k, (forall k st rem, In st (concat gens) -> length rem = nops -> exists A, cegar k (st_task st) rem = Ok A /\ good t st A) -> sat_ok rem fs ->
  exists rem' fs' k', build_all P q0 cegar abort general t gens (rem, fs, k) = Ok (rem', fs', k') /\ sat_ok rem' fs'.
Proof.
  induction gens as [|subtasks gens IH]; intros rem fs k Hgood Hs; cbn [build_all]; [eauto 6|].
  destruct (build_ok subtasks rem fs k) as (rem' & fs' & k' & -> & Hs'); auto. { intros k1 st rem1 Hin. apply Hgood. cbn [concat]. apply in_or_app. auto. }
  cbn [bind]. destruct (abort_ok rem' fs' k' Hs') as (b & ->). cbn [bind]. destruct b; [eauto 6|]. apply IH; auto. intros k1 st rem1 Hin. apply Hgood. cbn [concat]. apply in_or_app. auto.
Qed.
Lemma generate_ok gens : (forall k st rem, In st (concat gens) -> length rem = nops -> exists A, cegar k (st_task st) rem = Ok A /\ good t st A) ->
  exists fs rem, generate_heuristic_functions P q0 cegar abort general t gens = Ok fs /\ sat_ok rem fs.
Proof.
  intros H. unfold generate_heuristic_functions. destruct (build_all_ok gens (map (fun op => Some (op_cost op)) (t_ops t)) [] 0 H sat_start) as (rem' & fs' & k' & -> & Hs). cbn [bind snd fst]. eauto.
Qed.
End ONE.

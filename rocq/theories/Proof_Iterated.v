From Verif Require Import Outcome Spec_Plan Spec_Iterated Model_SearchSpace Model_Eager Model_Iterated Proof_Trace.

Lemma lt_bound_below c b : lt_bound (Some c) b = true <-> below c b.
Proof.
  unfold below. destruct b as [x|]; cbn; split; intros H.
  - intros y E; inv E. now apply Nat.ltb_lt.
  - apply Nat.ltb_lt. auto.
  - discriminate.
  - reflexivity.
Qed.

Lemma improving_snoc {P} (cost : P -> nat) ps p : forall b, improving cost b ps ->
  below (cost p) (match rev ps with q :: _ => Some (cost q) | [] => b end) ->
  improving cost b (ps ++ [p]).
Proof.
  induction ps as [|q ps IH]; intros b H Hp; cbn [app].
  - constructor; auto. constructor.
  - inversion H; subst. constructor; auto. apply IH; auto.
    cbn [rev] in Hp. destruct (rev ps) as [|z zs]; exact Hp.
Qed.

Section It.
Variable T : TS.
Variable ph : phases.
Variable cfg : it_config.
Hypothesis Hnum : 0 < ph_num ph.
Let cost := sum_cost (ts_cost T).

Definition found_in (st : it_state) (p : list nat) : Prop := exists i b, In (i, b, Some p) (it_trace st).

(** Which components have been dropped. *)
Record IInv (st : it_state) : Prop := {
  ii_len : length (it_alive st) = ph_num ph;
  ii_alive : forall i, it_phase st <= i < ph_num ph -> nth_error (it_alive st) i = Some true;
  ii_last : ph_num ph <= it_phase st -> ic_repeat_last cfg = true -> it_last st = true ->
            nth_error (it_alive st) (ph_num ph - 1) = Some true;
  ii_improving : improving cost (ic_bound cfg) (it_saved st);
  ii_best : it_best st = match rev (it_saved st) with q :: _ => Some (cost q) | [] => ic_bound cfg end;
  ii_plan : it_plan st = match rev (it_saved st) with q :: _ => Some q | [] => None end;
  ii_saved : forall p, In p (it_saved st) -> found_in st p;
  ii_cheapest : forall p, found_in st p -> below (cost p) (ic_bound cfg) ->
    exists q, it_plan st = Some q /\ cost q <= cost p;
  ii_found : it_found st = true <-> exists p, found_in st p;
  ii_count : length (it_trace st) = it_phase st;
  ii_trace : forall k i b res, nth_error (it_trace st) k = Some (i, b, res) ->
    res = ph_run ph k i b /\ i = Nat.min k (ph_num ph - 1) /\
    (ic_pass_bound cfg = true -> forall k' i' b' p, k' < k -> nth_error (it_trace st) k' = Some (i', b', Some p) ->
       below (cost p) (ic_bound cfg) -> exists y, b = Some y /\ y <= cost p) /\
    (ic_pass_bound cfg = true -> forall x, ic_bound cfg = Some x -> exists y, b = Some y /\ y <= x)
}.

Lemma init_IInv : IInv (it_init ph cfg).
Proof.
  unfold it_init. constructor; cbn.
  - apply repeat_length.
  - intros i Hi. apply nth_error_repeat. lia.
  - discriminate.
  - constructor.
  - reflexivity.
  - reflexivity.
  - intros p [].
  - intros p (i & b & []).
  - split; [discriminate|]. intros (p & i & b & []).
  - reflexivity.
  - intros [|k] i b res H; discriminate.
Qed.

(** The stored plan is at most as expensive as anything found below the bound, so the current
    best bound is too. *)
Lemma best_le st p : IInv st -> found_in st p -> below (cost p) (ic_bound cfg) ->
  exists y, it_best st = Some y /\ y <= cost p.
Proof.
  intros Inv Hf Hb. destruct (ii_cheapest _ Inv p Hf Hb) as (q & Hq & Hle).
  rewrite (ii_plan _ Inv) in Hq. rewrite (ii_best _ Inv). destruct (rev (it_saved st)); inv Hq. eauto.
Qed.
Lemma best_le_bound st x : IInv st -> ic_bound cfg = Some x -> exists y, it_best st = Some y /\ y <= x.
Proof.
  intros Inv Hb. rewrite (ii_best _ Inv). destruct (rev (it_saved st)) as [|q r] eqn:E; [eauto|].
  eexists. split; [reflexivity|]. pose proof (ii_improving _ Inv) as Hi.
  assert (Hin : In q (it_saved st)) by (apply in_rev; rewrite E; cbn; auto).
  assert (H : forall (l : list (list nat)) b z, improving cost b l -> In z l -> forall y, b = Some y -> cost z < y).
  { induction l as [|a l IH]; intros b z Him Hz y Hy; [destruct Hz|]. inversion Him as [|b' p' ps' Hbel Him']; subst.
    pose proof (Hbel _ eq_refl). destruct Hz as [->|Hz]; [auto|]. pose proof (IH _ z Him' Hz _ eq_refl). lia. }
  pose proof (H _ _ _ Hi Hin _ Hb). lia.
Qed.

Definition good_result (r : search_result it_state) : Prop :=
  IInv (result_state r) /\
  match r with
  | IN_PROGRESS _ => True
  | FAILED st => it_plan st = None
  | SOLVED plan st => (it_plan st = Some plan \/ (it_plan st = None /\ plan = [])) /\ it_found st = true
  end.

Lemma plan_found st p : IInv st -> it_plan st = Some p -> it_found st = true.
Proof.
  intros Inv Hp. apply (ii_found _ Inv). exists p. apply (ii_saved _ Inv).
  rewrite (ii_plan _ Inv) in Hp. destruct (rev (it_saved st)) as [|q r] eqn:E; inv Hp.
  apply in_rev. rewrite E. cbn; auto.
Qed.

Lemma bound_passed st i : IInv st -> 
  let b := if ic_pass_bound cfg && lt_bound (it_best st) (ph_bound ph i) then it_best st else ph_bound ph i in
  ic_pass_bound cfg = true -> forall y, it_best st = Some y -> exists z, b = Some z /\ z <= y.
Proof.
  intros Inv b Hp y Hy. subst b. rewrite Hp, Hy. cbn [andb]. destruct (ph_bound ph i) as [z|]; cbn [lt_bound].
  - destruct (Nat.ltb_spec y z); eexists; split; eauto.
  - eauto.
Qed.

Lemma step_IInv st : IInv st -> exists r, it_step T ph cfg st = Ok r /\ good_result r /\
  (match r with IN_PROGRESS st' => it_phase st' = S (it_phase st) /\
     (ph_num ph <= it_phase st -> ic_repeat_last cfg = true /\ it_last st = true) | _ => True end).
Proof.
  intros Inv. unfold it_step.
  assert (Hcur : (bind_current_search ph cfg st = Ok None) \/
     (bind_current_search ph cfg st = Ok (Some (Nat.min (it_phase st) (ph_num ph - 1))) /\
      (ph_num ph <= it_phase st -> ic_repeat_last cfg = true /\ it_last st = true))).
  { unfold bind_current_search. destruct (Nat.leb_spec (ph_num ph) (it_phase st)) as [Hle|Hlt].
    - destruct (ic_repeat_last cfg && it_last st) eqn:E; auto. apply andb_true_iff in E. destruct E as [E1 E2].
      right. rewrite Nat.min_r by lia. unfold bind_search, vget. rewrite (ii_last _ Inv) by auto. cbn. auto.
    - right. rewrite Nat.min_l by lia. unfold bind_search, vget. rewrite (ii_alive _ Inv) by lia. cbn. split; auto. lia. }
  destruct Hcur as [->|[-> Hrep]]; cbn [bind].
  - destruct (it_plan st) as [plan|] eqn:Ep; eexists; (split; [reflexivity|]); unfold good_result; cbn [result_state].
    + split; auto. split; auto. split; auto. eapply plan_found; eauto.
    + split; auto.
  - set (i := Nat.min (it_phase st) (ph_num ph - 1)) in *.
    set (b := if ic_pass_bound cfg && lt_bound (it_best st) (ph_bound ph i) then it_best st else ph_bound ph i).
    set (res := ph_run ph (it_phase st) i b).
    assert (Hcost : forall p, @calculate_plan_cost T p = cost p) by (intros; apply calculate_plan_cost_sum).
    set (last := match res with Some _ => true | None => false end).
    (* the alive vector *)
    assert (Halive : exists alive, (if (S (it_phase st) <? ph_num ph) || negb (ic_repeat_last cfg) || negb last
        then vset (it_alive st) (Nat.min (S (it_phase st) - 1) (ph_num ph - 1)) false
        else Ok (it_alive st)) = Ok alive /\ length alive = ph_num ph /\
        (forall j, S (it_phase st) <= j < ph_num ph -> nth_error alive j = Some true) /\
        (ph_num ph <= S (it_phase st) -> ic_repeat_last cfg = true -> last = true -> nth_error alive (ph_num ph - 1) = Some true)).
    { destruct ((S (it_phase st) <? ph_num ph) || negb (ic_repeat_last cfg) || negb last) eqn:Eg.
      - unfold vset. assert (Hlt : Nat.min (S (it_phase st) - 1) (ph_num ph - 1) < length (it_alive st)) by (rewrite (ii_len _ Inv); lia).
        apply Nat.ltb_lt in Hlt. rewrite Hlt. eexists. split; [reflexivity|]. split; [rewrite upd_length; apply Inv|]. split.
        + intros j Hj. rewrite upd_nth_neq by lia. apply (ii_alive _ Inv). lia.
        + intros H1 H2 H3. rewrite H2, H3 in Eg. cbn [negb] in Eg. rewrite !orb_false_r in Eg. apply Nat.ltb_lt in Eg. lia.
      - eexists. split; [reflexivity|]. split; [apply Inv|]. split.
        + intros j Hj. apply (ii_alive _ Inv). lia.
        + intros H1 H2 H3. apply orb_false_iff in Eg. destruct (Nat.leb_spec (ph_num ph) (it_phase st)).
          * apply (ii_last _ Inv); auto. now apply Hrep.
          * apply (ii_alive _ Inv). lia. }
    destruct Halive as (alive & Ha & Hlen & Hal & Hla).
    destruct (match res with
        | Some p =>
            let c := @calculate_plan_cost T p in
            if lt_bound (Some c) (it_best st) then (Some c, Some p, it_saved st ++ [p])
            else (it_best st, it_plan st, it_saved st)
        | None => (it_best st, it_plan st, it_saved st)
        end) as [[best plan] saved] eqn:Eres.
    rewrite Ha; cbn [bind].
    set (st' := {| it_phase := S (it_phase st); it_last := last; it_best := best; it_found := it_found st || last;
                    it_plan := plan; it_alive := alive; it_saved := saved;
                    it_trace := it_trace st ++ [(i, b, res)] |}).
    assert (Hfi : forall p, found_in st' p <-> found_in st p \/ res = Some p).
    { intros p. unfold found_in, st'; cbn [it_trace]. split.
      - intros (i0 & b0 & H). apply in_app_or in H. destruct H as [H|[H|[]]]; [left; eauto|]. inv H. auto.
      - intros [(i0 & b0 & H)|H]; [exists i0, b0; apply in_or_app; auto|]. exists i, b. apply in_or_app. right. rewrite H. cbn; auto. }
    assert (Hnew : (exists p, res = Some p /\ below (cost p) (it_best st) /\ best = Some (cost p) /\ plan = Some p /\ saved = it_saved st ++ [p])
      \/ (best = it_best st /\ plan = it_plan st /\ saved = it_saved st /\ forall p, res = Some p -> ~ below (cost p) (it_best st))).
    { destruct res as [p|]; cbn zeta in Eres.
      - rewrite Hcost in Eres. destruct (lt_bound (Some (cost p)) (it_best st)) eqn:El; inv Eres.
        + left. exists p. apply lt_bound_below in El. auto.
        + right. splits; auto. intros p0 E; inv E. rewrite <- lt_bound_below. congruence.
      - inv Eres. right. splits; auto. discriminate. }
    assert (Inv' : IInv st').
    { constructor; unfold st'; cbn [it_alive it_phase it_last it_saved it_best it_plan it_found it_trace]; auto.
      - destruct Hnew as [(p & _ & Hb & _ & _ & ->)|(_ & _ & -> & _)]; [|apply Inv].
        apply improving_snoc; [apply Inv|]. rewrite <- (ii_best _ Inv). auto.
      - destruct Hnew as [(p & _ & Hb & -> & _ & ->)|(-> & _ & -> & _)]; [|apply Inv].
        rewrite rev_app_distr. reflexivity.
      - destruct Hnew as [(p & _ & Hb & _ & -> & ->)|(_ & -> & -> & _)]; [|apply Inv].
        rewrite rev_app_distr. reflexivity.
      - intros p Hp. fold st'. apply Hfi. destruct Hnew as [(p0 & Hr & _ & _ & _ & ->)|(_ & _ & -> & _)].
        + apply in_app_or in Hp. destruct Hp as [Hp|[->|[]]]; auto. left. now apply (ii_saved _ Inv).
        + left. now apply (ii_saved _ Inv).
      - intros p Hp Hb. fold st' in Hp. apply Hfi in Hp.
        destruct Hnew as [(p0 & Hr & Hlt & _ & -> & _)|(_ & -> & _ & Hno)].
        + exists p0. split; auto. destruct Hp as [Hp|Hp].
          * destruct (best_le st p Inv Hp Hb) as (y & Hy & Hle). pose proof (Hlt _ Hy). lia.
          * rewrite Hr in Hp. inv Hp. auto.
        + destruct Hp as [Hp|Hp]; [now apply (ii_cheapest _ Inv)|].
          rewrite (ii_plan _ Inv). pose proof (Hno p Hp) as Hn. rewrite (ii_best _ Inv) in Hn.
          destruct (rev (it_saved st)) as [|q r]; [tauto|]. exists q. split; auto.
          destruct (Nat.le_gt_cases (cost q) (cost p)); auto. exfalso. apply Hn. intros x E; inv E; auto.
      - fold st'. rewrite orb_true_iff. split.
        + intros [H|H].
          * apply (ii_found _ Inv) in H. destruct H as [p H]. exists p. apply Hfi; auto.
          * unfold last in H. destruct res as [p|] eqn:Er; [|discriminate]. exists p. apply Hfi; auto.
        + intros [p H]. apply Hfi in H. destruct H as [H|H].
          * left. apply (ii_found _ Inv). eauto.
          * right. unfold last. rewrite H. reflexivity.
      - rewrite app_length, (ii_count _ Inv). cbn. lia.
      - intros k i0 b0 res0 H. destruct (Nat.lt_ge_cases k (length (it_trace st))) as [Hk|Hk].
        + rewrite nth_error_app1 in H by auto. destruct (ii_trace _ Inv _ _ _ _ H) as (A & B & D & E). splits; auto.
          intros Hp k' i' b' p Hkk H'. rewrite nth_error_app1 in H' by lia. eauto.
        + rewrite nth_error_app2 in H by auto. destruct (k - length (it_trace st)) as [|m] eqn:Em; [|destruct m; discriminate].
          cbn in H. inv H. assert (k = it_phase st) by (rewrite <- (ii_count _ Inv); lia). subst k.
          splits; auto.
          * intros Hp k' i' b' p Hkk H' Hb. rewrite nth_error_app1 in H' by lia.
            destruct (best_le st p Inv) as (y & Hy & Hle); auto. { exists i', b'. eapply nth_error_In; eauto. }
            destruct (bound_passed st i Inv Hp y Hy) as (z & Hz & Hzy). exists z. split; auto. lia.
          * intros Hp x Hx. destruct (best_le_bound st x Inv Hx) as (y & Hy & Hle).
            destruct (bound_passed st i Inv Hp y Hy) as (z & Hz & Hzy). exists z. split; auto. lia. }
    assert (Hplan : match plan with Some p => it_plan st' = Some p | None => it_plan st' = None end) by (destruct plan; reflexivity).
    assert (Hsol : (it_plan st' = Some match plan with Some p => p | None => [] end \/
         (it_plan st' = None /\ match plan with Some p => p | None => [] end = []))) by (destruct plan; auto).
    change (it_found st || last) with (it_found st').
    destruct last eqn:El.
    + destruct (ic_continue_on_solve cfg); eexists; (split; [reflexivity|]).
      * split; [split; auto; exact Logic.I|]. split; auto.
      * split; [|exact Logic.I]. split; auto. split; auto. unfold st'; cbn. apply orb_true_r.
    + destruct (ic_continue_on_fail cfg).
      * eexists; (split; [reflexivity|]). split; [split; auto; exact Logic.I|]. split; auto.
      * destruct (it_found st') eqn:Ef; eexists; (split; [reflexivity|]); (split; [|exact Logic.I]).
        -- split; auto.
        -- split; auto. destruct (it_plan st') as [p|] eqn:Ep; auto. pose proof (plan_found _ _ Inv' Ep). congruence.
Qed.

Lemma loop_good fuel : forall st, IInv st -> exists r, it_loop T ph cfg fuel st = Ok r /\ good_result r.
Proof.
  induction fuel as [|f IH]; intros st Inv; cbn [it_loop].
  - eexists. split; [reflexivity|]. split; auto.
  - destruct (step_IInv st Inv) as (r & E & G & _). rewrite E; cbn [bind].
    destruct r as [st'|st'|plan st']; [apply IH, G| |]; eexists; (split; [reflexivity|exact G]).
Qed.

(* ---------- termination ---------- *)

Definition over (r : search_result it_state) : Prop := match r with IN_PROGRESS _ => False | _ => True end.

Lemma terminates_no_repeat_aux : ic_repeat_last cfg = false ->
  forall f st, IInv st -> ph_num ph <= it_phase st + f ->
  exists r, it_loop T ph cfg (S f) st = Ok r /\ over r.
Proof.
  intros Hr. induction f as [|f IH]; intros st Inv Hf; cbn [it_loop];
    destruct (step_IInv st Inv) as (r & E & G & Hp); rewrite E; cbn [bind]; destruct r as [st'|st'|plan st'];
    try (eexists; split; [reflexivity|exact Logic.I]).
  - destruct Hp as (_ & Hp). destruct Hp as [Hp _]; [lia|]. congruence.
  - destruct Hp as (Hp & _). apply IH; [apply G|lia].
Qed.

Lemma terminates_no_repeat : ic_repeat_last cfg = false ->
  exists r, it_search T ph cfg (S (ph_num ph)) = Ok r /\ over r.
Proof. intros Hr. apply terminates_no_repeat_aux; auto. apply init_IInv. Qed.

(** With repetition: phases that find only plans strictly below the bound they are given. *)
Hypothesis Hrespect : forall n i b p, ph_run ph n i b = Some p -> below (cost p) b.
Hypothesis Hpass : ic_pass_bound cfg = true.

(** After a phase that found a plan the best bound is finite and strictly smaller. *)
Lemma step_improves st st' : IInv st -> it_step T ph cfg st = Ok (IN_PROGRESS st') -> it_last st' = true ->
  exists y, it_best st' = Some y /\ below y (it_best st).
Proof.
  intros Inv E Hl. unfold it_step in E. apply bind_ok in E. destruct E as (cur & _ & E).
  destruct cur as [i|]; [|destruct (it_plan st); discriminate].
  set (b := if ic_pass_bound cfg && lt_bound (it_best st) (ph_bound ph i) then it_best st else ph_bound ph i) in E.
  destruct (ph_run ph (it_phase st) i b) as [p|] eqn:Er.
  - assert (Hlt : below (cost p) (it_best st)).
    { intros y Hy. destruct (bound_passed st i Inv Hpass y Hy) as (z & Hz & Hle). fold b in Hz.
      pose proof (Hrespect _ _ _ _ Er z Hz). lia. }
    rewrite calculate_plan_cost_sum in E. fold cost in E. rewrite (proj2 (lt_bound_below _ _) Hlt) in E.
    apply bind_ok in E. destruct E as (alive & _ & E).
    destruct (ic_continue_on_solve cfg); inv E. cbn. eauto.
  - apply bind_ok in E. destruct E as (alive & _ & E).
    destruct (ic_continue_on_fail cfg); [|destruct (it_found st || false)]; inv E; discriminate.
Qed.

Lemma terminates_repeat_aux : forall m st, IInv st ->
  (ph_num ph <= it_phase st -> it_last st = true -> exists y, it_best st = Some y /\ y <= m) ->
  ph_num ph <= it_phase st ->
  exists f r, it_loop T ph cfg f st = Ok r /\ over r.
Proof.
  induction m as [|m IH]; intros st Inv Hm Hph.
  - destruct (step_IInv st Inv) as (r & E & G & Hp). destruct r as [st'|st'|plan st'].
    + destruct Hp as (Hp1 & Hp2). destruct (Hp2 Hph) as (_ & Hl). destruct (Hm Hph Hl) as (y & Hy & Hle).
      destruct (it_last st') eqn:El.
      * destruct (step_improves st st' Inv E El) as (z & Hz & Hzy). pose proof (Hzy _ Hy). lia.
      * destruct (step_IInv st' (proj1 G)) as (r2 & E2 & G2 & Hp3). exists 2, r2. cbn [it_loop]. rewrite E; cbn [bind].
        rewrite E2; cbn [bind]. destruct r2 as [st2|st2|plan st2]; [|split; [reflexivity|exact Logic.I]..].
        destruct Hp3 as (_ & Hp3). destruct Hp3 as [_ Hp3]; [cbn in *; lia|congruence].
    + exists 1. eexists. cbn [it_loop]. rewrite E; cbn [bind]. split; [reflexivity|exact Logic.I].
    + exists 1. eexists. cbn [it_loop]. rewrite E; cbn [bind]. split; [reflexivity|exact Logic.I].
  - destruct (step_IInv st Inv) as (r & E & G & Hp). destruct r as [st'|st'|plan st'].
    + destruct Hp as (Hp1 & Hp2). destruct (Hp2 Hph) as (_ & Hl). destruct (Hm Hph Hl) as (y & Hy & Hle).
      destruct (IH st' (proj1 G)) as (f & r & Ef & Hr).
      * intros _ El. destruct (step_improves st st' Inv E El) as (z & Hz & Hzy). exists z. split; auto.
        pose proof (Hzy _ Hy). lia.
      * lia.
      * exists (S f), r. cbn [it_loop]. rewrite E; cbn [bind]. auto.
    + exists 1. eexists. cbn [it_loop]. rewrite E; cbn [bind]. split; [reflexivity|exact Logic.I].
    + exists 1. eexists. cbn [it_loop]. rewrite E; cbn [bind]. split; [reflexivity|exact Logic.I].
Qed.

Lemma terminates_prefix : forall k st, IInv st -> it_phase st + k = ph_num ph -> (0 < k) ->
  exists f r, it_loop T ph cfg f st = Ok r /\ over r.
Proof.
  induction k as [|k IH]; intros st Inv Hk Hpos; [lia|].
  destruct (step_IInv st Inv) as (r & E & G & Hp). destruct r as [st'|st'|plan st'].
  - destruct Hp as (Hp1 & _).
    assert (Hnext : exists f r, it_loop T ph cfg f st' = Ok r /\ over r).
    { destruct k as [|k].
      - destruct (it_last st') eqn:El.
        + destruct (step_improves st st' Inv E El) as (y & Hy & _).
          eapply (terminates_repeat_aux y st'); [apply G| |lia]. intros _ _. eauto.
        + eapply (terminates_repeat_aux 0 st'); [apply G| |lia]. intros _ H. congruence.
      - apply IH; [apply G|lia|lia]. }
    destruct Hnext as (f & r & Ef & Hr). exists (S f), r. cbn [it_loop]. rewrite E; cbn [bind]. auto.
  - exists 1. eexists. cbn [it_loop]. rewrite E; cbn [bind]. split; [reflexivity|exact Logic.I].
  - exists 1. eexists. cbn [it_loop]. rewrite E; cbn [bind]. split; [reflexivity|exact Logic.I].
Qed.

Lemma terminates_repeat : exists f r, it_search T ph cfg f = Ok r /\ over r.
Proof. apply (terminates_prefix (ph_num ph)); [apply init_IInv|reflexivity|auto]. Qed.
End It.

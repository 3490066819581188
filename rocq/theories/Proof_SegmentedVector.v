(** SegmentedVector and SegmentedArrayVector refine plain vectors. *)
From Verif Require Import Outcome Spec_Vector Model_SegmentedVector.

Lemma vec_set_upd {X} (l : list X) i x : i < length l -> vec_set l i x = upd l i x.
Proof.
  unfold vec_set. revert i; induction l as [|a l IH]; intros [|i] Hi; cbn in *; try lia; auto.
  f_equal. apply IH. lia.
Qed.

Section Flat.
Context {A : Type}.
Variable L : nat.
Notation lens segs := (Forall (fun s : list (option A) => length s = L) segs).

Lemma concat_length (segs : list (list (option A))) : lens segs -> length (concat segs) = length segs * L.
Proof. induction 1 as [|s segs Hs _ IH]; cbn; auto. rewrite app_length. lia. Qed.

Lemma concat_nth (segs : list (list (option A))) s o : lens segs -> o < L ->
  nth_error (concat segs) (s * L + o) =
  match nth_error segs s with Some seg => nth_error seg o | None => None end.
Proof.
  intros H Ho. revert s. induction H as [|seg segs Hs _ IH]; intros s; cbn [concat].
  - destruct s; cbn [nth_error]; destruct (_ + o); auto.
  - destruct s as [|s]; cbn [nth_error Nat.mul Nat.add].
    + rewrite nth_error_app1; auto. lia.
    + rewrite nth_error_app2 by lia. rewrite <- IH. f_equal. lia.
Qed.

Lemma concat_upd (segs : list (list (option A))) s o seg c : lens segs -> o < L ->
  nth_error segs s = Some seg ->
  concat (upd segs s (upd seg o c)) = upd (concat segs) (s * L + o) c.
Proof.
  intros H Ho. revert s. induction H as [|seg0 segs Hs _ IH]; intros s Hn; [destruct s; discriminate|].
  destruct s as [|s]; cbn in Hn.
  - inv Hn. cbn [upd concat Nat.mul Nat.add]. rewrite upd_app_l by lia. auto.
  - cbn [upd concat Nat.mul]. rewrite upd_app_r by lia. rewrite (IH s Hn). f_equal. f_equal. lia.
Qed.

Lemma lens_upd (segs : list (list (option A))) s seg o c : lens segs -> nth_error segs s = Some seg ->
  lens (upd segs s (upd seg o c)).
Proof.
  intros H Hn. rewrite Forall_forall in *. intros x Hx. apply In_upd in Hx. destruct Hx as [->|Hx]; auto.
  rewrite upd_length. apply H. eapply nth_error_In; eauto.
Qed.

Lemma cell_at (segs : list (list (option A))) s o c : lens segs -> o < L ->
  nth_error (concat segs) (s * L + o) = Some c ->
  exists seg, nth_error segs s = Some seg /\ nth_error seg o = Some c /\
    (forall c', exists segs', vset segs s (upd seg o c') = Ok segs' /\
       lens segs' /\ concat segs' = upd (concat segs) (s * L + o) c').
Proof.
  intros H Ho Hc. rewrite concat_nth in Hc by auto.
  destruct (nth_error segs s) as [seg|] eqn:Es; [|discriminate].
  exists seg. splits; auto. intros c'. exists (upd segs s (upd seg o c')). splits.
  - unfold vset. apply nth_error_Some_lt in Es. apply Nat.ltb_lt in Es. now rewrite Es.
  - now apply lens_upd.
  - now apply concat_upd.
Qed.

Lemma cell_get_flat segs s o x : lens segs -> o < L ->
  nth_error (concat segs) (s * L + o) = Some (Some x) -> cell_get segs s o = Ok x.
Proof.
  intros H Ho Hc. destruct (cell_at _ _ _ _ H Ho Hc) as (seg & E1 & E2 & _).
  unfold cell_get, vget. rewrite E1; cbn [bind]. rewrite E2. reflexivity.
Qed.

Lemma cell_put_flat segs s o x y : lens segs -> o < L ->
  nth_error (concat segs) (s * L + o) = Some (Some x) ->
  exists segs', cell_put segs s o y = Ok segs' /\ lens segs' /\
    concat segs' = upd (concat segs) (s * L + o) (Some y).
Proof.
  intros H Ho Hc. destruct (cell_at _ _ _ _ H Ho Hc) as (seg & E1 & E2 & E3).
  unfold cell_put, vget. rewrite E1; cbn [bind]. rewrite E2; cbn [bind]. apply E3.
Qed.
Lemma cell_construct_flat segs s o y : lens segs -> o < L ->
  nth_error (concat segs) (s * L + o) = Some None ->
  exists segs', cell_construct segs s o y = Ok segs' /\ lens segs' /\
    concat segs' = upd (concat segs) (s * L + o) (Some y).
Proof.
  intros H Ho Hc. destruct (cell_at _ _ _ _ H Ho Hc) as (seg & E1 & E2 & E3).
  unfold cell_construct, vget. rewrite E1; cbn [bind]. rewrite E2; cbn [bind]. apply E3.
Qed.
Lemma cell_destroy_flat segs s o x : lens segs -> o < L ->
  nth_error (concat segs) (s * L + o) = Some (Some x) ->
  exists segs', cell_destroy segs s o = Ok segs' /\ lens segs' /\
    concat segs' = upd (concat segs) (s * L + o) None.
Proof.
  intros H Ho Hc. destruct (cell_at _ _ _ _ H Ho Hc) as (seg & E1 & E2 & E3).
  unfold cell_destroy, vget. rewrite E1; cbn [bind]. rewrite E2; cbn [bind]. apply E3.
Qed.

(** [l] constructed objects at the front. *)
Definition front (segs : list (list (option A))) (l : list A) : Prop :=
  lens segs /\ exists k, concat segs = map Some l ++ repeat None k.

Lemma front_get segs l i x : front segs l -> nth_error l i = Some x ->
  nth_error (concat segs) i = Some (Some x).
Proof.
  intros [_ [k ->]] Hi. rewrite nth_error_app1.
  - rewrite nth_error_map, Hi. reflexivity.
  - rewrite map_length. eapply nth_error_Some_lt; eauto.
Qed.

Lemma map_upd {X Y} (f : X -> Y) (l : list X) i x : map f (upd l i x) = upd (map f l) i (f x).
Proof. revert i; induction l as [|a l IH]; intros [|i]; cbn; auto. now rewrite IH. Qed.

Lemma front_upd segs segs' l i x y : front segs l -> nth_error l i = Some x -> lens segs' ->
  concat segs' = upd (concat segs) i (Some y) -> front segs' (upd l i y).
Proof.
  intros [H [k E]] Hi H' E'. split; auto. exists k. rewrite E', E.
  rewrite upd_app_l by (rewrite map_length; eapply nth_error_Some_lt; eauto).
  now rewrite map_upd.
Qed.
End Flat.

Lemma removelast_snoc {X} (l : list X) x : removelast (l ++ [x]) = l.
Proof. rewrite removelast_app by discriminate. cbn. now rewrite app_nil_r. Qed.

Lemma list_snoc {X} (l : list X) n : length l = S n -> exists l' x, l = l' ++ [x] /\ length l' = n.
Proof.
  intros H. destruct (exists_last (l := l)) as (l' & x & E); [destruct l; discriminate|].
  exists l', x. split; auto. subst. rewrite app_length in H. cbn in H. lia.
Qed.

Lemma vec_resize_shrink {X} (l1 l2 : list X) x : vec_resize (l1 ++ l2) (length l1) x = l1.
Proof.
  unfold vec_resize. rewrite firstn_app, Nat.sub_diag, firstn_all, app_length.
  replace (length l1 - (length l1 + length l2)) with 0 by lia. cbn. now rewrite !app_nil_r.
Qed.
Lemma vec_resize_grow {X} (l : list X) n x : length l <= n -> vec_resize l n x = l ++ repeat x (n - length l).
Proof. intros H. unfold vec_resize. now rewrite firstn_all2. Qed.

Section SV.
Context {A : Type}.
Variable sz : nat.
Notation SE := (SEGMENT_ELEMENTS sz).

Lemma SE_pos : 0 < SE.
Proof. unfold SEGMENT_ELEMENTS. destruct (Nat.leb_spec 1 (SEGMENT_BYTES / sz)); lia. Qed.

Definition sv_rep (v : sv A) (l : list A) : Prop := front SE (sv_segments v) l /\ sv_size v = length l.

Lemma sv_pos i : sv_get_segment sz i * SE + sv_get_offset sz i = i /\ sv_get_offset sz i < SE.
Proof.
  unfold sv_get_segment, sv_get_offset. pose proof SE_pos.
  split; [|apply Nat.mod_upper_bound; lia]. pose proof (Nat.div_mod i SE ltac:(lia)). lia.
Qed.

Lemma sv_empty_rep : sv_rep (@sv_empty A) [].
Proof. split; auto. split; [constructor|]. exists 0. reflexivity. Qed.

Lemma sv_get_rep v l i : sv_rep v l ->
  sv_get sz v i = match nth_error l i with Some x => Ok x | None => UB end.
Proof.
  intros [HF Hs]. unfold sv_get. destruct (nth_error l i) as [x|] eqn:Ei.
  - pose proof (nth_error_Some_lt _ _ _ Ei) as Hl. rewrite Hs. apply Nat.ltb_lt in Hl. rewrite Hl; cbn [guard bind].
    destruct (sv_pos i) as [P1 P2]. eapply (cell_get_flat SE); [apply HF|auto|]. rewrite P1. eapply front_get; eauto.
  - apply nth_error_None in Ei. destruct (Nat.ltb_spec i (sv_size v)); [lia|reflexivity].
Qed.

Lemma sv_set_rep v l i x : sv_rep v l ->
  if i <? length l then exists v', sv_set sz v i x = Ok v' /\ sv_rep v' (vec_set l i x)
  else sv_set sz v i x = UB.
Proof.
  intros [HF Hs]. unfold sv_set. rewrite Hs. destruct (Nat.ltb_spec i (length l)); [|reflexivity].
  cbn [guard bind]. destruct (nth_error l i) as [y|] eqn:Ei; [|apply nth_error_None in Ei; lia].
  destruct (sv_pos i) as [P1 P2].
  destruct (cell_put_flat SE (sv_segments v) (sv_get_segment sz i) (sv_get_offset sz i) y x) as (segs' & -> & E2 & E3).
  { apply HF. } { auto. } { rewrite P1. eapply front_get; eauto. }
  cbn [bind]. eexists; split; [reflexivity|]. rewrite vec_set_upd by auto. split; cbn.
  - eapply front_upd; eauto. rewrite P1 in E3. exact E3.
  - now rewrite upd_length.
Qed.

Lemma front_none segs (l : list A) : front SE segs l -> length l < length (concat segs) ->
  nth_error (concat segs) (length l) = Some None.
Proof.
  intros [_ [k E]] Hl. rewrite E in *. rewrite app_length, map_length, repeat_length in Hl.
  rewrite nth_error_app2, map_length, Nat.sub_diag by (rewrite map_length; lia).
  destruct k; [lia|reflexivity].
Qed.

Lemma front_push segs segs' (l : list A) x : front SE segs l -> length l < length (concat segs) ->
  Forall (fun s => length s = SE) segs' -> concat segs' = upd (concat segs) (length l) (Some x) ->
  front SE segs' (l ++ [x]).
Proof.
  intros [H [k E]] Hl H' E'. split; auto. rewrite E in *.
  rewrite app_length, map_length, repeat_length in Hl. destruct k as [|k]; [lia|].
  exists k. rewrite E'. rewrite upd_app_r by (rewrite map_length; lia).
  rewrite map_length, Nat.sub_diag, map_app. cbn. now rewrite <- app_assoc.
Qed.

Lemma front_grow segs (l : list A) : front SE segs l -> front SE (segs ++ [repeat None SE]) l.
Proof.
  intros [H [k E]]. split.
  - apply Forall_app. split; auto. constructor; auto. apply repeat_length.
  - exists (k + SE). rewrite concat_app, E. cbn. rewrite app_nil_r, <- app_assoc, repeat_app. reflexivity.
Qed.

Lemma front_len segs (l : list A) : front SE segs l -> length l <= length segs * SE.
Proof.
  intros [H [k E]]. rewrite <- (concat_length SE); auto. rewrite E, app_length, map_length. lia.
Qed.

Lemma sv_push_rep v l x : sv_rep v l -> exists v', sv_push_back sz v x = Ok v' /\ sv_rep v' (l ++ [x]).
Proof.
  intros [HF Hs]. unfold sv_push_back. pose proof (front_len _ _ HF) as Hlen.
  destruct (sv_pos (sv_size v)) as [P1 P2]. rewrite <- Hs in Hlen.
  assert (Hgrow : exists segs1, (if sv_get_segment sz (sv_size v) =? length (sv_segments v)
      then (let* _ := guard (sv_get_offset sz (sv_size v) =? 0) in Ok (sv_segments v ++ [repeat None SE]))
      else Ok (sv_segments v)) = Ok segs1 /\ front SE segs1 l /\ length l < length (concat segs1)).
  { destruct (Nat.eqb_spec (sv_get_segment sz (sv_size v)) (length (sv_segments v))) as [E|E].
    - assert (Ho : sv_get_offset sz (sv_size v) = 0).
      { rewrite <- E in Hlen. lia. }
      rewrite Ho. cbn [guard Nat.eqb bind]. eexists; split; [reflexivity|]. split; [now apply front_grow|].
      rewrite (concat_length SE) by (apply (front_grow _ _ HF)). rewrite app_length; cbn. pose proof SE_pos. nia.
    - eexists; split; [reflexivity|]. split; auto. rewrite (concat_length SE) by apply HF.
      rewrite <- Hs. pose proof SE_pos. nia. }
  destruct Hgrow as (segs1 & -> & HF1 & Hlt). cbn [bind].
  destruct (cell_construct_flat SE segs1 (sv_get_segment sz (sv_size v)) (sv_get_offset sz (sv_size v)) x)
    as (segs2 & -> & E2 & E3).
  { apply HF1. } { auto. } { rewrite P1, Hs. apply front_none; auto. }
  cbn [bind]. eexists; split; [reflexivity|]. split; cbn.
  - eapply front_push; [exact HF1|exact Hlt|auto|]. rewrite P1, Hs in E3. exact E3.
  - rewrite app_length; cbn. lia.
Qed.

Lemma front_pop segs segs' (l : list A) x : front SE segs (l ++ [x]) ->
  Forall (fun s => length s = SE) segs' -> concat segs' = upd (concat segs) (length l) None ->
  front SE segs' l.
Proof.
  intros [H [k E]] H' E'. split; auto. exists (S k). rewrite E', E, map_app, <- app_assoc. cbn.
  rewrite upd_app_r by (rewrite map_length; lia). now rewrite map_length, Nat.sub_diag.
Qed.

Lemma sv_pop_rep v l x : sv_rep v (l ++ [x]) -> exists v', sv_pop_back sz v = Ok v' /\ sv_rep v' l.
Proof.
  intros [HF Hs]. unfold sv_pop_back. rewrite app_length in Hs; cbn in Hs. rewrite Nat.add_1_r in Hs. rewrite Hs.
  destruct (sv_pos (length l)) as [P1 P2].
  destruct (cell_destroy_flat SE (sv_segments v) (sv_get_segment sz (length l)) (sv_get_offset sz (length l)) x)
    as (segs2 & -> & E2 & E3).
  { apply HF. } { auto. }
  { rewrite P1. eapply front_get; eauto. rewrite nth_error_app2, Nat.sub_diag by lia. reflexivity. }
  cbn [bind]. eexists; split; [reflexivity|]. split; cbn; auto.
  eapply front_pop; eauto. rewrite P1 in E3. exact E3.
Qed.

Lemma sv_pops_rep k : forall v l1 l2, sv_rep v (l1 ++ l2) -> length l2 = k ->
  exists v', sv_pops sz k v = Ok v' /\ sv_rep v' l1.
Proof.
  induction k as [|k IH]; intros v l1 l2 HR Hk; cbn [sv_pops].
  - destruct l2; [|discriminate]. rewrite app_nil_r in HR. eauto.
  - destruct (list_snoc l2 k Hk) as (l2' & x & -> & Hl).
    rewrite app_assoc in HR. destruct (sv_pop_rep _ _ _ HR) as (v1 & -> & HR1). cbn [bind]. eapply IH; eauto.
Qed.
Lemma sv_pushes_rep k x : forall v l, sv_rep v l ->
  exists v', sv_pushes sz k v x = Ok v' /\ sv_rep v' (l ++ repeat x k).
Proof.
  induction k as [|k IH]; intros v l HR; cbn [sv_pushes repeat].
  - rewrite app_nil_r. eauto.
  - destruct (sv_push_rep _ _ x HR) as (v1 & -> & HR1). cbn [bind].
    destruct (IH _ _ HR1) as (v2 & E2 & HR2). exists v2. split; auto. now rewrite <- app_assoc in HR2.
Qed.

Lemma sv_resize_rep v l n x : sv_rep v l -> exists v', sv_resize sz v n x = Ok v' /\ sv_rep v' (vec_resize l n x).
Proof.
  intros HR. unfold sv_resize. pose proof (proj2 HR) as Hs.
  assert (HR' : sv_rep v (firstn n l ++ skipn n l)) by (now rewrite firstn_skipn).
  destruct (sv_pops_rep (sv_size v - n) _ _ _ HR') as (v1 & -> & HR1).
  { rewrite skipn_length. lia. }
  cbn [bind]. destruct (sv_pushes_rep (n - sv_size v1) x _ _ HR1) as (v2 & -> & HR2).
  exists v2. split; auto. unfold vec_resize. rewrite (proj2 HR1), firstn_length in HR2.
  replace (n - Nat.min n (length l)) with (n - length l) in HR2 by lia. exact HR2.
Qed.

Lemma sv_step_rep v l op : sv_rep v l ->
  match vec_step l op with
  | Some l' => exists v', sv_step sz v op = Ok v' /\ sv_rep v' l'
  | None => sv_step sz v op = UB
  end.
Proof.
  intros HR. destruct op as [x| |n x|i x]; cbn [vec_step sv_step].
  - now apply sv_push_rep.
  - destruct l as [|a l].
    + unfold sv_pop_back. rewrite (proj2 HR). reflexivity.
    + destruct (list_snoc (a :: l) (length l) eq_refl) as (l' & x & E & _). rewrite E in *. rewrite removelast_snoc.
      eapply sv_pop_rep; eauto.
  - now apply sv_resize_rep.
  - pose proof (sv_set_rep v l i x HR) as H. destruct (i <? length l); auto.
Qed.

Lemma sv_run_rep ops : forall v l, sv_rep v l ->
  match vec_run l ops with
  | Some l' => exists v', fold_outcome (sv_step sz) ops v = Ok v' /\ sv_rep v' l'
  | None => fold_outcome (sv_step sz) ops v = UB
  end.
Proof.
  induction ops as [|op ops IH]; intros v l HR; cbn [vec_run fold_outcome]; [eauto|].
  pose proof (sv_step_rep v l op HR) as H. destruct (vec_step l op) as [l1|].
  - destruct H as (v1 & -> & HR1). cbn [bind]. apply IH; auto.
  - rewrite H. reflexivity.
Qed.

Lemma sv_history ops :
  match vec_run [] ops with
  | Some l => exists v, sv_run sz ops = Ok v /\ sv_size v = length l /\
      forall i, sv_get sz v i = match nth_error l i with Some x => Ok x | None => UB end
  | None => sv_run sz (A := A) ops = UB
  end.
Proof.
  pose proof (sv_run_rep ops _ _ sv_empty_rep) as H. unfold sv_run. destruct (vec_run [] ops) as [l|]; auto.
  destruct H as (v & E & HR). exists v. splits; auto; [apply HR|]. intros i. now apply sv_get_rep.
Qed.
End SV.

(* ---------- arrays ---------- *)
Section SAV.
Context {A : Type}.
Variable sz epa : nat.
Hypothesis Hepa : 0 < epa.
Notation aps := (arrays_per_segment sz epa).
Notation EPS := (elements_per_segment sz epa).

Lemma aps_pos : 0 < aps.
Proof. unfold arrays_per_segment. lia. Qed.
Lemma EPS_pos : 0 < EPS.
Proof. unfold elements_per_segment. pose proof aps_pos. nia. Qed.

Definition sav_rep (v : sav A) (l : list (list A)) : Prop :=
  front EPS (sav_segments v) (concat l) /\ sav_size v = length l /\ Forall (fun a => length a = epa) l.

Lemma sav_pos i j : j < epa ->
  sav_get_segment sz epa i * EPS + (sav_get_offset sz epa i + j) = i * epa + j /\
  sav_get_offset sz epa i + j < EPS.
Proof.
  intros Hj. unfold sav_get_segment, sav_get_offset, elements_per_segment. pose proof aps_pos.
  pose proof (Nat.div_mod i aps ltac:(lia)). pose proof (Nat.mod_upper_bound i aps ltac:(lia)).
  split; nia.
Qed.

Lemma arr_length (l : list (list A)) : Forall (fun a => length a = epa) l -> length (concat l) = length l * epa.
Proof. induction 1 as [|a l Ha _ IH]; cbn; auto. rewrite app_length. lia. Qed.

Lemma arr_nth (l : list (list A)) i j a : Forall (fun a => length a = epa) l -> nth_error l i = Some a -> j < epa ->
  nth_error (concat l) (i * epa + j) = nth_error a j.
Proof.
  intros H. revert i. induction H as [|b l Hb _ IH]; intros [|i] Hi Hj; try discriminate; cbn in *.
  - inv Hi. rewrite nth_error_app1 by lia. reflexivity.
  - rewrite nth_error_app2 by lia. rewrite <- (IH i Hi Hj). f_equal. lia.
Qed.

Lemma arr_upd (l : list (list A)) i j a x : Forall (fun a => length a = epa) l -> nth_error l i = Some a -> j < epa ->
  concat (upd l i (upd a j x)) = upd (concat l) (i * epa + j) x.
Proof.
  intros H. revert i. induction H as [|b l Hb _ IH]; intros [|i] Hi Hj; try discriminate; cbn in *.
  - inv Hi. rewrite upd_app_l by lia. reflexivity.
  - rewrite upd_app_r by lia. rewrite (IH i Hi Hj). f_equal. f_equal. lia.
Qed.

Lemma arrs_upd (l : list (list A)) i j a x : Forall (fun a => length a = epa) l -> nth_error l i = Some a ->
  Forall (fun a => length a = epa) (upd l i (upd a j x)).
Proof.
  intros H Hi. rewrite Forall_forall in *. intros b Hb. apply In_upd in Hb. destruct Hb as [->|Hb]; auto.
  rewrite upd_length. apply H. eapply nth_error_In; eauto.
Qed.

Lemma sav_empty_rep : sav_rep (@sav_empty A) [].
Proof. splits; auto. split; auto. split; [constructor|]. exists 0. reflexivity. Qed.

Lemma sav_get_rep v l i j a : sav_rep v l -> nth_error l i = Some a -> j < epa ->
  exists x, nth_error a j = Some x /\ sav_get sz epa v i j = Ok x.
Proof.
  intros (HF & Hs & Ha) Hi Hj. unfold sav_get. pose proof (nth_error_Some_lt _ _ _ Hi) as Hl.
  rewrite Hs. apply Nat.ltb_lt in Hl. rewrite Hl; cbn [guard bind].
  assert (Hla : length a = epa) by (rewrite Forall_forall in Ha; apply Ha; eapply nth_error_In; eauto).
  destruct (vget_some a j) as (x & Ex & _); [lia|]. exists x. split; auto.
  destruct (sav_pos i j Hj) as [P1 P2]. eapply (cell_get_flat EPS); [apply HF|auto|].
  rewrite P1. eapply front_get; eauto. erewrite arr_nth; eauto.
Qed.

Lemma sav_set_rep v l i j a x : sav_rep v l -> nth_error l i = Some a -> j < epa ->
  exists v', sav_set sz epa v i j x = Ok v' /\ sav_rep v' (vec_set l i (vec_set a j x)).
Proof.
  intros (HF & Hs & Ha) Hi Hj. unfold sav_set. pose proof (nth_error_Some_lt _ _ _ Hi) as Hl.
  rewrite Hs. assert (Hl' := Hl). apply Nat.ltb_lt in Hl'. rewrite Hl'; cbn [guard bind].
  assert (Hla : length a = epa) by (rewrite Forall_forall in Ha; apply Ha; eapply nth_error_In; eauto).
  destruct (vget_some a j) as (y & Ey & _); [lia|].
  destruct (sav_pos i j Hj) as [P1 P2].
  assert (Hflat : nth_error (concat l) (i * epa + j) = Some y) by (erewrite arr_nth; eauto).
  destruct (cell_put_flat EPS (sav_segments v) (sav_get_segment sz epa i) (sav_get_offset sz epa i + j) y x) as (segs' & -> & E2 & E3).
  { apply HF. } { auto. } { rewrite P1. eapply front_get; eauto. }
  cbn [bind]. eexists; split; [reflexivity|]. rewrite !vec_set_upd by lia. splits; cbn.
  - split; [|split].
    + erewrite arr_upd by eauto. eapply front_upd; eauto. rewrite P1 in E3. exact E3.
    + now rewrite upd_length.
    + eapply arrs_upd; eauto.
Qed.

Lemma copy_in_rep k : forall segs s o src (l : list A), front EPS segs l ->
  s * EPS + o = length l -> o + k <= EPS -> length l + k <= length (concat segs) -> length src = k ->
  exists segs', copy_in k segs s o src = Ok segs' /\ front EPS segs' (l ++ src).
Proof.
  induction k as [|k IH]; intros segs s o src l HF Hp Ho Hlen Hsrc; cbn [copy_in].
  - destruct src; [|discriminate]. rewrite app_nil_r. eauto.
  - destruct src as [|x src]; [discriminate|]. cbn in Hsrc.
    destruct (cell_construct_flat EPS segs s o x) as (segs2 & -> & E2 & E3).
    { apply HF. } { lia. }
    { rewrite Hp. destruct HF as [_ [m E]]. rewrite E in *. rewrite app_length, map_length, repeat_length in Hlen.
      rewrite nth_error_app2, map_length, Nat.sub_diag by (rewrite map_length; lia). destruct m; [lia|reflexivity]. }
    cbn [bind].
    destruct (IH segs2 s (S o) src (l ++ [x])) as (segs3 & -> & HF3).
    + destruct HF as [H [m E]]. split; auto. rewrite E in *. rewrite app_length, map_length, repeat_length in Hlen.
      destruct m as [|m]; [lia|]. exists m. rewrite E3, Hp. rewrite upd_app_r by (rewrite map_length; lia).
      rewrite map_length, Nat.sub_diag, map_app. cbn. now rewrite <- app_assoc.
    + rewrite app_length; cbn. lia.
    + lia.
    + rewrite E3, upd_length, app_length; cbn. lia.
    + lia.
    + eexists; split; [reflexivity|]. now rewrite <- app_assoc in HF3.
Qed.

Lemma sav_push_rep v l a : sav_rep v l -> length a = epa ->
  exists v', sav_push_back sz epa v a = Ok v' /\ sav_rep v' (l ++ [a]).
Proof.
  intros (HF & Hs & Ha) Hla. unfold sav_push_back.
  destruct (sav_pos (sav_size v) 0 Hepa) as [P1 P2]. rewrite !Nat.add_0_r in *.
  assert (Hflen : length (concat l) = sav_size v * epa) by (rewrite arr_length; auto; lia).
  assert (Hcap : length (concat l) <= length (sav_segments v) * EPS).
  { rewrite <- (concat_length EPS) by apply HF. destruct HF as [_ [k E]]. rewrite E, app_length, map_length. lia. }
  pose proof EPS_pos as HE. pose proof aps_pos as Hap.
  assert (Hoff : sav_get_offset sz epa (sav_size v) + epa <= EPS).
  { unfold sav_get_offset, elements_per_segment. pose proof (Nat.mod_upper_bound (sav_size v) aps ltac:(lia)). nia. }
  assert (Hgrow : exists segs1, (if sav_get_segment sz epa (sav_size v) =? length (sav_segments v)
      then (let* _ := guard (sav_get_offset sz epa (sav_size v) =? 0) in Ok (sav_segments v ++ [repeat None EPS]))
      else Ok (sav_segments v)) = Ok segs1 /\ front EPS segs1 (concat l) /\ length (concat l) + epa <= length (concat segs1)).
  { destruct (Nat.eqb_spec (sav_get_segment sz epa (sav_size v)) (length (sav_segments v))) as [E|E].
    - assert (Ho : sav_get_offset sz epa (sav_size v) = 0).
      { rewrite <- E in Hcap. lia. }
      rewrite Ho. cbn [guard Nat.eqb bind]. eexists; split; [reflexivity|].
      assert (HF' : front EPS (sav_segments v ++ [repeat None EPS]) (concat l)).
      { destruct HF as [H [k E']]. split.
        - apply Forall_app. split; auto. constructor; auto. apply repeat_length.
        - exists (k + EPS). rewrite concat_app, E'. cbn. rewrite app_nil_r, <- app_assoc, repeat_app. reflexivity. }
      split; auto. rewrite (concat_length EPS) by apply HF'. rewrite app_length; cbn. lia.
    - eexists; split; [reflexivity|]. split; auto. rewrite (concat_length EPS) by apply HF.
      assert (sav_get_segment sz epa (sav_size v) < length (sav_segments v)) by nia. nia. }
  destruct Hgrow as (segs1 & -> & HF1 & Hlt). cbn [bind].
  destruct (copy_in_rep epa segs1 (sav_get_segment sz epa (sav_size v)) (sav_get_offset sz epa (sav_size v)) a (concat l))
    as (segs2 & -> & HF2); auto; try lia.
  cbn [bind]. eexists; split; [reflexivity|]. split; [|split]; cbn.
  - rewrite concat_app. cbn. now rewrite app_nil_r.
  - rewrite app_length; cbn. lia.
  - apply Forall_app. auto.
Qed.

Lemma destroy_run_flat k : forall segs s o (l1 l2 : list (option A)),
  Forall (fun s => length s = EPS) segs -> s * EPS + o = length l1 -> o + k <= EPS ->
  (exists xs, length xs = k /\ concat segs = l1 ++ map Some xs ++ l2) ->
  exists segs', destroy_run k segs s o = Ok segs' /\ Forall (fun s => length s = EPS) segs' /\
    concat segs' = l1 ++ repeat None k ++ l2.
Proof.
  induction k as [|k IH]; intros segs s o l1 l2 H Hp Ho (xs & Hx & E); cbn [destroy_run].
  - destruct xs; [|discriminate]. eauto.
  - destruct xs as [|x xs]; [discriminate|]. cbn in Hx, E.
    destruct (cell_destroy_flat EPS segs s o x) as (segs2 & -> & E2 & E3).
    { auto. } { lia. } { rewrite Hp, E, nth_error_app2, Nat.sub_diag by lia. reflexivity. }
    cbn [bind].
    destruct (IH segs2 s (S o) (l1 ++ [None]) l2) as (segs3 & -> & H3 & E4).
    + auto.
    + rewrite app_length; cbn. lia.
    + lia.
    + exists xs. split; [lia|]. rewrite E3, E, Hp, upd_app_r, Nat.sub_diag by lia. cbn. now rewrite <- app_assoc.
    + eexists; splits; [reflexivity|auto|]. rewrite E4, <- app_assoc. reflexivity.
Qed.

Lemma sav_pop_rep v l a : sav_rep v (l ++ [a]) -> exists v', sav_pop_back sz epa v = Ok v' /\ sav_rep v' l.
Proof.
  intros (HF & Hs & Ha). unfold sav_pop_back. rewrite app_length in Hs; cbn in Hs. rewrite Nat.add_1_r in Hs. rewrite Hs.
  apply Forall_app in Ha. destruct Ha as [Ha1 Ha2]. inv Ha2.
  destruct (sav_pos (length l) 0 Hepa) as [P1 P2]. rewrite !Nat.add_0_r in *.
  destruct HF as [H [k E]].
  destruct (destroy_run_flat epa (sav_segments v) (sav_get_segment sz epa (length l)) (sav_get_offset sz epa (length l))
    (map Some (concat l)) (repeat None k)) as (segs2 & -> & E2 & E3).
  { auto. } { rewrite map_length, arr_length by auto. lia. }
  { unfold sav_get_offset, elements_per_segment. pose proof aps_pos. pose proof (Nat.mod_upper_bound (length l) aps ltac:(lia)). nia. }
  { exists a. split; auto. rewrite E, concat_app. cbn. rewrite app_nil_r, map_app, <- app_assoc. reflexivity. }
  cbn [bind]. eexists; split; [reflexivity|]. split; [|split]; cbn; auto.
  split; auto. exists (epa + k). now rewrite repeat_app.
Qed.

Lemma sav_pops_rep k : forall v l1 l2, sav_rep v (l1 ++ l2) -> length l2 = k ->
  exists v', sav_pops sz epa k v = Ok v' /\ sav_rep v' l1.
Proof.
  induction k as [|k IH]; intros v l1 l2 HR Hk; cbn [sav_pops].
  - destruct l2; [|discriminate]. rewrite app_nil_r in HR. eauto.
  - destruct (list_snoc l2 k Hk) as (l2' & x & -> & Hl).
    rewrite app_assoc in HR. destruct (sav_pop_rep _ _ _ HR) as (v1 & -> & HR1). cbn [bind]. eapply IH; eauto.
Qed.
Lemma sav_pushes_rep k x : length x = epa -> forall v l, sav_rep v l ->
  exists v', sav_pushes sz epa k v x = Ok v' /\ sav_rep v' (l ++ repeat x k).
Proof.
  intros Hx. induction k as [|k IH]; intros v l HR; cbn [sav_pushes repeat].
  - rewrite app_nil_r. eauto.
  - destruct (sav_push_rep _ _ x HR Hx) as (v1 & -> & HR1). cbn [bind].
    destruct (IH _ _ HR1) as (v2 & E2 & HR2). exists v2. split; auto. now rewrite <- app_assoc in HR2.
Qed.

Lemma sav_step_rep v l op l' : sav_rep v l -> avec_step epa l op = Some l' ->
  exists v', sav_step sz epa v op = Ok v' /\ sav_rep v' l'.
Proof.
  intros HR. destruct op as [a| |n a|i j x]; cbn [avec_step sav_step].
  - destruct (Nat.eqb_spec (length a) epa); [|discriminate]. intros H; inv H. now apply sav_push_rep.
  - destruct l as [|a l]; [discriminate|]. intros H. injection H as <-.
    change (match l with [] => [] | _ :: _ => a :: removelast l end) with (removelast (a :: l)).
    destruct (list_snoc (a :: l) (length l) eq_refl) as (l1 & x & E & _). rewrite E in *. rewrite removelast_snoc.
    eapply sav_pop_rep; eauto.
  - destruct (Nat.eqb_spec (length a) epa); [|discriminate]. intros H; inv H.
    unfold sav_resize. pose proof (proj1 (proj2 HR)) as Hs.
    assert (HR' : sav_rep v (firstn n l ++ skipn n l)) by (now rewrite firstn_skipn).
    destruct (sav_pops_rep (sav_size v - n) _ _ _ HR') as (v1 & -> & HR1).
    { rewrite skipn_length. lia. }
    cbn [bind]. destruct (sav_pushes_rep (n - sav_size v1) a ltac:(auto) _ _ HR1) as (v2 & -> & HR2).
    exists v2. split; auto. unfold vec_resize. rewrite (proj1 (proj2 HR1)), firstn_length in HR2.
    replace (n - Nat.min n (length l)) with (n - length l) in HR2 by lia. exact HR2.
  - destruct (nth_error l i) as [a|] eqn:Ei; [|discriminate].
    destruct (Nat.ltb_spec j epa); [|discriminate]. intros Hx; inv Hx. eapply sav_set_rep; eauto.
Qed.

Lemma sav_history ops l : avec_run epa [] ops = Some l ->
  exists v, sav_run sz epa (A := A) ops = Ok v /\ sav_size v = length l /\
    forall i a j, nth_error l i = Some a -> j < epa ->
      exists x, nth_error a j = Some x /\ sav_get sz epa v i j = Ok x.
Proof.
  assert (H : forall ops v0 l0, sav_rep v0 l0 -> avec_run epa l0 ops = Some l ->
    exists v, fold_outcome (sav_step sz epa) ops v0 = Ok v /\ sav_rep v l).
  { induction ops0 as [|op ops0 IH]; cbn [avec_run fold_outcome]; intros v0 l0 HR Hr; [inv Hr; eauto|].
    destruct (avec_step epa l0 op) as [l1|] eqn:Es; [|discriminate].
    destruct (sav_step_rep _ _ _ _ HR Es) as (v1 & -> & HR1). cbn [bind]. eauto. }
  intros Hr. destruct (H ops _ _ sav_empty_rep Hr) as (v & E & HR).
  exists v. splits; auto; [apply HR|]. intros i a j Hi Hj. eapply sav_get_rep; eauto.
Qed.
End SAV.

(** The abstract A* search of the refinement loop: it stops, and the path it returns is a cheapest
    one. *)
From Coq Require Import Permutation.
From Verif Require Import Outcome Spec_Relaxation Model_PQ Model_Graph Model_Cartesian Model_CEGAR Proof_Cartesian3.

(** Paths over edges with operator, target and cost whose states, except the last one, are no goals
    ([G] is the set of goals; with an empty [G] all paths). *)
Inductive apath (ed : nat -> nat -> nat -> nat -> Prop) (G : nat -> Prop) : nat -> list (nat * nat) -> nat -> nat -> Prop :=
| ap_nil : forall u, apath ed G u [] 0 u
| ap_cons : forall u o x c p w v, ~ G u -> ed u o x c -> apath ed G x p w v -> apath ed G u ((o, x) :: p) (c + w) v.

Lemma apath_app ed G u p w x q w' v : apath ed G u p w x -> apath ed G x q w' v -> apath ed G u (p ++ q) (w + w') v.
Proof. intros H1 H2. induction H1; [exact H2|]. cbn [app]. rewrite <- Nat.add_assoc. econstructor; eauto. Qed.
Lemma apath_weak ed (G G' : nat -> Prop) u p w v : (forall x, G' x -> G x) -> apath ed G u p w v -> apath ed G' u p w v.
Proof. intros HG H. induction H; econstructor; eauto. Qed.
Lemma apath_first ed (G G' : nat -> Prop) u p w v : (forall x, {G x} + {~ G x}) -> apath ed G' u p w v -> G v ->
  exists p' w' v', apath ed G u p' w' v' /\ G v' /\ w' <= w.
Proof.
  intros dec H. induction H as [u|u o x c p w v _ He H IH]; intros Hv.
  - exists [], 0, u. splits; auto. constructor.
  - destruct (dec u) as [Hu|Hu]; [exists [], 0, u; splits; auto; [constructor|lia]|].
    destruct (IH Hv) as (p' & w' & v' & H1 & H2 & H3). exists ((o, x) :: p'), (c + w'), v'. splits; auto; [econstructor; eauto|lia].
Qed.

Definition getg (si : list sinfo) (s : nat) : option nat := si_g (nth s si new_sinfo).
Definition geth (si : list sinfo) (s : nat) : option nat := si_h (nth s si new_sinfo).
Definition geti (si : list sinfo) (s : nat) : option (nat * nat) := si_in (nth s si new_sinfo).
Lemma getg_lt si s g : getg si s = Some g -> s < length si.
Proof. unfold getg. intros H. destruct (Nat.ltb_spec s (length si)); auto. rewrite nth_overflow in H by lia. discriminate. Qed.
Lemma nth_si_upd (si : list sinfo) i x s : i < length si -> nth s (upd si i x) new_sinfo = if i =? s then x else nth s si new_sinfo.
Proof.
  intros H. destruct (Nat.ltb_spec s (length si)) as [Hs|Hs].
  - pose proof (upd_nth si i s x) as U. rewrite (nth_error_nth' (upd si i x) new_sinfo) in U by now rewrite upd_length.
    rewrite (nth_error_nth' si new_sinfo Hs) in U. rewrite (proj2 (Nat.ltb_lt i (length si)) H), andb_true_r in U.
    destruct (Nat.eqb_spec i s); cbn [andb] in U; congruence.
  - rewrite !nth_overflow by (try rewrite upd_length; lia). destruct (Nat.eqb_spec i s); [lia|auto].
Qed.
Lemma vget_si (si : list sinfo) i : i < length si -> vget si i = Ok (nth i si new_sinfo).
Proof. intros H. unfold vget. now rewrite (nth_error_nth' si new_sinfo H). Qed.
Lemma vset_si (si : list sinfo) i x : i < length si -> vset si i x = Ok (upd si i x).
Proof. intros H. apply vset_ok. auto. Qed.

Section ASTAR.
Variable P : pqueue.
Variable bag : PQ P -> list (nat * nat).
Hypothesis HP : pq_contract P bag.
Variable q0 : PQ P.
Hypothesis Hq0 : bag q0 = [].
Variable costs : list (option nat).
Variable T : list (list (nat * nat)).
Variable goals : list nat.
Variable init : nat.
Notation n := (length T).
Hypothesis Hinit : init < n.
Hypothesis HT : forall u l o v, nth_error T u = Some l -> In (o, v) l -> o < length costs /\ v < n /\ v <> u.
Definition ed (u o v c : nat) : Prop := (exists l, nth_error T u = Some l /\ In (o, v) l) /\ nth_error costs o = Some (Some c).
Notation isgoal := (fun x => In x goals).
Notation none := (fun _ : nat => False).
Notation C := (max_cost costs).

Variable hs : nat -> nat.
(** The values are lower bounds on the cost to a goal. *)
Definition admissible_h (h : nat -> nat) : Prop := forall s p w v, s < n -> apath ed none s p w v -> In v goals -> h s <= w.

Lemma ed_lt u o v c : ed u o v c -> u < n /\ v < n /\ v <> u /\ c <= C.
Proof.
  intros [(l & Hl & Hi) Hc]. destruct (HT u l o v Hl Hi) as (_ & H1 & H2). splits; auto; [eapply nth_error_Some_lt; eauto|].
  unfold max_cost. apply nth_error_In in Hc. apply (in_map (fun c => match c with None => 0 | Some c => c end)) in Hc.
  pose proof (list_max_le (map (fun c => match c with None => 0 | Some c => c end) costs) (list_max (map (fun c => match c with None => 0 | Some c => c end) costs))) as [H _].
  specialize (H (le_n _)). rewrite Forall_forall in H. now apply H.
Qed.

(** Following the incoming transitions back to the initial state. *)
Inductive chain (si : list sinfo) : nat -> list nat -> Prop :=
| ch_init : chain si init []
| ch_step : forall s o p l, s <> init -> geti si s = Some (o, p) -> chain si p l -> chain si s (s :: l).
Lemma chain_det si s l : chain si s l -> forall l', chain si s l' -> l = l'.
Proof.
  induction 1 as [|s o p l Hs Hi _ IH]; intros l' H; inversion H; subst; auto; try congruence. f_equal. apply IH. congruence.
Qed.
Lemma chain_sub si s l : chain si s l -> forall x, In x l -> exists l', chain si x l' /\ length l' <= length l.
Proof.
  induction 1 as [|s o p l Hs Hi Hc IH]; intros x Hx; [destruct Hx|]. destruct Hx as [<-|Hx]; [exists (s :: l); split; auto; econstructor; eauto|].
  destruct (IH x Hx) as (l' & H1 & H2). exists l'. split; auto. cbn. lia.
Qed.
Lemma chain_nodup si s l : chain si s l -> NoDup l.
Proof.
  induction 1 as [|s o p l Hs Hi Hc IH]; constructor; auto. intros Hx. destruct (chain_sub _ _ _ Hc s Hx) as (l' & H1 & H2).
  assert (E : chain si s (s :: l)) by (econstructor; eauto). rewrite (chain_det _ _ _ H1 _ E) in H2. cbn in H2. lia.
Qed.

(** The number of discovered states, and the potential. *)
Definition disc (si : list sinfo) : nat := length (filter (fun s => match getg si s with Some _ => true | None => false end) (seq 0 n)).
Definition pot (si : list sinfo) (s : nat) : nat := match getg si s with Some g => g | None => S (n * C) end.
Definition total (si : list sinfo) : nat := list_sum (map (pot si) (seq 0 n)).

Record Inv (si : list sinfo) (q : PQ P) (cur : nat) (rest : list (nat * nat)) : Prop := {
  v_len : length si = n;
  v_h : forall s, s < n -> geth si s = Some (hs s);
  v_init : getg si init = Some 0;
  v_path : forall s g, getg si s = Some g -> exists p, apath ed isgoal init p g s;
  v_bag : forall f s, In (f, s) (bag q) -> s < n /\ exists g, getg si s = Some g /\ g + hs s <= f;
  v_live : forall s g, getg si s = Some g -> In (g + hs s, s) (bag q) \/
     (~ In s goals /\ forall o v c, ed s o v c -> (s = cur /\ In (o, v) rest) \/ exists g', getg si v = Some g' /\ g' <= g + c);
  v_in : forall s g, getg si s = Some g -> s <> init -> exists o p gp c, geti si s = Some (o, p) /\ ed p o s c /\ ~ In p goals /\ getg si p = Some gp /\ gp + c <= g;
  v_chain : forall s g, getg si s = Some g -> exists l, chain si s l;
  v_max : forall s g, getg si s = Some g -> g + C <= disc si * C }.

Lemma total_drop si si' s : s < n -> (forall x, x <> s -> getg si' x = getg si x) -> pot si' s < pot si s -> total si' < total si.
Proof.
  intros Hs Ho Hlt. unfold total.
  assert (G : forall k m, k <= s < k + m -> list_sum (map (pot si') (seq k m)) < list_sum (map (pot si) (seq k m))).
  { intros k m. revert k. induction m as [|m IH]; intros k Hk; [lia|]. cbn [seq map]. change (list_sum (pot si' k :: map (pot si') (seq (S k) m))) with (pot si' k + list_sum (map (pot si') (seq (S k) m))).
    change (list_sum (pot si k :: map (pot si) (seq (S k) m))) with (pot si k + list_sum (map (pot si) (seq (S k) m))).
    destruct (Nat.eq_dec k s) as [->|Hn].
    - assert (E : map (pot si') (seq (S s) m) = map (pot si) (seq (S s) m)); [|rewrite E; lia].
      apply map_ext_in. intros x Hx. apply in_seq in Hx. unfold pot. rewrite Ho; auto. lia.
    - assert (E : pot si' k = pot si k) by (unfold pot; rewrite Ho; auto). rewrite E. specialize (IH (S k)). lia. }
  apply G. lia.
Qed.
Lemma disc_le si : disc si <= n.
Proof.
  unfold disc. rewrite <- (seq_length n 0) at 2. generalize (seq 0 n). induction l as [|a l IH]; [auto|]. cbn [filter]. destruct (getg si a); cbn [length]; lia.
Qed.
Lemma disc_mono si si' s : s < n -> (forall x, x <> s -> getg si' x = getg si x) -> (exists g, getg si' s = Some g) ->
  disc si' = match getg si s with Some _ => disc si | None => S (disc si) end.
Proof.
  intros Hs Ho (g & Hg). unfold disc.
  set (f := fun si (x : nat) => match getg si x with Some _ => true | None => false end).
  assert (G : forall k m, length (filter (f si') (seq k m)) = length (filter (f si) (seq k m)) + (if (k <=? s) && (s <? k + m) then match getg si s with Some _ => 0 | None => 1 end else 0)).
  { intros k m. revert k. induction m as [|m IH]; intros k.
    - cbn [seq filter length]. destruct (Nat.leb_spec k s), (Nat.ltb_spec s (k + 0)); cbn [andb]; lia.
    - cbn [seq filter]. specialize (IH (S k)). destruct (Nat.eq_dec k s) as [->|Hn].
      + assert (E1 : f si' s = true) by (unfold f; now rewrite Hg). assert (E2 : f si s = match getg si s with Some _ => true | None => false end) by reflexivity. rewrite E1, E2. rewrite (proj2 (Nat.leb_le s s)), (proj2 (Nat.ltb_lt s (s + S m))) by lia.
        rewrite (proj2 (Nat.leb_gt (S s) s)) in IH by lia. cbn [andb] in *. destruct (getg si s); cbn [length]; lia.
      + assert (E : f si' k = f si k) by (unfold f; rewrite Ho; auto). rewrite E.
        assert (E2 : (k <=? s) && (s <? k + S m) = (S k <=? s) && (s <? S k + m)).
        { destruct (Nat.leb_spec k s), (Nat.ltb_spec s (k + S m)), (Nat.leb_spec (S k) s), (Nat.ltb_spec s (S k + m)); cbn [andb]; auto; exfalso; lia. }
        rewrite E2. destruct (f si k); cbn [length]; lia. }
  rewrite G. cbn [Nat.leb andb]. rewrite (proj2 (Nat.ltb_lt s (0 + n))) by (cbn [Nat.add]; exact Hs). cbn [Nat.leb andb]. unfold f; destruct (getg si s); lia.
Qed.

(** g values do not grow along the incoming transitions. *)
Lemma chain_g si q cur rest : Inv si q cur rest -> forall s l, chain si s l -> forall g x, getg si s = Some g -> In x l -> exists gx, getg si x = Some gx /\ gx <= g.
Proof.
  intros HI s l H. induction H as [|s o p l Hs Hi Hc IH]; intros g x Hg Hx; [destruct Hx|].
  destruct Hx as [<-|Hx]; [eauto|]. destruct (v_in _ _ _ _ HI s g Hg Hs) as (o' & p' & gp & c & E & _ & _ & Hgp & Hle). rewrite E in Hi. inversion Hi; subst o' p'.
  destruct (IH gp x Hgp Hx) as (gx & H1 & H2). exists gx. split; auto. lia.
Qed.

Lemma relax_step si q cur gc o v rest l : Inv si q cur ((o, v) :: rest) -> getg si cur = Some gc -> nth_error T cur = Some l -> In (o, v) l -> ~ In cur goals ->
  exists si' q', a_relax P costs gc cur (si, q) (o, v) = Ok (si', q') /\ Inv si' q' cur rest /\ getg si' cur = Some gc /\
    length (bag q') + total si' <= length (bag q) + total si.
Proof.
  intros HI Hgc Hl Hin Hng. pose proof HI as [Hlen Hh Hin0 Hp Hb Hlv Hi Hch Hmx]. destruct (HT cur l o v Hl Hin) as (Ho & Hv & Hne).
  unfold a_relax. destruct (nth_error costs o) as [c|] eqn:Ec; [|apply nth_error_None in Ec; lia].
  assert (Ecv : vget costs o = Ok c) by (unfold vget; now rewrite Ec). rewrite Ecv. cbn [bind]. rewrite vget_si by lia. cbn [bind].
  assert (SKIP : (forall c', c = Some c' -> exists g', getg si v = Some g' /\ g' <= gc + c') -> Inv si q cur rest).
  { intros Hs. constructor; auto. intros s g Hg. destruct (Hlv s g Hg) as [H|[H1 H2]]; [auto|]. right. split; auto. intros o' v' c' He.
    destruct (H2 o' v' c' He) as [[-> [E|H]]|H]; [|auto|auto]. inversion E; subst o' v'. right. destruct He as [_ He]. rewrite Ec in He. inversion He; subst c. rewrite Hgc in Hg. inversion Hg; subst g. now apply Hs. }
  destruct c as [c|].
  2: { exists si, q. splits; auto. apply SKIP. intros c' H. discriminate. }
  assert (Hed : ed cur o v c) by (split; [exists l; auto|auto]).
  fold (getg si v). unfold olt. destruct (match getg si v with Some d => gc + c <? d | None => true end) eqn:Elt.
  2: { destruct (getg si v) as [gv|] eqn:Egv; [|discriminate]. apply Nat.ltb_ge in Elt. exists si, q. splits; auto. apply SKIP. intros c' E. inversion E; subst c'. eauto. }
  fold (geth si v). rewrite (Hh v Hv). set (info := {| si_g := Some (gc + c); si_h := Some (hs v); si_in := Some (o, cur) |}).
  rewrite vset_si by lia. cbn [bind]. set (si' := upd si v info). set (q' := pq_push P q (gc + c + hs v) v).
  assert (Lt : forall g, getg si v = Some g -> gc + c < g) by (intros g Hg; rewrite Hg in Elt; now apply Nat.ltb_lt).
  assert (Gv : getg si' v = Some (gc + c)) by (unfold getg, si'; rewrite nth_si_upd, Nat.eqb_refl by lia; reflexivity).
  assert (Iv : geti si' v = Some (o, cur)) by (unfold geti, si'; rewrite nth_si_upd, Nat.eqb_refl by lia; reflexivity).
  assert (Go : forall x, x <> v -> getg si' x = getg si x) by (intros x Hx; unfold getg, si'; rewrite nth_si_upd by lia; destruct (Nat.eqb_spec v x); congruence).
  assert (Io : forall x, x <> v -> geti si' x = geti si x) by (intros x Hx; unfold geti, si'; rewrite nth_si_upd by lia; destruct (Nat.eqb_spec v x); congruence).
  assert (Hle : forall x g, getg si x = Some g -> exists g', getg si' x = Some g' /\ g' <= g).
  { intros x g Hg. destruct (Nat.eq_dec x v) as [->|Hx]; [exists (gc + c); split; auto; apply Lt in Hg; lia|]. rewrite Go by auto. eauto. }
  assert (Hvi : v <> init) by (intros ->; apply Lt in Hin0; lia).
  assert (Pq : Permutation (bag q') ((gc + c + hs v, v) :: bag q)) by apply (pq_push_ok _ _ HP).
  destruct (ed_lt _ _ _ _ Hed) as (_ & _ & _ & HcC).
  pose proof (disc_mono si si' v Hv Go (ex_intro _ _ Gv)) as Hd.
  exists si', q'. split; [reflexivity|]. split; [|split].
  - constructor.
    + unfold si'. now rewrite upd_length.
    + intros s Hs. unfold geth, si'. rewrite nth_si_upd by lia. destruct (Nat.eqb_spec v s) as [<-|_]; [reflexivity|now apply Hh].
    + rewrite Go by auto. exact Hin0.
    + intros s g Hg. destruct (Nat.eq_dec s v) as [->|Hsv].
      * rewrite Gv in Hg. inversion Hg; subst g. destruct (Hp cur gc Hgc) as [p Hpp]. exists (p ++ [(o, v)]). apply apath_app with (x := cur); auto.
        rewrite <- (Nat.add_0_r c) . econstructor; [exact Hng|exact Hed|constructor].
      * rewrite Go in Hg by auto. now apply (Hp s g).
    + intros f s Hf. apply (Permutation_in _ Pq) in Hf. destruct Hf as [E|Hf]; [inversion E; subst f s; split; auto; exists (gc + c); split; auto; lia|].
      destruct (Hb f s Hf) as (H1 & g & H2 & H3). split; auto. destruct (Hle s g H2) as (g' & H4 & H5). exists g'. split; auto. lia.
    + intros s g Hg. destruct (Nat.eq_dec s v) as [->|Hsv].
      * rewrite Gv in Hg. inversion Hg; subst g. left. apply (Permutation_in _ (Permutation_sym Pq)). now left.
      * rewrite Go in Hg by auto. destruct (Hlv s g Hg) as [H|[H1 H2]]; [left; apply (Permutation_in _ (Permutation_sym Pq)); now right|]. right. split; auto.
        intros o' v' c' He. destruct (H2 o' v' c' He) as [[-> [E|H]]|(g' & H3 & H4)].
        -- inversion E; subst o' v'. right. exists (gc + c). split; auto. destruct He as [_ He]. rewrite Ec in He. inversion He; subst c'. rewrite Hgc in Hg. inversion Hg; subst g. lia.
        -- left. auto.
        -- right. destruct (Hle v' g' H3) as (g2 & H5 & H6). exists g2. split; auto. lia.
    + intros s g Hg Hs. destruct (Nat.eq_dec s v) as [->|Hsv].
      * rewrite Gv in Hg. inversion Hg; subst g. exists o, cur, gc, c. splits; auto. rewrite Go; auto.
      * rewrite Go in Hg by auto. destruct (Hi s g Hg Hs) as (o' & p' & gp & c' & E1 & E2 & E3 & E4 & E5). destruct (Hle p' gp E4) as (g2 & H5 & H6).
        exists o', p', g2, c'. splits; auto; [rewrite Io; auto|lia].
    + (* the chain of cur avoids v *)
      destruct (Hch cur gc Hgc) as (lc & Hlc).
      assert (Hnv : ~ In v lc). { intros Hx. destruct (chain_g _ _ _ _ HI _ _ Hlc gc v Hgc Hx) as (gv & H1 & H2). apply Lt in H1. lia. }
      assert (Keep : forall x lx, chain si x lx -> ~ In v lx -> chain si' x lx).
      { intros x lx H. induction H as [|s o' p lx Hs E Hc IH]; intros Hn; [constructor|]. econstructor; [auto| |apply IH; intros Hx; apply Hn; now right].
        rewrite Io; [exact E|]. intros ->. apply Hn. now left. }
      assert (Cv : chain si' v (v :: lc)) by (econstructor; [auto|exact Iv|apply Keep; auto]).
      assert (All : forall x lx, chain si x lx -> exists lx', chain si' x lx').
      { intros x lx H. induction H as [|s o' p lx Hs E Hc (lx' & IH)]; [exists []; constructor|]. destruct (Nat.eq_dec s v) as [->|Hsv]; [eauto|].
        exists (s :: lx'). econstructor; [auto|rewrite Io; eauto|auto]. }
      intros s g Hg. destruct (Nat.eq_dec s v) as [->|Hsv]; [eauto|]. rewrite Go in Hg by auto. destruct (Hch s g Hg) as (ls & Hls). eapply All; eauto.
    + intros s g Hg. pose proof (Hmx cur gc Hgc) as Hm. destruct (Nat.eq_dec s v) as [->|Hsv].
      * rewrite Gv in Hg. inversion Hg; subst g. rewrite Hd. destruct (getg si v) as [gv|] eqn:Egv; [specialize (Lt _ eq_refl); specialize (Hmx v gv Egv); lia|]. cbn [Nat.mul]. lia.
      * rewrite Go in Hg by auto. specialize (Hmx s g Hg). rewrite Hd. destruct (getg si v); cbn [Nat.mul]; lia.
  - rewrite Go; auto.
  - apply Permutation_length in Pq. cbn [length] in Pq. rewrite Pq.
    assert (total si' < total si); [|lia]. apply total_drop with (s := v); auto. unfold pot. rewrite Gv. destruct (getg si v) as [gv|] eqn:Egv; [now apply Lt|].
    pose proof (Hmx cur gc Hgc) as Hm. pose proof (disc_le si'). rewrite Hd in *. assert (S (disc si) * C <= n * C) by (apply Nat.mul_le_mono_r; auto). cbn [Nat.mul] in *. lia.
Qed.

Lemma relax_fold l : forall rest pre si q cur gc, l = pre ++ rest -> Inv si q cur rest -> getg si cur = Some gc -> nth_error T cur = Some l -> ~ In cur goals ->
  exists si' q', fold_outcome (a_relax P costs gc cur) rest (si, q) = Ok (si', q') /\ Inv si' q' cur [] /\ length (bag q') + total si' <= length (bag q) + total si.
Proof.
  induction rest as [|[o v] rest IH]; intros pre si q cur gc El HI Hg Hl Hng; [exists si, q; splits; auto|].
  destruct (relax_step si q cur gc o v rest l HI Hg Hl) as (si1 & q1 & E1 & HI1 & Hg1 & Hm1); auto; [rewrite El; apply in_or_app; right; now left|].
  cbn [fold_outcome]. rewrite E1. cbn [bind]. destruct (IH (pre ++ [(o, v)]) si1 q1 cur gc) as (si2 & q2 & E2 & HI2 & Hm2); auto; [now rewrite <- app_assoc|].
  exists si2, q2. splits; auto. lia.
Qed.

(** Some entry of the queue is not above the cost of any path to a goal. *)
Lemma entry si q cur : Inv si q cur [] -> admissible_h hs -> forall u p w v, apath ed none u p w v -> In v goals -> forall g, getg si u = Some g ->
  exists f x, In (f, x) (bag q) /\ f <= g + w.
Proof.
  intros HI Ha u p w v H. induction H as [u|u o x c p w v _ He Hp IH]; intros Hv g Hg.
  - destruct (v_live _ _ _ _ HI u g Hg) as [Hb|[Hn _]]; [|contradiction]. exists (g + hs u), u. split; auto.
    assert (u < n) by (rewrite <- (v_len _ _ _ _ HI); eapply getg_lt; eauto). assert (hs u <= 0); [|lia]. eapply Ha; eauto. constructor.
  - destruct (v_live _ _ _ _ HI u g Hg) as [Hb|[Hn Hr]].
    + exists (g + hs u), u. split; auto. assert (hs u <= c + w); [|lia]. eapply Ha; [apply (ed_lt _ _ _ _ He)|econstructor; eauto|auto].
    + destruct (Hr o x c He) as [[_ []]|(g' & Hg' & Hle)]. destruct (IH Hv g' Hg') as (f & y & H1 & H2). exists f, y. split; auto. lia.
Qed.

(** After popping an entry: the state is treated as the current one with all its transitions still
    to be handled. *)
Lemma pop_inv si q f s q1 : Inv si q 0 [] -> pq_pop P q = Some ((f, s), q1) ->
  s < n /\ exists g, getg si s = Some g /\ g + hs s <= f /\ length (bag q) = S (length (bag q1)) /\
    (g + hs s < f -> Inv si q1 0 []) /\ forall l, nth_error T s = Some l -> ~ In s goals -> Inv si q1 s l.
Proof.
  intros HI E. pose proof HI as [Hlen Hh Hin0 Hp Hb Hlv Hi Hch Hmx]. destruct (pq_pop_some _ _ HP _ _ _ _ E) as [Pq _].
  assert (Hin : In (f, s) (bag q)) by (apply (Permutation_in _ (Permutation_sym Pq)); now left). destruct (Hb f s Hin) as (Hs & g & Hg & Hle).
  assert (Hb1 : forall f s, In (f, s) (bag q1) -> s < n /\ exists g, getg si s = Some g /\ g + hs s <= f).
  { intros f' s' H. apply Hb. apply (Permutation_in _ (Permutation_sym Pq)). now right. }
  split; auto. exists g. splits; auto.
  - apply Permutation_length in Pq. exact Pq.
  - intros Hlt. constructor; auto. intros s' g' Hg'. destruct (Hlv s' g' Hg') as [H|[H1 H2]].
    + apply (Permutation_in _ Pq) in H. destruct H as [H|H]; [|auto]. inversion H; subst. rewrite Hg in Hg'. inversion Hg'; subst. lia.
    + right. split; auto.
  - intros l Hl Hng. constructor; auto. intros s' g' Hg'. destruct (Nat.eq_dec s' s) as [->|Hss].
    + right. split; auto. intros o v c [(l' & Hl' & Hi') _]. left. split; auto. rewrite Hl in Hl'. now inversion Hl'.
    + destruct (Hlv s' g' Hg') as [H|[H1 H2]].
      * apply (Permutation_in _ Pq) in H. destruct H as [H|H]; [inversion H; congruence|auto].
      * right. split; auto. intros o v c He. destruct (H2 o v c He) as [[_ []]|H]. auto.
Qed.
Lemma inv_cur si q cur cur' : Inv si q cur [] -> Inv si q cur' [].
Proof. intros []. constructor; auto. intros s g Hg. destruct (v_live0 s g Hg) as [H|[H1 H2]]; [auto|]. right. split; auto. intros o v c He. destruct (H2 o v c He) as [[_ []]|H]; auto. Qed.

Lemma astar_ok : admissible_h hs -> forall fuel si q, Inv si q 0 [] -> length (bag q) + total si < fuel ->
  exists r si', astar_search P costs fuel T goals si q = Ok (r, si') /\ (exists q', Inv si' q' 0 []) /\
    match r with
    | Some goal => In goal goals /\ exists g, getg si' goal = Some g /\ forall p w v, apath ed none init p w v -> In v goals -> g <= w
    | None => forall p w v, apath ed none init p w v -> ~ In v goals
    end.
Proof.
  intros Ha. induction fuel as [|fuel IH]; intros si q HI Hf; [lia|]. cbn [astar_search]. destruct (pq_pop P q) as [[[f s] q1]|] eqn:E.
  - destruct (pop_inv si q f s q1 HI E) as (Hs & g & Hg & Hle & Hlen & Hskip & Hexp). pose proof (v_len _ _ _ _ HI) as Hl.
    rewrite vget_si by lia. cbn [bind]. fold (getg si s) (geth si s). rewrite Hg, (v_h _ _ _ _ HI s Hs). rewrite (proj2 (Nat.leb_le _ _) Hle). cbn [guard bind].
    destruct (Nat.ltb_spec (g + hs s) f) as [Hlt|Hge].
    + apply IH; [auto|lia].
    + destruct (mem s goals) eqn:Em.
      * exists (Some s), si. split; [reflexivity|]. split; [eauto|]. apply mem_In in Em. split; auto. exists g. split; auto. intros p w v Hp Hv.
        destruct (entry si q 0 HI Ha init p w v Hp Hv 0 (v_init _ _ _ _ HI)) as (f' & x & H1 & H2). destruct (pq_pop_some _ _ HP _ _ _ _ E) as [Pq Hmin].
        apply (Permutation_in _ Pq) in H1. destruct H1 as [H1|H1]; [inversion H1; subst; lia|]. apply Hmin in H1. lia.
      * assert (Hng : ~ In s goals) by (rewrite <- mem_In; congruence). destruct (nth_error T s) as [l|] eqn:El; [|apply nth_error_None in El; lia].
        assert (Ev : vget T s = Ok l) by (unfold vget; now rewrite El). rewrite Ev. cbn [bind].
        destruct (relax_fold l l [] si q1 s g eq_refl (Hexp l eq_refl Hng) Hg El Hng) as (si2 & q2 & E2 & HI2 & Hm). rewrite E2. cbn [bind].
        apply IH; [eapply inv_cur; eauto|lia].
  - exists None, si. split; [reflexivity|]. split; [eauto|]. intros p w v Hp Hv. destruct (entry si q 0 HI Ha init p w v Hp Hv 0 (v_init _ _ _ _ HI)) as (f & x & H1 & _).
    rewrite (pq_pop_none _ _ HP _ E) in H1. destruct H1.
Qed.

Lemma extract_ok si q : Inv si q 0 [] -> forall s l, chain si s l -> forall fuel g sol W v, length l < fuel -> getg si s = Some g -> apath ed isgoal s sol W v ->
  exists sol' W', extract_solution fuel si init s sol = Ok sol' /\ apath ed isgoal init sol' W' v /\ W' <= g + W.
Proof.
  intros HI s l H. induction H as [|s o p l Hs Hi Hc IH]; intros [|fuel] g sol W v Hf Hg Hp; cbn [length] in Hf; try lia; cbn [extract_solution].
  - rewrite Nat.eqb_refl. exists sol, W. splits; auto. lia.
  - destruct (Nat.eqb_spec s init); [contradiction|]. destruct (v_in _ _ _ _ HI s g Hg Hs) as (o' & p' & gp & c & E & He & Hng & Hgp & Hle). rewrite E in Hi. inversion Hi; subst o' p'.
    rewrite vget_si by (eapply getg_lt; eauto). cbn [bind]. fold (geti si s). rewrite E. destruct (ed_lt _ _ _ _ He) as (_ & _ & Hne & _).
    destruct (Nat.eqb_spec p s) as [->|_]; [congruence|]. cbn [negb guard bind].
    destruct (IH fuel gp ((o, s) :: sol) (c + W) v) as (sol' & W' & E1 & E2 & E3); auto; [lia|econstructor; eauto|]. exists sol', W'. splits; auto. lia.
Qed.
Lemma chain_len si q s l : Inv si q 0 [] -> chain si s l -> (exists g, getg si s = Some g) -> length l <= n.
Proof.
  intros HI Hc (g & Hg). assert (H : incl l (seq 0 n)).
  { intros x Hx. destruct (chain_g _ _ _ _ HI _ _ Hc g x Hg Hx) as (gx & H & _). apply getg_lt in H. rewrite (v_len _ _ _ _ HI) in H. apply in_seq. lia. }
  apply NoDup_incl_length in H; [now rewrite seq_length in H|]. eapply chain_nodup; eauto.
Qed.
Lemma solution_cost_ok p : forall u w v, apath ed isgoal u p w v -> solution_cost costs p = Ok w.
Proof.
  induction p as [|[o x] p IH]; intros u w v H; inversion H; subst; [reflexivity|]. cbn [solution_cost].
  match goal with H : ed _ _ _ _ |- _ => destruct H as [_ Hc] end. unfold vget. rewrite Hc. cbn [bind].
  match goal with H : apath _ _ x p _ _ |- _ => rewrite (IH _ _ _ H) end. reflexivity.
Qed.
End ASTAR.

Section FIND.
Variable P : pqueue.
Variable bag : PQ P -> list (nat * nat).
Hypothesis HP : pq_contract P bag.
Variable q0 : PQ P.
Hypothesis Hq0 : bag q0 = [].
Variable costs : list (option nat).
Variable T : list (list (nat * nat)).
Variable goals : list nat.
Variable init : nat.
Notation n := (length T).
Hypothesis Hinit : init < n.
Hypothesis HT : forall u l o v, nth_error T u = Some l -> In (o, v) l -> o < length costs /\ v < n /\ v <> u.
Notation edge := (ed costs T).
Notation none := (fun _ : nat => False).
Notation isgoal := (fun x => In x goals).

(** What is known of the stored h values between searches. *)
Definition hok (si : list sinfo) (h : nat -> nat) : Prop :=
  length si <= n /\ (forall s, s < n -> geth si s = Some (h s)) /\ admissible_h costs T goals h.

Lemma reset_len si : length si <= n -> length (reset_search n si) = n.
Proof. intros H. unfold reset_search. rewrite map_length, app_length, firstn_length, repeat_length. lia. Qed.
Lemma reset_nth si s : length si <= n -> nth s (reset_search n si) new_sinfo = {| si_g := None; si_h := geth si s; si_in := None |}.
Proof.
  intros H. unfold reset_search. change new_sinfo with ((fun i => {| si_g := None; si_h := si_h i; si_in := None |}) new_sinfo) at 2.
  rewrite map_nth. cbn [si_h]. rewrite firstn_all2 by auto. unfold geth. f_equal. destruct (Nat.ltb_spec s (length si)) as [Hs|Hs].
  - now rewrite app_nth1.
  - rewrite app_nth2 by auto. rewrite nth_repeat. now rewrite nth_overflow.
Qed.

Lemma find_solution_ok si h : hok si h -> exists r si', find_solution P q0 costs si T init goals = Ok (r, si') /\
  match r with
  | Some sol => exists W v, apath edge isgoal init sol W v /\ In v goals /\ (forall p w v', apath edge none init p w v' -> In v' goals -> W <= w) /\
                  length si' = n /\ exists h', hok si' h'
  | None => forall p w v, apath edge none init p w v -> ~ In v goals
  end.
Proof.
  intros (Hlen & Hh & Ha). unfold find_solution. pose proof (reset_len si Hlen) as Lr. rewrite vget_si by lia. cbn [bind]. rewrite vset_si by lia. cbn [bind].
  rewrite reset_nth by auto. cbn [si_h si_in]. rewrite (Hh init Hinit). set (i0 := {| si_g := Some 0; si_h := Some (h init); si_in := None |}). set (si0 := upd (reset_search n si) init i0).
  assert (N0 : forall s, nth s si0 new_sinfo = if init =? s then i0 else {| si_g := None; si_h := geth si s; si_in := None |}).
  { intros s. unfold si0. rewrite nth_si_upd by lia. destruct (init =? s); auto. now apply reset_nth. }
  assert (G0 : forall s, getg si0 s = if init =? s then Some 0 else None) by (intros s; unfold getg; rewrite N0; destruct (init =? s); reflexivity).
  assert (Bq : Permutation (bag (pq_push P q0 (h init) init)) [(h init, init)]) by (rewrite <- Hq0; apply (pq_push_ok _ _ HP)).
  assert (HD : disc T si0 = 1).
  { unfold disc. rewrite (filter_ext _ (fun s => s =? init)).
    - assert (G : forall k m, length (filter (fun s => s =? init) (seq k m)) = if (k <=? init) && (init <? k + m) then 1 else 0).
      { intros k m. revert k. induction m as [|m IH]; intros k; [cbn [seq filter length]; destruct (Nat.leb_spec k init), (Nat.ltb_spec init (k + 0)); cbn [andb]; lia|].
        cbn [seq filter]. specialize (IH (S k)). destruct (Nat.eqb_spec k init) as [->|Hn]; cbn [length]; rewrite IH.
        - rewrite (proj2 (Nat.leb_le init init)), (proj2 (Nat.ltb_lt init (init + S m))), (proj2 (Nat.leb_gt (S init) init)) by lia. reflexivity.
        - destruct (Nat.leb_spec k init), (Nat.ltb_spec init (k + S m)), (Nat.leb_spec (S k) init), (Nat.ltb_spec init (S k + m)); cbn [andb]; auto; exfalso; lia. }
      rewrite G. rewrite (proj2 (Nat.ltb_lt init (0 + n))) by lia. reflexivity.
    - intros s. rewrite G0. rewrite Nat.eqb_sym. destruct (s =? init); reflexivity. }
  assert (I0 : Inv P bag costs T goals init h si0 (pq_push P q0 (h init) init) 0 []).
  { constructor.
    - unfold si0. now rewrite upd_length.
    - intros s Hs. unfold geth. rewrite N0. destruct (Nat.eqb_spec init s) as [<-|_]; [reflexivity|]. cbn. now apply Hh.
    - rewrite G0, Nat.eqb_refl. reflexivity.
    - intros s g Hg. rewrite G0 in Hg. destruct (Nat.eqb_spec init s) as [<-|_]; [|discriminate]. inversion Hg; subst g. exists []. constructor.
    - intros f s Hf. apply (Permutation_in _ Bq) in Hf. destruct Hf as [E|[]]. inversion E; subst f s. split; auto. exists 0. rewrite G0, Nat.eqb_refl. auto.
    - intros s g Hg. rewrite G0 in Hg. destruct (Nat.eqb_spec init s) as [<-|_]; [|discriminate]. inversion Hg; subst g. left. apply (Permutation_in _ (Permutation_sym Bq)). now left.
    - intros s g Hg Hs. rewrite G0 in Hg. destruct (Nat.eqb_spec init s) as [<-|_]; [congruence|discriminate].
    - intros s g Hg. rewrite G0 in Hg. destruct (Nat.eqb_spec init s) as [<-|_]; [|discriminate]. exists []. constructor.
    - intros s g Hg. rewrite G0 in Hg. destruct (Nat.eqb_spec init s) as [<-|_]; [|discriminate]. inversion Hg; subst g. rewrite HD. lia. }
  assert (Hm : length (bag (pq_push P q0 (h init) init)) + total costs T si0 < astar_fuel costs n).
  { apply Permutation_length in Bq. rewrite Bq. cbn [length]. unfold astar_fuel, total.
    assert (G : forall l : list nat, list_sum (map (pot costs T si0) l) <= length l * S (n * max_cost costs)).
    { induction l as [|s l IH]; [cbn; lia|]. cbn [map length Nat.mul]. change (list_sum (pot costs T si0 s :: map (pot costs T si0) l)) with (pot costs T si0 s + list_sum (map (pot costs T si0) l)).
      unfold pot at 1. rewrite G0. destruct (init =? s); lia. }
    specialize (G (seq 0 n)). rewrite seq_length in G. lia. }
  destruct (astar_ok P bag HP costs T goals init Hinit HT h Ha _ si0 _ I0 Hm) as (r & si1 & E1 & (q1 & I1) & Hr). rewrite E1. cbn [bind].
  destruct r as [goal|].
  - destruct Hr as (Hgoal & g & Hg & Hopt). destruct (v_chain _ _ _ _ _ _ _ _ _ _ _ I1 goal g Hg) as (l & Hl).
    assert (Hll : length l <= n) by (eapply chain_len; eauto).
    destruct (extract_ok P bag costs T goals init Hinit HT h si1 q1 I1 goal l Hl (S n) g [] 0 goal) as (sol & W & E2 & Hp & HW); [lia|auto|constructor|]. rewrite E2. cbn [bind].
    assert (HWg : W = g). { apply (apath_weak _ _ none) in Hp; [|tauto]. specialize (Hopt _ _ _ Hp Hgoal). lia. }
    unfold update_goal_distances. rewrite (solution_cost_ok costs T goals sol _ _ _ Hp). cbn [bind].
    set (F := fun i : sinfo => match si_g i with Some g => {| si_g := si_g i; si_h := option_map (fun h => Nat.max h (W - g)) (si_h i); si_in := si_in i |} | None => i end).
    eexists (Some sol), (map F si1). split; [reflexivity|]. exists W, goal. splits; auto.
    + intros p w v Hpv Hv. specialize (Hopt p w v Hpv Hv). lia.
    + rewrite map_length. apply (v_len _ _ _ _ _ _ _ _ _ _ _ I1).
    + exists (fun s => match getg si1 s with Some g => Nat.max (h s) (W - g) | None => h s end). split; [|split].
      * rewrite map_length, (v_len _ _ _ _ _ _ _ _ _ _ _ I1). auto.
      * intros s Hs. unfold geth. rewrite (nth_indep _ new_sinfo (F new_sinfo)) by now rewrite map_length, (v_len _ _ _ _ _ _ _ _ _ _ _ I1). rewrite map_nth. unfold F, getg.
        pose proof (v_h _ _ _ _ _ _ _ _ _ _ _ I1 s Hs) as Hhs. unfold geth in Hhs. destruct (si_g (nth s si1 new_sinfo)); cbn [si_h]; rewrite ?Hhs; reflexivity.
      * intros s p w v Hs Hpv Hv. destruct (getg si1 s) as [gs|] eqn:Egs; [|eapply Ha; eauto]. pose proof (Ha s p w v Hs Hpv Hv).
        destruct (v_path _ _ _ _ _ _ _ _ _ _ _ I1 s gs Egs) as (p0 & Hp0). apply (apath_weak _ _ none) in Hp0; [|tauto].
        pose proof (Hopt _ _ _ (apath_app _ _ _ _ _ _ _ _ _ Hp0 Hpv) Hv). lia.
  - assert (Li : init < length si1) by (rewrite (v_len _ _ _ _ _ _ _ _ _ _ _ I1); auto). rewrite vget_si by auto. cbn [bind]. rewrite vset_si by auto. cbn [bind].
    eexists None, _. split; [reflexivity|]. exact Hr.
Qed.
End FIND.

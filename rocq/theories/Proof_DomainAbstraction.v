(** Proofs for domain abstraction. *)
From Coq Require Import String.
From Coq Require Import List Permutation.
From Verif Require Import Outcome Spec_Task Proof_Task Spec_DomainAbstraction Model_DomainAbstraction.
Import ListNotations.
Local Open Scope nat_scope.

Lemma vset_lt {A} (l : list A) i x : i < List.length l -> vset l i x = Ok (upd l i x).
Proof. intros H. apply vset_ok. auto. Qed.

Section Combine.
Variable self_move : string -> string.

Lemma in_union_In groups x : in_union groups x = true <-> In x (concat groups).
Proof.
  unfold in_union. rewrite existsb_exists, in_concat. split.
  - intros (g & Hg & H). apply existsb_exists in H as (y & Hy & E). apply Nat.eqb_eq in E. subst. eauto.
  - intros (g & Hg & H). exists g. split; auto. apply existsb_exists. exists x. split; auto. apply Nat.eqb_refl.
Qed.
Definition singles (groups : list (list nat)) (l : list nat) : list nat := filter (fun x => negb (in_union groups x)) l.
(** The classes in the order of their new values. *)
Definition classes (dom : nat) (groups : list (list nat)) : list (list nat) := map (fun x => [x]) (singles groups (seq 0 dom)) ++ groups.

Lemma combined_name_ok (name : nat -> string) names values : (forall v, In v values -> nth_error names v = Some (name v)) ->
  forall sep, exists s, combined_fact_name sep names values = Ok s /\
    s = match values with [] => ""%string | v :: r => (sep ++ name v ++ fold_right (fun w acc => " OR " ++ name w ++ acc) "" r)%string end.
Proof.
  induction values as [|v r IH]; intros H sep; [eexists; split; reflexivity|]. cbn [combined_fact_name].
  rewrite (proj2 (vget_ok _ _ _) (H v (or_introl eq_refl))). cbn [bind]. destruct (IH (fun w Hw => H w (or_intror Hw)) " OR "%string) as (s & -> & ->). cbn [bind]. eexists. split; [reflexivity|].
  destruct r; reflexivity.
Qed.
Lemma joined_cons name v r : (name v ++ fold_right (fun w acc => " OR " ++ name w ++ acc) "" r)%string = joined name (v :: r).
Proof.
  unfold joined. revert v. induction r as [|w r IH]; intros v.
  - cbn [fold_right map String.concat]. induction (name v); cbn; [auto|congruence].
  - cbn [map] in *. change (String.concat " OR " (name v :: name w :: map name r)) with (name v ++ " OR " ++ String.concat " OR " (name w :: map name r))%string.
    rewrite <- IH. reflexivity.
Qed.
Lemma combined_name_joined (name : nat -> string) names values : (forall v, In v values -> nth_error names v = Some (name v)) ->
  combined_fact_name "" names values = Ok (joined name values).
Proof.
  intros H. destruct (combined_name_ok name names values H ""%string) as (s & -> & ->). destruct values as [|v r]; [reflexivity|]. f_equal. apply joined_cons.
Qed.
Lemma combined_names (name : nat -> string) names groups : (forall g v, In g groups -> In v g -> nth_error names v = Some (name v)) -> forall acc,
  fold_outcome (fun acc g => let* s := combined_fact_name ""%string names g in Ok (acc ++ [s])) groups acc = Ok (acc ++ map (joined name) groups).
Proof.
  induction groups as [|g groups IH]; intros H acc; cbn [fold_outcome map]; [now rewrite app_nil_r|].
  rewrite (combined_name_joined name names g) by (intros v Hv; apply (H g); [now left|auto]). cbn [bind]. rewrite IH by (intros g' v Hg; apply H; now right). now rewrite <- app_assoc.
Qed.

Lemma move_singles_ok groups dom : forall m i vm names next, i + m = dom -> next <= i -> List.length vm = dom -> List.length names = dom ->
  exists vm' names', fold_outcome (move_single self_move groups) (seq i m) (vm, names, next) = Ok (vm', names', next + List.length (singles groups (seq i m))) /\
    List.length vm' = dom /\ List.length names' = dom /\
    (forall j x, nth_error (singles groups (seq i m)) j = Some x -> nth_error vm' x = Some (next + j)) /\
    (forall x, in_union groups x = true -> nth_error vm' x = nth_error vm x) /\ (forall x, x < i -> nth_error vm' x = nth_error vm x) /\
    (forall j, j < next -> nth_error names' j = nth_error names j) /\
    ((forall s, self_move s = s) -> forall j x, nth_error (singles groups (seq i m)) j = Some x -> nth_error names' (next + j) = nth_error names x).
Proof.
  induction m as [|m IH]; intros i vm names next Hi Hn Hvm Hnm; cbn [seq fold_outcome singles filter].
  - exists vm, names. cbn [List.length]. rewrite Nat.add_0_r. splits; auto; intros; destruct j; discriminate.
  - cbn [move_single]. destruct (in_union groups i) eqn:Eu; cbn [bind negb].
    + destruct (IH (S i) vm names next) as (vm' & names' & E & H1 & H2 & H3 & H4 & H5 & H6 & H7); try lia. exists vm', names'. fold (singles groups (seq (S i) m)). splits; auto; intros; apply H5; lia.
    + fold (singles groups (seq (S i) m)). cbn [List.length]. rewrite (vset_lt vm i next) by lia. cbn [bind]. destruct (nth_error names i) as [s|] eqn:Es; [|apply nth_error_None in Es; lia].
      rewrite (proj2 (vget_ok _ _ _) Es). cbn [bind].
      assert (exists nm, (if i =? next then vset names next (self_move s) else let* names := vset names next s in vset names i ""%string) = Ok nm /\
        List.length nm = dom /\ (forall j, j < next -> nth_error nm j = nth_error names j) /\ (forall j, i < j -> nth_error nm j = nth_error names j) /\
        ((forall s, self_move s = s) -> nth_error nm next = Some s)) as (nm & -> & L & N1 & N2 & N3).
      { destruct (Nat.eqb_spec i next) as [<-|Hne].
        - rewrite vset_lt by lia. eexists. splits; [reflexivity|rewrite upd_length; auto| | |]; intros.
          + rewrite upd_nth_neq by lia. auto.
          + rewrite upd_nth_neq by lia. auto.
          + rewrite upd_nth_eq by lia. congruence.
        - rewrite vset_lt by lia. cbn [bind]. rewrite vset_lt by (rewrite upd_length; lia). eexists. splits; [reflexivity|rewrite !upd_length; auto| | |]; intros.
          + rewrite !upd_nth_neq by lia. auto.
          + rewrite !upd_nth_neq by lia. auto.
          + rewrite upd_nth_neq by lia. rewrite upd_nth_eq by lia. auto. }
      cbn [bind]. destruct (IH (S i) (upd vm i next) nm (S next)) as (vm' & names' & E & H1 & H2 & H3 & H4 & H5 & H6 & H7); try lia; [now rewrite upd_length|].
      exists vm', names'. splits; auto.
      * rewrite E. do 2 f_equal. lia.
      * intros [|j] x Hx; cbn [nth_error] in Hx.
        -- inversion Hx; subst. rewrite H5 by lia. rewrite upd_nth_eq by lia. f_equal. lia.
        -- rewrite (H3 j x Hx). f_equal. lia.
      * intros x Hx. rewrite H4 by auto. apply upd_nth_neq. congruence.
      * intros x Hx. rewrite H5 by lia. apply upd_nth_neq. lia.
      * intros j Hj. rewrite H6 by lia. apply N1. auto.
      * intros Hsm [|j] x Hx; cbn [nth_error] in Hx.
        -- inversion Hx; subst. rewrite Nat.add_0_r, H6 by lia. rewrite N3; auto.
        -- replace (next + S j) with (S next + j) by lia. rewrite (H7 Hsm j x Hx). apply N2. apply nth_error_In in Hx. apply filter_In in Hx as [Hx _]. apply in_seq in Hx. lia.
Qed.

Lemma set_group (next : nat) : forall (g vm : list nat), (forall x, In x g -> x < List.length vm) ->
  exists vm', fold_outcome (fun vm before => vset vm before next) g vm = Ok vm' /\ List.length vm' = List.length vm /\
    (forall x, In x g -> nth_error vm' x = Some next) /\ (forall x, ~ In x g -> nth_error vm' x = nth_error vm x).
Proof.
  induction g as [|a g IH]; intros vm H; cbn [fold_outcome]; [exists vm; splits; auto; intros ? []|].
  rewrite vset_lt by (apply H; now left). cbn [bind]. destruct (IH (upd vm a next)) as (vm' & E & L & A & B); [intros x Hx; rewrite upd_length; apply H; now right|].
  exists vm'. splits; auto; [rewrite L; apply upd_length| |].
  - intros x [->|Hx]; auto. destruct (in_dec Nat.eq_dec x g); auto. rewrite B by auto. apply upd_nth_eq, H. now left.
  - intros x Hx. rewrite B by (intros K; apply Hx; now right). apply upd_nth_neq. intros <-. apply Hx. now left.
Qed.
Lemma add_groups_ok : forall (groups : list (list nat)) (combined : list string) (vm : list nat) (names : list string) next, List.length combined = List.length groups ->
  (forall x, In x (concat groups) -> x < List.length vm) -> NoDup (concat groups) -> next + List.length groups <= List.length names ->
  exists vm' names', fold_outcome add_group (combine groups combined) (vm, names, next) = Ok (vm', names', next + List.length groups) /\
    List.length vm' = List.length vm /\ List.length names' = List.length names /\
    (forall j g x, nth_error groups j = Some g -> In x g -> nth_error vm' x = Some (next + j)) /\
    (forall x, ~ In x (concat groups) -> nth_error vm' x = nth_error vm x) /\
    (forall j s, nth_error combined j = Some s -> nth_error names' (next + j) = Some s) /\
    (forall j, j < next -> nth_error names' j = nth_error names j).
Proof.
  induction groups as [|g groups IH]; intros [|c combined] vm names next Hl Hr Hnd Hn; try discriminate; cbn [combine fold_outcome].
  - exists vm, names. cbn [List.length]. rewrite Nat.add_0_r. splits; auto; intros; destruct j; discriminate.
  - cbn [add_group fst snd]. cbn [concat List.length] in *. destruct (set_group next g vm) as (vm1 & -> & L1 & A1 & B1); [intros; apply Hr, in_app_iff; auto|]. cbn [bind].
    rewrite vset_lt by lia. cbn [bind]. destruct (IH combined vm1 (upd names next c) (S next)) as (vm' & names' & E & L & L2 & A & B & C & D).
    { lia. } { intros x Hx. rewrite L1. apply Hr, in_app_iff; auto. } { clear -Hnd. induction g; auto. inversion Hnd; auto. } { rewrite upd_length. lia. }
    assert (Hdis : forall x, In x g -> ~ In x (concat groups)).
    { clear -Hnd. induction g as [|a g IH]; intros x Hx; [destruct Hx|]. inversion Hnd; subst. destruct Hx as [->|Hx]; [intros K; apply H1, in_app_iff; auto|auto]. }
    exists vm', names'. rewrite E. splits; auto.
    + do 2 f_equal. lia.
    + lia.
    + rewrite L2. apply upd_length.
    + intros [|j] g' x Hg Hx; cbn [nth_error] in Hg.
      * inversion Hg; subst. rewrite B by auto. rewrite Nat.add_0_r. auto.
      * rewrite (A j g' x Hg Hx). f_equal. lia.
    + intros x Hx. rewrite B by (intros K; apply Hx, in_app_iff; auto). apply B1. intros K. apply Hx, in_app_iff. auto.
    + intros [|j] s Hs; cbn [nth_error] in Hs.
      * inversion Hs; subst. rewrite Nat.add_0_r, D by lia. apply upd_nth_eq. lia.
      * replace (next + S j) with (S next + j) by lia. auto.
    + intros j Hj. rewrite D by lia. apply upd_nth_neq. lia.
Qed.

(** The classes partition the domain. *)
Lemma length_concat_ge {A} (L : list (list A)) : (forall g, In g L -> g <> []) -> List.length L <= List.length (concat L).
Proof.
  induction L as [|g L IH]; intros H; cbn [concat List.length]; [lia|]. rewrite app_length. assert (g <> []) by (apply H; now left). destruct g; [contradiction|]. cbn [List.length].
  specialize (IH (fun g Hg => H g (or_intror Hg))). lia.
Qed.
Lemma concat_singletons {A} (l : list A) : concat (map (fun x => [x]) l) = l.
Proof. induction l; cbn; [auto|congruence]. Qed.
Lemma classes_perm dom groups : groups_ok dom groups -> Permutation (concat (classes dom groups)) (seq 0 dom).
Proof.
  intros (ND & Hr & _). unfold classes. rewrite concat_app, concat_singletons. apply NoDup_Permutation.
  - assert (NDs : NoDup (singles groups (seq 0 dom))) by (apply NoDup_filter, seq_NoDup). assert (Hdis : forall x, In x (singles groups (seq 0 dom)) -> ~ In x (concat groups)).
    { intros x Hx K. apply filter_In in Hx as [_ Hx]. apply in_union_In in K. rewrite K in Hx. discriminate. }
    revert NDs Hdis. induction (singles groups (seq 0 dom)) as [|a l IH]; intros NDs Hdis; cbn [app]; auto. inversion NDs; subst. constructor.
    + rewrite in_app_iff. intros [K|K]; [contradiction|]. apply (Hdis a); auto. now left.
    + apply IH; auto. intros x Hx. apply Hdis. now right.
  - apply seq_NoDup.
  - intros x. rewrite in_app_iff, in_seq. unfold singles. rewrite filter_In, in_seq. split.
    + intros [K|K]; [lia|]. apply Hr in K. lia.
    + intros K. destruct (in_union groups x) eqn:E; [right; now apply in_union_In|left; split; [lia|auto]].
Qed.
Lemma classes_length dom groups : groups_ok dom groups -> List.length (classes dom groups) <= dom.
Proof.
  intros H. pose proof (Permutation_length (classes_perm dom groups H)) as P. rewrite seq_length in P. etransitivity; [apply length_concat_ge|lia].
  intros g Hg. unfold classes in Hg. apply in_app_iff in Hg as [Hg|Hg]; [apply in_map_iff in Hg as (x & <- & _); discriminate|]. destruct H as (_ & _ & H). auto.
Qed.

Lemma combine_values_ok dom vm names groups : groups_ok dom groups -> List.length vm = dom -> List.length names = dom ->
  exists vm' names', combine_values self_move dom vm names groups = Ok (List.length (classes dom groups), vm', names') /\
    List.length vm' = dom /\ List.length names' = List.length (classes dom groups) /\
    (forall j c x, nth_error (classes dom groups) j = Some c -> In x c -> nth_error vm' x = Some j) /\
    (forall name, (forall x, x < dom -> nth_error names x = Some (name x)) ->
       forall j c, nth_error (classes dom groups) j = Some c -> (forall s, self_move s = s) \/ In c groups /\ List.length (singles groups (seq 0 dom)) <= j -> nth_error names' j = Some (joined name c)).
Proof.
  intros Hg Hvm Hnm. unfold combine_values. assert (Hlen := classes_length dom groups Hg). pose proof Hg as (ND & Hr & Hne).
  set (nm0 := fun x => match nth_error names x with Some s => s | None => ""%string end).
  assert (Hnm0 : forall g v, In g groups -> In v g -> nth_error names v = Some (nm0 v)).
  { intros g v Hg' Hv. unfold nm0. assert (v < dom) by (apply Hr, in_concat; eauto). destruct (nth_error names v) eqn:E; auto. apply nth_error_None in E. lia. }
  rewrite (combined_names nm0 names groups Hnm0). cbn [bind app].
  destruct (move_singles_ok groups dom dom 0 vm names 0) as (vm1 & names1 & -> & L1 & L2 & A1 & A2 & _ & _ & A4); try lia. cbn [bind].
  set (ns := List.length (singles groups (seq 0 dom))) in *.
  assert (Elen : List.length (classes dom groups) = ns + List.length groups) by (unfold classes; rewrite app_length, map_length; reflexivity).
  cbn [Nat.add]. destruct (add_groups_ok groups (map (joined nm0) groups) vm1 names1 ns) as (vm2 & names2 & -> & M1 & M2 & B1 & B2 & B3 & B4).
  { apply map_length. } { rewrite L1. auto. } { auto. } { lia. }
  cbn [bind]. rewrite <- Elen. eexists _, _. split; [reflexivity|].
  assert (Enm : firstn (List.length (classes dom groups)) names2 ++ repeat ""%string (List.length (classes dom groups) - List.length names2) = firstn (List.length (classes dom groups)) names2).
  { replace (List.length (classes dom groups) - List.length names2) with 0 by lia. apply app_nil_r. }
  rewrite Enm. splits.
  - lia.
  - rewrite firstn_length. lia.
  - intros j c x Hc Hx. unfold classes in Hc. destruct (Nat.lt_ge_cases j ns) as [Hj|Hj].
    + rewrite nth_error_app1 in Hc by (rewrite map_length; auto). rewrite nth_error_map in Hc. destruct (nth_error (singles groups (seq 0 dom)) j) as [y|] eqn:Ey; [|discriminate].
      injection Hc as <-. destruct Hx as [<-|[]]. rewrite B2; [rewrite (A1 j y Ey); auto|]. apply nth_error_In, filter_In in Ey as [_ Ey]. rewrite <- in_union_In. destruct (in_union groups y); [discriminate|congruence].
    + rewrite nth_error_app2 in Hc by (rewrite map_length; auto). rewrite map_length in Hc. fold ns in Hc. rewrite (B1 _ _ _ Hc Hx). f_equal. lia.
  - intros name Hname j c Hc Hcase. assert (Hjl : j < List.length (classes dom groups)) by (apply nth_error_Some; congruence).
    assert (Efirst : nth_error (firstn (List.length (classes dom groups)) names2) j = nth_error names2 j).
    { clear -Hjl. revert j Hjl. generalize (List.length (classes dom groups)). intros n. revert names2. induction n as [|n IH]; intros l j Hj; [lia|]. destruct l as [|a l]; [destruct j; reflexivity|]. destruct j; cbn; auto. apply IH. lia. }
    rewrite Efirst. unfold classes in Hc. destruct (Nat.lt_ge_cases j ns) as [Hj|Hj].
    + destruct Hcase as [Hsm|[_ K]]; [|lia]. rewrite nth_error_app1 in Hc by (rewrite map_length; auto). rewrite nth_error_map in Hc. destruct (nth_error (singles groups (seq 0 dom)) j) as [y|] eqn:Ey; [|discriminate].
      injection Hc as <-. rewrite B4 by auto. pose proof (A4 Hsm j y Ey) as K. cbn [Nat.add] in K. rewrite K.
      rewrite Hname; [f_equal; unfold joined; cbn; auto|]. apply nth_error_In, filter_In in Ey as [Ey _]. apply in_seq in Ey. lia.
    + rewrite nth_error_app2 in Hc by (rewrite map_length; auto). rewrite map_length in Hc. fold ns in Hc. replace j with (ns + (j - ns)) by lia. apply B3. rewrite nth_error_map, Hc. cbn [option_map]. f_equal.
      unfold joined. f_equal. apply map_ext_in. intros x Hx. assert (In c groups) by (eapply nth_error_In; eauto). pose proof (Hnm0 c x H Hx) as K. rewrite Hname in K by (apply Hr, in_concat; eauto). congruence.
Qed.
End Combine.

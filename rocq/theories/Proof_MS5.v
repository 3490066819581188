(** Merging the components of the causal graph first. *)
From Coq Require Import Permutation Sorted Relation_Operators Operators_Properties.
From Verif Require Import Outcome Spec_Task Spec_Graph Spec_CausalGraph Spec_Relaxation Spec_Projection Model_PQ Model_Graph Model_CausalGraph Model_Sccs Model_MAS Spec_FTS Model_MASRun Model_MASAlgorithm Spec_Shrink Spec_MASAlgorithm Model_MergeStrategy Spec_MergeStrategy.
From Verif Require Import Proof_MAS1 Proof_MAS11 Proof_MAS12 Proof_OC1 Proof_MAA5 Proof_MAA10 Proof_MAA11 Proof_CausalGraph Prop_Sccs Proof_MS1 Proof_MS2 Proof_MS3 Proof_MS4.

Lemma nodup_app_parts {A} (a b : list A) : NoDup (a ++ b) <-> NoDup a /\ NoDup b /\ forall x, In x a -> ~ In x b.
Proof.
  induction a as [|x a IH]; cbn [app].
  - split; [intros H; splits; auto; constructor|tauto].
  - rewrite !NoDup_cons_iff, IH, in_app_iff. split.
    + intros (N & H1 & H2 & H3). splits; auto. intros y [<-|Hy]; auto.
    + intros ((N & H1) & H2 & H3). split; [intros [H|H]; [auto|apply (H3 x); [now left|auto]]|]. splits; auto. intros y Hy. apply H3. now right.
Qed.

Section SCC.
Variable P : pqueue.
Variable bag : PQ P -> list (nat * nat).
Hypothesis HP : pq_contract P bag.
Variable q0 : PQ P.
Hypothesis Hq0 : bag q0 = [].
Variable ord : list (nat * list nat) -> list (nat * list nat).
Hypothesis Hord : forall b, Permutation (ord b) b.
Variable O : mas_options.
Variable t : task.
Hypothesis Ht : mas_task t.
Variable shuffle : nat -> bool -> list nat -> list nat.
Variable random : nat -> nat -> nat -> nat.
Variable pick : nat -> nat -> nat * nat -> bool -> list (list nat) -> nat * nat.
Hypothesis Hrnd : random_ok shuffle random pick.
Variable L : list scoring.
Hypothesis HL : Forall scoring_ok L.
Hypothesis HLb : Exists breaks_ties L.
Hypothesis HLi : sel_init_distances L = true -> o_ci O = true.
Hypothesis HLg : sel_goal_distances L = true -> o_cg O = true.
Variable sort_sccs : (list nat -> list nat -> bool) -> list (list nat) -> list (list nat).
Variable o : scc_order.
Local Notation nv := (length (t_vars t)).
Local Notation ci := (o_ci O).
Local Notation cg := (o_cg O).
Local Notation at_point := (at_point P q0 ord O t).
Local Notation SC := (sccs_first P q0 ord shuffle random pick sort_sccs o L t).
Variable cs : list (list nat).
Hypothesis Hcs : non_singleton_sccs sort_sccs o t = Ok cs.
Hypothesis HcsD : NoDup (concat cs).
Hypothesis Hcs2 : forall C, In C cs -> 2 <= length C.
Hypothesis Hcslt : forall C v, In C cs -> In v C -> v < nv.

(** What each merge so far was: inside the component at this position, or after all of them. *)
Definition past (h : list (nat * nat)) (f : list (option nat)) : Prop := length f = length h /\
  (forall q p, nth_error f q = Some (Some p) -> exists i j C, nth_error h q = Some (i, j) /\ nth_error cs p = Some C /\ (exists v, member nv (firstn q h) i v) /\ forall v, member nv (firstn q h) i v \/ member nv (firstn q h) j v -> In v C) /\
  (forall q, nth_error f q = Some None -> (forall C, In C cs -> exists k, left_over nv (firstn q h) k /\ forall v, In v C -> member nv (firstn q h) k v) /\ (forall v, v < nv -> exists k, left_over nv (firstn q h) k /\ member nv (firstn q h) k v) /\
     exists i j v w, nth_error h q = Some (i, j) /\ member nv (firstn q h) i v /\ member nv (firstn q h) j w /\ v <> w /\ forall C, In C cs -> In v C -> ~ In w C) /\
  (forall q q' p p', q < q' -> nth_error f q = Some (Some p) -> nth_error f q' = Some (Some p') -> p <= p').
Definition in_part (h : list (nat * nat)) (idx : list nat) (C : list nat) : Prop :=
  (forall k v, In k idx -> member nv h k v -> In v C) /\ forall v, In v C -> exists k, In k idx /\ member nv h k v.
Definition scc_J (h : list (nat * nat)) (m : scc_state) (l : list bool) : Prop :=
  (0 < nv -> sel_ok ci cg shuffle (2 * nv - 1) 0 (s_sel m)) /\ map fst (s_sel m) = L /\ hist nv h l /\
  NoDup (s_current m) /\ (forall k, In k (s_current m) -> act l k /\ S k < length l) /\
  (s_current m <> [] -> act l (length l - 1)) /\
  (forall C v, In C (s_sccs m) -> In v C -> act l v /\ ~ In v (s_current m) /\ ((s_current m <> []) -> v <> length l - 1)) /\
  exists done, (forall C, In C done -> exists k, act l k /\ forall v, In v C -> member nv h k v) /\
    ((s_current m = [] /\ cs = done ++ s_sccs m) \/ (s_sccs m = [] /\ cs = done) \/
     (exists C, s_current m <> [] /\ cs = done ++ C :: s_sccs m /\ in_part h (s_current m ++ [length l - 1]) C)) /\
    exists f, past h f /\ forall q p, nth_error f q = Some (Some p) -> p < length done + match s_current m with [] => 0 | _ => 1 end.

Lemma scc_start F : occupied F = repeat true nv -> exists m, ms_start SC F = Ok m /\ scc_J [] m (occupied F).
Proof.
  intros HO. cbn [ms_start sccs_first]. rewrite Hcs. cbn [bind]. eexists. split; [reflexivity|]. unfold scc_J. cbn [s_sel s_current s_sccs].
  split; [intros Hp; eapply initialize_ok; eauto|]. split; [apply initialize_fst|]. rewrite HO. split; [apply hist_start|]. split; [constructor|]. split; [intros k []|]. split; [congruence|]. split.
  { intros C v HC Hv. split; [apply act_repeat; eauto|]. split; [intros []|congruence]. }
  exists []. split; [intros C []|]. split; [left; auto|]. exists []. split; [|intros [|q] p H; discriminate]. split; auto. split; [intros [|q]; discriminate|]. split; [intros [|q]; discriminate|]. intros [|q]; discriminate.
Qed.
Lemma firstn_snoc {A} (h : list A) c q : q <= length h -> firstn q (h ++ [c]) = firstn q h.
Proof. intros H. rewrite firstn_app. replace (q - length h) with 0 by lia. cbn [firstn]. apply app_nil_r. Qed.
Lemma nth_snoc {A} (h : list A) c q x : nth_error (h ++ [c]) q = Some x -> (q < length h /\ nth_error h q = Some x) \/ (q = length h /\ x = c).
Proof.
  intros H. destruct (Nat.lt_ge_cases q (length h)) as [Hl|Hl]; [rewrite nth_error_app1 in H by auto; auto|]. right. rewrite nth_error_app2 in H by auto. destruct (q - length h) as [|z] eqn:E; [|destruct z; discriminate]. cbn [nth_error] in H. inv H. split; auto; lia.
Qed.
(** Extending the past. *)
Lemma past_inside h f i j p C : past h f -> nth_error cs p = Some C -> (exists v, member nv h i v) -> (forall v, member nv h i v \/ member nv h j v -> In v C) -> (forall q p', nth_error f q = Some (Some p') -> p' <= p) -> past (h ++ [(i, j)]) (f ++ [Some p]).
Proof.
  intros (H1 & H2 & H3 & H4) HC Hne Hin Hle. split; [rewrite !app_length; cbn [length]; lia|]. split; [|split].
  - intros q p' Hq. apply nth_snoc in Hq as [[Hl Hq]|[-> E]].
    + destruct (H2 q p' Hq) as (a & b & C' & A1 & A2 & A3 & A4). exists a, b, C'. rewrite firstn_snoc by lia. rewrite nth_error_app1 by lia. auto.
    + inv E. exists i, j, C. rewrite H1. rewrite firstn_snoc by lia. rewrite nth_error_app2, Nat.sub_diag by lia. rewrite firstn_all. auto.
  - intros q Hq. apply nth_snoc in Hq as [[Hl Hq]|[_ E]]; [|discriminate]. rewrite firstn_snoc by lia. destruct (H3 q Hq) as (B1 & B2 & a & b & v & w & B3 & B4). splits; auto. exists a, b, v, w. rewrite nth_error_app1 by lia. auto.
  - intros q q' p1 p2 Hqq Hq Hq'. apply nth_snoc in Hq as [[Hl Hq]|[Eq E]]; apply nth_snoc in Hq' as [[Hl' Hq']|[Eq' E']]; [eauto|inv E'; eauto|lia|lia].
Qed.
Lemma past_after h f i j : past h f -> (forall C, In C cs -> exists k, left_over nv h k /\ forall v, In v C -> member nv h k v) -> (forall v, v < nv -> exists k, left_over nv h k /\ member nv h k v) -> (exists v w, member nv h i v /\ member nv h j w /\ v <> w /\ forall C, In C cs -> In v C -> ~ In w C) -> past (h ++ [(i, j)]) (f ++ [None]).
Proof.
  intros (H1 & H2 & H3 & H4) HA HB (v & w & HC). split; [rewrite !app_length; cbn [length]; lia|]. split; [|split].
  - intros q p' Hq. apply nth_snoc in Hq as [[Hl Hq]|[_ E]]; [|discriminate]. destruct (H2 q p' Hq) as (a & b & C' & A1 & A2 & A3 & A4). exists a, b, C'. rewrite firstn_snoc by lia. rewrite nth_error_app1 by lia. auto.
  - intros q Hq. apply nth_snoc in Hq as [[Hl Hq]|[-> _]]; [rewrite firstn_snoc by lia; destruct (H3 q Hq) as (B1 & B2 & a & b & v' & w' & B3 & B4); splits; auto; exists a, b, v', w'; rewrite nth_error_app1 by lia; auto|]. rewrite H1, firstn_snoc, firstn_all by lia. splits; auto. exists i, j, v, w. rewrite nth_error_app2, Nat.sub_diag by lia. auto.
  - intros q q' p1 p2 Hqq Hq Hq'. apply nth_snoc in Hq as [[Hl Hq]|[Eq E]]; apply nth_snoc in Hq' as [[Hl' Hq']|[Eq' E']]; [eauto|discriminate|lia|lia].
Qed.
Local Notation drop i j := (filter (fun k => negb ((k =? i) || (k =? j)))).
Lemma drop_In i j l k : In k (drop i j l) <-> In k l /\ k <> i /\ k <> j.
Proof. rewrite filter_In, negb_true_iff, orb_false_iff, !Nat.eqb_neq. tauto. Qed.
Lemma kept_whole h l i j C : hist nv h l -> act l i -> act l j -> (exists k, act l k /\ forall v, In v C -> member nv h k v) -> exists k, act (merged l i j) k /\ forall v, In v C -> member nv (h ++ [(i, j)]) k v.
Proof.
  intros (H1 & H2 & H3 & H4 & H5 & H6) Hi Hj (k & Hk & Hm). assert (Li : i < nv + length h) by (apply H3 in Hi; apply Hi). assert (Lj : j < nv + length h) by (apply H3 in Hj; apply Hj). destruct (Nat.eq_dec k i) as [->|Ni]; [|destruct (Nat.eq_dec k j) as [->|Nj]].
  - exists (length l). split; [apply act_merged; now left|]. intros v Hv. rewrite H2. apply member_new; auto.
  - exists (length l). split; [apply act_merged; now left|]. intros v Hv. rewrite H2. apply member_new; auto.
  - exists k. split; [apply act_merged; auto|]. intros v Hv. apply member_mono. auto.
Qed.
Lemma part_next h l cur i j C : hist nv h l -> act l i -> act l j -> In i cur -> In j cur -> (forall k, In k cur -> act l k) -> in_part h cur C -> in_part (h ++ [(i, j)]) (drop i j cur ++ [length (merged l i j) - 1]) C.
Proof.
  intros HH Hi Hj Ci Cj Hc [A B]. pose proof HH as (H1 & H2 & H3 & H4 & H5 & H6). assert (Li : i < nv + length h) by (apply H3 in Hi; apply Hi). assert (Lj : j < nv + length h) by (apply H3 in Hj; apply Hj). rewrite merged_length. cbn [Nat.sub]. rewrite Nat.sub_0_r, H2. split.
  - intros k v Hk Hm. apply in_app_iff in Hk as [Hk|[<-|[]]].
    + apply drop_In in Hk as [Hk _]. apply (A k); auto. apply (member_old nv h (i, j)); auto. apply Hc, H3 in Hk. apply Hk.
    + apply member_new in Hm as [Hm|Hm]; eauto.
  - intros v Hv. destruct (B v Hv) as (k & Hk & Hm). destruct (Nat.eq_dec k i) as [->|Ni]; [|destruct (Nat.eq_dec k j) as [->|Nj]].
    + exists (nv + length h). split; [apply in_app_iff; right; now left|]. apply member_new; auto.
    + exists (nv + length h). split; [apply in_app_iff; right; now left|]. apply member_new; auto.
    + exists k. split; [apply in_app_iff; left; apply drop_In; auto|]. now apply member_mono.
Qed.
(** The situation with the indices to choose from. *)
Lemma scc_step h l cur rest i j sel' : hist nv h l -> (0 < nv -> sel_ok ci cg shuffle (2 * nv - 1) 0 sel') -> map fst sel' = L ->
  NoDup cur -> (forall k, In k cur -> act l k) -> In i cur -> In j cur -> i <> j ->
  (forall C v, In C rest -> In v C -> act l v /\ ~ In v cur) ->
  forall done f, past h f -> (forall C, In C done -> exists k, act l k /\ forall v, In v C -> member nv h k v) ->
  ((exists C, cs = done ++ C :: rest /\ in_part h cur C /\ forall q p, nth_error f q = Some (Some p) -> p <= length done) \/ (rest = [] /\ cs = done /\ forall q p, nth_error f q = Some (Some p) -> p < length done + 1)) ->
  (rest = [] -> cs = done -> forall q p, nth_error f q = Some (Some p) -> p < length done) ->
  scc_J (h ++ [(i, j)]) {| s_sel := sel'; s_current := drop i j cur; s_sccs := rest |} (merged l i j).
Proof.
  intros HH Hs Hf HD Hc Ci Cj Nij Hrest done f Hpast Hdone Hcase Hlt. pose proof (Hc i Ci) as Hi. pose proof (Hc j Cj) as Hj. pose proof (hist_next nv h l i j HH Hi Hj) as HH'. pose proof HH as (H1 & H2 & H3 & H4 & H5 & H6).
  unfold scc_J. cbn [s_sel s_current s_sccs]. split; auto. split; auto. split; auto. split; [now apply NoDup_filter|]. rewrite merged_length. split.
  { intros k Hk. apply drop_In in Hk as (Hk & N1 & N2). split; [apply act_merged; auto|]. apply Hc, act_lt in Hk. lia. }
  cbn [Nat.sub]. rewrite Nat.sub_0_r. split; [intros _; apply act_merged; now left|]. split.
  { intros C v HC Hv. destruct (Hrest C v HC Hv) as [A B]. split; [apply act_merged; right; split; auto; split; intros ->; contradiction|]. split; [intros Hin; apply drop_In in Hin as [Hin _]; contradiction|]. intros _ ->. apply act_lt in A. lia. }
  assert (Hdone' : forall C, In C done -> exists k, act (merged l i j) k /\ forall v, In v C -> member nv (h ++ [(i, j)]) k v) by (intros C HC; apply kept_whole; auto).
  destruct Hcase as [(C & E & Hpart & Hle)|(-> & E & Hle)].
  - pose proof (part_next h l cur i j C HH Hi Hj Ci Cj Hc Hpart) as Hpart'. rewrite merged_length in Hpart'. cbn [Nat.sub] in Hpart'. rewrite Nat.sub_0_r in Hpart'.
    assert (HC : nth_error cs (length done) = Some C) by (rewrite E, nth_error_app2, Nat.sub_diag by auto; reflexivity).
    assert (Hp' : past (h ++ [(i, j)]) (f ++ [Some (length done)])). { apply past_inside with C; auto. intros v [Hv|Hv]; [apply (proj1 Hpart i v); auto|apply (proj1 Hpart j v); auto]. }
    destruct (drop i j cur) as [|x xs] eqn:Ed.
    + exists (done ++ [C]). split.
      { intros C' HC'. apply in_app_iff in HC' as [HC'|[<-|[]]]; auto. exists (length l). split; [apply act_merged; now left|]. intros v Hv. destruct (proj2 Hpart' v Hv) as (k & [<-|[]] & Hm). exact Hm. }
      split; [left; split; auto; now rewrite <- app_assoc|]. exists (f ++ [Some (length done)]). split; auto. intros q p Hq. rewrite app_length. cbn [length]. apply nth_snoc in Hq as [[_ Hq]|[_ Hq]]; [apply Hle in Hq; lia|inv Hq; lia].
    + exists done. split; auto. split; [right; right; exists C; split; [discriminate|]; split; auto|]. exists (f ++ [Some (length done)]). split; auto. intros q p Hq. apply nth_snoc in Hq as [[_ Hq]|[_ Hq]]; [apply Hle in Hq; lia|inv Hq; lia].
  - exists done. split; auto. split; [right; left; auto|]. exists (f ++ [None]). split.
    + apply past_after; auto.
      * intros C HC. rewrite E in HC. destruct (Hdone C HC) as (k & Hk & Hm). exists k. split; auto. now apply H3.
      * intros v Hv. destruct (H4 v Hv) as (k & Hk & Hm). exists k. split; auto. now apply H3.
      * destruct (H5 i Hi) as [v Hv]. destruct (H5 j Hj) as [w Hw]. exists v, w. splits; auto; [intros ->; apply Nij; eapply H6; eauto|]. intros C HC Cv Cw. rewrite E in HC. destruct (Hdone C HC) as (k & Hk & Hm). apply Nij. transitivity k; [apply (H6 i k v); auto|apply (H6 k j w); auto].
    + intros q p Hq. apply nth_snoc in Hq as [[_ Hq]|[_ Hq]]; [|discriminate]. apply (Hlt eq_refl E) in Hq. lia.
Qed.
Lemma scc_next h m F n : at_point h F -> scc_J h m (occupied F) -> 2 <= num_active F ->
  exists i j m', ms_get_next SC n m F = Ok (i, j, m') /\ i <> j /\ act (occupied F) i /\ act (occupied F) j /\ scc_J (h ++ [(i, j)]) m' (merged (occupied F) i j).
Proof.
  intros HA (J1 & J2 & J3 & J4 & J5 & J6 & J7 & done & D1 & D2 & f & D3 & D4) H2. pose proof H2 as H2'. rewrite nt_active in H2'. assert (Hpos : 0 < nv) by (destruct HA as (_ & _ & ?); lia). pose proof HA as (_ & HAl & _).
  cbn [ms_get_next sccs_first]. unfold sccs_get_next.
  assert (Go : forall cur rest, current_indices m F = (cur, rest) -> NoDup cur -> 2 <= length cur -> (forall k, In k cur -> act (occupied F) k) -> (forall C v, In C rest -> In v C -> act (occupied F) v /\ ~ In v cur) ->
     ((exists C, cs = done ++ C :: rest /\ in_part h cur C /\ forall q p, nth_error f q = Some (Some p) -> p <= length done) \/ (rest = [] /\ cs = done /\ forall q p, nth_error f q = Some (Some p) -> p < length done + 1)) ->
     (rest = [] -> cs = done -> forall q p, nth_error f q = Some (Some p) -> p < length done) ->
     exists i j m', (let '(cur, sccs) := current_indices m F in let* (i, j, sel) := select_merge_from_candidates P q0 ord random pick n (s_sel m) F (all_pairs cur) in Ok (i, j, {| s_sel := sel; s_current := drop i j cur; s_sccs := sccs |})) = Ok (i, j, m') /\ i <> j /\ act (occupied F) i /\ act (occupied F) j /\ scc_J (h ++ [(i, j)]) m' (merged (occupied F) i j)).
  { intros cur rest E HD HL2 Hact Hr Hcase Hlt. rewrite E. destruct (pick_ok P bag HP q0 Hq0 ord Hord O t Ht shuffle random pick Hrnd L HLb n h F (s_sel m) cur HA (J1 Hpos) J2 HD HL2 Hact H2') as (i & j & sel' & -> & Hi & Hj & Nij & Hs & Hf). cbn [bind].
    exists i, j, {| s_sel := sel'; s_current := drop i j cur; s_sccs := rest |}. split; [reflexivity|]. split; [exact Nij|]. split; [now apply Hact|]. split; [now apply Hact|]. eapply (scc_step h (occupied F) cur rest i j sel' J3); eauto. }
  assert (Hlt : s_sccs m = [] -> cs = done -> forall q p, nth_error f q = Some (Some p) -> p < length done).
  { intros _ E q p Hq. destruct D3 as (_ & P2 & _). destruct (P2 q p Hq) as (_ & _ & C & _ & HC & _ & _). apply nth_error_Some_lt in HC. congruence. }
  unfold current_indices in *. destruct (s_current m) as [|x xs] eqn:Ec.
  - destruct (s_sccs m) as [|C r] eqn:Es.
    + assert (Ecs : cs = done). { destruct D2 as [[_ E]|[[_ E]|(C & N & _)]]; [now rewrite app_nil_r in E|auto|congruence]. }
      apply (Go (active_indices F) []); auto.
      * apply active_indices_nodup.
      * now rewrite active_indices_length.
      * intros k Hk. now apply active_indices_In.
      * intros C v [].
      * right. splits; auto. intros q p Hq. apply D4 in Hq. lia.
    + assert (Ecs : cs = done ++ C :: r). { destruct D2 as [[_ E]|[[E _]|(C' & N & _)]]; [auto|discriminate|congruence]. }
      assert (HCin : In C cs) by (rewrite Ecs; apply in_elt). assert (HDc : NoDup (C ++ concat r)). { rewrite Ecs, concat_app in HcsD. cbn [concat] in HcsD. apply nodup_app_parts in HcsD. tauto. }
      apply nodup_app_parts in HDc as (HDC & _ & Hdis). apply (Go C r); auto.
      * intros k Hk. apply (J7 C k); auto. now left.
      * intros C' v HC' Hv. split; [apply (J7 C' v); auto; now right|]. intros Hin. apply (Hdis v Hin). apply in_concat. eauto.
      * left. exists C. split; auto. split; [|intros q p Hq; apply D4 in Hq; lia]. split.
        -- intros k v Hk Hm. apply member_atom in Hm; [congruence|eauto].
        -- intros v Hv. exists v. split; auto. apply member_atomic. eauto.
      * intros -> Ex. exfalso. rewrite Ex in Ecs. apply (f_equal (@length (list nat))) in Ecs. rewrite app_length in Ecs. cbn [length] in Ecs. lia.
  - rewrite <- Ec in *. assert (Hne : s_current m <> []) by congruence. rewrite <- occ_length in *. assert (Hlast : forall k, In k (s_current m) -> k <> length (occupied F) - 1) by (intros k Hk; destruct (J5 k Hk); lia).
    apply (Go (s_current m ++ [length (occupied F) - 1]) (s_sccs m)); auto.
    + apply nodup_app_parts. split; auto. split; [constructor; [intros []|constructor]|]. intros k Hk [E|[]]. now apply (Hlast k).
    + rewrite app_length, Ec. cbn [length]. lia.
    + intros k Hk. apply in_app_iff in Hk as [Hk|[<-|[]]]; [now apply J5|auto].
    + intros C v HC Hv. destruct (J7 C v HC Hv) as (A & B & D). split; auto. intros Hin. apply in_app_iff in Hin as [Hin|[E|[]]]; auto. now apply D.
    + destruct D2 as [[E _]|[[E1 E2]|(C & _ & E & Hpart)]]; [congruence| |].
      * right. split; [exact E1|]. split; [exact E2|]. intros q p Hq. pose proof (Hlt E1 E2 q p Hq). lia.
      * left. exists C. split; [exact E|]. split; [exact Hpart|]. intros q p Hq. apply D4 in Hq. rewrite ?Ec in Hq. lia.
Qed.
Lemma scc_good : good_merges P q0 ord O t SC.
Proof. apply (runs_good P q0 ord O t SC scc_J); [intros F _; apply scc_start|apply scc_next]. Qed.
Lemma scc_run h m F : strategy_run P q0 ord O t SC h m F -> exists f, past h f.
Proof. intros HR. destruct (run_inv P q0 ord O t SC scc_J (fun F _ => scc_start F) scc_next h m F HR) as [_ (_ & _ & _ & _ & _ & _ & _ & done & _ & _ & f & Hf & _)]. eauto. Qed.
End SCC.

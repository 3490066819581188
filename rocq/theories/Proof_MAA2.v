(** Exact label reduction: the combinable labels and the mapping computed from them. *)
From Coq Require Import Permutation.
From Verif Require Import Outcome Spec_Task Spec_Relaxation Spec_Projection Spec_Partition Model_PQ Model_Graph Model_Equivalence Proof_Equivalence Model_MAS Spec_FTS Model_MASRun Model_MASAlgorithm Spec_LabelReduction.
From Verif Require Import Proof_MAS1 Proof_MAS2 Proof_MAS4 Proof_MAS5 Proof_MAS11 Proof_MAS12 Proof_MAS13 Proof_Pot5 Proof_OC1 Proof_MAA1.

Lemma other_groups_In ts X : forall fs i0, In X (other_groups ts i0 fs) <->
  exists k f i, nth_error fs k = Some (Some f) /\ i0 + k <> ts /\ In i (ts_infos (f_ts f)) /\ is_active i = true /\ X = i_labels i.
Proof.
  induction fs as [|[f|] r IH]; intros i0; cbn [other_groups].
  - split; [intros []|intros (k & f & i & H & _); destruct k; discriminate].
  - rewrite in_app_iff, IH. split.
    + intros [H|(k & g & i & A & B & C)].
      * destruct (Nat.eqb_spec i0 ts) as [E|N]; [destruct H|]. apply in_map_iff in H as (i & <- & Hi). unfold active_infos in Hi. apply filter_In in Hi as [Hi Ha]. exists 0, f, i. rewrite Nat.add_0_r. splits; auto.
      * exists (S k), g, i. splits; try apply C; auto. lia.
    + intros (k & g & i & A & B & C & D & ->). destruct k as [|k]; cbn [nth_error] in A.
      * inv A. left. rewrite Nat.add_0_r in B. rewrite (proj2 (Nat.eqb_neq i0 ts) B). apply in_map_iff. exists i. split; auto. unfold active_infos. now apply filter_In.
      * right. exists k, g, i. splits; auto. lia.
  - cbn [app]. rewrite IH. split.
    + intros (k & g & i & A & B & C). exists (S k), g, i. splits; try apply C; auto. lia.
    + intros (k & g & i & A & B & C). destruct k as [|k]; cbn [nth_error] in A; [discriminate|]. exists k, g, i. splits; try apply C; auto. lia.
Qed.

Lemma NoDup_concat_in {A} (ls : list (list A)) l : NoDup (concat ls) -> In l ls -> NoDup l.
Proof.
  induction ls as [|x r IH]; cbn [concat In]; [tauto|]. intros H [->|Hin].
  - clear IH. induction l as [|y l IH]; [constructor|]. cbn [app] in H. inversion H; subst. constructor; auto. intros Hy. apply H2. apply in_app_iff. auto.
  - apply IH; auto. clear -H. induction x as [|y x IH]; cbn [app] in H; auto. inversion H; auto.
Qed.

(** ** The mapping *)
Definition big (e : nat * list nat) : bool := 1 <? length (snd e).
Definition big_groups (es : list (nat * list nat)) : list (list nat) := map (fun e => sort Nat.leb (snd e)) (filter big es).
Lemma combine_snoc {A B} (a : list A) (b : list B) x y : length a = length b -> combine a b ++ [(x, y)] = combine (a ++ [x]) (b ++ [y]).
Proof. revert b. induction a as [|z a IH]; intros [|w b] H; cbn [length] in H; try discriminate; cbn [combine app]; auto. f_equal. apply IH. lia. Qed.
Definition numbered (n : nat) (gs : list (list nat)) : label_mapping := combine (seq n (length gs)) gs.
Lemma numbered_snoc n gs g : numbered n gs ++ [(n + length gs, g)] = numbered n (gs ++ [g]).
Proof. unfold numbered. rewrite combine_snoc by apply seq_length. rewrite app_length. cbn [length]. rewrite Nat.add_1_r. now rewrite seq_S. Qed.
Lemma add_mapping_all n : forall es gs, fold_left add_mapping es (numbered n gs, n + length gs) = (numbered n (gs ++ big_groups es), n + length (gs ++ big_groups es)).
Proof.
  induction es as [|e r IH]; intros gs; cbn [fold_left]; [unfold big_groups; cbn [filter map]; now rewrite app_nil_r|].
  unfold big_groups. cbn [filter]. unfold add_mapping at 2. fold (big e). destruct (big e) eqn:Eb; cbn [map].
  - rewrite numbered_snoc. replace (S (n + length gs)) with (n + length (gs ++ [sort Nat.leb (snd e)])) by (rewrite app_length; cbn [length]; lia). rewrite IH. now rewrite <- !app_assoc.
  - apply IH.
Qed.
Lemma numbered_nth n gs j e : nth_error (numbered n gs) j = Some e -> fst e = n + j /\ nth_error gs j = Some (snd e).
Proof.
  unfold numbered. revert n j. induction gs as [|g r IH]; intros n j H; cbn [length seq combine] in H; [destruct j; discriminate|]. destruct j as [|j]; cbn [nth_error] in *.
  - inv H. cbn [fst snd]. split; auto; cbn [fst]; lia.
  - destruct (IH (S n) j H) as [A B]. split; auto. lia.
Qed.
Lemma numbered_snd n gs : map snd (numbered n gs) = gs.
Proof. unfold numbered. revert n. induction gs as [|g r IH]; intros n; cbn [length seq combine map snd]; auto. now rewrite IH. Qed.
Lemma numbered_length n gs : length (numbered n gs) = length gs.
Proof. unfold numbered. rewrite combine_length, seq_length. lia. Qed.
Lemma numbered_nil n gs : numbered n gs = [] -> gs = [].
Proof. intros H. rewrite <- (numbered_snd n gs), H. reflexivity. Qed.

Lemma cost_to_labels_ok L : forall block, (forall l, In l block -> exists c, active L l c) ->
  exists m, cost_to_labels L block = Ok m /\ NoDup (map fst m) /\ Permutation (concat (map snd m)) block /\
    forall c l, (exists ls, In (c, ls) m /\ In l ls) <-> In l block /\ active L l c.
Proof.
  intros block H. unfold cost_to_labels.
  apply (fold_inv _ (fun pre m => NoDup (map fst m) /\ Permutation (concat (map snd m)) pre /\ forall c l, (exists ls, In (c, ls) m /\ In l ls) <-> In l pre /\ active L l c)).
  - splits; [constructor|reflexivity|]. intros c l. split; [intros (ls & [] & _)|intros [[] _]].
  - intros pre x post m -> (A & B & C). destruct (H x) as [c Hc]; [apply in_app_iff; right; now left|]. rewrite (get_label_cost_ok _ _ _ Hc). cbn [bind]. eexists. split; [reflexivity|]. splits.
    + now apply add_to_bucket_NoDup.
    + eapply perm_trans; [apply add_to_bucket_perm|]. eapply perm_trans; [apply perm_skip, B|]. apply Permutation_cons_append.
    + intros c' l. rewrite add_to_bucket_In by auto. rewrite C, in_app_iff. cbn [In]. split.
      * intros [[? ?]|[-> ->]]; auto.
      * intros [[?|[<-|[]]] Ha]; auto. right. split; auto. unfold active in *. congruence.
Qed.
Lemma big_groups_NoDup es : NoDup (concat (map snd es)) -> NoDup (concat (big_groups es)) /\ forall l, In l (concat (big_groups es)) -> In l (concat (map snd es)).
Proof.
  unfold big_groups. induction es as [|e r IH]; cbn [map concat filter]; [split; auto|]. intros H.
  assert (Hr : NoDup (concat (map snd r))) by (clear -H; induction (snd e) as [|y x IH]; cbn [app] in H; auto; inversion H; auto). destruct (IH Hr) as [A B].
  destruct (big e); cbn [map concat].
  - split.
    + apply (Permutation_NoDup (l := snd e ++ concat (map (fun e => sort Nat.leb (snd e)) (filter big r)))); [apply Permutation_app_tail, Permutation_sym, sort_perm|].
      apply NoDup_app_disj; auto.
      * clear -H. induction (snd e) as [|y x IH]; cbn [app] in H; [constructor|]. inversion H; subst. constructor; auto. intros Hy. apply H2, in_app_iff. auto.
      * intros x Hx Hx'. apply B in Hx'. clear -H Hx Hx'. induction (snd e) as [|y z IH]; [destruct Hx|]. cbn [app] in H. inversion H; subst. destruct Hx as [->|Hx]; [apply H2, in_app_iff; auto|auto].
    + intros l. rewrite !in_app_iff, sort_In. intros [?|?]; auto.
  - split; auto. intros l Hl. apply in_app_iff. auto.
Qed.

Section MAPPING.
Variable ord : list (nat * list nat) -> list (nat * list nat).
Hypothesis Hord : forall b, Permutation (ord b) b.
Variable L : label_costs.

Definition MM (pre : list (list nat)) (gs : list (list nat)) : Prop :=
  NoDup (concat gs) /\ (forall l, In l (concat gs) -> In l (concat pre)) /\
  (forall g, In g gs -> 2 <= length g /\ exists c B, In B pre /\ forall l, In l g -> In l B /\ active L l c) /\
  (forall B a b c, In B pre -> In a B -> In b B -> a <> b -> active L a c -> active L b c -> exists g, In g gs /\ In a g /\ In b g).
Lemma compute_label_mapping_ok rel : NoDup (concat (partition_of rel)) -> (forall l, In l (concat (partition_of rel)) -> exists c, active L l c) ->
  exists gs, compute_label_mapping ord rel L = Ok (numbered (length L) gs) /\ MM (partition_of rel) gs.
Proof.
  intros Hn Ha. unfold compute_label_mapping. set (bl := partition_of rel) in *.
  destruct (fold_inv (fun (st : label_mapping * nat) block => let* m := cost_to_labels L block in Ok (fold_left add_mapping (ord m) st))
    (fun pre st => exists gs, st = (numbered (length L) gs, length L + length gs) /\ MM pre gs) bl ([], length L)) as (st & E & gs & -> & HM).
  - exists []. split; [cbn [numbered length seq combine]; now rewrite Nat.add_0_r|]. unfold MM; splits; [constructor|intros l []|intros g []|intros B a b c []].
  - intros pre B post st E (gs & -> & M1 & M2 & M3 & M4).
    assert (HB : forall l, In l B -> exists c, active L l c) by (intros l Hl; apply Ha; rewrite E, concat_app, in_app_iff; right; cbn [concat]; apply in_app_iff; auto).
    destruct (cost_to_labels_ok L B HB) as (m & -> & K1 & K2 & K3). cbn [bind]. rewrite add_mapping_all. eexists. split; [reflexivity|]. exists (gs ++ big_groups (ord m)). split; auto.
    assert (HBn : NoDup B) by (apply (NoDup_concat_in bl B Hn); rewrite E; apply in_app_iff; right; now left).
    assert (Hom : Permutation (concat (map snd (ord m))) B) by (eapply perm_trans; [apply concat_perm, Permutation_map, Hord|exact K2]).
    destruct (big_groups_NoDup (ord m)) as [G1 G2]; [exact (Permutation_NoDup (Permutation_sym Hom) HBn)|].
    assert (G3 : forall l, In l (concat (big_groups (ord m))) -> In l B) by (intros l Hl; exact (Permutation_in _ Hom (G2 l Hl))).
    unfold MM. rewrite !concat_app. cbn [concat]. rewrite app_nil_r. splits.
    + apply NoDup_app_disj; auto. intros x Hx Hx'. apply M2 in Hx. apply G3 in Hx'. rewrite E, concat_app in Hn. cbn [concat] in Hn. clear -Hn Hx Hx'. induction (concat pre) as [|y z IH]; [destruct Hx|]. cbn [app] in Hn. inversion Hn; subst. destruct Hx as [->|Hx]; [apply H1; rewrite !in_app_iff; auto|auto].
    + intros l Hl. apply in_app_iff in Hl as [Hl|Hl]; apply in_app_iff; auto.
    + intros g Hg. apply in_app_iff in Hg as [Hg|Hg].
      * destruct (M3 g Hg) as (X & c & B' & Y & Z). split; auto. exists c, B'. split; auto. apply in_app_iff. auto.
      * unfold big_groups in Hg. apply in_map_iff in Hg as ([c ls] & <- & Hf). apply filter_In in Hf as [Hin Hbig]. cbn [snd] in *. unfold big in Hbig. cbn [snd] in Hbig. apply Nat.ltb_lt in Hbig. split; [rewrite (Permutation_length (sort_perm Nat.leb ls)); lia|].
        exists c, B. split; [apply in_app_iff; right; now left|]. intros l Hl. apply sort_In in Hl. apply (proj1 (K3 c l)). exists ls. split; auto. exact (Permutation_in _ (Hord m) Hin).
    + intros B' a b c HB' Hia Hib Hab Hca Hcb. apply in_app_iff in HB' as [HB'|[<-|[]]].
      * destruct (M4 B' a b c HB' Hia Hib Hab Hca Hcb) as (g & X & Y). exists g. split; auto. apply in_app_iff. auto.
      * destruct (proj2 (K3 c a) (conj Hia Hca)) as (ls & Hls & Hl). destruct (proj2 (K3 c b) (conj Hib Hcb)) as (ls' & Hls' & Hl').
        assert (ls' = ls).
        { clear -K1 Hls Hls'. induction m as [|[k x] r IH]; [destruct Hls|]. cbn [map fst] in K1. inversion K1; subst. destruct Hls as [E|Hls], Hls' as [E'|Hls'].
          - congruence.
          - inv E. destruct H1. apply in_map_iff. exists (c, ls'). auto.
          - inv E'. destruct H1. apply in_map_iff. exists (c, ls). auto.
          - auto. }
        subst ls'. exists (sort Nat.leb ls). split; [|rewrite !sort_In; auto]. apply in_app_iff. right. unfold big_groups. apply in_map_iff. exists (c, ls). split; auto. apply filter_In. split; [apply (Permutation_in _ (Permutation_sym (Hord m))); auto|].
        unfold big. cbn [snd]. apply Nat.ltb_lt. destruct ls as [|x [|y ls]]; cbn [length]; try lia; [destruct Hl|]. destruct Hl as [<-|[]], Hl' as [<-|[]]. congruence.
  - cbn [app] in E. rewrite E. cbn [bind]. exists gs. auto.
Qed.
End MAPPING.

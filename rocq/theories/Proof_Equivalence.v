(** EquivalenceRelation::refine computes the common refinement. *)
From Verif Require Import Outcome Spec_Partition Model_Equivalence.

Lemma find_block_set bs b' i : find_block (set_block bs b') i =
  if i =? bid b' then (match find_block bs i with Some _ => Some b' | None => None end) else find_block bs i.
Proof.
  unfold find_block, set_block. induction bs as [|b bs IH]; cbn; [now destruct (i =? bid b')|].
  destruct (Nat.eqb_spec (bid b) (bid b')) as [E|E].
  - destruct (Nat.eqb_spec (bid b') i) as [E2|E2].
    + subst i. rewrite E, !Nat.eqb_refl. reflexivity.
    + rewrite IH. destruct (Nat.eqb_spec i (bid b')); [lia|]. destruct (Nat.eqb_spec (bid b) i); [lia|reflexivity].
  - destruct (Nat.eqb_spec (bid b) i) as [E2|E2].
    + destruct (Nat.eqb_spec i (bid b')); [lia|reflexivity].
    + apply IH.
Qed.
Lemma find_block_app bs b i : find_block (bs ++ [b]) i =
  match find_block bs i with Some x => Some x | None => if bid b =? i then Some b else None end.
Proof. unfold find_block. induction bs as [|c bs IH]; cbn; auto. destruct (bid c =? i); auto. Qed.
Lemma find_block_filter bs i j : find_block (filter (fun b' => negb (bid b' =? i)) bs) j =
  if j =? i then None else find_block bs j.
Proof.
  unfold find_block. induction bs as [|c bs IH]; cbn; [now destruct (j =? i)|].
  destruct (Nat.eqb_spec (bid c) i) as [E|E]; cbn.
  - rewrite IH. destruct (Nat.eqb_spec j i); auto. destruct (Nat.eqb_spec (bid c) j); [lia|reflexivity].
  - destruct (Nat.eqb_spec (bid c) j) as [E2|E2]; [destruct (Nat.eqb_spec j i); [lia|reflexivity]|apply IH].
Qed.
Lemma find_block_bid bs i b : find_block bs i = Some b -> bid b = i /\ In b bs.
Proof. intros H. apply find_some in H. destruct H as [H1 H2]. apply Nat.eqb_eq in H2. auto. Qed.
Lemma find_block_in bs b : NoDup (map bid bs) -> In b bs -> find_block bs (bid b) = Some b.
Proof.
  induction bs as [|c bs IH]; cbn; [tauto|]. intros Hn [->|H].
  - unfold find_block. cbn. now rewrite Nat.eqb_refl.
  - inv Hn. unfold find_block. cbn. destruct (Nat.eqb_spec (bid c) (bid b)) as [E|E].
    + exfalso. apply H2. rewrite E. now apply in_map.
    + apply IH; auto.
Qed.
Lemma set_block_ids bs b' : map bid (set_block bs b') = map bid bs.
Proof. unfold set_block. rewrite map_map. apply map_ext_in. intros b _. destruct (Nat.eqb_spec (bid b) (bid b')); auto. Qed.

Lemma erase_elem_ok x l : In x l -> NoDup l ->
  exists l', erase_elem x l = Ok l' /\ NoDup l' /\ forall y, In y l' <-> In y l /\ y <> x.
Proof.
  induction l as [|z l IH]; cbn; [tauto|]. intros Hx Hn. inv Hn. destruct (Nat.eqb_spec z x) as [->|Hne].
  - exists l. splits; auto. intros y. split; [intros Hy; split; auto; congruence|]. intros [[->|Hy] Hd]; congruence.
  - destruct Hx as [->|Hx]; [congruence|]. destruct (IH Hx H2) as (l' & E & Hn' & Hl'). rewrite E. cbn.
    exists (z :: l'). splits; auto.
    + constructor; auto. rewrite Hl'. tauto.
    + intros y. cbn. rewrite Hl'. split; [intros [->|[Hy Hd]]; auto|]. intros [[->|Hy] Hd]; auto.
Qed.

Lemma pos_find_cons x i ps y : pos_find ((x, i) :: ps) y = if y =? x then Some i else pos_find ps y.
Proof. unfold pos_find. cbn. rewrite (Nat.eqb_sym x y). destruct (y =? x); auto. Qed.

(** Blocks and positions agree. *)
Record wf (r : eqrel) : Prop := {
  wf_ids : NoDup (map bid (er_blocks r));
  wf_lt : forall i b, find_block (er_blocks r) i = Some b -> i < er_next r;
  wf_pos : forall x i, pos_find (er_pos r) x = Some i -> exists b, find_block (er_blocks r) i = Some b /\ In x (belems b);
  wf_mem : forall i b, find_block (er_blocks r) i = Some b ->
    NoDup (belems b) /\ forall x, In x (belems b) -> pos_find (er_pos r) x = Some i }.

Record rest (r : eqrel) : Prop := {
  rs_wf : wf r;
  rs_inter : forall i b, find_block (er_blocks r) i = Some b -> binter b = None;
  rs_ne : forall i b, find_block (er_blocks r) i = Some b -> belems b <> [] }.

Record mid (r0 : eqrel) (P : nat -> Prop) (r : eqrel) (modified : list nat) : Prop := {
  md_wf : wf r;
  md_next : er_next r0 <= er_next r;
  md_out : forall x, ~ P x -> pos_find (er_pos r) x = pos_find (er_pos r0) x;
  md_in : forall x, P x -> exists i i0 b, pos_find (er_pos r) x = Some i /\ pos_find (er_pos r0) x = Some i0 /\
    find_block (er_blocks r) i0 = Some b /\ binter b = Some i;
  md_inter : forall j b i, find_block (er_blocks r) j = Some b -> binter b = Some i ->
    j < er_next r0 /\ er_next r0 <= i /\ exists b', find_block (er_blocks r) i = Some b';
  md_inj : forall j1 b1 j2 b2 i, find_block (er_blocks r) j1 = Some b1 -> find_block (er_blocks r) j2 = Some b2 ->
    binter b1 = Some i -> binter b2 = Some i -> j1 = j2;
  md_mod : forall j, In j modified <-> exists b i, find_block (er_blocks r) j = Some b /\ binter b = Some i;
  md_nd : NoDup modified;
  md_ne : forall j b, find_block (er_blocks r) j = Some b -> binter b = None -> belems b <> [] }.

Lemma mid_start r : rest r -> mid r (fun _ => False) r [].
Proof.
  intros [Hw Hi Hn]. constructor; auto; try tauto; try (intros; erewrite Hi in *; eauto; discriminate).
  - intros j. split; [intros []|]. intros (b & i & Hb & Hb'). rewrite (Hi _ _ Hb) in Hb'. discriminate.
  - constructor.
Qed.

(** The second half of an iteration: move [x] from block [iB] to its intersection block. *)
Lemma move_elem r iB B1 i x : wf r -> find_block (er_blocks r) iB = Some B1 -> binter B1 = Some i -> i <> iB ->
  (exists bi, find_block (er_blocks r) i = Some bi) -> In x (belems B1) ->
  exists es bi, erase_elem x (belems B1) = Ok es /\ find_block (er_blocks r) i = Some bi /\
    exists r3, insert_elem {| er_blocks := set_block (er_blocks r) {| bid := bid B1; belems := es; binter := binter B1 |};
                           er_next := er_next r; er_pos := er_pos r |} i x = Ok r3 /\
      wf r3 /\ er_next r3 = er_next r /\
      (forall y, pos_find (er_pos r3) y = if y =? x then Some i else pos_find (er_pos r) y) /\
      (forall j, find_block (er_blocks r3) j =
         if j =? iB then Some {| bid := iB; belems := es; binter := Some i |}
         else if j =? i then Some {| bid := i; belems := belems bi ++ [x]; binter := binter bi |}
         else find_block (er_blocks r) j).
Proof.
  intros [W1 W2 W3 W4] HB Hi Hne [bi Hbi] Hx.
  destruct (find_block_bid _ _ _ HB) as [EB _]. destruct (find_block_bid _ _ _ Hbi) as [Ebi _].
  destruct (W4 _ _ HB) as [HnB HmB]. destruct (W4 _ _ Hbi) as [Hni Hmi].
  destruct (erase_elem_ok x (belems B1) Hx HnB) as (es & Ees & Hnes & Hes).
  exists es, bi. splits; auto. unfold insert_elem. cbn [er_blocks er_next er_pos].
  rewrite find_block_set. cbn [bid]. rewrite EB. destruct (Nat.eqb_spec i iB); [congruence|]. rewrite Hbi.
  eexists; split; [reflexivity|].
  set (r3 := {| er_blocks := _; er_next := _; er_pos := _ |}).
  assert (Hpos : forall y, pos_find (er_pos r3) y = if y =? x then Some i else pos_find (er_pos r) y).
  { intros y. unfold r3. cbn [er_pos]. apply pos_find_cons. }
  assert (Hfind : forall j, find_block (er_blocks r3) j =
         if j =? iB then Some {| bid := iB; belems := es; binter := Some i |}
         else if j =? i then Some {| bid := i; belems := belems bi ++ [x]; binter := binter bi |}
         else find_block (er_blocks r) j).
  { intros j. unfold r3. cbn [er_blocks]. rewrite !find_block_set. cbn [bid]. rewrite Ebi, Hi.
    destruct (Nat.eqb_spec j iB) as [->|].
    - destruct (Nat.eqb_spec iB i); [congruence|]. now rewrite HB.
    - destruct (Nat.eqb_spec j i) as [->|]; auto. now rewrite Hbi. }
  splits; auto. constructor.
  - unfold r3. cbn [er_blocks]. now rewrite !set_block_ids.
  - intros j b. rewrite Hfind. unfold r3. cbn [er_next].
    destruct (Nat.eqb_spec j iB) as [->|]; [intros _; eauto|]. destruct (Nat.eqb_spec j i) as [->|]; [intros _; eauto|]. eauto.
  - intros y j. rewrite Hpos. destruct (Nat.eqb_spec y x) as [->|Hyx].
    + intros E. injection E as <-. rewrite Hfind. destruct (Nat.eqb_spec i iB); [congruence|]. rewrite Nat.eqb_refl.
      eexists; split; [reflexivity|]. cbn. apply in_app_iff. right. now left.
    + intros E. rewrite Hfind. destruct (W3 _ _ E) as (b & Hb & Hyb). destruct (Nat.eqb_spec j iB) as [->|].
      * rewrite HB in Hb. injection Hb as <-. eexists; split; [reflexivity|]. cbn. apply Hes. auto.
      * destruct (Nat.eqb_spec j i) as [->|]; [|eauto].
        rewrite Hbi in Hb. injection Hb as <-. eexists; split; [reflexivity|]. cbn. apply in_app_iff. auto.
  - intros j b. rewrite Hfind. destruct (Nat.eqb_spec j iB) as [->|].
    + intros E. injection E as <-. cbn. split; auto. intros y Hy. apply Hes in Hy. rewrite Hpos.
      destruct (Nat.eqb_spec y x); [tauto|]. apply HmB. tauto.
    + destruct (Nat.eqb_spec j i) as [->|].
      * intros E. injection E as <-. cbn. split.
        { rewrite <- (rev_involutive (belems bi ++ [x])). apply NoDup_rev.
          rewrite rev_app_distr. cbn. constructor; [|now apply NoDup_rev]. rewrite <- in_rev. intros Hin.
          apply Hmi in Hin. pose proof (HmB _ Hx). congruence. }
        intros y Hy. apply in_app_iff in Hy. rewrite Hpos. destruct (Nat.eqb_spec y x); auto.
        destruct Hy as [Hy|[->|[]]]; [auto|congruence].
      * intros E. destruct (W4 _ _ E) as [Hnj Hmj]. split; auto. intros y Hy. rewrite Hpos.
        destruct (Nat.eqb_spec y x) as [->|]; auto. pose proof (Hmj _ Hy). pose proof (HmB _ Hx). congruence.
Qed.

Lemma mid_step r0 P r modified x : rest r0 -> mid r0 P r modified -> ~ P x -> (exists i, pos_find (er_pos r0) x = Some i) ->
  exists r' modified', refine_step (r, modified) x = Ok (r', modified') /\ mid r0 (fun y => P y \/ y = x) r' modified'.
Proof.
  intros Hrest M Hx [i0 Hi0]. destruct M as [W Mn Mo Mi Mt Mj Mm Md Me]. unfold refine_step.
  rewrite (Mo x Hx), Hi0. assert (Hpx : pos_find (er_pos r) x = Some i0) by (rewrite (Mo x Hx); auto).
  destruct (wf_pos r W _ _ Hpx) as (B0 & HB0 & HxB). rewrite HB0.
  destruct (find_block_bid _ _ _ HB0) as [EB _].
  assert (Hlt0 : i0 < er_next r0).
  { destruct (wf_pos r0 (rs_wf _ Hrest) _ _ Hi0) as (b & Hb & _). eapply wf_lt; eauto. apply Hrest. }
  (* bring the first half into a common form *)
  assert (Hhalf : exists r1 modified1 B1 i,
    (match binter B0 with
     | Some _ => (r, modified)
     | None =>
        let (r', i) := add_empty_block r in
        ({| er_blocks := set_block (er_blocks r') {| bid := bid B0; belems := belems B0; binter := Some i |};
            er_next := er_next r'; er_pos := er_pos r' |}, modified ++ [i0])
     end) = (r1, modified1) /\
    wf r1 /\ er_pos r1 = er_pos r /\ er_next r <= er_next r1 /\
    find_block (er_blocks r1) i0 = Some B1 /\ binter B1 = Some i /\ belems B1 = belems B0 /\ er_next r0 <= i /\
    (exists bi, find_block (er_blocks r1) i = Some bi /\ binter bi = None) /\
    (forall j, j <> i0 -> j <> i -> find_block (er_blocks r1) j = find_block (er_blocks r) j) /\
    (forall j b, j <> i0 -> find_block (er_blocks r1) j = Some b -> binter b <> Some i) /\
    (forall j, In j modified1 <-> In j modified \/ j = i0) /\ NoDup modified1 /\
    (forall k, binter B0 = Some k -> k = i)).
  { destruct (binter B0) as [i|] eqn:Ei.
    - destruct (Mt _ _ _ HB0 Ei) as (Hj & Hi & bi & Hbi). exists r, modified, B0, i.
      split; [reflexivity|]. split; [exact W|]. split; [reflexivity|]. split; [lia|]. split; [exact HB0|].
      split; [exact Ei|]. split; [reflexivity|]. split; [exact Hi|]. split; [|split; [|split; [|split; [|split]]]].
      + exists bi. split; auto. destruct (binter bi) as [k|] eqn:Ek; auto. destruct (Mt _ _ _ Hbi Ek). lia.
      + auto.
      + intros j b Hj' Hb Hbb. apply Hj'. eapply Mj; eauto.
      + intros j. split; auto. intros [?|Hq]; [|subst j]; auto. apply Mm. eauto.
      + auto.
      + intros k Hk. congruence.
    - cbn [add_empty_block]. set (i := er_next r). set (r1 := {| er_blocks := _; er_next := _; er_pos := _ |}).
      assert (Hfresh : find_block (er_blocks r) i = None).
      { destruct (find_block (er_blocks r) i) as [b|] eqn:E; auto. apply (wf_lt r W) in E. unfold i in E. lia. }
      assert (Hf : forall j, find_block (er_blocks r1) j =
        if j =? i0 then Some {| bid := i0; belems := belems B0; binter := Some i |}
        else if j =? i then Some {| bid := i; belems := []; binter := None |} else find_block (er_blocks r) j).
      { intros j. unfold r1. cbn [er_blocks]. rewrite find_block_set, !find_block_app. cbn [bid]. rewrite EB.
        destruct (Nat.eqb_spec j i0) as [->|].
        - now rewrite HB0.
        - destruct (Nat.eqb_spec j i) as [->|].
          + rewrite Hfresh. fold i. now rewrite Nat.eqb_refl.
          + destruct (find_block (er_blocks r) j); auto. fold i. destruct (Nat.eqb_spec i j); [congruence|reflexivity]. }
      assert (Hne : i <> i0) by (unfold i; pose proof (wf_lt r W _ _ HB0); lia).
      exists r1, (modified ++ [i0]), {| bid := i0; belems := belems B0; binter := Some i |}, i.
      split; [reflexivity|]. split.
      { constructor.
        - unfold r1. cbn [er_blocks]. rewrite set_block_ids, map_app. cbn. fold i.
          apply NoDup_Add with (a := i) (l := map bid (er_blocks r)).
          + rewrite <- (app_nil_r (map bid (er_blocks r))) at 1. apply Add_app.
          + split; [apply W|]. intros Hin. apply in_map_iff in Hin. destruct Hin as (b & Eb & Hb).
            apply (find_block_in _ _ (wf_ids r W)) in Hb. rewrite Eb, Hfresh in Hb. discriminate.
        - intros j b. rewrite Hf. unfold r1. cbn [er_next]. fold i.
          destruct (Nat.eqb_spec j i0) as [->|]; [intros _; pose proof (wf_lt r W _ _ HB0); unfold i; lia|].
          destruct (Nat.eqb_spec j i) as [->|]; [lia|]. intros E. apply (wf_lt r W) in E. unfold i. lia.
        - intros y j E. change (er_pos r1) with (er_pos r) in E. destruct (wf_pos r W _ _ E) as (b & Hb & Hy).
          rewrite Hf. destruct (Nat.eqb_spec j i0) as [->|].
          + rewrite HB0 in Hb. injection Hb as <-. eauto.
          + destruct (Nat.eqb_spec j i) as [->|]; [congruence|eauto].
        - intros j b. change (er_pos r1) with (er_pos r). rewrite Hf. destruct (Nat.eqb_spec j i0) as [->|].
          + intros E. injection E as <-. cbn. eapply wf_mem; eauto.
          + destruct (Nat.eqb_spec j i) as [->|]; [|apply (wf_mem r W)].
            intros E. injection E as <-. cbn. split; [constructor|tauto]. }
      split; [reflexivity|]. split; [unfold r1; cbn; lia|]. split; [rewrite Hf, Nat.eqb_refl; reflexivity|].
      split; [reflexivity|]. split; [reflexivity|]. split; [unfold i; lia|]. split; [|split; [|split; [|split; [|split]]]].
      + exists {| bid := i; belems := []; binter := None |}. rewrite Hf. destruct (Nat.eqb_spec i i0); [congruence|].
        rewrite Nat.eqb_refl. auto.
      + intros j H1 H2. rewrite Hf. destruct (Nat.eqb_spec j i0); [congruence|]. destruct (Nat.eqb_spec j i); [congruence|reflexivity].
      + intros j b Hj. rewrite Hf. destruct (Nat.eqb_spec j i0); [congruence|]. destruct (Nat.eqb_spec j i) as [->|].
        * intros E. injection E as <-. discriminate.
        * intros Hb Hbi. destruct (Mt _ _ _ Hb Hbi) as (_ & _ & b' & Hb'). congruence.
      + intros j. rewrite in_app_iff. cbn. split; intros [?|?]; auto. destruct H; [auto|tauto].
      + apply NoDup_Add with (a := i0) (l := modified).
        * rewrite <- (app_nil_r modified) at 1. apply Add_app.
        * split; auto. intros Hin. apply Mm in Hin. destruct Hin as (b & k & Hb & Hk). congruence.
      + intros k Hk. congruence. }
  destruct Hhalf as (r1 & modified1 & B1 & i & -> & W1 & Epos & En & HB1 & Hi & EBe & Hni & (bi & Hbi & Hbin) & Hoth & Hun & Hmod & Hmnd & Hold).
  rewrite HB1, Hi.
  destruct (move_elem r1 i0 B1 i x W1 HB1 Hi ltac:(lia) (ex_intro _ bi Hbi)) as (es & bi' & Ees & Hbi' & r3 & Er3 & W3 & En3 & Hp3 & Hf3).
  { now rewrite EBe. }
  rewrite Hi in Er3. rewrite Ees. cbn [bind]. rewrite Er3. cbn [bind].
  rewrite Hbi in Hbi'. injection Hbi' as <-. rewrite Epos in Hp3.
  exists r3, modified1. split; auto. constructor.
  - exact W3.
  - lia.
  - intros y Hy. rewrite Hp3. destruct (Nat.eqb_spec y x); [tauto|]. apply Mo. tauto.
  - intros y Hy. rewrite Hp3. destruct (Nat.eqb_spec y x) as [->|Hyx].
    + exists i, i0, {| bid := i0; belems := es; binter := Some i |}. rewrite Hf3, Nat.eqb_refl. auto.
    + destruct Hy as [Hy|?]; [|congruence]. destruct (Mi y Hy) as (k & j & b & H1 & H2 & H3 & H4).
      exists k, j. rewrite Hf3. destruct (Nat.eqb_spec j i0) as [->|Hji].
      * assert (k = i) by (rewrite HB0 in H3; injection H3 as <-; auto).
        subst k. eexists. splits; eauto.
      * destruct (Mt _ _ _ H3 H4) as (Hjl & _). destruct (Nat.eqb_spec j i); [lia|].
        exists b. splits; auto. rewrite Hoth; auto.
  - intros j b k. rewrite Hf3. destruct (Nat.eqb_spec j i0) as [->|Hji].
    + intros E. injection E as <-. cbn. intros E. injection E as <-. splits; auto.
      rewrite Hf3. destruct (Nat.eqb_spec i i0); [lia|]. rewrite Nat.eqb_refl. eauto.
    + destruct (Nat.eqb_spec j i) as [->|Hji2].
      * intros E. injection E as <-. cbn. rewrite Hbin. discriminate.
      * intros Hb Hk. rewrite Hoth in Hb by auto. destruct (Mt _ _ _ Hb Hk) as (H1 & H2 & b' & Hb'). splits; auto.
        rewrite Hf3. destruct (Nat.eqb_spec k i0); [lia|]. destruct (Nat.eqb_spec k i); [eauto|]. rewrite Hoth by auto. eauto.
  - intros j1 b1 j2 b2 k. rewrite !Hf3.
    destruct (Nat.eqb_spec j1 i0) as [->|]; destruct (Nat.eqb_spec j2 i0) as [->|]; auto.
    + intros E. injection E as <-. cbn. destruct (Nat.eqb_spec j2 i) as [->|].
      * intros E. injection E as <-. cbn. rewrite Hbin. discriminate.
      * intros Hb E1 E2. injection E1 as <-. exfalso. exact (Hun j2 b2 ltac:(auto) Hb E2).
    + destruct (Nat.eqb_spec j1 i) as [->|].
      * intros E. injection E as <-. cbn. rewrite Hbin. discriminate.
      * intros Hb E. injection E as <-. cbn. intros E1 E2. injection E2 as <-. exfalso. exact (Hun _ _ ltac:(eassumption) Hb E1).
    + destruct (Nat.eqb_spec j1 i) as [->|].
      * intros E. injection E as <-. cbn. rewrite Hbin. discriminate.
      * destruct (Nat.eqb_spec j2 i) as [->|].
        { intros _ E. injection E as <-. cbn. rewrite Hbin. discriminate. }
        rewrite !Hoth by auto. eauto.
  - intros j. rewrite Hmod, Hf3. destruct (Nat.eqb_spec j i0) as [->|Hji].
    + split; auto. intros _. eexists _, i. split; reflexivity.
    + destruct (Nat.eqb_spec j i) as [->|Hji2].
      * split.
        { intros [Hin|?]; [|congruence]. apply Mm in Hin. destruct Hin as (b & k & Hb & Hk). destruct (Mt _ _ _ Hb Hk). lia. }
        { intros (b & k & E & Hk). injection E as <-. cbn in Hk. congruence. }
      * rewrite Hoth by auto. rewrite Mm. split; [intros [?|?]; [auto|congruence]|auto].
  - auto.
  - intros j b. rewrite Hf3. destruct (Nat.eqb_spec j i0) as [->|Hji].
    + intros E. injection E as <-. discriminate.
    + destruct (Nat.eqb_spec j i) as [->|Hji2].
      * intros E. injection E as <-. cbn. intros _ Happ. apply app_eq_nil in Happ. destruct Happ. discriminate.
      * rewrite Hoth by auto. apply Me.
Qed.

Lemma refine_loop r0 : rest r0 -> forall X P r modified, mid r0 P r modified ->
  NoDup X -> (forall x, In x X -> ~ P x) -> (forall x, In x X -> exists i, pos_find (er_pos r0) x = Some i) ->
  exists r' modified', fold_outcome refine_step X (r, modified) = Ok (r', modified') /\
    mid r0 (fun y => P y \/ In y X) r' modified'.
Proof.
  intros Hr. induction X as [|x X IH]; intros P r modified M Hn HP Hin; cbn [fold_outcome].
  - exists r, modified. split; auto. destruct M. constructor; auto; try (intros; apply md_out0; tauto).
    intros x [Hx|[]]. auto.
  - inv Hn. destruct (mid_step r0 P r modified x Hr M) as (r1 & m1 & -> & M1); [apply HP; now left|apply Hin; now left|].
    cbn [bind]. destruct (IH _ _ _ M1) as (r2 & m2 & E2 & M2); auto.
    + intros y Hy [Hy'| ->]; [eapply HP; eauto; now right|contradiction].
    + intros y Hy. apply Hin. now right.
    + exists r2, m2. split; auto. destruct M2 as [A1 A2 A3 A4 A5 A6 A7 A8 A9].
      constructor; auto.
      * intros y Hy. apply A3. cbn in Hy. intuition.
      * intros y Hy. apply A4. cbn in Hy. intuition.
Qed.

Record resetting (ms : list nat) (r : eqrel) : Prop := {
  rt_wf : wf r;
  rt_in : forall j b i, find_block (er_blocks r) j = Some b -> binter b = Some i -> In j ms;
  rt_ex : forall j, In j ms -> exists b, find_block (er_blocks r) j = Some b;
  rt_ne : forall j b, find_block (er_blocks r) j = Some b -> binter b = None -> belems b <> [];
  rt_nd : NoDup ms }.

Lemma reset_step_ok j ms r : resetting (j :: ms) r ->
  exists r', reset_step r j = Ok r' /\ resetting ms r' /\ er_pos r' = er_pos r.
Proof.
  intros [[W1 W2 W3 W4] Hin Hex Hne Hnd]. inv Hnd. destruct (Hex j) as [b Hb]; [now left|]. unfold reset_step. rewrite Hb.
  destruct (find_block_bid _ _ _ Hb) as [Eb _].
  eexists; split; [reflexivity|]. split; [|reflexivity].
  destruct (belems b) as [|e es] eqn:Ee.
  - set (r' := {| er_blocks := _; er_next := _; er_pos := _ |}).
    assert (Hf : forall k, find_block (er_blocks r') k = if k =? j then None else find_block (er_blocks r) k).
    { intros k. unfold r'. cbn [er_blocks]. apply find_block_filter. }
    constructor.
    + constructor.
      * unfold r'. cbn [er_blocks]. clear - W1. induction (er_blocks r) as [|c bs IH]; cbn in *; auto. inv W1.
        destruct (negb (bid c =? j)); cbn; auto. constructor; auto. intros Hin. apply H1.
        apply in_map_iff in Hin. destruct Hin as (d & Ed & Hd). apply filter_In in Hd. rewrite <- Ed. apply in_map. tauto.
      * intros k c. rewrite Hf. destruct (k =? j); [discriminate|]. apply W2.
      * intros x k Hx. change (er_pos r') with (er_pos r) in Hx. rewrite Hf. destruct (W3 _ _ Hx) as (c & Hc & Hxc).
        destruct (Nat.eqb_spec k j) as [->|]; [|eauto]. rewrite Hb in Hc. injection Hc as <-. rewrite Ee in Hxc. destruct Hxc.
      * intros k c. rewrite Hf. destruct (k =? j); [discriminate|]. apply W4.
    + intros k c i. rewrite Hf. destruct (Nat.eqb_spec k j); [discriminate|]. intros Hc Hi. destruct (Hin _ _ _ Hc Hi); [congruence|auto].
    + intros k Hk. rewrite Hf. destruct (Nat.eqb_spec k j) as [->|]; [contradiction|]. apply Hex. now right.
    + intros k c. rewrite Hf. destruct (k =? j); [discriminate|]. apply Hne.
    + auto.
  - set (r' := {| er_blocks := _; er_next := _; er_pos := _ |}).
    assert (Hf : forall k, find_block (er_blocks r') k = if k =? j then Some {| bid := j; belems := e :: es; binter := None |} else find_block (er_blocks r) k).
    { intros k. unfold r'. cbn [er_blocks]. rewrite find_block_set. cbn [bid]. rewrite Eb.
      destruct (Nat.eqb_spec k j) as [->|]; auto. now rewrite Hb. }
    constructor.
    + constructor.
      * unfold r'. cbn [er_blocks]. now rewrite set_block_ids.
      * intros k c. rewrite Hf. destruct (Nat.eqb_spec k j) as [->|]; [intros _; exact (W2 _ _ Hb)|apply W2].
      * intros x k Hx. change (er_pos r') with (er_pos r) in Hx. rewrite Hf. destruct (W3 _ _ Hx) as (c & Hc & Hxc).
        destruct (Nat.eqb_spec k j) as [->|]; [|eauto]. rewrite Hb in Hc. injection Hc as <-. rewrite Ee in Hxc. eauto.
      * intros k c. rewrite Hf. destruct (Nat.eqb_spec k j) as [->|]; [|apply W4].
        intros E. injection E as <-. cbn [belems]. rewrite <- Ee. now apply W4.
    + intros k c i. rewrite Hf. destruct (Nat.eqb_spec k j) as [->|].
      * intros E. injection E as <-. discriminate.
      * intros Hc Hi. destruct (Hin _ _ _ Hc Hi); [congruence|auto].
    + intros k Hk. rewrite Hf. destruct (k =? j); [eauto|]. apply Hex. now right.
    + intros k c. rewrite Hf. destruct (Nat.eqb_spec k j) as [->|]; [|apply Hne].
      intros E. injection E as <-. discriminate.
    + auto.
Qed.

Lemma reset_loop ms : forall r, resetting ms r -> exists r', fold_outcome reset_step ms r = Ok r' /\ rest r' /\ er_pos r' = er_pos r.
Proof.
  induction ms as [|j ms IH]; intros r HR; cbn [fold_outcome].
  - exists r. splits; auto. destruct HR as [W Hi He Hn _].
    assert (Hnone : forall i b, find_block (er_blocks r) i = Some b -> binter b = None).
    { intros i b Hb. destruct (binter b) as [k|] eqn:E; auto. destruct (Hi _ _ _ Hb E). }
    constructor; eauto.
  - destruct (reset_step_ok j ms r HR) as (r1 & -> & HR1 & E1). cbn [bind].
    destruct (IH r1 HR1) as (r2 & E2 & Hr2 & Ep). exists r2. splits; auto. congruence.
Qed.

Lemma refine_ok r X : rest r -> NoDup X -> (forall x, In x X -> exists i, pos_find (er_pos r) x = Some i) ->
  exists r', refine r X = Ok r' /\ rest r' /\
    (forall x, pos_find (er_pos r') x = None <-> pos_find (er_pos r) x = None) /\
    (forall a b i j, pos_find (er_pos r) a = Some i -> pos_find (er_pos r) b = Some j ->
       (pos_find (er_pos r') a = pos_find (er_pos r') b <-> i = j /\ (In a X <-> In b X))).
Proof.
  intros Hr Hn Hin. destruct (refine_loop r Hr X _ _ _ (mid_start r Hr) Hn) as (r1 & ms & E1 & M); [tauto|auto|].
  unfold refine. rewrite E1. cbn [bind].
  destruct (reset_loop ms r1) as (r2 & E2 & Hr2 & Ep).
  { destruct M as [A1 A2 A3 A4 A5 A6 A7 A8 A9]. constructor; auto.
    - intros j b i Hb Hi. apply A7. eauto.
    - intros j Hj. apply A7 in Hj. destruct Hj as (b & _ & Hb & _). eauto. }
  exists r2. splits; auto.
  - intros x. rewrite Ep. destruct (in_dec Nat.eq_dec x X) as [Hx|Hx].
    + destruct (md_in _ _ _ _ M x) as (i & i0 & b & H1 & H2 & _); [auto|]. rewrite H1, H2. split; discriminate.
    + rewrite (md_out _ _ _ _ M x); [tauto|]. tauto.
  - intros a b i j Ha Hb. rewrite Ep.
    assert (Hold : forall x k, pos_find (er_pos r) x = Some k -> k < er_next r).
    { intros x k Hx. destruct (wf_pos r (rs_wf _ Hr) _ _ Hx) as (c & Hc & _). eapply wf_lt; eauto. apply Hr. }
    destruct (in_dec Nat.eq_dec a X) as [HaX|HaX]; destruct (in_dec Nat.eq_dec b X) as [HbX|HbX].
    + destruct (md_in _ _ _ _ M a) as (i' & i0 & c & H1 & H2 & H3 & H4); [auto|].
      destruct (md_in _ _ _ _ M b) as (j' & j0 & d & H5 & H6 & H7 & H8); [auto|].
      rewrite Ha in H2. injection H2 as <-. rewrite Hb in H6. injection H6 as <-. rewrite H1, H5. split.
      * intros E. injection E as <-. split; [eapply md_inj; eauto|tauto].
      * intros [-> _]. rewrite H3 in H7. injection H7 as <-. congruence.
    + destruct (md_in _ _ _ _ M a) as (i' & i0 & c & H1 & H2 & H3 & H4); [auto|].
      rewrite (md_out _ _ _ _ M b), Hb, H1 by tauto. destruct (md_inter _ _ _ _ M _ _ _ H3 H4) as (_ & Hge & _).
      split; [|tauto]. intros E. injection E as <-. pose proof (Hold _ _ Hb). lia.
    + destruct (md_in _ _ _ _ M b) as (i' & i0 & c & H1 & H2 & H3 & H4); [auto|].
      rewrite (md_out _ _ _ _ M a), Ha, H1 by tauto. destruct (md_inter _ _ _ _ M _ _ _ H3 H4) as (_ & Hge & _).
      split; [|tauto]. intros E. injection E as ->. pose proof (Hold _ _ Ha). lia.
    + rewrite (md_out _ _ _ _ M a), (md_out _ _ _ _ M b), Ha, Hb by tauto. split.
      * intros E. injection E as ->. tauto.
      * intros [-> _]. auto.
Qed.

Lemma make_eqrel_loop elements : forall l, NoDup (l ++ elements) ->
  fold_outcome (fun r x => insert_elem r 0 x) elements
    {| er_blocks := [{| bid := 0; belems := l; binter := None |}]; er_next := 1; er_pos := rev (map (fun x => (x, 0)) l) |} =
  Ok {| er_blocks := [{| bid := 0; belems := l ++ elements; binter := None |}]; er_next := 1;
        er_pos := rev (map (fun x => (x, 0)) (l ++ elements)) |}.
Proof.
  induction elements as [|e es IH]; intros l Hn; cbn [fold_outcome]; [now rewrite app_nil_r|].
  unfold insert_elem at 1. cbn. specialize (IH (l ++ [e])). rewrite <- app_assoc in IH. cbn in IH.
  rewrite map_app, rev_app_distr in IH. cbn in IH. now rewrite IH.
Qed.

Lemma pos_find_all0 l x : pos_find (rev (map (fun x => (x, 0)) l)) x = if in_dec Nat.eq_dec x l then Some 0 else None.
Proof.
  unfold pos_find. destruct (find (fun p => fst p =? x) (rev (map (fun x => (x, 0)) l))) as [p|] eqn:E.
  - apply find_some in E. destruct E as [H1 H2]. rewrite <- in_rev in H1. apply in_map_iff in H1. destruct H1 as (y & <- & Hy).
    apply Nat.eqb_eq in H2. cbn in H2. subst. destruct (in_dec Nat.eq_dec x l); [reflexivity|contradiction].
  - destruct (in_dec Nat.eq_dec x l) as [Hx|]; auto. exfalso.
    assert (In (x, 0) (rev (map (fun x => (x, 0)) l))) by (rewrite <- in_rev; apply in_map_iff; eauto).
    pose proof (find_none _ _ E _ H). cbn in H0. rewrite Nat.eqb_refl in H0. discriminate.
Qed.

Lemma make_eqrel_ok elements : NoDup elements -> elements <> [] ->
  exists r, make_eqrel elements = Ok r /\ rest r /\
    (forall x, pos_find (er_pos r) x = None <-> ~ In x elements) /\
    (forall a b, In a elements -> In b elements -> pos_find (er_pos r) a = pos_find (er_pos r) b).
Proof.
  intros Hn Hne. unfold make_eqrel. cbn [add_empty_block]. cbn [er_blocks er_next er_pos app].
  pose proof (make_eqrel_loop elements [] Hn) as E. cbn in E. rewrite E.
  eexists; split; [reflexivity|]. split; [|split].
  - assert (Hf : forall i b, find_block [{| bid := 0; belems := elements; binter := None |}] i = Some b ->
      i = 0 /\ b = {| bid := 0; belems := elements; binter := None |}).
    { intros i b. unfold find_block. cbn. destruct i; cbn; [|discriminate]. intros H; inv H; auto. }
    constructor; [constructor|..]; cbn [er_blocks er_pos er_next].
    + repeat constructor; auto.
    + intros i b Hb. apply Hf in Hb. lia.
    + intros x i. rewrite pos_find_all0. destruct (in_dec Nat.eq_dec x elements); [|discriminate]. intros H; inv H.
      eexists; split; [reflexivity|auto].
    + intros i b Hb. apply Hf in Hb. destruct Hb as [-> ->]. cbn. split; auto. intros x Hx. rewrite pos_find_all0.
      destruct (in_dec Nat.eq_dec x elements); [auto|contradiction].
    + intros i b Hb. apply Hf in Hb. destruct Hb as [-> ->]. reflexivity.
    + intros i b Hb. apply Hf in Hb. destruct Hb as [-> ->]. exact Hne.
  - intros x. cbn [er_pos]. rewrite pos_find_all0. destruct (in_dec Nat.eq_dec x elements); split; intros; try tauto; discriminate.
  - intros a b Ha Hb. cbn [er_pos]. rewrite !pos_find_all0.
    destruct (in_dec Nat.eq_dec a elements); [|contradiction]. destruct (in_dec Nat.eq_dec b elements); [auto|contradiction].
Qed.

Lemma refine_history elements : NoDup elements -> forall Xs,
  (forall X, In X Xs -> NoDup X /\ incl X elements) ->
  forall done r, rest r ->
    (forall x, pos_find (er_pos r) x = None <-> ~ In x elements) ->
    (forall a b, In a elements -> In b elements -> (pos_find (er_pos r) a = pos_find (er_pos r) b <-> indistinguishable done a b)) ->
  exists r', fold_outcome refine Xs r = Ok r' /\ rest r' /\
    (forall x, pos_find (er_pos r') x = None <-> ~ In x elements) /\
    (forall a b, In a elements -> In b elements -> (pos_find (er_pos r') a = pos_find (er_pos r') b <-> indistinguishable (done ++ Xs) a b)).
Proof.
  intros Hn. induction Xs as [|X Xs IH]; intros HX done r Hr Hd Hs; cbn [fold_outcome].
  - exists r. rewrite app_nil_r. auto.
  - destruct (HX X) as [HXn HXi]; [now left|].
    assert (Hdom : forall x, In x elements -> exists i, pos_find (er_pos r) x = Some i).
    { intros x Hx. destruct (pos_find (er_pos r) x) as [i|] eqn:E; [eauto|]. apply Hd in E. contradiction. }
    destruct (refine_ok r X Hr HXn) as (r1 & -> & Hr1 & Hd1 & Hs1); [intros x Hx; apply Hdom, HXi, Hx|].
    cbn [bind]. destruct (IH ltac:(intros; apply HX; now right) (done ++ [X]) r1) as (r2 & E2 & Hr2 & Hd2 & Hs2); auto.
    + intros x. now rewrite Hd1.
    + intros a b Ha Hb. destruct (Hdom a Ha) as [i Hi]. destruct (Hdom b Hb) as [j Hj]. rewrite (Hs1 a b i j Hi Hj).
      specialize (Hs a b Ha Hb). rewrite Hi, Hj in Hs. split.
      * intros [-> HXab] Y HY. apply in_app_iff in HY. destruct HY as [HY|[<-|[]]]; auto. apply Hs; auto.
      * intros Hind. split; [|apply Hind; apply in_app_iff; right; now left].
        assert (Some i = Some j) by (apply Hs; intros Y HY; apply Hind; apply in_app_iff; auto). congruence.
    + exists r2. rewrite <- app_assoc in Hs2. auto.
Qed.

Lemma rest_partition elements r : rest r -> (forall x, pos_find (er_pos r) x = None <-> ~ In x elements) ->
  is_partition elements (partition_of r) /\
  forall a b, In a elements -> In b elements -> (same_block (partition_of r) a b <-> pos_find (er_pos r) a = pos_find (er_pos r) b).
Proof.
  intros [[W1 W2 W3 W4] Hi Hne] Hd. unfold partition_of.
  assert (Hdom : forall x, In x elements <-> exists i, pos_find (er_pos r) x = Some i).
  { intros x. destruct (pos_find (er_pos r) x) as [i|] eqn:E.
    - split; eauto. intros _. destruct (in_dec Nat.eq_dec x elements); auto. apply Hd in n. congruence.
    - apply Hd in E. split; [contradiction|]. intros [i H]; discriminate. }
  assert (Hb : forall b, In b (er_blocks r) -> find_block (er_blocks r) (bid b) = Some b) by (intros; now apply find_block_in).
  splits; [split; [|split]|].
  - assert (H : forall bs, NoDup (map bid bs) -> (forall b, In b bs -> In b (er_blocks r)) -> NoDup (concat (map belems bs))).
    { induction bs as [|b bs IH]; cbn; intros Hnd Hsub; [constructor|]. inv Hnd.
      destruct (W4 _ _ (Hb b (Hsub b (or_introl eq_refl)))) as [Hnb Hmb].
      assert (Hrest : NoDup (concat (map belems bs))) by (apply IH; auto; intros; apply Hsub; now right).
      assert (Hdis : forall x, In x (belems b) -> ~ In x (concat (map belems bs))).
      { intros x Hx Hc. apply in_concat in Hc. destruct Hc as (l & Hl & Hxl). apply in_map_iff in Hl. destruct Hl as (c & <- & Hc).
        destruct (W4 _ _ (Hb c (Hsub c (or_intror Hc)))) as [_ Hmc]. pose proof (Hmb _ Hx). pose proof (Hmc _ Hxl).
        apply H1. apply in_map_iff. exists c. split; auto. congruence. }
      clear - Hnb Hrest Hdis. induction (belems b) as [|x l IHl]; cbn; auto. inv Hnb. constructor.
      - rewrite in_app_iff. intros [?|?]; [contradiction|]. eapply Hdis; eauto. now left.
      - apply IHl; auto. intros; apply Hdis; now right. }
    apply H; auto.
  - intros x. rewrite in_concat, Hdom. split.
    + intros (l & Hl & Hx). apply in_map_iff in Hl. destruct Hl as (b & <- & Hbin). exists (bid b). eapply W4; eauto.
    + intros [i Hx]. destruct (W3 _ _ Hx) as (b & Hfb & Hxb). exists (belems b). split; auto. apply in_map. apply (find_block_bid _ _ _ Hfb).
  - intros _ Hin. apply in_map_iff in Hin. destruct Hin as (b & Eb & Hbin). eapply Hne; eauto.
  - intros a b Ha Hbe. split.
    + intros (B & HB & HaB & HbB). apply in_map_iff in HB. destruct HB as (c & <- & Hc).
      destruct (W4 _ _ (Hb c Hc)) as [_ Hm]. now rewrite (Hm _ HaB), (Hm _ HbB).
    + intros E. apply Hdom in Ha. destruct Ha as [i Ha]. rewrite Ha in E. destruct (W3 _ _ Ha) as (c & Hc & Hac).
      destruct (W3 _ _ (eq_sym E)) as (d & Hd' & Hbd). rewrite Hc in Hd'. injection Hd' as <-.
      exists (belems c). splits; auto. apply in_map. apply (find_block_bid _ _ _ Hc).
Qed.

Lemma refine_nil elements : NoDup elements -> forall Xs,
  (forall X, In X Xs -> NoDup X /\ incl X elements) ->
  exists r, refine_all elements Xs = Ok r /\ is_partition elements (partition_of r) /\
    forall a b, In a elements -> In b elements -> (same_block (partition_of r) a b <-> indistinguishable Xs a b).
Proof.
  intros Hn Xs HX. unfold refine_all. destruct elements as [|e es].
  - cbn [make_eqrel add_empty_block fold_outcome bind er_blocks er_next er_pos app].
    assert (Hfix : forall r, fold_outcome refine Xs r = Ok r).
    { clear - HX. induction Xs as [|X Xs IH]; intros r; cbn [fold_outcome]; auto.
      destruct (HX X) as [_ Hi]; [now left|]. destruct X as [|x X]; [|destruct (Hi x); now left].
      cbn. apply IH. intros; apply HX; now right. }
    rewrite Hfix. eexists; split; [reflexivity|]. split; [|intros a b []].
    cbn. repeat split; try constructor; cbn; auto; try tauto.
  - destruct (make_eqrel_ok (e :: es) Hn) as (r & -> & Hr & Hd & Hs); [discriminate|]. cbn [bind].
    destruct (refine_history (e :: es) Hn Xs HX [] r Hr Hd) as (r' & E' & Hr' & Hd' & Hs').
    { intros a b Ha Hb. split; [intros _ X []|]. intros _. auto. }
    exists r'. split; auto. destruct (rest_partition _ _ Hr' Hd') as [Hp Hsb]. split; auto.
    intros a b Ha Hb. rewrite Hsb by auto. now apply Hs'.
Qed.

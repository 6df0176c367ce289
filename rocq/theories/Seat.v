(** * One call on one tree, in full detail

    What a call does to the picture (Picture.v) of the tree it is made on, to
    the blocks the tree owns, and to all other blocks.  Models no code. *)
From Coq Require Import ssreflect.
From stdpp Require Import prelude list gmap.
From iris.proofmode Require Import proofmode.
From Verif Require Import Spec SpecFacts BTree HProp Lru Wp Kv Codec Ghost Order PsTree Rep Load Search Update Plug Insert Borrow Merge Rebal Api Walk Touch Maint Report Open Dumps Blame Pres Machine World Client Disk Picture Hist.
Open Scope Z_scope.

Section seat.
  Context {K V : Type}.
  Variable cb : callbacks K V.
  Variable dom : K → Prop.
  Variable domV : V → Prop.
  Hypothesis WF : wf_cb cb dom domV.
  Notation cmp := (cb_cmp cb).
  Notation hProp := (hProp K V).
  Notation heap := (gmap rkey (rval K V)).
  Notation st := (st K V).
  Notation M := (M K V).
  Notation gt := (gt K V).
  Notation family := (family K V).
  Notation world := (world K V).
  Notation live := (live K V).
  Notation treeok := (treeok cb dom domV).
  Notation fams_res := (fams_res cb dom domV).
  Notation winv := (winv cb dom domV).
  Notation whole := (whole cb dom).
  Notation pictured := (pictured cb dom domV).
  Implicit Types (σ : heap) (f : family) (w : world) (s : st) (lv : live) (g : gt) (l : loc).

  Record seat w s t i f lv (ca : bool) (root : nid) (S : list loc) (h : nat) g σ σf : Prop := Seat {
    se_mn : (2 ≤ mnof f)%nat;
    se_ok : treeok (mnof f) root h g;
    se_items : items (strip g) = lv_items lv;
    se_cond : condok (lv_cond lv) g;
    se_own : (isTR (mnof f) t ca root S ∗ whole (mnof f) t ca h g)%I σ;
    se_rest : (junk (fm_rest f) ∗ fams_res (base.delete i (w_fams w)))%I σf;
    se_disj : σ ##ₘ σf;
    se_views : views s (σ ∪ σf) }.

  Lemma winv_seat w s t i f lv : winv w s → ontree w t i f lv → ∃ ca root S h g σ σf, seat w s t i f lv ca root S h g σ σf.
  Proof.
    intros HW Hon. destruct (ot_at _ _ _ _ _ Hon) as [Hi _]. destruct (ot_mn cb dom domV _ _ _ _ _ _ Hon HW) as [Hmn _].
    destruct HW as [_ _ _ _ _ (σ & Hv & HR)].
    assert ((∃ ca root S h g, <affine> ⌜treeok (mnof f) root h g ∧ items (strip g) = lv_items lv ∧ condok (lv_cond lv) g⌝ ∗
      ((isTR (mnof f) t ca root S ∗ whole (mnof f) t ca h g) ∗ (junk (fm_rest f) ∗ fams_res (base.delete i (w_fams w)))))%I σ) as HX.
    { revert HR. apply entails_holds. rewrite (fams_split cb dom domV _ i f Hi) famres_body (ot_body cb dom domV _ _ _ _ _ Hon).
      iIntros "[[(%ca & %root & %S & %h & %g & %HX & A & B) J] F]". iExists ca, root, S, h, g. by iFrame. }
    destruct HX as (ca & root & S & h & g & HX). apply holds_affine in HX as [(H1 & H2 & H3) HX].
    destruct HX as (σ1 & σ2 & -> & Hd & HX1 & HX2). exists ca, root, S, h, g, σ1, σ2. by split.
  Qed.
  Lemma seat_pictured w s t i f lv ca root S h g σ σf : seat w s t i f lv ca root S h g σ σf → pictured s t (mnof f) ca S h g.
  Proof.
    intros [H1 H2 H3 H4 H5 H6 H7 H8]. eapply tree_pictured; [exact H2| |exact H5]. by eapply views_within.
  Qed.
  Lemma seat_owns w s t i f lv ca root S h g σ σf : seat w s t i f lv ca root S h g σ σf →
    owns σ ca (locs g ++ S) (loaded cleanLRU g) (loaded dirtyLRU g).
  Proof. intros H. eapply (tree_owns cb dom domV); [apply H..]. Qed.

  Lemma own_cleanok mn t ca root S h g σ : (isTR mn t ca root S ∗ whole mn t ca h g)%I σ → cleanok g.
  Proof.
    intros H. assert ((⌜cleanok g⌝ : hProp)%I σ) as HY; [|exact HY]. revert H. apply entails_holds. iIntros "[_ [_ Hr]]". by iApply rep_cleanok.
  Qed.

  (** *** Blocks outside a tree *)
  Definition elsewhere s (L : list loc) l b : Prop := disk s !! l = Some b ∧ l ∉ L.
  Lemma views_disk s σ l b : views s σ → disk s !! l = Some b ↔ σ !! KD l = Some (RD b).
  Proof. intros H. rewrite -(H (KD l)). cbn. destruct (disk s !! l); cbn; split; congruence. Qed.
  Lemma owns_split s σ σf ca L lc ld l b : owns σ ca L lc ld → σ ##ₘ σf → views s (σ ∪ σf) →
    elsewhere s L l b ↔ σf !! KD l = Some (RD b).
  Proof.
    intros Ho Hd Hv. unfold elsewhere. rewrite (views_disk _ _ _ _ Hv). split.
    - intros [[H|[_ H]]%lookup_union_Some_raw Hn]; [|done]. by destruct Hn; eapply ow_D.
    - intros H. split; [by apply lookup_union_Some_r|]. intros Hin. destruct (ow_D' _ _ _ _ _ Ho l Hin) as (b' & Hb & _).
      by rewrite (map_disjoint_Some_l _ _ _ _ Hd Hb) in H.
  Qed.
  Lemma owns_in s σ σf ca L lc ld l : owns σ ca L lc ld → views s (σ ∪ σf) → l ∈ L → ∃ b, disk s !! l = Some b.
  Proof.
    intros Ho Hv Hin. destruct (ow_D' _ _ _ _ _ Ho l Hin) as (b & Hb & _). exists b. apply (views_disk _ _ _ _ Hv). by apply lookup_union_Some_l.
  Qed.

  (** *** Running one operation *)
  Lemma seat_run {A} io w s t i f lv ca root S h g σ σf (m : M A) Q E : winv w s → seat w s t i f lv ca root S h g σ σf →
    (isTR (mnof f) t ca root S ∗ whole (mnof f) t ca h g ⊢ wp io m Q E) →
    match m s with
    | ORet a s' => ∃ σ', σ' ##ₘ σf ∧ views s' (σ' ∪ σf) ∧ Q a σ'
    | OErr e s' => ∃ σ', σ' ##ₘ σf ∧ views s' (σ' ∪ σf) ∧ E e σ'
    | _ => True
    end.
  Proof.
    intros HW HS [Hwp]. pose proof (Hwp σ (se_own _ _ _ _ _ _ _ _ _ _ _ _ _ HS)) as HP.
    pose proof (wi_inv _ _ _ _ _ HW) as HI.
    apply wp_run in HP. specialize (HP σf s (se_disj _ _ _ _ _ _ _ _ _ _ _ _ _ HS) (se_views _ _ _ _ _ _ _ _ _ _ _ _ _ HS) HI).
    destruct (m s) as [a s'|e s'|[] s']; try done.
    - destruct HP as (_ & σ' & ? & ? & _ & ?). by exists σ'.
    - destruct HP as (_ & σ' & ? & ? & _ & ?). by exists σ'.
  Qed.

  (** what the tree looks like after a call that did not break it, and that the
      call changed no block but the tree's *)
  Record moved s t (mn : nat) (ca : bool) (S : list loc) (h : nat) g s' (S' : list loc) (h' : nat) g' : Prop := Moved {
    mv_pic : pictured s' t mn ca S' h' g';
    mv_ok : treeok mn (gid g') h' g';
    mv_clean : cleanok g';
    mv_nodup : NoDup (locs g' ++ S');
    mv_in l : l ∈ locs g' ++ S' → is_Some (disk s' !! l);
    mv_else l b : elsewhere s (locs g ++ S) l b ↔ elsewhere s' (locs g' ++ S') l b }.
  Lemma seat_moved w s t i f lv ca root S h g σ σf s' root' S' h' g' σ' : seat w s t i f lv ca root S h g σ σf →
    treeok (mnof f) root' h' g' → (isTR (mnof f) t ca root' S' ∗ whole (mnof f) t ca h' g')%I σ' → σ' ##ₘ σf → views s' (σ' ∪ σf) →
    moved s t (mnof f) ca S h g s' S' h' g'.
  Proof.
    intros HS Ht HX Hd Hv. pose proof (tree_owns cb dom domV _ _ _ _ _ _ _ _ Ht HX) as Ho. split.
    - eapply tree_pictured; [exact Ht|by eapply views_within|exact HX].
    - by rewrite (tk_id _ _ _ _ _ _ _ Ht).
    - by eapply own_cleanok.
    - apply Ho.
    - intros l Hl. destruct (owns_in _ _ _ _ _ _ _ _ Ho Hv Hl) as [b Hb]. by eexists.
    - intros l b. rewrite (owns_split _ _ _ _ _ _ _ _ _ Ho Hd Hv).
      apply (owns_split _ _ _ _ _ _ _ _ _ (seat_owns _ _ _ _ _ _ _ _ _ _ _ _ _ HS)); apply HS.
  Qed.

  (** *** What each call does to the picture *)
  Definition call_on (t : tid) (c : cmd K V) : Prop :=
    match c with
    | MapCall t' _ | Flush t' _ | Purge t' _ | Touch t' | TouchItem t' _ | Prune t' | LayoutReport t'
    | DimensionsReport t' | Validate t' | Dump t' | FetchLocation t' => t' = t
    | _ => False
    end.
  Definition fragile (c : cmd K V) : bool := match c with MapCall _ c => isdel c | Prune _ => true | _ => false end.
  Definition changed (mn : nat) (c : cmd K V) (r : result K V) (S : list loc) (h : nat) g (S' : list loc) (h' : nat) g' : Prop :=
    match c with
    | MapCall _ c => r = RAns (spec_call cmp (items (strip g)) c).2 ∧ items (strip g') = (spec_call cmp (items (strip g)) c).1 ∧
        (chg c (spec_call cmp (items (strip g)) c).2 = true → gloc g' = None) ∧
        (chg c (spec_call cmp (items (strip g)) c).2 = false → vw g' = vw g ∧ S' = S ∧ h' = h)
    | Flush _ ap => S' = S ∧ h' = h ∧ flushed ap g g' ∧ ∃ l, r = RLoc l ∧ gloc g' = Some l
    | Purge _ _ => S' = S ∧ h' = h ∧ purged g g'
    | Touch _ => h' = h ∧ same g g' ∧ alldirty g'
    | TouchItem _ i => h' = h ∧
        if bool_decide (Z.of_nat (length (items (strip g))) ≤ i) then r = RPos 0 ∧ S' = S ∧ g' = g
        else ∃ C n st kvs, okc mn (vw g) 0 C (GL n st kvs) ∧ plen C ≤ i < plen C + Z.of_nat (length kvs) ∧
               g' = fill (dirtyC C) (GL n Dirty kvs) ∧ r = RPos (plen C + Z.of_nat (length kvs))
    | Prune _ => S' = [] ∧ h' = h ∧ g' = g
    | LayoutReport _ => S' = S ∧ h' = h ∧ vw g' = vw g ∧ r = RLayout (foldl addrep ∅ (vlocs (vw g)))
    | DimensionsReport _ => S' = S ∧ h' = h ∧ vw g' = vw g ∧ r = RDim (Dimensions (Z.of_nat mn) (2 * Z.of_nat mn) (gsz g) (1 + Z.of_nat h))
    | Validate _ => S' = S ∧ h' = h ∧ vw g' = vw g
    | Dump _ => S' = S ∧ h' = h ∧ vw g' = vw g ∧ ∃ x, r = RDump x.1 ∧ said (items (strip g)) (vlocs (vw g)) x
    | FetchLocation _ => S' = S ∧ h' = h ∧ g' = g ∧ r = RLoc (default noloc (gloc g))
    | _ => False
    end.
  (** an error leaves the contents alone, and the blocks unless it is Touch or Flush that failed *)
  Definition unchanged (c : cmd K V) (S : list loc) (h : nat) g (S' : list loc) (h' : nat) g' : Prop :=
    h' = h ∧ strip g' = strip g ∧
    match c with Touch _ => True | Flush _ _ => S' = S ∧ gloc g' = gloc g | _ => S' = S ∧ vw g' = vw g end.
  Definition back (mn : nat) t ca (φ : list loc → nat → gt → Prop) : hProp := (∃ root' S' h' g', <affine> ⌜treeok mn root' h' g' ∧ φ S' h' g'⌝ ∗ isTR mn t ca root' S' ∗ whole mn t ca h' g')%I.
  Lemma back_intro mn t ca root S h g (φ : list loc → nat → gt → Prop) : treeok mn root h g → φ S h g → isTR mn t ca root S ∗ whole mn t ca h g ⊢ back mn t ca φ.
  Proof. intros. iIntros "[A B]". iExists root, S, h, g. by iFrame. Qed.

  Lemma call_wp mn t ca root S h g c : (2 ≤ mn)%nat → treeok mn root h g → call_on t c → (∀ i, c = TouchItem t i → 0 ≤ i) →
    (∀ c', c = MapCall t c' → Forall dom (call_keys c') ∧ Forall domV (call_vals c')) →
    isTR mn t ca root S ∗ whole mn t ca h g ⊢
    wp true (exec cb c) (λ r, back mn t ca (changed mn c r S h g)) (λ e, if fragile c then True else back mn t ca (unchanged c S h g)).
  Proof using WF.
    intros Hmn Ht Hc Hi Hk. destruct c; cbn in Hc; try done; subst t0; cbn [exec fragile]; iIntros "[A B]"; iApply wp_bind.
    - destruct (Hk c eq_refl) as [Hk1 Hk2]. iApply (bt_call_spec cb dom domV WF mn Hmn t ca c with "A B"); [done..| |].
      { intros Hd. by rewrite Hd. }
      iSplit.
      + iIntros (root' S' h' g' [H1 H2 H3 H4 H5]) "A B". iApply wp_ret. iApply (back_intro with "[$A $B]"); [done|]. cbn [changed].
        split_and!; try done. intros Hf. by destruct (H5 Hf) as (? & ? & ? & ?).
      + iIntros (g' [H1 H2]) "A B". destruct (isdel c); [done|]. iApply (back_intro with "[$A $B]"); [done|].
        split_and!; [done|by apply vw_strip|done|done].
    - iPoseProof (bt_Flush_spec cb dom domV WF mn Hmn t ca true andPurge root S h g Ht with "[$A $B]") as "W"; [by left|].
      iApply (wp_wand with "W"). iSplit.
      + iIntros (l) "(%g' & %HX & A & B)". destruct HX as (H1 & H2 & H3). iApply wp_ret. iApply (back_intro with "[$A $B]"); [done|]. cbn [changed]. split_and!; eauto.
      + iIntros (e) "(_ & %g' & %HX & A & B)". destruct HX as (H1 & H2 & H3). iApply (back_intro with "[$A $B]"); [done|]. split_and!; [done|apply H2|done|done].
    - iPoseProof (bt_Purge_spec cb dom domV WF mn Hmn t ca full root S h g Ht with "[$A $B]") as "W". iApply wp_io.
      iApply (wp_wand with "W"). iSplit.
      + iIntros (_) "(%g' & %HX & A & B)". destruct HX as (H1 & H2). iApply wp_ret. iApply (back_intro with "[$A $B]"); [done|]. cbn [changed]. done.
      + iIntros (e) "(_ & %g' & %HX & A & B)". destruct HX as (H1 & H2). iApply (back_intro with "[$A $B]"); [done|]. split_and!; [done|by apply vw_strip|done|done].
    - iPoseProof (bt_Touch_spec cb dom domV WF mn Hmn t ca root S h g Ht with "[$A $B]") as "W".
      iApply (wp_wand with "W"). iSplit.
      + iIntros (_) "(%S' & %g' & %HX & A & B)". destruct HX as (H1 & H2 & H3). iApply wp_ret. iApply (back_intro with "[$A $B]"); [done|]. cbn [changed]. done.
      + iIntros (e) "(_ & %S' & %g' & %HX & A & B)". destruct HX as (H1 & H2 & H3). iApply (back_intro with "[$A $B]"); [done|]. split_and!; [done|apply H2|done].
    - iApply (bt_TouchItem_spec cb dom domV WF mn Hmn t ca i with "A B"); [done|by apply Hi|]. iSplit; [|iSplit].
      + iIntros (HX) "A B". iApply wp_ret. iApply (back_intro with "[$A $B]"); [done|]. cbn [changed]. rewrite bool_decide_true //.
      + iIntros (S' C n st kvs (H1 & H2 & H3 & H4)) "A B". iApply wp_ret. iApply (back_intro with "[$A $B]"); [done|]. cbn [changed].
        split; [done|]. rewrite bool_decide_false.
        * by exists C, n, st, kvs.
        * destruct (leaf_toks cb dom domV mn _ _ _ _ _ _ _ Ht H1) as [_ ->]. rewrite !app_length. unfold plen in H4. lia.
      + iIntros (g' [H1 H2]) "A B". iApply (back_intro with "[$A $B]"); [done|]. split_and!; [done|by apply vw_strip|done|done].
    - iPoseProof (bt_Prune_spec cb dom mn Hmn t ca root S h g with "[$A $B]") as "W".
      iApply (wp_wand with "W"). iSplit.
      + iIntros (_) "[A B]". iApply wp_ret. iApply (back_intro with "[$A $B]"); [done|]. cbn [changed]. done.
      + by iIntros.
    - iPoseProof (bt_FetchLayoutReport_spec cb dom domV WF mn Hmn t ca root S h g Ht with "[$A $B]") as "W".
      iApply (wp_wand with "W"). iSplit.
      + iIntros (R) "(%HR & %g' & %HX & A & B)". destruct HX as (H1 & H2). iApply wp_ret. iApply (back_intro with "[$A $B]"); [done|]. cbn [changed]. by rewrite HR.
      + iIntros (e) "(_ & %g' & %HX & A & B)". destruct HX as (H1 & H2). iApply (back_intro with "[$A $B]"); [done|]. split_and!; [done|by apply vw_strip|done|done].
    - iPoseProof (bt_FetchDimensionsReport_spec cb dom domV WF mn Hmn t ca root S h g Ht with "[$A $B]") as "W".
      iApply (wp_wand with "W"). iSplit.
      + iIntros (R) "(%HR & %g' & %HX & A & B)". destruct HX as (H1 & H2). iApply wp_ret. iApply (back_intro with "[$A $B]"); [done|]. cbn [changed]. by rewrite HR.
      + iIntros (e) "(_ & %g' & %HX & A & B)". destruct HX as (H1 & H2). iApply (back_intro with "[$A $B]"); [done|]. split_and!; [done|by apply vw_strip|done|done].
    - iPoseProof (bt_Validate_spec cb dom domV WF mn Hmn t ca root S h g Ht with "[$A $B]") as "W".
      iApply (wp_wand with "W"). iSplit.
      + iIntros (R) "(%HR & %g' & %HX & A & B)". destruct HX as (H1 & H2). iApply wp_ret. iApply (back_intro with "[$A $B]"); [done|]. cbn [changed]. done.
      + iIntros (e) "(_ & %g' & %HX & A & B)". destruct HX as (H1 & H2). iApply (back_intro with "[$A $B]"); [done|]. split_and!; [done|by apply vw_strip|done|done].
    - iPoseProof (bt_Dump_spec cb dom domV WF mn Hmn t ca root S h g Ht with "[$A $B]") as "W".
      iApply (wp_wand with "W"). iSplit.
      + iIntros (x) "(%HR & %g' & %HX & A & B)". destruct HX as (H1 & H2). iApply wp_ret. iApply (back_intro with "[$A $B]"); [done|]. cbn [changed]. split_and!; eauto.
      + iIntros (e) "(_ & %g' & %HX & A & B)". destruct HX as (H1 & H2). iApply (back_intro with "[$A $B]"); [done|]. split_and!; [done|by apply vw_strip|done|done].
    - iApply wp_io. iApply (bt_FetchLocation_spec with "A B"); [done|]. iIntros "A B". iApply wp_ret.
      iApply (back_intro with "[$A $B]"); [done|]. cbn [changed]. done.
  Qed.

  (** one legal call on a tree *)
  Lemma seat_call w s t i f lv ca root S h g σ σf c : winv w s → seat w s t i f lv ca root S h g σ σf → call_on t c → legal dom domV w c →
    match exec cb c s with
    | ORet r s' => ∃ S' h' g', changed (mnof f) c r S h g S' h' g' ∧ moved s t (mnof f) ca S h g s' S' h' g'
    | OErr e s' => fragile c = false → ∃ S' h' g', unchanged c S h g S' h' g' ∧ moved s t (mnof f) ca S h g s' S' h' g'
    | _ => True
    end.
  Proof using WF.
    intros HW HS Hc Hl. pose proof HS as [H1 H2 H3 H4 H5 H6 H7 H8].
    assert (∀ j, c = TouchItem t j → 0 ≤ j) as Hj by (intros j ->; apply Hl).
    assert (∀ c', c = MapCall t c' → Forall dom (call_keys c') ∧ Forall domV (call_vals c')) as Hk.
    { intros c' ->. destruct Hl as (_ & Hl1 & Hl2). split; [done|]. destruct c'; cbn in *; repeat constructor; done. }
    pose proof (seat_run _ _ _ _ _ _ _ _ _ _ _ _ _ _ _ _ _ HW HS (call_wp (mnof f) t ca root S h g c H1 H2 Hc Hj Hk)) as HR.
    destruct (exec cb c s) as [r s'|e s'|]; [..|done].
    - destruct HR as (σ' & Hd & Hv & root' & S' & h' & g' & HX). apply holds_affine in HX as [[Ht' Hch] HX].
      exists S', h', g'. split; [done|]. by eapply seat_moved.
    - destruct HR as (σ' & Hd & Hv & HX). intros Hf. rewrite Hf in HX. destruct HX as (root' & S' & h' & g' & HX). apply holds_affine in HX as [[Ht' Hch] HX].
      exists S', h', g'. split; [done|]. by eapply seat_moved.
  Qed.
End seat.

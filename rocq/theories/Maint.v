(** * The calls that maintain a tree

    Models no code. *)
From Coq Require Import ssreflect Sorted.
From stdpp Require Import prelude list gmap.
From iris.bi Require Import bi.
From iris.proofmode Require Import proofmode.
From Verif Require Import Spec SpecFacts Llrb LlrbApi BTree HProp Lru Wp Kv Codec Ghost Order PsTree Rep Load Search Update Plug Insert Borrow Merge Rebal Api Walk Touch.
Open Scope Z_scope.

Section maint.
  Context {K V : Type}.
  Variable cb : callbacks K V.
  Variable dom : K → Prop.
  Variable domV : V → Prop.
  Hypothesis WF : wf_cb cb dom domV.
  Variable mn : nat.
  Hypothesis MN : (2 ≤ mn)%nat.
  Variable t : tid.
  Variable ca : bool.
  Notation cmp := (cb_cmp cb).
  Notation M := (M K V).
  Notation hProp := (hProp K V).
  Notation bval := (bval V).
  Notation gt := (gt K V).
  Notation frame := (frame K V).
  Let ORD := wf_ord _ _ _ WF.
  Notation rep := (rep cb dom mn t ca).
  Notation reps := (reps cb dom mn t ca).
  Notation isTR := (isTR mn t ca).
  Notation inode := (inode cb dom mn t ca).
  Notation inodeU := (inodeU cb dom t ca).
  Notation lnode := (lnode cb dom mn t ca).
  Notation lnode' := (lnode' cb dom mn t ca).
  Notation nrec := (nrec t).
  Notation good := (good cmp dom domV).
  Notation ksorted := (ksorted cmp dom).
  Notation "'let*' x := m 'in' e" := (bind m (fun x => e))
    (at level 200, x name, m at level 100, e at level 200, right associativity).
  Notation "'let*' ' x := m 'in' e" := (bind m (fun x => e))
    (at level 200, x strict pattern, m at level 100, e at level 200, right associativity).
  Notation "m ;; e" := (bind m (fun _ : unit => e))
    (at level 100, e at level 200, right associativity, format "m ;;  '/' e").
  Implicit Types (g c : gt) (n : nid) (f : frame) (C : list frame) (h : nat).
  Notation whole := (whole cb dom mn t ca).
  Notation ctx := (ctx cb dom mn t ca).
  Notation knode := (knode cb dom t).
  Notation pre := (pre cb dom mn t ca).

  Implicit Types (L R : list gt) (x y : gt).

  Notation cur := (cur cb dom mn t ca).
  Notation okc := (okc mn).
  Notation goodW := (goodW cb dom domV).
  Notation treeok := (treeok cb dom domV mn).
  Notation framesmall := (framesmall (K:=K) (V:=V)).
  Notation sub := (sub cb dom domV mn).
  Notation TRs := (TRs mn t ca).

  Lemma start_rep io {A} (f : nat → nid → M A) root S h g Q (Er : err → hProp) : treeok root h g →
    isTR root S -∗ whole h g -∗
    (∀ fuel (_ : (Datatypes.S h < fuel)%nat ∧ (cnt (strip g) < fuel)%nat),
       (∃ p, isP (gid g) p) -∗ isTR root S ∗ rep h None true g -∗ wp io (f fuel (gid g)) Q Er) -∗
    wp io (with_fuel (λ fuel, let* rt := rootOf t in f fuel rt)) Q Er.
  Proof using WF MN.
    iIntros (Ht) "HT Hw H". iApply (wp_fuel with "Hw"); [exact MN|]. iIntros (fuel Hf) "Hw".
    iApply wp_bind. iApply (wp_rootOf with "HT"). iIntros "HT". rewrite -(tk_id _ _ _ _ _ _ _ Ht).
    assert ((Datatypes.S h < fuel)%nat ∧ (cnt (strip g) < fuel)%nat) as HX.
    { split; [|done]. pose proof (cnt_height _ _ _ _ (tk_wf _ _ _ _ _ _ _ Ht)). lia. }
    iDestruct "Hw" as "[Hp Hr]". iApply ("H" $! fuel HX with "Hp"). iFrame.
  Qed.
  Lemma tree_same root h g g' : treeok root h g → same g g' → treeok root h g'.
  Proof. intros [H1 H2 H3 H4] (K1 & K2 & K3). split; by rewrite ?K1 ?K2. Qed.
  Lemma kept_same g g' : kept g g' → same g g'.
  Proof. by intros (H1 & H2 & H3 & _). Qed.
  Lemma vw_same g g' : pend g = [] → pend g' = [] → vw g' = vw g → same g g'.
  Proof. intros. split_and!; [by rewrite -vid_vw H1 vid_vw|by apply vw_strip|done]. Qed.
  Lemma vw_gid g g' : vw g' = vw g → gid g' = gid g.
  Proof. intros H. by rewrite -vid_vw H vid_vw. Qed.

  (** *** FetchLocation *)
  Lemma bt_FetchLocation_spec root S h g Q (Er : err → hProp) : treeok root h g →
    isTR root S -∗ whole h g -∗ (isTR root S -∗ whole h g -∗ Q (default noloc (gloc g))) -∗
    wp false (bt_FetchLocation (K:=K) (V:=V) t) Q Er.
  Proof.
    iIntros (Ht) "HT [Hp Hr] H". rewrite -(tk_id _ _ _ _ _ _ _ Ht).
    iDestruct (rep_get with "Hr") as (r) "(HN & %Hr & Hr)".
    iApply wp_bind. iApply (wp_rootOf with "HT"). iIntros "HT". iApply wp_bind. iApply (wp_getN with "HN"). iIntros "HN".
    iApply wp_bind. iApply (wp_rootOf with "HT"). iIntros "HT". iApply wp_bind. iApply (wp_getN with "HN"). iIntros "HN".
    iApply wp_bind. iApply (wp_rootOf with "HT"). iIntros "HT". iApply wp_bind. iApply (wp_getN with "HN"). iIntros "HN".
    iSpecialize ("Hr" with "HN"). iApply wp_ret.
    replace (lnum (b_loc r), loff (b_loc r), llen (b_loc r)) with (b_loc r) by by destruct (b_loc r) as [[??]?].
    replace (b_loc r) with (default noloc (gloc g)).
    { iApply ("H" with "HT"). iFrame. }
    destruct Hr as (R1 & R2 & R3 & R4 & R5 & R6). destruct (gloc g) as [l|] eqn:Hl.
    - by destruct (R4 l eq_refl) as [_ ->].
    - pose proof (tk_pend _ _ _ _ _ _ _ Ht) as Hp. destruct g as [n d|n st kvs|n st ks cs]; cbn in *; [done|..].
      + destruct R6 as (_ & _ & _ & ->). by destruct st.
      + destruct R6 as (_ & _ & _ & ->). by destruct st.
  Qed.

  (** *** Flush *)
  Lemma bt_Flush_spec io ap root S h g : treeok root h g → (io = true ∨ is_Some (gloc g)) →
    isTR root S ∗ whole h g ⊢ wp io (bt_Flush cb t ap)
      (λ l : loc, ∃ g', <affine> ⌜treeok root h g' ∧ flushed ap g g' ∧ gloc g' = Some l⌝ ∗ isTR root S ∗ whole h g')
      (λ e, <affine> ⌜e = EIO ∧ io = true⌝ ∗ ∃ g', <affine> ⌜treeok root h g' ∧ kept g g' ∧ gloc g' = gloc g⌝ ∗ isTR root S ∗ whole h g').
  Proof using WF MN.
    iIntros (Ht Hio) "[HT Hw]". iApply (start_rep io (λ fuel rt, flushNode cb fuel t rt ap ;; let* r := getN rt in ret (b_loc r)) with "HT Hw"); [done|].
    iIntros (fuel [Hf _]) "Hp HH". iApply wp_bind. rewrite (flush_spec cb dom domV WF mn MN t ca io fuel ap); [|lia|by eapply sub_tree|done].
    iApply (wp_wand with "HH"). iSplit; last first.
    { iIntros (e) "[$ (%g' & (%Hk & %Hl) & HT & Hr)]". iExists g'. iFrame. rewrite (proj1 Hk). iFrame. iPureIntro.
      split_and!; try done. eapply tree_same; [done|]. by apply kept_same. }
    iIntros (_) "(%g' & %Hfl & HT & Hr)". rewrite -(proj1 (proj1 Hfl)).
    iDestruct (rep_get with "Hr") as (r) "(HN & %Hr & Hr)".
    iApply wp_bind. iApply (wp_getN with "HN"). iIntros "HN". iSpecialize ("Hr" with "HN"). iApply wp_ret.
    iExists g'. iFrame. iPureIntro. destruct Hfl as (H1 & [l Hl] & H3). split_and!; try done.
    - eapply tree_same; [done|]. by apply kept_same.
    - destruct Hr as (_ & _ & _ & R4 & _). destruct (R4 l Hl) as [_ ->]. done.
  Qed.

  (** *** Purge *)
  Lemma bt_Purge_spec full root S h g : treeok root h g →
    isTR root S ∗ whole h g ⊢ wp false (bt_Purge (K:=K) (V:=V) t full)
      (λ _, ∃ g', <affine> ⌜treeok root h g' ∧ purged g g'⌝ ∗ isTR root S ∗ whole h g')
      (λ e, <affine> ⌜e = ELogic ∧ full = true ∧ gloc g = None⌝ ∗ ∃ g', <affine> ⌜treeok root h g' ∧ vw g' = vw g⌝ ∗ isTR root S ∗ whole h g').
  Proof using WF MN.
    iIntros (Ht) "[HT Hw]". iApply (start_rep false (λ fuel rt, purgeNode fuel t rt full) with "HT Hw"); [done|].
    iIntros (fuel [Hf _]) "Hp HH". rewrite (purge_spec cb dom mn MN t ca fuel full); [|lia|apply Ht].
    iApply (wp_wand with "HH"). iSplit.
    - iIntros (_) "(%g' & %Hpu & HT & Hr)". iExists g'. iFrame. rewrite (vw_gid _ _ (proj1 Hpu)). iFrame. iPureIntro.
      split; [|done]. eapply tree_vw; try done; apply Hpu.
    - iIntros (e) "[$ (%g' & (%Hv & %Hp) & HT & Hr)]". iExists g'. iFrame. rewrite (vw_gid _ _ Hv). iFrame. iPureIntro.
      split; [|done]. by eapply tree_vw.
  Qed.

  (** *** Touch *)
  Lemma bt_Touch_spec root S h g : treeok root h g →
    isTR root S ∗ whole h g ⊢ wp true (bt_Touch cb t)
      (λ _, ∃ S' g', <affine> ⌜treeok root h g' ∧ same g g' ∧ alldirty g'⌝ ∗ isTR root S' ∗ whole h g')
      (λ e, <affine> ⌜e = EIO⌝ ∗ ∃ S' g', <affine> ⌜treeok root h g' ∧ same g g' ∧ (gloc g' = gloc g ∨ gloc g' = None)⌝ ∗ isTR root S' ∗ whole h g').
  Proof using WF MN.
    iIntros (Ht) "[HT Hw]". iApply (start_rep true (λ fuel rt, touchNode cb fuel t rt) with "HT Hw"); [done|].
    iIntros (fuel [Hf _]) "Hp HH". rewrite (touch_spec cb dom domV WF mn MN t ca fuel); [|lia|by eapply sub_tree].
    iApply (wp_wand with "HH"). iSplit.
    - iIntros (_) "[(%S' & %HS & HT) (%g' & (%Hsm & %Hd) & Hr)]". iExists S', g'. iFrame. rewrite (proj1 Hsm). iFrame. iPureIntro.
      split_and!; try done; by eapply tree_same.
    - iIntros (e) "[$ [(%S' & %HS & HT) (%g' & (%Hsm & %Hd) & Hr)]]". iExists S', g'. iFrame. rewrite (proj1 Hsm). iFrame. iPureIntro.
      split_and!; try done; by eapply tree_same.
  Qed.

  (** *** Prune *)
  Lemma bt_Prune_spec root S h g : 
    isTR root S ∗ whole h g ⊢ wp true (bt_Prune (K:=K) (V:=V) t)
      (λ _, isTR root [] ∗ whole h g)
      (λ e, <affine> ⌜e = EIO⌝ ∗ ∃ S', <affine> ⌜S' ⊆ S⌝ ∗ isR t (trec mn ca root S) ∗ stales S' ∗ whole h g).
  Proof.
    iIntros "[HT Hw]". iApply (prune_spec with "HT"); [exact MN|]. iSplit.
    - iIntros "HT". iFrame.
    - iIntros (S' HS) "HR HS". iSplit; [done|]. iExists S'. by iFrame.
  Qed.

  (** *** Discard *)
  Lemma bt_Discard_spec root S h g : treeok root h g →
    isTR root S ∗ whole h g ⊢ wp true (bt_Discard cb t)
      (λ _, isR t (Tree (Z.of_nat mn) (2 * Z.of_nat mn) None [] false) ∗ True) (λ e, <affine> ⌜e = EIO⌝ ∗ True).
  Proof using WF MN.
    iIntros (Ht) "[HT Hw]".
    iApply (start_rep true (λ fuel rt, ignoreErr (discardNode cb fuel t rt) ;; pruneWhileLocked t ;; modT t (λ T, Tree (t_min T) (t_max T) None [] false)) with "HT Hw"); [done|].
    iIntros (fuel [Hf _]) "Hp HH". iApply wp_bind. iApply wp_ignoreErr. rewrite (discard_spec cb dom domV WF mn MN t ca fuel); [|lia|by eapply sub_tree].
    iApply (wp_wand with "HH"). iSplit.
    - iIntros (_) "(%S' & %HS & HT)". iApply wp_bind. iApply (prune_spec with "HT"); [exact MN|]. iSplit.
      + iIntros "[HR _]". iApply (wp_modT with "HR"). iIntros "$".
      + iIntros (S1 HS1) "_ HS". by iSplitR.
    - iIntros (e) "(_ & (%S' & %HS & HT) & HX)". iApply wp_bind. iApply (prune_spec with "HT"); [exact MN|]. iSplit.
      + iIntros "[HR _]". iApply (wp_modT with "HR"). iIntros "$".
      + iIntros (S1 HS1) "_ HS". by iSplitR.
  Qed.
  (** Discard as long as no callback fails: nothing is left *)
  Definition discard_strict : M unit := with_fuel (λ fuel,
    bind (rootOf t) (λ rt, discardNode cb fuel t rt ;; pruneWhileLocked t ;; modT t (λ T, Tree (t_min T) (t_max T) None [] false))).
  Lemma discard_strict_spec root S h g : treeok root h g →
    isTR root S ∗ whole h g ⊢ wp true discard_strict
      (λ _, isR t (Tree (Z.of_nat mn) (2 * Z.of_nat mn) None [] false)) (λ e, <affine> ⌜e = EIO⌝ ∗ True).
  Proof using WF MN.
    iIntros (Ht) "[HT Hw]".
    iApply (start_rep true (λ fuel rt, discardNode cb fuel t rt ;; pruneWhileLocked t ;; modT t (λ T, Tree (t_min T) (t_max T) None [] false)) with "HT Hw"); [done|].
    iIntros (fuel [Hf _]) "Hp HH". iApply wp_bind. rewrite (discard_spec cb dom domV WF mn MN t ca fuel); [|lia|by eapply sub_tree].
    iApply (wp_wand with "HH"). iSplit.
    - iIntros (_) "(%S' & %HS & HT)". iApply wp_bind. iApply (prune_spec with "HT"); [exact MN|]. iSplit.
      + iIntros "[HR _]". iApply (wp_modT with "HR"). iIntros "$".
      + iIntros (S1 HS1) "_ HS". by iSplitR.
    - iIntros (e) "(%He & (%S' & %HS & HT) & HX)". by iSplitR.
  Qed.

  (** *** TouchItem *)
  Lemma bt_TouchItem_spec i root S h g Q (Er : err → hProp) : treeok root h g → 0 ≤ i →
    isTR root S -∗ whole h g -∗
    ((∀ _ : Z.of_nat (length (items (strip g))) ≤ i, isTR root S -∗ whole h g -∗ Q 0) ∧
     (∀ S' C n st kvs (_ : okc (vw g) 0 C (GL n st kvs) ∧ (h + 0)%nat = length C ∧ treeok root h (fill (dirtyC C) (GL n Dirty kvs)) ∧
          plen C ≤ i < plen C + Z.of_nat (length kvs)),
        isTR root S' -∗ whole h (fill (dirtyC C) (GL n Dirty kvs)) -∗ Q (plen C + Z.of_nat (length kvs))) ∧
     (∀ g' (_ : treeok root h g' ∧ vw g' = vw g), isTR root S -∗ whole h g' -∗ Er EIO)) -∗
    wp true (bt_TouchItem cb t i) Q Er.
  Proof using WF MN.
    iIntros (Ht Hi) "HT Hw H".
    iApply (start with "HT Hw"); [exact MN|done|]. iIntros (fuel Hf) "Hcur". destruct (tree_okc _ _ _ _ _ _ _ Ht) as [Hok Hg].
    iDestruct (cur_rec with "Hcur") as (r) "(HN & %Hr & Hcur)".
    iApply wp_bind. iApply (wp_getN with "HN"). iIntros "HN". iSpecialize ("Hcur" with "HN").
    replace (b_items r) with (gsz g) by (symmetry; apply Hr).
    assert (gsz g = Z.of_nat (length (items (strip g)))) as Hsz by done.
    destruct (Z.eqb_spec (gsz g) 0) as [H0|H0].
    { iApply wp_ret. iDestruct (cur_close cb dom domV mn t ca root S h [] g h g Ht Hok with "Hcur") as "(HT & Hw & _)"; [done|].
      iDestruct "H" as "[H _]". assert (Z.of_nat (length (items (strip g))) ≤ i) as HX by lia. iApply ("H" $! HX with "HT Hw"). }
    destruct (Z.leb_spec (gsz g) i) as [H1|H1].
    { iApply wp_ret. iDestruct (cur_close cb dom domV mn t ca root S h [] g h g Ht Hok with "Hcur") as "(HT & Hw & _)"; [done|].
      iDestruct "H" as "[H _]". assert (Z.of_nat (length (items (strip g))) ≤ i) as HX by lia. iApply ("H" $! HX with "HT Hw"). }
    iApply wp_bind. iApply (descendIndex_spec cb dom domV WF mn MN t ca false fuel h fuel (vw g) root S [] g with "Hcur"); [by eapply height_fuel|rewrite strip_vw; lia|done|done|lia|].
    iSplit; last first.
    { iIntros (C' h' g' [Hok' Hh]) "Hcur". iDestruct (cur_close cb dom domV mn t ca root S h' C' g' h g Ht Hok' with "Hcur") as "(HT & Hw & %HX)"; [done|].
      iDestruct "H" as "(_ & _ & H)". iApply ("H" $! _ HX with "HT Hw"). }
    iIntros (C n st kvs j (Hok' & Hh & Hij & Hj)) "Hcur".
    destruct (leaf_toks cb dom domV mn _ _ _ _ _ _ _ Ht Hok') as [Hgd Hit].
    pose proof (height_fuel cb dom domV mn MN _ _ _ _ Ht Hf). cbn [length] in Hh.
    iApply wp_bind. iApply (touchLeaf with "Hcur"); [lia|].
    iIntros (S' HS) "HT (%kv & %left & %ps & %Hkv & HN & Htg & Hb) Hc".
    iApply wp_bind. iApply (wp_kvLen cb dom true n (nrec Dirty (Z.of_nat (length kvs)) (isnil C) true (hpar C) kv left ps) kv _ eq_refl Hkv with "HN"). iIntros "HN". iApply wp_ret.
    rewrite /uels fmap_length. change (plen ([] : list frame)) with 0 in Hij.
    destruct (leaf_new cb dom domV mn MN h g root C n st kvs kvs Ht Hok' ltac:(lia) Hgd eq_refl) as (Ht' & _ & _).
    replace (i + (Z.of_nat (length kvs) - Z.of_nat j)) with (plen C + Z.of_nat (length kvs)) by lia.
    iDestruct "H" as "(_ & H & _)". 
    assert (okc (vw g) 0 C (GL n st kvs) ∧ (h + 0)%nat = length C ∧ treeok root h (fill (dirtyC C) (GL n Dirty kvs)) ∧
          plen C ≤ i < plen C + Z.of_nat (length kvs)) as HX.
    { split_and!; try done; lia. }
    iApply ("H" $! S' C n st kvs HX with "HT"). replace h with (length C) by lia.
    iApply (leaf_whole cb dom mn t ca C n kvs kvs kv (nrec Dirty (Z.of_nat (length kvs)) (isnil C) true (hpar C) kv left ps)); [done|by eapply wfC_lens, Hok'|done|].
    iFrame. by iExists _, _, _.
  Qed.
End maint.

(** * Each call, one step at a time, on its own tree

    For every call: started on a tree as the specification describes it, it can
    be carried out step by step, whatever the other threads do to what does not
    belong to the tree, and ends as the specification says.

    No new code is modelled here. *)
From Coq Require Import ssreflect.
From stdpp Require Import prelude list gmap.
From iris.proofmode Require Import proofmode.
From Verif Require Import Spec SpecFacts BTree HProp Lru Wp Kv Codec Ghost Order PsTree Rep Load Search Update Plug Insert Borrow Merge Rebal Api Walk Touch Maint Report Open Dumps Blame Pres Local Machine Client World Disk Hist Threads Wpt.
Open Scope Z_scope.

Section calls.
  Context {K V : Type}.
  Variable cb : callbacks K V.
  Variable dom : K → Prop.
  Variable domV : V → Prop.
  Hypothesis WF : wf_cb cb dom domV.
  Notation cmp := (cb_cmp cb).
  Notation hProp := (hProp K V).
  Notation heap := (gmap rkey (rval K V)).
  Notation st := (st K V).
  Notation M := (M K V).
  Notation cmd := (cmd K V).
  Notation result := (result K V).
  Notation family := (family K V).
  Notation world := (world K V).
  Notation live := (live K V).
  Notation treeok := (treeok cb dom domV).
  Notation treeres := (treeres cb dom domV).
  Notation outres := (outres cb dom domV).
  Notation stored_at := (stored_at cb dom domV).
  Notation snapsat := (snapsat cb dom domV).
  Notation body := (body cb dom domV).
  Notation whole := (whole cb dom).
  Notation post A := (A → list bool → heap → Prop).
  Implicit Types (σ : heap) (P Q : hProp) (f : family) (w : world) (s : st) (lv : live) (X : loc → Prop).

  (** one family alone *)
  Definition solo f : world := World [f] ∅.
  Definition donepost (c : cmd) f : post result := λ r cbs σ,
    (snapsat σ f → right_result cmp (solo f) c r cbs) ∧ ∃ f', next_done cmp (solo f) c r cbs = solo f' ∧ fm_min f' = fm_min f ∧ body f' σ.
  Definition failpost (c : cmd) f : post err := λ e cbs σ,
    right_error (solo f) c e cbs ∧ ∃ f', next_failed (solo f) c = solo f' ∧ fm_min f' = fm_min f ∧ body f' σ.
  (** the tree [t] of [f] can be used *)
  Definition inuse (t : tid) f lv : Prop := fm_live f = Some lv ∧ lv_tree lv = t ∧ lv_broken lv = false.
  Lemma inuse_on t f lv : inuse t f lv → ontree (solo f) t 0 f lv.
  Proof.
    intros (H1 & H2 & H3). split; [|done..]. unfold fam_of, solo; cbn. rewrite decide_True //.
    unfold has_tree. by rewrite H1.
  Qed.
  Lemma inuse_uniq t f lv f' lv' : inuse t f lv → usable (solo f) t f' lv' → f' = f ∧ lv' = lv.
  Proof. intros H%inuse_on Hu. by eapply ot_uniq. Qed.
  Lemma inuse_upd t f lv F : inuse t f lv → upd (solo f) t F = solo (F f lv).
  Proof. intros H%inuse_on. by rewrite (ot_upd _ _ _ _ _ _ H). Qed.
  Lemma inuse_body t f lv : inuse t f lv → body f = (treeres (mnof f) t (lv_items lv) (lv_cond lv) ∗ junk (fm_rest f))%I.
  Proof. intros H%inuse_on. by eapply ot_body. Qed.

  Definition ready (c : cmd) f io σ : Prop :=
    (io = true → ¬ silent (solo f) c) ∧ wpt ∅ io (exec cb c) [] (donepost c f) (failpost c f) σ.
  Lemma tree_ready {A} (c : cmd) t f lv σ io (m : M A) (k : A → result) (φ : A → Prop) oq (ψ : err → Prop) oe :
    exec cb c = bind m (λ a, ret (k a)) → inuse t f lv → body f σ →
    (∀ ca root S h g, treeok (mnof f) root h g → items (strip g) = lv_items lv → condok (lv_cond lv) g →
       isTR (mnof f) t ca root S ∗ whole (mnof f) t ca h g ⊢
       wp io m (λ a, <affine> ⌜φ a⌝ ∗ outres (mnof f) t (oq a)) (λ e, <affine> ⌜ψ e⌝ ∗ outres (mnof f) t oe)) →
    (io = true → ¬ silent (solo f) c) →
    (∀ a cs σ', φ a → (io = false → cs = []) → body (outfam f lv (oq a)) σ' → donepost c f (k a) cs σ') →
    (∀ e cs σ', ψ e → (io = false → cs = []) → (e = EIO → true ∈ cs) → body (outfam f lv oe) σ' → failpost c f e cs σ') →
    ready c f io σ.
  Proof.
    intros He Hu HB Hwp Hio HQ HE. split; [done|].
    assert (wp io (exec cb c) (λ r, ∃ a, <affine> ⌜r = k a ∧ φ a⌝ ∗ (outres (mnof f) t (oq a) ∗ junk (fm_rest f)))%I
      (λ e, <affine> ⌜ψ e⌝ ∗ (outres (mnof f) t oe ∗ junk (fm_rest f)))%I σ) as HW.
    { rewrite (inuse_body _ _ _ Hu) in HB. revert HB. apply entails_holds. rewrite He.
      iIntros "[(%ca & %root & %S & %h & %g & %HX & A & B) J]". destruct HX as (H1 & H2 & H3).
      iApply wp_bind. iPoseProof (Hwp ca root S h g H1 H2 H3 with "[$A $B]") as "W".
      iApply (wp_wand with "W"). iSplit.
      - iIntros (a) "(%Ha & R)". iApply wp_ret. iExists a. by iFrame.
      - iIntros (e) "(%He' & R)". by iFrame. }
    destruct Hu as (Hl & Ht & Hb).
    assert (∀ o σ', (outres (mnof f) t o ∗ junk (fm_rest f))%I σ' → body (outfam f lv o) σ') as Hbody.
    { intros o σ' H. unfold World.body; cbn. unfold Hist.outres in H. destruct (to_brk o); [done|]. by rewrite Ht. }
    eapply wpt_mono; [done| | |apply (wp_wpt _ _ [] _ _ _ HW)].
    - intros r cbs σ' ((a & HX) & cs & -> & Hcs). apply holds_affine in HX as [[-> Ha] HX]. rewrite app_nil_l.
      apply HQ; [done|done|by apply Hbody].
    - intros e cbs σ' (HX & cs & -> & Hcs & Hca). apply holds_affine in HX as [Ha HX]. rewrite app_nil_l.
      apply HE; [done|done|done|by apply Hbody].
  Qed.
  Lemma done_same c t f lv r cs σ : inuse t f lv → next_done cmp (solo f) c r cs = solo f →
    right_result cmp (solo f) c r cs → body (outfam f lv (same_out f lv)) σ → donepost c f r cs σ.
  Proof.
    intros (Hl & Ht & Hb) Hn Hr HB. split; [done|]. exists f. split_and!; [done|done|]. unfold World.body in *. cbn in HB.
    by rewrite Hl Hb.
  Qed.
  Lemma fail_same c t f lv e cs σ : inuse t f lv → next_failed (solo f) c = solo f →
    right_error (solo f) c e cs → body (outfam f lv (same_out f lv)) σ → failpost c f e cs σ.
  Proof.
    intros (Hl & Ht & Hb) Hn Hr HB. split; [done|]. exists f. split_and!; [done|done|]. unfold World.body in *. cbn in HB.
    by rewrite Hl Hb.
  Qed.
  Lemma stored_of t f lv l σ : inuse t f lv → lv_cond lv = Stored l → body f σ → stored_at σ (mnof f) l (lv_items lv).
  Proof.
    intros Hu Hc HB. rewrite (inuse_body _ _ _ Hu) in HB. destruct HB as (σ3 & σ4 & -> & Hd' & H1 & _). rewrite Hc in H1.
    apply treeres_stored in H1. eapply stored_le; [exact H1|]. intros k b Hk _. by apply lookup_union_Some_l.
  Qed.

  Section tree.
  Variables (t : tid) (f : family) (lv : live) (σ : heap).
  Hypothesis (Hu : inuse t f lv) (Hmn : (2 ≤ mnof f)%nat) (HB : body f σ).
  Lemma start_LayoutReport : ready (LayoutReport t) f true σ.
  Proof using WF Hu Hmn HB.
    apply (tree_ready (LayoutReport t) t f lv σ true (bt_FetchLayoutReport cb t) RLayout
      (λ _, True) (λ _, same_out f lv) (λ e, e = EIO) (same_out f lv)); try done.
    { intros ca root S h g Ht Hits Hc. iIntros "AB". iPoseProof (bt_FetchLayoutReport_spec cb dom domV WF (mnof f) Hmn t ca root S h g Ht with "AB") as "W".
      iApply (wp_wand with "W"). iSplit.
      - iIntros (a) "(%Ha & %g' & %HX & A & B)". destruct HX as [Ht' Hv]. iSplitR; [iPureIntro; done|].
        iApply (mk_out with "[$A $B]"); [done|by rewrite (vw_strip _ _ Hv)|by eapply condok_vw].
      - iIntros (e) "(%He & %g' & %HX & A & B)". destruct HX as [Ht' Hv]. iSplitR; [done|].
        iApply (mk_out with "[$A $B]"); [done|by rewrite (vw_strip _ _ Hv)|by eapply condok_vw]. }
    { by intros _ []. }
    - intros a cs σ' _ _ H. eapply done_same; [done|done| |done]. by exists a.
    - intros e cs σ' -> _ Hc H. eapply fail_same; [done|done| |done]. split_and!; [done|by apply Hc|by intros []].
  Qed.
  Lemma start_Dump : ready (Dump t) f true σ.
  Proof using WF Hu Hmn HB.
    split; [by intros _ []|]. change (exec cb (Dump t)) with (bind (bt_Dump cb t) (λ x, ret (RDump x.1))). rewrite wpt_bind.
    assert (wp true (bt_Dump cb t) (λ x, <affine> ⌜∃ ls, said (lv_items lv) ls x⌝ ∗ (outres (mnof f) t (same_out f lv) ∗ junk (fm_rest f)))%I
      (λ e, <affine> ⌜e = EIO⌝ ∗ (outres (mnof f) t (same_out f lv) ∗ junk (fm_rest f)))%I σ) as HW.
    { pose proof HB as HB'. rewrite (inuse_body _ _ _ Hu) in HB'. revert HB'. apply entails_holds.
      iIntros "[(%ca & %root & %S & %h & %g & %HX & A & B) J]". destruct HX as (Ht & Hits & Hc).
      iPoseProof (bt_Dump_spec cb dom domV WF (mnof f) Hmn t ca root S h g Ht with "[$A $B]") as "W".
      iApply (wp_wand with "W"). iSplit.
      - iIntros (a) "(%Ha & %g' & %HX & A & B)". destruct HX as [Ht' Hv]. iFrame "J". iSplitR.
        { iPureIntro. rewrite -Hits. by eexists. }
        iApply (mk_out with "[$A $B]"); [done|by rewrite (vw_strip _ _ Hv)|by eapply condok_vw].
      - iIntros (e) "(%He & %g' & %HX & A & B)". destruct HX as [Ht' Hv]. iFrame "J". iSplitR; [done|].
        iApply (mk_out with "[$A $B]"); [done|by rewrite (vw_strip _ _ Hv)|by eapply condok_vw]. }
    pose proof Hu as (Hl & Ht & Hb).
    assert (∀ σ', (outres (mnof f) t (same_out f lv) ∗ junk (fm_rest f))%I σ' → body (outfam f lv (same_out f lv)) σ') as Hbody.
    { intros σ' H. unfold World.body; cbn. unfold Hist.outres in H. cbn [to_brk same_out] in H. by rewrite Ht. }
    eapply wpt_mono; [done| | |apply (wp_wpt_blame _ _ [] _ _ _ _ HW (bl_bt_Dump cb t))].
    - intros x cbs σ' (HX & cs & -> & Hcs). apply holds_affine in HX as [(ls & [Hsub _] & Hall & He) HX]. rewrite app_nil_l.
      apply wpt_ret. eapply done_same; [done|done| |by apply Hbody].
      intros f' lv' Hu'. destruct (inuse_uniq _ _ _ _ _ Hu Hu') as [-> ->].
      exists x.1. split_and!; [done|done|].
      intros Hn. destruct x as [ls' [e|]]; cbn in *; [|by apply Hall]. rewrite (He e eq_refl) in Hcs. exfalso. by apply Hn, Hcs.
    - intros e cbs σ' (HX & cs & -> & Hca). apply holds_affine in HX as [-> HX]. rewrite app_nil_l.
      eapply fail_same; [done|done| |by apply Hbody]. split_and!; [done|by apply Hca|by intros []].
  Qed.
  Lemma start_Validate : ready (Validate t) f true σ.
  Proof using WF Hu Hmn HB.
    apply (tree_ready (Validate t) t f lv σ true (bt_Validate cb t) RValid
      (λ ok : bool, ok = true) (λ _, same_out f lv) (λ e, e = EIO) (same_out f lv)); try done.
    { intros ca root S h g Ht Hits Hc. iIntros "AB". iPoseProof (bt_Validate_spec cb dom domV WF (mnof f) Hmn t ca root S h g Ht with "AB") as "W".
      iApply (wp_wand with "W"). iSplit.
      - iIntros (a) "(%Ha & %g' & %HX & A & B)". destruct HX as [Ht' Hv]. iSplitR; [iPureIntro; done|].
        iApply (mk_out with "[$A $B]"); [done|by rewrite (vw_strip _ _ Hv)|by eapply condok_vw].
      - iIntros (e) "(%He & %g' & %HX & A & B)". destruct HX as [Ht' Hv]. iSplitR; [done|].
        iApply (mk_out with "[$A $B]"); [done|by rewrite (vw_strip _ _ Hv)|by eapply condok_vw]. }
    { by intros _ []. }
    - intros a cs σ' -> _ H. eapply done_same; [done|done| |done]. done.
    - intros e cs σ' -> _ Hc H. eapply fail_same; [done|done| |done]. split_and!; [done|by apply Hc|by intros []].
  Qed.
  Lemma start_DimensionsReport : fm_min f = Z.of_nat (mnof f) → ready (DimensionsReport t) f true σ.
  Proof using WF Hu Hmn HB.
    intros Hm. apply (tree_ready (DimensionsReport t) t f lv σ true (bt_FetchDimensionsReport cb t) RDim
      (λ d, ∃ height : nat, d = Dimensions (fm_min f) (2 * fm_min f) (Z.of_nat (length (lv_items lv))) (Z.of_nat height) ∧
          (1 ≤ height)%nat ∧ (height = 1%nat ∨ 2 * fm_min f ^ (Z.of_nat height - 1) ≤ Z.of_nat (length (lv_items lv)))) (λ _, same_out f lv) (λ e, e = EIO) (same_out f lv)); try done.
    { intros ca root S h g Ht Hits Hc. iIntros "AB". iPoseProof (bt_FetchDimensionsReport_spec cb dom domV WF (mnof f) Hmn t ca root S h g Ht with "AB") as "W".
      iApply (wp_wand with "W"). iSplit.
      - iIntros (a) "(%Ha & %g' & %HX & A & B)". destruct HX as [Ht' Hv]. iSplitR; [iPureIntro; exists (1 + h)%nat; rewrite Ha Hm -Hits; split_and!; [f_equal; lia|lia|]; destruct h as [|h]; [by left|right]; replace (Z.of_nat (1 + Datatypes.S h) - 1) with (Z.of_nat (Datatypes.S h)) by lia; by eapply tall|].
        iApply (mk_out with "[$A $B]"); [done|by rewrite (vw_strip _ _ Hv)|by eapply condok_vw].
      - iIntros (e) "(%He & %g' & %HX & A & B)". destruct HX as [Ht' Hv]. iSplitR; [done|].
        iApply (mk_out with "[$A $B]"); [done|by rewrite (vw_strip _ _ Hv)|by eapply condok_vw]. }
    { by intros _ []. }
    - intros a cs σ' Hr _ H. eapply done_same; [done|done| |done].
      intros f' lv' Hu'. destruct (inuse_uniq _ _ _ _ _ Hu Hu') as [-> ->]. destruct Hr as (hh & -> & ? & ?). by exists hh.
    - intros e cs σ' -> _ Hc H. eapply fail_same; [done|done| |done]. split_and!; [done|by apply Hc|by intros []].
  Qed.
  Lemma start_Purge full : ready (Purge t full) f false σ.
  Proof using WF Hu Hmn HB.
    apply (tree_ready (Purge t full) t f lv σ false (bt_Purge t full) (λ _, RUnit)
      (λ _, full = true → lv_cond lv ≠ Modified) (λ _, same_out f lv) (λ e, e = ELogic ∧ full = true ∧ ∀ l, lv_cond lv ≠ Stored l) (same_out f lv)); try done.
    { intros ca root S h g Ht Hits Hc. iIntros "AB". assert ((full = true ∧ lv_cond lv = Modified) ∨ ¬ (full = true ∧ lv_cond lv = Modified)) as HD by (destruct full, (lv_cond lv); naive_solver). destruct HD as [[-> HM]|HM].
      - rewrite HM in Hc. cbn in Hc. iPoseProof (bt_Purge_dirty cb dom domV WF (mnof f) Hmn t ca root S h g Ht Hc with "AB") as "W".
        iApply (wp_wand with "W"). iSplit.
        + by iIntros (a) "[]".
        + iIntros (e) "(%He & A & B)". iSplitR; [by rewrite HM|]. iApply (mk_out with "[$A $B]"); [done|done|by rewrite HM].
      - iPoseProof (bt_Purge_spec cb dom domV WF (mnof f) Hmn t ca full root S h g Ht with "AB") as "W".
        iApply (wp_wand with "W"). iSplit.
        + iIntros (a) "(%g' & %HX & A & B)". destruct HX as (Ht' & Hv & _). iSplitR; [iPureIntro; intros -> HM'; by apply HM|].
          iApply (mk_out with "[$A $B]"); [done|by rewrite (vw_strip _ _ Hv)|by eapply condok_vw].
        + iIntros (e) "(%He & %g' & %HX & A & B)". destruct HX as (Ht' & Hv). destruct He as (He & Hfu & Hn).
          iSplitR; [iPureIntro; split_and!; [done|done|]; intros l Hl; rewrite Hl in Hc; cbn in Hc; congruence|].
          iApply (mk_out with "[$A $B]"); [done|by rewrite (vw_strip _ _ Hv)|by eapply condok_vw]. }
    - intros a cs σ' Hr Hcs H. eapply done_same; [done|done| |done].
      split_and!; [done|by apply Hcs|]. intros f' lv' Hu'. destruct (inuse_uniq _ _ _ _ _ Hu Hu') as [-> ->]. done.
    - intros e cs σ' (-> & -> & Hn) Hcs _ H. eapply fail_same; [done|done| |done]. split_and!; [done|done|by apply Hcs|].
      intros f' lv' Hu'. by destruct (inuse_uniq _ _ _ _ _ Hu Hu') as [-> ->].
  Qed.
  Lemma start_Flush ap : ready (Flush t ap) f (match lv_cond lv with Stored _ => false | _ => true end) σ.
  Proof using WF Hu Hmn HB.
    apply (tree_ready (Flush t ap) t f lv σ (match lv_cond lv with Stored _ => false | _ => true end) (bt_Flush cb t ap) RLoc
      (λ l, match lv_cond lv with Stored l' => l = l' | _ => True end) (λ l, TOut (lv_items lv) (Stored l) (fm_snaps f) false) (λ e, e = EIO ∧ match lv_cond lv with Stored _ => False | _ => True end) (same_out f lv)); try done.
    { intros ca root S h g Ht Hits Hc. iIntros "AB".
      iPoseProof (bt_Flush_spec cb dom domV WF (mnof f) Hmn t ca (match lv_cond lv with Stored _ => false | _ => true end) ap root S h g Ht with "AB") as "W".
      { destruct (lv_cond lv); cbn in Hc; [right; by rewrite Hc|by left|by left]. }
      iApply (wp_wand with "W"). iSplit.
      - iIntros (a) "(%g' & %HX & A & B)". destruct HX as (Ht' & Hf & Hl). destruct Hf as ((_ & Hs & _ & Hv) & _).
        iSplitR; [iPureIntro; destruct (lv_cond lv); [|done..]; cbn in Hc; rewrite -vloc_vw Hv ?Hc // vloc_vw in Hl; congruence|].
        iApply (mk_out with "[$A $B]"); [done|by rewrite Hs|done].
      - iIntros (e) "(%He & %g' & %HX & A & B)". destruct HX as (Ht' & Hk & Hl). destruct Hk as (_ & Hs & _ & Hv). destruct He as [He Hio].
        iSplitR; [iPureIntro; split; [done|]; by destruct (lv_cond lv)|].
        iApply (mk_out with "[$A $B]"); [done|by rewrite Hs|]. destruct (lv_cond lv); cbn in *; congruence. }
    { intros Hio (f' & lv' & l & Hu' & Hc). destruct (inuse_uniq _ _ _ _ _ Hu Hu') as [-> ->]. by rewrite Hc in Hio. }
    - intros l cs σ' Hr Hcs H. pose proof Hu as (Hl & Ht & Hb). split.
      + intros HS f' lv' Hu'. destruct (inuse_uniq _ _ _ _ _ Hu Hu') as [-> ->]. exists l. split; [done|]. split.
        { destruct (lv_cond lv); [|done..]. split; [done|by apply Hcs]. }
        intros [|j] g m Hj Hm; [|done]. cbn in Hj. injection Hj as <-. split; [by destruct (inuse_on _ _ _ Hu)|].
        assert (inuse t (outfam f lv (TOut (lv_items lv) (Stored l) (fm_snaps f) false)) (Live (lv_tree lv) (lv_items lv) (Stored l) false)) as Hu2 by done.
        pose proof (stored_of _ _ _ l _ Hu2 eq_refl H) as HX. eapply (stored_fun cb dom domV WF); [by apply HS|exact HX].
      + cbn [next_done]. rewrite (inuse_upd _ _ _ _ Hu). eexists. split_and!; [done|done|]. unfold World.body in *. cbn in *. by rewrite Hb.
    - intros e cs σ' [-> He] _ Hc H. eapply fail_same; [done|done| |done]. split_and!; [done|by apply Hc|].
      intros (f' & lv' & l & Hu' & Hcd). destruct (inuse_uniq _ _ _ _ _ Hu Hu') as [-> ->]. by rewrite Hcd in He.
  Qed.
  Lemma start_Touch : ready (Touch t) f true σ.
  Proof using WF Hu Hmn HB.
    apply (tree_ready (Touch t) t f lv σ true (bt_Touch cb t) (λ _, RUnit)
      (λ _, True) (λ _, TOut (lv_items lv) Modified (fm_snaps f) false) (λ e, e = EIO) (TOut (lv_items lv) (match lv_cond lv with Modified => Modified | _ => Unsure end) (fm_snaps f) false)); try done.
    { intros ca root S h g Ht Hits Hc. iIntros "AB". iPoseProof (bt_Touch_spec cb dom domV WF (mnof f) Hmn t ca root S h g Ht with "AB") as "W".
      iApply (wp_wand with "W"). iSplit.
      - iIntros (a) "(%S' & %g' & %HX & A & B)". destruct HX as (Ht' & (_ & Hs & _) & Hd). iSplitR; [done|].
        iApply (mk_out with "[$A $B]"); [done|by rewrite Hs|]. destruct g'; cbn in Hd |- *; [done|by subst|by destruct Hd as [-> _]].
      - iIntros (e) "(%He & %S' & %g' & %HX & A & B)". destruct HX as (Ht' & (_ & Hs & _) & Hl). iSplitR; [done|].
        iApply (mk_out with "[$A $B]"); [done|by rewrite Hs|]. destruct (lv_cond lv); [done| |done]. cbn in *. destruct Hl; congruence. }
    { by intros _ []. }
    - intros a cs σ' _ Hcs H. pose proof Hu as (Hl & Ht & Hb). split; [done|]. cbn [next_done]. rewrite (inuse_upd _ _ _ _ Hu).
      eexists. split_and!; [done|done|]. unfold World.body in *. cbn in *. by rewrite Hb.
    - intros e cs σ' -> _ Hc H. pose proof Hu as (Hl & Ht & Hb). split; [split_and!; [done|by apply Hc|by intros []]|].
      cbn [next_failed]. rewrite (inuse_upd _ _ _ _ Hu). eexists. split_and!; [done|done|]. unfold World.body in *. cbn in *. by rewrite Hb.
  Qed.
  Lemma start_TouchItem ix : 0 ≤ ix → ready (TouchItem t ix) f true σ.
  Proof using WF Hu Hmn HB.
    intros H0. apply (tree_ready (TouchItem t ix) t f lv σ true (bt_TouchItem cb t ix) RPos
      (λ j, if ix <? Z.of_nat (length (lv_items lv)) then ix < j ≤ Z.of_nat (length (lv_items lv)) else j = 0) (λ _, TOut (lv_items lv) (if ix <? Z.of_nat (length (lv_items lv)) then Modified else lv_cond lv) (fm_snaps f) false) (λ e, e = EIO) (same_out f lv)); try done.
    { intros ca root S h g Ht Hits Hc. iIntros "[A B]". iApply (bt_TouchItem_spec cb dom domV WF (mnof f) Hmn t ca ix root S h g _ _ Ht H0 with "A B").
      iSplit; [|iSplit].
      - iIntros (Hge) "A B". rewrite Hits in Hge. assert ((ix <? Z.of_nat (length (lv_items lv))) = false) as -> by lia.
        iSplitR; [done|]. by iApply (mk_out with "[$A $B]").
      - iIntros (S' C n stt kvs HX) "A B". destruct HX as ([Hv HwC Hw Hp HpC] & Hh & Ht' & Hix).
        assert (lens C) as HlC by by eapply wfC_lens.
        assert (items (strip (fill (dirtyC C) (GL n Dirty kvs))) = lv_items lv) as Hit.
        { rewrite -Hits -(vw_strip _ _ Hv) strip_dirty !items_fill //. }
        assert (length (lv_items lv) = length (titems (cpre C)) + length kvs + length (titems (cpost C)))%nat as Hlen.
        { rewrite -Hits -(vw_strip _ _ Hv) items_fill // !app_length. cbn [strip]. rewrite /items titems_itoks. lia. }
        assert ((ix <? Z.of_nat (length (lv_items lv))) = true) as -> by (unfold plen in Hix; lia).
        iSplitR; [iPureIntro; unfold plen in *; lia|].
        iApply (mk_out with "[$A $B]"); [done|done|]. apply gloc_dirty. by right.
      - iIntros (g' HX) "A B". destruct HX as [Ht' Hv]. iSplitR; [done|].
        iApply (mk_out with "[$A $B]"); [done|by rewrite (vw_strip _ _ Hv)|by eapply condok_vw]. }
    { by intros _ []. }
    - intros a cs σ' Hr Hcs H. pose proof Hu as (Hl & Ht & Hb). split.
      { intros _ f' lv' Hu'. destruct (inuse_uniq _ _ _ _ _ Hu Hu') as [-> ->]. by exists a. }
      cbn [next_done]. rewrite (inuse_upd _ _ _ _ Hu).
      eexists. split_and!; [done|done|]. unfold World.body in *. cbn in *. by rewrite Hb.
    - intros e cs σ' -> _ Hc H. eapply fail_same; [done|done| |done]. split_and!; [done|by apply Hc|by intros []].
  Qed.
  Lemma start_MapCall (c : call K V) : Forall dom (call_keys c) → Forall domV (call_vals c) → ready (MapCall t c) f true σ.
  Proof using WF Hu Hmn HB.
    intros Hk Hvv. apply (tree_ready (MapCall t c) t f lv σ true (bt_call cb t c) RAns
      (λ a, a = (spec_call cmp (lv_items lv) c).2) (λ a, TOut (spec_call cmp (lv_items lv) c).1 (if modifies c a then Modified else lv_cond lv) (fm_snaps f) false) (λ e, e = EIO) (TOut (lv_items lv) (lv_cond lv) (fm_snaps f) (is_delete c))); try done.
    { intros ca root S h g Ht Hits Hc. iIntros "[A B]". iApply (bt_call_spec cb dom domV WF (mnof f) Hmn t ca c root S h g _ _ Ht Hk Hvv with "A B").
      { intros Hd. unfold Hist.outres. cbn. change (isdel c) with (is_delete c) in Hd. rewrite Hd. by iIntros. }
      iSplit.
      - iIntros (root' S' h' g' Hok) "A B". destruct Hok as [Ht' Hi' _ Hm Hsm]. rewrite Hits in Hi', Hm, Hsm |- *. iSplitR; [done|].
        iApply (mk_out with "[$A $B]"); [done|done|]. change (modifies c) with (chg c). destruct (chg c _); [by apply Hm|].
        destruct (Hsm eq_refl) as [Hvw _]. by eapply condok_vw.
      - iIntros (g' HX) "A B". destruct HX as [Ht' Hvw]. iSplitR; [done|]. unfold Hist.outres; cbn. destruct (is_delete c); [done|].
        iApply (treeres_intro with "[$A $B]"); [done|by rewrite (vw_strip _ _ Hvw)|by eapply condok_vw]. }
    { by intros _ []. }
    - intros a cs σ' Hr Hcs H. pose proof Hu as (Hl & Ht & Hb). split.
      { intros _ f' lv' Hu'. destruct (inuse_uniq _ _ _ _ _ Hu Hu') as [-> ->]. by rewrite Hr. }
      cbn [next_done]. rewrite (inuse_upd _ _ _ _ Hu). subst a.
      destruct (spec_call cmp (lv_items lv) c) as [mm aa]. eexists. split_and!; [done|done|]. unfold World.body in *. cbn in *. by rewrite Hb.
    - intros e cs σ' -> _ Hc H. pose proof Hu as (Hl & Ht & Hb). split; [split_and!; [done|by apply Hc|by intros []]|].
      cbn [next_failed]. unfold World.body in H; cbn in H. destruct (is_delete c).
      + rewrite (inuse_upd _ _ _ _ Hu). eexists. split_and!; [done|done|]. done.
      + eexists. split_and!; [done|done|]. unfold World.body. by rewrite Hl Hb.
  Qed.
  End tree.
  (** *** Prune: the current version is not touched *)
  Definition doneon (c : cmd) f σk : post result := λ r cbs σ, σ ##ₘ σk → donepost c f r cbs (σ ∪ σk).
  Definition failon (c : cmd) f σk : post err := λ e cbs σ, σ ##ₘ σk → failpost c f e cbs (σ ∪ σk).
  (** started, on [σp], with [σk] set aside *)
  Definition ready2 (c : cmd) f io σp σk : Prop :=
    (io = true → ¬ silent (solo f) c) ∧ wpt ∅ io (exec cb c) [] (doneon c f σk) (failon c f σk) σp.
  Lemma ready_ready2 c f io σ : ready c f io σ → ready2 c f io σ ∅.
  Proof.
    intros [H1 H2]. split; [done|]. eapply wpt_mono; [done| | |exact H2].
    - intros r cbs σ' H _. by rewrite right_id_L.
    - intros r cbs σ' H _. by rewrite right_id_L.
  Qed.
  Lemma forget_inuse t f lv : inuse t f lv → inuse t (forget f lv) lv.
  Proof. done. Qed.
  Lemma start_Prune t f lv σ : inuse t f lv → (2 ≤ mnof f)%nat → body f σ →
    ∃ σp σk, σ = σp ∪ σk ∧ σp ##ₘ σk ∧ snapsat σk (forget f lv) ∧ ready2 (Prune t) (forget f lv) true σp σk.
  Proof using WF.
    intros Hu Hmn HB. rewrite (inuse_body _ _ _ Hu) in HB.
    destruct HB as (σt & σj & -> & Hd & (ca & root & S & h & g & HX) & HJ). apply holds_affine in HX as [(Ht & Hi & Hc) HX].
    destruct HX as (σ1 & σ2 & -> & Hd2 & HR & HW). apply map_disjoint_union_l in Hd as [Hd1j Hd2j].
    assert (σ1 ##ₘ σ2 ∪ σj) as Hd1 by by apply map_disjoint_union_r_2.
    exists σ1, (σ2 ∪ σj). split; [by rewrite map_union_assoc|]. split; [done|]. split.
    { intros l its Hlk. cbn in Hlk. apply current_look in Hlk as [Hcl ->]. rewrite Hcl in Hc. rewrite -Hi.
      change (mnof (forget f lv)) with (mnof f). eapply whole_stored; [exact Ht|exact Hc|]. by exists σ2, σj. }
    split; [by intros _ []|].
    assert (wp true (exec cb (Prune t)) (λ r, <affine> ⌜r = RUnit⌝ ∗ isTR (mnof f) t ca root [])%I (λ e, <affine> ⌜e = EIO⌝ ∗ True)%I σ1) as Hwp.
    { revert HR. apply entails_holds. iIntros "A". iApply wp_bind. iApply (prune_spec with "A"); [exact Hmn|]. iSplit.
      - iIntros "A". iApply wp_ret. by iFrame.
      - iIntros (S' HS) "_ _". by iSplit. }
    pose proof (forget_inuse _ _ _ Hu) as Hu'. eapply wpt_mono; [done| | |apply (wp_wpt _ _ [] _ _ _ Hwp)].
    - intros r cbs σ' (HX & cs & -> & _) Hdk. apply holds_affine in HX as [-> HX]. split; [done|].
      cbn [next_done]. rewrite (inuse_upd _ _ _ _ Hu'). eexists. split_and!; [done|done|].
      change (World.body cb dom domV (forget (forget f lv) lv)) with (body f).
      rewrite (inuse_body _ _ _ Hu). apply map_disjoint_union_r in Hdk as [Hdk1 Hdk2].
      exists (σ' ∪ σ2), σj. rewrite map_union_assoc. split_and!; [done|by apply map_disjoint_union_l_2| |done].
      assert ((isTR (mnof f) t ca root [] ∗ whole (mnof f) t ca h g)%I (σ' ∪ σ2)) as HY by by exists σ', σ2.
      revert HY. apply entails_holds. by apply treeres_intro.
    - intros e cbs σ' (HX & cs & -> & _ & Hca) Hdk. apply holds_affine in HX as [-> HX].
      split; [split_and!; [done|by apply Hca|by intros []]|]. cbn [next_failed]. rewrite (inuse_upd _ _ _ _ Hu').
      eexists. split_and!; [done|done|]. done.
  Qed.

  (** *** Discard *)
  Lemma start_Discard t f lv σ : inuse t f lv → (2 ≤ mnof f)%nat → body f σ → ready (Discard t) (forget_all f lv) true σ.
  Proof using WF.
    intros Hu Hmn HB. split; [by intros _ []|]. rewrite (inuse_body _ _ _ Hu) in HB.
    pose (k := λ _ : unit, bind (pruneWhileLocked (K:=K) (V:=V) t) (λ _, modT t (λ T, Tree (t_min T) (t_max T) None [] false))).
    destruct HB as (σt & σj & -> & Hd & (ca & root & S & h & g & HX) & HJ). apply holds_affine in HX as [(Ht & Hi & Hc) HX].
    pose (J := junk (K:=K) (V:=V) (fm_rest f)).
    assert (wp true (with_fuel (λ fuel, bind (rootOf t) (λ rt, discardNode cb fuel t rt)))
      (λ u, wp true (bind (k u) (λ _, ret (RUnit (K:=K) (V:=V)))) (λ r, <affine> ⌜r = (RUnit (K:=K) (V:=V))⌝ ∗ J) (λ e, <affine> ⌜e = EIO⌝ ∗ True))%I
      (λ e, <affine> ⌜e = EIO⌝ ∗ wp true (bind (k tt) (λ _, ret (RUnit (K:=K) (V:=V)))) (λ r, <affine> ⌜r = (RUnit (K:=K) (V:=V))⌝ ∗ True) (λ e, <affine> ⌜e = EIO⌝ ∗ True))%I (σt ∪ σj)) as Hwp.
    { assert ((isTR (mnof f) t ca root S ∗ whole (mnof f) t ca h g ∗ J)%I (σt ∪ σj)) as HY.
      { destruct HX as (τ1 & τ2 & -> & Hτ & A & B). rewrite -map_union_assoc. apply map_disjoint_union_l in Hd as [Hd1 Hd2].
        exists τ1, (τ2 ∪ σj). split_and!; [done|by apply map_disjoint_union_r_2|done|]. by exists τ2, σj. }
      revert HY. apply entails_holds. iIntros "(HT & Hw & HJ)".
      iApply (start_rep cb dom domV WF (mnof f) Hmn t ca true (λ fuel rt, discardNode cb fuel t rt) with "HT Hw"); [done|].
      iIntros (fuel [Hf _]) "Hp HH". rewrite (discard_spec cb dom domV WF (mnof f) Hmn t ca fuel); [|lia|by eapply sub_tree].
      iApply (wp_wand with "HH"). iSplit.
      - iIntros ([]) "(%S' & %HS & HT)". iApply wp_bind. iApply wp_bind. iApply (prune_spec with "HT"); [exact Hmn|]. iSplit.
        + iIntros "[HR _]". iApply (wp_modT with "HR"). iIntros "HR". iApply wp_ret. iSplitR; [done|]. iFrame.
        + iIntros (S1 HS1) "_ HS". by iSplitR.
      - iIntros (e) "(%He & (%S' & %HS & HT) & HX)". iSplitR; [done|]. iApply wp_bind. iApply wp_bind. iApply (prune_spec with "HT"); [exact Hmn|]. iSplit.
        + iIntros "[HR _]". iApply (wp_modT with "HR"). iIntros "HR". iApply wp_ret. by iSplitR.
        + iIntros (S1 HS1) "_ HS". by iSplitR. }
    assert (inuse t (forget_all f lv) lv) as Hu' by done.
    assert (∀ cs e (σ' : heap), true ∈ cs → e = EIO → failpost (Discard t) (forget_all f lv) e cs σ') as Hfail.
    { intros cs e σ' Hcs ->. split; [split_and!; [done|done|by intros []]|]. cbn [next_failed]. rewrite (inuse_upd _ _ _ _ Hu').
      eexists. split_and!; [done|done|]. done. }
    assert (∀ cs (σ' : heap), (existsb id cs = false → J σ') → donepost (Discard t) (forget_all f lv) RUnit cs σ') as Hdone.
    { intros cs σ' HJ'. split; [done|]. cbn [next_done]. rewrite (inuse_upd _ _ _ _ Hu'). destruct (existsb id cs).
      - eexists. split_and!; [done|done|]. done.
      - eexists. split_and!; [done|done|]. by apply HJ'. }
    apply (wp_wpt _ _ []) in Hwp. cbn [exec]. rewrite wpt_bind. unfold bt_Discard. unfold with_fuel in Hwp |- *. rewrite wpt_bind in Hwp. rewrite wpt_bind.
    eapply wpt_mono; [done| | |exact Hwp].
    2:{ intros e cbs σ' (HE & cs & -> & _ & Hcs). apply holds_affine in HE as [-> _]. apply Hfail; [by apply Hcs|done]. }
    cbv beta. intros fuel cbs1 σ1 H1. rewrite wpt_bind in H1. rewrite wpt_bind. eapply wpt_mono; [done| | |exact H1].
    2:{ intros e cbs σ' (HE & cs & -> & _ & Hcs). apply holds_affine in HE as [-> _]. apply Hfail; [by apply Hcs|done]. }
    cbv beta. intros rt cbs2 σ2 H2. rewrite wpt_bind. unfold ignoreErr. rewrite wpt_try. eapply wpt_mono; [done| | |exact H2].
    - intros u cbs3 σ3 (H3 & cs & -> & _). rewrite app_nil_l. apply (wp_wpt _ _ cs) in H3. rewrite wpt_bind in H3. unfold k in H3. rewrite wpt_bind in H3. rewrite wpt_bind.
      eapply wpt_mono; [done| | |exact H3].
      + intros a cbs4 σ4 H4. eapply wpt_mono; [done| | |exact H4].
        * intros b cbs5 σ5 H5. eapply wpt_mono; [done| | |exact H5].
          -- intros r cbs6 σ6 (H6 & cs6 & -> & _). apply holds_affine in H6 as [-> H6]. by apply Hdone.
          -- intros e cbs6 σ6 (H6 & cs6 & -> & _ & Hcs). apply holds_affine in H6 as [-> H6]. apply Hfail; [|done].
             apply elem_of_app. right. by apply Hcs.
        * intros e cbs6 σ6 (H6 & cs6 & -> & _ & Hcs). apply holds_affine in H6 as [-> H6]. apply Hfail; [|done].
          apply elem_of_app. right. by apply Hcs.
      + intros e cbs6 σ6 (H6 & cs6 & -> & _ & Hcs). apply holds_affine in H6 as [-> H6]. apply Hfail; [|done].
        apply elem_of_app. right. by apply Hcs.
    - intros e cbs3 σ3 (H3 & cs & -> & _ & Hcs). rewrite app_nil_l. apply holds_affine in H3 as [-> H3]. specialize (Hcs eq_refl).
      apply wpt_ret. apply (wp_wpt _ _ cs) in H3. rewrite wpt_bind in H3. unfold k in H3. rewrite wpt_bind in H3. rewrite wpt_bind.
      assert (∀ cs6, true ∈ cs ++ cs6) as Hin by (intros cs6; apply elem_of_app; by left).
      eapply wpt_mono; [done| | |exact H3].
      + intros a cbs4 σ4 H4. eapply wpt_mono; [done| | |exact H4].
        * intros b cbs5 σ5 H5. eapply wpt_mono; [done| | |exact H5].
          -- intros r cbs6 σ6 (H6 & cs6 & -> & _). apply holds_affine in H6 as [-> H6]. apply Hdone. intros Hex. exfalso.
             apply Is_true_false in Hex. apply Hex, existb_True, Exists_exists. by exists true.
          -- intros e cbs6 σ6 (H6 & cs6 & -> & _ & _). apply holds_affine in H6 as [-> H6]. by apply Hfail.
        * intros e cbs6 σ6 (H6 & cs6 & -> & _ & _). apply holds_affine in H6 as [-> H6]. by apply Hfail.
      + intros e cbs6 σ6 (H6 & cs6 & -> & _ & _). apply holds_affine in H6 as [-> H6]. by apply Hfail.
  Qed.

  (** *** OldBPlusTree *)
  Lemma start_OldTree l attach f σ : fm_live f = None → has_snap l f → 2 ≤ fm_min f → body f σ → snapsat σ f →
    ready (OldTree l attach) f true σ.
  Proof using WF.
    intros Hl [its Hits] Hmin HB HS. split; [by intros _ []|].
    assert (fam_at (solo f) l = Some (0%nat, f)) as Hat.
    { unfold fam_at, solo; cbn. rewrite decide_True //. by exists its. }
    assert ((∃ h d, <affine> ⌜dloc d = l ∧ items (dstrip d) = its ∧ good cmp dom domV (toks (dstrip d)) ∧ wfo (mnof f) (rlow h) h (dstrip d)⌝ ∗
      (dsk cb h (Some (2 * Z.of_nat (mnof f))) d ∗ junk (loosen (fm_rest f))))%I σ) as HX.
    { destruct (HS l its Hits) as (h & d & H1 & H2 & H3 & H4 & H5).
      unfold World.body in HB. rewrite Hl in HB.
      assert (junk (loosen (fm_rest f)) σ) as HN. { revert HB. apply entails_holds. unfold junk. destruct (fm_rest f); [apply emp_notags|done..]. }
      exists h, d. destruct H5 as (σ1 & σ2 & -> & Hd & H5 & _).
      assert ((dsk cb h (Some (2 * Z.of_nat (mnof f))) d ∗ junk (loosen (fm_rest f)))%I (σ1 ∪ σ2)) as HX.
      { exists σ1, σ2. split_and!; [done|done|done|]. eapply junk_sub; [|exact HN]. by apply map_union_subseteq_r. }
      revert HX. apply entails_holds. by iIntros "$". }
    assert (wp true (exec cb (OldTree l attach)) (λ r, ∃ t, <affine> ⌜r = RTree t⌝ ∗ (treeres (mnof f) t its (Stored l) ∗ junk (loosen (fm_rest f))))%I (λ e, <affine> ⌜e = EIO⌝ ∗ junk (loosen (fm_rest f)))%I σ) as Hwp.
    { revert HX. apply entails_holds. iIntros "(%h & %d & %HY & A & B)". destruct HY as (<- & H2 & H3 & H4). iApply wp_bind.
      iPoseProof (bt_Old_spec cb dom domV WF (mnof f) attach h d H3 H4 with "A") as "W".
      iApply (wp_wand with "W"). iSplit.
      - iIntros (t) "(%root & %g & %HY & A & C)". destruct HY as [Ht Hv]. iApply wp_ret. iExists t. iSplitR; [done|]. iFrame "B".
        iApply (treeres_intro with "[$A $C]"); [done| |].
        + by rewrite -strip_vw Hv.
        + cbn. by rewrite -vloc_vw Hv.
      - iIntros (e) "[$ A]". iApply junk_sep. iFrame "B". by iApply dsk_fp. }
    eapply wpt_mono; [done| | |apply (wp_wpt _ _ [] _ _ _ Hwp)].
    - intros r cbs σ' ((t & HY) & cs & -> & _). apply holds_affine in HY as [-> HY]. split.
      + intros _. exists t. split; [done|]. unfold fam_of, solo; cbn. destruct (decide (has_tree t f)) as [Hh|]; [|done]. unfold has_tree in Hh. by rewrite Hl in Hh.
      + cbn [next_done]. rewrite Hat Hits. eexists. split_and!; [done|done|]. done.
    - intros e cbs σ' (HY & cs & -> & _ & Hcs). apply holds_affine in HY as [-> HY]. split; [split_and!; [done|by apply Hcs|by intros []]|].
      eexists. split_and!; [done|done|]. unfold World.body. rewrite Hl. by rewrite -(closed_inexact cb dom domV f l its σ (conj HB HS) Hl Hits).
  Qed.

  (** *** NewBPlusTree *)
  Definition newfam (max : Z) (t : tid) : family := Family (max / 2) (Some (Live t [] Modified false)) ∅ Exact.
  Lemma start_NewTree max attach : 4 ≤ max → Z.even max = true →
    wpt ∅ false (exec cb (NewTree max attach)) [] (λ r cbs σ', cbs = [] ∧ ∃ t, r = RTree t ∧ body (newfam max t) σ') (λ _ _ _, False) ∅.
  Proof using WF.
    intros H4 Hev. pose (mn := Z.to_nat (max / 2)).
    assert (max = 2 * Z.of_nat mn) as Hmax.
    { apply Z.even_spec in Hev as [q ->]. unfold mn. rewrite Z.mul_comm Z.div_mul //. lia. }
    assert (2 ≤ mn)%nat as Hmn by lia.
    assert (wp false (exec cb (NewTree max attach)) (λ r, ∃ t, <affine> ⌜r = RTree t⌝ ∗ treeres mn t [] Modified)%I (λ _, False)%I ∅) as Hwp.
    { assert ((emp : hProp)%I ∅) as H0 by apply alldrop_empty. revert H0. apply entails_holds. cbn [exec]. rewrite {1}Hmax.
      iIntros "_". iApply wp_bind. iPoseProof (bt_New_spec cb dom mn Hmn false attach) as "W". iApply (wp_wand with "W"). iSplit; [|by iIntros (e) "?"].
      iIntros (t) "(%rt & A & B)". iApply wp_ret. iExists t. iSplitR; [done|]. iApply (treeres_intro with "[$A $B]"); [|done|done]. by apply new_treeok. }
    eapply wpt_mono; [done| | |apply (wp_wpt _ _ [] _ _ _ Hwp)].
    - intros r cbs σ' ((t & HY) & cs & -> & Hcs). apply holds_affine in HY as [-> HY]. split; [by apply Hcs|]. exists t. split; [done|].
      unfold World.body, mnof; cbn. revert HY. apply entails_holds. iIntros "$".
    - by intros e cbs σ' [[] _].
  Qed.

  (** *** The drainer *)
  (** a node that is not (or no longer) on the list of clean nodes is left alone *)
  Lemma start_skip G σ n x r : (σ ∪ G) !! KT n = Some (RT x) → (σ ∪ G) !! KN n = Some (RN r) → x ≠ cleanLRU → σ ##ₘ G →
    wpt G false (exec cb (DrainEvict n)) [] (λ r cbs σ', r = RUnit ∧ cbs = [] ∧ σ' = σ) (λ _ _ _, False) σ.
  Proof.
    intros HT HN Hx HdG.
    assert (∀ σf s, G ⊆ σf → σ ##ₘ σf → views s (σ ∪ σf) → ∀ k v, (σ ∪ G) !! k = Some v → viewf s k = Some v) as Hv.
    { intros σf s HG Hd Hv k v Hk. rewrite Hv. apply lookup_union_Some_raw in Hk as [Hk|[Hn Hk]]; [by apply lookup_union_Some_l|].
      apply lookup_union_Some_r; [done|]. by eapply lookup_weaken. }
    assert (∀ s : st, made s s = []) as Hm by (intros s; unfold made; by rewrite Nat.sub_diag).
    cbn [exec]. rewrite wpt_bind. unfold drainerEvict. apply wpt_fuel. intros fuel. rewrite wpt_bind.
    intros σf s Hd HG Hvw HI. pose proof (Hv _ _ HG Hd Hvw _ _ HT) as HT'. cbn in HT'. unfold getC. destruct (cells s !! n) as [c|] eqn:Hc; [|done].
    split; [by split_and!|]. exists σ. split_and!; [done..|]. rewrite Hm app_nil_l. cbn in HT'. assert (ctg c ≠ cleanLRU) as Hcl by congruence. clear HT' HI Hvw HG Hd Hc s σf.
    rewrite wpt_bind.
    intros σf s Hd HG Hvw HI. pose proof (Hv _ _ HG Hd Hvw _ _ HN) as HN'. cbn in HN'. destruct (nodes s !! n) as [r0|] eqn:Hn; [|done].
    split; [by split_and!|]. exists σ. split_and!; [done..|]. rewrite Hm app_nil_l. rewrite decide_False //. apply wpt_ret. by apply wpt_ret.
  Qed.
  Lemma start_evict n t f lv σ : inuse t f lv → fm_rest f ≠ Lost → (2 ≤ mnof f)%nat → body f σ →
    (∃ x r, σ !! KT n = Some (RT x) ∧ σ !! KN n = Some (RN r)) → ready (DrainEvict n) f false σ.
  Proof using WF.
    intros Hu Hnl Hmn HB (x & r & HT & HN). split; [done|]. pose proof Hu as (Hl & Htr & Hbr).
    destruct (decide (x = cleanLRU)) as [->|Hx]; last first.
    { eapply wpt_mono; [done| | |eapply (start_skip ∅ σ n x r)].
      - intros r' cbs σ' (-> & -> & ->). split; [done|]. exists f. done.
      - done.
      - by rewrite right_id_L.
      - by rewrite right_id_L.
      - done.
      - apply map_disjoint_empty_r. }
    rewrite (inuse_body _ _ _ Hu) in HB. destruct HB as (σt & σj & -> & Hdt & HT' & HJ).
    apply lookup_union_Some in HT; [|done]. destruct HT as [HT|HT]; last first.
    { exfalso. unfold junk in HJ. destruct (fm_rest f); [by apply HJ in HT|by specialize (HJ _ _ HT)|done]. }
    destruct HT' as (ca & root & S & h & g & HX). apply holds_affine in HX as [(Ht & Hits & Hcd) HX].
    assert (ca = true ∧ n ∈ loaded cleanLRU g) as [-> Hld].
    { apply (entails_holds _ _ _ (tree_fp cb dom domV (mnof f) t ca root S h g Ht)) in HX.
      destruct HX as (τ1 & τ2 & -> & Hτ & H1 & (τ3 & τ4 & -> & Hτ' & H2 & H3)). apply lookup_union_Some in HT as [Hk1|Hk1]; [exfalso| |done].
      { apply (entails_holds _ _ _ (stales_notags _)) in H1. by apply H1 in Hk1. }
      unfold tags in H2, H3. destruct ca; [split; [done|]|].
      - apply lookup_union_Some in Hk1 as [Hk1|Hk1]; [|exfalso|done].
        + destruct (big_look _ _ _ H2 _ _ Hk1) as (m & τ & Hm' & Ho & Hk'); [done|]. by destruct (own_look _ _ _ _ _ Ho Hk') as [[= ->] _].
        + destruct (big_look _ _ _ H3 _ _ Hk1) as (m & τ & Hm' & Ho & Hk'); [done|]. by destruct (own_look _ _ _ _ _ Ho Hk') as [_ [=]].
      - exfalso. apply lookup_union_Some in Hk1 as [Hk1|Hk1]; [by apply H2 in Hk1|by apply H3 in Hk1|done]. }
    assert (wp false (exec cb (DrainEvict n)) (λ r, <affine> ⌜r = RUnit⌝ ∗ (treeres (mnof f) t (lv_items lv) (lv_cond lv) ∗ junk (fm_rest f)))%I (λ _, False)%I (σt ∪ σj)) as Hwp.
    { assert (((isTR (mnof f) t true root S ∗ whole (mnof f) t true h g) ∗ junk (fm_rest f))%I (σt ∪ σj)) as HY by by exists σt, σj.
      revert HY. apply entails_holds. iIntros "[AB J]". iApply wp_bind.
      iPoseProof (drainerEvict_spec cb dom domV WF (mnof f) Hmn t true n root S h g Ht Hld eq_refl with "AB") as "W".
      iApply (wp_wand with "W"). iSplit; [|by iIntros (e) "?"]. iIntros (_) "(%g' & %HX' & A & B)". iApply wp_ret. iSplitR; [done|]. iFrame "J".
      destruct HX' as (Ht' & Hvw & _). iApply (treeres_intro with "[$A $B]"); [done|by rewrite (vw_strip _ _ Hvw)|by eapply condok_vw]. }
    eapply wpt_mono; [done| | |apply (wp_wpt _ _ [] _ _ _ Hwp)].
    - intros r' cbs σ' (HY & cs & -> & Hcs). apply holds_affine in HY as [-> HY]. rewrite (Hcs eq_refl). split; [done|].
      exists f. split_and!; [done|done|]. by rewrite (inuse_body _ _ _ Hu).
    - by intros e cbs σ' [[] _].
  Qed.
End calls.

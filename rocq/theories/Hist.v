(** * Every legal history goes right

    The step lemmas: each call, in any state a legal history leads to, returns
    what the specification of Machine.v says, never panics, and leads to such
    a state again; and so does dying at any callback.

    No new code is modelled here. *)
From Coq Require Import ssreflect.
From stdpp Require Import prelude list gmap.
From iris.proofmode Require Import proofmode.
From Verif Require Import Spec SpecFacts BTree HProp Lru Wp Kv Codec Ghost Order PsTree Rep Load Search Update Plug Insert Borrow Merge Rebal Api Walk Touch Maint Report Open Dumps Blame Pres Machine Client World Disk.
Open Scope Z_scope.

Section hist.
  Context {K V : Type}.
  Variable cb : callbacks K V.
  Variable dom : K → Prop.
  Variable domV : V → Prop.
  Hypothesis WF : wf_cb cb dom domV.
  Notation cmp := (cb_cmp cb).
  Notation hProp := (hProp K V).
  Notation heap := (gmap rkey (rval K V)).
  Notation st := (st K V).
  Notation M := (M K V).
  Notation family := (family K V).
  Notation world := (world K V).
  Notation live := (live K V).
  Notation treeok := (treeok cb dom domV).
  Notation treeres := (treeres cb dom domV).
  Notation famres := (famres cb dom domV).
  Notation winv := (winv cb dom domV).
  Notation stored_at := (stored_at cb dom domV).
  Notation snapsat := (snapsat cb dom domV).
  Notation body := (body cb dom domV).
  Notation whole := (whole cb dom).
  Implicit Types (σ : heap) (P Q : hProp) (f : family) (w : world) (s : st) (lv : live) (X : loc → Prop).

  Lemma entails_holds P Q σ : (P ⊢ Q) → P σ → Q σ.
  Proof. intros [H]. apply H. Qed.

  (** *** The tree in use *)
  Lemma condok_vw x (g g' : gt K V) : vw g' = vw g → condok x g → condok x g'.
  Proof. intros Hv. assert (gloc g' = gloc g) as Hl by by rewrite -!vloc_vw Hv. destruct x; cbn; congruence. Qed.
  Lemma treeres_intro mn t ca root S h (g : gt K V) its x : treeok mn root h g → items (strip g) = its → condok x g →
    isTR mn t ca root S ∗ whole mn t ca h g ⊢ treeres mn t its x.
  Proof. intros. iIntros "[A B]". iExists ca, root, S, h, g. by iFrame. Qed.
  Lemma treeres_stored mn t its l σ : treeres mn t its (Stored l) σ → stored_at σ mn l its.
  Proof.
    intros H. assert ((∃ h d, <affine> ⌜dloc d = l ∧ items (dstrip d) = its ∧ good cmp dom domV (toks (dstrip d)) ∧ wfo mn (rlow h) h (dstrip d)⌝ ∗
      dsk cb h (Some (2 * Z.of_nat mn)) d ∗ True)%I σ) as H'.
    { revert H. apply entails_holds. iIntros "(%ca & %root & %S & %h & %g & %HX & A & B)". destruct HX as (Ht & Hi & Hc).
      cbn in Hc. destruct (gloc_vw g l Hc) as (d & Hv & Hl). iExists h, d.
      assert (strip g = dstrip d) as Hs by by rewrite -strip_vw Hv.
      iSplitR.
      { iPureIntro. rewrite -Hs. split_and!; [done|done|apply Ht|apply Ht]. }
      iDestruct "B" as "[_ B]". iDestruct (rep_dsk _ _ _ _ _ g h None true _ d Hv with "B") as "[B _]". by iFrame. }
    destruct H' as (h & d & H'). exists h, d.
    apply (entails_holds _ (⌜dloc d = l ∧ items (dstrip d) = its ∧ good cmp dom domV (toks (dstrip d)) ∧ wfo mn (rlow h) h (dstrip d)⌝)%I) in H' as HP.
    - destruct HP as (H1 & H2 & H3 & H4). split_and!; try done. revert H'. apply entails_holds. by iIntros "[_ A]".
    - by iIntros "[$ _]".
  Qed.

  (** *** A call on one tree that keeps all stored blocks *)
  Definition none : loc → Prop := λ _, False.
  Lemma set_fam_same w i f : w_fams w !! i = Some f → set_fam i f w = w.
  Proof. intros H. destruct w. unfold set_fam; cbn in *. by rewrite list_insert_id. Qed.
  Lemma famres_body f : famres f ⊢ body f.
  Proof. constructor. by intros σ [H _]. Qed.

  Record ontree w t i f lv : Prop := OnTree {
    ot_fam : fam_of w t = Some (i, f);
    ot_live : fm_live f = Some lv;
    ot_ok : lv_broken lv = false }.
  Lemma ot_at w t i f lv : ontree w t i f lv → w_fams w !! i = Some f ∧ lv_tree lv = t.
  Proof.
    intros [H1 H2 _]. apply list_find_Some in H1 as (? & H1 & _). split; [done|]. unfold has_tree in H1. by rewrite H2 in H1.
  Qed.
  Lemma ot_usable w t f lv : usable w t f lv → ∃ i, ontree w t i f lv.
  Proof. intros (i & ? & ? & ?). by exists i. Qed.
  Lemma ot_upd w t i f lv F : ontree w t i f lv → upd w t F = set_fam i (F f lv) w.
  Proof. intros [H1 H2 _]. unfold upd. by rewrite H1 H2. Qed.
  Lemma ot_set w t i f lv f' lv' : ontree w t i f lv → fm_live f' = Some lv' → lv_tree lv' = t → lv_broken lv' = false →
    ontree (set_fam i f' w) t i f' lv'.
  Proof.
    intros [H _ _] Hl Ht Hb. split; [|done..]. apply (set_own _ _ f); [done|]. by rewrite (has_live _ _ lv').
  Qed.
  Lemma ot_uniq w t i f lv f' lv' : ontree w t i f lv → usable w t f' lv' → f' = f ∧ lv' = lv.
  Proof. intros [H1 H2 _] (i' & H1' & H2' & _). rewrite H1 in H1'. injection H1' as <- <-. rewrite H2 in H2'. by injection H2' as <-. Qed.
  Lemma ot_body w t i f lv : ontree w t i f lv → body f = (treeres (mnof f) t (lv_items lv) (lv_cond lv) ∗ junk (fm_rest f))%I.
  Proof. intros H. destruct (ot_at _ _ _ _ _ H) as [_ Ht]. destruct H as [_ H2 H3]. unfold body. by rewrite H2 H3 Ht. Qed.
  Lemma ot_mn w s t i f lv : ontree w t i f lv → winv w s → (2 ≤ mnof f)%nat ∧ fm_min f = Z.of_nat (mnof f).
  Proof.
    intros H HW. destruct (ot_at _ _ _ _ _ H) as [Hi _]. pose proof (wi_min _ _ _ _ _ HW) as Hm.
    rewrite Forall_lookup in Hm. specialize (Hm _ _ Hi). unfold mnof. cbn in Hm. lia.
  Qed.
  Lemma ot_dom w s t i f lv : ontree w t i f lv → winv w s → t ∈ base.dom (trees s).
  Proof.
    intros H HW. destruct (ot_at _ _ _ _ _ H) as [Hi <-]. eapply wi_handle; [exact HW|by eapply elem_of_list_lookup_2|]. by destruct H.
  Qed.

  (** what a call leaves behind *)
  Record tout := TOut { to_items : list (K * V); to_cond : cond; to_snaps : gmap loc (list (K * V)); to_brk : bool }.
  Definition outfam f lv (o : tout) : family :=
    Family (fm_min f) (Some (Live (lv_tree lv) (to_items o) (to_cond o) (to_brk o))) (to_snaps o) (fm_rest f).
  Definition outres (mn : nat) t (o : tout) : hProp := (if to_brk o then True else treeres mn t (to_items o) (to_cond o))%I.
  Definition snapok f (o : tout) : Prop := ∀ l its, to_snaps o !! l = Some its →
    fm_snaps f !! l = Some its ∨ (to_brk o = false ∧ to_cond o = Stored l ∧ to_items o = its).
  Definition tree_post {A} io w s i f lv (φ : A → Prop) (oq : A → tout) (ψ : err → Prop) (oe : tout) (o : out K V A) : Prop :=
    match o with
    | ORet a s' => quiet io s s' ∧ φ a ∧ winv (set_fam i (outfam f lv (oq a)) w) s'
    | OErr e s' => quiet io s s' ∧ cause s s' e ∧ ψ e ∧ winv (set_fam i (outfam f lv oe) w) s'
    | OStop Crash s' => io = true ∧ ∀ lo hi, winv (restart w) (reboot lo hi s')
    | OStop Env _ => io = true
    | OStop _ _ => False
    end.
  Lemma junk_any b : junk b ⊢@{hPropI K V} True.
  Proof. by iIntros. Qed.
  Lemma holds_affine (φ : Prop) P σ : (<affine> ⌜φ⌝ ∗ P)%I σ → φ ∧ P σ.
  Proof.
    intros H. split.
    - assert ((⌜φ⌝ : hProp)%I σ) as HX by (revert H; apply entails_holds; by iIntros "[% _]"). exact HX.
    - revert H. apply entails_holds. by iIntros "[_ $]".
  Qed.
  Lemma out_famres f lv o σ σ' t : fm_live f = Some lv → lv_tree lv = t → famres f σ → dle none σ σ' → snapok f o →
    (outres (mnof f) t o ∗ junk (fm_rest f))%I σ' → famres (outfam f lv o) σ'.
  Proof.
    intros Hl Ht [_ HS] Hle Hsn HX. split.
    - unfold body; cbn. unfold outres in HX. destruct (to_brk o); [done|]. by rewrite Ht.
    - intros l its Hlk. cbn in Hlk. destruct (Hsn l its Hlk) as [Ho|(Hb & Hc & Hi)].
      + eapply stored_le; [apply HS; exact Ho|exact Hle].
      + unfold outres in HX. rewrite Hb in HX.
        assert ((treeres (mnof f) t (to_items o) (to_cond o) ∗ True)%I σ') as HX'.
        { revert HX. apply entails_holds. by iIntros "[$ _]". }
        destruct HX' as (σ1 & σ2 & -> & Hd & HX' & _). rewrite Hc Hi in HX'. apply treeres_stored in HX'.
        eapply stored_le; [exact HX'|]. intros k b Hk _. by apply lookup_union_Some_l.
  Qed.
  Lemma tree_step {A} io w s t i f lv (m : M A) (φ : A → Prop) oq (ψ : err → Prop) oe : winv w s → ontree w t i f lv →
    (∀ ca root S h g, (2 ≤ mnof f)%nat → treeok (mnof f) root h g → items (strip g) = lv_items lv → condok (lv_cond lv) g →
       isTR (mnof f) t ca root S ∗ whole (mnof f) t ca h g ⊢
       wp io m (λ a, <affine> ⌜φ a⌝ ∗ outres (mnof f) t (oq a)) (λ e, <affine> ⌜ψ e⌝ ∗ outres (mnof f) t oe)) →
    (∀ X, grows X m) → (∀ a, φ a → snapok f (oq a)) → snapok f oe →
    tree_post io w s i f lv φ oq ψ oe (m s).
  Proof.
    intros HW Hon Hwp Hg Hs1 Hs2. destruct (ot_at _ _ _ _ _ Hon) as [Hi Ht]. destruct (ot_mn _ _ _ _ _ _ Hon HW) as [Hmn _].
    pose proof (ot_dom _ _ _ _ _ _ Hon HW) as Hdom. pose proof (ot_body _ _ _ _ _ Hon) as HB. destruct Hon as [_ Hl _].
    assert (famres f ⊢ wp io m (λ a, <affine> ⌜φ a⌝ ∗ (outres (mnof f) t (oq a) ∗ junk (fm_rest f)))
      (λ e, <affine> ⌜ψ e⌝ ∗ (outres (mnof f) t oe ∗ junk (fm_rest f)))) as Hwp'.
    { rewrite famres_body HB. iIntros "[(%ca & %root & %S & %h & %g & %HX & A & B) J]". destruct HX as (H1 & H2 & H3).
      iPoseProof (Hwp ca root S h g Hmn H1 H2 H3 with "[$A $B]") as "W".
      iApply (wp_wand with "W"). iSplit.
      - iIntros (a) "(%Ha & R)". by iFrame.
      - iIntros (e) "(%He & R)". by iFrame. }
    pose proof (step_gen cb dom domV io w s i f m none _ _ HW Hi Hwp' (Hg none s)) as HP.
    pose proof (g_trees _ _ _ (Hg none s) t Hdom) as Hdom'. unfold step_post in HP. unfold tree_post.
    destruct (m s) as [a s'|e s'|[] s']; cbn in Hdom'; try done.
    - destruct HP as (Hq & [σ0 HQ] & HF). apply holds_affine in HQ as [Ha _]. split_and!; [done|done|].
      apply HF; [done|]. intros σ σ' H1 _ _ Hle HQ. apply holds_affine in HQ as [_ HQ]. split.
      + by eapply out_famres; [..|apply Hs1|].
      + intros lv' [= <-]. by rewrite /= Ht.
    - destruct HP as (Hq & Hc & [σ0 HQ] & HF). apply holds_affine in HQ as [Ha _]. split_and!; [done|done|done|].
      apply HF; [done|]. intros σ σ' H1 _ _ Hle HQ. apply holds_affine in HQ as [_ HQ]. split.
      + by eapply out_famres.
      + intros lv' [= <-]. by rewrite /= Ht.
    - destruct HP as (Hio & HF). split; [done|]. intros lo hi. rewrite -{1}(set_fam_same w i f); [|done]. apply HF; [done|].
      intros σ σ' [_ H] _ Hle. by eapply snaps_le.
  Qed.

  (** *** The calls on a tree *)
  Definition cmd_post w s (c : cmd K V) (o : out K V (result K V)) : Prop :=
    match o with
    | ORet r s' => right_result cmp w c r (made s s') ∧ winv (next_done cmp w c r (made s s')) s'
    | OErr e s' => right_error w c e (made s s') ∧ winv (next_failed w c) s'
    | OStop Crash s' => ¬ silent w c ∧ ∀ lo hi, winv (next cmp w (Died c)) (reboot lo hi s')
    | OStop Env _ => ¬ silent w c
    | OStop _ _ => False
    end.
  Lemma made_nil s s' : quiet false s s' → made s s' = [].
  Proof. intros (_ & _ & H). destruct (H eq_refl) as [H' _]. unfold made. by rewrite H' Nat.sub_diag. Qed.
  Lemma made_fail s s' : cause s s' EIO → true ∈ made s s'.
  Proof.
    intros H. destruct (H eq_refl) as (i & Hi & Hf). unfold made. apply elem_of_list_fmap. exists i. split; [done|].
    apply elem_of_seq. lia.
  Qed.
  Definition same_out f lv : tout := TOut (lv_items lv) (lv_cond lv) (fm_snaps f) false.
  Lemma out_same w t i f lv : ontree w t i f lv → set_fam i (outfam f lv (same_out f lv)) w = w.
  Proof.
    intros H. destruct (ot_at _ _ _ _ _ H) as [Hi _]. destruct H as [_ Hl Hb]. rewrite -{2}(set_fam_same w i f Hi). f_equal.
    unfold outfam, same_out; cbn. rewrite -Hb. destruct f, lv; cbn in *. by rewrite Hl.
  Qed.
  Lemma snapok_same f its x b : snapok f (TOut its x (fm_snaps f) b).
  Proof. intros l m H. by left. Qed.
  Lemma mk_out mn t ca root S h (g : gt K V) its x sn : treeok mn root h g → items (strip g) = its → condok x g →
    isTR mn t ca root S ∗ whole mn t ca h g ⊢ outres mn t (TOut its x sn false).
  Proof. intros. by apply treeres_intro. Qed.

  Local Ltac stops := try match goal with
    | H : false = true ∧ _ |- _ => by destruct H
    | H : true = true ∧ _ |- _ => destruct H as [_ H]; split; [by intros []|exact H]
    | |- ¬ silent _ _ => by intros []
    end.
  Lemma step_FetchLocation w s t : winv w s → legal dom domV w (FetchLocation t) → cmd_post w s (FetchLocation t) (exec cb (FetchLocation t) s).
  Proof using WF.
    intros HW (f & lv & Hu). destruct (ot_usable _ _ _ _ Hu) as [i Hon].
    unshelve epose proof (tree_step false w s t i f lv (bt_FetchLocation t)
      (λ l : loc, match lv_cond lv with Stored l' => l = l' | Modified => l = noloc | Unsure => True end)
      (λ _, same_out f lv) (λ _, False) (same_out f lv) HW Hon _ _ _ _) as HT.
    { intros ca root S h g Hmn Ht Hits Hc. iIntros "[A B]". iApply (bt_FetchLocation_spec with "A B"); [done|].
      iIntros "A B". iSplitR.
      - iPureIntro. destruct (lv_cond lv); cbn in Hc; rewrite ?Hc; done.
      - by iApply (mk_out with "[$A $B]"). }
    { intros X. apply gr_bt_FetchLocation. }
    { intros. apply snapok_same. }
    { apply snapok_same. }
    unfold tree_post in HT. unfold exec, cmd_post, bind; cbn [run]. destruct (bt_FetchLocation t s) as [l s'|e s'|[] s']; try done; stops.
    - destruct HT as (Hq & Hr & HI). split.
      + intros f' lv' Hu'. destruct (ot_uniq _ _ _ _ _ _ _ Hon Hu') as [-> ->]. exists l. by rewrite (made_nil _ _ Hq).
      + by rewrite (out_same w t) in HI.
    - by destruct HT as (_ & _ & [] & _).
  Qed.

  Lemma step_LayoutReport w s t : winv w s → legal dom domV w (LayoutReport t) → cmd_post w s (LayoutReport t) (exec cb (LayoutReport t) s).
  Proof using WF.
    intros HW (f & lv & Hu). destruct (ot_usable _ _ _ _ Hu) as [i Hon].
    unshelve epose proof (tree_step true w s t i f lv (bt_FetchLayoutReport cb t)
      (λ _, True) (λ _, same_out f lv) (λ e, e = EIO) (same_out f lv) HW Hon _ _ _ _) as HT.
    { intros ca root S h g Hmn Ht Hits Hc. iIntros "AB". iPoseProof (bt_FetchLayoutReport_spec cb dom domV WF (mnof f) Hmn t ca root S h g Ht with "AB") as "W".
      iApply (wp_wand with "W"). iSplit.
      - iIntros (a) "(%Ha & %g' & %HX & A & B)". destruct HX as [Ht' Hv]. iSplitR; [iPureIntro; done|].
        iApply (mk_out with "[$A $B]"); [done|by rewrite (vw_strip _ _ Hv)|by eapply condok_vw].
      - iIntros (e) "(%He & %g' & %HX & A & B)". destruct HX as [Ht' Hv]. iSplitR; [done|].
        iApply (mk_out with "[$A $B]"); [done|by rewrite (vw_strip _ _ Hv)|by eapply condok_vw]. }
    { intros X. apply gr_bt_FetchLayoutReport. }
    { intros. apply snapok_same. }
    { apply snapok_same. }
    unfold tree_post in HT. unfold exec, cmd_post, bind; cbn [run]. destruct (bt_FetchLayoutReport cb t s) as [a s'|e s'|[] s']; try done; stops.
    - destruct HT as (Hq & Hr & HI). split.
      + by exists a.
      + by rewrite (out_same w t) in HI.
    - destruct HT as (Hq & Hca & He & HI). subst e. split; [split_and!; [done|by apply made_fail|by intros []]|]. by rewrite (out_same w t) in HI.
  Qed.

  Lemma step_Validate w s t : winv w s → legal dom domV w (Validate t) → cmd_post w s (Validate t) (exec cb (Validate t) s).
  Proof using WF.
    intros HW (f & lv & Hu). destruct (ot_usable _ _ _ _ Hu) as [i Hon].
    unshelve epose proof (tree_step true w s t i f lv (bt_Validate cb t)
      (λ ok : bool, ok = true) (λ _, same_out f lv) (λ e, e = EIO) (same_out f lv) HW Hon _ _ _ _) as HT.
    { intros ca root S h g Hmn Ht Hits Hc. iIntros "AB". iPoseProof (bt_Validate_spec cb dom domV WF (mnof f) Hmn t ca root S h g Ht with "AB") as "W".
      iApply (wp_wand with "W"). iSplit.
      - iIntros (a) "(%Ha & %g' & %HX & A & B)". destruct HX as [Ht' Hv]. iSplitR; [iPureIntro; done|].
        iApply (mk_out with "[$A $B]"); [done|by rewrite (vw_strip _ _ Hv)|by eapply condok_vw].
      - iIntros (e) "(%He & %g' & %HX & A & B)". destruct HX as [Ht' Hv]. iSplitR; [done|].
        iApply (mk_out with "[$A $B]"); [done|by rewrite (vw_strip _ _ Hv)|by eapply condok_vw]. }
    { intros X. apply gr_bt_Validate. }
    { intros. apply snapok_same. }
    { apply snapok_same. }
    unfold tree_post in HT. unfold exec, cmd_post, bind; cbn [run]. destruct (bt_Validate cb t s) as [a s'|e s'|[] s']; try done; stops.
    - destruct HT as (Hq & Hr & HI). split.
      + cbn. by rewrite Hr.
      + by rewrite (out_same w t) in HI.
    - destruct HT as (Hq & Hca & He & HI). subst e. split; [split_and!; [done|by apply made_fail|by intros []]|]. by rewrite (out_same w t) in HI.
  Qed.

  Lemma step_Dump w s t : winv w s → legal dom domV w (Dump t) → cmd_post w s (Dump t) (exec cb (Dump t) s).
  Proof using WF.
    intros HW (f & lv & Hu). destruct (ot_usable _ _ _ _ Hu) as [i Hon].
    unshelve epose proof (tree_step true w s t i f lv (tallied (bt_Dump cb t))
      (λ p, (∃ ls, said (lv_items lv) ls p.1) ∧ (p.1.2 = Some EIO → true ∈ p.2)) (λ _, same_out f lv) (λ e, e = EIO) (same_out f lv) HW Hon _ _ _ _) as HT.
    { intros ca root S h g Hmn Ht Hits Hc. rewrite (bt_Dump_spec cb dom domV WF (mnof f) Hmn t ca root S h g Ht).
      rewrite (tallied_wp _ _ _ _ _ (bl_bt_Dump cb t)). iIntros "W".
      iApply (wp_wand with "W"). iSplit.
      - iIntros (a) "(%Hb & %Ha & %g' & %HX & A & B)". destruct HX as [Ht' Hv]. iSplitR.
        { iPureIntro. split; [|exact Hb]. rewrite -Hits. by eexists. }
        iApply (mk_out with "[$A $B]"); [done|by rewrite (vw_strip _ _ Hv)|by eapply condok_vw].
      - iIntros (e) "(%He & %g' & %HX & A & B)". destruct HX as [Ht' Hv]. iSplitR; [done|].
        iApply (mk_out with "[$A $B]"); [done|by rewrite (vw_strip _ _ Hv)|by eapply condok_vw]. }
    { intros X. apply tallied_grows, gr_bt_Dump. }
    { intros. apply snapok_same. }
    { apply snapok_same. }
    unfold tree_post in HT. unfold exec, cmd_post, bind; cbn [run] in *. unfold tallied in HT. cbn [run] in HT.
    destruct (bt_Dump cb t s) as [a s'|e s'|[] s']; try done; stops.
    - destruct HT as (Hq & Hr & HI). cbn [fst snd] in Hr. destruct Hr as [(ls & [Hsub _] & Hall & He) Hb]. split.
      + intros f' lv' Hu'. destruct (ot_uniq _ _ _ _ _ _ _ Hon Hu') as [-> ->]. exists a.1. split_and!; [done|done|].
        intros Hn. destruct (a.2) as [e|] eqn:E; [|by apply Hall]. rewrite (He e eq_refl) in Hb. exfalso. by apply Hn, Hb.
      + by rewrite (out_same w t) in HI.
    - destruct HT as (Hq & Hca & He & HI). subst e. split; [split_and!; [done|by apply made_fail|by intros []]|]. by rewrite (out_same w t) in HI.
  Qed.

  (** a tree of height 1 + h > 1 has at least 2 * min^h items *)
  Lemma sum_ge (x : nat) (cs : list (ct K V)) : Forall (λ c, x ≤ length (items c))%nat cs →
    (length cs * x ≤ length (mjoin (items <$> cs)))%nat.
  Proof. induction 1 as [|c cs Hc _ IH]; [done|]. change (mjoin (items <$> c :: cs)) with (items c ++ mjoin (items <$> cs)).
    rewrite app_length. cbn [length]. lia. Qed.
  Lemma wfo_cnt mn : ∀ h b (c : ct K V), wfo mn b h c → (b * mn ^ h ≤ length (items c))%nat.
  Proof.
    induction h as [|h IH]; intros b [kvs|ks cs] Hw; try done; cbn in Hw.
    - rewrite /items titems_itoks. cbn. lia.
    - destruct Hw as (Hl & Hb & Hf). rewrite items_CI //. etrans; [|apply (sum_ge (mn * mn ^ h))].
      + rewrite Nat.pow_succ_r'. apply Nat.mul_le_mono_r. lia.
      + eapply Forall_impl; [exact Hf|]. intros c Hc. by apply IH.
  Qed.
  Lemma tall mn root h g : (2 ≤ mn)%nat → treeok mn root h g → h ≠ 0%nat → 2 * Z.of_nat mn ^ Z.of_nat h ≤ Z.of_nat (length (items (strip g))).
  Proof.
    intros Hmn Ht Hh. pose proof (tk_wf _ _ _ _ _ _ _ Ht) as Hw. destruct h as [|h]; [done|]. cbn [rlow] in Hw.
    destruct (strip g) as [|ks cs]; [done|]. cbn in Hw. destruct Hw as (Hl & Hb & Hf). rewrite items_CI //.
    assert (length cs * (mn * mn ^ h) ≤ length (mjoin (items <$> cs)))%nat as HX.
    { apply sum_ge. eapply Forall_impl; [exact Hf|]. intros c Hc. by apply wfo_cnt. }
    rewrite -Nat.pow_succ_r' in HX. rewrite -Nat2Z.inj_pow. nia.
  Qed.
  Lemma step_DimensionsReport w s t : winv w s → legal dom domV w (DimensionsReport t) → cmd_post w s (DimensionsReport t) (exec cb (DimensionsReport t) s).
  Proof using WF.
    intros HW (f & lv & Hu). destruct (ot_usable _ _ _ _ Hu) as [i Hon].
    unshelve epose proof (tree_step true w s t i f lv (bt_FetchDimensionsReport cb t)
      (λ d, ∃ height : nat, d = Dimensions (fm_min f) (2 * fm_min f) (Z.of_nat (length (lv_items lv))) (Z.of_nat height) ∧
          (1 ≤ height)%nat ∧ (height = 1%nat ∨ 2 * fm_min f ^ (Z.of_nat height - 1) ≤ Z.of_nat (length (lv_items lv)))) (λ _, same_out f lv) (λ e, e = EIO) (same_out f lv) HW Hon _ _ _ _) as HT.
    { intros ca root S h g Hmn Ht Hits Hc. destruct (ot_mn _ _ _ _ _ _ Hon HW) as [_ Hm]. iIntros "AB". iPoseProof (bt_FetchDimensionsReport_spec cb dom domV WF (mnof f) Hmn t ca root S h g Ht with "AB") as "W".
      iApply (wp_wand with "W"). iSplit.
      - iIntros (a) "(%Ha & %g' & %HX & A & B)". destruct HX as [Ht' Hv]. iSplitR; [iPureIntro; exists (1 + h)%nat; rewrite Ha Hm -Hits; split_and!; [f_equal; lia|lia|]; destruct h as [|h]; [by left|right]; replace (Z.of_nat (1 + Datatypes.S h) - 1) with (Z.of_nat (Datatypes.S h)) by lia; by eapply tall|].
        iApply (mk_out with "[$A $B]"); [done|by rewrite (vw_strip _ _ Hv)|by eapply condok_vw].
      - iIntros (e) "(%He & %g' & %HX & A & B)". destruct HX as [Ht' Hv]. iSplitR; [done|].
        iApply (mk_out with "[$A $B]"); [done|by rewrite (vw_strip _ _ Hv)|by eapply condok_vw]. }
    { intros X. apply gr_bt_FetchDimensionsReport. }
    { intros. apply snapok_same. }
    { apply snapok_same. }
    unfold tree_post in HT. unfold exec, cmd_post, bind; cbn [run]. destruct (bt_FetchDimensionsReport cb t s) as [a s'|e s'|[] s']; try done; stops.
    - destruct HT as (Hq & Hr & HI). split.
      + intros f' lv' Hu'. destruct (ot_uniq _ _ _ _ _ _ _ Hon Hu') as [-> ->]. destruct Hr as (hh & -> & ? & ?). by exists hh.
      + by rewrite (out_same w t) in HI.
    - destruct HT as (Hq & Hca & He & HI). subst e. split; [split_and!; [done|by apply made_fail|by intros []]|]. by rewrite (out_same w t) in HI.
  Qed.

  (** *** Stored versions *)
  Lemma stored_imaged σ mn l its : stored_at σ mn l its → ∃ h d, dloc d = l ∧ items (dstrip d) = its ∧
    Forall (dtok dom domV) (toks (dstrip d)) ∧ wfo mn (rlow h) h (dstrip d) ∧ imaged cb (inh σ) h (Some (2 * Z.of_nat mn)) d.
  Proof.
    intros (h & d & H1 & H2 & [_ H3] & H4 & (σ1 & σ2 & -> & Hd & H5 & _)). exists h, d. split_and!; try done.
    eapply imaged_mono; [|by apply dsk_imaged]. intros l' b. apply inh_sub. by apply map_union_subseteq_l.
  Qed.
  Lemma stored_fun σ mn l its its' : stored_at σ mn l its → stored_at σ mn l its' → its = its'.
  Proof using WF.
    intros (h & d & H1 & <- & H3 & _ & H4)%stored_imaged (h' & d' & H1' & <- & H3' & _ & H4')%stored_imaged.
    unshelve epose proof (imaged_inj cb dom domV WF _ _ _ _ _ _ H4 H4' _ H3 H3') as [_ ->]; [congruence|done].
  Qed.
  Lemma stored_in σ mn l its : stored_at σ mn l its → ∃ b, σ !! KD l = Some (RD b).
  Proof.
    intros (h & d & H1 & <- & H3 & _ & H4)%stored_imaged. assert (is_Some (inh σ l)) as [b Hb].
    { destruct h, d; try done; cbn in *; subst; destruct H4 as [-> _]; eauto. }
    unfold inh in Hb. destruct (σ !! KD l) as [[]|]; try done. eauto.
  Qed.
  Lemma snaps_uniq w s i j f g l : winv w s → w_fams w !! i = Some f → w_fams w !! j = Some g →
    is_Some (fm_snaps f !! l) → is_Some (fm_snaps g !! l) → i = j.
  Proof using WF.
    intros [_ _ _ _ _ (σ & _ & HR)] Hi Hj [m Hm] [m' Hm']. destruct (decide (i = j)) as [|Hne]; [done|]. exfalso.
    assert (∃ k, base.delete i (w_fams w) !! k = Some g) as [k Hk].
    { destruct (decide (j < i)%nat).
      - exists j. rewrite lookup_delete_lt //.
      - exists (j - 1)%nat. rewrite lookup_delete_ge; [|lia]. rewrite -Hj. f_equal. lia. }
    pose proof (fams_split cb dom domV (w_fams w) i f Hi) as HE. destruct HE as [HE]. apply HE in HR as (σ1 & σ2 & -> & Hd & [_ H1] & H2).
    destruct (big_in _ _ _ g H2) as (σ3 & [_ H3] & Hs); [by eapply elem_of_list_lookup_2|].
    destruct (stored_in _ _ _ _ (H1 _ _ Hm)) as [b Hb]. destruct (stored_in _ _ _ _ (H3 _ _ Hm')) as [b' Hb'].
    pose proof (lookup_weaken _ _ _ _ Hb' Hs) as Hb2. by rewrite (map_disjoint_Some_l _ _ _ _ Hd Hb) in Hb2.
  Qed.
  Lemma cond_stored w s t i f lv l : winv w s → ontree w t i f lv → lv_cond lv = Stored l →
    ∃ σ, within σ s ∧ famres f σ ∧ stored_at σ (mnof f) l (lv_items lv).
  Proof using WF.
    intros [_ _ _ _ _ (σ & Hv & HR)] Hon Hc. destruct (ot_at _ _ _ _ _ Hon) as [Hi Ht].
    pose proof (fams_split cb dom domV (w_fams w) i f Hi) as HE. destruct HE as [HE]. apply HE in HR as (σ1 & σ2 & -> & Hd & H1 & _).
    exists σ1. split; [by eapply views_within|]. split; [done|]. destruct H1 as [H1 _]. rewrite (ot_body _ _ _ _ _ Hon) in H1.
    destruct H1 as (σ3 & σ4 & -> & Hd' & H1 & _). rewrite Hc in H1. apply treeres_stored in H1.
    eapply stored_le; [exact H1|]. intros k b Hk _. by apply lookup_union_Some_l.
  Qed.
  Lemma cond_snap w s t i f lv l m : winv w s → ontree w t i f lv → lv_cond lv = Stored l → fm_snaps f !! l = Some m → m = lv_items lv.
  Proof using WF.
    intros HW Hon Hc Hm. destruct (cond_stored _ _ _ _ _ _ _ HW Hon Hc) as (σ & _ & [_ HS] & Hst).
    eapply stored_fun; [by apply HS|done].
  Qed.
  (** a version just stored may be remembered *)
  Lemma winv_record w s t i f lv l : winv w s → ontree w t i f lv → lv_cond lv = Stored l →
    winv (set_fam i (Family (fm_min f) (fm_live f) (<[l := lv_items lv]> (fm_snaps f)) (fm_rest f)) w) s.
  Proof using WF.
    intros HW Hon Hc. destruct (ot_at _ _ _ _ _ Hon) as [Hi Ht]. pose proof (ot_body _ _ _ _ _ Hon) as HB. destruct HW as [H1 H2 H3 H4 H5 (σ & Hv & HR)]. split; try done.
    - cbn. apply Forall_insert; [done|]. rewrite Forall_lookup in H3. exact (H3 _ _ Hi).
    - intros f0 lv0 Hin Hlv. cbn in Hin. apply in_insert in Hin as [->|Hin]; [|by eapply H5]. exact (H5 f lv0 (elem_of_list_lookup_2 _ _ _ Hi) Hlv).
    - exists σ. split; [done|]. cbn. pose proof (fams_split cb dom domV (w_fams w) i f Hi) as HE. destruct HE as [HE].
      apply HE in HR. pose proof (fams_insert cb dom domV (w_fams w) i f (Family (fm_min f) (fm_live f) (<[l := lv_items lv]> (fm_snaps f)) (fm_rest f)) Hi) as HF.
      destruct HF as [HF]. apply HF. destruct HR as (σ1 & σ2 & -> & Hd & [Hb Hs] & Hr). exists σ1, σ2. split_and!; try done.
      split; [done|]. intros l' its. cbn. intros [[<- <-]|[_ Hl]]%lookup_insert_Some; [|by apply Hs].
      rewrite HB in Hb. destruct Hb as (σ3 & σ4 & -> & Hd' & Hb & _). rewrite Hc in Hb. apply treeres_stored in Hb.
      eapply stored_le; [exact Hb|]. intros k b Hk _. by apply lookup_union_Some_l.
  Qed.

  Lemma step_Flush w s t (ap : bool) : winv w s → legal dom domV w (Flush t ap) → cmd_post w s (Flush t ap) (exec cb (Flush t ap) s).
  Proof using WF.
    intros HW (f & lv & Hu). destruct (ot_usable _ _ _ _ Hu) as [i Hon].
    unshelve epose proof (tree_step (match lv_cond lv with Stored _ => false | _ => true end) w s t i f lv (bt_Flush cb t ap)
      (λ l, match lv_cond lv with Stored l' => l = l' | _ => True end) (λ l, TOut (lv_items lv) (Stored l) (fm_snaps f) false) (λ e, e = EIO ∧ match lv_cond lv with Stored _ => False | _ => True end) (same_out f lv) HW Hon _ _ _ _) as HT.
    { intros ca root S h g Hmn Ht Hits Hc. iIntros "AB".
      iPoseProof (bt_Flush_spec cb dom domV WF (mnof f) Hmn t ca (match lv_cond lv with Stored _ => false | _ => true end) ap root S h g Ht with "AB") as "W".
      { destruct (lv_cond lv); cbn in Hc; [right; by rewrite Hc|by left|by left]. }
      iApply (wp_wand with "W"). iSplit.
      - iIntros (a) "(%g' & %HX & A & B)". destruct HX as (Ht' & Hf & Hl). destruct Hf as ((_ & Hs & _ & Hv) & _).
        iSplitR; [iPureIntro; destruct (lv_cond lv); [|done..]; cbn in Hc; rewrite -vloc_vw Hv ?Hc // vloc_vw in Hl; congruence|].
        iApply (mk_out with "[$A $B]"); [done|by rewrite Hs|done].
      - iIntros (e) "(%He & %g' & %HX & A & B)". destruct HX as (Ht' & Hk & Hl). destruct Hk as (_ & Hs & _ & Hv). destruct He as [He Hio].
        iSplitR; [iPureIntro; split; [done|]; by destruct (lv_cond lv)|].
        iApply (mk_out with "[$A $B]"); [done|by rewrite Hs|]. destruct (lv_cond lv); cbn in *; congruence. }
    { intros X. apply gr_bt_Flush. }
    { intros l Hl. apply snapok_same. }
    { apply snapok_same. }
    unfold tree_post in HT. unfold exec, cmd_post, bind; cbn [run]. destruct (bt_Flush cb t ap s) as [a s'|e s'|[] s']; try done.
    - destruct HT as (Hq & Hr & HI). destruct (ot_at _ _ _ _ _ Hon) as [Hi Htr].
      pose proof (ot_set _ _ _ _ _ (outfam f lv (TOut (lv_items lv) (Stored a) (fm_snaps f) false)) _ Hon eq_refl Htr eq_refl) as Hon'.
      pose proof (winv_record _ _ _ _ _ _ a HI Hon' eq_refl) as HR'. split.
      + intros f' lv' Hu'. destruct (ot_uniq _ _ _ _ _ _ _ Hon Hu') as [-> ->]. exists a. split; [done|]. split.
        { destruct (lv_cond lv); [|done..]. split; [done|by apply made_nil]. }
        intros j g m Hj Hm. assert (j = i) as ->.
        { destruct (decide (j = i)) as [|Hne]; [done|]. eapply (snaps_uniq _ s' j i g _ a HR'); [| |eauto|].
          - cbn. rewrite !list_lookup_insert_ne //.
          - cbn. apply list_lookup_insert. rewrite insert_length. by eapply lookup_lt_Some.
          - cbn. rewrite lookup_insert. eauto. }
        rewrite Hi in Hj. injection Hj as <-. split; [by destruct Hon|]. exact (cond_snap _ _ _ _ _ _ _ _ HI Hon' eq_refl Hm).
      + cbn [next_done]. rewrite (ot_upd _ _ _ _ _ _ Hon). destruct Hon as [_ _ Hb]. rewrite Hb.
        unfold set_fam in HR'. cbn in HR'. rewrite list_insert_insert in HR'. exact HR'.
    - destruct HT as (Hq & Hca & He & HI). destruct He as [-> He]. split; [split_and!; [done|by apply made_fail|]|by rewrite (out_same w t) in HI].
      intros (f' & lv' & l & Hu' & Hc). destruct (ot_uniq _ _ _ _ _ _ _ Hon Hu') as [-> ->]. by rewrite Hc in He.
    - intros (f' & lv' & l & Hu' & Hc). destruct (ot_uniq _ _ _ _ _ _ _ Hon Hu') as [-> ->]. by rewrite Hc in HT.
    - destruct HT as [Hio HT]. split; [|exact HT].
      intros (f' & lv' & l & Hu' & Hc). destruct (ot_uniq _ _ _ _ _ _ _ Hon Hu') as [-> ->]. by rewrite Hc in Hio.
  Qed.

  Lemma step_Purge w s t (full : bool) : winv w s → legal dom domV w (Purge t full) → cmd_post w s (Purge t full) (exec cb (Purge t full) s).
  Proof using WF.
    intros HW (f & lv & Hu). destruct (ot_usable _ _ _ _ Hu) as [i Hon].
    unshelve epose proof (tree_step false w s t i f lv (bt_Purge t full)
      (λ _, full = true → lv_cond lv ≠ Modified) (λ _, same_out f lv) (λ e, e = ELogic ∧ full = true ∧ ∀ l, lv_cond lv ≠ Stored l) (same_out f lv) HW Hon _ _ _ _) as HT.
    { intros ca root S h g Hmn Ht Hits Hc. iIntros "AB". assert ((full = true ∧ lv_cond lv = Modified) ∨ ¬ (full = true ∧ lv_cond lv = Modified)) as HD by (destruct full, (lv_cond lv); naive_solver). destruct HD as [[-> HM]|HM].
      - rewrite HM in Hc. cbn in Hc. iPoseProof (bt_Purge_dirty cb dom domV WF (mnof f) Hmn t ca root S h g Ht Hc with "AB") as "W".
        iApply (wp_wand with "W"). iSplit.
        + by iIntros (a) "[]".
        + iIntros (e) "(%He & A & B)". iSplitR; [by rewrite HM|]. iApply (mk_out with "[$A $B]"); [done|done|by rewrite HM].
      - iPoseProof (bt_Purge_spec cb dom domV WF (mnof f) Hmn t ca full root S h g Ht with "AB") as "W".
        iApply (wp_wand with "W"). iSplit.
        + iIntros (a) "(%g' & %HX & A & B)". destruct HX as (Ht' & Hv & _). iSplitR; [iPureIntro; intros -> HM'; by apply HM|].
          iApply (mk_out with "[$A $B]"); [done|by rewrite (vw_strip _ _ Hv)|by eapply condok_vw].
        + iIntros (e) "(%He & %g' & %HX & A & B)". destruct HX as (Ht' & Hv). destruct He as (He & Hfu & Hn).
          iSplitR; [iPureIntro; split_and!; [done|done|]; intros l Hl; rewrite Hl in Hc; cbn in Hc; congruence|].
          iApply (mk_out with "[$A $B]"); [done|by rewrite (vw_strip _ _ Hv)|by eapply condok_vw]. }
    { intros X. apply gr_bt_Purge. }
    { intros. apply snapok_same. }
    { apply snapok_same. }
    unfold tree_post in HT. unfold exec, cmd_post, bind; cbn [run]. destruct (bt_Purge t full s) as [a s'|e s'|[] s']; try done; stops.
    - destruct HT as (Hq & Hr & HI). split.
      + split_and!; [done|by apply made_nil|]. intros f' lv' Hu'. destruct (ot_uniq _ _ _ _ _ _ _ Hon Hu') as [-> ->]. done.
      + by rewrite (out_same w t) in HI.
    - destruct HT as (Hq & Hca & He & HI). destruct He as (-> & -> & Hn). split; [split_and!; [done|done|by apply made_nil|]; intros f' lv' Hu'; by destruct (ot_uniq _ _ _ _ _ _ _ Hon Hu') as [-> ->]|]. by rewrite (out_same w t) in HI.
  Qed.

  Lemma step_Touch w s t : winv w s → legal dom domV w (Touch t) → cmd_post w s (Touch t) (exec cb (Touch t) s).
  Proof using WF.
    intros HW (f & lv & Hu). destruct (ot_usable _ _ _ _ Hu) as [i Hon].
    unshelve epose proof (tree_step true w s t i f lv (bt_Touch cb t)
      (λ _, True) (λ _, TOut (lv_items lv) Modified (fm_snaps f) false) (λ e, e = EIO) (TOut (lv_items lv) (match lv_cond lv with Modified => Modified | _ => Unsure end) (fm_snaps f) false) HW Hon _ _ _ _) as HT.
    { intros ca root S h g Hmn Ht Hits Hc. iIntros "AB". iPoseProof (bt_Touch_spec cb dom domV WF (mnof f) Hmn t ca root S h g Ht with "AB") as "W".
      iApply (wp_wand with "W"). iSplit.
      - iIntros (a) "(%S' & %g' & %HX & A & B)". destruct HX as (Ht' & (_ & Hs & _) & Hd). iSplitR; [done|].
        iApply (mk_out with "[$A $B]"); [done|by rewrite Hs|]. destruct g'; cbn in Hd |- *; [done|by subst|by destruct Hd as [-> _]].
      - iIntros (e) "(%He & %S' & %g' & %HX & A & B)". destruct HX as (Ht' & (_ & Hs & _) & Hl). iSplitR; [done|].
        iApply (mk_out with "[$A $B]"); [done|by rewrite Hs|]. destruct (lv_cond lv); [done| |done]. cbn in *. destruct Hl; congruence. }
    { intros X. apply gr_bt_Touch. }
    { intros. apply snapok_same. }
    { apply snapok_same. }
    unfold tree_post in HT. unfold exec, cmd_post, bind; cbn [run]. destruct (bt_Touch cb t s) as [a s'|e s'|[] s']; try done; stops.
    - destruct HT as (Hq & Hr & HI). split.
      + by destruct a.
      + cbn [next_done]. rewrite (ot_upd _ _ _ _ _ _ Hon) /set_cond. destruct Hon as [_ _ ->]. done.
    - destruct HT as (Hq & Hca & He & HI). subst e. split; [split_and!; [done|by apply made_fail|by intros []]|]. cbn [next_failed]. rewrite (ot_upd _ _ _ _ _ _ Hon) /set_cond. destruct Hon as [_ _ ->]. done.
  Qed.

  Lemma step_TouchItem w s t (ix : Z) : winv w s → legal dom domV w (TouchItem t ix) → cmd_post w s (TouchItem t ix) (exec cb (TouchItem t ix) s).
  Proof using WF.
    intros HW ((f & lv & Hu) & H0). destruct (ot_usable _ _ _ _ Hu) as [i Hon].
    unshelve epose proof (tree_step true w s t i f lv (bt_TouchItem cb t ix)
      (λ j, if ix <? Z.of_nat (length (lv_items lv)) then ix < j ≤ Z.of_nat (length (lv_items lv)) else j = 0) (λ _, TOut (lv_items lv) (if ix <? Z.of_nat (length (lv_items lv)) then Modified else lv_cond lv) (fm_snaps f) false) (λ e, e = EIO) (same_out f lv) HW Hon _ _ _ _) as HT.
    { intros ca root S h g Hmn Ht Hits Hc. iIntros "[A B]". iApply (bt_TouchItem_spec cb dom domV WF (mnof f) Hmn t ca ix root S h g _ _ Ht H0 with "A B").
      iSplit; [|iSplit].
      - iIntros (Hge) "A B". rewrite Hits in Hge. assert ((ix <? Z.of_nat (length (lv_items lv))) = false) as -> by lia.
        iSplitR; [done|]. by iApply (mk_out with "[$A $B]").
      - iIntros (S' C n stt kvs HX) "A B". destruct HX as ([Hv HwC Hw Hp HpC] & Hh & Ht' & Hix).
        assert (lens C) as HlC by by eapply wfC_lens.
        assert (items (strip (fill (dirtyC C) (GL n Dirty kvs))) = lv_items lv) as Hit.
        { rewrite -Hits -(vw_strip _ _ Hv) strip_dirty !items_fill //. }
        assert (length (lv_items lv) = length (titems (cpre C)) + length kvs + length (titems (cpost C)))%nat as Hlen.
        { rewrite -Hits -(vw_strip _ _ Hv) items_fill // !app_length. cbn [strip]. rewrite /items titems_itoks. lia. }
        assert ((ix <? Z.of_nat (length (lv_items lv))) = true) as -> by (unfold plen in Hix; lia).
        iSplitR; [iPureIntro; unfold plen in *; lia|].
        iApply (mk_out with "[$A $B]"); [done|done|]. apply gloc_dirty. by right.
      - iIntros (g' HX) "A B". destruct HX as [Ht' Hv]. iSplitR; [done|].
        iApply (mk_out with "[$A $B]"); [done|by rewrite (vw_strip _ _ Hv)|by eapply condok_vw]. }
    { intros X. apply gr_bt_TouchItem. }
    { intros. apply snapok_same. }
    { apply snapok_same. }
    unfold tree_post in HT. unfold exec, cmd_post, bind; cbn [run]. destruct (bt_TouchItem cb t ix s) as [a s'|e s'|[] s']; try done; stops.
    - destruct HT as (Hq & Hr & HI). split.
      + intros f' lv' Hu'. destruct (ot_uniq _ _ _ _ _ _ _ Hon Hu') as [-> ->]. by exists a.
      + cbn [next_done]. rewrite (ot_upd _ _ _ _ _ _ Hon) /set_cond. destruct Hon as [_ _ ->]. done.
    - destruct HT as (Hq & Hca & He & HI). subst e. split; [split_and!; [done|by apply made_fail|by intros []]|]. by rewrite (out_same w t) in HI.
  Qed.

  Lemma step_MapCall w s t (c : call K V) : winv w s → legal dom domV w (MapCall t c) → cmd_post w s (MapCall t c) (exec cb (MapCall t c) s).
  Proof using WF.
    intros HW ((f & lv & Hu) & Hk & Hv). destruct (ot_usable _ _ _ _ Hu) as [i Hon]. assert (Forall domV (call_vals c)) as Hvv by (destruct c; by repeat constructor).
    unshelve epose proof (tree_step true w s t i f lv (bt_call cb t c)
      (λ a, a = (spec_call cmp (lv_items lv) c).2) (λ a, TOut (spec_call cmp (lv_items lv) c).1 (if modifies c a then Modified else lv_cond lv) (fm_snaps f) false) (λ e, e = EIO) (TOut (lv_items lv) (lv_cond lv) (fm_snaps f) (is_delete c)) HW Hon _ _ _ _) as HT.
    { intros ca root S h g Hmn Ht Hits Hc. iIntros "[A B]". iApply (bt_call_spec cb dom domV WF (mnof f) Hmn t ca c root S h g _ _ Ht Hk Hvv with "A B").
      { intros Hd. unfold outres. cbn. change (isdel c) with (is_delete c) in Hd. rewrite Hd. by iIntros. }
      iSplit.
      - iIntros (root' S' h' g' Hok) "A B". destruct Hok as [Ht' Hi' _ Hm Hsm]. rewrite Hits in Hi', Hm, Hsm |- *. iSplitR; [done|].
        iApply (mk_out with "[$A $B]"); [done|done|]. change (modifies c) with (chg c). destruct (chg c _); [by apply Hm|].
        destruct (Hsm eq_refl) as [Hvw _]. by eapply condok_vw.
      - iIntros (g' HX) "A B". destruct HX as [Ht' Hvw]. iSplitR; [done|]. unfold outres; cbn. destruct (is_delete c); [done|].
        iApply (treeres_intro with "[$A $B]"); [done|by rewrite (vw_strip _ _ Hvw)|by eapply condok_vw]. }
    { intros X. apply gr_bt_call. }
    { intros. apply snapok_same. }
    { apply snapok_same. }
    unfold tree_post in HT. unfold exec, cmd_post, bind; cbn [run]. destruct (bt_call cb t c s) as [a s'|e s'|[] s']; try done; stops.
    - destruct HT as (Hq & Hr & HI). split.
      + intros f' lv' Hu'. destruct (ot_uniq _ _ _ _ _ _ _ Hon Hu') as [-> ->]. by rewrite Hr.
      + cbn [next_done]. rewrite (ot_upd _ _ _ _ _ _ Hon) /set_items. subst a. destruct (spec_call cmp (lv_items lv) c) as [mm aa]. destruct Hon as [_ _ ->]. done.
    - destruct HT as (Hq & Hca & He & HI). subst e. split; [split_and!; [done|by apply made_fail|by intros []]|].
      cbn [next_failed]. unfold outfam in HI. cbn in HI. destruct (is_delete c).
      + rewrite (ot_upd _ _ _ _ _ _ Hon). done.
      + pose proof (out_same w t i f lv Hon) as HE. unfold outfam, same_out in HE. cbn in HE. by rewrite HE in HI.
  Qed.

  (** *** Prune *)
  Lemma whole_stored mn t ca root h (g : gt K V) l σ : treeok mn root h g → gloc g = Some l →
    (whole mn t ca h g ∗ True)%I σ → stored_at σ mn l (items (strip g)).
  Proof.
    intros Ht Hc H. destruct (gloc_vw g l Hc) as (d & Hv & Hl). exists h, d.
    assert (strip g = dstrip d) as Hs by by rewrite -strip_vw Hv. rewrite -Hs.
    split_and!; [done|done|apply Ht|apply Ht|]. revert H. apply entails_holds. iIntros "[[_ B] _]".
    iDestruct (rep_dsk _ _ _ _ _ g h None true _ d Hv with "B") as "[B _]". by iFrame.
  Qed.
  Lemma current_look lv l its : current lv !! l = Some its → lv_cond lv = Stored l ∧ its = lv_items lv.
  Proof. unfold current. destruct (lv_cond lv); try done. by intros [<- <-]%lookup_singleton_Some. Qed.
  Lemma treeres_prune mn t its l X σ σ' : (treeres mn t its (Stored l) ∗ True)%I σ → dle X σ σ' →
    (∀ T l, σ !! KR t = Some (RR T) → X l → l ∈ t_stale T) → stored_at σ' mn l its.
  Proof.
    intros (σ1 & σ2 & -> & Hd & (ca & root & S & h & g & HX) & _) Hle HS. apply holds_affine in HX as [(Ht & Hi & Hc) HX].
    destruct (gloc_vw g l Hc) as (d & Hv & Hl). exists h, d.
    assert (strip g = dstrip d) as Hs by by rewrite -strip_vw Hv. rewrite -Hs.
    split_and!; [done|done|apply Ht|apply Ht|]. destruct HX as (σr & σw & -> & Hd1 & (σR & σS & -> & Hd2 & HR & HSt) & HW).
    assert ((dsk cb h (Some (2 * Z.of_nat mn)) d ∗ True)%I σw) as HX.
    { revert HW. apply entails_holds. iIntros "[_ B]".
      iDestruct (rep_dsk _ _ _ _ _ g h None true _ d Hv with "B") as "[B _]". by iFrame. }
    destruct HX as (σd & σx & -> & Hd3 & HD & _).
    apply map_disjoint_union_l in Hd as [Hdr Hdw]. apply map_disjoint_union_l in Hdw as [Hdd Hdx].
    apply map_disjoint_union_r in Hd1 as [Hrd Hrx].
    apply (dle_True _ X σd ((σR ∪ σS) ∪ σx ∪ σ2)); [apply do_dsk|done| | |].
    - apply map_disjoint_union_r_2; [|done]. apply map_disjoint_union_r_2; [by symmetry|done].
    - replace (σd ∪ ((σR ∪ σS) ∪ σx ∪ σ2)) with (σR ∪ σS ∪ (σd ∪ σx) ∪ σ2); [done|].
      rewrite !map_union_assoc. f_equal. f_equal. symmetry. rewrite -map_union_assoc. apply map_union_comm. by symmetry.
    - intros l' b Hb HXl. assert (l' ∈ S) as HlS.
      { assert (t_stale (trec mn ca root S) = S) as <- by done. eapply HS; [|exact HXl].
        apply own_in in HR. do 3 (apply lookup_union_Some_l). done. }
      destruct (big_in _ _ _ _ HSt HlS) as (σ3 & (b' & HB) & Hsub). 
      assert (isD l' b' σ3) as HB'. { revert HB. apply entails_holds. by iIntros "[$ _]". }
      apply own_in in HB'. eapply lookup_weaken in HB'; [|exact Hsub].
      apply map_disjoint_union_l in Hrd as [_ Hsd]. by rewrite (map_disjoint_Some_l _ _ _ _ Hsd HB') in Hb.
  Qed.
  Lemma step_Prune w s t : winv w s → legal dom domV w (Prune t) → cmd_post w s (Prune t) (exec cb (Prune t) s).
  Proof using WF.
    intros HW (f & lv & Hu). destruct (ot_usable _ _ _ _ Hu) as [i Hon].
    destruct (ot_at _ _ _ _ _ Hon) as [Hi Ht]. destruct (ot_mn _ _ _ _ _ _ Hon HW) as [Hmn _].
    pose proof (ot_dom _ _ _ _ _ _ Hon HW) as Hdom. pose proof (ot_body _ _ _ _ _ Hon) as HB. pose proof Hon as [_ Hl Hbr].
    set (X l := ∃ T, trees s !! t = Some T ∧ l ∈ t_stale T).
    assert (grow X s (stof (bt_Prune t s))) as Hg. { apply gr_prune. intros T l H1 H2. by exists T. }
    assert (famres f ⊢ wp true (bt_Prune t) (λ _, treeres (mnof f) t (lv_items lv) (lv_cond lv) ∗ junk (fm_rest f))
      (λ e, <affine> ⌜e = EIO⌝ ∗ ∃ ca root h g, <affine> ⌜treeok (mnof f) root h g ∧ items (strip g) = lv_items lv ∧ condok (lv_cond lv) g⌝ ∗ (whole (mnof f) t ca h g ∗ True))) as Hwp.
    { rewrite famres_body HB. iIntros "[(%ca & %root & %S & %h & %g & %HX & AB) J]". pose proof HX as (H1 & H2 & H3).
      iPoseProof (bt_Prune_spec cb dom (mnof f) Hmn t ca root S h g with "AB") as "W".
      iApply (wp_wand with "W"). iSplit.
      - iIntros (_) "AB". iFrame "J". by iApply treeres_intro.
      - iIntros (e) "($ & %S' & %HS & _ & _ & B)". iExists ca, root, h, g. by iFrame. }
    pose proof (step_gen cb dom domV true w s i f _ X _ _ HW Hi Hwp Hg) as HP.
    pose proof (g_trees _ _ _ Hg t Hdom) as Hdom'. unfold step_post in HP.
    unfold exec, cmd_post, bind; cbn [run]. destruct (bt_Prune t s) as [a s'|e s'|[] s']; cbn in Hdom'; try done.
    - destruct HP as (Hq & _ & HF). split; [done|]. cbn [next_done]. rewrite (ot_upd _ _ _ _ _ _ Hon).
      apply HF; [done|]. intros σ σ' H1 _ _ Hle HQ. split; [split|].
      + unfold World.body. cbn. rewrite Hl Hbr Ht. done.
      + intros l its Hlk. cbn in Hlk. apply current_look in Hlk as [Hc ->].
        destruct HQ as (σ1 & σ2 & -> & Hd & HX & _). rewrite Hc in HX. apply treeres_stored in HX.
        eapply stored_le; [exact HX|]. intros k b Hk _. by apply lookup_union_Some_l.
      + intros lv'. cbn. rewrite Hl. intros [= <-]. by rewrite Ht.
    - destruct HP as (Hq & Hca & [σ0 HQ] & HF). apply holds_affine in HQ as [-> _]. split; [split_and!; [done|by apply made_fail|by intros []]|].
      cbn [next_failed]. rewrite (ot_upd _ _ _ _ _ _ Hon). apply HF; [done|]. intros σ σ' H1 _ _ Hle HQ.
      apply holds_affine in HQ as [_ (ca & root & h & g & HQ)]. apply holds_affine in HQ as [(Ht' & Hits & Hc) HQ]. split; [split|].
      + done.
      + intros l its Hlk. cbn in Hlk. apply current_look in Hlk as [Hcl ->]. rewrite Hcl in Hc. rewrite -Hits. by eapply whole_stored.
      + intros lv'. cbn. intros [= <-]. by rewrite /= Ht.
    - by intros [].
    - destruct HP as (_ & HF). split; [by intros []|]. intros lo hi. cbn [next]. rewrite (ot_upd _ _ _ _ _ _ Hon). apply HF; [done|].
      intros σ σ' [H1 _] Hin Hle l its Hlk. cbn in Hlk. apply current_look in Hlk as [Hcl ->].
      rewrite HB Hcl in H1. apply (treeres_prune (mnof f) t (lv_items lv) l X σ σ'); [|exact Hle|].
      + revert H1. apply entails_holds. by iIntros "[$ _]".
      + intros T l' HT (T' & HT' & Hl'). apply Hin in HT. cbn in HT. rewrite HT' in HT. by simplify_eq/=.
  Qed.

  (** *** Discard *)
  Lemma discard_noerr t s : match discard_strict cb t s with
    | ORet a s' => bt_Discard cb t s = ORet a s' | OErr e s' => True | OStop x s' => bt_Discard cb t s = OStop x s' end.
  Proof.
    unfold discard_strict, bt_Discard, with_fuel, bind; cbn [run]. destruct (rootOf t s) as [rt s1|e s1|x s1]; try done.
    unfold ignoreErr; cbn [run ret]. destruct (discardNode cb _ t rt s1) as [[] s2|e s2|x s2]; try done.
    destruct (pruneWhileLocked t s2) as [[] s3|e s3|x s3]; try done. by destruct (modT t _ s3).
  Qed.
  Lemma discard_io t s e s1 : discard_strict cb t s = OErr e s1 → (iocount s1 ≤ iocount (stof (bt_Discard cb t s)))%nat.
  Proof.
    unfold discard_strict, bt_Discard, with_fuel, bind; cbn [run]. destruct (rootOf t s) as [rt s2|e2 s2|x s2]; [|intros [= -> ->]; done|done].
    unfold ignoreErr; cbn [run ret]. destruct (discardNode cb _ t rt s2) as [[] s3|e3 s3|x s3]; [| |done].
    - destruct (pruneWhileLocked t s3) as [[] s4|e4 s4|x s4]; [|intros [= -> ->]; done|done]. 
      destruct (modT t _ s4); [done| |done]. by intros [= -> ->].
    - intros [= -> ->]. pose proof (gr_pruneAll (λ _, True) t ltac:(done) s1) as [_ _ _ _ _ _ H1].
      destruct (pruneWhileLocked t s1) as [[] s4|e4 s4|x s4]; [|done|done]. cbn in H1. etrans; [exact H1|].
      cbn. destruct (trees s4 !! t); done.
  Qed.
  Lemma step_Discard w s t : winv w s → legal dom domV w (Discard t) → cmd_post w s (Discard t) (exec cb (Discard t) s).
  Proof using WF.
    intros HW (f & lv & Hu). destruct (ot_usable _ _ _ _ Hu) as [i Hon].
    destruct (ot_at _ _ _ _ _ Hon) as [Hi Ht]. destruct (ot_mn _ _ _ _ _ _ Hon HW) as [Hmn _].
    pose proof (ot_dom _ _ _ _ _ _ Hon HW) as Hdom. pose proof (ot_body _ _ _ _ _ Hon) as HB. pose proof Hon as [_ Hl Hbr].
    set (X := λ _ : loc, True).
    assert (grow X s (stof (bt_Discard cb t s))) as Hg. { by apply gr_bt_Discard. }
    assert (famres f ⊢ wp true (bt_Discard cb t) (λ _, True) (λ e, <affine> ⌜e = EIO⌝ ∗ True)) as Hwp.
    { rewrite famres_body HB. iIntros "[(%ca & %root & %S & %h & %g & %HX & AB) J]". pose proof HX as (H1 & H2 & H3).
      iPoseProof (bt_Discard_spec cb dom domV WF (mnof f) Hmn t ca root S h g H1 with "AB") as "W".
      iApply (wp_wand with "W"). iSplit; [by iIntros (_) "_"|]. iIntros (e) "[$ _]". }
    assert (famres f ⊢ wp true (discard_strict cb t) (λ _, junk (fm_rest f)) (λ e, <affine> ⌜e = EIO⌝ ∗ True)) as Hwp'.
    { rewrite famres_body HB. iIntros "[(%ca & %root & %S & %h & %g & %HX & AB) J]". pose proof HX as (H1 & H2 & H3).
      iPoseProof (discard_strict_spec cb dom domV WF (mnof f) Hmn t ca root S h g H1 with "AB") as "W".
      iApply (wp_wand with "W"). iSplit; [by iIntros (_) "_"|]. iIntros (e) "[$ _]". }
    assert (grow X s (stof (discard_strict cb t s))) as Hg'.
    { by apply gr_discard_strict. }
    pose proof (step_gen cb dom domV true w s i f _ X _ _ HW Hi Hwp Hg) as HP.
    pose proof (step_gen cb dom domV true w s i f _ X _ _ HW Hi Hwp' Hg') as HP'.
    pose proof (g_trees _ _ _ Hg t Hdom) as Hdom'.
    pose proof (discard_noerr t s) as Hne. pose proof (discard_io t s) as Hio.
    unfold exec, cmd_post, bind; cbn [run]. unfold step_post in HP, HP'. destruct (bt_Discard cb t s) as [a s'|e s'|[] s']; cbn [stof] in Hdom', Hio; try done.
    - destruct HP as (Hq & _ & HF). split; [done|]. cbn [next_done]. rewrite (ot_upd _ _ _ _ _ _ Hon).
      destruct (existsb id (made s s')) eqn:Hex.
      { apply HF; [done|]. intros σ σ' _ _ _ _ _. split; [split; [done|]|].
        - intros l its Hlk. cbn in Hlk. by rewrite lookup_empty in Hlk.
        - intros lv'. cbn. intros [= <-]. by rewrite /= Ht. }
      destruct (discard_strict cb t s) as [a' s1|e' s1|x s1]; [|exfalso|done].
      + simplify_eq. destruct HP' as (_ & _ & HF'). apply HF'; [done|]. intros σ σ' _ _ _ _ HQ. split; [split; [done|]|].
        * intros l its Hlk. cbn in Hlk. by rewrite lookup_empty in Hlk.
        * done.
      + destruct HP' as (Hq' & Hca & [σ0 HE] & _). apply holds_affine in HE as [-> _].
        specialize (Hio EIO s1 eq_refl). destruct (Hca eq_refl) as (j & Hj & Hf).
        assert (true ∈ made s s') as Hin by (apply made_fail; intros _; exists j; split; [lia|done]).
        apply Is_true_false in Hex. apply Hex, existb_True, Exists_exists. by exists true.
    - destruct HP as (Hq & Hca & [σ0 HQ] & HF). apply holds_affine in HQ as [-> _]. split; [split_and!; [done|by apply made_fail|by intros []]|].
      cbn [next_failed]. rewrite (ot_upd _ _ _ _ _ _ Hon). apply HF; [done|]. intros σ σ' H1 _ _ Hle HQ.
      split; [split; [done|]|].
      + intros l its Hlk. cbn in Hlk. by rewrite lookup_empty in Hlk.
      + intros lv'. cbn. intros [= <-]. by rewrite /= Ht.
    - by intros [].
    - destruct HP as (_ & HF). split; [by intros []|]. intros lo hi. cbn [next]. rewrite (ot_upd _ _ _ _ _ _ Hon). apply HF; [done|].
      intros σ σ' _ _ _ l its Hlk. cbn in Hlk. by rewrite lookup_empty in Hlk.
  Qed.

  (** *** New trees *)
  Lemma fresh_new s w t : winv w s → t = fresh s → fam_of w t = None.
  Proof.
    intros HW ->. apply list_find_None, Forall_forall. intros f Hf Ht. unfold has_tree in Ht. destruct (fm_live f) as [lv|] eqn:Hl; [|done].
    pose proof (wi_handle _ _ _ _ _ HW f lv Hf Hl) as Hd. rewrite Ht in Hd. apply elem_of_dom in Hd as [T HT].
    pose proof (inv_t _ (wi_inv _ _ _ _ _ HW) _ _ HT). lia.
  Qed.
  Definition rets {A} (a : A) (m : M A) : Prop := ∀ s b s', m s = ORet b s' → b = a.
  Lemma rets_bind {A B} (a : A) (m : M B) F : (∀ x, rets a (F x)) → rets a (bind m F).
  Proof. intros H s b s'. unfold bind; cbn [run]. destruct (m s) as [x s1|e s1|x s1]; try done. apply H. Qed.
  Lemma rets_ret {A} (a : A) : rets a (ret a).
  Proof. by intros s b s' [= <- _]. Qed.
  Lemma new_handle s max attach t s' : bt_New max attach s = ORet t s' → t = fresh s.
  Proof.
    unfold bt_New. destruct (_ || _); [done|].
    match goal with |- run (bind (newTree _) ?F) _ = _ → _ => assert (rets (fresh s) (F (fresh s))) as HR end.
    { cbv beta. repeat (apply rets_bind; intros ?). apply rets_ret. }
    exact (HR _ _ _).
  Qed.
  Lemma old_handle s l attach t s' : bt_Old cb l attach s = ORet t s' → t = fresh s.
  Proof.
    unfold bt_Old.
    match goal with |- run (bind (newTree _) ?F) _ = _ → _ => assert (rets (fresh s) (F (fresh s))) as HR end.
    { cbv beta. repeat (apply rets_bind; intros ?). apply rets_ret. }
    exact (HR _ _ _).
  Qed.
  Lemma treeres_handle mn t its x σ : treeres mn t its x σ → ∃ T, σ !! KR t = Some (RR T).
  Proof.
    intros (ca & root & S & h & g & HX). apply holds_affine in HX as [_ (σ1 & σ2 & -> & _ & (σ3 & σ4 & -> & _ & HR & _) & _)].
    apply own_in in HR. eexists. apply lookup_union_Some_l, lookup_union_Some_l. exact HR.
  Qed.
  Lemma handle_dom mn t its x σ s : (treeres mn t its x ∗ True)%I σ → within σ s → t ∈ base.dom (trees s).
  Proof.
    intros (σ1 & σ2 & -> & Hd & H & _) Hw. apply treeres_handle in H as [T HT].
    assert (viewf s (KR t) = Some (RR T)) as HV by by apply Hw, lookup_union_Some_l.
    cbn in HV. apply elem_of_dom. destruct (trees s !! t); done.
  Qed.
  Lemma step_NewTree w s max attach : winv w s → legal dom domV w (NewTree max attach) → cmd_post w s (NewTree max attach) (exec cb (NewTree max attach) s).
  Proof using WF.
    intros HW [H4 Hev]. pose (mn := Z.to_nat (max / 2)). 
    assert (max = 2 * Z.of_nat mn) as Hmax.
    { apply Z.even_spec in Hev as [q ->]. unfold mn. rewrite Z.mul_comm Z.div_mul //. lia. }
    assert (2 ≤ mn)%nat as Hmn by lia.
    assert (emp ⊢ wp false (bt_New max attach) (λ t, treeres mn t [] Modified) (λ _, False)) as Hwp.
    { rewrite Hmax. etrans; [apply (bt_New_spec cb dom mn Hmn false attach)|]. iIntros "W". iApply (wp_wand with "W"). iSplit; [|by iIntros (e) "?"].
      iIntros (t) "(%rt & A & B)". iApply (treeres_intro with "[$A $B]"); [|done|done]. by apply new_treeok. }
    pose proof (step_new cb dom domV false w s _ _ _ HW Hwp (gr_bt_New _ _ _ s)) as HP.
    pose proof (gr_bt_New (λ _, False) max attach s) as Hg. pose proof (new_handle s max attach) as Hh.
    unfold exec, cmd_post, bind; cbn [run]. destruct (bt_New max attach s) as [t s'|e s'|[] s']; try done; stops.
    - destruct HP as (Hq & HF). split.
      + exists t. split_and!; [done|by apply (fresh_new s); [|eapply Hh]|by apply made_nil].
      + cbn [next_done]. apply HF.
        * intros σ' H Hw. split.
          -- assert (famres (Family (max / 2) (Some (Live t [] Modified false)) ∅ Exact) σ') as HX.
             { split; [|intros l its Hlk; cbn in Hlk; by rewrite lookup_empty in Hlk].
               unfold World.body, mnof; cbn. revert H. apply entails_holds. iIntros "$". }
             unfold fams_res. revert HX. apply entails_holds. by iIntros "$".
          -- intros f lv ->%elem_of_list_singleton [= <-]. cbn. apply (handle_dom mn t [] Modified σ' s'); [|exact Hw].
             revert H. apply entails_holds. by iIntros "$".
        * constructor; [|constructor]. cbn. lia.
        * intros n Hn. apply (g_nodes _ _ _ Hg). by apply (wi_chosen _ _ _ _ _ HW).
    - destruct HP as [σ' []].
  Qed.

  Lemma step_Forget w s t : winv w s → legal dom domV w (Forget t) → cmd_post w s (Forget t) (exec cb (Forget t) s).
  Proof.
    intros HW [[i f] Hf]. unfold exec, cmd_post, ret. split.
    - split; [done|]. unfold made. by rewrite Nat.sub_diag.
    - cbn [next_done]. unfold upd. rewrite Hf. destruct (fm_live f) as [lv|] eqn:Hl; [|done].
      apply list_find_Some in Hf as (Hi & _). destruct HW as [H1 H2 H3 H4 H5 (σ & Hv & HR)]. split; try done.
      + cbn. apply Forall_insert; [done|]. rewrite Forall_lookup in H3. exact (H3 _ _ Hi).
      + intros f0 lv0 Hin Hlv. cbn in Hin. apply in_insert in Hin as [->|Hin]; [done|by eapply H5].
      + exists σ. split; [done|]. cbn. pose proof (fams_split cb dom domV (w_fams w) i f Hi) as HE. destruct HE as [HE].
        apply HE in HR. pose proof (fams_insert cb dom domV (w_fams w) i f (Family (fm_min f) None (fm_snaps f) Lost) Hi) as HF.
        destruct HF as [HF]. apply HF. destruct HR as (σ1 & σ2 & -> & Hd & [_ Hs] & Hr). exists σ1, σ2. done.
  Qed.
  Lemma step_UpdateLimits w s low high : winv w s → cmd_post w s (UpdateLimits low high) (exec cb (UpdateLimits low high) s).
  Proof.
    intros HW.
    assert (emp ⊢ wp (K:=K) (V:=V) false (cache_UpdateLimits low high) (λ _, emp) (λ _, False)) as Hwp.
    { unfold cache_UpdateLimits. iIntros "_". iApply wp_atomic_bind. iApply wp_modCache; [by intros c []|]. by iApply wp_kickDrainer. }
    pose proof (step_new cb dom domV false w s _ _ _ HW Hwp (gr_cache_UpdateLimits _ _ _ s)) as HP.
    pose proof (gr_cache_UpdateLimits (λ _, False) low high s) as Hg.
    unfold exec, cmd_post, bind; cbn [run]. destruct (cache_UpdateLimits low high s) as [a s'|e s'|[] s']; try done; stops.
    - destruct HP as (Hq & HF). split; [split; [done|by apply made_nil]|]. cbn [next_done].
      specialize (HF [] (w_chosen w)). rewrite app_nil_r in HF. destruct w as [fs C]. apply HF; [|done|].
      + intros σ' H _. split; [done|]. intros f lv Hf. by apply elem_of_nil in Hf.
      + intros n Hn. apply (g_nodes _ _ _ Hg). by apply (wi_chosen _ _ _ _ _ HW).
    - destruct HP as [σ' []].
  Qed.
  Lemma wp_getCache io (Q : cacherec → hProp) E : (∀ c, Q c) ⊢ wp io getCache Q E.
  Proof.
    apply wp_step. intros σ H σf s Hd Hv HI. split; [by split_and!|]. exists σ. split_and!; [done..|]. by apply H.
  Qed.
  Lemma step_DrainSelect w s : winv w s → cmd_post w s DrainSelect (exec cb DrainSelect s).
  Proof.
    intros HW.
    assert (emp ⊢ wp (K:=K) (V:=V) false drainerSelect (λ _, emp) (λ _, False)) as Hwp.
    { unfold drainerSelect. iIntros "_". iApply wp_atomic_bind. iApply wp_atomic. iApply wp_getCache. iIntros (c). destruct (_ || _).
      - iApply wp_atomic_bind. iApply wp_modCache; [by intros ? []|]. iApply wp_atomic. by iApply wp_ret.
      - destruct (qhead (c_clean c)); [iApply wp_atomic; by iApply wp_ret|]. iApply wp_atomic_bind. iApply wp_modCache; [by intros ? []|]. iApply wp_atomic. by iApply wp_ret. }
    pose proof (step_new cb dom domV false w s _ _ _ HW Hwp (gr_drainerSelect _ s)) as HP.
    pose proof (gr_drainerSelect (λ _, False) s) as Hg.
    assert (∀ n s', drainerSelect s = ORet (Some n) s' → n ∈ base.dom (nodes s)) as Hin.
    { intros n s'. destruct (inv_lru _ (wi_inv _ _ _ _ _ HW)) as [L HL].
      unfold drainerSelect, atomic, getCache, bind; cbn [run]. destruct (_ || _); [done|]. destruct (qhead (c_clean (cache s))) as [m|] eqn:Hq; [|done].
      intros [= -> _]. rewrite -(wi_dom _ _ _ _ _ HW).
      pose proof (lru_head _ _ _ HL false) as Hh. cbn in Hh. rewrite Hq in Hh. destruct (L false) as [|x l] eqn:HLf; [done|].
      injection Hh as ->. destruct (seg_lookup _ _ _ x _ _ (lru_seg _ _ _ HL false)) as (c & Hc & _); [rewrite HLf; left|].
      by eapply elem_of_dom_2. }
    unfold exec, cmd_post, bind; cbn [run]. destruct (drainerSelect s) as [a s'|e s'|[] s']; try done; stops.
    - destruct HP as (Hq & HF). split; [exists a; split; [done|by apply made_nil]|].
      assert (∀ n, n ∈ w_chosen w → n ∈ base.dom (nodes s')) as HC.
      { intros n Hn. apply (g_nodes _ _ _ Hg). by apply (wi_chosen _ _ _ _ _ HW). }
      assert (∀ f lv, f ∈ ([] : list family) → fm_live f = Some lv → lv_tree lv ∈ base.dom (trees s')) as HN.
      { intros f lv Hf. by apply elem_of_nil in Hf. }
      destruct w as [fs C]. destruct a as [n|]; cbn [next_done w_fams w_chosen] in *.
      + specialize (HF [] ({[n]} ∪ C)). rewrite app_nil_r in HF. apply HF; [by split; [|apply HN]|done|].
        intros m [->%elem_of_singleton|Hm]%elem_of_union; [|by apply HC].
        apply (g_nodes _ _ _ Hg). by eapply Hin.
      + specialize (HF [] C). rewrite app_nil_r in HF. apply HF; [by split; [|apply HN]|done|done].
    - destruct HP as [σ' []].
  Qed.

  (** *** Old trees *)
  Lemma notags_sub σ1 σ2 : σ1 ⊆ σ2 → notags (K:=K) (V:=V) σ2 → notags (K:=K) (V:=V) σ1.
  Proof. intros Hs H n x Hn. eapply H. by eapply lookup_weaken. Qed.
  Lemma notags_sep : notags ∗ notags ⊢@{hPropI K V} notags.
  Proof. constructor. intros σ (σ1 & σ2 & -> & Hd & H1 & H2) n x Hn. apply lookup_union_Some in Hn as [Hn|Hn]; [by eapply H1|by eapply H2|done]. Qed.
  Lemma stales_notags S : stales S ⊢@{hPropI K V} notags.
  Proof.
    constructor. intros σ H n x Hn. destruct (decide (x = noLRU)) as [->|Hx]; [done|exfalso].
    destruct (big_look _ _ _ H (KT n) (RT x) Hn) as (l & σ1 & _ & (b & HB) & Hk); [done|].
    assert (isD l b σ1) as HB'. { revert HB. apply entails_holds. by iIntros "[$ _]". }
    by destruct (own_look _ _ _ _ _ HB' Hk).
  Qed.
  Lemma closed_inexact f l its σ : famres f σ → fm_live f = None → fm_snaps f !! l = Some its → loosen (fm_rest f) = fm_rest f.
  Proof.
    intros [HB HS] Hl Hits. unfold World.body in HB. rewrite Hl in HB. destruct (fm_rest f); [exfalso|done..]. cbn in HB.
    destruct (HS l its Hits) as (h & d & _ & _ & _ & _ & (σ1 & σ2 & -> & Hd & H1 & _)).
    apply (entails_holds _ _ _ (dsk_fp cb h _ d)) in H1.
    assert (dloc d ∈ dlocs d) as Hin by (destruct d; left).
    destruct (big_in _ _ _ _ H1 Hin) as (σ3 & (b & HX) & Hsub).
    assert (isD (dloc d) b σ3) as HX'. { revert HX. apply entails_holds. by iIntros "[$ _]". }
    apply own_in in HX'. eapply lookup_weaken in HX'; [|exact Hsub].
    assert ((σ1 ∪ σ2) !! KD (dloc d) = Some (RD b)) as HY by by apply lookup_union_Some_l.
    by apply HB in HY.
  Qed.
  Lemma junk_sub x σ1 σ2 : σ1 ⊆ σ2 → junk (loosen x) σ2 → junk (K:=K) (V:=V) (loosen x) σ1.
  Proof. destruct x; cbn; [apply notags_sub..|done]. Qed.
  Lemma junk_sep x S : stales S ∗ junk (loosen x) ⊢@{hPropI K V} junk (loosen x).
  Proof. rewrite stales_notags. destruct x; cbn; [apply notags_sep..|by iIntros]. Qed.
  Lemma step_OldTree w s l attach : winv w s → legal dom domV w (OldTree l attach) → cmd_post w s (OldTree l attach) (exec cb (OldTree l attach) s).
  Proof using WF.
    intros HW (i & f & Hf & Hl). pose proof Hf as Hf'. apply list_find_Some in Hf' as (Hi & [its Hits] & _).
    pose proof (wi_min _ _ _ _ _ HW) as Hm. rewrite Forall_lookup in Hm. specialize (Hm _ _ Hi). cbn in Hm.
    assert (famres f ⊢ ∃ h d, <affine> ⌜dloc d = l ∧ items (dstrip d) = its ∧ good cmp dom domV (toks (dstrip d)) ∧ wfo (mnof f) (rlow h) h (dstrip d)⌝ ∗
      (dsk cb h (Some (2 * Z.of_nat (mnof f))) d ∗ junk (loosen (fm_rest f)))) as HX.
    { constructor. intros σ [HB HS]. destruct (HS l its Hits) as (h & d & H1 & H2 & H3 & H4 & H5).
      unfold World.body in HB. rewrite Hl in HB.
      assert (junk (loosen (fm_rest f)) σ) as HN. { revert HB. apply entails_holds. unfold junk. destruct (fm_rest f); [apply emp_notags|done..]. }
      exists h, d. destruct H5 as (σ1 & σ2 & -> & Hd & H5 & _).
      assert ((dsk cb h (Some (2 * Z.of_nat (mnof f))) d ∗ junk (loosen (fm_rest f)))%I (σ1 ∪ σ2)) as HX.
      { exists σ1, σ2. split_and!; [done|done|done|]. eapply junk_sub; [|exact HN]. by apply map_union_subseteq_r. }
      revert HX. apply entails_holds. by iIntros "$". }
    assert (famres f ⊢ wp true (bt_Old cb l attach) (λ t, treeres (mnof f) t its (Stored l) ∗ junk (loosen (fm_rest f))) (λ e, <affine> ⌜e = EIO⌝ ∗ junk (loosen (fm_rest f)))) as Hwp.
    { etrans; [exact HX|]. iIntros "(%h & %d & %HY & A & B)". destruct HY as (<- & H2 & H3 & H4).
      iPoseProof (bt_Old_spec cb dom domV WF (mnof f) attach h d H3 H4 with "A") as "W".
      iApply (wp_wand with "W"). iSplit.
      - iIntros (t) "(%root & %g & %HY & A & C)". destruct HY as [Ht Hv]. iFrame "B".
        iApply (treeres_intro with "[$A $C]"); [done| |].
        + by rewrite -strip_vw Hv.
        + cbn. by rewrite -vloc_vw Hv.
      - iIntros (e) "[$ A]". iApply junk_sep. iFrame "B". by iApply dsk_fp. }
    pose proof (step_gen cb dom domV true w s i f _ none _ _ HW Hi Hwp (gr_bt_Old _ _ _ _ s)) as HP.
    pose proof (old_handle s l attach) as Hh. unfold step_post in HP.
    unfold exec, cmd_post, bind; cbn [run]. destruct (bt_Old cb l attach s) as [t s'|e s'|[] s']; try done; stops.
    - destruct HP as (Hq & _ & HF). split.
      + exists t. split; [done|]. by apply (fresh_new s); [|eapply Hh].
      + cbn [next_done]. rewrite Hf Hits. apply HF; [done|]. intros σ σ' [_ HS] _ Hw' Hle HQ. split; [split|].
        * done.
        * eapply snaps_le; [exact HS|exact Hle].
        * intros lv [= <-]. cbn. apply (handle_dom (mnof f) t its (Stored l) σ' s'); [|exact Hw'].
          revert HQ. apply entails_holds. by iIntros "[$ _]".
    - destruct HP as (Hq & Hca & [σ0 HQ] & HF). apply holds_affine in HQ as [-> _]. split; [split_and!; [done|by apply made_fail|by intros []]|].
      cbn [next_failed]. rewrite -{1}(set_fam_same w i f); [|done]. apply HF; [done|].
      intros σ σ' Hfr _ _ Hle HQ. apply holds_affine in HQ as [_ HQ]. split; [split|].
      + unfold World.body. rewrite Hl. by rewrite -(closed_inexact f l its σ Hfr Hl Hits).
      + eapply snaps_le; [apply Hfr|exact Hle].
      + rewrite Hl. done.
    - destruct HP as (_ & HF). split; [by intros []|]. intros lo hi. cbn [next]. rewrite -{1}(set_fam_same w i f); [|done]. apply HF; [done|].
      intros σ σ' [_ H] _ Hle. by eapply snaps_le.
  Qed.

  (** *** Evictions *)
  Lemma step_DrainEvict w s n : winv w s → legal dom domV w (DrainEvict n) → cmd_post w s (DrainEvict n) (exec cb (DrainEvict n) s).
  Proof using WF.
    intros HW [Hn Hun]. apply (wi_chosen _ _ _ _ _ HW) in Hn. pose proof Hn as Hc. rewrite -(wi_dom _ _ _ _ _ HW) in Hc.
    apply elem_of_dom in Hn as [r Hr]. apply elem_of_dom in Hc as [c Hc].
    destruct (decide (ctg c = cleanLRU)) as [Hcl|Hcl]; last first.
    { unfold exec, drainerEvict, with_fuel, getC, getN, bind; cbn [run]. rewrite Hc Hr decide_False //. cbn.
      unfold made. by rewrite Nat.sub_diag. }
    pose proof (wi_res _ _ _ _ _ HW) as (σ & Hv & HF).
    assert (σ !! KT n = Some (RT cleanLRU)) as Hk by by rewrite -Hv /= Hc /= Hcl.
    destruct (big_find _ _ _ _ _ HF Hk) as (i & f & σ1 & σ2 & Hi & -> & Hd & HB & HR & Hk1); [done|].
    pose proof (wi_min _ _ _ _ _ HW) as Hm. rewrite Forall_lookup in Hm. specialize (Hm _ _ Hi). cbn in Hm.
    assert (2 ≤ mnof f)%nat as Hmn by (unfold mnof; lia).
    rewrite Forall_lookup in Hun. destruct (Hun _ _ Hi) as [Hnl Hun']. clear Hun. rename Hun' into Hun. pose proof HB as [HB' HS]. unfold World.body in HB'.
    destruct (fm_live f) as [lv|] eqn:Hl; last first.
    { exfalso. unfold junk in HB'. destruct (fm_rest f); [by apply HB' in Hk1|by specialize (HB' _ _ Hk1)|done]. }
    specialize (Hun lv eq_refl). rewrite Hun in HB'. destruct HB' as (σt & σj & -> & Hdt & HT & HJ).
    apply lookup_union_Some in Hk1; [|done]. destruct Hk1 as [Hk1|Hk1]; last first.
    { exfalso. unfold junk in HJ. destruct (fm_rest f); [by apply HJ in Hk1|by specialize (HJ _ _ Hk1)|done]. }
    destruct HT as (ca & root & S & h & g & HT). apply holds_affine in HT as [(Ht & Hits & Hcd) HT].
    assert (ca = true ∧ n ∈ loaded cleanLRU g) as [-> Hld].
    { apply (entails_holds _ _ _ (tree_fp cb dom domV (mnof f) (lv_tree lv) ca root S h g Ht)) in HT.
      destruct HT as (τ1 & τ2 & -> & Hτ & H1 & (τ3 & τ4 & -> & Hτ' & H2 & H3)). apply lookup_union_Some in Hk1 as [Hk1|Hk1]; [exfalso| |done].
      { apply (entails_holds _ _ _ (stales_notags _)) in H1. by apply H1 in Hk1. }
      unfold tags in H2, H3. destruct ca; [split; [done|]|].
      - apply lookup_union_Some in Hk1 as [Hk1|Hk1]; [|exfalso|done].
        + destruct (big_look _ _ _ H2 _ _ Hk1) as (m & τ & Hm' & Ho & Hk'); [done|]. by destruct (own_look _ _ _ _ _ Ho Hk') as [[= ->] _].
        + destruct (big_look _ _ _ H3 _ _ Hk1) as (m & τ & Hm' & Ho & Hk'); [done|]. by destruct (own_look _ _ _ _ _ Ho Hk') as [_ [=]].
      - exfalso. apply lookup_union_Some in Hk1 as [Hk1|Hk1]; [by apply H2 in Hk1|by apply H3 in Hk1|done]. }
    assert ((wp false (drainerEvict n) (λ _, treeres (mnof f) (lv_tree lv) (lv_items lv) (lv_cond lv)) (λ _, False) ∗ junk (fm_rest f))%I (σt ∪ σj)) as Hwp.
    { exists σt, σj. split_and!; [done|done| |done]. revert HT. apply entails_holds. iIntros "AB".
      iPoseProof (drainerEvict_spec cb dom domV WF (mnof f) Hmn (lv_tree lv) true n root S h g Ht Hld eq_refl with "AB") as "W".
      iApply (wp_wand with "W"). iSplit; [|by iIntros (e) "?"]. iIntros (_) "(%g' & %HX & A & B)".
      destruct HX as (Ht' & Hvw & _). iApply (treeres_intro with "[$A $B]"); [done|by rewrite (vw_strip _ _ Hvw)|by eapply condok_vw]. }
    assert (wp false (drainerEvict n) (λ _, treeres (mnof f) (lv_tree lv) (lv_items lv) (lv_cond lv) ∗ junk (fm_rest f))%I (λ _, False)%I (σt ∪ σj)) as Hwp'.
    { revert Hwp. apply entails_holds. iIntros "[W J]". iApply (wp_wand with "W"). iSplit; [|by iIntros (e) "?"]. iIntros (_) "$". iFrame. }
    pose proof (step_at cb dom domV false w s i f _ none _ _ _ _ HW Hi Hd Hv HB HR Hwp' (gr_drainerEvict _ _ s)) as HP.
    pose proof (gr_drainerEvict none n s) as Hg.
    assert (lv_tree lv ∈ base.dom (trees s)) as Hdom.
    { eapply wi_handle; [exact HW|by eapply elem_of_list_lookup_2|done]. }
    pose proof (g_trees _ _ _ Hg _ Hdom) as Hdom'.
    unfold exec, cmd_post, bind; cbn [run]. unfold step_post in HP. destruct (drainerEvict n s) as [a s'|e s'|[] s']; cbn in Hdom'; try done.
    - destruct HP as (Hq & _ & HF'). split; [by split; [destruct a|apply made_nil]|]. cbn [next_done].
      rewrite -(set_fam_same w i f Hi). apply HF'; [done|]. intros σ0 σ' [_ HS'] _ _ Hle HQ. split; [split|].
      + unfold World.body. by rewrite Hl Hun.
      + by eapply snaps_le.
      + rewrite Hl. by intros lv' [= <-].
    - by destruct HP as (_ & _ & [σ' []] & _).
    - by destruct HP.
  Qed.

  Theorem step_ok w s c : winv w s → legal dom domV w c → cmd_post w s c (exec cb c s).
  Proof using WF.
    intros HW Hl. destruct c.
    - by apply step_NewTree.
    - by apply step_OldTree.
    - by apply step_MapCall.
    - by apply step_Flush.
    - by apply step_Purge.
    - by apply step_Touch.
    - by apply step_TouchItem.
    - by apply step_Prune.
    - by apply step_Discard.
    - by apply step_LayoutReport.
    - by apply step_DimensionsReport.
    - by apply step_Validate.
    - by apply step_Dump.
    - by apply step_FetchLocation.
    - by apply step_Forget.
    - by apply step_UpdateLimits.
    - by apply step_DrainSelect.
    - by apply step_DrainEvict.
  Qed.
  Lemma boot_winv lo hi o : winv world0 (boot lo hi o).
  Proof.
    split; try done.
    - pose proof (reboot_inv lo hi (boot lo hi o : st)) as [H1 H2 H3 H4 H5]. split; try done. 
      destruct H1 as [L HL]. exists L. by destruct HL.
    - cbn. by rewrite !dom_empty_L.
    - constructor.
    - cbn. intros f lv Hf. by apply elem_of_nil in Hf.
    - exists ∅. split; [by intros []|]. apply alldrop_empty.
  Qed.
  Theorem hist_ok w s h s' : steps cb s h s' → winv w s → obeys cmp dom domV w h →
    all_right cmp w h ∧ winv (foldl (next cmp) w h) s'.
  Proof using WF.
    intros Hst. revert w. induction Hst as [s|s c r s1 h s' He Hs IH|s c e s1 h s' He Hs IH|s c s1 lo hi h s' He Hs IH|s lo hi h s' Hs IH]; intros w HW Ho.
    - done.
    - destruct Ho as [Hl Ho]. pose proof (step_ok w s c HW Hl) as HP. rewrite He in HP. destruct HP as [H1 H2].
      destruct (IH _ H2 Ho). done.
    - destruct Ho as [Hl Ho]. pose proof (step_ok w s c HW Hl) as HP. rewrite He in HP. destruct HP as [H1 H2].
      destruct (IH _ H2 Ho). done.
    - destruct Ho as [Hl Ho]. pose proof (step_ok w s c HW Hl) as HP. rewrite He in HP. destruct HP as [H1 H2].
      destruct (IH _ (H2 lo hi) Ho). done.
    - destruct Ho as [_ Ho]. destruct (IH _ (winv_restart cb dom domV _ _ lo hi HW) Ho). done.
  Qed.
End hist.

(** * Opening trees, reports, the drainer; what a tree owns

    Models no code. *)
From Coq Require Import ssreflect Sorted.
From stdpp Require Import prelude list gmap.
From iris.bi Require Import bi.
From iris.proofmode Require Import proofmode.
From Verif Require Import Spec SpecFacts Llrb LlrbApi BTree HProp Lru Wp Kv Codec Ghost Order PsTree Rep Load Search Update Plug Insert Borrow Merge Rebal Api Walk Touch Maint Report.
Open Scope Z_scope.

Section open.
  Context {K V : Type}.
  Variable cb : callbacks K V.
  Variable dom : K → Prop.
  Variable domV : V → Prop.
  Hypothesis WF : wf_cb cb dom domV.
  Variable mn : nat.
  Hypothesis MN : (2 ≤ mn)%nat.
  Variable t : tid.
  Variable ca : bool.
  Notation cmp := (cb_cmp cb).
  Notation M := (M K V).
  Notation hProp := (hProp K V).
  Notation bval := (bval V).
  Notation gt := (gt K V).
  Notation frame := (frame K V).
  Let ORD := wf_ord _ _ _ WF.
  Notation rep := (rep cb dom mn t ca).
  Notation reps := (reps cb dom mn t ca).
  Notation isTR := (isTR mn t ca).
  Notation inode := (inode cb dom mn t ca).
  Notation inodeU := (inodeU cb dom t ca).
  Notation lnode := (lnode cb dom mn t ca).
  Notation lnode' := (lnode' cb dom mn t ca).
  Notation nrec := (nrec t).
  Notation good := (good cmp dom domV).
  Notation ksorted := (ksorted cmp dom).
  Notation "'let*' x := m 'in' e" := (bind m (fun x => e))
    (at level 200, x name, m at level 100, e at level 200, right associativity).
  Notation "'let*' ' x := m 'in' e" := (bind m (fun x => e))
    (at level 200, x strict pattern, m at level 100, e at level 200, right associativity).
  Notation "m ;; e" := (bind m (fun _ : unit => e))
    (at level 100, e at level 200, right associativity, format "m ;;  '/' e").
  Implicit Types (g c : gt) (n : nid) (f : frame) (C : list frame) (h : nat).
  Notation whole := (whole cb dom mn t ca).
  Notation ctx := (ctx cb dom mn t ca).
  Notation knode := (knode cb dom t).
  Notation pre := (pre cb dom mn t ca).

  Implicit Types (L R : list gt) (x : ctag).

  Notation cur := (cur cb dom mn t ca).
  Notation okc := (okc mn).
  Notation goodW := (goodW cb dom domV).
  Notation treeok := (treeok cb dom domV mn).
  Notation framesmall := (framesmall (K:=K) (V:=V)).
  Notation sub := (sub cb dom domV mn).
  Notation TRs := (TRs mn t ca).


  Lemma tree_seen root h g g' : treeok root h g → seen g g' → treeok root h g'.
  Proof. intros Ht [_ Hs]. by eapply tree_same. Qed.

  (** *** FetchLayoutReport *)
  Lemma bt_FetchLayoutReport_spec root S h g : treeok root h g →
    isTR root S ∗ whole h g ⊢ wp true (bt_FetchLayoutReport cb t)
      (λ R : report, <affine> ⌜R = foldl addrep ∅ (vlocs (vw g))⌝ ∗ ∃ g', <affine> ⌜treeok root h g' ∧ vw g' = vw g⌝ ∗ isTR root S ∗ whole h g')
      (λ e, <affine> ⌜e = EIO⌝ ∗ ∃ g', <affine> ⌜treeok root h g' ∧ vw g' = vw g⌝ ∗ isTR root S ∗ whole h g').
  Proof using WF MN.
    iIntros (Ht) "[HT Hw]". iApply (start_rep cb dom domV WF mn MN t ca true (λ fuel rt, updateLayoutReport cb fuel t rt ∅) with "HT Hw"); [done|].
    iIntros (fuel [Hf _]) "Hp HH". rewrite (layout_spec cb dom domV WF mn MN t ca root S fuel); [|lia|by eapply sub_tree].
    iApply (wp_wand with "HH"). iSplit.
    - iIntros (R) "[$ (%g' & %Hs & HT & Hr)]". iExists g'. iFrame. rewrite (proj1 (proj2 Hs)). iFrame. iPureIntro.
      split; [by eapply tree_seen|apply Hs].
    - iIntros (R) "[$ (%g' & %Hs & HT & Hr)]". iExists g'. iFrame. rewrite (proj1 (proj2 Hs)). iFrame. iPureIntro.
      split; [by eapply tree_seen|apply Hs].
  Qed.
  (** *** FetchDimensionsReport *)
  Lemma bt_FetchDimensionsReport_spec root S h g : treeok root h g →
    isTR root S ∗ whole h g ⊢ wp true (bt_FetchDimensionsReport cb t)
      (λ d, <affine> ⌜d = Dimensions (Z.of_nat mn) (2 * Z.of_nat mn) (gsz g) (1 + Z.of_nat h)⌝ ∗ ∃ g', <affine> ⌜treeok root h g' ∧ vw g' = vw g⌝ ∗ isTR root S ∗ whole h g')
      (λ e, <affine> ⌜e = EIO⌝ ∗ ∃ g', <affine> ⌜treeok root h g' ∧ vw g' = vw g⌝ ∗ isTR root S ∗ whole h g').
  Proof using WF MN.
    iIntros (Ht) "[HT Hw]". iApply (start_rep cb dom domV WF mn MN t ca true (λ fuel rt, dimLoop cb fuel t rt (Dimensions 0 0 0 0)) with "HT Hw"); [done|].
    iIntros (fuel [Hf _]) "Hp HH". rewrite (dim_spec cb dom domV WF mn MN t ca root S h fuel); [|lia|by eapply sub_tree].
    iApply (wp_wand with "HH"). iSplit.
    - iIntros (R) "[$ (%g' & %Hs & HT & Hr)]". iExists g'. iFrame. rewrite (proj1 (proj2 Hs)). iFrame. iPureIntro.
      split; [by eapply tree_seen|apply Hs].
    - iIntros (R) "[$ (%g' & %Hs & HT & Hr)]". iExists g'. iFrame. rewrite (proj1 (proj2 Hs)). iFrame. iPureIntro.
      split; [by eapply tree_seen|apply Hs].
  Qed.
  (** *** Validate *)
  Lemma bt_Validate_spec root S h g : treeok root h g →
    isTR root S ∗ whole h g ⊢ wp true (bt_Validate cb t)
      (λ ok, <affine> ⌜ok = true⌝ ∗ ∃ g', <affine> ⌜treeok root h g' ∧ vw g' = vw g⌝ ∗ isTR root S ∗ whole h g')
      (λ e, <affine> ⌜e = EIO⌝ ∗ ∃ g', <affine> ⌜treeok root h g' ∧ vw g' = vw g⌝ ∗ isTR root S ∗ whole h g').
  Proof using WF MN.
    iIntros (Ht) "[HT Hw]". iApply (start_rep cb dom domV WF mn MN t ca true (λ fuel rt, validateNode cb fuel fuel t rt) with "HT Hw"); [done|].
    iIntros (fuel [Hf Hc]) "Hp HH".
    rewrite (validateNode_spec cb dom domV WF mn MN t ca root S fuel fuel); [|lia|split; [by eapply sub_tree|done]|lia].
    iApply (wp_wand with "HH"). iSplit.
    - iIntros (R) "[$ (%g' & %Hs & HT & Hr)]". iExists g'. iFrame. rewrite (proj1 (proj2 Hs)). iFrame. iPureIntro.
      split; [by eapply tree_seen|apply Hs].
    - iIntros (R) "[$ (%g' & %Hs & HT & Hr)]". iExists g'. iFrame. rewrite (proj1 (proj2 Hs)). iFrame. iPureIntro.
      split; [by eapply tree_seen|apply Hs].
  Qed.

  (** *** Purge(true) of a modified tree *)
  Lemma bt_Purge_dirty root S h g : treeok root h g → gloc g = None →
    isTR root S ∗ whole h g ⊢ wp false (bt_Purge (K:=K) (V:=V) t true) (λ _, False)
      (λ e, <affine> ⌜e = ELogic⌝ ∗ isTR root S ∗ whole h g).
  Proof using WF MN.
    iIntros (Ht Hg) "[HT Hw]". iApply (start_rep cb dom domV WF mn MN t ca false (λ fuel rt, purgeNode fuel t rt true) with "HT Hw"); [done|].
    iIntros (fuel [Hf _]) "Hp [HT Hr]". destruct fuel as [|fuel]; [lia|]. cbn [purgeNode].
    iDestruct (rep_get with "Hr") as (r) "(HN & %Hr & Hr)".
    iApply wp_bind. iApply (wp_getN with "HN"). iIntros "HN". iSpecialize ("Hr" with "HN").
    destruct Hr as (R1 & R2 & R3 & R4 & R5 & R6). pose proof (tk_pend _ _ _ _ _ _ _ Ht) as Hpe.
    assert (b_loaded r = true ∧ b_dirty r = true) as [-> ->].
    { destruct g as [n d|n st kvs|n st ks cs]; [done|..]; destruct R6 as (-> & _ & -> & _); cbn in Hpe; unfold pst in Hpe; by destruct st. }
    cbn [negb andb]. iApply wp_fail; [done|]. iSplit; [done|]. iFrame.
  Qed.

  (** ** The loaded nodes, by list *)
  Definition tagged (x : ctag) n (st : nst) : list nid := if decide (sttag st = x) then [n] else [].
  Fixpoint loaded (x : ctag) (g : gt) : list nid :=
    match g with
    | GD _ _ => []
    | GL n st _ => tagged x n st
    | GI n st _ cs => tagged x n st ++ mjoin (loaded x <$> cs)
    end.
  Lemma tagged_in x n n' st : n' ∈ tagged x n st → n' = n ∧ sttag st = x.
  Proof. unfold tagged. case_decide; [|by intros ?%elem_of_nil]. by intros ->%elem_of_list_singleton. Qed.

  (** going down to a loaded node *)
  Lemma find_loaded x W root S n : ∀ g h C, okc W h C g → n ∈ loaded x g →
    ∃ h' C' g', gid g' = n ∧ isloaded g' ∧ okc W h' C' g' ∧ (h + length C)%nat = (h' + length C')%nat ∧
      (cur root S h C g ⊣⊢ cur root S h' C' g') ∧ fill C g = fill C' g' ∧ (gloc g' = None ↔ x ≠ cleanLRU).
  Proof using MN.
    assert (∀ h C n0 st g, okc W h C g → (∃ kvs, g = GL n0 st kvs) ∨ (∃ ks cs, g = GI n0 st ks cs) → sttag st = x → gloc g = None ↔ x ≠ cleanLRU) as Hloc.
    { intros h C n0 st g Hok Hg Hx. pose proof (ok_pend _ _ _ _ _ Hok) as Hp. subst x.
      assert (stok st = true) as Hst.
      { destruct Hg as [(kvs & ->)|(ks & cs & ->)]; cbn in Hp; unfold pst in Hp; destruct (stok st); done. }
      destruct Hg as [(kvs & ->)|(ks & cs & ->)]; destruct st; cbn; done. }
    induction g as [n0 d|n0 st kvs|n0 st ks cs IH] using gt_ind'; intros h C Hok Hn; [by apply elem_of_nil in Hn|..].
    - cbn [loaded] in Hn. apply tagged_in in Hn as [-> Hx]. exists h, C, (GL n0 st kvs). split_and!; try done. eapply Hloc; eauto.
    - cbn [loaded] in Hn. apply elem_of_app in Hn as [Hn|Hn].
      { apply tagged_in in Hn as [-> Hx]. exists h, C, (GI n0 st ks cs). split_and!; try done. eapply Hloc; eauto. }
      destruct h as [|h]; [by destruct Hok as [_ _ ? _ _]|].
      apply elem_of_list_join in Hn as (l & Hn & Hl). apply elem_of_list_fmap in Hl as (c & -> & Hc).
      rewrite Forall_forall in IH. apply elem_of_list_lookup in Hc as (j & Hj).
      destruct (okc_kids mn MN _ _ _ _ _ _ _ Hok) as (Hlen & _).
      pose proof (okc_down mn MN _ _ _ _ _ _ _ _ _ Hok Hj) as Hok'.
      destruct (IH c (elem_of_list_lookup_2 _ _ _ Hj) h _ Hok' Hn) as (h' & C' & g' & ? & ? & ? & Hh & Hcur & Hfi & ?).
      exists h', C', g'. split_and!; try done.
      + cbn in Hh |- *. lia.
      + rewrite -Hcur. by apply cur_down.
      + rewrite -Hfi. cbn [fill]. f_equal. by destruct (zip1_at n0 st ks cs j c Hj Hlen) as (Hz & _).
  Qed.

  Lemma loaded_zip x f g : Permutation (loaded x (zip1 f g))
    (loaded x g ++ tagged x (f_n f) (f_st f) ++ mjoin (loaded x <$> f_ls f) ++ mjoin (loaded x <$> f_rs f)).
  Proof.
    unfold zip1. cbn [loaded]. rewrite fmap_app join_app fmap_cons. cbn. solve_Permutation.
  Qed.
  Lemma loaded_fill x C : ∃ L : list nid, ∀ g, Permutation (loaded x (fill C g)) (loaded x g ++ L).
  Proof.
    induction C as [|f C [L IH]].
    - exists []. intros g. by rewrite app_nil_r.
    - eexists. intros g. cbn [fill]. rewrite (IH (zip1 f g)) loaded_zip -app_assoc. done.
  Qed.
  Lemma loaded_gloc g : cleanok g → pend g = [] → is_Some (gloc g) → loaded dirtyLRU g = [].
  Proof.
    induction g as [n0 d|n0 st kvs|n0 st ks cs IH] using gt_ind'; intros Hok Hp Hg; [done|..].
    - destruct st; by destruct Hg.
    - destruct st as [l| | | |]; try by destruct Hg. destruct Hok as [Hcl Hok]. apply cleanok_all in Hok. cbn in Hp |- *.
      rewrite Forall_forall in Hcl. rewrite Forall_forall in IH.
      assert (∀ c, c ∈ cs → loaded dirtyLRU c = []) as HX.
      { intros c Hc. apply IH; [done| | |by apply Hcl].
        - rewrite Forall_forall in Hok. by apply Hok.
        - apply elem_of_nil_inv. intros x Hx. assert (x ∈ mjoin (pend <$> cs)) as HY; [|rewrite Hp in HY; by apply elem_of_nil in HY].
          apply elem_of_list_join. exists (pend c). split; [done|]. by apply elem_of_list_fmap_1. }
      clear -HX. induction cs as [|c cs IH]; [done|]. cbn. rewrite HX; [|left]. apply IH. intros c' Hc. apply HX. by right.
  Qed.
  Lemma wp_nopanic io {A} (m : M A) Q (Er : err → hProp) : wp io m Q (λ _, False) ⊢
    wp io (Try m (λ _, panic)) Q Er.
  Proof. iIntros "H". iApply wp_try. iApply (wp_wand with "H"). iSplit; [by iIntros (?) "?"|by iIntros (?) "[]"]. Qed.

  Lemma rep_tag h par ir g : isloaded g → is_Some (gloc g) →
    rep h par ir g ⊢ isT (gid g) (tg ca cleanLRU) ∗ (isT (gid g) (tg ca cleanLRU) -∗ rep h par ir g).
  Proof.
    intros Hl Hg. destruct g as [|n st kvs|n st ks cs]; [done|..]; destruct st; cbn in Hg; try (by destruct Hg).
    - destruct h; [|by iIntros "[]"]. iIntros "(%kv & %left & %ps & %Hkv & HN & $ & Hr)". iIntros "Ht". iExists kv, left, ps. by iFrame.
    - destruct h; [by iIntros "[]"|]. rewrite rep_GI. iIntros "[(%kv & %b & %Hkv & HN & $ & Hp & Hb) $]". iIntros "Ht". iExists kv, b. by iFrame.
  Qed.

  (** *** The drainer *)
  Lemma drainerEvict_spec n root S h g : treeok root h g → n ∈ loaded cleanLRU g → ca = true →
    isTR root S ∗ whole h g ⊢ wp false (drainerEvict n)
      (λ _, ∃ g', <affine> ⌜treeok root h g' ∧ vw g' = vw g ∧ (∃ X, n ∈ X ∧ Permutation (loaded cleanLRU g) (X ++ loaded cleanLRU g')) ∧
         Permutation (loaded dirtyLRU g') (loaded dirtyLRU g)⌝ ∗ isTR root S ∗ whole h g') (λ e, False).
  Proof using WF MN.
    iIntros (Ht Hn Hca) "[HT Hw]". unfold drainerEvict.
    iApply (wp_fuel with "Hw"); [exact MN|]. iIntros (fuel Hf) "Hw".
    destruct (tree_okc _ _ _ _ _ _ _ Ht) as [Hok _].
    destruct (find_loaded cleanLRU (vw g) root S n g h [] Hok Hn) as (h' & C' & gn & Hid & Hl & Hok' & Hh & Hcur & Hfi & Hgl).
    iDestruct (tree_cur with "HT Hw") as "Hc". rewrite Hcur. iDestruct "Hc" as "(HT & Hc & Hr)".
    assert (is_Some (gloc gn)) as Hg. { destruct (gloc gn); [by eexists|]. by destruct (proj1 Hgl eq_refl). }
    iDestruct (rep_cleanok with "Hr") as %Hck.
    iDestruct (rep_tag with "Hr") as "[Ht Hr]"; [done..|]. rewrite Hid. assert (tg ca cleanLRU = cleanLRU) as Htg by by rewrite /tg Hca. rewrite Htg.
    iApply wp_bind. iApply (wp_getC with "Ht"). iIntros (x Hx) "Ht". iSpecialize ("Hr" with "Ht").
    iDestruct (rep_get with "Hr") as (r0) "(HN & %Hr0 & Hr)". rewrite Hid.
    iApply wp_bind. iApply (wp_getN with "HN"). iIntros "HN". iSpecialize ("Hr" with "HN").
    rewrite decide_True //. assert (b_tree r0 = t) as -> by apply Hr0. rewrite -Hid.
    pose proof (ok_pend _ _ _ _ _ Hok') as Hp.
    iApply wp_nopanic. iCombine "HT Hr" as "HH".
    rewrite (purge_spec cb dom mn MN t ca fuel true); [|pose proof (cnt_height _ _ _ _ (ok_wf _ _ _ _ _ Hok')); pose proof (okc_cnt _ _ _ _ _ Hok') as HX; rewrite strip_vw in HX; lia|done].
    iApply (wp_wand with "HH"). iSplit; last first.
    { iIntros (e) "[%He HX]". destruct He as (_ & _ & He). rewrite He in Hg. by destruct Hg. }
    iIntros (_) "(%g' & %Hpu & HT & Hr)". destruct Hpu as (Hv & Hp' & HD & _). specialize (HD Hg).
    iExists (fill C' g').
    assert (vw (fill C' g') = vw g) as Hvw. { rewrite (vw_fill _ _ _ Hv) -Hfi. done. }
    iAssert (whole (h' + length C') (fill C' g')) with "[Hc Hr]" as "Hw".
    { iApply fill_ctx; [by eapply wfC_lens, (ok_wfC _ _ _ _ _ Hok')|]. iFrame "Hr".
      rewrite (vw_info gn g') //. }
    rewrite -Hh. cbn [length]. rewrite Nat.add_0_r. iFrame. iPureIntro. split_and!.
    - eapply tree_vw; [done|done|]. apply Permutation_nil. rewrite pend_fill Hp'. cbn. by rewrite (ok_pendC _ _ _ _ _ Hok').
    - done.
    - change g with (fill [] g). rewrite Hfi. destruct (loaded_fill cleanLRU C') as [L HL].
      exists (loaded cleanLRU gn). rewrite (HL g') (HL gn). destruct g' as [? d'| |]; [|done..]. cbn [loaded app]. split; [|done].
      destruct gn as [|n' st kvs|n' st ks cs]; [done|..]; destruct st; cbn in Hg; try (by destruct Hg); cbn in Hid; subst n';
        cbn [loaded]; [left|]. apply elem_of_app. left. left.
    - change g with (fill [] g). rewrite Hfi. destruct (loaded_fill dirtyLRU C') as [L HL]. rewrite (HL g') (HL gn).
      rewrite (loaded_gloc gn) //. by destruct g' as [? d'| |].
  Qed.

  (** ** What a tree owns *)
  Lemma gloc_vw g l : gloc g = Some l → ∃ d, vw g = VC (gid g) d ∧ dloc d = l.
  Proof.
    rewrite -vloc_vw -vid_vw. destruct (vw g); cbn; intros ?; simplify_eq. by eexists.
  Qed.
  Lemma refok_clean (cs : list gt) refs : Forall (λ c, is_Some (gloc c)) cs → Forall2 refok (ginfo <$> cs) refs →
    dref <$> (vdt <$> (vw <$> cs)) = refs.
  Proof.
    intros H. revert refs. induction H as [|c cs [l Hc] _ IH]; intros refs; [by inversion 1|].
    rewrite !fmap_cons. inversion 1 as [|? r ? refs' [H1 H2] H3]; subst. f_equal; [|by apply IH].
    destruct (gloc_vw _ _ Hc) as (d & Hd & <-). rewrite Hd. cbn. cbn in H1, H2. rewrite Hc in H1. destruct r as [r1 r2]. simplify_eq/=.
    unfold dref. f_equal. unfold gsz. by rewrite -strip_vw Hd.
  Qed.
  (** a completely stored tree can be read back from its location *)
  Lemma rep_dsk : ∀ g h par ir n d, vw g = VC n d → rep h par ir g ⊢ dsk cb h (mxof mn ir) d ∗ True.
  Proof.
    induction g as [n0 d0|n0 st kvs|n0 st ks cs IH] using gt_ind'; intros h par ir n d Hv.
    - cbn in Hv. injection Hv as -> ->. rewrite rep_GD. iIntros "(%r & _ & _ & _ & $)".
    - destruct st as [l| | | |]; try done. cbn in Hv. injection Hv as -> <-. destruct h; [|by iIntros "[]"].
      iIntros "(%kv & %left & %ps & _ & _ & HT & $)".
    - destruct st as [l| | | |]; try done. cbn in Hv. injection Hv as -> <-. destruct h as [|h]; [by iIntros "[]"|].
      iIntros "Hr". iDestruct (rep_cleanok with "Hr") as %[Hcl _]. rewrite rep_GI.
      iDestruct "Hr" as "[(%kv & %b & (%Hkv & %Hlen & _) & _ & HT & _ & Hb) Hk]". cbn [innerblk].
      iDestruct "Hb" as (refs) "[Hb %Hrefs]". destruct Hrefs as (H1 & H2 & H3 & H4). rewrite fmap_length in Hlen.
      assert (csz (dstrip (DI l ks (vdt <$> (vw <$> cs)))) = isum (ginfo <$> cs)) as Hsz.
      { change (dstrip (DI l ks (vdt <$> (vw <$> cs)))) with (CI ks (dstrip <$> (vdt <$> (vw <$> cs)))).
        rewrite -(list_fmap_compose vw vdt) GD_stripped. by rewrite -(gsz_GI n (Clean l) ks). }
      cbn [Rep.dsk]. rewrite Hsz (refok_clean cs refs) //. iFrame "Hb". rewrite !fmap_length.
      iAssert (([∗ list] x ∈ (vdt <$> (vw <$> cs)), dsk cb h None x) ∗ True)%I with "[Hk]" as "[$ _]"; [|by iSplit].
      clear -IH Hcl. unfold Rep.reps. iInduction cs as [|c cs] "IHc"; [by iSplit|]. rewrite !fmap_cons !big_sepL_cons.
      apply Forall_cons in IH as [IH IHs]. apply Forall_cons in Hcl as [[l' Hl] Hcl]. destruct (gloc_vw _ _ Hl) as (d' & Hd & _).
      iDestruct "Hk" as "[Hc Hk]". rewrite (IH h (Some n) false _ _ Hd). iDestruct "Hc" as "[Hc _]". rewrite Hd. iFrame "Hc".
      iApply ("IHc" with "[//] [//] Hk").
  Qed.

  Lemma dsk_fp h mx d : dsk cb h mx d ⊢ stales (dlocs d).
  Proof.
    revert mx d. induction h as [|h IH]; intros mx [l kvs|l ks ds]; cbn; try by iIntros "[]".
    - iIntros "[H _]". iSplit; [|done]. by iExists _.
    - iIntros "(H & _ & Hd)". iSplitL "H"; [by iExists _|].
      iInduction ds as [|d ds] "IHd"; cbn; [done|]. iDestruct "Hd" as "[H Hd]".
      rewrite big_sepL_app. iDestruct (IH with "H") as "$". iApply ("IHd" with "Hd").
  Qed.
  Definition tags x (l : list nid) : hProp := (if ca then [∗ list] n ∈ l, isT n x else emp)%I.
  Lemma tags_app x (l1 l2 : list nid) : tags x (l1 ++ l2) ⊣⊢ tags x l1 ∗ tags x l2.
  Proof. unfold tags. destruct ca; [by rewrite big_sepL_app|by rewrite left_id]. Qed.
  Lemma tags_nil x : tags x [] ⊣⊢ emp.
  Proof. unfold tags. by destruct ca. Qed.
  Lemma tags_st n st : stok st = true → isT n (tg ca (sttag st)) ⊢ tags cleanLRU (tagged cleanLRU n st) ∗ tags dirtyLRU (tagged dirtyLRU n st).
  Proof.
    intros Hst. unfold tags, tagged, tg. destruct st; try done; cbn; destruct ca; cbn; iIntros "H"; iFrame; auto.
  Qed.
  Lemma stales_app (l1 l2 : list loc) : stales (l1 ++ l2) ⊣⊢ (stales l1 ∗ stales l2 : hProp).
  Proof. unfold stales. by rewrite big_sepL_app. Qed.
  Lemma rep_fp : ∀ g h par ir, pend g = [] →
    rep h par ir g ⊢ stales (vlocs (vw g)) ∗ tags cleanLRU (loaded cleanLRU g) ∗ tags dirtyLRU (loaded dirtyLRU g).
  Proof.
    induction g as [n d|n st kvs|n st ks cs IH] using gt_ind'; intros h par ir Hp.
    - rewrite rep_GD. iIntros "(%r & _ & _ & _ & Hd)". cbn. rewrite dsk_fp. iFrame. rewrite !tags_nil. auto.
    - destruct h; [|by iIntros "[]"]. iIntros "(%kv & %l & %ps & _ & _ & HT & Hb)". cbn [loaded].
      assert (stok st = true) as Hst by by cbn in Hp; unfold pst in Hp; destruct (stok st).
      rewrite (tags_st _ _ Hst). iFrame "HT". destruct st as [l0| | | |]; try done; cbn.
      + iDestruct "Hb" as "[Hb _]". iSplit; [|done]. by iExists _.
      + by rewrite held_none.
    - destruct h; [by iIntros "[]"|]. iIntros "Hr". iDestruct (rep_cleanok with "Hr") as %Hcl. rewrite rep_GI.
      iDestruct "Hr" as "[(%kv & %b & _ & _ & HT & _ & Hb) Hr]". cbn [loaded].
      assert (stok st = true) as Hst by by cbn in Hp; unfold pst in Hp; destruct (stok st).
      rewrite (gi_locs n st ks cs) //; [|by unfold pst; rewrite Hst].
      assert (Forall (λ c, pend c = []) cs) as Hps.
      { cbn in Hp. unfold pst in Hp. rewrite Hst in Hp. cbn in Hp. clear -Hp. induction cs as [|c cs IH]; [done|].
        cbn in Hp. apply app_eq_nil in Hp as [? ?]. constructor; [done|by apply IH]. }
      iAssert (stales (mjoin (vlocs <$> (vw <$> cs))) ∗ tags cleanLRU (mjoin (loaded cleanLRU <$> cs)) ∗ tags dirtyLRU (mjoin (loaded dirtyLRU <$> cs)))%I with "[Hr]" as "(Hs & Hc & Hd)".
      { clear -IH Hps. unfold Rep.reps. iInduction cs as [|c cs] "IHc"; [cbn; rewrite !tags_nil; auto|].
        rewrite !fmap_cons big_sepL_cons. cbn [mjoin list_join]. rewrite stales_app !tags_app.
        apply Forall_cons in IH as [IH IHs]. apply Forall_cons in Hps as [Hpc Hps].
        iDestruct "Hr" as "[Hc Hr]". rewrite (IH _ _ _ Hpc). iDestruct "Hc" as "($ & $ & $)". iApply ("IHc" with "[//] [//] Hr"). }
      rewrite (tags_st _ _ Hst). rewrite !tags_app. iFrame "Hc Hd HT". rewrite stales_app. iFrame "Hs".
      destruct st as [l0| | | |]; try done; cbn.
      + iDestruct "Hb" as (refs) "[Hb _]". iSplit; [|done]. by iExists _.
      + by rewrite held_none.
  Qed.
  Lemma tree_fp root S h g : treeok root h g → isTR root S ∗ whole h g ⊢
    stales (vlocs (vw g) ++ S) ∗ tags cleanLRU (loaded cleanLRU g) ∗ tags dirtyLRU (loaded dirtyLRU g).
  Proof.
    iIntros (Ht) "[[_ HS] [_ Hr]]". rewrite stales_app rep_fp; [|apply Ht]. iDestruct "Hr" as "($ & $ & $)". done.
  Qed.
End open.

(** ** New and Old *)
Section opening.
  Context {K V : Type}.
  Variable cb : callbacks K V.
  Variable dom : K → Prop.
  Variable domV : V → Prop.
  Hypothesis WF : wf_cb cb dom domV.
  Variable mn : nat.
  Hypothesis MN : (2 ≤ mn)%nat.
  Notation cmp := (cb_cmp cb).
  Notation treeok := (treeok cb dom domV mn).

  Lemma new_treeok rt : treeok rt 0 (GL rt Dirty []).
  Proof. split; [done|cbn; lia|split; constructor|done]. Qed.
  Lemma bt_New_spec io attach :
    ⊢ wp io (bt_New (2 * Z.of_nat mn) attach)
      (λ t, ∃ rt, isTR mn t attach rt [] ∗ whole cb dom mn t attach 0 (GL rt Dirty [])) (λ _, False).
  Proof using MN.
    unfold bt_New. rewrite (Z.mul_comm 2) Z.div_mul //.
    destruct (Z.ltb_spec (Z.of_nat mn * 2) 4); [lia|]. rewrite (Z.mul_comm 2) Z.eqb_refl. cbn [orb negb].
    iApply wp_bind. iApply wp_newTree. iIntros (t) "HR".
    iApply wp_bind. iApply wp_newNode. iIntros (rt) "HN HP HT".
    iApply wp_bind. iApply (wp_modT with "HR"). iIntros "HR".
    iApply wp_bind. iApply (wp_initNodeAsEvicted with "HR HT"). iIntros "HR HT".
    iApply wp_bind. iApply (wp_markNodeDirty _ _ _ _ _ noLRU with "HR HN [HT]").
    { unfold ctagof. cbn. by destruct attach. }
    iIntros "HR HN HT". iApply wp_ret. iExists rt. cbn. iSplitL "HR".
    { unfold isTR, trec, stale_of. cbn. rewrite (Z.mul_comm 2). by iFrame. }
    unfold whole. iSplitL "HP"; [by iExists _|]. iExists E, None, None. iSplit; [iPureIntro; apply iskv_E|].
    iFrame "HN HT". by iLeft.
  Qed.
  Lemma bt_Old_spec attach h d : good cmp dom domV (toks (dstrip d)) → wfo mn (rlow h) h (dstrip d) →
    dsk cb h (Some (2 * Z.of_nat mn)) d ⊢ wp true (bt_Old cb (dloc d) attach)
      (λ t, ∃ root g, <affine> ⌜treeok root h g ∧ vw g = VC root d⌝ ∗ isTR mn t attach root [] ∗ whole cb dom mn t attach h g)
      (λ e, <affine> ⌜e = EIO⌝ ∗ dsk cb h (Some (2 * Z.of_nat mn)) d).
  Proof using WF.
    iIntros (Hg Hw) "Hd". unfold bt_Old.
    iApply wp_bind. iApply wp_newTree. iIntros (t) "HR".
    iApply wp_bind. iApply wp_newNode. iIntros (rt) "HN HP HT".
    iApply wp_bind. iApply (wp_modT with "HR"). iIntros "HR".
    iApply wp_bind. iApply (wp_initNodeAsEvicted with "HR HT"). iIntros "HR HT".
    iApply wp_bind. iApply (loadNode_spec cb dom domV WF mn t attach h None true rt d with "HR HN HT Hd"); [done|done|done|by eexists|].
    iSplit.
    - iIntros (g [Hv Hl]) "HR Hr". iApply wp_ret. iDestruct (rep_cleanok with "Hr") as %Hcl. iExists rt, g.
      assert (gid g = rt) as Hid by (rewrite -vid_vw Hv; done). iSplit.
      { iPureIntro. split; [|done]. split; [done|by rewrite -strip_vw Hv..|]. by rewrite (pend_vw _ Hcl) Hv. }
      unfold isTR, whole, stales. rewrite Hid. iFrame "HR Hr". iSplitR; [by cbn|]. by iExists _.
    - iIntros "_ _ _ $". done.
  Qed.
End opening.

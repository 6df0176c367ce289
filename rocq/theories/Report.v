(** * Reports: dimensions, layout, validation

    Models no code. *)
From Coq Require Import ssreflect Sorted.
From stdpp Require Import prelude list gmap.
From iris.bi Require Import bi.
From iris.proofmode Require Import proofmode.
From Verif Require Import Spec SpecFacts Llrb LlrbApi BTree HProp Lru Wp Kv Codec Ghost Order PsTree Rep Load Search Update Plug Insert Borrow Merge Rebal Api Walk Touch Maint.
Open Scope Z_scope.

Section report.
  Context {K V : Type}.
  Variable cb : callbacks K V.
  Variable dom : K → Prop.
  Variable domV : V → Prop.
  Hypothesis WF : wf_cb cb dom domV.
  Variable mn : nat.
  Hypothesis MN : (2 ≤ mn)%nat.
  Variable t : tid.
  Variable ca : bool.
  Notation cmp := (cb_cmp cb).
  Notation M := (M K V).
  Notation hProp := (hProp K V).
  Notation bval := (bval V).
  Notation gt := (gt K V).
  Notation frame := (frame K V).
  Let ORD := wf_ord _ _ _ WF.
  Notation rep := (rep cb dom mn t ca).
  Notation reps := (reps cb dom mn t ca).
  Notation isTR := (isTR mn t ca).
  Notation inode := (inode cb dom mn t ca).
  Notation inodeU := (inodeU cb dom t ca).
  Notation lnode := (lnode cb dom mn t ca).
  Notation lnode' := (lnode' cb dom mn t ca).
  Notation nrec := (nrec t).
  Notation good := (good cmp dom domV).
  Notation ksorted := (ksorted cmp dom).
  Notation "'let*' x := m 'in' e" := (bind m (fun x => e))
    (at level 200, x name, m at level 100, e at level 200, right associativity).
  Notation "'let*' ' x := m 'in' e" := (bind m (fun x => e))
    (at level 200, x strict pattern, m at level 100, e at level 200, right associativity).
  Notation "m ;; e" := (bind m (fun _ : unit => e))
    (at level 100, e at level 200, right associativity, format "m ;;  '/' e").
  Implicit Types (g c : gt) (n : nid) (f : frame) (C : list frame) (h : nat).
  Notation whole := (whole cb dom mn t ca).
  Notation ctx := (ctx cb dom mn t ca).
  Notation knode := (knode cb dom t).
  Notation pre := (pre cb dom mn t ca).

  Implicit Types (L R : list gt) (x y : gt).

  Notation cur := (cur cb dom mn t ca).
  Notation okc := (okc mn).
  Notation goodW := (goodW cb dom domV).
  Notation treeok := (treeok cb dom domV mn).
  Notation framesmall := (framesmall (K:=K) (V:=V)).
  Notation sub := (sub cb dom domV mn).
  Notation TRs := (TRs mn t ca).

  (** unchanged except for which unmodified nodes are in memory *)
  Definition seen g g' : Prop := vw g' = vw g ∧ same g g'.
  Lemma seen_refl g : pend g = [] → seen g g.
  Proof. done. Qed.
  Lemma seen_trans g1 g2 g3 : seen g1 g2 → seen g2 g3 → seen g1 g3.
  Proof. intros [H1 H2] [H3 H4]. split; [congruence|by eapply same_trans]. Qed.
  Lemma seen_vws cs cs' : Forall2 seen cs cs' → vw <$> cs' = vw <$> cs.
  Proof. induction 1 as [|c c' cs cs' (H&_) _ IH]; [done|]. by rewrite !fmap_cons H IH. Qed.
  Lemma seen_same cs cs' : Forall2 seen cs cs' → Forall2 same cs cs'.
  Proof. intros H. eapply Forall2_impl; [exact H|]. by intros ?? []. Qed.
  Lemma seen_GI n st ks cs cs' : Forall2 seen cs cs' → pend (GI n st ks cs) = [] → seen (GI n st ks cs) (GI n st ks cs').
  Proof.
    intros H Hp. split; [by apply vw_GI, seen_vws|]. apply seen_same in H. cbn in Hp. apply app_eq_nil in Hp as [Hp _].
    split_and!; [done|cbn; by rewrite (same_strips _ _ H)|cbn; by rewrite (same_pend _ _ H) Hp].
  Qed.
  Lemma seen_sub h g g' : sub h g → seen g g' → sub h g'.
  Proof. intros H [_ H']. by eapply sub_same. Qed.
  Lemma seen_tree root h g g' : treeok root h g → seen g g' → treeok root h g'.
  Proof. intros H [_ H']. by eapply tree_same. Qed.
  Lemma visit_seen mark h par ir g root S Q E : sub h g →
    isTR root S -∗ rep h par ir g -∗
    ((∀ g' (_ : seen g g' ∧ sub h g' ∧ isloaded g'), isTR root S -∗ rep h par ir g' -∗ Q tt) ∧
     (isTR root S -∗ rep h par ir g -∗ E EIO)) -∗
    wp true (visit cb mark t (gid g)) Q E.
  Proof using WF MN.
    iIntros (Hs) "HT Hr H". iApply (visit_sub cb dom domV WF mn MN with "HT Hr"); [done|]. iSplit; [|by iDestruct "H" as "[_ $]"].
    iIntros (g' (H1 & H2 & H3 & H4)) "HT Hr". iDestruct "H" as "[H _]".
    assert (seen g g' ∧ sub h g' ∧ isloaded g') as HX by done. iApply ("H" $! g' HX with "HT Hr").
  Qed.

  (** ** Dimensions *)
  Definition dimbase (ir : bool) g (dim : dimensions) : dimensions :=
    if ir then Dimensions (Z.of_nat mn) (2 * Z.of_nat mn) (gsz g) 1 else dim.
  Definition dimup (h : nat) (d : dimensions) : dimensions :=
    Dimensions (dim_min d) (dim_max d) (dim_items d) (dim_height d + Z.of_nat h).
  Lemma dim_spec root S : ∀ h fuel par ir g dim, (h < fuel)%nat → sub h g →
    isTR root S ∗ rep h par ir g ⊢ wp true (dimLoop cb fuel t (gid g) dim)
      (λ d, <affine> ⌜d = dimup h (dimbase ir g dim)⌝ ∗ ∃ g', <affine> ⌜seen g g'⌝ ∗ isTR root S ∗ rep h par ir g')
      (λ e, <affine> ⌜e = EIO⌝ ∗ ∃ g', <affine> ⌜seen g g'⌝ ∗ isTR root S ∗ rep h par ir g').
  Proof using WF MN.
    induction h as [|h IH]; intros fuel par ir g dim Hf Hs; (destruct fuel as [|fuel]; [lia|]);
      cbn [dimLoop]; iIntros "[HT Hr]"; iApply wp_bind; (iApply (visit_seen with "HT Hr"); [done..|]); iSplit.
    2,4: iIntros "HT Hr"; iSplit; [done|]; iExists g; iFrame; iPureIntro; apply seen_refl, Hs.
    - iIntros (g' (Hsn & Hs' & Hl)) "HT Hr". rewrite -(proj1 (proj2 Hsn)).
      destruct g' as [|n st kvs|n st ks cs]; [done| |done]. iDestruct "Hr" as (kv left ps) "(%Hkv & HN & Ht & Hb)".
      iApply wp_bind. iApply (wp_getN with "HN"). iIntros "HN". iDestruct "HT" as "[HR HS]".
      iApply wp_bind. iApply (wp_getT with "HR"). iIntros "HR". cbn [nrec b_root b_leaf b_items trec t_min t_max]. iApply wp_ret.
      iSplit.
      + iPureIntro. unfold dimup, dimbase. destruct Hsn as [_ (_ & Hst & _)].
        replace (gsz g) with (Z.of_nat (length kvs)); [|by rewrite /gsz -Hst; cbn; rewrite csz_CL].
        destruct ir; [done|]. destruct dim. cbn. f_equal. lia.
      + iExists (GL n st kvs). iSplit; [done|]. iFrame "HR HS". iExists kv, left, ps. by iFrame.
    - iIntros (g' (Hsn & Hs' & Hl)) "HT Hr". rewrite -(proj1 (proj2 Hsn)).
      destruct g' as [|n st kvs|n st ks cs]; [done|done|]. iEval (rewrite rep_GI) in "Hr". iDestruct "Hr" as "[Hi Hk]".
      iDestruct "Hi" as (kv b) "(%Hkv & HN & Ht & Hp & Hb)".
      iApply wp_bind. iApply (wp_getN with "HN"). iIntros "HN". iDestruct "HT" as "[HR HS]".
      iApply wp_bind. iApply (wp_getT with "HR"). iIntros "HR". cbn [nrec b_root b_leaf b_left b_items trec t_min t_max].
      iAssert (isTR root S) with "[HR HS]" as "HT"; [iFrame|].
      iAssert (inode n par ir st ks (ginfo <$> cs)) with "[HN Ht Hp Hb]" as "Hi"; [iExists kv, b; by iFrame|].
      destruct cs as [|c cs]; [cbn in Hkv; lia|]. cbn [fmap list_fmap head deref].
      iApply wp_bind. iApply wp_ret. unfold reps. rewrite big_sepL_cons. iDestruct "Hk" as "[Hc Hk]". iCombine "HT Hc" as "HH". change (i_id (ginfo c)) with (gid c).
      rewrite (IH fuel); [|lia|eapply (sub_kid cb dom domV mn MN _ _ _ _ _ _ Hs'); left].
      assert (gsz g = isum (ginfo <$> c :: cs)) as Hsz.
      { rewrite -(gsz_GI n st ks); [|rewrite fmap_length in Hkv; apply Hkv]. destruct Hsn as [_ (_ & Hst & _)]. by rewrite /gsz Hst. }
      assert (∀ c', seen c c' → seen g (GI n st ks (c' :: cs))) as Hsc.
      { intros c' Hc. eapply seen_trans; [exact Hsn|]. apply seen_GI; [|apply Hs']. constructor; [done|].
        assert (Forall (λ c, pend c = []) cs) as HF. { apply Forall_forall. intros x Hx. eapply (sub_pends cb dom domV mn MN _ _ _ _ _ Hs'). by right. }
        clear -HF. induction HF; constructor; done. }
      iApply (wp_wand with "HH"). iSplit.
      + iIntros (d) "[%Hd (%c' & %Hc & HT & Hc)]". iSplit.
        * iPureIntro. rewrite Hd. unfold dimup, dimbase. destruct ir; cbn [dim_min dim_max dim_items dim_height]; rewrite -?Hsz; f_equal; lia.
        * iExists (GI n st ks (c' :: cs)). rewrite rep_GI. iFrame "HT". unfold reps. rewrite big_sepL_cons. iFrame.
          change (ginfo c :: list_fmap gt info ginfo cs) with (ginfo <$> (c :: cs)).
          rewrite (vw_infos (c :: cs) (c' :: cs)); [|by rewrite !fmap_cons (proj1 Hc)]. iFrame. iPureIntro. by apply Hsc.
      + iIntros (e) "[$ (%c' & %Hc & HT & Hc)]".
        iExists (GI n st ks (c' :: cs)). rewrite rep_GI. iFrame "HT". unfold reps. rewrite big_sepL_cons. iFrame.
          change (ginfo c :: list_fmap gt info ginfo cs) with (ginfo <$> (c :: cs)).
          rewrite (vw_infos (c :: cs) (c' :: cs)); [|by rewrite !fmap_cons (proj1 Hc)]. iFrame. iPureIntro. by apply Hsc.
  Qed.

  (** ** Folding over the children of a node *)
  Definition foldKids {A} n (f : nid → A → M A) : list Z → A → M A :=
    fix loop ix a :=
      match ix with
      | [] => ret a
      | i :: ix =>
          let* o := kvGet n i in
          let* '(_, v) := logicSome o in
          let* c := asNode v in
          let* a := f c a in
          loop ix a
      end.
  Lemma kids_wp io {A} n r kv ks (cids : list nid) (f : nid → A → M A) (I : nat → A → hProp) (J : err → hProp) :
    b_kv r = Some kv → iskv cb dom (kels ks cids) kv → length cids = Datatypes.S (length ks) →
    (∀ j (c : nid) a, cids !! Datatypes.S j = Some c → I j a ⊢ wp io (f c a) (λ a', I (Datatypes.S j) a') J) →
    ∀ m j a, (j + m = length ks)%nat →
      isN n r ∗ I j a ⊢ wp io (foldKids n f (Z.of_nat <$> seq j m) a) (λ a', isN n r ∗ I (length ks) a') (λ e, isN n r ∗ J e).
  Proof.
    intros Hr Hkv Hlen Hf. induction m as [|m IH]; intros j a Hj; cbn [seq fmap list_fmap foldKids].
    { replace j with (length ks) by lia. iIntros "H". by iApply wp_ret. }
    destruct (lookup_lt_is_Some_2 ks j) as [k Hk]; [lia|].
    destruct (lookup_lt_is_Some_2 cids (Datatypes.S j)) as [c Hc]; [lia|].
    iIntros "[HN HI]". iApply wp_bind. iApply (wp_kvGet_nat cb dom with "HN"); [done..| |].
    { by apply kels_lookup. }
    iIntros "HN". iApply wp_bind. iApply wp_logicSome. iApply wp_bind. iApply wp_asNode.
    iApply wp_bind. pose proof (Hf j c a Hc) as Hf'. rewrite {1}Hf'. iApply (wp_wand with "HI"). iSplit.
    - iIntros (a') "HI". iApply (IH (Datatypes.S j) a'); [lia|]. iFrame.
    - iIntros (e) "$". done.
  Qed.
  Definition skids h n cs : hProp := (∃ cs', <affine> ⌜Forall2 seen cs cs'⌝ ∗ reps h n cs')%I.
  Lemma skids_focus h n cs j c : cs !! j = Some c →
    skids h n cs ⊢ ∃ c', <affine> ⌜seen c c'⌝ ∗ rep h (Some n) false c' ∗
      (∀ c'' (_ : seen c' c''), rep h (Some n) false c'' -∗ skids h n cs).
  Proof.
    iIntros (Hc) "(%cs' & %Hcs & Hk)". destruct (Forall2_lookup_l _ _ _ _ _ Hcs Hc) as (c' & Hc' & Hs).
    unfold reps. rewrite (big_sepL_insert_acc _ cs' j c') //. iDestruct "Hk" as "[Hc Hk]".
    iExists c'. iFrame "Hc". iSplit; [done|]. iIntros (c'' Hs') "Hc". iSpecialize ("Hk" $! c'' with "Hc").
    iExists (<[j:=c'']> cs'). unfold reps. iFrame. iPureIntro.
    rewrite -(list_insert_id cs j c) //. apply Forall2_insert; [done|]. by eapply seen_trans.
  Qed.
  Lemma skids_refl h n cs : (∀ c, c ∈ cs → pend c = []) → reps h n cs ⊢ skids h n cs.
  Proof.
    iIntros (Hp) "Hk". iExists cs. iFrame. iPureIntro. apply Forall2_same_length_lookup_2; [done|].
    intros i x y Hx Hy. assert (x = y) as <- by congruence. apply seen_refl, Hp. by eapply elem_of_list_lookup_2.
  Qed.
  Lemma skids_close h n par ir st ks cs : pend (GI n st ks cs) = [] →
    inode n par ir st ks (ginfo <$> cs) ∗ skids h n cs ⊢
    ∃ g', <affine> ⌜seen (GI n st ks cs) g' ∧ isloaded g'⌝ ∗ rep (Datatypes.S h) par ir g'.
  Proof.
    iIntros (Hp) "[Hi (%cs' & %Hcs & Hk)]". iExists (GI n st ks cs'). rewrite rep_GI. iFrame "Hk".
    rewrite (vw_infos cs cs'); [|by apply seen_vws]. iFrame. iPureIntro. split; [|done]. by apply seen_GI.
  Qed.

  (** ** Layout *)
  (** where the unmodified nodes are stored, root first *)
  Fixpoint vlocs (v : vt K V) : list loc :=
    match v with VC _ d => dlocs d | VL _ _ _ => [] | VI _ _ _ vs => mjoin (vlocs <$> vs) end.
  Definition addrep (R : report) (l : loc) : report := <[lnum l := default 0 (R !! lnum l) + llen l]> R.
  Lemma vlocs_clean n l ks cs : Forall (λ c, is_Some (gloc c)) cs →
    vlocs (vw (GI n (Clean l) ks cs)) = l :: mjoin (vlocs <$> (vw <$> cs)).
  Proof.
    intros H. cbn. f_equal. f_equal. induction H as [|c cs [l' Hc] _ IH]; [done|]. rewrite !fmap_cons IH. f_equal.
    rewrite -vloc_vw in Hc. by destruct (vw c).
  Qed.
  Lemma load_seen h par ir g root S r0 Q E : sub h g → recok t par g r0 →
    isTR root S -∗ rep h par ir g -∗
    ((∀ g' (_ : seen g g' ∧ sub h g' ∧ isloaded g'), isTR root S -∗ rep h par ir g' -∗ Q tt) ∧
     (isTR root S -∗ rep h par ir g -∗ E EIO)) -∗
    wp true (if b_loaded r0 then ret tt else loadNode cb t (gid g)) Q E.
  Proof using WF MN.
    iIntros (Hs Hr) "HT Hr H". destruct Hr as (R1 & R2 & R3 & R4 & R5 & R6).
    destruct g as [n d|n st kvs|n st ks cs].
    - rewrite R6. iEval (rewrite rep_GD) in "Hr". iDestruct "Hr" as (r) "(%Hd & HN & Ht & Hb)".
      iApply (load_spec with "HT HN Ht Hb"); [done|done|apply Hs|apply Hs|]. iSplit; [|by iDestruct "H" as "[_ $]"].
      iIntros (g' [Hv Hl]) "HT Hr". iDestruct (rep_cleanok with "Hr") as %Hok.
      assert (seen (GD n d) g') as Hsn. { split; [done|]. apply same_vw; try done. }
      assert (seen (GD n d) g' ∧ sub h g' ∧ isloaded g') as HX by (split_and!; try done; by eapply seen_sub).
      iDestruct "H" as "[H _]". iApply ("H" $! g' HX with "HT Hr").
    - destruct R6 as (-> & _). iApply wp_ret. iDestruct "H" as "[H _]".
      assert (seen (GL n st kvs) (GL n st kvs) ∧ sub h (GL n st kvs) ∧ isloaded (GL n st kvs)) as HX by (split; [apply seen_refl, Hs|done]).
      iApply ("H" $! _ HX with "HT Hr").
    - destruct R6 as (-> & _). iApply wp_ret. iDestruct "H" as "[H _]".
      assert (seen (GI n st ks cs) (GI n st ks cs) ∧ sub h (GI n st ks cs) ∧ isloaded (GI n st ks cs)) as HX by (split; [apply seen_refl, Hs|done]).
      iApply ("H" $! _ HX with "HT Hr").
  Qed.

  Definition layR st : option loc := match st with Clean l => Some l | _ => None end.
  Lemma gi_locs n st ks cs : pst n st = [] → cleanok (GI n st ks cs) →
    vlocs (vw (GI n st ks cs)) = option_list (layR st) ++ mjoin (vlocs <$> (vw <$> cs)).
  Proof.
    intros Hst Hok. destruct st; try done. destruct Hok as [Hok _]. by apply vlocs_clean.
  Qed.
  Lemma addrep_st (R : report) n st : pst n st = [] → (∀ l, st = Clean l → locok l) →
    (if lnum (stloc st) =? 0 then R else <[lnum (stloc st) := default 0 (R !! lnum (stloc st)) + llen (stloc st)]> R) =
    foldl addrep R (option_list (layR st)).
  Proof.
    intros Hst Hl. destruct st as [l| | | |]; try done. cbn. destruct (Hl l eq_refl) as [[? _] _].
    destruct (Z.eqb_spec (lnum l) 0); [lia|done].
  Qed.
  Lemma leafblk_ok ir l kvs : leafblk cb mn ir (Clean l) kvs ⊢ (⌜locok l⌝ : hProp).
  Proof. iIntros "[[_ %H] _]". iPureIntro. apply H. Qed.
  Lemma innerblk_ok ir l ks chs : innerblk cb mn ir (Clean l) ks chs ⊢ (⌜locok l⌝ : hProp).
  Proof. iIntros "(%refs & [_ %H] & _)". iPureIntro. apply H. Qed.
  Lemma rep_locok h par ir g n st : (∃ kvs, g = GL n st kvs) ∨ (∃ ks cs, g = GI n st ks cs) →
    rep h par ir g ⊢ ⌜∀ l, st = Clean l → locok l⌝.
  Proof.
    intros Hg. iIntros "Hr". iIntros (l ->). destruct Hg as [[kvs ->]|(ks & cs & ->)]; (destruct h as [|h]; try done).
    - iDestruct "Hr" as (kv left ps) "(%Hkv & HN & Ht & Hb)". iDestruct (leafblk_ok with "Hb") as %H. done.
    - rewrite rep_GI. iDestruct "Hr" as "[(%kv & %b & %Hkv & HN & Ht & Hp & Hb) _]". iDestruct (innerblk_ok with "Hb") as %H. done.
  Qed.

  Lemma layout_spec root S : ∀ fuel h par ir g (R : report), (Datatypes.S h < fuel)%nat → sub h g →
    isTR root S ∗ rep h par ir g ⊢ wp true (updateLayoutReport cb fuel t (gid g) R)
      (λ R' : report, <affine> ⌜R' = foldl addrep R (vlocs (vw g))⌝ ∗ ∃ g', <affine> ⌜seen g g'⌝ ∗ isTR root S ∗ rep h par ir g')
      (λ e, <affine> ⌜e = EIO⌝ ∗ ∃ g', <affine> ⌜seen g g'⌝ ∗ isTR root S ∗ rep h par ir g').
  Proof using WF MN.
    induction fuel as [|fuel IH]; intros h par ir g R Hf Hs; [lia|]. iIntros "[HT Hr]". cbn [updateLayoutReport].
    iDestruct (rep_get with "Hr") as (r0) "(HN & %Hr0 & Hr)".
    iApply wp_bind. iApply (wp_getN with "HN"). iIntros "HN". iSpecialize ("Hr" with "HN").
    iApply wp_bind. iApply (load_seen with "HT Hr"); [done|done|]. iSplit; last first.
    { iIntros "HT Hr". iSplit; [done|]. iExists g. iFrame. iPureIntro. apply seen_refl, Hs. }
    iIntros (g1 (Hsn & Hs1 & Hl)) "HT Hr". rewrite -(proj1 (proj2 Hsn)).
    (* the last step: evict the node again if it was not in memory *)
    iAssert (∀ g2 (_ : seen g1 g2) (R' : report) (_ : R' = foldl addrep R (vlocs (vw g))), isTR root S -∗ rep h par ir g2 -∗
      wp true ((if b_loaded r0 then ret tt else purgeNode fuel t (gid g1) true) ;; ret R')
       (λ R' : report, <affine> ⌜R' = foldl addrep R (vlocs (vw g))⌝ ∗ ∃ g', <affine> ⌜seen g g'⌝ ∗ isTR root S ∗ rep h par ir g')
      (λ e, <affine> ⌜e = EIO⌝ ∗ ∃ g', <affine> ⌜seen g g'⌝ ∗ isTR root S ∗ rep h par ir g'))%I as "K".
    { iIntros (g2 Hs2 R' HR) "HT Hr". iApply wp_bind. destruct (b_loaded r0) eqn:Hld.
      - iApply wp_ret. iApply wp_ret. iSplit; [done|]. iExists g2. iFrame. iPureIntro. by eapply seen_trans.
      - rewrite -(proj1 (proj2 Hs2)). iCombine "HT Hr" as "HH". rewrite (purge_spec cb dom mn MN t ca fuel true); [|lia|apply Hs2].
        iApply wp_io. iApply (wp_wand with "HH"). iSplit.
        + iIntros (_) "(%g' & %Hpu & HT & Hr)". iApply wp_ret. iSplit; [done|]. iExists g'. iFrame. iPureIntro.
          eapply seen_trans; [exact Hsn|]. eapply seen_trans; [exact Hs2|]. destruct Hpu as (Hv & Hp & _). split; [done|].
          split_and!; [by apply vw_gid|by apply vw_strip|done].
        + iIntros (e) "[%He HX]". destruct He as (_ & _ & Hgl). exfalso.
          destruct Hr0 as (_ & _ & _ & _ & R5 & _). assert (gloc g = None) as Hgn.
          { rewrite -vloc_vw -(proj1 Hsn) -(proj1 Hs2) vloc_vw. done. }
          rewrite (R5 Hgn) in Hld. done. }
    assert (pend g1 = []) as Hp1 by apply Hs1.
    destruct g1 as [|n st kvs|n st ks cs]; [done|..]; cbn [gid].
    - iDestruct (rep_get with "Hr") as (r) "(HN & %Hr & Hr)". cbn [gid].
      iApply wp_bind. iApply (wp_getN with "HN"). iIntros "HN". iSpecialize ("Hr" with "HN").
      destruct Hr as (R1 & R2 & R3 & R4 & R5 & (_ & -> & _ & ->)).
      iDestruct (rep_locok _ _ _ _ n st with "Hr") as %Hlk; [by left; eexists|].
      iApply wp_bind. iApply wp_ret. 
      assert (seen (GL n st kvs) (GL n st kvs)) as HX by by apply seen_refl.
      rewrite (addrep_st _ n) //.
      assert (foldl addrep R (option_list (layR st)) = foldl addrep R (vlocs (vw g))) as HR.
      { rewrite -(proj1 Hsn). by destruct st. }
      iApply ("K" $! (GL n st kvs) HX _ HR with "HT Hr").
    - destruct h as [|h]; [done|]. iDestruct (rep_cleanok with "Hr") as %Hok. 
      iDestruct (rep_locok _ _ _ _ n st with "Hr") as %Hlk; [by right; do 2 eexists|].
      assert (pst n st = []) as Hpst by (cbn in Hp1; by apply app_eq_nil in Hp1 as [? _]).
      set (R0 := foldl addrep R (option_list (layR st))).
      iEval (rewrite rep_GI) in "Hr". iDestruct "Hr" as "[Hi Hk]". rewrite skids_refl; [|by eapply sub_pends].
      iDestruct "Hi" as (kv b) "(%Hkv & HN & Ht & Hp & Hb)".
      iApply wp_bind. iApply (wp_getN with "HN"). iIntros "HN". 
      cbn [nrec b_loc b_leaf b_left]. rewrite (addrep_st R n) //. fold R0. iApply wp_bind.
      pose proof Hkv as Hkv0. destruct Hkv as (Hkv & Hlen & _). rewrite fmap_length in Hlen.
      assert (i_id <$> (ginfo <$> cs) = gid <$> cs) as Hid by by rewrite -list_fmap_compose.
      rewrite Hid. rewrite Hid in Hkv.
      destruct (lookup_lt_is_Some_2 cs 0) as [c0 Hc0]; [lia|].
      assert (head (gid <$> cs) = Some (gid c0)) as -> by (destruct cs; [done|]; by injection Hc0 as ->).
      set I := (λ (j : nat) (R : report), isTR root S ∗ skids h n cs ∗ <affine> ⌜R = foldl addrep R0 (mjoin (vlocs <$> (vw <$> take (Datatypes.S j) cs)))⌝)%I : nat → report → hProp.
      set J := (λ e, isTR root S ∗ skids h n cs ∗ <affine> ⌜e = EIO⌝)%I : err → hProp.
      assert (∀ j c (R : report), cs !! j = Some c → isTR root S ∗ skids h n cs ⊢
        wp true (updateLayoutReport cb fuel t (gid c) R) (λ R' : report, isTR root S ∗ skids h n cs ∗ <affine> ⌜R' = foldl addrep R (vlocs (vw c))⌝) J) as Hstep.
      { intros j c R1' Hc. iIntros "[HT Hk]". iDestruct (skids_focus _ _ _ _ _ Hc with "Hk") as (c') "(%Hcc & Hc & Hk)".
        rewrite -(proj1 (proj2 Hcc)) -(proj1 Hcc). iCombine "HT Hc" as "HH". rewrite (IH h (Some n) false c' R1'); [|lia|].
        2: { eapply seen_sub; [|exact Hcc]. eapply sub_kid; [exact MN|exact Hs1|]. by eapply elem_of_list_lookup_2. }
        iApply (wp_wand with "HH"). iSplit.
        - iIntros (R') "[$ (%g' & %Hg' & $ & Hg)]". iApply ("Hk" $! g' Hg' with "Hg").
        - iIntros (e) "[$ (%g' & %Hg' & $ & Hg)]". iApply ("Hk" $! g' Hg' with "Hg"). }
      iApply wp_bind. iCombine "HT Hk" as "HH". rewrite (Hstep 0%nat c0 R0 Hc0).
      iAssert (∀ e, isN n (nrec st (isum (ginfo <$> cs)) ir false par kv (Some (gid c0)) (brt b)) -∗ isT n (tg ca (sttag st)) -∗ pstr None b -∗ innerblk cb mn ir st ks (ginfo <$> cs) -∗ J e -∗
        <affine> ⌜e = EIO⌝ ∗ ∃ g', <affine> ⌜seen g g'⌝ ∗ isTR root S ∗ rep (Datatypes.S h) par ir g')%I as "KE".
      { iIntros (e) "HN Ht Hp Hb (HT & Hk & $)".
        iDestruct (skids_close with "[HN Ht Hp Hb $Hk]") as (g' [Hs' _]) "Hr"; [done| |].
        - iExists kv, b. rewrite Hid. assert (head (gid <$> cs) = Some (gid c0)) as -> by (destruct cs; [done|]; by injection Hc0 as ->).
          iFrame. iPureIntro. rewrite -Hid. apply Hkv0.
        - iExists g'. iFrame. iPureIntro. by eapply seen_trans. }
      iApply (wp_wand with "HH"). iSplit; last first.
      { iIntros (e) "HJ". iApply ("KE" with "HN Ht Hp Hb HJ"). }
      iIntros (R1') "(HT & Hk & %HR1)". iApply wp_bind.
      iApply (wp_kvLen cb dom true n (nrec st (isum (ginfo <$> cs)) ir false par kv (Some (gid c0)) (brt b)) kv _ eq_refl Hkv with "HN"). iIntros "HN".
      rewrite (kels_len mn MN); [|by rewrite fmap_length]. rewrite range_of_nat.
      iAssert (I 0%nat R1') with "[$HT $Hk]" as "HI".
      { iPureIntro. destruct cs as [|c cs]; [done|]. injection Hc0 as ->. cbn. rewrite HR1. by rewrite app_nil_r. }
      iCombine "HN HI" as "HH".
      rewrite (kids_wp true n (nrec st (isum (ginfo <$> cs)) ir false par kv (Some (gid c0)) (brt b)) kv ks (gid <$> cs) (λ (c : nid) (R : report), updateLayoutReport cb fuel t c R) I J eq_refl Hkv _ _ (length ks) 0 R1'); [|by rewrite fmap_length| |done].
      2: { intros j x R2 Hx. rewrite list_lookup_fmap in Hx. apply fmap_Some in Hx as (c & Hc & ->).
           iIntros "(HT & Hk & %HR)". iCombine "HT Hk" as "HH". rewrite (Hstep _ c R2 Hc). iApply (wp_wand with "HH"). iSplit; [|by iIntros (e) "$"].
           iIntros (R3) "($ & $ & %HR3)". iPureIntro. rewrite HR3 HR (take_S_r cs (Datatypes.S j) c) // !fmap_app join_app foldl_app /=. by rewrite app_nil_r. }
      iApply (wp_wand with "HH"). iSplit; last first.
      { iIntros (e) "[HN HJ]". iApply ("KE" with "HN Ht Hp Hb HJ"). }
      iIntros (R2) "(HN & HT & Hk & %HR2)".
      iDestruct (skids_close with "[HN Ht Hp Hb $Hk]") as (g' [Hs' _]) "Hr"; [exact Hp1| |].
      { iExists kv, b. rewrite Hid. assert (head (gid <$> cs) = Some (gid c0)) as -> by (destruct cs; [done|]; by injection Hc0 as ->).
          iFrame. iPureIntro. rewrite -Hid. apply Hkv0. }
      assert (R2 = foldl addrep R (vlocs (vw g))) as HR.
      { rewrite HR2 take_ge; [|lia]. rewrite -(proj1 Hsn) (gi_locs n) // foldl_app. done. }
      iApply ("K" $! g' Hs' R2 HR with "HT Hr").
  Qed.

  (** ** Validate *)
  Definition vloop n (f : nid → M bool) : list Z → Z → M (bool * Z) :=
    fix loop ix tot :=
      match ix with
      | [] => ret (true, tot)
      | i :: ix =>
          let* o := kvGet n i in
          match o with
          | None => ret (false, tot)
          | Some (_, v) =>
              let* c := asNode v in
              let* rc := getN c in
              if decide (b_parent rc = Some n) then
                let* ok := f c in
                if (ok : bool) then
                  let* rc := getN c in
                  loop ix (tot + b_items rc)
                else ret (false, tot)
              else ret (false, tot)
          end
      end.
  Lemma kid_read h n cs j c (P : bnode K V → M (bool * Z)) Q E : cs !! j = Some c →
    skids h n cs -∗ (∀ rc (_ : b_parent rc = Some n ∧ b_items rc = gsz c), skids h n cs -∗ wp true (P rc) Q E) -∗
    wp true (let* rc := getN (gid c) in P rc) Q E.
  Proof.
    iIntros (Hc) "Hk H". iDestruct (skids_focus _ _ _ _ _ Hc with "Hk") as (c') "(%Hcc & Hc & Hk)".
    iDestruct (rep_get with "Hc") as (r) "(HN & %Hr & Hc)". rewrite (proj1 (proj2 Hcc)).
    iApply wp_bind. iApply (wp_getN with "HN"). iIntros "HN". iSpecialize ("Hc" with "HN").
    assert (seen c' c') as HX. { split; [done|]. split_and!; try done. apply Hcc. }
    iSpecialize ("Hk" $! c' HX with "Hc").
    assert (b_parent r = Some n ∧ b_items r = gsz c) as HY.
    { destruct Hr as (R1 & R2 & _). split; [done|]. rewrite R1 /gsz. destruct Hcc as [_ (_ & -> & _)]. done. }
    iApply ("H" $! r HY with "Hk").
  Qed.
  Lemma vloop_wp h n r kv ks cs (f : nid → M bool) (R : hProp) (J : err → hProp) :
    b_kv r = Some kv → iskv cb dom (kels ks (gid <$> cs)) kv → length cs = Datatypes.S (length ks) →
    (∀ j c, cs !! Datatypes.S j = Some c → R ∗ skids h n cs ⊢ wp true (f (gid c)) (λ ok, <affine> ⌜ok = true⌝ ∗ R ∗ skids h n cs) J) →
    ∀ m j tot, (j + m = length ks)%nat → 
      isN n r ∗ R ∗ skids h n cs ⊢ wp true (vloop n f (Z.of_nat <$> seq j m) tot)
        (λ p, <affine> ⌜p = (true, (tot + isum (ginfo <$> drop (Datatypes.S j) cs))%Z)⌝ ∗ isN n r ∗ R ∗ skids h n cs) (λ e, isN n r ∗ J e).
  Proof.
    intros Hr Hkv Hlen Hf. induction m as [|m IH]; intros j tot Hj; cbn [seq fmap list_fmap vloop].
    { iIntros "H". iApply wp_ret. iFrame. iPureIntro. rewrite drop_ge; [|lia]. cbn. f_equal. lia. }
    destruct (lookup_lt_is_Some_2 ks j) as [k Hk]; [lia|].
    destruct (lookup_lt_is_Some_2 cs (Datatypes.S j)) as [c Hc]; [lia|].
    iIntros "(HN & HR & Hk)". iApply wp_bind. iApply (wp_kvGet_nat cb dom with "HN"); [done..| |].
    { apply kels_lookup; [by rewrite fmap_length|done|]. by rewrite list_lookup_fmap Hc. }
    iIntros "HN". iApply wp_bind. iApply wp_asNode.
    iApply (kid_read _ _ _ _ _ _ _ _ Hc with "Hk"). iIntros (rc [Hp Hsz]) "Hk". destruct (decide (b_parent rc = Some n)) as [_|]; [|done].
    iApply wp_bind. iCombine "HR Hk" as "HH". iPoseProof (Hf j c Hc with "HH") as "HH". iApply (wp_wand with "HH"). iSplit; last first.
    { iIntros (e) "$". done. }
    iIntros (ok) "(%Hok & HR & Hk)". rewrite Hok.
    iApply (kid_read _ _ _ _ _ _ _ _ Hc with "Hk"). iIntros (rc' [Hp' Hsz']) "Hk".
    iCombine "HN HR Hk" as "HH". iPoseProof (IH (Datatypes.S j) (tot + b_items rc') with "HH") as "HH"; [lia|].
    iApply (wp_wand with "HH"). iSplit; [|by iIntros (e) "$"].
    iIntros (p) "[%Hpp $]". iPureIntro. rewrite Hpp (drop_S cs c (Datatypes.S j)) // fmap_cons. unfold isum. cbn [fmap list_fmap sumz foldr ginfo i_sz]. f_equal. rewrite Hsz'. unfold sumz. lia.
  Qed.

  Record vsub ir h g : Prop := {
    vs_sub : sub h g;
    vs_min : ir = false → wfo mn mn h (strip g) }.
  Lemma vsub_seen ir h g g' : seen g g' → vsub ir h g → vsub ir h g'.
  Proof.
    intros Hs [V1 V2]. split; [by eapply seen_sub|]. intros Hi. destruct Hs as [_ (_ & -> & _)]. auto.
  Qed.
  Lemma vsub_kid ir h n st ks cs c : c ∈ cs → vsub ir (Datatypes.S h) (GI n st ks cs) → vsub false h c.
  Proof using WF MN.
    intros Hc [V1 V2]. split; [by eapply sub_kid|]. intros _. destruct V1 as [(b & W1 & W2 & W3) _ _].
    rewrite Forall_forall in W3. apply W3. apply elem_of_list_fmap. eauto.
  Qed.
  Lemma skids_readable h n cs : readable (skids h n cs) (imap entof (ginfo <$> cs)).
  Proof.
    intros e He. iIntros "(%cs' & %Hcs & Hk)".
    assert (ginfo <$> cs = ginfo <$> cs') as Heq by (symmetry; apply vw_infos; by apply seen_vws).
    rewrite Heq in He. rewrite (reps_readable _ _ _ _ _ h n cs' e He).
    iDestruct "Hk" as (r) "(HN & %Hr & Hk)". iExists r. iFrame "HN". iSplit; [done|]. iIntros "HN".
    iExists cs'. iSplit; [done|]. by iApply "Hk".
  Qed.
  Lemma cnt_kid ks (cs : list (ct K V)) (c : ct K V) : c ∈ cs → (cnt c ≤ cnt (CI ks cs))%nat.
  Proof.
    intros Hc. cbn. induction Hc as [c cs|c c' cs Hc IH]; cbn in *; lia.
  Qed.

  Lemma validateNode_spec root S fuel0 : ∀ fuel h par ir g, (h < fuel)%nat → vsub ir h g → (cnt (strip g) ≤ fuel0)%nat →
    isTR root S ∗ rep h par ir g ⊢ wp true (validateNode cb fuel0 fuel t (gid g))
      (λ ok, <affine> ⌜ok = true⌝ ∗ ∃ g', <affine> ⌜seen g g'⌝ ∗ isTR root S ∗ rep h par ir g')
      (λ e, <affine> ⌜e = EIO⌝ ∗ ∃ g', <affine> ⌜seen g g'⌝ ∗ isTR root S ∗ rep h par ir g').
  Proof using WF MN.
    induction fuel as [|fuel IH]; intros h par ir g Hf Hvs Hcn; [lia|]. iIntros "[HT Hr]". cbn [validateNode].
    pose proof (vs_sub _ _ _ Hvs) as Hs.
    iDestruct (rep_get with "Hr") as (r0) "(HN & %Hr0 & Hr)".
    iApply wp_bind. iApply (wp_getN with "HN"). iIntros "HN". iSpecialize ("Hr" with "HN").
    iApply wp_bind. iApply (load_seen with "HT Hr"); [done|done|]. iSplit; last first.
    { iIntros "HT Hr". iSplit; [done|]. iExists g. iFrame. iPureIntro. apply seen_refl, Hs. }
    iIntros (g1 (Hsn & Hs1 & Hl)) "HT Hr". rewrite -(proj1 (proj2 Hsn)).
    pose proof (vsub_seen _ _ _ _ Hsn Hvs) as Hvs1.
    assert (cnt (strip g1) ≤ fuel0)%nat as Hcn1. { by rewrite (proj1 (proj2 (proj2 Hsn))). }
    assert (pend g1 = []) as Hp1 by apply Hs1.
    destruct g1 as [|n st kvs|n st ks cs]; [done|..]; cbn [gid].
    - destruct h as [|h]; [|done]. iDestruct "Hr" as (kv left ps) "(%Hkv & HN & Hr)".
      iApply wp_bind. iApply (wp_getN with "HN"). iIntros "HN". cbn [nrec b_tree].
      iDestruct "HT" as "[HR HS]". iApply wp_bind. iApply (wp_getT with "HR"). iIntros "HR".
      iApply wp_bind. iApply (wp_kvOf true n (nrec st (Z.of_nat (length kvs)) ir true par kv left ps) kv eq_refl with "HN"). iIntros "HN".
      cbn [b_leaf nrec b_items b_root]. iApply wp_ret. iSplit.
      + iPureIntro. destruct Hkv as [Hi He]. rewrite (inv_Len _ _ _ Hi) He /uels fmap_length.
        destruct Hvs1 as [V1 V2]. destruct (sb_wf _ _ _ _ _ _ V1) as (b & Hw). cbn [strip wfo] in Hw, V2. cbn [trec t_min t_max].
        rewrite (proj2 (validate_spec kv)); [|apply Hi]. rewrite Z.eqb_refl /=.
        apply andb_true_iff. split; [|apply Z.leb_le; lia]. destruct ir; [done|]. apply Z.leb_le. specialize (V2 eq_refl). lia.
      + iExists (GL n st kvs). iFrame "HR HS". iSplit; [done|]. iExists kv, left, ps. iFrame. done.
    - destruct h as [|h]; [done|]. 
      iEval (rewrite rep_GI) in "Hr". iDestruct "Hr" as "[Hi Hk]". rewrite skids_refl; [|by eapply sub_pends].
      iDestruct "Hi" as (kv b) "(%Hkv & HN & Ht & Hp & Hb)".
      iApply wp_bind. iApply (wp_getN with "HN"). iIntros "HN". cbn [nrec b_tree].
      iDestruct "HT" as "[HR HS]". iApply wp_bind. iApply (wp_getT with "HR"). iIntros "HR". iCombine "HR HS" as "HT".
      pose proof Hkv as Hkv0. destruct Hkv as (Hkv & Hlen & Hbins & Hlf). rewrite fmap_length in Hlen.
      assert (i_id <$> (ginfo <$> cs) = gid <$> cs) as Hid by by rewrite -list_fmap_compose.
      rewrite Hid. rewrite Hid in Hkv.
      destruct (lookup_lt_is_Some_2 cs 0) as [c0 Hc0]; [lia|].
      assert (head (gid <$> cs) = Some (gid c0)) as Hhd by (destruct cs; [done|]; by injection Hc0 as ->). rewrite Hhd.
      set (rn := nrec st (isum (ginfo <$> cs)) ir false par kv (Some (gid c0)) (brt b)).
      iApply wp_bind. iApply (wp_kvOf true n rn kv eq_refl with "HN"). iIntros "HN".
      change (b_leaf rn) with false. change (b_left rn) with (Some (gid c0)). change (b_root rn) with ir. change (b_items rn) with (isum (ginfo <$> cs)). change (b_psroot rn) with (brt b). cbn [negb].
      assert (∀ j c, cs !! j = Some c → isTR root S ∗ skids h n cs ⊢
        wp true (validateNode cb fuel0 fuel t (gid c)) (λ ok, <affine> ⌜ok = true⌝ ∗ isTR root S ∗ skids h n cs)
          (λ e, <affine> ⌜e = EIO⌝ ∗ isTR root S ∗ skids h n cs)) as Hstep.
      { intros j c Hc. iIntros "[HT Hk]". iDestruct (skids_focus _ _ _ _ _ Hc with "Hk") as (c') "(%Hcc & Hc & Hk)".
        rewrite -(proj1 (proj2 Hcc)). iCombine "HT Hc" as "HH".
        assert (c ∈ cs) as Hin by by eapply elem_of_list_lookup_2.
        rewrite (IH h (Some n) false c'); [|lia|by eapply vsub_seen, vsub_kid|].
        2: { rewrite (proj1 (proj2 (proj2 Hcc))). etrans; [|exact Hcn1]. apply cnt_kid. apply elem_of_list_fmap. eauto. }
        iApply (wp_wand with "HH"). iSplit.
        - iIntros (R') "[$ (%g' & %Hg' & $ & Hg)]". iApply ("Hk" $! g' Hg' with "Hg").
        - iIntros (e) "[$ (%g' & %Hg' & $ & Hg)]". iApply ("Hk" $! g' Hg' with "Hg"). }
      iAssert (isN n rn -∗ isT n (tg ca (sttag st)) -∗ pstr None b -∗ innerblk cb mn ir st ks (ginfo <$> cs) -∗ isTR root S -∗ skids h n cs -∗
        ∃ g', <affine> ⌜seen g g'⌝ ∗ isTR root S ∗ rep (Datatypes.S h) par ir g')%I as "KE".
      { iIntros "HN Ht Hp Hb HT Hk".
        iDestruct (skids_close with "[HN Ht Hp Hb $Hk]") as (g' [Hs' _]) "Hr"; [done| |].
        - iExists kv, b. rewrite Hid Hhd. iFrame. iPureIntro. rewrite -Hid. apply Hkv0.
        - iExists g'. iFrame. iPureIntro. by eapply seen_trans. }
      iApply wp_bind. iApply (kid_read _ _ _ _ _ _ _ _ Hc0 with "Hk"). iIntros (rc [Hp' Hsz']) "Hk". destruct (decide (b_parent rc = Some n)) as [_|]; [|done].
      iApply wp_bind. iCombine "HT Hk" as "HH". iPoseProof (Hstep 0%nat c0 Hc0 with "HH") as "HH". iApply (wp_wand with "HH"). iSplit; last first.
      { iIntros (e) "($ & HT & Hk)". iApply ("KE" with "HN Ht Hp Hb HT Hk"). }
      iIntros (ok) "(%Hok & HT & Hk)". rewrite Hok.
      iApply (kid_read _ _ _ _ _ _ _ _ Hc0 with "Hk"). iIntros (rc' [Hp'' Hsz'']) "Hk". iApply wp_ret.
      destruct Hkv as [Hi He]. rewrite (inv_Len _ _ _ Hi) He (kels_len mn MN); [|by rewrite fmap_length].
      assert (negb (true && validate kv && (ir || (t_min (trec mn ca root S) <=? Z.of_nat (length ks))) && (Z.of_nat (length ks) <=? t_max (trec mn ca root S))) = false) as ->.
      { destruct Hvs1 as [V1 V2]. destruct (sb_wf _ _ _ _ _ _ V1) as (b' & Hw). cbn [strip wfo] in Hw, V2. cbn [trec t_min t_max].
        rewrite (proj2 (validate_spec kv)); [|apply Hi]. cbn [andb]. apply negb_false_iff.
        apply andb_true_iff. split; [|apply Z.leb_le; lia]. destruct ir; [done|]. apply Z.leb_le. specialize (V2 eq_refl). lia. }
      rewrite range_of_nat. iApply wp_bind. iCombine "HN HT Hk" as "HH".
      rewrite (vloop_wp h n rn kv ks cs (λ c : nid, validateNode cb fuel0 fuel t c) (isTR root S) (λ e, <affine> ⌜e = EIO⌝ ∗ isTR root S ∗ skids h n cs)%I eq_refl (conj Hi He) Hlen _ (length ks) 0 (b_items rc')); [|intros j c Hc; by apply (Hstep (Datatypes.S j))|done].
      iApply (wp_wand with "HH"). iSplit; last first.
      { iIntros (e) "(HN & $ & HT & Hk)". iApply ("KE" with "HN Ht Hp Hb HT Hk"). }
      iIntros (p) "(%Hp & HN & HT & Hk)". rewrite Hp.
      assert (b_items rc' + isum (ginfo <$> drop 1 cs) = isum (ginfo <$> cs)) as ->.
      { rewrite Hsz''. destruct cs as [|c cs]; [done|]. injection Hc0 as ->. done. }
      rewrite Z.eqb_refl. cbn [negb orb].
      destruct (brt b) as [m|] eqn:Hm; last first.
      { apply brt_None in Hm. subst b. destruct cs; done. }
      iAssert (∃ p, isP m p ∗ <affine> ⌜pspar p = None ∧ psitems p = bsum b⌝ ∗ (isP m p -∗ pstr None b))%I with "[Hp]" as (p') "(HP & %Hpp & Hp)".
      { destruct b as [|bl be br]; [done|]. cbn [brt] in Hm. injection Hm as <-. cbn [pstr]. iDestruct "Hp" as "[HP Hp]". iExists _. iFrame "HP". iSplit; [done|]. iIntros "$". done. }
      iApply wp_bind. iApply (wp_getP with "HP"). iIntros "HP". iSpecialize ("Hp" with "HP").
      destruct Hpp as [-> ->]. rewrite bsum_bins Hbins ents_sum -chs_sum Z.eqb_refl. cbn [negb].
      iApply (validatePrefixSum_spec cb dom ORD true (skids h n cs) b None m fuel0 with "Hp Hk"); [done| |done| |].
      { rewrite Hbins imap_length fmap_length. etrans; [|exact Hcn1]. pose proof (cnt_kids ks (strip <$> cs)) as HX.
        rewrite fmap_length in HX. cbn [strip]. lia. }
      { rewrite Hbins. apply skids_readable. }
      iIntros "Hp Hk". iSplit; [done|]. iApply ("KE" with "HN Ht Hp Hb HT Hk").
  Qed.
End report.

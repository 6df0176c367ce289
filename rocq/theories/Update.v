(** * Marking the path to the root as modified, keeping the counts

    Models no code. *)
From Coq Require Import ssreflect Sorted.
From stdpp Require Import prelude list gmap.
From iris.bi Require Import bi.
From iris.proofmode Require Import proofmode.
From Verif Require Import Spec SpecFacts Llrb LlrbApi BTree HProp Lru Wp Kv Codec Ghost Order PsTree Rep Load Search.
Open Scope Z_scope.

Section update.
  Context {K V : Type}.
  Variable cb : callbacks K V.
  Variable dom : K → Prop.
  Variable domV : V → Prop.
  Hypothesis WF : wf_cb cb dom domV.
  Variable mn : nat.
  Variable t : tid.
  Variable ca : bool.
  Notation cmp := (cb_cmp cb).
  Notation M := (M K V).
  Notation hProp := (hProp K V).
  Notation bval := (bval V).
  Notation gt := (gt K V).
  Notation frame := (frame K V).
  Let ORD := wf_ord _ _ _ WF.
  Notation rep := (rep cb dom mn t ca).
  Notation reps := (reps cb dom mn t ca).
  Notation isTR := (isTR mn t ca).
  Notation inode := (inode cb dom mn t ca).
  Notation inodeU := (inodeU cb dom t ca).
  Notation lnode := (lnode cb dom mn t ca).
  Notation lnode' := (lnode' cb dom mn t ca).
  Notation whole := (whole cb dom mn t ca).
  Notation ctx := (ctx cb dom mn t ca).
  Notation cur := (cur cb dom mn t ca).
  Notation nrec := (nrec t).
  Implicit Types (g c : gt) (n : nid) (f : frame) (C : list frame) (W : vt K V) (h : nat).

  Definition notclean (st : nst) : Prop := match st with Clean _ => False | _ => True end.
  Definition weak (st : nst) : nst := match st with Clean l => Old l | _ => st end.
  Lemma weak_notclean st : notclean (weak st).
  Proof. by destruct st. Qed.
  Lemma weak_loc st : stloc (weak st) = stloc st.
  Proof. by destruct st. Qed.
  Lemma weak_tag st : sttag (weak st) = sttag st.
  Proof. by destruct st. Qed.
  Lemma weak_dirty st : stdirty (weak st) = stdirty st.
  Proof. by destruct st. Qed.
  Lemma nrec_weak st sz ir lf par (kv : tree K bval) left ps : nrec (weak st) sz ir lf par kv left ps = nrec st sz ir lf par kv left ps.
  Proof. by destruct st. Qed.
  Lemma innerblk_weak ir st ks chs : innerblk cb mn ir st ks chs ⊢ innerblk cb mn ir (weak st) ks chs.
  Proof. destruct st; try done. cbn. iIntros "(%refs & H & _)". by iApply held_clean. Qed.
  Lemma leafblk_weak ir st kvs : leafblk cb mn ir st kvs ⊢ leafblk cb mn ir (weak st) kvs.
  Proof. destruct st; try done. cbn. iIntros "[H _]". by iApply held_clean. Qed.
  Lemma inode_weak n par ir st ks chs : inode n par ir st ks chs ⊢ inode n par ir (weak st) ks chs.
  Proof.
    iIntros "(%kv & %b & %H & HN & Ht & Hp & Hb)". iExists kv, b. rewrite nrec_weak weak_tag innerblk_weak. iFrame. done.
  Qed.
  Lemma innerblk_nc ir st ks chs : notclean st → innerblk cb mn ir st ks chs ⊣⊢ held (stloc st).
  Proof. by destruct st. Qed.
  Lemma leafblk_nc ir st kvs : notclean st → leafblk cb mn ir st kvs ⊣⊢ held (stloc st).
  Proof. by destruct st. Qed.
  Lemma imap_entof_ext (chs chs' : list info) : i_id <$> chs = i_id <$> chs' → i_sz <$> chs = i_sz <$> chs' →
    imap entof chs = imap entof chs'.
  Proof.
    intros H1 H2. assert (length chs = length chs') as Hl. { apply (f_equal length) in H1. by rewrite !fmap_length in H1. }
    apply list_eq. intros i. rewrite !list_lookup_imap.
    apply (f_equal (.!! i)) in H1, H2. rewrite !list_lookup_fmap in H1, H2.
    destruct (chs !! i), (chs' !! i); simplify_eq/=; [|done]. unfold entof. by rewrite H1 H2.
  Qed.
  Lemma inode_locs n par ir st ks chs chs' : notclean st → i_id <$> chs = i_id <$> chs' → i_sz <$> chs = i_sz <$> chs' →
    inode n par ir st ks chs ⊢ inode n par ir st ks chs'.
  Proof.
    intros Hst H1 H2. iIntros "(%kv & %b & (%Hkv & %Hlen & %Hb & %Hlf) & HN & Ht & Hp & Hb)".
    iExists kv, b. rewrite !innerblk_nc //. unfold isum. rewrite -H1 -H2. iFrame.
    iPureIntro. split_and!; [done| | |done].
    - apply (f_equal length) in H1. rewrite !fmap_length in H1. lia.
    - rewrite Hb. by apply imap_entof_ext.
  Qed.

  Lemma inode_dirty io root S n par ir st ks chs Q E :
    isTR root S -∗ inode n par ir st ks chs -∗
    (∀ S' (_ : S ⊆ S' ∧ (stloc st = noloc → S' = S)), isTR root S' -∗ inode n par ir Dirty ks chs -∗ Q tt) -∗
    wp io (markNodeDirty t n) Q E.
  Proof.
    iIntros "HT (%kv & %b & %H & HN & Ht & Hp & Hb) HQ". rewrite innerblk_held.
    iApply (wp_dirty with "HT HN Ht [Hb]"); [done|].
    iIntros (S' HS') "HT HN Ht". iApply ("HQ" $! S' HS' with "HT"). iExists kv, b. iFrame. iSplit; [done|].
    iApply held_no.
  Qed.
  Lemma lnode_dirty io root S n par ir st sz kvs Q E :
    isTR root S -∗ lnode' n par ir st sz kvs -∗
    (∀ S' (_ : S ⊆ S' ∧ (stloc st = noloc → S' = S)), isTR root S' -∗ lnode' n par ir Dirty sz kvs -∗ Q tt) -∗
    wp io (markNodeDirty t n) Q E.
  Proof.
    iIntros "HT (%kv & %b & %left & %H & HN & Ht & Hb) HQ". rewrite leafblk_held.
    iApply (wp_dirty with "HT HN Ht [Hb]"); [done|].
    iIntros (S' HS') "HT HN Ht". iApply ("HQ" $! S' HS' with "HT"). iExists kv, b, left. iFrame. iSplit; [done|].
    iApply held_no.
  Qed.

  (** ** Prefix sums of one node *)
  Lemma arrange_rep io h n par ir st ks cs Q E : notclean st →
    inodeU n par ir st ks (gid <$> cs) -∗ reps h n cs -∗
    (inode n par ir st ks (ginfo <$> cs) -∗ reps h n cs -∗ Q tt) -∗
    wp io (arrangePrefixSumTree n) Q E.
  Proof.
    iIntros (Hst) "(%kv & %sz & %ps & (%Hkv & %Hlen) & HN & Ht & Hps & Hh) Hk H".
    iDestruct (reps_kids with "Hk") as "(%kids & (%H1 & %H2) & Hkn & Hk)".
    rewrite -H1. iApply (arrange_spec cb dom with "HN Hkn [Hps]").
    { done. } { by rewrite H1. } { done. } { rewrite -(fmap_length fst) H1. done. }
    { by rewrite big_sepL_fmap. }
    iIntros (b (Hb & Hlf)) "HN Hkn Hp".
    iApply ("H" with "[HN Ht Hp Hh] [Hkn Hk]"); [|by iApply "Hk"].
    assert (bins b = imap entof (ginfo <$> cs)) as Hb'.
    { rewrite Hb. apply list_eq. intros i. rewrite !list_lookup_imap !list_lookup_fmap.
      apply (f_equal (.!! i)) in H1, H2. rewrite !list_lookup_fmap in H1, H2.
      unfold kid in *. destruct (kids !! i) as [[k kr]|], (cs !! i); simplify_eq/=; [|done]. unfold entof, ent_at. cbn. congruence. }
    assert (bsum b = isum (ginfo <$> cs)) as Hs. { rewrite bsum_bins Hb' imap_entof_sz. done. }
    iExists kv, b. rewrite innerblk_nc //. iFrame "Ht Hp Hh". iSplit.
    { iPureIntro. rewrite -list_fmap_compose. split_and!; [done| |done|done]. by rewrite !fmap_length in Hlen |- *. }
    rewrite -Hs -list_fmap_compose H1. done.
  Qed.

  (** ** Marking the path *)
  Definition fdirty (f : frame) : frame := Frame (f_n f) Dirty (f_ka f) (f_ls f) (f_kb f) (f_rs f).
  Definition dirtyC (C : list frame) : list frame := fdirty <$> C.
  Lemma dirtyC_hpar C : hpar (dirtyC C) = hpar C.
  Proof. by destruct C. Qed.
  Lemma dirtyC_isnil C : isnil (dirtyC C) = isnil C.
  Proof. by destruct C. Qed.
  Lemma dirtyC_len C : length (dirtyC C) = length C.
  Proof. apply fmap_length. Qed.
  Lemma dirtyC_pre C : cpre (dirtyC C) = cpre C.
  Proof. induction C as [|f C IH]; [done|]. cbn [dirtyC fmap list_fmap cpre] in *. by rewrite -IH. Qed.
  Lemma dirtyC_post C : cpost (dirtyC C) = cpost C.
  Proof. induction C as [|f C IH]; [done|]. cbn [dirtyC fmap list_fmap cpost] in *. by rewrite -IH. Qed.
  Lemma dirtyC_lens C : lens (dirtyC C) ↔ lens C.
  Proof. unfold lens, dirtyC. by rewrite Forall_fmap. Qed.
  Lemma dirtyC_low C h : low mn (dirtyC C) h = low mn C h.
  Proof. by destruct C. Qed.
  Lemma dirtyC_wf C h : wfC mn h (dirtyC C) ↔ wfC mn h C.
  Proof.
    revert h. induction C as [|f C IH]; intros h; [done|]. cbn [dirtyC fmap list_fmap wfC].
    fold (dirtyC C). rewrite IH dirtyC_low. done.
  Qed.
  Lemma dirtyC_pend C : pendC C = [] → pendC (dirtyC C) = [].
  Proof.
    induction C as [|f C IH]; [done|]. cbn [dirtyC fmap list_fmap pendC fdirty f_n f_st f_ls f_rs].
    intros (_ & (-> & (-> & H)%app_eq_nil)%app_eq_nil)%app_eq_nil. fold (dirtyC C). by rewrite IH.
  Qed.
  Lemma dirtyC_idem C : dirtyC (dirtyC C) = dirtyC C.
  Proof. unfold dirtyC. rewrite -list_fmap_compose. apply list_fmap_ext. by intros i []. Qed.
  Lemma set_nrec st sz ir lf par (kv : tree K bval) left ps :
    set_loc noloc (set_dirty true (nrec st sz ir lf par kv left ps)) = nrec Dirty sz ir lf par kv left ps.
  Proof. done. Qed.
  Lemma chs_loc f n sz o o' : i_id <$> chs_of f (Info n sz o) = i_id <$> chs_of f (Info n sz o') ∧
    i_sz <$> chs_of f (Info n sz o) = i_sz <$> chs_of f (Info n sz o').
  Proof. unfold chs_of. by rewrite !fmap_app !fmap_cons. Qed.
  Lemma isum_loc f n sz o o' : isum (chs_of f (Info n sz o)) = isum (chs_of f (Info n sz o')).
  Proof. unfold isum. by destruct (chs_loc f n sz o o') as [_ ->]. Qed.

  Lemma touchUp io : ∀ C fuel root S h n r x sz o Q E, (length C < fuel)%nat →
    b_parent r = hpar C → b_root r = isnil C →
    isTR root S -∗ isN n r -∗ isT n (tg ca x) -∗ held (b_loc r) -∗ ctx h C (Info n sz o) -∗
    (∀ S' (_ : S ⊆ S'), isTR root S' -∗ isN n (set_loc noloc (set_dirty true r)) -∗ isT n (tg ca dirtyLRU) -∗
       ctx h (dirtyC C) (Info n sz None) -∗ Q tt) -∗
    wp io (touchLoadedNodeToRoot fuel t n) Q E.
  Proof.
    induction C as [|f C IH]; intros fuel root S h n r x sz o Q E Hf Hp Hr; (destruct fuel as [|fuel]; [cbn in Hf; lia|]);
      cbn [touchLoadedNodeToRoot]; iIntros "HT HN Ht Hh Hc H"; iApply wp_bind;
      iApply (wp_dirty with "HT HN Ht Hh"); iIntros (S' [HS' _]) "HT HN Ht";
      iApply wp_bind; iApply (wp_getN with "HN"); iIntros "HN";
      change (b_root (set_loc noloc (set_dirty true r))) with (b_root r);
      change (b_parent (set_loc noloc (set_dirty true r))) with (b_parent r); rewrite Hr Hp; cbn [isnil].
    - iApply wp_ret. iApply ("H" $! S' HS' with "HT HN Ht Hc").
    - iApply wp_bind. iApply (wp_deref _ _ (f_n f)); [done|].
      cbn [Rep.ctx]. iDestruct "Hc" as "((%kv & %b & %Hkv & HNp & Htp & Hp & Hb) & Hl & Hrr & Hc)". rewrite innerblk_held.
      iApply (IH with "HT HNp Htp [Hb] Hc"); [cbn in Hf; lia|done|done|done|].
      iIntros (S2 HS2) "HT HNp Htp Hc". rewrite set_nrec.
      assert (S ⊆ S2) as HX by by etrans.
      iApply ("H" $! S2 HX with "HT HN Ht"). cbn [dirtyC fmap list_fmap Rep.ctx].
      fold (dirtyC C). cbn [fdirty f_n f_st f_ls f_rs f_ka f_kb]. iFrame "Hl Hrr".
      rewrite dirtyC_hpar dirtyC_isnil. change (chs_of (fdirty f)) with (chs_of f). iSplitR "Hc".
      + iApply (inode_locs _ _ _ _ _ (chs_of f (Info n sz o))); [done|apply chs_loc..|].
        iExists kv, b. rewrite innerblk_nc //. iFrame. iSplit; [done|]. iApply held_no.
      + unfold finfo. cbn [fdirty f_n f_st f_ls f_rs stloc']. change (chs_of (fdirty f)) with (chs_of f).
        by rewrite (isum_loc f n sz o None).
  Qed.

  Lemma isum_bump f n sz δ o o' : isum (chs_of f (Info n (sz + δ) o)) = isum (chs_of f (Info n sz o')) + δ.
  Proof. unfold isum, chs_of. rewrite !fmap_app !fmap_cons !sumz_app !sumz_cons. cbn. lia. Qed.
  Lemma imap_bump f n sz δ o o' :
    bump δ (length (f_ls f)) (imap entof (chs_of f (Info n sz o))) = imap entof (chs_of f (Info n (sz + δ) o')).
  Proof.
    unfold bump, chs_of. rewrite !imap_app !imap_cons.
    replace (length (f_ls f)) with (length (imap entof (ginfo <$> f_ls f)) + 0)%nat by by rewrite imap_length fmap_length Nat.add_0_r.
    rewrite alter_app_r. cbn. by rewrite !fmap_length.
  Qed.

  Lemma updateUp io δ fuel0 : ∀ C fuel root S h n r x sz o Q E, (length C < fuel)%nat →
    Forall (λ f, length (f_ls f) + length (f_rs f) < fuel0)%nat C →
    b_parent r = hpar C → b_root r = isnil C →
    isTR root S -∗ isN n r -∗ isT n (tg ca x) -∗ held (b_loc r) -∗ ctx h C (Info n sz o) -∗
    (∀ S' (_ : S ⊆ S'), isTR root S' -∗ isN n (set_loc noloc (set_dirty true (set_items (b_items r + δ) r))) -∗ isT n (tg ca dirtyLRU) -∗
       ctx h (dirtyC C) (Info n (sz + δ) None) -∗ Q tt) -∗
    wp io (updateRec fuel0 fuel t n δ) Q E.
  Proof.
    induction C as [|f C IH]; intros fuel root S h n r x sz o Q E Hf Hf0 Hp Hr; (destruct fuel as [|fuel]; [cbn in Hf; lia|]);
      cbn [updateRec]; iIntros "HT HN Ht Hh Hc H"; iApply wp_bind; iApply (wp_modN with "HN"); iIntros "HN"; iApply wp_bind;
      iApply (wp_dirty with "HT HN Ht Hh"); iIntros (S' [HS' _]) "HT HN Ht";
      iApply wp_bind; iApply (wp_getN with "HN"); iIntros "HN";
      change (b_root (set_loc noloc (set_dirty true (set_items (b_items r + δ) r)))) with (b_root r);
      change (b_parent (set_loc noloc (set_dirty true (set_items (b_items r + δ) r)))) with (b_parent r); rewrite Hr Hp; cbn [isnil].
    - iApply wp_ret. iApply ("H" $! S' HS' with "HT HN Ht Hc").
    - apply Forall_cons in Hf0 as [Hf1 Hf0].
      cbn [Rep.ctx]. iDestruct "Hc" as "((%kv & %b & (%Hkv & %Hlen & %Hb & %Hlf) & HNp & Htp & Hp & Hb) & Hl & Hrr & Hc)". rewrite innerblk_held.
      assert (length (bins b) = length (f_ls f) + Datatypes.S (length (f_rs f)))%nat as Hlb.
      { rewrite Hb imap_length /chs_of app_length /= !fmap_length. done. }
      iApply wp_bind. iApply (bumpLoop_spec io δ b None (length (f_ls f)) with "Hp").
      { rewrite Hb list_lookup_imap /chs_of lookup_app_r; [|by rewrite fmap_length].
        rewrite fmap_length Nat.sub_diag /=. done. }
      { lia. }
      iIntros (fuel' _) "Hp".
      iApply wp_bind. iApply (wp_deref _ _ (f_n f)); [done|].
      iApply (IH with "HT HNp Htp [Hb] Hc"); [cbn in Hf; lia|done|done|done|done|].
      iIntros (S2 HS2) "HT HNp Htp Hc".
      assert (S ⊆ S2) as HX by by etrans.
      iApply ("H" $! S2 HX with "HT HN Ht"). cbn [dirtyC fmap list_fmap Rep.ctx].
      fold (dirtyC C). cbn [fdirty f_n f_st f_ls f_rs f_ka f_kb]. iFrame "Hl Hrr".
      rewrite dirtyC_hpar dirtyC_isnil. change (chs_of (fdirty f)) with (chs_of f). iSplitR "Hc".
      + iExists kv, (bbump δ (length (f_ls f)) b). rewrite innerblk_nc //.
        assert (i_id <$> chs_of f (Info n (sz + δ) None) = i_id <$> chs_of f (Info n sz o)) as Hid.
        { unfold chs_of. by rewrite !fmap_app !fmap_cons. }
        rewrite Hid (isum_bump f n sz δ None o) bbump_brt. iFrame. iSplit; [|iApply held_no].
        iPureIntro. split_and!; [done| | |].
        * rewrite -Hlen. unfold chs_of. by rewrite !app_length.
        * rewrite bbump_bins Hb. by apply imap_bump.
        * by apply bbump_lefty.
      + unfold finfo. cbn [fdirty f_n f_st f_ls f_rs stloc']. change (chs_of (fdirty f)) with (chs_of f).
        by rewrite (isum_bump f n sz δ None o).
  Qed.

  (** rebuilding the prefix sums from an inner node up to the root *)
  Lemma rearrUp io : ∀ C fuel root S h n st ks cs sz o Q E, (length C < fuel)%nat → lens C →
    isTR root S -∗ inodeU n (hpar C) (isnil C) st ks (gid <$> cs) -∗ reps h n cs -∗ ctx (Datatypes.S h) C (Info n sz o) -∗
    (∀ S' (_ : S ⊆ S'), isTR root S' -∗ whole (Datatypes.S h + length C) (fill (dirtyC C) (GI n Dirty ks cs)) -∗ Q tt) -∗
    wp io (rearrangeToRoot fuel t n) Q E.
  Proof.
    induction C as [|f C IH]; intros fuel root S h n st ks cs sz o Q E Hf Hlens; (destruct fuel as [|fuel]; [cbn in Hf; lia|]);
      cbn [rearrangeToRoot]; iIntros "HT Hn Hk Hc H"; iApply wp_bind.
    all: iAssert (inodeU n (hpar _) (isnil _) (weak st) ks (gid <$> cs)) with "[Hn]" as "Hn";
      [iDestruct "Hn" as (kv s ps H) "(HN & Ht & Hp & Hh)"; iExists kv, s, ps; rewrite nrec_weak weak_tag weak_loc; iFrame; done|].
    all: (iApply (arrange_rep with "Hn Hk"); [apply weak_notclean|]); iIntros "Hn Hk"; iApply wp_bind; iApply (inode_dirty with "HT Hn");
      iIntros (S' [HS' _]) "HT Hn"; iApply wp_bind;
      iDestruct "Hn" as (kv b (Hkv & Hlen & Hb & Hlf)) "(HN & Ht & Hp & Hb)"; iApply (wp_getN with "HN"); iIntros "HN"; cbn [Rep.nrec b_root isnil b_parent].
    - iApply wp_ret. iApply ("H" $! S' HS' with "HT"). rewrite Nat.add_0_r.
      iAssert (rep (Datatypes.S h) None true (GI n Dirty ks cs)) with "[HN Ht Hp Hb Hk]" as "Hn".
      { rewrite rep_GI. iFrame "Hk". iExists kv, b. iFrame. done. } cbn [dirtyC fmap list_fmap fill]. unfold Rep.whole. iFrame.
    - iApply wp_bind. iApply (wp_deref _ _ (f_n f)); [done|].
      apply Forall_cons in Hlens as [[L1 L2] Hlens].
      iAssert (rep (Datatypes.S h) (Some (f_n f)) false (GI n Dirty ks cs)) with "[HN Ht Hp Hb Hk]" as "Hn".
      { rewrite rep_GI. iFrame "Hk". iExists kv, b. iFrame. done. }
      cbn [Rep.ctx]. iDestruct "Hc" as "(Hf & Hl & Hr & Hc)".
      iApply (IH fuel _ _ (Datatypes.S h) (f_n f) (f_st f) (f_ka f ++ f_kb f) (f_ls f ++ GI n Dirty ks cs :: f_rs f) with "HT [Hf] [Hl Hr Hn] Hc").
      { cbn in Hf. lia. } { done. }
      { rewrite inode_U /chs_of !fmap_app !fmap_cons -!list_fmap_compose. done. }
      { unfold Rep.reps. rewrite big_sepL_app big_sepL_cons. iFrame. }
      iIntros (S2 HS2) "HT Hw". assert (S ⊆ S2) as HX by by etrans.
      iApply ("H" $! S2 HX with "HT"). cbn [length]. rewrite -Nat.add_succ_comm. iExact "Hw".
  Qed.
End update.

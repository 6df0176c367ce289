(** * Finding the leaf for a key or an index

    Models no code. *)
From Coq Require Import ssreflect Sorted.
From stdpp Require Import prelude list gmap.
From iris.bi Require Import bi.
From iris.proofmode Require Import proofmode.
From Verif Require Import Spec SpecFacts Llrb LlrbApi BTree HProp Lru Wp Kv Codec Ghost Order PsTree Rep Load.
Open Scope Z_scope.

(** ** Node counts *)
Section count.
  Context {K V : Type}.
  Notation ct := (ct K V).
  Notation gt := (gt K V).
  Lemma sum_list_in (l : list nat) x : x ∈ l → (x ≤ sum_list l)%nat.
  Proof. induction 1; cbn; lia. Qed.
  Lemma cnt_pos (c : ct) : (0 < cnt c)%nat.
  Proof. destruct c; cbn; lia. Qed.
  Lemma cnt_len (cs : list ct) : (length cs ≤ sum_list (cnt <$> cs))%nat.
  Proof. induction cs as [|c cs IH]; cbn; [done|]. pose proof (cnt_pos c). lia. Qed.
  Lemma cnt_kids ks (cs : list ct) : (length cs < cnt (CI ks cs))%nat.
  Proof. cbn. pose proof (cnt_len cs). lia. Qed.
  Lemma cnt_height mn b h (c : ct) : wfo mn b h c → (h < cnt c)%nat.
  Proof.
    revert b c. induction h as [|h IH]; intros b [kvs|ks cs] Hw; cbn in Hw; try done; [by cbn; lia|].
    destruct Hw as (Hlen & _ & Hall). destruct cs as [|c cs]; [done|]. apply Forall_cons in Hall as [Hc _].
    apply IH in Hc. cbn. lia.
  Qed.
  Lemma cnt_zip1 f (g : gt) : (cnt (strip g) < cnt (strip (zip1 f g)))%nat.
  Proof.
    unfold zip1. cbn [strip cnt]. enough (cnt (strip g) ≤ sum_list (cnt <$> (strip <$> f_ls f ++ g :: f_rs f)))%nat by lia.
    apply sum_list_in. rewrite -list_fmap_compose. apply elem_of_list_fmap. exists g. split; [done|].
    apply elem_of_app. right. by left.
  Qed.
  Lemma cnt_fill C (g : gt) : (cnt (strip g) + length C ≤ cnt (strip (fill C g)))%nat.
  Proof.
    revert g. induction C as [|f C IH]; intros g; cbn [fill length]; [lia|].
    pose proof (IH (zip1 f g)). pose proof (cnt_zip1 f g). lia.
  Qed.
End count.

Section search.
  Context {K V : Type}.
  Variable cb : callbacks K V.
  Variable dom : K → Prop.
  Variable domV : V → Prop.
  Hypothesis WF : wf_cb cb dom domV.
  Variable mn : nat.
  Hypothesis MN : (2 ≤ mn)%nat.
  Variable t : tid.
  Variable ca : bool.
  Notation cmp := (cb_cmp cb).
  Notation M := (M K V).
  Notation hProp := (hProp K V).
  Notation bval := (bval V).
  Notation gt := (gt K V).
  Notation frame := (frame K V).
  Let ORD := wf_ord _ _ _ WF.
  Notation good := (good cmp dom domV).
  Notation ksorted := (ksorted cmp dom).
  Notation cutL := (cutL cmp (V:=V)).
  Notation cutR := (cutR cmp (V:=V)).
  Notation rep := (rep cb dom mn t ca).
  Notation reps := (reps cb dom mn t ca).
  Notation isTR := (isTR mn t ca).
  Notation inode := (inode cb dom mn t ca).
  Notation lnode := (lnode cb dom mn t ca).
  Notation whole := (whole cb dom mn t ca).
  Notation ctx := (ctx cb dom mn t ca).
  Implicit Types (g c : gt) (n : nid) (C : list frame) (W : vt K V) (h : nat).

  (** a tree opened at one of its nodes *)
  Definition cur root S h C g : hProp := (isTR root S ∗ ctx h C (ginfo g) ∗ rep h (hpar C) (isnil C) g)%I.
  Record okc W h C g : Prop := Okc {
    ok_vw : vw (fill C g) = W;
    ok_wfC : wfC mn h C;
    ok_wf : wfo mn (low mn C h) h (strip g);
    ok_pend : pend g = [];
    ok_pendC : pendC C = [] }.
  Definition goodW W : Prop := good (toks (vstrip W)).

  Lemma okc_toks W h C g : okc W h C g → toks (vstrip W) = cpre C ++ toks (strip g) ++ cpost C.
  Proof. intros [<- H _ _ _]. rewrite strip_vw toks_fill //. by eapply wfC_lens. Qed.
  Lemma okc_good W h C g : okc W h C g → goodW W → good (toks (strip g)).
  Proof. intros Hok Hg. unfold goodW in Hg. rewrite (okc_toks _ _ _ _ Hok) in Hg. apply good_app in Hg as (_ & Hg & _). by apply good_app in Hg as [? _]. Qed.
  Lemma okc_cnt W h C g : okc W h C g → (cnt (strip g) + length C ≤ cnt (vstrip W))%nat.
  Proof. intros [<- _ _ _ _]. rewrite strip_vw. apply cnt_fill. Qed.

  Lemma cur_whole root S h C g W : okc W h C g → cur root S h C g ⊢ isTR root S ∗ whole (h + length C) (fill C g).
  Proof. intros Hok. iIntros "($ & H)". iApply fill_ctx; [|done]. eapply wfC_lens, Hok. Qed.

  Lemma cur_visit mark root S h C g W Q E : okc W h C g → goodW W →
    cur root S h C g -∗
    ((∀ g' (_ : okc W h C g' ∧ isloaded g' ∧ vw g' = vw g), cur root S h C g' -∗ Q tt) ∧ (cur root S h C g -∗ E EIO)) -∗
    wp true (visit cb mark t (gid g)) Q E.
  Proof using WF MN.
    iIntros (Hok Hg) "(HT & Hc & Hr) H".
    iDestruct (rep_cleanok with "Hr") as %Hcl.
    iApply (visit_spec cb dom domV WF with "HT Hr").
    { by eapply okc_good. } { eexists. by apply Hok. } { intros _. apply pend_usable, Hok. }
    iSplit.
    - iDestruct "H" as "[H _]". iIntros (g' [Hv Hl]) "HT Hr".
      iDestruct (rep_cleanok with "Hr") as %Hcl'.
      assert (okc W h C g' ∧ isloaded g' ∧ vw g' = vw g) as HX.
      { split_and!; [|done|done]. destruct Hok as [H1 H2 H3 H4 H5]. split; [|done| | |done].
        - rewrite -H1. by apply vw_fill.
        - by rewrite (vw_strip g g').
        - by rewrite (vw_pend g g'). }
      iApply ("H" $! g' HX). iFrame. by rewrite (vw_info g g').
    - iDestruct "H" as "[_ H]". iIntros "HT Hr". iApply "H". iFrame.
  Qed.

  (** stepping into child [j] *)
  Definition frame_at n st ks cs (j : nat) : frame := Frame n st (take j ks) (take j cs) (drop j ks) (drop (S j) cs).
  Lemma okc_down W h C n st ks cs j c : okc W (S h) C (GI n st ks cs) → cs !! j = Some c →
    okc W h (frame_at n st ks cs j :: C) c.
  Proof using MN.
    intros [H1 H2 H3 H4 H5] Hj. cbn in H3. rewrite fmap_length in H3. destruct H3 as (Hlen & Hlo & Hall).
    destruct (zip1_at n st ks cs j c Hj Hlen) as (Hz & Hl1 & Hl2).
    assert (wfo mn mn h (strip c)) as Hc.
    { rewrite Forall_fmap in Hall. rewrite Forall_lookup in Hall. by apply (Hall j). }
    split.
    - cbn [fill]. unfold frame_at. by rewrite -Hz.
    - cbn. split_and!; try done.
      + rewrite fmap_take. by apply Forall_take.
      + rewrite fmap_drop. by apply Forall_drop.
      + rewrite -app_length take_drop. lia.
      + rewrite -app_length take_drop. lia.
    - done.
    - apply (Permutation_nil_r (pend c)). rewrite Hz in H4.
      pose proof (pend_zip1 (Frame n st (take j ks) (take j cs) (drop j ks) (drop (S j) cs)) c) as Hp.
      rewrite H4 in Hp. symmetry in Hp. apply Permutation_nil_r in Hp. apply app_eq_nil in Hp as [-> _]. done.
    - rewrite Hz in H4.
      pose proof (pend_zip1 (Frame n st (take j ks) (take j cs) (drop j ks) (drop (S j) cs)) c) as Hp.
      rewrite H4 in Hp. symmetry in Hp. apply Permutation_nil_r in Hp. apply app_eq_nil in Hp as [_ Hp].
      cbn [pendC frame_at f_n f_st f_ls f_rs] in *. rewrite H5. rewrite app_nil_r. done.
  Qed.
  Lemma cur_down root S h C n st ks cs j c : cs !! j = Some c → length cs = Datatypes.S (length ks) →
    cur root S (Datatypes.S h) C (GI n st ks cs) ⊣⊢ cur root S h (frame_at n st ks cs j :: C) c.
  Proof.
    intros Hj Hlen. destruct (zip1_at n st ks cs j c Hj Hlen) as (Hz & Hl1 & Hl2).
    unfold cur. unfold frame_at. rewrite {1 2}Hz. set f := Frame _ _ _ _ _ _ in Hz |- *.
    rewrite ginfo_zip // {1}/zip1 rep_GI -chs_zip. cbn [Rep.ctx hpar head fmap option_fmap option_map isnil].
    unfold Rep.reps. rewrite big_sepL_app big_sepL_cons.
    iSplit.
    - iIntros "($ & $ & $ & $ & $ & $)".
    - iIntros "($ & ($ & $ & $ & $) & $)".
  Qed.

  (** ** By key *)
  Lemma kels_lookup (ks : list K) (ids : list nid) j k (c : nid) : length ids = S (length ks) →
    ks !! j = Some k → ids !! S j = Some c → kels (V:=V) ks ids !! j = Some (k, VNode c).
  Proof.
    intros _ Hk Hc. unfold kels, kvals. apply lookup_zip_with_Some. exists k, (VNode c). split_and!; [done|done|].
    rewrite list_lookup_fmap lookup_tail Hc. done.
  Qed.
  Lemma kels_len (ks : list K) (ids : list nid) : length ids = S (length ks) → length (kels (V:=V) ks ids) = length ks.
  Proof. intros Hl. unfold kels, kvals. rewrite zip_with_length fmap_length. destruct ids; cbn in *; lia. Qed.
  Lemma kels_keys (ks : list K) (ids : list nid) : length ids = S (length ks) → (kels (V:=V) ks ids).*1 = ks.
  Proof. intros Hl. unfold kels, kvals. apply fst_zip. rewrite fmap_length. destruct ids; cbn in *; lia. Qed.

  Lemma findChild_spec io n r kv ks (ids : list nid) key Q E :
    b_kv r = Some kv → iskv cb dom (kels ks ids) kv → b_left r = head ids →
    length ids = S (length ks) → ks ≠ [] → dom key →
    isN n r -∗
    (∀ j (c : nid) (_ : ids !! j = Some c ∧ Forall (λ x, below cmp key x = false) (take j ks) ∧
                Forall (λ x, below cmp key x = true) (drop j ks)),
       isN n r -∗ Q (c, Some (Z.of_nat j - 1))) -∗
    wp io (findChild cb n key) Q E.
  Proof using WF MN.
    iIntros (Hkv Hi Hleft Hlen Hne Hk) "HN H".
    assert (ksorted ks) as Hks.
    { pose proof (iskv_dom _ _ _ _ Hi) as Hd. pose proof (iskv_asc _ _ _ _ Hi) as Ha.
      rewrite -(kels_keys ks ids Hlen). split; [|by rewrite Forall_fmap].
      clear -Ha. induction Ha; cbn; constructor; [done|]. by rewrite Forall_fmap. }
    pose proof (seps_split cmp dom ORD key ks (kvals (V:=V) (tail ids)) Hk Hks) as Hsp.
    fold (kels (V:=V) ks ids) in Hsp. cbv zeta in Hsp.
    set j := if present _ _ _ then _ else _ in Hsp.
    destruct Hsp as (Hj & Hlo & Hhi). { unfold kvals. rewrite fmap_length. destruct ids; cbn in *; lia. }
    destruct ks as [|k0 ks]; [done|]. destruct ids as [|c0 [|c1 ids]]; [done..|].
    unfold findChild.
    iApply wp_bind. change (kvGet (K:=K) (V:=V) n 0) with (kvGet (K:=K) (V:=V) n (Z.of_nat 0)). iApply (wp_kvGet_nat cb dom _ _ _ _ _ Hkv Hi 0 with "HN"); [done|]. iIntros "HN".
    iApply wp_bind. iApply (wp_getN with "HN"). iIntros "HN".
    destruct (to_total _ _ ORD key k0) as [x Hx]; [done|by destruct Hks as [_ [? _]%Forall_cons]|].
    iApply wp_bind. unfold compareM. rewrite Hx. iApply wp_ret.
    assert (below cmp key k0 = (x <? 0)) as Hb by by rewrite /below Hx.
    destruct (x <? 0) eqn:Hx0.
    - iApply wp_bind. iApply (wp_deref _ _ c0); [done|]. iApply wp_ret.
      assert (j = 0%nat) as Hj0.
      { destruct j as [|j']; [done|]. cbn in Hlo. apply Forall_cons in Hlo as [Hlo _]. congruence. }
      rewrite Hj0 in Hlo Hhi.
      iApply ("H" $! 0%nat c0 (conj eq_refl (conj Hlo Hhi)) with "HN").
    - iApply wp_bind. iApply (wp_kvBisectLeft cb dom ORD _ _ _ _ _ Hkv Hi with "HN"); [done|]. iIntros "HN".
      assert (∃ j', j = S j') as [j' Hj'].
      { destruct j as [|j']; [|by eexists]. cbn in Hhi. apply Forall_cons in Hhi as [Hhi _]. congruence. }
      assert ((if present cmp key (kels (V:=V) (k0 :: ks) (c0 :: c1 :: ids)) then (Z.of_nat (rank cmp key (kels (V:=V) (k0 :: ks) (c0 :: c1 :: ids))), true)
               else (Z.of_nat (rank cmp key (kels (V:=V) (k0 :: ks) (c0 :: c1 :: ids))) - 1, false)).1 = Z.of_nat j') as Hr.
      { subst j. destruct (present _ _ _); cbn [fst]; [by injection Hj' as ->|]. rewrite Hj'. lia. }
      match type of Hr with ?x.1 = _ => destruct x as [i fnd] end. cbn [fst] in Hr. subst i.
      destruct ((k0 :: ks) !! j') as [kj|] eqn:Hkj; last first.
      { apply lookup_ge_None_1 in Hkj. lia. }
      destruct ((c0 :: c1 :: ids) !! S j') as [cj|] eqn:Hcj; last first.
      { apply lookup_ge_None_1 in Hcj. lia. }
      iApply wp_bind. iApply (wp_kvGet_nat cb dom _ _ _ _ _ Hkv Hi j' with "HN"); [by apply kels_lookup|]. iIntros "HN".
      iApply wp_bind. iApply wp_asNode. iApply wp_ret.
      replace (Z.of_nat j') with (Z.of_nat j - 1) by lia. rewrite -Hj' in Hcj.
      iApply ("H" $! j cj (conj Hcj (conj Hlo Hhi)) with "HN").
  Qed.

  (** the position in its parent of each node on the way up *)
  Definition stk C : list Z := (λ f, Z.of_nat (length (f_ls f)) - 1) <$> C.

  Lemma low_ne C h (x : nat) : (low mn C (S h) ≤ x)%nat → (1 ≤ x)%nat.
  Proof using MN. destruct C; cbn; lia. Qed.

  Lemma descendKey_spec mark key : dom key → ∀ h fuel W root S C g Q E, (h < fuel)%nat → okc W h C g → goodW W →
    cutL key (cpre C) → cutR key (cpost C) →
    cur root S h C g -∗
    ((∀ C' n st kvs (_ : okc W 0 C' (GL n st kvs) ∧ (h + length C)%nat = length C' ∧ cutL key (cpre C') ∧ cutR key (cpost C')),
        cur root S 0 C' (GL n st kvs) -∗ Q (n, stk C')) ∧
     (∀ C' h' g' (_ : okc W h' C' g' ∧ (h + length C)%nat = (h' + length C')%nat), cur root S h' C' g' -∗ E EIO)) -∗
    wp true (descendKey cb fuel mark t (gid g) (stk C) key) Q E.
  Proof using WF MN.
    intros Hk. induction h as [|h IH]; intros fuel W root S C g Q E Hf Hok Hg HL HR; (destruct fuel as [|fuel]; [lia|]);
      cbn [descendKey]; iIntros "Hcur H"; iApply wp_bind; (iApply (cur_visit with "Hcur"); [done..|]); iSplit.
    2,4: iDestruct "H" as "[_ H]"; iIntros "Hcur"; iApply ("H" $! C _ g (conj Hok eq_refl) with "Hcur").
    - iIntros (g' (Hok' & Hl & Hvw)) "Hcur".
      destruct g' as [|n st kvs|]; [done| |by destruct Hok' as [_ _ ? _ _]]. 
      iDestruct "Hcur" as "(HT & Hc & Hr)". cbn [Rep.rep].
      iDestruct "Hr" as (kv left ps Hkv) "(HN & Ht & Hb)".
      assert (gid g = n) as ->. { by rewrite -vid_vw -Hvw vid_vw. }
      iApply wp_bind. iApply (wp_getN with "HN"). iIntros "HN". cbn [nrec b_leaf]. iApply wp_ret.
      iDestruct "H" as "[H _]". iApply ("H" $! C n st kvs (conj Hok' (conj eq_refl (conj HL HR)))).
      iFrame. cbn [Rep.rep]. iExists kv, left, ps. iFrame. done.
    - iIntros (g' (Hok' & Hl & Hvw)) "Hcur".
      destruct g' as [|n st kvs|n st ks cs]; [done|by destruct Hok' as [_ _ ? _ _]|]. 
      assert (gid g = n) as ->. { by rewrite -vid_vw -Hvw vid_vw. }
      pose proof (ok_wf _ _ _ _ Hok') as Hw. cbn in Hw. rewrite fmap_length in Hw. destruct Hw as (Hlen & Hlo & Hall).
      iDestruct "Hcur" as "(HT & Hc & Hr)". rewrite rep_GI. iDestruct "Hr" as "[(%kv & %b & (%Hkv & %Hlen' & %Hb) & HN & Ht & Hp & Hib) Hk]".
      iApply wp_bind. iApply (wp_getN with "HN"). iIntros "HN". cbn [nrec b_leaf].
      iApply wp_bind. iApply (findChild_spec with "HN"); [done|exact Hkv|done|by rewrite fmap_length|by intros ->; destruct Hlo as [Hlo%low_ne _]; cbn in Hlo; lia|done|].
      iIntros (j cj (Hcj & Hka & Hkb)) "HN".
      rewrite -list_fmap_compose list_lookup_fmap in Hcj. destruct (cs !! j) as [c|] eqn:Hj; [|done].
      injection Hcj as <-. cbn [i_id ginfo].
      pose proof (okc_down _ _ _ _ _ _ _ _ _ Hok' Hj) as Hok2.
      assert (stk (frame_at n st ks cs j :: C) = (Z.of_nat j - 1) :: stk C) as Hstk.
      { unfold stk. cbn [fmap list_fmap frame_at f_ls]. rewrite take_length. apply lookup_lt_Some in Hj. do 2 f_equal. lia. }
      rewrite -Hstk.
      assert (cutL key (cpre (frame_at n st ks cs j :: C)) ∧ cutR key (cpost (frame_at n st ks cs j :: C))) as [HL2 HR2].
      { pose proof Hg as Hg'. unfold goodW in Hg'. rewrite (okc_toks _ _ _ _ Hok2) in Hg'.
        apply good_app in Hg' as (Hg1 & Hg2 & _). apply good_app in Hg2 as (_ & Hg2 & _).
        cbn [cpre cpost] in Hg1, Hg2. apply good_app in Hg1 as (_ & Hg1 & _). apply good_app in Hg2 as (Hg2 & _ & _).
        pose proof (wfC_lens _ _ _ (ok_wfC _ _ _ _ Hok2)) as [[L1 L2] _]%Forall_cons.
        cbn [cpre cpost]. split.
        - apply cutL_app. split; [done|]. apply (cutL_tpre cmp dom domV ORD); [done| |done|done]. unfold ltoks. by rewrite fmap_length.
        - apply cutR_app. split; [|done]. apply (cutR_tpost cmp dom domV ORD); [done| |done|done]. unfold ltoks. by rewrite fmap_length. }
      iApply (IH fuel W with "[HT Hc HN Ht Hp Hib Hk]"); [lia|done..| |].
      + iApply cur_down; [done..|]. iFrame "HT Hc". rewrite rep_GI. iFrame "Hk". iExists kv, b. iFrame. done.
      + iSplit.
        * iDestruct "H" as "[H _]". iIntros (C' n' st' kvs' (H1&H2&H3)) "Hcur".
          cbn [length] in H2. rewrite -Nat.add_succ_comm in H2.
          iApply ("H" $! C' n' st' kvs' (conj H1 (conj H2 H3)) with "Hcur").
        * iDestruct "H" as "[_ H]". iIntros (C' h' g' (H1&H2)) "Hcur".
          cbn [length] in H2. rewrite -Nat.add_succ_comm in H2.
          iApply ("H" $! C' h' g' (conj H1 H2) with "Hcur").
  Qed.

  (** ** Positions *)
  Definition plen C : Z := Z.of_nat (length (titems (cpre C))).
  Lemma tpre_size ka (la : list gt) : length ka = length la →
    Z.of_nat (length (titems (tpre ka (ltoks la)))) = sumz (gsz <$> la).
  Proof.
    intros Hl. rewrite titems_tpre; [|unfold ltoks; by rewrite fmap_length]. clear Hl.
    induction la as [|c la IH]; [done|]. cbn [ltoks fmap list_fmap mjoin list_join]. rewrite app_length sumz_cons.
    unfold ltoks in IH. rewrite Nat2Z.inj_add IH. done.
  Qed.
  Lemma plen_cons f C : length (f_ka f) = length (f_ls f) → plen (f :: C) = plen C + sumz (gsz <$> f_ls f).
  Proof. intros H. unfold plen. cbn [cpre]. rewrite titems_app app_length Nat2Z.inj_add tpre_size //. Qed.
  Lemma ents_at (cs : list gt) j c : cs !! j = Some c →
    imap entof (ginfo <$> cs) = imap entof (ginfo <$> take j cs) ++ entof j (ginfo c) :: imap (λ i, entof (S j + i)) (ginfo <$> drop (S j) cs).
  Proof.
    intros Hj. rewrite -{1}(take_drop_middle cs j c Hj) fmap_app fmap_cons imap_app imap_cons. f_equal.
    rewrite fmap_length take_length. apply lookup_lt_Some in Hj. rewrite Nat.min_l; [|lia]. f_equal; [by rewrite /= Nat.add_0_r|].
    apply imap_ext. intros i x _. cbn. f_equal. lia.
  Qed.
  Lemma ents_sum (cs : list gt) : sumz (e_sz <$> imap entof (ginfo <$> cs)) = sumz (gsz <$> cs).
  Proof. by rewrite imap_entof_sz -list_fmap_compose. Qed.
  Lemma ents_split (cs : list gt) A e B : imap entof (ginfo <$> cs) = A ++ e :: B →
    ∃ j c, cs !! j = Some c ∧ j = length A ∧ e = entof j (ginfo c) ∧ sumz (e_sz <$> A) = sumz (gsz <$> take j cs).
  Proof.
    intros H. destruct (cs !! length A) as [c|] eqn:Hj; last first.
    { apply lookup_ge_None_1 in Hj. apply (f_equal length) in H. rewrite imap_length fmap_length app_length /= in H. lia. }
    exists (length A), c. split_and!; [done..| |].
    - pose proof (ents_at cs _ _ Hj) as H2. rewrite H in H2. apply app_inj_1 in H2 as [_ H2]; [by injection H2|].
      rewrite imap_length fmap_length take_length. apply lookup_lt_Some in Hj. lia.
    - pose proof (ents_at cs _ _ Hj) as H2. rewrite H in H2. apply app_inj_1 in H2 as [H2 _]; [by rewrite {1}H2 ents_sum|].
      rewrite imap_length fmap_length take_length. apply lookup_lt_Some in Hj. lia.
  Qed.
  Lemma pstr_ix b (e : ent) par : e ∈ bins b → pstr (K:=K) (V:=V) par b ⊢
    ∃ p, isP (e_id e) p ∗ <affine> ⌜pskv p = e_ix e⌝ ∗ (isP (e_id e) p -∗ pstr par b).
  Proof.
    revert par. induction b as [|l IHl x r IHr]; intros par He; cbn in He; [by apply elem_of_nil in He|].
    iIntros "(HP & Hl & Hr)". apply elem_of_app in He as [He|[->|He]%elem_of_cons].
    - iDestruct (IHl _ He with "Hl") as (p) "(Hp & %Hx & Hl)". iExists p. iFrame "Hp". iSplit; [done|]. iIntros "Hp".
      iSpecialize ("Hl" with "Hp"). cbn. iFrame.
    - iExists _. iFrame "HP". iSplit; [done|]. iIntros "HP". cbn. iFrame.
    - iDestruct (IHr _ He with "Hr") as (p) "(Hp & %Hx & Hr)". iExists p. iFrame "Hp". iSplit; [done|]. iIntros "Hp".
      iSpecialize ("Hr" with "Hp"). cbn. iFrame.
  Qed.
  Lemma okc_kids W h C n st ks cs : okc W (S h) C (GI n st ks cs) →
    length cs = S (length ks) ∧ ks ≠ [] ∧ (length cs < cnt (vstrip W))%nat.
  Proof using MN.
    intros Hok. pose proof (okc_cnt _ _ _ _ Hok) as Hc. pose proof (ok_wf _ _ _ _ Hok) as Hw. cbn in Hw. rewrite fmap_length in Hw.
    destruct Hw as (Hlen & [Hlo _] & _). split_and!; [done| |].
    - intros ->. apply low_ne in Hlo. cbn in Hlo. lia.
    - pose proof (cnt_kids ks (strip <$> cs)) as Hk. rewrite fmap_length in Hk. cbn [strip] in Hc. lia.
  Qed.
  Lemma cut_down W h C n st ks cs j c key : dom key → goodW W → okc W h (frame_at n st ks cs j :: C) c →
    Forall (λ x, below cmp key x = false) (take j ks) → Forall (λ x, below cmp key x = true) (drop j ks) →
    cutL key (cpre C) → cutR key (cpost C) →
    cutL key (cpre (frame_at n st ks cs j :: C)) ∧ cutR key (cpost (frame_at n st ks cs j :: C)).
  Proof using WF.
    intros Hk Hg Hok2 Hka Hkb HL HR. unfold goodW in Hg. rewrite (okc_toks _ _ _ _ Hok2) in Hg.
    apply good_app in Hg as (Hg1 & Hg2 & _). apply good_app in Hg2 as (_ & Hg2 & _).
    cbn [cpre cpost] in Hg1, Hg2. apply good_app in Hg1 as (_ & Hg1 & _). apply good_app in Hg2 as (Hg2 & _ & _).
    pose proof (wfC_lens _ _ _ (ok_wfC _ _ _ _ Hok2)) as [[L1 L2] _]%Forall_cons.
    cbn [cpre cpost]. split.
    - apply cutL_app. split; [done|]. apply (cutL_tpre cmp dom domV ORD); [done| |done|done]. unfold ltoks. by rewrite fmap_length.
    - apply cutR_app. split; [|done]. apply (cutR_tpost cmp dom domV ORD); [done| |done|done]. unfold ltoks. by rewrite fmap_length.
  Qed.

  Lemma descendBisect_spec key fuel0 : dom key → ∀ h fuel W root S C g Q E, (h < fuel)%nat → (cnt (vstrip W) ≤ fuel0)%nat →
    okc W h C g → goodW W → cutL key (cpre C) → cutR key (cpost C) →
    cur root S h C g -∗
    ((∀ C' n st kvs (_ : okc W 0 C' (GL n st kvs) ∧ (h + length C)%nat = length C' ∧ cutL key (cpre C') ∧ cutR key (cpost C')),
        cur root S 0 C' (GL n st kvs) -∗ Q (n, plen C')) ∧
     (∀ C' h' g' (_ : okc W h' C' g' ∧ (h + length C)%nat = (h' + length C')%nat), cur root S h' C' g' -∗ E EIO)) -∗
    wp true (descendBisect cb fuel0 fuel t (gid g) (plen C) key) Q E.
  Proof using WF MN.
    intros Hk. induction h as [|h IH]; intros fuel W root S C g Q E Hf Hf0 Hok Hg HL HR; (destruct fuel as [|fuel]; [lia|]);
      cbn [descendBisect]; iIntros "Hcur H"; iApply wp_bind; (iApply (cur_visit with "Hcur"); [done..|]); iSplit.
    2,4: iDestruct "H" as "[_ H]"; iIntros "Hcur"; iApply ("H" $! C _ g (conj Hok eq_refl) with "Hcur").
    - iIntros (g' (Hok' & Hl & Hvw)) "Hcur".
      destruct g' as [|n st kvs|]; [done| |by destruct Hok' as [_ _ ? _ _]].
      iDestruct "Hcur" as "(HT & Hc & Hr)". cbn [Rep.rep].
      iDestruct "Hr" as (kv left ps Hkv) "(HN & Ht & Hb)".
      assert (gid g = n) as ->. { by rewrite -vid_vw -Hvw vid_vw. }
      iApply wp_bind. iApply (wp_getN with "HN"). iIntros "HN". cbn [nrec b_leaf]. iApply wp_ret.
      iDestruct "H" as "[H _]". iApply ("H" $! C n st kvs (conj Hok' (conj eq_refl (conj HL HR)))).
      iFrame. cbn [Rep.rep]. iExists kv, left, ps. iFrame. done.
    - iIntros (g' (Hok' & Hl & Hvw)) "Hcur".
      destruct g' as [|n st kvs|n st ks cs]; [done|by destruct Hok' as [_ _ ? _ _]|].
      assert (gid g = n) as ->. { by rewrite -vid_vw -Hvw vid_vw. }
      destruct (okc_kids _ _ _ _ _ _ _ Hok') as (Hlen & Hne & Hcnt).
      iDestruct "Hcur" as "(HT & Hc & Hr)". rewrite rep_GI. iDestruct "Hr" as "[(%kv & %b & (%Hkv & %Hlen' & %Hb & %Hlf) & HN & Ht & Hp & Hib) Hk]".
      iApply wp_bind. iApply (wp_getN with "HN"). iIntros "HN". cbn [nrec b_leaf].
      iApply wp_bind. iApply (findChild_spec with "HN"); [done|exact Hkv|done|by rewrite fmap_length|done|done|].
      iIntros (j cj (Hcj & Hka & Hkb)) "HN".
      rewrite -list_fmap_compose list_lookup_fmap in Hcj. destruct (cs !! j) as [c|] eqn:Hj; [|done].
      injection Hcj as <-. cbn [i_id ginfo].
      pose proof (okc_down _ _ _ _ _ _ _ _ _ Hok' Hj) as Hok2.
      destruct (cut_down _ _ _ _ _ _ _ _ _ _ Hk Hg Hok2 Hka Hkb HL HR) as [HL2 HR2].
      pose proof (wfC_lens _ _ _ (ok_wfC _ _ _ _ Hok2)) as [[L1 L2] _]%Forall_cons.
      pose proof (plen_cons (frame_at n st ks cs j) C L1) as Hpl. cbn [frame_at f_ls] in Hpl.
      iAssert (isTR root S -∗ Rep.ctx cb dom mn t ca (Datatypes.S h) C (ginfo (GI n st ks cs)) -∗
               isN n (nrec t st (isum (ginfo <$> cs)) (isnil C) false (hpar C) kv (head (i_id <$> (ginfo <$> cs))) (brt b)) -∗
               isT n (tg ca (sttag st)) -∗ pstr None b -∗ innerblk cb mn (isnil C) st ks (ginfo <$> cs) -∗ reps h n cs -∗
               wp true (descendBisect cb fuel0 fuel t (gid c) (plen (frame_at n st ks cs j :: C)) key) Q E)%I with "[H]" as "H".
      { iIntros "HT Hc HN Ht Hp Hib Hk".
        iApply (IH fuel W with "[HT Hc HN Ht Hp Hib Hk]"); [lia|done..| |].
        + iApply cur_down; [done..|]. iFrame "HT Hc". rewrite rep_GI. iFrame "Hk". iExists kv, b. iFrame. done.
        + iSplit.
          * iDestruct "H" as "[H _]". iIntros (C' n' st' kvs' (H1&H2&H3)) "Hcur".
            cbn [length] in H2. rewrite -Nat.add_succ_comm in H2.
            iApply ("H" $! C' n' st' kvs' (conj H1 (conj H2 H3)) with "Hcur").
          * iDestruct "H" as "[_ H]". iIntros (C' h' g' (H1&H2)) "Hcur".
            cbn [length] in H2. rewrite -Nat.add_succ_comm in H2.
            iApply ("H" $! C' h' g' (conj H1 H2) with "Hcur"). }
      destruct (Z.of_nat j - 1 =? -1) eqn:Hj0.
      + assert (j = 0%nat) as -> by lia. cbn [take fmap list_fmap sumz foldr] in Hpl. rewrite Z.add_0_r in Hpl. rewrite -Hpl.
        iApply ("H" with "HT Hc HN Ht Hp Hib Hk").
      + iApply wp_bind.
        change (gid c) with (e_id (entof j (ginfo c))).
        iApply (childOffset_spec cb dom ORD _ (reps h n cs) b _ (entof j (ginfo c)) with "HN Hp Hk").
        { rewrite Hb. by apply ents_at. } { done. } { rewrite Hb imap_length fmap_length. lia. }
        { rewrite Hb. apply reps_readable. }
        iIntros "HN Hp Hk". rewrite ents_sum -Hpl. cbn [e_id entof fst i_id ginfo].
        iApply ("H" with "HT Hc HN Ht Hp Hib Hk").
  Qed.

  Lemma descendIndex_spec mark fuel0 : ∀ h fuel W root S C g i Q E, (h < fuel)%nat → (cnt (vstrip W) ≤ fuel0)%nat →
    okc W h C g → goodW W → 0 ≤ i < gsz g →
    cur root S h C g -∗
    ((∀ C' n st kvs i' (_ : okc W 0 C' (GL n st kvs) ∧ (h + length C)%nat = length C' ∧ plen C + i = plen C' + Z.of_nat i' ∧ (i' < length kvs)%nat),
        cur root S 0 C' (GL n st kvs) -∗ Q (n, Z.of_nat i', stk C')) ∧
     (∀ C' h' g' (_ : okc W h' C' g' ∧ (h + length C)%nat = (h' + length C')%nat), cur root S h' C' g' -∗ E EIO)) -∗
    wp true (descendIndex cb fuel0 fuel mark t (gid g) i (stk C)) Q E.
  Proof using WF MN.
    induction h as [|h IH]; intros fuel W root S C g i Q E Hf Hf0 Hok Hg Hi; (destruct fuel as [|fuel]; [lia|]);
      cbn [descendIndex]; iIntros "Hcur H"; iApply wp_bind; (iApply (cur_visit with "Hcur"); [done..|]); iSplit.
    2,4: iDestruct "H" as "[_ H]"; iIntros "Hcur"; iApply ("H" $! C _ g (conj Hok eq_refl) with "Hcur").
    - iIntros (g' (Hok' & Hl & Hvw)) "Hcur".
      destruct g' as [|n st kvs|]; [done| |by destruct Hok' as [_ _ ? _ _]].
      iDestruct "Hcur" as "(HT & Hc & Hr)". cbn [Rep.rep].
      iDestruct "Hr" as (kv left ps Hkv) "(HN & Ht & Hb)".
      assert (gid g = n) as ->. { by rewrite -vid_vw -Hvw vid_vw. }
      iApply wp_bind. iApply (wp_getN with "HN"). iIntros "HN". cbn [nrec b_leaf]. iApply wp_ret.
      iDestruct "H" as "[H _]".
      assert (gsz g = Z.of_nat (length kvs)) as Hsz. { unfold gsz. rewrite -(vw_strip _ _ Hvw). cbn [strip]. by rewrite csz_CL. }
      destruct (Z_of_nat_complete i) as [i0 ->]; [lia|].
      assert (plen C + Z.of_nat i0 = plen C + Z.of_nat i0 ∧ (i0 < length kvs)%nat) as HX by lia.
      iApply ("H" $! C n st kvs i0 (conj Hok' (conj eq_refl HX))).
      iFrame. cbn [Rep.rep]. iExists kv, left, ps. iFrame. done.
    - iIntros (g' (Hok' & Hl & Hvw)) "Hcur".
      destruct g' as [|n st kvs|n st ks cs]; [done|by destruct Hok' as [_ _ ? _ _]|].
      assert (gid g = n) as ->. { by rewrite -vid_vw -Hvw vid_vw. }
      destruct (okc_kids _ _ _ _ _ _ _ Hok') as (Hlen & Hne & Hcnt).
      assert (gsz g = sumz (gsz <$> cs)) as Hsz.
      { unfold gsz at 1. rewrite -(vw_strip _ _ Hvw). fold (gsz (GI n st ks cs)). rewrite gsz_GI // chs_sum //. }
      iDestruct "Hcur" as "(HT & Hc & Hr)". rewrite rep_GI. iDestruct "Hr" as "[(%kv & %b & (%Hkv & %Hlen' & %Hb & %Hlf) & HN & Ht & Hp & Hib) Hk]".
      iApply wp_bind. iApply (wp_getN with "HN"). iIntros "HN". cbn [nrec b_leaf b_psroot].
      destruct (brt b) as [m|] eqn:Hm; last first.
      { apply brt_None in Hm. subst b. destruct cs; done. }
      iApply wp_bind. iApply (wp_deref _ _ m); [done|].
      iApply wp_bind. iApply (walkPs_spec cb dom ORD _ (reps h n cs) b with "Hp Hk").
      { done. } { rewrite Hb imap_length fmap_length. lia. } { rewrite bsum_bins Hb ents_sum -Hsz. done. } { rewrite Hb. apply reps_readable. }
      iIntros (A e B i' (HA & Hi' & Hsze)) "Hp Hk".
      pose proof HA as HA'. rewrite Hb in HA'. apply ents_split in HA' as (j & c & Hj & HjA & -> & HsA).
      iDestruct (pstr_ix b (entof j (ginfo c)) None with "Hp") as (p) "(HP & %Hix & Hp)".
      { rewrite HA. apply elem_of_app. right. by left. }
      iApply wp_bind. iApply (wp_getP with "HP"). iIntros "HP". iSpecialize ("Hp" with "HP"). rewrite Hix. cbn [e_ix e_id e_sz entof fst snd i_id i_sz ginfo] in *.
      pose proof (okc_down _ _ _ _ _ _ _ _ _ Hok' Hj) as Hok2.
      pose proof (wfC_lens _ _ _ (ok_wfC _ _ _ _ Hok2)) as [[L1 L2] _]%Forall_cons.
      pose proof (plen_cons (frame_at n st ks cs j) C L1) as Hpl. cbn [frame_at f_ls] in Hpl.
      assert (stk (frame_at n st ks cs j :: C) = (Z.of_nat j - 1) :: stk C) as Hstk.
      { unfold stk. cbn [fmap list_fmap frame_at f_ls]. rewrite take_length. apply lookup_lt_Some in Hj. do 2 f_equal. lia. }
      rewrite -Hstk.
      iApply (IH fuel W with "[HT Hc HN Ht Hp Hib Hk]"); [lia|done..| |].
      + iApply cur_down; [done..|]. iFrame "HT Hc". rewrite rep_GI. iFrame "Hk". iExists kv, b. rewrite Hm. iFrame. done.
      + assert (plen C + i = plen (frame_at n st ks cs j :: C) + i') as Hpi. { rewrite Hpl Hi' HsA. lia. }
        iSplit.
        * iDestruct "H" as "[H _]". iIntros (C' n' st' kvs' i2 (H1&H2&H3)) "Hcur". rewrite -Hpi in H3.
          cbn [length] in H2. rewrite -Nat.add_succ_comm in H2.
          iApply ("H" $! C' n' st' kvs' i2 (conj H1 (conj H2 H3)) with "Hcur").
        * iDestruct "H" as "[_ H]". iIntros (C' h' g' (H1&H2)) "Hcur".
          cbn [length] in H2. rewrite -Nat.add_succ_comm in H2.
          iApply ("H" $! C' h' g' (conj H1 H2) with "Hcur").
  Qed.
End search.

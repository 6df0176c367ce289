(** * Walks over a whole tree: flush, purge, touch, discard

    Models no code. *)
From Coq Require Import ssreflect Sorted.
From stdpp Require Import prelude list gmap.
From iris.bi Require Import bi.
From iris.proofmode Require Import proofmode.
From Verif Require Import Spec SpecFacts Llrb LlrbApi BTree HProp Lru Wp Kv Codec Ghost Order PsTree Rep Load Search Update Plug Insert Borrow Merge Rebal Api.
Open Scope Z_scope.

Section walk.
  Context {K V : Type}.
  Variable cb : callbacks K V.
  Variable dom : K → Prop.
  Variable domV : V → Prop.
  Hypothesis WF : wf_cb cb dom domV.
  Variable mn : nat.
  Hypothesis MN : (2 ≤ mn)%nat.
  Variable t : tid.
  Variable ca : bool.
  Notation cmp := (cb_cmp cb).
  Notation M := (M K V).
  Notation hProp := (hProp K V).
  Notation bval := (bval V).
  Notation gt := (gt K V).
  Notation frame := (frame K V).
  Let ORD := wf_ord _ _ _ WF.
  Notation rep := (rep cb dom mn t ca).
  Notation reps := (reps cb dom mn t ca).
  Notation isTR := (isTR mn t ca).
  Notation inode := (inode cb dom mn t ca).
  Notation inodeU := (inodeU cb dom t ca).
  Notation lnode := (lnode cb dom mn t ca).
  Notation lnode' := (lnode' cb dom mn t ca).
  Notation nrec := (nrec t).
  Notation good := (good cmp dom domV).
  Notation ksorted := (ksorted cmp dom).
  Notation "'let*' x := m 'in' e" := (bind m (fun x => e))
    (at level 200, x name, m at level 100, e at level 200, right associativity).
  Notation "'let*' ' x := m 'in' e" := (bind m (fun x => e))
    (at level 200, x strict pattern, m at level 100, e at level 200, right associativity).
  Notation "m ;; e" := (bind m (fun _ : unit => e))
    (at level 100, e at level 200, right associativity, format "m ;;  '/' e").
  Implicit Types (g c : gt) (n : nid) (f : frame) (C : list frame) (h : nat).
  Notation whole := (whole cb dom mn t ca).
  Notation ctx := (ctx cb dom mn t ca).
  Notation knode := (knode cb dom t).
  Notation pre := (pre cb dom mn t ca).

  Implicit Types (L R : list gt) (x y : gt).

  Notation cur := (cur cb dom mn t ca).
  Notation okc := (okc mn).
  Notation goodW := (goodW cb dom domV).
  Notation treeok := (treeok cb dom domV mn).
  Notation framesmall := (framesmall (K:=K) (V:=V)).


  (** ** Visiting the children of a node *)
  Lemma forM_wp io {A} (f : A → M unit) (I : nat → hProp) (J : err → hProp) (l : list A) :
    ∀ j, (∀ i a, l !! i = Some a → I (j + i)%nat ⊢ wp io (f a) (λ _, I (S (j + i))) J) →
    I j ⊢ wp io (forM l f) (λ _, I (j + length l)%nat) J.
  Proof.
    induction l as [|a l IH]; intros j Hf; cbn [forM length].
    { rewrite Nat.add_0_r. apply (wp_ret io tt (λ _, I j)). }
    rewrite -wp_bind. pose proof (Hf 0%nat a eq_refl) as H0. rewrite Nat.add_0_r in H0.
    rewrite {1}H0. iIntros "H". iApply (wp_wand with "H"). iSplit; [|by iIntros (e) "$"].
    iIntros (_) "H". rewrite (IH (S j)).
    - iApply (wp_wand with "H"). iSplit; [|by iIntros (e) "$"]. iIntros (_) "H".
      by replace (j + S (length l))%nat with (S j + length l)%nat by lia.
    - intros i b Hb. specialize (Hf (S i) b Hb). by replace (j + S i)%nat with (S j + i)%nat in Hf by lia.
  Qed.
  Lemma walk_idx io n r kv ks cids (f : nid → M unit) (I : nat → hProp) (J : err → hProp) :
    b_kv r = Some kv → iskv cb dom (kels ks cids) kv → b_left r = head cids → length cids = S (length ks) →
    (∀ j (c : nid), cids !! j = Some c → I j ⊢ wp io (f c) (λ _, I (S j)) J) →
    isN n r ∗ I 0%nat ⊢ wp io (forLeft n f ;; forChildren n f) (λ _, isN n r ∗ I (length cids)) (λ e, isN n r ∗ J e).
  Proof.
    intros Hr Hkv Hl Hlen Hf. iIntros "[HN HI]". iApply wp_bind. unfold forLeft. iApply wp_bind.
    iApply (wp_getN with "HN"). iIntros "HN". rewrite Hl. destruct cids as [|c0 cids]; [done|]. cbn [head].
    pose proof (Hf 0%nat c0 eq_refl) as H0. rewrite {1}H0. iApply (wp_wand with "HI"). iSplit; [|by iIntros (e) "$"].
    iIntros (_) "HI". unfold forChildren. iApply wp_bind. iApply (wp_kvLen cb dom with "HN"); [done..|]. iIntros "HN".
    rewrite (kels_len mn MN) // range_of_nat. injection Hlen as Hlen.
    iCombine "HN HI" as "H".
    rewrite (forM_wp io (λ i, let* o := kvGet n i in let* ' (_, v) := logicSome o in let* c := asNode v in f c)
      (λ j, isN n r ∗ I j)%I (λ e, isN n r ∗ J e)%I (Z.of_nat <$> seq 0 (length ks)) 1).
    { iApply (wp_wand with "H"). iSplit; [|by iIntros (e) "$"]. iIntros (_) "[$ H]".
      cbn [length]. by rewrite fmap_length seq_length Hlen. }
    intros i a Ha. rewrite list_lookup_fmap in Ha. apply fmap_Some in Ha as (i' & Hi & ->).
    apply lookup_seq in Hi as [-> Hi]. cbn [Nat.add].
    destruct (lookup_lt_is_Some_2 ks i) as [k Hk]; [lia|].
    destruct (lookup_lt_is_Some_2 cids i) as [c Hc]; [lia|].
    iIntros "[HN HI]". iApply wp_bind. iApply (wp_kvGet_nat cb dom with "HN"); [done..| |].
    { apply kels_lookup; [cbn; lia|done|]. exact Hc. }
    iIntros "HN". iApply wp_bind. iApply wp_logicSome. iApply wp_bind. iApply wp_asNode.
    pose proof (Hf (Datatypes.S i) c Hc) as Hf'. rewrite {1}Hf'. iApply (wp_wand with "HI"). iSplit.
    - iIntros (_) "$". done.
    - by iIntros (e) "$".
  Qed.

  (** children in three states: not yet visited, visited, being visited when
      an error occurred *)
  Lemma walk io n r kv ks (cs : list gt) (f : nid → M unit) (R : hProp) (Pre Post Mid : gt → hProp) (R' : err → hProp) :
    b_kv r = Some kv → iskv cb dom (kels ks (gid <$> cs)) kv → b_left r = head (gid <$> cs) → length cs = S (length ks) →
    (∀ c, c ∈ cs → R ∗ Pre c ⊢ wp io (f (gid c)) (λ _, R ∗ Post c) (λ e, R' e ∗ Mid c)) →
    (∀ c, c ∈ cs → Pre c ⊢ Mid c) → (∀ c, c ∈ cs → Post c ⊢ Mid c) →
    isN n r ∗ R ∗ ([∗ list] c ∈ cs, Pre c) ⊢
    wp io (forLeft n f ;; forChildren n f) (λ _, isN n r ∗ R ∗ [∗ list] c ∈ cs, Post c)
      (λ e, isN n r ∗ R' e ∗ [∗ list] c ∈ cs, Mid c).
  Proof.
    intros Hr Hkv Hl Hlen Hf HPre HPost. iIntros "H".
    set I := (λ j, R ∗ ([∗ list] c ∈ take j cs, Post c) ∗ [∗ list] c ∈ drop j cs, Pre c)%I : nat → hProp.
    iApply (wp_wand with "[H]").
    { iApply (walk_idx io n r kv ks (gid <$> cs) f I (λ e, R' e ∗ [∗ list] c ∈ cs, Mid c)%I); try done.
      { by rewrite fmap_length. }
      - intros j x Hx. rewrite list_lookup_fmap in Hx. apply fmap_Some in Hx as (c & Hc & ->).
        assert (c ∈ cs) as Hin by by eapply elem_of_list_lookup_2.
        unfold I. rewrite (drop_S cs c j) //. iIntros "(HR & Hd & [Hc Hn])".
        pose proof (Hf c Hin) as Hf'. iCombine "HR Hc" as "H". rewrite {1}Hf'. iApply (wp_wand with "H"). iSplit.
        + iIntros (_) "[$ Hc]". rewrite (take_S_r cs j c) // big_sepL_app /=. by iFrame.
        + iIntros (e) "[$ Hc]". iEval (rewrite -(take_drop_middle cs j c) //). rewrite big_sepL_app big_sepL_cons. iFrame "Hc".
          iSplitL "Hd".
          * iApply (big_sepL_mono with "Hd"). intros i x Hx. cbn. apply HPost.
            eapply elem_of_list_lookup_2. rewrite lookup_take_Some in Hx. by destruct Hx.
          * iApply (big_sepL_mono with "Hn"). intros i x Hx. cbn. apply HPre.
            rewrite lookup_drop in Hx. by eapply elem_of_list_lookup_2.
      - unfold I. cbn. rewrite drop_0. iDestruct "H" as "($ & $ & $)". done. }
    iSplit.
    - iIntros (_) "[$ (HR & H & H0)]". iFrame "HR". rewrite fmap_length firstn_all drop_all. cbn. by iFrame.
    - iIntros (e) "[$ $]".
  Qed.

  Lemma walk_inode io n par ir st ks (cs : list gt) (f : nid → M unit) (R : hProp) (Pre Post Mid : gt → hProp) (R' : err → hProp) :
    (∀ c, c ∈ cs → R ∗ Pre c ⊢ wp io (f (gid c)) (λ _, R ∗ Post c) (λ e, R' e ∗ Mid c)) →
    (∀ c, c ∈ cs → Pre c ⊢ Mid c) → (∀ c, c ∈ cs → Post c ⊢ Mid c) →
    inode n par ir st ks (ginfo <$> cs) ∗ R ∗ ([∗ list] c ∈ cs, Pre c) ⊢
    wp io (forLeft n f ;; forChildren n f) (λ _, inode n par ir st ks (ginfo <$> cs) ∗ R ∗ [∗ list] c ∈ cs, Post c)
      (λ e, inode n par ir st ks (ginfo <$> cs) ∗ R' e ∗ [∗ list] c ∈ cs, Mid c).
  Proof using MN.
    intros Hf HPre HPost. iIntros "((%kv & %b & (%Hkv & %Hlen & %Hb & %Hlf) & HN & Ht & Hp & Hb) & HR & Hk)".
    rewrite fmap_length in Hlen.
    assert (i_id <$> (ginfo <$> cs) = gid <$> cs) as Hid by by rewrite -list_fmap_compose.
    iCombine "HN HR Hk" as "H". rewrite (walk io n _ kv ks cs f R Pre Post Mid R'); try done.
    - iApply (wp_wand with "H"). iSplit.
      + iIntros (_) "(HN & $ & $)". iExists kv, b. iFrame. iPureIntro. by rewrite fmap_length.
      + iIntros (e) "(HN & $ & $)". iExists kv, b. iFrame. iPureIntro. by rewrite fmap_length.
    - by rewrite -Hid.
    - cbn. by rewrite -Hid.
  Qed.

  (** what flushing keeps *)
  Definition kept g g' : Prop :=
    gid g' = gid g ∧ strip g' = strip g ∧ pend g' = [] ∧ (is_Some (gloc g) → vw g' = vw g).
  Lemma vw_kept g g' : vw g' = vw g → pend g' = [] → kept g g'.
  Proof. intros Hv Hp. split_and!; [|by apply vw_strip|done|done]. by rewrite -!vid_vw Hv. Qed.
  Lemma kept_refl g : pend g = [] → kept g g.
  Proof. intros. by apply vw_kept. Qed.
  Lemma kept_strips cs cs' : Forall2 kept cs cs' → strip <$> cs' = strip <$> cs.
  Proof. induction 1 as [|c c' cs cs' (H1&H2&H3&H4) _ IH]; cbn; [done|]. by rewrite H2 IH. Qed.
  Lemma kept_ids cs cs' : Forall2 kept cs cs' → gid <$> cs' = gid <$> cs.
  Proof. induction 1 as [|c c' cs cs' (H1&H2&H3&H4) _ IH]; cbn; [done|]. by rewrite H1 IH. Qed.
  Lemma kept_pend cs cs' : Forall2 kept cs cs' → mjoin (pend <$> cs') = [].
  Proof. induction 1 as [|c c' cs cs' (H1&H2&H3&H4) _ IH]; cbn; [done|]. by rewrite H3 IH. Qed.
  Lemma kept_vws cs cs' : Forall2 kept cs cs' → Forall (λ c, is_Some (gloc c)) cs → vw <$> cs' = vw <$> cs.
  Proof.
    induction 1 as [|c c' cs cs' (H1&H2&H3&H4) _ IH]; intros Hl; cbn; [done|].
    apply Forall_cons in Hl as [Hc Hl]. by rewrite H4 // IH.
  Qed.
  Lemma kept_GI n st ks cs cs' : Forall2 kept cs cs' → pend (GI n st ks cs) = [] → cleanok (GI n st ks cs) →
    kept (GI n st ks cs) (GI n st ks cs').
  Proof.
    intros H Hp Hc. split_and!.
    - done.
    - cbn. by rewrite (kept_strips cs cs').
    - cbn in *. rewrite (kept_pend cs cs') // app_nil_r. by apply app_eq_nil in Hp as [? _].
    - destruct st; intros [l' Hl]; try done. destruct Hc as [Hc _]. apply vw_GI. by apply kept_vws.
  Qed.
  Lemma refok_locs (cs : list gt) (refs : list ref) : Forall2 refok (ginfo <$> cs) refs → Forall (λ c, is_Some (gloc c)) cs.
  Proof.
    revert refs. induction cs as [|c cs IH]; intros refs; cbn; [constructor|].
    inversion 1 as [|? r ? refs' [H1 H2] H3]; subst. constructor; [by exists r.1|by eapply IH].
  Qed.
  Lemma inode_kept n par ir st ks cs cs' : Forall2 kept cs cs' →
    inode n par ir st ks (ginfo <$> cs) ⊢ inode n par ir st ks (ginfo <$> cs').
  Proof.
    intros Hk. assert ((∃ l, st = Clean l) ∨ notclean st) as [[l ->]|Hst] by (destruct st; cbn; eauto).
    - iIntros "(%kv & %b & %H & HN & Ht & Hp & (%refs & Hb & (%F1 & %F2 & %F3 & %F4)))".
      rewrite (vw_infos cs cs'). 2: { apply kept_vws; [done|]. by eapply refok_locs. }
      iExists kv, b. iFrame "HN Ht Hp". iSplit; [done|]. iExists refs. iFrame. done.
    - apply inode_locs.
      + done.
      + rewrite -!list_fmap_compose. symmetry. by apply kept_ids.
      + rewrite -!list_fmap_compose. apply kept_strips in Hk.
        assert (∀ L : list gt, (i_sz ∘ ginfo) <$> L = csz <$> (strip <$> L)) as HL by (intros L; by rewrite -list_fmap_compose).
        by rewrite !HL Hk.
  Qed.

  (** ** Evicting *)
  Definition isGD g : Prop := match g with GD _ _ => True | _ => False end.
  Definition evictable g : Prop := match g with GL _ (Clean _) _ => True | GI _ (Clean _) _ cs => Forall isGD cs | _ => False end.
  Lemma reps_GD h n cs : Forall isGD cs → reps h n cs ⊢ [∗ list] d ∈ (vdt ∘ vw <$> cs), dsk cb h None d.
  Proof.
    unfold Rep.reps. induction 1 as [|[n' d| |] cs Hc _ IH]; [auto|..]; try done. cbn -[Rep.rep].
    iIntros "[Hc Hk]". rewrite rep_GD. iDestruct "Hc" as (r Hr) "(_ & _ & $)". by iApply IH.
  Qed.
  Lemma refok_ref (cs : list gt) refs : Forall isGD cs → Forall2 refok (ginfo <$> cs) refs → dref <$> (vdt ∘ vw <$> cs) = refs.
  Proof.
    intros H. revert refs. induction H as [|[n' d| |] cs Hc _ IH]; intros refs; cbn; [by inversion 1|..]; try done.
    inversion 1 as [|? r ? refs' [H1 H2] H3]; subst. f_equal; [|by apply IH]. destruct r. simplify_eq/=. done.
  Qed.
  Lemma GD_stripped (cs : list gt) : dstrip <$> (vdt ∘ vw <$> cs) = strip <$> cs.
  Proof. rewrite -list_fmap_compose. apply list_fmap_ext. intros i x _. cbn. by rewrite strip_vdt strip_vw. Qed.
  Lemma evict_spec io root S h par ir g E : evictable g →
    isTR root S ∗ rep h par ir g ⊢ wp io (evictNode t (gid g)) (λ _, isTR root S ∗ rep h par ir (GD (gid g) (vdt (vw g)))) E.
  Proof.
    iIntros (Hg) "[HT Hr]". destruct g as [|n st kvs|n st ks cs]; [done|..]; destruct st as [l| | | |]; try done.
    - destruct h; [|done]. iDestruct "Hr" as (kv left ps Hkv) "(HN & Ht & Hb)".
      iApply wp_bind. iApply (wp_evicted with "HT Ht"); [done|]. iIntros "HT Ht".
      do 3 (iApply wp_bind; iApply (wp_modN with "HN"); iIntros "HN"). iApply (wp_modN with "HN"); iIntros "HN".
      iFrame "HT". rewrite rep_GD. iExists _. iFrame "HN Ht Hb". iPureIntro.
      split_and!; try done. cbn. by rewrite csz_CL.
    - destruct h; [done|]. rewrite rep_GI. iDestruct "Hr" as "[(%kv & %b & (%Hkv & %Hlen & %Hb & %Hlf) & HN & Ht & Hp & (%refs & Hb & (%F1 & %F2 & %F3 & %F4))) Hk]".
      iApply wp_bind. iApply (wp_evicted with "HT Ht"); [done|]. iIntros "HT Ht".
      do 3 (iApply wp_bind; iApply (wp_modN with "HN"); iIntros "HN"). iApply (wp_modN with "HN"); iIntros "HN".
      iFrame "HT". rewrite rep_GD. iExists _. iFrame "HN Ht". cbn [vw vdt gid Rep.dsk].
      rewrite fmap_length in Hlen.
      assert (csz (dstrip (DI l ks (vdt <$> (vw <$> cs)))) = isum (ginfo <$> cs)) as Hsz.
      { change (dstrip (DI l ks (vdt <$> (vw <$> cs)))) with (CI ks (dstrip <$> (vdt <$> (vw <$> cs)))).
        rewrite -(list_fmap_compose vw vdt) GD_stripped. by rewrite -(gsz_GI n (Clean l) ks). }
      iSplit; [iPureIntro; split_and!; try done|].
      rewrite Hsz -(list_fmap_compose vw vdt) (refok_ref cs refs) //. iFrame "Hb". iSplit.
      { iPureIntro. by rewrite fmap_length. }
      by rewrite reps_GD.
  Qed.

  (** ** Writing one node *)
  Lemma held_none : held noloc ⊢ (emp : hProp).
  Proof. unfold held, blk. iIntros "[_|(%b & Hd & %H)]"; [done|]. destruct H as [[[H _] _] _]. done. Qed.
  Definition gref g : ref := (default noloc (gloc g), gsz g).
  Lemma gref_ok g : is_Some (gloc g) → refok (ginfo g) (gref g).
  Proof. intros [l Hl]. unfold refok, gref. cbn. by rewrite Hl. Qed.
  Lemma grefs_ok cs : Forall (λ c, is_Some (gloc c)) cs → Forall2 refok (ginfo <$> cs) (gref <$> cs).
  Proof. induction 1 as [|c cs Hc _ IH]; cbn; constructor; [by apply gref_ok|done]. Qed.
  Lemma packRef_spec h n cs c Q E : c ∈ cs → is_Some (gloc c) →
    reps h n cs -∗ (reps h n cs -∗ Q (enc_ref (gref c))) -∗ wp true (packRef (K:=K) (V:=V) (gid c)) Q E.
  Proof.
    iIntros (Hc [l Hl]) "Hk H". apply elem_of_list_lookup in Hc as [i Hi].
    unfold Rep.reps. iDestruct (big_sepL_lookup_acc _ _ _ _ Hi with "Hk") as "[Hc Hk]".
    iDestruct (rep_get with "Hc") as (r) "(HN & %Hr & Hc)".
    iApply wp_bind. iApply (wp_getN with "HN"). iIntros "HN".
    destruct Hr as (R1 & R2 & R3 & R4 & R5 & R6). destruct (R4 l Hl) as [-> Rl].
    iApply wp_bind. iApply wp_limit. iIntros (_). iApply wp_ret.
    unfold enc_ref, gref. cbn [fst snd]. rewrite Hl Rl R1. cbn [default].
    iApply "H". iApply "Hk". by iApply "Hc".
  Qed.
  Lemma postInner_spec h n r kv (ks : list K) c0 (cs : list gt) : ∀ i Q E,
    b_kv r = Some kv → iskv cb dom (kels ks (gid <$> (c0 :: cs))) kv → length cs = length ks →
    Forall (λ c, is_Some (gloc c)) (c0 :: cs) → (i ≤ length ks)%nat →
    isN n r -∗ reps h n (c0 :: cs) -∗
    (isN n r -∗ reps h n (c0 :: cs) -∗ Q (mjoin (enc_kref cb <$> drop i (zip ks (gref <$> cs))))) -∗
    wp true (postInner cb n (Z.of_nat <$> List.seq i (length ks - i))) Q E.
  Proof using WF MN.
    intros i. remember (length ks - i)%nat as m eqn:Hm. revert i Hm.
    induction m as [|m IH]; intros i Hm Q E Hr Hkv Hlen Hc Hi; simpl; iIntros "HN Hk H".
    { iApply wp_ret. rewrite drop_ge; [by iApply ("H" with "HN Hk")|]. rewrite zip_with_length fmap_length. lia. }
    destruct (lookup_lt_is_Some_2 ks i) as [k Hk]; [lia|].
    destruct (lookup_lt_is_Some_2 cs i) as [c Hci]; [lia|].
    iApply wp_bind. iApply (wp_kvGet_nat cb dom with "HN"); [done..| |].
    { apply kels_lookup; [by rewrite fmap_length /= Hlen|done|]. rewrite list_lookup_fmap. cbn. by rewrite Hci. }
    iIntros "HN". simpl. iApply wp_bind. iApply wp_logicSome.
    assert (dom k) as Hdk.
    { assert (Forall dom (kels (V:=V) ks (gid <$> (c0 :: cs))).*1) as Hd.
      { rewrite Forall_fmap. exact (iskv_dom _ _ _ _ Hkv). }
      rewrite (kels_keys mn MN) in Hd; [|by rewrite fmap_length /= Hlen]. by eapply Forall_lookup_1. }
    iApply wp_bind. iApply (wp_packKeyM cb dom domV WF); [done|].
    iApply wp_bind. iApply wp_asNode.
    assert (c ∈ c0 :: cs) as Hin. { right. by eapply elem_of_list_lookup_2. }
    iApply wp_bind. iApply (packRef_spec with "Hk"); [done| |].
    { rewrite Forall_forall in Hc. by apply Hc. }
    iIntros "Hk". iApply wp_bind. iApply (IH with "HN Hk"); [lia|done..|lia|].
    iIntros "HN Hk". iApply wp_ret. rewrite (drop_S (zip ks (gref <$> cs)) (k, gref c) i).
    - cbn. unfold enc_kref at 2. cbn. rewrite -app_assoc. by iApply ("H" with "HN Hk").
    - apply lookup_zip_with_Some. exists k, (gref c). split_and!; [done|done|]. by rewrite list_lookup_fmap Hci.
  Qed.
  Lemma mx_wp root S ir Q E :
    isTR root S -∗ (∀ _ : mxfit (mxof mn ir), isTR root S -∗ Q (enc_mx (mxof mn ir))) -∗
    wp (K:=K) (V:=V) true (if ir then packU64 (2 * Z.of_nat mn) else ret []) Q E.
  Proof.
    iIntros "HT H". destruct ir.
    - iApply wp_packU64. iIntros (Hf). assert (mxfit (mxof mn true)) as HX by (cbn; unfold fits; lia).
      by iApply ("H" $! HX with "HT").
    - iApply wp_ret. by iApply ("H" $! I with "HT").
  Qed.
  Definition stale_st st : Prop := match st with Dirty => True | _ => False end.
  Lemma post_leaf root S par ir n kvs Q (E : err → hProp) : good (itoks kvs) →
    isTR root S -∗ rep 0 par ir (GL n Dirty kvs) -∗
    ((∀ l, isTR root S -∗ rep 0 par ir (GL n (Clean l) kvs) -∗ Q tt) ∧ (isTR root S -∗ rep 0 par ir (GL n Dirty kvs) -∗ E EIO)) -∗
    wp true (postNode cb t n) Q E.
  Proof using WF MN.
    iIntros (Hg) "HT (%kv & %left & %ps & %Hkv & HN & Ht & Hb) H".
    iApply wp_bind. iApply (wp_getN with "HN"). iIntros "HN". cbn [Rep.nrec stdirty b_dirty negb b_root b_leaf].
    iApply wp_bind. iDestruct "HT" as "[HR HS]". iApply (wp_getT with "HR"). iIntros "HR". cbn [trec t_max].
    iApply wp_bind. iApply (mx_wp root S with "[$HR $HS]"). iIntros (Hmx) "HT".
    iApply wp_bind. iApply wp_bind. iApply (wp_kvLen cb dom with "HN"); [done..|]. iIntros "HN".
    assert (length (uels kvs) = length kvs) as Hul by apply fmap_length.
    rewrite Hul. iApply wp_bind. iApply wp_packU64. iIntros (Hlim).
    iApply wp_bind. rewrite range_of_nat. replace (seq 0 (length kvs)) with (seq 0 (length kvs - 0)) by (by rewrite Nat.sub_0_r).
    iApply (postLeaf_spec cb dom domV WF with "HN"); [done|done| |lia|].
    { by apply good_leaf in Hg as [_ Hdm]. }
    iIntros "HN". iApply wp_ret. cbn [b_items drop]. iApply wp_bind. iApply wp_limit. iIntros (_).
    iApply wp_bind. change (b_items (nrec Dirty (Z.of_nat (length kvs)) ir true par kv left ps)) with (Z.of_nat (length kvs)).
    change (drop 0 kvs) with kvs.
    assert ((u64 (Z.of_nat (length kvs)) ++ [bool_byte ir; bool_byte true] ++ enc_mx (mxof mn ir) ++ u64 (Z.of_nat (length kvs)) ++ mjoin (enc_kv cb <$> kvs))
      = enc_leaf cb (mxof mn ir) kvs) as ->.
    { unfold enc_leaf. by destruct ir. }
    iApply wp_PutNode. iSplit; last first.
    { iDestruct "H" as "[_ H]". iApply ("H" with "HT"). iExists kv, left, ps. iFrame. done. }
    iDestruct "H" as "[H _]". iIntros (num off Hok) "HD". iApply wp_bind. iApply (wp_modN with "HN"). iIntros "HN".
    iApply (wp_clean with "HT HN Ht"). iIntros "HT HN Ht". iDestruct (held_none with "Hb") as "_".
    iApply ("H" with "HT"). iExists kv, left, ps. iSplit; [done|]. iFrame "HN Ht". cbn. unfold blk. iFrame "HD".
    iPureIntro. split_and!; try done.
    unfold fits. lia.
  Qed.
  Lemma post_inner root S h par ir n ks cs Q (E : err → hProp) : Forall (λ c, is_Some (gloc c)) cs →
    isTR root S -∗ rep (Datatypes.S h) par ir (GI n Dirty ks cs) -∗
    ((∀ l, isTR root S -∗ rep (Datatypes.S h) par ir (GI n (Clean l) ks cs) -∗ Q tt) ∧ (isTR root S -∗ rep (Datatypes.S h) par ir (GI n Dirty ks cs) -∗ E EIO)) -∗
    wp true (postNode cb t n) Q E.
  Proof using WF MN.
    iIntros (Hg) "HT Hr H". rewrite !rep_GI. iDestruct "Hr" as "[(%kv & %b & (%Hkv & %Hlen & %Hbi & %Hlf) & HN & Ht & Hp & Hb) Hk]".
    assert (i_id <$> (ginfo <$> cs) = gid <$> cs) as Hid by by rewrite -list_fmap_compose.
    iApply wp_bind. iApply (wp_getN with "HN"). iIntros "HN". cbn [Rep.nrec stdirty b_dirty negb b_root b_leaf b_left].
    iApply wp_bind. iDestruct "HT" as "[HR HS]". iApply (wp_getT with "HR"). iIntros "HR". cbn [trec t_max].
    iApply wp_bind. iApply (mx_wp root S with "[$HR $HS]"). iIntros (Hmx) "HT".
    iApply wp_bind. iApply wp_bind. iApply (wp_kvLen cb dom with "HN"); [done..|]. iIntros "HN".
    rewrite (kels_len mn MN); [|by rewrite fmap_length].
    destruct cs as [|c0 cs]; [done|]. cbn [fmap list_fmap head].
    assert (length cs = length ks) as Hlen'. { cbn in Hlen. rewrite fmap_length in Hlen. lia. }
    iApply wp_bind. iApply wp_packU64. iIntros (Hlim).
    iApply wp_bind. cbn [ginfo i_id]. iApply (packRef_spec _ _ _ c0 with "Hk"); [by left|by apply Forall_cons in Hg as [? _]|]. iIntros "Hk".
    iApply wp_bind. rewrite range_of_nat. replace (seq 0 (length ks)) with (seq 0 (length ks - 0)) by (by rewrite Nat.sub_0_r).
    iApply (postInner_spec with "HN Hk"); [done| |done|done|lia|].
    { rewrite -Hid. exact Hkv. }
    iIntros "HN Hk". iApply wp_ret. cbn [b_items drop]. iApply wp_bind. iApply wp_limit. iIntros (Hlim2).
    iApply wp_bind.
    set sz := isum (ginfo <$> (c0 :: cs)).
    assert ((u64 sz ++ [bool_byte ir; bool_byte false] ++ enc_mx (mxof mn ir) ++ u64 (1 + Z.of_nat (length ks)) ++ enc_ref (gref c0) ++ mjoin (enc_kref cb <$> zip ks (gref <$> cs)))
      = enc_inner' cb (mxof mn ir) sz ks (gref <$> (c0 :: cs))) as Henc.
    { cbn [fmap list_fmap enc_inner']. unfold enc_inner. rewrite zip_with_length fmap_length Hlen' Nat.min_id. by destruct ir. }
    change (ginfo c0 :: list_fmap gt info ginfo cs) with (ginfo <$> (c0 :: cs)). fold sz.
    change (b_items (nrec Dirty sz ir false par kv (Some (gid c0)) (brt b))) with sz.
    change (drop 0 (zip ks (gref <$> cs))) with (zip ks (gref <$> cs)).
    rewrite Henc.
    iApply wp_PutNode. iSplit; last first.
    { iDestruct "H" as "[_ H]". iApply ("H" with "HT"). iFrame "Hk". iExists kv, b. iFrame. done. }
    iDestruct "H" as "[H _]". iIntros (num off Hok) "HD". iApply wp_bind. iApply (wp_modN with "HN"). iIntros "HN".
    iApply (wp_clean with "HT HN Ht"). iIntros "HT HN Ht". iDestruct (held_none with "Hb") as "_".
    iApply ("H" with "HT"). iFrame "Hk". iExists kv, b. iFrame "HN Ht Hp". iSplit; [done|]. cbn [Rep.innerblk]. iExists (gref <$> (c0 :: cs)). unfold blk.
    iFrame "HD". iPureIntro. split_and!; try done.
    - unfold fits. split; [|done]. unfold sz. rewrite chs_sum. clear. induction (c0 :: cs) as [|c l IH]; [done|]. cbn in *.
      unfold sumz in IH. unfold gsz at 1, csz. lia.
    - unfold fits. lia.
    - by apply grefs_ok.
  Qed.

  (** ** Purge *)
  (** no unmodified node is in memory *)
  Fixpoint lean g : Prop :=
    match g with
    | GD _ _ => True
    | GL _ (Clean _) _ | GI _ (Clean _) _ _ => False
    | GL _ _ _ => True
    | GI _ _ _ cs => foldr (λ c P, lean c ∧ P) True cs
    end.
  Definition purged g g' : Prop := vw g' = vw g ∧ pend g' = [] ∧ (is_Some (gloc g) → isGD g') ∧ lean g'.
  Lemma purge_spec fuel full root S : ∀ h par ir g, (h < fuel)%nat → pend g = [] →
    isTR root S ∗ rep h par ir g ⊢ wp false (purgeNode fuel t (gid g) full)
      (λ _, ∃ g', <affine> ⌜purged g g'⌝ ∗ isTR root S ∗ rep h par ir g')
      (λ e, <affine> ⌜e = ELogic ∧ full = true ∧ gloc g = None⌝ ∗ ∃ g', <affine> ⌜vw g' = vw g ∧ pend g' = []⌝ ∗ isTR root S ∗ rep h par ir g').
  Proof using MN.
    induction fuel as [|fuel IH]; intros h par ir g Hf Hp; [lia|]. iIntros "[HT Hr]". cbn [purgeNode].
    iDestruct (rep_get with "Hr") as (r) "(HN & %Hr & Hr)".
    iApply wp_bind. iApply (wp_getN with "HN"). iIntros "HN". iSpecialize ("Hr" with "HN").
    destruct Hr as (R1 & R2 & R3 & R4 & R5 & R6).
    destruct g as [n d|n st kvs|n st ks cs].
    - rewrite R6. cbn [negb]. iApply wp_ret. iExists _. iFrame. done.
    - destruct R6 as (-> & -> & Rd & Rl). cbn [negb]. destruct (full && b_dirty r) eqn:Hfd.
      { iApply wp_fail; [done|]. apply andb_prop in Hfd as [-> Hd]. iSplit.
        - iPureIntro. split_and!; [done..|]. rewrite Rd in Hd. by destruct st.
        - iExists _. iFrame. done. }
      iApply wp_bind. iApply wp_ret. iDestruct (rep_get with "Hr") as (r') "(HN & %Hr & Hr)".
      iApply wp_bind. iApply (wp_getN with "HN"). iIntros "HN". iSpecialize ("Hr" with "HN").
      destruct Hr as (_ & _ & _ & _ & _ & (_ & _ & -> & _)).
      destruct (stdirty st) eqn:Hd.
      { iApply wp_ret. iExists _. iFrame. iPureIntro. split_and!; try done; [by destruct st; intros []|by destruct st]. }
      destruct st; try done. change n with (gid (GL n (Clean l) kvs : gt)) at 1.
      iCombine "HT Hr" as "H". rewrite (evict_spec false root S h par ir (GL n (Clean l) kvs)); [|done].
      iApply (wp_wand with "H"). iSplit.
      + iIntros (_) "[HT Hr]". iExists _. iFrame. done.
      + iIntros (e) "H". iExact "H".
    - destruct h as [|h]; [done|].
      destruct R6 as (-> & -> & Rd & Rl). cbn [negb]. destruct (full && b_dirty r) eqn:Hfd.
      { iApply wp_fail; [done|]. apply andb_prop in Hfd as [-> Hd]. iSplit.
        - iPureIntro. split_and!; [done..|]. rewrite Rd in Hd. by destruct st.
        - iExists _. iFrame. done. }
      iApply wp_bind. iDestruct (rep_cleanok with "Hr") as %Hok. iEval (rewrite rep_GI) in "Hr". iDestruct "Hr" as "[Hi Hk]".
      assert (Forall (λ c, pend c = []) cs) as Hps.
      { cbn in Hp. apply app_eq_nil in Hp as [_ Hp]. clear -Hp. induction cs as [|c cs IH]; [constructor|].
        cbn in Hp. apply app_eq_nil in Hp as [??]. constructor; [done|by apply IH]. }
      iCombine "Hi HT Hk" as "H".
      rewrite (walk_inode false n par ir st ks cs (λ c : nid, purgeNode fuel t c full) (isTR root S) (λ c, rep h (Some n) false c)
        (λ c, ∃ c', <affine> ⌜purged c c'⌝ ∗ rep h (Some n) false c')%I
        (λ c, ∃ c', <affine> ⌜vw c' = vw c ∧ pend c' = []⌝ ∗ rep h (Some n) false c')%I
        (λ e, <affine> ⌜e = ELogic ∧ full = true ∧ gloc (GI n st ks cs) = None⌝ ∗ isTR root S)%I); last first.
      { intros c Hc. iIntros "(%c' & (%H1 & %H2 & %H3 & %H4) & H)". iExists c'. iFrame. done. }
      { intros c Hc. iIntros "H". iExists c. iFrame. iPureIntro. split; [done|]. rewrite Forall_forall in Hps. by apply Hps. }
      { intros c Hc. rewrite Forall_forall in Hps. iIntros "H". rewrite IH; [|lia|by apply Hps].
        iApply (wp_wand with "H"). iSplit.
        - iIntros (_) "(%c' & %H & $ & Hc)". iExists c'. by iFrame.
        - iIntros (e) "[%He (%c' & %H & $ & Hc)]". destruct He as (-> & -> & Hgc). iSplit.
          + iPureIntro. split_and!; try done. destruct st; try done. destruct Hok as [Hok _].
            rewrite Forall_forall in Hok. destruct (Hok c Hc). congruence.
          + iExists c'. by iFrame. }
      iApply (wp_wand with "H"). iSplit; last first.
      { iIntros (e) "(Hi & [%He HT] & Hk)". destruct He as (-> & -> & Hgc). iSplit; [done|].
        rewrite big_exists. iDestruct "Hk" as (cs' Hcs) "Hk". iExists (GI n st ks cs'). rewrite rep_GI.
        assert (Forall2 kept cs cs') as Hkept. { eapply Forall2_impl; [exact Hcs|]. intros ?? [??]. by apply vw_kept. }
        rewrite (inode_kept _ _ _ _ _ cs cs') //. iFrame. iPureIntro. split.
        - apply vw_GI. clear -Hcs. induction Hcs as [|c c' cs cs' [H _] _ IH]; cbn; [done|]. by rewrite H IH.
        - by destruct (kept_GI n st ks cs cs') as (_ & _ & ? & _). }
      iIntros (_) "(Hi & HT & Hk)". rewrite big_exists. iDestruct "Hk" as (cs' Hcs) "Hk".
      assert (Forall2 kept cs cs') as Hkept. { eapply Forall2_impl; [exact Hcs|]. intros ?? (?&?&?). by apply vw_kept. }
      assert (pend (GI n st ks cs') = []) as Hp' by by destruct (kept_GI n st ks cs cs') as (_ & _ & ? & _).
      assert (vw <$> cs' = vw <$> cs) as Hvw.
      { clear -Hcs. induction Hcs as [|c c' cs cs' [H _] _ IH]; cbn; [done|]. by rewrite H IH. }
      rewrite (inode_kept _ _ _ _ _ cs cs') //. iAssert (rep (Datatypes.S h) par ir (GI n st ks cs')) with "[Hi Hk]" as "Hr".
      { rewrite rep_GI. iFrame. }
      iDestruct (rep_get with "Hr") as (r') "(HN & %Hr & Hr)".
      iApply wp_bind. iApply (wp_getN with "HN"). iIntros "HN". iSpecialize ("Hr" with "HN").
      destruct Hr as (_ & _ & _ & _ & _ & (_ & _ & -> & _)).
      destruct (stdirty st) eqn:Hd.
      { iApply wp_ret. iExists _. iFrame. iPureIntro. split_and!; [by apply vw_GI|done|by destruct st; intros []|].
        assert (foldr (λ c P, lean c ∧ P) True cs') by (clear -Hcs; induction Hcs as [|c c' cs cs' (?&?&?&?) _ IH]; cbn; done). by destruct st. }
      destruct st; try done. change n with (gid (GI n (Clean l) ks cs' : gt)) at 1.
      iCombine "HT Hr" as "H". rewrite (evict_spec false root S (Datatypes.S h) par ir (GI n (Clean l) ks cs')).
      2: { destruct Hok as [Hok _]. clear -Hcs Hok. cbn. induction Hcs as [|c c' cs cs' (H1&H2&H3&_) _ IH]; [constructor|].
           apply Forall_cons in Hok as [Hc Hok]. constructor; [by apply H3|by apply IH]. }
      iApply (wp_wand with "H"). iSplit.
      + iIntros (_) "[HT Hr]". iExists _. iFrame. iPureIntro. split_and!; try done. cbn. by rewrite Hvw.
      + iIntros (e) "H". iExact "H".
  Qed.

  (** ** Flush *)
  Record sub h g : Prop := Sub {
    sb_wf : ∃ b, wfo mn b h (strip g);
    sb_good : good (toks (strip g));
    sb_pend : pend g = [] }.
  Lemma sub_kid h n st ks cs c : sub (Datatypes.S h) (GI n st ks cs) → c ∈ cs → sub h c.
  Proof.
    intros [[b Hw] Hg Hp] Hc. cbn in Hw. destruct Hw as (Hl & _ & Hw). rewrite fmap_length in Hl.
    apply elem_of_list_split in Hc as (la & lb & ->). split.
    - exists mn. rewrite Forall_fmap in Hw. apply Forall_app in Hw as [_ Hw]. by apply Forall_cons in Hw as [? _].
    - cbn [strip toks] in Hg. rewrite -list_fmap_compose fmap_app fmap_cons in Hg.
      rewrite -(take_drop (length la) ks) in Hg. eapply good_kid; [|exact Hg].
      rewrite fmap_length take_length_le //. rewrite app_length /= in Hl. lia.
    - cbn in Hp. apply app_eq_nil in Hp as [_ Hp]. rewrite fmap_app fmap_cons join_app in Hp.
      apply app_eq_nil in Hp as [_ Hp]. cbn in Hp. by apply app_eq_nil in Hp as [? _].
  Qed.
  Lemma sub_kept h g g' : sub h g → kept g g' → sub h g'.
  Proof. intros [H1 H2 H3] (K1 & K2 & K3 & K4). split; by rewrite ?K2. Qed.
  Lemma sub_pends h n st ks cs : sub (Datatypes.S h) (GI n st ks cs) → ∀ c, c ∈ cs → pend c = [].
  Proof. intros Hs c Hc. exact (sb_pend _ _ (sub_kid _ _ _ _ _ c Hs Hc)). Qed.
  Lemma sub_leaf n st kvs h : sub h (GL n st kvs) → good (itoks kvs).
  Proof. by intros [_ H _]. Qed.
  Lemma sub_tree root h g : treeok root h g → sub h g.
  Proof. intros [H1 H2 H3 H4]. split; try done. by eexists. Qed.

  Definition flushed (ap : bool) g g' : Prop := kept g g' ∧ is_Some (gloc g') ∧ (ap = true → isGD g').
  Lemma flushed_locs ap cs cs' : Forall2 (flushed ap) cs cs' → Forall (λ c, is_Some (gloc c)) cs'.
  Proof. induction 1 as [|c c' cs cs' (_&H&_) _ IH]; constructor; done. Qed.
  Lemma flushed_kept ap cs cs' : Forall2 (flushed ap) cs cs' → Forall2 kept cs cs'.
  Proof. intros H. eapply Forall2_impl; [exact H|]. by intros ?? (?&_). Qed.

  Lemma flush_end io root S h par ir g Q E : is_Some (gloc g) → pend g = [] → evictable g →
    isTR root S -∗ rep h par ir g -∗
    (∀ g' (_ : vw g' = vw g ∧ pend g' = [] ∧ isGD g'), isTR root S -∗ rep h par ir g' -∗ Q tt) -∗
    wp io (evictNode t (gid g)) Q E.
  Proof.
    iIntros (Hl Hp He) "HT Hr H". iCombine "HT Hr" as "HH". rewrite (evict_spec io root S h par ir g (λ _, False)%I); [|done].
    iApply (wp_wand with "HH"). iSplit; [|by iIntros (e) "[]"]. iIntros ([]) "[HT Hr]".
    assert (vw (GD (gid g) (vdt (vw g)) : gt) = vw g ∧ pend (GD (gid g) (vdt (vw g)) : gt) = [] ∧ isGD (GD (gid g) (vdt (vw g)))) as HX.
    { split_and!; try done. destruct Hl as [l Hl]. by destruct g as [|? []|? []]. }
    iApply ("H" $! _ HX with "HT Hr").
  Qed.
  Lemma flush_tail io ap root S h par ir g0 g Q (Er : err → hProp) :
    kept g0 g → sub h g → isloaded g → (gloc g = None → io = true) →
    (if g is GI _ _ _ cs then Forall (λ c, is_Some (gloc c) ∧ (ap = true → isGD c)) cs else True) →
    isTR root S -∗ rep h par ir g -∗
    ((∀ g' (_ : flushed ap g0 g'), isTR root S -∗ rep h par ir g' -∗ Q tt) ∧
     (∀ g' (_ : kept g0 g' ∧ gloc g' = gloc g), isTR root S -∗ rep h par ir g' -∗ ∀ (_ : io = true), Er EIO)) -∗
    wp io (let* r := getN (gid g) in
           (if b_dirty r then postNode cb t (gid g) else ret tt) ;;
           (if ap then evictNode t (gid g) else ret tt)) Q Er.
  Proof using WF MN.
    iIntros (Hkept Hsub Hld Hio Hcs) "HT Hr H".
    iDestruct (rep_get with "Hr") as (r) "(HN & %Hr & Hr)".
    iApply wp_bind. iApply (wp_getN with "HN"). iIntros "HN". iSpecialize ("Hr" with "HN").
    destruct Hr as (_ & _ & _ & R4 & _ & R6).
    (* writing makes the node clean *)
    iApply wp_bind.
    iAssert (∀ g1 (_ : kept g0 g1 ∧ gid g1 = gid g ∧ is_Some (gloc g1) ∧ pend g1 = [] ∧ (ap = true → evictable g1)),
       isTR root S -∗ rep h par ir g1 -∗
       (∀ g' (_ : flushed ap g0 g'), isTR root S -∗ rep h par ir g' -∗ Q tt) -∗
       wp io (if ap then evictNode t (gid g) else ret tt) Q Er)%I as "K".
    { iIntros (g1 (H1 & H2 & H3 & H4 & H5)) "HT Hr H". destruct ap.
      - rewrite -H2. iApply (flush_end with "HT Hr"); [done..|by apply H5|]. iIntros (g' (K1 & K2 & K3)) "HT Hr".
        assert (flushed true g0 g') as HX.
        { split_and!; [|rewrite -vloc_vw K1 vloc_vw //|done]. destruct H1 as (E1 & E2 & E3 & E4). split_and!.
          - by rewrite -vid_vw K1 vid_vw.
          - by rewrite (vw_strip g1).
          - done.
          - intros Hx. by rewrite K1 E4. }
        iApply ("H" $! g' HX with "HT Hr").
      - iApply wp_ret. assert (flushed false g0 g1) as HX by done. iApply ("H" $! g1 HX with "HT Hr"). }
    destruct g as [n d|n st kvs|n st ks cs]; [done|..]; destruct R6 as (_ & _ & -> & _).
    - destruct h; [|done]. pose proof (sb_pend _ _ Hsub) as Hp. destruct st as [l| | | |]; cbn [stdirty]; try done.
      + iApply wp_ret. iDestruct "H" as "[H _]".
        assert (kept g0 (GL n (Clean l) kvs) ∧ gid (GL n (Clean l) kvs) = gid (GL n (Clean l) kvs) ∧ is_Some (gloc (GL n (Clean l) kvs)) ∧ pend (GL n (Clean l) kvs) = [] ∧ (ap = true → evictable (GL n (Clean l) kvs))) as HX.
        { split_and!; done. }
        iApply ("K" $! (GL n (Clean l) kvs) HX with "HT Hr H").
      + rewrite (Hio eq_refl).
        iApply (post_leaf with "HT Hr"); [by eapply sub_leaf|]. iSplit.
        * iDestruct "H" as "[H _]". iIntros (l) "HT Hr".
          assert (kept g0 (GL n (Clean l) kvs) ∧ gid (GL n (Clean l) kvs) = gid (GL n Dirty kvs) ∧ is_Some (gloc (GL n (Clean l) kvs)) ∧ pend (GL n (Clean l) kvs) = [] ∧ (ap = true → evictable (GL n (Clean l) kvs))) as HX.
          { destruct Hkept as (E1 & E2 & E3 & E4). split_and!; try done. split_and!; try done.
            intros Hx. specialize (E4 Hx). exfalso. destruct Hx as [l' Hx]. rewrite -vloc_vw -E4 in Hx. done. }
          iApply ("K" $! (GL n (Clean l) kvs) HX with "HT Hr H").
        * iDestruct "H" as "[_ H]". iIntros "HT Hr". iDestruct ("H" $! _ (conj Hkept eq_refl) with "HT Hr") as "H". iApply ("H" $! eq_refl).
    - destruct h; [done|]. pose proof (sb_pend _ _ Hsub) as Hp. 
      assert (Forall (λ c, is_Some (gloc c)) cs) as Hlocs. { eapply Forall_impl; [exact Hcs|]. by intros ? []. }
      assert (ap = true → Forall isGD cs) as Hgd. { intros Ha. eapply Forall_impl; [exact Hcs|]. intros ? []. by auto. }
      destruct st as [l| | | |]; cbn [stdirty]; try done.
      + iApply wp_ret. iDestruct "H" as "[H _]".
        assert (kept g0 (GI n (Clean l) ks cs) ∧ gid (GI n (Clean l) ks cs) = gid (GI n (Clean l) ks cs) ∧ is_Some (gloc (GI n (Clean l) ks cs)) ∧ pend (GI n (Clean l) ks cs) = [] ∧ (ap = true → evictable (GI n (Clean l) ks cs))) as HX.
        { split_and!; done. }
        iApply ("K" $! (GI n (Clean l) ks cs) HX with "HT Hr H").
      + rewrite (Hio eq_refl).
        iApply (post_inner with "HT Hr"); [done|]. iSplit.
        * iDestruct "H" as "[H _]". iIntros (l) "HT Hr".
          assert (kept g0 (GI n (Clean l) ks cs) ∧ gid (GI n (Clean l) ks cs) = gid (GI n Dirty ks cs) ∧ is_Some (gloc (GI n (Clean l) ks cs)) ∧ pend (GI n (Clean l) ks cs) = [] ∧ (ap = true → evictable (GI n (Clean l) ks cs))) as HX.
          { destruct Hkept as (E1 & E2 & E3 & E4). split_and!; try done. split_and!; try done.
            intros Hx. specialize (E4 Hx). exfalso. destruct Hx as [l' Hx]. rewrite -vloc_vw -E4 in Hx. done. }
          iApply ("K" $! (GI n (Clean l) ks cs) HX with "HT Hr H").
        * iDestruct "H" as "[_ H]". iIntros "HT Hr". iDestruct ("H" $! _ (conj Hkept eq_refl) with "HT Hr") as "H". iApply ("H" $! eq_refl).
  Qed.
  Lemma flush_spec io fuel ap root S : ∀ h par ir g, (h < fuel)%nat → sub h g → (io = true ∨ is_Some (gloc g)) →
    isTR root S ∗ rep h par ir g ⊢ wp io (flushNode cb fuel t (gid g) ap)
      (λ _, ∃ g', <affine> ⌜flushed ap g g'⌝ ∗ isTR root S ∗ rep h par ir g')
      (λ e, <affine> ⌜e = EIO ∧ io = true⌝ ∗ ∃ g', <affine> ⌜kept g g' ∧ gloc g' = gloc g⌝ ∗ isTR root S ∗ rep h par ir g').
  Proof using WF MN.
    induction fuel as [|fuel IH]; intros h par ir g Hf Hsub Hio; [lia|]. iIntros "[HT Hr]". cbn [flushNode].
    iDestruct (rep_get with "Hr") as (r) "(HN & %Hr & Hr)".
    iApply wp_bind. iApply (wp_getN with "HN"). iIntros "HN". iSpecialize ("Hr" with "HN").
    destruct Hr as (R1 & R2 & R3 & R4 & R5 & R6).
    destruct g as [n d|n st kvs|n st ks cs].
    - rewrite R6. cbn [negb]. iApply wp_ret. iExists _. iFrame. iPureIntro. split_and!; [by apply kept_refl|by eexists|done].
    - destruct R6 as (-> & -> & Rd & Rl). cbn [negb]. iApply wp_bind. iApply wp_ret.
      iApply (flush_tail io ap root S h par ir (GL n st kvs) (GL n st kvs) with "HT Hr"); [apply kept_refl, Hsub|done|done| |done|].
      { destruct Hio as [?|[? Hl]]; [done|]. congruence. }
      iSplit.
      + iIntros (g' Hg') "HT Hr". iExists g'. by iFrame.
      + iIntros (g' Hg') "HT Hr". iIntros (Hi). iSplit; [done|]. iExists g'. by iFrame.
    - destruct h as [|h]; [done|]. destruct R6 as (-> & -> & Rd & Rl). cbn [negb]. iApply wp_bind.
      iDestruct (rep_cleanok with "Hr") as %Hok. iEval (rewrite rep_GI) in "Hr". iDestruct "Hr" as "[Hi Hk]".
      iCombine "Hi HT Hk" as "H".
      rewrite (walk_inode io n par ir st ks cs (λ c : nid, flushNode cb fuel t c ap) (isTR root S) (λ c, rep h (Some n) false c)
        (λ c, ∃ c', <affine> ⌜flushed ap c c'⌝ ∗ rep h (Some n) false c')%I
        (λ c, ∃ c', <affine> ⌜kept c c'⌝ ∗ rep h (Some n) false c')%I
        (λ e, <affine> ⌜e = EIO ∧ io = true⌝ ∗ isTR root S)%I); last first.
      { intros c Hc. iIntros "(%c' & (%H1 & %H2 & %H3) & H)". iExists c'. by iFrame. }
      { intros c Hc. iIntros "H". iExists c. iFrame. iPureIntro. apply kept_refl. by eapply sub_pends. }
      { intros c Hc. iIntros "H". rewrite IH; [|lia|by eapply sub_kid|].
        - iApply (wp_wand with "H"). iSplit.
          + iIntros (_) "(%c' & %H & $ & Hc)". iExists c'. by iFrame.
          + iIntros (e) "[$ (%c' & (%H & _) & $ & Hc)]". iExists c'. by iFrame.
        - destruct Hio as [?|[l Hl]]; [by left|right]. cbn in Hl. destruct st; try done. destruct Hok as [Hok _].
          rewrite Forall_forall in Hok. by apply Hok. }
      iApply (wp_wand with "H"). iSplit; last first.
      { iIntros (e) "(Hi & [$ HT] & Hk)". rewrite big_exists. iDestruct "Hk" as (cs' Hcs) "Hk". iExists (GI n st ks cs'). rewrite rep_GI.
        rewrite (inode_kept _ _ _ _ _ cs cs') //. iFrame. iPureIntro. split; [|by destruct st]. apply kept_GI; [done|apply Hsub|done]. }
      iIntros (_) "(Hi & HT & Hk)". rewrite big_exists. iDestruct "Hk" as (cs' Hcs) "Hk".
      pose proof (flushed_kept _ _ _ Hcs) as Hkept.
      assert (kept (GI n st ks cs) (GI n st ks cs')) as HK. { apply kept_GI; [done|apply Hsub|done]. }
      rewrite (inode_kept _ _ _ _ _ cs cs') //. iAssert (rep (Datatypes.S h) par ir (GI n st ks cs')) with "[Hi Hk]" as "Hr".
      { rewrite rep_GI. iFrame. }
      iApply (flush_tail io ap root S (Datatypes.S h) par ir (GI n st ks cs) (GI n st ks cs') with "HT Hr"); [done|by eapply sub_kept|done| | |].
      { destruct Hio as [?|[? Hl]]; [done|]. cbn in *. destruct st; by rewrite ?Hl. }
      { clear -Hcs. induction Hcs as [|c c' cs cs' (_ & H1 & H2) _ IH]; constructor; done. }
      iSplit.
      + iIntros (g' Hg') "HT Hr". iExists g'. by iFrame.
      + iIntros (g' Hg') "HT Hr". iIntros (Hi). iSplit; [done|]. iExists g'. by iFrame.
  Qed.
End walk.

(** * Keys that Compare rejects

    Models no code. *)
From Coq Require Import ssreflect Sorted.
From stdpp Require Import prelude list gmap.
From iris.bi Require Import bi.
From iris.proofmode Require Import proofmode.
From Verif Require Import Spec SpecFacts Llrb LlrbApi LlrbProps BTree HProp Lru Wp Kv Codec Ghost Order PsTree Rep Load Search Update Plug Insert Borrow Merge Rebal Api.
Open Scope Z_scope.

(** Compare fails on [k] and each key in [dom] *)
Definition alien {K V} (cb : callbacks K V) (dom : K → Prop) (k : K) : Prop := ∀ k0, dom k0 → cb_cmp cb k k0 = None.

Section foreign.
  Context {K V : Type}.
  Variable cb : callbacks K V.
  Variable dom : K → Prop.
  Variable domV : V → Prop.
  Hypothesis WF : wf_cb cb dom domV.
  Variable mn : nat.
  Hypothesis MN : (2 ≤ mn)%nat.
  Variable t : tid.
  Variable ca : bool.
  Notation cmp := (cb_cmp cb).
  Notation M := (M K V).
  Notation hProp := (hProp K V).
  Notation bval := (bval V).
  Notation gt := (gt K V).
  Notation frame := (frame K V).
  Let ORD := wf_ord _ _ _ WF.
  Notation rep := (rep cb dom mn t ca).
  Notation reps := (reps cb dom mn t ca).
  Notation isTR := (isTR mn t ca).
  Notation inode := (inode cb dom mn t ca).
  Notation inodeU := (inodeU cb dom t ca).
  Notation lnode := (lnode cb dom mn t ca).
  Notation lnode' := (lnode' cb dom mn t ca).
  Notation nrec := (nrec t).
  Notation good := (good cmp dom domV).
  Notation ksorted := (ksorted cmp dom).
  Notation "'let*' x := m 'in' e" := (bind m (fun x => e))
    (at level 200, x name, m at level 100, e at level 200, right associativity).
  Notation "'let*' ' x := m 'in' e" := (bind m (fun x => e))
    (at level 200, x strict pattern, m at level 100, e at level 200, right associativity).
  Notation "m ;; e" := (bind m (fun _ : unit => e))
    (at level 100, e at level 200, right associativity, format "m ;;  '/' e").
  Implicit Types (g c : gt) (n : nid) (f : frame) (C : list frame) (h : nat).
  Notation whole := (whole cb dom mn t ca).
  Notation ctx := (ctx cb dom mn t ca).
  Notation knode := (knode cb dom t).
  Notation pre := (pre cb dom mn t ca).

  Implicit Types (L R : list gt) (x y : gt).

  Notation cur := (cur cb dom mn t ca).
  Notation okc := (okc mn).
  Notation goodW := (goodW cb dom domV).
  Notation treeok := (treeok cb dom domV mn).
  Notation framesmall := (framesmall (K:=K) (V:=V)).
  Variable k : K.
  Hypothesis AL : alien cb dom k.

  Lemma kv_head els kv : iskv cb dom els kv → els ≠ [] → ∃ b l k0 v r z, kv = T b l k0 v r z ∧ cmp k k0 = None.
  Proof using AL.
    intros [(Hd & _) He] Hn. destruct kv as [|c l k0 v r z]; [by subst|]. exists c, l, k0, v, r, z. split; [done|]. apply AL.
    cbn in Hd. by apply Forall_app in Hd as [_ [? _]%Forall_cons].
  Qed.
  Section rules.
    Context (io : bool) (n : nid) (r : bnode K V) (kv : tree K bval) (els : list (K * bval)).
    Hypothesis (Hr : b_kv r = Some kv) (Hkv : iskv cb dom els kv) (Hne : els ≠ []).
    Lemma al_kvGetKey Q E : isN n r -∗ (isN n r -∗ E ECmp) -∗ wp io (kvGetKey cb n k) Q E.
    Proof using AL Hr Hkv Hne.
      iIntros "HN H". iApply wp_bind. iApply (wp_kvOf with "HN"); [done|]. iIntros "HN".
      destruct (kv_head _ _ Hkv Hne) as (b0 & l & k0 & v & rr & z & -> & Hc). cbn [GetByKey]. rewrite Hc.
      iApply wp_fail; [done|]. by iApply "H".
    Qed.
    Lemma al_kvBisectLeft Q E : isN n r -∗ (isN n r -∗ E ECmp) -∗ wp io (kvBisectLeft cb n k) Q E.
    Proof using AL Hr Hkv Hne.
      iIntros "HN H". iApply wp_bind. iApply (wp_kvOf with "HN"); [done|]. iIntros "HN".
      destruct (kv_head _ _ Hkv Hne) as (b0 & l & k0 & v & rr & z & -> & Hc). iApply wp_bind. iApply wp_lift.
      { cbn [BisectLeft bisectLeftLoop]. rewrite Hc. done. }
      iApply wp_fail; [done|]. by iApply "H".
    Qed.
    Lemma al_kvBisectRight Q E : isN n r -∗ (isN n r -∗ E ECmp) -∗ wp io (kvBisectRight cb n k) Q E.
    Proof using AL Hr Hkv Hne.
      iIntros "HN H". iApply wp_bind. iApply (wp_kvOf with "HN"); [done|]. iIntros "HN".
      destruct (kv_head _ _ Hkv Hne) as (b0 & l & k0 & v & rr & z & -> & Hc). iApply wp_bind. iApply wp_lift.
      { cbn [BisectRight bisectRightLoop]. rewrite Hc. done. }
      iApply wp_fail; [done|]. by iApply "H".
    Qed.
    Lemma al_kvDelKey Q E : isN n r -∗ (isN n r -∗ E ECmp) -∗ wp io (kvDelKey cb n k) Q E.
    Proof using AL Hr Hkv Hne.
      iIntros "HN H". iApply wp_bind. iApply (wp_kvOf with "HN"); [done|]. iIntros "HN".
      destruct (kv_head _ _ Hkv Hne) as (b0 & l & k0 & v & rr & z & HT & Hc). iApply wp_bind. iApply (wp_lift _ _ (kv, RErr false)).
      { rewrite HT. unfold DeleteByKey. cbn [preDeleteByKeyAdjustLen]. rewrite Hc. done. }
      iApply wp_bind. iApply (wp_modN with "HN"). iIntros "HN". iApply wp_fail; [done|]. iApply "H".
      assert (set_kv (Some kv) r = r) as ->; [|done]. rewrite -Hr. by destruct r.
    Qed.
    Lemma al_findChild Q E : isN n r -∗ (isN n r -∗ E ECmp) -∗ wp io (findChild cb n k) Q E.
    Proof using AL Hr Hkv Hne.
      iIntros "HN H". destruct els as [|[k0 v0] els'] eqn:He; [done|].
      iApply wp_bind. change (kvGet (K:=K) (V:=V) n 0) with (kvGet (K:=K) (V:=V) n (Z.of_nat 0)).
      iApply (wp_kvGet_nat cb dom _ _ _ _ _ Hr Hkv 0 with "HN"); [done|]. iIntros "HN".
      iApply wp_bind. iApply (wp_getN with "HN"). iIntros "HN". iApply wp_bind. unfold compareM.
      rewrite (AL k0); last first. { pose proof (iskv_dom _ _ _ _ Hkv) as [Hd _]%Forall_cons. done. }
      iApply wp_fail; [done|]. by iApply "H".
    Qed.
  End rules.

  (** the first step down: it ends there unless the root is a leaf *)
  Lemma al_step {A} mark (X : A) (kont : nid * option Z → M A) root S h g Q E : treeok root h g →
    cur root S h [] g -∗
    ((∀ n st kvs (_ : okc (vw g) 0 [] (GL n st kvs) ∧ h = 0%nat ∧ gid g = n), cur root S 0 [] (GL n st kvs) -∗ Q X) ∧
     (∀ g' e (_ : okc (vw g) h [] g' ∧ (e = EIO ∨ e = ECmp)), cur root S h [] g' -∗ E e)) -∗
    wp true (visit cb mark t (gid g) ;; let* r := getN (gid g) in if b_leaf r then ret X else bind (findChild cb (gid g) k) kont) Q E.
  Proof using WF MN AL.
    intros Ht. iIntros "Hcur H". destruct (tree_okc cb dom domV mn _ _ _ Ht) as [Hok Hg]. iApply wp_bind.
    iApply (cur_visit cb dom domV WF mn MN with "Hcur"); [done..|]. iSplit; last first.
    { iDestruct "H" as "[_ H]". iIntros "Hcur". iApply ("H" $! g EIO (conj Hok (or_introl eq_refl)) with "Hcur"). }
    iIntros (g' (Hok' & Hl & Hvw)) "Hcur".
    assert (gid g = gid g') as ->. { by rewrite -vid_vw -Hvw vid_vw. }
    destruct h as [|h].
    - destruct g' as [|n st kvs|]; [done| |by destruct Hok' as [_ _ ? _ _]].
      iDestruct "Hcur" as "(HT & Hc & Hr)". cbn [Rep.rep].
      iDestruct "Hr" as (kv left ps Hkv) "(HN & Ht & Hb)".
      iApply wp_bind. iApply (wp_getN with "HN"). iIntros "HN". cbn [nrec b_leaf]. iApply wp_ret.
      iDestruct "H" as "[H _]". iApply ("H" $! n st kvs (conj Hok' (conj eq_refl eq_refl))).
      iFrame. cbn [Rep.rep]. iExists kv, left, ps. iFrame. done.
    - destruct g' as [|n st kvs|n st ks cs]; [done|by destruct Hok' as [_ _ ? _ _]|].
      pose proof (ok_wf _ _ _ _ _ Hok') as Hw. cbn in Hw. rewrite fmap_length in Hw. destruct Hw as (Hlen & Hlo & Hall).
      iDestruct "Hcur" as "(HT & Hc & Hr)". rewrite rep_GI. iDestruct "Hr" as "[(%kv & %b & (%Hkv & %Hlen' & %Hb) & HN & Ht & Hp & Hib) Hk]".
      iApply wp_bind. iApply (wp_getN with "HN"). iIntros "HN". cbn [nrec b_leaf].
      iApply wp_bind. iApply (al_findChild with "HN"); [done|exact Hkv| |].
      { clear -Hlen Hlo. destruct ks as [|k0 ks], cs as [|c0 [|c1 cs]]; cbn in *; try done; lia. }
      iIntros "HN". iDestruct "H" as "[_ H]". iApply ("H" $! (GI n st ks cs) ECmp (conj Hok' (or_intror eq_refl))).
      iFrame "HT Hc". rewrite rep_GI. iFrame "Hk". iExists kv, b. iFrame. done.
  Qed.

  Definition keyed (c : call K V) : Prop :=
    match c with CPut x _ | CGetByKey x | CPatchByKey x _ | CDeleteByKey x | CBisectLeft x | CBisectRight x => x = k | _ => False end.
  Definition patch (c : call K V) : bool := match c with CPatchByKey _ _ => true | _ => false end.
  Definition after_alien (c : call K V) root (S : list loc) h g : hProp :=
    (∃ S' g', <affine> ⌜treeok root h g' ∧ strip g' = strip g ∧ (vw g' = vw g ∨ patch c = true ∧ gloc g' = None)⌝ ∗ isTR root S' ∗ whole h g')%I.
  Lemma al_close (c : call K V) root S h g g' : treeok root h g → okc (vw g) h [] g' → cur root S h [] g' ⊢ after_alien c root S h g.
  Proof.
    intros Ht Hok. rewrite (cur_close cb dom domV mn t ca _ _ _ _ _ _ _ Ht Hok); [|cbn; lia]. iIntros "(A & B & %HX)". destruct HX as [H1 H2].
    iExists S, _. iFrame. iPureIntro. cbn in *. split_and!; [done|by apply vw_strip|by left].
  Qed.
  Lemma call_alien (c : call K V) root S h g : treeok root h g → items (strip g) ≠ [] → keyed c →
    isTR root S ∗ whole h g ⊢
    wp true (bt_call cb t c) (λ _, False) (λ e, <affine> ⌜e = EIO ∨ e = ECmp⌝ ∗ after_alien c root S h g).
  Proof using WF MN AL.
    intros Ht Hne Hc. iIntros "[HT Hw]".
    assert (∀ n st kvs, okc (vw g) 0 [] (GL n st kvs) → uels kvs ≠ []) as Hu.
    { intros n st kvs Hok HX. apply Hne. destruct (leaf_toks cb dom domV mn _ _ _ _ _ _ _ Ht Hok) as [_ ->]. cbn.
      destruct kvs; [done|]. done. }
    destruct c as [x v|x|i|x v|i v|x|i|x|x|]; cbn in Hc; try done; subst x; cbn [bt_call];
      (iApply (start cb dom domV mn MN t ca with "HT Hw"); [done|]; iIntros (fuel Hf) "Hcur"; iApply wp_bind;
       destruct fuel as [|fuel]; [lia|]; cbn [descendKey descendBisect];
       iApply (al_step with "Hcur"); [done|]; iSplit;
         [|iIntros (g' e [Hok He]) "Hcur"; iSplitR; [done|]; by iApply (al_close with "Hcur")]);
      iIntros (n st kvs (Hok & -> & Hid)) "Hcur"; specialize (Hu _ _ _ Hok); rewrite Hid.
    1,2,4,5,6: iDestruct (leaf_read cb dom mn t ca with "Hcur") as (r kv [Hr Hkv]) "[HN Hcur]"; iApply wp_bind.
    - iApply (al_kvGetKey with "HN"); [done..|]. iIntros "HN". iSplitR; [by auto|]. iApply al_close; [done|exact Hok|]. by iApply "Hcur".
    - iApply (al_kvGetKey with "HN"); [done..|]. iIntros "HN". iSplitR; [by auto|]. iApply al_close; [done|exact Hok|]. by iApply "Hcur".
    - iApply (al_kvDelKey with "HN"); [done..|]. iIntros "HN". iSplitR; [by auto|]. iApply al_close; [done|exact Hok|]. by iApply "Hcur".
    - iApply (al_kvBisectLeft with "HN"); [done..|]. iIntros "HN". iSplitR; [by auto|]. iApply al_close; [done|exact Hok|]. by iApply "Hcur".
    - iApply (al_kvBisectRight with "HN"); [done..|]. iIntros "HN". iSplitR; [by auto|]. iApply al_close; [done|exact Hok|]. by iApply "Hcur".
    - iApply wp_bind. iApply (touchLeaf cb dom mn t ca with "Hcur"); [cbn; lia|].
      iIntros (S' HS) "HT (%kv & %left & %ps & %Hkv & HN & Htg & Hb) Hc".
      iApply wp_bind. iApply (wp_kvOf with "HN"); [done|]. iIntros "HN".
      destruct (kv_head _ _ Hkv Hu) as (b0 & l & k0 & v0 & rr & z & HX & Hcm).
      assert (PatchByKey cmp kv k (VUser v) = (kv, RErr false)) as ->. { rewrite HX. cbn [PatchByKey]. by rewrite Hcm. }
      iApply wp_bind. iApply (wp_modN with "HN"). iIntros "HN". iApply wp_fail; [done|]. iSplitR; [by auto|].
      destruct (leaf_toks cb dom domV mn _ _ _ _ _ _ _ Ht Hok) as [Hgd Hit].
      destruct (leaf_new cb dom domV mn MN _ _ _ _ _ _ _ kvs Ht Hok eq_refl Hgd eq_refl) as (Ht' & Hl' & Hi').
      iExists S', (fill (dirtyC []) (GL n Dirty kvs)). iFrame "HT". iSplitR.
      + iPureIntro. split_and!; [done| |by right]. pose proof (ok_vw _ _ _ _ _ Hok) as Hv. cbn in Hv. cbn.
        transitivity (strip (GL n st kvs)); [done|]. by apply vw_strip.
      + iApply (leaf_whole cb dom mn t ca [] n kvs kvs kv); [done|constructor|done|]. iFrame. by iExists _, _, _.
  Qed.
End foreign.

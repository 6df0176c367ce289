(** * A tree as it lies in memory and on storage

    [pictured s t mn ca S h g]: in state [s] the handle [t] leads to the tree
    [g] of height [h], node by node; [S] is the list of locations the next
    Prune discards.  Models no code: a reading of the state of BTree.v that
    does not mention the logic used in the proofs.  A state shows at most one
    such tree for each handle. *)
From Coq Require Import ssreflect.
From stdpp Require Import prelude list gmap.
From iris.bi Require Import bi.
From iris.proofmode Require Import proofmode.
From Verif Require Import Spec SpecFacts Llrb LlrbApi BTree HProp Lru Wp Kv Codec Ghost Order PsTree Rep Load Search Update Plug Insert Borrow Merge Rebal Api Walk Touch Maint Report Open Pres Machine World Disk.
Open Scope Z_scope.

Section picture.
  Context {K V : Type}.
  Variable cb : callbacks K V.
  Variable dom : K → Prop.
  Variable domV : V → Prop.
  Hypothesis WF : wf_cb cb dom domV.
  Notation cmp := (cb_cmp cb).
  Notation hProp := (hProp K V).
  Notation heap := (gmap rkey (rval K V)).
  Notation st := (st K V).
  Notation gt := (gt K V).
  Notation dt := (dt K V).
  Implicit Types (σ : heap) (s : st) (g c : gt) (d : dt) (n : nid) (h : nat) (t : tid) (l : loc).

  (** the stored image of a tree without modified nodes *)
  Fixpoint image g : option dt :=
    match g with
    | GD _ d => Some d
    | GL _ (Clean l) kvs => Some (DL l kvs)
    | GI _ (Clean l) ks cs => DI l ks <$> mapM image cs
    | _ => None
    end.
  (** where the unmodified nodes are stored *)
  Fixpoint locs g : list loc :=
    match g with
    | GD _ d => dlocs d
    | GL _ (Clean l) _ => [l]
    | GL _ _ _ => []
    | GI _ (Clean l) _ cs => l :: mjoin (locs <$> cs)
    | GI _ _ _ cs => mjoin (locs <$> cs)
    end.
  (** the record of a node in memory: its fields are those of the Go struct
      btreeNodeStruct *)
  Definition inmem s t (par : option nid) (ir : bool) n (st : nst) (leaf : bool) (sz : Z) (left : option nid) (els : list (K * bval V)) : Prop :=
    ∃ r kv, nodes s !! n = Some r ∧ b_loaded r = true ∧ b_root r = ir ∧ b_leaf r = leaf ∧ b_tree r = t ∧ b_parent r = par ∧
      b_items r = sz ∧ b_dirty r = stdirty st ∧ b_loc r = stloc st ∧ (leaf = false → b_left r = left) ∧
      b_kv r = Some kv ∧ elements kv = els.
  Definition onstore s h (mx : option Z) (st : nst) g : Prop :=
    match st with
    | Clean _ => ∃ d, image g = Some d ∧ imaged cb (λ l, disk s !! l) h mx d
    | Dirty => True
    | _ => False
    end.
  Fixpoint shown s t (mx : Z) h (par : option nid) (ir : bool) g : Prop :=
    let mx' := if ir then Some mx else None in
    match h, g with
    | _, GD n d => (∃ r, nodes s !! n = Some r ∧ b_loaded r = false ∧ b_dirty r = false ∧ b_tree r = t ∧ b_parent r = par ∧
        b_items r = csz (dstrip d) ∧ b_loc r = dloc d ∧ b_kv r = None ∧ b_left r = None ∧ b_psroot r = None) ∧ imaged cb (λ l, disk s !! l) h mx' d
    | O, GL n st kvs => inmem s t par ir n st true (Z.of_nat (length kvs)) None (uels kvs) ∧ onstore s h mx' st g
    | S h', GI n st ks cs =>
        inmem s t par ir n st false (csz (strip g)) (head (gid <$> cs)) (kels ks (gid <$> cs)) ∧
        length cs = S (length ks) ∧ Forall (shown s t mx h' (Some n) false) cs ∧ onstore s h mx' st g
    | _, _ => False
    end.
  Record pictured s t (mn : nat) (ca : bool) (S : list loc) h g : Prop := Pictured {
    pc_tree : trees s !! t = Some (Tree (Z.of_nat mn) (2 * Z.of_nat mn) (Some (gid g)) S ca);
    pc_shown : shown s t (2 * Z.of_nat mn) h None true g;
    (* keys and values are among those the callbacks handle *)
    pc_dom : Forall (dtok dom domV) (toks (strip g)) }.

  (** ** Images and views *)
  Lemma mapM_image cs : Forall (λ c, is_Some (gloc c)) cs → Forall (λ c, ∀ l, gloc c = Some l → image c = Some (vdt (vw c))) cs →
    mapM image cs = Some (vdt <$> (vw <$> cs)).
  Proof.
    intros H1 H2. induction H1 as [|c cs [l Hl] _ IH]; [done|]. apply Forall_cons in H2 as [H2 H3].
    cbn. rewrite (H2 l Hl) /= IH //.
  Qed.
  Lemma image_vw g : cleanok g → ∀ l, gloc g = Some l → image g = Some (vdt (vw g)).
  Proof.
    induction g as [n d|n st kvs|n st ks cs IH] using gt_ind'; intros Hok l Hl; [done|by destruct st|].
    destruct st as [l0| | | |]; try done. destruct Hok as [H1 H2]. apply cleanok_all in H2.
    change (image (GI n (Clean l0) ks cs)) with (DI l0 ks <$> mapM image cs). rewrite mapM_image //.
    apply Forall_forall. intros c Hc l' Hl'. rewrite !Forall_forall in IH H2. by eapply IH; [|apply H2|].
  Qed.
  Lemma image_view g d : cleanok g → vw g = VC (gid g) d → image g = Some d.
  Proof.
    intros Hok Hv. destruct (gloc g) as [l|] eqn:Hl.
    - rewrite (image_vw g Hok l Hl) Hv //.
    - by rewrite -vloc_vw Hv in Hl.
  Qed.
  Lemma locs_vw g : cleanok g → pend g = [] → locs g = vlocs (vw g).
  Proof.
    induction g as [n d|n st kvs|n st ks cs IH] using gt_ind'; intros Hok Hp; [done|by destruct st|].
    assert (stok st = true) as Hst by by cbn in Hp; unfold pst in Hp; destruct (stok st).
    rewrite gi_locs //; [|by unfold pst; rewrite Hst].
    assert (mjoin (locs <$> cs) = mjoin (vlocs <$> (vw <$> cs))) as HE; [|by destruct st; cbn; try done; rewrite HE].
    cbn in Hp. unfold pst in Hp. rewrite Hst in Hp. cbn in Hp.
    assert (Forall cleanok cs) as Hcs. { apply cleanok_all. destruct st; [apply Hok|exact Hok..]. }
    clear -IH Hcs Hp. induction IH as [|c cs Hc _ IHc]; [done|]. apply Forall_cons in Hcs as [Hcc Hcs].
    cbn in Hp. apply app_eq_nil in Hp as [Hp1 Hp2]. rewrite !fmap_cons. cbn. rewrite Hc // IHc //.
  Qed.
  Lemma image_gloc g d : image g = Some d → gloc g = Some (dloc d).
  Proof.
    destruct g as [n d'|n st kvs|n st ks cs]; cbn.
    - by intros [= ->].
    - destruct st; try done. by intros [= <-].
    - destruct st; try done. by intros (ds & _ & ->)%fmap_Some.
  Qed.
  Lemma image_strip g : ∀ d, image g = Some d → strip g = dstrip d.
  Proof.
    induction g as [n d'|n st kvs|n st ks cs IH] using gt_ind'; intros d; cbn.
    - by intros [= ->].
    - destruct st; try done. by intros [= <-].
    - destruct st; try done. intros (ds & Hds & ->)%fmap_Some. cbn. f_equal. apply mapM_Some in Hds.
      clear -IH Hds. induction Hds as [|c d cs ds Hc _ IHc]; [done|]. apply Forall_cons in IH as [IH1 IH2].
      rewrite !fmap_cons (IH1 d Hc) IHc //.
  Qed.
  Lemma image_locs g : ∀ d, image g = Some d → locs g = dlocs d.
  Proof.
    induction g as [n d'|n st kvs|n st ks cs IH] using gt_ind'; intros d; cbn.
    - by intros [= ->].
    - destruct st; try done. by intros [= <-].
    - destruct st; try done. intros (ds & Hds & ->)%fmap_Some. cbn. f_equal. apply mapM_Some in Hds.
      clear -IH Hds. induction Hds as [|c d cs ds Hc _ IHc]; [done|]. apply Forall_cons in IH as [IH1 IH2].
      rewrite !fmap_cons. cbn. rewrite (IH1 d Hc) IHc //.
  Qed.

  (** ** Reading the picture off the assertions *)
  Section read.
    Variable mn : nat.
    Variable t : tid.
    Variable ca : bool.
    Notation rep := (rep cb dom mn t ca).
    Notation isTR := (isTR mn t ca).
    Notation whole := (whole cb dom mn t ca).
    Notation treeok := (treeok cb dom domV mn).

    Lemma within_sub σ σ' s : σ' ⊆ σ → within σ s → within σ' s.
    Proof. intros Hs Hw k v Hk. apply Hw. by eapply lookup_weaken. Qed.
    Lemma within_l σ1 σ2 s : within (σ1 ∪ σ2) s → within σ1 s.
    Proof. apply within_sub, map_union_subseteq_l. Qed.
    Lemma within_r σ1 σ2 s : σ1 ##ₘ σ2 → within (σ1 ∪ σ2) s → within σ2 s.
    Proof. intros H. by apply within_sub, map_union_subseteq_r. Qed.
    Lemma within_N σ s n r : within σ s → isN n r σ → nodes s !! n = Some r.
    Proof.
      intros Hw Hn. apply own_in in Hn. apply Hw in Hn. cbn in Hn. destruct (nodes s !! n); by simplify_eq/=.
    Qed.
    Lemma within_R σ s T : within σ s → isR t T σ → trees s !! t = Some T.
    Proof.
      intros Hw Hn. apply own_in in Hn. apply Hw in Hn. cbn in Hn. destruct (trees s !! t); by simplify_eq/=.
    Qed.
    Lemma within_inh σ s l b : within σ s → inh σ l = Some b → disk s !! l = Some b.
    Proof.
      intros Hw. unfold inh. destruct (σ !! KD l) as [[]|] eqn:E; try done. intros [= ->]. apply Hw in E. cbn in E.
      destruct (disk s !! l); by simplify_eq/=.
    Qed.
    Lemma within_imaged σ s h mx d : within σ s → (dsk cb h mx d ∗ True)%I σ → imaged cb (λ l, disk s !! l) h mx d.
    Proof.
      intros Hw (σ1 & σ2 & -> & Hd & H1 & _). eapply imaged_mono; [|by apply dsk_imaged].
      intros l b Hl. eapply within_inh; [|exact Hl]. by eapply within_l.
    Qed.
    Lemma entail_at (P Q : hProp) σ : (P ⊢ Q) → P σ → Q σ.
    Proof. intros [H]. apply H. Qed.

    Lemma mxof_eq ir : mxof mn ir = if ir then Some (2 * Z.of_nat mn) else None.
    Proof. by destruct ir. Qed.
    Lemma rep_store h par ir g st σ s : (∃ n kvs, g = GL n st kvs) ∨ (∃ n ks cs, g = GI n st ks cs) →
      stok st = true → within σ s → rep h par ir g σ → onstore s h (mxof mn ir) st g.
    Proof.
      intros Hg Hst Hw HR. destruct st as [l| | | |]; try done. cbn.
      assert (cleanok g) as Hok. { assert ((⌜cleanok g⌝ : hProp)%I σ) as HX; [|exact HX]. revert HR. apply entail_at, rep_cleanok. }
      assert (gloc g = Some l) as Hl by by destruct Hg as [(?&?&->)|(?&?&?&->)].
      destruct (gloc_vw g l Hl) as (d & Hv & _). exists d. split; [by apply image_view|].
      eapply within_imaged; [exact Hw|]. revert HR. apply entail_at. by apply (rep_dsk cb dom mn t ca g h par ir (gid g) d).
    Qed.
    Lemma rep_shown : ∀ g h par ir σ s, pend g = [] → within σ s → rep h par ir g σ → shown s t (2 * Z.of_nat mn) h par ir g.
    Proof.
      induction g as [n d|n st kvs|n st ks cs IH] using gt_ind'; intros h par ir σ s Hp Hw HR.
      - assert ((∃ r, <affine> ⌜drec t par d r⌝ ∗ isN n r ∗ isT n noLRU ∗ dsk cb h (mxof mn ir) d : hProp)%I σ) as HX.
        { revert HR. apply entail_at. by rewrite rep_GD. }
        destruct HX as (r & HX). apply holds_aff in HX as [(H1&H2&H3&H4&H5&H6&H7&H8&H9) HX].
        destruct HX as (σ1 & σ2 & -> & Hd & HN & HX).
        assert ((∃ r, nodes s !! n = Some r ∧ b_loaded r = false ∧ b_dirty r = false ∧ b_tree r = t ∧ b_parent r = par ∧
          b_items r = csz (dstrip d) ∧ b_loc r = dloc d ∧ b_kv r = None ∧ b_left r = None ∧ b_psroot r = None) ∧ imaged cb (λ l, disk s !! l) h (if ir then Some (2 * Z.of_nat mn) else None) d) as HG; [|by destruct h].
        split.
        + exists r. split_and!; try done. eapply within_N; [by eapply within_l|done].
        + rewrite -mxof_eq. eapply within_imaged; [by eapply within_r|]. revert HX. apply entail_at. iIntros "[_ $]".
      - destruct h as [|h]; [|done]. 
        assert (stok st = true) as Hst by by cbn in Hp; unfold pst in Hp; destruct (stok st).
        pose proof HR as HR0. cbn [Rep.rep] in HR. destruct HR as (kv & left & ps & HX). apply holds_aff in HX as [Hkv HX].
        destruct HX as (σ1 & σ2 & -> & Hd & HN & HX). cbn [shown]. split.
        + eexists _, kv. split; [eapply within_N; [by eapply within_l|exact HN]|]. cbn. destruct Hkv as [_ Hkv]. split_and!; done.
        + rewrite -mxof_eq. eapply rep_store; [left; eauto|done|exact Hw|exact HR0].
      - destruct h as [|h]; [done|].
        assert (stok st = true) as Hst by by cbn in Hp; unfold pst in Hp; destruct (stok st).
        pose proof HR as HR0. cbn [Rep.rep] in HR. destruct HR as (σ1 & σ2 & -> & Hd & (kv & b & HX) & HK).
        apply holds_aff in HX as [(Hkv & Hlen & _) HX]. destruct HX as (σ3 & σ4 & -> & Hd' & HN & HX).
        rewrite fmap_length in Hlen. cbn [shown]. split_and!.
        + eexists _, kv. split; [eapply within_N; [by eapply within_l, within_l|exact HN]|]. cbn. destruct Hkv as [_ Hkv].
          rewrite -(list_fmap_compose ginfo i_id) in Hkv |- *. split_and!; try done. by rewrite -(gsz_GI n st ks cs).
        + done.
        + apply Forall_forall. intros c Hc. rewrite Forall_forall in IH. destruct (big_in _ _ _ c HK Hc) as (σ5 & H5 & Hs5).
          eapply IH; [done| | |exact H5].
          * cbn in Hp. apply app_eq_nil in Hp as [_ Hp]. apply elem_of_nil_inv. intros x Hx.
            assert (x ∈ mjoin (pend <$> cs)) as HY; [|rewrite Hp in HY; by apply elem_of_nil in HY].
            apply elem_of_list_join. exists (pend c). split; [done|]. by apply elem_of_list_fmap_1.
          * eapply within_sub; [exact Hs5|]. by eapply within_r.
        + rewrite -mxof_eq. eapply rep_store; [right; eauto|done|exact Hw|exact HR0].
    Qed.
    Lemma tree_pictured root S h g σ s : treeok root h g → within σ s → (isTR root S ∗ whole h g)%I σ →
      pictured s t mn ca S h g.
    Proof.
      intros Ht Hw (σ1 & σ2 & -> & Hd & (σR & σS & -> & Hd2 & HR & HS) & HWh). split.
      - rewrite (tk_id _ _ _ _ _ _ _ Ht). eapply within_R; [by eapply within_l, within_l|exact HR].
      - destruct HWh as (σ3 & σ4 & -> & Hd3 & HP & Hrep).
        eapply rep_shown; [apply Ht| |exact Hrep]. eapply within_r; [exact Hd3|]. eapply within_r; [exact Hd|exact Hw].
      - apply Ht.
    Qed.
  End read.

  (** ** One state, one picture *)
  Lemma uels_inj (l l' : list (K * V)) : uels l = uels l' → l = l'.
  Proof.
    revert l'. induction l as [|[k v] l IH]; intros [|[k' v'] l'] H; try done. rewrite /uels !fmap_cons in H. injection H as -> -> H.
    f_equal. by apply IH.
  Qed.
  Lemma kels_inj (ks ks' : list K) (a a' : list nid) : length a = S (length ks) → length a' = S (length ks') →
    head a = head a' → kels (V:=V) ks a = kels ks' a' → ks = ks' ∧ a = a'.
  Proof.
    destruct a as [|x a]; [done|]. destruct a' as [|x' a']; [done|]. cbn. intros [= H1] [= H2] [= <-]. unfold kels, kvals. cbn. intros H.
    assert (ks = ks') as <-.
    { assert (fst <$> zip ks (VNode (V:=V) <$> a) = fst <$> zip ks' (VNode <$> a')) as E by (by rewrite H). rewrite !fst_zip ?fmap_length in E; [done|lia..]. }
    split; [done|]. f_equal.
    assert (snd <$> zip ks (VNode (V:=V) <$> a) = snd <$> zip ks (VNode <$> a')) as E by (by rewrite H). rewrite !snd_zip ?fmap_length in E; [|lia..].
    clear -E. revert a' E. induction a as [|x a IH]; intros [|x' a'] E; try done. injection E as -> E. f_equal. by apply IH.
  Qed.
  Lemma shown_GD s t mx h par ir n d : shown s t mx h par ir (GD n d) ↔
    (∃ r, nodes s !! n = Some r ∧ b_loaded r = false ∧ b_dirty r = false ∧ b_tree r = t ∧ b_parent r = par ∧
        b_items r = csz (dstrip d) ∧ b_loc r = dloc d ∧ b_kv r = None ∧ b_left r = None ∧ b_psroot r = None) ∧ imaged cb (λ l, disk s !! l) h (if ir then Some mx else None) d.
  Proof. by destruct h. Qed.
  Lemma st_inj s h h' mx g g' st st' : onstore s h mx st g → onstore s h' mx st' g' → stdirty st = stdirty st' → stloc st = stloc st' → st = st'.
  Proof. destruct st, st'; cbn; try done. congruence. Qed.
  Lemma shown_inj s t mx : ∀ g g' h h' par par' ir, shown s t mx h par ir g → shown s t mx h' par' ir g' → gid g = gid g' →
    Forall (dtok dom domV) (toks (strip g)) → Forall (dtok dom domV) (toks (strip g')) → h = h' ∧ g = g'.
  Proof using WF.
    induction g as [n d|n st kvs|n st ks cs IH] using gt_ind'; intros g' h h' par par' ir H H' Hid G G'.
    - apply shown_GD in H as [(r & Hr & Hl & _ & _ & _ & _ & Hloc & _) HI]. cbn in Hid.
      destruct g' as [n' d'|n' st' kvs'|n' st' ks' cs']; cbn in Hid; subst n'.
      + apply shown_GD in H' as [(r' & Hr' & Hl' & _ & _ & _ & _ & Hloc' & _) HI']. rewrite Hr in Hr'. injection Hr' as <-.
        destruct (imaged_inj cb dom domV WF _ _ _ _ _ _ HI HI') as [-> ->]; [congruence|done..].
      + destruct h'; [|done]. destruct H' as [(r' & kv' & Hr' & Hl' & _) _]. congruence.
      + destruct h'; [done|]. destruct H' as [(r' & kv' & Hr' & Hl' & _) _]. congruence.
    - destruct h; [|done]. destruct H as [(r & kv & Hr & Hl & _ & Hlf & _ & _ & _ & Hdi & Hlo & _ & Hkv & Hel) Hst]. cbn in Hid.
      destruct g' as [n' d'|n' st' kvs'|n' st' ks' cs']; cbn in Hid; subst n'.
      + apply shown_GD in H' as [(r' & Hr' & Hl' & _) _]. congruence.
      + destruct h'; [|done]. destruct H' as [(r' & kv' & Hr' & Hl' & _ & Hlf' & _ & _ & _ & Hdi' & Hlo' & _ & Hkv' & Hel') Hst'].
        rewrite Hr in Hr'. injection Hr' as <-. rewrite Hkv in Hkv'. injection Hkv' as <-. rewrite Hel in Hel'. apply uels_inj in Hel' as <-.
        split; [done|]. f_equal. eapply (st_inj s 0 0); [exact Hst|exact Hst'|congruence..].
      + destruct h'; [done|]. destruct H' as [(r' & kv' & Hr' & Hl' & _ & Hlf' & _) _]. congruence.
    - destruct h; [done|]. destruct H as [(r & kv & Hr & Hl & _ & Hlf & _ & _ & _ & Hdi & Hlo & Hle & Hkv & Hel) (Hlen & HF & Hst)]. cbn in Hid.
      destruct g' as [n' d'|n' st' kvs'|n' st' ks' cs']; cbn in Hid; subst n'.
      + apply shown_GD in H' as [(r' & Hr' & Hl' & _) _]. congruence.
      + destruct h'; [|done]. destruct H' as [(r' & kv' & Hr' & Hl' & _ & Hlf' & _) _]. congruence.
      + destruct h'; [done|]. destruct H' as [(r' & kv' & Hr' & Hl' & _ & Hlf' & _ & _ & _ & Hdi' & Hlo' & Hle' & Hkv' & Hel') (Hlen' & HF' & Hst')].
        rewrite Hr in Hr'. injection Hr' as <-. rewrite Hkv in Hkv'. injection Hkv' as <-. rewrite Hel in Hel'.
        apply kels_inj in Hel' as [<- Hids]; [|by rewrite fmap_length..|by rewrite -Hle // -Hle'].
        assert (st = st') as <- by (eapply (st_inj s (S h) (S h')); [exact Hst|exact Hst'|congruence..]).
        cbn [strip toks] in G, G'. apply toks_inner in G as [_ G]; [|by rewrite !fmap_length]. apply toks_inner in G' as [_ G']; [|by rewrite !fmap_length].
        rewrite !Forall_fmap in G, G'.
        assert (h = h' ∧ cs = cs') as [-> ->]; [|done]. clear Hel Hle Hle' Hst Hst' Hlen'. 
        assert (∀ cs', Forall (shown s t mx h' (Some n) false) cs' → Forall (λ x, Forall (dtok dom domV) (toks (strip x))) cs' → gid <$> cs = gid <$> cs' →
          Forall (λ _, h = h') cs ∧ cs = cs') as HX.
        { clear -IH HF G. induction cs as [|c cs IHc]; intros [|c' cs'] H1 H2 H3; try done. rewrite !fmap_cons in H3. injection H3 as H3 H4.
          apply Forall_cons in IH as [IH1 IH2]. apply Forall_cons in HF as [HF1 HF2]. apply Forall_cons in G as [G1 G2].
          apply Forall_cons in H1 as [H11 H12]. apply Forall_cons in H2 as [H21 H22].
          destruct (IHc IH2 HF2 G2 cs' H12 H22 H4) as [HA <-].
          destruct (IH1 c' h h' (Some n) (Some n) false HF1 H11 H3 G1 H21) as [-> <-]. by split; [constructor|]. }
        destruct (HX cs') as [HA ->]; [|exact G'|exact Hids|].
        { exact HF'. }
        split; [|done]. destruct cs' as [|c cs']; [done|]. by apply Forall_cons in HA as [? _].
  Qed.
  Lemma pictured_inj s t mn ca S h g mn' ca' S' h' g' : pictured s t mn ca S h g → pictured s t mn' ca' S' h' g' →
    mn' = mn ∧ ca' = ca ∧ S' = S ∧ h' = h ∧ g' = g.
  Proof using WF.
    intros [H1 H2 H3] [H1' H2' H3']. rewrite H1 in H1'. injection H1' as HA HB HC HD HE.
    assert (mn' = mn) as -> by lia. destruct (shown_inj _ _ _ _ _ _ _ _ _ _ H2 H2' HC H3 H3') as [-> ->]. done.
  Qed.

  (** ** What a tree owns, exactly *)
  Lemma stales_look L σ k v : (stales L : hProp) σ → σ !! k = Some v → ¬ droppable v → ∃ l b, l ∈ L ∧ k = KD l ∧ v = RD b.
  Proof.
    intros H Hk Hv. destruct (big_look _ _ _ H k v Hk Hv) as (l & σ1 & Hl & (b & HB) & Hk1).
    assert (isD l b σ1) as HD. { revert HB. apply entails_at. by iIntros "[$ _]". }
    destruct (own_look _ _ _ _ _ HD Hk1 Hv) as [-> ->]. by exists l, b.
  Qed.
  Lemma stales_in L σ l : (stales L : hProp) σ → l ∈ L → ∃ b, σ !! KD l = Some (RD b) ∧ locok l ∧ 0 < llen l.
  Proof.
    intros H Hl. destruct (big_in _ _ _ l H Hl) as (σ1 & (b & HB) & Hs). exists b.
    assert ((<affine> ⌜locok l ∧ 0 < llen l⌝ ∗ isD l b : hProp)%I σ1) as HD. { revert HB. apply entails_at. unfold blk. by iIntros "[$ $]". }
    apply holds_aff in HD as [? HD]. split; [|done]. eapply lookup_weaken; [|exact Hs]. by apply own_in in HD.
  Qed.
  Lemma stales_NoDup L σ : (stales L : hProp) σ → NoDup L.
  Proof.
    revert σ. induction L as [|l L IH]; intros σ H; [constructor|].
    destruct H as (σ1 & σ2 & -> & Hd & (b & H1) & H2). constructor; [|by eapply IH].
    intros Hin. destruct (stales_in _ _ _ H2 Hin) as (b' & Hb' & _).
    assert (isD l b σ1) as HD. { revert H1. apply entails_at. by iIntros "[$ _]". }
    apply own_in in HD. by rewrite (map_disjoint_Some_l _ _ _ _ Hd HD) in Hb'.
  Qed.
  Lemma tags_look (L : list nid) x σ k v : ([∗ list] n ∈ L, isT n x : hProp)%I σ → σ !! k = Some v → ¬ droppable v → ∃ n, n ∈ L ∧ k = KT n ∧ v = RT x.
  Proof.
    intros H Hk Hv. destruct (big_look _ _ _ H k v Hk Hv) as (n & σ1 & Hl & HB & Hk1).
    destruct (own_look _ _ _ _ _ HB Hk1 Hv) as [-> ->]. by exists n.
  Qed.
  Lemma tags_in (L : list nid) x σ n : ([∗ list] n ∈ L, isT n x : hProp)%I σ → n ∈ L → σ !! KT n = Some (RT x).
  Proof.
    intros H Hl. destruct (big_in _ _ _ n H Hl) as (σ1 & HB & Hs). eapply lookup_weaken; [|exact Hs]. by apply own_in in HB.
  Qed.
  Lemma tags_NoDup (L : list nid) x σ : ([∗ list] n ∈ L, isT n x : hProp)%I σ → NoDup L.
  Proof.
    revert σ. induction L as [|l L IH]; intros σ H; [constructor|].
    destruct H as (σ1 & σ2 & -> & Hd & H1 & H2). constructor; [|by eapply IH].
    intros Hin. pose proof (tags_in _ _ _ _ H2 Hin) as Hb'. apply own_in in H1. by rewrite (map_disjoint_Some_l _ _ _ _ Hd H1) in Hb'.
  Qed.
  Record owns σ (ca : bool) (L : list loc) (lc ld : list nid) : Prop := Owns {
    ow_D l b : σ !! KD l = Some (RD b) → l ∈ L;
    ow_D' l : l ∈ L → ∃ b, σ !! KD l = Some (RD b) ∧ locok l ∧ 0 < llen l;
    ow_nodup : NoDup L;
    ow_T n x : σ !! KT n = Some (RT x) → x = noLRU ∨ (ca = true ∧ (x = cleanLRU ∧ n ∈ lc ∨ x = dirtyLRU ∧ n ∈ ld));
    ow_T' n : ca = true → n ∈ lc → σ !! KT n = Some (RT cleanLRU);
    ow_T'' n : ca = true → n ∈ ld → σ !! KT n = Some (RT dirtyLRU);
    ow_nodupT : ca = true → NoDup lc ∧ NoDup ld }.
  Lemma tree_owns mn t ca root S h g σ : treeok cb dom domV mn root h g → (isTR mn t ca root S ∗ whole cb dom mn t ca h g)%I σ →
    owns σ ca (locs g ++ S) (loaded cleanLRU g) (loaded dirtyLRU g).
  Proof.
    intros Ht HX. assert (cleanok g) as Hok.
    { assert ((⌜cleanok g⌝ : hProp)%I σ) as HY; [|exact HY]. revert HX. apply entails_at. iIntros "[_ [_ Hr]]". by iApply rep_cleanok. }
    rewrite locs_vw; [|done|apply Ht].
    assert ((stales (vlocs (vw g) ++ S) ∗ tags ca cleanLRU (loaded cleanLRU g) ∗ tags ca dirtyLRU (loaded dirtyLRU g) : hProp)%I σ) as HF.
    { revert HX. apply entails_at. by apply (tree_fp cb dom domV). }
    destruct HF as (σ1 & σ23 & -> & Hd1 & H1 & (σ2 & σ3 & -> & Hd2 & H2 & H3)).
    assert (∀ k v, (σ2 ∪ σ3) !! k = Some v → ¬ droppable v → ca = true ∧ ∃ n, k = KT n ∧ (v = RT cleanLRU ∧ n ∈ loaded cleanLRU g ∨ v = RT dirtyLRU ∧ n ∈ loaded dirtyLRU g)) as HT.
    { intros k v Hk Hv. unfold tags in H2, H3. destruct ca.
      - split; [done|]. apply lookup_union_Some in Hk as [Hk|Hk]; [..|done].
        + destruct (tags_look _ _ _ _ _ H2 Hk Hv) as (n & ? & ? & ?). exists n. tauto.
        + destruct (tags_look _ _ _ _ _ H3 Hk Hv) as (n & ? & ? & ?). exists n. tauto.
      - exfalso. apply lookup_union_Some in Hk as [Hk|Hk]; [..|done]; [by apply H2 in Hk|by apply H3 in Hk]. }
    split.
    - intros l b Hk. apply lookup_union_Some in Hk as [Hk|Hk]; [..|done].
      + destruct (stales_look _ _ _ _ H1 Hk) as (l' & b' & Hl & [= ->] & _); [by intros []|done].
      + destruct (HT _ _ Hk) as (_ & n & [=] & _). by intros [].
    - intros l Hl. destruct (stales_in _ _ _ H1 Hl) as (b & Hb & ?). exists b. split; [|done]. by apply lookup_union_Some_l.
    - by eapply stales_NoDup.
    - intros n x Hk. destruct (decide (x = noLRU)) as [->|Hx]; [by left|]. right. apply lookup_union_Some in Hk as [Hk|Hk]; [..|done].
      + by destruct (stales_look _ _ _ _ H1 Hk) as (l' & b' & Hl & [=] & _).
      + destruct (HT _ _ Hk) as (Hca & n' & [= <-] & HT'); [done|]. split; [done|]. destruct HT' as [[[= ->] ?]|[[= ->] ?]]; tauto.
    - intros n -> Hn. apply lookup_union_Some_r; [done|]. apply lookup_union_Some_l. by eapply tags_in.
    - intros n -> Hn. apply lookup_union_Some_r; [done|]. apply lookup_union_Some_r; [done|]. by eapply tags_in.
    - intros ->. split; by eapply tags_NoDup.
  Qed.
End picture.

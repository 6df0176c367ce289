(** * What a storage holds

    [imaged D h mx d]: the blocks of the storage [D] spell out the tree [d] of
    height [h].  A storage spells out at most one tree from each location.
    Models no code; the block formats [enc_leaf] and [enc_inner] are those of
    Codec.v. *)
From Coq Require Import ssreflect.
From stdpp Require Import prelude list gmap.
From iris.bi Require Import bi.
From iris.proofmode Require Import proofmode.
From Verif Require Import Spec SpecFacts BTree HProp Lru Wp Kv Codec Ghost Order Rep Api Open Pres Machine World.
Open Scope Z_scope.

Section disk.
  Context {K V : Type}.
  Variable cb : callbacks K V.
  Variable dom : K → Prop.
  Variable domV : V → Prop.
  Hypothesis WF : wf_cb cb dom domV.
  Notation cmp := (cb_cmp cb).
  Notation hProp := (hProp K V).
  Notation heap := (gmap rkey (rval K V)).
  Notation dt := (dt K V).
  Implicit Types (σ : heap) (d : dt) (D : loc → option bytes).

  (** The encodings are injective and self-delimiting. *)
  Lemma u64_inj z z' (r r' : bytes) : fits z → fits z' → u64 z ++ r = u64 z' ++ r' → z = z' ∧ r = r'.
  Proof. intros H H' E. pose proof (unle_u64 z r H) as H1. rewrite E (unle_u64 z' r' H') in H1. by simplify_eq. Qed.
  Lemma pk_inj k k' r r' : dom k → dom k' → pk cb k ++ r = pk cb k' ++ r' → k = k' ∧ r = r'.
  Proof using WF.
    intros H H' E. destruct (pk_ok cb dom domV WF k H) as [_ H1], (pk_ok cb dom domV WF k' H') as [_ H2].
    specialize (H1 r). rewrite E H2 in H1. by simplify_eq.
  Qed.
  Lemma pv_inj v v' r r' : domV v → domV v' → pv cb v ++ r = pv cb v' ++ r' → v = v' ∧ r = r'.
  Proof using WF.
    intros H H' E. destruct (pv_ok cb dom domV WF v H) as [_ H1], (pv_ok cb dom domV WF v' H') as [_ H2].
    specialize (H1 r). rewrite E H2 in H1. by simplify_eq.
  Qed.
  Lemma ref_inj p p' r r' : locok p.1 → fits p.2 → locok p'.1 → fits p'.2 → enc_ref p ++ r = enc_ref p' ++ r' → p = p' ∧ r = r'.
  Proof.
    destruct p as [[[a b] c] z], p' as [[[a' b'] c'] z']. unfold enc_ref, locok, lnum, loff, llen; cbn. intros (?&?&?) ? (?&?&?) ?. rewrite -!app_assoc.
    intros [-> E]%u64_inj; [|unfold fits; lia..]. apply u64_inj in E as [-> E]; [|unfold fits; lia..].
    apply u64_inj in E as [-> E]; [|unfold fits; lia..]. apply u64_inj in E as [-> E]; [|done..]. done.
  Qed.
  Definition refgood (p : loc * Z) : Prop := locok p.1 ∧ fits p.2.
  Lemma leaf_inj mx kvs kvs' : mxfit mx → fits (Z.of_nat (length kvs)) → fits (Z.of_nat (length kvs')) →
    Forall (λ p, dom p.1 ∧ domV p.2) kvs → Forall (λ p, dom p.1 ∧ domV p.2) kvs' →
    enc_leaf cb mx kvs = enc_leaf cb mx kvs' → kvs = kvs'.
  Proof using WF.
    intros Hm Hf Hf' Hd Hd'. unfold enc_leaf. intros [Hl E]%u64_inj; [|done..]. apply Nat2Z.inj in Hl. rewrite Hl in E.
    apply app_inv_head in E. apply app_inv_head in E. apply app_inv_head in E. clear Hf Hf'.
    revert kvs' Hd' Hl E. induction Hd as [|[k v] kvs [Hk Hv] Hd IH]; intros [|[k' v'] kvs'] Hd' Hl E; try done.
    inversion Hd' as [|? ? [Hk' Hv'] Hd'']; subst. rewrite !fmap_cons in E.
    change (mjoin (enc_kv cb (k, v) :: (enc_kv cb <$> kvs))) with ((pk cb k ++ pv cb v) ++ mjoin (enc_kv cb <$> kvs)) in E.
    change (mjoin (enc_kv cb (k', v') :: (enc_kv cb <$> kvs'))) with ((pk cb k' ++ pv cb v') ++ mjoin (enc_kv cb <$> kvs')) in E.
    rewrite -!app_assoc in E. apply pk_inj in E as [-> E]; [|done..]. apply pv_inj in E as [-> E]; [|done..].
    rewrite (IH kvs') //. cbn in Hl. lia.
  Qed.
  Lemma krefs_inj l l' : Forall (λ p, dom p.1 ∧ refgood p.2) l → Forall (λ p, dom p.1 ∧ refgood p.2) l' → length l = length l' →
    mjoin (enc_kref cb <$> l) = mjoin (enc_kref cb <$> l') → l = l'.
  Proof using WF.
    intros Hd. revert l'. induction Hd as [|[k p] l [Hk Hp] Hd IH]; intros [|[k' p'] l'] Hd' Hl E; try done.
    inversion Hd' as [|? ? [Hk' Hp'] Hd'']; subst. rewrite !fmap_cons in E.
    change (mjoin (enc_kref cb (k, p) :: (enc_kref cb <$> l))) with ((pk cb k ++ enc_ref p) ++ mjoin (enc_kref cb <$> l)) in E.
    change (mjoin (enc_kref cb (k', p') :: (enc_kref cb <$> l'))) with ((pk cb k' ++ enc_ref p') ++ mjoin (enc_kref cb <$> l')) in E.
    rewrite -!app_assoc in E. apply pk_inj in E as [-> E]; [|done..]. destruct Hp, Hp'. apply ref_inj in E as [-> E]; [|done..].
    cbn in Hl. rewrite (IH l') //. lia.
  Qed.
  Lemma inner_inj mx sz sz' r r' l l' : mxfit mx → fits sz → fits sz' → fits (1 + Z.of_nat (length l)) → fits (1 + Z.of_nat (length l')) →
    refgood r → refgood r' → Forall (λ p, dom p.1 ∧ refgood p.2) l → Forall (λ p, dom p.1 ∧ refgood p.2) l' →
    enc_inner cb mx sz r l = enc_inner cb mx sz' r' l' → sz = sz' ∧ r = r' ∧ l = l'.
  Proof using WF.
    intros Hm Hs Hs' Hl Hl' Hr Hr' Hd Hd'. unfold enc_inner. intros [-> E]%u64_inj; [|done..].
    apply app_inv_head in E. apply app_inv_head in E. apply u64_inj in E as [He E]; [|done..].
    destruct Hr, Hr'. apply ref_inj in E as [-> E]; [|done..]. split_and!; [done..|]. apply krefs_inj; try done. lia.
  Qed.
  Lemma leaf_not_inner mx kvs sz r l : fits (Z.of_nat (length kvs)) → fits sz → enc_leaf cb mx kvs ≠ enc_inner cb mx sz r l.
  Proof. intros H1 H2. unfold enc_leaf, enc_inner. by intros [_ [=]]%u64_inj. Qed.

  (** [d] can be read back from [D] *)
  Fixpoint imaged D (h : nat) (mx : option Z) d : Prop :=
    match h, d with
    | O, DL l kvs => D l = Some (enc_leaf cb mx kvs) ∧ locok l ∧ mxfit mx ∧ fits (Z.of_nat (length kvs))
    | S h, DI l ks ds => D l = Some (enc_inner' cb mx (csz (dstrip d)) ks (dref <$> ds)) ∧ locok l ∧
        mxfit mx ∧ fits (csz (dstrip d)) ∧ fits (1 + Z.of_nat (length ks)) ∧ length ds = S (length ks) ∧
        Forall (imaged D h None) ds
    | _, _ => False
    end.
  Definition inh σ (l : loc) : option bytes := match σ !! KD l with Some (RD b) => Some b | _ => None end.
  Lemma entails_at (P Q : hProp) σ : (P ⊢ Q) → P σ → Q σ.
  Proof. intros [H]. apply H. Qed.
  Lemma holds_aff (φ : Prop) (P : hProp) σ : (<affine> ⌜φ⌝ ∗ P)%I σ → φ ∧ P σ.
  Proof.
    intros H. split.
    - assert ((⌜φ⌝ : hProp)%I σ) as HX by (revert H; apply entails_at; by iIntros "[% _]"). exact HX.
    - revert H. apply entails_at. by iIntros "[_ $]".
  Qed.
  Lemma inh_sub σ σ' l b : σ ⊆ σ' → inh σ l = Some b → inh σ' l = Some b.
  Proof.
    intros Hs. unfold inh. destruct (σ !! KD l) as [[]|] eqn:E; try done. intros [= ->].
    by rewrite (lookup_weaken _ _ _ _ E Hs).
  Qed.
  Lemma imaged_mono D D' : (∀ l b, D l = Some b → D' l = Some b) → ∀ h mx d, imaged D h mx d → imaged D' h mx d.
  Proof.
    intros HD. induction h as [|h IH]; intros mx [l kvs|l ks ds]; try done.
    - intros (?&?&?&?). split_and!; try done. by apply HD.
    - intros (?&?&?&?&?&?&HF). cbn. split_and!; try done; [by apply HD|]. eapply Forall_impl; [exact HF|]. intros x. apply IH.
  Qed.
  Lemma blk_in l b σ : (blk l b : hProp) σ → inh σ l = Some b ∧ locok l.
  Proof.
    intros HX. assert ((<affine> ⌜locok l ∧ 0 < llen l⌝ ∗ isD l b)%I σ) as HX'.
    { revert HX. apply entails_at. unfold blk. iIntros "[$ $]". }
    apply holds_aff in HX' as [[? _] HX']. split; [|done]. unfold inh. unfold isD in HX'. by rewrite (own_in _ _ _ HX').
  Qed.
  Lemma dsk_imaged h mx d σ : dsk cb h mx d σ → imaged (inh σ) h mx d.
  Proof.
    revert mx d σ. induction h as [|h IH]; intros mx [l kvs|l ks ds] σ HX; try done; cbn [dsk] in HX; cbn [imaged].
    - destruct HX as (σ1 & σ2 & -> & Hd & H1 & H2). apply blk_in in H1 as [H1 ?].
      assert ((<affine> ⌜mxfit mx ∧ fits (Z.of_nat (length kvs))⌝ ∗ emp : hProp)%I σ2) as [[? ?] _]%holds_aff.
      { revert H2. apply entails_at. by iIntros "$". }
      split_and!; try done. eapply inh_sub; [|exact H1]. by apply map_union_subseteq_l.
    - destruct HX as (σ1 & σ2 & -> & Hd & H1 & H2). apply blk_in in H1 as [H1 ?].
      apply holds_aff in H2 as [(?&?&?&?) Hcs]. split_and!; try done.
      { eapply inh_sub; [|exact H1]. by apply map_union_subseteq_l. }
      apply Forall_forall. intros x Hx. destruct (big_in _ _ _ x Hcs Hx) as (σ3 & Hx3 & Hs).
      eapply imaged_mono; [|by apply IH]. intros l' b Hl. eapply inh_sub; [|exact Hl]. etrans; [exact Hs|]. by apply map_union_subseteq_r.
  Qed.
  Lemma imaged_locok D h mx d : imaged D h mx d → locok (dloc d).
  Proof. destruct h, d; try done; cbn; tauto. Qed.
  Lemma imaged_fits D h mx d : imaged D h mx d → fits (csz (dstrip d)).
  Proof. destruct h, d as [l kvs|l ks ds]; try done; cbn; [|tauto]. intros (_ & _ & _ & H). by rewrite /csz items_CL. Qed.
  Lemma imaged_refs D h ds : Forall (imaged D h None) ds → Forall refgood (dref <$> ds).
  Proof.
    intros H. apply Forall_fmap. eapply Forall_impl; [exact H|]. intros d Hd. split; [by eapply imaged_locok|by eapply imaged_fits].
  Qed.
  Lemma Forall_zip {A B} (P : A → Prop) (Q : B → Prop) l l' : Forall P l → Forall Q l' → Forall (λ p, P p.1 ∧ Q p.2) (zip l l').
  Proof. intros H. revert l'. induction H; intros [|y l'] H'; cbn; try constructor; inversion H'; subst; auto. Qed.
  Lemma toks_inner ks (css : list (list (tok K V))) (P : tok K V → Prop) : length css = S (length ks) → Forall P (inter ks css) →
    Forall (λ k, P (TS k)) ks ∧ Forall (Forall P) css.
  Proof.
    destruct css as [|c css]; [done|]. cbn. intros [= Hl] [Hc Hp]%Forall_app. rewrite Forall_cons.
    assert (Forall (λ k, P (TS k)) ks ∧ Forall (Forall P) css); [clear c Hc|tauto].
    revert ks Hl Hp. induction css as [|c css IH]; intros [|k ks] Hl Hp; try done.
    unfold tpost in Hp. cbn in Hp. inversion Hp as [|? ? H1 H2]; subst. apply Forall_app in H2 as [H2 H3].
    destruct (IH ks) as [? ?]; [by injection Hl|done|]. by split; constructor.
  Qed.
  (** One location, one tree. *)
  Lemma imaged_inj D : ∀ h h' mx d d', imaged D h mx d → imaged D h' mx d' → dloc d = dloc d' →
    Forall (dtok dom domV) (toks (dstrip d)) → Forall (dtok dom domV) (toks (dstrip d')) → h = h' ∧ d = d'.
  Proof using WF.
    induction h as [|h IH]; intros [|h'] mx [l kvs|l ks ds] [l' kvs'|l' ks' ds'] H H' Hl G G'; try done; cbn in Hl; subst l'.
    - destruct H as (H1 & _ & H2 & H3), H' as (H1' & _ & _ & H3'). split; [done|]. f_equal. rewrite H1 in H1'.
      cbn in G, G'. unfold itoks in G, G'. rewrite !Forall_fmap in G, G'. by apply (leaf_inj mx); [..|congruence].
    - exfalso. destruct H as (H1 & _ & H2 & H3), H' as (H1' & _ & _ & H3' & _ & Hl & _). rewrite H1 in H1'.
      destruct ds' as [|d0 ds']; [done|]. rewrite fmap_cons in H1'. cbn [enc_inner'] in H1'. apply (inj Some) in H1'. by apply leaf_not_inner in H1'.
    - exfalso. destruct H as (H1 & _ & H2 & H3 & _ & Hl & _), H' as (H1' & _ & _ & H3'). rewrite H1 in H1'.
      destruct ds as [|d0 ds]; [done|]. rewrite fmap_cons in H1'. cbn [enc_inner'] in H1'. symmetry in H1'. apply (inj Some) in H1'. by apply leaf_not_inner in H1'.
    - destruct H as (H1 & _ & H2 & H3 & H4 & H5 & H6), H' as (H1' & _ & _ & H3' & H4' & H5' & H6'). rewrite H1 in H1'.
      apply toks_inner in G as [Gk Gc]; [|by rewrite !fmap_length]. apply toks_inner in G' as [Gk' Gc']; [|by rewrite !fmap_length].
      pose proof (imaged_refs _ _ _ H6) as R. pose proof (imaged_refs _ _ _ H6') as R'.
      destruct ds as [|d0 ds]; [done|]. destruct ds' as [|d0' ds']; [done|]. rewrite !fmap_cons in H1', R, R'. cbn [enc_inner'] in H1'.
      cbn in H5, H5'. inversion R; inversion R'; subst.
      assert (length (zip ks (dref <$> ds)) = length ks) as L1 by (rewrite zip_with_length fmap_length; lia).
      assert (length (zip ks' (dref <$> ds')) = length ks') as L1' by (rewrite zip_with_length fmap_length; lia).
      apply (inj Some), inner_inj in H1' as (_ & E0 & Ez); [|rewrite ?L1 ?L1'; try done; by apply Forall_zip..].
      assert (ks = ks') as <-.
      { assert (fst <$> zip ks (dref <$> ds) = fst <$> zip ks' (dref <$> ds')) as E by (by rewrite Ez). rewrite !fst_zip ?fmap_length in E; [done|lia..]. }
      assert (dref <$> ds = dref <$> ds') as Er.
      { assert (snd <$> zip ks (dref <$> ds) = snd <$> zip ks (dref <$> ds')) as E by (by rewrite Ez). rewrite !snd_zip ?fmap_length in E; [done|lia..]. }
      assert (h = h' ∧ d0 :: ds = d0' :: ds') as [-> [= -> ->]]; [|done].
      assert (dref <$> d0 :: ds = dref <$> d0' :: ds') as E by (rewrite !fmap_cons; congruence). clear -IH E Gc Gc' H6 H6'.
      split.
      + rewrite !fmap_cons in E, Gc, Gc'. inversion Gc; inversion Gc'; inversion H6; inversion H6'; subst. injection E as E1 E2 E3. 
        by eapply (IH h' None d0 d0').
      + revert E Gc Gc' H6 H6'. generalize (d0 :: ds) (d0' :: ds'). intros l. induction l as [|x l IHl]; intros [|x' l'] E G G' F F'; try done.
        rewrite !fmap_cons in E, G, G'. inversion G; inversion G'; inversion F; inversion F'; subst. injection E as E1 E2 E3. f_equal.
        * by eapply (IH h' None).
        * by apply IHl.
  Qed.
End disk.

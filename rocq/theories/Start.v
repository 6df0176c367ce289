(** * A call gets its lock; calls that need none; the end of the process

    Models no code. *)
From Coq Require Import ssreflect.
From stdpp Require Import prelude functions list gmap.
From iris.proofmode Require Import proofmode.
From Verif Require Import Spec SpecFacts BTree HProp Lru Wp Kv Codec Ghost Order PsTree Rep Load Search Update Plug Insert Borrow Merge Rebal Api Walk Touch Maint Report Open Dumps Blame Pres Local Machine Client World Disk Hist Threads Wpt Calls Steady Parts Conc Joint Sched.
Open Scope Z_scope.

Section start.
  Context {K V : Type}.
  Variable cb : callbacks K V.
  Variable dom : K → Prop.
  Variable domV : V → Prop.
  Hypothesis WF : wf_cb cb dom domV.
  Notation cmp := (cb_cmp cb).
  Notation hProp := (hProp K V).
  Notation heap := (gmap rkey (rval K V)).
  Notation st := (st K V).
  Notation M := (M K V).
  Notation cmd := (cmd K V).
  Notation result := (result K V).
  Notation family := (family K V).
  Notation world := (world K V).
  Notation live := (live K V).
  Notation thread := (thread K V).
  Notation stored_at := (stored_at cb dom domV).
  Notation snapsat := (snapsat cb dom domV).
  Notation body := (body cb dom domV).
  Notation doneon := (doneon cb dom domV).
  Notation failon := (failon cb dom domV).
  Notation ready := (ready cb dom domV).
  Notation tinv := (tinv cb dom domV).
  Notation thinv := (thinv cb dom domV).
  Notation pok := (pok cb dom domV).
  Notation cinv := (cinv cb dom domV).
  Implicit Types (σ τ : heap) (f : family) (w : world) (s : st) (lv : live) (X : loc → Prop) (P : part → heap) (ths : list thread) (ro : nat → role) (x : thread).

  (** ** The first moment of a call on a tree *)
  Definition startfam (c : cmd) f lv : family := match c with Prune _ => forget f lv | Discard _ => forget_all f lv | _ => f end.
  Definition treeof (c : cmd) : option tid :=
    match c with
    | MapCall t _ | Flush t _ | Purge t _ | Touch t | TouchItem t _ | Prune t | Discard t
    | LayoutReport t | DimensionsReport t | Validate t | Dump t => Some t
    | _ => None
    end.
  Lemma ready_tinv c t f io σ : ready c f io σ → locals none t (exec cb c) → tinv c t (exec cb c) [] f σ.
  Proof.
    intros Hr Hl. apply ready_ready2 in Hr as [H1 H2]. exists σ, ∅, io, none. split_and!; try done.
    - by rewrite right_id_L.
    - apply map_disjoint_empty_r.
    - left. by intros l [].
  Qed.
  Lemma call_start w c t f lv σ : treeof c = Some t → legal dom domV w c → inuse t f lv → 2 ≤ fm_min f → body f σ → snapsat σ f →
    tinv c t (exec cb c) [] (startfam c f lv) σ ∧ oncmd c t (startfam c f lv) ∧ snapsat σ (startfam c f lv).
  Proof using WF.
    intros Ht Hlg Hu Hmin HB HS. assert (2 ≤ mnof f)%nat as Hmn by (unfold mnof; lia). assert (fm_min f = Z.of_nat (mnof f)) as Hz by (unfold mnof; lia).
    destruct c as [max a|l a|t' c|t' ap|t' full|t'|t' n|t'|t'|t'|t'|t'|t'|t'|t'|lo hi| |n]; try done; injection Ht as ->; cbn [startfam].
    - destruct Hlg as (_ & Hk & Hv). split_and!; [|by split; [|exists lv]|done]. eapply ready_tinv.
      + eapply (start_MapCall cb dom domV WF t f lv); [done..|]. destruct c; by repeat constructor.
      + apply lc_bind; [apply lc_bt_call|intros ?; apply lc_ret].
    - split_and!; [|by split; [|exists lv]|done]. eapply ready_tinv.
      + by eapply (start_Flush cb dom domV WF t f lv).
      + apply lc_bind; [apply lc_bt_Flush|intros ?; apply lc_ret].
    - split_and!; [|by split; [|exists lv]|done]. eapply ready_tinv.
      + by eapply (start_Purge cb dom domV WF t f lv).
      + apply lc_bind; [apply lc_bt_Purge|intros ?; apply lc_ret].
    - split_and!; [|by split; [|exists lv]|done]. eapply ready_tinv.
      + by eapply (start_Touch cb dom domV WF t f lv).
      + apply lc_bind; [apply lc_bt_Touch|intros ?; apply lc_ret].
    - destruct Hlg as [_ H0]. split_and!; [|by split; [|exists lv]|done]. eapply ready_tinv.
      + by eapply (start_TouchItem cb dom domV WF t f lv).
      + apply lc_bind; [apply lc_bt_TouchItem|intros ?; apply lc_ret].
    - destruct (start_Prune cb dom domV WF t f lv σ Hu Hmn HB) as (σp & σk & -> & Hd & Hsk & H1 & H2).
      split_and!; [|by split; [|exists lv]|].
      + exists σp, σk, true, (λ _, True). split_and!; try done; [|by right]. apply lc_bind; [by apply lc_pruneAll|intros ?; apply lc_ret].
      + eapply snaps_le; [exact Hsk|]. intros k b Hkb _. by apply lookup_union_Some_r.
    - pose proof (start_Discard cb dom domV WF t f lv σ Hu Hmn HB) as Hr. apply ready_ready2 in Hr as [H1 H2].
      split_and!; [|by split; [|exists lv]|done].
      exists σ, ∅, true, (λ _, True). split_and!; try done; [by rewrite right_id_L|apply map_disjoint_empty_r| |by right].
      apply lc_bind; [by apply lc_bt_Discard|intros ?; apply lc_ret].
    - split_and!; [|by split; [|exists lv]|done]. eapply ready_tinv.
      + by eapply (start_LayoutReport cb dom domV WF t f lv).
      + apply lc_bind; [apply lc_bt_FetchLayoutReport|intros ?; apply lc_ret].
    - split_and!; [|by split; [|exists lv]|done]. eapply ready_tinv.
      + by eapply (start_DimensionsReport cb dom domV WF t f lv).
      + apply lc_bind; [apply lc_bt_FetchDimensionsReport|intros ?; apply lc_ret].
    - split_and!; [|by split; [|exists lv]|done]. eapply ready_tinv.
      + by eapply (start_Validate cb dom domV WF t f lv).
      + apply lc_bind; [apply lc_bt_Validate|intros ?; apply lc_ret].
    - split_and!; [|by split; [|exists lv]|done]. eapply ready_tinv.
      + by eapply (start_Dump cb dom domV WF t f lv).
      + apply lc_bind; [apply lc_bt_Dump|intros ?; apply lc_ret].
  Qed.

  (** ** Nobody works on a tree that is not locked *)
  Lemma unlocked_free w ths ro P i f t lv : pok w ths ro P → w_fams w !! i = Some f → fm_live f = Some lv → lv_tree lv = t → ¬ locked ths t →
    ∀ j, ro j ≠ ROwn i.
  Proof.
    intros HP Hi Hl Ht Hn j Hr. destruct (owner_on _ _ _ _ _ _ _ _ _ _ HP Hr Hi) as (c & t' & p & cbs & Hj & Hlk & Hc & _).
    apply Hn. exists j, (Runs c t' p cbs). split; [done|]. split; [|done].
    destruct (oncmd_live _ _ _ Hc) as [[Hnl _]|(lv' & Hl' & Ht' & _)]; congruence.
  Qed.
  Lemma start_role w ths ro P j c : pok w ths ro P → ths !! j = Some (Waits c) → ro j = RNone ∧ P (PT j) = ∅.
  Proof.
    intros HP Hj. pose proof (po_th _ _ _ _ _ _ _ HP _ _ Hj) as Hx. destruct (ro j); try done.
  Qed.

  Lemma start_call w s ths ro P j c t : sok P s → wok w s → tok w s ths → pok w ths ro P → ths !! j = Some (Waits c) →
    treeof c = Some t → ¬ locked ths t → allowed dom domV w ths (LStart j c) →
    cinv (begin w c) (Config s (<[j := Runs c t (exec cb c) []]> ths)).
  Proof using WF.
    intros HS HW HT HP Hj Htr Hnl [Hlg Hal].
    assert (∀ k x, ths !! k = Some x → ¬ fetches t x) as Hnf by (destruct c; try done; by injection Htr as <-).
    assert (∃ f lv, usable w t f lv) as (f & lv & Hus) by (destruct c; try done; cbn in Hlg; injection Htr as <-; by destruct_and?).
    destruct (usable_at _ _ _ _ Hus) as (i & Hi & Hu). pose proof Hu as (Hl & Htl & Hb).
    pose proof (unlocked_free _ _ _ _ _ _ _ _ HP Hi Hl Htl Hnl) as Hfree.
    destruct (po_free _ _ _ _ _ _ _ HP _ _ Hi Hfree) as [HB Hh]. pose proof (po_snap _ _ _ _ _ _ _ HP _ _ Hi) as Hsn.
    destruct (call_start w c t f lv _ Htr Hlg Hu (wk_min _ _ HW _ _ Hi) HB Hsn) as (Hti & Hon & Hsn').
    assert (fam_of w t = Some (i, f)) as Hfo by (rewrite -Htl; by eapply wok_live).
    assert (begin w c = set_fam i (startfam c f lv) w) as ->.
    { destruct c; try done; cbn [startfam begin]; try (by rewrite (set_fam_same w i f)); injection Htr as ->; unfold upd; by rewrite Hfo Hl. }
    assert (fm_live (startfam c f lv) = Some lv ∧ fm_min (startfam c f lv) = fm_min f ∧ fm_rest (startfam c f lv) = fm_rest f) as (Hl1 & Hm1 & Hr1) by by destruct c.
    destruct (start_role _ _ _ _ _ _ HP Hj) as [Hr HPT].
    exists P, (<[j := ROwn i]> ro). split_and!; [done|..].
    - apply (wok_set w s i f); [done..|]. intros lv' Hl'. rewrite Hl1 in Hl'. injection Hl' as <-. cbn. split; [by eapply (wk_low _ _ HW)|].
      intros k g lv' Hk Hkg Hlv' He. apply Hk. by eapply (wk_uniq _ _ HW).
    - cbn. apply (tok_set w s _ i f); [|done|].
      + apply tok_more; [done|done| | |].
        * rewrite -Htl. by eapply (wk_low _ _ HW).
        * by destruct c.
        * right; right. split; [|done]. by destruct c.
      + intros lv' Hl'. rewrite Hl1 in Hl'. injection Hl' as <-. left. by exists lv.
    - cbn. eapply pok_at; [exact HP|by eexists|exact Hi|by right|done|done|apply HP|done|by left| |].
      + cbn [Joint.thinv]. split; [done|]. eexists. split; [cbn; apply list_lookup_insert; by eapply lookup_lt_Some|]. split_and!; try done.
        * rewrite Hr1. intros Hrl. specialize (Hh Hrl). rewrite Hl Htl in Hh. by apply Hh.
        * by destruct c.
        * intros t' -> lv' Hl'. cbn in Hl'. cbn. rewrite Hl in Hl'. by injection Hl' as <-.
        * intros n ->. done.
      + intros k x Hk Hkr Hkx. destruct (fetcher_on _ _ _ _ _ _ _ _ _ Hi Hkx) as (t' & p' & lv' & -> & Hu'). exfalso.
        apply (Hnf _ _ Hk). destruct Hu' as (Hl' & Ht' & _). cbn. congruence.
  Qed.

  (** the drainer *)
  Lemma start_drain w s ths ro P j n t : sok P s → wok w s → tok w s ths → pok w ths ro P → ths !! j = Some (Waits (DrainEvict n)) →
    tree_of s (DrainEvict (K:=K) (V:=V) n) = Some t → ¬ locked ths t → allowed dom domV w ths (LStart j (DrainEvict n)) →
    cinv w (Config s (<[j := Runs (DrainEvict n) t (exec cb (DrainEvict n)) []]> ths)).
  Proof using WF.
    intros HS HW HT HP Hj Htr Hnl [[Hch Hub] _]. cbn in Htr. destruct (nodes s !! n) as [r|] eqn:Hn; [|done]. injection Htr as Htr.
    destruct (start_role _ _ _ _ _ _ HP Hj) as [Hr HPT].
    destruct (so_find _ _ (KN n) (RN r) HS) as [a Ha]; [cbn; by rewrite Hn|].
    assert (∃ g : ctag, P a !! KT n = Some (RT g)) as [x Hx].
    { destruct (so_pair _ _ HS a n) as [_ [v Hv]]; [by eexists|]. pose proof (so_within _ _ a HS _ _ Hv) as Hw. cbn in Hw.
      destruct (cells s !! n) as [cl|]; [|done]. injection Hw as <-. eauto. }
    assert (tok w s (<[j := Runs (DrainEvict n) t (exec cb (DrainEvict n)) []]> ths)) as HT'.
    { apply tok_more; [done|done| |done|by eauto]. rewrite -Htr. by apply (so_low _ _ HS n). }
    destruct a as [|i|k].
    - (* garbage *)
      pose proof (po_trash _ _ _ _ _ _ _ HP _ _ Hx) as ->.
      exists P, (<[j := RSkip]> ro). split_and!; [done|done|done|]. eapply pok_self; [exact HP|by eexists|done| |done|done|done|apply HP|].
      + intros i. by rewrite Hr.
      + cbn [Joint.thinv]. rewrite HPT. split_and!.
        * intros m y. by rewrite lookup_empty.
        * eapply wpt_mono; [done| | |apply (start_skip cb (P PG) ∅ n noLRU r)]; rewrite ?left_id_L; try done. apply map_disjoint_empty_l.
        * apply lc_bind; [apply lc_drainerEvict|intros ?; apply lc_ret].
    - destruct (w_fams w !! i) as [f|] eqn:Hi; last first.
      { by rewrite (po_fam _ _ _ _ _ _ _ HP _ Hi) in Ha. }
      rewrite Forall_lookup in Hub. destruct (Hub _ _ Hi) as [Hnl1 Hbk].
      assert (∀ k, ro k ≠ ROwn i) as Hfree.
      { intros k Hk. destruct (owner_on _ _ _ _ _ _ _ _ _ _ HP Hk Hi) as (c & t' & p & cbs & Hk' & Hlk & Hc & Hth).
        destruct Hth as (_ & f0 & Hi0 & _ & _ & Hh & _). rewrite Hi in Hi0. injection Hi0 as <-.
        apply Hnl. exists k, (Runs c t' p cbs). split; [done|]. split; [|done]. rewrite -Htr. symmetry. by eapply (Hh Hnl1). }
      destruct (po_free _ _ _ _ _ _ _ HP _ _ Hi Hfree) as [HB Hh]. specialize (Hh Hnl1).
      destruct (fm_live f) as [lv|] eqn:Hl; last first.
      { exfalso. rewrite -Hh in Ha. rewrite (dpart_mem _ _ _ n (KN n) HS) in Ha; [done|by left]. }
      specialize (Hh (Hbk _ eq_refl)). pose proof (Hh _ _ Ha) as Hrt.
      assert (inuse t f lv) as Hu by (split_and!; [done|congruence|by apply Hbk]).
      pose proof (wk_min _ _ HW _ _ Hi) as Hmin. assert (2 ≤ mnof f)%nat as Hmn by (unfold mnof; lia).
      exists P, (<[j := ROwn i]> ro). split_and!; [done|done|done|]. rewrite -{1}(set_fam_same w i f Hi). cbn.
      eapply pok_at; [exact HP|by eexists|exact Hi|by right|done|done|apply HP|by eapply HP|by left| |].
      + cbn [Joint.thinv]. split; [done|]. exists f. split; [cbn; apply list_lookup_insert; by eapply lookup_lt_Some|]. split_and!; try done.
        * by exists lv.
        * eapply ready_tinv; [eapply (start_evict cb dom domV WF n t f lv); [done..|by exists x, r]|].
          apply lc_bind; [apply lc_drainerEvict|intros ?; apply lc_ret].
        * intros _. by rewrite -Htr Hrt.
        * intros m _. split; [apply (sd_DrainEvict cb)|].
          destruct (body_atloc cb dom domV t f lv _ Hu HB) as (rt & l & Hal & Hcl). by exists rt, l, lv.
      + intros k y Hk Hkr. by rewrite (set_fam_same w i f Hi).
    - (* a tree that is being made *)
      exfalso. destruct (ths !! k) as [y|] eqn:Hk; last first.
      { destruct (po_thr _ _ _ _ _ _ _ HP _ Hk) as [Hk' _]. by rewrite Hk' in Ha. }
      pose proof (po_th _ _ _ _ _ _ _ HP _ _ Hk) as Hy.
      assert (∃ c t' p cbs, y = Runs c t' p cbs ∧ locks c = true ∧ home t' (P (PT k))) as (c & t' & p & cbs & -> & Hlk & Hh).
      { assert (P (PT k) ≠ ∅) as Hne by (intros He; by rewrite He in Ha).
        destruct (ro k), y as [|c|c t' p cbs]; try done; cbn in Hy; try (by destruct Hy); destruct c; try done.
        - destruct Hy as (_ & _ & Hh & _). by eexists _, _, _, _.
        - destruct Hy as (Hh & _). by eexists _, _, _, _.
        - by destruct Hy as (_ & ? & _). }
      apply Hnl. exists k, (Runs c t' p cbs). split; [done|]. split; [|done]. rewrite -Htr. symmetry. by eapply Hh.
  Qed.

  (** FetchLocation *)
  Lemma start_fetch w s ths ro P j t : sok P s → wok w s → tok w s ths → pok w ths ro P → ths !! j = Some (Waits (FetchLocation t)) →
    allowed dom domV w ths (LStart j (FetchLocation t)) →
    cinv w (Config s (<[j := Runs (FetchLocation t) t (exec cb (FetchLocation t)) []]> ths)).
  Proof using WF.
    intros HS HW HT HP Hj [(f & lv & Hus) Hal]. destruct (usable_at _ _ _ _ Hus) as (i & Hi & Hu). pose proof Hu as (Hl & Htl & Hb).
    destruct (start_role _ _ _ _ _ _ HP Hj) as [Hr HPT].
    assert (∃ rt l, atloc (P (PF i)) t rt l ∧ condloc (lv_cond lv) l) as (rt & l & Ha & Hcl).
    { assert ((∀ k, ro k ≠ ROwn i) ∨ ∃ k, ro k = ROwn i) as [Hfree|[k Hk]].
      { destruct (decide (Exists (λ k, ro k = ROwn i) (seq 0 (length ths)))) as [He|He].
        - right. apply Exists_exists in He as (k & _ & Hk). eauto.
        - left. intros k Hk. apply He, Exists_exists. exists k. split; [|done]. apply elem_of_seq.
          destruct (ths !! k) as [y|] eqn:Hky; [apply lookup_lt_Some in Hky; lia|]. destruct (po_thr _ _ _ _ _ _ _ HP _ Hky) as [_ ?]. congruence. }
      - destruct (po_free _ _ _ _ _ _ _ HP _ _ Hi Hfree) as [HB _]. by eapply body_atloc.
      - destruct (owner_on _ _ _ _ _ _ _ _ _ _ HP Hk Hi) as (c & t' & p & cbs & Hk' & Hlk & Hc & Hth).
        assert (t' = t) as ->. { destruct (oncmd_live _ _ _ Hc) as [[Hnl _]|(lv' & Hl' & Ht' & _)]; congruence. }
        destruct (Hal _ _ Hk' eq_refl) as [Hf|Hd]; [by destruct c|]. destruct c; try done.
        destruct Hth as (_ & f0 & Hi0 & _ & _ & _ & _ & _ & Hdr). destruct (Hdr _ eq_refl) as (_ & rt & l & lv' & Hu' & Ha & Hcl).
        rewrite Hi in Hi0. injection Hi0 as <-. exists rt, l. split; [done|]. destruct Hu' as (Hl' & _). rewrite Hl in Hl'. by injection Hl' as <-. }
    exists P, (<[j := RFetch i]> ro). split_and!; [done|done| |].
    - apply tok_more; [done|done| |done|by left]. cbn. rewrite -Htl. by eapply (wk_low _ _ HW).
    - eapply pok_self; [exact HP|by eexists|done| |done|done|done|apply HP|].
      + intros k. by rewrite Hr.
      + cbn [Joint.thinv]. split_and!; [done|done|done|]. exists f, lv, rt, l. split_and!; try done. apply pk_FetchLocation.
  Qed.
End start.

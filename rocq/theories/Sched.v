(** * One step of one thread keeps the invariant

    Models no code. *)
From Coq Require Import ssreflect.
From stdpp Require Import prelude functions list gmap.
From iris.proofmode Require Import proofmode.
From Verif Require Import Spec SpecFacts BTree HProp Lru Wp Kv Codec Ghost Order PsTree Rep Load Search Update Plug Insert Borrow Merge Rebal Api Walk Touch Maint Report Open Pres Local Machine Client World Disk Hist Threads Wpt Calls Steady Parts Conc Joint.
Open Scope Z_scope.

Section sched.
  Context {K V : Type}.
  Variable cb : callbacks K V.
  Variable dom : K → Prop.
  Variable domV : V → Prop.
  Hypothesis WF : wf_cb cb dom domV.
  Notation cmp := (cb_cmp cb).
  Notation hProp := (hProp K V).
  Notation heap := (gmap rkey (rval K V)).
  Notation st := (st K V).
  Notation M := (M K V).
  Notation cmd := (cmd K V).
  Notation result := (result K V).
  Notation family := (family K V).
  Notation world := (world K V).
  Notation live := (live K V).
  Notation thread := (thread K V).
  Notation stored_at := (stored_at cb dom domV).
  Notation snapsat := (snapsat cb dom domV).
  Notation body := (body cb dom domV).
  Notation donepost := (donepost cb dom domV).
  Notation failpost := (failpost cb dom domV).
  Notation doneon := (doneon cb dom domV).
  Notation failon := (failon cb dom domV).
  Notation tinv := (tinv cb dom domV).
  Notation thinv := (thinv cb dom domV).
  Notation pok := (pok cb dom domV).
  Notation cinv := (cinv cb dom domV).
  Implicit Types (σ τ : heap) (f : family) (w : world) (s : st) (lv : live) (X : loc → Prop) (P : part → heap) (ths : list thread) (ro : nat → role) (x : thread).

  (** ** Which family *)
  Lemma snap_home P w s ths ro i f l : sok P s → pok w ths ro P → w_fams w !! i = Some f → has_snap l f → ∃ b, P (PF i) !! KD l = Some (RD b).
  Proof. intros HS HP Hi [its Hl]. eapply (stored_in cb dom domV). by eapply (po_snap _ _ _ _ _ _ _ HP). Qed.
  Lemma snap_at P w s ths ro i f l : sok P s → pok w ths ro P → w_fams w !! i = Some f → has_snap l f → fam_at w l = Some (i, f).
  Proof.
    intros HS HP Hi Hl. apply list_find_Some. split_and!; [done|done|]. intros j g Hj Hlt Hg.
    destruct (snap_home _ _ _ _ _ _ _ _ HS HP Hi Hl) as [b Hb]. destruct (snap_home _ _ _ _ _ _ _ _ HS HP Hj Hg) as [b' Hb'].
    pose proof (so_one _ _ _ _ _ _ _ HS Hb Hb') as [= ->]. lia.
  Qed.
  Lemma is_owned P w s ths ro i f c t : sok P s → wok w s → pok w ths ro P → w_fams w !! i = Some f → oncmd c t f → owned w c t i f.
  Proof.
    intros HS HW HP Hi Hc. split_and!; [done|done| |].
    - intros lv Hl. by eapply wok_live.
    - intros l Hl. by eapply snap_at.
  Qed.
  (** who works on a family has its tree *)
  Lemma owner_on w ths ro P j i f : pok w ths ro P → ro j = ROwn i → w_fams w !! i = Some f →
    ∃ c t p cbs, ths !! j = Some (Runs c t p cbs) ∧ locks c = true ∧ oncmd c t f ∧ thinv w P j (Runs c t p cbs) (ROwn i).
  Proof.
    intros HP Hr Hi. destruct (ths !! j) as [x|] eqn:Hj; last first.
    { destruct (po_thr _ _ _ _ _ _ _ HP _ Hj) as [_ ?]. congruence. }
    pose proof (po_th _ _ _ _ _ _ _ HP _ _ Hj) as Hx. rewrite Hr in Hx. destruct x as [|c|c t p cbs]; try done.
    exists c, t, p, cbs. pose proof Hx as (_ & f' & Hi' & Hc & _). rewrite Hi in Hi'. injection Hi' as <-.
    split_and!; [done|by eapply oncmd_locks|done|done].
  Qed.
  Lemma fetcher_on w P k i x f : w_fams w !! i = Some f → thinv w P k x (RFetch i) →
    ∃ t p lv, x = Runs (FetchLocation t) t p [] ∧ inuse t f lv.
  Proof.
    intros Hi Hx. destruct x as [|c|c t p cbs]; try done. destruct c; try done. destruct Hx as (-> & _ & -> & f' & lv & rt & l & Hi' & Hu & _).
    rewrite Hi in Hi'. injection Hi' as <-. by exists t, p, lv.
  Qed.
  (** whoever fetches the location of a tree shares it with the drainer only *)
  Lemma fetcher_drains w s ths ro P j k i c t p cbs : tok w s ths → pok w ths ro P → ro j = ROwn i → ths !! j = Some (Runs c t p cbs) →
    ro k = RFetch i → is_Some (ths !! k) → ∃ n, c = DrainEvict n.
  Proof.
    intros HT HP Hj Hjx Hk [y Hy]. pose proof (po_th _ _ _ _ _ _ _ HP _ _ Hy) as Hyi. rewrite Hk in Hyi.
    pose proof (po_th _ _ _ _ _ _ _ HP _ _ Hjx) as Hxi. rewrite Hj in Hxi. destruct Hxi as (_ & f & Hi & Hc & _).
    destruct (fetcher_on _ _ _ _ _ _ Hi Hyi) as (t' & p' & lv & -> & Hu).
    assert (t = t') as ->. { destruct (oncmd_live _ _ _ Hc) as [[Hn _]|(lv' & Hl' & Ht' & _)]; destruct Hu as (Hl & Ht & _); congruence. }
    destruct (th_fetch _ _ _ HT k j _ _ t' Hy eq_refl Hjx eq_refl) as [Hf|Hd].
    - apply oncmd_locks in Hc. by destruct c.
    - destruct c; try done. eauto.
  Qed.

  (** ** The location of a root *)
  Lemma atloc_move P s i t0 X io s' τ t rt l : sok P s → moved P s (PF i) t0 X io s' τ → steady s s' → atloc (P (PF i)) t rt l → atloc τ t rt l.
  Proof.
    intros HS HM Hst (T & r & HT & Hrt & HN & Hl). pose proof (mv_ok _ _ _ _ _ _ _ _ HM) as HS'.
    assert (∀ k v v', P (PF i) !! k = Some v → viewf s' k = Some v' → τ !! k = Some v') as Hk.
    { intros k v v' Hk Hv'. destruct (so_find _ _ _ _ HS' Hv') as [b Hb]. destruct (decide (b = PF i)) as [->|Hne]; [by rewrite fn_lookup_insert in Hb|].
      rewrite fn_lookup_insert_ne // in Hb. destruct Hne. by apply (so_one P s b (PF i) k v' v). }
    pose proof (so_within _ _ (PF i) HS _ _ HT) as HvT. cbn in HvT. destruct (trees s !! t) as [T'|] eqn:ET; [|done]. injection HvT as ->.
    pose proof (so_within _ _ (PF i) HS _ _ HN) as HvN. cbn in HvN. destruct (nodes s !! rt) as [r'|] eqn:EN; [|done]. injection HvN as ->.
    destruct (y_loc _ _ Hst _ _ EN) as (r2 & EN2 & Hl2). exists T, r2. split_and!; [|done| |congruence].
    - eapply Hk; [exact HT|]. cbn. by rewrite (y_trees _ _ Hst) ET.
    - eapply Hk; [exact HN|]. cbn. by rewrite EN2.
  Qed.
  Lemma atloc_root P s i t rt l : sok P s → atloc (P (PF i)) t rt l → rootat t rt l s.
  Proof.
    intros HS (T & r & HT & Hrt & HN & Hl). exists T, r.
    pose proof (so_within _ _ (PF i) HS _ _ HT) as HvT. cbn in HvT. destruct (trees s !! t) as [T'|] eqn:ET; [|done]. injection HvT as ->.
    pose proof (so_within _ _ (PF i) HS _ _ HN) as HvN. cbn in HvN. destruct (nodes s !! rt) as [r'|] eqn:EN; [|done]. by injection HvN as ->.
  Qed.

  (** ** The stored versions *)
  Lemma dle_none X σ σ' : (∀ l, ¬ X l) → dle X σ σ' → dle (λ _, False) σ σ'.
  Proof. intros HX H k b Hk _. by apply H. Qed.
  Lemma snaps_step X σ σp σk f : snapsat σ f → dle X σ (σp ∪ σk) → σp ##ₘ σk → (∀ l, ¬ X l) ∨ snapsat σk f → snapsat (σp ∪ σk) f.
  Proof.
    intros HS Hle Hd [HX|Hk].
    - eapply snaps_le; [exact HS|]. by eapply dle_none.
    - eapply snaps_le; [exact Hk|]. intros k b Hkb _. by apply lookup_union_Some_r.
  Qed.

  (** ** A call is over: what is left in memory of a closed tree is garbage *)
  Lemma dpart_mem P s i n k : sok P s → (k = KN n ∨ k = KT n) → dpart (P (PF i)) !! k = None.
  Proof.
    intros HS Hk. destruct (dpart (P (PF i)) !! k) as [v|] eqn:E; [|done]. apply dpart_look in E as [E Hr]. destruct v; try done.
    destruct (within_RD _ _ _ _ (so_within _ _ (PF i) HS) E) as (l & -> & _). by destruct Hk.
  Qed.
  Lemma finish P s i f' t : sok P s → notags (P PG) → snapsat (P (PF i)) f' → body f' (P (PF i)) →
    (∀ lv, fm_live f' = Some lv → lv_tree lv = t) → (fm_rest f' ≠ Lost → home t (P (PF i))) →
    ∃ P', sok P' s ∧ (∀ b, b ≠ PF i → b ≠ PG → P' b = P b) ∧ P PG ⊆ P' PG ∧ notags (P' PG) ∧ snapsat (P' (PF i)) f' ∧
      body f' (P' (PF i)) ∧ famhome f' (P' (PF i)) ∧ (is_Some (fm_live f') → P' = P).
  Proof.
    intros HS Hng Hsn HB Ht Hh. destruct (fm_live f') as [lv|] eqn:Hl.
    { exists P. split_and!; try done. intros Hr. rewrite Hl. intros _. rewrite (Ht lv eq_refl). by apply Hh. }
    assert (fm_rest f' = Lost ∨ fm_rest f' ≠ Lost) as [Hr|Hr] by (destruct (fm_rest f'); auto).
    { exists P. split_and!; try done. by intros Hr'. }
    set (τ1 := dpart (P (PF i))). set (τ2 := P (PF i) ∖ τ1).
    assert (τ1 ⊆ P (PF i)) as Hsub by apply dpart_sub.
    assert (P (PF i) = τ1 ∪ τ2) as He by (unfold τ2; by rewrite map_difference_union).
    assert (τ1 ##ₘ τ2) as Hd by (by apply map_disjoint_difference_r).
    assert (PF i ≠ PG) as Hne by done.
    assert (∀ n k, k = KN n ∨ k = KT n → τ2 !! k = P (PF i) !! k) as Ht2.
    { intros n k Hk. rewrite He. rewrite lookup_union_r //. by eapply dpart_mem. }
    set (P' := <[PF i := τ1]> (<[PG := P PG ∪ τ2]> P)). exists P'.
    assert (P' (PF i) = τ1) as -> by apply fn_lookup_insert.
    assert (P' PG = P PG ∪ τ2) as -> by (unfold P'; rewrite fn_lookup_insert_ne //; apply fn_lookup_insert).
    assert (notags (P (PF i))) as Hjk.
    { unfold World.body in HB. rewrite Hl in HB. unfold junk in HB. destruct (fm_rest f'); [|done..].
      revert HB. apply entails_holds, emp_notags. }
    assert (P PG ##ₘ τ2) as HdG.
    { eapply map_disjoint_weaken_r; [by apply (so_disj _ _ PG (PF i) HS)|]. rewrite He. by apply map_union_subseteq_r. }
    split_and!.
    - apply sok_move; [done|done|done|done| |].
      + intros n. unfold τ1. rewrite (dpart_mem P s i n (KT n) HS (or_intror eq_refl)) (dpart_mem P s i n (KN n) HS (or_introl eq_refl)). split; intros [? [=]].
      + intros n. rewrite (Ht2 n (KT n) (or_intror eq_refl)) (Ht2 n (KN n) (or_introl eq_refl)). apply (so_pair _ _ HS).
    - intros b Hb HbG. unfold P'. rewrite fn_lookup_insert_ne // fn_lookup_insert_ne //.
    - by apply map_union_subseteq_l.
    - intros n y Hn. apply lookup_union_Some in Hn as [Hn|Hn]; [by eapply Hng| |done].
      rewrite (Ht2 n) in Hn; [|by right]. by eapply Hjk.
    - eapply snaps_le; [exact Hsn|]. apply dle_dpart.
    - unfold World.body in *. rewrite Hl. rewrite Hl in HB. unfold junk in *. destruct (fm_rest f'); [|apply dpart_notags|done].
      by apply do_emp.
    - intros _. rewrite Hl. unfold τ1, dpart. apply map_eq. intros k. apply option_eq. intros v. rewrite !map_filter_lookup_Some. naive_solver.
    - by intros [? [=]].
  Qed.

  (** ** A call on a family goes on *)
  Lemma fetch_moves P s w w' i k x t0 X io s' τ P' f : sok P s → w_fams w !! i = Some f → w_fams w' !! i = Some f → moved P s (PF i) t0 X io s' τ → steady s s' →
    P' (PF i) = τ → P' (PT k) = P (PT k) → thinv w P k x (RFetch i) → thinv w' P' k x (RFetch i).
  Proof.
    intros HS Hw Hw' HM Hst Hτ HT. destruct x as [|c|c t p cbs]; try done. destruct c; try done.
    intros (-> & H1 & -> & f0 & lv & rt & l & Hi & Hu & Hc & Ha & Hp). rewrite Hw in Hi. injection Hi as <-.
    split_and!; [done|by rewrite HT|done|]. exists f, lv, rt, l. split_and!; try done.
    rewrite Hτ. by eapply atloc_move.
  Qed.
  Lemma own_more w s ths ro P j i c t p cbs p' s' : sok P s → wok w s → tok w s ths → pok w ths ro P →
    ths !! j = Some (Runs c t p cbs) → ro j = ROwn i → sstep p s = SMore p' s' →
    cinv w (Config s' (<[j := Runs c t p' (cbs ++ made s s')]> ths)).
  Proof.
    intros HS HW HT HP Hj Hr Hst. pose proof (po_th _ _ _ _ _ _ _ HP _ _ Hj) as Hx. rewrite Hr in Hx.
    destruct Hx as (HPT & f & Hi & Hc & (σp & σk & io & X & Hσ & Hd & Hio & Hw & Hl & HX) & Hh & Hy & Hpr & Hdr).
    pose proof (part_step P s (PF i) ∅ io p cbs _ _ σp σk X t HS Hσ Hd (map_empty_subseteq _) ltac:(done) Hw Hl (th_low _ _ _ HT _ _ _ _ _ Hj)) as Hps.
    pose proof (yields_sstep p (λ r, r = RTree t) s) as Hys. pose proof (steadys_sstep p s) as Hss.
    rewrite Hst in Hps, Hys, Hss. destruct Hps as (σp' & Hd' & HM & Hw' & Hl').
    pose proof (snaps_step _ _ _ _ _ (po_snap _ _ _ _ _ _ _ HP _ _ Hi) (mv_dle _ _ _ _ _ _ _ _ HM) Hd' HX) as Hsn.
    pose proof (mv_local _ _ _ _ _ _ _ _ HM) as HL.
    exists (<[PF i := σp' ∪ σk]> P), (<[j := ROwn i]> ro). split_and!.
    - apply HM.
    - by eapply wok_local.
    - apply (tok_same _ _ _ _ _ _ p cbs); [|done]. eapply tok_mono; [exact HT|by apply HL].
    - rewrite -{1}(set_fam_same w i f Hi). eapply pok_at; [exact HP|by eexists|exact Hi|by left| | | | |by left| |].
      + intros b Hb _. by rewrite fn_lookup_insert_ne.
      + by rewrite fn_lookup_insert_ne.
      + rewrite fn_lookup_insert_ne //. apply HP.
      + by rewrite fn_lookup_insert.
      + cbn [Joint.thinv]. rewrite fn_lookup_insert fn_lookup_insert_ne //. split; [done|]. exists f. split_and!; try done.
        * cbn. apply list_lookup_insert. by eapply lookup_lt_Some.
        * exists σp', σk, io, X. done.
        * intros Hrl. apply HM. by apply Hh.
        * intros Hm. by apply Hys, Hy.
        * intros n Hn. destruct (Hdr n Hn) as (Hsd & rt & l & lv & Hu & Ha & Hcl). destruct (Hss Hsd) as [Hs1 Hs2]. cbn in Hs1. split; [done|].
          exists rt, l, lv. split_and!; [done| |done]. by eapply atloc_move.
      + intros k x Hk Hkr Hkx. destruct (fetcher_drains _ _ _ _ _ _ _ _ _ _ _ _ HT HP Hr Hj Hkr) as [n Hn]; [by eexists|].
        destruct (Hdr n Hn) as (Hsd & _). destruct (Hss Hsd) as [Hs1 _]. cbn in Hs1.
        eapply (fetch_moves P s w _ i k x t X io s' _ _ f); [done|done| |done|done|by rewrite fn_lookup_insert|by rewrite fn_lookup_insert_ne|done].
        cbn. apply list_lookup_insert. by eapply lookup_lt_Some.
  Qed.
  (** the end of a call *)
  Lemma own_end w s ths ro P j i c t p cbs f f' X io s' τ : sok P s → wok w s → tok w s ths → pok w ths ro P →
    ths !! j = Some (Runs c t p cbs) → ro j = ROwn i → w_fams w !! i = Some f → oncmd c t f → (fm_rest f ≠ Lost → home t (P (PF i))) →
    moved P s (PF i) t X io s' τ → snapsat τ f → fm_min f' = fm_min f → body f' τ → becomes t f f' →
    (∀ n, c = DrainEvict n → f' = f ∧ steady s s') → cinv (set_fam i f' w) (Config s' (<[j := Idle]> ths)).
  Proof.
    intros HS HW HT HP Hj Hr Hi Hc Hh HM Hsn Hmin HB Hbe Hdr. pose proof (mv_local _ _ _ _ _ _ _ _ HM) as HL.
    pose proof (po_th _ _ _ _ _ _ _ HP _ _ Hj) as Hx. rewrite Hr in Hx. destruct Hx as (HPT & _).
    assert (mnof f' = mnof f) as Hmn by (unfold mnof; by rewrite Hmin).
    pose proof (becomes_snaps _ _ _ _ _ _ _ Hbe Hsn Hmn HB) as Hsn'.
    destruct (finish (<[PF i := τ]> P) s' i f' t) as (P' & HS' & HPb & HPG & Hng & Hs2 & HB2 & Hh2 & Hsame).
    { apply HM. }
    { rewrite fn_lookup_insert_ne //. apply HP. }
    { by rewrite fn_lookup_insert. }
    { by rewrite fn_lookup_insert. }
    { apply Hbe. }
    { intros Hrl. rewrite fn_lookup_insert. apply HM, Hh. intros Hrf. by apply Hrl, (be_rest _ _ _ Hbe). }
    rewrite fn_lookup_insert_ne // in HPG.
    assert (∀ b, b ≠ PF i → b ≠ PG → P' b = P b) as HPb'. { intros b H1 H2. rewrite HPb // fn_lookup_insert_ne //. }
    pose proof (th_low _ _ _ HT _ _ _ _ _ Hj) as Hlow. pose proof (l_fresh _ _ _ _ HL) as Hfr.
    assert (wok w s') as HW' by by eapply wok_local.
    exists P', (<[j := RNone]> ro). split_and!.
    - exact HS'.
    - apply (wok_set w s' i f); [done..|]. intros lv' Hl'. rewrite (be_live _ _ _ Hbe _ Hl'). cbn. split; [lia|].
      intros k g lv Hk Hkg Hlv He. destruct (oncmd_live _ _ _ Hc) as [[_ (l & a & -> & _)]|(lv0 & Hl0 & Ht0 & _)].
      + by eapply (th_new _ _ _ HT _ _ _ _ _ _ _ _ Hj eq_refl Hkg Hlv).
      + apply Hk. eapply (wk_uniq _ _ HW); [done|exact Hi|done|done|congruence].
    - cbn. apply (tok_set w s' _ i f); [|done|].
      + apply tok_less; [|by intros ? []]. eapply tok_mono; [exact HT|done].
      + intros lv' Hl'. rewrite (be_live _ _ _ Hbe _ Hl'). destruct (oncmd_live _ _ _ Hc) as [[_ (l & a & -> & _)]|(lv0 & Hl0 & Ht0 & _)].
        * right. intros k c0 t0 p0 cbs0 Hk Hm <-. assert (k ≠ j) as Hkj.
          { intros ->. rewrite list_lookup_insert in Hk; [done|by eapply lookup_lt_Some]. }
          rewrite list_lookup_insert_ne // in Hk. apply Hkj. eapply (th_lock _ _ _ HT); [exact Hk|exact Hj| |done]. by destruct c0.
        * left. by exists lv0.
    - cbn. eapply pok_at; [exact HP|by eexists|exact Hi|by left|exact HPb'|exact HPG|exact Hng|exact Hs2|by right| |].
      + cbn. by rewrite HPb'.
      + intros k x Hk Hkr Hkx. destruct (fetcher_drains _ _ _ _ _ _ _ _ _ _ _ _ HT HP Hr Hj Hkr) as [n Hn]; [by eexists|].
        destruct (Hdr n Hn) as [-> Hst]. destruct (fetcher_on _ _ _ _ _ _ Hi Hkx) as (t' & p' & lv & -> & Hu).
        eapply (fetch_moves P s w _ i k _ t X io s' τ _ f); [done|done| |done|done| |by rewrite HPb'|done].
        * cbn. apply list_lookup_insert. by eapply lookup_lt_Some.
        * rewrite Hsame; [by rewrite fn_lookup_insert|]. destruct Hu as (-> & _). by eexists.
  Qed.
  Lemma own_done w s ths ro P j i c t p cbs r s' : sok P s → wok w s → tok w s ths → pok w ths ro P →
    ths !! j = Some (Runs c t p cbs) → ro j = ROwn i → sstep p s = SRet r s' →
    right_result cmp w c r (cbs ++ made s s') ∧ cinv (next_done cmp w c r (cbs ++ made s s')) (Config s' (<[j := Idle]> ths)).
  Proof using WF.
    intros HS HW HT HP Hj Hr Hst. pose proof (po_th _ _ _ _ _ _ _ HP _ _ Hj) as Hx. rewrite Hr in Hx.
    destruct Hx as (HPT & f & Hi & Hc & (σp & σk & io & X & Hσ & Hd & Hio & Hw & Hl & HX) & Hh & Hy & Hpr & Hdr).
    pose proof (part_step P s (PF i) ∅ io p cbs _ _ σp σk X t HS Hσ Hd (map_empty_subseteq _) ltac:(done) Hw Hl (th_low _ _ _ HT _ _ _ _ _ Hj)) as Hps.
    pose proof (yields_sstep p (λ r, r = RTree t) s) as Hys. pose proof (steadys_sstep p s) as Hss.
    rewrite Hst in Hps, Hys, Hss. destruct Hps as (σp' & Hd' & HM & Hq).
    pose proof (snaps_step _ _ _ _ _ (po_snap _ _ _ _ _ _ _ HP _ _ Hi) (mv_dle _ _ _ _ _ _ _ _ HM) Hd' HX) as Hsn.
    destruct (Hq Hd') as (Hright & f' & Hf' & Hmin & HB). specialize (Hright Hsn).
    pose proof (is_owned _ _ _ _ _ _ _ _ _ HS HW HP Hi Hc) as Ho.
    assert (becomes t f f') as Hbe.
    { eapply (done_becomes cb); [exact Hc| |exact Hf']. intros Hm t' ->. specialize (Hys (Hy Hm)). congruence. }
    assert (mnof f' = mnof f) as Hmn by (unfold mnof; by rewrite Hmin).
    pose proof (becomes_snaps _ _ _ _ _ _ _ Hbe Hsn Hmn HB) as Hsn'.
    split.
    - eapply (lift_result cb w c t i f); [exact Ho|exact Hright| |].
      + intros t' Hm ->. specialize (Hys (Hy Hm)). injection Hys as ->. apply list_find_None, Forall_forall. intros g Hg Htg.
        apply elem_of_list_lookup in Hg as [k Hk]. unfold has_tree in Htg. destruct (fm_live g) as [lv|] eqn:Hlv; [|done].
        by apply (th_new _ _ _ HT _ _ _ _ _ _ _ _ Hj Hm Hk Hlv).
      + intros t' ap l -> -> k g m Hk Hg. destruct Hc as (-> & lv & Hu). cbn [next_done] in Hf'. rewrite (inuse_upd _ _ _ _ Hu) in Hf'.
        injection Hf' as <-. destruct (stored_in cb dom domV _ _ _ _ (Hsn' l (lv_items lv) (lookup_insert _ _ _))) as [b Hb].
        destruct (snap_home _ _ _ _ _ _ _ l HS HP Hk) as [b' Hb']; [by eexists|]. destruct (decide (k = i)) as [|Hne]; [done|].
        pose proof (so_one _ _ (PF k) (PF i) (KD l) (RD b') (RD b) (mv_ok _ _ _ _ _ _ _ _ HM)) as H1.
        rewrite fn_lookup_insert fn_lookup_insert_ne in H1; [|congruence]. by specialize (H1 Hb' Hb) as [= ->].
    - rewrite (lift_done cb w c t i f _ _ f' Ho Hf'). eapply (own_end w s ths ro P j i c t p cbs f f'); try done.
      intros n Hn. destruct (Hdr n Hn) as [Hsd _]. destruct (Hss Hsd) as [Hs1 _]. split; [|done]. subst c. by injection Hf' as ->.
  Qed.
  Lemma own_failed w s ths ro P j i c t p cbs e s' : sok P s → wok w s → tok w s ths → pok w ths ro P →
    ths !! j = Some (Runs c t p cbs) → ro j = ROwn i → sstep p s = SErr e s' →
    right_error w c e (cbs ++ made s s') ∧ cinv (next_failed w c) (Config s' (<[j := Idle]> ths)).
  Proof using WF.
    intros HS HW HT HP Hj Hr Hst. pose proof (po_th _ _ _ _ _ _ _ HP _ _ Hj) as Hx. rewrite Hr in Hx.
    destruct Hx as (HPT & f & Hi & Hc & (σp & σk & io & X & Hσ & Hd & Hio & Hw & Hl & HX) & Hh & Hy & Hpr & Hdr).
    pose proof (part_step P s (PF i) ∅ io p cbs _ _ σp σk X t HS Hσ Hd (map_empty_subseteq _) ltac:(done) Hw Hl (th_low _ _ _ HT _ _ _ _ _ Hj)) as Hps.
    rewrite Hst in Hps. destruct Hps as (σp' & Hd' & HM & Hq).
    pose proof (snaps_step _ _ _ _ _ (po_snap _ _ _ _ _ _ _ HP _ _ Hi) (mv_dle _ _ _ _ _ _ _ _ HM) Hd' HX) as Hsn.
    destruct (Hq Hd') as (Hright & f' & Hf' & Hmin & HB).
    pose proof (is_owned _ _ _ _ _ _ _ _ _ HS HW HP Hi Hc) as Ho. split; [by eapply lift_error|].
    rewrite (lift_failed w c t i f f' Ho Hf'). eapply (own_end w s ths ro P j i c t p cbs f f'); try done.
    - by eapply failed_becomes.
    - intros n ->. by cbn in Hright.
  Qed.
End sched.

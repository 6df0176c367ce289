(** * The other moves of a program with threads: trees that are made, nodes that
    are skipped, FetchLocation, calls of one step, and the end of the process

    Models no code. *)
From Coq Require Import ssreflect.
From stdpp Require Import prelude functions list gmap.
From iris.proofmode Require Import proofmode.
From Verif Require Import Spec SpecFacts BTree HProp Lru Wp Kv Codec Ghost Order PsTree Rep Load Search Update Plug Insert Borrow Merge Rebal Api Walk Touch Maint Report Open Pres Local Machine Client World Disk Hist Threads Wpt Calls Steady Parts Conc Joint Sched Start.
Open Scope Z_scope.

Section moves.
  Context {K V : Type}.
  Variable cb : callbacks K V.
  Variable dom : K → Prop.
  Variable domV : V → Prop.
  Hypothesis WF : wf_cb cb dom domV.
  Notation cmp := (cb_cmp cb).
  Notation hProp := (hProp K V).
  Notation heap := (gmap rkey (rval K V)).
  Notation st := (st K V).
  Notation M := (M K V).
  Notation cmd := (cmd K V).
  Notation result := (result K V).
  Notation family := (family K V).
  Notation world := (world K V).
  Notation live := (live K V).
  Notation thread := (thread K V).
  Notation stored_at := (stored_at cb dom domV).
  Notation snapsat := (snapsat cb dom domV).
  Notation body := (body cb dom domV).
  Notation doneon := (doneon cb dom domV).
  Notation failon := (failon cb dom domV).
  Notation ready := (ready cb dom domV).
  Notation tinv := (tinv cb dom domV).
  Notation thinv := (thinv cb dom domV).
  Notation pok := (pok cb dom domV).
  Notation cinv := (cinv cb dom domV).
  Implicit Types (σ τ : heap) (f : family) (w : world) (s : st) (lv : live) (X : loc → Prop) (P : part → heap) (ths : list thread) (ro : nat → role) (x : thread).

  (** ** A tree is made *)
  Lemma fresh_live w s i f lv : wok w s → w_fams w !! i = Some f → fm_live f = Some lv → lv_tree lv ≠ fresh s.
  Proof. intros HW Hi Hl He. pose proof (wk_low _ _ HW _ _ _ Hi Hl). rewrite He in H. lia. Qed.
  Lemma fresh_on w s ths k x : tok w s ths → ths !! k = Some x → ¬ on (fresh s) x.
  Proof. intros HT Hk Hx. destruct x as [| |c t p cbs]; try done. cbn in Hx. subst t. pose proof (th_low _ _ _ HT _ _ _ _ _ Hk). lia. Qed.
  Lemma fresh_locked w s ths : tok w s ths → ¬ locked ths (fresh s).
  Proof. intros HT (k & x & Hk & Hx). apply (fresh_on _ _ _ _ _ HT Hk). destruct x; try done. by destruct Hx. Qed.
  Lemma fresh_fetch w s ths k x : tok w s ths → ths !! k = Some x → ¬ fetches (fresh s) x.
  Proof.
    intros HT Hk Hx. apply (fresh_on _ _ _ _ _ HT Hk). destruct x as [| |c t p cbs]; try done. destruct c; try done. cbn in Hx.
    cbn. rewrite -Hx. symmetry. by eapply (th_same _ _ _ HT).
  Qed.
  Lemma tok_make w s s' ths j c p cbs : wok w s → tok w s ths → makes c = true → fresh s' = Pos.succ (fresh s) →
    tok w s' (<[j := Runs c (fresh s) p cbs]> ths).
  Proof.
    intros HW HT Hm Hf. apply tok_more.
    - eapply tok_mono; [exact HT|lia].
    - intros _. by eapply fresh_locked.
    - lia.
    - intros _ i f lv Hi Hl. by eapply fresh_live.
    - right; right. split; [by destruct c|]. intros k y Hk. by eapply fresh_fetch.
  Qed.
  Lemma home_dpart P s i t : sok P s → dpart (P (PF i)) = P (PF i) → home t (P (PF i)).
  Proof. intros HS He n r Hn. rewrite -He in Hn. by rewrite (dpart_mem _ _ _ n (KN n) HS (or_introl eq_refl)) in Hn. Qed.

  Lemma make_old w s ths ro P j l a p s' : sok P s → wok w s → tok w s ths → pok w ths ro P → ths !! j = Some (Waits (OldTree l a)) →
    sstep (exec cb (OldTree l a)) s = SMore p s' → allowed dom domV w ths (LStart j (OldTree l a)) →
    cinv w (Config s' (<[j := Runs (OldTree l a) (fresh s) p (made s s')]> ths)).
  Proof using WF.
    intros HS HW HT HP Hj Hst [(i & f & Hfa & Hl) Hal]. destruct (Steady.step_OldTree _ _ _ _ _ _ Hst) as (HL & Hlp & Hy & Hfr & Hnd & _).
    pose proof Hfa as (Hi & Hsl & _)%list_find_Some. destruct (start_role _ _ _ _ _ _ _ _ _ HP Hj) as [Hr HPT].
    assert (∀ k, ro k ≠ ROwn i) as Hfree.
    { intros k Hk. destruct (owner_on _ _ _ _ _ _ _ _ _ _ HP Hk Hi) as (c & t & p' & cbs & Hk' & _ & Hc & _).
      destruct (oncmd_live _ _ _ Hc) as [[_ (l' & a' & -> & Hsl')]|(lv & Hl' & _)]; [|congruence].
      apply (Hal _ _ _ _ _ _ Hk'). by rewrite Hfa (snap_at _ _ _ _ _ _ _ _ _ _ _ HS HP Hi Hsl'). }
    destruct (po_free _ _ _ _ _ _ _ HP _ _ Hi Hfree) as [HB Hh]. pose proof (po_snap _ _ _ _ _ _ _ HP _ _ Hi) as Hsn.
    pose proof (start_OldTree cb dom domV WF l a f _ Hl Hsl (wk_min _ _ HW _ _ Hi) HB Hsn) as Hrd. apply ready_ready2 in Hrd as [Hio Hw].
    pose proof (part_step0 P s (PF i) ∅ true _ [] _ _ _ ∅ none (fresh s) HS (eq_sym (right_id_L _ _ _)) (map_disjoint_empty_r _) (map_empty_subseteq _) ltac:(done) Hw) as Hps.
    rewrite Hst in Hps. destruct (Hps HL) as (σp' & Hd' & HM & Hw'). { intros n r Hn. cbn. by rewrite Hnd Hn. }
    clear Hps. rewrite right_id_L in HM.
    assert (snapsat σp' f) as Hsn' by (eapply snaps_le; [exact Hsn|apply HM]).
    exists (<[PF i := σp']> P), (<[j := ROwn i]> ro). split_and!.
    - apply HM.
    - by eapply wok_local.
    - by apply tok_make.
    - rewrite -{1}(set_fam_same w i f Hi). cbn. eapply pok_at; [exact HP|by eexists|exact Hi|by right| | | | |by left| |].
      + intros b Hb _. by rewrite fn_lookup_insert_ne.
      + by rewrite fn_lookup_insert_ne.
      + rewrite fn_lookup_insert_ne //. apply HP.
      + by rewrite fn_lookup_insert.
      + cbn [Joint.thinv]. rewrite fn_lookup_insert fn_lookup_insert_ne //. split; [done|]. exists f. split_and!; try done.
        * cbn. apply list_lookup_insert. by eapply lookup_lt_Some.
        * exists σp', ∅, true, none. split_and!; try done; [by rewrite right_id_L|by left; intros ? []].
        * intros Hrl. apply HM. eapply home_dpart; [exact HS|]. specialize (Hh Hrl). by rewrite Hl in Hh.
      + intros k x Hk Hkr Hkx. destruct (fetcher_on _ _ _ _ _ _ _ _ _ Hi Hkx) as (t' & p' & lv' & -> & Hu'). destruct Hu'. congruence.
  Qed.
  Lemma make_new w s ths ro P j max a p s' : sok P s → wok w s → tok w s ths → pok w ths ro P → ths !! j = Some (Waits (NewTree max a)) →
    sstep (exec cb (NewTree max a)) s = SMore p s' → allowed dom domV w ths (LStart j (NewTree max a)) →
    cinv w (Config s' (<[j := Runs (NewTree max a) (fresh s) p (made s s')]> ths)).
  Proof using WF.
    intros HS HW HT HP Hj Hst [[H4 Hev] _]. destruct (Steady.step_NewTree _ _ _ _ _ _ Hst) as (HL & Hlp & Hy & Hfr & Hnd & _).
    destruct (start_role _ _ _ _ _ _ _ _ _ HP Hj) as [Hr HPT].
    pose proof (start_NewTree cb dom domV WF max a H4 Hev) as Hw.
    assert (P (PT j) = ∅ ∪ ∅) as HPT' by (by rewrite HPT left_id_L).
    pose proof (part_step0 P s (PT j) ∅ false _ [] _ _ ∅ ∅ none (fresh s) HS HPT' (map_disjoint_empty_r _) (map_empty_subseteq _) ltac:(done) Hw) as Hps.
    rewrite Hst in Hps. destruct (Hps HL) as (σp' & Hd' & HM & Hw'). { intros n r Hn. cbn. by rewrite Hnd Hn. }
    clear Hps. rewrite right_id_L in HM.
    exists (<[PT j := σp']> P), (<[j := RMake]> ro). split_and!.
    - apply HM.
    - by eapply wok_local.
    - by apply tok_make.
    - eapply pok_self; [exact HP|by eexists|done| |done| | | |].
      + intros i. by rewrite Hr.
      + intros b Hb _. by rewrite fn_lookup_insert_ne.
      + by rewrite fn_lookup_insert_ne.
      + rewrite fn_lookup_insert_ne //. apply HP.
      + cbn [Joint.thinv]. rewrite fn_lookup_insert. split_and!; try done. apply HM. rewrite HPT. intros n r. by rewrite lookup_empty.
  Qed.

  (** ** A tree that is being made, a node that is skipped *)
  Lemma new_more w s ths ro P j c t p cbs p' s' : sok P s → wok w s → tok w s ths → pok w ths ro P →
    ths !! j = Some (Runs c t p cbs) → ro j = RMake ∨ ro j = RSkip → sstep p s = SMore p' s' →
    cinv w (Config s' (<[j := Runs c t p' (cbs ++ made s s')]> ths)).
  Proof.
    intros HS HW HT HP Hj Hr Hst. pose proof (po_th _ _ _ _ _ _ _ HP _ _ Hj) as Hx. pose proof (th_low _ _ _ HT _ _ _ _ _ Hj) as Hlow.
    assert (∃ τ, moved P s (PT j) t none false s' τ ∧ thinv w (<[PT j := τ]> P) j (Runs c t p' (cbs ++ made s s')) (ro j)) as (τ & HM & Hth).
    { destruct Hr as [Hr|Hr]; rewrite Hr in Hx; rewrite Hr; cbn [Joint.thinv] in Hx |- *; destruct c as [max a| | | | | | | | | | | | | | | | |n]; try done.
      - destruct Hx as (H4 & Hev & Hh & Hw & Hl & Hy).
        pose proof (part_step P s (PT j) ∅ false p cbs _ _ _ ∅ none t HS (eq_sym (right_id_L _ _ _)) (map_disjoint_empty_r _) (map_empty_subseteq _) ltac:(done) Hw Hl Hlow) as Hps.
        pose proof (yields_sstep p (λ r, r = RTree t) s Hy) as Hys. rewrite Hst in Hps, Hys. destruct Hps as (σp' & Hd' & HM & Hw' & Hl').
        rewrite right_id_L in HM. exists σp'. split; [done|]. rewrite fn_lookup_insert. split_and!; try done. by apply HM.
      - destruct Hx as (Hh & Hw & Hl).
        pose proof (part_step P s (PT j) (P PG) false p cbs _ _ _ ∅ none t HS (eq_sym (right_id_L _ _ _)) (map_disjoint_empty_r _) ltac:(done) ltac:(done) Hw Hl Hlow) as Hps.
        rewrite Hst in Hps. destruct Hps as (σp' & Hd' & HM & Hw' & Hl').
        rewrite right_id_L in HM. exists σp'. split; [done|]. rewrite fn_lookup_insert fn_lookup_insert_ne //. split_and!; try done. by apply HM. }
    assert (∀ i, ro j ≠ ROwn i) as Hno by (intros i; by destruct Hr as [-> | ->]).
    exists (<[PT j := τ]> P), (<[j := ro j]> ro). split_and!.
    - apply HM.
    - eapply wok_local; [done|apply HM].
    - apply (tok_same _ _ _ _ _ _ p cbs); [|done]. eapply tok_mono; [exact HT|by apply (mv_local _ _ _ _ _ _ _ _ HM)].
    - eapply pok_self; [exact HP|by eexists|done|done|done| | | |done].
      + intros b Hb _. by rewrite fn_lookup_insert_ne.
      + by rewrite fn_lookup_insert_ne.
      + rewrite fn_lookup_insert_ne //. apply HP.
  Qed.
  Lemma skip_done w s ths ro P j c t p cbs r s' : sok P s → wok w s → tok w s ths → pok w ths ro P →
    ths !! j = Some (Runs c t p cbs) → ro j = RSkip → sstep p s = SRet r s' →
    right_result cmp w c r (cbs ++ made s s') ∧ cinv (next_done cmp w c r (cbs ++ made s s')) (Config s' (<[j := Idle]> ths)).
  Proof.
    intros HS HW HT HP Hj Hr Hst. pose proof (po_th _ _ _ _ _ _ _ HP _ _ Hj) as Hx. pose proof (th_low _ _ _ HT _ _ _ _ _ Hj) as Hlow.
    rewrite Hr in Hx. cbn [Joint.thinv] in Hx. destruct c as [max a| | | | | | | | | | | | | | | | |n]; try done.
    destruct Hx as (Hh & Hw & Hl).
    pose proof (part_step P s (PT j) (P PG) false p cbs _ _ _ ∅ none t HS (eq_sym (right_id_L _ _ _)) (map_disjoint_empty_r _) ltac:(done) ltac:(done) Hw Hl Hlow) as Hps.
    rewrite Hst in Hps. destruct Hps as (σp' & Hd' & HM & (-> & -> & ->)). rewrite right_id_L in HM. split; [done|]. cbn [next_done].
    exists (<[PT j := ∅]> P), (<[j := RNone]> ro). split_and!.
    - apply HM.
    - eapply wok_local; [done|apply HM].
    - apply tok_less; [|by intros ? []]. eapply tok_mono; [exact HT|by apply (mv_local _ _ _ _ _ _ _ _ HM)].
    - eapply pok_self; [exact HP|by eexists|done| |done| | | |].
      + intros i. by rewrite Hr.
      + intros b Hb _. by rewrite fn_lookup_insert_ne.
      + by rewrite fn_lookup_insert_ne.
      + rewrite fn_lookup_insert_ne //. apply HP.
      + cbn. by rewrite fn_lookup_insert.
  Qed.
  (** the new family *)
  Lemma pok_new w ths ro P j f P' : pok w ths ro P → is_Some (ths !! j) → (∀ i, ro j ≠ ROwn i) →
    P' (PT j) = ∅ → (∀ b, b ≠ PT j → b ≠ PF (length (w_fams w)) → P' b = P b) →
    body f (P' (PF (length (w_fams w)))) → famhome f (P' (PF (length (w_fams w)))) → fm_snaps f = ∅ →
    pok (World (w_fams w ++ [f]) (w_chosen w)) (<[j := Idle]> ths) (<[j := RNone]> ro) P'.
  Proof.
    intros [H1 H2 H3 H4 H5 H6 H7] [x0 Hj] Hr HT HP HB Hh Hs. set (n := length (w_fams w)) in *.
    assert (∀ i k, <[j := RNone]> ro k = ROwn i → ro k = ROwn i) as Ho.
    { intros i k. destruct (decide (k = j)) as [->|Hkj]; [by rewrite fn_lookup_insert|by rewrite fn_lookup_insert_ne]. }
    assert (∀ i g, (w_fams w ++ [f]) !! i = Some g → i ≠ n ∧ w_fams w !! i = Some g ∨ i = n ∧ g = f) as Hw.
    { intros i g Hg. apply lookup_app_Some in Hg as [Hg|[Hle Hg]]; [left; split; [apply lookup_lt_Some in Hg; unfold n; lia|done]|right].
      apply list_lookup_singleton_Some in Hg as [? <-]. split; [unfold n; lia|done]. }
    split; cbn.
    - by rewrite HP.
    - intros i Hi. apply lookup_ge_None in Hi. rewrite app_length in Hi. cbn in Hi. fold n in Hi.
      rewrite HP; [|done|intros [= ->]; lia]. apply H2, lookup_ge_None. fold n. lia.
    - intros k Hk. apply lookup_ge_None in Hk. rewrite insert_length in Hk. assert (k ≠ j) as Hkj by (intros ->; apply lookup_lt_Some in Hj; lia).
      rewrite HP; [|congruence|done]. rewrite fn_lookup_insert_ne //. apply H3. by apply lookup_ge_None.
    - intros i g [[Hne Hg]|[-> ->]]%Hw; [rewrite HP; [by apply H4|done|congruence]|]. intros l its. by rewrite Hs.
    - intros i g [[Hne Hg]|[-> ->]]%Hw Hfree; [|done]. rewrite HP; [|done|congruence]. apply H5; [done|]. intros k Hk.
      destruct (decide (k = j)) as [->|Hkj]; [by apply (Hr i)|]. apply (Hfree k). by rewrite fn_lookup_insert_ne.
    - intros k k' i Hk%Ho Hk'%Ho. by eapply H6.
    - intros k x Hk. apply list_lookup_insert_Some in Hk as [(<- & <- & _)|[Hne Hk]].
      + rewrite fn_lookup_insert. done.
      + rewrite fn_lookup_insert_ne //. specialize (H7 _ _ Hk). eapply thinv_frame; [| | |exact H7].
        * apply HP; congruence.
        * by rewrite HP.
        * intros i Hi. assert (is_Some (w_fams w !! i)) as [g Hg].
          { destruct x as [|c|c t p cbs]; cbn [Joint.thinv] in H7; destruct Hi as [Hi|Hi]; rewrite Hi in H7; try done.
            - destruct H7 as (_ & g & ? & _). by exists g.
            - destruct c; try done. destruct H7 as (_ & _ & _ & g & ? & ? & ? & ? & _). by exists g. }
          cbn. split; [rewrite lookup_app_l //; by eapply lookup_lt_Some|]. apply HP; [done|]. intros [= ->].
          apply lookup_lt_Some in Hg. unfold n in Hg. lia.
  Qed.
  Lemma new_done w s ths ro P j c t p cbs r s' : sok P s → wok w s → tok w s ths → pok w ths ro P →
    ths !! j = Some (Runs c t p cbs) → ro j = RMake → sstep p s = SRet r s' →
    right_result cmp w c r (cbs ++ made s s') ∧ cinv (next_done cmp w c r (cbs ++ made s s')) (Config s' (<[j := Idle]> ths)).
  Proof.
    intros HS HW HT HP Hj Hr Hst. pose proof (po_th _ _ _ _ _ _ _ HP _ _ Hj) as Hx. pose proof (th_low _ _ _ HT _ _ _ _ _ Hj) as Hlow.
    rewrite Hr in Hx. cbn [Joint.thinv] in Hx. destruct c as [max a| | | | | | | | | | | | | | | | |n]; try done.
    destruct Hx as (H4 & Hev & Hh & Hw & Hl & Hy).
    pose proof (part_step P s (PT j) ∅ false p cbs _ _ _ ∅ none t HS (eq_sym (right_id_L _ _ _)) (map_disjoint_empty_r _) (map_empty_subseteq _) ltac:(done) Hw Hl Hlow) as Hps.
    pose proof (yields_sstep p (λ r, r = RTree t) s Hy) as Hys. rewrite Hst in Hps, Hys. destruct Hps as (τ & Hd' & HM & (-> & t' & -> & HB)).
    injection Hys as ->. rewrite right_id_L in HM. pose proof (mv_local _ _ _ _ _ _ _ _ HM) as HL. pose proof (l_fresh _ _ _ _ HL) as Hfr.
    split.
    { exists t. split_and!; [done| |done]. apply list_find_None, Forall_forall. intros g Hg Htg.
      apply elem_of_list_lookup in Hg as [k Hk]. unfold has_tree in Htg. destruct (fm_live g) as [lv|] eqn:Hlv; [|done].
      by apply (th_new _ _ _ HT _ _ _ _ _ _ _ _ Hj eq_refl Hk Hlv). }
    cbn [next_done]. fold (newfam (K:=K) (V:=V) max t). set (n := length (w_fams w)).
    assert (∀ i g, (w_fams w ++ [newfam max t]) !! i = Some g → i ≠ n ∧ w_fams w !! i = Some g ∨ i = n ∧ g = newfam max t) as Hwf.
    { intros i g Hg. apply lookup_app_Some in Hg as [Hg|[Hle Hg]]; [left; split; [apply lookup_lt_Some in Hg; unfold n; lia|done]|right].
      apply list_lookup_singleton_Some in Hg as [? <-]. split; [unfold n; lia|done]. }
    assert (w_fams w !! n = None) as Hn by (by apply lookup_ge_None).
    pose proof (po_fam _ _ _ _ _ _ _ HP _ Hn) as HPn.
    assert (PT j ≠ PF n) as Hne by done.
    pose proof (sok_move _ _ (PT j) (PF n) ∅ τ (mv_ok _ _ _ _ _ _ _ _ HM) Hne) as HS'.
    rewrite fn_lookup_insert fn_lookup_insert_ne // HPn left_id_L in HS'.
    feed specialize HS'; [done|apply map_disjoint_empty_l|intros m; rewrite !lookup_empty; split; intros [? [=]]| |].
    { pose proof (so_pair _ _ (mv_ok _ _ _ _ _ _ _ _ HM) (PT j)) as Hp. by rewrite fn_lookup_insert in Hp. }
    set (P' := <[PT j := ∅]> (<[PF n := τ]> (<[PT j := τ]> P))) in *.
    assert (P' (PF n) = τ) as HPn' by (unfold P'; rewrite fn_lookup_insert_ne // fn_lookup_insert //).
    exists P', (<[j := RNone]> ro). split_and!.
    - exact HS'.
    - assert (wok w s') as [W1 W2 W3 W4] by by eapply wok_local. split; cbn.
      + intros i g [[_ Hi]|[-> ->]]%Hwf; [by eapply W1|]. cbn. apply Z.div_le_lower_bound; lia.
      + done.
      + intros i g lv [[_ Hi]|[-> ->]]%Hwf Hlv; [by eapply W3|]. injection Hlv as <-. cbn. lia.
      + intros i k g g' lv lv' [[_ Hi]|[-> ->]]%Hwf [[_ Hk]|[-> ->]]%Hwf Hlv Hlv' He; [by eapply W4| | |done].
        * injection Hlv' as <-. exfalso. by apply (th_new _ _ _ HT _ _ _ _ _ _ _ _ Hj eq_refl Hi Hlv).
        * injection Hlv as <-. exfalso. by apply (th_new _ _ _ HT _ _ _ _ _ _ _ _ Hj eq_refl Hk Hlv').
    - cbn. eapply (tok_world w).
      + apply tok_less; [|by intros ? []]. eapply tok_mono; [exact HT|done].
      + cbn. intros i g lv [[_ Hi]|[-> ->]]%Hwf Hlv; [left; by exists i, g, lv|]. injection Hlv as <-. right.
        intros k c0 t0 p0 cbs0 Hk Hm He. cbn in He. subst t0. apply list_lookup_insert_Some in Hk as [(_ & [=] & _)|[Hkj Hk]]. apply Hkj.
        eapply (th_lock _ _ _ HT); [exact Hj|exact Hk|done|]. by destruct c0.
    - cbn. eapply pok_new; [exact HP|by eexists| | | |by rewrite HPn'| |done].
      + intros i. by rewrite Hr.
      + unfold P'. by rewrite fn_lookup_insert.
      + intros b H1 H2. unfold P'. rewrite !fn_lookup_insert_ne //.
      + fold n. rewrite HPn'. intros _ _. cbn. by apply HM.
  Qed.
  Lemma quiet_end w s ths ro P j c t p cbs : sok P s → wok w s → tok w s ths → pok w ths ro P →
    ths !! j = Some (Runs c t p cbs) → ro j = RMake ∨ ro j = RSkip →
    match sstep p s with SErr _ _ | SStop _ _ => False | _ => True end.
  Proof.
    intros HS HW HT HP Hj Hr. pose proof (po_th _ _ _ _ _ _ _ HP _ _ Hj) as Hx. pose proof (th_low _ _ _ HT _ _ _ _ _ Hj) as Hlow.
    destruct Hr as [Hr|Hr]; rewrite Hr in Hx; cbn [Joint.thinv] in Hx; destruct c as [max a| | | | | | | | | | | | | | | | |n]; try done.
    - destruct Hx as (H4 & Hev & Hh & Hw & Hl & Hy).
      pose proof (part_step P s (PT j) ∅ false p cbs _ _ _ ∅ none t HS (eq_sym (right_id_L _ _ _)) (map_disjoint_empty_r _) (map_empty_subseteq _) ltac:(done) Hw Hl Hlow) as Hps.
      destruct (sstep p s) as [| |e s'|[] s']; try done; [by destruct Hps as (? & ? & ? & [])|by destruct Hps..].
    - destruct Hx as (Hh & Hw & Hl).
      pose proof (part_step P s (PT j) (P PG) false p cbs _ _ _ ∅ none t HS (eq_sym (right_id_L _ _ _)) (map_disjoint_empty_r _) ltac:(done) ltac:(done) Hw Hl Hlow) as Hps.
      destruct (sstep p s) as [| |e s'|[] s']; try done; [by destruct Hps as (? & ? & ? & [])|by destruct Hps..].
  Qed.

  (** ** FetchLocation *)
  Lemma fetch_step w s ths ro P j c t p cbs i : sok P s → wok w s → tok w s ths → pok w ths ro P →
    ths !! j = Some (Runs c t p cbs) → ro j = RFetch i →
    (∃ p', sstep p s = SMore p' s ∧ cinv w (Config s (<[j := Runs c t p' cbs]> ths))) ∨
    (∃ r, sstep p s = SRet r s ∧ right_result cmp w c r cbs ∧ cinv (next_done cmp w c r cbs) (Config s (<[j := Idle]> ths))).
  Proof.
    intros HS HW HT HP Hj Hr. pose proof (po_th _ _ _ _ _ _ _ HP _ _ Hj) as Hx. rewrite Hr in Hx. cbn [Joint.thinv] in Hx. destruct c; try done.
    destruct Hx as (-> & HPT & -> & f & lv & rt & l & Hi & Hu & Hcl & Ha & Hp).
    assert (∀ k, ro j ≠ ROwn k) as Hno by (intros k; by rewrite Hr).
    destruct (peeks_sstep _ p _ s (atloc_root _ _ _ _ _ _ HS Ha) Hp) as [(p' & -> & Hp')|(r & -> & ->)]; [left|right].
    - exists p'. split; [done|]. exists P, (<[j := RFetch i]> ro). split_and!; [done|done| |].
      + by eapply tok_same.
      + eapply pok_self; [exact HP|by eexists|done|done|done|done|done|apply HP|]. cbn [Joint.thinv]. split_and!; try done.
        by exists f, lv, rt, l.
    - eexists. split; [done|]. split.
      + intros f' lv' Hus. destruct (usable_at _ _ _ _ Hus) as (i' & Hi' & Hu'). destruct Hu as (Hlv & Ht & _), Hu' as (Hlv' & Ht' & _).
        assert (i' = i) as -> by (eapply (wk_uniq _ _ HW); [exact Hi'|exact Hi|done|done|congruence]).
        rewrite Hi in Hi'. injection Hi' as <-. rewrite Hlv in Hlv'. injection Hlv' as <-. exists l. split_and!; try done.
      + cbn [next_done]. exists P, (<[j := RNone]> ro). split_and!; [done|done| |].
        * apply tok_less; [done|by intros ? []].
        * by eapply pok_self; [exact HP|by eexists|done|done|done|done|done|apply HP|].
  Qed.

  (** ** Waiting *)
  Lemma call_waits w s ths ro P j c : sok P s → wok w s → tok w s ths → pok w ths ro P → ths !! j = Some Idle →
    cinv w (Config s (<[j := Waits c]> ths)).
  Proof.
    intros HS HW HT HP Hj. pose proof (po_th _ _ _ _ _ _ _ HP _ _ Hj) as Hx.
    assert (ro j = RNone ∧ P (PT j) = ∅) as [Hr HPT] by (by destruct (ro j)).
    exists P, (<[j := RNone]> ro). split_and!; [done|done| |].
    - apply tok_less; [done|by intros ? []].
    - eapply pok_self; [exact HP|by eexists|done| |done|done|done|apply HP|done]. intros i. by rewrite Hr.
  Qed.

  (** ** Calls of one step *)
  Lemma sok_cache P s ca : sok P s → (∀ d, qof d ca = qof d (cache s)) → sok P (set_cache ca s).
  Proof.
    intros [(σ & Hv & Hc) [[L HL] I1 I2 I3 I4] HD HP HL'] Hq. split; try done.
    - by exists σ.
    - split; try done. exists L. destruct HL. split; cbn; try done; intros d; by rewrite Hq.
  Qed.
  Lemma made_same s s' : iocount s' = iocount s → made s s' = [].
  Proof. intros H. unfold made. by rewrite H Nat.sub_diag. Qed.
  Lemma short_end w w' s s' ths ro P j c : sok P s → wok w s → tok w s ths → pok w ths ro P → ths !! j = Some (Waits c) →
    sok P s' → w_fams w' = w_fams w → (∀ n, n ∈ w_chosen w' → n ∈ w_chosen w ∨ n ∈ base.dom (nodes s)) →
    nodes s' = nodes s → fresh s' = fresh s →
    cinv w' (Config s' (<[j := Idle]> ths)).
  Proof.
    intros HS [W1 W2 W3 W4] [T1 T2 T3 T4 T5] HP Hj HS' Hw Hch Hn Hf. destruct (start_role _ _ _ _ _ _ _ _ _ HP Hj) as [Hr HPT].
    exists P, (<[j := RNone]> ro). split_and!; [done| | |].
    - split; rewrite ?Hw ?Hf ?Hn; try done. intros n [Hm|Hm]%Hch; [by apply W2|done].
    - apply tok_less; [|by intros ? []]. split; rewrite ?Hw ?Hf ?Hn; try done.
    - cbn. eapply pok_self; [exact HP|by eexists|done| |done|done|done|apply HP|done]. intros i. by rewrite Hr.
  Qed.
  Lemma short_done w s ths ro P j c r s' : sok P s → wok w s → tok w s ths → pok w ths ro P → ths !! j = Some (Waits c) →
    short c = true → exec cb c s = ORet r s' → allowed dom domV w ths (LDone j c r (made s s')) →
    right_result cmp w c r (made s s') ∧ cinv (next_done cmp w c r (made s s')) (Config s' (<[j := Idle]> ths)).
  Proof.
    intros HS HW HT HP Hj Hsh Hex Hal. destruct (start_role _ _ _ _ _ _ _ _ _ HP Hj) as [Hr HPT].
    destruct c as [max a|l a|t c|t ap|t full|t|t n|t|t|t|t|t|t|t|t|lo hi| |n]; try done.
    - (* Forget *)
      cbn in Hex. injection Hex as <- <-. rewrite made_same //. split; [done|]. destruct Hal as [[[i f] Hfo] Hno].
      pose proof Hfo as (Hi & Ht & _)%fam_of_Some. unfold has_tree in Ht. destruct (fm_live f) as [lv|] eqn:Hl; [|done].
      assert (∀ k, ro k ≠ ROwn i) as Hfree.
      { intros k Hk. destruct (owner_on _ _ _ _ _ _ _ _ _ _ HP Hk Hi) as (c & t' & p & cbs & Hk' & _ & Hc & _).
        apply (Hno _ _ Hk'). cbn. destruct (oncmd_live _ _ _ Hc) as [[Hn _]|(lv' & Hl' & Ht' & _)]; congruence. }
      cbn [next_done]. unfold upd. rewrite Hfo Hl.
      exists P, (<[j := RNone]> ro). split_and!; [done|..].
      + apply (wok_set w s i f); try done.
      + cbn. apply (tok_set w s _ i f); [|done|done]. apply tok_less; [done|by intros ? []].
      + cbn. eapply pok_at; [exact HP|by eexists|exact Hi|by right|done|done|apply HP| |right; split; [done|]|done|].
        * by apply (po_snap _ _ _ _ _ _ _ HP i f).
        * split; [exact I|by intros []].
        * intros k x Hk Hkr Hkx. destruct (fetcher_on _ _ _ _ _ _ _ _ _ Hi Hkx) as (t' & p' & lv' & -> & Hu'). exfalso.
          apply (Hno _ _ Hk). cbn. destruct Hu' as (Hl' & Ht' & _). congruence.
    - (* UpdateLimits *)
      cbn in Hex. injection Hex as <- <-. rewrite made_same //. split; [done|]. cbn [next_done].
      eapply (short_end w w s); try done; [|by left]. apply sok_cache; [apply sok_cache; [done|by intros []]|]. cbn. intros []; by destruct (_ && _).
    - (* DrainSelect *)
      assert (∃ L, lru s L) as [L HL] by apply (so_inv _ _ HS).
      unfold exec, drainerSelect, atomic, getCache, bind in Hex; cbn [run] in Hex.
      destruct (_ || _).
      { cbn in Hex. injection Hex as <- <-. rewrite made_same //. split; [by eexists|]. cbn [next_done].
        eapply (short_end w w s); try done; [|by left]. apply sok_cache; [done|by intros []]. }
      destruct (qhead (c_clean (cache s))) as [m|] eqn:Hq; cbn in Hex; injection Hex as <- <-; rewrite made_same //; (split; [by eexists|]); cbn [next_done].
      + eapply (short_end w _ s); try done. cbn. intros n [->%elem_of_singleton|Hm]%elem_of_union; [right|by left].
        rewrite -(so_dom _ _ HS).
        pose proof (lru_head _ _ _ HL false) as Hh. cbn in Hh. rewrite Hq in Hh. destruct (L false) as [|x l] eqn:HLf; [done|].
        injection Hh as ->. destruct (seg_lookup _ _ _ x _ _ (lru_seg _ _ _ HL false)) as (c & Hc & _); [rewrite HLf; left|].
        by eapply elem_of_dom_2.
      + eapply (short_end w w s); try done; [|by left]. apply sok_cache; [done|by intros []].
  Qed.

  (** ** The end of the process *)
  Definition still s σ : heap := filter (λ kv, is_Some (σ !! kv.1)) (dmap s).
  Lemma still_look s σ k v : still s σ !! k = Some v ↔ dmap s !! k = Some v ∧ is_Some (σ !! k).
  Proof. unfold still. by rewrite map_filter_lookup_Some. Qed.
  Lemma still_dle s σ : keeps σ s → (∀ k b, σ !! k = Some (RD b) → ∃ l, k = KD l) → dle none σ (still s σ).
  Proof.
    intros Hk HD k b Hb _. destruct (HD _ _ Hb) as [l ->]. apply still_look. split; [|by eexists]. rewrite dmap_look (Hk _ _ Hb). done.
  Qed.
  Lemma killed w s0 s ths ro P lo hi n : sok P s0 → wok w s0 → pok w ths ro P →
    (∀ i f, w_fams w !! i = Some f → snapsat (still s (P (PF i))) f) →
    cinv (restart w) (Config (reboot lo hi s) (replicate n Idle)).
  Proof.
    intros HS HW HP Hsn. set (m := length (w_fams w)).
    set (P' := λ a, match a with
      | PF i => still s (P (PF i)) | PT j => ∅
      | PG => filter (λ kv, ¬ Exists (λ i, is_Some (P (PF i) !! kv.1)) (seq 0 m)) (dmap s) end).
    assert (∀ i k v, P (PF i) !! k = Some v → (i < m)%nat) as Hlt.
    { intros i k v Hk. destruct (w_fams w !! i) as [f|] eqn:Hi; [by eapply lookup_lt_Some|]. by rewrite (po_fam _ _ _ _ _ _ _ HP _ Hi) in Hk. }
    assert (∀ a, P' a ⊆ dmap s) as Hsub.
    { intros a. apply map_subseteq_spec. intros k v. destruct a as [|i|j]; cbn.
      - by intros [? _]%map_filter_lookup_Some.
      - by intros [? _]%still_look.
      - by rewrite lookup_empty. }
    assert (∀ f, fm_live (close f) = None) as Hcl by done.
    exists P', (λ _, RNone). split_and!.
    - split.
      + exists (dmap s). split; [apply reboot_views|]. split.
        * intros a b Hab. apply map_disjoint_spec. intros k v v' Ha Hb.
          assert (∀ i, P' PG !! k = Some v ∨ P' PG !! k = Some v' → ¬ is_Some (P (PF i) !! k)) as HG.
          { intros i HPG [v0 Hv0]. assert (∃ u, P' PG !! k = Some u) as [u Hu] by naive_solver. cbn in Hu. apply map_filter_lookup_Some in Hu as [_ Hu]. apply Hu.
            apply Exists_exists. exists i. split; [apply elem_of_seq; apply Hlt in Hv0; lia|by eexists]. }
          destruct a as [|i|j], b as [|i'|j']; try done; cbn in *; rewrite ?lookup_empty in Ha, Hb; try done.
          -- apply still_look in Hb as [_ Hb]. by apply (HG i'); [left|].
          -- apply still_look in Ha as [_ Ha]. by apply (HG i); [right|].
          -- apply still_look in Ha as [_ [u Ha]]. apply still_look in Hb as [_ [u' Hb]].
             apply Hab. by apply (so_one _ _ _ _ _ _ _ HS Ha Hb).
        * intros k v. split; [|intros [a Ha]; by eapply lookup_weaken]. intros Hk.
          destruct (decide (Exists (λ i, is_Some (P (PF i) !! k)) (seq 0 m))) as [He|He].
          -- apply Exists_exists in He as (i & _ & Hi). exists (PF i). by apply still_look.
          -- exists PG. cbn. by apply map_filter_lookup_Some.
      + apply reboot_inv.
      + cbn. by rewrite !dom_empty_L.
      + intros a k. assert (∀ k', (k' = KN k ∨ k' = KT k) → P' a !! k' = None) as Hno.
        { intros k' Hk'. destruct (P' a !! k') as [v|] eqn:E; [|done]. eapply lookup_weaken in E; [|apply Hsub]. rewrite dmap_look in E. by destruct Hk' as [-> | ->]. }
        rewrite (Hno (KN k)); [|by left]. rewrite (Hno (KT k)); [|by right]. split; intros [? [=]].
      + cbn. intros k r. by rewrite lookup_empty.
    - split; cbn.
      + intros i f Hf. apply list_lookup_fmap_inv in Hf as (g & -> & Hg). cbn. by eapply (wk_min _ _ HW).
      + intros k. by rewrite elem_of_empty.
      + intros i f lv Hf. apply list_lookup_fmap_inv in Hf as (g & -> & Hg). done.
      + intros i k f f' lv lv' Hf. apply list_lookup_fmap_inv in Hf as (g & -> & Hg). done.
    - cbn. split.
      + intros j k c c' t p p' cbs cbs' Hj. by apply lookup_replicate_1 in Hj as [[=] _].
      + intros j c t p cbs Hj. by apply lookup_replicate_1 in Hj as [[=] _].
      + intros j c t p cbs i f lv Hj. by apply lookup_replicate_1 in Hj as [[=] _].
      + intros j t t' p cbs Hj. by apply lookup_replicate_1 in Hj as [[=] _].
      + intros j k x y t Hj Hx. apply lookup_replicate_1 in Hj as [-> _]. done.
    - split; cbn.
      + intros k x Hk. apply map_filter_lookup_Some in Hk as [Hk _]. by rewrite dmap_look in Hk.
      + intros i Hi. rewrite list_lookup_fmap in Hi. destruct (w_fams w !! i) eqn:E; [done|]. rewrite (po_fam _ _ _ _ _ _ _ HP _ E).
        apply map_empty. intros k. destruct (still s ∅ !! k) as [v|] eqn:Ek; [|done]. apply still_look in Ek as [_ Ek]. by rewrite lookup_empty in Ek; destruct Ek.
      + done.
      + intros i f Hf. apply list_lookup_fmap_inv in Hf as (g & -> & Hg). 
        apply (Hsn _ _ Hg).
      + intros i f Hf _. apply list_lookup_fmap_inv in Hf as (g & -> & Hg). split.
        * unfold World.body. cbn. intros k x Hk. apply still_look in Hk as [Hk _]. by rewrite dmap_look in Hk.
        * intros _. cbn. apply map_eq. intros k. apply option_eq. intros v. rewrite dpart_look. split; [by intros []|]. intros Hk. split; [done|].
          apply still_look in Hk as [Hk _]. rewrite dmap_look in Hk. destruct k; try done. destruct (disk s !! l); [|done]. by injection Hk as <-.
      + done.
      + intros j x Hj. apply lookup_replicate_1 in Hj as [-> _]. done.
  Qed.
  Lemma kill w s ths ro P lo hi n : sok P s → wok w s → pok w ths ro P → cinv (restart w) (Config (reboot lo hi s) (replicate n Idle)).
  Proof.
    intros HS HW HP. eapply killed; [done..|]. intros i f Hi. eapply snaps_le; [by apply (po_snap _ _ _ _ _ _ _ HP)|].
    pose proof (so_within _ _ (PF i) HS) as Hwi. apply still_dle.
    - intros l b Hl. apply Hwi in Hl. cbn in Hl. destruct (disk s !! l); [|done]. by injection Hl as ->.
    - intros k b Hk. destruct (within_RD _ _ _ _ Hwi Hk) as (l & -> & _). eauto.
  Qed.
  Lemma own_died w s ths ro P j i c t p cbs s' lo hi n : sok P s → wok w s → tok w s ths → pok w ths ro P →
    ths !! j = Some (Runs c t p cbs) → ro j = ROwn i → sstep p s = SStop Crash s' →
    ¬ silent w c ∧ cinv (restart w) (Config (reboot lo hi s') (replicate n Idle)).
  Proof.
    intros HS HW HT HP Hj Hr Hst. pose proof (po_th _ _ _ _ _ _ _ HP _ _ Hj) as Hx. rewrite Hr in Hx.
    destruct Hx as (HPT & f & Hi & Hc & (σp & σk & io & X & Hσ & Hd & Hio & Hw & Hl & HX) & Hh & Hy & Hpr & Hdr).
    pose proof (part_step P s (PF i) ∅ io p cbs _ _ σp σk X t HS Hσ Hd (map_empty_subseteq _) ltac:(done) Hw Hl (th_low _ _ _ HT _ _ _ _ _ Hj)) as Hps.
    rewrite Hst in Hps. destruct Hps as (-> & HL & Hke & Hkk).
    pose proof (is_owned _ _ _ _ _ _ _ _ _ _ _ _ HS HW HP Hi Hc) as Ho. split.
    { intros Hs. apply (Hio eq_refl). by eapply lift_silent. }
    eapply killed; [done..|]. intros i' f' Hi'.
    pose proof (so_within _ _ (PF i') HS) as Hwi.
    assert (∀ k b, P (PF i') !! k = Some (RD b) → ∃ l, k = KD l) as HD.
    { intros k b Hk. destruct (within_RD _ _ _ _ Hwi Hk) as (l & -> & _). eauto. }
    destruct (decide (i' = i)) as [->|Hne].
    - rewrite Hi in Hi'. injection Hi' as <-. destruct HX as [HX|HX].
      + eapply snaps_le; [by apply (po_snap _ _ _ _ _ _ _ HP)|]. apply still_dle; [|done].
        intros l b Hlb. apply (g_disk _ _ _ (l_grow _ _ _ _ HL)); [|by auto]. apply Hwi in Hlb. cbn in Hlb. destruct (disk s !! l); [|done]. by injection Hlb as ->.
      + eapply snaps_le; [exact HX|]. intros k b Hk Hnx. assert (P (PF i) !! k = Some (RD b)) as HPk by (rewrite Hσ; by apply lookup_union_Some_r).
        destruct (HD _ _ HPk) as [l ->]. apply still_look. split; [|by eexists]. by rewrite dmap_look (Hkk _ _ Hk).
    - eapply snaps_le; [by apply (po_snap _ _ _ _ _ _ _ HP)|]. apply still_dle; [|done]. apply Hke. congruence.
  Qed.
  Lemma booted lo hi o n : cinv world0 (Config (boot lo hi o) (replicate n Idle)).
  Proof.
    exists (λ _, ∅), (λ _, RNone). split_and!.
    - split.
      + exists ∅. split; [intros k; rewrite lookup_empty; by destruct k|]. split; [intros a b _; apply map_disjoint_empty_l|].
        intros k v. rewrite lookup_empty. split; [done|]. intros [? [=]].
      + by eapply (Inv_same (reboot lo hi (boot lo hi o))); [apply reboot_inv|..].
      + cbn. by rewrite !dom_empty_L.
      + intros a k. rewrite !lookup_empty. split; intros [? [=]].
      + cbn. intros k r. by rewrite lookup_empty.
    - split; cbn; try done.
    - cbn. split.
      + intros j k c c' t p p' cbs cbs' Hj. by apply lookup_replicate_1 in Hj as [[=] _].
      + intros j c t p cbs Hj. by apply lookup_replicate_1 in Hj as [[=] _].
      + intros j c t p cbs i f lv Hj. by apply lookup_replicate_1 in Hj as [[=] _].
      + intros j t t' p cbs Hj. by apply lookup_replicate_1 in Hj as [[=] _].
      + intros j k x y t Hj Hx. apply lookup_replicate_1 in Hj as [-> _]. done.
    - split; cbn; try done. intros j x Hj. apply lookup_replicate_1 in Hj as [-> _]. done.
  Qed.

  (** ** All moves *)
  Lemma cstep_inv w cf l cf' : cinv w cf → cstep cb cf l cf' → allowed dom domV w (cf_ths cf) l →
    cright cb w l ∧ cinv (cnext cb w l) cf'.
  Proof using WF.
    intros (P & ro & HS & HW & HT & HP) Hst Hal. destruct Hst as [s ths j c Hj|s ths j c t Hj Ht Hlk|s ths j c p s' Hj Hm Hst|s ths j c t p cbs p' s' Hj Hst
      |s ths j c t p cbs r s' Hj Hst|s ths j c t p cbs e s' Hj Hst|s ths j c r s' Hj Hsh Hex|s ths j c t p cbs s' lo hi n Hj Hst|s ths lo hi n]; cbn [cf_st cf_ths cright cnext] in *.
    - split; [done|]. by eapply call_waits.
    - split; [done|]. destruct (treeof c) as [t'|] eqn:Htr.
      + assert (t' = t) as -> by (destruct c; cbn in *; congruence). eapply start_call; try done. apply Hlk. by destruct c.
      + destruct c; try done.
        * injection Ht as ->. by eapply start_fetch.
        * eapply start_drain; try done. by apply Hlk.
    - split; [done|]. destruct c; try done; [by eapply make_new|by eapply make_old].
    - split; [done|]. destruct (ro j) as [|i| | |i] eqn:Hr.
      + pose proof (po_th _ _ _ _ _ _ _ HP _ _ Hj) as Hx. by rewrite Hr in Hx.
      + by eapply own_more.
      + eapply new_more; try done. by left.
      + eapply new_more; try done. by right.
      + destruct (fetch_step _ _ _ _ _ _ _ _ _ _ _ HS HW HT HP Hj Hr) as [(p2 & E & H)|(r & E & _)]; [|congruence].
        rewrite E in Hst. injection Hst as <- <-. by rewrite made_same // app_nil_r.
    - destruct (ro j) as [|i| | |i] eqn:Hr.
      + pose proof (po_th _ _ _ _ _ _ _ HP _ _ Hj) as Hx. by rewrite Hr in Hx.
      + by eapply own_done.
      + by eapply new_done.
      + by eapply skip_done.
      + destruct (fetch_step _ _ _ _ _ _ _ _ _ _ _ HS HW HT HP Hj Hr) as [(p2 & E & H)|(r' & E & H)]; [congruence|].
        rewrite E in Hst. injection Hst as <- <-. by rewrite made_same // app_nil_r.
    - destruct (ro j) as [|i| | |i] eqn:Hr.
      + pose proof (po_th _ _ _ _ _ _ _ HP _ _ Hj) as Hx. by rewrite Hr in Hx.
      + by eapply own_failed.
      + pose proof (quiet_end _ _ _ _ _ _ _ _ _ _ HS HW HT HP Hj (or_introl Hr)) as Hq. by rewrite Hst in Hq.
      + pose proof (quiet_end _ _ _ _ _ _ _ _ _ _ HS HW HT HP Hj (or_intror Hr)) as Hq. by rewrite Hst in Hq.
      + destruct (fetch_step _ _ _ _ _ _ _ _ _ _ _ HS HW HT HP Hj Hr) as [(p2 & E & H)|(r' & E & H)]; congruence.
    - by eapply short_done.
    - destruct (ro j) as [|i| | |i] eqn:Hr.
      + pose proof (po_th _ _ _ _ _ _ _ HP _ _ Hj) as Hx. by rewrite Hr in Hx.
      + by eapply own_died.
      + pose proof (quiet_end _ _ _ _ _ _ _ _ _ _ HS HW HT HP Hj (or_introl Hr)) as Hq. by rewrite Hst in Hq.
      + pose proof (quiet_end _ _ _ _ _ _ _ _ _ _ HS HW HT HP Hj (or_intror Hr)) as Hq. by rewrite Hst in Hq.
      + destruct (fetch_step _ _ _ _ _ _ _ _ _ _ _ HS HW HT HP Hj Hr) as [(p2 & E & H)|(r' & E & H)]; congruence.
    - split; [done|]. by eapply kill.
  Qed.
End moves.

(** * Other trees during a call

    The blocks of two trees never overlap, and a call on one tree leaves every
    node and every block of the others as they were.  Models no code. *)
From Coq Require Import ssreflect.
From stdpp Require Import prelude list gmap.
From iris.bi Require Import bi.
From iris.proofmode Require Import proofmode.
From Verif Require Import Spec SpecFacts BTree HProp Lru Wp Kv Codec Ghost Order PsTree Rep Load Search Update Plug Insert Borrow Merge Rebal Api Walk Touch Maint Report Open Pres Machine Still World Client Sample Disk Picture Hist Seat History Footprint.
Open Scope Z_scope.

Section aside.
  Context {K V : Type}.
  Variable cb : callbacks K V.
  Variable dom : K → Prop.
  Variable domV : V → Prop.
  Hypothesis WF : wf_cb cb dom domV.
  Notation cmp := (cb_cmp cb).
  Notation st := (st K V).
  Notation gt := (gt K V).
  Notation heap := (gmap rkey (rval K V)).
  Notation world := (world K V).
  Notation history := (history cb dom domV).
  Notation after := (after cmp).
  Notation winv := (winv cb dom domV).
  Notation treeok := (treeok cb dom domV).
  Notation whole := (whole cb dom).
  Notation pictured := (pictured cb dom domV).
  Notation seat := (seat cb dom domV).
  Implicit Types (w : world) (s : st) (g : gt) (l : loc) (t : tid) (σ : heap).

  (** another tree lives in the part of memory and storage the first leaves alone *)
  Lemma seat_other w s t i f lv ca root S h g σ σf t' i' f' lv' : seat w s t i f lv ca root S h g σ σf → ontree w t i f lv → ontree w t' i' f' lv' → t' ≠ t →
    ∃ ca' root' S' h' g' σ', treeok (mnof f') root' h' g' ∧ (isTR (mnof f') t' ca' root' S' ∗ whole (mnof f') t' ca' h' g')%I σ' ∧ σ' ⊆ σf.
  Proof.
    intros HS Hon Hon' Hne. destruct (ot_at _ _ _ _ _ Hon) as [Hi Ht]. destruct (ot_at _ _ _ _ _ Hon') as [Hi' Ht'].
    assert (i ≠ i') as Hii.
    { intros <-. apply Hne. rewrite Hi in Hi'. injection Hi' as <-. pose proof (ot_live _ _ _ _ _ Hon) as H1. rewrite (ot_live _ _ _ _ _ Hon') in H1. by simplify_eq. }
    destruct (se_rest _ _ _ _ _ _ _ _ _ _ _ _ _ _ _ _ HS) as (σj & σr & Heq & Hd & _ & HR).
    destruct (big_in _ _ _ f' HR) as (σ3 & [H3 _] & Hs).
    { destruct (decide (i' < i)%nat).
      - apply (elem_of_list_lookup_2 _ i'). by rewrite lookup_delete_lt.
      - apply (elem_of_list_lookup_2 _ (pred i')). rewrite lookup_delete_ge; [|lia]. by replace (Datatypes.S (pred i')) with i' by lia. }
    assert ((∃ ca root S h g, <affine> ⌜treeok (mnof f') root h g⌝ ∗ ((isTR (mnof f') t' ca root S ∗ whole (mnof f') t' ca h g) ∗ junk (fm_rest f')))%I σ3) as HX.
    { revert H3. apply entails_holds. rewrite (ot_body cb dom domV _ _ _ _ _ Hon').
      iIntros "[(%ca1 & %root1 & %S1 & %h1 & %g1 & %HX & A & B) J]". iExists ca1, root1, S1, h1, g1. iFrame. iPureIntro. apply HX. }
    destruct HX as (ca1 & root1 & S1 & h1 & g1 & HX). apply holds_affine in HX as [Hok (σ4 & σ5 & -> & Hd' & HX & _)].
    exists ca1, root1, S1, h1, g1, σ4. split_and!; [done|done|]. rewrite Heq. etrans; [|by apply map_union_subseteq_r]. etrans; [|exact Hs]. by apply map_union_subseteq_l.
  Qed.
  Lemma views_sub s σ σf σ' : σ ##ₘ σf → views s (σ ∪ σf) → σ' ⊆ σf → within σ' s.
  Proof. intros Hd Hv Hs k v Hk. rewrite Hv. apply lookup_union_Some_r; [done|]. by eapply lookup_weaken. Qed.

  (** the blocks of different trees are different blocks *)
  Theorem apart hi s t t' m m' mn ca S h g mn' ca' S' h' g' l : history hi s → contents (after hi) t = Some m → contents (after hi) t' = Some m' →
    pictured s t mn ca S h g → pictured s t' mn' ca' S' h' g' → l ∈ locs g ++ S → l ∈ locs g' ++ S' → t = t'.
  Proof using WF.
    intros HH Hm Hm' HP HP' Hin Hin'. destruct (decide (t' = t)) as [|Hne]; [done|exfalso].
    destruct (hist_pic cb dom domV WF _ _ _ _ _ _ _ _ _ HH Hm HP) as (i & f & lv & root & σ & σf & Hon & _ & -> & HS).
    destruct (hist_pic cb dom domV WF _ _ _ _ _ _ _ _ _ HH Hm' HP') as (i' & f' & lv' & root' & σ1 & σf1 & Hon' & _ & -> & HS').
    destruct (seat_other _ _ _ _ _ _ _ _ _ _ _ _ _ _ _ _ _ HS Hon Hon' Hne) as (ca2 & root2 & S2 & h2 & g2 & σ2 & Hok2 & HX2 & Hs2).
    pose proof (tree_pictured cb dom domV _ _ _ _ _ _ _ _ _ Hok2 (views_sub _ _ _ _ (se_disj _ _ _ _ _ _ _ _ _ _ _ _ _ _ _ _ HS) (se_views _ _ _ _ _ _ _ _ _ _ _ _ _ _ _ _ HS) Hs2) HX2) as HP2.
    destruct (pictured_inj cb dom domV WF _ _ _ _ _ _ _ _ _ _ _ _ HP' HP2) as (_ & -> & -> & -> & ->).
    pose proof (tree_owns cb dom domV _ _ _ _ _ _ _ _ Hok2 HX2) as Ho2. pose proof (seat_owns _ _ _ _ _ _ _ _ _ _ _ _ _ _ _ _ HS) as Ho.
    destruct (ow_D' _ _ _ _ _ Ho l Hin) as (b & Hb & _). destruct (ow_D' _ _ _ _ _ Ho2 l Hin') as (b' & Hb' & _).
    eapply (map_disjoint_spec σ σf); [apply HS|exact Hb|]. by eapply lookup_weaken.
  Qed.

  (** a call on one tree *)
  Theorem bystander hi s t t' m m' mn ca S h g c : history hi s → contents (after hi) t = Some m → contents (after hi) t' = Some m' → t' ≠ t →
    pictured s t' mn ca S h g → call_on t c ∨ c = Discard t → legal dom domV (after hi) c →
    match exec cb c s with
    | ORet _ s' | OErr _ s' => pictured s' t' mn ca S h g ∧ ∀ l, l ∈ locs g ++ S → disk s' !! l = disk s !! l
    | OStop _ _ => True
    end.
  Proof using WF.
    intros HH Hm Hm' Hne HP' Hc Hl.
    destruct (tree_shape cb dom domV WF _ _ _ _ HH Hm) as (mn0 & ca0 & S0 & h0 & g0 & HP & _).
    destruct (hist_pic cb dom domV WF _ _ _ _ _ _ _ _ _ HH Hm HP) as (i & f & lv & root & σ & σf & Hon & _ & -> & HS).
    destruct (hist_pic cb dom domV WF _ _ _ _ _ _ _ _ _ HH Hm' HP') as (i' & f' & lv' & root' & σ1 & σf1 & Hon' & _ & -> & HS').
    destruct (seat_other _ _ _ _ _ _ _ _ _ _ _ _ _ _ _ _ _ HS Hon Hon' Hne) as (ca2 & root2 & S2 & h2 & g2 & σ2 & Hok2 & HX2 & Hs2).
    pose proof (tree_pictured cb dom domV _ _ _ _ _ _ _ _ _ Hok2 (views_sub _ _ _ _ (se_disj _ _ _ _ _ _ _ _ _ _ _ _ _ _ _ _ HS) (se_views _ _ _ _ _ _ _ _ _ _ _ _ _ _ _ _ HS) Hs2) HX2) as HP2.
    destruct (pictured_inj cb dom domV WF _ _ _ _ _ _ _ _ _ _ _ _ HP' HP2) as (_ & -> & -> & -> & ->).
    pose proof (tree_owns cb dom domV _ _ _ _ _ _ _ _ Hok2 HX2) as Ho2.
    destruct (hist_facts cb dom domV WF _ _ HH) as (_ & _ & HW).
    assert (∀ s' σ', σ' ##ₘ σf → views s' (σ' ∪ σf) → pictured s' t' (mnof f') ca S h g ∧ ∀ l, l ∈ locs g ++ S → disk s' !! l = disk s !! l) as Hfin.
    { intros s' σ' Hd Hv. split.
      - eapply tree_pictured; [exact Hok2| |exact HX2]. by eapply views_sub.
      - intros l Hin. destruct (ow_D' _ _ _ _ _ Ho2 l Hin) as (b & Hb & _).
        pose proof (views_sub _ _ _ _ Hd Hv Hs2 _ _ Hb) as H1.
        pose proof (views_sub _ _ _ _ (se_disj _ _ _ _ _ _ _ _ _ _ _ _ _ _ _ _ HS) (se_views _ _ _ _ _ _ _ _ _ _ _ _ _ _ _ _ HS) Hs2 _ _ Hb) as H2.
        cbn in H1, H2. destruct (disk s' !! l), (disk s !! l); cbn in *; congruence. }
    pose proof HS as [H1 H2 H3 H4 H5 H6 H7 H8]. destruct Hc as [Hc| ->].
    - assert (∀ j, c = TouchItem t j → 0 ≤ j) as Hj. { intros j ->. apply Hl. }
      assert (∀ c', c = MapCall t c' → Forall dom (call_keys c') ∧ Forall domV (call_vals c')) as Hk.
      { intros c' ->. destruct Hl as (_ & Hl1 & Hl2). split; [done|]. destruct c'; cbn in *; repeat constructor; done. }
      pose proof (seat_run cb dom domV _ _ _ _ _ _ _ _ _ _ _ _ _ _ _ _ _ HW HS (call_wp cb dom domV WF (mnof f) t ca0 root S0 h0 g0 c H1 H2 Hc Hj Hk)) as HR.
      destruct (exec cb c s) as [r s'|e s'|]; [..|done]; destruct HR as (σ' & Hd & Hv & _); by eapply Hfin.
    - pose proof (bt_Discard_spec cb dom domV WF (mnof f) H1 t ca0 root S0 h0 g0 H2) as HD.
      pose proof (seat_run cb dom domV _ _ _ _ _ _ _ _ _ _ _ _ _ _ _ _ _ HW HS HD) as HR.
      cbn [exec]. rewrite run_bind. destruct (bt_Discard cb t s) as [r s'|e s'|]; [..|done]; destruct HR as (σ' & Hd & Hv & _); by eapply Hfin.
  Qed.

  (** ** The shape of a tree *)
  Theorem pictured_capacity hi s t m mn ca S h g : history hi s → contents (after hi) t = Some m → pictured s t mn ca S h g →
    capacity (after hi) t = Some (2 * Z.of_nat mn).
  Proof using WF.
    intros HH Hm HP. destruct (hist_pic cb dom domV WF _ _ _ _ _ _ _ _ _ HH Hm HP) as (i & f & lv & root & σ & σf & Hon & _ & -> & HS).
    destruct (hist_facts cb dom domV WF _ _ HH) as (_ & _ & HW).
    destruct (ot_mn cb dom domV _ _ _ _ _ _ Hon HW) as [_ Hmn].
    unfold capacity. rewrite (ot_fam _ _ _ _ _ Hon). cbn. f_equal. unfold mnof in *. lia.
  Qed.
  Theorem height_log hi s t m mn ca S h g : history hi s → contents (after hi) t = Some m → pictured s t mn ca S h g →
    1 + Z.of_nat h ≤ Z.max 1 (Z.log2 (Z.of_nat (length m))).
  Proof using WF.
    intros HH Hm HP. destruct (height_bound cb dom domV WF _ _ _ _ _ _ _ _ _ HH Hm HP) as (Hmn & _ & _ & [->|Hh]); [lia|].
    apply Z.le_trans with (Z.log2 (Z.of_nat (length m))); [|lia]. apply Z.log2_le_pow2.
    - assert (0 < Z.of_nat mn ^ Z.of_nat h) by (apply Z.pow_pos_nonneg; lia). lia.
    - rewrite Z.pow_add_r; [|lia..]. assert (2 ^ Z.of_nat h ≤ Z.of_nat mn ^ Z.of_nat h) by (apply Z.pow_le_mono_l; lia). lia.
  Qed.

  (** ** Prune *)
  Lemma imaged_ext D D' : ∀ h mx (d : dt K V), (∀ l, l ∈ dlocs d → D' l = D l) → imaged cb D h mx d → imaged cb D' h mx d.
  Proof.
    induction h as [|h IH]; intros mx [l kvs|l ks ds] HD; try done.
    - intros (?&?). split; [|done]. rewrite HD; [done|by left].
    - intros (H1&?&?&?&?&?&HF). split_and!; try done; [rewrite HD; [done|by left]|]. rewrite !Forall_forall in HF |- *. intros d Hd.
      apply IH; [|by apply HF]. intros l' Hl'. apply HD. right. apply elem_of_list_join. exists (dlocs d). split; [done|]. by apply elem_of_list_fmap_1.
  Qed.
  Lemma pictured_image s t mn ca S h g d : pictured s t mn ca S h g → image g = Some d → imaged cb (λ l, disk s !! l) h (Some (2 * Z.of_nat mn)) d.
  Proof.
    intros HP Hd. pose proof (pc_shown _ _ _ _ _ _ _ _ _ _ HP) as Hs. destruct g as [n d'|n st kvs|n st ks cs].
    - injection Hd as ->. destruct h; apply Hs.
    - destruct st; try done. destruct h; [|done]. destruct Hs as [_ (d' & Hd' & Hi)]. by simplify_eq.
    - destruct st; try done. destruct h; [done|]. destruct Hs as (_ & _ & _ & (d' & Hd' & Hi)). by simplify_eq.
  Qed.
  Lemma stored_image hi s t m mn ca S h g l : history hi s → contents (after hi) t = Some m → status (after hi) t = Some (Stored l) → pictured s t mn ca S h g →
    ∃ d, image g = Some d ∧ dloc d = l ∧ imaged cb (λ l, disk s !! l) h (Some (2 * Z.of_nat mn)) d.
  Proof using WF.
    intros HH Hm Hst HP. destruct (tree_shape cb dom domV WF _ _ _ _ HH Hm) as (mn' & ca' & S' & h' & g' & HP' & _ & _ & _ & Hl & _).
    destruct (pictured_inj cb dom domV WF _ _ _ _ _ _ _ _ _ _ _ _ HP HP') as (-> & -> & -> & -> & ->).
    rewrite Hst in Hl. pose proof (pc_shown _ _ _ _ _ _ _ _ _ _ HP) as Hs. destruct g as [n d|n st kvs|n st ks cs]; cbn in Hl.
    - exists d. injection Hl as <-. split_and!; [done|done|]. destruct h; apply Hs.
    - destruct st; try done. injection Hl as <-. destruct h; [|done]. destruct Hs as [_ (d & Hd & Hi)]. exists d. split_and!; [done| |done].
      apply image_gloc in Hd. by injection Hd.
    - destruct st; try done. injection Hl as <-. destruct h; [done|]. destruct Hs as (_ & _ & _ & (d & Hd & Hi)). exists d. split_and!; [done| |done].
      apply image_gloc in Hd. by injection Hd.
  Qed.
  (** Prune of a tree without unsaved changes, also if it fails or the process
      dies in it, removes no block that can be reached from the tree's location *)
  Theorem prune_unreachable hi s t m mn ca S h g l : history hi s → contents (after hi) t = Some m → status (after hi) t = Some (Stored l) → pictured s t mn ca S h g →
    ∃ d, dloc d = l ∧ items (dstrip d) = m ∧ imaged cb (λ l, disk s !! l) h (Some (2 * Z.of_nat mn)) d ∧
      (∀ l', disk (stof (exec cb (Prune t) s)) !! l' ≠ disk s !! l' → l' ∉ dlocs d) ∧
      imaged cb (λ l, disk (stof (exec cb (Prune t) s)) !! l) h (Some (2 * Z.of_nat mn)) d.
  Proof using WF.
    intros HH Hm Hst HP. destruct (stored_image _ _ _ _ _ _ _ _ _ _ HH Hm Hst HP) as (d & Hd & <- & Hi).
    destruct (tree_shape cb dom domV WF _ _ _ _ HH Hm) as (mn' & ca' & S' & h' & g' & HP' & _ & Hits & _ & _ & Hnd & Hin).
    destruct (pictured_inj cb dom domV WF _ _ _ _ _ _ _ _ _ _ _ _ HP HP') as (-> & -> & -> & -> & ->).
    rewrite (image_locs _ _ Hd) in Hnd Hin.
    assert (∀ l', l' ∈ dlocs d → disk (stof (exec cb (Prune t) s)) !! l' = disk s !! l') as Hk.
    { intros l' Hl'. destruct (Hin l') as [b Hb]; [apply elem_of_app; by left|]. rewrite Hb.
      eapply (prune_keeps cb dom domV); [exact HP| |done]. intros HS. apply NoDup_app in Hnd as (_ & Hnd & _). by eapply Hnd. }
    exists d. split_and!; [done|by rewrite -(image_strip _ _ Hd)|done| |].
    - intros l' Hne Hl'. by apply Hne, Hk.
    - eapply imaged_ext; [|exact Hi]. intros l' Hl'. by apply Hk.
  Qed.

  (** ** Accounting *)
  (** after Flush and Prune a tree owns the blocks of its stored image and no others *)
  Theorem flush_prune hi s t m ap r s1 r' s2 : history hi s → Forall (careful (V:=V)) hi → contents (after hi) t = Some m →
    exec cb (Flush t ap) s = ORet r s1 → exec cb (Prune t) s1 = ORet r' s2 →
    ∃ mn h d, r = RLoc (dloc d) ∧ items (dstrip d) = m ∧ imaged cb (λ l, disk s2 !! l) h (Some (2 * mn)) d ∧
      ∀ l, is_Some (disk s2 !! l) ↔ l ∈ dlocs d ∨
        ∃ t' m' mn ca S h g, t' ≠ t ∧ contents (after hi) t' = Some m' ∧ pictured s2 t' mn ca S h g ∧ l ∈ locs g ++ S.
  Proof using WF.
    intros HH Hc Hm H1 H2.
    assert (legal dom domV (after hi) (Flush t ap)) as Hl1 by by eapply legal_call.
    destruct (same_contents cb dom domV WF _ _ _ _ _ _ _ HH Hm Hl1 H1 I) as [HH1 Hm1].
    pose proof (legal_call cb dom domV _ _ _ (Prune t) Hm1 eq_refl I) as Hl2.
    destruct (same_contents cb dom domV WF _ _ _ _ _ _ _ HH1 Hm1 Hl2 H2 I) as [HH2 Hm2].
    destruct (tree_shape cb dom domV WF _ _ _ _ HH Hm) as (mn & ca & S & h & g & HP & _ & Hits & _).
    destruct (flush_exact cb dom domV WF _ _ _ _ _ _ _ _ _ _ _ _ HH Hm HP H1) as (g1 & d & HP1 & Hs1 & Hd1 & -> & Hlo & _).
    destruct (prune_exact cb dom domV WF _ _ _ _ _ _ _ _ _ _ _ HH1 Hm1 HP1 H2) as (HP2 & _).
    set (hi2 := (hi ++ [Done (Flush t ap) (RLoc (dloc d)) (made s s1)]) ++ [Done (Prune t) r' (made s1 s2)]) in *.
    assert (Forall (careful (V:=V)) hi2) as Hc2. { unfold hi2. rewrite !Forall_app !Forall_singleton. done. }
    assert (∀ t', t' ≠ t → contents (after hi2) t' = contents (after hi) t') as Hcon.
    { intros t' Hne. unfold hi2. rewrite !after_app. cbn [foldl Machine.next next_done]. rewrite !contents_upd_other; try done; intros f lv lv' Hlv Hlv'; cbn in Hlv'; simplify_eq; done. }
    exists (Z.of_nat mn), h, d. split_and!; [done|by rewrite -(image_strip _ _ Hd1) Hs1| |].
    - by eapply pictured_image.
    - intros l. rewrite (no_leak cb dom domV WF _ _ l HH2 Hc2). split.
      + intros (t' & m' & mn' & ca' & S' & h' & g' & Hm' & HP' & Hin). destruct (decide (t' = t)) as [->|Hne]; [left|right].
        * destruct (pictured_inj cb dom domV WF _ _ _ _ _ _ _ _ _ _ _ _ HP2 HP') as (-> & -> & -> & -> & ->). rewrite app_nil_r in Hin. by rewrite -Hlo.
        * exists t', m', mn', ca', S', h', g'. split_and!; try done. by rewrite -Hcon.
      + intros [Hin|(t' & m' & mn' & ca' & S' & h' & g' & Hne & Hm' & HP' & Hin)].
        * exists t, m, mn, ca, [], h, g1. split_and!; [done|done|]. by rewrite app_nil_r Hlo.
        * exists t', m', mn', ca', S', h', g'. split_and!; try done. by rewrite Hcon.
  Qed.
  Theorem all_gone hi s : history hi s → Forall (careful (V:=V)) hi → (∀ t, contents (after hi) t = None) → disk s = ∅.
  Proof using WF.
    intros HH Hc Hn. apply map_empty. intros l. destruct (disk s !! l) as [b|] eqn:Hb; [|done].
    destruct (proj1 (no_leak cb dom domV WF _ _ l HH Hc)) as (t & m & mn & ca & S & h & g & Hm & _); [by eexists|]. by rewrite Hn in Hm.
  Qed.
End aside.

Lemma storage_effects {K V} (cb : callbacks K V) (c : cmd K V) (s : st K V) :
  let s' := stof (exec cb c s) in
  match c with
  | Flush _ _ => ∀ l b, disk s !! l = Some b → disk s' !! l = Some b
  | Prune _ | Discard _ => ∀ l b, disk s' !! l = Some b → disk s !! l = Some b
  | _ => disk s' = disk s
  end.
Proof.
  intros s'. subst s'. pose proof (ls_exec cb false c) as HF. pose proof (ls_exec cb true c) as HT.
  destruct c; try (exact (HF I s)); intros l b Hb.
  - by eapply keeps_blocks.
  - eapply lookup_weaken; [exact Hb|]. exact (HT eq_refl s).
  - eapply lookup_weaken; [exact Hb|]. exact (HT eq_refl s).
Qed.

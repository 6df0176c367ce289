(** * Trees that are only in memory

    A tree that owns no block uses no storage.  Models no code. *)
From Coq Require Import ssreflect.
From stdpp Require Import prelude list gmap.
From iris.bi Require Import bi.
From iris.proofmode Require Import proofmode.
From Verif Require Import Spec SpecFacts BTree HProp Lru Wp Kv Codec Ghost Order PsTree Rep Load Search Update Plug Insert Borrow Merge Rebal Api Walk Touch Maint Report Open Pres Machine Still World Client Sample Disk Picture Hist Seat History Footprint Aside Cache CacheHist Mute.
Open Scope Z_scope.

Global Instance KD_inj : Inj (=) (=) KD.
Proof. by intros ?? [= ->]. Qed.
Definition isKD (k : rkey) : bool := match k with KD _ => true | _ => false end.
(** a storage of a given size without a given block *)
Lemma avoiding (n : nat) (l : loc) : ∃ D : gmap loc bytes, size D = n ∧ D !! l = None.
Proof.
  induction n as [|n (D & HD & Hl)]; [by exists ∅|].
  pose (x := base.fresh (base.dom D ∪ {[l]} : gset loc)). assert (x ∉ (base.dom D ∪ {[l]} : gset loc)) as Hx by apply is_fresh.
  apply not_elem_of_union in Hx as [Hx1%not_elem_of_dom Hx2%not_elem_of_singleton].
  exists (<[x := []]> D). split; [by rewrite map_size_insert_None // HD|by rewrite lookup_insert_ne].
Qed.

Section mem.
  Context {K V : Type}.
  Variable cb : callbacks K V.
  Variable dom : K → Prop.
  Variable domV : V → Prop.
  Hypothesis WF : wf_cb cb dom domV.
  Notation cmp := (cb_cmp cb).
  Notation st := (st K V).
  Notation gt := (gt K V).
  Notation heap := (gmap rkey (rval K V)).
  Notation world := (world K V).
  Notation event := (event K V).
  Notation hProp := (hProp K V).
  Notation history := (history cb dom domV).
  Notation after := (after cmp).
  Notation winv := (winv cb dom domV).
  Notation treeok := (treeok cb dom domV).
  Notation famres := (famres cb dom domV).
  Notation whole := (whole cb dom).
  Notation pictured := (pictured cb dom domV).
  Notation seat := (seat cb dom domV).
  Implicit Types (w : world) (s : st) (g : gt) (l : loc) (t : tid) (σ : heap) (e : event).

  Lemma veil_views D O s σ σf : σ ##ₘ σf → views s (σ ∪ σf) → (∀ l, σ !! KD l = None) →
    ∃ σf', σ ##ₘ σf' ∧ views (veil D O s) (σ ∪ σf').
  Proof.
    intros Hd Hv Hn. pose (σ1 := filter (λ p : rkey * rval K V, isKD p.1 = false) σf : heap). pose (σ2 := kmap KD (RD <$> D) : heap).
    assert (∀ k, isKD k = false → σ2 !! k = None) as H2.
    { intros k Hk. apply (lookup_kmap_None KD). intros l ->. done. }
    assert (∀ k, isKD k = false → σ1 !! k = σf !! k) as H1.
    { intros k Hk. unfold σ1. destruct (σf !! k) eqn:E; [by apply map_filter_lookup_Some|apply map_filter_lookup_None; by left]. }
    assert (∀ l, σ1 !! KD l = None) as H1'.
    { intros l. apply map_filter_lookup_None. right. by intros x _ [=]. }
    exists (σ1 ∪ σ2). split.
    - apply map_disjoint_spec. intros k x y Hx Hy. destruct (isKD k) eqn:E.
      + destruct k; try done. by rewrite Hn in Hx.
      + rewrite lookup_union H1 // H2 // right_id in Hy. by eapply (map_disjoint_spec σ σf).
    - intros k. rewrite !lookup_union. destruct (isKD k) eqn:E.
      + destruct k; try done. rewrite Hn H1' !left_id. cbn. unfold σ2. by rewrite lookup_kmap lookup_fmap.
      + rewrite H1 // H2 // right_id -lookup_union -Hv. by destruct k.
  Qed.
  Lemma seat_nodisk w s t i f lv ca root S h g σ σf l : seat w s t i f lv ca root S h g σ σf → locs g ++ S = [] → σ !! KD l = None.
  Proof.
    intros HS Hn. pose proof (seat_owns cb dom domV _ _ _ _ _ _ _ _ _ _ _ _ _ HS) as Ho. destruct (σ !! KD l) as [v|] eqn:Hv; [|done].
    assert (viewf s (KD l) = Some v) as Hk. { rewrite (se_views _ _ _ _ _ _ _ _ _ _ _ _ _ _ _ _ HS). by apply lookup_union_Some_l. }
    cbn in Hk. destruct (disk s !! l); [|done]. injection Hk as <-. apply (ow_D _ _ _ _ _ Ho) in Hv. rewrite Hn in Hv. by apply elem_of_nil in Hv.
  Qed.
  (** ** A call on a tree without blocks *)
  Lemma seat_mute w s t i f lv ca root S h g σ σf c : winv w s → seat w s t i f lv ca root S h g σ σf → locs g ++ S = [] →
    call_on t c → unstored c → legal dom domV w c → mute (exec cb c) s.
  Proof using WF.
    intros HW HS Hn Hc Hu Hl. destruct (hu_exec cb c Hu s) as [|[_ [l Ha]]]; [done|exfalso].
    destruct (avoiding (size (disk s)) l) as (D & HD & HDl).
    pose (O := λ i, Choice false false (ch_num (orc s i)) (ch_off (orc s i)) (ch_pick (orc s i))).
    destruct (Ha D O HD) as [s' Hs']; [done|done|done|].
    pose proof HS as [H1 H2 H3 H4 H5 H6 H7 H8].
    destruct (veil_views D O s σ σf H7 H8) as (σf' & Hd & Hv). { intros l'. by eapply seat_nodisk. }
    assert (∀ j, c = TouchItem t j → 0 ≤ j) as Hj by (intros j ->; apply Hl).
    assert (∀ c', c = MapCall t c' → Forall dom (call_keys c') ∧ Forall domV (call_vals c')) as Hk.
    { intros c' ->. destruct Hl as (_ & Hl1 & Hl2). split; [done|]. destruct c'; cbn in *; repeat constructor; done. }
    destruct (call_wp cb dom domV WF (mnof f) t ca root S h g c H1 H2 Hc Hj Hk) as [Hwp]. specialize (Hwp σ H5). apply wp_run in Hwp.
    assert (Inv (veil D O s)) as HI. { destruct (wi_inv _ _ _ _ _ HW) as [[L HL] ????]. split; try done. exists L. by eapply lru_ext. }
    specialize (Hwp σf' (veil D O s) Hd Hv HI). rewrite Hs' in Hwp. destruct Hwp as [[_ Hca] _]. destruct (Hca eq_refl) as (j & _ & Hf). done.
  Qed.
  (** ** The tree while others work *)
  Lemma frame_run {A} io w s t i f lv ca root S h g σ σf (m : M K V A) Q E σ0 : winv w s → seat w s t i f lv ca root S h g σ σf →
    wp io m Q E σ0 → σ0 ⊆ σf →
    match m s with ORet _ s' | OErr _ s' => pictured s' t (mnof f) ca S h g | OStop _ _ => True end.
  Proof.
    intros HW HS Hwp Hsub. pose proof HS as [H1 H2 H3 H4 H5 H6 H7 H8]. apply wp_run in Hwp.
    assert (σ0 ##ₘ σ ∪ (σf ∖ σ0)) as Hd.
    { apply map_disjoint_union_r. split; [|by apply map_disjoint_difference_r]. symmetry. by eapply map_disjoint_weaken_r. }
    assert (σ0 ∪ (σ ∪ (σf ∖ σ0)) = σ ∪ σf) as HU.
    { rewrite assoc_L (map_union_comm σ0 σ) -?assoc_L; [|symmetry; by eapply map_disjoint_weaken_r]. by rewrite map_difference_union. }
    specialize (Hwp (σ ∪ (σf ∖ σ0)) s Hd). rewrite HU in Hwp. specialize (Hwp H8 (wi_inv _ _ _ _ _ HW)).
    assert (∀ s' σ', σ' ##ₘ σ ∪ (σf ∖ σ0) → views s' (σ' ∪ (σ ∪ (σf ∖ σ0))) → pictured s' t (mnof f) ca S h g) as Hfin.
    { intros s' σ' Hd' Hv'. eapply tree_pictured; [exact H2| |exact H5]. intros k v Hk. rewrite Hv'. apply lookup_union_Some_r; [done|]. by apply lookup_union_Some_l. }
    destruct (m s) as [a s'|e s'|[] s']; try done; destruct Hwp as (_ & σ' & Hd' & Hv' & _); by eapply Hfin.
  Qed.
  Lemma old_wp l a f its : fm_live f = None → fm_snaps f !! l = Some its →
    famres f ⊢ wp true (exec cb (OldTree l a)) (λ _, True) (λ _, True).
  Proof using WF.
    intros Hl Hits.
    assert (famres f ⊢ ∃ h d, <affine> ⌜dloc d = l ∧ items (dstrip d) = its ∧ good cmp dom domV (toks (dstrip d)) ∧ wfo (mnof f) (rlow h) h (dstrip d)⌝ ∗
      (dsk cb h (Some (2 * Z.of_nat (mnof f))) d ∗ True)) as HX.
    { constructor. intros σ [HB HS]. destruct (HS l its Hits) as (h & d & H1 & H2 & H3 & H4 & H5).
      exists h, d. destruct H5 as (σ1 & σ2 & -> & Hd & H5 & _).
      assert ((dsk cb h (Some (2 * Z.of_nat (mnof f))) d ∗ True)%I (σ1 ∪ σ2)) as HX by by exists σ1, σ2.
      revert HX. apply entails_holds. by iIntros "$". }
    etrans; [exact HX|]. iIntros "(%h & %d & %HY & A & B)". destruct HY as (<- & H2 & H3 & H4). cbn [exec]. iApply wp_bind.
    iPoseProof (bt_Old_spec cb dom domV WF (mnof f) a h d H3 H4 with "A") as "W".
    iApply (wp_wand with "W"). iSplit; [|iIntros (e) "C"; by iStopProof; apply bi.True_intro]. iIntros (t) "C". iApply wp_ret. by iStopProof; apply bi.True_intro.
  Qed.
  Lemma limits_wp lo hi : emp ⊢ wp (K:=K) (V:=V) false (exec cb (UpdateLimits lo hi)) (λ _, True) (λ _, True).
  Proof.
    cbn [exec]. iIntros "_". iApply wp_bind. unfold cache_UpdateLimits. iApply wp_atomic_bind. iApply wp_modCache; [by intros c []|].
    iApply wp_kickDrainer. by iApply wp_ret.
  Qed.
  Lemma select_wp : emp ⊢ wp (K:=K) (V:=V) false (exec cb DrainSelect) (λ _, True) (λ _, True).
  Proof.
    cbn [exec]. iIntros "_". iApply wp_bind.
    unfold drainerSelect. iApply wp_atomic_bind. iApply wp_atomic. iApply wp_getCache. iIntros (c). destruct (_ || _).
    - iApply wp_atomic_bind. iApply wp_modCache; [by intros ? []|]. iApply wp_atomic. iApply wp_ret. by iApply wp_ret.
    - destruct (qhead (c_clean c)); [iApply wp_atomic; iApply wp_ret; by iApply wp_ret|].
      iApply wp_atomic_bind. iApply wp_modCache; [by intros ? []|]. iApply wp_atomic. iApply wp_ret. by iApply wp_ret.
  Qed.
  Lemma new_wp max a : 4 ≤ max → Z.even max = true → emp ⊢ wp (K:=K) (V:=V) false (exec cb (NewTree max a)) (λ _, True) (λ _, True).
  Proof.
    intros H4 Hev. pose (mn := Z.to_nat (max / 2)).
    assert (max = 2 * Z.of_nat mn) as Hmax.
    { apply Z.even_spec in Hev as [q ->]. unfold mn. rewrite Z.mul_comm Z.div_mul //. lia. }
    assert (2 ≤ mn)%nat as Hmn by lia. cbn [exec]. rewrite Hmax.
    iIntros "_". iApply wp_bind. iPoseProof (bt_New_spec cb dom mn Hmn false a) as "W". iApply (wp_wand with "W"). iSplit; [|by iIntros (e) "?"].
    iIntros (t) "C". iApply wp_ret. by iStopProof; apply bi.True_intro.
  Qed.
  (** calls on no tree *)
  Definition on_none (c : cmd K V) : Prop :=
    match c with NewTree _ _ | OldTree _ _ | UpdateLimits _ _ | DrainSelect | Forget _ => True | _ => False end.
  Theorem bystander_none hi s t m mn ca S h g c : history hi s → contents (after hi) t = Some m → pictured s t mn ca S h g → on_none c → legal dom domV (after hi) c →
    match exec cb c s with ORet _ s' | OErr _ s' => pictured s' t mn ca S h g | OStop _ _ => True end.
  Proof using WF.
    intros HH Hm HP Hc Hl. destruct (hist_facts cb dom domV WF _ _ HH) as (_ & _ & HW).
    destruct (hist_pic cb dom domV WF _ _ _ _ _ _ _ _ _ HH Hm HP) as (i & f & lv & root & σ & σf & Hon & _ & -> & HS).
    assert ((emp : hProp)%I ∅) as H0 by apply alldrop_empty.
    destruct c as [max a|l a| | | | | | | | | | | | |t'|lo hi'| |]; try done.
    - destruct (new_wp max a (proj1 Hl) (proj2 Hl)) as [Hwp]. eapply frame_run; [done..|by apply Hwp|]. apply map_empty_subseteq.
    - destruct Hl as (i' & f' & Hf & Hn). apply list_find_Some in Hf as (Hi' & [its Hits] & _).
      destruct (ot_at _ _ _ _ _ Hon) as [Hi _]. assert (i ≠ i') as Hii.
      { intros <-. rewrite Hi in Hi'. injection Hi' as <-. rewrite (ot_live _ _ _ _ _ Hon) in Hn. done. }
      destruct (se_rest _ _ _ _ _ _ _ _ _ _ _ _ _ _ _ _ HS) as (σj & σr & Heq & Hd & _ & HR).
      destruct (big_in _ _ _ f' HR) as (σ3 & H3 & Hs).
      { destruct (decide (i' < i)%nat).
        - apply (elem_of_list_lookup_2 _ i'). by rewrite lookup_delete_lt.
        - apply (elem_of_list_lookup_2 _ (pred i')). rewrite lookup_delete_ge; [|lia]. by replace (Datatypes.S (pred i')) with i' by lia. }
      destruct (old_wp l a f' its Hn Hits) as [Hwp]. eapply frame_run; [done..|by apply Hwp|]. rewrite Heq. etrans; [done|]. by apply map_union_subseteq_r.
    - destruct (limits_wp lo hi') as [Hwp]. eapply frame_run; [done..|by apply Hwp|]. apply map_empty_subseteq.
    - destruct select_wp as [Hwp]. eapply frame_run; [done..|by apply Hwp|]. apply map_empty_subseteq.
  Qed.

  (** ** Trees that were never stored *)
  (** neither stored nor partly stored by [e] *)
  Definition unflushed t e : Prop := match e with Done (Flush t' _) _ _ | Failed (Flush t' _) _ _ => t' ≠ t | _ => True end.
  Definition bare s t : Prop := ∃ mn ca h g, pictured s t mn ca [] h g ∧ locs g = [].
  Lemma bare_new w s max a : winv w s → 4 ≤ max → Z.even max = true →
    match exec cb (NewTree max a) s with ORet r s' => ∀ t, r = RTree t → bare s' t | _ => True end.
  Proof.
    intros HW H4 Hev. pose (mn := Z.to_nat (max / 2)).
    assert (max = 2 * Z.of_nat mn) as Hmax.
    { apply Z.even_spec in Hev as [q ->]. unfold mn. rewrite Z.mul_comm Z.div_mul //. lia. }
    assert (2 ≤ mn)%nat as Hmn by lia.
    assert (emp ⊢ wp (K:=K) (V:=V) false (exec cb (NewTree max a))
      (λ r, ∃ t rt, <affine> ⌜r = RTree t⌝ ∗ (isTR mn t a rt [] ∗ whole mn t a 0 (GL rt Dirty []))) (λ _, False)) as [Hwp].
    { cbn [exec]. rewrite {1}Hmax. iIntros "_". iApply wp_bind. iPoseProof (bt_New_spec cb dom mn Hmn false a) as "W". iApply (wp_wand with "W").
      iSplit; [|by iIntros (e) "?"]. iIntros (t) "(%rt & A & B)". iApply wp_ret. iExists t, rt. by iFrame. }
    specialize (Hwp ∅ alldrop_empty). apply wp_run in Hwp. destruct (wi_res _ _ _ _ _ HW) as (σ & Hv & _).
    specialize (Hwp σ s ltac:(apply map_disjoint_empty_l)). rewrite left_id_L in Hwp. specialize (Hwp Hv (wi_inv _ _ _ _ _ HW)).
    destruct (exec cb (NewTree max a) s) as [r s'|e s'|]; [|done..]. destruct Hwp as (_ & σ' & Hd' & Hv' & _ & (t & rt & HX)).
    apply holds_affine in HX as [-> HX]. intros t' [= <-]. exists mn, a, 0%nat, (GL rt Dirty []). split; [|done].
    eapply tree_pictured; [by apply new_treeok|by eapply views_within|exact HX].
  Qed.
  Lemma bare_calls hi s t m c : history hi s → contents (after hi) t = Some m → bare s t → call_on t c → (∀ ap, c ≠ Flush t ap) → legal dom domV (after hi) c →
    match exec cb c s with
    | ORet _ s' => bare s' t
    | OErr _ s' => fragile c = false → bare s' t
    | OStop _ _ => True
    end.
  Proof using WF.
    intros HH Hm (mn & ca & h & g & HP & Hn) Hc Hf Hl. destruct (hist_facts cb dom domV WF _ _ HH) as (_ & _ & HW).
    destruct (hist_pic cb dom domV WF _ _ _ _ _ _ _ _ _ HH Hm HP) as (i & f & lv & root & σ & σf & Hon & _ & -> & HS).
    pose proof (seat_call cb dom domV WF _ _ _ _ _ _ _ _ _ _ _ _ _ _ HW HS Hc Hl) as HC.
    assert (∀ l b, disk (stof (exec cb c s)) !! l = Some b → disk s !! l = Some b) as Hdk.
    { intros l b. pose proof (storage_effects cb c s) as HE. cbn in HE. destruct c; try (rewrite HE; done); try (by apply HE).
      cbn in Hc. subst. by edestruct Hf. }
    assert (∀ s' S' h' g', (∀ l b, disk s' !! l = Some b → disk s !! l = Some b) → moved cb dom domV s t (mnof f) ca [] h g s' S' h' g' → bare s' t) as Hfin.
    { intros s' S' h' g' Hs [H1 H2 H3 H4 H5 H6]. rewrite Hn in H6. assert (locs g' ++ S' = []) as Hnil.
      { destruct (locs g' ++ S') as [|l L] eqn:E; [done|exfalso]. destruct (H5 l) as [b Hb]; [by left|].
        destruct (proj1 (H6 l b)) as [_ Hni]; [|apply Hni; by left]. split; [by apply Hs|]. by apply not_elem_of_nil. }
      apply app_nil in Hnil as [Hg ->]. by exists (mnof f), ca, h', g'. }
    destruct (exec cb c s) as [r s'|e s'|]; [..|done]; cbn in Hdk.
    - destruct HC as (S' & h' & g' & _ & HM). by eapply Hfin.
    - intros Hfr. destruct (HC Hfr) as (S' & h' & g' & _ & HM). by eapply Hfin.
  Qed.
  Lemma legal_tree hi t c : call_on t c ∨ c = Discard t → legal dom domV (after hi) c → ∃ m, contents (after hi) t = Some m.
  Proof.
    intros Hc Hl. assert (∃ f lv, usable (after hi) t f lv) as (f & lv & Hu).
    { destruct c; cbn in Hc, Hl; destruct Hc as [Hc|Hc]; simplify_eq; try done; by destruct Hl. }
    exists (lv_items lv). apply contents_usable. by exists f, lv.
  Qed.
  Lemma bare_step hi s t m e s' : history hi s → contents (after hi) t = Some m → bare s t → steps cb s [e] s' → legal_event dom domV (after hi) e →
    spares t e → unflushed t e → bare s' t.
  Proof using WF.
    intros HH Hm HB Hst Hl Hs Hu. pose proof HB as (mn & ca & h & g & HP & Hn).
    assert (∀ c, legal dom domV (after hi) c → (∃ t', call_on t' c ∨ c = Discard t') → (call_on t c ∨ c = Discard t → False) →
      match exec cb c s with ORet _ s' | OErr _ s' => bare s' t | OStop _ _ => True end) as Hother.
    { intros c Hlc [t' Hc] Hne. destruct (legal_tree _ _ _ Hc Hlc) as [m' Hm'].
      assert (t ≠ t') as Ht by (by intros <-). pose proof (bystander cb dom domV WF _ _ _ _ _ _ _ _ _ _ _ _ HH Hm' Hm Ht HP Hc Hlc) as HX.
      destruct (exec cb c s); [..|done]; destruct HX as [HX _]; by exists mn, ca, h, g. }
    assert (∀ c, legal dom domV (after hi) c → on_none c →
      match exec cb c s with ORet _ s' | OErr _ s' => bare s' t | OStop _ _ => True end) as Hnone.
    { intros c Hlc Hc. pose proof (bystander_none _ _ _ _ _ _ _ _ _ _ HH Hm HP Hc Hlc) as HX.
      destruct (exec cb c s); [..|done]; by exists mn, ca, h, g. }
    assert (∀ n, legal dom domV (after hi) (DrainEvict n) →
      match exec cb (DrainEvict n) s with ORet _ s' | OErr _ s' => bare s' t | OStop _ _ => True end) as Hev.
    { intros n Hlc. destruct (hist_lists cb dom domV WF _ _ HH) as (cl & d & x & HL & _).
      destruct (evict_run cb dom domV WF _ _ _ _ _ HH Hlc HL) as [H1 H2]. destruct (decide (n ∈ cl)) as [Hin|Hin].
      - destruct (H2 Hin) as (s2 & c' & -> & _ & _ & _ & _ & _ & HX). destruct (HX _ _ _ _ _ _ _ Hm HP) as (g' & HP' & _ & Hlo & _).
        exists mn, ca, h, g'. split; [done|]. by rewrite Hlo.
      - by rewrite (H1 Hin). }
    inversion Hst as [|s0 c r s1 h0 s2 He Hst'|s0 c er s1 h0 s2 He Hst'| |]; subst; [..|done|done]; inversion Hst'; subst; clear Hst'.
    - cbn in Hl. assert ((∃ t', call_on t' c ∨ c = Discard t') ∨ on_none c ∨ ∃ n, c = DrainEvict n) as [Hk|[Hk|[n ->]]] by (destruct c; cbn; eauto 6).
      + destruct Hk as [t' Hc]. destruct (decide (t' = t)) as [->|Hne].
        * destruct Hc as [Hc| ->]; [|by cbn in Hs].
          assert (∀ ap, c ≠ Flush t ap) as Hf. { intros ap ->. by cbn in Hu. }
          pose proof (bare_calls _ _ _ _ _ HH Hm HB Hc Hf Hl) as HX. by rewrite He in HX.
        * specialize (Hother c Hl (ex_intro _ t' Hc)). rewrite He in Hother. apply Hother. intros Hc'. apply Hne. clear -Hc Hc'. destruct c; cbn in *; naive_solver.
      + specialize (Hnone c Hl Hk). by rewrite He in Hnone.
      + specialize (Hev n Hl). by rewrite He in Hev.
    - cbn in Hl. assert ((∃ t', call_on t' c ∨ c = Discard t') ∨ on_none c ∨ ∃ n, c = DrainEvict n) as [Hk|[Hk|[n ->]]] by (destruct c; cbn; eauto 6).
      + destruct Hk as [t' Hc]. destruct (decide (t' = t)) as [->|Hne].
        * destruct Hc as [Hc| ->]; [|by cbn in Hs].
          assert (∀ ap, c ≠ Flush t ap) as Hf. { intros ap ->. by cbn in Hu. }
          pose proof (bare_calls _ _ _ _ _ HH Hm HB Hc Hf Hl) as HX. rewrite He in HX. apply HX.
          destruct c as [| |t' c| | | | | | | | | | | | | | |]; cbn in Hc, Hs |- *; subst; try done. destruct Hs as [|Hs]; [done|]. by destruct c.
        * specialize (Hother c Hl (ex_intro _ t' Hc)). rewrite He in Hother. apply Hother. intros Hc'. apply Hne. clear -Hc Hc'. destruct c; cbn in *; naive_solver.
      + specialize (Hnone c Hl Hk). by rewrite He in Hnone.
      + specialize (Hev n Hl). by rewrite He in Hev.
  Qed.
  Theorem mem_bare h1 h2 s t max b cbs : history (h1 ++ Done (NewTree max b) (RTree t) cbs :: h2) s → Forall (spares t) h2 → Forall (unflushed t) h2 →
    (∃ m, contents (after (h1 ++ Done (NewTree max b) (RTree t) cbs :: h2)) t = Some m) ∧ bare s t.
  Proof using WF.
    rewrite cons_middle app_assoc. set (h0 := h1 ++ [Done (NewTree max b) (RTree t) cbs]). intros HH Hs Hu.
    assert (contents (after h0) t = Some []) as H0.
    { destruct (hist_after cb dom domV WF h1 (Done (NewTree max b) (RTree t) cbs :: h2) s) as [[Hr _] _]. { by rewrite cons_middle app_assoc. }
      destruct Hr as (t' & [= <-] & Hn & _). unfold h0. rewrite after_app. by apply new_contents. }
    split. { destruct (tree_view cb dom domV WF _ _ _ _ _ HH H0 Hs) as [_ ?]. eauto. }
    revert s HH. induction h2 as [|e h2 IH] using rev_ind; intros s HH.
    - rewrite app_nil_r in HH. destruct (hist_app cb dom domV _ _ _ HH) as (s0 & HH0 & Hst). destruct (hist_after cb dom domV WF _ _ _ HH) as [_ [[Hl1 Hl2] _]].
      destruct (hist_facts cb dom domV WF _ _ HH0) as (_ & _ & HW). pose proof (bare_new _ _ max b HW Hl1 Hl2) as HN.
      inversion Hst as [|? ? ? s1 ? ? He Hst'| | |]; subst. inversion Hst'; subst. rewrite He in HN. by apply HN.
    - apply Forall_app in Hs as [Hs [Hse _]%Forall_cons]. apply Forall_app in Hu as [Hu [Hue _]%Forall_cons]. rewrite app_assoc in HH.
      destruct (hist_app cb dom domV _ _ _ HH) as (s0 & HH0 & Hst). destruct (hist_after cb dom domV WF _ _ _ HH) as [_ [Hl _]].
      destruct (tree_view cb dom domV WF _ _ _ _ _ HH0 H0 Hs) as [_ Hm]. by eapply bare_step; [exact HH0|exact Hm|by apply IH|..].
  Qed.
  Theorem mem_calls h1 h2 s t max b cbs c : let hi := h1 ++ Done (NewTree max b) (RTree t) cbs :: h2 in
    history hi s → Forall (spares t) h2 → Forall (unflushed t) h2 → call_on t c → unstored c → legal dom domV (after hi) c →
    match exec cb c s with
    | ORet _ s' => made s s' = [] ∧ disk s' = disk s
    | OErr e s' => made s s' = [] ∧ disk s' = disk s ∧ c = Purge t true
    | OStop x _ => x = Env
    end.
  Proof using WF.
    intros hi HH Hs Hu Hc Hun Hl. destruct (mem_bare _ _ _ _ _ _ _ HH Hs Hu) as [[m Hm] (mn & ca & h & g & HP & Hn)].
    destruct (hist_facts cb dom domV WF _ _ HH) as (_ & _ & HW).
    destruct (hist_pic cb dom domV WF _ _ _ _ _ _ _ _ _ HH Hm HP) as (i & f & lv & root & σ & σf & Hon & _ & -> & HS).
    destruct (seat_mute _ _ _ _ _ _ _ _ _ _ _ _ _ c HW HS) as (_ & H1 & H2 & H3 & H4); [by rewrite Hn|done..|].
    pose proof (step_ok cb dom domV WF _ _ _ HW Hl) as HX. unfold cmd_post in HX.
    assert (∀ s', iocount s' = iocount s → made s s' = []) as Hmade. { intros s' E. unfold made. by rewrite E Nat.sub_diag. }
    destruct (exec cb c s) as [r s'|e s'|x s']; cbn in *.
    - split; [by apply Hmade|done].
    - split_and!; [by apply Hmade|done|]. destruct HX as [HX _]. rewrite (Hmade _ H3) in HX.
      destruct c; cbn in Hc, HX; subst; try done; try by destruct HX as (_ & ?%elem_of_nil & _). by destruct HX as (_ & -> & _).
    - by destruct x.
  Qed.
End mem.

(** * The invariant of a program with threads, and its parts

    Models no code. *)
From Coq Require Import ssreflect.
From stdpp Require Import prelude functions list gmap.
From iris.proofmode Require Import proofmode.
From Verif Require Import Spec SpecFacts BTree HProp Lru Wp Kv Codec Ghost Order PsTree Rep Load Search Update Plug Insert Borrow Merge Rebal Api Walk Touch Maint Report Open Pres Local Machine Client World Disk Hist Threads Wpt Calls Steady Parts Conc.
Open Scope Z_scope.

Section joint.
  Context {K V : Type}.
  Variable cb : callbacks K V.
  Variable dom : K → Prop.
  Variable domV : V → Prop.
  Hypothesis WF : wf_cb cb dom domV.
  Notation cmp := (cb_cmp cb).
  Notation hProp := (hProp K V).
  Notation heap := (gmap rkey (rval K V)).
  Notation st := (st K V).
  Notation M := (M K V).
  Notation cmd := (cmd K V).
  Notation result := (result K V).
  Notation family := (family K V).
  Notation world := (world K V).
  Notation live := (live K V).
  Notation thread := (thread K V).
  Notation stored_at := (stored_at cb dom domV).
  Notation snapsat := (snapsat cb dom domV).
  Notation body := (body cb dom domV).
  Notation donepost := (donepost cb dom domV).
  Notation failpost := (failpost cb dom domV).
  Notation doneon := (doneon cb dom domV).
  Notation failon := (failon cb dom domV).
  Notation tinv := (tinv cb dom domV).
  Implicit Types (σ τ : heap) (f : family) (w : world) (s : st) (lv : live) (X : loc → Prop) (P : part → heap) (ths : list thread) (ro : nat → role) (x : thread) (r : role).

  Definition newpost (max : Z) : result → list bool → heap → Prop := λ a cbs σ', cbs = [] ∧ ∃ t, a = RTree t ∧ body (newfam max t) σ'.
  Definition skippost : result → list bool → heap → Prop := λ a cbs σ', a = RUnit ∧ cbs = [] ∧ σ' = ∅.
  Definition never : err → list bool → heap → Prop := λ _ _ _, False.

  (** what is known of one thread *)
  Definition thinv w P j x r : Prop :=
    match r, x with
    | RNone, Idle | RNone, Waits _ => P (PT j) = ∅
    | ROwn i, Runs c t p cbs => P (PT j) = ∅ ∧ ∃ f, w_fams w !! i = Some f ∧ oncmd c t f ∧ tinv c t p cbs f (P (PF i)) ∧
        (fm_rest f ≠ Lost → home t (P (PF i))) ∧ (makes c = true → yields p (λ a, a = RTree t)) ∧
        (∀ t', c = Prune t' → ∀ lv, fm_live f = Some lv → fm_snaps f = current lv) ∧
        (∀ n, c = DrainEvict n → steadys p ∧ ∃ rt l lv, inuse t f lv ∧ atloc (P (PF i)) t rt l ∧ condloc (lv_cond lv) l)
    | RMake, Runs (NewTree max a) t p cbs => 4 ≤ max ∧ Z.even max = true ∧ home t (P (PT j)) ∧
        wpt ∅ false p cbs (newpost max) never (P (PT j)) ∧ locals none t p ∧ yields p (λ a, a = RTree t)
    | RSkip, Runs (DrainEvict n) t p cbs => home t (P (PT j)) ∧ wpt (P PG) false p cbs skippost never (P (PT j)) ∧ locals none t p
    | RFetch i, Runs (FetchLocation t') t p cbs => t' = t ∧ P (PT j) = ∅ ∧ cbs = [] ∧
        ∃ f lv rt l, w_fams w !! i = Some f ∧ inuse t f lv ∧ condloc (lv_cond lv) l ∧ atloc (P (PF i)) t rt l ∧
          peeks (rootat t rt l) p (λ a, a = RLoc l)
    | _, _ => False
    end.

  Record wok w s : Prop := WOk {
    wk_min i f : w_fams w !! i = Some f → 2 ≤ fm_min f;
    wk_chosen n : n ∈ w_chosen w → n ∈ base.dom (nodes s);
    wk_low i f lv : w_fams w !! i = Some f → fm_live f = Some lv → (lv_tree lv < fresh s)%positive;
    wk_uniq i j f f' lv lv' : w_fams w !! i = Some f → w_fams w !! j = Some f' → fm_live f = Some lv → fm_live f' = Some lv' →
      lv_tree lv = lv_tree lv' → i = j }.
  Record tok w s ths : Prop := TOk {
    th_lock j k c c' t p p' cbs cbs' : ths !! j = Some (Runs c t p cbs) → ths !! k = Some (Runs c' t p' cbs') →
      locks c = true → locks c' = true → j = k;
    th_low j c t p cbs : ths !! j = Some (Runs c t p cbs) → (t < fresh s)%positive;
    th_new j c t p cbs i f lv : ths !! j = Some (Runs c t p cbs) → makes c = true → w_fams w !! i = Some f → fm_live f = Some lv →
      lv_tree lv ≠ t;
    th_same j t t' p cbs : ths !! j = Some (Runs (FetchLocation t') t p cbs) → t' = t;
    th_fetch j k x y t : ths !! j = Some x → fetches t x → ths !! k = Some y → on t y → fetches t y ∨ drains y }.
  Record pok w ths ro P : Prop := POk {
    po_trash : notags (P PG);
    po_fam i : w_fams w !! i = None → P (PF i) = ∅;
    po_thr j : ths !! j = None → P (PT j) = ∅ ∧ ro j = RNone;
    po_snap i f : w_fams w !! i = Some f → snapsat (P (PF i)) f;
    po_free i f : w_fams w !! i = Some f → (∀ j, ro j ≠ ROwn i) → body f (P (PF i)) ∧ famhome f (P (PF i));
    po_own j k i : ro j = ROwn i → ro k = ROwn i → j = k;
    po_th j x : ths !! j = Some x → thinv w P j x (ro j) }.
  Definition cinv w (cf : config K V) : Prop :=
    ∃ P ro, sok P (cf_st cf) ∧ wok w (cf_st cf) ∧ tok w (cf_st cf) (cf_ths cf) ∧ pok w (cf_ths cf) ro P.

  (** ** Small changes *)
  Lemma wok_mono w s s' : wok w s → base.dom (nodes s) ⊆ base.dom (nodes s') → (fresh s ≤ fresh s')%positive → wok w s'.
  Proof. intros [H1 H2 H3 H4] Hn Hf. split; try done; [by auto|]. intros i f lv Hi Hl. specialize (H3 _ _ _ Hi Hl). lia. Qed.
  Lemma wok_local w X t s s' : wok w s → local X t s s' → wok w s'.
  Proof. intros H HL. eapply wok_mono; [exact H|apply (g_nodes _ _ _ (l_grow _ _ _ _ HL))|by apply HL]. Qed.
  Lemma wok_set w s i f f' : wok w s → w_fams w !! i = Some f → fm_min f' = fm_min f →
    (∀ lv', fm_live f' = Some lv' → (lv_tree lv' < fresh s)%positive ∧
       ∀ j g lv, j ≠ i → w_fams w !! j = Some g → fm_live g = Some lv → lv_tree lv ≠ lv_tree lv') →
    wok (set_fam i f' w) s.
  Proof.
    intros [H1 H2 H3 H4] Hi Hm Hl. split; cbn.
    - intros j g Hj. apply list_lookup_insert_Some in Hj as [(<- & <- & _)|[_ Hj]]; [rewrite Hm; by eapply H1|by eapply H1].
    - done.
    - intros j g lv Hj Hlv. apply list_lookup_insert_Some in Hj as [(<- & <- & _)|[_ Hj]]; [by apply Hl|by eapply H3].
    - intros j k g g' lv lv' Hj Hk Hlv Hlv' He.
      apply list_lookup_insert_Some in Hj, Hk. destruct Hj as [(<- & <- & _)|[Hne Hj]], Hk as [(<- & <- & _)|[Hne' Hk]]; [done|..].
      + destruct (Hl _ Hlv) as [_ Hd]. by destruct (Hd k g' lv' (not_eq_sym Hne') Hk Hlv').
      + destruct (Hl _ Hlv') as [_ Hd]. by destruct (Hd j g lv (not_eq_sym Hne) Hj Hlv).
      + by eapply H4.
  Qed.
  Lemma wok_live w s i f lv : wok w s → w_fams w !! i = Some f → fm_live f = Some lv → fam_of w (lv_tree lv) = Some (i, f).
  Proof.
    intros H Hi Hl. apply fam_of_Some. split_and!; [done|by rewrite (has_live _ _ lv)|]. intros j g Hj Hlt Hg.
    unfold has_tree in Hg. destruct (fm_live g) as [lv'|] eqn:Hl'; [|done]. assert (i = j); [|lia]. by eapply (wk_uniq _ _ H).
  Qed.
  Lemma usable_at w t f lv : usable w t f lv → ∃ i, w_fams w !! i = Some f ∧ inuse t f lv.
  Proof.
    intros (i & H & Hl & Hb). apply fam_of_Some in H as (Hi & Ht & _). exists i. split; [done|]. unfold has_tree in Ht. by rewrite Hl in Ht.
  Qed.

  Lemma tok_mono w s s' ths : tok w s ths → (fresh s ≤ fresh s')%positive → tok w s' ths.
  Proof. intros [H1 H2 H3 H4 H5] Hf. split; try done. intros j c t p cbs Hj. specialize (H2 _ _ _ _ _ Hj). lia. Qed.
  Lemma tok_less w s ths j x' : tok w s ths → (∀ t, ¬ on t x') → tok w s (<[j := x']> ths).
  Proof.
    intros [H1 H2 H3 H4 H5] Hx.
    assert (∀ k c t p cbs, <[j := x']> ths !! k = Some (Runs c t p cbs) → ths !! k = Some (Runs c t p cbs)) as Ho.
    { intros k c t p cbs Hk. apply list_lookup_insert_Some in Hk as [(<- & -> & _)|[_ Hk]]; [|done]. by destruct (Hx t). }
    split.
    - intros k k' c c' t p p' cbs cbs' Hk%Ho Hk'%Ho. by eapply H1.
    - intros k c t p cbs Hk%Ho. by eapply H2.
    - intros k c t p cbs i f lv Hk%Ho. by eapply H3.
    - intros k t t' p cbs Hk%Ho. by eapply H4.
    - intros k k' y z t Hk Hy Hk' Hz. destruct y as [| |c1 t1 p1 cbs1]; try done. destruct z as [| |c2 t2 p2 cbs2]; try done.
      by eapply H5; [eapply Ho, Hk| |eapply Ho, Hk'|].
  Qed.
  Lemma tok_same w s ths j c t p cbs p' cbs' : tok w s ths → ths !! j = Some (Runs c t p cbs) → tok w s (<[j := Runs c t p' cbs']> ths).
  Proof.
    intros [H1 H2 H3 H4 H5] Hj.
    assert (∀ k c0 t0 p0 cbs0, <[j := Runs c t p' cbs']> ths !! k = Some (Runs c0 t0 p0 cbs0) → ∃ p1 cbs1, ths !! k = Some (Runs c0 t0 p1 cbs1)) as Ho.
    { intros k c0 t0 p0 cbs0 Hk. apply list_lookup_insert_Some in Hk as [(<- & [= <- <- <- <-] & _)|[_ Hk]]; eauto. }
    split.
    - intros k k' c0 c1 t0 p0 p1 cbs0 cbs1 (? & ? & Hk)%Ho (? & ? & Hk')%Ho. by eapply H1.
    - intros k c0 t0 p0 cbs0 (? & ? & Hk)%Ho. by eapply H2.
    - intros k c0 t0 p0 cbs0 i f lv (? & ? & Hk)%Ho. by eapply H3.
    - intros k t0 t' p0 cbs0 (? & ? & Hk)%Ho. by eapply H4.
    - intros k k' y z t0 Hk Hy Hk' Hz. destruct y as [| |c1 t1 p1 cbs1]; try done. destruct z as [| |c2 t2 p2 cbs2]; try done.
      apply Ho in Hk as (p3 & cbs3 & Hk). apply Ho in Hk' as (p4 & cbs4 & Hk').
      eapply (H5 _ _ (Runs c1 t1 p3 cbs3) (Runs c2 t2 p4 cbs4)); [exact Hk|exact Hy|exact Hk'|exact Hz].
  Qed.
  Lemma tok_more w s ths j c t p cbs : tok w s ths → (locks c = true → ¬ locked ths t) → (t < fresh s)%positive →
    (makes c = true → ∀ i f lv, w_fams w !! i = Some f → fm_live f = Some lv → lv_tree lv ≠ t) →
    (c = FetchLocation t ∧ (∀ k y, ths !! k = Some y → on t y → fetches t y ∨ drains y) ∨
     (∃ n, c = DrainEvict n) ∨ (∀ t', c ≠ FetchLocation t') ∧ (∀ k y, ths !! k = Some y → ¬ fetches t y)) →
    tok w s (<[j := Runs c t p cbs]> ths).
  Proof.
    intros [H1 H2 H3 H4 H5] Hlk Hlow Hnew Hf. split.
    - intros k k' c0 c1 t0 p0 p1 cbs0 cbs1 Hk Hk' Hl0 Hl1.
      apply list_lookup_insert_Some in Hk, Hk'. destruct Hk as [(<- & E1 & _)|[Hne Hk]], Hk' as [(<- & E2 & _)|[Hne' Hk']]; [done|simplify_eq..|].
      + destruct (Hlk Hl0). by eexists _, _.
      + destruct (Hlk Hl1). by eexists _, _.
      + by eapply H1.
    - intros k c0 t0 p0 cbs0 Hk. apply list_lookup_insert_Some in Hk as [(<- & [= <- <- <- <-] & _)|[Hne Hk]]; [done|by eapply H2].
    - intros k c0 t0 p0 cbs0 i f lv Hk. apply list_lookup_insert_Some in Hk as [(<- & [= <- <- <- <-] & _)|[Hne Hk]]; [intros; by eapply Hnew|by eapply H3].
    - intros k t0 t' p0 cbs0 Hk. apply list_lookup_insert_Some in Hk as [(<- & E1 & _)|[Hne Hk]]; [|by eapply H4]. injection E1 as -> -> _ _.
      destruct Hf as [[[= ->] _]|[[n [=]]|[Hn _]]]; [done|by destruct (Hn t')].
    - intros k k' y z t0 Hk Hy Hk' Hz.
      apply list_lookup_insert_Some in Hk, Hk'. destruct Hk as [(<- & <- & _)|[Hne Hk]], Hk' as [(<- & <- & _)|[Hne' Hk']].
      + by left.
      + destruct Hf as [[-> Hf]|[[n ->]|[Hn _]]]; cbn in Hy; [subst t0; by eapply Hf|done|]. destruct c; try done. by destruct (Hn t1).
      + cbn in Hz. subst t0. destruct Hf as [[-> Hf]|[[n ->]|[Hn Hnf]]]; [by left|by right|]. by destruct (Hnf k y).
      + by apply (H5 k k' y z).
  Qed.
  Lemma tok_world w w' s ths : tok w s ths →
    (∀ i f lv, w_fams w' !! i = Some f → fm_live f = Some lv →
       (∃ i0 f0 lv0, w_fams w !! i0 = Some f0 ∧ fm_live f0 = Some lv0 ∧ lv_tree lv0 = lv_tree lv) ∨
       (∀ j c t p cbs, ths !! j = Some (Runs c t p cbs) → makes c = true → lv_tree lv ≠ t)) → tok w' s ths.
  Proof.
    intros [H1 H2 H3 H4 H5] Hw. split; try done. intros j c t p cbs i f lv Hj Hm Hi Hl.
    destruct (Hw _ _ _ Hi Hl) as [(i0 & f0 & lv0 & Hi0 & Hl0 & <-)|Hn]; [by eapply H3|by eapply Hn].
  Qed.
  Lemma tok_set w s ths i f f' : tok w s ths → w_fams w !! i = Some f →
    (∀ lv', fm_live f' = Some lv' → (∃ lv, fm_live f = Some lv ∧ lv_tree lv = lv_tree lv') ∨
       (∀ j c t p cbs, ths !! j = Some (Runs c t p cbs) → makes c = true → lv_tree lv' ≠ t)) → tok (set_fam i f' w) s ths.
  Proof.
    intros H Hi Hl. eapply tok_world; [exact H|]. intros j g lv Hj Hg. cbn in Hj.
    apply list_lookup_insert_Some in Hj as [(<- & <- & _)|[_ Hj]]; [|left; by exists j, g, lv].
    destruct (Hl _ Hg) as [(lv0 & H0 & H1)|Hn]; [left; by exists i, f, lv0|by right].
  Qed.

  Lemma thinv_frame w w' P P' j x r : P' (PT j) = P (PT j) → P PG ⊆ P' PG →
    (∀ i, r = ROwn i ∨ r = RFetch i → w_fams w' !! i = w_fams w !! i ∧ P' (PF i) = P (PF i)) → thinv w P j x r → thinv w' P' j x r.
  Proof.
    intros HT HG Hi. unfold thinv. destruct x as [|c|c t p cbs], r as [|i| | |i]; rewrite ?HT; try done.
    - destruct (Hi i (or_introl eq_refl)) as [-> ->]. done.
    - destruct c; try done. intros (H1 & H2 & H3). split_and!; [done| |done]. by eapply wpt_mono; [exact HG| | |exact H2].
    - destruct (Hi i (or_intror eq_refl)) as [-> ->]. done.
  Qed.
  (** the thread [j] changes family [i] *)
  Lemma pok_at w ths ro P j i f f' x' r' P' : pok w ths ro P → is_Some (ths !! j) → w_fams w !! i = Some f →
    (ro j = ROwn i ∨ ro j = RNone ∧ ∀ k, ro k ≠ ROwn i) →
    (∀ b, b ≠ PF i → b ≠ PG → P' b = P b) → P PG ⊆ P' PG → notags (P' PG) → snapsat (P' (PF i)) f' →
    (r' = ROwn i ∨ r' = RNone ∧ body f' (P' (PF i)) ∧ famhome f' (P' (PF i))) →
    thinv (set_fam i f' w) P' j x' r' →
    (∀ k x, ths !! k = Some x → ro k = RFetch i → thinv w P k x (RFetch i) → thinv (set_fam i f' w) P' k x (RFetch i)) →
    pok (set_fam i f' w) (<[j := x']> ths) (<[j := r']> ro) P'.
  Proof.
    intros [H1 H2 H3 H4 H5 H6 H7] [x0 Hj] Hi Hr HP HPG Hng Hsn Hr' Hth Hfe.
    assert (∀ k, k ≠ j → ro k ≠ ROwn i) as Hother.
    { intros k Hk Hkr. destruct Hr as [Hr|[_ Hr]]; [|by eapply Hr]. by apply Hk, (H6 _ _ i). }
    split.
    - done.
    - intros k. cbn. intros Hk. apply lookup_ge_None in Hk. rewrite insert_length in Hk. apply lookup_ge_None in Hk.
      destruct (decide (k = i)) as [->|Hki]; [congruence|]. rewrite HP //; [by apply H2|congruence].
    - intros k Hk. assert (ths !! k = None) as Hk'.
      { destruct (decide (k = j)) as [->|Hkj]; [|by rewrite list_lookup_insert_ne in Hk]. rewrite list_lookup_insert in Hk; [done|by eapply lookup_lt_Some]. }
      rewrite HP //. rewrite fn_lookup_insert_ne; [by apply H3|]. intros ->. congruence.
    - intros k g. cbn. intros Hk. apply list_lookup_insert_Some in Hk as [(<- & <- & _)|[Hne Hk]]; [done|]. rewrite HP; [by apply H4|congruence|done].
    - intros k g Hk Hfree. cbn in Hk. apply list_lookup_insert_Some in Hk as [(<- & <- & _)|[Hne Hk]].
      + destruct Hr' as [->|[_ Hb]]; [|done]. destruct (Hfree j). by rewrite fn_lookup_insert.
      + rewrite HP; [|congruence|done]. apply H5; [done|]. intros m Hm. destruct (decide (m = j)) as [->|Hmj].
        * destruct Hr as [Hr|[Hr _]]; congruence.
        * apply (Hfree m). by rewrite fn_lookup_insert_ne.
    - intros k m i0 Hk Hm. destruct (decide (k = j)) as [->|Hkj], (decide (m = j)) as [->|Hmj]; [done|..].
      + rewrite fn_lookup_insert in Hk. rewrite fn_lookup_insert_ne // in Hm. destruct Hr' as [->|[-> _]]; [|done]. injection Hk as <-. by destruct (Hother m).
      + rewrite fn_lookup_insert in Hm. rewrite fn_lookup_insert_ne // in Hk. destruct Hr' as [->|[-> _]]; [|done]. injection Hm as <-. by destruct (Hother k).
      + rewrite fn_lookup_insert_ne // in Hk. rewrite fn_lookup_insert_ne // in Hm. by eapply H6.
    - intros k y Hk. apply list_lookup_insert_Some in Hk as [(<- & <- & _)|[Hne Hk]]; [by rewrite fn_lookup_insert|].
      rewrite fn_lookup_insert_ne //. specialize (H7 _ _ Hk). destruct (decide (ro k = RFetch i)) as [He|He].
      + rewrite He. rewrite He in H7. by apply Hfe.
      + eapply thinv_frame; [| | |exact H7]; [by apply HP|done|]. intros i0 Hi0. assert (i0 ≠ i) as Hii.
        { intros ->. destruct Hi0 as [Hi0|Hi0]; [|done]. by destruct (Hother k). }
        cbn. rewrite list_lookup_insert_ne //. split; [done|]. apply HP; congruence.
  Qed.
  (** the thread [j] changes nothing but its own *)
  Lemma pok_self w w' ths ro P j x' r' P' : pok w ths ro P → is_Some (ths !! j) → w_fams w' = w_fams w →
    (∀ i, ro j ≠ ROwn i) → (∀ i, r' ≠ ROwn i) →
    (∀ b, b ≠ PT j → b ≠ PG → P' b = P b) → P PG ⊆ P' PG → notags (P' PG) →
    thinv w' P' j x' r' → pok w' (<[j := x']> ths) (<[j := r']> ro) P'.
  Proof.
    intros [H1 H2 H3 H4 H5 H6 H7] [x0 Hj] Hw Hr Hr' HP HPG Hng Hth.
    assert (∀ i k, <[j := r']> ro k = ROwn i → ro k = ROwn i) as Ho.
    { intros i k. destruct (decide (k = j)) as [->|Hkj]; [rewrite fn_lookup_insert; intros Hk; by destruct (Hr' i)|by rewrite fn_lookup_insert_ne]. }
    split; rewrite ?Hw.
    - done.
    - intros k Hk. rewrite HP //. by apply H2.
    - intros k Hk. assert (k ≠ j) as Hkj.
      { intros ->. rewrite list_lookup_insert in Hk; [done|by eapply lookup_lt_Some]. }
      rewrite list_lookup_insert_ne // in Hk. rewrite HP; [|congruence|done]. rewrite fn_lookup_insert_ne //. by apply H3.
    - intros k f Hk. rewrite HP //. by apply H4.
    - intros k f Hk Hfree. rewrite HP //. apply H5; [done|]. intros m Hm. apply (Hfree m). rewrite fn_lookup_insert_ne //. intros ->. by destruct (Hr k).
    - intros k m i Hk%Ho Hm%Ho. by eapply H6.
    - intros k y Hk. apply list_lookup_insert_Some in Hk as [(<- & <- & _)|[Hne Hk]]; [by rewrite fn_lookup_insert|].
      rewrite fn_lookup_insert_ne //. eapply thinv_frame; [| | |by apply H7]; [apply HP; congruence|done|].
      intros i _. rewrite Hw. split; [done|]. by apply HP.
  Qed.
End joint.

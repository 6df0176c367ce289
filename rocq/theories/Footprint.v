(** * Trees and the blocks they own, over histories

    Models no code. *)
From Coq Require Import ssreflect.
From stdpp Require Import prelude list gmap.
From iris.bi Require Import bi.
From iris.proofmode Require Import proofmode.
From Verif Require Import Spec SpecFacts BTree HProp Lru Wp Kv Codec Ghost Order PsTree Rep Load Search Update Plug Insert Borrow Merge Rebal Api Walk Touch Maint Report Open Pres Machine Still World Client Sample Disk Picture Hist Seat History.
Open Scope Z_scope.

Section footprint.
  Context {K V : Type}.
  Variable cb : callbacks K V.
  Variable dom : K → Prop.
  Variable domV : V → Prop.
  Hypothesis WF : wf_cb cb dom domV.
  Notation cmp := (cb_cmp cb).
  Notation st := (st K V).
  Notation gt := (gt K V).
  Notation event := (event K V).
  Notation world := (world K V).
  Notation history := (history cb dom domV).
  Notation after := (after cmp).
  Notation next := (next cmp).
  Notation winv := (winv cb dom domV).
  Notation treeok := (treeok cb dom domV).
  Notation pictured := (pictured cb dom domV).
  Notation moved := (moved cb dom domV).
  Notation seat := (seat cb dom domV).
  Implicit Types (w : world) (e : event) (s : st) (g : gt) (l : loc) (t : tid).

  Lemma hist_seat hi s t m : history hi s → contents (after hi) t = Some m →
    ∃ i f lv ca root S h g σ σf, ontree (after hi) t i f lv ∧ lv_items lv = m ∧ seat (after hi) s t i f lv ca root S h g σ σf.
  Proof using WF.
    intros (_ & _ & HW)%(hist_facts cb dom domV WF) (f & lv & Hu & Hm)%contents_usable.
    destruct (ot_usable _ _ _ _ Hu) as [i Hon]. destruct (winv_seat cb dom domV _ _ _ _ _ _ HW Hon) as (ca & root & S & h & g & σ & σf & HS).
    by exists i, f, lv, ca, root, S, h, g, σ, σf.
  Qed.
  Lemma hist_pic hi s t m mn ca S h g : history hi s → contents (after hi) t = Some m → pictured s t mn ca S h g →
    ∃ i f lv root σ σf, ontree (after hi) t i f lv ∧ lv_items lv = m ∧ mn = mnof f ∧ seat (after hi) s t i f lv ca root S h g σ σf.
  Proof using WF.
    intros HH Hm HP. destruct (hist_seat _ _ _ _ HH Hm) as (i & f & lv & ca' & root & S' & h' & g' & σ & σf & Hon & Hits & HS).
    pose proof (seat_pictured _ _ _ _ _ _ _ _ _ _ _ _ _ _ _ _ HS) as HP'.
    destruct (pictured_inj cb dom domV WF _ _ _ _ _ _ _ _ _ _ _ _ HP' HP) as (-> & -> & -> & -> & ->).
    by exists i, f, lv, root, σ, σf.
  Qed.

  (** ** Shape *)
  Theorem tree_shape hi s t m : history hi s → contents (after hi) t = Some m →
    ∃ mn ca S h g, pictured s t mn ca S h g ∧ (2 ≤ mn)%nat ∧ items (strip g) = m ∧ wfo mn (rlow h) h (strip g) ∧
      match status (after hi) t with Some (Stored l) => gloc g = Some l | Some Modified => gloc g = None | _ => True end ∧
      NoDup (locs g ++ S) ∧ ∀ l, l ∈ locs g ++ S → is_Some (disk s !! l).
  Proof using WF.
    intros HH Hm. destruct (hist_seat _ _ _ _ HH Hm) as (i & f & lv & ca & root & S & h & g & σ & σf & Hon & Hits & HS).
    exists (mnof f), ca, S, h, g. pose proof (seat_owns _ _ _ _ _ _ _ _ _ _ _ _ _ _ _ _ HS) as Ho.
    split_and!.
    - by eapply seat_pictured.
    - apply HS.
    - by rewrite (se_items _ _ _ _ _ _ _ _ _ _ _ _ _ _ _ _ HS).
    - eapply tk_wf. apply HS.
    - pose proof (se_cond _ _ _ _ _ _ _ _ _ _ _ _ _ _ _ _ HS) as Hc. destruct Hon as [Hf Hl _]. unfold status. rewrite Hf Hl. cbn.
      by destruct (lv_cond lv).
    - apply Ho.
    - intros l Hl. destruct (owns_in _ _ _ _ _ _ _ _ Ho (se_views _ _ _ _ _ _ _ _ _ _ _ _ _ _ _ _ HS) Hl) as [b Hb]. by eexists.
  Qed.
  (** one call *)
  Lemma hist_call hi s t m mn ca S h g c : history hi s → contents (after hi) t = Some m → pictured s t mn ca S h g →
    call_on t c → legal dom domV (after hi) c →
    match exec cb c s with
    | ORet r s' => ∃ S' h' g', changed cb mn c r S h g S' h' g' ∧ moved s t mn ca S h g s' S' h' g'
    | OErr e s' => fragile c = false → ∃ S' h' g', unchanged c S h g S' h' g' ∧ moved s t mn ca S h g s' S' h' g'
    | _ => True
    end.
  Proof using WF.
    intros HH Hm HP Hc Hl. destruct (hist_pic _ _ _ _ _ _ _ _ _ HH Hm HP) as (i & f & lv & root & σ & σf & Hon & Hits & -> & HS).
    destruct (hist_facts cb dom domV WF _ _ HH) as (_ & _ & HW). by apply (seat_call cb dom domV WF _ _ _ _ _ _ _ _ _ _ _ _ _ _ HW HS).
  Qed.
  Lemma legal_call hi t m c : contents (after hi) t = Some m → call_on t c →
    match c with MapCall _ _ | TouchItem _ _ => False | _ => True end → legal dom domV (after hi) c.
  Proof. intros Hm Hc Hx. destruct (usable_of _ _ _ Hm) as (f & lv & Hu). destruct c; cbn in *; try done; subst; eauto. Qed.

  Theorem height_bound hi s t m mn ca S h g : history hi s → contents (after hi) t = Some m → pictured s t mn ca S h g →
    (2 ≤ mn)%nat ∧ wfo mn (rlow h) h (strip g) ∧ items (strip g) = m ∧ (h = 0%nat ∨ 2 * Z.of_nat mn ^ Z.of_nat h ≤ Z.of_nat (length m)).
  Proof using WF.
    intros HH Hm HP. destruct (hist_pic _ _ _ _ _ _ _ _ _ HH Hm HP) as (i & f & lv & root & σ & σf & Hon & Hits & -> & HS).
    destruct HS as [H1 H2 H3 _ _ _ _ _]. split_and!; [done|eapply tk_wf, H2|congruence|].
    destruct (decide (h = 0%nat)) as [|Hh]; [by left|right]. rewrite -Hits -H3. by eapply tall.
  Qed.
  Theorem dimensions hi s t m mn ca S h g r s' : history hi s → contents (after hi) t = Some m → pictured s t mn ca S h g →
    exec cb (DimensionsReport t) s = ORet r s' →
    r = RDim (Dimensions (Z.of_nat mn) (2 * Z.of_nat mn) (Z.of_nat (length m)) (1 + Z.of_nat h)).
  Proof using WF.
    intros HH Hm HP He. assert (legal dom domV (after hi) (DimensionsReport t)) as Hl by by eapply legal_call.
    pose proof (hist_call _ _ _ _ _ _ _ _ _ (DimensionsReport t) HH Hm HP eq_refl Hl) as HC. rewrite He in HC. destruct HC as (S' & h' & g' & (_ & _ & _ & ->) & _).
    destruct (height_bound _ _ _ _ _ _ _ _ _ HH Hm HP) as (_ & _ & <- & _). done.
  Qed.

  (** ** Layout *)
  (** the total length of the blocks of one object *)
  Definition in_object (o : Z) (L : list loc) : list loc := filter (λ l, lnum l = o) L.
  Definition total (L : list loc) : Z := foldr (λ l z, llen l + z) 0 L.
  Lemma addrep_fold L : ∀ R o, foldl addrep R L !! o =
    match in_object o L with [] => R !! o | L' => Some (default 0 (R !! o) + total L') end.
  Proof.
    induction L as [|l L IH]; intros R o; [done|]. cbn [foldl]. rewrite IH. unfold in_object. rewrite filter_cons. unfold addrep.
    destruct (decide (lnum l = o)) as [<-|Hne].
    - rewrite lookup_insert. cbn [default]. destruct (filter _ L) as [|x L']; cbn; f_equal; lia.
    - by rewrite lookup_insert_ne.
  Qed.
  Theorem layout hi s t m mn ca S h g r s' : history hi s → contents (after hi) t = Some m → pictured s t mn ca S h g →
    exec cb (LayoutReport t) s = ORet r s' →
    ∃ R, r = RLayout R ∧ (∀ o, R !! o = match in_object o (locs g) with [] => None | L => Some (total L) end) ∧
      ∃ g', pictured s' t mn ca S h g' ∧ strip g' = strip g ∧ locs g' = locs g.
  Proof using WF.
    intros HH Hm HP He. assert (legal dom domV (after hi) (LayoutReport t)) as Hl by by eapply legal_call.
    destruct (hist_pic _ _ _ _ _ _ _ _ _ HH Hm HP) as (i & f & lv & root & σ & σf & Hon & Hits & -> & HS).
    pose proof (hist_call _ _ _ _ _ _ _ _ _ (LayoutReport t) HH Hm HP eq_refl Hl) as HC. rewrite He in HC.
    destruct HC as (S' & h' & g' & (-> & -> & Hv & ->) & [M1 M2 M3 M4 M5]).
    assert (cleanok g) as Hok by (eapply own_cleanok, HS). assert (pend g = []) as Hpe by (eapply tk_pend, HS).
    assert (pend g' = []) as Hpe' by (eapply tk_pend, M2).
    eexists. split; [done|]. rewrite -locs_vw //. split.
    - intros o. rewrite addrep_fold lookup_empty. by destruct (in_object o (locs g)).
    - exists g'. split_and!; [done|by apply vw_strip|]. by rewrite !locs_vw // Hv.
  Qed.

  (** ** Prune *)
  Lemma grow_prune s t mn ca S h g (X : loc → Prop) : pictured s t mn ca S h g → (∀ l, l ∈ S → X l) → grow X s (stof (exec cb (Prune t) s)).
  Proof.
    intros HP HX. assert (grow X s (stof (bt_Prune t s))) as Hg.
    { apply gr_prune. intros T l HT. rewrite (pc_tree _ _ _ _ _ _ _ _ _ _ HP) in HT. injection HT as <-. apply HX. }
    cbn [exec]. rewrite run_bind. by destruct (bt_Prune t s).
  Qed.
  (** whatever happens during Prune, only scheduled locations are discarded *)
  Theorem prune_keeps s t mn ca S h g l b : pictured s t mn ca S h g → l ∉ S → disk s !! l = Some b →
    disk (stof (exec cb (Prune t) s)) !! l = Some b.
  Proof.
    intros HP Hl Hb. eapply (g_disk (λ l, l ∈ S)); [by eapply grow_prune|done|done].
  Qed.
  Theorem prune_exact hi s t m mn ca S h g r s' : history hi s → contents (after hi) t = Some m → pictured s t mn ca S h g →
    exec cb (Prune t) s = ORet r s' →
    pictured s' t mn ca [] h g ∧ NoDup (locs g ++ S) ∧
    (∀ l, l ∈ S → is_Some (disk s !! l) ∧ disk s' !! l = None) ∧ (∀ l, l ∉ S → disk s' !! l = disk s !! l).
  Proof using WF.
    intros HH Hm HP He. assert (legal dom domV (after hi) (Prune t)) as Hl by by eapply legal_call.
    destruct (hist_pic _ _ _ _ _ _ _ _ _ HH Hm HP) as (i & f & lv & root & σ & σf & Hon & Hits & -> & HS).
    pose proof (seat_owns _ _ _ _ _ _ _ _ _ _ _ _ _ _ _ _ HS) as Ho.
    pose proof (hist_call _ _ _ _ _ _ _ _ _ (Prune t) HH Hm HP eq_refl Hl) as HC. rewrite He in HC.
    destruct HC as (S' & h' & g' & (-> & -> & ->) & [M1 M2 M3 M4 M5 M6]).
    pose proof (ow_nodup _ _ _ _ _ Ho) as Hnd. split_and!; [done|done|..].
    - intros l Hin. split.
      { edestruct (owns_in s σ σf) as [b Hb]; [exact Ho|apply HS|apply elem_of_app; by right|]. by eexists. }
      destruct (disk s' !! l) as [b|] eqn:Hb; [|done]. exfalso.
      assert (l ∉ locs g) as Hn. { intros Hn. by eapply (NoDup_app _ _). }
      destruct (proj2 (M6 l b)) as [_ Hx]; [split; [done|by rewrite app_nil_r]|]. apply Hx. apply elem_of_app. by right.
    - intros l Hn. assert (∀ b, disk s !! l = Some b → disk s' !! l = Some b) as Hk. { intros b Hb. pose proof (prune_keeps s t _ ca S h g l b HP Hn Hb) as Hk. by rewrite He in Hk. }
      destruct (disk s !! l) as [b|] eqn:Hb; [by apply Hk|]. destruct (disk s' !! l) as [b|] eqn:Hb'; [|done].
      destruct (decide (l ∈ locs g)) as [Hin|Hin].
      + edestruct (owns_in s σ σf) as [b' Hb2]; [exact Ho|apply HS|apply elem_of_app; by left|]. congruence.
      + destruct (proj2 (M6 l b)) as [Hx _]; [split; [done|by rewrite app_nil_r]|]. congruence.
  Qed.

  (** ** Touch, Flush, Prune *)
  Lemma keeps_blocks s c l b : match c with Touch _ | Flush _ _ => True | _ => False end → disk s !! l = Some b →
    disk (stof (exec cb c s)) !! l = Some b.
  Proof.
    intros Hc Hb. eapply (g_disk (λ _, False)); [|exact Hb|by intros []].
    destruct c; try done; cbn [exec]; (apply gr_bind; [|intros; apply gr_ret]); [apply gr_bt_Flush|apply gr_bt_Touch].
  Qed.
  Lemma same_contents hi s c r s' t m : history hi s → contents (after hi) t = Some m → legal dom domV (after hi) c → exec cb c s = ORet r s' →
    match c with MapCall _ _ | Discard _ | Forget _ => False | _ => True end →
    history (hi ++ [Done c r (made s s')]) s' ∧ contents (after (hi ++ [Done c r (made s s')])) t = Some m.
  Proof using WF.
    intros HH Hm Hl He Hc. pose proof (hist_done cb dom domV _ _ _ _ _ HH Hl He) as HH'. split; [done|].
    destruct (tree_view cb dom domV WF hi [Done c r (made s s')] s' t m HH' Hm) as [_ HX].
    - constructor; [|done]. by destruct c.
    - rewrite HX. by destruct c.
  Qed.
  Lemma alldirty_locs g : alldirty g → locs g = [].
  Proof.
    induction g as [n d|n st kvs|n st ks cs IH] using gt_ind'; cbn; [done|by intros ->|]. intros [-> Ha].
    apply alldirty_all in Ha. induction IH as [|c cs Hc _ IH']; [done|]. apply Forall_cons in Ha as [Ha1 Ha2]. cbn.
    by rewrite Hc // IH'.
  Qed.
  Theorem touch_exact hi s t m mn ca S h g r s' : history hi s → contents (after hi) t = Some m → pictured s t mn ca S h g →
    exec cb (Touch t) s = ORet r s' →
    ∃ S' g', pictured s' t mn ca S' h g' ∧ strip g' = strip g ∧ alldirty g' ∧
      ∀ l, l ∈ S' ↔ l ∈ locs g ++ S.
  Proof using WF.
    intros HH Hm HP He. assert (legal dom domV (after hi) (Touch t)) as Hl by by eapply legal_call.
    destruct (hist_pic _ _ _ _ _ _ _ _ _ HH Hm HP) as (i & f & lv & root & σ & σf & Hon & Hits & -> & HS).
    pose proof (seat_owns _ _ _ _ _ _ _ _ _ _ _ _ _ _ _ _ HS) as Ho.
    pose proof (hist_call _ _ _ _ _ _ _ _ _ (Touch t) HH Hm HP eq_refl Hl) as HC. rewrite He in HC.
    destruct HC as (S' & h' & g' & (-> & Hs & Hd) & [M1 M2 M3 M4 M5 M6]).
    exists S', g'. split_and!; [done|apply Hs|done|]. rewrite (alldirty_locs _ Hd) in M4 M5 M6. cbn [app] in *.
    assert (disk s' = disk s) as Hdk. { pose proof (ls_exec cb false (Touch t) I s) as HX. by rewrite He in HX. }
    intros l. split; intros Hin.
    - destruct (M5 l Hin) as [b Hb]. destruct (decide (l ∈ locs g ++ S)) as [|Hn]; [done|exfalso].
      by destruct (proj1 (M6 l b)) as [_ []]; [split; [by rewrite -Hdk|done]|].
    - edestruct (owns_in s σ σf) as [b Hb]; [exact Ho|apply HS|exact Hin|].
      destruct (decide (l ∈ S')) as [|Hn]; [done|exfalso]. by destruct (proj2 (M6 l b)) as [_ []]; [split; [by rewrite Hdk|done]|].
  Qed.
  Theorem flush_exact hi s t m mn ca S h g ap r s' : history hi s → contents (after hi) t = Some m → pictured s t mn ca S h g →
    exec cb (Flush t ap) s = ORet r s' →
    ∃ g' d, pictured s' t mn ca S h g' ∧ strip g' = strip g ∧ image g' = Some d ∧ r = RLoc (dloc d) ∧ locs g' = dlocs d ∧
      (ap = true → g' = GD (gid g') d) ∧
      (∀ l b, disk s !! l = Some b → disk s' !! l = Some b) ∧
      (∀ l, disk s !! l = None → is_Some (disk s' !! l) ↔ l ∈ locs g' ∧ l ∉ locs g) ∧
      (∀ l, l ∈ locs g' → is_Some (disk s !! l) → l ∈ locs g) ∧
      (∀ l, l ∈ locs g → l ∈ locs g').
  Proof using WF.
    intros HH Hm HP He. assert (legal dom domV (after hi) (Flush t ap)) as Hl by by eapply legal_call.
    destruct (hist_pic _ _ _ _ _ _ _ _ _ HH Hm HP) as (i & f & lv & root & σ & σf & Hon & Hits & -> & HS).
    pose proof (seat_owns _ _ _ _ _ _ _ _ _ _ _ _ _ _ _ _ HS) as Ho. pose proof (ow_nodup _ _ _ _ _ Ho) as Hnd.
    assert (∀ l, l ∈ locs g ++ S → ∃ b, disk s !! l = Some b) as HinS by (intros ? Hin; eapply (owns_in s σ σf); [exact Ho|apply HS|exact Hin]).
    pose proof (hist_call _ _ _ _ _ _ _ _ _ (Flush t ap) HH Hm HP eq_refl Hl) as HC. rewrite He in HC.
    destruct HC as (S' & h' & g' & (-> & -> & Hf & l & -> & Hgl) & [M1 M2 M3 M4 M5 M6]).
    destruct (gloc_vw g' l Hgl) as (d & Hv & Hdl). pose proof (image_view g' d M3 Hv) as Him.
    assert (∀ l b, disk s !! l = Some b → disk s' !! l = Some b) as Hk.
    { intros l0 b Hb. pose proof (keeps_blocks s (Flush t ap) l0 b I Hb) as Hk. by rewrite He in Hk. }
    assert (∀ l, l ∈ locs g → l ∈ locs g') as Hsub.
    { intros l0 Hin. destruct (HinS l0) as [b Hb]; [apply elem_of_app; by left|].
      assert (l0 ∉ S) as Hn. { intros Hn. apply NoDup_app in Hnd as (_ & Hnd & _). by eapply Hnd. }
      destruct (decide (l0 ∈ locs g')) as [|Hn']; [done|exfalso]. destruct (proj2 (M6 l0 b)) as [_ Hx].
      - split; [by apply Hk|]. intros [?|?]%elem_of_app; done.
      - apply Hx. apply elem_of_app. by left. }
    assert (∀ l, l ∈ locs g' → is_Some (disk s !! l) → l ∈ locs g) as Hold.
    { intros l0 Hin [b Hb]. assert (l0 ∉ S) as Hn. { intros Hn. apply NoDup_app in M4 as (_ & Hnd' & _). by eapply Hnd'. }
      destruct (decide (l0 ∈ locs g)) as [|Hn']; [done|exfalso]. destruct (proj1 (M6 l0 b)) as [_ Hx].
      - split; [done|]. intros [?|?]%elem_of_app; done.
      - apply Hx. apply elem_of_app. by left. }
    exists g', d. split_and!; [done|apply Hf|done|by rewrite Hdl|by apply image_locs| |done| |done|done].
    - intros Hap. destruct Hf as (_ & _ & Hf). specialize (Hf Hap). destruct g'; try done. cbn in Him. by injection Him as ->.
    - intros l0 Hnone. split.
      + intros [b Hb]. destruct (decide (l0 ∈ locs g' ++ S)) as [Hin|Hn].
        * split.
          -- apply elem_of_app in Hin as [|Hin]; [done|]. destruct (HinS l0) as [b' Hb']; [apply elem_of_app; by right|]. congruence.
          -- intros Hin'. destruct (HinS l0) as [b' Hb']; [apply elem_of_app; by left|]. congruence.
        * destruct (proj2 (M6 l0 b)) as [Hx _]; [done|congruence].
      + intros [Hin _]. apply M5. apply elem_of_app. by left.
  Qed.
  (** a tree with nothing but changed nodes: Flush and Prune move every node *)
  Theorem moved_out hi s t m mn ca S h g ap r2 s2 r3 s3 : history hi s → contents (after hi) t = Some m → pictured s t mn ca S h g →
    alldirty g → exec cb (Flush t ap) s = ORet r2 s2 → exec cb (Prune t) s2 = ORet r3 s3 →
    ∃ g' d, pictured s3 t mn ca [] h g' ∧ strip g' = strip g ∧ image g' = Some d ∧ r2 = RLoc (dloc d) ∧ NoDup (locs g') ∧ locs g' = dlocs d ∧
      (∀ l, l ∈ locs g' → disk s !! l = None ∧ is_Some (disk s3 !! l)) ∧ (∀ l, l ∈ S → disk s3 !! l = None).
  Proof using WF.
    intros HH1 Hm1 HP1 Hd1 H2 H3.
    destruct (flush_exact _ _ _ _ _ _ _ _ _ _ _ _ HH1 Hm1 HP1 H2) as (g2 & d & HP2 & Hs2 & Him & Hr & Hlo & _ & Hk & Hnew & Hold & _).
    rewrite (alldirty_locs _ Hd1) in Hold Hnew.
    assert (legal dom domV (after hi) (Flush t ap)) as Hl1 by by eapply legal_call.
    destruct (same_contents _ _ _ _ _ _ _ HH1 Hm1 Hl1 H2 I) as [HH2 Hm2].
    destruct (prune_exact _ _ _ _ _ _ _ _ _ _ _ HH2 Hm2 HP2 H3) as (HP3 & Hnd & HA & HB).
    exists g2, d. split_and!; [done|congruence|done|done|by apply NoDup_app in Hnd as [? _]|done|..].
    - intros l Hin. assert (disk s !! l = None) as Hn.
      { destruct (disk s !! l) as [b|] eqn:Hb; [|done]. exfalso. apply (elem_of_nil l), Hold; [done|]. rewrite Hb. by eexists. }
      split; [done|]. rewrite HB.
      + apply Hnew; [done|]. split; [done|apply not_elem_of_nil].
      + intros Hin'. apply NoDup_app in Hnd as (_ & Hnd & _). by eapply Hnd.
    - intros l Hin. by apply HA.
  Qed.
  (** after Touch, Flush and Prune every node has moved *)
  Theorem rewritten hi s t m mn ca S h g ap r1 s1 r2 s2 r3 s3 : history hi s → contents (after hi) t = Some m → pictured s t mn ca S h g →
    exec cb (Touch t) s = ORet r1 s1 → exec cb (Flush t ap) s1 = ORet r2 s2 → exec cb (Prune t) s2 = ORet r3 s3 →
    ∃ g' d, pictured s3 t mn ca [] h g' ∧ strip g' = strip g ∧ image g' = Some d ∧ r2 = RLoc (dloc d) ∧ NoDup (locs g') ∧ locs g' = dlocs d ∧
      (∀ l, l ∈ locs g' → disk s !! l = None ∧ is_Some (disk s3 !! l)) ∧ (∀ l, l ∈ locs g ++ S → disk s3 !! l = None).
  Proof using WF.
    intros HH Hm HP H1 H2 H3.
    assert (disk s1 = disk s) as Hdk. { pose proof (ls_exec cb false (Touch t) I s) as HX. by rewrite H1 in HX. }
    destruct (touch_exact _ _ _ _ _ _ _ _ _ _ _ HH Hm HP H1) as (S1 & g1 & HP1 & Hs1 & Hd1 & HS1).
    assert (legal dom domV (after hi) (Touch t)) as Hl by by eapply legal_call.
    destruct (same_contents _ _ _ _ _ _ _ HH Hm Hl H1 I) as [HH1 Hm1].
    destruct (moved_out _ _ _ _ _ _ _ _ _ _ _ _ _ _ HH1 Hm1 HP1 Hd1 H2 H3) as (g' & d & X1 & X2 & X3 & X4 & X5 & X6 & X7 & X8).
    rewrite Hdk in X7. exists g', d. split_and!; [done|congruence|done..|]. intros l Hin. by apply X8, HS1.
  Qed.

  (** ** Discard *)
  Lemma discard_exact hi s t m mn ca S h g r s' : history hi s → contents (after hi) t = Some m → pictured s t mn ca S h g →
    exec cb (Discard t) s = ORet r s' → true ∉ made s s' →
    (∀ l, l ∈ locs g ++ S → disk s' !! l = None) ∧ (∀ l, l ∉ locs g ++ S → disk s' !! l = disk s !! l).
  Proof using WF.
    intros HH Hm HP He Hok.
    destruct (hist_pic _ _ _ _ _ _ _ _ _ HH Hm HP) as (i & f & lv & root & σ & σf & Hon & Hits & -> & HS).
    destruct (hist_facts cb dom domV WF _ _ HH) as (_ & _ & HW). pose proof HS as [H1 H2 H3 H4 H5 H6 H7 H8].
    pose proof (seat_owns _ _ _ _ _ _ _ _ _ _ _ _ _ _ _ _ HS) as Ho.
    pose proof (discard_noerr cb t s) as Hne. pose proof (discard_io cb t s) as Hio.
    pose proof (discard_strict_spec cb dom domV WF (mnof f) H1 t ca root S h g H2) as [Hwp].
    specialize (Hwp σ H5). apply wp_run in Hwp. specialize (Hwp σf s H7 H8 (wi_inv _ _ _ _ _ HW)).
    cbn [exec] in He. rewrite run_bind in He. destruct (bt_Discard cb t s) as [a s1|e s1|x s1]; try done. cbn in He. injection He as <- <-.
    destruct (discard_strict cb t s) as [a' s2|e' s2|x s2]; [|exfalso|done].
    - simplify_eq. destruct Hwp as (_ & σ' & Hd & Hv & _ & HQ).
      assert (∀ l b, σ' !! KD l ≠ Some (RD b)) as Hno.
      { intros l b Hb. destruct HQ as (σ2 & -> & Hk & Hdr). apply lookup_insert_Some in Hb as [[[=] _]|[_ Hb]]. by apply Hdr in Hb. }
      assert (∀ l b, disk s2 !! l = Some b ↔ elsewhere s (locs g ++ S) l b) as HE.
      { intros l b. rewrite (owns_split _ _ _ _ _ _ _ _ _ Ho H7 H8) (views_disk _ _ _ _ Hv). split.
        - intros [Hb|[_ Hb]]%lookup_union_Some_raw; [by apply Hno in Hb|done].
        - intros Hb. by apply lookup_union_Some_r. }
      split.
      + intros l Hin. destruct (disk s2 !! l) as [b|] eqn:Hb; [|done]. by apply HE in Hb as [_ ?].
      + intros l Hn. destruct (disk s2 !! l) as [b|] eqn:Hb.
        * by apply HE in Hb as [-> _].
        * destruct (disk s !! l) as [b|] eqn:Hb'; [|done]. assert (disk s2 !! l = Some b) by (apply HE; done). congruence.
    - destruct Hwp as ((Hq' & Hca) & σ0 & _ & _ & _ & HE). apply holds_affine in HE as [-> _].
      specialize (Hio EIO s2 eq_refl). destruct (Hca eq_refl) as (j & Hj & Hf).
      apply Hok, made_fail. intros _. exists j. split; [cbn in Hio; lia|done].
  Qed.

  (** ** No block is lost *)
  (** events that keep all trees well accounted for: the process does not die,
      no handle is dropped, and no callback fails in a Discard, a Prune or a
      deletion *)
  Definition careful e : Prop :=
    match e with
    | Restart | Died _ => False
    | Done (OldTree _ _) _ _ | Done (Forget _) _ _ => False
    | Done (Discard _) _ cbs => true ∉ cbs
    | Failed (Prune _) _ _ | Failed (Discard _) _ _ => False
    | Failed (MapCall _ c) _ _ => is_delete c = false
    | _ => True
    end.
  Definition counted (f : family K V) : Prop := fm_rest f = Exact ∧ ∀ lv, fm_live f = Some lv → lv_broken lv = false.
  Lemma counted_upd w t F : (∀ f lv, counted f → fm_live f = Some lv → counted (F f lv)) → Forall counted (w_fams w) → Forall counted (w_fams (upd w t F)).
  Proof.
    intros HF Hw. unfold upd. destruct (fam_of w t) as [[i f]|] eqn:Hf; [|done]. destruct (fm_live f) as [lv|] eqn:Hl; [|done].
    apply Forall_insert; [done|]. apply HF; [|done]. apply fam_of_Some in Hf as (Hi & _). rewrite Forall_lookup in Hw. by eapply Hw.
  Qed.
  Lemma counted_live f x lv its c : counted f → fm_live f = Some lv → lv_broken x = lv_broken lv → counted (Family its (Some x) c (fm_rest f)).
  Proof. intros [H1 H2] Hl Hb. split; [done|]. cbn. intros ? [= <-]. rewrite Hb. by apply H2. Qed.
  Lemma counted_next w e : careful e → Forall counted (w_fams w) → Forall counted (w_fams (next w e)).
  Proof.
    intros Hc Hw. destruct e as [c r cbs|c e cbs|c|]; try done; cbn [Machine.next].
    - destruct c; cbn [next_done] in *; try done.
      + destruct r; try done. cbn. apply Forall_app. split; [done|]. apply Forall_singleton. split; [done|]. by intros lv [= <-].
      + apply counted_upd; [|done]. intros f lv H Hl. destruct (spec_call _ _ _). by eapply counted_live.
      + destruct r; try done. apply counted_upd; [|done]. intros f lv H Hl. by eapply counted_live.
      + apply counted_upd; [|done]. intros f lv H Hl. by eapply counted_live.
      + apply counted_upd; [|done]. intros f lv H Hl. by eapply counted_live.
      + apply counted_upd; [|done]. intros f lv [H1 H2] Hl. by split.
      + apply counted_upd; [|done]. intros f lv [H1 H2] Hl. destruct (existsb id cbs) eqn:Hex.
        * exfalso. apply Hc. apply existsb_exists in Hex as ([] & Hx & ?); [|done]. by apply elem_of_list_In.
        * split; [done|]. by intros ?.
      + by destruct r as [| | | | | | | |[]|].
    - destruct c; cbn [next_failed] in *; try done.
      + by rewrite Hc.
      + apply counted_upd; [|done]. intros f lv H Hl. by eapply counted_live.
  Qed.
  Lemma counted_after hi : Forall careful hi → Forall counted (w_fams (after hi)).
  Proof.
    unfold after. assert (Forall counted (w_fams (world0 : world))) as H by constructor. revert H. generalize (world0 : world).
    induction hi as [|e hi IH]; intros w Hw Hc; [done|]. apply Forall_cons in Hc as [H1 H2]. cbn. apply IH; [|done]. by apply counted_next.
  Qed.
  Lemma own_handle (mn : nat) t its x σ : treeres cb dom domV mn t its x σ → is_Some (σ !! KR t).
  Proof.
    intros (ca & root & S & h & g & HX). apply holds_affine in HX as [_ (σ1 & σ2 & -> & Hd & HT & _)].
    destruct HT as (σ3 & σ4 & -> & Hd' & HT & _). apply own_in in HT. eexists. apply lookup_union_Some_l. by apply lookup_union_Some_l.
  Qed.
  Lemma counted_unique w σ i f lv : fams_res cb dom domV (w_fams w) σ → Forall counted (w_fams w) → w_fams w !! i = Some f →
    fm_live f = Some lv → fam_of w (lv_tree lv) = Some (i, f).
  Proof.
    intros HR HC Hi Hl. apply fam_of_Some. split_and!; [done|by apply (has_live _ _ lv)|]. intros j f' Hj Hlt Ht.
    pose proof (fams_split cb dom domV (w_fams w) i f Hi) as [HE]. apply HE in HR as (σ1 & σ2 & -> & Hd & [H1 _] & H2).
    destruct (big_in _ _ _ f' H2) as (σ3 & [H3 _] & Hs).
    { apply (elem_of_list_lookup_2 _ j). by rewrite lookup_delete_lt. }
    rewrite Forall_lookup in HC. destruct (HC _ _ Hi) as [Hx Hb]. destruct (HC _ _ Hj) as [Hx' Hb'].
    unfold has_tree in Ht. destruct (fm_live f') as [lv'|] eqn:Hl'; [|done].
    unfold body in H1, H3. rewrite Hl (Hb _ Hl) in H1. rewrite Hl' (Hb' _ eq_refl) in H3.
    destruct H1 as (σ4 & σ5 & -> & Hd1 & [v H1]%own_handle & _). destruct H3 as (σ6 & σ7 & -> & Hd3 & [v' H3]%own_handle & _).
    rewrite Ht in H3. eapply (map_disjoint_spec (σ4 ∪ σ5) σ2); [exact Hd|by apply lookup_union_Some_l|].
    eapply lookup_weaken; [|exact Hs]. by apply lookup_union_Some_l.
  Qed.
  Theorem no_leak hi s l : history hi s → Forall careful hi → is_Some (disk s !! l) ↔
    ∃ t m mn ca S h g, contents (after hi) t = Some m ∧ pictured s t mn ca S h g ∧ l ∈ locs g ++ S.
  Proof using WF.
    intros HH Hc. split; last first.
    { intros (t & m & mn & ca & S & h & g & Hm & HP & Hin). destruct (tree_shape _ _ _ _ HH Hm) as (mn' & ca' & S' & h' & g' & HP' & _ & _ & _ & _ & _ & Hx).
      destruct (pictured_inj cb dom domV WF _ _ _ _ _ _ _ _ _ _ _ _ HP' HP) as (-> & -> & -> & -> & ->). by apply Hx. }
    intros [b Hb]. pose proof (counted_after _ Hc) as HC. destruct (hist_facts cb dom domV WF _ _ HH) as (_ & _ & HW).
    pose proof HW as [_ _ _ _ _ (σ & Hv & HR)]. apply (views_disk _ _ _ _ Hv) in Hb.
    destruct (big_find _ _ _ _ _ HR Hb) as (i & f & σ1 & σ2 & Hi & -> & Hd & [HB _] & HR' & Hb1); [by intros []|].
    rewrite Forall_lookup in HC. destruct (HC _ _ Hi) as [Hx Hbr]. unfold body in HB. rewrite Hx in HB.
    destruct (fm_live f) as [lv|] eqn:Hl; [|by apply HB in Hb1]. rewrite (Hbr _ eq_refl) in HB.
    destruct HB as (σ3 & σ4 & -> & Hd' & HT & HE). apply lookup_union_Some in Hb1 as [Hb1|Hb1]; [|by apply HE in Hb1|done].
    destruct HT as (ca & root & S & h & g & HX). apply holds_affine in HX as [(Ht & Hits & Hco) HX].
    exists (lv_tree lv), (lv_items lv), (mnof f), ca, S, h, g. split_and!.
    - apply contents_Some. exists i, f, lv. split_and!; [|done|by apply Hbr|done]. by eapply counted_unique; [exact HR|exact (counted_after _ Hc)|..].
    - eapply tree_pictured; [exact Ht| |exact HX]. apply (within_l _ σ4). by apply (views_within s _ σ2).
    - eapply ow_D; [by eapply (tree_owns cb dom domV)|exact Hb1].
  Qed.
End footprint.

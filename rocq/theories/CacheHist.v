(** * The node cache and the drainer over histories

    Models no code. *)
From Coq Require Import ssreflect.
From stdpp Require Import prelude list gmap.
From iris.bi Require Import bi.
From iris.proofmode Require Import proofmode.
From Verif Require Import Spec SpecFacts BTree HProp Lru Wp Kv Codec Ghost Order PsTree Rep Load Search Update Plug Insert Borrow Merge Rebal Api Walk Touch Maint Report Open Pres Machine Still World Client Sample Disk Picture Hist Seat History Footprint Aside Cache.
Open Scope Z_scope.
Local Open Scope general_if_scope.

(** ** Eviction keeps the order of what stays *)
Lemma sublist_filter {A} (P : A → Prop) `{∀ x, Decision (P x)} (l : list A) : sublist (filter P l) l.
Proof. induction l as [|a l IH]; [done|]. rewrite filter_cons. destruct (decide (P a)); by constructor. Qed.
Lemma sublist_same {A} (l l' : list A) : sublist l' l → length l = length l' → l' = l.
Proof.
  intros Hs. induction Hs as [|x l' l Hs IH|x l' l Hs IH]; cbn; [done|..]; intros He; [f_equal; apply IH; lia|]. apply sublist_length in Hs. lia.
Qed.
Lemma sublist_all {A} (l l' : list A) : NoDup l → sublist l' l → (∀ x, x ∈ l → x ∈ l') → l' = l.
Proof.
  intros Hd Hs. induction Hs as [|x l' l Hs IH|x l' l Hs IH]; intros Ha; [done|..]; apply NoDup_cons in Hd as [Hx Hd].
  - f_equal. apply IH; [done|]. intros y Hy. specialize (Ha y). rewrite !elem_of_cons in Ha. destruct Ha as [->|]; [by right|done|done].
  - exfalso. apply Hx. eapply elem_of_submseteq; [|by apply sublist_submseteq]. apply Ha. left.
Qed.
Section thin.
  Context {K V : Type}.
  Notation st := (st K V).
  Notation M := (M K V).
  Implicit Types (s : st) (n : nid) (t : tid).
  Definition kept s s' : Prop := c_low (cache s') = c_low (cache s) ∧ c_high (cache s') = c_high (cache s) ∧ disk s' = disk s ∧ iocount s' = iocount s.
  Definition thinner s s' : Prop := ∀ c d, lists s c d → kept s s' ∧ ∃ c' d', lists s' c' d' ∧ sublist c' c ∧ sublist d' d.
  Definition state_of {A} (o : out K V A) : st := match o with ORet _ s | OErr _ s | OStop _ s => s end.
  Definition thins {A} (m : M A) : Prop := ∀ s, thinner s (state_of (m s)).
  Lemma thinner_refl s : thinner s s.
  Proof. intros c d H. split; [done|]. by exists c, d. Qed.
  Lemma thinner_trans s1 s2 s3 : thinner s1 s2 → thinner s2 s3 → thinner s1 s3.
  Proof.
    intros H1 H2 c d H. destruct (H1 _ _ H) as ((?&?&?&?) & c1 & d1 & H' & ? & ?). destruct (H2 _ _ H') as ((?&?&?&?) & c2 & d2 & ? & ? & ?).
    split; [unfold kept; split_and!; congruence|]. exists c2, d2. split; [done|]. split; by etrans.
  Qed.
  Lemma th_bind {A B} (m : M A) (f : A → M B) : thins m → (∀ a, thins (f a)) → thins (bind m f).
  Proof. intros H1 H2 s. specialize (H1 s). rewrite run_bind. destruct (m s) as [a s1|e s1|x s1]; [|done..]. by eapply thinner_trans, H2. Qed.
  Lemma th_same {A} (m : M A) : (∀ s, state_of (m s) = s) → thins m.
  Proof. intros H s. rewrite H. apply thinner_refl. Qed.
  Lemma th_aloof s s' : aloof s s' → disk s' = disk s → iocount s' = iocount s → thinner s s'.
  Proof. intros (H1 & H2 & _) Hd Hi c d H. split; [by rewrite /kept H2|]. exists c, d. split; [|done]. eapply lists_ext; [done|done|]. by rewrite H2. Qed.
  Lemma th_getN n : thins (getN (K:=K) (V:=V) n).
  Proof. apply th_same. intros s. cbn. by destruct (nodes s !! n). Qed.
  Lemma th_modN n f : thins (modN (K:=K) (V:=V) n f).
  Proof. intros s. cbn. destruct (nodes s !! n) as [r|]; [|apply thinner_refl]. by apply th_aloof. Qed.
  Lemma th_evicted t n : thins (markNodeEvicted (K:=K) (V:=V) t n).
  Proof.
    assert (∀ s s', lru_frame s s' → kept s s') as Hfk. { by intros s s' (cs & c & -> & _ & ? & ? & _). }
    intros s c d HL. unfold markNodeEvicted, whenCache, getT. urun. destruct (trees s !! t) as [T|]; [|by apply thinner_refl].
    destruct (t_cache T); [|by apply thinner_refl]. unfold getC. urun. destruct (cells s !! n) as [x|] eqn:Hx; [|by apply thinner_refl].
    destruct (ctg x) eqn:Ht; [by apply thinner_refl|..].
    - destruct (remove_lists _ _ _ false _ _ HL Hx Ht) as (s' & Hs' & Hf & Hn & HL'). rewrite Hs'. split; [by apply Hfk|]. cbn. eexists _, _. split; [exact HL'|]. cbn. split; [apply sublist_filter|done].
    - destruct (remove_lists _ _ _ true _ _ HL Hx Ht) as (s' & Hs' & Hf & Hn & HL'). rewrite Hs'. split; [by apply Hfk|]. cbn. eexists _, _. split; [exact HL'|]. cbn. split; [done|apply sublist_filter].
  Qed.
  Lemma th_evict t n : thins (evictNode (K:=K) (V:=V) t n).
  Proof. unfold evictNode. repeat (apply th_bind; [first [apply th_evicted|apply th_modN]|intros _]). apply th_modN. Qed.
  Lemma th_ret {A} (a : A) : thins (ret a).
  Proof. by apply th_same. Qed.
  Lemma th_forM {A} (l : list A) (f : A → M unit) : (∀ a, thins (f a)) → thins (forM l f).
  Proof. intros H. induction l as [|a l IH]; cbn; [apply th_ret|]. apply th_bind; [apply H|intros _; apply IH]. Qed.
  Lemma th_children n (f : nid → M unit) : (∀ c, thins (f c)) → thins (forChildren n f).
  Proof.
    intros H. unfold forChildren, kvLen, kvGet, kvOf. 
    assert (thins (bind (getN n) (λ r, match b_kv r with Some t => ret t | None => panic end))) as Hkv.
    { apply th_bind; [apply th_getN|]. intros r. apply th_same. intros s. by destruct (b_kv r). }
    apply th_bind; [apply th_bind; [exact Hkv|intros; apply th_ret]|]. intros len. apply th_forM. intros i.
    apply th_bind.
    - apply th_bind; [exact Hkv|]. intros kv. apply th_bind; [apply th_same; intros s; unfold lift; by case_match|].
      intros a. apply th_same. intros s. by destruct a.
    - intros o. apply th_bind; [by apply th_same; intros s; destruct o|]. intros [k v]. apply th_bind; [by apply th_same; intros s; destruct v|]. apply H.
  Qed.
  Lemma th_purge fuel t full : ∀ n, thins (purgeNode (K:=K) (V:=V) fuel t n full).
  Proof.
    induction fuel as [|fuel IH]; intros n; cbn [purgeNode]; [by apply th_same|].
    apply th_bind; [apply th_getN|]. intros r. destruct (negb (b_loaded r)); [apply th_ret|]. destruct (full && b_dirty r); [by apply th_same|].
    apply th_bind; [|intros _; apply th_bind; [apply th_getN|]; intros r'; destruct (b_dirty r'); [apply th_ret|apply th_evict]].
    destruct (b_leaf r); [apply th_ret|]. apply th_bind; [|intros _; by apply th_children].
    unfold forLeft. apply th_bind; [apply th_getN|]. intros r'. destruct (b_left r'); [apply IH|apply th_ret].
  Qed.
  Lemma th_drain n : thins (drainerEvict (K:=K) (V:=V) n).
  Proof.
    unfold drainerEvict, with_fuel. apply th_bind; [by apply th_same|]. intros fuel.
    apply th_bind; [apply th_same; intros s; cbn; by destruct (cells s !! n)|]. intros c. apply th_bind; [apply th_getN|]. intros r.
    destruct (decide _); [|apply th_ret]. intros s. pose proof (th_purge fuel (b_tree r) true n s) as HP. urun.
    by destruct (purgeNode fuel (b_tree r) n true s).
  Qed.
End thin.

Section cachehist.
  Context {K V : Type}.
  Variable cb : callbacks K V.
  Variable dom : K → Prop.
  Variable domV : V → Prop.
  Hypothesis WF : wf_cb cb dom domV.
  Notation cmp := (cb_cmp cb).
  Notation st := (st K V).
  Notation gt := (gt K V).
  Notation event := (event K V).
  Notation world := (world K V).
  Notation history := (history cb dom domV).
  Notation after := (after cmp).
  Notation winv := (winv cb dom domV).
  Notation pictured := (pictured cb dom domV).
  Notation seat := (seat cb dom domV).
  Notation hProp := (hProp K V).
  Implicit Types (w : world) (e : event) (s : st) (g : gt) (l : loc) (t : tid) (n : nid).

  (** ** Every node in the cache is a loaded node of an open tree *)
  Lemma live_on w s i f lv : winv w s → Forall unbroken (w_fams w) → w_fams w !! i = Some f → fm_live f = Some lv → ontree w (lv_tree lv) i f lv.
  Proof.
    intros HW HC Hi Hl. pose proof HC as HC'. rewrite Forall_lookup in HC. destruct (HC _ _ Hi) as [_ Hb]. split; [|done|by apply Hb].
    apply fam_of_Some. split_and!; [done|by apply (has_live _ _ lv)|]. intros j f' Hj Hlt Ht. pose proof (wi_res _ _ _ _ _ HW) as (σ & _ & HR).
    pose proof (fams_split cb dom domV (w_fams w) i f Hi) as [HE]. apply HE in HR as (σ1 & σ2 & -> & Hd & [H1 _] & H2).
    destruct (big_in _ _ _ f' H2) as (σ3 & [H3 _] & Hs).
    { apply (elem_of_list_lookup_2 _ j). by rewrite lookup_delete_lt. }
    destruct (HC _ _ Hj) as [_ Hb'].
    unfold has_tree in Ht. destruct (fm_live f') as [lv'|] eqn:Hl'; [|done].
    unfold body in H1, H3. rewrite Hl (Hb _ Hl) in H1. rewrite Hl' (Hb' _ eq_refl) in H3.
    destruct H1 as (σ4 & σ5 & -> & Hd1 & [v H1]%own_handle & _). destruct H3 as (σ6 & σ7 & -> & Hd3 & [v' H3]%own_handle & _).
    rewrite Ht in H3. eapply (map_disjoint_spec (σ4 ∪ σ5) σ2); [exact Hd|by apply lookup_union_Some_l|].
    eapply lookup_weaken; [|exact Hs]. by apply lookup_union_Some_l.
  Qed.
  Lemma tag_owner w s n x : winv w s → Forall unbroken (w_fams w) → cells s !! n = Some x → ctg x ≠ noLRU →
    ∃ t i f lv root S h g σ σf, ontree w t i f lv ∧ seat w s t i f lv true root S h g σ σf ∧ n ∈ loaded (ctg x) g.
  Proof.
    intros HW Hun Hx Hne. pose proof (wi_res _ _ _ _ _ HW) as (σ & Hv & HF).
    assert (σ !! KT n = Some (RT (ctg x))) as Hk by by rewrite -Hv /= Hx.
    destruct (big_find _ _ _ _ _ HF Hk) as (i & f & σ1 & σ2 & Hi & -> & Hd & HB & HR & Hk1); [by cbn|].
    pose proof Hun as Hun'. rewrite Forall_lookup in Hun'. destruct (Hun' _ _ Hi) as [Hnl Hb]. pose proof HB as [HB' _]. unfold body in HB'.
    destruct (fm_live f) as [lv|] eqn:Hl; last first.
    { exfalso. unfold junk in HB'. destruct (fm_rest f); [by apply HB' in Hk1|by specialize (HB' _ _ Hk1) as [= ?]|done]. }
    pose proof (live_on _ _ _ _ _ HW Hun Hi Hl) as Hon. destruct (ot_mn cb dom domV _ _ _ _ _ _ Hon HW) as [Hmn _].
    rewrite (Hb _ eq_refl) in HB'. destruct HB' as (σt & σj & -> & Hdt & HT & HJ).
    apply map_disjoint_union_l in Hd as [Hd1 Hd2].
    apply lookup_union_Some in Hk1; [|done]. destruct Hk1 as [Hk1|Hk1]; last first.
    { exfalso. unfold junk in HJ. destruct (fm_rest f); [by apply HJ in Hk1|by specialize (HJ _ _ Hk1) as [= ?]|done]. }
    destruct HT as (ca & root & S & h & g & HT). apply holds_affine in HT as [(Ht & Hits & Hcd) HT].
    assert (seat w s (lv_tree lv) i f lv ca root S h g σt (σj ∪ σ2)) as HS.
    { split; try done.
      - exists σj, σ2. by split_and!.
      - by apply map_disjoint_union_r.
      - by rewrite assoc. }
    pose proof (seat_owns cb dom domV _ _ _ _ _ _ _ _ _ _ _ _ _ HS) as Ho.
    destruct (ow_T _ _ _ _ _ Ho _ _ Hk1) as [|[-> [[Hq Hin]|[Hq Hin]]]]; [done|..]; rewrite Hq; by exists (lv_tree lv), i, f, lv, root, S, h, g, σt, (σj ∪ σ2).
  Qed.

  Lemma within_tag s σ n x : within σ s → σ !! KT n = Some (RT x) → ∃ c, cells s !! n = Some c ∧ ctg c = x.
  Proof. intros Hw Hk. specialize (Hw _ _ Hk). cbn in Hw. destruct (cells s !! n) as [c|]; [|done]. exists c. split; [done|]. by injection Hw. Qed.
  Lemma listed_tag s c d n x : lists s c d → cells s !! n = Some x → ctg x = cleanLRU ↔ n ∈ c.
  Proof.
    intros HL Hx. pose proof (lists_tag _ _ _ _ _ HL Hx) as Ht. split; [by intros Hq; rewrite Hq in Ht|].
    intros Hn. destruct (ctg x); [by destruct Ht|done|by destruct (ls_disj _ _ _ HL n Hn)].
  Qed.
  Lemma listed_tag' s c d n x : lists s c d → cells s !! n = Some x → ctg x = dirtyLRU ↔ n ∈ d.
  Proof.
    intros HL Hx. pose proof (lists_tag _ _ _ _ _ HL Hx) as Ht. split; [by intros Hq; rewrite Hq in Ht|].
    intros Hn. destruct (ctg x) eqn:Hq; [by destruct Ht|by destruct (ls_disj _ _ _ HL n Ht)|done].
  Qed.
  Lemma listed_cell s c d n : lists s c d → n ∈ c ∨ n ∈ d → ∃ x, cells s !! n = Some x.
  Proof. intros HL [[i Hi]%elem_of_list_lookup|[i Hi]%elem_of_list_lookup]; eexists; [by apply (li_cell _ _ _ _ (ls_clean _ _ _ HL))|by apply (li_cell _ _ _ _ (ls_dirty _ _ _ HL))]. Qed.

  Theorem cache_has hi s c d t m mn S h g : history hi s → lists s c d → contents (after hi) t = Some m → pictured s t mn true S h g →
    (∀ n, n ∈ loaded cleanLRU g → n ∈ c) ∧ (∀ n, n ∈ loaded dirtyLRU g → n ∈ d).
  Proof using WF.
    intros HH HL Hm HP. destruct (hist_pic cb dom domV WF _ _ _ _ _ _ _ _ _ HH Hm HP) as (i & f & lv & root & σ & σf & Hon & _ & -> & HS).
    pose proof (seat_owns cb dom domV _ _ _ _ _ _ _ _ _ _ _ _ _ HS) as Ho.
    assert (within σ s) as Hw by (eapply views_within; apply HS).
    split; intros n Hn.
    - destruct (within_tag _ _ _ _ Hw (ow_T' _ _ _ _ _ Ho n eq_refl Hn)) as (x & Hx & Ht). by apply (listed_tag _ _ _ _ _ HL Hx).
    - destruct (within_tag _ _ _ _ Hw (ow_T'' _ _ _ _ _ Ho n eq_refl Hn)) as (x & Hx & Ht). by apply (listed_tag' _ _ _ _ _ HL Hx).
  Qed.
  Theorem cache_only hi s c d n : history hi s → Forall unbroken (w_fams (after hi)) → lists s c d → n ∈ c ∨ n ∈ d →
    ∃ t m mn S h g, contents (after hi) t = Some m ∧ pictured s t mn true S h g ∧ (n ∈ c ∧ n ∈ loaded cleanLRU g ∨ n ∈ d ∧ n ∈ loaded dirtyLRU g).
  Proof using WF.
    intros HH Hun HL Hn. destruct (hist_facts cb dom domV WF _ _ HH) as (_ & _ & HW). destruct (listed_cell _ _ _ _ HL Hn) as [x Hx].
    assert (ctg x = cleanLRU ∧ n ∈ c ∨ ctg x = dirtyLRU ∧ n ∈ d) as Ht.
    { destruct Hn as [Hn|Hn]; [left|right]; (split; [|done]); [by apply (listed_tag _ _ _ _ _ HL Hx)|by apply (listed_tag' _ _ _ _ _ HL Hx)]. }
    destruct (tag_owner _ _ _ _ HW Hun Hx) as (t & i & f & lv & root & S & h & g & σ & σf & Hon & HS & Hin); [by destruct Ht as [[-> _]|[-> _]]|].
    exists t, (lv_items lv), (mnof f), S, h, g. split_and!.
    - apply contents_Some. destruct Hon as [H1 H2 H3]. by exists i, f, lv.
    - by eapply seat_pictured.
    - destruct Ht as [[Hq ?]|[Hq ?]]; rewrite Hq in Hin; [by left|by right].
  Qed.
  (** no node belongs to two trees *)
  Theorem cache_apart hi s t t' m m' mn S h g mn' S' h' g' n : history hi s → contents (after hi) t = Some m → contents (after hi) t' = Some m' →
    pictured s t mn true S h g → pictured s t' mn' true S' h' g' → n ∈ loaded cleanLRU g ++ loaded dirtyLRU g → n ∈ loaded cleanLRU g' ++ loaded dirtyLRU g' → t = t'.
  Proof using WF.
    intros HH Hm Hm' HP HP' Hin Hin'. destruct (decide (t' = t)) as [|Hne]; [done|exfalso].
    destruct (hist_pic cb dom domV WF _ _ _ _ _ _ _ _ _ HH Hm HP) as (i & f & lv & root & σ & σf & Hon & _ & -> & HS).
    destruct (hist_pic cb dom domV WF _ _ _ _ _ _ _ _ _ HH Hm' HP') as (i' & f' & lv' & root' & σ1 & σf1 & Hon' & _ & -> & HS').
    destruct (seat_other cb dom domV _ _ _ _ _ _ _ _ _ _ _ _ _ _ _ _ _ HS Hon Hon' Hne) as (ca2 & root2 & S2 & h2 & g2 & σ2 & Hok2 & HX2 & Hs2).
    pose proof (tree_pictured cb dom domV _ _ _ _ _ _ _ _ _ Hok2 (views_sub _ _ _ _ (se_disj _ _ _ _ _ _ _ _ _ _ _ _ _ _ _ _ HS) (se_views _ _ _ _ _ _ _ _ _ _ _ _ _ _ _ _ HS) Hs2) HX2) as HP2.
    destruct (pictured_inj cb dom domV WF _ _ _ _ _ _ _ _ _ _ _ _ HP' HP2) as (_ & -> & -> & -> & ->).
    pose proof (tree_owns cb dom domV _ _ _ _ _ _ _ _ Hok2 HX2) as Ho2. pose proof (seat_owns cb dom domV _ _ _ _ _ _ _ _ _ _ _ _ _ HS) as Ho.
    assert (is_Some (σ !! KT n)) as [a Ha].
    { apply elem_of_app in Hin as [Hin|Hin]; eexists; [by apply (ow_T' _ _ _ _ _ Ho)|by apply (ow_T'' _ _ _ _ _ Ho)]. }
    assert (is_Some (σ2 !! KT n)) as [b Hb].
    { apply elem_of_app in Hin' as [Hin'|Hin']; eexists; [by apply (ow_T' _ _ _ _ _ Ho2)|by apply (ow_T'' _ _ _ _ _ Ho2)]. }
    eapply (map_disjoint_spec σ σf); [apply HS|exact Ha|]. by eapply lookup_weaken.
  Qed.

  (** ** The drainer *)
  (** [s] with the flag that says the drainer is running cleared *)
  Definition idle s : st := let x := cache s in set_cache (Cache (c_low x) (c_high x) (c_clean x) (c_dirty x) false (c_hits x) (c_misses x)) s.
  Theorem select_run s c d : lists s c d →
    match c with
    | [] => exec cb DrainSelect s = ORet (RVictim None) (idle s)
    | n :: _ => exec cb DrainSelect s =
        if decide (Z.of_nat (length c) + Z.of_nat (length d) ≤ c_low (cache s)) then
          ORet (RVictim None) (idle s)
        else ORet (RVictim (Some n)) s
    end.
  Proof.
    intros HL. cbn [exec]. unfold drainerSelect, getCache. urun.
    rewrite (li_items _ _ _ _ (ls_clean _ _ _ HL)) (li_items _ _ _ _ (ls_dirty _ _ _ HL)) (li_head _ _ _ _ (ls_clean _ _ _ HL)).
    destruct c as [|n c]; [done|]. destruct (decide _) as [Hle|Hle].
    - rewrite orb_comm. by replace (_ <=? _) with true by (symmetry; by apply Z.leb_le).
    - replace (_ =? _) with false by (symmetry; apply Z.eqb_neq; cbn; lia). by replace (_ <=? _) with false by (symmetry; apply Z.leb_gt; lia).
  Qed.
  Theorem select_choice s c d : lists s c d →
    ∃ v s', exec cb DrainSelect s = ORet (RVictim v) s' ∧
      (v = None ↔ c = [] ∨ Z.of_nat (length c) + Z.of_nat (length d) ≤ c_low (cache s)) ∧
      (v = None → s' = idle s) ∧ (∀ n, v = Some n → head c = Some n ∧ s' = s).
  Proof.
    intros HL. pose proof (select_run _ _ _ HL) as HS. destruct c as [|n c].
    - exists None, (idle s). split_and!; [done| |done|done]. split; [by left|done].
    - destruct (decide _) as [Hle|Hle].
      + exists None, (idle s). split_and!; [done| |done|done]. split; [by right|done].
      + exists (Some n), s. split_and!; [done| |done|by intros ? [= <-]]. split; [done|]. by intros [?|?].
  Qed.
  Lemma exec_select s : exec cb DrainSelect s = match drainerSelect s with ORet o s' => ORet (RVictim o) s' | OErr e s' => OErr e s' | OStop w s' => OStop w s' end.
  Proof. cbn [exec]. rewrite run_bind. by destruct (drainerSelect s). Qed.
  Lemma exec_evict n s : exec cb (DrainEvict n) s = match drainerEvict n s with ORet _ s' => ORet RUnit s' | OErr e s' => OErr e s' | OStop w s' => OStop w s' end.
  Proof. cbn [exec]. rewrite run_bind. by destruct (drainerEvict n s). Qed.
  Theorem evict_run hi s n c d : history hi s → legal dom domV (after hi) (DrainEvict n) → lists s c d →
    (n ∉ c → exec cb (DrainEvict n) s = ORet RUnit s) ∧
    (n ∈ c → ∃ s' c', exec cb (DrainEvict n) s = ORet RUnit s' ∧ lists s' c' d ∧ sublist c' c ∧ n ∉ c' ∧ disk s' = disk s ∧ c_low (cache s') = c_low (cache s) ∧
      ∀ t m mn ca S h g, contents (after hi) t = Some m → pictured s t mn ca S h g →
        ∃ g', pictured s' t mn ca S h g' ∧ strip g' = strip g ∧ locs g' = locs g ∧ Permutation (loaded dirtyLRU g') (loaded dirtyLRU g) ∧
          (∀ n', n' ∈ loaded cleanLRU g' → n' ∈ loaded cleanLRU g)).
  Proof using WF.
    intros HH Hleg HL. pose proof Hleg as [Hch Hun]. destruct (hist_facts cb dom domV WF _ _ HH) as (_ & _ & HW).
    pose proof (wi_chosen _ _ _ _ _ HW _ Hch) as Hn. pose proof Hn as Hc. rewrite -(wi_dom _ _ _ _ _ HW) in Hc.
    apply elem_of_dom in Hn as [r Hr]. apply elem_of_dom in Hc as [x Hx]. split.
    { intros Hnc. cbn [exec]. unfold drainerEvict, getC, getN. urun. rewrite Hx; urun. rewrite Hr; urun. rewrite decide_False //.
      by intros Hq%(listed_tag _ _ _ _ _ HL Hx). }
    intros Hnc. apply (listed_tag _ _ _ _ _ HL Hx) in Hnc.
    destruct (tag_owner _ _ _ _ HW Hun Hx) as (t & i & f & lv & root & S & h & g & σ & σf & Hon & HS & Hin); [by rewrite Hnc|]. rewrite Hnc in Hin.
    pose proof (seat_owns cb dom domV _ _ _ _ _ _ _ _ _ _ _ _ _ HS) as Ho. pose proof HS as [H1 H2 H3 H4 H5 H6 H7 H8].
    pose proof (drainerEvict_spec cb dom domV WF (mnof f) H1 t true n root S h g H2 Hin eq_refl) as Hwp.
    pose proof (seat_run cb dom domV _ _ _ _ _ _ _ _ _ _ _ _ _ _ _ _ _ HW HS Hwp) as HR.
    pose proof (step_ok cb dom domV WF _ _ _ HW Hleg) as HP. pose proof (th_drain (K:=K) (V:=V) n s c d HL) as HT.
    unfold cmd_post in HP. rewrite !exec_evict in HP. rewrite exec_evict.
    destruct (drainerEvict n s) as [[] s'|e s'|[] s'] eqn:HE; try done; [|by destruct HR as (σ' & _ & _ & [])|by destruct HP as [HP _]; destruct HP].
    destruct HR as (σ' & Hd' & Hv' & (g' & HX)). apply holds_affine in HX as [(Ht' & Hvw & (X & HnX & HXp) & Hdp) HX].
    pose proof (tree_owns cb dom domV _ _ _ _ _ _ _ _ Ht' HX) as Ho'. 
    assert (within σ' s') as Hw' by by eapply views_within.
    destruct HT as [(Hlo & _ & Hdk & _) (c' & d' & HL' & Hsc & Hsd)].
    assert (d' = d) as ->.
    { apply sublist_all; [by eapply (lists_nodup _ c d)|done|]. intros n' Hn'. destruct (listed_cell _ _ _ n' HL) as [x' Hx']; [by right|].
      pose proof (proj2 (listed_tag' _ _ _ _ _ HL Hx') Hn') as Hq.
      assert ((σ ∪ σf) !! KT n' = Some (RT dirtyLRU)) as Hk by by rewrite -H8 /= Hx' /= Hq.
      assert ((σ' ∪ σf) !! KT n' = Some (RT dirtyLRU)) as Hk'.
      { apply lookup_union_Some in Hk as [Hk|Hk]; [|by apply lookup_union_Some_r|done]. apply lookup_union_Some_l.
        destruct (ow_T _ _ _ _ _ Ho _ _ Hk) as [|[_ [[? _]|[_ Hi']]]]; [done|done|]. apply (ow_T'' _ _ _ _ _ Ho'); [done|]. by rewrite Hdp. }
      rewrite -Hv' in Hk'. cbn in Hk'. destruct (cells s' !! n') as [x2|] eqn:Hx2; [|done]. cbn in Hk'. injection Hk' as Hq2.
      by apply (listed_tag' _ _ _ _ _ HL' Hx2). }
    exists s', c'. split_and!; [done|done|done| |done|done|].
    - intros Hnc'. destruct (listed_cell _ _ _ n HL') as [x' Hx']; [by left|].
      pose proof (proj2 (listed_tag _ _ _ _ _ HL' Hx') Hnc') as Hq.
      assert ((σ' ∪ σf) !! KT n = Some (RT cleanLRU)) as Hk by by rewrite -Hv' /= Hx' /= Hq.
      pose proof (ow_T' _ _ _ _ _ Ho n eq_refl Hin) as Hk0.
      apply lookup_union_Some in Hk as [Hk|Hk]; [|by rewrite (map_disjoint_Some_l _ _ _ _ H7 Hk0) in Hk|done].
      destruct (ow_T _ _ _ _ _ Ho' _ _ Hk) as [|[_ [[_ Hi']|[? _]]]]; [done| |done].
      destruct (ow_nodupT _ _ _ _ _ Ho eq_refl) as [Hnd _]. rewrite HXp in Hnd. apply NoDup_app in Hnd as (_ & Hnd & _). by apply (Hnd n).
    - intros t' m mn ca S0 h0 g0 Hm HP'.
      destruct (hist_pic cb dom domV WF _ _ _ _ _ _ _ _ _ HH Hm HP') as (i' & f' & lv' & root' & σ1 & σf1 & Hon' & _ & -> & HS').
      destruct (decide (t' = t)) as [->|Hne].
      + pose proof (ot_fam _ _ _ _ _ Hon) as Ha. rewrite (ot_fam _ _ _ _ _ Hon') in Ha. injection Ha as <- <-.
        destruct (pictured_inj cb dom domV WF _ _ _ _ _ _ _ _ _ _ _ _ HP' (seat_pictured cb dom domV _ _ _ _ _ _ _ _ _ _ _ _ _ HS)) as (_ & <- & <- & <- & <-).
        exists g'. split_and!.
        * by eapply tree_pictured.
        * by apply vw_strip.
        * rewrite !locs_vw ?Hvw //; [by eapply own_cleanok|apply H2|by eapply own_cleanok|apply Ht'].
        * done.
        * intros n' Hn'. rewrite HXp. apply elem_of_app. by right.
      + destruct (seat_other cb dom domV _ _ _ _ _ _ _ _ _ _ _ _ _ _ _ _ _ HS Hon Hon' Hne) as (ca2 & root2 & S2 & h2 & g2 & σ2 & Hok2 & HX2 & Hs2).
        pose proof (tree_pictured cb dom domV _ _ _ _ _ _ _ _ _ Hok2 (views_sub _ _ _ _ H7 H8 Hs2) HX2) as HP2.
        destruct (pictured_inj cb dom domV WF _ _ _ _ _ _ _ _ _ _ _ _ HP' HP2) as (_ & -> & -> & -> & ->).
        exists g0. split_and!; try done. eapply tree_pictured; [exact Hok2| |exact HX2]. by eapply views_sub.
  Qed.

  (** the whole loop, btree.go:2481-2522, when nothing comes in between; at most
      [k] rounds, [false]: not done by then *)
  Fixpoint drainer (k : nat) : M K V bool :=
    match k with
    | O => ret false
    | S k => bind drainerSelect (λ o, match o with None => ret true | Some n => bind (drainerEvict n) (λ _, drainer k) end)
    end.
  Theorem drain_ends k : ∀ hi s c d, history hi s → Forall unbroken (w_fams (after hi)) → lists s c d → (length c < k)%nat →
    ∃ s' c', drainer k s = ORet true s' ∧ lists s' c' d ∧ sublist c' c ∧ (c' = [] ∨ Z.of_nat (length c') + Z.of_nat (length d) ≤ c_low (cache s)) ∧
      c_low (cache s') = c_low (cache s) ∧ disk s' = disk s.
  Proof using WF.
    induction k as [|k IH]; intros hi s c d HH Hun HL Hk; [lia|]. cbn [drainer]. rewrite run_bind.
    pose proof (select_run _ _ _ HL) as HS. rewrite exec_select in HS.
    assert (lists (idle s) c d) as HLi by by apply (lists_ext s); [|done|intros []].
    destruct c as [|n c0].
    { destruct (drainerSelect s) as [o s1| |] eqn:Hs; [|done..]. injection HS as -> ->. exists (idle s), []. split_and!; try done. by left. }
    destruct (decide _) as [Hle|Hle].
    { destruct (drainerSelect s) as [o s1| |] eqn:Hs; [|done..]. injection HS as -> ->. exists (idle s), (n :: c0). split_and!; try done. by right. }
    assert (exec cb DrainSelect s = ORet (RVictim (Some n)) s) as He.
    { rewrite exec_select. exact HS. }
    destruct (drainerSelect s) as [o s1| |] eqn:Hs; [|done..]. injection HS as -> ->. rewrite run_bind.
    assert (legal dom domV (after hi) DrainSelect) as Hl0 by done. pose proof (hist_done cb dom domV _ _ _ _ _ HH Hl0 He) as HH1.
    assert (w_fams (after (hi ++ [Done DrainSelect (RVictim (Some n)) (made s s)])) = w_fams (after hi) ∧
      n ∈ w_chosen (after (hi ++ [Done DrainSelect (RVictim (Some n)) (made s s)]))) as [Hf Hch].
    { unfold after. rewrite foldl_app. cbn. split; [done|]. set_solver. }
    set (hi1 := hi ++ _) in *. 
    assert (legal dom domV (after hi1) (DrainEvict n)) as Hleg. { split; [done|]. by rewrite Hf. }
    destruct (proj2 (evict_run _ _ _ _ _ HH1 Hleg HL)) as (s' & c' & He' & HL' & Hsub & Hnc & Hdk & Hlo & _); [left|].
    pose proof (hist_done cb dom domV _ _ _ _ _ HH1 Hleg He') as HH2.
    rewrite exec_evict in He'. destruct (drainerEvict n s) as [[] s2| |]; [|done..]. injection He' as ->.
    destruct (IH _ _ c' d HH2) as (s2 & c2 & H1 & H2 & H3 & H4 & H5 & H6); [|done| |].
    - unfold after. rewrite foldl_app. cbn. by rewrite -/(after hi1) Hf.
    - apply sublist_length in Hsub as Hlen. cbn in Hlen, Hk. assert (length c' ≠ length (n :: c0)); [|cbn in *; lia].
      intros Heq. apply Hnc.
      assert (c' = n :: c0) as ->; [|left]. symmetry in Heq. by apply sublist_same.
    - exists s2, c2. split_and!; [done|done|by etrans|by rewrite -Hlo|congruence|congruence].
  Qed.

  Theorem hist_lists hi s : history hi s → ∃ c d x, lists s c d ∧ cache_Stats s = ORet x s ∧
    st_clean x = Z.of_nat (length c) ∧ st_dirty x = Z.of_nat (length d).
  Proof using WF.
    intros HH. destruct (hist_facts cb dom domV WF _ _ HH) as (_ & _ & HW). destruct (Inv_lists _ (wi_inv _ _ _ _ _ HW)) as (c & d & HL).
    destruct (lists_stats _ _ _ HL) as (x & ? & ? & ?). by exists c, d, x.
  Qed.
  Theorem limits_run s c d lo hi : lists s c d →
    ∃ s' x, exec cb (UpdateLimits lo hi) s = ORet RUnit s' ∧ lists s' c d ∧ cache_Stats s' = ORet x s' ∧ st_low x = lo ∧ st_high x = hi ∧
      (c_drainer (cache s') = true ↔ c_drainer (cache s) = true ∨ c ≠ [] ∧ hi < Z.of_nat (length c) + Z.of_nat (length d)).
  Proof.
    intros HL. cbn [exec]. unfold cache_UpdateLimits, kickDrainer, modCache. urun. cbn.
    rewrite (li_items _ _ _ _ (ls_clean _ _ _ HL)) (li_items _ _ _ _ (ls_dirty _ _ _ HL)).
    eexists _, _. split; [done|]. split.
    { apply (lists_ext s); [done|done|]. cbn. intros []; cbn; by destruct (_ && _). }
    split; [done|]. cbn. assert (0 < Z.of_nat (length c) ↔ c ≠ []) as Hc. { destruct c; cbn; split; [lia|done|done|lia]. }
    destruct (c_drainer (cache s)) eqn:Hdr; cbn; [split_and!; [done|done|]; naive_solver|].
    destruct (0 <? Z.of_nat (length c)) eqn:H1; cbn; [apply Z.ltb_lt in H1|apply Z.ltb_ge in H1].
    - destruct (hi <? _) eqn:H2; cbn; [apply Z.ltb_lt in H2|apply Z.ltb_ge in H2]; (split_and!; [done|done|]); [naive_solver|]. split; [congruence|]. intros [?|[_ ?]]; [congruence|lia].
    - split_and!; [done|done|]. split; [congruence|]. intros [?|[?%Hc _]]; [congruence|lia].
  Qed.

  (** A node that is not loaded but still on the clean list keeps the drainer
      busy for ever. *)
  Lemma stuck s n x r : qhead (c_clean (cache s)) = Some n → qitems (c_clean (cache s)) ≠ 0 → c_low (cache s) < qitems (c_clean (cache s)) + qitems (c_dirty (cache s)) →
    cells s !! n = Some x → ctg x = cleanLRU → nodes s !! n = Some r → b_loaded r = false → ∀ k, drainer k s = ORet false s.
  Proof.
    intros H1 H2 H3 Hx Ht Hr Hl.
    assert (drainerSelect s = ORet (Some n) s) as HS.
    { unfold drainerSelect, getCache. urun. rewrite (proj2 (Z.eqb_neq _ _) H2) (proj2 (Z.leb_gt _ _) H3) H1. done. }
    assert (drainerEvict n s = ORet tt s) as HE.
    { unfold drainerEvict, getC, getN. urun. rewrite Hx; urun. rewrite Hr; urun. rewrite decide_True //. urun. cbn [purgeNode]. unfold getN. urun. rewrite Hr; urun. by rewrite Hl. }
    induction k as [|k IH]; [done|]. cbn [drainer]. rewrite run_bind HS run_bind HE. exact IH.
  Qed.
End cachehist.

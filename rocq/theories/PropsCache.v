(** * Property theorems: the node cache and the drainer (C30, C31)

    [lists s c d] (Cache.v): in state [s] the clean list of the cache is [c] and
    the dirty list is [d], head (least recently used) first; all forward and
    backward pointers, the head, the tail and the counts agree with this, no
    node is on a list twice or on both, and a node on neither has no pointers.
    [cache_Stats] is the API call Stats.  [pictured s t mn ca S h g] as in
    PropsPicture.v: in state [s] the tree with handle [t] looks like [g]; [ca]
    says if it is attached to the cache; [loaded cleanLRU g] are its nodes that
    are in memory and unmodified, [loaded dirtyLRU g] those that are modified. *)
From Coq Require Import ssreflect.
From stdpp Require Import prelude list gmap.
From Verif Require Import Spec SpecFacts Llrb LlrbSpec BTree Wp Codec Ghost Api Touch Report Open Pres Rep Machine Still World Client Sample Disk Picture Hist Seat History Footprint Sweep Aside Cache CacheHist Runs.
Open Scope Z_scope.

(** ** C30 *)
(** after any history the lists are well formed and Stats counts them *)
Theorem C30_lists :
  ∀ (K V : Type) (cb : callbacks K V) (dom : K → Prop) (domV : V → Prop), wf_cb cb dom domV →
  ∀ hi s, history cb dom domV hi s →
  ∃ c d x, lists s c d ∧ cache_Stats s = ORet x s ∧ st_clean x = Z.of_nat (length c) ∧ st_dirty x = Z.of_nat (length d).
Proof. exact @hist_lists. Qed.
Print Assumptions C30_lists.
(** a state has only one pair of lists *)
Theorem C30_unique :
  ∀ (K V : Type) (s : st K V) c d c' d', lists s c d → lists s c' d' → c = c' ∧ d = d'.
Proof. exact @lists_inj. Qed.
Print Assumptions C30_unique.
(** the loaded nodes of every attached tree are on the lists they belong to, *)
Theorem C30_has_all :
  ∀ (K V : Type) (cb : callbacks K V) (dom : K → Prop) (domV : V → Prop), wf_cb cb dom domV →
  ∀ hi s c d t m mn S h g, history cb dom domV hi s → lists s c d →
  contents (after (cb_cmp cb) hi) t = Some m → pictured cb dom domV s t mn true S h g →
  (∀ n, n ∈ loaded cleanLRU g → n ∈ c) ∧ (∀ n, n ∈ loaded dirtyLRU g → n ∈ d).
Proof. exact @cache_has. Qed.
Print Assumptions C30_has_all.
(** and there are no others, as long as no tree was damaged by a failed call or
    dropped without being discarded.
    MISSING: the case of damaged trees, where the claim is false, see [C30_refuted]. *)
Theorem C30_no_others_partial :
  ∀ (K V : Type) (cb : callbacks K V) (dom : K → Prop) (domV : V → Prop), wf_cb cb dom domV →
  ∀ hi s c d n, history cb dom domV hi s → Forall unbroken (w_fams (after (cb_cmp cb) hi)) → lists s c d → n ∈ c ∨ n ∈ d →
  ∃ t m mn S h g, contents (after (cb_cmp cb) hi) t = Some m ∧ pictured cb dom domV s t mn true S h g ∧
    (n ∈ c ∧ n ∈ loaded cleanLRU g ∨ n ∈ d ∧ n ∈ loaded dirtyLRU g).
Proof. exact @cache_only. Qed.
Print Assumptions C30_no_others_partial.
(** Otherwise there may be: after a Discard that could not read a node, the root
    of the discarded tree, which is not attached any more, is on the clean list. *)
Theorem C30_refuted : ∃ h s c d n r T, history z_cb fits fits h s ∧ lists s c d ∧ n ∈ c ∧
  nodes s !! n = Some r ∧ trees s !! b_tree r = Some T ∧ t_cache T = false.
Proof.
  assert (history z_cb fits fits (events runSpin) (final runSpin)) as HH by (apply play_is; by vm_compute).
  destruct (C30_lists _ _ _ _ _ z_wf _ _ HH) as (c & d & x & HL & _).
  exists (events runSpin), (final runSpin), c, d, 4%positive. do 2 eexists. split_and!; [done|done| |by vm_compute..].
  apply head_Some_elem_of. rewrite -(li_head _ _ _ _ (ls_clean _ _ _ HL)). by vm_compute.
Qed.
Print Assumptions C30_refuted.
(** trees that share the cache share no node *)
Theorem C30_apart :
  ∀ (K V : Type) (cb : callbacks K V) (dom : K → Prop) (domV : V → Prop), wf_cb cb dom domV →
  ∀ hi s t t' m m' mn S h g mn' S' h' g' n, history cb dom domV hi s →
  contents (after (cb_cmp cb) hi) t = Some m → contents (after (cb_cmp cb) hi) t' = Some m' →
  pictured cb dom domV s t mn true S h g → pictured cb dom domV s t' mn' true S' h' g' →
  n ∈ loaded cleanLRU g ++ loaded dirtyLRU g → n ∈ loaded cleanLRU g' ++ loaded dirtyLRU g' → t = t'.
Proof. exact @cache_apart. Qed.
Print Assumptions C30_apart.
(** Any sequence of updates [(m, t, n)] (update [m] of node [n] of tree [t]), from
    any lists: [markeds] says what becomes of the lists.  The only failure is a
    panic, when a node is used, evicted or discarded that is on no list. *)
Theorem C30_updates :
  ∀ (K V : Type) us (s : st K V) c d, lists s c d → Forall (λ u, has s u.1.2 u.2) us →
  (founds (c, d) us → ∃ s', do_marks us s = ORet tt s' ∧ lists s' (markeds (c, d) us).1 (markeds (c, d) us).2) ∧
  (¬ founds (c, d) us → ∃ s', do_marks us s = OStop Panic s').
Proof. exact @marks_run. Qed.
Print Assumptions C30_updates.
(** from empty lists, each list is in the order of the last updates of its nodes *)
Theorem C30_order :
  ∀ us, ord (later us) (markeds ([], []) us).1 ∧ ord (later us) (markeds ([], []) us).2.
Proof. exact @markeds_order. Qed.
Print Assumptions C30_order.
(** the lists of a concrete history: twelve keys in a tree of five nodes, all
    stored, and a second tree with one modified node *)
Lemma drain_hist : history z_cb fits fits (events runDrain) (final runDrain).
Proof. apply play_is; by vm_compute. Qed.
Lemma drain_lists : lists (final runDrain) [2;5;6;4;3]%positive [8]%positive.
Proof.
  assert (wf_cb z_cb fits fits) as WF by apply z_wf.
  destruct (C30_lists _ _ _ _ _ WF _ _ drain_hist) as (c & d & x & HL & _).
  assert (listed (final runDrain) (c_clean (cache (final runDrain))) cleanLRU [2;5;6;4;3]%positive) as H1.
  { split; [by vm_compute..|apply (bool_decide_unpack _); by vm_compute|]. intros i n Hi. do 5 (destruct i as [|i]; [injection Hi as <-; by vm_compute|]). done. }
  assert (listed (final runDrain) (c_dirty (cache (final runDrain))) dirtyLRU [8]%positive) as H2.
  { split; [by vm_compute..|apply (bool_decide_unpack _); by vm_compute|]. intros i n Hi. destruct i as [|i]; [injection Hi as <-; by vm_compute|]. done. }
  by rewrite (listed_inj _ _ _ _ _ H1 (ls_clean _ _ _ HL)) (listed_inj _ _ _ _ _ H2 (ls_dirty _ _ _ HL)).
Qed.
Example C30_nonvacuous :
  (∃ h s c d t t' m m' mn S hh g mn' S' hh' g', history z_cb fits fits h s ∧ lists s c d ∧ length c = 5%nat ∧ length d = 1%nat ∧
    Forall unbroken (w_fams (after z_cmp h)) ∧ t ≠ t' ∧ contents (after z_cmp h) t = Some m ∧ contents (after z_cmp h) t' = Some m' ∧
    pictured z_cb fits fits s t mn true S hh g ∧ pictured z_cb fits fits s t' mn' true S' hh' g') ∧
  (∃ s : st Z Z, lists s [2;5;6;4;3]%positive [8]%positive ∧
    has s one 5%positive ∧ has s two 8%positive ∧
    markeds ([2;5;6;4;3], [8])%positive [(MUsed, one, 5%positive); (MClean, two, 8%positive); (MDirty, one, 4%positive)] = ([2;6;3;5;8], [4])%positive ∧
    founds ([2;5;6;4;3], [8])%positive [(MUsed, one, 5%positive); (MClean, two, 8%positive); (MDirty, one, 4%positive)] ∧
    ¬ founds ([2;5;6;4;3], [8])%positive [(MEvicted, one, 5%positive); (MUsed, one, 5%positive)]) ∧
  markeds ([], []) [(MClean, one, 4%positive); (MDirty, one, 5%positive); (MClean, two, 6%positive); (MClean, one, 5%positive); (MUsed, one, 4%positive)] =
    ([6; 5; 4]%positive, []).
Proof.
  assert (wf_cb z_cb fits fits) as WF by apply z_wf. split; [|split; [|by vm_compute]].
  - destruct (tree_shape z_cb fits fits WF _ _ one twelve_items drain_hist) as (mn & ca & S & hh & g & HP & _); [by vm_compute|].
    destruct (tree_shape z_cb fits fits WF _ _ two [(3,3);(4,4);(5,5)] drain_hist) as (mn' & ca' & S' & hh' & g' & HP' & _); [by vm_compute|].
    assert (ca = true) as ->. { pose proof (pc_tree _ _ _ _ _ _ _ _ _ _ HP) as H. vm_compute in H. by injection H. }
    assert (ca' = true) as ->. { pose proof (pc_tree _ _ _ _ _ _ _ _ _ _ HP') as H. vm_compute in H. by injection H. }
    assert (Forall unbroken (w_fams (after z_cmp (events runDrain)))) as Hun.
    { vm_compute. repeat (apply Forall_cons_2; [split; [done|by intros lv [= <-]]|]). apply Forall_nil_2. }
    exists (events runDrain), (final runDrain). do 2 eexists. exists one, two, twelve_items, [(3,3);(4,4);(5,5)], mn, S, hh, g, mn', S', hh', g'.
    split_and!; [apply drain_hist|apply drain_lists|done|done|done|done|by vm_compute|by vm_compute|done|done].
  - exists (final runDrain). split_and!; [apply drain_lists| | |by vm_compute| |].
    + split_and!; [eexists; by split; [vm_compute|]|by eexists; vm_compute|by eexists; vm_compute].
    + split_and!; [eexists; by split; [vm_compute|]|by eexists; vm_compute|by eexists; vm_compute].
    + cbn [founds]. split_and!; [|done|done|done]. intros _. left. right. left.
    + cbn [founds]. intros (_ & H & _). destruct (H eq_refl) as [H'|H']; apply (bool_decide_pack _) in H'; by vm_compute in H'.
Qed.

(** ** C31 *)
(** choosing a victim: the drainer stops, and clears its flag ([idle]), exactly
    if no clean node is left or the total is at most the low limit; otherwise
    it chooses the least recently used clean node *)
Theorem C31_select :
  ∀ (K V : Type) (cb : callbacks K V) (s : st K V) c d, lists s c d →
  ∃ v s', exec cb DrainSelect s = ORet (RVictim v) s' ∧
    (v = None ↔ c = [] ∨ Z.of_nat (length c) + Z.of_nat (length d) ≤ c_low (cache s)) ∧
    (v = None → s' = idle s) ∧ (∀ n, v = Some n → head c = Some n ∧ s' = s).
Proof. exact @select_choice. Qed.
Print Assumptions C31_select.
(** Evicting the victim, after any calls that came in between.  If it is not on
    the clean list any more nothing happens.  Otherwise it leaves the list, maybe
    with others; those that stay keep their order; the dirty list, the storage,
    and the contents, the blocks and the modified nodes of every tree stay.
    MISSING: states where some tree was damaged by a failed call (see
    [C31_refuted]) or dropped without being discarded. *)
Theorem C31_evict_partial :
  ∀ (K V : Type) (cb : callbacks K V) (dom : K → Prop) (domV : V → Prop), wf_cb cb dom domV →
  ∀ hi s n c d, history cb dom domV hi s → legal dom domV (after (cb_cmp cb) hi) (DrainEvict n) → lists s c d →
  (n ∉ c → exec cb (DrainEvict n) s = ORet RUnit s) ∧
  (n ∈ c → ∃ s' c', exec cb (DrainEvict n) s = ORet RUnit s' ∧ lists s' c' d ∧ sublist c' c ∧ n ∉ c' ∧ disk s' = disk s ∧ c_low (cache s') = c_low (cache s) ∧
    ∀ t m mn ca S h g, contents (after (cb_cmp cb) hi) t = Some m → pictured cb dom domV s t mn ca S h g →
      ∃ g', pictured cb dom domV s' t mn ca S h g' ∧ strip g' = strip g ∧ locs g' = locs g ∧ Permutation (loaded dirtyLRU g') (loaded dirtyLRU g) ∧
        (∀ n', n' ∈ loaded cleanLRU g' → n' ∈ loaded cleanLRU g)).
Proof. exact @evict_run. Qed.
Print Assumptions C31_evict_partial.
(** Left alone, the drainer stops after at most as many rounds as there are clean nodes.
    MISSING: as above. *)
Theorem C31_stops_partial :
  ∀ (K V : Type) (cb : callbacks K V) (dom : K → Prop) (domV : V → Prop), wf_cb cb dom domV →
  ∀ k hi s c d, history cb dom domV hi s → Forall unbroken (w_fams (after (cb_cmp cb) hi)) → lists s c d → (length c < k)%nat →
  ∃ s' c', drainer k s = ORet true s' ∧ lists s' c' d ∧ sublist c' c ∧
    (c' = [] ∨ Z.of_nat (length c') + Z.of_nat (length d) ≤ c_low (cache s)) ∧ c_low (cache s') = c_low (cache s) ∧ disk s' = disk s.
Proof. exact @drain_ends. Qed.
Print Assumptions C31_stops_partial.
(** UpdateLimits sets the limits, and starts the drainer if it has work *)
Theorem C31_limits :
  ∀ (K V : Type) (cb : callbacks K V) (s : st K V) c d lo hi, lists s c d →
  ∃ s' x, exec cb (UpdateLimits lo hi) s = ORet RUnit s' ∧ lists s' c d ∧ cache_Stats s' = ORet x s' ∧ st_low x = lo ∧ st_high x = hi ∧
    (c_drainer (cache s') = true ↔ c_drainer (cache s) = true ∨ c ≠ [] ∧ hi < Z.of_nat (length c) + Z.of_nat (length d)).
Proof. exact @limits_run. Qed.
Print Assumptions C31_limits.
Example C31_nonvacuous :
  ∃ h s, history z_cb fits fits h s ∧ Forall unbroken (w_fams (after z_cmp h)) ∧ lists s [2;5;6;4;3]%positive [8]%positive ∧ c_low (cache s) = 3 ∧
    legal fits fits (after z_cmp h) (DrainEvict 2%positive) ∧
    match drainer 6 s with ORet true s' => (qitems (c_clean (cache s')), c_drainer (cache s')) = (2, false) | _ => False end.
Proof.
  exists (events runDrain), (final runDrain).
  assert (Forall unbroken (w_fams (after z_cmp (events runDrain)))) as Hun.
  { vm_compute. repeat (apply Forall_cons_2; [split; [done|by intros lv [= <-]]|]). apply Forall_nil_2. }
  split_and!; [apply drain_hist|done|apply drain_lists|by vm_compute| |].
  - split; [|done]. apply (bool_decide_unpack _). by vm_compute.
  - by vm_compute.
Qed.
(** The condition in [legal] that no tree is damaged is needed: after a Discard
    that could not read a node the drainer may never stop, *)
Theorem C31_refuted : ∃ h s s', history z_cb fits fits h s ∧ 4%positive ∈ w_chosen (after z_cmp h) ∧
  exec z_cb (DrainEvict 4%positive) s = ORet RUnit s' ∧ qitems (c_clean (cache s')) = 1 ∧ ∀ k, drainer k s' = ORet false s'.
Proof.
  give (events runSpin). exists (final runSpin), (end_st runSpin1). split_and!.
  - apply play_is; by vm_compute.
  - apply (bool_decide_unpack _); by vm_compute.
  - unfold runSpin1. apply outcome_ret. by vm_compute.
  - by vm_compute.
  - eapply stuck; by vm_compute.
Qed.
Print Assumptions C31_refuted.
(** and after one that, besides, could not discard a node it panics. *)
Theorem C31_panic_refuted : ∃ h s s', history z_cb fits fits h s ∧ 4%positive ∈ w_chosen (after z_cmp h) ∧
  exec z_cb (DrainEvict 4%positive) s = OStop Panic s'.
Proof.
  give (events runPanic). exists (final runPanic), (end_st runPanic1). split_and!.
  - apply play_is; by vm_compute.
  - apply (bool_decide_unpack _); by vm_compute.
  - unfold runPanic1. apply outcome_stop. by vm_compute.
Qed.
Print Assumptions C31_panic_refuted.

(** * Property theorems: the shape of a tree and the blocks it owns
      (C17, C22, C24, C26, C27, C28, C41)

    [history cb dom domV h s]: some program that uses the package as allowed,
    with storage that may fail and a process that may die at any callback, went
    through the events [h] and is now in state [s] (Machine.v, Sample.v);
    [contents (after cmp h) t] are the entries of the tree with handle [t]
    according to a specification made of plain sorted lists (Client.v).

    [pictured cb dom domV s t mn ca S h g] (Picture.v) reads memory and storage of
    state [s] node by node: the handle [t] leads to the tree [g] of height [h],
    and Prune would discard the locations [S].  [strip g] is [g] without
    bookkeeping, [items (strip g)] lists its entries from left to right,
    [locs g] are the locations of its unmodified nodes, [alldirty g] says that
    all nodes are modified.  [imaged cb D h mx d] reads a tree [d] out of the storage
    [D] alone, starting at location [dloc d]; [dlocs d] are the locations of its
    nodes.  [disk s] is the storage, a map from locations to blocks. *)
From Coq Require Import ssreflect.
From stdpp Require Import prelude list gmap.
From Verif Require Import Spec SpecFacts Llrb LlrbSpec BTree Wp Codec Ghost Api Touch Report Pres Machine Still Client Sample Disk Picture Hist Seat History Footprint Sweep Aside Runs.
Open Scope Z_scope.

(** C17: [wfo mn b h c] (Ghost.v) says that all leaves of [c] are at depth [h], that
    the root has at least [b] and all other nodes at least [mn] keys, that no
    node has more than [2 * mn], and that an inner node has one child more than keys. *)
Theorem C17_shape :
  ∀ (K V : Type) (cb : callbacks K V) (dom : K → Prop) (domV : V → Prop), wf_cb cb dom domV →
  ∀ hi s t m, history cb dom domV hi s → contents (after (cb_cmp cb) hi) t = Some m →
  ∃ mn ca S h g, pictured cb dom domV s t mn ca S h g ∧ (2 ≤ mn)%nat ∧ items (strip g) = m ∧ wfo mn (rlow h) h (strip g) ∧
    match status (after (cb_cmp cb) hi) t with Some (Stored l) => gloc g = Some l | Some Modified => gloc g = None | _ => True end ∧
    NoDup (locs g ++ S) ∧ ∀ l, l ∈ locs g ++ S → is_Some (disk s !! l).
Proof. exact @tree_shape. Qed.
Print Assumptions C17_shape.
Theorem C17_capacity :
  ∀ (K V : Type) (cb : callbacks K V) (dom : K → Prop) (domV : V → Prop), wf_cb cb dom domV →
  ∀ hi s t m mn ca S h g, history cb dom domV hi s → contents (after (cb_cmp cb) hi) t = Some m → pictured cb dom domV s t mn ca S h g →
  capacity (after (cb_cmp cb) hi) t = Some (2 * Z.of_nat mn).
Proof. exact @pictured_capacity. Qed.
Print Assumptions C17_capacity.
Theorem C17_report :
  ∀ (K V : Type) (cb : callbacks K V) (dom : K → Prop) (domV : V → Prop), wf_cb cb dom domV →
  ∀ hi s t m mn ca S h g r s', history cb dom domV hi s → contents (after (cb_cmp cb) hi) t = Some m → pictured cb dom domV s t mn ca S h g →
  exec cb (DimensionsReport t) s = ORet r s' →
  r = RDim (Dimensions (Z.of_nat mn) (2 * Z.of_nat mn) (Z.of_nat (length m)) (1 + Z.of_nat h)).
Proof. exact @dimensions. Qed.
Print Assumptions C17_report.
Theorem C17_height :
  ∀ (K V : Type) (cb : callbacks K V) (dom : K → Prop) (domV : V → Prop), wf_cb cb dom domV →
  ∀ hi s t m mn ca S h g, history cb dom domV hi s → contents (after (cb_cmp cb) hi) t = Some m → pictured cb dom domV s t mn ca S h g →
  1 + Z.of_nat h ≤ Z.max 1 (Z.log2 (Z.of_nat (length m))).
Proof. exact @height_log. Qed.
Print Assumptions C17_height.
Example C17_C28_nonvacuous : ∃ h s m s1 s2 R,
  history z_cb fits fits h s ∧ contents (after z_cmp h) one = Some m ∧ length m = 12%nat ∧
  exec z_cb (DimensionsReport one) s = ORet (RDim (Dimensions 2 4 12 2)) s2 ∧
  exec z_cb (LayoutReport one) s = ORet (RLayout R) s1 ∧ map_to_list R = [(1, 82); (4, 82); (3, 50)].
Proof.
  give (events runS). exists (final runS). eexists. exists (end_st runS1). exists (end_st runS2). eexists. split_and!.
  - apply play_is; by vm_compute.
  - by vm_compute.
  - by vm_compute.
  - unfold runS2. apply outcome_ret. by vm_compute.
  - unfold runS1. apply outcome_ret. by vm_compute.
  - by vm_compute.
Qed.

(** C28: no entry for an object that stores no node of the tree *)
Theorem C28_layout :
  ∀ (K V : Type) (cb : callbacks K V) (dom : K → Prop) (domV : V → Prop), wf_cb cb dom domV →
  ∀ hi s t m mn ca S h g r s', history cb dom domV hi s → contents (after (cb_cmp cb) hi) t = Some m → pictured cb dom domV s t mn ca S h g →
  exec cb (LayoutReport t) s = ORet r s' →
  ∃ R, r = RLayout R ∧ (∀ o, R !! o = match in_object o (locs g) with [] => None | L => Some (total L) end) ∧
    ∃ g', pictured cb dom domV s' t mn ca S h g' ∧ strip g' = strip g ∧ locs g' = locs g.
Proof. exact @layout. Qed.
Print Assumptions C28_layout.

(** C22: [l] is the tree's current location.  [stof] is the state Prune ends in,
    also if it fails or the process dies in it.  That opening [l] afterwards gives
    the contents again is C23_prune_partial (PropsStore.v). *)
Theorem C22_prune :
  ∀ (K V : Type) (cb : callbacks K V) (dom : K → Prop) (domV : V → Prop), wf_cb cb dom domV →
  ∀ hi s t m mn ca S h g l, history cb dom domV hi s → contents (after (cb_cmp cb) hi) t = Some m →
  status (after (cb_cmp cb) hi) t = Some (Stored l) → pictured cb dom domV s t mn ca S h g →
  ∃ d, dloc d = l ∧ items (dstrip d) = m ∧ imaged cb (λ l, disk s !! l) h (Some (2 * Z.of_nat mn)) d ∧
    (∀ l', disk (stof (exec cb (Prune t) s)) !! l' ≠ disk s !! l' → l' ∉ dlocs d) ∧
    imaged cb (λ l, disk (stof (exec cb (Prune t) s)) !! l) h (Some (2 * Z.of_nat mn)) d.
Proof. exact @prune_unreachable. Qed.
Print Assumptions C22_prune.
(** and if it succeeds it discards all that was scheduled and nothing else *)
Theorem C22_prune_exact :
  ∀ (K V : Type) (cb : callbacks K V) (dom : K → Prop) (domV : V → Prop), wf_cb cb dom domV →
  ∀ hi s t m mn ca S h g r s', history cb dom domV hi s → contents (after (cb_cmp cb) hi) t = Some m → pictured cb dom domV s t mn ca S h g →
  exec cb (Prune t) s = ORet r s' →
  pictured cb dom domV s' t mn ca [] h g ∧ NoDup (locs g ++ S) ∧
  (∀ l, l ∈ S → is_Some (disk s !! l) ∧ disk s' !! l = None) ∧ (∀ l, l ∉ S → disk s' !! l = disk s !! l).
Proof. exact @prune_exact. Qed.
Print Assumptions C22_prune_exact.

(** C24: while no process dies, no handle is dropped, and no callback fails in a
    Discard, a Prune or a deletion ([careful]), the stored blocks are those of
    the trees' unmodified nodes and those scheduled for a Prune; by C17_shape never both.
    With several trees, no two own the same block. *)
Theorem C24_accounting :
  ∀ (K V : Type) (cb : callbacks K V) (dom : K → Prop) (domV : V → Prop), wf_cb cb dom domV →
  ∀ hi s l, history cb dom domV hi s → Forall careful hi → is_Some (disk s !! l) ↔
  ∃ t m mn ca S h g, contents (after (cb_cmp cb) hi) t = Some m ∧ pictured cb dom domV s t mn ca S h g ∧ l ∈ locs g ++ S.
Proof. exact @no_leak. Qed.
Print Assumptions C24_accounting.
Theorem C24_apart :
  ∀ (K V : Type) (cb : callbacks K V) (dom : K → Prop) (domV : V → Prop), wf_cb cb dom domV →
  ∀ hi s t t' m m' mn ca S h g mn' ca' S' h' g' l, history cb dom domV hi s →
  contents (after (cb_cmp cb) hi) t = Some m → contents (after (cb_cmp cb) hi) t' = Some m' →
  pictured cb dom domV s t mn ca S h g → pictured cb dom domV s t' mn' ca' S' h' g' → l ∈ locs g ++ S → l ∈ locs g' ++ S' → t = t'.
Proof. exact @apart. Qed.
Print Assumptions C24_apart.
Theorem C24_flush_prune :
  ∀ (K V : Type) (cb : callbacks K V) (dom : K → Prop) (domV : V → Prop), wf_cb cb dom domV →
  ∀ hi s t m ap r s1 r' s2, history cb dom domV hi s → Forall careful hi → contents (after (cb_cmp cb) hi) t = Some m →
  exec cb (Flush t ap) s = ORet r s1 → exec cb (Prune t) s1 = ORet r' s2 →
  ∃ mn h d, r = RLoc (dloc d) ∧ items (dstrip d) = m ∧ imaged cb (λ l, disk s2 !! l) h (Some (2 * mn)) d ∧
    ∀ l, is_Some (disk s2 !! l) ↔ l ∈ dlocs d ∨
      ∃ t' m' mn ca S h g, t' ≠ t ∧ contents (after (cb_cmp cb) hi) t' = Some m' ∧ pictured cb dom domV s2 t' mn ca S h g ∧ l ∈ locs g ++ S.
Proof. exact @flush_prune. Qed.
Print Assumptions C24_flush_prune.
Theorem C24_discard :
  ∀ (K V : Type) (cb : callbacks K V) (dom : K → Prop) (domV : V → Prop), wf_cb cb dom domV →
  ∀ hi s t m mn ca S h g r s', history cb dom domV hi s → contents (after (cb_cmp cb) hi) t = Some m → pictured cb dom domV s t mn ca S h g →
  exec cb (Discard t) s = ORet r s' → true ∉ made s s' →
  (∀ l, l ∈ locs g ++ S → disk s' !! l = None) ∧ (∀ l, l ∉ locs g ++ S → disk s' !! l = disk s !! l).
Proof. exact @discard_exact. Qed.
Print Assumptions C24_discard.
Theorem C24_all_discarded :
  ∀ (K V : Type) (cb : callbacks K V) (dom : K → Prop) (domV : V → Prop), wf_cb cb dom domV →
  ∀ hi s, history cb dom domV hi s → Forall careful hi → (∀ t, contents (after (cb_cmp cb) hi) t = None) → disk s = ∅.
Proof. exact @all_gone. Qed.
Print Assumptions C24_all_discarded.
Example C24_nonvacuous :
  (∃ h s m m' s1 s2 s3, history z_cb fits fits h s ∧ Forall careful h ∧
    contents (after z_cmp h) one = Some m ∧ contents (after z_cmp h) two = Some m' ∧
    size (disk s) = 6%nat ∧
    exec z_cb (Flush one true) s = ORet (RLoc (12, 0, 178)) s1 ∧ exec z_cb (Prune one) s1 = ORet RUnit s2 ∧ size (disk s2) = 6%nat ∧
    exec z_cb (Discard one) s = ORet RUnit s3 ∧ true ∉ made s s3 ∧ size (disk s3) = 1%nat) ∧
  (∃ h s, history z_cb fits fits h s ∧ Forall careful h ∧ length h = 22%nat ∧ ∀ t, contents (after z_cmp h) t = None).
Proof.
  split.
  - give (events runT). exists (final runT). eexists. eexists. exists (end_st runT1). exists (end_st runT2). exists (end_st runT3). split_and!.
    + apply play_is; by vm_compute.
    + each.
    + by vm_compute.
    + by vm_compute.
    + by vm_compute.
    + unfold runT1. apply outcome_ret. by vm_compute.
    + unfold runT2. apply outcome_ret. by vm_compute.
    + by vm_compute.
    + unfold runT3. apply outcome_ret. by vm_compute.
    + unfold runT3. apply (bool_decide_unpack _). by vm_compute.
    + by vm_compute.
  - give (events runU). exists (final runU). split_and!.
    + apply play_is; by vm_compute.
    + repeat (apply Forall_cons_2; [first [exact I|apply (bool_decide_unpack _); by vm_compute]|]). apply Forall_nil_2.
    + by vm_compute.
    + intros t. by vm_compute.
Qed.

(** C26: [S] and [locs g] are the old locations *)
Theorem C26_touch :
  ∀ (K V : Type) (cb : callbacks K V) (dom : K → Prop) (domV : V → Prop), wf_cb cb dom domV →
  ∀ hi s t m mn ca S h g ap r1 s1 r2 s2 r3 s3, history cb dom domV hi s → contents (after (cb_cmp cb) hi) t = Some m → pictured cb dom domV s t mn ca S h g →
  exec cb (Touch t) s = ORet r1 s1 → exec cb (Flush t ap) s1 = ORet r2 s2 → exec cb (Prune t) s2 = ORet r3 s3 →
  ∃ g' d, pictured cb dom domV s3 t mn ca [] h g' ∧ strip g' = strip g ∧ image g' = Some d ∧ r2 = RLoc (dloc d) ∧ NoDup (locs g') ∧ locs g' = dlocs d ∧
    (∀ l, l ∈ locs g' → disk s !! l = None ∧ is_Some (disk s3 !! l)) ∧ (∀ l, l ∈ locs g ++ S → disk s3 !! l = None).
Proof. exact @rewritten. Qed.
Print Assumptions C26_touch.

(** C27: progress of one call, *)
Theorem C27_progress :
  ∀ (K V : Type) (cb : callbacks K V) (dom : K → Prop) (domV : V → Prop), wf_cb cb dom domV →
  ∀ hi s t m i r s', history cb dom domV hi s → contents (after (cb_cmp cb) hi) t = Some m → 0 ≤ i →
  exec cb (TouchItem t i) s = ORet r s' →
  ∃ j, r = RPos j ∧ if bool_decide (i < Z.of_nat (length m)) then i < j ≤ Z.of_nat (length m) else j = 0.
Proof. exact @sweep_progress. Qed.
Print Assumptions C27_progress.
(** and the effect of a whole [sweep]: calls TouchItem(0) = i1, TouchItem(i1) =
    i2, ..., up to the number of entries *)
Theorem C27_covers :
  ∀ (K V : Type) (cb : callbacks K V) (dom : K → Prop) (domV : V → Prop), wf_cb cb dom domV →
  ∀ hi s t m mn ca S h g s', history cb dom domV hi s → contents (after (cb_cmp cb) hi) t = Some m → m ≠ [] → pictured cb dom domV s t mn ca S h g →
  sweep cb t 0 s (Z.of_nat (length m)) s' →
  ∃ hi' S' g', history cb dom domV hi' s' ∧ contents (after (cb_cmp cb) hi') t = Some m ∧ pictured cb dom domV s' t mn ca S' h g' ∧ alldirty g' ∧ strip g' = strip g ∧
    disk s' = disk s ∧ ∀ l, l ∈ S' ↔ l ∈ locs g ++ S.
Proof. exact @sweep_covers. Qed.
Print Assumptions C27_covers.
Theorem C27_rewrites :
  ∀ (K V : Type) (cb : callbacks K V) (dom : K → Prop) (domV : V → Prop), wf_cb cb dom domV →
  ∀ hi s t m mn ca S h g s1 ap r2 s2 r3 s3, history cb dom domV hi s → contents (after (cb_cmp cb) hi) t = Some m → m ≠ [] → pictured cb dom domV s t mn ca S h g →
  sweep cb t 0 s (Z.of_nat (length m)) s1 → exec cb (Flush t ap) s1 = ORet r2 s2 → exec cb (Prune t) s2 = ORet r3 s3 →
  ∃ g' d, pictured cb dom domV s3 t mn ca [] h g' ∧ strip g' = strip g ∧ image g' = Some d ∧ r2 = RLoc (dloc d) ∧ NoDup (locs g') ∧ locs g' = dlocs d ∧
    (∀ l, l ∈ locs g' → disk s !! l = None ∧ is_Some (disk s3 !! l)) ∧ (∀ l, l ∈ locs g ++ S → disk s3 !! l = None).
Proof. exact @sweep_rewrites. Qed.
Print Assumptions C27_rewrites.
Example C22_C26_C27_nonvacuous : ∃ h s m l s1 s2 s3 s4, history z_cb fits fits h s ∧ contents (after z_cmp h) one = Some m ∧ length m = 11%nat ∧
  status (after z_cmp h) one = Some (Stored l) ∧
  exec z_cb (Touch one) s = ORet RUnit s1 ∧ exec z_cb (Flush one false) s1 = ORet (RLoc (18, 0, 178)) s2 ∧ exec z_cb (Prune one) s2 = ORet RUnit s3 ∧
  size (disk s) = 8%nat ∧ size (disk s3) = 5%nat ∧
  sweep z_cb one 0 s 11 s4.
Proof.
  give (events runQ). exists (final runQ). eexists. eexists. exists (end_st runQ1). exists (end_st runQ2). exists (end_st runQ3). exists (end_st runR3). split_and!.
  - apply play_is; by vm_compute.
  - by vm_compute.
  - by vm_compute.
  - by vm_compute.
  - unfold runQ1. apply outcome_ret. by vm_compute.
  - unfold runQ2. apply outcome_ret. by vm_compute.
  - unfold runQ3. apply outcome_ret. by vm_compute.
  - by vm_compute.
  - by vm_compute.
  - apply (sweep_one _ _ _ _ 3 (end_st runR0)); [unfold runR0; apply outcome_ret; by vm_compute|].
    apply (sweep_one _ _ _ _ 5 (end_st runR1)); [unfold runR1; apply outcome_ret; by vm_compute|].
    apply (sweep_one _ _ _ _ 7 (end_st runR2)); [unfold runR2; apply outcome_ret; by vm_compute|].
    apply (sweep_one _ _ _ _ 11 (end_st runR3)); [unfold runR3; apply outcome_ret; by vm_compute|].
    apply sweep_none.
Qed.

(** C41: in any state at all, and however the call ends *)
Theorem C41_storage_effects :
  ∀ (K V : Type) (cb : callbacks K V) (c : cmd K V) (s : st K V),
  let s' := stof (exec cb c s) in
  match c with
  | Flush _ _ => ∀ l b, disk s !! l = Some b → disk s' !! l = Some b
  | Prune _ | Discard _ => ∀ l b, disk s' !! l = Some b → disk s !! l = Some b
  | _ => disk s' = disk s
  end.
Proof. exact @storage_effects. Qed.
Print Assumptions C41_storage_effects.
(** and a call on one tree leaves the nodes and blocks of the others alone *)
Theorem C41_bystander :
  ∀ (K V : Type) (cb : callbacks K V) (dom : K → Prop) (domV : V → Prop), wf_cb cb dom domV →
  ∀ hi s t t' m m' mn ca S h g c, history cb dom domV hi s →
  contents (after (cb_cmp cb) hi) t = Some m → contents (after (cb_cmp cb) hi) t' = Some m' → t' ≠ t →
  pictured cb dom domV s t' mn ca S h g → call_on t c ∨ c = Discard t → legal dom domV (after (cb_cmp cb) hi) c →
  match exec cb c s with
  | ORet _ s' | OErr _ s' => pictured cb dom domV s' t' mn ca S h g ∧ ∀ l, l ∈ locs g ++ S → disk s' !! l = disk s !! l
  | OStop _ _ => True
  end.
Proof. exact @bystander. Qed.
Print Assumptions C41_bystander.

(** * Property theorems: memory is given back (C51, C52, C53)

    [pictured s t mn ca S h g] as in PropsPicture.v: in state [s] the tree with
    handle [t] looks like [g]; [ca] says if it is attached to the cache;
    [loaded cleanLRU g] are its nodes that are in memory and unmodified, [loaded
    dirtyLRU g] those that are modified.  [lists s c d] (Cache.v): the clean
    list of the cache is [c], the dirty list [d].  [cache_Stats] is the API call
    Stats. *)
From Coq Require Import ssreflect.
From stdpp Require Import prelude list gmap.
From Verif Require Import Spec SpecFacts Llrb LlrbSpec BTree Wp Codec Ghost Api Touch Report Open Pres Rep Machine Still World Client Sample Disk Picture Hist Seat History Footprint Sweep Aside Cache CacheHist Runs Frees Wakes.
Open Scope Z_scope.

(** ** C51 *)
(** after Flush(andPurge = true) no node of the tree is in memory *)
Theorem C51_flush_frees :
  ∀ (K V : Type) (cb : callbacks K V) (dom : K → Prop) (domV : V → Prop), wf_cb cb dom domV →
  ∀ hi s t m mn ca S h g r s', history cb dom domV hi s → contents (after (cb_cmp cb) hi) t = Some m → pictured cb dom domV s t mn ca S h g →
  exec cb (Flush t true) s = ORet r s' →
  ∃ g', pictured cb dom domV s' t mn ca S h g' ∧ strip g' = strip g ∧ loaded cleanLRU g' = [] ∧ loaded dirtyLRU g' = [].
Proof. exact @flush_frees. Qed.
Print Assumptions C51_flush_frees.
(** after Purge no unmodified node is in memory, the modified ones are still the
    same; after Purge(full = true) there are none *)
Theorem C51_purge_frees :
  ∀ (K V : Type) (cb : callbacks K V) (dom : K → Prop) (domV : V → Prop), wf_cb cb dom domV →
  ∀ hi s t m mn ca S h g full r s', history cb dom domV hi s → contents (after (cb_cmp cb) hi) t = Some m → pictured cb dom domV s t mn ca S h g →
  exec cb (Purge t full) s = ORet r s' →
  ∃ g', pictured cb dom domV s' t mn ca S h g' ∧ strip g' = strip g ∧ locs g' = locs g ∧
    loaded cleanLRU g' = [] ∧ loaded dirtyLRU g' = loaded dirtyLRU g ∧ (full = true → loaded dirtyLRU g' = []).
Proof. exact @purge_frees. Qed.
Print Assumptions C51_purge_frees.
(** so after both the tree keeps nothing but the root's record, and that has no
    entries, no children and no prefix sums *)
Theorem C51_nothing_held :
  ∀ (K V : Type) (cb : callbacks K V) (dom : K → Prop) (domV : V → Prop), wf_cb cb dom domV →
  ∀ hi s t m c r s', history cb dom domV hi s → contents (after (cb_cmp cb) hi) t = Some m → c = Flush t true ∨ c = Purge t true →
  exec cb c s = ORet r s' →
  ∃ T n x, trees s' !! t = Some T ∧ t_root T = Some n ∧ nodes s' !! n = Some x ∧
    b_loaded x = false ∧ b_kv x = None ∧ b_left x = None ∧ b_psroot x = None.
Proof. exact @drops_all. Qed.
Print Assumptions C51_nothing_held.
(** Right after Flush(true) or Purge(true) of [t] ([drops t c]) every node on the
    cache's lists is a node of another tree.
    MISSING: states where some tree was damaged by a failed call or dropped
    without being discarded, see [C30_refuted]. *)
Theorem C51_others_partial :
  ∀ (K V : Type) (cb : callbacks K V) (dom : K → Prop) (domV : V → Prop), wf_cb cb dom domV →
  ∀ hi s t m c r cbs cl d n, history cb dom domV (hi ++ [Done c r cbs]) s → c = Flush t true ∨ c = Purge t true →
  contents (after (cb_cmp cb) hi) t = Some m → Forall unbroken (w_fams (after (cb_cmp cb) (hi ++ [Done c r cbs]))) →
  lists s cl d → n ∈ cl ∨ n ∈ d →
  ∃ t' m' mn' S' h' g', t' ≠ t ∧ contents (after (cb_cmp cb) (hi ++ [Done c r cbs])) t' = Some m' ∧
    pictured cb dom domV s t' mn' true S' h' g' ∧ (n ∈ loaded cleanLRU g' ∨ n ∈ loaded dirtyLRU g').
Proof. exact @drops_others. Qed.
Print Assumptions C51_others_partial.
(** if [t] is the only tree, Stats counts no node then *)
Theorem C51_alone_partial :
  ∀ (K V : Type) (cb : callbacks K V) (dom : K → Prop) (domV : V → Prop), wf_cb cb dom domV →
  ∀ hi s t m c r cbs, history cb dom domV (hi ++ [Done c r cbs]) s → c = Flush t true ∨ c = Purge t true →
  contents (after (cb_cmp cb) hi) t = Some m → Forall unbroken (w_fams (after (cb_cmp cb) (hi ++ [Done c r cbs]))) →
  (∀ t' m', contents (after (cb_cmp cb) (hi ++ [Done c r cbs])) t' = Some m' → t' = t) →
  ∃ x, cache_Stats s = ORet x s ∧ st_clean x = 0 ∧ st_dirty x = 0.
Proof. exact @drops_alone. Qed.
Print Assumptions C51_alone_partial.
(** twelve keys in five nodes, all modified; then stored and dropped by Flush(true).
    And: stored, two keys read, one written, then Purge(false). *)
Definition runFull := play [] [] twelve.
Definition runGone := play [] [] (twelve ++ [Some (Flush one true)]).
Definition runMixed := play [] [] (twelve ++ [Some (Flush one true); on1 (CGetByKey 12); on1 (CPatchByKey 1 7)]).
Definition runLean := play [] [] (twelve ++ [Some (Flush one true); on1 (CGetByKey 12); on1 (CPatchByKey 1 7); Some (Purge one false)]).
Definition memory (x : option (list (event Z Z) * st Z Z)) : Z * Z := (qitems (c_clean (cache (final x))), qitems (c_dirty (cache (final x)))).
Example C51_nonvacuous :
  (∃ h s r cbs, history z_cb fits fits (h ++ [Done (Flush one true) r cbs]) s ∧ contents (after z_cmp h) one = Some twelve_items ∧
    Forall unbroken (w_fams (after z_cmp (h ++ [Done (Flush one true) r cbs]))) ∧
    (∀ t' m', contents (after z_cmp (h ++ [Done (Flush one true) r cbs])) t' = Some m' → t' = one)) ∧
  memory runFull = (0, 5) ∧ memory runGone = (0, 0) ∧ memory runMixed = (1, 2) ∧ memory runLean = (0, 2).
Proof.
  split; [|by vm_compute].
  assert (history z_cb fits fits (events runGone) (final runGone)) as HH by (apply play_is; by vm_compute).
  exists (events runFull), (final runGone). do 2 eexists.
  assert (events runGone = events runFull ++ [Done (Flush one true) (RLoc (5, 0, 178)) [false;false;false;false;false]]) as He by (vm_compute; reflexivity).
  rewrite He in HH. split_and!; [exact HH|by vm_compute|..].
  - vm_compute. repeat (apply Forall_cons_2; [split; [done|by intros lv [= <-]]|]). apply Forall_nil_2.
  - rewrite -He. intros t' m' Ht%contents_handle. revert Ht. vm_compute. intros H. apply elem_of_list_singleton in H. exact H.
Qed.

(** ** C52 *)
(** A call that looks items up, makes a report, validates, flushes or purges
    ([reads t c]) and made a callback leaves the drainer running, or the cache
    within its high limit: in any state. *)
Theorem C52_reads_wake :
  ∀ (K V : Type) (cb : callbacks K V) t (s : st K V) c r s', reads t c → cached s t → exec cb c s = ORet r s' → made s s' ≠ [] →
  c_drainer (cache s') = true ∨ ∃ x, cache_Stats s' = ORet x s' ∧ st_clean x + st_dirty x ≤ st_high x.
Proof. exact @reads_run. Qed.
Print Assumptions C52_reads_wake.
(** so does opening a stored tree *)
Theorem C52_open_wakes :
  ∀ (K V : Type) (cb : callbacks K V) (s : st K V) l r s', exec cb (OldTree l true) s = ORet r s' →
  c_drainer (cache s') = true ∨ ∃ x, cache_Stats s' = ORet x s' ∧ st_clean x + st_dirty x ≤ st_high x.
Proof. exact @open_run. Qed.
Print Assumptions C52_open_wakes.
(** a read that starts the drainer: limits 1 and 2, the third node is loaded *)
Definition runWake := play [] [] (twelve ++ [Some (Flush one true); Some (UpdateLimits 1 2); on1 (CGetByKey 12)]).
Definition runWake1 := exec z_cb (MapCall one (CGetByKey 1)) (final runWake).
Example C52_nonvacuous :
  ∃ h s s', history z_cb fits fits h s ∧ reads one (MapCall one (CGetByKey 1) : cmd Z Z) ∧ cached s one ∧ exec z_cb (MapCall one (CGetByKey 1)) s = ORet (RAns (RValue (Some 10))) s' ∧
    made s s' = [false] ∧ c_drainer (cache s) = false ∧ c_drainer (cache s') = true.
Proof.
  exists (events runWake), (final runWake), (end_st runWake1). split_and!.
  - apply play_is; by vm_compute.
  - done.
  - eexists. split; [vm_compute; reflexivity|reflexivity].
  - unfold runWake1. apply outcome_ret. by vm_compute.
  - by vm_compute.
  - by vm_compute.
  - by vm_compute.
Qed.

(** ** C53 *)
(** Updates do not start it: five nodes on the clean list, five on the dirty
    list, eight allowed, and no drainer. *)
Definition runOver := play [] [] (twelve ++ [Some (Flush one false); Some (NewTree 4 true)] ++ ((λ k, on2 (CPut k k)) <$> [1;2;3;4;5;6;7;8;9;10;11;12])).
Theorem C53_refuted : ∃ h s c d, history z_cb fits fits h s ∧ Forall unbroken (w_fams (after z_cmp h)) ∧ lists s c d ∧ c ≠ [] ∧
  c_high (cache s) < Z.of_nat (length c) + Z.of_nat (length d) ∧ c_drainer (cache s) = false.
Proof.
  assert (history z_cb fits fits (events runOver) (final runOver)) as HH by (apply play_is; by vm_compute).
  destruct (hist_lists _ _ _ z_wf _ _ HH) as (c & d & x & HL & _).
  exists (events runOver), (final runOver), c, d. split_and!; [exact HH| |exact HL|..].
  - vm_compute. repeat (apply Forall_cons_2; [split; [done|by intros lv [= <-]]|]). apply Forall_nil_2.
  - intros ->. pose proof (li_items _ _ _ _ (ls_clean _ _ _ HL)) as H. vm_compute in H. discriminate H.
  - rewrite -(li_items _ _ _ _ (ls_clean _ _ _ HL)) -(li_items _ _ _ _ (ls_dirty _ _ _ HL)). by vm_compute.
  - by vm_compute.
Qed.
Print Assumptions C53_refuted.

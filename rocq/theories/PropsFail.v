(** * Property theorems: B+Trees, failing storage and other trees (C32-C36)

    [history cb dom domV h s]: some program that uses the package as allowed,
    with storage that may fail and a process that may die at any callback, went
    through the events [h] and is now in state [s] (Machine.v, Sample.v).
    [after cmp h] is what a specification made of plain sorted lists says about
    [h]; [contents] and the other words are defined in Client.v. *)
From Coq Require Import ssreflect Sorted.
From stdpp Require Import prelude list gmap.
From Verif Require Import Spec SpecFacts Llrb LlrbSpec BTree Wp Codec Machine Client Sample History Runs.
Open Scope Z_scope.

(** C32: [harmless]: any call but deletes, Prune and Discard. *)
Theorem C32_failed_calls :
  ∀ (K V : Type) (cb : callbacks K V) (dom : K → Prop) (domV : V → Prop), wf_cb cb dom domV →
  ∀ h1 c e cbs h2 s t m, history cb dom domV (h1 ++ Failed c e cbs :: h2) s → harmless c →
  contents (after (cb_cmp cb) h1) t = Some m → Forall (spares t) h2 →
  contents (after (cb_cmp cb) (h1 ++ [Failed c e cbs])) t = Some m ∧
  answers_on t h2 = (spec_run (cb_cmp cb) m (calls_on t h2)).2 ∧
  contents (after (cb_cmp cb) (h1 ++ Failed c e cbs :: h2)) t = Some (spec_run (cb_cmp cb) m (calls_on t h2)).1.
Proof. exact @failed_calls. Qed.
Print Assumptions C32_failed_calls.
Example C32_nonvacuous : ∃ h1 h2 s, history z_cb fits fits (h1 ++ Failed (MapCall one (CPut 20 200)) EIO [true] :: h2) s ∧
  contents (after z_cmp h1) one = Some twelve_items ∧ Forall (spares one) h2 ∧
  Failed (Touch one) EIO [true] ∈ h2 ∧ Failed (Flush one false) EIO [true] ∈ h2 ∧
  answers_on one h2 = [RValue (Some 90); ROk true; RValue (Some 210)].
Proof.
  give (take 14 (events runC)). give (drop 15 (events runC)). exists (final runC). split_and!.
  - apply play_split; by vm_compute.
  - by vm_compute.
  - each.
  - left.
  - do 3 right. left.
  - by vm_compute.
Qed.

(** C33 is false: DeleteByKey of 3 fails because GetNode fails, and after an
    eviction the key 4 is gone. *)
Theorem C33_refuted : ∃ h s m s1 s2 s3,
  history z_cb fits fits h s ∧ contents (after z_cmp h) one = Some m ∧ (4, 40) ∈ m ∧
  exec z_cb (MapCall one (CDeleteByKey 3)) s = OErr EIO s1 ∧
  exec z_cb (Purge one false) s1 = ORet RUnit s2 ∧
  exec z_cb (MapCall one (CGetByKey 4)) s2 = ORet (RAns (RValue None)) s3.
Proof.
  give (events runG). exists (final runG). eexists. exists (end_st runG1). exists (end_st runG2). exists (end_st runG3). split_and!.
  - apply play_is; by vm_compute.
  - by vm_compute.
  - do 3 right. left.
  - unfold runG1. apply outcome_err. by vm_compute.
  - unfold runG2. apply outcome_ret. by vm_compute.
  - unfold runG3. apply outcome_ret. by vm_compute.
Qed.
Print Assumptions C33_refuted.
(** What holds: whatever a failed delete does to the tree in memory, it can be
    thrown away and the last checkpoint, entries included, opened again. *)
Theorem C33_failed_delete_partial :
  ∀ (K V : Type) (cb : callbacks K V) (dom : K → Prop) (domV : V → Prop), wf_cb cb dom domV →
  ∀ h1 h2 s t ap l cbs i m b, history cb dom domV (h1 ++ Done (Flush t ap) (RLoc l) cbs :: h2) s →
  handle_of (after (cb_cmp cb) h1) i t → contents (after (cb_cmp cb) h1) t = Some m →
  keeps_versions (cb_cmp cb) i (after (cb_cmp cb) (h1 ++ [Done (Flush t ap) (RLoc l) cbs])) h2 →
  let h := h1 ++ Done (Flush t ap) (RLoc l) cbs :: h2 in
  closed (after (cb_cmp cb) h) i →
  legal dom domV (after (cb_cmp cb) h) (OldTree l b) ∧
  match exec cb (OldTree l b) s with
  | ORet r s' => ∃ t', r = RTree t' ∧
      contents (after (cb_cmp cb) (h ++ [Done (OldTree l b) (RTree t') (made s s')])) t' = Some m
  | OErr e s' => e = EIO ∧ true ∈ made s s'
  | OStop x _ => x = Crash ∨ x = Env
  end.
Proof. exact @reopenable. Qed.
Print Assumptions C33_failed_delete_partial.
Example C33_nonvacuous : ∃ h1 h2 s l cbs cbs' m,
  history z_cb fits fits (h1 ++ Done (Flush one true) (RLoc l) cbs :: h2) s ∧
  handle_of (after z_cmp h1) 0 one ∧ contents (after z_cmp h1) one = Some m ∧ length m = 14%nat ∧
  h2 = [Failed (MapCall one (CDeleteByKey 3)) EIO cbs'; Done (Forget one) RUnit []] ∧
  keeps_versions z_cmp 0 (after z_cmp (h1 ++ [Done (Flush one true) (RLoc l) cbs])) h2 ∧
  closed (after z_cmp (h1 ++ Done (Flush one true) (RLoc l) cbs :: h2)) 0 ∧
  ∃ t, outcome (exec z_cb (OldTree l true) s) = inl (RTree t).
Proof.
  give (take 15 (events runH)). give (drop 16 (events runH)). exists (final runH). do 4 eexists. split_and!.
  - apply play_split; by vm_compute.
  - by vm_compute.
  - by vm_compute.
  - by vm_compute.
  - by vm_compute.
  - kept.
  - by vm_compute.
  - eexists. by vm_compute.
Qed.

(** C34 is false: DiscardNode fails once, and Prune never works again. *)
Theorem C34_refuted : ∃ h s s1 s2,
  history z_cb fits fits h s ∧ contents (after z_cmp h) one = Some twelve_items ∧
  exec z_cb (Prune one) s = OErr EIO s1 ∧ made s s1 = [false; true] ∧
  exec z_cb (Prune one) s1 = OErr EIO s2 ∧ made s1 s2 = [false].
Proof.
  give (events runJ). exists (final runJ). exists (end_st runJ1). exists (end_st runJ2). split_and!.
  - apply play_is; by vm_compute.
  - by vm_compute.
  - unfold runJ1. apply outcome_err. by vm_compute.
  - by vm_compute.
  - unfold runJ2. apply outcome_err. by vm_compute.
  - by vm_compute.
Qed.
Print Assumptions C34_refuted.
(** What holds: a failed Prune of a tree without unsaved changes does not harm
    its checkpoint, so the tree can be given up and opened again. *)
Theorem C34_failed_prune_partial :
  ∀ (K V : Type) (cb : callbacks K V) (dom : K → Prop) (domV : V → Prop), wf_cb cb dom domV →
  ∀ h1 e h2 s t i m l b, history cb dom domV (h1 ++ e :: h2) s → prunes t e →
  handle_of (after (cb_cmp cb) h1) i t → contents (after (cb_cmp cb) h1) t = Some m →
  status (after (cb_cmp cb) h1) t = Some (Stored l) →
  keeps_versions (cb_cmp cb) i (after (cb_cmp cb) (h1 ++ [e])) h2 →
  let h := h1 ++ e :: h2 in
  closed (after (cb_cmp cb) h) i →
  legal dom domV (after (cb_cmp cb) h) (OldTree l b) ∧
  match exec cb (OldTree l b) s with
  | ORet r s' => ∃ t', r = RTree t' ∧
      contents (after (cb_cmp cb) (h ++ [Done (OldTree l b) (RTree t') (made s s')])) t' = Some m
  | OErr e s' => e = EIO ∧ true ∈ made s s'
  | OStop x _ => x = Crash ∨ x = Env
  end.
Proof. exact @pruned. Qed.
Print Assumptions C34_failed_prune_partial.
Example C34_nonvacuous : ∃ h1 h2 s l cbs,
  history z_cb fits fits (h1 ++ Failed (Prune one) EIO cbs :: h2) s ∧
  handle_of (after z_cmp h1) 0 one ∧ contents (after z_cmp h1) one = Some twelve_items ∧
  status (after z_cmp h1) one = Some (Stored l) ∧ h2 = [Done (Forget one) RUnit []] ∧
  keeps_versions z_cmp 0 (after z_cmp (h1 ++ [Failed (Prune one) EIO cbs])) h2 ∧
  closed (after z_cmp (h1 ++ Failed (Prune one) EIO cbs :: h2)) 0 ∧
  ∃ t, outcome (exec z_cb (OldTree l true) s) = inl (RTree t).
Proof.
  give (take 16 (events runK)). give (drop 17 (events runK)). exists (final runK). do 2 eexists. split_and!.
  - apply play_split; by vm_compute.
  - by vm_compute.
  - by vm_compute.
  - by vm_compute.
  - by vm_compute.
  - kept.
  - by vm_compute.
  - eexists. by vm_compute.
Qed.

(** C35 is false.  A Discard that cannot load a node reports success and leaves
    nodes behind; a Discard that failed panics when it is called again. *)
Theorem C35_refuted :
  (∃ h s s1, history z_cb fits fits h s ∧ contents (after z_cmp h) one = Some twelve_items ∧
    exec z_cb (Discard one) s = ORet RUnit s1 ∧ made s s1 = [true] ∧ disk s1 ≠ ∅) ∧
  (∃ h s s1 s2, history z_cb fits fits h s ∧ contents (after z_cmp h) one = Some twelve_items ∧
    exec z_cb (Discard one) s = OErr EIO s1 ∧ exec z_cb (Discard one) s1 = OStop Panic s2).
Proof.
  split.
  - give (events runL). exists (final runL). exists (end_st runL1). split_and!.
    + apply play_is; by vm_compute.
    + by vm_compute.
    + unfold runL1. apply outcome_ret. by vm_compute.
    + by vm_compute.
    + assert (size (disk (end_st runL1)) = 5%nat) as Hd by by vm_compute.
      intros E. by rewrite E in Hd.
  - give (events runM). exists (final runM). exists (end_st runM1). exists (end_st runM2). split_and!.
    + apply play_is; by vm_compute.
    + by vm_compute.
    + unfold runM1. apply outcome_err. by vm_compute.
    + unfold runM2. apply outcome_stop. by vm_compute.
Qed.
Print Assumptions C35_refuted.
(** What holds: the first Discard of a tree returns, or reports an error because
    a callback failed. *)
Theorem C35_first_discard_partial :
  ∀ (K V : Type) (cb : callbacks K V) (dom : K → Prop) (domV : V → Prop), wf_cb cb dom domV →
  ∀ h s t m, history cb dom domV h s → contents (after (cb_cmp cb) h) t = Some m →
  match exec cb (Discard t) s with
  | ORet r _ => r = RUnit
  | OErr e s' => e = EIO ∧ true ∈ made s s'
  | OStop x _ => x = Crash ∨ x = Env
  end.
Proof. exact @discards. Qed.
Print Assumptions C35_first_discard_partial.
Example C35_nonvacuous : ∃ h s m, history z_cb fits fits h s ∧ contents (after z_cmp h) one = Some m ∧ length m = 10%nat ∧
  outcome (exec z_cb (Discard one) s) = inl RUnit.
Proof.
  give (events runA). exists (final runA). eexists. split_and!; [apply play_is; by vm_compute|by vm_compute..].
Qed.

(** C36: [aside t]: any event but SortedMap calls, Discard, failed Prune and
    Forget of the tree [t] and the end of the process. *)
Theorem C36_isolation :
  ∀ (K V : Type) (cb : callbacks K V) (dom : K → Prop) (domV : V → Prop), wf_cb cb dom domV →
  ∀ h1 h2 s t m, history cb dom domV (h1 ++ h2) s → contents (after (cb_cmp cb) h1) t = Some m →
  Forall (aside t) h2 → contents (after (cb_cmp cb) (h1 ++ h2)) t = Some m.
Proof. exact @unaffected. Qed.
Print Assumptions C36_isolation.
Theorem C36_same_answers :
  ∀ (K V : Type) (cb : callbacks K V) (dom : K → Prop) (domV : V → Prop), wf_cb cb dom domV →
  ∀ h1 h2 h2' s s' t m, history cb dom domV (h1 ++ h2) s → history cb dom domV (h1 ++ h2') s' →
  contents (after (cb_cmp cb) h1) t = Some m →
  Forall (spares t) h2 → Forall (spares t) h2' → calls_on t h2 = calls_on t h2' →
  answers_on t h2 = answers_on t h2' ∧
  contents (after (cb_cmp cb) (h1 ++ h2)) t = contents (after (cb_cmp cb) (h1 ++ h2')) t.
Proof. exact @same_answers. Qed.
Print Assumptions C36_same_answers.
Example C36_nonvacuous : ∃ h1 h2 h3 s cbs, history z_cb fits fits (h1 ++ h2 ++ h3) s ∧
  contents (after z_cmp h1) two = Some [(3, 3); (4, 4)] ∧ Forall (aside two) h2 ∧ length h2 = 3%nat ∧
  Failed (MapCall one (CDeleteByKey 3)) EIO cbs ∈ h2 ∧
  Forall (spares two) h3 ∧ answers_on two h3 = [ROk true; RValue (Some 4); RLen 3].
Proof.
  give (take 18 (events runD)). give (take 3 (drop 18 (events runD))). give (drop 21 (events runD)). exists (final runD). eexists. split_and!.
  - apply play_split; by vm_compute.
  - by vm_compute.
  - each.
  - by vm_compute.
  - do 2 right. left.
  - each.
  - by vm_compute.
Qed.

(** * Property theorems: B+Trees and their storage (C20, C21, C23, C25, C40)

    [history cb dom domV h s]: some program that uses the package as allowed,
    with storage that may fail and a process that may die at any callback, went
    through the events [h] and is now in state [s] (Machine.v, Sample.v).
    [after cmp h] is what a specification made of plain sorted lists says about
    [h]; [contents] and the other words are defined in Client.v. *)
From Coq Require Import ssreflect Sorted.
From stdpp Require Import prelude list gmap.
From Verif Require Import Spec SpecFacts Llrb LlrbSpec BTree Wp Codec Machine Client Sample History Runs.
Open Scope Z_scope.

(** C20: after Flush returned [l], whatever happens to the tree except Prune and
    Discard ([h2]), opening [l] gives the same entries and the same node
    capacity.  [i] identifies the tree across handles and processes. *)
Theorem C20_reopen :
  ∀ (K V : Type) (cb : callbacks K V) (dom : K → Prop) (domV : V → Prop), wf_cb cb dom domV →
  ∀ h1 h2 h3 s t ap l cbs i m t' b cbs',
  history cb dom domV (h1 ++ Done (Flush t ap) (RLoc l) cbs :: h2 ++ Done (OldTree l b) (RTree t') cbs' :: h3) s →
  handle_of (after (cb_cmp cb) h1) i t → contents (after (cb_cmp cb) h1) t = Some m →
  keeps_versions (cb_cmp cb) i (after (cb_cmp cb) (h1 ++ [Done (Flush t ap) (RLoc l) cbs])) h2 →
  let h := h1 ++ Done (Flush t ap) (RLoc l) cbs :: h2 ++ [Done (OldTree l b) (RTree t') cbs'] in
  contents (after (cb_cmp cb) h) t' = Some m ∧
  capacity (after (cb_cmp cb) h) t' = capacity (after (cb_cmp cb) h1) t ∧
  handle_of (after (cb_cmp cb) h) i t' ∧
  (Forall (spares t') h3 → answers_on t' h3 = (spec_run (cb_cmp cb) m (calls_on t' h3)).2).
Proof. exact @reopened. Qed.
Print Assumptions C20_reopen.

(** C21: and it can be opened: when the tree is not in use any more (after the
    end of the process, or a dropped handle), OldBPlusTree(l) fails only if a
    callback fails. *)
Theorem C21_checkpoint_survives :
  ∀ (K V : Type) (cb : callbacks K V) (dom : K → Prop) (domV : V → Prop), wf_cb cb dom domV →
  ∀ h1 h2 s t ap l cbs i m b,
  history cb dom domV (h1 ++ Done (Flush t ap) (RLoc l) cbs :: h2) s →
  handle_of (after (cb_cmp cb) h1) i t → contents (after (cb_cmp cb) h1) t = Some m →
  keeps_versions (cb_cmp cb) i (after (cb_cmp cb) (h1 ++ [Done (Flush t ap) (RLoc l) cbs])) h2 →
  let h := h1 ++ Done (Flush t ap) (RLoc l) cbs :: h2 in
  closed (after (cb_cmp cb) h) i →
  legal dom domV (after (cb_cmp cb) h) (OldTree l b) ∧
  match exec cb (OldTree l b) s with
  | ORet r s' => ∃ t', r = RTree t' ∧
      contents (after (cb_cmp cb) (h ++ [Done (OldTree l b) (RTree t') (made s s')])) t' = Some m
  | OErr e s' => e = EIO ∧ true ∈ made s s'
  | OStop x _ => x = Crash ∨ x = Env
  end.
Proof. exact @reopenable. Qed.
Print Assumptions C21_checkpoint_survives.
(** the process dies inside a later Flush *)
Example C20_C21_nonvacuous : ∃ h1 h2 h3 s,
  history z_cb fits fits (h1 ++ Done (Flush one true) (RLoc (5, 0, 178)) [false; false; false; false; false] ::
    h2 ++ Done (OldTree (5, 0, 178) true) (RTree 12%positive) [false] :: h3) s ∧
  handle_of (after z_cmp h1) 0 one ∧ contents (after z_cmp h1) one = Some twelve_items ∧
  h2 = [Done (MapCall one (CDeleteByKey 5)) (RAns (ROk true)) [false; false; false];
        Done (MapCall one (CPut 20 20)) (RAns (ROk true)) [false]; Died (Flush one false)] ∧
  keeps_versions z_cmp 0 (after z_cmp (h1 ++ [Done (Flush one true) (RLoc (5, 0, 178)) [false; false; false; false; false]])) h2 ∧
  closed (after z_cmp (h1 ++ Done (Flush one true) (RLoc (5, 0, 178)) [false; false; false; false; false] :: h2)) 0 ∧
  Forall (spares 12%positive) h3 ∧ answers_on 12%positive h3 = [RValue (Some 50); RLen 12] ∧
  capacity (after z_cmp h1) one = Some 4.
Proof.
  give (take 13 (events runB)). give (take 3 (drop 14 (events runB))). give (drop 18 (events runB)). exists (final runB). split_and!.
  - apply play_split; by vm_compute.
  - by vm_compute.
  - by vm_compute.
  - by vm_compute.
  - kept.
  - by vm_compute.
  - each.
  - by vm_compute.
  - by vm_compute.
Qed.

(** C23 is false: Prune while there are unsaved changes discards nodes of the last
    checkpoint, which cannot be opened after a restart although no callback
    ever fails. *)
Theorem C23_refuted : ∃ h s l s',
  history z_cb fits fits (h ++ [Done (Flush one true) (RLoc l) [false; false; false; false; false];
    Done (MapCall one (CPut 20 200)) (RAns (ROk true)) [false; false];
    Done (Prune one) RUnit [false; false]; Restart]) s ∧
  Forall (λ e, match e with Done _ _ cbs => existsb id cbs = false | _ => False end) h ∧
  exec z_cb (OldTree l true) s = OErr EIO s' ∧ made s s' = [false].
Proof.
  give (take 13 (events runI)). exists (final runI). exists (5, 0, 178). exists (end_st (exec z_cb (OldTree (5, 0, 178) true) (final runI))). split_and!.
  - apply play_split; by vm_compute.
  - each.
  - apply outcome_err. by vm_compute.
  - by vm_compute.
Qed.
Print Assumptions C23_refuted.
(** What holds: Prune (even if it fails or the process dies in it) keeps the
    checkpoint of a tree without unsaved changes. *)
Theorem C23_prune_partial :
  ∀ (K V : Type) (cb : callbacks K V) (dom : K → Prop) (domV : V → Prop), wf_cb cb dom domV →
  ∀ h1 e h2 s t i m l b, history cb dom domV (h1 ++ e :: h2) s → prunes t e →
  handle_of (after (cb_cmp cb) h1) i t → contents (after (cb_cmp cb) h1) t = Some m →
  status (after (cb_cmp cb) h1) t = Some (Stored l) →
  keeps_versions (cb_cmp cb) i (after (cb_cmp cb) (h1 ++ [e])) h2 →
  let h := h1 ++ e :: h2 in
  closed (after (cb_cmp cb) h) i →
  legal dom domV (after (cb_cmp cb) h) (OldTree l b) ∧
  match exec cb (OldTree l b) s with
  | ORet r s' => ∃ t', r = RTree t' ∧
      contents (after (cb_cmp cb) (h ++ [Done (OldTree l b) (RTree t') (made s s')])) t' = Some m
  | OErr e s' => e = EIO ∧ true ∈ made s s'
  | OStop x _ => x = Crash ∨ x = Env
  end.
Proof. exact @pruned. Qed.
Print Assumptions C23_prune_partial.
Example C23_nonvacuous : ∃ h1 h2 s l, history z_cb fits fits (h1 ++ Done (Prune one) RUnit [false; false; false] :: h2) s ∧
  handle_of (after z_cmp h1) 0 one ∧ contents (after z_cmp h1) one = Some (filter (λ p, p.1 ≠ 5) twelve_items) ∧
  status (after z_cmp h1) one = Some (Stored l) ∧
  keeps_versions z_cmp 0 (after z_cmp (h1 ++ [Done (Prune one) RUnit [false; false; false]])) h2 ∧ h2 = [Restart] ∧
  closed (after z_cmp (h1 ++ Done (Prune one) RUnit [false; false; false] :: h2)) 0 ∧
  ∃ t, outcome (exec z_cb (OldTree l true) s) = inl (RTree t).
Proof.
  give (take 16 (events runP)). exists [Restart]. exists (final runP). eexists. split_and!.
  - apply play_split; by vm_compute.
  - by vm_compute.
  - by vm_compute.
  - by vm_compute.
  - kept.
  - done.
  - by vm_compute.
  - eexists. by vm_compute.
Qed.

(** C25 *)
Theorem C25_flush_of_unchanged_tree :
  ∀ (K V : Type) (cb : callbacks K V) (dom : K → Prop) (domV : V → Prop), wf_cb cb dom domV →
  ∀ h1 h2 s t ap l cbs ap', history cb dom domV (h1 ++ Done (Flush t ap) (RLoc l) cbs :: h2) s →
  Forall (calm t) h2 →
  ∃ s', exec cb (Flush t ap') s = ORet (RLoc l) s' ∧ made s s' = [].
Proof. exact @flush_again. Qed.
Print Assumptions C25_flush_of_unchanged_tree.
Example C25_nonvacuous : ∃ h1 h2 s l cbs, history z_cb fits fits (h1 ++ Done (Flush one true) (RLoc l) cbs :: h2) s ∧
  Forall (calm one) h2 ∧ length h2 = 5%nat.
Proof.
  give (take 13 (events runF)). give (drop 14 (events runF)). exists (final runF). do 2 eexists. split_and!.
  - apply play_split; by vm_compute.
  - each.
  - by vm_compute.
Qed.


(** C40: [calm t]: an event that neither modifies the tree nor ends its use;
    [dirties t]: a successful call that modifies it. *)
Theorem C40_location_of_flushed_tree :
  ∀ (K V : Type) (cb : callbacks K V) (dom : K → Prop) (domV : V → Prop), wf_cb cb dom domV →
  ∀ h1 h2 s t ap l cbs, history cb dom domV (h1 ++ Done (Flush t ap) (RLoc l) cbs :: h2) s → Forall (calm t) h2 →
  ∃ s', exec cb (FetchLocation t) s = ORet (RLoc l) s'.
Proof. exact @location_flushed. Qed.
Print Assumptions C40_location_of_flushed_tree.
Theorem C40_location_of_opened_tree :
  ∀ (K V : Type) (cb : callbacks K V) (dom : K → Prop) (domV : V → Prop), wf_cb cb dom domV →
  ∀ h1 h2 s t l b cbs, history cb dom domV (h1 ++ Done (OldTree l b) (RTree t) cbs :: h2) s → Forall (calm t) h2 →
  ∃ s', exec cb (FetchLocation t) s = ORet (RLoc l) s'.
Proof. exact @location_opened. Qed.
Print Assumptions C40_location_of_opened_tree.
Theorem C40_location_of_modified_tree :
  ∀ (K V : Type) (cb : callbacks K V) (dom : K → Prop) (domV : V → Prop), wf_cb cb dom domV →
  ∀ h1 e h2 s t m, history cb dom domV (h1 ++ e :: h2) s → contents (after (cb_cmp cb) h1) t = Some m → dirties t e →
  Forall (λ e, spares t e ∧ ¬ flushes t e) h2 →
  ∃ s', exec cb (FetchLocation t) s = ORet (RLoc (0, 0, 0)) s'.
Proof. exact @location_modified. Qed.
Print Assumptions C40_location_of_modified_tree.
Theorem C40_location_of_new_tree :
  ∀ (K V : Type) (cb : callbacks K V) (dom : K → Prop) (domV : V → Prop), wf_cb cb dom domV →
  ∀ h1 h2 s t max b cbs, history cb dom domV (h1 ++ Done (NewTree max b) (RTree t) cbs :: h2) s →
  Forall (λ e, spares t e ∧ ¬ flushes t e) h2 →
  ∃ s', exec cb (FetchLocation t) s = ORet (RLoc (0, 0, 0)) s'.
Proof. exact @location_new. Qed.
Print Assumptions C40_location_of_new_tree.
Example C40_nonvacuous_modified : ∃ h1 h2 s, 
  history z_cb fits fits (h1 ++ Done (MapCall one (CPut 21 210)) (RAns (ROk true)) [] :: h2) s ∧
  contents (after z_cmp h1) one = Some twelve_items ∧ (∃ cbs, Failed (Flush one false) EIO cbs ∈ h2) ∧
  Forall (λ e, spares one e ∧ ¬ flushes one e) h2.
Proof.
  give (take 17 (events runC)). give (drop 18 (events runC)). exists (final runC). split_and!.
  - apply play_split; by vm_compute.
  - by vm_compute.
  - eexists. left.
  - each.
Qed.
Example C40_nonvacuous_opened : ∃ h1 h2 s, 
  history z_cb fits fits (h1 ++ Done (OldTree (5, 0, 178) true) (RTree 12%positive) [false] :: h2) s ∧
  length h2 = 3%nat ∧ Forall (calm 12%positive) h2.
Proof.
  give (take 17 (events runB)). give (drop 18 (events runB)). exists (final runB). split_and!.
  - apply play_split; by vm_compute.
  - by vm_compute.
  - each.
Qed.

(** * Property theorems: several threads (C37, C42)

    [free cb dom domV h cf]: some program with any number of threads, in which
    every call was allowed and the rules of Threads.v about what may run at the
    same time were kept, with storage that may fail and a process that may die
    at any moment, went through the labels [h] and is now in configuration [cf].
    Between any two steps of a call the other threads and the drainer may take
    any number of steps.  [cafter cb h] is what a specification made of plain
    sorted lists says about [h], when every call happens at once at the moment it
    returns. *)
From Coq Require Import ssreflect Sorted.
From stdpp Require Import prelude list gmap.
From Verif Require Import Spec SpecFacts BTree Wp Codec Machine Client Sample History Threads Crowd Runs Crew Lives Free.
Open Scope Z_scope.

(** C37: the answers of the calls on a tree, in the order in which they return
    (over all threads), are those of a sorted list. *)
Theorem C37_answers_of_a_sorted_map :
  ∀ (K V : Type) (cb : callbacks K V) (dom : K → Prop) (domV : V → Prop), wf_cb cb dom domV →
  ∀ h1 h2 cf t m, free cb dom domV (h1 ++ h2) cf →
  contents (cafter cb h1) t = Some m →
  Forall (spares t) (returns h2) →
  answers_on t (returns h2) = (spec_run (cb_cmp cb) m (calls_on t (returns h2))).2 ∧
  contents (cafter cb (h1 ++ h2)) t = Some (spec_run (cb_cmp cb) m (calls_on t (returns h2))).1.
Proof. exact @free_answers. Qed.
Print Assumptions C37_answers_of_a_sorted_map.
Theorem C37_new_tree_is_a_sorted_map :
  ∀ (K V : Type) (cb : callbacks K V) (dom : K → Prop) (domV : V → Prop), wf_cb cb dom domV →
  ∀ h1 h2 cf j t max b cbs, free cb dom domV (h1 ++ LDone j (NewTree max b) (RTree t) cbs :: h2) cf →
  Forall (spares t) (returns h2) →
  answers_on t (returns h2) = (spec_run (cb_cmp cb) [] (calls_on t (returns h2))).2.
Proof. exact @free_new. Qed.
Print Assumptions C37_new_tree_is_a_sorted_map.
(** that order respects time: a call that returns was made before, and the
    thread did nothing else since *)
Theorem C37_calls_happen_while_they_run :
  ∀ (K V : Type) (cb : callbacks K V) (dom : K → Prop) (domV : V → Prop),
  ∀ h1 h2 l cf j c, free cb dom domV (h1 ++ l :: h2) cf →
  ((∃ r cbs, l = LDone j c r cbs) ∨ (∃ e cbs, l = LFailed j c e cbs)) →
  ∃ h0 h0', h1 = h0 ++ LCall j c :: h0' ∧ Forall (λ l, ¬ edge j l) h0'.
Proof. exact @free_inside. Qed.
Print Assumptions C37_calls_happen_while_they_run.
(** every result (except that of FetchLocation, see C42), every error and every
    end of the process is as Machine.v demands of a call that happens at once *)
Theorem C37_every_call_is_right :
  ∀ (K V : Type) (cb : callbacks K V) (dom : K → Prop) (domV : V → Prop), wf_cb cb dom domV →
  ∀ h cf, free cb dom domV h cf → all_right cb world0 h.
Proof. exact @free_right. Qed.
Print Assumptions C37_every_call_is_right.
Example C37_nonvacuous_answers : ∃ h1 j cbs h2 cf,
  free z_cb fits fits (h1 ++ LDone j (NewTree 4 true) (RTree one) cbs :: h2) cf ∧ Forall (spares one) (returns h2) ∧
  drop 12 (calls_on one (returns h2)) = [CPut 13 130; CLen; CGetByKey 5] ∧
  drop 12 (answers_on one (returns h2)) = [ROk true; RLen 13; RValue (Some 50)] ∧
  drop 12 (returns h2) =
    [Done (Flush one false) (RLoc (6, 0, 218)) [false; false; false; false; false; false];
     Done (NewTree 4 true) (RTree eight) [];
     Done DrainSelect (RVictim (Some 2%positive)) [];
     Done (MapCall eight (CPut 1 1)) (RAns (ROk true)) [];
     Done (MapCall one (CPut 13 130)) (RAns (ROk true)) [];
     Done (FetchLocation one) (RLoc (6, 0, 0)) [];
     Done (DrainEvict 2%positive) RUnit [];
     Done (MapCall one CLen) (RAns (RLen 13)) [];
     Done (MapCall one (CGetByKey 5)) (RAns (RValue (Some 50))) []] ∧
  doing (cf_ths cf !! 1%nat) = Some (Flush one false, one) ∧ waiting (cf_ths cf !! 0%nat) = Some (put1 14).
Proof.
  exists (take 12 (labels going_on)), 0%nat, [], (drop 13 (labels going_on)), (ending going_on). split_and!.
  - apply (free_split [] [] 5 onward 12); by vm_compute.
  - each.
  - by vm_compute.
  - by vm_compute.
  - by vm_compute.
  - by vm_compute.
  - by vm_compute.
Qed.

(** C37: no call (except FetchLocation, see C42) panics or loops, and without trouble in the storage none
    stops, whatever the other threads do. *)
Theorem C37_no_panic :
  ∀ (K V : Type) (cb : callbacks K V) (dom : K → Prop) (domV : V → Prop), wf_cb cb dom domV →
  ∀ h cf j c t p cbs, free cb dom domV h cf → cf_ths cf !! j = Some (Runs c t p cbs) → fetch_call c = false →
  match sstep p (cf_st cf) with
  | SStop Panic _ | SStop Fuel _ => False
  | SStop Env _ | SStop Crash _ => ¬ silent (cafter cb h) c
  | _ => True
  end.
Proof. exact @free_safe. Qed.
Print Assumptions C37_no_panic.
(** at most one thread is inside a call on a tree (FetchLocation aside) *)
Theorem C37_one_call_at_a_time :
  ∀ (K V : Type) (cb : callbacks K V) (dom : K → Prop) (domV : V → Prop), wf_cb cb dom domV →
  ∀ h cf j k c c' t p p' cbs cbs', free cb dom domV h cf →
  cf_ths cf !! j = Some (Runs c t p cbs) → cf_ths cf !! k = Some (Runs c' t p' cbs') →
  locks c = true → locks c' = true → j = k.
Proof. exact @free_exclusive. Qed.
Print Assumptions C37_one_call_at_a_time.
(** no deadlock: a thread that has made a call can go on, or waits for a thread
    that can go on *)
Theorem C37_no_deadlock :
  ∀ (K V : Type) (cb : callbacks K V) (dom : K → Prop) (domV : V → Prop), wf_cb cb dom domV →
  ∀ h cf j x, free cb dom domV h cf → cf_ths cf !! j = Some x → x ≠ Idle → ¬ fetcher x →
  (∀ c, x = Waits c → legal dom domV (cafter cb h) c) →
  can_move cb cf j ∨
  ∃ c t k y, x = Waits c ∧ tree_of (cf_st cf) c = Some t ∧
    cf_ths cf !! k = Some y ∧ holds_lock t y ∧ can_move cb cf k.
Proof. exact @free_no_deadlock. Qed.
Print Assumptions C37_no_deadlock.
(** and no call goes on for ever, whatever happens to memory meanwhile *)
Theorem C37_calls_end :
  ∀ (K V : Type) (ps : nat → M K V (result K V)),
  (∀ n, ∃ s s', sstep (ps n) s = SMore (ps (S n)) s') → False.
Proof. exact @finite. Qed.
Print Assumptions C37_calls_end.
Example C37_nonvacuous_threads : ∃ h cf,
  free z_cb fits fits h cf ∧
  (∃ p cbs, cf_ths cf !! 1%nat = Some (Runs (put1 13) one p cbs)) ∧
  (∃ p cbs, cf_ths cf !! 3%nat = Some (Runs (MapCall eight (CPut 1 1)) eight p cbs)) ∧
  cf_ths cf !! 0%nat = Some (Waits (MapCall one CLen)) ∧ legal fits fits (cafter z_cb h) (MapCall one CLen) ∧
  cf_ths cf !! 2%nat = Some (Waits (DrainEvict 2%positive)) ∧ legal fits fits (cafter z_cb h) (DrainEvict 2%positive) ∧
  tree_of (cf_st cf) (DrainEvict 2%positive) = Some one ∧
  locked (cf_ths cf) one ∧ locked (cf_ths cf) eight.
Proof.
  exists (labels bustling), (ending bustling).
  assert (∃ p cbs, cf_ths (ending bustling) !! 1%nat = Some (Runs (put1 13) one p cbs)) as H1 by (apply doing_ok; by vm_compute).
  assert (∃ p cbs, cf_ths (ending bustling) !! 3%nat = Some (Runs (MapCall eight (CPut 1 1)) eight p cbs)) as H3 by (apply doing_ok; by vm_compute).
  split_and!.
  - apply (perform_free [] [] 5 bustle); by vm_compute.
  - exact H1.
  - exact H3.
  - apply waiting_ok. by vm_compute.
  - apply allowed_ok. by vm_compute.
  - apply waiting_ok. by vm_compute.
  - apply allowed_ok. by vm_compute.
  - by vm_compute.
  - destruct H1 as (p & cbs & H1). exists 1%nat, (Runs (put1 13) one p cbs). split; [exact H1|by split].
  - destruct H3 as (p & cbs & H3). exists 3%nat, (Runs (MapCall eight (CPut 1 1)) eight p cbs). split; [exact H3|by split].
Qed.

(** C37: a version that Flush stored keeps its entries until the tree is pruned
    or discarded, whatever else the threads do, and whenever the process ends.
    [i] identifies the tree across handles and processes. *)
Theorem C37_versions_are_kept :
  ∀ (K V : Type) (cb : callbacks K V) (dom : K → Prop) (domV : V → Prop), wf_cb cb dom domV →
  ∀ h1 h2 h3 cf j k t ap l cbs i m t' b cbs',
  free cb dom domV (h1 ++ LDone j (Flush t ap) (RLoc l) cbs :: h2 ++ LDone k (OldTree l b) (RTree t') cbs' :: h3) cf →
  handle_of (cafter cb h1) i t → contents (cafter cb h1) t = Some m →
  keeps_all cb i (cafter cb (h1 ++ [LDone j (Flush t ap) (RLoc l) cbs])) h2 →
  let h := h1 ++ LDone j (Flush t ap) (RLoc l) cbs :: h2 ++ [LDone k (OldTree l b) (RTree t') cbs'] in
  contents (cafter cb h) t' = Some m ∧ capacity (cafter cb h) t' = capacity (cafter cb h1) t ∧ handle_of (cafter cb h) i t' ∧
  (Forall (spares t') (returns h3) → answers_on t' (returns h3) = (spec_run (cb_cmp cb) m (calls_on t' (returns h3))).2).
Proof. exact @free_kept. Qed.
Print Assumptions C37_versions_are_kept.
Theorem C37_versions_can_be_opened :
  ∀ (K V : Type) (cb : callbacks K V) (dom : K → Prop) (domV : V → Prop), wf_cb cb dom domV →
  ∀ h1 h2 cf j t ap l cbs i m b,
  free cb dom domV (h1 ++ LDone j (Flush t ap) (RLoc l) cbs :: h2) cf →
  handle_of (cafter cb h1) i t → contents (cafter cb h1) t = Some m →
  keeps_all cb i (cafter cb (h1 ++ [LDone j (Flush t ap) (RLoc l) cbs])) h2 →
  let h := h1 ++ LDone j (Flush t ap) (RLoc l) cbs :: h2 in
  closed (cafter cb h) i → legal dom domV (cafter cb h) (OldTree l b).
Proof. exact @free_opens. Qed.
Print Assumptions C37_versions_can_be_opened.
Theorem C37_opening_fails_only_if_a_callback_fails :
  ∀ (K V : Type) (cb : callbacks K V) (dom : K → Prop) (domV : V → Prop), wf_cb cb dom domV →
  ∀ h1 h2 cf j l b e cbs, free cb dom domV (h1 ++ LFailed j (OldTree l b) e cbs :: h2) cf → e = EIO ∧ true ∈ cbs.
Proof. exact @free_open_fails. Qed.
Print Assumptions C37_opening_fails_only_if_a_callback_fails.
Example C37_nonvacuous_versions : ∃ h1 h2 h3 cf,
  free z_cb fits fits (h1 ++ LDone 0 (Flush one false) (RLoc (6, 0, 218)) [false; false; false; false; false; false] ::
    h2 ++ LDone 3 (OldTree (6, 0, 218) true) (RTree 13%positive) [false] :: h3) cf ∧
  handle_of (cafter z_cb h1) 0 one ∧ contents (cafter z_cb h1) one = Some twelve_items ∧
  keeps_all z_cb 0 (cafter z_cb (h1 ++ [LDone 0 (Flush one false) (RLoc (6, 0, 218)) [false; false; false; false; false; false]])) h2 ∧
  closed (cafter z_cb (h1 ++ LDone 0 (Flush one false) (RLoc (6, 0, 218)) [false; false; false; false; false; false] :: h2)) 0 ∧
  Died (Flush one false) ∈ returns h2 ∧ calls_on one (returns h2) = [CPut 13 130; CLen; CGetByKey 5] ∧
  Forall (spares 13%positive) (returns h3) ∧ answers_on 13%positive (returns h3) = [RValue (Some 50); RLen 12].
Proof.
  exists (take 1602 (labels reopening)), (take 970 (drop 1603 (labels reopening))), (drop 971 (drop 1603 (labels reopening))), (ending reopening). split_and!.
  - apply (free_split2 [] [8%nat] 5 (onward ++ [Go 1 2000] ++ reopen) 1602 _ 970); by vm_compute.
  - by vm_compute.
  - by vm_compute.
  - apply keeps_allb_ok. by vm_compute.
  - by vm_compute.
  - apply (elem_of_list_lookup_2 _ 8). by vm_compute.
  - by vm_compute.
  - each.
  - by vm_compute.
Qed.

(** C42 is false: FetchLocation takes no lock, so that while another thread
    deletes and flushes it can put together the location of one version and the
    length of another: a location that was never stored. *)
Theorem C42_refuted : ∃ h cf l,
  free z_cb fits fits (h ++ [LDone 1 (FetchLocation one) (RLoc l) []]) cf ∧
  returns h = [Done (NewTree 4 true) (RTree one) []; Done (put1 1) (RAns (ROk true)) []; Done (put1 2) (RAns (ROk true)) [];
    Done (put1 3) (RAns (ROk true)) []; Done (Flush one false) (RLoc (1, 0, 74)) [false];
    Done (MapCall one (CDeleteByKey 3)) (RAns (ROk true)) []; Done (Flush one false) (RLoc (2, 0, 58)) [false]] ∧
  l = (1, 0, 58) ∧ stored_version (cafter z_cb h) l = None.
Proof.
  exists (take (length (labels torn) - 1) (labels torn)), (ending torn), (1, 0, 58). split_and!.
  - apply (perform_free [] [] 2 tearing); by vm_compute.
  - by vm_compute.
  - done.
  - by vm_compute.
Qed.
Print Assumptions C42_refuted.
(** and Discard takes the tree away under its feet *)
Theorem C42_panic_refuted : ∃ h cf p cbs s',
  free z_cb fits fits h cf ∧
  returns h = [Done (NewTree 4 true) (RTree one) []; Done (put1 1) (RAns (ROk true)) []; Done (Discard one) RUnit []] ∧
  cf_ths cf !! 1%nat = Some (Runs (FetchLocation one) one p cbs) ∧ sstep p (cf_st cf) = SStop Panic s'.
Proof.
  assert (∃ p cbs s', cf_ths (ending discarded) !! 1%nat = Some (Runs (FetchLocation one) one p cbs) ∧
    sstep p (cf_st (ending discarded)) = SStop Panic s') as (p & cbs & s' & H1 & H2) by (apply panics_ok; by vm_compute).
  exists (labels discarded), (ending discarded), p, cbs, s'. split_and!.
  - apply (perform_free [] [] 2 discarding); by vm_compute.
  - by vm_compute.
  - exact H1.
  - exact H2.
Qed.
Print Assumptions C42_panic_refuted.
(** What is true: as long as no other call (except FetchLocation and the drainer)
    runs on the tree, it returns the location of the version the tree was last
    stored at or opened from, if it was not modified since. *)
Theorem C42_while_the_tree_is_at_rest_partial :
  ∀ (K V : Type) (cb : callbacks K V) (dom : K → Prop) (domV : V → Prop), wf_cb cb dom domV →
  ∀ h1 h2 cf j t r cbs m l, reach cb dom domV (h1 ++ LDone j (FetchLocation t) r cbs :: h2) cf →
  contents (cafter cb h1) t = Some m → status (cafter cb h1) t = Some (Stored l) → r = RLoc l.
Proof. exact @fetched. Qed.
Print Assumptions C42_while_the_tree_is_at_rest_partial.
Example C42_nonvacuous : ∃ h1 cf,
  reach z_cb fits fits (h1 ++ LDone 1 (FetchLocation one) (RLoc (6, 0, 218)) [] :: []) cf ∧
  contents (cafter z_cb h1) one = Some twelve_items ∧ status (cafter z_cb h1) one = Some (Stored (6, 0, 218)) ∧
  doing (cf_ths cf !! 2%nat) = Some (DrainEvict 2%positive, one).
Proof.
  exists (take (length (labels rested) - 1) (labels rested)), (ending rested). split_and!.
  - apply (perform_is [] [] 3 resting); by vm_compute.
  - by vm_compute.
  - by vm_compute.
  - by vm_compute.
Qed.

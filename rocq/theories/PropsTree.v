(** * Property theorems: B+Trees as sorted maps (C13-C16, C18, C19, C38, C39)

    [history cb dom domV h s]: some program that uses the package as allowed,
    with storage that may fail and a process that may die at any callback, went
    through the events [h] and is now in state [s] (Machine.v, Sample.v).
    [after cmp h] is what a specification made of plain sorted lists says about
    [h]; [contents] and the other words are defined in Client.v. *)
From Coq Require Import ssreflect Sorted.
From stdpp Require Import prelude list gmap.
From Verif Require Import Spec SpecFacts Llrb LlrbSpec BTree Wp Codec Machine Client Sample History Runs.
Open Scope Z_scope.

(** C13 *)
Theorem C13_new_tree_is_a_sorted_map :
  ∀ (K V : Type) (cb : callbacks K V) (dom : K → Prop) (domV : V → Prop), wf_cb cb dom domV →
  ∀ h1 h2 s t max b cbs, history cb dom domV (h1 ++ Done (NewTree max b) (RTree t) cbs :: h2) s →
  Forall (spares t) h2 →
  answers_on t h2 = (spec_run (cb_cmp cb) [] (calls_on t h2)).2.
Proof. exact @new_tree_view. Qed.
Print Assumptions C13_new_tree_is_a_sorted_map.
Theorem C13_old_tree_is_a_sorted_map :
  ∀ (K V : Type) (cb : callbacks K V) (dom : K → Prop) (domV : V → Prop), wf_cb cb dom domV →
  ∀ h1 h2 s t l b cbs m, history cb dom domV (h1 ++ Done (OldTree l b) (RTree t) cbs :: h2) s →
  stored_version (after (cb_cmp cb) h1) l = Some m →
  Forall (spares t) h2 →
  answers_on t h2 = (spec_run (cb_cmp cb) m (calls_on t h2)).2.
Proof. exact @old_tree_view. Qed.
Print Assumptions C13_old_tree_is_a_sorted_map.
Theorem C13_tree_is_a_sorted_map :
  ∀ (K V : Type) (cb : callbacks K V) (dom : K → Prop) (domV : V → Prop), wf_cb cb dom domV →
  ∀ h1 h2 s t m, history cb dom domV (h1 ++ h2) s →
  contents (after (cb_cmp cb) h1) t = Some m →
  Forall (spares t) h2 →
  answers_on t h2 = (spec_run (cb_cmp cb) m (calls_on t h2)).2 ∧
  contents (after (cb_cmp cb) (h1 ++ h2)) t = Some (spec_run (cb_cmp cb) m (calls_on t h2)).1.
Proof. exact @tree_view. Qed.
Print Assumptions C13_tree_is_a_sorted_map.
Example C13_nonvacuous : wf_cb z_cb fits fits ∧ ∃ h2 s,
  history z_cb fits fits ([] ++ Done (NewTree 4 true) (RTree one) [] :: h2) s ∧ Forall (spares one) h2 ∧
  drop 12 (answers_on one h2) =
    [ROk true; RItem (Some (4, 40)); RIndex 10 false; RIndex 4 false; ROk true; RValue (Some 77); ROk true; ROk false; RLen 10].
Proof.
  split; [exact z_wf|]. give (tail (events runA)). exists (final runA). split_and!.
  - apply play_split; by vm_compute.
  - each.
  - by vm_compute.
Qed.
Example C13_nonvacuous_old : ∃ h1 h2 s, 
  history z_cb fits fits (h1 ++ Done (OldTree (5, 0, 178) true) (RTree 12%positive) [false] :: h2) s ∧
  stored_version (after z_cmp h1) (5, 0, 178) = Some twelve_items ∧
  Forall (spares 12%positive) h2 ∧ answers_on 12%positive h2 = [RValue (Some 50); RLen 12].
Proof.
  give (take 17 (events runB)). give (drop 18 (events runB)). exists (final runB). split_and!.
  - apply play_split; by vm_compute.
  - by vm_compute.
  - each.
  - by vm_compute.
Qed.

(** C14: [m] is the sorted list of the tree's entries. *)
Theorem C14_positions :
  ∀ (K V : Type) (cb : callbacks K V) (dom : K → Prop) (domV : V → Prop), wf_cb cb dom domV →
  ∀ h s t m, history cb dom domV h s → contents (after (cb_cmp cb) h) t = Some m →
  ascending (cb_cmp cb) m ∧
  (∀ i r s', exec cb (MapCall t (CGetByIndex i)) s = ORet r s' →
     r = RAns (RItem (if bool_decide (0 ≤ i) then m !! Z.to_nat i else None))) ∧
  (∀ i v r s', domV v → exec cb (MapCall t (CPatchByIndex i v)) s = ORet r s' →
     let ok := bool_decide (0 ≤ i < Z.of_nat (length m)) in
     r = RAns (ROk ok) ∧
     contents (after (cb_cmp cb) (h ++ [Done (MapCall t (CPatchByIndex i v)) r (made s s')])) t =
       Some (if ok then alter (λ p, (p.1, v)) (Z.to_nat i) m else m)) ∧
  (∀ i r s', exec cb (MapCall t (CDeleteByIndex i)) s = ORet r s' →
     let ok := bool_decide (0 ≤ i < Z.of_nat (length m)) in
     r = RAns (ROk ok) ∧
     contents (after (cb_cmp cb) (h ++ [Done (MapCall t (CDeleteByIndex i)) r (made s s')])) t =
       Some (if ok then base.delete (Z.to_nat i) m else m)) ∧
  (∀ k r s', dom k →
     let n := Z.of_nat (length (filter (λ p, below (cb_cmp cb) p.1 k = true) m)) in
     let found := existsb (λ p, same (cb_cmp cb) k p.1) m in
     (exec cb (MapCall t (CBisectLeft k)) s = ORet r s' → r = RAns (RIndex (if found then n else n - 1) found)) ∧
     (exec cb (MapCall t (CBisectRight k)) s = ORet r s' → r = RAns (RIndex n found)) ∧
     (found = true → ∃ p, m !! Z.to_nat n = Some p ∧ same (cb_cmp cb) k p.1 = true)).
Proof. exact @positions. Qed.
Print Assumptions C14_positions.
Example C14_nonvacuous : ∃ h s, history z_cb fits fits h s ∧
  contents (after z_cmp h) one = Some [(2, 20); (3, 30); (4, 40); (6, 60); (7, 77); (8, 80); (9, 90); (10, 100); (11, 110); (12, 120)] ∧
  outcome (exec z_cb (MapCall one (CGetByIndex 4)) s) = inl (RAns (RItem (Some (7, 77)))) ∧
  outcome (exec z_cb (MapCall one (CBisectLeft 5)) s) = inl (RAns (RIndex 2 false)) ∧
  outcome (exec z_cb (MapCall one (CDeleteByIndex 9)) s) = inl (RAns (ROk true)) ∧
  outcome (exec z_cb (MapCall one (CPatchByIndex 10 0)) s) = inl (RAns (ROk false)).
Proof.
  give (events runA). exists (final runA). split; [apply play_is; by vm_compute|]. by vm_compute.
Qed.

(** C15 *)
Theorem C15_interchangeable :
  ∀ (K V : Type) (cb : callbacks K V) (dom : K → Prop) (domV : V → Prop), wf_cb cb dom domV →
  ∀ h1 h2 s t max b cbs, history cb dom domV (h1 ++ Done (NewTree max b) (RTree t) cbs :: h2) s →
  Forall (spares t) h2 →
  ∃ x, llrb_run (cb_cmp cb) NewLLRBTree (LCall <$> calls_on t h2) = LRet (x, answers_on t h2).
Proof. exact @interchangeable. Qed.
Print Assumptions C15_interchangeable.
Example C15_nonvacuous : ∃ h2 s,
  history z_cb fits fits ([] ++ Done (NewTree 4 true) (RTree one) [] :: h2) s ∧ Forall (spares one) h2 ∧
  length (calls_on one h2) = 21%nat ∧
  (λ p, p.2) <$> (match llrb_run z_cmp NewLLRBTree (LCall <$> calls_on one h2) with LRet x => Some x | _ => None end) = Some (answers_on one h2).
Proof.
  give (tail (events runA)). exists (final runA). split_and!.
  - apply play_split; by vm_compute.
  - each.
  - by vm_compute.
  - by vm_compute.
Qed.

(** C16: a call that is allowed returns, or reports an error because a storage
    callback failed, or (Purge(true) of a tree with unsaved changes) refuses.  It
    never panics and never runs for ever.  [Crash]: the process is killed at a
    callback; [Env]: PutNode hands out a location that is already in use or
    does not fit 64 bits. *)
Theorem C16_calls_end :
  ∀ (K V : Type) (cb : callbacks K V) (dom : K → Prop) (domV : V → Prop), wf_cb cb dom domV →
  ∀ h s c, history cb dom domV h s → legal dom domV (after (cb_cmp cb) h) c →
  match exec cb c s with
  | ORet r s' => right_result (cb_cmp cb) (after (cb_cmp cb) h) c r (made s s')
  | OErr EIO s' => true ∈ made s s' ∧ ¬ silent (after (cb_cmp cb) h) c
  | OErr ELogic s' => ∃ t, c = Purge t true ∧ made s s' = [] ∧ ∀ l, status (after (cb_cmp cb) h) t ≠ Some (Stored l)
  | OErr _ _ => False
  | OStop Crash _ | OStop Env _ => ¬ silent (after (cb_cmp cb) h) c
  | OStop _ _ => False
  end.
Proof. exact @call_ends. Qed.
Print Assumptions C16_calls_end.
Example C16_nonvacuous : ∃ h s, history z_cb fits fits h s ∧
  legal fits fits (after z_cmp h) (MapCall one (CDeleteByKey 7)) ∧
  outcome (exec z_cb (MapCall one (CDeleteByKey 7)) s) = inl (RAns (ROk true)) ∧
  legal fits fits (after z_cmp h) (Purge one true) ∧ outcome (exec z_cb (Purge one true) s) = inr (inl ELogic).
Proof.
  give (events runA). exists (final runA). split; [apply play_is; by vm_compute|].
  split_and!; [by apply allowed_ok; vm_compute|by vm_compute|by apply allowed_ok; vm_compute|by vm_compute].
Qed.

(** C18 *)
Theorem C18_validate :
  ∀ (K V : Type) (cb : callbacks K V) (dom : K → Prop) (domV : V → Prop), wf_cb cb dom domV →
  ∀ h s t m, history cb dom domV h s → contents (after (cb_cmp cb) h) t = Some m →
  match exec cb (Validate t) s with
  | ORet r _ => r = RValid true
  | OErr e s' => e = EIO ∧ true ∈ made s s'
  | OStop x _ => x = Crash ∨ x = Env
  end.
Proof. exact @validates. Qed.
Print Assumptions C18_validate.
Example C18_nonvacuous : ∃ h s m, history z_cb fits fits h s ∧ contents (after z_cmp h) one = Some m ∧ length m = 10%nat ∧
  outcome (exec z_cb (Validate one) s) = inl (RValid true).
Proof.
  give (events runA). exists (final runA). eexists. split_and!; [apply play_is; by vm_compute|by vm_compute..].
Qed.

(** C19: evictions ([evicts]: Purge, failed Purge(true), a round of the drainer)
    leave the entries alone, and what comes after gets the same answers as
    without them. *)
Theorem C19_evictions_are_invisible :
  ∀ (K V : Type) (cb : callbacks K V) (dom : K → Prop) (domV : V → Prop), wf_cb cb dom domV →
  ∀ h1 es h2 h2' s s' t m, history cb dom domV (h1 ++ es ++ h2) s → history cb dom domV (h1 ++ h2') s' →
  Forall evicts es → contents (after (cb_cmp cb) h1) t = Some m →
  Forall (spares t) h2 → Forall (spares t) h2' → calls_on t h2 = calls_on t h2' →
  contents (after (cb_cmp cb) (h1 ++ es)) t = Some m ∧
  answers_on t h2 = answers_on t h2' ∧
  contents (after (cb_cmp cb) (h1 ++ es ++ h2)) t = contents (after (cb_cmp cb) (h1 ++ h2')) t.
Proof. exact @evictions. Qed.
Print Assumptions C19_evictions_are_invisible.
(** Purge(false) always works, and so does Purge(true) of a tree whose changes are all stored. *)
Theorem C19_purge_works :
  ∀ (K V : Type) (cb : callbacks K V) (dom : K → Prop) (domV : V → Prop), wf_cb cb dom domV →
  ∀ h s t m full, history cb dom domV h s → contents (after (cb_cmp cb) h) t = Some m →
  full = false ∨ (∃ l, status (after (cb_cmp cb) h) t = Some (Stored l)) →
  ∃ s', exec cb (Purge t full) s = ORet RUnit s' ∧ made s s' = [].
Proof. exact @purges. Qed.
Print Assumptions C19_purge_works.
Example C19_nonvacuous : ∃ h1 es h2 h2' s s',
  history z_cb fits fits (h1 ++ es ++ h2) s ∧ history z_cb fits fits (h1 ++ h2') s' ∧
  es = [Done DrainSelect (RVictim (Some 2%positive)) []; Done (DrainEvict 2%positive) RUnit []; Done (Purge one true) RUnit []] ∧
  Forall evicts es ∧ contents (after z_cmp h1) one = Some twelve_items ∧ (∃ l, status (after z_cmp h1) one = Some (Stored l)) ∧
  Forall (spares one) h2 ∧ Forall (spares one) h2' ∧ calls_on one h2 = calls_on one h2' ∧
  answers_on one h2 = [RValue (Some 50); ROk true; RLen 11].
Proof.
  give (take 15 (events runE)). give (take 3 (drop 15 (events runE))). give (drop 18 (events runE)). give (drop 15 (events runE')).
  exists (final runE). exists (final runE'). split_and!.
  - apply play_split; by vm_compute.
  - apply play_split; by vm_compute.
  - by vm_compute.
  - each.
  - by vm_compute.
  - eexists. by vm_compute.
  - each.
  - each.
  - by vm_compute.
  - by vm_compute.
Qed.

(** C38 *)
Theorem C38_capacity :
  ∀ (K V : Type) (cb : callbacks K V) (dom : K → Prop) (domV : V → Prop), wf_cb cb dom domV →
  ∀ h s max attach, history cb dom domV h s →
  (∃ s', exec cb (NewTree max attach) s = OStop Panic s') ↔ Z.odd max = true ∨ max < 4.
Proof. exact @new_guard. Qed.
Print Assumptions C38_capacity.
(** and otherwise it returns a tree *)
Example C38_nonvacuous : ∃ h s, history z_cb fits fits h s ∧
  outcome (exec z_cb (NewTree 7 true) s) = inr (inr Panic) ∧ outcome (exec z_cb (NewTree 2 true) s) = inr (inr Panic) ∧
  ∃ t, outcome (exec z_cb (NewTree 4 true) s) = inl (RTree t).
Proof.
  give (events runA). exists (final runA). split_and!; [apply play_is; by vm_compute|by vm_compute|by vm_compute|eexists; by vm_compute].
Qed.

(** C39, B+Trees: [k0] or the position [i] is patched. *)
Theorem C39_btree_patches :
  ∀ (K V : Type) (cb : callbacks K V) (dom : K → Prop) (domV : V → Prop), wf_cb cb dom domV →
  ∀ h s t m v r s', history cb dom domV h s → contents (after (cb_cmp cb) h) t = Some m → domV v →
  (∀ k0, dom k0 → exec cb (MapCall t (CPatchByKey k0 v)) s = ORet r s' → ∃ m',
     contents (after (cb_cmp cb) (h ++ [Done (MapCall t (CPatchByKey k0 v)) r (made s s')])) t = Some m' ∧
     r = RAns (ROk (existsb (λ p, same (cb_cmp cb) k0 p.1) m)) ∧ length m' = length m ∧
     ∀ (j : nat) k u, m !! j = Some (k, u) → m' !! j = Some (k, if same (cb_cmp cb) k0 k then v else u)) ∧
  (∀ i, exec cb (MapCall t (CPatchByIndex i v)) s = ORet r s' → ∃ m',
     contents (after (cb_cmp cb) (h ++ [Done (MapCall t (CPatchByIndex i v)) r (made s s')])) t = Some m' ∧
     r = RAns (ROk (bool_decide (0 ≤ i < Z.of_nat (length m)))) ∧ length m' = length m ∧
     ∀ (j : nat) k u, m !! j = Some (k, u) → m' !! j = Some (k, if bool_decide (Z.of_nat j = i) then v else u)).
Proof. exact @patches. Qed.
Print Assumptions C39_btree_patches.
Example C39_btree_nonvacuous : ∃ h s m, history z_cb fits fits h s ∧ contents (after z_cmp h) one = Some m ∧ length m = 10%nat ∧
  outcome (exec z_cb (MapCall one (CPatchByKey 8 5)) s) = inl (RAns (ROk true)) ∧
  outcome (exec z_cb (MapCall one (CPatchByIndex 9 5)) s) = inl (RAns (ROk true)).
Proof.
  give (events runA). exists (final runA). eexists. split_and!; [apply play_is; by vm_compute|by vm_compute..].
Qed.

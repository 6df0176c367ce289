(** * Property theorems: trees that are only in memory (C60)

    [NewTree max b], returning [RTree t], is NewBPlusTree; [h2] are the calls
    made since.  [spares t]: the process does not end, the tree is not
    discarded or dropped, and no callback failed in a deletion or Prune of it.
    [unflushed t]: no Flush of the tree.  [unstored c]: [c] is none of Flush,
    Discard, Dump and OldBPlusTree. *)
From Coq Require Import ssreflect.
From stdpp Require Import prelude list gmap.
From Verif Require Import Spec SpecFacts Llrb LlrbSpec BTree Wp Codec Ghost Api Touch Report Open Pres Rep Machine Still World Client Sample Disk Picture Hist Seat History Footprint Runs Mute Mem.
Open Scope Z_scope.

(** ** C60 *)
(** A tree that was never flushed: no call on it makes a storage callback
    ([made s s' = []]), and none fails but Purge(full = true), which refuses
    modified trees.  ([OStop Env]: some count exceeds 2^64.) *)
Theorem C60_no_callbacks :
  ∀ (K V : Type) (cb : callbacks K V) (dom : K → Prop) (domV : V → Prop), wf_cb cb dom domV →
  ∀ h1 h2 s t max b cbs c, let hi := h1 ++ Done (NewTree max b) (RTree t) cbs :: h2 in
  history cb dom domV hi s → Forall (spares t) h2 → Forall (unflushed t) h2 → call_on t c → unstored c → legal dom domV (after (cb_cmp cb) hi) c →
  match exec cb c s with
  | ORet _ s' => made s s' = [] ∧ disk s' = disk s
  | OErr e s' => made s s' = [] ∧ disk s' = disk s ∧ c = Purge t true
  | OStop x _ => x = Env
  end.
Proof. exact @mem_calls. Qed.
Print Assumptions C60_no_callbacks.
(** It owns no block, so nothing of it is lost or left behind on storage when
    the process ends, and the drainer has nothing of it to evict: all of it is
    in memory and modified. *)
Theorem C60_owns_nothing :
  ∀ (K V : Type) (cb : callbacks K V) (dom : K → Prop) (domV : V → Prop), wf_cb cb dom domV →
  ∀ h1 h2 s t max b cbs, let hi := h1 ++ Done (NewTree max b) (RTree t) cbs :: h2 in
  history cb dom domV hi s → Forall (spares t) h2 → Forall (unflushed t) h2 →
  (∃ m, contents (after (cb_cmp cb) hi) t = Some m) ∧ ∃ mn ca h g, pictured cb dom domV s t mn ca [] h g ∧ locs g = [].
Proof. exact @mem_bare. Qed.
Print Assumptions C60_owns_nothing.

(** twelve entries in memory, next to a tree that is stored, purged and read
    again, and an eviction; then a deletion that merges nodes *)
Definition runMem := play [] [] (twelve ++ [Some (NewTree 4 true); on2 (CPut 1 1); Some (Flush two true); on2 (CGetByKey 1); Some (UpdateLimits 0 0); Some DrainSelect; Some (DrainEvict 8%positive)]).
Definition runMem1 := exec z_cb (MapCall one (CDeleteByKey 5)) (final runMem).
Example C60_nonvacuous :
  ∃ h2 s s', let hi := [] ++ Done (NewTree 4 true) (RTree one) [] :: h2 in
    history z_cb fits fits hi s ∧ Forall (spares one) h2 ∧ Forall (unflushed one) h2 ∧
    legal fits fits (after z_cmp hi) (MapCall one (CDeleteByKey 5)) ∧ (5 < size (nodes s))%nat ∧ disk s ≠ ∅ ∧
    exec z_cb (MapCall one (CDeleteByKey 5)) s = ORet (RAns (ROk true)) s'.
Proof.
  exists (tail (events runMem)), (final runMem), (end_st runMem1). cbn zeta.
  assert ([] ++ Done (NewTree 4 true) (RTree one) [] :: tail (events runMem) = events runMem) as -> by by vm_compute.
  split_and!.
  - apply play_is; by vm_compute.
  - vm_compute. repeat (apply Forall_cons_2; [first [exact I|by intros [=]]|]). apply Forall_nil_2.
  - vm_compute. repeat (apply Forall_cons_2; [first [exact I|by intros [=]]|]). apply Forall_nil_2.
  - split; [apply in_use_ok; by vm_compute|]. split; [constructor; [|constructor]; by vm_compute|done].
  - by vm_compute.
  - by vm_compute.
  - unfold runMem1. apply outcome_ret. by vm_compute.
Qed.

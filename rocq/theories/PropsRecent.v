(** * Property theorems: the cache evicts what was not used for the longest time (C59)

    [lists s c d] as in PropsCache.v: the clean and the dirty list of the cache,
    least recently used first.  The drainer takes its victim from the head of the
    clean list, see [C31_select].  [down s n ns] (Recent.v): in state [s], [ns] are
    the nodes on a way from [n] down to a leaf, all of them in memory;
    [leaf s x]: node [x] is a leaf, and in memory.  [looks t cmd a]: [cmd] is
    GetByKey, GetByIndex, BisectLeft, BisectRight or FetchDimensionsReport of the
    tree with handle [t], and if it is GetByIndex it found an item. *)
From Coq Require Import ssreflect.
From stdpp Require Import prelude list gmap.
From Verif Require Import Spec SpecFacts Llrb LlrbSpec BTree Wp Codec Ghost Api Machine World Client Sample Hist History Cache CacheHist Recent Way Runs PropsCache.
Open Scope Z_scope.

(** GetByKey and FetchDimensionsReport of a tree attached to the cache: the nodes
    from the root down to a leaf are moved, or added, to the recent ends of the
    lists; the other nodes stay, in the order they had *)
Theorem C59_path :
  ∀ (K V : Type) (cb : callbacks K V) (dom : K → Prop) (domV : V → Prop), wf_cb cb dom domV →
  ∀ hi s t T c d cmd a s', history cb dom domV hi s → trees s !! t = Some T → t_cache T = true → lists s c d →
  cmd = DimensionsReport t ∨ (∃ k, cmd = MapCall t (CGetByKey k)) → exec cb cmd s = ORet a s' →
  ∃ n ns cs ds, t_root T = Some n ∧ down s' n ns ∧
    lists s' (filter (λ m, m ∉ ns) c ++ cs) (filter (λ m, m ∉ ns) d ++ ds) ∧ (∀ m, m ∈ ns ↔ m ∈ cs ∨ m ∈ ds).
Proof. exact @used_path. Qed.
Print Assumptions C59_path.
(** The same for all the calls that look something up, if they are allowed; and the
    nodes on the way are as many as were counted as hits and misses *)
Theorem C59_looks :
  ∀ (K V : Type) (cb : callbacks K V) (dom : K → Prop) (domV : V → Prop), wf_cb cb dom domV →
  ∀ hi s t m T c d cmd a s', history cb dom domV hi s → contents (after (cb_cmp cb) hi) t = Some m → legal dom domV (after (cb_cmp cb) hi) cmd →
  trees s !! t = Some T → t_cache T = true → lists s c d → looks t cmd a → exec cb cmd s = ORet a s' →
  ∃ n ns cs ds, t_root T = Some n ∧ down s' n ns ∧
    lists s' (filter (λ m, m ∉ ns) c ++ cs) (filter (λ m, m ∉ ns) d ++ ds) ∧ (∀ m, m ∈ ns ↔ m ∈ cs ∨ m ∈ ds) ∧
    c_hits (cache s') + c_misses (cache s') = c_hits (cache s) + c_misses (cache s) + Z.of_nat (length ns).
Proof. exact @used_way. Qed.
Print Assumptions C59_looks.
(** So the victim the drainer chooses next is none of these nodes, as long as there
    is another clean node: it is the one of the others that was used first. *)
Theorem C59_spared :
  ∀ (K V : Type) (cb : callbacks K V) (dom : K → Prop) (domV : V → Prop), wf_cb cb dom domV →
  ∀ hi s t m T c d cmd a s' v s'', history cb dom domV hi s → contents (after (cb_cmp cb) hi) t = Some m → legal dom domV (after (cb_cmp cb) hi) cmd →
  trees s !! t = Some T → t_cache T = true → lists s c d → looks t cmd a → exec cb cmd s = ORet a s' →
  exec cb DrainSelect s' = ORet (RVictim (Some v)) s'' →
  ∃ n ns, t_root T = Some n ∧ down s' n ns ∧
    c_hits (cache s') + c_misses (cache s') = c_hits (cache s) + c_misses (cache s) + Z.of_nat (length ns) ∧
    ((∃ m, m ∈ c ∧ m ∉ ns) → v ∈ c ∧ v ∉ ns ∧ head (filter (λ m, m ∉ ns) c) = Some v).
Proof. exact @way_spared. Qed.
Print Assumptions C59_spared.

(** the clean list is 2, 5, 6, 4, 3 and the drainer would take 2; GetByIndex(0) goes
    from the root, 4, to the leaf 2, and then the drainer takes 5 *)
Example C59_nonvacuous :
  ∃ h s s' T m, history z_cb fits fits h s ∧ lists s [2;5;6;4;3]%positive [8]%positive ∧ trees s !! one = Some T ∧ t_cache T = true ∧ t_root T = Some 4%positive ∧
    contents (after z_cmp h) one = Some m ∧ length m = 12%nat ∧ legal fits fits (after z_cmp h) (MapCall one (CGetByIndex 0)) ∧
    exec z_cb DrainSelect s = ORet (RVictim (Some 2%positive)) s ∧
    exec z_cb (MapCall one (CGetByIndex 0)) s = ORet (RAns (RItem (Some (1, 10)))) s' ∧ down s' 4%positive [4;2]%positive ∧
    exec z_cb DrainSelect s' = ORet (RVictim (Some 5%positive)) s'.
Proof.
  exists (events runDrain), (final runDrain), (end_st (exec z_cb (MapCall one (CGetByIndex 0)) (final runDrain))). do 2 eexists.
  split_and!; [apply drain_hist|apply drain_lists|by vm_compute|done|done|by vm_compute|by vm_compute| |by vm_compute|by vm_compute| |by vm_compute].
  { split; [apply in_use_ok; by vm_compute|]. split; [constructor|done]. }
  eapply down_step; [|apply down_leaf].
  - eexists. split; [by vm_compute|]. split_and!; [done|done|]. by left.
  - eexists. split; [by vm_compute|]. by split.
Qed.

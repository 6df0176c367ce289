(** * Property theorem: the limits of the node cache are those last given (C66) *)
From Coq Require Import ssreflect.
From stdpp Require Import prelude list gmap.
From Verif Require Import Spec BTree Machine Client Cache Sample Limits.
Open Scope Z_scope.

(** A process starts with a new cache of limits [lo] and [hi], on an empty storage or on one left by an earlier
    process.  Whatever it then calls, successfully or not, and whatever the drainer does, Stats reports the
    limits of the last UpdateLimits, or [lo] and [hi] if there was none ([limit_step]).  No rules are assumed of the calls. *)
Theorem C66_limits_last_given :
  ∀ (K V : Type) (cb : callbacks K V) lo hi s0 h s, (∃ o, s0 = boot lo hi o) ∨ (∃ s', s0 = reboot lo hi s') →
  steps cb s0 h s → Forall same_process h →
  ∃ x, cache_Stats s = ORet x s ∧ (st_low x, st_high x) = foldl limit_step (lo, hi) h.
Proof. exact @limits_given. Qed.
Print Assumptions C66_limits_last_given.

(** a run with nodes in the cache, two changes of limits, a failed Flush and a round of the drainer *)
Definition runM := play [0%nat] [] (Some (NewTree 4 true) :: puts [1; 2; 3; 4; 5; 6] ++
  [Some (UpdateLimits 7 9); Some (Flush 1%positive false); Some (Flush 1%positive false); Some (UpdateLimits 1 2); Some DrainSelect; on1 (CGetByKey 3)]).
Example C66_nonvacuous : ∃ h s x, steps z_cb (boot 3 8 (storage [0%nat] [])) h s ∧ Forall same_process h ∧ length h = 13%nat ∧
  (∃ c e l, Failed c e l ∈ h) ∧ cache_Stats s = ORet x s ∧ (st_low x, st_high x, st_clean x) = (1, 2, 3) ∧ foldl limit_step (3, 8) h = (1, 2).
Proof.
  exists (events runM), (final runM). eexists. split_and!.
  - unfold runM. set cs := (_ :: _ ++ _). assert (plays (play [0%nat] [] cs) = true) as H by by vm_compute.
    unfold plays, events, final in *. destruct (play _ _ cs) as [[h s]|] eqn:E; [|done]. by eapply run_ok.
  - by vm_compute; repeat constructor.
  - by vm_compute.
  - exists (Flush 1%positive false), EIO, [true]. apply elem_of_list_In. vm_compute. tauto.
  - reflexivity.
  - by vm_compute.
  - by vm_compute.
Qed.

(** A new cache is empty and has counted nothing. *)
Theorem C66_new_cache :
  ∀ (K V : Type) lo hi (s : st K V), (∃ o, s = boot lo hi o) ∨ (∃ s', s = reboot lo hi s') →
  lists s [] [] ∧ cache_Stats s = ORet (Stats lo hi 0 0 0 0) s.
Proof. exact @new_cache. Qed.
Print Assumptions C66_new_cache.

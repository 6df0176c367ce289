(** * Property theorems: Compare fails during a lookup in a B+Tree (C65) *)
From Coq Require Import ssreflect.
From stdpp Require Import prelude list gmap.
From Verif Require Import Spec BTree Wp Codec Machine Client Sample Runs Foreign Strangers Gentle PropsForeign PropsHalf.
Open Scope Z_scope.

(** What holds.  After any history, let GetByKey, GetByIndex, BisectLeft, BisectRight or Len
    ([looks]) answer [r] without calling the storage ([made] lists the storage callbacks of a call).  With
    callbacks whose Compare fails for some pairs of keys and otherwise agrees, the same call has the same result
    and the same effect, or returns Compare's error; then no node, no tree and nothing in storage has
    changed ([kept]), and all that is called afterwards is answered as if the failed call had not been made
    ([carries_on]).  Missing from the full statement: calls that read from storage, for which it is false (below). *)
Theorem C65_no_reads_partial :
  ∀ (K V : Type) (cb cb' : callbacks K V) (dom : K → Prop) (domV : V → Prop), wf_cb cb dom domV →
  (∀ x y, cb_cmp cb' x y = None ∨ cb_cmp cb' x y = cb_cmp cb x y) →
  ∀ hi s t (c : call K V) r s1, history cb dom domV hi s → looks c = true → exec cb (MapCall t c) s = ORet r s1 → made s s1 = [] →
  exec cb' (MapCall t c) s = ORet r s1 ∨
  ∃ s2, exec cb' (MapCall t c) s = OErr ECmp s2 ∧ kept s s2 ∧ carries_on cb dom domV (after (cb_cmp cb) hi) s2.
Proof. exact @lookup_failing. Qed.
Print Assumptions C65_no_reads_partial.

(** a tree of eleven entries in memory: a lookup of 12 asks Compare for 12 and 14, a lookup of 4 does not *)
Definition runL := pplay [] (cmds (Some (NewTree 4 true) :: puts [2; 4; 6; 8; 10; 12; 14; 16; 18; 20; 22])).
Definition runL1 := exec p_cb (MapCall one (CGetByKey 12)) (final runL).
Definition runL2 := exec (failing_on 12 14 p_cb) (MapCall one (CGetByKey 12)) (final runL).
Definition runL3 := exec (failing_on 12 14 p_cb) (MapCall one (CGetByKey 4)) (final runL).
Example C65_nonvacuous : ∃ h s s1 s2 s3, wf_cb p_cb fits fits ∧ history p_cb fits fits h s ∧
  exec p_cb (MapCall one (CGetByKey 12)) s = ORet (RAns (RValue (Some 120))) s1 ∧ made s s1 = [] ∧
  exec (failing_on 12 14 p_cb) (MapCall one (CGetByKey 12)) s = OErr ECmp s2 ∧
  exec (failing_on 12 14 p_cb) (MapCall one (CGetByKey 4)) s = ORet (RAns (RValue (Some 40))) s3.
Proof.
  eexists. exists (final runL), (end_st runL1), (end_st runL2), (end_st runL3). split_and!.
  - exact p_wf.
  - apply pplay_is; [by vm_compute|reflexivity].
  - unfold runL1. apply outcome_ret. by vm_compute.
  - by vm_compute.
  - unfold runL2. apply outcome_err. by vm_compute.
  - unfold runL3. apply outcome_ret. by vm_compute.
Qed.

(** The error of the Put that enters a child into a node being read from storage is dropped too
    (btree.go:2854).  A tree is flushed and purged; then 12 is looked up, and Compare fails
    for the keys 10 and 6.  GetByKey returns "not there" and no error.  Nothing fails afterwards: 12
    is still not found; 2 is overwritten and the tree flushed and opened anew: 10 and 12 are gone from it too. *)
Definition runK := pplay [] (cmds (Some (NewTree 4 true) :: puts [2; 4; 6; 8; 10; 12; 14; 16; 18; 20; 22] ++ [Some (Flush one true)])).
Definition runK1 := exec (failing_on 10 6 p_cb) (MapCall one (CGetByKey 12)) (final runK).
Definition runK2 := exec p_cb (MapCall one (CGetByKey 12)) (end_st runK1).
Definition runK3 := exec p_cb (MapCall one (CPatchByKey 2 21)) (end_st runK2).
Definition runK4 := exec p_cb (Flush one true) (end_st runK3).
Definition runK5 := exec p_cb (OldTree (11, 0, 178) true) (end_st runK4).
Definition runK6 := exec p_cb (MapCall 13%positive (CGetByKey 2)) (end_st runK5).
Definition runK7 := exec p_cb (MapCall 13%positive (CGetByKey 10)) (end_st runK6).
Definition runK8 := exec p_cb (MapCall 13%positive (CGetByKey 12)) (end_st runK7).
Theorem C65_failed_lookup_refuted : ∃ h s s1 s2 s3 s4 l s5 t s6 s7 s8,
  history p_cb fits fits h s ∧ (∃ d, contents (after p_cmp h) one = Some d ∧ (10, 100) ∈ d ∧ (12, 120) ∈ d) ∧
  (∀ a b, cb_cmp (failing_on 10 6 p_cb) a b = None ∨ cb_cmp (failing_on 10 6 p_cb) a b = cb_cmp p_cb a b) ∧
  exec (failing_on 10 6 p_cb) (MapCall one (CGetByKey 12)) s = ORet (RAns (RValue None)) s1 ∧
  exec p_cb (MapCall one (CGetByKey 12)) s1 = ORet (RAns (RValue None)) s2 ∧
  exec p_cb (MapCall one (CPatchByKey 2 21)) s2 = ORet (RAns (ROk true)) s3 ∧
  exec p_cb (Flush one true) s3 = ORet (RLoc l) s4 ∧
  exec p_cb (OldTree l true) s4 = ORet (RTree t) s5 ∧
  exec p_cb (MapCall t (CGetByKey 2)) s5 = ORet (RAns (RValue (Some 21))) s6 ∧
  exec p_cb (MapCall t (CGetByKey 10)) s6 = ORet (RAns (RValue None)) s7 ∧
  exec p_cb (MapCall t (CGetByKey 12)) s7 = ORet (RAns (RValue None)) s8.
Proof.
  eexists. exists (final runK), (end_st runK1), (end_st runK2), (end_st runK3), (end_st runK4), (11, 0, 178), (end_st runK5), 13%positive, (end_st runK6), (end_st runK7), (end_st runK8). split_and!.
  - apply pplay_is; [by vm_compute|reflexivity].
  - exists [(2, 20); (4, 40); (6, 60); (8, 80); (10, 100); (12, 120); (14, 140); (16, 160); (18, 180); (20, 200); (22, 220)].
    split; [by vm_compute|]. split; apply elem_of_list_In; cbn; tauto.
  - intros a b. cbn. destruct (_ && _); auto.
  - unfold runK1. apply outcome_ret. by vm_compute.
  - unfold runK2. apply outcome_ret. by vm_compute.
  - unfold runK3. apply outcome_ret. by vm_compute.
  - unfold runK4. apply outcome_ret. by vm_compute.
  - unfold runK5. apply outcome_ret. by vm_compute.
  - unfold runK6. apply outcome_ret. by vm_compute.
  - unfold runK7. apply outcome_ret. by vm_compute.
  - unfold runK8. apply outcome_ret. by vm_compute.
Qed.
Print Assumptions C65_failed_lookup_refuted.

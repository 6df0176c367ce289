(** * Property theorem: Compare fails once, during a delete from a B+Tree (C64) *)
From Coq Require Import ssreflect.
From stdpp Require Import prelude list gmap.
From Verif Require Import Spec BTree Wp Codec Machine Client Sample Runs Foreign Strangers PropsForeign.
Open Scope Z_scope.

(** [cb] with a Compare that fails for the pair [(x, y)] *)
Definition failing_on (x y : Z) (cb : callbacks Z Z) : callbacks Z Z :=
  Callbacks (λ a b, if (a =? x) && (b =? y) then None else cb_cmp cb a b) (cb_packK cb) (cb_unpackK cb) (cb_packV cb) (cb_unpackV cb).

(** A tree of four entries; while 9 is deleted, Compare fails for the keys 9 and 5.  The call
    returns Compare's error.  Nothing fails afterwards: the key 12 is still found, 5 is deleted, and 12
    is gone. *)
Definition runH := pplay [] (cmds [Some (NewTree 4 true); on1 (CPut 5 50); on1 (CPut 9 90); on1 (CPut 12 120); on1 (CPut 1 10)]).
Definition runH1 := exec (failing_on 9 5 p_cb) (MapCall one (CDeleteByKey 9)) (final runH).
Definition runH2 := exec p_cb (MapCall one (CGetByKey 12)) (end_st runH1).
Definition runH3 := exec p_cb (MapCall one (CDeleteByKey 5)) (end_st runH2).
Definition runH4 := exec p_cb (MapCall one (CGetByKey 12)) (end_st runH3).
Definition runH5 := exec p_cb (MapCall one CLen) (end_st runH3).
Definition runH6 := exec p_cb (Validate one) (end_st runH3).
Theorem C64_failed_compare_refuted : ∃ h s s1 s2 s3 s4 s5 s6,
  history p_cb fits fits h s ∧ contents (after p_cmp h) one = Some [(1, 10); (5, 50); (9, 90); (12, 120)] ∧
  (∀ a b, cb_cmp (failing_on 9 5 p_cb) a b = None ∨ cb_cmp (failing_on 9 5 p_cb) a b = cb_cmp p_cb a b) ∧
  exec (failing_on 9 5 p_cb) (MapCall one (CDeleteByKey 9)) s = OErr ECmp s1 ∧
  exec p_cb (MapCall one (CGetByKey 12)) s1 = ORet (RAns (RValue (Some 120))) s2 ∧
  exec p_cb (MapCall one (CDeleteByKey 5)) s2 = ORet (RAns (ROk true)) s3 ∧
  exec p_cb (MapCall one (CGetByKey 12)) s3 = ORet (RAns (RValue None)) s4 ∧
  exec p_cb (MapCall one CLen) s3 = ORet (RAns (RLen 2)) s5 ∧
  exec p_cb (Validate one) s3 = ORet (RValid true) s6.
Proof.
  eexists. exists (final runH), (end_st runH1), (end_st runH2), (end_st runH3), (end_st runH4), (end_st runH5), (end_st runH6). split_and!.
  - apply pplay_is; [by vm_compute|reflexivity].
  - by vm_compute.
  - intros a b. cbn. destruct (_ && _); auto.
  - unfold runH1. apply outcome_err. by vm_compute.
  - unfold runH2. apply outcome_ret. by vm_compute.
  - unfold runH3. apply outcome_ret. by vm_compute.
  - unfold runH4. apply outcome_ret. by vm_compute.
  - unfold runH5. apply outcome_ret. by vm_compute.
  - unfold runH6. apply outcome_ret. by vm_compute.
Qed.
Print Assumptions C64_failed_compare_refuted.

(** A Put that has to split the only node of a tree; Compare fails for the keys 3 and 4 while entries
    are moved.  The call returns Compare's error, and two entries are gone at once. *)
Definition runI := pplay [] (cmds (Some (NewTree 4 true) :: puts [1; 2; 3; 4])).
Definition runI1 := exec (failing_on 3 4 p_cb) (MapCall one (CPut 5 50)) (final runI).
Definition runI2 := exec p_cb (MapCall one (CGetByKey 3)) (end_st runI1).
Definition runI3 := exec p_cb (MapCall one (CGetByKey 4)) (end_st runI2).
Theorem C64_failed_put_refuted : ∃ h s s1 s2 s3,
  history p_cb fits fits h s ∧ contents (after p_cmp h) one = Some [(1, 10); (2, 20); (3, 30); (4, 40)] ∧
  (∀ a b, cb_cmp (failing_on 3 4 p_cb) a b = None ∨ cb_cmp (failing_on 3 4 p_cb) a b = cb_cmp p_cb a b) ∧
  exec (failing_on 3 4 p_cb) (MapCall one (CPut 5 50)) s = OErr ECmp s1 ∧
  exec p_cb (MapCall one (CGetByKey 3)) s1 = ORet (RAns (RValue None)) s2 ∧
  exec p_cb (MapCall one (CGetByKey 4)) s2 = ORet (RAns (RValue None)) s3.
Proof.
  eexists. exists (final runI), (end_st runI1), (end_st runI2), (end_st runI3). split_and!.
  - apply pplay_is; [by vm_compute|reflexivity].
  - by vm_compute.
  - intros a b. cbn. destruct (_ && _); auto.
  - unfold runI1. apply outcome_err. by vm_compute.
  - unfold runI2. apply outcome_ret. by vm_compute.
  - unfold runI3. apply outcome_ret. by vm_compute.
Qed.
Print Assumptions C64_failed_put_refuted.

(** The error of the Put that inserts a new child into its parent is dropped (btree.go:1151).  Compare fails for the keys 5 and 3
    while 7 is put into a tree of two levels: the call returns ok and no error, and 7 is not there, nor are 5
    and 6, which were.  Validate finds nothing wrong. *)
Definition runJ := pplay [] (cmds (Some (NewTree 4 true) :: puts [1; 2; 3; 4; 5; 6])).
Definition runJ1 := exec (failing_on 5 3 p_cb) (MapCall one (CPut 7 70)) (final runJ).
Definition runJ2 := exec p_cb (MapCall one (CGetByKey 5)) (end_st runJ1).
Definition runJ3 := exec p_cb (MapCall one (CGetByKey 6)) (end_st runJ2).
Definition runJ4 := exec p_cb (MapCall one (CGetByKey 7)) (end_st runJ3).
Definition runJ5 := exec p_cb (MapCall one CLen) (end_st runJ1).
Definition runJ6 := exec p_cb (Validate one) (end_st runJ1).
Theorem C64_silent_put_refuted : ∃ h s s1 s2 s3 s4 s5 s6,
  history p_cb fits fits h s ∧ contents (after p_cmp h) one = Some [(1, 10); (2, 20); (3, 30); (4, 40); (5, 50); (6, 60)] ∧
  (∀ a b, cb_cmp (failing_on 5 3 p_cb) a b = None ∨ cb_cmp (failing_on 5 3 p_cb) a b = cb_cmp p_cb a b) ∧
  exec (failing_on 5 3 p_cb) (MapCall one (CPut 7 70)) s = ORet (RAns (ROk true)) s1 ∧
  exec p_cb (MapCall one (CGetByKey 5)) s1 = ORet (RAns (RValue None)) s2 ∧
  exec p_cb (MapCall one (CGetByKey 6)) s2 = ORet (RAns (RValue None)) s3 ∧
  exec p_cb (MapCall one (CGetByKey 7)) s3 = ORet (RAns (RValue None)) s4 ∧
  exec p_cb (MapCall one CLen) s1 = ORet (RAns (RLen 4)) s5 ∧ exec p_cb (Validate one) s1 = ORet (RValid true) s6.
Proof.
  eexists. exists (final runJ), (end_st runJ1), (end_st runJ2), (end_st runJ3), (end_st runJ4), (end_st runJ5), (end_st runJ6). split_and!.
  - apply pplay_is; [by vm_compute|reflexivity].
  - by vm_compute.
  - intros a b. cbn. destruct (_ && _); auto.
  - unfold runJ1. apply outcome_ret. by vm_compute.
  - unfold runJ2. apply outcome_ret. by vm_compute.
  - unfold runJ3. apply outcome_ret. by vm_compute.
  - unfold runJ4. apply outcome_ret. by vm_compute.
  - unfold runJ5. apply outcome_ret. by vm_compute.
  - unfold runJ6. apply outcome_ret. by vm_compute.
Qed.
Print Assumptions C64_silent_put_refuted.

(** * Property theorems: Compare fails during a call on an LLRB map (C63) *)
From Coq Require Import Sorted.
From stdpp Require Import prelude list.
From Verif Require Import Spec SpecFacts Llrb LlrbSpec LlrbProof LlrbDelete LlrbApi LlrbProps LlrbFailed Compare CompareProof PropsLlrb.
Open Scope Z_scope.

(** [cmp] is the map's order.  During one call, Compare fails for some pairs of keys: it is
    [cmp'].  Either the call returns an error, all entries are in place, in the same
    order, and every key is found with the value it had; or the call does and
    returns exactly what it would have otherwise (in particular it does not panic, C04). *)
Theorem C63_no_entry_lost :
  ∀ (K V : Type) (cmp : K → K → option Z) (dom : K → Prop), total_order cmp dom →
  ∀ t : tree K V, llrb_reachable cmp dom t → ∀ o : llrb_op K V, Forall dom (op_keys o) →
  ∀ cmp', (∀ x y, cmp' x y = None ∨ cmp' x y = cmp x y) →
  (∃ t' ok, llrb_step cmp' t o = LRet (t', RErr ok) ∧
     elements t' = elements t ∧ ∀ k, dom k → GetByKey cmp t' k = GetByKey cmp t k) ∨
  llrb_step cmp' t o = llrb_step cmp t o.
Proof. exact @llrb_failing_compare. Qed.
Print Assumptions C63_no_entry_lost.

(** Every comparator, every tree: a call that returns an error leaves all entries in place,
    in the same order. *)
Theorem C63_entries_kept :
  ∀ (K V : Type) (cmp : K → K → option Z) (t : tree K V) (o : llrb_op K V) t' ok,
  llrb_step cmp t o = LRet (t', RErr ok) → elements t' = elements t.
Proof. exact @failed_kept. Qed.
Print Assumptions C63_entries_kept.

(** A delete that fails after it has restructured the tree: the entries are still there,
    the length is wrong (C08). *)
Definition fails_on (x y : Z) (a b : key) : option Z :=
  match a, b with
  | KInt a', KInt b' => if (a' =? x) && (b' =? y) then None else CompareInt a b
  | _, _ => CompareInt a b
  end.
Example C63_nonvacuous : ∃ t t' : tree key Z, llrb_reachable CompareInt small_int t ∧
  (∀ a b, fails_on 9 5 a b = None ∨ fails_on 9 5 a b = CompareInt a b) ∧
  elements t = [(KInt 1, 10); (KInt 5, 50); (KInt 9, 90); (KInt 12, 120)] ∧
  llrb_step (fails_on 9 5) t (LCall (CDeleteByKey (KInt 9))) = LRet (t', RErr true) ∧
  t' ≠ t ∧ Len t' = 3 ∧ elements t' = elements t.
Proof.
  eexists _, _. split.
  { exists [LCall (CPut (KInt 5) 50); LCall (CPut (KInt 9) 90); LCall (CPut (KInt 12) 120); LCall (CPut (KInt 1) 10)].
    eexists. split; [|reflexivity]. repeat constructor; eexists; (split; [reflexivity|lia]). }
  split; [intros a b; unfold fails_on; repeat case_match; auto|].
  split; [vm_compute; reflexivity|]. split; [vm_compute; reflexivity|]. split; [done|]. by split.
Qed.
(** A Put whose second pass meets a comparison that fails: the same as without it. *)
Example C63_put_nonvacuous : ∃ t t' : tree key Z, llrb_reachable CompareInt small_int t ∧
  (∀ a b, fails_on 7 7 a b = None ∨ fails_on 7 7 a b = CompareInt a b) ∧
  fails_on 7 7 (KInt 7) (KInt 7) = None ∧ Len t = 3 ∧
  llrb_step (fails_on 7 7) t (LCall (CPut (KInt 7) 70)) = LRet (t', ROk true) ∧ Len t' = 4 ∧ validate t' = true.
Proof.
  eexists _, _. split.
  { exists [LCall (CPut (KInt 5) 50); LCall (CPut (KInt 9) 90); LCall (CPut (KInt 12) 120)].
    eexists. split; [|reflexivity]. repeat constructor; eexists; (split; [reflexivity|lia]). }
  split; [intros a b; unfold fails_on; repeat case_match; auto|].
  split; [done|]. split; [done|]. split; [vm_compute; reflexivity|]. by split.
Qed.

(** C08 is false in a worse way than by wrong lengths: after a delete that failed, a later
    delete of another key, with a Compare that no longer fails, returns ok and no
    error and takes a third entry with it. *)
Theorem C08_later_loss_refuted :
  ∃ t t1 t2 : tree key Z, llrb_reachable CompareInt small_int t ∧
    (∀ a b, fails_on 9 5 a b = None ∨ fails_on 9 5 a b = CompareInt a b) ∧
    DeleteByKey (fails_on 9 5) t (KInt 9) = LRet (t1, RErr true) ∧
    GetByKey CompareInt t1 (KInt 12) = RValue (Some 120) ∧
    DeleteByKey CompareInt t1 (KInt 5) = LRet (t2, ROk true) ∧
    GetByKey CompareInt t2 (KInt 12) = RValue None.
Proof.
  exists (T BLACK (T BLACK (T RED E (KInt 1) 10 E 1) (KInt 5) 50 E 2) (KInt 9) 90 (T BLACK E (KInt 12) 120 E 1) 4),
    (T BLACK (T BLACK E (KInt 1) 10 E 1) (KInt 5) 50 (T BLACK E (KInt 9) 90 (T RED E (KInt 12) 120 E 1) 1) 3),
    (T BLACK (T RED E (KInt 1) 10 E 1) (KInt 9) 90 E 2).
  split.
  { exists [LCall (CPut (KInt 5) 50); LCall (CPut (KInt 9) 90); LCall (CPut (KInt 12) 120); LCall (CPut (KInt 1) 10)].
    eexists. split; [|reflexivity]. repeat constructor; eexists; (split; [reflexivity|lia]). }
  split; [intros a b; unfold fails_on; repeat case_match; auto|].
  split_and!; reflexivity.
Qed.
Print Assumptions C08_later_loss_refuted.

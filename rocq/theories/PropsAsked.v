(** * Property theorem: comparisons made by LLRB calls (C62) *)
From Coq Require Import Sorted.
From stdpp Require Import prelude list.
From Verif Require Import Spec SpecFacts Llrb LlrbSpec LlrbProof LlrbDelete LlrbApi LlrbProps LlrbAsked Compare CompareProof PropsLlrb.
Open Scope Z_scope.

(** Every call on a map of n entries, updates included, makes at most
    8 log2 (n + 2) calls of Compare, the ones listed by [asked]; and what the call
    does and returns depends on no other comparison. *)
Theorem C62_comparisons :
  ∀ (K V : Type) (cmp : K → K → option Z) (dom : K → Prop), total_order cmp dom →
  ∀ t : tree K V, llrb_reachable cmp dom t → ∀ o : llrb_op K V, Forall dom (op_keys o) →
  (length (asked cmp t o) ≤ 8 * Nat.log2 (Z.to_nat (Len t) + 2))%nat ∧
  ∀ cmp', (∀ x y, (x, y) ∈ asked cmp t o → cmp' x y = cmp x y) →
    llrb_step cmp' t o = llrb_step cmp t o.
Proof.
  exact (λ K V cmp dom ORD t Hr o Ho,
    conj (asked_few cmp dom ORD t o Hr Ho) (λ cmp', asked_enough cmp cmp' t o)).
Qed.
Print Assumptions C62_comparisons.
Example C62_nonvacuous : ∃ t : tree key Z, llrb_reachable CompareInt small_int t ∧ Len t = 3 ∧
  Forall small_int (op_keys (V:=Z) (LCall (CDeleteByKey (KInt 9)))) ∧
  asked CompareInt t (LCall (CDeleteByKey (KInt 9))) =
    [(KInt 9, KInt 7); (KInt 9, KInt 9); (KInt 9, KInt 7); (KInt 9, KInt 7); (KInt 9, KInt 9)] ∧
  asked CompareInt t (LCall (CPut (KInt 4) 40)) =
    [(KInt 4, KInt 7); (KInt 4, KInt 1); (KInt 4, KInt 7); (KInt 4, KInt 4)].
Proof.
  eexists. split; [exists ex_ops; eexists; split; [apply C01_nonvacuous|reflexivity]|].
  split; [done|]. split; [repeat constructor; eexists; (split; [reflexivity|lia])|].
  split; vm_compute; reflexivity.
Qed.

(** * Property theorems: LLRB map (C01-C08, C39) *)
From Coq Require Import Sorted.
From stdpp Require Import prelude list.
From Verif Require Import Spec SpecFacts Llrb LlrbSpec LlrbProof LlrbDelete LlrbApi LlrbProps
  Compare CompareProof.
Open Scope Z_scope.

(** ** A concrete history used to show that the hypotheses are satisfiable *)
Definition ex_ops : list (llrb_op key Z) :=
  [LCall (CPut (KInt 5) 50); LCall (CPut (KInt 1) 10); LCall (CPut (KInt 3) 30);
   LCall (CPut (KInt 9) 90); LCall (CPut (KInt 7) 70); LCall (CPut (KInt 3) 31);
   LCall (CDeleteByKey (KInt 5)); LCall (CBisectLeft (KInt 4)); LCall (CBisectRight (KInt 4));
   LCall (CGetByIndex 2); LCall (CPatchByIndex 0 11); LCall (CDeleteByIndex 1);
   LCall (CGetByKey (KInt 1)); LCall CLen; LValidate].

(** C01 *)
Theorem C01_llrb_is_a_sorted_map :
  ∀ (K V : Type) (cmp : K → K → option Z) (dom : K → Prop), total_order cmp dom →
  ∀ os : list (llrb_op K V), keys_in dom os →
  ∃ t, llrb_run cmp NewLLRBTree os = LRet (t, (spec_llrb_run cmp [] os).2).
Proof. exact llrb_refines. Qed.
Print Assumptions C01_llrb_is_a_sorted_map.

Example C01_nonvacuous :
  total_order CompareInt small_int ∧ keys_in small_int ex_ops ∧
  (spec_llrb_run CompareInt [] ex_ops).2 =
    [ROk true; ROk true; ROk true; ROk true; ROk true; ROk false; ROk true;
     RIndex 1 false; RIndex 2 false; RItem (Some (KInt 7, 70)); ROk true; ROk true;
     RValue (Some 11); RLen 3; ROk true].
Proof.
  split; [exact int_order|]. split.
  - unfold keys_in. simpl. repeat constructor; eexists; (split; [reflexivity|lia]).
  - reflexivity.
Qed.
Example ex_reachable : ∃ t, llrb_reachable CompareInt small_int t ∧ Len t = 3 ∧
  elements t = [(KInt 1, 11); (KInt 7, 70); (KInt 9, 90)].
Proof.
  eexists. split; [exists ex_ops; eexists; split; [apply C01_nonvacuous|reflexivity]|].
  done.
Qed.

(** C02 *)
Theorem C02_index_order :
  ∀ (K V : Type) (cmp : K → K → option Z) (dom : K → Prop), total_order cmp dom →
  ∀ t : tree K V, llrb_reachable cmp dom t →
  (∀ i, if bool_decide (0 ≤ i < Len t)
        then ∃ k v, GetByIndex t i = LRet (RItem (Some (k, v))) ∧
                    GetByKey cmp t k = RValue (Some v)
        else GetByIndex t i = LRet (RItem None)) ∧
  (∀ i j ki vi kj vj, i < j →
     GetByIndex t i = LRet (RItem (Some (ki, vi))) →
     GetByIndex t j = LRet (RItem (Some (kj, vj))) → below cmp ki kj = true).
Proof. exact llrb_index_order. Qed.
Print Assumptions C02_index_order.
Example C02_nonvacuous : ∃ t : tree key Z, llrb_reachable CompareInt small_int t ∧
  GetByIndex t 0 = LRet (RItem (Some (KInt 1, 11))) ∧
  GetByIndex t 2 = LRet (RItem (Some (KInt 9, 90))) ∧ GetByIndex t 3 = LRet (RItem None).
Proof.
  eexists. split; [exists ex_ops; eexists; split; [apply C01_nonvacuous|reflexivity]|].
  done.
Qed.

(** C03: [m] is the sorted list the history builds; [r] counts its keys below [k]. *)
Theorem C03_bisect :
  ∀ (K V : Type) (cmp : K → K → option Z) (dom : K → Prop), total_order cmp dom →
  ∀ (os : list (llrb_op K V)) t as_, keys_in dom os →
  llrb_run cmp NewLLRBTree os = LRet (t, as_) →
  let m := (spec_llrb_run cmp [] os).1 in
  ∀ k, dom k →
  let r := Z.of_nat (length (filter (λ p, below cmp p.1 k = true) m)) in
  ((∃ p, p ∈ m ∧ same cmp k p.1 = true) →
     BisectLeft cmp t k = LRet (RIndex r true) ∧ BisectRight cmp t k = LRet (RIndex r true) ∧
     ∃ k' v, GetByIndex t r = LRet (RItem (Some (k', v))) ∧ same cmp k k' = true) ∧
  ((¬ ∃ p, p ∈ m ∧ same cmp k p.1 = true) →
     BisectLeft cmp t k = LRet (RIndex (r - 1) false) ∧
     BisectRight cmp t k = LRet (RIndex r false)).
Proof. exact llrb_bisect. Qed.
Print Assumptions C03_bisect.
Example C03_nonvacuous : ∃ t : tree key Z, llrb_reachable CompareInt small_int t ∧
  BisectLeft CompareInt t (KInt 8) = LRet (RIndex 1 false) ∧
  BisectRight CompareInt t (KInt 8) = LRet (RIndex 2 false) ∧
  BisectLeft CompareInt t (KInt 0) = LRet (RIndex (-1) false) ∧
  BisectRight CompareInt t (KInt 7) = LRet (RIndex 1 true).
Proof.
  eexists. split; [exists ex_ops; eexists; split; [apply C01_nonvacuous|reflexivity]|].
  done.
Qed.

(** C04: from every reachable tree every method call returns (it neither
    panics nor runs out of the recursion budget), with no error. *)
Theorem C04_llrb_no_panic :
  ∀ (K V : Type) (cmp : K → K → option Z) (dom : K → Prop), total_order cmp dom →
  ∀ t : tree K V, llrb_reachable cmp dom t →
  ∀ o, Forall dom (op_keys o) →
  ∃ t' a, llrb_step cmp t o = LRet (t', a) ∧ ∀ ok, a ≠ RErr ok.
Proof. exact llrb_no_panic. Qed.
Print Assumptions C04_llrb_no_panic.
Example C04_nonvacuous : ∃ t : tree key Z, llrb_reachable CompareInt small_int t ∧
  Forall small_int (op_keys (LCall (CDeleteByKey (V:=Z) (KInt 7)))) ∧
  match llrb_step CompareInt t (LCall (CDeleteByKey (KInt 7))) with
  | LRet (t', ROk true) => Len t' = 2 | _ => False end.
Proof.
  eexists. split; [exists ex_ops; eexists; split; [apply C01_nonvacuous|reflexivity]|].
  split; [|done]. repeat constructor; eexists; (split; [reflexivity|lia]).
Qed.

(** C05 *)
Theorem C05_logarithmic :
  ∀ (K V : Type) (cmp : K → K → option Z) (dom : K → Prop), total_order cmp dom →
  ∀ t : tree K V, llrb_reachable cmp dom t → ∀ k,
  let n := Z.to_nat (Len t) in
  (GetByKey_compares cmp t k ≤ 2 * Nat.log2 (n + 1))%nat ∧
  (Bisect_compares cmp t k ≤ 2 * Nat.log2 (n + 1))%nat.
Proof. exact llrb_logarithmic. Qed.
Print Assumptions C05_logarithmic.
Example C05_nonvacuous : ∃ t : tree key Z, llrb_reachable CompareInt small_int t ∧
  Len t = 3 ∧ GetByKey_compares CompareInt t (KInt 9) = 2%nat.
Proof.
  eexists. split; [exists ex_ops; eexists; split; [apply C01_nonvacuous|reflexivity]|].
  done.
Qed.

(** C06 *)
Theorem C06_validate :
  (∀ (K V : Type) (cmp : K → K → option Z) (dom : K → Prop), total_order cmp dom →
   ∀ t : tree K V, llrb_reachable cmp dom t → validate t = true) ∧
  (∀ (K V : Type) (t : tree K V),
     validate t = true ↔ ∀ s, is_node_of s t → tlen s = count s).
Proof. exact llrb_validate. Qed.
Print Assumptions C06_validate.
Example C06_nonvacuous : validate (V:=Z) (T BLACK E (KInt 1) 1 E 2) = false.
Proof. done. Qed.

(** C07: holds for every comparator and every tree, reachable or not. *)
Theorem C07_failed_put :
  ∀ (K V : Type) (cmp : K → K → option Z) (t : tree K V) k v t' ok,
  Put cmp t k v = LRet (t', RErr ok) → t' = t ∧ ok = false.
Proof. exact llrb_failed_put. Qed.
Print Assumptions C07_failed_put.
Example C07_nonvacuous : ∃ t : tree key Z, llrb_reachable CompareInt small_int t ∧ Len t = 3 ∧
  Put CompareInt t (KString [97]) 0 = LRet (t, RErr false).
Proof.
  eexists. split; [exists ex_ops; eexists; split; [apply C01_nonvacuous|reflexivity]|].
  done.
Qed.

(** C08 is false of the code.  With CompareInt, Put of a string into an empty
    map succeeds (nothing to compare with); DeleteByIndex(0) then returns an
    error, but Len has dropped to 0 while the entry is still there, and
    Validate fails. *)
Theorem C08_failed_delete_refuted :
  ∃ (t t' : tree key Z),
    Put CompareInt NewLLRBTree (KString [97]) 1 = LRet (t, ROk true) ∧
    DeleteByIndex CompareInt t 0 = LRet (t', RErr true) ∧
    Len t = 1 ∧ Len t' = 0 ∧ validate t' = false ∧ count t' = 1.
Proof. exact llrb_failed_delete_refuted. Qed.
Print Assumptions C08_failed_delete_refuted.
(** What holds: a DeleteByKey that fails during its search (it then returns
    ok=false) changes nothing, for every comparator and every tree.  Missing:
    failures in the second, restructuring pass, and DeleteByIndex. *)
Theorem C08_failed_delete_partial :
  ∀ (K V : Type) (cmp : K → K → option Z) (t : tree K V) k t',
  DeleteByKey cmp t k = LRet (t', RErr false) → t' = t.
Proof. exact llrb_failed_delete. Qed.
Print Assumptions C08_failed_delete_partial.
Example C08_partial_nonvacuous : ∃ t : tree key Z, llrb_reachable CompareInt small_int t ∧
  DeleteByKey CompareInt t (KString [97]) = LRet (t, RErr false).
Proof.
  eexists. split; [exists ex_ops; eexists; split; [apply C01_nonvacuous|reflexivity]|].
  done.
Qed.

(** C39, LLRB half: patches change one value only.  [i] is the patched index. *)
Theorem C39_llrb_patch :
  ∀ (K V : Type) (cmp : K → K → option Z) (dom : K → Prop), total_order cmp dom →
  ∀ t : tree K V, llrb_reachable cmp dom t → ∀ v t',
  (∀ i a, PatchByIndex t i v = LRet (t', a) →
     a = ROk (bool_decide (0 ≤ i < Len t)) ∧ Len t' = Len t ∧
     ∀ j k w, GetByIndex t j = LRet (RItem (Some (k, w))) →
              GetByIndex t' j = LRet (RItem (Some (k, if bool_decide (j = i) then v else w)))) ∧
  (∀ k0 a, dom k0 → PatchByKey cmp t k0 v = (t', a) →
     a = ROk (match GetByKey cmp t k0 with RValue (Some _) => true | _ => false end) ∧ Len t' = Len t ∧
     ∀ j k w, GetByIndex t j = LRet (RItem (Some (k, w))) →
              GetByIndex t' j = LRet (RItem (Some (k, if same cmp k0 k then v else w)))).
Proof. exact llrb_patch. Qed.
Print Assumptions C39_llrb_patch.
Example C39_nonvacuous : ∃ t t' : tree key Z, llrb_reachable CompareInt small_int t ∧
  PatchByIndex t 1 77 = LRet (t', ROk true) ∧
  GetByIndex t' 1 = LRet (RItem (Some (KInt 7, 77))) ∧
  GetByIndex t' 2 = LRet (RItem (Some (KInt 9, 90))).
Proof.
  do 2 eexists. split; [exists ex_ops; eexists; split; [apply C01_nonvacuous|reflexivity]|].
  split; [reflexivity|]. done.
Qed.

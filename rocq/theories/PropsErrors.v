(** * Property theorems: comparisons that fail in an LLRB map (C49) *)
From Coq Require Import Sorted.
From stdpp Require Import prelude list.
From Verif Require Import Spec SpecFacts Llrb LlrbSpec LlrbProof LlrbDelete LlrbApi LlrbProps LlrbErrors Compare CompareProof PropsLlrb.
Open Scope Z_scope.

(** A call with a key that Compare rejects, on a map with entries, returns an error and
    changes nothing. *)
Theorem C49_llrb_foreign_key :
  ∀ (K V : Type) (cmp : K → K → option Z) (t : tree K V) k (c : call K V), elements t ≠ [] →
  (∀ k' v, (k', v) ∈ elements t → cmp k k' = None) → call_keys c = [k] →
  llrb_step cmp t (LCall c) = LRet (t, RErr false).
Proof. exact @llrb_foreign. Qed.
Print Assumptions C49_llrb_foreign_key.
Example C49_llrb_nonvacuous : ∃ t : tree key Z, llrb_reachable CompareInt small_int t ∧ length (elements t) = 3%nat ∧
  (∀ k' v, (k', v) ∈ elements t → CompareInt (KString [97]) k' = None) ∧
  (∀ c : call key Z, c ∈ [CPut (KString [97]) 1; CGetByKey (KString [97]); CDeleteByKey (KString [97]); CBisectLeft (KString [97])] →
     call_keys c = [KString [97]]).
Proof.
  eexists. split; [exists ex_ops; eexists; split; [apply C01_nonvacuous|reflexivity]|]. split; [done|]. split; [done|].
  intros c Hc. rewrite !elem_of_cons, elem_of_nil in Hc. by destruct Hc as [->|[->|[->|[->|[]]]]].
Qed.
(** Compare may fail for some pairs of keys only ([cmp x y = None]).  A call that
    returns no error did not use a comparison that failed: whatever
    those comparisons had said instead ([cmp']), the call would have done and returned the
    same.  Of a Put, only the answer. *)
Theorem C49_llrb_errors_reported :
  ∀ (K V : Type) (cmp cmp' : K → K → option Z), (∀ x y c, cmp x y = Some c → cmp' x y = Some c) →
  ∀ (t : tree K V) (o : llrb_op K V) t' a, llrb_step cmp t o = LRet (t', a) → (∀ ok, a ≠ RErr ok) →
  match o with
  | LCall (CPut _ _) => ∀ t2 a2, llrb_step cmp' t o = LRet (t2, a2) → a2 = a
  | _ => llrb_step cmp' t o = LRet (t', a)
  end.
Proof. exact @llrb_no_silent_failure. Qed.
Print Assumptions C49_llrb_errors_reported.
(** a comparator that fails for 9: a lookup of 1 in a map with 1, 7 and 9 is answered, one of 8 is
    not *)
Definition picky (x y : key) : option Z := match y with KInt 9 => None | _ => CompareInt x y end.
Example C49_llrb_errors_nonvacuous : (∀ x y c, picky x y = Some c → CompareInt x y = Some c) ∧
  ∃ t : tree key Z, llrb_reachable CompareInt small_int t ∧
    llrb_step picky t (LCall (CGetByKey (KInt 1))) = LRet (t, RValue (Some 11)) ∧
    llrb_step picky t (LCall (CGetByKey (KInt 8))) = LRet (t, RErr false) ∧
    llrb_step CompareInt t (LCall (CGetByKey (KInt 8))) = LRet (t, RValue None).
Proof.
  split. { intros x y c. unfold picky. repeat case_match; congruence. }
  eexists. split; [exists ex_ops; eexists; split; [apply C01_nonvacuous|reflexivity]|]. done.
Qed.

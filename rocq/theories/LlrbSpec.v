(** * Specification of LLRB histories *)
From Coq Require Import Sorted.
From stdpp Require Import prelude list.
From Verif Require Import Spec Llrb.
Open Scope Z_scope.

Section spec.
  Context {K V : Type}.
  Variable cmp : K → K → option Z.

  (** The methods of an LLRBTree on a sorted list: SortedMap calls as in
      [spec_call], Reset empties the map, Validate finds nothing wrong. *)
  Definition spec_llrb_step (m : list (K * V)) (o : llrb_op K V)
      : list (K * V) * answer K V :=
    match o with
    | LCall c => spec_call cmp m c
    | LReset => ([], ROk true)
    | LValidate => (m, ROk true)
    end.
  Fixpoint spec_llrb_run (m : list (K * V)) (os : list (llrb_op K V))
      : list (K * V) * list (answer K V) :=
    match os with
    | [] => (m, [])
    | o :: os =>
        let '(m1, a) := spec_llrb_step m o in
        let '(m2, as_) := spec_llrb_run m1 os in
        (m2, a :: as_)
    end.
  (** keys mentioned by a history *)
  Definition op_keys (o : llrb_op K V) : list K :=
    match o with LCall c => call_keys c | _ => [] end.
  Definition keys_in (dom : K → Prop) (os : list (llrb_op K V)) : Prop :=
    Forall dom (concat (op_keys <$> os)).

  (** [t] is what a history of calls on a new tree, using only keys in
      [dom], leads to *)
  Definition llrb_reachable (dom : K → Prop) (t : tree K V) : Prop :=
    ∃ os as_, keys_in dom os ∧ llrb_run cmp NewLLRBTree os = LRet (t, as_).

  (** number of nodes, and the nodes of a tree *)
  Fixpoint count (t : tree K V) : Z :=
    match t with E => 0 | T _ l _ _ r _ => count l + 1 + count r end.
  Fixpoint is_node_of (s t : tree K V) : Prop :=
    match t with
    | E => False
    | T _ l _ _ r _ => s = t ∨ is_node_of s l ∨ is_node_of s r
    end.
End spec.

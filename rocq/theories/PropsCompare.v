(** * Property theorems: comparators (C09-C12) *)
From stdpp Require Import prelude list.
From Verif Require Import Spec Compare CompareProof.
Open Scope Z_scope.

(** C09 *)
Theorem C09_total_orders :
  total_order CompareUint16 is_u16 ∧ total_order CompareUint32 is_u32 ∧
  total_order CompareUint64 is_u64 ∧ total_order CompareString is_string ∧
  total_order CompareByteSlice is_bytes.
Proof. exact (conj u16_order (conj u32_order (conj u64_order (conj string_order bytes_order)))). Qed.
Print Assumptions C09_total_orders.
Theorem C09_agree_with_order :
  (∀ a b, ∃ r, CompareUint16 (KU16 a) (KU16 b) = Some r ∧ three_way Z.lt a b r) ∧
  (∀ a b, ∃ r, CompareUint32 (KU32 a) (KU32 b) = Some r ∧ three_way Z.lt a b r) ∧
  (∀ a b, ∃ r, CompareUint64 (KU64 a) (KU64 b) = Some r ∧ three_way Z.lt a b r) ∧
  (∀ a b, ∃ r, CompareString (KString a) (KString b) = Some r ∧ three_way lex_lt a b r) ∧
  (∀ a b, ∃ r, CompareByteSlice (KBytes a) (KBytes b) = Some r ∧ three_way lex_lt a b r).
Proof. exact builtin_three_way. Qed.
Print Assumptions C09_agree_with_order.
Example C09_nonvacuous : is_u64 (KU64 (2 ^ 64 - 1)) ∧ valid_key (KU64 (2 ^ 64 - 1)) ∧
  CompareUint64 (KU64 (2 ^ 64 - 1)) (KU64 0) = Some 1 ∧
  CompareString (KString [97; 98]) (KString [97; 98; 0]) = Some (-1).
Proof. split; [by eexists|]. split; [simpl; lia|]. split; reflexivity. Qed.

(** C10 is false of the code: the subtraction wraps around.  Exact
    characterisation: the answer is right exactly when the difference fits. *)
Theorem C10_compare_int_refuted :
  ∃ a b, valid_key (KInt a) ∧ valid_key (KInt b) ∧ a < b ∧
    ∃ r, CompareInt (KInt a) (KInt b) = Some r ∧ 0 < r.
Proof. exists (- 2 ^ 63), 1. split; [simpl; lia|]. split; [simpl; lia|]. split; [lia|].
  eexists. split; [reflexivity|]. reflexivity. Qed.
Print Assumptions C10_compare_int_refuted.
Theorem C10_compare_int_partial :
  ∀ a b, valid_key (KInt a) → valid_key (KInt b) →
  ∃ r, CompareInt (KInt a) (KInt b) = Some r ∧
    (three_way Z.lt a b r ↔ - 2 ^ 63 ≤ a - b < 2 ^ 63).
Proof. exact int_exact. Qed.
Print Assumptions C10_compare_int_partial.
Theorem C10_compare_int_order_partial : total_order CompareInt small_int.
Proof. exact int_order. Qed.
Print Assumptions C10_compare_int_order_partial.
Example C10_nonvacuous : valid_key (KInt (-5)) ∧ small_int (KInt (-5)) ∧
  CompareInt (KInt (-5)) (KInt 7) = Some (-12).
Proof. split; [simpl; lia|]. split; [exists (-5); split; [done|lia]|reflexivity]. Qed.

(** C11 is false of the code when values with and without a monotonic reading
    are mixed: three times, each before the next in a cycle. *)
Theorem C11_compare_time_refuted :
  ∃ a b c, is_time a ∧ is_time b ∧ is_time c ∧
    CompareTime a b = Some (-1) ∧ CompareTime b c = Some (-1) ∧ CompareTime c a = Some (-1).
Proof.
  exists (KTime (GoTime 20 (Some 1))), (KTime (GoTime 0 (Some 2))), (KTime (GoTime 10 None)).
  repeat split; try (by eexists); reflexivity.
Qed.
Print Assumptions C11_compare_time_refuted.
Theorem C11_compare_time_partial :
  total_order CompareTime wall_time ∧ total_order CompareTime mono_time.
Proof. exact (conj time_order_wall time_order_mono). Qed.
Print Assumptions C11_compare_time_partial.
Example C11_nonvacuous : wall_time (KTime (GoTime 10 None)) ∧ mono_time (KTime (GoTime 10 (Some 4))) ∧
  CompareTime (KTime (GoTime 10 None)) (KTime (GoTime 11 None)) = Some (-1).
Proof. split; [by eexists|]. split; [by do 2 eexists|reflexivity]. Qed.

(** C12 *)
Theorem C12_foreign_types :
  (∀ a b, CompareInt a b = None ↔ ¬ (is_int a ∧ is_int b)) ∧
  (∀ a b, CompareUint16 a b = None ↔ ¬ (is_u16 a ∧ is_u16 b)) ∧
  (∀ a b, CompareUint32 a b = None ↔ ¬ (is_u32 a ∧ is_u32 b)) ∧
  (∀ a b, CompareUint64 a b = None ↔ ¬ (is_u64 a ∧ is_u64 b)) ∧
  (∀ a b, CompareString a b = None ↔ ¬ (is_string a ∧ is_string b)) ∧
  (∀ a b, CompareByteSlice a b = None ↔ ¬ (is_bytes a ∧ is_bytes b)) ∧
  (∀ a b, CompareTime a b = None ↔ ¬ (is_time a ∧ is_time b)).
Proof. exact foreign. Qed.
Print Assumptions C12_foreign_types.
Example C12_nonvacuous : CompareUint16 (KU16 3) (KU32 3) = None ∧
  CompareUint16 (KOther 3) (KU16 3) = None ∧ CompareUint16 (KU16 3) (KU16 3) = Some 0.
Proof. done. Qed.

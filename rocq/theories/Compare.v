(** * Model of the built-in comparators of common_api.go *)
From stdpp Require Import prelude list.
From Verif Require Import Spec.
Open Scope Z_scope.

(** A time.Time value (Go standard library, as used by common_api.go:148-171):
    the wall clock reading in nanoseconds and, for values obtained from
    time.Now, a monotonic clock reading. *)
Record gotime := GoTime { wall : Z; mono : option Z }.

(** common_api.go:14: [Key] is [interface{}].  The dynamic types the
    comparators distinguish, plus "anything else". *)
Inductive key :=
  | KInt (z : Z)
  | KU16 (z : Z)
  | KU32 (z : Z)
  | KU64 (z : Z)
  | KString (s : list Z)
  | KBytes (s : list Z)
  | KTime (t : gotime)
  | KOther (n : Z).

(** The values each dynamic type can hold. *)
Definition byte (z : Z) : Prop := 0 ≤ z < 2 ^ 8.
Definition valid_key (k : key) : Prop :=
  match k with
  | KInt z => - 2 ^ 63 ≤ z < 2 ^ 63
  | KU16 z => 0 ≤ z < 2 ^ 16
  | KU32 z => 0 ≤ z < 2 ^ 32
  | KU64 z => 0 ≤ z < 2 ^ 64
  | KString s | KBytes s => Forall byte s
  | KTime _ | KOther _ => True
  end.

(** Go int subtraction wraps around at 64 bits. *)
Definition wrap64 (z : Z) : Z := (z + 2 ^ 63) mod 2 ^ 64 - 2 ^ 63.

(** common_api.go:19-35 *)
Definition CompareInt (k1 k2 : key) : option Z :=
  match k1 with
  | KInt a => match k2 with KInt b => Some (wrap64 (a - b)) | _ => None end
  | _ => None
  end.

(** The three-way branch shared by common_api.go:49-55, 74-80, 99-105. *)
Definition cmp3 (a b : Z) : Z := if a <? b then -1 else if a =? b then 0 else 1.

(** common_api.go:37-60 *)
Definition CompareUint16 (k1 k2 : key) : option Z :=
  match k1 with
  | KU16 a => match k2 with KU16 b => Some (cmp3 a b) | _ => None end
  | _ => None
  end.
(** common_api.go:62-85 *)
Definition CompareUint32 (k1 k2 : key) : option Z :=
  match k1 with
  | KU32 a => match k2 with KU32 b => Some (cmp3 a b) | _ => None end
  | _ => None
  end.
(** common_api.go:87-110 *)
Definition CompareUint64 (k1 k2 : key) : option Z :=
  match k1 with
  | KU64 a => match k2 with KU64 b => Some (cmp3 a b) | _ => None end
  | _ => None
  end.

(** strings.Compare and bytes.Compare (Go standard library): bytewise, the
    first difference decides, a proper prefix is smaller. *)
Fixpoint lex_compare (a b : list Z) : Z :=
  match a, b with
  | [], [] => 0
  | [], _ :: _ => -1
  | _ :: _, [] => 1
  | x :: a, y :: b => if x <? y then -1 else if y <? x then 1 else lex_compare a b
  end.

(** common_api.go:112-128 *)
Definition CompareString (k1 k2 : key) : option Z :=
  match k1 with
  | KString a => match k2 with KString b => Some (lex_compare a b) | _ => None end
  | _ => None
  end.
(** common_api.go:130-146 *)
Definition CompareByteSlice (k1 k2 : key) : option Z :=
  match k1 with
  | KBytes a => match k2 with KBytes b => Some (lex_compare a b) | _ => None end
  | _ => None
  end.

(** time.Time.Before / After (Go standard library): the monotonic readings
    are compared if both values have one, else the wall clocks. *)
Definition time_before (a b : gotime) : bool :=
  match mono a, mono b with
  | Some x, Some y => x <? y
  | _, _ => wall a <? wall b
  end.
Definition time_after (a b : gotime) : bool :=
  match mono a, mono b with
  | Some x, Some y => y <? x
  | _, _ => wall b <? wall a
  end.
(** common_api.go:148-171 *)
Definition CompareTime (k1 k2 : key) : option Z :=
  match k1 with
  | KTime a =>
      match k2 with
      | KTime b => Some (if time_before a b then -1 else if time_after a b then 1 else 0)
      | _ => None
      end
  | _ => None
  end.

(** ** Specification vocabulary *)

Definition is_int k := ∃ z, k = KInt z.
Definition is_u16 k := ∃ z, k = KU16 z.
Definition is_u32 k := ∃ z, k = KU32 z.
Definition is_u64 k := ∃ z, k = KU64 z.
Definition is_string k := ∃ s, k = KString s.
Definition is_bytes k := ∃ s, k = KBytes s.
Definition is_time k := ∃ t, k = KTime t.

(** bytewise lexicographic order, said without recursion: the first
    difference decides, or [a] is a proper prefix of [b] *)
Definition lex_lt (a b : list Z) : Prop :=
  (∃ p x a' y b', a = p ++ x :: a' ∧ b = p ++ y :: b' ∧ x < y) ∨
  (∃ x b', b = a ++ x :: b').

(** [r] is a correct three-way result for an order [lt] on [a], [b] *)
Definition three_way {A} (lt : A → A → Prop) (a b : A) (r : Z) : Prop :=
  (r < 0 ↔ lt a b) ∧ (r = 0 ↔ a = b) ∧ (0 < r ↔ lt b a).

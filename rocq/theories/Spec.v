(** * Specification: what a sorted map is

    This file models no code.  It is the yardstick used by all property
    theorems: a sorted map is a list of (key, value) pairs, strictly
    ascending in the order given by the client's compare function, and each
    call of the SortedMap interface (common_api.go:173-186) has the obvious
    meaning on such a list. *)
From Coq Require Import Sorted.
From stdpp Require Import prelude list.
Open Scope Z_scope.

Section spec.
  Context {K V : Type}.
  (** A client comparator (common_api.go:17): [None] is an error return,
      [Some c] a negative / zero / positive result. *)
  Variable cmp : K → K → option Z.

  (** The comparator is a total order (up to keys that compare equal) on the
      keys satisfying [dom], and never fails on them. *)
  Record total_order (dom : K → Prop) : Prop := {
    to_total x y : dom x → dom y → is_Some (cmp x y);
    to_antisym x y c : dom x → dom y → cmp x y = Some c →
      ∃ c', cmp y x = Some c' ∧ Z.sgn c' = - Z.sgn c;
    to_trans x y z c1 c2 : dom x → dom y → dom z →
      cmp x y = Some c1 → cmp y z = Some c2 → c1 ≤ 0 → c2 ≤ 0 →
      ∃ c3, cmp x z = Some c3 ∧ c3 ≤ 0;
  }.

  (** strictly below / equal, as booleans *)
  Definition below (x y : K) : bool :=
    match cmp x y with Some c => c <? 0 | None => false end.
  Definition same (x y : K) : bool :=
    match cmp x y with Some c => c =? 0 | None => false end.

  (** strictly ascending in the keys *)
  Definition ascending (m : list (K * V)) : Prop :=
    StronglySorted (λ p q, below p.1 q.1 = true) m.

  (** number of keys strictly below [k] *)
  Definition rank (k : K) (m : list (K * V)) : nat :=
    length (filter (λ p, below p.1 k = true) m).
  (** is some key equal to [k]? *)
  Definition present (k : K) (m : list (K * V)) : bool :=
    existsb (λ p, same k p.1) m.

  (** Indices are Go ints: negative or too large is "not there". *)
  Definition at_index (i : Z) (m : list (K * V)) : option (K * V) :=
    if i <? 0 then None else m !! Z.to_nat i.

  (** ** The calls of the SortedMap interface on a sorted list *)
  Definition s_lookup (k : K) (m : list (K * V)) : option V :=
    if present k m then snd <$> m !! rank k m else None.
  Definition s_insert (k : K) (v : V) (m : list (K * V)) : list (K * V) :=
    take (rank k m) m ++ (k, v) :: drop (rank k m) m.
  Definition s_remove (i : nat) (m : list (K * V)) : list (K * V) :=
    take i m ++ drop (S i) m.
  Definition s_set (i : nat) (v : V) (m : list (K * V)) : list (K * V) :=
    alter (λ p, (p.1, v)) i m.

  (** ** Calls and results *)
  Inductive call :=
    | CPut (k : K) (v : V)
    | CGetByKey (k : K)
    | CGetByIndex (i : Z)
    | CPatchByKey (k : K) (v : V)
    | CPatchByIndex (i : Z) (v : V)
    | CDeleteByKey (k : K)
    | CDeleteByIndex (i : Z)
    | CBisectLeft (k : K)
    | CBisectRight (k : K)
    | CLen.

  (** What a call returns.  [RErr ok] is a return with a non-nil error (the
      other results are then meaningless, except that Go code may still have
      set [ok]). *)
  Inductive answer :=
    | ROk (ok : bool)
    | RValue (v : option V)
    | RItem (kv : option (K * V))
    | RIndex (i : Z) (found : bool)
    | RLen (n : Z)
    | RErr (ok : bool).

  (** The keys a call mentions. *)
  Definition call_keys (c : call) : list K :=
    match c with
    | CPut k _ | CGetByKey k | CPatchByKey k _ | CDeleteByKey k
    | CBisectLeft k | CBisectRight k => [k]
    | _ => []
    end.

  Definition spec_call (m : list (K * V)) (c : call) : list (K * V) * answer :=
    match c with
    | CPut k v =>
        if present k m then (m, ROk false) else (s_insert k v m, ROk true)
    | CGetByKey k => (m, RValue (s_lookup k m))
    | CGetByIndex i => (m, RItem (at_index i m))
    | CPatchByKey k v =>
        if present k m then (s_set (rank k m) v m, ROk true) else (m, ROk false)
    | CPatchByIndex i v =>
        match at_index i m with
        | Some _ => (s_set (Z.to_nat i) v m, ROk true)
        | None => (m, ROk false)
        end
    | CDeleteByKey k =>
        if present k m then (s_remove (rank k m) m, ROk true) else (m, ROk false)
    | CDeleteByIndex i =>
        match at_index i m with
        | Some _ => (s_remove (Z.to_nat i) m, ROk true)
        | None => (m, ROk false)
        end
    | CBisectLeft k =>
        (m, if present k m then RIndex (Z.of_nat (rank k m)) true
            else RIndex (Z.of_nat (rank k m) - 1) false)
    | CBisectRight k =>
        (m, if present k m then RIndex (Z.of_nat (rank k m)) true
            else RIndex (Z.of_nat (rank k m)) false)
    | CLen => (m, RLen (Z.of_nat (length m)))
    end.

  (** A whole history of calls. *)
  Fixpoint spec_run (m : list (K * V)) (cs : list call)
      : list (K * V) * list answer :=
    match cs with
    | [] => (m, [])
    | c :: cs =>
        let '(m1, a) := spec_call m c in
        let '(m2, as_) := spec_run m1 cs in
        (m2, a :: as_)
    end.
End spec.

Arguments call : clear implicits.
Arguments answer : clear implicits.

(** * Property theorems: the stored form of nodes (C29)

    [snode] (Format.v) is what a block says: an item count, the capacity if the
    node is a root, and either the entries of a leaf, or the references (location
    and item count) to the children with the keys between them.  [write] gives
    the bytes of a node, [read] parses bytes and fails unless it consumes all
    of them.  [history], [pictured] and [contents] are as in PropsPicture.v. *)
From Coq Require Import ssreflect.
From stdpp Require Import prelude list gmap.
From Verif Require Import Spec SpecFacts Llrb LlrbSpec BTree Wp Codec Ghost Api Touch Report Pres Rep Machine Still Client Sample Disk Picture Hist Seat History Footprint Sweep Aside Format Runs.
Open Scope Z_scope.

(** [fine n]: numbers fit in 64 bits, keys and values are among those the
    callbacks pack and unpack without loss *)
Theorem C29_round_trip :
  ∀ (K V : Type) (cb : callbacks K V) (dom : K → Prop) (domV : V → Prop), wf_cb cb dom domV →
  ∀ n : snode K V, fine dom domV n → read cb (write cb n) = Some n.
Proof. exact @read_write. Qed.
Print Assumptions C29_round_trip.
Theorem C29_injective :
  ∀ (K V : Type) (cb : callbacks K V) (dom : K → Prop) (domV : V → Prop), wf_cb cb dom domV →
  ∀ n n' : snode K V, fine dom domV n → fine dom domV n' → write cb n = write cb n' → n = n'.
Proof. exact @write_inj. Qed.
Print Assumptions C29_injective.
(** Whatever has happened so far, every node of a tree that is not modified,
    in memory or not ([part true g ir g'], [gloc g' = Some l]), has a block that
    was written from exactly this node and reads back as exactly this node. *)
Theorem C29_blocks :
  ∀ (K V : Type) (cb : callbacks K V) (dom : K → Prop) (domV : V → Prop), wf_cb cb dom domV →
  ∀ hi s t m, history cb dom domV hi s → contents (after (cb_cmp cb) hi) t = Some m →
  ∃ mn ca S h g, pictured cb dom domV s t mn ca S h g ∧ items (strip g) = m ∧
    ∀ ir g' l, part true g ir g' → gloc g' = Some l →
    ∃ b x, disk s !! l = Some b ∧ form (2 * Z.of_nat mn) ir g' = Some x ∧ fine dom domV x ∧ b = write cb x ∧ read cb b = Some x.
Proof. exact @history_blocks. Qed.
Print Assumptions C29_blocks.
Example C29_nonvacuous :
  (∃ n : snode Z Z, fine fits fits n ∧ n = SNode 5 (Some 6) (Inner ((1, 2, 3), 2) [(7, ((4, 5, 6), 3))])) ∧
  (∃ h s m b, history z_cb fits fits h s ∧ contents (after z_cmp h) one = Some m ∧ length m = 11%nat ∧
    status (after z_cmp h) one = Some (Stored (11, 0, 178)) ∧ disk s !! (11, 0, 178) = Some b ∧
    read z_cb b = Some (SNode 11 (Some 4) (Inner ((9, 0, 66), 3) [(4, ((10, 0, 50), 2)); (7, ((3, 0, 50), 2)); (9, ((4, 0, 82), 4))]))).
Proof.
  split.
  - eexists. split; [|done]. unfold fine, fits, mxfit, refgood, locok. cbn. repeat (split || constructor); cbn; try lia; unfold fits; lia.
  - give (events runQ). exists (final runQ). eexists. eexists. split_and!.
    + apply play_is; by vm_compute.
    + by vm_compute.
    + by vm_compute.
    + by vm_compute.
    + by vm_compute.
    + by vm_compute.
Qed.

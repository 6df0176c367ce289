(** * Property theorems: damaged storage (C54-C57)

    [set_disk D s] is the state [s] with the blocks [D] on storage instead of its
    own.  [history], [contents], [status] are as in PropsStore.v; [exec] runs one
    call.  [OStop w _] is a process that died: [w] is [Panic], [Fuel] (the call
    would not end), or a crash from outside, which may come with any callback. *)
From Coq Require Import ssreflect.
From stdpp Require Import prelude list gmap.
From Verif Require Import Spec SpecFacts Llrb LlrbSpec BTree Wp Codec Ghost Api Machine Client Sample Hist History Picture Footprint Format Hurt Damage Sound Runs.
Open Scope Z_scope.

(** for the example of C58 *)
Definition callsQ : list (cmd Z Z) := [OldTree (11, 0, 178) true; MapCall newQ (CGetByKey 2); MapCall newQ (CPut 12 5);
  MapCall newQ (CDeleteByKey 11); MapCall newQ CLen; Flush newQ false; MapCall newQ (CGetByIndex 1)].
Definition spoiltQ : st Z Z := set_disk (<[(10, 0, 50) := take 20 (blockQ (10, 0, 50))]> (disk (final runQ))) (final runQ).
Definition endQ : st Z Z := match answers z_cb callsQ spoiltQ with Some (_, s) => s | None => spoiltQ end.
Definition runZ := exec z_cb (MapCall newQ (CGetByKey 4)) endQ.
Lemma answers_end rs : option_map fst (answers z_cb callsQ spoiltQ) = Some rs → answers z_cb callsQ spoiltQ = Some (rs, endQ).
Proof. unfold endQ. destruct (answers z_cb callsQ spoiltQ) as [[rs' s]|]; [|done]. by intros [= ->]. Qed.

(** ** C54: a truncated or lengthened root block is refused

    [cutoff b e]: [b] is [e] without one or more bytes at its end.  [wary]:
    UnpackKey and UnpackValue fail if they get less than a whole key or value.
    [tame]: whatever they get, they do not claim to have used more bytes than
    there were, and keys that they return can be compared. *)
Theorem C54_refused :
  ∀ (K V : Type) (cb : callbacks K V) (dom : K → Prop) (domV : V → Prop), wf_cb cb dom domV →
  ∀ domA, tame cb domA → ∀ hi s t m l D b e ca, wary cb dom domV →
  history cb dom domV hi s → contents (after (cb_cmp cb) hi) t = Some m → status (after (cb_cmp cb) hi) t = Some (Stored l) →
  disk s !! l = Some e → D !! l = Some b → cutoff b e ∨ cutoff e b →
  match exec cb (OldTree l ca) (set_disk D s) with
  | ORet _ _ => False
  | OErr _ _ => True
  | OStop w _ => w ≠ Panic ∧ w ≠ Fuel
  end.
Proof. exact @open_cut. Qed.
Print Assumptions C54_refused.

(** ** C55: opening a tree neither panics nor hangs, whatever is on storage

    And it succeeds only on a block that has the form of a node. *)
Theorem C55_open_safe :
  ∀ (K V : Type) (cb : callbacks K V) (dom : K → Prop) (domV : V → Prop), wf_cb cb dom domV →
  ∀ domA, tame cb domA → ∀ hi s D l b ca, history cb dom domV hi s → D !! l = Some b →
  match exec cb (OldTree l ca) (set_disk D s) with
  | ORet r _ => (∃ t, r = RTree t) ∧ ∃ x, read cb b = Some x
  | OErr _ _ => True
  | OStop w _ => w ≠ Panic ∧ w ≠ Fuel
  end.
Proof. exact @open_any. Qed.
Print Assumptions C55_open_safe.
Example C54_C55_nonvacuous : wf_cb z_cb fits fits ∧ wary z_cb fits fits ∧ tame z_cb (λ _, True) ∧
  ∃ h s m e b b' l, history z_cb fits fits h s ∧ contents (after z_cmp h) one = Some m ∧ length m = 11%nat ∧
    status (after z_cmp h) one = Some (Stored l) ∧ disk s !! l = Some e ∧ length e = 178%nat ∧
    cutoff b e ∧ length b = 138%nat ∧
    (∃ s', exec z_cb (OldTree l true) (set_disk (<[l := b]> (disk s)) s) = OErr EPack s') ∧
    cutoff e b' ∧ (∃ s', exec z_cb (OldTree l true) (set_disk (<[l := b']> (disk s)) s) = OErr ELogic s').
Proof.
  split; [exact z_wf|]. split; [exact z_wary|]. split; [exact z_tame|].
  give (events runQ). exists (final runQ). eexists. exists rootQ. exists (take 138 rootQ), (rootQ ++ [0]), (11, 0, 178). split_and!.
  - apply play_is; by vm_compute.
  - by vm_compute.
  - by vm_compute.
  - by vm_compute.
  - by vm_compute.
  - by vm_compute.
  - exists (drop 138 rootQ). split; [by vm_compute|by vm_compute].
  - by vm_compute.
  - exists (end_st runQc). unfold runQc, onQ. apply outcome_err. by vm_compute.
  - exists [0]. split; [by vm_compute|reflexivity].
  - exists (end_st runQl). unfold runQl, onQ. apply outcome_err. by vm_compute.
Qed.

(** ** C56: Validate and the order of the keys

    "If Validate says that a tree is valid, a key that GetByIndex shows is found
    by GetByKey."  False: two blocks of a stored tree, exchanged on storage. *)
Theorem C56_validate_order_refuted : ∃ h s m l l1 l2 b1 b2 t s1 s2 s3 s4 k v,
  history z_cb fits fits h s ∧ contents (after z_cmp h) one = Some m ∧ length m = 11%nat ∧
  status (after z_cmp h) one = Some (Stored l) ∧ disk s !! l1 = Some b1 ∧ disk s !! l2 = Some b2 ∧
  exec z_cb (OldTree l true) (set_disk (<[l1 := b2]> (<[l2 := b1]> (disk s))) s) = ORet (RTree t) s1 ∧
  exec z_cb (Validate t) s1 = ORet (RValid true) s2 ∧
  exec z_cb (MapCall t (CGetByIndex 3)) s2 = ORet (RAns (RItem (Some (k, v)))) s3 ∧
  exec z_cb (MapCall t (CGetByKey k)) s3 = ORet (RAns (RValue None)) s4.
Proof.
  give (events runQ). exists (final runQ). eexists. exists (11, 0, 178), (10, 0, 50), (3, 0, 50). exists (blockQ (10, 0, 50)), (blockQ (3, 0, 50)). exists newQ.
  exists (end_st runV0), (end_st runV1), (end_st runV2), (end_st runV3), 7, 70. split_and!.
  - apply play_is; by vm_compute.
  - by vm_compute.
  - by vm_compute.
  - by vm_compute.
  - by vm_compute.
  - by vm_compute.
  - unfold runV0, onQ. apply outcome_ret. by vm_compute.
  - unfold runV1. apply outcome_ret. by vm_compute.
  - unfold runV2. apply outcome_ret. by vm_compute.
  - unfold runV3. apply outcome_ret. by vm_compute.
Qed.
Print Assumptions C56_validate_order_refuted.

(** What Validate does guarantee of a tree that was opened on arbitrary storage
    contents: [stores cb D l z] (Sound.v) says that the blocks [D] hold, from
    location [l] on, a finite tree with [z] entries.  All its blocks can be read,
    each leaf has distinct keys and says how many entries it has, and the counts
    in the references of an inner node add up to the number of entries below it.
    Missing, because false: the order of the keys across nodes. *)
Theorem C56_validated_partial :
  ∀ (K V : Type) (cb : callbacks K V) (domA : K → Prop), tame cb domA →
  ∀ D (dom : K → Prop) (domV : V → Prop), wf_cb cb dom domV →
  ∀ hi s l b ca t s1 s2, history cb dom domV hi s → D !! l = Some b →
  exec cb (OldTree l ca) (set_disk D s) = ORet (RTree t) s1 → exec cb (Validate t) s1 = ORet (RValid true) s2 →
  ∃ z, stores cb D l z.
Proof. exact @validated. Qed.
Print Assumptions C56_validated_partial.
(** two leaves exchanged: accepted, and all that [stores] says is true *)
Example C56_nonvacuous : tame z_cb (λ _, True) ∧ wf_cb z_cb fits fits ∧ ∃ h s D l b t s1 s2, history z_cb fits fits h s ∧ D !! l = Some b ∧ D ≠ disk s ∧
  exec z_cb (OldTree l true) (set_disk D s) = ORet (RTree t) s1 ∧ exec z_cb (Validate t) s1 = ORet (RValid true) s2.
Proof.
  split; [exact z_tame|]. split; [exact z_wf|]. give (events runQ).
  exists (final runQ), (<[(10, 0, 50) := blockQ (3, 0, 50)]> (<[(3, 0, 50) := blockQ (10, 0, 50)]> (disk (final runQ)))), (11, 0, 178), rootQ, newQ, (end_st runV0), (end_st runV1). split_and!.
  - apply play_is; by vm_compute.
  - by vm_compute.
  - intros E. apply (f_equal (λ D, D !! (10, 0, 50))) in E. by vm_compute in E.
  - unfold runV0, onQ. apply outcome_ret. by vm_compute.
  - unfold runV1. apply outcome_ret. by vm_compute.
Qed.

(** ** C57: calls on a tree that was opened without an error do not panic

    False: OldTree accepts a root block of an inner node without children (a
    block of 26 bytes); GetByKey and Put then panic.  Validate reports the tree
    as invalid. *)
Theorem C57_panic_refuted : ∃ h s l b t s1 s2 s3 s4,
  history z_cb fits fits h s ∧ is_Some (disk s !! l) ∧ read z_cb b = Some (SNode 0 (Some 4) Hollow) ∧
  exec z_cb (OldTree l true) (set_disk (<[l := b]> (disk s)) s) = ORet (RTree t) s1 ∧
  exec z_cb (MapCall t (CGetByKey 7)) s1 = OStop Panic s2 ∧
  exec z_cb (MapCall t (CPut 7 7)) s1 = OStop Panic s3 ∧
  exec z_cb (Validate t) s1 = ORet (RValid false) s4.
Proof.
  give (events runQ). exists (final runQ), (11, 0, 178), hollow, newQ.
  exists (end_st runW0), (end_st runW1), (end_st runW2), (end_st runW3). split_and!.
  - apply play_is; by vm_compute.
  - eexists. by vm_compute.
  - by vm_compute.
  - unfold runW0, onQ. apply outcome_ret. by vm_compute.
  - unfold runW1. apply outcome_stop. by vm_compute.
  - unfold runW2. apply outcome_stop. by vm_compute.
  - unfold runW3. apply outcome_ret. by vm_compute.
Qed.
Print Assumptions C57_panic_refuted.

(** ** C58: unreadable blocks are not taken for data

    [spoiled cb d d']: [d'] is [d] with some blocks replaced by bytes that are not
    a node ([read], see PropsFormat.v).  [answers cb cs s] makes the calls [cs]
    one after the other and gives the answers; it is [None] if one of them
    returns an error or does not return.  [careful]: any call but Discard and
    Dump, which drop errors (C35, C47).  If the calls return answers, these are
    those on the undamaged storage. *)
Theorem C58_same_answers :
  ∀ (K V : Type) (cb : callbacks K V) (cs : list (cmd K V)) s D rs s', Forall careful cs → spoiled cb (disk s) D →
  answers cb cs (set_disk D s) = Some (rs, s') → ∃ s1, answers cb cs s = Some (rs, s1).
Proof. exact @spoiled_answers. Qed.
Print Assumptions C58_same_answers.
(** The blocks of all nodes of a tree, in memory or not, cannot be read any more
    if they lose bytes at the end or get more. *)
Theorem C58_cut_blocks :
  ∀ (K V : Type) (cb : callbacks K V) (dom : K → Prop) (domV : V → Prop), wf_cb cb dom domV →
  ∀ hi s t m, wary cb dom domV → history cb dom domV hi s → contents (after (cb_cmp cb) hi) t = Some m →
  ∃ mn ca S h g, pictured cb dom domV s t mn ca S h g ∧ items (strip g) = m ∧
    ∀ ir g' l e b, part true g ir g' → gloc g' = Some l → disk s !! l = Some e → cutoff b e ∨ cutoff e b → read cb b = None.
Proof. exact @block_cut. Qed.
Print Assumptions C58_cut_blocks.
(** one leaf cut short: calls that do not need it work, one that needs it fails *)
Example C58_nonvacuous : ∃ h s e s1 s2,
  history z_cb fits fits h s ∧ disk s !! (10, 0, 50) = Some e ∧
  spoiled z_cb (disk s) (<[(10, 0, 50) := take 20 e]> (disk s)) ∧
  answers z_cb callsQ (set_disk (<[(10, 0, 50) := take 20 e]> (disk s)) s) =
    Some ([RTree newQ; RAns (RValue (Some 20)); RAns (ROk false); RAns (ROk true); RAns (RLen 10); RLoc (16, 0, 178); RAns (RItem (Some (2, 20)))], s1) ∧
  exec z_cb (MapCall newQ (CGetByKey 4)) s1 = OErr EPack s2.
Proof.
  give (events runQ). exists (final runQ), (blockQ (10, 0, 50)), endQ, (end_st runZ). split_and!.
  - apply play_is; by vm_compute.
  - by vm_compute.
  - apply (spoiled_one z_cb _ _ (blockQ (10, 0, 50))); by vm_compute.
  - apply answers_end. by vm_compute.
  - unfold runZ. apply outcome_err. by vm_compute.
Qed.

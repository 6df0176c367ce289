(** * Property theorems: what calls cost (C43, C44, C45)

    [made s s'] (Machine.v): the storage callbacks made on the way from [s] to
    [s'], one entry each.  [pictured s t mn ca S h g] as in PropsPicture.v: the
    tree [t] has [1 + h] levels and looks like [g], its nodes hold [mn] to
    [2 * mn] items, [ca] says if it is attached to the cache, [S] are the
    blocks waiting to be discarded.  [narrow t c] (Cost.v): [c] is a call on [t]
    that looks for one item (Get, Put, Patch, Delete, Bisect, Len, TouchItem),
    FetchDimensionsReport or FetchLocation.  [most h c], [least h z c]: the
    number of nodes the call visits, at most, and at least if it succeeds, in a
    tree of [1 + h] levels and [z] items.  [returned o s']: the call came back,
    with or without an error, in state [s'].  [loaded dirtyLRU g]: the modified
    nodes. *)
From Coq Require Import ssreflect.
From stdpp Require Import prelude list gmap.
From Verif Require Import Spec SpecFacts Llrb LlrbSpec BTree Wp Codec Ghost Api Touch Report Open Pres Rep Machine Still World Client Sample Disk Picture Hist Seat History Footprint Cache Cost Ticks Writes Runs.
Open Scope Z_scope.

(** ** C43 *)
(** A lookup or an update makes at most [1 + h] storage callbacks, a delete at
    most [1 + 3 * h], even if it fails; and [h] is at most logarithmic in the
    number of items. *)
Theorem C43_reads :
  ∀ (K V : Type) (cb : callbacks K V) (dom : K → Prop) (domV : V → Prop), wf_cb cb dom domV →
  ∀ hi s t m mn ca S h g c s', history cb dom domV hi s → contents (after (cb_cmp cb) hi) t = Some m → pictured cb dom domV s t mn ca S h g →
  narrow t c → legal dom domV (after (cb_cmp cb) hi) c → returned (exec cb c s) s' →
  (length (made s s') ≤ match c with
                        | MapCall _ (CDeleteByIndex _ | CDeleteByKey _) => 3 * h + 1
                        | MapCall _ CLen => 1
                        | FetchLocation _ => 0
                        | _ => 1 + h
                        end)%nat ∧
  (h = 0%nat ∨ 2 * Z.of_nat mn ^ Z.of_nat h ≤ Z.of_nat (length m)).
Proof. exact @call_reads. Qed.
Print Assumptions C43_reads.
(** the fourteen items of a tree with three levels and nine nodes, all of them
    unloaded *)
Definition runW := play [] [] fourteen.
Definition fourteen_items : list (Z * Z) := (λ k, (k, 10 * k)) <$> [1;2;3;4;5;6;7;8;9;10;11;12;13;14].
Lemma dim_eq a b c d a' b' c' d' : RDim (K:=Z) (V:=Z) (Dimensions a b c d) = RDim (Dimensions a' b' c' d') → a = a' ∧ d = d'.
Proof. by intros [= -> -> -> ->]. Qed.
Lemma runW_pictured : ∃ S h g, pictured z_cb fits fits (final runW) one 2 true S h g ∧ h = 2%nat ∧
  history z_cb fits fits (events runW) (final runW) ∧ contents (after z_cmp (events runW)) one = Some fourteen_items.
Proof.
  assert (wf_cb z_cb fits fits) as WF by apply z_wf.
  assert (history z_cb fits fits (events runW) (final runW)) as HH by (apply play_is; by vm_compute).
  assert (contents (after z_cmp (events runW)) one = Some fourteen_items) as Hm by by vm_compute.
  destruct (tree_shape z_cb fits fits WF _ _ one fourteen_items HH) as (mn & ca & S & hh & g & HP & _); [done|].
  pose proof (dimensions z_cb fits fits WF _ _ _ _ _ _ _ _ _ _ _ HH Hm HP (outcome_ret (exec z_cb (DimensionsReport one) (final runW)) (RDim (Dimensions 2 4 14 3)) ltac:(by vm_compute))) as HD.
  apply dim_eq in HD as [H1 H2].
  assert (mn = 2%nat) as -> by lia. assert (hh = 2%nat) as -> by lia.
  assert (ca = true) as ->. { pose proof (pc_tree _ _ _ _ _ _ _ _ _ _ HP) as H. vm_compute in H. by injection H. }
  exists S, 2%nat, g. split_and!; [exact HP|reflexivity|exact HH|exact Hm].
Qed.
Definition legalW (c : cmd Z Z) : Prop := legal fits fits (after z_cmp (events runW)) c.
(** of a tree with three levels GetByKey reads 3 nodes, and a DeleteByKey 6 *)
Example C43_nonvacuous : ∃ S h g, pictured z_cb fits fits (final runW) one 2 true S h g ∧ h = 2%nat ∧
  history z_cb fits fits (events runW) (final runW) ∧ contents (after z_cmp (events runW)) one = Some fourteen_items ∧
  let get := MapCall one (CGetByKey 3) in let del := MapCall one (CDeleteByKey 3) in
  narrow one get ∧ legalW get ∧ narrow one del ∧ legalW del ∧
  (∃ r s', exec z_cb get (final runW) = ORet r s' ∧ length (made (final runW) s') = 3%nat) ∧
  (∃ r s', exec z_cb del (final runW) = ORet r s' ∧ length (made (final runW) s') = 6%nat).
Proof.
  destruct runW_pictured as (S & h & g & H1 & H2 & H3 & H4). exists S, h, g. cbv zeta. split_and!; [exact H1|exact H2|exact H3|exact H4|reflexivity| |reflexivity|..].
  - by apply allowed_ok; vm_compute.
  - by apply allowed_ok; vm_compute.
  - do 2 eexists. split; [by apply outcome_ret; vm_compute|]. by vm_compute.
  - do 2 eexists. split; [by apply outcome_ret; vm_compute|]. by vm_compute.
Qed.

(** ** C44 *)
(** What a call does to the counters Stats reports, for a tree that is attached
    to the cache: a miss is counted for each storage callback, each visit to a
    node counts as a hit or a miss, and the visits are between [least] and
    [most].  If the tree is not attached nothing is counted. *)
Theorem C44_stats :
  ∀ (K V : Type) (cb : callbacks K V) (dom : K → Prop) (domV : V → Prop), wf_cb cb dom domV →
  ∀ hi s t m mn ca S h g c s' x x', history cb dom domV hi s → contents (after (cb_cmp cb) hi) t = Some m → pictured cb dom domV s t mn ca S h g →
  narrow t c → legal dom domV (after (cb_cmp cb) hi) c → returned (exec cb c s) s' →
  cache_Stats s = ORet x s → cache_Stats s' = ORet x' s' →
  if ca then
    st_misses x' = st_misses x + Z.of_nat (length (made s s')) ∧ st_hits x ≤ st_hits x' ∧
    st_hits x' + st_misses x' ≤ st_hits x + st_misses x + Z.of_nat (most h c) ∧
    ((∃ r, exec cb c s = ORet r s') → st_hits x + st_misses x + Z.of_nat (least h (Z.of_nat (length m)) c) ≤ st_hits x' + st_misses x')
  else st_hits x' = st_hits x ∧ st_misses x' = st_misses x.
Proof. exact @call_stats. Qed.
Print Assumptions C44_stats.
(** Touch too counts a miss for each storage callback, in any state. *)
Theorem C44_touch :
  ∀ (K V : Type) (cb : callbacks K V) (s : st K V) t T s' x x', trees s !! t = Some T → returned (exec cb (Touch t) s) s' →
  cache_Stats s = ORet x s → cache_Stats s' = ORet x' s' →
  if t_cache T then st_misses x' = st_misses x + Z.of_nat (length (made s s')) ∧ st_hits x ≤ st_hits x'
  else st_hits x' = st_hits x ∧ st_misses x' = st_misses x.
Proof. exact @touch_stats. Qed.
Print Assumptions C44_touch.
(** No call ever lowers the counters, whatever the state and however the call
    ends, and only the map calls, Touch, TouchItem, FetchDimensionsReport and
    Discard raise them. *)
Theorem C44_counters :
  ∀ (K V : Type) (cb : callbacks K V) c (s s' : st K V) x x', ends (exec cb c s) s' → cache_Stats s = ORet x s → cache_Stats s' = ORet x' s' →
  (st_hits x ≤ st_hits x' ∧ st_misses x ≤ st_misses x') ∧
  (match c with MapCall _ _ | Touch _ | TouchItem _ _ | DimensionsReport _ | Discard _ => False | _ => True end →
    st_hits x' = st_hits x ∧ st_misses x' = st_misses x).
Proof. intros. split; [by eapply counters|]. intros Hc. eapply counters; [done..|]. by destruct c. Qed.
Print Assumptions C44_counters.
Definition stats_of (s : st Z Z) : Z * Z := match cache_Stats s with ORet x _ => (st_hits x, st_misses x) | _ => (0, 0) end.
Example C44_nonvacuous : ∃ S h g, pictured z_cb fits fits (final runW) one 2 true S h g ∧ h = 2%nat ∧
  history z_cb fits fits (events runW) (final runW) ∧ contents (after z_cmp (events runW)) one = Some fourteen_items ∧
  let del := MapCall one (CDeleteByKey 3) in
  narrow one del ∧ legalW del ∧ stats_of (final runW) = (24, 0) ∧
  (∃ r s', exec z_cb del (final runW) = ORet r s' ∧ stats_of s' = (24, 6)) ∧
  (∃ r s', exec z_cb (Touch one) (final runW) = ORet r s' ∧ stats_of s' = (24, 9)).
Proof.
  destruct runW_pictured as (S & h & g & H1 & H2 & H3 & H4). exists S, h, g. cbv zeta. split_and!; [exact H1|exact H2|exact H3|exact H4|reflexivity|..].
  - by apply allowed_ok; vm_compute.
  - by vm_compute.
  - do 2 eexists. split; [by apply outcome_ret; vm_compute|]. by vm_compute.
  - do 2 eexists. split; [by apply outcome_ret; vm_compute|]. by vm_compute.
Qed.

(** ** C45 *)
(** Flush makes exactly one storage callback for each modified node, *)
Theorem C45_flush :
  ∀ (K V : Type) (cb : callbacks K V) (dom : K → Prop) (domV : V → Prop), wf_cb cb dom domV →
  ∀ hi s t m mn ca S h g ap r s', history cb dom domV hi s → contents (after (cb_cmp cb) hi) t = Some m → pictured cb dom domV s t mn ca S h g →
  exec cb (Flush t ap) s = ORet r s' → length (made s s') = length (loaded dirtyLRU g).
Proof. exact @flush_writes. Qed.
Print Assumptions C45_flush.
(** and Prune exactly one for each block waiting to be discarded. *)
Theorem C45_prune :
  ∀ (K V : Type) (cb : callbacks K V) (dom : K → Prop) (domV : V → Prop), wf_cb cb dom domV →
  ∀ hi s t m mn ca S h g r s', history cb dom domV hi s → contents (after (cb_cmp cb) hi) t = Some m → pictured cb dom domV s t mn ca S h g →
  exec cb (Prune t) s = ORet r s' → length (made s s') = length S.
Proof. exact @prune_discards. Qed.
Print Assumptions C45_prune.
Example C45_nonvacuous : ∃ m mn ca S h g, history z_cb fits fits (events runT) (final runT) ∧ contents (after z_cmp (events runT)) one = Some m ∧
  pictured z_cb fits fits (final runT) one mn ca S h g ∧
  (∃ r s', exec z_cb (Flush one true) (final runT) = ORet r s' ∧ length (made (final runT) s') = 3%nat) ∧
  (∃ r s', exec z_cb (Prune one) (final runT) = ORet r s' ∧ length (made (final runT) s') = 3%nat).
Proof.
  assert (history z_cb fits fits (events runT) (final runT)) as HH by (apply play_is; by vm_compute).
  assert (is_Some (contents (after z_cmp (events runT)) one)) as [m Hm] by (eexists; vm_compute; reflexivity).
  destruct (tree_shape z_cb fits fits z_wf _ _ one m HH Hm) as (mn & ca & S & h & g & HP & _).
  exists m, mn, ca, S, h, g. split_and!; [exact HH|exact Hm|exact HP|..].
  - do 2 eexists. split; [by apply outcome_ret; vm_compute|]. by vm_compute.
  - do 2 eexists. split; [by apply outcome_ret; vm_compute|]. by vm_compute.
Qed.

(** * Property theorems: Dump (C46, C47, C48)

    [RDump ls] (Machine.v): Dump returned without an error after printing the
    lines [ls]; [printed ls] are the entries in them, [shown ls] the locations of
    the nodes in them, both in the order of the lines.  [made s s'] (Machine.v):
    the storage callbacks made on the way from [s] to [s'], [true] for those that
    failed.  [pictured s t mn ca S h g] as in PropsPicture.v: the tree [t] looks
    like [g], and [locs g] are the locations of its nodes that are not modified. *)
From Coq Require Import ssreflect String.
From stdpp Require Import prelude list gmap.
From Verif Require Import Spec SpecFacts Llrb LlrbSpec LlrbDump Compare CompareProof PropsLlrb BTree Wp Codec Ghost Api Touch Report Open Pres Rep Machine Still World Client Sample Disk Picture Hist Seat History Footprint Dumped Runs.
Open Scope Z_scope.

(** ** C46 *)
(** If no callback failed, Dump prints the entries in the order of their keys,
    and where the nodes are stored that are not modified.  In any case what it
    prints is right as far as it goes, and the tree is as it was. *)
Theorem C46_dump :
  ∀ (K V : Type) (cb : callbacks K V) (dom : K → Prop) (domV : V → Prop), wf_cb cb dom domV →
  ∀ hi s t m mn ca S h g r s', history cb dom domV hi s → contents (after (cb_cmp cb) hi) t = Some m → pictured cb dom domV s t mn ca S h g →
  exec cb (Dump t) s = ORet r s' →
  ∃ ls, r = RDump ls ∧ printed ls `sublist_of` m ∧ Machine.shown ls `sublist_of` locs g ∧
    (true ∉ made s s' → printed ls = m ∧ Machine.shown ls = locs g) ∧
    ∃ g', pictured cb dom domV s' t mn ca S h g' ∧ strip g' = strip g ∧ locs g' = locs g.
Proof. exact @dump_exact. Qed.
Print Assumptions C46_dump.
(** Every Dump comes back, with an error only if a callback failed. *)
Theorem C46_dump_ends :
  ∀ (K V : Type) (cb : callbacks K V) (dom : K → Prop) (domV : V → Prop), wf_cb cb dom domV →
  ∀ h s t m, history cb dom domV h s → contents (after (cb_cmp cb) h) t = Some m →
  match exec cb (Dump t) s with
  | ORet r s' => ∃ ls, r = RDump ls ∧ (true ∉ made s s' → printed ls = m)
  | OErr e s' => e = EIO ∧ true ∈ made s s'
  | OStop x _ => x = Crash ∨ x = Env
  end.
Proof. exact @dump_ends. Qed.
Print Assumptions C46_dump_ends.

(** twelve entries, stored and not loaded, then one of them changed *)
Example C46_nonvacuous : ∃ h s s' m ls, history z_cb fits fits h s ∧ contents (after z_cmp h) one = Some m ∧
  length m = 12%nat ∧ exec z_cb (Dump one) s = ORet (RDump ls) s' ∧ true ∉ made s s' ∧ length (made s s') = 3%nat ∧
  printed ls = m ∧ length (Machine.shown ls) = 3%nat.
Proof.
  give (events runS). exists (final runS). exists (end_st (exec z_cb (Dump one) (final runS))). eexists. eexists. split_and!.
  - apply play_is; by vm_compute.
  - by vm_compute.
  - by vm_compute.
  - apply outcome_ret. by vm_compute.
  - vm_compute. intros H. repeat (apply elem_of_cons in H as [H|H]; [done|]). by apply elem_of_nil in H.
  - by vm_compute.
  - by vm_compute.
  - by vm_compute.
Qed.

(** ** C47 *)
(** Dump can return without an error although a callback failed and entries are
    missing from what it printed. *)
Definition runDump := play [7%nat] [] (twelve ++ [Some (Flush one true)]).
Theorem C47_dump_reports_errors_refuted : ∃ h s s' m ls,
  history z_cb fits fits h s ∧ contents (after z_cmp h) one = Some m ∧ length m = 12%nat ∧
  exec z_cb (Dump one) s = ORet (RDump ls) s' ∧ true ∈ made s s' ∧ (length (printed ls) < 12)%nat.
Proof.
  give (events runDump). exists (final runDump). exists (end_st (exec z_cb (Dump one) (final runDump))). eexists. eexists. split_and!.
  - apply play_is; by vm_compute.
  - by vm_compute.
  - by vm_compute.
  - apply outcome_ret. by vm_compute.
  - vm_compute. repeat first [apply elem_of_list_here|apply elem_of_list_further].
  - vm_compute. lia.
Qed.
Print Assumptions C47_dump_reports_errors_refuted.

(** ** C48: LLRBTree.Dump (LlrbDump.v)

    [llrb_Dump dk t = (ls, ok)]: with [dk] for DumpKey, Dump printed [ls], and
    [ok] says if it returned no error.  [tree_names ls] and [flat_names ls] are
    the keys in the lines of the drawing and of the list in front of it, in the
    order of the lines, [depths ls] how far the lines of the drawing are
    indented. *)
(** If DumpKey can print every key, Dump succeeds; the drawing shows the keys
    from the last to the first, the list shows each once, and the drawing is not
    deeper than a balanced tree. *)
Theorem C48_llrb_dump :
  ∀ (K V : Type) (cmp : K → K → option Z) (dom : K → Prop), total_order cmp dom →
  ∀ (dk : K → option string) (nm : K → string) (t : tree K V), llrb_reachable cmp dom t →
  (∀ k v, (k, v) ∈ elements t → dk k = Some (nm k)) →
  ∃ ls, llrb_Dump dk t = (ls, true) ∧
    tree_names ls = reverse (nm <$> (elements t).*1) ∧ flat_names ls ≡ₚ nm <$> (elements t).*1 ∧
    Forall (λ d, d ≤ 2 * Nat.log2 (length (elements t) + 1))%nat (depths ls).
Proof. exact @llrb_dumped. Qed.
Print Assumptions C48_llrb_dump.
(** If DumpKey fails for some key, Dump returns an error. *)
Theorem C48_llrb_dump_fails :
  ∀ (K V : Type) (dk : K → option string) k v (t : tree K V), (k, v) ∈ elements t → dk k = None → (llrb_Dump dk t).2 = false.
Proof. exact @llrb_dump_fails. Qed.
Print Assumptions C48_llrb_dump_fails.
(** A line of the list says of one node its colour, its key, the keys of its left
    and its right child and the number of nodes below it, and there is a line for every
    node.  In the drawing the branch in front of a key shows if the node is
    a left or a right child, and the bars where the way to it turns. *)
Theorem C48_llrb_dump_lines :
  ∀ (K V : Type) (dk : K → option string) (nm : K → string) (t : tree K V),
  (∀ k v, (k, v) ∈ elements t → dk k = Some (nm k)) →
  let ls := (llrb_Dump dk t).1 in
  (∀ c s a b n, LFlat c s a b n ∈ ls ↔
     ∃ l k v r, is_node_of (T c l k v r n) t ∧ s = nm k ∧ a = child_name nm l ∧ b = child_name nm r) ∧
  (∀ p k, key_at t p = Some k →
     ∃ l1 l2, ls = l1 ++ match p with [] => [LRoot (nm k)] | d :: q => [LBranch (bars p) (List.last q d); LName (nm k)] end ++ l2).
Proof. exact @llrb_dump_lines. Qed.
Print Assumptions C48_llrb_dump_lines.
(** Trees that are dumped alike have the same nodes in the same places, of the
    same colours and sizes, with keys that are printed alike, if no key is
    printed as nil. *)
Theorem C48_llrb_dump_faithful :
  ∀ (K V : Type) (dk : K → option string) (nm : K → string) (t1 t2 : tree K V),
  (∀ k v, (k, v) ∈ elements t1 ++ elements t2 → dk k = Some (nm k) ∧ nm k ≠ "nil"%string) →
  llrb_Dump dk t1 = llrb_Dump dk t2 → looks_like dk t1 t2.
Proof. exact @llrb_dump_same. Qed.
Print Assumptions C48_llrb_dump_faithful.
Definition ex_name (k : key) : string := match k with KInt 1 => "one" | KInt 7 => "seven" | KInt 9 => "nine" | _ => "other" end.
Example C48_nonvacuous : ∃ t : tree key Z, llrb_reachable CompareInt small_int t ∧
  elements t = [(KInt 1, 11); (KInt 7, 70); (KInt 9, 90)] ∧
  llrb_Dump (λ k, Some (ex_name k)) t =
    ([LFlat false "seven" "one" "nine" 3; LFlat false "one" "nil" "nil" 1; LFlat false "nine" "nil" "nil" 1;
      LBranch [] true; LName "nine"; LRoot "seven"; LBranch [] false; LName "one"], true) ∧
  (llrb_Dump (λ k, match k with KInt 9 => None | _ => Some (ex_name k) end) t) = ([LFailed], false).
Proof.
  eexists. split; [exists ex_ops; eexists; split; [apply C01_nonvacuous|reflexivity]|]. split_and!; reflexivity.
Qed.
(** the hypotheses of [C48_llrb_dump_faithful] hold for two trees with different
    values *)
Example C48_faithful_nonvacuous : ∃ t1 t2 : tree key Z, t1 ≠ t2 ∧
  (∀ k v, (k, v) ∈ elements t1 ++ elements t2 → Some (ex_name k) = Some (ex_name k) ∧ ex_name k ≠ "nil"%string) ∧
  llrb_Dump (λ k, Some (ex_name k)) t1 = llrb_Dump (λ k, Some (ex_name k)) t2.
Proof.
  exists (T false (T true E (KInt 1) 10 E 1) (KInt 7) 70 E 2), (T false (T true E (KInt 1) 11 E 1) (KInt 7) 70 E 2).
  split_and!; [done| |reflexivity]. intros k v H. split; [done|].
  repeat (apply elem_of_cons in H as [[= -> ->]|H]; [done|]). by apply elem_of_nil in H.
Qed.

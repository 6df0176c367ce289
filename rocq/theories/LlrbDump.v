(** * Model of llrb_dump.go

    DumpKey (common_api.go:190) is a function from keys to a string or
    an error: it has no state.  What is printed is a list of pieces.  The tree is
    only read, so the state after Dump is the state before it.  The mutex is not
    modelled here, as in Llrb.v. *)
From Coq Require Import String.
From stdpp Require Import prelude list.
From Verif Require Import Spec Llrb LlrbSpec LlrbProof LlrbDelete LlrbApi LlrbProps.
Open Scope Z_scope.

(** What the Printf calls print: a line of the flat form (llrb_dump.go:69), the root's
    line of the tree form (103), the branch in front of a key (133-138; [indent]
    lists the joined pieces, [true] for a piece with a bar), the key behind it
    (145), an error (20, 27). *)
Inductive lline :=
  | LFlat (color : bool) (this left right : string) (len : Z)
  | LRoot (key : string)
  | LBranch (indent : list bool) (isRight : bool)
  | LName (key : string)
  | LFailed.

(** What was printed, and if there was no error.  [dseq]: the idiom
    [err = f(); if nil != err { return }] *)
Definition dout : Type := list lline * bool.
Definition dseq (x y : dout) : dout := if x.2 then (x.1 ++ y.1, y.2) else x.

Section dump.
  Context {K V : Type}.
  Variable dk : K → option string.
  Notation tree := (tree K V).

  (** llrb_dump.go:41-55: "nil", or the key of a child *)
  Definition label (t : tree) : option string := match t with E => Some "nil"%string | T _ _ k _ _ _ => dk k end.

  (** llrb_dump.go:35-83 *)
  Fixpoint dumpInFlatForm (t : tree) : dout :=
    match t with
    | E => ([], true)
    | T c l k _ r n =>
        match label l, label r, dk k with
        | Some nl, Some nr, Some s => dseq ([LFlat c s nl nr n], true) (dseq (dumpInFlatForm l) (dumpInFlatForm r))
        | _, _, _ => ([], false)
        end
    end.

  (** llrb_dump.go:116-162.  The test for nil is the callers' (91, 105, 120, 147). *)
  Fixpoint dumpInTreeFormNode (t : tree) (isRight : bool) (indent : list bool) : dout :=
    match t with
    | E => ([], true)
    | T _ l k _ r _ =>
        dseq (dumpInTreeFormNode r true (indent ++ [negb isRight]))
          (dseq ([LBranch indent isRight], true)
            (match dk k with
             | None => ([], false)
             | Some s => dseq ([LName s], true) (dumpInTreeFormNode l false (indent ++ [isRight]))
             end))
    end.

  (** llrb_dump.go:85-114 *)
  Definition dumpInTreeForm (t : tree) : dout :=
    match t with
    | E => ([], true)
    | T _ l k _ r _ =>
        dseq (dumpInTreeFormNode r true [])
          (match dk k with
           | None => ([], false)
           | Some s => dseq ([LRoot s], true) (dumpInTreeFormNode l false [])
           end)
    end.

  (** llrb_dump.go:11-33 *)
  Definition llrb_Dump (t : tree) : dout :=
    let failing (x : dout) : dout := if x.2 then x else (x.1 ++ [LFailed], false) in
    dseq (failing (dumpInFlatForm t)) (failing (dumpInTreeForm t)).
End dump.

(** ** Reading a dump.  Models no code. *)
Definition flat_names (ls : list lline) : list string := omap (λ x, match x with LFlat _ s _ _ _ => Some s | _ => None end) ls.
Definition tree_names (ls : list lline) : list string := omap (λ x, match x with LRoot s | LName s => Some s | _ => None end) ls.
(** how far down the line of a key of the tree form is shown; the root is at 1 *)
Definition depths (ls : list lline) : list nat := omap (λ x, match x with LRoot _ => Some 1%nat | LBranch i _ => Some (2 + length i)%nat | _ => None end) ls.
(** the same nodes in the same places, with the same colours and sizes, and keys
    that are printed alike *)
Fixpoint looks_like {K V} (dk : K → option string) (t1 t2 : tree K V) : Prop :=
  match t1, t2 with
  | E, E => True
  | T c1 l1 k1 _ r1 n1, T c2 l2 k2 _ r2 n2 => c1 = c2 ∧ dk k1 = dk k2 ∧ n1 = n2 ∧ looks_like dk l1 l2 ∧ looks_like dk r1 r2
  | _, _ => False
  end.
(** what a line of the flat form says about a child *)
Definition child_name {K V} (nm : K → string) (t : tree K V) : string := match t with E => "nil"%string | T _ _ k _ _ _ => nm k end.
(** the key of the node that is reached from the root by steps to the left
    ([false]) and to the right ([true]) *)
Fixpoint key_at {K V} (t : tree K V) (p : list bool) : option K :=
  match t, p with
  | E, _ => None
  | T _ _ k _ _ _, [] => Some k
  | T _ l _ _ r _, d :: p => key_at (if d then r else l) p
  end.
(** the bars in front of the node that [p] leads to: one where the way turns *)
Fixpoint bars (p : list bool) : list bool :=
  match p with d :: (d' :: _) as q => xorb d d' :: bars q | _ => [] end.

Section proof.
  Context {K V : Type}.
  Variable dk : K → option string.
  Notation tree := (tree K V).
  Definition shows (nm : K → string) (m : list (K * V)) : Prop := Forall (λ p, dk p.1 = Some (nm p.1)) m.

  Lemma shows_T nm c l k v r n : shows nm (elements (T c l k v r n)) ↔ shows nm (elements l) ∧ dk k = Some (nm k) ∧ shows nm (elements r).
  Proof. unfold shows. cbn. by rewrite Forall_app, Forall_cons. Qed.
  Lemma label_shows nm (t : tree) : shows nm (elements t) → ∃ s, label dk t = Some s.
  Proof. destruct t as [|c l k v r n]; [cbn; eauto|]. rewrite shows_T. cbn. intros (_ & -> & _). eauto. Qed.

  Lemma flat_ok nm t : shows nm (elements t) →
    (dumpInFlatForm dk t).2 = true ∧ flat_names (dumpInFlatForm dk t).1 ≡ₚ nm <$> (elements t).*1 ∧
    tree_names (dumpInFlatForm dk t).1 = [] ∧ depths (dumpInFlatForm dk t).1 = [].
  Proof.
    induction t as [|c l IHl k v r IHr n]; [done|]. intros H. apply shows_T in H as (Hl & Hk & Hr).
    destruct (label_shows _ _ Hl) as [nl El], (label_shows _ _ Hr) as [nr Er]. cbn [dumpInFlatForm]. rewrite El, Er, Hk.
    destruct (IHl Hl) as (L1 & L2 & L3 & L4), (IHr Hr) as (R1 & R2 & R3 & R4).
    unfold dseq. rewrite L1. cbn [fst snd elements]. split_and!; [done|..]; unfold flat_names, tree_names, depths in *; cbn [omap list_omap app].
    - rewrite !omap_app. rewrite !fmap_app. cbn. rewrite L2, R2. by rewrite <-Permutation_middle.
    - by rewrite !omap_app, L3, R3.
    - by rewrite !omap_app, L4, R4.
  Qed.
  Lemma node_ok nm t : shows nm (elements t) → ∀ right indent,
    let x := dumpInTreeFormNode dk t right indent in
    x.2 = true ∧ tree_names x.1 = reverse (nm <$> (elements t).*1) ∧ flat_names x.1 = [] ∧
    Forall (λ d, d ≤ 1 + length indent + height t)%nat (depths x.1).
  Proof.
    induction t as [|c l IHl k v r IHr n]; [by repeat constructor|]. intros H right indent. apply shows_T in H as (Hl & Hk & Hr).
    cbn [dumpInTreeFormNode]. rewrite Hk. destruct (IHl Hl false (indent ++ [right])) as (L1 & L2 & L3 & L4), (IHr Hr true (indent ++ [negb right])) as (R1 & R2 & R3 & R4).
    unfold dseq. rewrite R1. cbn [fst snd]. unfold flat_names, tree_names, depths in *. split_and!; [done|..].
    - rewrite !omap_app. cbn [omap list_omap app elements]. rewrite R2, L2, !fmap_app, !fmap_cons, reverse_app, reverse_cons, <-app_assoc. done.
    - rewrite !omap_app. cbn. by rewrite R3, L3.
    - rewrite app_length in L4, R4. cbn in L4, R4. rewrite omap_app. cbn [omap list_omap app height]. repeat (apply Forall_app; split).
      + eapply Forall_impl; [exact R4|]. cbn. lia.
      + constructor; [lia|]. eapply Forall_impl; [exact L4|]. cbn. lia.
  Qed.
  Lemma form_ok nm t : shows nm (elements t) →
    let x := dumpInTreeForm dk t in
    x.2 = true ∧ tree_names x.1 = reverse (nm <$> (elements t).*1) ∧ flat_names x.1 = [] ∧ Forall (λ d, d ≤ height t)%nat (depths x.1).
  Proof.
    destruct t as [|c l k v r n]; [by repeat constructor|]. intros H. apply shows_T in H as (Hl & Hk & Hr).
    cbn [dumpInTreeForm]. rewrite Hk. destruct (node_ok nm l Hl false []) as (L1 & L2 & L3 & L4), (node_ok nm r Hr true []) as (R1 & R2 & R3 & R4).
    unfold dseq. rewrite R1. cbn [fst snd]. unfold flat_names, tree_names, depths in *. split_and!; [done|..].
    - rewrite !omap_app. cbn [omap list_omap app elements]. rewrite R2, L2, !fmap_app, !fmap_cons, reverse_app, reverse_cons, <-app_assoc. done.
    - rewrite !omap_app. cbn. by rewrite R3, L3.
    - cbn in L4, R4. rewrite omap_app. cbn [omap list_omap app height]. apply Forall_app; split.
      + eapply Forall_impl; [exact R4|]. cbn. lia.
      + constructor; [lia|]. eapply Forall_impl; [exact L4|]. cbn. lia.
  Qed.
  Lemma dump_ok nm t : shows nm (elements t) → ∃ ls, llrb_Dump dk t = (ls, true) ∧
    tree_names ls = reverse (nm <$> (elements t).*1) ∧ flat_names ls ≡ₚ nm <$> (elements t).*1 ∧ Forall (λ d, d ≤ height t)%nat (depths ls).
  Proof.
    intros H. destruct (flat_ok _ _ H) as (F1 & F2 & F3 & F4), (form_ok _ _ H) as (T1 & T2 & T3 & T4).
    unfold llrb_Dump, dseq. rewrite F1, T1. rewrite F1, T1. eexists. split; [reflexivity|]. unfold flat_names, tree_names, depths in *. rewrite !omap_app.
    rewrite F2, F3, F4, T2, T3, app_nil_r. done.
  Qed.

  Lemma flat_fails (t : tree) : Exists (λ p, dk p.1 = None) (elements t) → (dumpInFlatForm dk t).2 = false.
  Proof.
    induction t as [|c l IHl k v r IHr n]; cbn [elements]; [by intros H%Exists_nil|].
    rewrite Exists_app, Exists_cons. cbn [dumpInFlatForm fst]. intros H.
    destruct (label dk l); [|done]. destruct (label dk r); [|done]. destruct (dk k) eqn:Hk; [|done]. unfold dseq. cbn [fst snd].
    destruct H as [H|[H|H]]; [|done|].
    - rewrite (IHl H). cbn. apply IHl, H.
    - destruct (dumpInFlatForm dk l).2 eqn:El; cbn; [apply IHr, H|exact El].
  Qed.
  Lemma dump_fails (t : tree) : Exists (λ p, dk p.1 = None) (elements t) → (llrb_Dump dk t).2 = false.
  Proof. intros H%flat_fails. unfold llrb_Dump, dseq. rewrite H. done. Qed.

  Lemma flat_inj nm (t1 : tree) : ∀ (t2 : tree) ls1 ls2, shows nm (elements t1) → shows nm (elements t2) →
    Forall (λ p, nm p.1 ≠ "nil"%string) (elements t1) → Forall (λ p, nm p.1 ≠ "nil"%string) (elements t2) →
    (dumpInFlatForm dk t1).1 ++ ls1 = (dumpInFlatForm dk t2).1 ++ ls2 → label dk t1 = label dk t2 →
    looks_like dk t1 t2 ∧ ls1 = ls2.
  Proof.
    induction t1 as [|c1 l1 IHl k1 v1 r1 IHr n1]; intros [|c2 l2 k2 v2 r2 n2] ls1 ls2 S1 S2 N1 N2 He HL.
    - done.
    - apply shows_T in S2 as (_ & Hk & _). cbn in HL, N2. rewrite Hk in HL. apply Forall_app in N2 as [_ [N2 _]%Forall_cons]. cbn in N2. congruence.
    - apply shows_T in S1 as (_ & Hk & _). cbn in HL, N1. rewrite Hk in HL. apply Forall_app in N1 as [_ [N1 _]%Forall_cons]. cbn in N1. congruence.
    - apply shows_T in S1 as (Sl1 & Hk1 & Sr1), S2 as (Sl2 & Hk2 & Sr2). cbn [elements] in N1, N2.
      apply Forall_app in N1 as [Nl1 [_ Nr1]%Forall_cons], N2 as [Nl2 [_ Nr2]%Forall_cons].
      destruct (label_shows _ _ Sl1) as [a1 El1], (label_shows _ _ Sr1) as [b1 Er1], (label_shows _ _ Sl2) as [a2 El2], (label_shows _ _ Sr2) as [b2 Er2].
      destruct (flat_ok _ _ Sl1) as [F1 _], (flat_ok _ _ Sl2) as [F2 _].
      revert He. cbn [dumpInFlatForm looks_like]. rewrite El1, Er1, El2, Er2, Hk1, Hk2. unfold dseq. rewrite F1, F2. cbn [fst snd app].
      rewrite <-!app_assoc. intros [= -> Hs -> -> -> He]. destruct (IHl l2 _ _ Sl1 Sl2 Nl1 Nl2 He ltac:(congruence)) as [HL1 He'].
      destruct (IHr r2 _ _ Sr1 Sr2 Nr1 Nr2 He' ltac:(congruence)) as [HL2 ->]. split; [|done]. split_and!; try done. congruence.
  Qed.
  Lemma dump_same nm (t1 t2 : tree) : shows nm (elements t1) → shows nm (elements t2) →
    Forall (λ p, nm p.1 ≠ "nil"%string) (elements t1) → Forall (λ p, nm p.1 ≠ "nil"%string) (elements t2) →
    llrb_Dump dk t1 = llrb_Dump dk t2 → looks_like dk t1 t2.
  Proof.
    intros S1 S2 N1 N2 He. destruct (flat_ok _ _ S1) as [F1 _], (flat_ok _ _ S2) as [F2 _].
    destruct (form_ok _ _ S1) as [G1 _], (form_ok _ _ S2) as [G2 _].
    revert He. unfold llrb_Dump, dseq. rewrite F1, F2, G1, G2. rewrite F1, F2. intros [= He].
    destruct t1 as [|c1 l1 k1 v1 r1 n1], t2 as [|c2 l2 k2 v2 r2 n2].
    - done.
    - exfalso. revert He. apply shows_T in S2 as (Sl & Hk & Sr). destruct (label_shows _ _ Sl) as [a1 El1], (label_shows _ _ Sr) as [b1 Er1].
      cbn [dumpInFlatForm]. rewrite El1, Er1, Hk. done.
    - exfalso. revert He. apply shows_T in S1 as (Sl & Hk & Sr). destruct (label_shows _ _ Sl) as [a1 El1], (label_shows _ _ Sr) as [b1 Er1].
      cbn [dumpInFlatForm]. rewrite El1, Er1, Hk. done.
    - refine (proj1 (flat_inj nm _ _ _ _ S1 S2 N1 N2 He _)). revert He. cbn [label].
      apply shows_T in S1 as (Sl1 & Hk1 & Sr1), S2 as (Sl2 & Hk2 & Sr2).
      destruct (label_shows _ _ Sl1) as [a1 El1], (label_shows _ _ Sr1) as [b1 Er1], (label_shows _ _ Sl2) as [a2 El2], (label_shows _ _ Sr2) as [b2 Er2].
      cbn [dumpInFlatForm]. rewrite El1, Er1, El2, Er2, Hk1, Hk2. unfold dseq. cbn. congruence.
  Qed.

  Lemma label_name nm (t : tree) : shows nm (elements t) → label dk t = Some (child_name nm t).
  Proof. destruct t as [|c l k v r n]; [done|]. rewrite shows_T. cbn. by intros (_ & -> & _). Qed.
  Lemma flat_lines nm (t : tree) : shows nm (elements t) → ∀ c s a b n,
    LFlat c s a b n ∈ (dumpInFlatForm dk t).1 ↔
    ∃ l k v r, is_node_of (T c l k v r n) t ∧ s = nm k ∧ a = child_name nm l ∧ b = child_name nm r.
  Proof.
    induction t as [|c l IHl k v r IHr n]; intros H c' s a b n'.
    { cbn. rewrite elem_of_nil. split; [done|]. by intros (? & ? & ? & ? & [] & _). }
    apply shows_T in H as (Hl & Hk & Hr). cbn [dumpInFlatForm]. rewrite (label_name nm l), (label_name nm r), Hk by done.
    destruct (flat_ok nm l Hl) as (L1 & _). unfold dseq. rewrite L1. cbn [fst snd]. cbn [app].
    rewrite elem_of_cons, elem_of_app, IHl, IHr by done. cbn [is_node_of]. split.
    - intros [[= -> -> -> -> ->]|[(l' & k' & v' & r' & H & H')|(l' & k' & v' & r' & H & H')]].
      + exists l, k, v, r. auto.
      + exists l', k', v', r'. auto.
      + exists l', k', v', r'. auto.
    - intros (l' & k' & v' & r' & [H|[H|H]] & H').
      + injection H as -> -> -> -> -> ->. left. destruct H' as (-> & -> & ->). done.
      + right. left. exists l', k', v', r'. auto.
      + right. right. exists l', k', v', r'. auto.
  Qed.
  Lemma node_lines nm (t : tree) : shows nm (elements t) → ∀ d indent p k, key_at t p = Some k →
    ∃ l1 l2, (dumpInTreeFormNode dk t d indent).1 =
      l1 ++ LBranch (indent ++ bars (d :: p)) (List.last p d) :: LName (nm k) :: l2.
  Proof.
    induction t as [|c l IHl k v r IHr n]; intros H d indent p k0 Hp; [done|].
    apply shows_T in H as (Hl & Hk & Hr). cbn [dumpInTreeFormNode]. rewrite Hk.
    destruct (node_ok nm r Hr true (indent ++ [negb d])) as (R1 & _). unfold dseq. rewrite R1. cbn [fst snd app].
    destruct p as [|[] p]; cbn [key_at] in Hp.
    - injection Hp as <-. cbn [bars List.last]. rewrite app_nil_r. by eexists _, _.
    - destruct (IHr Hr true (indent ++ [negb d]) _ _ Hp) as (l1 & l2 & ->).
      exists l1, (l2 ++ LBranch indent d :: LName (nm k) :: (dumpInTreeFormNode dk l false (indent ++ [d])).1).
      rewrite <-!app_assoc. cbn [app].
      assert (bars (d :: true :: p) = negb d :: bars (true :: p)) as -> by (cbn; by destruct d).
      assert (List.last (true :: p) d = List.last p true) as ->; [|done].
      clear. revert d. induction p as [|b p IH]; intros d; [done|]. cbn in *. destruct p; [done|]. by rewrite IH.
    - destruct (IHl Hl false (indent ++ [d]) _ _ Hp) as (l1 & l2 & ->).
      exists ((dumpInTreeFormNode dk r true (indent ++ [negb d])).1 ++ LBranch indent d :: LName (nm k) :: l1), l2.
      rewrite <-!app_assoc. cbn [app].
      assert (bars (d :: false :: p) = d :: bars (false :: p)) as -> by (cbn; by destruct d).
      assert (List.last (false :: p) d = List.last p false) as ->; [|done].
      clear. revert d. induction p as [|b p IH]; intros d; [done|]. cbn in *. destruct p; [done|]. by rewrite IH.
  Qed.
  Lemma form_lines nm (t : tree) : shows nm (elements t) → ∀ p k, key_at t p = Some k →
    ∃ l1 l2, (dumpInTreeForm dk t).1 =
      l1 ++ match p with [] => [LRoot (nm k)] | d :: q => [LBranch (bars p) (List.last q d); LName (nm k)] end ++ l2.
  Proof.
    destruct t as [|c l k v r n]; intros H p k0 Hp; [done|].
    apply shows_T in H as (Hl & Hk & Hr). cbn [dumpInTreeForm]. rewrite Hk.
    destruct (node_ok nm r Hr true []) as (R1 & _). unfold dseq. rewrite R1. cbn [fst snd app].
    destruct p as [|[] p]; cbn [key_at] in Hp.
    - injection Hp as <-. by eexists _, _.
    - destruct (node_lines nm r Hr true [] _ _ Hp) as (l1 & l2 & ->). exists l1. eexists. rewrite <-!app_assoc. done.
    - destruct (node_lines nm l Hl false [] _ _ Hp) as (l1 & l2 & ->).
      exists ((dumpInTreeFormNode dk r true []).1 ++ LRoot (nm k) :: l1), l2. rewrite <-!app_assoc. done.
  Qed.
  Lemma form_no_flat nm (t : tree) : shows nm (elements t) → ∀ c s a b n, LFlat c s a b n ∉ (dumpInTreeForm dk t).1.
  Proof.
    intros H c s a b n Hin. destruct (form_ok nm t H) as (_ & _ & H3 & _). cbn in H3.
    assert (s ∈ flat_names (dumpInTreeForm dk t).1) as Hs; [|rewrite H3 in Hs; by apply elem_of_nil in Hs].
    unfold flat_names. apply elem_of_list_omap. by eexists.
  Qed.
End proof.

Section props.
  Context {K V : Type} (cmp : K → K → option Z) (dom : K → Prop).
  Hypothesis ORD : total_order cmp dom.
  Lemma llrb_dumped (dk : K → option string) nm (t : tree K V) : llrb_reachable cmp dom t →
    (∀ k v, (k, v) ∈ elements t → dk k = Some (nm k)) →
    ∃ ls, llrb_Dump dk t = (ls, true) ∧
      tree_names ls = reverse (nm <$> (elements t).*1) ∧ flat_names ls ≡ₚ nm <$> (elements t).*1 ∧
      Forall (λ d, d ≤ 2 * Nat.log2 (length (elements t) + 1))%nat (depths ls).
  Proof using ORD.
    intros Hr Hs. destruct (dump_ok dk nm t) as (ls & H1 & H2 & H3 & H4).
    { apply Forall_forall. intros [k v]. apply Hs. }
    exists ls. split_and!; [done..|]. eapply Forall_impl; [exact H4|]. cbn. intros d Hd.
    destruct (reachable_inv _ _ _ _ ORD t Hr) as (_ & _ & _ & n & Hw). pose proof (wf_depth n t Hw). lia.
  Qed.
End props.
Lemma llrb_dump_fails {K V} (dk : K → option string) k v (t : tree K V) : (k, v) ∈ elements t → dk k = None → (llrb_Dump dk t).2 = false.
Proof. intros H1 H2. apply dump_fails. apply Exists_exists. by exists (k, v). Qed.
Lemma llrb_dump_same {K V} (dk : K → option string) nm (t1 t2 : tree K V) :
  (∀ k v, (k, v) ∈ elements t1 ++ elements t2 → dk k = Some (nm k) ∧ nm k ≠ "nil"%string) →
  llrb_Dump dk t1 = llrb_Dump dk t2 → looks_like dk t1 t2.
Proof.
  intros H. apply (dump_same dk nm); apply Forall_forall; intros [k v] Hin; apply (H k v); set_solver.
Qed.
Lemma llrb_dump_lines {K V} (dk : K → option string) nm (t : tree K V) : (∀ k v, (k, v) ∈ elements t → dk k = Some (nm k)) →
  let ls := (llrb_Dump dk t).1 in
  (∀ c s a b n, LFlat c s a b n ∈ ls ↔
     ∃ l k v r, is_node_of (T c l k v r n) t ∧ s = nm k ∧ a = child_name nm l ∧ b = child_name nm r) ∧
  (∀ p k, key_at t p = Some k →
     ∃ l1 l2, ls = l1 ++ match p with [] => [LRoot (nm k)] | d :: q => [LBranch (bars p) (List.last q d); LName (nm k)] end ++ l2).
Proof.
  intros H. assert (shows dk nm (elements t)) as Hs by (apply Forall_forall; intros [k v]; apply H).
  destruct (flat_ok dk nm t Hs) as (F1 & _), (form_ok dk nm t Hs) as (G1 & _).
  unfold llrb_Dump, dseq. cbn zeta. rewrite F1, G1. rewrite F1. cbn [fst snd]. split.
  - intros c s a b n. rewrite elem_of_app, (flat_lines dk nm t Hs). split; [|by left]. intros [?|Hin]; [done|].
    by apply (form_no_flat dk nm t Hs) in Hin.
  - intros p k Hp. destruct (form_lines dk nm t Hs p k Hp) as (l1 & l2 & ->).
    exists ((dumpInFlatForm dk t).1 ++ l1), l2. by rewrite <-!app_assoc.
Qed.

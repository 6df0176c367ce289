(** * Trees as the proofs see them

    Models no code: the abstract shape of a B+Tree, on storage ([dt]), in
    memory ([gt]) and stripped of everything but contents ([ct]). *)
From Coq Require Import ssreflect Sorted.
From stdpp Require Import prelude list gmap.
From Verif Require Import Spec SpecFacts BTree Codec.
Open Scope Z_scope.

(** state of a loaded node: [Clean l]: as stored at [l]; [Dirty]: modified;
    the others occur only in the middle of a call: [New]: modified and not yet
    known to the cache; [Old l]: about to be marked modified, a block at [l]
    still belongs to it; [DirtyP]: modified, about to be marked again *)
Inductive nst := Clean (l : loc) | Dirty | New | Old (l : loc) | DirtyP.
Definition stloc (st : nst) : loc := match st with Clean l | Old l => l | _ => noloc end.
Definition stdirty (st : nst) : bool := match st with Clean _ | Old _ => false | _ => true end.
Definition sttag (st : nst) : ctag :=
  match st with Clean _ | Old _ => cleanLRU | Dirty | DirtyP => dirtyLRU | New => noLRU end.
Definition stok (st : nst) : bool := match st with Clean _ | Dirty => true | _ => false end.

Lemma join_app {A} (a b : list (list A)) : mjoin (a ++ b) = mjoin a ++ mjoin b.
Proof. induction a as [|x a IH]; simpl; [done|]. by rewrite IH app_assoc. Qed.

Section ghost.
  Context {K V : Type}.

  Inductive ct := CL (kvs : list (K * V)) | CI (ks : list K) (cs : list ct).
  Inductive dt := DL (l : loc) (kvs : list (K * V)) | DI (l : loc) (ks : list K) (ds : list dt).
  Inductive gt :=
    | GD (n : nid) (d : dt)
    | GL (n : nid) (st : nst) (kvs : list (K * V))
    | GI (n : nid) (st : nst) (ks : list K) (cs : list gt).

  Fixpoint dstrip (d : dt) : ct :=
    match d with DL _ kvs => CL kvs | DI _ ks ds => CI ks (dstrip <$> ds) end.
  Fixpoint strip (g : gt) : ct :=
    match g with GD _ d => dstrip d | GL _ _ kvs => CL kvs | GI _ _ ks cs => CI ks (strip <$> cs) end.
  Definition dloc (d : dt) : loc := match d with DL l _ | DI l _ _ => l end.
  Definition gid (g : gt) : nid := match g with GD n _ | GL n _ _ | GI n _ _ _ => n end.
  (** where the node is stored, if it is unmodified *)
  Definition gloc (g : gt) : option loc :=
    match g with
    | GD _ d => Some (dloc d)
    | GL _ (Clean l) _ | GI _ (Clean l) _ _ => Some l
    | _ => None
    end.

  (** ** Contents as a sequence of items and separators *)
  Inductive tok := TI (k : K) (v : V) | TS (k : K).
  Definition tkey (t : tok) : K := match t with TI k _ | TS k => k end.
  Definition titem (t : tok) : option (K * V) := match t with TI k v => Some (k, v) | TS _ => None end.
  Definition itoks (kvs : list (K * V)) : list tok := (λ p, TI p.1 p.2) <$> kvs.
  (** tokens before and after a child *)
  Definition tpre (ks : list K) (css : list (list tok)) : list tok :=
    mjoin (zip_with (λ c k, c ++ [TS k]) css ks).
  Definition tpost (ks : list K) (css : list (list tok)) : list tok :=
    mjoin (zip_with (λ k c, TS k :: c) ks css).
  Definition inter (ks : list K) (css : list (list tok)) : list tok :=
    match css with [] => [] | c :: css => c ++ tpost ks css end.
  Fixpoint toks (c : ct) : list tok :=
    match c with CL kvs => itoks kvs | CI ks cs => inter ks (toks <$> cs) end.
  Definition titems (ts : list tok) : list (K * V) := omap titem ts.
  Global Arguments titems : simpl never.
  Definition items (c : ct) : list (K * V) := titems (toks c).
  Definition csz (c : ct) : Z := Z.of_nat (length (items c)).
  Definition gsz (g : gt) : Z := csz (strip g).
  (** what a parent knows about a child *)
  Record info := Info { i_id : nid; i_sz : Z; i_loc : option loc }.
  Definition ginfo (g : gt) : info := Info (gid g) (gsz g) (gloc g).

  Lemma tpre_app ka la kb lb : length ka = length la →
    tpre (ka ++ kb) (la ++ lb) = tpre ka la ++ tpre kb lb.
  Proof. intros H. unfold tpre. rewrite zip_with_app //. by rewrite join_app. Qed.
  Lemma tpost_app ka la kb lb : length ka = length la →
    tpost (ka ++ kb) (la ++ lb) = tpost ka la ++ tpost kb lb.
  Proof. intros H. unfold tpost. rewrite zip_with_app //. by rewrite join_app. Qed.
  Lemma inter_mid ka la c kb lb : length ka = length la →
    inter (ka ++ kb) (la ++ c :: lb) = tpre ka la ++ c ++ tpost kb lb.
  Proof.
    destruct la as [|x la]; destruct ka as [|k ka]; intros H; simplify_eq/=; [done|].
    unfold tpre. simpl. fold (tpre ka la).
    revert x k ka H. induction la as [|y la IH]; intros x k [|k' ka] H; simplify_eq/=.
    - unfold tpost, tpre. simpl. by rewrite -!app_assoc.
    - specialize (IH y k' ka H). unfold tpost, tpre in *. simpl in *.
      rewrite -!app_assoc /= in IH. rewrite -!app_assoc /=. by rewrite IH.
  Qed.
  Lemma titems_app a b : titems (a ++ b) = titems a ++ titems b.
  Proof. apply omap_app. Qed.
  Lemma titems_itoks kvs : titems (itoks kvs) = kvs.
  Proof. induction kvs as [|[k v] kvs IH]; [done|]. rewrite -{2}IH. done. Qed.
  Lemma titems_tpost ks css : length ks = length css → titems (tpost ks css) = mjoin (titems <$> css).
  Proof.
    revert ks. induction css as [|c css IH]; intros [|k ks] H; simplify_eq/=; [done|].
    change (tpost (k :: ks) (c :: css)) with ([TS k] ++ c ++ tpost ks css). rewrite !titems_app. by rewrite (IH ks).
  Qed.
  Lemma titems_tpre ks css : length ks = length css → titems (tpre ks css) = mjoin (titems <$> css).
  Proof.
    revert ks. induction css as [|c css IH]; intros [|k ks] H; simplify_eq/=; [done|].
    change (tpre (k :: ks) (c :: css)) with ((c ++ [TS k]) ++ tpre ks css). rewrite !titems_app /= app_nil_r. by rewrite (IH ks).
  Qed.
  Lemma items_CL kvs : items (CL kvs) = kvs.
  Proof. apply titems_itoks. Qed.
  Lemma items_CI ks cs : length cs = S (length ks) → items (CI ks cs) = mjoin (items <$> cs).
  Proof.
    destruct cs as [|c cs]; [done|]. intros [= H]. unfold items. cbn. rewrite titems_app. f_equal.
    rewrite titems_tpost ?fmap_length //. by rewrite -list_fmap_compose.
  Qed.
  Lemma csz_CL kvs : csz (CL kvs) = Z.of_nat (length kvs).
  Proof. unfold csz. by rewrite items_CL. Qed.
  Definition sumz (l : list Z) : Z := foldr Z.add 0 l.
  Lemma sumz_app a b : sumz (a ++ b) = sumz a + sumz b.
  Proof. induction a as [|x a IH]; simpl; [lia|]. unfold sumz in *. simpl in *. lia. Qed.
  Lemma sumz_cons x a : sumz (x :: a) = x + sumz a.
  Proof. done. Qed.
  Lemma csz_CI ks cs : length cs = S (length ks) → csz (CI ks cs) = sumz (csz <$> cs).
  Proof.
    intros H. unfold csz at 1. rewrite items_CI //. clear H. induction cs as [|c cs IH]; [done|].
    cbn. rewrite app_length. unfold csz. fold csz. rewrite Nat2Z.inj_add. f_equal. exact IH.
  Qed.

  (** ** Shape *)
  Variable mn : nat. (* minKeysPerNode; maxKeysPerNode is twice that *)
  (** [b]: least number of keys in the node itself *)
  Fixpoint wfo (b : nat) (h : nat) (c : ct) : Prop :=
    match h, c with
    | O, CL kvs => (b ≤ length kvs ≤ 2 * mn)%nat
    | S h, CI ks cs => length cs = S (length ks) ∧ (b ≤ length ks ≤ 2 * mn)%nat ∧ Forall (wfo mn h) cs
    | _, _ => False
    end.
  Definition rlow (h : nat) : nat := match h with O => O | _ => 1 end.

  (** ** Zippers *)
  Record frame := Frame {
    f_n : nid; f_st : nst; f_ka : list K; f_ls : list gt; f_kb : list K; f_rs : list gt }.
  Definition zip1 (f : frame) (g : gt) : gt :=
    GI (f_n f) (f_st f) (f_ka f ++ f_kb f) (f_ls f ++ g :: f_rs f).
  Fixpoint fill (C : list frame) (g : gt) : gt :=
    match C with [] => g | f :: C => fill C (zip1 f g) end.
  Definition ltoks (l : list gt) : list (list tok) := (toks ∘ strip) <$> l.
  Fixpoint cpre (C : list frame) : list tok :=
    match C with [] => [] | f :: C => cpre C ++ tpre (f_ka f) (ltoks (f_ls f)) end.
  Fixpoint cpost (C : list frame) : list tok :=
    match C with [] => [] | f :: C => tpost (f_kb f) (ltoks (f_rs f)) ++ cpost C end.
  (** least number of keys of the node in the hole of [C], at height [h] *)
  Definition low (C : list frame) (h : nat) : nat := match C with [] => rlow h | _ => mn end.
  Fixpoint wfC (h : nat) (C : list frame) : Prop :=
    match C with
    | [] => True
    | f :: C =>
        length (f_ka f) = length (f_ls f) ∧ length (f_kb f) = length (f_rs f) ∧
        Forall (wfo mn h) (strip <$> f_ls f) ∧ Forall (wfo mn h) (strip <$> f_rs f) ∧
        (low C (S h) ≤ length (f_ka f) + length (f_kb f) ≤ 2 * mn)%nat ∧
        wfC (S h) C
    end.
  Definition lens (C : list frame) : Prop :=
    Forall (λ f, length (f_ka f) = length (f_ls f) ∧ length (f_kb f) = length (f_rs f)) C.

  Lemma wfC_lens h C : wfC h C → lens C.
  Proof.
    revert h. induction C as [|f C IH]; intros h; simpl; [constructor|].
    intros (?&?&_&_&_&?). constructor; [done|]. by eapply IH.
  Qed.
  Lemma toks_zip1 f g : length (f_ka f) = length (f_ls f) →
    toks (strip (zip1 f g)) =
    tpre (f_ka f) (ltoks (f_ls f)) ++ toks (strip g) ++ tpost (f_kb f) (ltoks (f_rs f)).
  Proof.
    intros H. cbn. rewrite -!list_fmap_compose fmap_app fmap_cons.
    rewrite inter_mid; [done|by rewrite fmap_length].
  Qed.
  Lemma toks_fill C g : lens C → toks (strip (fill C g)) = cpre C ++ toks (strip g) ++ cpost C.
  Proof.
    revert g. induction C as [|f C IH]; intros g Hl; simpl; [by rewrite app_nil_r|].
    apply Forall_cons in Hl as [[H1 H2] Hl]. rewrite IH // toks_zip1 // -!app_assoc. done.
  Qed.
  Lemma wfo_zip1 h f C g b : wfC h (f :: C) → wfo mn h (strip g) → (b ≤ length (f_ka f) + length (f_kb f))%nat →
    wfo b (S h) (strip (zip1 f g)).
  Proof.
    intros (H1&H2&H3&H4&H5&H6) Hg Hb. cbn. rewrite !fmap_app fmap_cons. split_and!.
    - rewrite !app_length /= !fmap_length. lia.
    - rewrite app_length. lia.
    - rewrite app_length. lia.
    - apply Forall_app. split; [done|]. by constructor.
  Qed.
  Lemma wfo_fill C : ∀ h g, wfC h C → wfo (low C h) h (strip g) →
    wfo (rlow (h + length C)) (h + length C) (strip (fill C g)).
  Proof.
    induction C as [|f C IH]; intros h g HC Hg; simpl.
    { by rewrite Nat.add_0_r. }
    rewrite -Nat.add_succ_comm. apply IH.
    - apply HC.
    - eapply wfo_zip1; [done|done|]. apply HC.
  Qed.
  Lemma wfo_weaken b b' h c : wfo b h c → (b' ≤ b)%nat → wfo b' h c.
  Proof. destruct h, c; simpl; try done; [lia|]. intros (?&?&?) ?. split_and!; try done; lia. Qed.
  Lemma items_fill C g : lens C → items (strip (fill C g)) = titems (cpre C) ++ items (strip g) ++ titems (cpost C).
  Proof. intros. unfold items. rewrite toks_fill //. by rewrite !titems_app. Qed.

  (** ** Node ids *)
  Fixpoint ids (g : gt) : list nid :=
    match g with
    | GD n _ | GL n _ _ => [n]
    | GI n _ _ cs => n :: mjoin (ids <$> cs)
    end.
  (** below the root *)
  Definition cids (g : gt) : list nid :=
    match g with GI _ _ _ cs => mjoin (ids <$> cs) | _ => [] end.
  Definition pst (n : nid) (st : nst) : list nid := if stok st then [] else [n].
  (** nodes in one of the intermediate states *)
  Fixpoint pend (g : gt) : list nid :=
    match g with
    | GD n _ => []
    | GL n st _ => pst n st
    | GI n st _ cs => pst n st ++ mjoin (pend <$> cs)
    end.
  Definition pendl (l : list gt) : list nid := mjoin (pend <$> l).
  Fixpoint pendC (C : list frame) : list nid :=
    match C with
    | [] => []
    | f :: C => pst (f_n f) (f_st f) ++ pendl (f_ls f) ++ pendl (f_rs f) ++ pendC C
    end.
  Lemma pendl_app a b : pendl (a ++ b) = pendl a ++ pendl b.
  Proof. unfold pendl. by rewrite fmap_app join_app. Qed.
  Lemma pendl_cons a b : pendl (a :: b) = pend a ++ pendl b.
  Proof. done. Qed.
  Lemma pend_zip1 f g : pend (zip1 f g) ≡ₚ pend g ++ pst (f_n f) (f_st f) ++ pendl (f_ls f) ++ pendl (f_rs f).
  Proof.
    cbn. fold (pendl (f_ls f ++ g :: f_rs f)). rewrite pendl_app pendl_cons. solve_Permutation.
  Qed.
  Lemma pend_fill C g : pend (fill C g) ≡ₚ pend g ++ pendC C.
  Proof.
    revert g. induction C as [|f C IH]; intros g; simpl; [by rewrite app_nil_r|].
    rewrite IH pend_zip1. solve_Permutation.
  Qed.
  Lemma ids_fill C g x : x ∈ ids g → x ∈ ids (fill C g).
  Proof.
    revert g. induction C as [|f C IH]; intros g Hx; simpl; [done|]. apply IH. cbn. right.
    rewrite fmap_app fmap_cons join_app. cbn. set_solver.
  Qed.
  Lemma cids_zip1 f g x : x ∈ ids g → x ∈ cids (zip1 f g).
  Proof. intros Hx. cbn. rewrite fmap_app fmap_cons join_app. cbn. set_solver. Qed.
  Lemma cids_fill C g x : x ∈ cids g → x ∈ cids (fill C g).
  Proof.
    revert g. induction C as [|f C IH]; intros g Hx; simpl; [done|]. apply IH. apply cids_zip1.
    destruct g; simpl in *; try (by apply elem_of_nil in Hx). by right.
  Qed.

  Fixpoint gt_ind' (P : gt → Prop) (HD : ∀ n d, P (GD n d)) (HL : ∀ n st kvs, P (GL n st kvs))
    (HI : ∀ n st ks cs, Forall P cs → P (GI n st ks cs)) (g : gt) : P g :=
    match g with
    | GD n d => HD n d
    | GL n st kvs => HL n st kvs
    | GI n st ks cs => HI n st ks cs
        ((fix go (l : list gt) : Forall P l :=
            match l with [] => Forall_nil_2 P | x :: l => Forall_cons_2 P x l (gt_ind' P HD HL HI x) (go l) end) cs)
    end.
  (** finding a node by its id *)
  Lemma zip1_at n st ks cs i c : cs !! i = Some c → length cs = S (length ks) →
    GI n st ks cs = zip1 (Frame n st (take i ks) (take i cs) (drop i ks) (drop (S i) cs)) c ∧
    length (take i ks) = length (take i cs) ∧ length (drop i ks) = length (drop (S i) cs).
  Proof.
    intros Hc Hl. pose proof (lookup_lt_Some _ _ _ Hc). unfold zip1. simpl.
    rewrite take_drop take_drop_middle //. split_and!; [done|..].
    - rewrite !take_length. lia.
    - rewrite !drop_length. lia.
  Qed.
  Definition glens (g : gt) : Prop := ∃ b h, wfo b h (strip g).
  Lemma find_id g x : x ∈ ids g → ∀ b h, wfo b h (strip g) →
    ∃ C c, g = fill C c ∧ gid c = x ∧ lens C ∧ (x ∈ cids g ∧ gid g ≠ x → C ≠ []).
  Proof.
    induction g as [n d|n st kvs|n st ks cs IH] using gt_ind'; cbn [ids]; intros Hx b h Hw.
    - apply elem_of_list_singleton in Hx as ->. exists [], (GD n d). split_and!; [done|done|constructor|naive_solver].
    - apply elem_of_list_singleton in Hx as ->. exists [], (GL n st kvs). split_and!; [done|done|constructor|naive_solver].
    - apply elem_of_cons in Hx as [->|Hx].
      { exists [], (GI n st ks cs). split_and!; [done|done|constructor|]. intros [? Hn]. done. }
      apply elem_of_list_join in Hx as (l & Hx & Hl). apply elem_of_list_fmap in Hl as (c & -> & Hc).
      destruct h as [|h]; [done|]. cbn in Hw. destruct Hw as (Hlen & _ & Hw). rewrite fmap_length in Hlen.
      apply elem_of_list_lookup in Hc as [i Hi].
      pose proof (Forall_lookup_1 _ _ _ _ IH Hi) as IHc. simpl in IHc.
      assert (wfo mn h (strip c)) as Hwc.
      { rewrite Forall_fmap in Hw. exact (Forall_lookup_1 _ _ _ _ Hw Hi). }
      destruct (IHc Hx _ _ Hwc) as (C & c' & -> & Hid & HlC & _).
      destruct (zip1_at n st ks cs i (fill C c') Hi Hlen) as (-> & ? & ?).
      exists (C ++ [Frame n st (take i ks) (take i cs) (drop i ks) (drop (S i) cs)]), c'. split_and!; [|done|..].
      + clear. revert c'. induction C as [|f C IHC]; intros c'; simpl; [done|]. apply IHC.
      + apply Forall_app. split; [done|]. constructor; [done|constructor].
      + intros _. by destruct C.
  Qed.
End ghost.
Arguments ct : clear implicits.
Arguments dt : clear implicits.
Arguments gt : clear implicits.
Arguments tok : clear implicits.
Arguments frame : clear implicits.

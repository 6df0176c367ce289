(** * Trees with two holes

    Models no code.  After a split the two halves sit next to each other in
    the tree; their parents may have been split apart as well. *)
From Coq Require Import ssreflect.
From stdpp Require Import prelude list.
From Verif Require Import Spec BTree Ghost Rep Search Update.
Open Scope Z_scope.

Section plug.
  Context {K V : Type}.
  Notation gt := (gt K V).
  Notation frame := (frame K V).
  Implicit Types (a b c g : gt) (C : list frame) (f : frame).

  Inductive dctx :=
    | DH (f : frame) (sk : K) (C : list frame) (** same parent *)
    | DS (f1 f2 : frame) (D : dctx).           (** two parents *)
  Fixpoint plug2 (D : dctx) (a b : gt) : gt :=
    match D with
    | DH f sk C => fill C (GI (f_n f) (f_st f) (f_ka f ++ sk :: f_kb f) (f_ls f ++ a :: b :: f_rs f))
    | DS f1 f2 D => plug2 D (zip1 f1 a) (zip1 f2 b)
    end.
  Fixpoint dL (D : dctx) (b : gt) : list frame :=
    match D with
    | DH f sk C => Frame (f_n f) (f_st f) (f_ka f) (f_ls f) (sk :: f_kb f) (b :: f_rs f) :: C
    | DS f1 f2 D => f1 :: dL D (zip1 f2 b)
    end.
  Fixpoint dR (D : dctx) (a : gt) : list frame :=
    match D with
    | DH f sk C => Frame (f_n f) (f_st f) (f_ka f ++ [sk]) (f_ls f ++ [a]) (f_kb f) (f_rs f) :: C
    | DS f1 f2 D => f2 :: dR D (zip1 f1 a)
    end.
  Fixpoint dlen (D : dctx) : nat := match D with DH _ _ C => S (length C) | DS _ _ D => S (dlen D) end.
  Definition flen f : Prop := length (f_ka f) = length (f_ls f) ∧ length (f_kb f) = length (f_rs f).
  Fixpoint lensD (D : dctx) : Prop :=
    match D with DH f _ C => flen f ∧ lens C | DS f1 f2 D => flen f1 ∧ flen f2 ∧ lensD D end.
  Fixpoint pendD (D : dctx) : list nid :=
    match D with
    | DH f _ C => pst (f_n f) (f_st f) ++ pendl (f_ls f) ++ pendl (f_rs f) ++ pendC C
    | DS f1 f2 D => pst (f_n f1) (f_st f1) ++ pendl (f_ls f1) ++ pendl (f_rs f1) ++
                    pst (f_n f2) (f_st f2) ++ pendl (f_ls f2) ++ pendl (f_rs f2) ++ pendD D
    end.
  (** the way to the first hole modified *)
  Fixpoint dirtyL (D : dctx) : dctx :=
    match D with
    | DH f sk C => DH (fdirty f) sk (dirtyC C)
    | DS f1 f2 D => DS (fdirty f1) f2 (dirtyL D)
    end.

  Lemma plug_L D a b : plug2 D a b = fill (dL D b) a.
  Proof. revert a b. induction D as [f sk C|f1 f2 D IH]; intros a b; [done|]. cbn. by rewrite IH. Qed.
  Lemma plug_R D a b : plug2 D a b = fill (dR D a) b.
  Proof.
    revert a b. induction D as [f sk C|f1 f2 D IH]; intros a b; cbn; [|by rewrite IH].
    unfold zip1. cbn. by rewrite -!app_assoc.
  Qed.
  Lemma dL_len D b : length (dL D b) = dlen D.
  Proof. revert b. induction D as [f sk C|f1 f2 D IH]; intros b; [done|]. cbn. by rewrite IH. Qed.
  Lemma dR_len D a : length (dR D a) = dlen D.
  Proof. revert a. induction D as [f sk C|f1 f2 D IH]; intros b; [done|]. cbn. by rewrite IH. Qed.
  Lemma dL_lens D b : lensD D → lens (dL D b).
  Proof.
    revert b. induction D as [f sk C|f1 f2 D IH]; intros b; cbn.
    - intros [[H1 H2] H]. constructor; [|done]. cbn. by rewrite H1 H2.
    - intros (H1 & H2 & H). constructor; [done|]. by apply IH.
  Qed.
  Lemma dR_lens D a : lensD D → lens (dR D a).
  Proof.
    revert a. induction D as [f sk C|f1 f2 D IH]; intros a; cbn.
    - intros [[H1 H2] H]. constructor; [|done]. cbn. by rewrite !app_length H1 H2.
    - intros (H1 & H2 & H). constructor; [done|]. by apply IH.
  Qed.
  Lemma plug_dirty D a b : fill (dirtyC (dL D b)) a = plug2 (dirtyL D) a b.
  Proof.
    revert a b. induction D as [f sk C|f1 f2 D IH]; intros a b; [done|]. cbn [dL dirtyC fmap list_fmap fill dirtyL plug2].
    fold (dirtyC (dL D (zip1 f2 b))). by rewrite IH.
  Qed.
  Lemma dirtyL_lens D : lensD D → lensD (dirtyL D).
  Proof. induction D as [f sk C|f1 f2 D IH]; cbn; [|naive_solver]. intros [H1 H2]. split; [done|]. by apply dirtyC_lens. Qed.
  Lemma dirtyL_len D : dlen (dirtyL D) = dlen D.
  Proof. induction D as [f sk C|f1 f2 D IH]; cbn; [by rewrite dirtyC_len|by rewrite IH]. Qed.
  Lemma dirtyL_pend D : pendD D = [] → pendD (dirtyL D) = [].
  Proof.
    induction D as [f sk C|f1 f2 D IH]; cbn [pendD dirtyL]; intros H;
      repeat (apply app_eq_nil in H as [? H]); cbn [fdirty f_n f_st f_ls f_rs];
      [rewrite dirtyC_pend //|rewrite IH //];
      by repeat match goal with H : _ = [] |- _ => rewrite H; clear H end.
  Qed.
  Lemma pend_plug D a b : pend (plug2 D a b) ≡ₚ pend a ++ pend b ++ pendD D.
  Proof.
    revert a b. induction D as [f sk C|f1 f2 D IH]; intros a b; cbn [plug2 pendD].
    - rewrite pend_fill. cbn [pend]. fold (pendl (f_ls f ++ a :: b :: f_rs f)). rewrite pendl_app !pendl_cons.
      set x := pst _ _. solve_Permutation.
    - rewrite IH !pend_zip1. solve_Permutation.
  Qed.
  Lemma pend_dL D b : pendC (dL D b) ≡ₚ pend b ++ pendD D.
  Proof. apply (Permutation_app_inv_l (pend b)). by rewrite -pend_fill -plug_L pend_plug. Qed.
  Lemma pend_dR D a : pendC (dR D a) ≡ₚ pend a ++ pendD D.
  Proof.
    apply (Permutation_app_inv_l (pend a)). by rewrite -pend_fill -plug_R pend_plug.
  Qed.
  Lemma gid_plug D a b a' b' : gid (plug2 D a b) = gid (plug2 D a' b').
  Proof.
    revert a b a' b'. induction D as [f sk C|f1 f2 D IH]; intros a b a' b'; cbn; [by rewrite !gid_fill|apply IH].
  Qed.
  Lemma top_dirty C : ∀ n, top (dirtyC C) n = top C n.
  Proof. induction C as [|f C IH]; intros n; [done|]. cbn. apply IH. Qed.
  Lemma gid_dirtyL D a b a' b' : gid (plug2 (dirtyL D) a b) = gid (plug2 D a' b').
  Proof. rewrite (gid_plug D a' b' a b) -plug_dirty plug_L !gid_fill. apply top_dirty. Qed.
  Lemma gloc_dirty C : ∀ g, C ≠ [] ∨ gloc g = None → gloc (fill (dirtyC C) g) = None.
  Proof.
    induction C as [|f C IH]; intros g; cbn; [by intros [|]|]. intros _. apply IH. by right.
  Qed.
  Lemma gloc_dirtyL D a b : gloc (plug2 (dirtyL D) a b) = None.
  Proof. rewrite -plug_dirty. apply gloc_dirty. left. by destruct D. Qed.
  (** contents do not depend on states *)
  Lemma strip_fill C : ∀ g g', strip g = strip g' → strip (fill C g) = strip (fill C g').
  Proof.
    induction C as [|f C IH]; intros g g' H; [done|]. cbn. apply IH. unfold zip1. cbn [strip].
    by rewrite !fmap_app !fmap_cons H.
  Qed.
  Lemma strip_dirty C : ∀ g, strip (fill (dirtyC C) g) = strip (fill C g).
  Proof.
    induction C as [|f C IH]; intros g; [done|]. cbn [dirtyC fmap list_fmap fill]. fold (dirtyC C). rewrite IH.
    by apply strip_fill.
  Qed.
  Lemma strip_plug D a b a' b' : strip a = strip a' → strip b = strip b' → strip (plug2 D a b) = strip (plug2 D a' b').
  Proof.
    intros Ha Hb. rewrite plug_L (strip_fill _ a a') // -plug_L plug_R (strip_fill _ b b') // -plug_R. done.
  Qed.
  Lemma strip_dirtyL D a b : strip (plug2 (dirtyL D) a b) = strip (plug2 D a b).
  Proof. by rewrite -plug_dirty strip_dirty plug_L. Qed.

  (** the children of two halves *)
  Lemma plug_cases D p p2 ks1 cs1 sep ks2 cs2 ka sk kb ls gn gm rs :
    ks1 ++ sep :: ks2 = ka ++ sk :: kb → cs1 ++ cs2 = ls ++ gn :: gm :: rs →
    length cs1 = S (length ks1) → length cs2 = S (length ks2) →
    length ka = length ls → length kb = length rs →
    pendl ls = [] → pendl rs = [] → lensD D → pendD D = [] →
    ∃ D', plug2 D' gn gm = plug2 D (GI p Dirty ks1 cs1) (GI p2 Dirty ks2 cs2) ∧ lensD D' ∧ pendD D' = [] ∧ dlen D' = S (dlen D).
  Proof.
    intros Hks Hcs L1 L2 L3 L4 P1 P2 Hl Hp.
    assert (length (ks1 ++ sep :: ks2) = length (ka ++ sk :: kb)) as Hlen by by rewrite Hks.
    rewrite !app_length /= in Hlen.
    assert ((∃ ls2, ls = cs1 ++ ls2 ∧ cs2 = ls2 ++ gn :: gm :: rs) ∨ (cs1 = ls ++ [gn] ∧ cs2 = gm :: rs) ∨
      (∃ rs1, cs1 = ls ++ gn :: gm :: rs1 ∧ rs = rs1 ++ cs2)) as [(ls2 & -> & ->)|[(-> & ->)|(rs1 & -> & ->)]].
    { apply app_eq_inv in Hcs as [(k & -> & Hk)|(k & -> & ->)]; [|by left; exists k].
      destruct k as [|x [|y k]]; simplify_eq/=.
      - left. exists []. by rewrite !app_nil_r.
      - right. left. done.
      - right. right. by exists k. }
    - (* both in the right half *)
      rewrite pendl_app in P1. apply app_eq_nil in P1 as [P1 P3]. rewrite !app_length /= in L2, L3.
      apply app_eq_inv in Hks as [(k & -> & Hk)|(k & -> & Hk)].
      { rewrite app_length in L1. lia. }
      rewrite app_length in L3. destruct k as [|x ka2]; [cbn in L3; lia|]. simplify_eq/=.
      exists (DH (Frame p2 Dirty ka2 ls2 kb rs) sk (dR D (GI p Dirty ks1 cs1))). split_and!.
      + cbn. by rewrite plug_R.
      + cbn. split; [split; cbn; lia|]. by apply dR_lens.
      + cbn [pendD f_n f_st f_ls f_rs pst stok]. rewrite P3 P2. apply Permutation_nil. rewrite pend_dR Hp. cbn [pend pst stok].
        fold (pendl cs1). by rewrite P1.
      + cbn. by rewrite dR_len.
    - (* one in each *)
      rewrite app_length /= in L1. cbn in L2.
      apply app_inj_1 in Hks as [-> [= -> ->]]; [|lia].
      exists (DS (Frame p Dirty ka ls [] []) (Frame p2 Dirty [] [] kb rs) D). split_and!.
      + cbn. unfold zip1. cbn. by rewrite app_nil_r.
      + done.
      + cbn [pendD f_n f_st f_ls f_rs pst stok]. by rewrite P1 P2 Hp.
      + done.
    - rewrite pendl_app in P2. apply app_eq_nil in P2 as [P2 P3]. rewrite !app_length /= in L1, L4.
      apply app_eq_inv in Hks as [(k & -> & Hk)|(k & -> & Hk)].
      2: { rewrite app_length in L3. destruct k as [|x k]; cbn in *; lia. }
      rewrite app_length in L1. destruct k as [|x kb1]; [cbn in L1; lia|]. simplify_eq/=.
      exists (DH (Frame p Dirty ka ls kb1 rs1) x (dL D (GI p2 Dirty ks2 cs2))). split_and!.
      + cbn. by rewrite plug_L.
      + cbn. split; [split; cbn; lia|]. by apply dL_lens.
      + cbn [pendD f_n f_st f_ls f_rs pst stok]. rewrite P1 P2. apply Permutation_nil. rewrite pend_dL Hp. cbn [pend pst stok].
        fold (pendl cs2). by rewrite P3.
      + cbn. by rewrite dL_len.
  Qed.
End plug.
Arguments dctx : clear implicits.

(** * Rebalancing after a deletion

    Models no code. *)
From Coq Require Import ssreflect Sorted.
From stdpp Require Import prelude list gmap.
From iris.bi Require Import bi.
From iris.proofmode Require Import proofmode.
From Verif Require Import Spec SpecFacts Llrb LlrbApi BTree HProp Lru Wp Kv Codec Ghost Order PsTree Rep Load Search Update Plug Insert Borrow Merge.
Open Scope Z_scope.

Section rebal.
  Context {K V : Type}.
  Variable cb : callbacks K V.
  Variable dom : K → Prop.
  Variable domV : V → Prop.
  Hypothesis WF : wf_cb cb dom domV.
  Variable mn : nat.
  Hypothesis MN : (2 ≤ mn)%nat.
  Variable t : tid.
  Variable ca : bool.
  Notation cmp := (cb_cmp cb).
  Notation M := (M K V).
  Notation hProp := (hProp K V).
  Notation bval := (bval V).
  Notation gt := (gt K V).
  Notation frame := (frame K V).
  Let ORD := wf_ord _ _ _ WF.
  Notation rep := (rep cb dom mn t ca).
  Notation reps := (reps cb dom mn t ca).
  Notation isTR := (isTR mn t ca).
  Notation inode := (inode cb dom mn t ca).
  Notation inodeU := (inodeU cb dom t ca).
  Notation lnode := (lnode cb dom mn t ca).
  Notation lnode' := (lnode' cb dom mn t ca).
  Notation nrec := (nrec t).
  Notation good := (good cmp dom domV).
  Notation ksorted := (ksorted cmp dom).
  Notation "'let*' x := m 'in' e" := (bind m (fun x => e))
    (at level 200, x name, m at level 100, e at level 200, right associativity).
  Notation "'let*' ' x := m 'in' e" := (bind m (fun x => e))
    (at level 200, x strict pattern, m at level 100, e at level 200, right associativity).
  Notation "m ;; e" := (bind m (fun _ : unit => e))
    (at level 100, e at level 200, right associativity, format "m ;;  '/' e").
  Implicit Types (g c : gt) (n : nid) (f : frame) (C : list frame) (h : nat).
  Notation whole := (whole cb dom mn t ca).
  Notation ctx := (ctx cb dom mn t ca).
  Notation knode := (knode cb dom t).
  Notation pre := (pre cb dom mn t ca).

  Implicit Types (L R : list gt) (x y : gt).
  Definition kids g : list gt := match g with GI _ _ _ cs => cs | _ => [] end.
  Record rebok (Its : list (K * V)) (P : list nid) (cs : list gt) (hc : nat) (S : list loc)
      (root' : nid) (S' : list loc) h' g' : Prop := RebOk {
    rb_S : S ⊆ S';
    rb_id : gid g' = root';
    rb_wf : wfo mn (rlow h') h' (strip g');
    rb_good : good (toks (strip g'));
    rb_items : items (strip g') = Its;
    rb_pend : pend g' ≡ₚ P;
    rb_loc : gloc g' = None;
    rb_kids : ∀ c, c ∈ cs → ∃ C', g' = fill C' c ∧ lens C' ∧ h' = (hc + length C')%nat }.
  Definition flow C h : nat := match C with [] => rlow h | _ => (mn - 1)%nat end.
  Definition rebSpec (m : nid → M unit) C : Prop := ∀ root S h g Q (Er : err → hProp),
    isdirty g → wfC mn h C → alldirty C → pendC C = [] → wfo mn (flow C h) h (strip g) →
    good (cpre C ++ toks (strip g) ++ cpost C) → top C (gid g) = root → (True ⊢ Er EIO) →
    isTR root S -∗ rep h (hpar C) (isnil C) g -∗ ctx h C (ginfo g) -∗
    (∀ root' S' h' g' (_ : rebok (titems (cpre C ++ toks (strip g) ++ cpost C)) (pend g) (kids g) (pred h) S root' S' h' g'),
       isTR root' S' -∗ whole h' g' -∗ Q tt) -∗
    wp true (m (gid g)) Q Er.

  Lemma kid_frame b h g c : wfo mn b h (strip g) → isloaded g → c ∈ kids g →
    ∃ f, g = zip1 f c ∧ flen f ∧ h = Datatypes.S (pred h) ∧ f_st f = match g with GI _ st _ _ => st | _ => Dirty end.
  Proof.
    destruct g as [n d|n st kvs|n st ks cs]; cbn; intros Hw Hl Hc; [done|by apply elem_of_nil in Hc|].
    destruct h; [done|]. destruct Hw as [Hlen _]. rewrite fmap_length in Hlen.
    apply elem_of_list_lookup in Hc as [i Hi]. destruct (zip1_at n st ks cs i c Hi Hlen) as (-> & ? & ?).
    eexists. split_and!; [done|split; done|done|done].
  Qed.
  Lemma gloc_fill C : ∀ g g', C ≠ [] → gloc (fill C g) = gloc (fill C g').
  Proof.
    induction C as [|f C IH]; intros g g' Hn; [done|]. cbn. destruct C as [|f' C]; [done|]. by apply IH.
  Qed.
  Lemma mkdirty_loc g : isloaded g → gloc (mkdirty g) = None.
  Proof. by destruct g. Qed.
  Lemma mkdirty_kids g : kids (mkdirty g) = kids g.
  Proof. by destruct g. Qed.
  Lemma pend_mkdirty g : isloaded g → pend (mkdirty g) = pendl (kids g).
  Proof. by destruct g. Qed.
  Lemma ltoks_toks (ks : list K) (cs : list gt) n st : toks (strip (GI n st ks cs)) = inter ks (ltoks cs).
  Proof. cbn [strip toks]. unfold ltoks. by rewrite -list_fmap_compose. Qed.

  Lemma mergeTail_spec rec C h p ka s kb L x (yid : nid) R root S szp sz Q Er :
    rebSpec rec C → wfC mn (Datatypes.S h) C → alldirty C → pendC C = [] →
    length ka = length L → length kb = length R →
    Forall (wfo mn mn h) (strip <$> L) → Forall (wfo mn mn h) (strip <$> R) →
    pendl L = [] → pendl R = [] →
    (low mn C (Datatypes.S h) ≤ Datatypes.S (length ka + length kb) ≤ 2 * mn)%nat →
    nclean x → wfo mn mn h (strip x) →
    good (cpre C ++ inter (ka ++ kb) (ltoks (L ++ x :: R)) ++ cpost C) → top C p = root →
    sz = isum (ginfo <$> (L ++ x :: R)) → (True ⊢ Er EIO) →
    isTR root S -∗ knode p (hpar C) (isnil C) false Dirty szp
        (kels ka ((gid <$> L) ++ [gid x]) ++ (s, VNode yid) :: zip kb (kvals (gid <$> R))) (head ((gid <$> L) ++ [gid x])) -∗
    isT p (tg ca dirtyLRU) -∗ pfields (gid <$> (L ++ x :: R)) -∗ held noloc -∗
    pre h (Some p) false x -∗ carcass ca yid -∗ reps h p L -∗ reps h p R -∗ ctx (Datatypes.S h) C (Info p sz None) -∗
    (∀ root' S' h' g' (_ : rebok (titems (cpre C ++ inter (ka ++ kb) (ltoks (L ++ x :: R)) ++ cpost C)) (pendl (kids x)) (kids x) (pred h) S root' S' h' g'),
       isTR root' S' -∗ whole h' g' -∗ Q tt) -∗
    wp true (mergeTail cb t (gid x) yid p (Z.of_nat (length ka)) (isleaf x) (rec p)) Q Er.
  Proof using WF MN.
    intros Hrec HwC HdC HpC La Lb WL WR PL PR Hlow Hx Hwx Hgood Htop Hsz HEr. iIntros "HT Hp Htp Hpf Hhp Hx Hy HL HR Hc H".
    assert (isloaded x) as Hlx by by destruct x.
    assert (length (kels (V:=V) ka ((gid <$> L) ++ [gid x])) = length ka) as Hlk.
    { apply (kels_len mn MN). by apply (ids_len mn MN). }
    iApply wp_bind. iApply (kn_len with "Hp"). iIntros "Hp".
    iApply wp_bind. iApply (kn_getN with "Hp"). iIntros (rp (_ & _ & Hir & _)) "Hp". rewrite Hir. iApply wp_bind.
    assert (Z.of_nat (length (kels (V:=V) ka ((gid <$> L) ++ [gid x]) ++ (s, VNode yid) :: zip kb (kvals (gid <$> R)))) = Z.of_nat (length ka + length kb) + 1) as ->.
    { rewrite app_length Hlk /= zip_with_length. unfold kvals. rewrite !fmap_length. lia. }
    destruct (isnil C && (Z.of_nat (length ka + length kb) + 1 =? 1)) eqn:Hroot.
    - (* the root disappears *)
      apply andb_true_iff in Hroot as [HC H1]. apply Z.eqb_eq in H1. destruct C as [|]; [|done].
      destruct ka; [|cbn in H1; lia]. destruct kb; [|cbn in H1; lia]. destruct L; [|done]. destruct R; [|done].
      cbn in Htop. subst root. iDestruct "HT" as "[HR' HS]".
      iApply wp_bind. iApply (wp_getT with "HR'"). iIntros "HR'". cbn [trec t_root].
      iApply wp_bind. iApply (wp_deref _ _ p); [done|].
      iDestruct "Hp" as (kv ps Hkv) "Hp".
      iApply wp_bind. iApply (wp_discarded with "[$HR' $HS] Hp Htp Hhp"); [done|]. iIntros (S1 HS1) "[HR' HS] _ _".
      iApply wp_bind. iApply (pre_root with "Hx"); [done|]. iIntros "Hx".
      iApply wp_bind. iApply (pre_parent with "Hx"); [done|]. iIntros "Hx".
      iApply wp_bind. iApply (wp_modT with "HR'"). iIntros "HR'". cbn [trec t_min t_max t_stale t_cache].
      iApply (pre_arr with "Hx"); [done|]. iIntros "Hx".
      iApply wp_bind. iApply (discard_carcass with "[$HR' $HS] Hy"). iIntros (S2 HS2) "HT".
      iApply (rep_dirty with "HT Hx"); [done|]. iIntros (S3 HS3) "HT Hx".
      assert (inter ([] ++ []) (ltoks ([] ++ [x])) = toks (strip x)) as Htk.
      { cbn. by rewrite app_nil_r. }
      rewrite Htk in Hgood. rewrite Htk. cbn [cpre cpost app] in *. rewrite app_nil_r. rewrite app_nil_r in Hgood.
      assert (rebok (titems (toks (strip x))) (pendl (kids x)) (kids x) (pred h) S (gid x) S3 h (mkdirty x)) as HX.
      { split.
        - by do 2 (etrans; [done|]).
        - apply mkdirty_gid.
        - rewrite mkdirty_strip. eapply wfo_weaken; [done|]. destruct h; cbn; lia.
        - by rewrite mkdirty_strip.
        - by rewrite mkdirty_strip.
        - by rewrite pend_mkdirty.
        - by apply mkdirty_loc.
        - intros c Hin. rewrite -mkdirty_kids in Hin.
          destruct (kid_frame mn h (mkdirty x) c) as (f & -> & Hf & Hh & _); [by rewrite mkdirty_strip|by destruct x|done|].
          exists [f]. split_and!; [done|by constructor|]. cbn. lia. }
      iApply ("H" $! _ _ _ _ HX with "HT"). unfold Rep.whole. rewrite mkdirty_gid. iFrame "Hx".
      cbn. iDestruct "Hpf" as "[$ _]".
    - rewrite -Hlk. iApply wp_bind. iApply (kn_del cb dom domV WF with "Hp"). iIntros "Hp". iApply wp_bind. iApply wp_logicOk.
      iApply wp_bind. iApply (pre_arr with "Hx"); [done|]. iIntros "Hx".
      iApply wp_bind. iApply (arrange_ig _ _ _ _ _ _ h p (hpar C) (isnil C) Dirty (ka ++ kb) (L ++ x :: R) with "[Hp Htp Hpf Hhp] [HL HR Hx]").
      { done. }
      { rewrite inodeU_kn ids_mid. iExists szp. iFrame "Hpf Htp Hhp". rewrite kels_skip; [|by apply (ids_len mn MN)].
        iSplit; [|by destruct L; iFrame]. iPureIntro. rewrite !app_length !fmap_length /=. lia. }
      { rewrite reps_app reps_cons. iFrame. }
      iIntros "Hp Hk".
      set gp := GI p Dirty (ka ++ kb) (L ++ x :: R).
      assert (length (L ++ x :: R) = Datatypes.S (length (ka ++ kb))) as Hll by (rewrite !app_length /=; lia).
      change p with (gid gp) at 2.
      iApply (Hrec root S (Datatypes.S h) gp with "HT [Hp Hk] [Hc]"); try done.
      { cbn [gp strip wfo]. rewrite fmap_length. split_and!; [done| | |].
        - rewrite app_length. destruct C; cbn [flow rlow low isnil andb] in *; [|lia]. apply Z.eqb_neq in Hroot. lia.
        - rewrite app_length. lia.
        - rewrite fmap_app fmap_cons. apply Forall_app. split; [done|]. by constructor. }
      { unfold gp. by rewrite ltoks_toks. }
      { unfold gp. rewrite rep_GI. iFrame. }
      { unfold gp. rewrite ginfo_GI // Hsz. done. }
      iIntros (root' S1 h' g' [R1 R2 R3 R4 R5 R6 R7 R8]) "HT Hw".
      destruct (R8 x) as (C' & -> & HlC & ->).
      { cbn. set_solver. }
      cbn [pred]. iDestruct (fill_ctx with "Hw") as "[Hc Hx]"; [done|].
      iApply wp_bind. iApply (discard_carcass with "HT Hy"). iIntros (S2 HS2) "HT".
      iApply (rep_dirty with "HT Hx"); [done|]. iIntros (S3 HS3) "HT Hx".
      assert (pendC C' = []) as HpC'.
      { apply Permutation_nil_r. rewrite pend_fill in R6. cbn [gp pend pst stok] in R6. fold (pendl (L ++ x :: R)) in R6.
        rewrite pendl_app pendl_cons PL PR app_nil_r in R6. cbn in R6. apply (Permutation_app_inv_l (pend x)). by rewrite app_nil_r R6. }
      assert (strip (fill C' (mkdirty x)) = strip (fill C' x)) as Hst. { apply strip_fill, mkdirty_strip. }
      assert (rebok (titems (cpre C ++ inter (ka ++ kb) (ltoks (L ++ x :: R)) ++ cpost C)) (pendl (kids x)) (kids x) (pred h) S
        root' S3 (h + length C') (fill C' (mkdirty x))) as HX.
      { split.
        - by do 2 (etrans; [done|]).
        - by rewrite gid_fill mkdirty_gid -gid_fill.
        - by rewrite Hst.
        - by rewrite Hst.
        - rewrite Hst R5. unfold gp. by rewrite ltoks_toks.
        - by rewrite pend_fill HpC' app_nil_r pend_mkdirty.
        - destruct C' as [|f C']; [by apply mkdirty_loc|]. by rewrite (gloc_fill _ _ x).
        - intros c Hin. rewrite -mkdirty_kids in Hin.
          destruct (kid_frame mn h (mkdirty x) c) as (f & -> & Hf & Hh & _); [by rewrite mkdirty_strip|by destruct x|done|].
          exists (f :: C'). split_and!; [done|by constructor|]. cbn. lia. }
      iApply ("H" $! _ _ _ _ HX with "HT"). iApply fill_ctx; [done|]. rewrite mkdirty_ginfo //. iFrame.
  Qed.

  (** ** Two neighbours and their parent *)
  Definition nkeys g : nat := match g with GL _ _ kvs => length kvs | GI _ _ ks _ => length ks | _ => 0 end.
  Lemma rep_kvlen io h par ir g Q Er : isloaded g →
    rep h par ir g -∗ (rep h par ir g -∗ Q (Z.of_nat (nkeys g))) -∗ wp io (kvLen (gid g)) Q Er.
  Proof using MN.
    iIntros (Hl) "Hr H". destruct g as [n d|n st kvs|n st ks cs]; [done|..]; destruct h; try done; cbn [gid nkeys].
    - iDestruct "Hr" as (kv left ps Hkv) "(HN & Hr)". iApply (wp_kvLen cb dom _ _ _ kv _ with "HN"); [done|done|]. iIntros "HN".
      rewrite uels_len. iApply "H". iExists kv, left, ps. by iFrame.
    - rewrite !rep_GI. iDestruct "Hr" as "[(%kv & %b & (%Hkv & %Hlen & %Hb & %Hlf) & HN & Hr) Hk]".
      iApply (wp_kvLen cb dom _ _ _ kv _ with "HN"); [done|done|]. iIntros "HN".
      rewrite (kels_len mn MN); [|by rewrite fmap_length]. iApply "H". iFrame "Hk". iExists kv, b. by iFrame.
  Qed.
  Lemma wfo_keys b b' h g : isloaded g → wfo mn b h (strip g) → (b' ≤ nkeys g)%nat → wfo mn b' h (strip g).
  Proof. destruct g, h; cbn; try done; [lia|]. intros _ (?&?&?) ?. split_and!; try done; lia. Qed.
  Lemma wfo_nkeys b h g : isloaded g → wfo mn b h (strip g) → (b ≤ nkeys g ≤ 2 * mn)%nat.
  Proof. destruct g, h; cbn; try done. intros _ (?&?&?). done. Qed.

  Definition pairT C ka s kb L x y R : list (tok K V) := cpre C ++ inter (ka ++ s :: kb) (ltoks (L ++ x :: y :: R)) ++ cpost C.
  Record pairok C h (p root : nid) ka s kb L x y R : Prop := PairOk {
    pk_la : length ka = length L;
    pk_lb : length kb = length R;
    pk_wfC : wfC mn (Datatypes.S h) C;
    pk_dC : alldirty C;
    pk_pC : pendC C = [];
    pk_wL : Forall (wfo mn mn h) (strip <$> L);
    pk_wR : Forall (wfo mn mn h) (strip <$> R);
    pk_pL : pendl L = [];
    pk_pR : pendl R = [];
    pk_low : (low mn C (Datatypes.S h) ≤ Datatypes.S (length ka + length kb) ≤ 2 * mn)%nat;
    pk_good : good (pairT C ka s kb L x y R);
    pk_top : top C p = root;
    pk_lx : isloaded x;
    pk_ly : isloaded y }.

  Lemma pair_toks (ka kb : list K) s L x y R : length ka = length L →
    inter (ka ++ s :: kb) (ltoks (L ++ x :: y :: R)) =
    tpre ka (ltoks L) ++ (toks (strip x) ++ TS s :: toks (strip y)) ++ tpost kb (ltoks R).
  Proof.
    intros La. unfold ltoks. rewrite fmap_app !fmap_cons inter_mid ?fmap_length //.
    change (tpost (s :: kb) ((toks ∘ strip) y :: (toks ∘ strip <$> R))) with (TS s :: toks (strip y) ++ tpost kb (ltoks R)).
    by rewrite -!app_assoc.
  Qed.
  (** the rest of the tree around the two *)
  Definition pairL C ka L : list (tok K V) := cpre C ++ tpre ka (ltoks L).
  Definition pairR C kb R : list (tok K V) := tpost kb (ltoks R) ++ cpost C.
  Lemma pairT_eq C (ka kb : list K) s L x y R : length ka = length L →
    pairT C ka s kb L x y R = pairL C ka L ++ (toks (strip x) ++ TS s :: toks (strip y)) ++ pairR C kb R.
  Proof. intros. unfold pairT, pairL, pairR. rewrite pair_toks // -!app_assoc. done. Qed.
  Lemma titems_TS (a b : list (tok K V)) s : titems (a ++ TS s :: b) = titems a ++ titems b.
  Proof. by rewrite titems_app. Qed.

  Lemma pairDone C h p root ka s kb L x y R s' x' y' (S S' : list loc) :
    pairok C h p root ka s kb L x y R → S ⊆ S' → isloaded x' → isloaded y' →
    wfo mn mn h (strip x') → wfo mn mn h (strip y') →
    good (pairT C ka s' kb L x' y' R) →
    items (strip x') ++ items (strip y') = items (strip x) ++ items (strip y) →
    pend x' ++ pend y' ≡ₚ pendl (kids x) ++ pendl (kids y) →
    (∀ c, c ∈ kids x ++ kids y → c ∈ kids x' ++ kids y') →
    rebok (titems (pairT C ka s kb L x y R)) (pendl (kids x) ++ pendl (kids y)) (kids x ++ kids y) (pred h) S
      root S' (Datatypes.S h + length C) (fill C (GI p Dirty (ka ++ s' :: kb) (L ++ x' :: y' :: R))).
  Proof using MN.
    intros [La Lb HwC HdC HpC WL WR PL PR Hlow Hgood Htop Hlx Hly] HS Hlx' Hly' Hwx Hwy Hg Hit Hpe Hk.
    assert (toks (strip (fill C (GI p Dirty (ka ++ s' :: kb) (L ++ x' :: y' :: R)))) = pairT C ka s' kb L x' y' R) as Htk.
    { rewrite toks_fill; [|by eapply wfC_lens]. by rewrite ltoks_toks. }
    split.
    - done.
    - by rewrite gid_fill.
    - apply wfo_fill; [done|]. cbn [strip wfo]. rewrite fmap_length !app_length /=. split_and!; [lia|lia|lia|].
      rewrite fmap_app !fmap_cons. apply Forall_app. split; [done|]. by repeat constructor.
    - by rewrite Htk.
    - unfold items at 1. rewrite Htk. rewrite !pairT_eq // !titems_app. f_equal. f_equal.
      change (titems (TS s' :: toks (strip y'))) with (items (strip y')). change (titems (TS s :: toks (strip y))) with (items (strip y)).
      exact Hit.
    - rewrite pend_fill HpC app_nil_r. cbn [pend pst stok]. fold (pendl (L ++ x' :: y' :: R)).
      rewrite pendl_app !pendl_cons PL PR app_nil_r. exact Hpe.
    - destruct C as [|f C]; [done|]. rewrite -(alldirty_C (f :: C)) //. apply gloc_dirty. by left.
    - intros c Hc. specialize (Hk c Hc). apply elem_of_app in Hk as [Hc'|Hc'].
      + destruct (kid_frame mn h x' c) as (f & -> & Hf & Hh & _); [done..|].
        exists (f :: Frame p Dirty ka L (s' :: kb) (y' :: R) :: C). split_and!; [done| |cbn; lia].
        constructor; [done|]. constructor; [|by eapply wfC_lens]. cbn. lia.
      + destruct (kid_frame mn h y' c) as (f & -> & Hf & Hh & _); [done..|].
        exists (f :: Frame p Dirty (ka ++ [s']) (L ++ [x']) kb R :: C). split_and!; [| |cbn; lia].
        * cbn [fill]. unfold zip1 at 2. cbn. by rewrite -!app_assoc.
        * constructor; [done|]. constructor; [|by eapply wfC_lens]. cbn. rewrite !app_length /=. lia.
  Qed.
  Lemma pairClose C h p (ka kb : list K) s' L x y x' y' R sz : lens C → length ka = length L → length kb = length R →
    items (strip x') ++ items (strip y') = items (strip x) ++ items (strip y) →
    sz = isum (ginfo <$> (L ++ x :: y :: R)) →
    inode p (hpar C) (isnil C) Dirty (ka ++ s' :: kb) (ginfo <$> (L ++ x' :: y' :: R)) -∗
    reps h p (L ++ x' :: y' :: R) -∗ ctx (Datatypes.S h) C (Info p sz None) -∗
    whole (Datatypes.S h + length C) (fill C (GI p Dirty (ka ++ s' :: kb) (L ++ x' :: y' :: R))).
  Proof.
    iIntros (HlC La Lb Hit Hsz) "Hp Hk Hc". iApply fill_ctx; [done|]. rewrite rep_GI. iFrame "Hp Hk".
    rewrite ginfo_GI; [|rewrite !app_length /=; lia]. replace (isum (ginfo <$> L ++ x' :: y' :: R)) with sz; [done|].
    rewrite Hsz !chs_sum !fmap_app !fmap_cons !sumz_app !sumz_cons.
    assert (gsz x' + gsz y' = gsz x + gsz y); [|lia]. unfold gsz, csz.
    assert (length (items (strip x') ++ items (strip y')) = length (items (strip x) ++ items (strip y))) as Heq by by rewrite Hit.
    rewrite !app_length in Heq. lia.
  Qed.

  (** separators and contents stay in order *)
  Lemma inter_app (kx ky : list K) s (cx cy : list (list (tok K V))) : length cx = Datatypes.S (length kx) → cy ≠ [] →
    inter (kx ++ s :: ky) (cx ++ cy) = inter kx cx ++ TS s :: inter ky cy.
  Proof.
    destruct cx as [|c cx]; [done|]. intros [= Hl] Hn. destruct cy as [|d cy]; [done|]. cbn [app inter].
    rewrite tpost_app // -app_assoc. done.
  Qed.
  Lemma toks_GI_app n st (kx ky : list K) s (cx cy : list gt) : length cx = Datatypes.S (length kx) → cy ≠ [] →
    toks (strip (GI n st (kx ++ s :: ky) (cx ++ cy))) = inter kx (ltoks cx) ++ TS s :: inter ky (ltoks cy).
  Proof.
    intros. rewrite ltoks_toks. unfold ltoks. rewrite fmap_app inter_app ?fmap_length //. by destruct cy.
  Qed.
  Lemma pair_seps C (ka kb : list K) s L x y R : length ka = length L → length kb = length R →
    good (pairT C ka s kb L x y R) → ksorted (ka ++ s :: kb).
  Proof using WF MN.
    intros La Lb Hg. apply good_app in Hg as (_ & Hg & _). apply good_app in Hg as (Hg & _).
    apply (good_seps cmp dom domV ORD _ _) with (2 := Hg). unfold ltoks. rewrite fmap_length !app_length /=. lia.
  Qed.
  Lemma pair_good2 C (ka kb : list K) s L x y R : length ka = length L →
    good (pairT C ka s kb L x y R) → good (toks (strip x) ++ TS s :: toks (strip y)).
  Proof.
    intros La Hg. rewrite pairT_eq // in Hg. apply good_app in Hg as (_ & Hg & _). by apply good_app in Hg as (Hg & _).
  Qed.
  Lemma good_sub2 (a b : list (tok K V)) : good (a ++ b) → good a ∧ good b.
  Proof. intros (? & ? & _)%good_app. done. Qed.
  Lemma good_items_leaf m : good (itoks m) → ascending cmp m ∧ alldom dom m.
  Proof.
    intros H. split; [by apply good_leaf in H as [? _]|]. rewrite -(titems_itoks m). by eapply good_alldom.
  Qed.

  Lemma good_borrowL (P0 Q0 : list (tok K V)) A k0 v0 k v s B :
    good (P0 ++ (itoks ((A ++ [(k0, v0)]) ++ [(k, v)]) ++ TS s :: itoks B) ++ Q0) →
    good (P0 ++ (itoks (A ++ [(k0, v0)]) ++ TS k :: itoks ((k, v) :: B)) ++ Q0).
  Proof.
    assert (P0 ++ (itoks ((A ++ [(k0, v0)]) ++ [(k, v)]) ++ TS s :: itoks B) ++ Q0 =
      ((P0 ++ itoks A) ++ [TI k0 v0; TI k v]) ++ TS s :: (itoks B ++ Q0)) as ->.
    { rewrite !itoks_app -!app_assoc /= -?app_assoc. done. }
    assert (P0 ++ (itoks (A ++ [(k0, v0)]) ++ TS k :: itoks ((k, v) :: B)) ++ Q0 =
      (P0 ++ itoks A) ++ TI k0 v0 :: TS k :: TI k v :: (itoks B ++ Q0)) as ->.
    { rewrite !itoks_app -!app_assoc /= -?app_assoc. done. }
    intros H%good_unsep. apply (good_sep cmp dom domV ORD). by rewrite -app_assoc in H.
  Qed.
  Lemma good_borrowR (P0 Q0 : list (tok K V)) A k v k2 v2 s B :
    good (P0 ++ (itoks A ++ TS s :: itoks ((k, v) :: (k2, v2) :: B)) ++ Q0) →
    good (P0 ++ (itoks (A ++ [(k, v)]) ++ TS k2 :: itoks ((k2, v2) :: B)) ++ Q0).
  Proof.
    assert (P0 ++ (itoks A ++ TS s :: itoks ((k, v) :: (k2, v2) :: B)) ++ Q0 =
      (P0 ++ itoks A) ++ TS s :: TI k v :: TI k2 v2 :: (itoks B ++ Q0)) as ->.
    { rewrite -!app_assoc /=. done. }
    assert (P0 ++ (itoks (A ++ [(k, v)]) ++ TS k2 :: itoks ((k2, v2) :: B)) ++ Q0 =
      (P0 ++ itoks A) ++ TI k v :: TS k2 :: TI k2 v2 :: (itoks B ++ Q0)) as ->.
    { rewrite !itoks_app -!app_assoc /= -?app_assoc. done. }
    intros H%good_unsep. by apply (good_sep cmp dom domV ORD).
  Qed.
  Lemma weakg_id g : gid (weakg g) = gid g.
  Proof. by destruct g. Qed.
  Lemma weakg_nclean g : isloaded g → nclean (weakg g).
  Proof. destruct g; [done|..]; intros _; apply weak_notclean. Qed.
  Lemma pend_kids g : isdirty g ∨ (isloaded g ∧ pend g = []) → pend g = pendl (kids g).
  Proof.
    destruct g as [n d|n st kvs|n st ks cs]; cbn; [by intros [|[]]|..].
    - intros [H|[_ H]]; [by destruct st|done].
    - intros [H|[_ H]]; [by destruct st|]. fold (pendl cs) in *. by apply app_eq_nil in H as [-> ->].
  Qed.

  Lemma ids_weakl L x R : gid <$> (L ++ x :: R) = gid <$> (L ++ weakg x :: R).
  Proof. by rewrite !fmap_app !fmap_cons weakg_id. Qed.
  Lemma ids_weakr L x y R : gid <$> (L ++ x :: y :: R) = gid <$> (L ++ x :: weakg y :: R).
  Proof. by rewrite !fmap_app !fmap_cons weakg_id. Qed.
  Definition pairPost (Q : unit → hProp) C h ka s kb L x y R S : hProp :=
    (∀ root' S' h' g' (_ : rebok (titems (pairT C ka s kb L x y R)) (pendl (kids x) ++ pendl (kids y)) (kids x ++ kids y) (pred h) S root' S' h' g'),
       isTR root' S' -∗ whole h' g' -∗ Q tt)%I.

  Lemma pair_borrowL C h p root ka s kb L x y R S sz Q Er : pairok C h p root ka s kb L x y R → isdirty y →
    wfo mn mn h (strip x) → (mn < nkeys x)%nat → wfo mn (mn - 1) h (strip y) → (nkeys y < mn)%nat →
    sz = isum (ginfo <$> (L ++ x :: y :: R)) →
    isTR root S -∗ inodeU p (hpar C) (isnil C) Dirty (ka ++ s :: kb) (gid <$> (L ++ x :: y :: R)) -∗
    reps h p L -∗ reps h p R -∗ rep h (Some p) false x -∗ rep h (Some p) false y -∗ ctx (Datatypes.S h) C (Info p sz None) -∗
    pairPost Q C h ka s kb L x y R S -∗
    wp true (borrowLeft cb t (gid y) p (gid x) (Z.of_nat (length ka)) (Z.of_nat (nkeys x))) Q Er.
  Proof using WF MN.
    iIntros (Hok Hy Hwx Hnx Hwy Hny Hsz) "HT Hp HL HR Hx Hy Hc H".
    pose proof (pk_la _ _ _ _ _ _ _ _ _ _ _ Hok) as La. pose proof (pk_lb _ _ _ _ _ _ _ _ _ _ _ Hok) as Lb.
    pose proof (wfC_lens _ _ _ (pk_wfC _ _ _ _ _ _ _ _ _ _ _ Hok)) as HlC.
    pose proof (pk_good _ _ _ _ _ _ _ _ _ _ _ Hok) as Hg.
    iEval (rewrite ids_weakl) in "Hp".
    destruct x as [nx dx|nx sx A|nx sx kx cx]; [by destruct (pk_lx _ _ _ _ _ _ _ _ _ _ _ Hok)|..];
      destruct y as [ny dy|ny sy B|ny sy ky cy]; try done; destruct h as [|h]; try done; destruct sy; try done; iDestruct (rep_weak with "Hx") as "Hx".
    - cbn [weakg strip wfo nkeys gid] in *. destruct A as [|[k v] A _] using rev_ind; [cbn in Hnx; lia|].
      rewrite app_length /= in Hnx. rewrite app_length /= in Hwx. destruct A as [|[k0 v0] A _] using rev_ind; [cbn in Hnx; lia|].
      assert (good (pairT C ka k kb L (GL nx Dirty (A ++ [(k0, v0)])) (GL ny Dirty ((k, v) :: B)) R)) as Hg'.
      { rewrite !pairT_eq // in Hg |- *. by eapply good_borrowL. }
      pose proof (pair_good2 _ _ _ _ _ _ _ _ La Hg') as Hg2. cbn [strip toks] in Hg2. apply good_sub2 in Hg2 as [_ Hg2].
      apply (good_unsep cmp dom domV []) in Hg2. cbn [app] in Hg2. apply good_items_leaf in Hg2 as [Hasc Hdm].
      pose proof (pair_seps _ _ _ _ _ _ _ _ La Lb Hg') as Hks.
      rewrite app_length /=.
      iApply (borrowLeft_leaf cb dom domV WF mn MN t ca _ root S p _ _ nx ny (weak sx) (A ++ [(k0, v0)]) k v B ka s kb L R with "HT Hp HL HR Hx Hy"); [apply weak_notclean|done..|].
      iIntros (S' HS') "HT Hp Hk".
      assert (items (strip (GL nx Dirty (A ++ [(k0, v0)]))) ++ items (strip (GL ny Dirty ((k, v) :: B))) =
        items (strip (GL nx sx ((A ++ [(k0, v0)]) ++ [(k, v)]))) ++ items (strip (GL ny Dirty B))) as Hit.
      { cbn [strip]. rewrite !items_CL -!app_assoc. done. }
      iApply ("H" $! root S' _ _ (pairDone _ _ _ _ _ _ _ _ _ _ _ k (GL nx Dirty (A ++ [(k0, v0)])) (GL ny Dirty ((k, v) :: B)) S S' Hok HS' I I ltac:(cbn; lia) ltac:(cbn; lia) Hg' Hit ltac:(done) ltac:(done)) with "HT").
      iApply (pairClose with "Hp Hk Hc"); done.
    - cbn [weakg strip wfo nkeys gid] in *. rewrite !fmap_length in Hwx Hwy. destruct Hwx as (Lx & Hwx & Wx), Hwy as (Ly & Hwy & Wy).
      destruct kx as [|mk kx _] using rev_ind; [cbn in Hnx; lia|]. destruct cx as [|c cx _] using rev_ind; [cbn in Lx; lia|].
      rewrite !app_length /= in Lx Hnx Hwx. destruct cy as [|c0 cy]; [done|]. 
      rewrite fmap_app in Wx. apply Forall_app in Wx as [Wx Wc]. cbn in Wc. apply Forall_cons in Wc as [Wc _].
      assert (pairT C ka mk kb L (GI nx Dirty kx cx) (GI ny Dirty (s :: ky) (c :: c0 :: cy)) R = pairT C ka s kb L (GI nx sx (kx ++ [mk]) (cx ++ [c])) (GI ny Dirty ky (c0 :: cy)) R) as HT.
      { rewrite !pairT_eq //. f_equal. f_equal. rewrite toks_GI_app; [|lia|done]. rewrite !ltoks_toks -app_assoc. f_equal. cbn. rewrite app_nil_r. done. }
      assert (good (pairT C ka mk kb L (GI nx Dirty kx cx) (GI ny Dirty (s :: ky) (c :: c0 :: cy)) R)) as Hg' by by rewrite HT.
      pose proof (pair_seps _ _ _ _ _ _ _ _ La Lb Hg') as Hks.
      assert (ksorted (s :: ky)) as Hky.
      { pose proof (pair_good2 _ _ _ _ _ _ _ _ La Hg') as Hg2. apply good_sub2 in Hg2 as [_ Hg2].
        apply (good_unsep cmp dom domV []) in Hg2. cbn [app] in Hg2. rewrite ltoks_toks in Hg2.
        apply (good_seps cmp dom domV ORD _ _) with (2 := Hg2). unfold ltoks. rewrite fmap_length /=. cbn in Ly. lia. }
      rewrite app_length /=.
      iApply (borrowLeft_inner cb dom domV WF mn MN t ca _ root S h p _ _ nx ny (weak sx) kx mk cx c ky c0 cy ka s kb L R with "HT Hp HL HR Hx Hy"); [apply weak_notclean|done|done|lia|done|done|].
      iIntros (S' HS') "HT Hp Hk".
      assert (items (strip (GI nx Dirty kx cx)) ++ items (strip (GI ny Dirty (s :: ky) (c :: c0 :: cy))) =
        items (strip (GI nx sx (kx ++ [mk]) (cx ++ [c]))) ++ items (strip (GI ny Dirty ky (c0 :: cy)))) as Hit.
      { assert (titems (pairT C ka mk kb L (GI nx Dirty kx cx) (GI ny Dirty (s :: ky) (c :: c0 :: cy)) R) = titems (pairT C ka s kb L (GI nx sx (kx ++ [mk]) (cx ++ [c])) (GI ny Dirty ky (c0 :: cy)) R)) as Heq by by rewrite HT.
        rewrite !pairT_eq // !titems_app in Heq. apply app_inv_head in Heq. by apply app_inv_tail in Heq. }
      assert (wfo mn mn (Datatypes.S h) (strip (GI nx Dirty kx cx))) as W1.
      { cbn. rewrite fmap_length. split_and!; [lia|lia|lia|done]. }
      assert (wfo mn mn (Datatypes.S h) (strip (GI ny Dirty (s :: ky) (c :: c0 :: cy)))) as W2.
      { cbn. cbn in Ly, Hny. rewrite fmap_length. split_and!; [lia|lia|lia|by constructor]. }
      assert (pend (GI nx Dirty kx cx) ++ pend (GI ny Dirty (s :: ky) (c :: c0 :: cy)) ≡ₚ pendl (kids (GI nx sx (kx ++ [mk]) (cx ++ [c]))) ++ pendl (kids (GI ny Dirty ky (c0 :: cy)))) as Hpe.
      { cbn [pend kids pst stok app]. fold (pendl cx). fold (pendl (c :: c0 :: cy)). rewrite pendl_app pendl_cons -app_assoc. cbn. by rewrite app_nil_r. }
      iApply ("H" $! root S' _ _ (pairDone _ _ _ _ _ _ _ _ _ _ _ mk (GI nx Dirty kx cx) (GI ny Dirty (s :: ky) (c :: c0 :: cy)) S S' Hok HS' I I W1 W2 Hg' Hit Hpe ltac:(cbn; set_solver)) with "HT").
      iApply (pairClose with "Hp Hk Hc"); done.
  Qed.

  Lemma pair_borrowR C h p root ka s kb L x y R S sz Q Er : pairok C h p root ka s kb L x y R → isdirty x →
    wfo mn mn h (strip y) → (mn < nkeys y)%nat → wfo mn (mn - 1) h (strip x) → (nkeys x < mn)%nat →
    sz = isum (ginfo <$> (L ++ x :: y :: R)) →
    isTR root S -∗ inodeU p (hpar C) (isnil C) Dirty (ka ++ s :: kb) (gid <$> (L ++ x :: y :: R)) -∗
    reps h p L -∗ reps h p R -∗ rep h (Some p) false x -∗ rep h (Some p) false y -∗ ctx (Datatypes.S h) C (Info p sz None) -∗
    pairPost Q C h ka s kb L x y R S -∗
    wp true (borrowRight cb t (gid x) p (gid y) (Z.of_nat (length ka) - 1)) Q Er.
  Proof using WF MN.
    iIntros (Hok Hx Hwy Hny Hwx Hnx Hsz) "HT Hp HL HR Hx Hy Hc H".
    pose proof (pk_la _ _ _ _ _ _ _ _ _ _ _ Hok) as La. pose proof (pk_lb _ _ _ _ _ _ _ _ _ _ _ Hok) as Lb.
    pose proof (wfC_lens _ _ _ (pk_wfC _ _ _ _ _ _ _ _ _ _ _ Hok)) as HlC.
    pose proof (pk_good _ _ _ _ _ _ _ _ _ _ _ Hok) as Hg.
    iEval (rewrite ids_weakr) in "Hp".
    destruct y as [ny dy|ny sy B|ny sy ky cy]; [by destruct (pk_ly _ _ _ _ _ _ _ _ _ _ _ Hok)|..];
      destruct x as [nx dx|nx sx A|nx sx kx cx]; try done; destruct h as [|h]; try done; destruct sx; try done; iDestruct (rep_weak with "Hy") as "Hy".
    - cbn [weakg strip wfo nkeys gid] in *. destruct B as [|[k v] B]; [cbn in Hny; lia|].
      destruct B as [|[k2 v2] B]; [cbn in Hny; lia|]. cbn in Hwy, Hny.
      assert (good (pairT C ka k2 kb L (GL nx Dirty (A ++ [(k, v)])) (GL ny Dirty ((k2, v2) :: B)) R)) as Hg'.
      { rewrite !pairT_eq // in Hg |- *. by eapply good_borrowR. }
      pose proof (pair_good2 _ _ _ _ _ _ _ _ La Hg') as Hg2. cbn [strip toks] in Hg2. apply good_sub2 in Hg2 as [Hg2 _].
      apply good_items_leaf in Hg2 as [Hasc Hdm].
      pose proof (pair_seps _ _ _ _ _ _ _ _ La Lb Hg') as Hks.
      iApply (borrowRight_leaf cb dom domV WF mn MN t ca _ root S p _ _ ny nx (weak sy) A k v k2 v2 B ka s kb L R with "HT Hp HL HR Hx Hy"); [apply weak_notclean|done..|].
      iIntros (S' HS') "HT Hp Hk".
      assert (items (strip (GL nx Dirty (A ++ [(k, v)]))) ++ items (strip (GL ny Dirty ((k2, v2) :: B))) =
        items (strip (GL nx Dirty A)) ++ items (strip (GL ny sy ((k, v) :: (k2, v2) :: B)))) as Hit.
      { cbn [strip]. rewrite !items_CL -!app_assoc. done. }
      assert (wfo mn mn 0 (strip (GL nx Dirty (A ++ [(k, v)])))) as W1.
      { cbn. rewrite app_length /=. lia. }
      iApply ("H" $! root S' _ _ (pairDone _ _ _ _ _ _ _ _ _ _ _ k2 (GL nx Dirty (A ++ [(k, v)])) (GL ny Dirty ((k2, v2) :: B)) S S' Hok HS' I I W1 ltac:(cbn; lia) Hg' Hit ltac:(done) ltac:(done)) with "HT").
      iApply (pairClose with "Hp Hk Hc"); done.
    - cbn [weakg strip wfo nkeys gid] in *. rewrite !fmap_length in Hwx Hwy. destruct Hwx as (Lx & Hwx & Wx), Hwy as (Ly & Hwy & Wy).
      destruct ky as [|sk ky]; [cbn in Hny; lia|]. destruct cy as [|c cy]; [done|]. destruct cy as [|c1 cy]; [done|].
      cbn in Ly, Hny, Hwy. rewrite !fmap_cons in Wy. apply Forall_cons in Wy as [Wc Wy].
      assert (pairT C ka sk kb L (GI nx Dirty (kx ++ [s]) (cx ++ [c])) (GI ny Dirty ky (c1 :: cy)) R = pairT C ka s kb L (GI nx Dirty kx cx) (GI ny sy (sk :: ky) (c :: c1 :: cy)) R) as HT.
      { rewrite !pairT_eq //. f_equal. f_equal. rewrite (toks_GI_app nx Dirty kx [] s cx [c]); [|lia|done]. rewrite !ltoks_toks -app_assoc. f_equal. cbn. rewrite app_nil_r. done. }
      assert (good (pairT C ka sk kb L (GI nx Dirty (kx ++ [s]) (cx ++ [c])) (GI ny Dirty ky (c1 :: cy)) R)) as Hg' by by rewrite HT.
      pose proof (pair_seps _ _ _ _ _ _ _ _ La Lb Hg') as Hks.
      assert (ksorted (kx ++ [s])) as Hkx.
      { pose proof (pair_good2 _ _ _ _ _ _ _ _ La Hg') as Hg2. apply good_sub2 in Hg2 as [Hg2 _]. rewrite ltoks_toks in Hg2.
        apply (good_seps cmp dom domV ORD _ _) with (2 := Hg2). unfold ltoks. rewrite fmap_length !app_length /=. lia. }
      iApply (borrowRight_inner cb dom domV WF mn MN t ca _ root S h p _ _ ny nx (weak sy) kx cx sk ky c c1 cy ka s kb L R with "HT Hp HL HR Hx Hy"); [apply weak_notclean|done|done|lia|done|done|].
      iIntros (S' HS') "HT Hp Hk".
      assert (items (strip (GI nx Dirty (kx ++ [s]) (cx ++ [c]))) ++ items (strip (GI ny Dirty ky (c1 :: cy))) =
        items (strip (GI nx Dirty kx cx)) ++ items (strip (GI ny sy (sk :: ky) (c :: c1 :: cy)))) as Hit.
      { assert (titems (pairT C ka sk kb L (GI nx Dirty (kx ++ [s]) (cx ++ [c])) (GI ny Dirty ky (c1 :: cy)) R) = titems (pairT C ka s kb L (GI nx Dirty kx cx) (GI ny sy (sk :: ky) (c :: c1 :: cy)) R)) as Heq by by rewrite HT.
        rewrite !pairT_eq // !titems_app in Heq. apply app_inv_head in Heq. by apply app_inv_tail in Heq. }
      assert (wfo mn mn (Datatypes.S h) (strip (GI nx Dirty (kx ++ [s]) (cx ++ [c])))) as W1.
      { cbn. rewrite fmap_app !app_length /= !fmap_length. split_and!; [lia|lia|lia|]. apply Forall_app. split; [done|]. by repeat constructor. }
      assert (wfo mn mn (Datatypes.S h) (strip (GI ny Dirty ky (c1 :: cy)))) as W2.
      { cbn. rewrite fmap_length. split_and!; [lia|lia|lia|done]. }
      assert (pend (GI nx Dirty (kx ++ [s]) (cx ++ [c])) ++ pend (GI ny Dirty ky (c1 :: cy)) ≡ₚ pendl (kids (GI nx Dirty kx cx)) ++ pendl (kids (GI ny sy (sk :: ky) (c :: c1 :: cy)))) as Hpe.
      { cbn [pend kids pst stok app]. fold (pendl (cx ++ [c])). fold (pendl (c1 :: cy)). rewrite pendl_app (pendl_cons c (c1 :: cy)) -app_assoc. cbn. by rewrite app_nil_r. }
      iApply ("H" $! root S' _ _ (pairDone _ _ _ _ _ _ _ _ _ _ _ sk (GI nx Dirty (kx ++ [s]) (cx ++ [c])) (GI ny Dirty ky (c1 :: cy)) S S' Hok HS' I I W1 W2 Hg' Hit Hpe ltac:(cbn; set_solver)) with "HT").
      iApply (pairClose with "Hp Hk Hc"); done.
  Qed.

  Lemma mjn_weak x s y : mjn (weakg x) s (weakg y) = weakg (mjn x s y).
  Proof. by destruct x, y. Qed.
  Lemma toks_mjn x s y : mgood cb dom x s y → sublist (toks (strip (mjn x s y))) (toks (strip x) ++ TS s :: toks (strip y)) ∧
    items (strip (mjn x s y)) = items (strip x) ++ items (strip y).
  Proof.
    destruct x as [|nx sx A|nx sx kx cx], y as [|ny sy B|ny sy ky cy]; try done; cbn [mjn].
    - intros _. split; [|cbn [strip]; by rewrite !items_CL]. cbn [strip toks]. rewrite itoks_app. apply sublist_app; [done|]. by apply sublist_cons.
    - intros (_ & Lx & Ly). assert (cy ≠ []) by by destruct cy.
      assert (toks (strip (GI nx sx (kx ++ s :: ky) (cx ++ cy))) = toks (strip (GI nx sx kx cx)) ++ TS s :: toks (strip (GI ny sy ky cy))) as Heq.
      { rewrite toks_GI_app // !ltoks_toks. done. }
      rewrite Heq. split; [done|]. unfold items. rewrite Heq titems_TS. done.
  Qed.
  Lemma pair_merge rec C h p root ka s kb L x y R S chk sz Q Er : pairok C h p root ka s kb L x y R → rebSpec rec C →
    usable y → (isdirty x ∨ isdirty y) → wfo mn (mn - 1) h (strip x) → wfo mn (mn - 1) h (strip y) →
    (2 * mn - 1 = nkeys x + nkeys y)%nat →
    sz = isum (ginfo <$> (L ++ x :: y :: R)) → (True ⊢ Er EIO) →
    isTR root S -∗ inodeU p (hpar C) (isnil C) Dirty (ka ++ s :: kb) (gid <$> (L ++ x :: y :: R)) -∗
    reps h p L -∗ reps h p R -∗ rep h (Some p) false x -∗ rep h (Some p) false y -∗ ctx (Datatypes.S h) C (Info p sz None) -∗
    pairPost Q C h ka s kb L x y R S -∗
    wp true (mergeNodes cb t (gid x) (gid y) p (Z.of_nat (length ka)) chk (rec p)) Q Er.
  Proof using WF MN.
    intros Hok Hrec Hu Hxy Hwx Hwy Hn Hsz HEr. iIntros "HT Hp HL HR Hx Hy Hc H".
    pose proof Hok as [La Lb HwC HdC HpC WL WR PL PR Hlow Hgood Htop Hlx Hly].
    iDestruct (rep_weak with "Hx") as "Hx". iDestruct (rep_weak with "Hy") as "Hy".
    iEval (rewrite ids_mid fmap_cons inodeU_kn) in "Hp". iDestruct "Hp" as (szp) "(%Hlp & Hp & Htp & Hpf & Hhp)".
    iEval (rewrite kels_mid; [|by apply (ids_len mn MN)]) in "Hp".
    assert (length (kels (V:=V) ka ((gid <$> L) ++ [gid x])) = length ka) as Hlk.
    { apply (kels_len mn MN). by apply (ids_len mn MN). }
    assert (mgood cb dom x s y) as Hm.
    { pose proof (pair_good2 _ _ _ _ _ _ _ _ La Hgood) as Hg2.
      destruct x as [|nx sx A|nx sx kx cx], y as [|ny sy B|ny sy ky cy], h; try done; cbn [mgood].
      - cbn [strip toks] in Hg2. apply good_unsep in Hg2. rewrite -itoks_app in Hg2. by apply good_items_leaf.
      - cbn in Hwx, Hwy. rewrite !fmap_length in Hwx Hwy. destruct Hwx as [Lx _], Hwy as [Ly _]. split_and!; [|done|done].
        rewrite !ltoks_toks in Hg2. unfold ltoks in Hg2. rewrite -inter_app in Hg2; [|by rewrite fmap_length|by destruct cy].
        apply (good_seps cmp dom domV ORD _ _) with (2 := Hg2). rewrite app_length !fmap_length app_length /=. lia. }
    assert (mgood cb dom (weakg x) s (weakg y)) as Hmw by by destruct x, y.
    destruct (toks_mjn x s y Hm) as [Hsub Hit].
    rewrite -Hlk -(weakg_id y) -(weakg_id x).
    iApply (mergeHead cb dom domV WF mn MN t ca with "Hp Hx Hy").
    { by apply weakg_nclean. } { by apply weakg_nclean. } { by destruct y as [|ny []|ny []]. } { done. }
    iIntros "Hp Hx Hy". rewrite mjn_weak.
    set z := weakg (mjn x s y).
    assert (isloaded (mjn x s y)) as Hlz by by destruct x, y.
    assert (strip z = strip (mjn x s y)) as Hsz'. { unfold z. by destruct (mjn x s y). }
    assert (kids z = kids x ++ kids y) as Hkz. { unfold z. by destruct x, y. }
    assert (gid z = gid (weakg x)) as Hgz. { unfold z. by destruct x, y. }
    assert (isleaf (weakg x) = isleaf z) as ->. { unfold z. by destruct x, y. }
    assert (gid z = gid x) as Hgx by by rewrite Hgz weakg_id.
    rewrite !(weakg_id x) Hlk -Hgx.
    replace (head (((gid <$> L) ++ [gid z]) ++ gid (weakg y) :: (gid <$> R))) with (head ((gid <$> L) ++ [gid z])) by by destruct L.
    assert (titems (pairT C ka s kb L x y R) = titems (cpre C ++ inter (ka ++ kb) (ltoks (L ++ z :: R)) ++ cpost C)) as HT.
    { unfold pairT. rewrite pair_toks // {3}/ltoks fmap_app fmap_cons inter_mid ?fmap_length // !titems_app.
      change (titems (toks (strip x))) with (items (strip x)). change (titems (TS s :: toks (strip y))) with (items (strip y)).
      rewrite -Hit -Hsz'. done. }
    iApply (mergeTail_spec rec C h p ka s kb L z (gid (weakg y)) R root S szp sz with "HT Hp Htp [Hpf] Hhp Hx Hy HL HR Hc"); try done.
    { by apply weakg_nclean. }
    { rewrite Hsz'. destruct x as [|nx sx A|nx sx kx cx], y as [|ny sy B|ny sy ky cy], h; try done; cbn in *.
      - rewrite app_length. lia.
      - rewrite !fmap_length in Hwx Hwy. rewrite fmap_length fmap_app !app_length /=. split_and!; [lia|lia|lia|].
        apply Forall_app. naive_solver. }
    { apply (good_sub cmp dom domV) with (2 := Hgood). unfold pairT. apply sublist_app; [done|]. apply sublist_app; [|done].
      rewrite pair_toks // /ltoks fmap_app fmap_cons inter_mid ?fmap_length //. apply sublist_app; [done|]. apply sublist_app; [|done].
      cbn. by rewrite Hsz'. }
    { rewrite Hsz !chs_sum !fmap_app !fmap_cons !sumz_app !sumz_cons.
      assert (gsz z = gsz x + gsz y); [|lia]. unfold gsz, csz. rewrite Hsz' Hit app_length. lia. }
    { rewrite ids_mid !pfields_app. iDestruct "Hpf" as "[$ [_ $]]". }
    iIntros (root' S' h' g' Hr) "HT Hw". rewrite -HT Hkz pendl_app in Hr.
    iApply ("H" $! root' S' h' g' Hr with "HT Hw").
  Qed.

  (** ** The siblings *)
  Lemma vw_keep g g' : vw g' = vw g → strip g' = strip g ∧ ginfo g' = ginfo g ∧ gid g' = gid g.
  Proof. intros H. split_and!; [by apply vw_strip|by apply vw_info|by rewrite -!vid_vw H]. Qed.
  Definition sibok g g' : Prop := isloaded g' ∧ strip g' = strip g ∧ ginfo g' = ginfo g ∧ gid g' = gid g ∧ pend g' = [].
  Lemma visit_sib h par root S g Q Er : good (toks (strip g)) → wfo mn mn h (strip g) → pend g = [] → (True ⊢ Er EIO) →
    isTR root S -∗ rep h par false g -∗ (∀ g' (_ : sibok g g'), isTR root S -∗ rep h par false g' -∗ Q tt) -∗
    wp true (visit cb true t (gid g)) Q Er.
  Proof using WF MN.
    iIntros (Hg Hw Hp HEr) "HT Hr H". iDestruct (rep_cleanok with "Hr") as %Hcl.
    iApply (visit_spec cb dom domV WF with "HT Hr"); [done|by eexists|intros _; by apply pend_usable|].
    iSplit.
    - iIntros (g' [Hv Hl]) "HT Hr". iDestruct (rep_cleanok with "Hr") as %Hcl'.
      destruct (vw_keep _ _ Hv) as (H1 & H2 & H3). assert (sibok g g') as HX by (split_and!; [done..|]; by rewrite (vw_pend g g')).
      iApply ("H" $! g' HX with "HT Hr").
    - iIntros "HT Hr". rewrite -HEr. done.
  Qed.
  Lemma leftSib h root S p par ir ks L l y R Q Er : length (L ++ l :: y :: R) = Datatypes.S (length ks) →
    good (toks (strip l)) → wfo mn mn h (strip l) → pend l = [] → (True ⊢ Er EIO) →
    isTR root S -∗ inodeU p par ir Dirty ks (gid <$> (L ++ l :: y :: R)) -∗ rep h (Some p) false l -∗
    (∀ l' (_ : sibok l l'), isTR root S -∗ inodeU p par ir Dirty ks (gid <$> (L ++ l :: y :: R)) -∗ rep h (Some p) false l' -∗ Q (Some (gid l))) -∗
    wp true (leftSibling cb t p (Z.of_nat (length (L ++ [l])) - 1)) Q Er.
  Proof using WF MN.
    iIntros (Hlen Hg Hw Hp HEr) "HT Hp Hr H". unfold leftSibling.
    rewrite app_length /=. destruct (Z.eqb_spec (Z.of_nat (length L + 1) - 1) (-1)); [lia|].
    iEval (rewrite inodeU_kn) in "Hp". iDestruct "Hp" as (szp) "(%Hlp & Hp & Htp & Hpf & Hhp)".
    iAssert (∀ Q', (knode p par ir false Dirty szp (kels ks (gid <$> L ++ l :: y :: R)) (head (gid <$> L ++ l :: y :: R)) -∗ Q' (gid l)) -∗
      wp true (if Z.of_nat (length L + 1) - 1 =? 0 then let* rp := getN p in deref (b_left rp)
         else
           let* o := kvGet p (Z.of_nat (length L + 1) - 1 - 1) in
           let* '(_, v) := logicSome o in
           asNode v) Q' Er)%I with "[Hp]" as "Hfind".
    { iIntros (Q') "H". destruct (Z.eqb_spec (Z.of_nat (length L + 1) - 1) 0).
      - destruct L; [|cbn in *; lia]. iApply wp_bind. iApply (kn_getN with "Hp"). iIntros (r (_ & _ & _ & Hl & _)) "Hp".
        iApply (wp_deref _ _ (gid l)); [done|]. by iApply "H".
      - replace (Z.of_nat (length L + 1) - 1 - 1) with (Z.of_nat (pred (length L))) by lia.
        destruct (lookup_lt_is_Some_2 ks (pred (length L))) as [k Hk]; [rewrite app_length /= in Hlen; lia|].
        iApply wp_bind. iApply (kn_get _ _ _ _ _ _ _ _ _ _ _ _ _ (k, VNode (gid l)) with "Hp").
        { apply (kels_lookup ks); [done|done|]. replace (Datatypes.S (pred (length L))) with (length L) by lia.
          rewrite list_lookup_fmap list_lookup_middle //. }
        iIntros "Hp". iApply wp_bind. iApply wp_logicSome. cbn beta iota. iApply wp_asNode. by iApply "H". }
    iApply wp_bind. iApply "Hfind". iIntros "Hp". iApply wp_bind. iApply (visit_sib with "HT Hr"); [done..|].
    iIntros (l' Hl') "HT Hr". iApply wp_ret. iApply ("H" $! l' Hl' with "HT [Hp Htp Hpf Hhp] Hr").
    rewrite inodeU_kn. iExists szp. by iFrame.
  Qed.
  Lemma rightNone root S p par ir ks L y Q Er : length (L ++ [y]) = Datatypes.S (length ks) →
    isTR root S -∗ inodeU p par ir Dirty ks (gid <$> (L ++ [y])) -∗
    (isTR root S -∗ inodeU p par ir Dirty ks (gid <$> (L ++ [y])) -∗ Q None) -∗
    wp true (rightSibling cb t p (Z.of_nat (length L) - 1)) Q Er.
  Proof using MN.
    iIntros (Hlen) "HT Hp H". iEval (rewrite inodeU_kn) in "Hp". iDestruct "Hp" as (szp) "(%Hlp & Hp & Htp & Hpf & Hhp)".
    iApply wp_bind. iApply (kn_len with "Hp"). iIntros "Hp". rewrite (kels_len mn MN) //.
    rewrite app_length /= in Hlen.
    destruct (Z.eqb_spec (Z.of_nat (length ks) - 1) (Z.of_nat (length L) - 1)); [|lia].
    iApply wp_ret. iApply ("H" with "HT"). rewrite inodeU_kn. iExists szp. by iFrame.
  Qed.
  Lemma rightSib h root S p par ir ks L y q R Q Er : length (L ++ y :: q :: R) = Datatypes.S (length ks) →
    good (toks (strip q)) → wfo mn mn h (strip q) → pend q = [] → (True ⊢ Er EIO) →
    isTR root S -∗ inodeU p par ir Dirty ks (gid <$> (L ++ y :: q :: R)) -∗ rep h (Some p) false q -∗
    (∀ q' (_ : sibok q q'), isTR root S -∗ inodeU p par ir Dirty ks (gid <$> (L ++ y :: q :: R)) -∗ rep h (Some p) false q' -∗ Q (Some (gid q))) -∗
    wp true (rightSibling cb t p (Z.of_nat (length L) - 1)) Q Er.
  Proof using WF MN.
    iIntros (Hlen Hg Hw Hp HEr) "HT Hp Hr H". iEval (rewrite inodeU_kn) in "Hp". iDestruct "Hp" as (szp) "(%Hlp & Hp & Htp & Hpf & Hhp)".
    iApply wp_bind. iApply (kn_len with "Hp"). iIntros "Hp". rewrite (kels_len mn MN) //.
    rewrite app_length /= in Hlen.
    destruct (Z.eqb_spec (Z.of_nat (length ks) - 1) (Z.of_nat (length L) - 1)); [lia|].
    replace (Z.of_nat (length L) - 1 + 1) with (Z.of_nat (length L)) by lia.
    destruct (lookup_lt_is_Some_2 ks (length L)) as [k Hk]; [lia|].
    iApply wp_bind. iApply (kn_get _ _ _ _ _ _ _ _ _ _ _ _ _ (k, VNode (gid q)) with "Hp").
    { apply (kels_lookup ks); [done|done|]. rewrite list_lookup_fmap lookup_app_r; [|lia].
      replace (Datatypes.S (length L) - length L)%nat with 1%nat by lia. done. }
    iIntros "Hp". iApply wp_bind. iApply wp_logicSome. cbn beta iota. iApply wp_bind. iApply wp_asNode.
    iApply wp_bind. iApply (visit_sib with "HT Hr"); [done..|].
    iIntros (q' Hq') "HT Hr". iApply wp_ret. iApply ("H" $! q' Hq' with "HT [Hp Htp Hpf Hhp] Hr").
    rewrite inodeU_kn. iExists szp. by iFrame.
  Qed.

  Lemma frameT f C g : flen f → cpre (f :: C) ++ toks (strip g) ++ cpost (f :: C) =
    cpre C ++ inter (f_ka f ++ f_kb f) (ltoks (f_ls f ++ g :: f_rs f)) ++ cpost C.
  Proof.
    intros [La Lb]. unfold ltoks. rewrite fmap_app fmap_cons inter_mid ?fmap_length //. cbn [cpre cpost]. rewrite -!app_assoc. done.
  Qed.
  Lemma rep_getN h par ir g Q (Er : err → hProp) : isdirty g →
    rep h par ir g -∗ (∀ r (_ : b_parent r = par ∧ b_root r = ir), rep h par ir g -∗ Q r) -∗ wp true (getN (gid g)) Q Er.
  Proof using WF MN.
    iIntros (Hd) "Hr H". iDestruct (rep_root with "Hr") as (r) "(HN & (%H1 & %H2) & Hr)"; [by left|].
    iApply (wp_getN with "HN"). iIntros "HN". assert (b_parent r = par ∧ b_root r = ir) as HX by done.
    iApply ("H" $! r HX). iSpecialize ("Hr" $! par ir). iApply "Hr".
    replace (set_parent par (set_root ir r)) with r; [done|]. rewrite -H1 -H2. by destruct r.
  Qed.
  Lemma sib_ltoks L x x' R : strip x' = strip x → ltoks (L ++ x' :: R) = ltoks (L ++ x :: R).
  Proof. intros H. unfold ltoks. rewrite !fmap_app !fmap_cons. cbn. by rewrite H. Qed.
  Lemma sib_infos L x x' R : ginfo x' = ginfo x → ginfo <$> (L ++ x' :: R) = ginfo <$> (L ++ x :: R).
  Proof. intros H. by rewrite !fmap_app !fmap_cons H. Qed.
  Lemma sib_ids L x x' R : gid x' = gid x → gid <$> (L ++ x' :: R) = gid <$> (L ++ x :: R).
  Proof. intros H. by rewrite !fmap_app !fmap_cons H. Qed.
  Lemma isdirty_loaded g : isdirty g → isloaded g.
  Proof. by destruct g. Qed.
  Lemma rebok_perm Its P P' cs cs' hc (S : list loc) root' S' h' g' : P' ≡ₚ P → (∀ c, c ∈ cs' → c ∈ cs) →
    rebok Its P cs hc S root' S' h' g' → rebok Its P' cs' hc S root' S' h' g'.
  Proof. intros HP Hc [H1 H2 H3 H4 H5 H6 H7 H8]. split; try done; [by rewrite HP|]. intros c Hin. apply H8. by apply Hc. Qed.

  Lemma rebalance : ∀ fuel C, (length C < fuel)%nat → rebSpec (λ n, rebalanceHere cb fuel t n (stk C)) C.
  Proof using WF MN.
    induction fuel as [|fuel IH]; intros C Hfuel; [lia|].
    intros root S h g Q Er Hd HwC HdC HpC Hwf Hg Htop HEr. iIntros "HT Hr Hc H".
    pose proof (isdirty_loaded _ Hd) as Hl.
    cbn [rebalanceHere]. iApply wp_bind. iApply (rep_getN with "Hr"); [done|]. iIntros (r [Hpar Hrt]) "Hr". rewrite Hrt.
    assert ((isnil C = true ∨ (mn ≤ nkeys g)%nat) → rebok (titems (cpre C ++ toks (strip g) ++ cpost C)) (pend g) (kids g) (pred h) S root S (h + length C) (fill C g)) as Hsame.
    { intros Hk. assert (lens C) as HlC by by eapply wfC_lens.
      assert (wfo mn (low mn C h) h (strip g)) as Hwl.
      { destruct C as [|f C]; [done|]. destruct Hk as [|Hk]; [done|]. by eapply wfo_keys. }
      split.
      - done.
      - by rewrite gid_fill.
      - by apply wfo_fill.
      - by rewrite toks_fill.
      - unfold items. by rewrite toks_fill.
      - by rewrite pend_fill HpC app_nil_r.
      - destruct C as [|f C]; [by destruct g as [|n []|n []]|]. rewrite -(alldirty_C (f :: C)) //. apply gloc_dirty. by left.
      - intros c Hin. destruct (kid_frame _ h g c Hwf Hl Hin) as (f & -> & Hf & Hh & _).
        exists (f :: C). split_and!; [done|by constructor|]. cbn. lia. }
    destruct (isnil C) eqn:HC.
    { iApply wp_ret. iApply ("H" $! _ _ _ _ (Hsame (or_introl eq_refl)) with "HT"). iApply fill_ctx; [by eapply wfC_lens|]. rewrite HC. iFrame. }
    iApply wp_bind. iApply (rep_kvlen with "Hr"); [done|]. iIntros "Hr".
    iDestruct "HT" as "[HR' HS]". iApply wp_bind. iApply (wp_getT with "HR'"). iIntros "HR'".
    iAssert (isTR root S) with "[$HR' $HS]" as "HT". cbn [trec t_min].
    destruct (Z.leb_spec (Z.of_nat mn) (Z.of_nat (nkeys g))).
    { assert (mn ≤ nkeys g)%nat as Hk by lia. iApply wp_ret. iApply ("H" $! _ _ _ _ (Hsame (or_intror Hk)) with "HT"). iApply fill_ctx; [by eapply wfC_lens|]. rewrite HC. iFrame. }
    clear Hsame. destruct C as [|f C]; [done|]. cbn [stk fmap list_fmap]. fold (stk C).
    cbn [hpar head fmap option_fmap option_map] in *. cbn [flow] in Hwf. clear HC.
    iApply wp_bind. iApply (wp_deref _ _ (f_n f)); [done|].
    destruct HwC as (La & Lb & WL & WR & Hlow & HwC). apply Forall_cons in HdC as [Hfd HdC].
    cbn [pendC] in HpC. apply app_eq_nil in HpC as (_ & (PL & (PR & HpC)%app_eq_nil)%app_eq_nil).
    rewrite frameT // in Hg. rewrite frameT //.
    iDestruct "Hc" as "(Hp & HL & HR & Hc)".
    iEval (rewrite Hfd chs_zip) in "Hp". iEval (rewrite inode_Ug) in "Hp".
    iEval (unfold finfo; rewrite chs_zip Hfd; cbn [stloc']) in "Hc".
    assert (rebSpec (λ n, rebalanceHere cb fuel t n (stk C)) C) as Hrec. { apply IH. cbn in Hfuel. lia. }
    pose proof (wfo_nkeys _ _ _ Hl Hwf) as Hnk.
    destruct f as [p st ka0 L0 kb R]. cbn [f_n f_st f_ka f_ls f_kb f_rs] in *. subst st. cbn in Htop.
    assert (∀ a c b, L0 ++ g :: R = a ++ c :: b → good (toks (strip c))) as Hgc.
    { intros a c b Heq. rewrite Heq in Hg. apply good_app in Hg as (_ & Hg & _). apply good_app in Hg as (Hg & _).
      assert (length (L0 ++ g :: R) = length (a ++ c :: b)) as Hll by by rewrite Heq. rewrite !app_length /= in Hll.
      unfold ltoks in Hg. rewrite fmap_app fmap_cons -(take_drop (length a) (ka0 ++ kb)) in Hg. apply (good_kid cmp dom domV) in Hg; [done|].
      rewrite fmap_length take_length app_length. lia. }
    assert (length (L0 ++ g :: R) = Datatypes.S (length (ka0 ++ kb))) as Hlen. { rewrite !app_length /=. lia. }
    destruct L0 as [|l L _] using rev_ind.
    - (* no left neighbour *)
      destruct ka0; [|done]. cbn [length app] in *. iApply wp_bind. unfold leftSibling at 1. cbn [Z.of_nat Z.sub Z.opp Z.add Z.eqb Pos.eqb].
      iApply wp_ret. iApply wp_bind. iApply wp_ret. cbn beta iota.
      destruct R as [|q R]; [destruct kb; [|done]; cbn in Hlow; destruct C; cbn in Hlow; lia|].
      destruct kb as [|s kb]; [done|]. injection Lb as Lb.
      iEval (rewrite reps_cons) in "HR". iDestruct "HR" as "[Hq HR]".
      apply Forall_cons in WR as [Wq WR]. rewrite pendl_cons in PR. apply app_eq_nil in PR as [Pq PR].
      iApply wp_bind. iApply (rightSib h root S p _ _ (s :: kb) [] g q R with "HT Hp Hq"); [done|by apply (Hgc [g] q R)|done|done|done|].
      iIntros (q' (Q1 & Q2 & Q3 & Q4 & Q5)) "HT Hp Hq". cbn beta iota. rewrite -Q4.
      iApply wp_bind. iApply wp_bind. iApply (rep_kvlen with "Hq"); [done|]. iIntros "Hq". iApply wp_ret. cbn [trec t_min].
      rewrite -Q2 in Wq. pose proof (wfo_nkeys _ _ _ Q1 Wq) as Hnq.
      assert (ltoks (g :: q :: R) = ltoks (g :: q' :: R)) as Ht1 by by rewrite (sib_ltoks [g] q q' R).
      assert (ginfo <$> (g :: q :: R) = ginfo <$> (g :: q' :: R)) as Hi1 by by rewrite (sib_infos [g] q q' R).
      assert (gid <$> (g :: q :: R) = gid <$> (g :: q' :: R)) as Hd1 by by rewrite (sib_ids [g] q q' R).
      rewrite Ht1 in Hg. rewrite Ht1. iEval (rewrite Hi1) in "Hc". iEval (rewrite Hd1) in "Hp".
      assert (pairok C h p root [] s kb [] g q' R) as Hok.
      { split; done. }
      assert (∀ root' S' h' g', rebok (titems (pairT C [] s kb [] g q' R)) (pendl (kids g) ++ pendl (kids q')) (kids g ++ kids q') (pred h) S root' S' h' g' →
        rebok (titems (cpre C ++ inter (s :: kb) (ltoks (g :: q' :: R)) ++ cpost C)) (pend g) (kids g) (pred h) S root' S' h' g') as Hconv.
      { intros root' S' h' g'. apply rebok_perm; [|set_solver]. rewrite -(pend_kids q'); [|by right]. rewrite Q5 app_nil_r pend_kids //. by left. }
      iAssert (pairPost Q C h [] s kb [] g q' R S) with "[H]" as "H".
      { iIntros (root' S' h' g' Hr) "HT Hw". iApply ("H" $! _ _ _ _ (Hconv _ _ _ _ Hr) with "HT Hw"). }
      destruct (Z.ltb_spec (Z.of_nat mn) (Z.of_nat (nkeys q'))).
      + iApply (pair_borrowR C h p root [] s kb [] g q' R with "HT Hp HL HR Hr Hq Hc H"); try done; lia.
      + iApply (pair_merge (λ n, rebalanceHere cb fuel t n (stk C)) C h p root [] s kb [] g q' R with "HT Hp HL HR Hr Hq Hc H"); try done.
        * by apply pend_usable. * by left. * eapply wfo_weaken; [done|lia]. * lia.
    - destruct ka0 as [|s ka _] using rev_ind; [rewrite app_length /= in La; lia|]. rewrite !app_length /= in La. assert (length ka = length L) as La' by lia. clear La. rename La' into La.
      iEval (rewrite reps_app reps_cons) in "HL". iDestruct "HL" as "(HL & Hx & _)".
      rewrite fmap_app in WL. apply Forall_app in WL as [WL Wl]. cbn in Wl. apply Forall_cons in Wl as [Wl _].
      rewrite pendl_app in PL. apply app_eq_nil in PL as [PL Pl]. rewrite pendl_cons app_nil_r in Pl.
      rewrite mid2 in Hgc. rewrite mid2 in Hg. rewrite mid2 in Hlen. rewrite ?mid2.
      assert ((ka ++ [s]) ++ kb = ka ++ s :: kb) as Hka by by rewrite -app_assoc. rewrite Hka in Hg. rewrite Hka. rewrite Hka in Hlen. 
      iApply wp_bind. iApply (leftSib h root S p _ _ (ka ++ s :: kb) L l g R with "HT Hp Hx"); [done|by apply (Hgc L l (g :: R))|done|done|done|].
      iIntros (l' (Q1 & Q2 & Q3 & Q4 & Q5)) "HT Hp Hx". cbn beta iota. rewrite -Q4.
      iApply wp_bind. iApply wp_bind. iApply (rep_kvlen with "Hx"); [done|]. iIntros "Hx". iApply wp_ret. cbn [trec t_min].
      rewrite -Q2 in Wl. pose proof (wfo_nkeys _ _ _ Q1 Wl) as Hnl.
      assert (ltoks (L ++ l :: g :: R) = ltoks (L ++ l' :: g :: R)) as Ht1 by by rewrite (sib_ltoks L l l' (g :: R)).
      assert (ginfo <$> (L ++ l :: g :: R) = ginfo <$> (L ++ l' :: g :: R)) as Hi1 by by rewrite (sib_infos L l l' (g :: R)).
      assert (gid <$> (L ++ l :: g :: R) = gid <$> (L ++ l' :: g :: R)) as Hd1 by by rewrite (sib_ids L l l' (g :: R)).
      rewrite Ht1 in Hg. rewrite Ht1. iEval (rewrite Hi1) in "Hc". iEval (rewrite Hd1) in "Hp".
      assert (∀ R', Forall (wfo mn mn h) (strip <$> R') → pendl R' = [] → length R' = length R → ltoks R' = ltoks R → pairok C h p root ka s kb L l' g R') as Hok.
      { intros R' W' P' L' T'. split; try done; [by rewrite L'|rewrite app_length /= in Hlow; lia|].
        assert (ltoks (L ++ l' :: g :: R') = ltoks (L ++ l' :: g :: R)) as Heq; [|unfold pairT; by rewrite Heq].
        unfold ltoks in *. by rewrite !fmap_app !fmap_cons T'. }
      assert (∀ R' root' S' h' g', ltoks R' = ltoks R → rebok (titems (pairT C ka s kb L l' g R')) (pendl (kids l') ++ pendl (kids g)) (kids l' ++ kids g) (pred h) S root' S' h' g' →
        rebok (titems (cpre C ++ inter (ka ++ s :: kb) (ltoks (L ++ l' :: g :: R)) ++ cpost C)) (pend g) (kids g) (pred h) S root' S' h' g') as Hconv.
      { intros R' root' S' h' g' T'. assert (ltoks (L ++ l' :: g :: R') = ltoks (L ++ l' :: g :: R)) as Heq.
        { unfold ltoks in *. by rewrite !fmap_app !fmap_cons T'. }
        unfold pairT. rewrite Heq. apply rebok_perm; [|set_solver]. rewrite -(pend_kids l'); [|by right]. rewrite Q5. rewrite pend_kids //. by left. }
      replace (Z.of_nat (length (L ++ [l])) - 1) with (Z.of_nat (length ka)) by (rewrite app_length /=; lia).
      destruct (Z.ltb_spec (Z.of_nat mn) (Z.of_nat (nkeys l'))).
      { iApply (pair_borrowL C h p root ka s kb L l' g R with "HT Hp HL HR Hx Hr Hc"); try done; try lia. { by apply Hok. }
        iIntros (root' S' h' g' Hr) "HT Hw". iApply ("H" $! _ _ _ _ (Hconv R _ _ _ _ eq_refl Hr) with "HT Hw"). }
      destruct R as [|q R].
      + iApply wp_bind. replace (Z.of_nat (length ka)) with (Z.of_nat (length (L ++ [l'])) - 1) by (rewrite app_length /=; lia).
        rewrite -mid2. iApply (rightNone root S p _ _ (ka ++ s :: kb) (L ++ [l']) g with "HT Hp").
        { rewrite mid2. rewrite -Hlen !app_length. done. }
        iIntros "HT Hp". iApply wp_bind. iApply wp_ret. cbn beta iota.
        replace (Z.of_nat (length (L ++ [l'])) - 1) with (Z.of_nat (length ka)) by (rewrite app_length /=; lia).
        rewrite mid2.
        iApply (pair_merge (λ n, rebalanceHere cb fuel t n (stk C)) C h p root ka s kb L l' g [] with "HT Hp HL HR Hx Hr Hc"); try done; try lia.
        { by apply Hok. } { by destruct g as [|n []|n []]. } { by right. } { eapply wfo_weaken; [done|lia]. }
        iIntros (root' S' h' g' Hr) "HT Hw". iApply ("H" $! _ _ _ _ (Hconv [] _ _ _ _ eq_refl Hr) with "HT Hw").
      + destruct kb as [|s2 kb]; [done|].
        iEval (rewrite reps_cons) in "HR". iDestruct "HR" as "[Hq HR]".
        pose proof WR as WR0. apply Forall_cons in WR as [Wq WR]. rewrite pendl_cons in PR. apply app_eq_nil in PR as [Pq PR].
        iApply wp_bind. replace (Z.of_nat (length ka)) with (Z.of_nat (length (L ++ [l'])) - 1) by (rewrite app_length /=; lia).
        rewrite -mid2. iApply (rightSib h root S p _ _ (ka ++ s :: s2 :: kb) (L ++ [l']) g q R with "HT Hp Hq"); [| |done|done|done|].
        { rewrite mid2. rewrite -Hlen !app_length. done. } { apply (Hgc (L ++ [l; g]) q R). by rewrite -app_assoc. }
        iIntros (q' (P1 & P2 & P3 & P4 & P5)) "HT Hp Hq". cbn beta iota. rewrite -P4.
        iApply wp_bind. iApply wp_bind. iApply (rep_kvlen with "Hq"); [done|]. iIntros "Hq". iApply wp_ret. cbn [trec t_min].
        rewrite -P2 in Wq. pose proof (wfo_nkeys _ _ _ P1 Wq) as Hnq.
        rewrite mid2.
        assert (ltoks (L ++ l' :: g :: q :: R) = ltoks (L ++ l' :: g :: q' :: R)) as Ht2 by (rewrite -!mid2; by rewrite (sib_ltoks ((L ++ [l']) ++ [g]) q q' R)).
        assert (ginfo <$> (L ++ l' :: g :: q :: R) = ginfo <$> (L ++ l' :: g :: q' :: R)) as Hi2 by (rewrite -!mid2; by rewrite (sib_infos ((L ++ [l']) ++ [g]) q q' R)).
        assert (gid <$> (L ++ l' :: g :: q :: R) = gid <$> (L ++ l' :: g :: q' :: R)) as Hd2 by (rewrite -!mid2; by rewrite (sib_ids ((L ++ [l']) ++ [g]) q q' R)).
        assert (ltoks (q' :: R) = ltoks (q :: R)) as Ht3 by (unfold ltoks; rewrite !fmap_cons; cbn; by rewrite P2).
        destruct (Z.ltb_spec (Z.of_nat mn) (Z.of_nat (nkeys q'))).
        * rewrite Ht2 in Hg. rewrite Ht2. iEval (rewrite Hi2) in "Hc". iEval (rewrite Hd2) in "Hp".
          assert (ka ++ s :: s2 :: kb = (ka ++ [s]) ++ s2 :: kb) as Hka2 by by rewrite -app_assoc. rewrite Hka2 in Hg. rewrite Hka2.
          assert (L ++ l' :: g :: q' :: R = (L ++ [l']) ++ g :: q' :: R) as HL2 by by rewrite -app_assoc. rewrite HL2 in Hg. rewrite HL2.
          iAssert (reps h p (L ++ [l'])) with "[HL Hx]" as "HL".
          { rewrite reps_app reps_cons. iFrame "HL Hx". by unfold Rep.reps. }
          assert (length (ka ++ [s]) = length (L ++ [l'])) as La2 by by rewrite !app_length La.
          rewrite -La2.
          assert (pairok C h p root (ka ++ [s]) s2 kb (L ++ [l']) g q' R) as Hok2.
          { split; try done.
            - cbn in Lb. lia.
            - rewrite fmap_app. apply Forall_app. split; [done|]. by repeat constructor.
            - by rewrite pendl_app PL pendl_cons Q5.
            - rewrite !app_length /= in Hlow. rewrite app_length /=. lia. }
          iApply (pair_borrowR C h p root (ka ++ [s]) s2 kb (L ++ [l']) g q' R with "HT Hp HL HR Hr Hq Hc"); try done; try lia.
          iIntros (root' S' h' g' Hr) "HT Hw".
          assert (rebok (titems (cpre C ++ inter ((ka ++ [s]) ++ s2 :: kb) (ltoks ((L ++ [l']) ++ g :: q' :: R)) ++ cpost C)) (pend g) (kids g) (pred h) S root' S' h' g') as Hr2.
          { eapply rebok_perm; [| |exact Hr]; [|set_solver]. rewrite -(pend_kids q'); [|by right]. rewrite P5 app_nil_r pend_kids //. by left. }
          iApply ("H" $! _ _ _ _ Hr2 with "HT Hw").
        * iEval (rewrite Hi2) in "Hc". iEval (rewrite Hd2) in "Hp".
          iAssert (reps h p (q' :: R)) with "[HR Hq]" as "HR". { rewrite reps_cons. iFrame. }
          replace (Z.of_nat (length (L ++ [l'])) - 1) with (Z.of_nat (length ka)) by (rewrite app_length /=; lia).
          iApply (pair_merge (λ n, rebalanceHere cb fuel t n (stk C)) C h p root ka s (s2 :: kb) L l' g (q' :: R) with "HT Hp HL HR Hx Hr Hc"); try done; try lia.
          { apply Hok; try done; [by constructor|by rewrite pendl_cons P5 PR]. } { by destruct g as [|n []|n []]. } { by right. } { eapply wfo_weaken; [done|lia]. }
          iIntros (root' S' h' g' Hr') "HT Hw". iApply ("H" $! _ _ _ _ (Hconv (q' :: R) _ _ _ _ Ht3 Hr') with "HT Hw").
  Qed.
End rebal.

(** * The calls on a B+Tree

    Models no code. *)
From Coq Require Import ssreflect Sorted.
From stdpp Require Import prelude list gmap.
From iris.bi Require Import bi.
From iris.proofmode Require Import proofmode.
From Verif Require Import Spec SpecFacts Llrb LlrbApi BTree HProp Lru Wp Kv Codec Ghost Order PsTree Rep Load Search Update Plug Insert Borrow Merge Rebal.
Open Scope Z_scope.

Section api.
  Context {K V : Type}.
  Variable cb : callbacks K V.
  Variable dom : K → Prop.
  Variable domV : V → Prop.
  Hypothesis WF : wf_cb cb dom domV.
  Variable mn : nat.
  Hypothesis MN : (2 ≤ mn)%nat.
  Variable t : tid.
  Variable ca : bool.
  Notation cmp := (cb_cmp cb).
  Notation M := (M K V).
  Notation hProp := (hProp K V).
  Notation bval := (bval V).
  Notation gt := (gt K V).
  Notation frame := (frame K V).
  Let ORD := wf_ord _ _ _ WF.
  Notation rep := (rep cb dom mn t ca).
  Notation reps := (reps cb dom mn t ca).
  Notation isTR := (isTR mn t ca).
  Notation inode := (inode cb dom mn t ca).
  Notation inodeU := (inodeU cb dom t ca).
  Notation lnode := (lnode cb dom mn t ca).
  Notation lnode' := (lnode' cb dom mn t ca).
  Notation nrec := (nrec t).
  Notation good := (good cmp dom domV).
  Notation ksorted := (ksorted cmp dom).
  Notation "'let*' x := m 'in' e" := (bind m (fun x => e))
    (at level 200, x name, m at level 100, e at level 200, right associativity).
  Notation "'let*' ' x := m 'in' e" := (bind m (fun x => e))
    (at level 200, x strict pattern, m at level 100, e at level 200, right associativity).
  Notation "m ;; e" := (bind m (fun _ : unit => e))
    (at level 100, e at level 200, right associativity, format "m ;;  '/' e").
  Implicit Types (g c : gt) (n : nid) (f : frame) (C : list frame) (h : nat).
  Notation whole := (whole cb dom mn t ca).
  Notation ctx := (ctx cb dom mn t ca).
  Notation knode := (knode cb dom t).
  Notation pre := (pre cb dom mn t ca).

  Implicit Types (L R : list gt) (x y : gt).

  Notation cur := (cur cb dom mn t ca).
  Notation okc := (okc mn).
  Notation goodW := (goodW cb dom domV).
  Notation treeok := (treeok cb dom domV mn).
  Notation framesmall := (framesmall (K:=K) (V:=V)).

  (** ** The recursion budget *)
  Fixpoint dlocs (d : dt K V) : list loc :=
    match d with DL l _ => [l] | DI l _ ds => l :: mjoin (dlocs <$> ds) end.
  Fixpoint glocs (g : gt) : list loc :=
    match g with GD _ d => dlocs d | GL _ _ _ => [] | GI _ _ _ cs => mjoin (glocs <$> cs) end.
  Lemma dlocs_cnt : ∀ d, (cnt (dstrip d) ≤ length (dlocs d))%nat.
  Proof.
    fix IH 1. intros [l kvs|l ks ds]; [done|]. cbn. apply le_n_S. induction ds as [|d ds IHd]; [done|].
    cbn. rewrite app_length. apply Nat.add_le_mono; [apply IH|done].
  Qed.
  Lemma glocs_cnt g : (cnt (strip g) ≤ length (ids g) + length (glocs g))%nat.
  Proof.
    induction g as [n d|n st kvs|n st ks cs IH] using gt_ind'; cbn.
    - pose proof (dlocs_cnt d). lia.
    - lia.
    - apply le_n_S. induction IH as [|c cs H _ IH]; [done|]. rewrite !fmap_cons. change (sum_list (cnt (strip c) :: (cnt <$> (strip <$> cs)))) with (cnt (strip c) + sum_list (cnt <$> (strip <$> cs)))%nat. change (mjoin (ids c :: (ids <$> cs))) with (ids c ++ mjoin (ids <$> cs)). change (mjoin (glocs c :: (glocs <$> cs))) with (glocs c ++ mjoin (glocs <$> cs)). rewrite !app_length. revert IH H. clear. lia.
  Qed.
  Lemma dsk_own h mx d : dsk cb h mx d ⊢ ([∗ list] l ∈ dlocs d, ∃ b, isD l b) ∗ True.
  Proof.
    revert mx d. induction h as [|h IH]; intros mx [l kvs|l ks ds]; cbn; try by iIntros "[]".
    - iIntros "[[H _] _]". iSplit; [|done]. iSplit; [|done]. by iExists _.
    - iIntros "([H _] & _ & Hd)". rewrite -assoc. iSplitL "H"; [by iExists _|].
      iInduction ds as [|d ds] "IHd"; cbn; [by iSplit|]. iDestruct "Hd" as "[H Hd]".
      rewrite IH big_sepL_app. iDestruct "H" as "[$ _]". iApply "IHd". done.
  Qed.
  Lemma rep_own h par ir g : rep h par ir g ⊢ ([∗ list] n ∈ ids g, ∃ r, isN n r) ∗ ([∗ list] l ∈ glocs g, ∃ b, isD l b) ∗ True.
  Proof.
    revert h par ir. induction g as [n d|n st kvs|n st ks cs IH] using gt_ind'; intros h par ir.
    - rewrite rep_GD. iIntros "(%r & _ & HN & _ & Hd)". cbn. rewrite dsk_own. iDestruct "Hd" as "[$ _]".
      iSplit; [|done]. iSplit; [|done]. by iExists _.
    - destruct h; [|by iIntros "[]"]. cbn. iIntros "(%kv & %l & %ps & _ & HN & _)". iSplit; [|by iSplit].
      iSplit; [|done]. by iExists _.
    - destruct h; [by iIntros "[]"|]. rewrite rep_GI. iIntros "[(%kv & %b & _ & HN & _) Hr]". cbn.
      rewrite -assoc. iSplitL "HN"; [by iExists _|]. unfold Rep.reps.
      iInduction cs as [|c cs] "IHc"; cbn; [by iFrame|]. apply Forall_cons in IH as [H IH].
      iDestruct "Hr" as "[Hc Hr]". rewrite H !big_sepL_app. iDestruct "Hc" as "($ & $ & _)".
      iApply ("IHc" $! IH with "Hr").
  Qed.
  Lemma wp_fuel io {A} (f : nat → M A) h g Q (Er : err → hProp) :
    whole h g -∗ (∀ fuel (_ : (cnt (strip g) < fuel)%nat), whole h g -∗ wp io (f fuel) Q Er) -∗ wp io (with_fuel f) Q Er.
  Proof.
    apply bi.wand_intro_r. apply (wp_with_fuel io f Q Er (ids g) (glocs g)).
    - iIntros "[[_ Hr] _]". rewrite rep_own. iDestruct "Hr" as "($ & $ & $)".
    - intros fuel Hf. iIntros "[Hw H]". pose proof (glocs_cnt g). assert (cnt (strip g) < fuel)%nat as HX by lia.
      iApply ("H" $! fuel HX with "Hw").
  Qed.

  (** ** Opening and closing *)
  Lemma tree_okc root h g : treeok root h g → okc (vw g) h [] g ∧ goodW (vw g).
  Proof.
    intros [H1 H2 H3 H4]. split; [by split|]. unfold Search.goodW. by rewrite strip_vw.
  Qed.
  Lemma tree_cur root S h g : isTR root S -∗ whole h g -∗ cur root S h [] g.
  Proof. iIntros "HT [HP Hr]". iFrame "HT Hr". cbn. done. Qed.
  Lemma tree_vw root h g g' : treeok root h g → vw g' = vw g → pend g' = [] → treeok root h g'.
  Proof.
    intros [H1 H2 H3 H4] Hv Hp. destruct (vw_keep g g' Hv) as (Hs & _ & Hi). split; [by rewrite Hi|by rewrite Hs..|done].
  Qed.
  Lemma okc_pend W h C g : okc W h C g → pend (fill C g) = [].
  Proof. intros [? ? ? H1 H2]. apply Permutation_nil. by rewrite pend_fill H1 H2. Qed.
  Lemma cur_close root S h C g h0 g0 : treeok root h0 g0 → okc (vw g0) h C g → (h0 + 0)%nat = (h + length C)%nat →
    cur root S h C g ⊢ isTR root S ∗ whole h0 (fill C g) ∗ <affine> ⌜treeok root h0 (fill C g) ∧ vw (fill C g) = vw g0⌝.
  Proof.
    intros Ht Hok Hh. rewrite (cur_whole cb dom mn t ca _ _ _ _ _ _ Hok). rewrite -Hh Nat.add_0_r. iIntros "[$ $]".
    iPureIntro. split; [|apply Hok]. eapply tree_vw; [done|apply Hok|by eapply okc_pend].
  Qed.
  Lemma wp_rootOf io root S Q (Er : err → hProp) : isTR root S -∗ (isTR root S -∗ Q root) -∗ wp io (rootOf t) Q Er.
  Proof.
    iIntros "[HR HS] H". iApply wp_bind. iApply (wp_getT with "HR"). iIntros "HR". cbn [trec t_root].
    iApply wp_ret. iApply "H". iFrame.
  Qed.
  Lemma start io {A} (f : nat → nid → M A) root S h g Q (Er : err → hProp) : treeok root h g →
    isTR root S -∗ whole h g -∗
    (∀ fuel (_ : (cnt (strip g) < fuel)%nat), cur root S h [] g -∗ wp io (f fuel (gid g)) Q Er) -∗
    wp io (with_fuel (λ fuel, let* rt := rootOf t in f fuel rt)) Q Er.
  Proof.
    iIntros (Ht) "HT Hw H". iApply (wp_fuel with "Hw"). iIntros (fuel Hf) "Hw".
    iApply wp_bind. iApply (wp_rootOf with "HT"). iIntros "HT". rewrite -(tk_id _ _ _ _ _ _ _ Ht).
    iApply ("H" $! fuel Hf). iApply (tree_cur with "HT Hw").
  Qed.
  Lemma cur_rec root S h C g : cur root S h C g ⊢ ∃ r, isN (gid g) r ∗ <affine> ⌜recok t (hpar C) g r⌝ ∗
    (isN (gid g) r -∗ cur root S h C g).
  Proof.
    iIntros "($ & $ & Hr)". by iApply rep_get.
  Qed.
  Lemma leaf_read root S C n st kvs : cur root S 0 C (GL n st kvs) ⊢ ∃ r kv, <affine> ⌜b_kv r = Some kv ∧ iskv cb dom (uels kvs) kv⌝ ∗
    isN n r ∗ (isN n r -∗ cur root S 0 C (GL n st kvs)).
  Proof.
    iIntros "($ & $ & (%kv & %left & %ps & %Hkv & HN & HT & Hb))". iExists _, kv. iFrame "HN". iSplit; [done|].
    iIntros "HN". iExists kv, left, ps. iFrame. done.
  Qed.
  Lemma leaf_toks h0 g0 root C n st kvs : treeok root h0 g0 → okc (vw g0) 0 C (GL n st kvs) →
    good (cpre C ++ itoks kvs ++ cpost C) ∧ items (strip g0) = titems (cpre C) ++ kvs ++ titems (cpost C).
  Proof.
    intros Ht Hok. pose proof (okc_toks _ _ _ _ _ Hok) as H. rewrite strip_vw in H. cbn [strip toks] in H.
    rewrite -H. split; [apply Ht|]. unfold items. by rewrite H !titems_app titems_itoks.
  Qed.

  Lemma uels_lookup (m : list (K * V)) i : uels m !! i = (λ p, (p.1, VUser p.2)) <$> m !! i.
  Proof. unfold uels. by rewrite list_lookup_fmap. Qed.
  Lemma uels_rank k (m : list (K * V)) : rank cmp k (uels m) = rank cmp k m.
  Proof.
    unfold rank, uels. induction m as [|p m IH]; [done|]. rewrite fmap_cons !filter_cons. cbn. destruct (decide _); cbn; by rewrite IH.
  Qed.
  Lemma uels_remove i (m : list (K * V)) : s_remove i (uels m) = uels (s_remove i m).
  Proof. unfold s_remove, uels. by rewrite fmap_app fmap_take fmap_drop. Qed.
  Lemma uels_set i v (m : list (K * V)) : s_set i (VUser v) (uels m) = uels (s_set i v m).
  Proof. unfold s_set, uels. revert i. induction m as [|p m IH]; intros [|i]; cbn; try done. f_equal. apply IH. Qed.
  Lemma uels_get k (m : list (K * V)) : s_lookup cmp k (uels m) = VUser <$> s_lookup cmp k m.
  Proof.
    unfold s_lookup. rewrite uels_present uels_rank uels_lookup. destruct (present cmp k m); [|done]. by destruct (m !! _).
  Qed.

  (** ** What a call does *)
  Definition call_vals (c : call K V) : list V := match c with CPut _ v | CPatchByKey _ v | CPatchByIndex _ v => [v] | _ => [] end.
  Definition isdel (c : call K V) : bool := match c with CDeleteByKey _ | CDeleteByIndex _ => true | _ => false end.
  (** does the call modify nodes *)
  Definition chg (c : call K V) (a : answer K V) : bool :=
    match c, a with
    | CPatchByKey _ _, _ => true
    | (CPut _ _ | CPatchByIndex _ _ | CDeleteByKey _ | CDeleteByIndex _), ROk ok => ok
    | _, _ => false
    end.
  Record callok (c : call K V) (root : nid) (S : list loc) h g (root' : nid) (S' : list loc) h' g' : Prop := CallOk {
    co_tree : treeok root' h' g';
    co_items : items (strip g') = (spec_call cmp (items (strip g)) c).1;
    co_S : S ⊆ S';
    co_mod : chg c (spec_call cmp (items (strip g)) c).2 = true → gloc g' = None;
    co_same : chg c (spec_call cmp (items (strip g)) c).2 = false → vw g' = vw g ∧ S' = S ∧ root' = root ∧ h' = h }.
  Definition callpost (c : call K V) root S h g (Q : answer K V → hProp) (Er : err → hProp) : hProp :=
    ((∀ root' S' h' g' (_ : callok c root S h g root' S' h' g'), isTR root' S' -∗ whole h' g' -∗ Q (spec_call cmp (items (strip g)) c).2) ∧
     (∀ g' (_ : treeok root h g' ∧ vw g' = vw g), isTR root S -∗ whole h g' -∗ Er EIO))%I.
  Definition callspec (c : call K V) : Prop := ∀ root S h g Q Er, treeok root h g →
    Forall dom (call_keys c) → Forall domV (call_vals c) → (isdel c = true → (True ⊢ (Er : err → hProp) EIO)) →
    isTR root S -∗ whole h g -∗ callpost c root S h g Q Er -∗ wp true (bt_call cb t c) Q Er.

  (** calls that only read *)
  Lemma ret_same (c : call K V) root S h g C n st kvs Q Er a : treeok root h g → okc (vw g) 0 C (GL n st kvs) → (h + 0)%nat = length C →
    chg c a = false → (items (strip g), a) = spec_call cmp (items (strip g)) c →
    cur root S 0 C (GL n st kvs) -∗ callpost c root S h g Q Er -∗ Q a.
  Proof.
    iIntros (Ht Hok Hh Hc Hs) "Hcur [H _]". iDestruct (cur_close _ _ _ _ _ _ _ Ht Hok with "Hcur") as "(HT & Hw & (%Ht' & %Hv))"; [done|].
    assert (callok c root S h g root S h (fill C (GL n st kvs))) as HX.
    { split; [done| |done| |done]; rewrite -Hs; cbn; [by rewrite (vw_strip _ _ Hv)|congruence]. }
    iSpecialize ("H" $! _ _ _ _ HX with "HT Hw"). by rewrite -Hs.
  Qed.
  Lemma ret_err (c : call K V) root S h g C h' g' Q Er : treeok root h g → okc (vw g) h' C g' → (h + 0)%nat = (h' + length C)%nat →
    cur root S h' C g' -∗ callpost c root S h g Q Er -∗ Er EIO.
  Proof.
    iIntros (Ht Hok Hh) "Hcur [_ H]". iDestruct (cur_close _ _ _ _ _ _ _ Ht Hok with "Hcur") as "(HT & Hw & %HX)"; [done|].
    iApply ("H" $! _ HX with "HT Hw").
  Qed.
  Lemma height_fuel root h g (fuel : nat) : treeok root h g → (cnt (strip g) < fuel)%nat → (h < fuel)%nat.
  Proof. intros Ht Hf. pose proof (cnt_height _ _ _ _ (tk_wf _ _ _ _ _ _ _ Ht)). lia. Qed.

  Lemma call_GetByKey k : callspec (CGetByKey k).
  Proof using WF MN.
    intros root S h g Q Er Ht Hk Hv HEr. iIntros "HT Hw H". apply Forall_cons in Hk as [Hk _].
    iApply (start with "HT Hw"); [done|]. iIntros (fuel Hf) "Hcur". destruct (tree_okc _ _ _ Ht) as [Hok Hg].
    iApply wp_bind. iApply (descendKey_spec cb dom domV WF mn MN t ca true k Hk h fuel (vw g) root S [] g with "Hcur"); [by eapply height_fuel|done|done|constructor|constructor|].
    iSplit; last first.
    { iIntros (C' h' g' [Hok' Hh]) "Hcur". iApply (ret_err with "Hcur H"); done. }
    iIntros (C n st kvs (Hok' & Hh & HL & HR)) "Hcur". destruct (leaf_toks _ _ _ _ _ _ _ Ht Hok') as [Hgd Hit].
    iDestruct (leaf_read with "Hcur") as (r kv [Hr Hkv]) "[HN Hcur]".
    iApply wp_bind. iApply (wp_kvGetKey cb dom ORD _ _ _ _ _ Hr Hkv with "HN"); [done|]. iIntros "HN". iSpecialize ("Hcur" with "HN").
    rewrite uels_get. destruct (s_lookup cmp k kvs) as [v|] eqn:Hl; cbn [fmap option_fmap option_map].
    - iApply wp_bind. iApply wp_ret. iApply wp_ret. iApply (ret_same with "Hcur H"); try done.
      cbn. by rewrite Hit (ctx_lookup cmp dom domV ORD) // Hl.
    - iApply wp_ret. iApply (ret_same with "Hcur H"); try done.
      cbn. by rewrite Hit (ctx_lookup cmp dom domV ORD) // Hl.
  Qed.
  Lemma call_BisectLeft k : callspec (CBisectLeft k).
  Proof using WF MN.
    intros root S h g Q Er Ht Hk Hv HEr. iIntros "HT Hw H". apply Forall_cons in Hk as [Hk _].
    iApply (start with "HT Hw"); [done|]. iIntros (fuel Hf) "Hcur". destruct (tree_okc _ _ _ Ht) as [Hok Hg].
    iApply wp_bind. iApply (descendBisect_spec cb dom domV WF mn MN t ca k fuel Hk h fuel (vw g) root S [] g with "Hcur"); [by eapply height_fuel|rewrite strip_vw; lia|done|done|constructor|constructor|].
    iSplit; last first.
    { iIntros (C' h' g' [Hok' Hh]) "Hcur". iApply (ret_err with "Hcur H"); done. }
    iIntros (C n st kvs (Hok' & Hh & HL & HR)) "Hcur". destruct (leaf_toks _ _ _ _ _ _ _ Ht Hok') as [Hgd Hit].
    iDestruct (leaf_read with "Hcur") as (r kv [Hr Hkv]) "[HN Hcur]".
    iApply wp_bind. iApply (wp_kvBisectLeft cb dom ORD _ _ _ _ _ Hr Hkv with "HN"); [done|]. iIntros "HN". iSpecialize ("Hcur" with "HN").
    rewrite uels_present uels_rank.
    assert (spec_call cmp (items (strip g)) (CBisectLeft k) =
      (items (strip g), if present cmp k kvs then RIndex (plen C + Z.of_nat (rank cmp k kvs)) true else RIndex (plen C + (Z.of_nat (rank cmp k kvs) - 1)) false)) as Hs.
    { cbn. rewrite {2 3 4}Hit (ctx_present cmp dom domV ORD) // (ctx_rank cmp dom domV ORD) //. unfold plen. f_equal. destruct (present cmp k kvs); f_equal; lia. }
    destruct (present cmp k kvs); iApply wp_ret; (iApply (ret_same with "Hcur H"); done).
  Qed.
  Lemma call_BisectRight k : callspec (CBisectRight k).
  Proof using WF MN.
    intros root S h g Q Er Ht Hk Hv HEr. iIntros "HT Hw H". apply Forall_cons in Hk as [Hk _].
    iApply (start with "HT Hw"); [done|]. iIntros (fuel Hf) "Hcur". destruct (tree_okc _ _ _ Ht) as [Hok Hg].
    iApply wp_bind. iApply (descendBisect_spec cb dom domV WF mn MN t ca k fuel Hk h fuel (vw g) root S [] g with "Hcur"); [by eapply height_fuel|rewrite strip_vw; lia|done|done|constructor|constructor|].
    iSplit; last first.
    { iIntros (C' h' g' [Hok' Hh]) "Hcur". iApply (ret_err with "Hcur H"); done. }
    iIntros (C n st kvs (Hok' & Hh & HL & HR)) "Hcur". destruct (leaf_toks _ _ _ _ _ _ _ Ht Hok') as [Hgd Hit].
    iDestruct (leaf_read with "Hcur") as (r kv [Hr Hkv]) "[HN Hcur]".
    iApply wp_bind. iApply (wp_kvBisectRight cb dom ORD _ _ _ _ _ Hr Hkv with "HN"); [done|]. iIntros "HN". iSpecialize ("Hcur" with "HN").
    rewrite uels_present uels_rank.
    assert (spec_call cmp (items (strip g)) (CBisectRight k) =
      (items (strip g), RIndex (plen C + Z.of_nat (rank cmp k kvs)) (present cmp k kvs))) as Hs.
    { cbn. rewrite {2 3 4}Hit (ctx_present cmp dom domV ORD) // (ctx_rank cmp dom domV ORD) //. unfold plen. f_equal. destruct (present cmp k kvs); f_equal; lia. }
    iApply wp_ret; (iApply (ret_same with "Hcur H"); done).
  Qed.

  (** the part common to the calls by index *)
  Lemma ret_same0 (c : call K V) root S h g Q Er a : treeok root h g →
    chg c a = false → (items (strip g), a) = spec_call cmp (items (strip g)) c →
    cur root S h [] g -∗ callpost c root S h g Q Er -∗ Q a.
  Proof.
    iIntros (Ht Hc Hs) "(HT & HP & Hr) [H _]".
    assert (callok c root S h g root S h g) as HX.
    { split; [done| |done| |done]; rewrite -Hs; cbn; [done|congruence]. }
    iSpecialize ("H" $! _ _ _ _ HX with "HT [HP Hr]"); [by iFrame|]. by rewrite -Hs.
  Qed.
  Lemma index_range i g : (i <? 0) || (gsz g <=? i) = (if at_index i (items (strip g)) then false else true) ∧
    (at_index i (items (strip g)) = None ∨ 0 ≤ i < gsz g).
  Proof.
    unfold at_index, gsz, csz. destruct (Z.ltb_spec i 0) as [Hi|Hi]; cbn; [by split; [|left]|].
    destruct (Z.leb_spec (Z.of_nat (length (items (strip g)))) i) as [Hl|Hl].
    - rewrite lookup_ge_None_2; [|lia]. split; [done|by left].
    - destruct (lookup_lt_is_Some_2 (items (strip g)) (Z.to_nat i)) as [x ->]; [lia|]. split; [done|right]. lia.
  Qed.
  Lemma index_leaf i h0 g0 root C n st kvs (j : nat) : treeok root h0 g0 → okc (vw g0) 0 C (GL n st kvs) →
    plen ([] : list frame) + i = plen C + Z.of_nat j → (j < length kvs)%nat → 0 ≤ i →
    Z.to_nat i = (length (titems (cpre C)) + j)%nat ∧ at_index i (items (strip g0)) = kvs !! j.
  Proof.
    intros Ht Hok Hi Hj H0. destruct (leaf_toks _ _ _ _ _ _ _ Ht Hok) as [_ Hit]. unfold plen in Hi. change (titems (cpre ([] : list frame))) with (@nil (K * V)) in Hi. cbn [length] in Hi.
    assert (i = Z.of_nat (length (titems (cpre C)) + j)) as -> by lia.
    rewrite Hit mid_index //. split; [lia|done].
  Qed.

  Lemma call_GetByIndex i : callspec (CGetByIndex i).
  Proof using WF MN.
    intros root S h g Q Er Ht Hk Hv HEr. iIntros "HT Hw H".
    iApply (start with "HT Hw"); [done|]. iIntros (fuel Hf) "Hcur". destruct (tree_okc _ _ _ Ht) as [Hok Hg].
    iDestruct (cur_rec with "Hcur") as (r) "(HN & %Hr & Hcur)".
    iApply wp_bind. iApply (wp_getN with "HN"). iIntros "HN". iSpecialize ("Hcur" with "HN").
    replace (b_items r) with (gsz g) by (symmetry; apply Hr). destruct (index_range i g) as [-> Hin].
    destruct (at_index i (items (strip g))) as [p|] eqn:Hp; last first.
    { iApply wp_ret. iApply (ret_same0 with "Hcur H"); [done|done|]. cbn. by rewrite Hp. }
    destruct Hin as [|Hin]; [done|].
    iApply wp_bind. iApply (descendIndex_spec cb dom domV WF mn MN t ca true fuel h fuel (vw g) root S [] g with "Hcur"); [by eapply height_fuel|rewrite strip_vw; lia|done|done|done|].
    iSplit; last first.
    { iIntros (C' h' g' [Hok' Hh]) "Hcur". iApply (ret_err with "Hcur H"); done. }
    iIntros (C n st kvs j (Hok' & Hh & Hij & Hj)) "Hcur".
    destruct (index_leaf _ _ _ _ _ _ _ _ _ Ht Hok' Hij Hj) as [Hij' Hat]; [lia|]. rewrite Hp in Hat.
    iDestruct (leaf_read with "Hcur") as (r' kv [Hr' Hkv]) "[HN Hcur]".
    iApply wp_bind. iApply (wp_kvGet_nat cb dom _ _ _ _ _ Hr' Hkv with "HN"); [by rewrite uels_lookup -Hat|]. iIntros "HN". iSpecialize ("Hcur" with "HN").
    destruct p as [k v]. cbn [fst snd]. iApply wp_bind. iApply wp_ret. iApply wp_ret. iApply (ret_same with "Hcur H"); try done.
    cbn. by rewrite Hp.
  Qed.

  Lemma call_Len : callspec CLen.
  Proof using WF MN.
    intros root S h g Q Er Ht Hk Hv HEr. iIntros "HT Hw H". destruct (tree_okc _ _ _ Ht) as [Hok Hg].
    iApply wp_bind. iApply (wp_rootOf with "HT"). iIntros "HT".
    iApply wp_bind. iDestruct (tree_cur with "HT Hw") as "Hcur". pose proof (tk_id _ _ _ _ _ _ _ Ht) as <-.
    iApply (cur_visit cb dom domV WF mn MN t ca false (gid g) S h [] g (vw g) with "Hcur"); [done|done|]. iSplit; last first.
    { iIntros "Hcur". iApply (ret_err with "Hcur H"); done. }
    iIntros (g' (Hok' & Hl & Hv')) "Hcur". destruct (vw_keep _ _ Hv') as (Hs & _ & Hi). iEval (rewrite -Hi).
    iDestruct (cur_rec with "Hcur") as (r) "(HN & %Hr & Hcur)".
    iApply wp_bind. iApply (wp_getN with "HN"). iIntros "HN". iSpecialize ("Hcur" with "HN"). iApply wp_ret.
    replace (b_items r) with (gsz g') by (symmetry; apply Hr). 
    iDestruct "H" as "[H _]".
    assert (callok CLen (gid g) S h g (gid g) S h g') as HX.
    { split; [|by rewrite Hs|done|done|done]. eapply tree_vw; [done|done|]. apply Hok'. }
    iDestruct "Hcur" as "(HT & HP & Hr)".
    iSpecialize ("H" $! _ _ _ _ HX with "HT [HP Hr]"); [by iFrame|]. cbn. unfold gsz, csz. by rewrite Hs.
  Qed.
  (** ** Calls that modify *)
  Lemma touchLeaf io fuel root S C n st kvs Q (Er : err → hProp) : (length C < fuel)%nat →
    cur root S 0 C (GL n st kvs) -∗
    (∀ S' (_ : S ⊆ S'), isTR root S' -∗ lnode n (hpar C) (isnil C) Dirty kvs -∗
       ctx 0 (dirtyC C) (Info n (Z.of_nat (length kvs)) None) -∗ Q tt) -∗
    wp io (touchLoadedNodeToRoot fuel t n) Q Er.
  Proof.
    iIntros (Hf) "(HT & Hc & (%kv & %left & %ps & %Hkv & HN & Ht & Hb)) H".
    iEval (unfold ginfo; cbn [gid gloc]; unfold gsz; cbn [strip]; rewrite csz_CL) in "Hc".
    iDestruct (leafblk_held with "Hb") as "Hb".
    iApply (touchUp with "HT HN Ht Hb Hc"); [done|done|done|].
    iIntros (S' HS) "HT HN Ht Hc". rewrite set_nrec. iApply ("H" $! S' HS with "HT [HN Ht] Hc").
    iExists kv, left, ps. iFrame. iSplit; [done|]. cbn. iApply held_no.
  Qed.
  Lemma leaf_new h0 g0 root C n st kvs kvs' : treeok root h0 g0 → okc (vw g0) 0 C (GL n st kvs) → (h0 + 0)%nat = length C →
    good (cpre C ++ itoks kvs' ++ cpost C) → length kvs' = length kvs →
    treeok root h0 (fill (dirtyC C) (GL n Dirty kvs')) ∧ gloc (fill (dirtyC C) (GL n Dirty kvs')) = None ∧
    items (strip (fill (dirtyC C) (GL n Dirty kvs'))) = titems (cpre C) ++ kvs' ++ titems (cpost C).
  Proof.
    intros Ht [Hv HwC Hw Hp HpC] Hh Hg Hl.
    assert (lens C) as HlC by by eapply wfC_lens.
    assert (toks (strip (fill (dirtyC C) (GL n Dirty kvs'))) = cpre C ++ itoks kvs' ++ cpost C) as Htk.
    { rewrite strip_dirty toks_fill //. }
    split_and!.
    - split.
      + rewrite gid_fill top_dirty. rewrite -(tk_id _ _ _ _ _ _ _ Ht) -(vid_vw g0) -Hv vid_vw gid_fill //.
      + rewrite strip_dirty. replace h0 with (0 + length C)%nat by lia. apply wfo_fill; [done|].
        cbn [strip] in Hw |- *. cbn in Hw |- *. lia.
      + by rewrite Htk.
      + apply Permutation_nil. rewrite pend_fill dirtyC_pend //.
    - apply gloc_dirty. by right.
    - unfold items. by rewrite Htk !titems_app titems_itoks.
  Qed.
  (** the leaf of a marked path with other contents *)
  Lemma leaf_whole C n (kvs kvs' : list (K * V)) kv' r : length kvs' = length kvs → lens C →
    iskv cb dom (uels kvs') kv' →
    (∃ kv left ps, <affine> ⌜r = nrec Dirty (Z.of_nat (length kvs)) (isnil C) true (hpar C) kv left ps⌝) ∗
    isN n (set_kv (Some kv') r) ∗ isT n (tg ca dirtyLRU) ∗ ctx 0 (dirtyC C) (Info n (Z.of_nat (length kvs)) None) ∗ held noloc ⊢
    whole (length C) (fill (dirtyC C) (GL n Dirty kvs')).
  Proof.
    intros Hl HC Hkv. iIntros "((%kv & %left & %ps & ->) & HN & Ht & Hc & Hb)".
    pose proof (fill_ctx cb dom mn t ca (dirtyC C) 0 (GL n Dirty kvs')) as HF. rewrite dirtyC_len Nat.add_0_l in HF.
    rewrite -HF; [|by apply dirtyC_lens].
    unfold ginfo. cbn [gid gloc]. unfold gsz. cbn [strip]. rewrite csz_CL Hl. iFrame "Hc".
    rewrite dirtyC_hpar dirtyC_isnil. iExists kv', left, ps. rewrite Hl. iFrame. done.
  Qed.
  Lemma ret_mod (c : call K V) root S S' h g C n st kvs kvs' Q Er a : treeok root h g → okc (vw g) 0 C (GL n st kvs) → (h + 0)%nat = length C →
    good (cpre C ++ itoks kvs' ++ cpost C) → length kvs' = length kvs → S ⊆ S' → chg c a = true →
    (titems (cpre C) ++ kvs' ++ titems (cpost C), a) = spec_call cmp (items (strip g)) c →
    isTR root S' -∗ whole (length C) (fill (dirtyC C) (GL n Dirty kvs')) -∗ callpost c root S h g Q Er -∗ Q a.
  Proof.
    iIntros (Ht Hok Hh Hg Hl HS Hc Hs) "HT Hw [H _]". destruct (leaf_new _ _ _ _ _ _ _ _ Ht Hok Hh Hg Hl) as (Ht' & Hlo & Hit).
    rewrite -Hh Nat.add_0_r.
    assert (callok c root S h g root S' h (fill (dirtyC C) (GL n Dirty kvs'))) as HX.
    { split; [done|by rewrite Hit -Hs|done|done|]. rewrite -Hs. cbn. congruence. }
    iSpecialize ("H" $! _ _ _ _ HX with "HT Hw"). by rewrite -Hs.
  Qed.

  Lemma call_PatchByIndex i v : callspec (CPatchByIndex i v).
  Proof using WF MN.
    intros root S h g Q Er Ht Hk Hv HEr. iIntros "HT Hw H". apply Forall_cons in Hv as [Hv _].
    iApply (start with "HT Hw"); [done|]. iIntros (fuel Hf) "Hcur". destruct (tree_okc _ _ _ Ht) as [Hok Hg].
    iDestruct (cur_rec with "Hcur") as (r) "(HN & %Hr & Hcur)".
    iApply wp_bind. iApply (wp_getN with "HN"). iIntros "HN". iSpecialize ("Hcur" with "HN").
    replace (b_items r) with (gsz g) by (symmetry; apply Hr). destruct (index_range i g) as [-> Hin].
    destruct (at_index i (items (strip g))) as [p|] eqn:Hp; last first.
    { iApply wp_ret. iApply (ret_same0 with "Hcur H"); [done|done|]. cbn. by rewrite Hp. }
    destruct Hin as [|Hin]; [done|].
    iApply wp_bind. iApply (descendIndex_spec cb dom domV WF mn MN t ca true fuel h fuel (vw g) root S [] g with "Hcur"); [by eapply height_fuel|rewrite strip_vw; lia|done|done|done|].
    iSplit; last first.
    { iIntros (C' h' g' [Hok' Hh]) "Hcur". iApply (ret_err with "Hcur H"); done. }
    iIntros (C n st kvs j (Hok' & Hh & Hij & Hj)) "Hcur".
    destruct (index_leaf _ _ _ _ _ _ _ _ _ Ht Hok' Hij Hj) as [Hij' Hat]; [lia|]. rewrite Hp in Hat.
    destruct (leaf_toks _ _ _ _ _ _ _ Ht Hok') as [Hgd Hit].
    pose proof (height_fuel _ _ _ _ Ht Hf). cbn [length] in Hh.
    iApply wp_bind. iApply (touchLeaf with "Hcur"); [lia|].
    iIntros (S' HS) "HT (%kv & %left & %ps & %Hkv & HN & Htg & Hb) Hc".
    iApply wp_bind. iApply (wp_kvOf with "HN"); [done|]. iIntros "HN".
    destruct Hkv as [Hinv Hel].
    destruct (PatchByIndex_spec cmp dom kv (Z.of_nat j) (VUser v) Hinv) as (kv' & a & Hpa & Hinv' & Hs).
    iApply wp_bind. iApply wp_lift; [exact Hpa|]. iApply wp_bind. iApply (wp_modN with "HN"). iIntros "HN". iApply wp_ret.
    cbn in Hs. rewrite Hel in Hs. unfold at_index in Hs. destruct (Z.ltb_spec (Z.of_nat j) 0); [lia|].
    rewrite Nat2Z.id uels_lookup -Hat /= in Hs. injection Hs as Hel' ->. rewrite uels_set in Hel'.
    iApply (ret_mod _ _ S S' _ _ C n st kvs (s_set j v kvs) with "HT [HN Htg Hc Hb] H"); try done.
    - by apply (good_set cmp dom domV).
    - by rewrite length_s_set.
    - cbn. by rewrite Hp Hit Hij' mid_set.
    - iApply (leaf_whole _ _ kvs); [by rewrite length_s_set|by eapply wfC_lens, Hok'|by split|].
      iFrame. by iExists _, _, _.
  Qed.

  Lemma call_PatchByKey k v : callspec (CPatchByKey k v).
  Proof using WF MN.
    intros root S h g Q Er Ht Hk Hv HEr. iIntros "HT Hw H". apply Forall_cons in Hv as [Hv _]. apply Forall_cons in Hk as [Hk _].
    iApply (start with "HT Hw"); [done|]. iIntros (fuel Hf) "Hcur". destruct (tree_okc _ _ _ Ht) as [Hok Hg].
    iApply wp_bind. iApply (descendKey_spec cb dom domV WF mn MN t ca false k Hk h fuel (vw g) root S [] g with "Hcur"); [by eapply height_fuel|done|done|constructor|constructor|].
    iSplit; last first.
    { iIntros (C' h' g' [Hok' Hh]) "Hcur". iApply (ret_err with "Hcur H"); done. }
    iIntros (C n st kvs (Hok' & Hh & HL & HR)) "Hcur". destruct (leaf_toks _ _ _ _ _ _ _ Ht Hok') as [Hgd Hit].
    pose proof (height_fuel _ _ _ _ Ht Hf). cbn [length] in Hh.
    iApply wp_bind. iApply (touchLeaf with "Hcur"); [lia|].
    iIntros (S' HS) "HT (%kv & %left & %ps & %Hkv & HN & Htg & Hb) Hc".
    iApply wp_bind. iApply (wp_kvOf with "HN"); [done|]. iIntros "HN".
    destruct Hkv as [Hinv Hel].
    destruct (PatchByKey_spec cmp dom ORD kv k (VUser v) Hinv Hk) as (kv' & a & Hpa & Hinv' & Hs).
    rewrite Hpa. iApply wp_bind. iApply (wp_modN with "HN"). iIntros "HN".
    cbn in Hs. rewrite Hel uels_present uels_rank in Hs.
    pose proof (ctx_present cmp dom domV ORD k _ _ _ Hk Hgd HL HR) as Hpr.
    pose proof (ctx_rank cmp dom domV ORD k _ _ _ Hk Hgd HL HR) as Hrk.
    destruct (present cmp k kvs) eqn:Hpk; injection Hs as Hel' ->; iApply wp_ret.
    - rewrite uels_set in Hel'.
      assert (rank cmp k kvs < length kvs)%nat as Hlt.
      { apply good_app in Hgd as (_ & Hgd & _). apply good_app in Hgd as (Hgd & _). apply (good_leaf cmp dom domV) in Hgd as [Ha Hd].
        eapply rank_lt; try done. eapply Forall_impl; [exact Hd|]. by intros ? []. }
      iApply (ret_mod _ _ S S' _ _ C n st kvs (s_set (rank cmp k kvs) v kvs) with "HT [HN Htg Hc Hb] H"); try done.
      + by apply (good_set cmp dom domV).
      + by rewrite length_s_set.
      + cbn. rewrite Hit Hpr Hrk. by rewrite mid_set.
      + iApply (leaf_whole _ _ kvs); [by rewrite length_s_set|by eapply wfC_lens, Hok'|by split|].
        iFrame. by iExists _, _, _.
    - iApply (ret_mod _ _ S S' _ _ C n st kvs kvs with "HT [HN Htg Hc Hb] H"); try done.
      + cbn. by rewrite Hit Hpr.
      + iApply (leaf_whole _ _ kvs); [done|by eapply wfC_lens, Hok'|by split|].
        iFrame. by iExists _, _, _.
  Qed.

  Lemma call_Put k v : callspec (CPut k v).
  Proof using WF MN.
    intros root S h g Q Er Ht Hk Hv HEr. iIntros "HT Hw H". apply Forall_cons in Hv as [Hv _]. apply Forall_cons in Hk as [Hk _].
    iApply (start with "HT Hw"); [done|]. iIntros (fuel Hf) "Hcur". destruct (tree_okc _ _ _ Ht) as [Hok Hg].
    iApply wp_bind. iApply (descendKey_spec cb dom domV WF mn MN t ca false k Hk h fuel (vw g) root S [] g with "Hcur"); [by eapply height_fuel|done|done|constructor|constructor|].
    iSplit; last first.
    { iIntros (C' h' g' [Hok' Hh]) "Hcur". iApply (ret_err with "Hcur H"); done. }
    iIntros (C n st kvs (Hok' & Hh & HL & HR)) "Hcur". destruct (leaf_toks _ _ _ _ _ _ _ Ht Hok') as [Hgd Hit].
    pose proof (height_fuel _ _ _ _ Ht Hf). cbn [length] in Hh.
    iDestruct (leaf_read with "Hcur") as (r kv [Hr Hkv]) "[HN Hcur]".
    iApply wp_bind. iApply (wp_kvGetKey cb dom ORD _ _ _ _ _ Hr Hkv with "HN"); [done|]. iIntros "HN". iSpecialize ("Hcur" with "HN").
    rewrite uels_get.
    pose proof (ctx_present cmp dom domV ORD k _ _ _ Hk Hgd HL HR) as Hpr.
    pose proof (ctx_insert cmp dom domV ORD k _ _ _ Hk Hgd HL HR v) as Hins.
    assert (s_lookup cmp k kvs = None ↔ present cmp k kvs = false) as Hsl.
    { unfold s_lookup. destruct (present cmp k kvs) eqn:Hpk; [|done]. split; [|done]. intros Hn. 
      assert (rank cmp k kvs < length kvs)%nat as Hlt.
      { apply good_app in Hgd as (_ & Hgd & _). apply good_app in Hgd as (Hgd & _). apply (good_leaf cmp dom domV) in Hgd as [Ha Hd].
        eapply rank_lt; try done. eapply Forall_impl; [exact Hd|]. by intros ? []. }
      apply lookup_lt_is_Some_2 in Hlt as [x Hx]. by rewrite Hx in Hn. }
    destruct (s_lookup cmp k kvs) as [w|]; cbn [fmap option_fmap option_map].
    - iApply wp_ret. iApply (ret_same with "Hcur H"); try done. cbn. rewrite {2}Hit Hpr.
      destruct (present cmp k kvs); [done|]. destruct Hsl as [_ Hsl]. by specialize (Hsl eq_refl).
    - destruct Hsl as [Hsl _]. specialize (Hsl eq_refl).
      iDestruct "Hcur" as "(HT & Hc & Hrep)". destruct Hok' as [Hvw HwC Hw' Hp HpC].
      iApply wp_bind. iApply (insertLeaf cb dom domV WF mn MN t ca _ _ _ C with "HT Hrep Hc"); try done; try lia.
      { apply (framesmall_le mn MN (cnt (strip (fill C (GL n st kvs))))); [|by apply (cnt_frames mn MN)]. rewrite -strip_vw Hvw strip_vw. lia. }
      { rewrite -(tk_id _ _ _ _ _ _ _ Ht) -(vid_vw g) -Hvw vid_vw gid_fill //. }
      iIntros (root' S' h' g' (Ht' & HS & Hlo & Hit')) "HT Hw". iApply wp_ret.
      assert (spec_call cmp (items (strip g)) (CPut k v) = (items (strip g'), ROk true)) as Hs.
      { cbn. by rewrite Hit Hpr Hsl Hit' Hins. }
      iDestruct "H" as "[H _]".
      assert (callok (CPut k v) root S h g root' S' h' g') as HX.
      { split; [done|by rewrite Hs|done|done|]. rewrite Hs. done. }
      iSpecialize ("H" $! _ _ _ _ HX with "HT Hw"). by rewrite Hs.
  Qed.
  (** ** Deletions *)
  Lemma wp_ext io {A} (m m' : M A) Q (Er : err → hProp) : wp io m Q Er = wp io m' Q Er → wp io m Q Er ⊢ wp io m' Q Er.
  Proof. by intros ->. Qed.
  Lemma delLeaf fuel root S h g C n st kvs (i : nat) p kv' r (c : call K V) Q Er : treeok root h g → okc (vw g) 0 C (GL n st kvs) → (h + 0)%nat = length C →
    (cnt (strip g) < fuel)%nat → kvs !! i = Some p → iskv cb dom (uels (s_remove i kvs)) kv' →
    (isdel c = true ∧ (True ⊢ (Er : err → hProp) EIO)) →
    (titems (cpre C) ++ s_remove i kvs ++ titems (cpost C), ROk true) = spec_call cmp (items (strip g)) c →
    (∃ kv left ps, <affine> ⌜r = nrec st (Z.of_nat (length kvs)) (isnil C) true (hpar C) kv left ps⌝) -∗
    isTR root S -∗ isN n (set_kv (Some kv') r) -∗ isT n (tg ca (sttag st)) -∗ leafblk cb mn (isnil C) st kvs -∗
    ctx 0 C (ginfo (GL n st kvs)) -∗ callpost c root S h g Q Er -∗
    wp true (markNodeDirty t n ;; updatePrefixSumTreeLeafToRoot fuel t n ;; rebalanceHere cb fuel t n (stk C)) (λ _, Q (ROk true)) Er.
  Proof using WF MN.
    iIntros (Ht Hok Hh Hf Hi Hkv' [Hdel HEr] Hs) "(%kv & %left & %ps & ->) HT HN Htg Hb Hc H".
    destruct (leaf_toks _ _ _ _ _ _ _ Ht Hok) as [Hgd Hit]. destruct Hok as [Hvw HwC Hw' Hp HpC].
    pose proof (height_fuel _ _ _ _ Ht Hf). apply lookup_lt_Some in Hi as Hi'.
    assert (length (s_remove i kvs) = (length kvs - 1)%nat) as Hlr.
    { unfold s_remove. rewrite app_length take_length drop_length. lia. }
    iDestruct (leafblk_held with "Hb") as "Hb".
    iAssert (lnode' n (hpar C) (isnil C) (weak st) (Z.of_nat (length kvs)) (s_remove i kvs)) with "[HN Htg Hb]" as "Hn".
    { iExists kv', left, ps. rewrite weak_tag nrec_weak. rewrite leafblk_nc; [|apply weak_notclean]. rewrite weak_loc. iFrame. done. }
    iApply wp_bind. iApply (lnode_dirty with "HT Hn"). iIntros (S1 [HS1 _]) "HT Hn".
    iEval (unfold ginfo; cbn [gid gloc]; unfold gsz; cbn [strip]; rewrite csz_CL) in "Hc".
    iApply wp_bind. iApply (leafUpdate cb dom domV WF mn MN t ca with "HT Hn Hc"); [lia| |lia|].
    { apply (framesmall_le mn MN (cnt (strip (fill C (GL n st kvs))))); [|by apply (cnt_frames mn MN)]. rewrite -strip_vw Hvw strip_vw. lia. }
    iIntros (S2 HS2) "HT Hn Hc".
    assert (stk (dirtyC C) = stk C) as Hstk. { unfold stk, dirtyC. by rewrite -list_fmap_compose. }
    rewrite -Hstk.
    assert (good (cpre C ++ itoks (s_remove i kvs) ++ cpost C)) as Hg'.
    { eapply good_sub; [|exact Hgd]. apply sublist_app; [done|]. apply sublist_app; [|done].
      unfold s_remove. rewrite itoks_app -{3}(take_drop i kvs) itoks_app. apply sublist_app; [done|].
      rewrite (drop_S _ _ _ Hi). cbn. by apply sublist_cons. }
    assert (length (dirtyC C) < fuel)%nat as Hlf by (rewrite dirtyC_len; lia).
    pose proof (rebalance cb dom domV WF mn MN t ca fuel (dirtyC C) Hlf) as Hreb.
    iApply (Hreb root S2 0%nat (GL n Dirty (s_remove i kvs)) with "HT [Hn] [Hc]").
    all: try done.
    - by apply dirtyC_wf.
    - apply Forall_forall. intros f (f' & -> & _)%elem_of_list_fmap. done.
    - by apply dirtyC_pend.
    - cbn [strip] in Hw' |- *. unfold flow, dirtyC. destruct C; cbn in Hw' |- *; lia.
    - by rewrite dirtyC_pre dirtyC_post.
    - rewrite top_dirty. rewrite -(tk_id _ _ _ _ _ _ _ Ht) -(vid_vw g) -Hvw vid_vw gid_fill //.
    - by rewrite dirtyC_hpar dirtyC_isnil.
    - unfold ginfo. cbn [gid gloc]. unfold gsz. cbn [strip]. by rewrite csz_CL.
    - iIntros (root' S' h' g' [R1 R2 R3 R4 R5 R6 R7 R8]) "HT Hw". iDestruct "H" as "[H _]".
      rewrite dirtyC_pre dirtyC_post in R5. cbn [strip toks] in R5. rewrite !titems_app titems_itoks in R5.
      assert (callok c root S h g root' S' h' g') as HX.
      { split; [split; try done; by apply Permutation_nil|by rewrite R5 -Hs|set_solver|done|]. rewrite -Hs. by destruct c. }
      iSpecialize ("H" $! _ _ _ _ HX with "HT Hw"). by rewrite -Hs.
  Qed.

  Lemma call_DeleteByIndex i : callspec (CDeleteByIndex i).
  Proof using WF MN.
    intros root S h g Q Er Ht Hk Hv HEr. iIntros "HT Hw H".
    iApply (start with "HT Hw"); [done|]. iIntros (fuel Hf) "Hcur". destruct (tree_okc _ _ _ Ht) as [Hok Hg].
    iDestruct (cur_rec with "Hcur") as (r) "(HN & %Hr & Hcur)".
    iApply wp_bind. iApply (wp_getN with "HN"). iIntros "HN". iSpecialize ("Hcur" with "HN").
    replace (b_items r) with (gsz g) by (symmetry; apply Hr). destruct (index_range i g) as [-> Hin].
    destruct (at_index i (items (strip g))) as [p|] eqn:Hp; last first.
    { iApply wp_ret. iApply (ret_same0 with "Hcur H"); [done|done|]. cbn. by rewrite Hp. }
    destruct Hin as [|Hin]; [done|].
    iApply wp_bind. iApply (descendIndex_spec cb dom domV WF mn MN t ca true fuel h fuel (vw g) root S [] g with "Hcur"); [by eapply height_fuel|rewrite strip_vw; lia|done|done|done|].
    iSplit; last first.
    { iIntros (C' h' g' [Hok' Hh]) "Hcur". iApply (ret_err with "Hcur H"); done. }
    iIntros (C n st kvs j (Hok' & Hh & Hij & Hj)) "(HT & Hc & (%kv & %left & %ps & %Hkv & HN & Htg & Hb))".
    destruct (index_leaf _ _ _ _ _ _ _ _ _ Ht Hok' Hij Hj) as [Hij' Hat]; [lia|]. rewrite Hp in Hat.
    destruct (leaf_toks _ _ _ _ _ _ _ Ht Hok') as [Hgd Hit].
    iApply wp_bind. iApply (wp_kvDelIndex cb dom ORD with "HN"); [done|done|by rewrite uels_lookup -Hat|].
    iIntros (kv' Hkv') "HN". rewrite uels_remove in Hkv'.
    iAssert (wp true (markNodeDirty t n ;; updatePrefixSumTreeLeafToRoot fuel t n ;; rebalanceHere cb fuel t n (stk C)) (λ _, Q (ROk true)) Er) with "[HT HN Htg Hb Hc H]" as "Hwp".
    { iApply (delLeaf fuel root S h g C n st kvs j p with "[] HT HN Htg Hb Hc H"); try done.
      - by split; [|apply HEr].
      - cbn. by rewrite Hp Hit Hij' mid_remove.
      - by iExists _, _, _. }
    iApply (wp_ext _ ((markNodeDirty t n ;; updatePrefixSumTreeLeafToRoot fuel t n ;; rebalanceHere cb fuel t n (stk C)) ;; ret (ROk true))).
    { reflexivity. }
    iApply wp_bind. iApply (wp_wand with "Hwp"). iSplit; [|by iIntros]. iIntros (a) "H". by iApply wp_ret.
  Qed.

  Lemma call_DeleteByKey k : callspec (CDeleteByKey k).
  Proof using WF MN.
    intros root S h g Q Er Ht Hk Hv HEr. iIntros "HT Hw H". apply Forall_cons in Hk as [Hk _].
    iApply (start with "HT Hw"); [done|]. iIntros (fuel Hf) "Hcur". destruct (tree_okc _ _ _ Ht) as [Hok Hg].
    iApply wp_bind. iApply (descendKey_spec cb dom domV WF mn MN t ca true k Hk h fuel (vw g) root S [] g with "Hcur"); [by eapply height_fuel|done|done|constructor|constructor|].
    iSplit; last first.
    { iIntros (C' h' g' [Hok' Hh]) "Hcur". iApply (ret_err with "Hcur H"); done. }
    iIntros (C n st kvs (Hok' & Hh & HL & HR)) "(HT & Hc & (%kv & %left & %ps & %Hkv & HN & Htg & Hb))".
    destruct (leaf_toks _ _ _ _ _ _ _ Ht Hok') as [Hgd Hit].
    pose proof (ctx_present cmp dom domV ORD k _ _ _ Hk Hgd HL HR) as Hpr.
    pose proof (ctx_rank cmp dom domV ORD k _ _ _ Hk Hgd HL HR) as Hrk.
    iApply wp_bind. iApply (wp_kvDelKey cb dom ORD with "HN"); [done|done|done|].
    iIntros (kv' Hkv') "HN". rewrite uels_present uels_rank in Hkv'. rewrite uels_present.
    destruct (present cmp k kvs) eqn:Hpk.
    - assert (rank cmp k kvs < length kvs)%nat as Hlt.
      { apply good_app in Hgd as (_ & Hgd & _). apply good_app in Hgd as (Hgd & _). apply (good_leaf cmp dom domV) in Hgd as [Ha Hd].
        eapply rank_lt; try done. eapply Forall_impl; [exact Hd|]. by intros ? []. }
      apply lookup_lt_is_Some_2 in Hlt as Hx. destruct Hx as [p Hx]. rewrite uels_remove in Hkv'.
      iApply wp_bind. iApply (wp_wand _ _ (λ _, Q (ROk true)) Er with "[HT HN Htg Hb Hc H]"); last first.
      { iSplit; [|by iIntros]. iIntros (a) "H". by iApply wp_ret. }
      iApply (delLeaf fuel root S h g C n st kvs _ p with "[] HT HN Htg Hb Hc H"); try done.
      + by split; [|apply HEr].
      + cbn. by rewrite Hit Hpr Hrk mid_remove.
      + by iExists _, _, _.
    - iApply wp_bind. iApply wp_ret. iApply wp_ret.
      iApply (ret_same with "[HT HN Htg Hb Hc] H"); [done|exact Hok'|done|done|by cbn; rewrite {2}Hit Hpr|].
      iFrame "HT Hc". iExists kv', left, ps. iFrame. done.
  Qed.

  Lemma bt_call_spec (c : call K V) : callspec c.
  Proof using WF MN.
    destruct c; [apply call_Put|apply call_GetByKey|apply call_GetByIndex|apply call_PatchByKey|apply call_PatchByIndex|
      apply call_DeleteByKey|apply call_DeleteByIndex|apply call_BisectLeft|apply call_BisectRight|apply call_Len].
  Qed.
End api.

(** * What a tree that Validate accepts looks like on storage *)
From Coq Require Import ssreflect.
From stdpp Require Import prelude list gmap.
From iris.bi Require Import bi.
From iris.proofmode Require Import proofmode.
From Verif Require Import Spec SpecFacts Llrb LlrbApi BTree HProp Lru Wp Kv Codec Ghost Order PsTree Rep Load Api Open Pres Machine World Disk Picture Client Hist Seat History Footprint Sample Format Damage Still.
Open Scope Z_scope.

(** [stores cb D l z]: the blocks [D] hold, from location [l] on, a finite tree
    with [z] entries.  Leaves have distinct keys and say how many entries they
    have.  In an inner node the first reference of each key counts ([kept]),
    and the counts in the references add up to the number of entries below. *)
Section stores.
  Context {K V : Type}.
  Variable cb : callbacks K V.
  Variable D : gmap loc bytes.
  (** the references that count: one for each key, in the order of the keys *)
  Definition chosen (krs kept : list (K * (loc * Z))) : Prop :=
    ascending (cb_cmp cb) kept ∧ (∀ p, p ∈ kept → p ∈ krs) ∧ (∀ p, p ∈ krs → present (cb_cmp cb) p.1 kept = true).
  Inductive stores : loc → Z → Prop :=
    | stores_leaf l b mx kvs els :
        D !! l = Some b → read cb b = Some (SNode (Z.of_nat (length kvs)) mx (Leaf kvs)) →
        els ≡ₚ kvs → ascending (cb_cmp cb) els → stores l (Z.of_nat (length kvs))
    | stores_inner l b z mx first rest kept zs :
        D !! l = Some b → read cb b = Some (SNode z mx (Inner first rest)) → chosen rest kept →
        Forall2 (λ p, stores p.1) (first :: kept.*2) zs → sumz zs = sumz ((first :: kept.*2).*2) → stores l (sumz zs).
End stores.

Section sound.
  Context {K V : Type}.
  Variable cb : callbacks K V.
  Variable domA : K → Prop.
  Hypothesis TA : tame cb domA.
  Let ORD := proj1 TA.
  Notation M := (M K V).
  Notation hProp := (hProp K V).
  Notation st := (st K V).
  Notation cmp := (cb_cmp cb).
  Notation read := (read cb).
  Notation iskv := (iskv cb domA).
  Notation TT := (λ _, True%I : hProp).

  (** ** Values and the order *)
  Section vals.
    Context {A B : Type} (f : A → B).
    Notation F := (λ p : K * A, (p.1, f p.2)).
    Lemma rank_vals k m : rank cmp k (F <$> m) = rank cmp k m.
    Proof. unfold rank. induction m as [|p m IH]; [done|]. cbn [fmap list_fmap]. rewrite !filter_cons. cbn [fst]. by destruct (decide (below cmp p.1 k = true)); cbn; rewrite IH. Qed.
    Lemma present_vals k m : present cmp k (F <$> m) = present cmp k m.
    Proof. unfold present. induction m as [|p m IH]; [done|]. cbn. by rewrite IH. Qed.
    Lemma insert_vals k v m : s_insert cmp k (f v) (F <$> m) = F <$> s_insert cmp k v m.
    Proof. unfold s_insert. by rewrite rank_vals fmap_app fmap_cons fmap_take fmap_drop. Qed.
    Lemma asc_vals m : ascending cmp (F <$> m) → ascending cmp m.
    Proof.
      induction m as [|p m IH]; [constructor|]. cbn. intros H. inversion H as [|? ? H1 H2]; simplify_eq. constructor; [by apply IH|].
      rewrite Forall_fmap in H2. exact H2.
    Qed.
  End vals.
  Lemma insert_perm {A} k (v : A) m : s_insert cmp k v m ≡ₚ (k, v) :: m.
  Proof. unfold s_insert. rewrite -Permutation_middle. by rewrite take_drop. Qed.
  Lemma present_perm {A} k (m m' : list (K * A)) : m ≡ₚ m' → present cmp k m = present cmp k m'.
  Proof. intros H. apply Bool.eq_true_iff_eq. unfold present. rewrite !existsb_exists. split; intros (p & Hp & E); exists p; split; try done; apply elem_of_list_In, elem_of_list_In in Hp; by eapply Permutation_in. Qed.

  (** ** Loading *)
  Notation VU := (λ p : K * V, (p.1, VUser p.2)).
  Lemma loadLeaf_sound io n cnt : ∀ b els r kv Q, b_kv r = Some kv → iskv (VU <$> els) kv →
    isN n r -∗ (∀ kvs els' b' kv' (_ : readLeaf cb cnt b = Some (kvs, b') ∧ iskv (VU <$> els') kv' ∧ els' ≡ₚ els ++ kvs), isN n (set_kv (Some kv') r) -∗ Q b') -∗
    wp io (loadLeaf cb cnt n b) Q TT.
  Proof using TA.
    induction cnt as [|cnt IH]; intros b els r kv Q Hr Hkv; cbn [loadLeaf readLeaf]; iIntros "HN H".
    { iApply wp_ret. assert (Some (@nil (K * V), b) = Some ([], b) ∧ iskv (VU <$> els) kv ∧ els ≡ₚ els ++ []) as HX by by rewrite app_nil_r.
      iApply ("H" $! [] els b kv HX). destruct r; cbn in *; by rewrite -Hr. }
    iApply wp_bind. iApply (wp_anyKey cb domA TA). iIntros (k b1 Hk). rewrite Hk. iApply wp_bind. iApply (wp_anyVal cb domA TA). iIntros (v b2 ->).
    pose proof (readKey_tame cb domA TA _ _ _ Hk) as Hd. iApply wp_bind. destruct (present cmp k (VU <$> els)) eqn:Hp.
    - iApply wp_bind. iApply (wp_kvOf with "HN"); [done|]. iIntros "HN". destruct Hkv as [Hi He]. rewrite -He in Hp.
      destruct (Put_spec cmp domA ORD kv k (VUser v) Hi Hd) as (t' & a & Hput & Hi' & Hc). cbn in Hc. rewrite Hp in Hc. simplify_eq.
      rewrite Hput. iApply wp_bind. iApply wp_ret. iApply wp_bind. iApply (wp_modN with "HN"). iIntros "HN". iApply wp_ret.
      iApply wp_bind. iApply wp_fail; done.
    - iApply (wp_kvPut cb domA ORD _ _ _ kv (VU <$> els) with "HN"); [done..|]. iIntros (kv' Hkv') "HN". iApply wp_bind. iApply wp_logicOk.
      rewrite (insert_vals VUser) in Hkv'.
      iApply (IH b2 _ _ kv' with "HN"); [done|done|]. iIntros (kvs els' b' kv2 (Hl & Hk2 & Hp2)) "HN". rewrite Hl.
      assert (els' ≡ₚ els ++ (k, v) :: kvs) as HX. { rewrite Hp2 insert_perm /=. by rewrite Permutation_middle. }
      iApply ("H" $! _ els' b' kv2 (conj eq_refl (conj Hk2 HX)) with "HN").
  Qed.

  (** children that were just made: the node and the reference *)
  Notation kd := (nid * (loc * Z))%type.
  Notation VN := (λ p : K * kd, (p.1, VNode (V:=V) p.2.1)).
  Definition made (t : tid) (n : nid) (p : kd) : hProp := (isN p.1 (refNode t n p.2.1 p.2.2) ∗ isT p.1 noLRU ∗ ∃ x, isP p.1 x)%I.
  Notation refs := (fmap (λ p : K * kd, (p.1, p.2.2))).
  Definition goes (els : list (K * kd)) krs els' : Prop :=
    (∀ p, p ∈ refs els' → p ∈ refs els ++ krs) ∧ (∀ p, p ∈ refs els ++ krs → present cmp p.1 els' = true).
  Lemma present_self (els : list (K * kd)) p : ascending cmp els → Forall (λ p, domA p.1) els → p ∈ refs els → present cmp p.1 els = true.
  Proof using TA.
    intros Ha Hd (q & -> & Hq)%elem_of_list_fmap. unfold present. apply existsb_exists. exists q. split; [by apply elem_of_list_In|]. cbn.
    rewrite Forall_forall in Hd. apply (same_refl cmp domA ORD). by apply Hd.
  Qed.
  Lemma loadInner_sound io t T n cnt : ∀ b els r kv Q, b_kv r = Some kv → iskv (VN <$> els) kv →
    isR t T -∗ isN n r -∗ ([∗ list] p ∈ els, made t n p.2) -∗
    (∀ krs b' kv' els' (_ : readInner cb cnt b = Some (krs, b') ∧ iskv (VN <$> els') kv' ∧ goes els krs els'),
       isR t T -∗ isN n (set_kv (Some kv') r) -∗ ([∗ list] p ∈ els', made t n p.2) -∗ True -∗ Q b') -∗
    wp io (loadInner cb cnt t n b) Q TT.
  Proof using TA.
    induction cnt as [|cnt IH]; intros b els r kv Q Hr Hkv; cbn [loadInner readInner]; iIntros "HR HN Hs H".
    { iApply wp_ret.
      assert (goes els [] els) as HX. { split; rewrite app_nil_r; [done|]. intros p. apply present_self; [apply (asc_vals (λ x : kd, VNode (V:=V) x.1)); by eapply iskv_asc|].
        apply iskv_dom in Hkv. by rewrite Forall_fmap in Hkv. }
      iApply ("H" $! [] b kv els (conj eq_refl (conj Hkv HX)) with "HR [HN] Hs"); [|iStopProof; apply bi.True_intro]. destruct r; cbn in *; by rewrite -Hr. }
    iApply wp_bind. iApply (wp_anyKey cb domA TA). iIntros (k b1 Hk). rewrite Hk. iApply wp_bind. iApply wp_anyRef. iIntros (l i b2 ->).
    pose proof (readKey_tame cb domA TA _ _ _ Hk) as Hd. iApply wp_bind. iApply wp_newNode. iIntros (c) "HC HP HT". iApply wp_bind.
    destruct (present cmp k (VN <$> els)) eqn:Hp.
    - iApply wp_bind. iApply (wp_kvOf with "HN"); [done|]. iIntros "HN". destruct Hkv as [Hi He]. rewrite -He in Hp.
      destruct (Put_spec cmp domA ORD kv k (VNode c) Hi Hd) as (t' & a & Hput & Hi' & Hc). cbn in Hc. rewrite Hp in Hc. injection Hc as Hc ->.
      rewrite Hput. iApply wp_bind. iApply wp_ret. iApply (wp_modN with "HN"). iIntros "HN".
      iApply wp_bind. iApply (wp_initNodeAsEvicted with "HR HT"). iIntros "HR HT". rewrite He in Hp.
      iApply (IH b2 els _ t' with "HR HN Hs"); [done|split; [done|congruence]|]. iIntros (krs b' kv2 els2 (Hl & Hk2 & Hg1 & Hg2)) "HR HN Hs Hx".
      rewrite Hl.
      assert (goes els ((k, (l, i)) :: krs) els2) as HX.
      { split; [intros p H%Hg1; set_solver|]. intros p [H|[->|H]%elem_of_cons]%elem_of_app; [apply Hg2; set_solver| |apply Hg2; set_solver].
        cbn. rewrite (present_vals (λ x : kd, VNode x.1)) in Hp. apply existsb_exists in Hp as (q & Hq%elem_of_list_In & Hs).
        assert ((q.1, q.2.2) ∈ refs els ++ krs) as Hq2. { apply elem_of_app. left. apply elem_of_list_fmap. by exists q. }
        pose proof (Hg2 _ Hq2) as Hq3. cbn in Hq3. apply existsb_exists in Hq3 as (q' & Hq' & Hs'). apply existsb_exists. exists q'. split; [done|].
        pose proof (iskv_dom _ _ _ _ Hk2) as Hd2. rewrite Forall_fmap in Hd2. rewrite Forall_forall in Hd2. apply elem_of_list_In in Hq'.
        pose proof (iskv_dom cb domA _ _ (conj Hi He)) as Hd1. rewrite Forall_fmap in Hd1. rewrite Forall_forall in Hd1.
        apply (same_trans cmp domA ORD _ q.1); [done|by apply (Hd1 q)|by apply (Hd2 q')|done|done]. }
      iApply ("H" $! _ b' kv2 els2 (conj eq_refl (conj Hk2 HX)) with "HR [HN] Hs"); [by destruct r|]. iStopProof. apply bi.True_intro.
    - iApply (wp_kvPut_ cb domA ORD _ _ _ kv (VN <$> els) with "HN"); [done..|]. iIntros (kv' Hkv') "HN".
      iApply wp_bind. iApply (wp_initNodeAsEvicted with "HR HT"). iIntros "HR HT".
      rewrite (insert_vals (λ x : kd, VNode x.1) k (c, (l, i)) els) in Hkv'.
      iApply (IH b2 _ _ kv' with "HR HN [HC HP HT Hs]"); [done|done| |].
      { rewrite (insert_perm k (c, (l, i)) els). cbn. iFrame. by iExists _. }
      iIntros (krs b' kv2 els2 (Hl & Hk2 & Hg1 & Hg2)) "HR HN Hs Hx". rewrite Hl.
      assert (goes els ((k, (l, i)) :: krs) els2) as HX.
      { pose proof (Permutation_map (λ p : K * kd, (p.1, p.2.2)) (insert_perm k (c, (l, i)) els)) as HP. cbn in HP.
        assert (∀ p, p ∈ refs (s_insert cmp k (c, (l, i)) els) ++ krs ↔ p ∈ refs els ++ (k, (l, i)) :: krs) as HE.
        { intros p. rewrite !elem_of_app elem_of_cons. change (refs (s_insert cmp k (c, (l, i)) els)) with (map (λ p : K * kd, (p.1, p.2.2)) (s_insert cmp k (c, (l, i)) els)).
          rewrite HP elem_of_cons. tauto. }
        split; [intros p H%Hg1; by apply HE|]. intros p H. by apply Hg2, HE. }
      iApply ("H" $! _ b' kv2 els2 (conj eq_refl (conj Hk2 HX)) with "HR [HN] Hs"); [by destruct r|]. iStopProof. apply bi.True_intro.
  Qed.
  Definition kid (t : tid) (n : nid) (p : kd) : hProp := (isN p.1 (refNode t n p.2.1 p.2.2) ∗ isT p.1 noLRU)%I.
  (** a node that was loaded from the block [b] *)
  Definition loaded (t : tid) (n : nid) (b : bytes) (r : bnode K V) : hProp :=
    (∃ x, <affine> ⌜read b = Some x ∧ b_loaded r = true ∧ b_tree r = t⌝ ∗
      match sn_body x with
      | Leaf kvs => ∃ kv els, <affine> ⌜b_leaf r = true ∧ b_kv r = Some kv ∧ iskv (VU <$> els) kv ∧ els ≡ₚ kvs ∧ b_items r = sn_items x⌝
      | Inner rf krs => ∃ kv c els, <affine> ⌜b_leaf r = false ∧ b_kv r = Some kv ∧ iskv (VN <$> els) kv ∧ b_left r = Some c ∧
          chosen cb krs (refs els) ∧ b_items r = sumz (rf.2 :: ((λ p : K * kd, p.2.2.2) <$> els))⌝ ∗
          kid t n (c, rf) ∗ [∗ list] p ∈ els, kid t n p.2
      | Hollow => <affine> ⌜b_leaf r = false ∧ b_kv r = Some E ∧ b_left r = None ∧ b_psroot r = None⌝
      end)%I.
  Lemma made_split t n (els : list (K * kd)) : ([∗ list] p ∈ els, made t n p.2) ⊣⊢
    ([∗ list] p ∈ (λ p : K * kd, (p.2.1, refNode (V:=V) (K:=K) t n p.2.2.1 p.2.2.2)) <$> els, isN p.1 p.2) ∗
    ([∗ list] p ∈ els, isT p.2.1 noLRU) ∗
    ([∗ list] p ∈ (λ p : K * kd, (p.2.1, refNode (V:=V) (K:=K) t n p.2.2.1 p.2.2.2)) <$> els, ∃ x, isP p.1 x).
  Proof. rewrite !big_sepL_fmap -!big_sepL_sep. done. Qed.
  Lemma loadNode_sound t T n r b : b_tree r = t → b_psroot r = None → isR t T -∗ isN n r -∗ isT n noLRU -∗ isD (b_loc r) b -∗
    wp true (loadNode cb t n) (λ _, ∃ T' r', <affine> ⌜t_root T' = t_root T⌝ ∗ isR t T' ∗ isN n r' ∗ isD (b_loc r) b ∗ loaded t n b r' ∗ True)%I TT.
  Proof using TA.
    iIntros (Htr Hps) "HR HN HT HD". iApply wp_bind. iApply (wp_getN with "HN"). iIntros "HN". iApply wp_bind.
    iApply (wp_GetNode with "HD"). iSplit; [|auto]. iIntros "HD".
    iApply wp_bind. iApply (wp_modN with "HN"). iIntros "HN".
    iApply wp_bind. iApply wp_bind. iApply wp_anyU64. iIntros (items b0 Hb0).
    destruct b0 as [|rb [|lb b1]]; [iApply wp_fail; done..|]. iApply wp_ret.
    iApply wp_bind. iApply (wp_modN with "HN"). iIntros "HN".
    iApply wp_bind. iApply (wp_modN with "HN"). iIntros "HN".
    iApply wp_bind. iApply (wp_modN with "HN"). iIntros "HN".
    iApply wp_bind.
    iAssert (∀ Q : bytes → hProp, (∀ mx b2 T' (_ : (if negb (rb =? 0) then match unle 8 b1 with Some (m, b) => Some (Some m, b) | None => None end else Some (None, b1)) = Some (mx, b2)) (_ : t_root T' = t_root T),
       isR t T' -∗ Q b2) -∗ wp true (if negb (rb =? 0) then
       bind (unpackU64 b1) (λ '(max, payload),
       bind (modT t (λ T, Tree (max / 2) max (t_root T) (t_stale T) (t_cache T))) (λ _ : unit, ret payload))
      else ret b1) Q TT)%I with "[HR]" as "Hmax".
    { iIntros (Q) "H". destruct (negb (rb =? 0)).
      - iApply wp_bind. iApply wp_anyU64. iIntros (m b2 ->). iApply wp_bind. iApply (wp_modT with "HR"). iIntros "HR". iApply wp_ret.
        iApply ("H" $! _ _ (Tree (m / 2) m (t_root T) (t_stale T) (t_cache T)) eq_refl eq_refl with "HR").
      - iApply wp_ret. iApply ("H" $! _ _ T eq_refl eq_refl with "HR"). }
    iApply "Hmax". iIntros (mx b2 T' Hmx HT') "HR". iApply wp_bind.
    set (r0 := set_leaf _ _). assert (b_kv r0 = Some E) as Hr0 by done.
    iAssert (∀ Q : bytes → hProp, (∀ bo b3 r' (_ : readBody cb (negb (lb =? 0)) b2 = Some (bo, b3)),
        isR t T' -∗ isN n r' -∗ <affine> ⌜b_tree r' = t⌝ -∗
        match bo with
        | Leaf kvs => ∃ kv els, <affine> ⌜b_leaf r' = true ∧ b_kv r' = Some kv ∧ iskv (VU <$> els) kv ∧ els ≡ₚ kvs ∧ b_items r' = items⌝
        | Inner rf krs => ∃ kv c els, <affine> ⌜b_leaf r' = false ∧ b_kv r' = Some kv ∧ iskv (VN <$> els) kv ∧ b_left r' = Some c ∧
            chosen cb krs (refs els) ∧ b_items r' = sumz (rf.2 :: ((λ p : K * kd, p.2.2.2) <$> els))⌝ ∗
            kid t n (c, rf) ∗ [∗ list] p ∈ els, kid t n p.2
        | Hollow => <affine> ⌜b_leaf r' = false ∧ b_kv r' = Some E ∧ b_left r' = None ∧ b_psroot r' = None⌝
        end -∗ True -∗ Q b3) -∗
      wp true (if negb (lb =? 0) then
       bind (unpackU64 b2) (λ '(cnt, payload),
       bind (loadLeaf cb (Z.to_nat cnt) n payload) (λ payload,
       bind (modN n (set_psroot None)) (λ _ : unit, ret payload)))
     else
       bind (unpackU64 b2) (λ '(cnt, payload),
       if cnt =? 0 then
         bind (modN n (set_left None)) (λ _ : unit, ret payload)
       else
         bind (unpackRef payload) (λ '(l, items, payload),
         bind (newNode (refNode t n l items)) (λ c,
         bind (modN n (set_left (Some c))) (λ _ : unit,
         bind (initNodeAsEvicted t c) (λ _ : unit,
         bind (loadInner cb (Z.to_nat (cnt - 1)) t n payload) (λ payload,
         bind (ignoreErr (arrangePrefixSumTree n)) (λ _ : unit,
         ret payload)))))))) Q TT)%I with "[HR HN]" as "Hbody".
    { iIntros (Q) "H". unfold readBody. destruct (negb (lb =? 0)) eqn:Hlb.
      - iApply wp_bind. iApply wp_anyU64. iIntros (cnt b3 ->). iApply wp_bind.
        iApply (loadLeaf_sound _ _ _ _ [] with "HN"); [done|apply iskv_E|]. iIntros (kvs els b4 kv (-> & Hkv & Hp)) "HN".
        iApply wp_bind. iApply (wp_modN with "HN"). iIntros "HN". iApply wp_ret. iApply ("H" $! _ _ _ eq_refl with "HR HN [//]"); [|iStopProof; apply bi.True_intro].
        iExists kv, els. iPureIntro. split_and!; try done.
      - iApply wp_bind. iApply wp_anyU64. iIntros (cnt b3 ->). destruct (cnt =? 0).
        { iApply wp_bind. iApply (wp_modN with "HN"). iIntros "HN". iApply wp_ret. iApply ("H" $! _ _ _ eq_refl with "HR HN [//]"); [done|iStopProof; apply bi.True_intro]. }
        iApply wp_bind. iApply wp_anyRef. iIntros (l i b4 ->). iApply wp_bind. iApply wp_newNode. iIntros (c) "HC HP HTc".
        iApply wp_bind. iApply (wp_modN with "HN"). iIntros "HN".
        iApply wp_bind. iApply (wp_initNodeAsEvicted with "HR HTc"). iIntros "HR HTc".
        iApply wp_bind. iApply (loadInner_sound _ _ _ _ _ _ [] with "HR HN []"); [done|apply iskv_E|done|].
        iIntros (krs b5 kv els (-> & Hkv & Hg)) "HR HN Hs Hx". iApply wp_bind. iApply wp_ignoreErr.
        rewrite made_split. iDestruct "Hs" as "(HNs & HTs & HPs)".
        iApply (arrange_spec cb domA true n _ kv els.*1 ((c, refNode t n l i) :: ((λ p : K * kd, (p.2.1, refNode t n p.2.2.1 p.2.2.2)) <$> els)) with "HN [HC HNs] [HP HPs]"); [done| |done| |..].
        { unfold kels, kvals. cbn [tail fmap list_fmap fst]. rewrite -!list_fmap_compose. 
          replace (zip els.*1 _) with (VN <$> els); [exact Hkv|]. clear. induction els as [|p els IH]; [done|]. cbn. by rewrite IH. }
        { cbn. by rewrite !fmap_length. }
        { cbn. iFrame. }
        { cbn. iFrame. by iExists _. }
        iIntros (bb [Hbb _]) "HN HNs HPs". iApply wp_ret. cbn [big_opL]. iDestruct "HNs" as "[HC HNs]".
        iApply ("H" $! _ _ _ eq_refl with "HR HN [//] [HC HTc HNs HTs HPs]").
        + iExists kv, c, els. iSplit.
          { iPureIntro. split_and!; try done.
            - split; [|split].
              + apply (iskv_asc cb domA) in Hkv. apply (asc_vals (λ x : kd, VNode (V:=V) x.1)) in Hkv.
                clear -Hkv. induction els as [|q els IH]; [constructor|]. inversion Hkv as [|? ? H1 H2]; simplify_eq. constructor; [by apply IH|]. by rewrite Forall_fmap.
              + intros q Hq. by apply (proj1 Hg).
              + intros q Hq. rewrite (present_vals (λ x : kd, x.2)). by apply (proj2 Hg).
            - cbn [b_items set_items]. rewrite bsum_bins Hbb. f_equal. cbn. f_equal. clear.
              assert (∀ g : nat → nat, ent_at (V:=V) (K:=K) ∘ Datatypes.S = ent_at ∘ g → sumz (e_sz <$> imap (ent_at (V:=V) (K:=K) ∘ g) ((λ p : K * kd, (p.2.1, refNode t n p.2.2.1 p.2.2.2)) <$> els)) = sumz ((λ p : K * kd, p.2.2.2) <$> els)) as HX; [|by apply HX].
              intros g _. revert g. induction els as [|q els IH]; intros g; [done|]. cbn. f_equal. apply (IH (g ∘ Datatypes.S)). }
          unfold kid. iFrame "HC HTc". rewrite big_sepL_sep. iFrame "HTs". by rewrite big_sepL_fmap.
        + iStopProof. apply bi.True_intro. }
    iApply "Hbody". iIntros (bo b3 r' Hbo) "HR HN %Htr' HB Hx". destruct b3; [|iApply wp_fail; done].
    iApply wp_bind. iApply (wp_modN with "HN"). iIntros "HN".
    iApply (wp_markNodeClean _ _ _ _ _ noLRU with "HR HN [HT]").
    { unfold ctagof. destruct (t_cache T'); iExact "HT". }
    iIntros "HR HN HT". iExists T', _. iSplit; [done|]. iFrame "HR HN HD". iSplitL "HB"; [|iStopProof; apply bi.True_intro].
    iExists (SNode items mx bo). iSplit. { iPureIntro. unfold Format.read. by rewrite Hb0 Hmx Hbo. }
    cbn [sn_body sn_items]. destruct bo; iExact "HB".
  Qed.

  (** ** Validate with fewer checks

      [vnode] accepts what validateNode (BTree.v) accepts, in the same state. *)
  Variable D : gmap loc bytes.
  Fixpoint vloop (rec : nid → M bool) (n : nid) (ix : list Z) (sum : Z) : M (bool * Z) :=
    match ix with
    | [] => ret (true, sum)
    | i :: ix =>
        bind (kvGet n i) (λ o,
        match o with
        | None => ret (false, sum)
        | Some (_, v) =>
            bind (asNode v) (λ c,
            bind (rec c) (λ ok : bool,
            if ok then bind (getN c) (λ rc, vloop rec n ix (sum + b_items rc)) else ret (false, sum)))
        end)
    end.
  Definition vrest (rec : nid → M bool) (n : nid) : M bool :=
    bind (getN n) (λ r,
    bind (kvOf n) (λ tr,
    if b_leaf r then ret (Len tr =? b_items r)
    else
      bind (match b_left r with
            | None => ret (true, 0)
            | Some l => bind (rec l) (λ ok, bind (getN l) (λ rl, ret (ok, b_items rl)))
            end) (λ '(ok, sum),
      if negb ok then ret false
      else
        bind (vloop rec n (range (Len tr)) sum) (λ '(ok, sum),
        if negb ok || negb (sum =? b_items r) then ret false else ret (isS (b_psroot r)))))).
  Fixpoint vnode (fuel : nat) (t : tid) (n : nid) : M bool :=
    match fuel with
    | O => fail ELogic
    | Datatypes.S fuel =>
        bind (getN n) (λ r,
        bind (if b_loaded r then ret tt else match D !! b_loc r with Some _ => loadNode cb t n | None => fail ELogic end) (λ _ : unit,
        vrest (vnode fuel t) n))
    end.
  Lemma bind_ret {A B} (m : M A) (f : A → M B) s b s' : bind m f s = ORet b s' → ∃ a s1, m s = ORet a s1 ∧ f a s1 = ORet b s'.
  Proof. rewrite run_bind. destruct (m s) as [a s1|e s1|w s1]; [|done..]. by exists a, s1. Qed.
  Lemma bind_go {A B} (m : M A) (f : A → M B) s a s1 : m s = ORet a s1 → bind m f s = f a s1.
  Proof. rewrite run_bind. by intros ->. Qed.
  Lemma getN_ret n s (r : bnode K V) s' : getN n s = ORet r s' → s' = s.
  Proof. cbn. destruct (_ !! _); [|done]. by intros [= _ ->]. Qed.
  Lemma getP_ret n (s : st) r s' : getP n s = ORet r s' → s' = s.
  Proof. cbn. destruct (_ !! _); [|done]. by intros [= _ ->]. Qed.
  Lemma getT_ret n (s : st) r s' : getT n s = ORet r s' → s' = s.
  Proof. cbn. destruct (_ !! _); [|done]. by intros [= _ ->]. Qed.
  Lemma kvOf_ret n s (r : tree K (bval V)) s' : kvOf n s = ORet r s' → s' = s.
  Proof. intros (x & s1 & ->%getN_ret & H)%bind_ret. destruct (b_kv x); cbn in H; [|done]. by injection H. Qed.
  Lemma kvGet_ret n i s (r : option (K * bval V)) s' : kvGet n i s = ORet r s' → s' = s.
  Proof.
    intros (x & s1 & ->%kvOf_ret & (a & s2 & H1 & H2)%bind_ret)%bind_ret. unfold lift in H1. destruct (GetByIndex x i); cbn in H1; try done.
    injection H1 as -> ->. destruct a; cbn in H2; try done. by injection H2.
  Qed.
  Lemma vps_ret fuel : ∀ o s b s', validatePrefixSum (K:=K) (V:=V) fuel o s = ORet b s' → s' = s.
  Proof.
    induction fuel as [|fuel IH]; intros o s b s'; [done|]. cbn [validatePrefixSum].
    intros (n & s1 & H0 & H)%bind_ret. destruct o as [n'|]; cbn in H0; [|done]. injection H0 as -> ->.
    apply bind_ret in H as (r & s2 & ->%getN_ret & H). apply bind_ret in H as (p & s2 & ->%getP_ret & H).
    apply bind_ret in H as ([e bad] & s2 & H1 & H).
    assert (s2 = s1) as ->.
    { destruct (psl p) as [l|]; [|cbn in H1; by injection H1]. apply bind_ret in H1 as (pl & s3 & ->%getP_ret & H1).
      destruct (decide _); [|cbn in H1; by injection H1]. apply bind_ret in H1 as (ok & s3 & ->%IH & H1). cbn in H1. by injection H1. }
    clear H1. destruct bad; [cbn in H; by injection H|]. apply bind_ret in H as ([e' bad] & s2 & H1 & H).
    assert (s2 = s1) as ->.
    { destruct (psr p) as [l|]; [|cbn in H1; by injection H1]. apply bind_ret in H1 as (pl & s3 & ->%getP_ret & H1).
      destruct (decide _); [|cbn in H1; by injection H1]. apply bind_ret in H1 as (ok & s3 & ->%IH & H1). cbn in H1. by injection H1. }
    destruct bad; cbn in H; by injection H.
  Qed.
  Lemma vnode_below fuel0 fuel : ∀ t n s s', disk s = D → validateNode cb fuel0 fuel t n s = ORet true s' → vnode fuel t n s = ORet true s'.
  Proof using Type.
    induction fuel as [|fuel IH]; intros t n s s' HD; [done|]. cbn [validateNode vnode].
    intros (r0 & s1 & Hr0 & H)%bind_ret. rewrite (bind_go _ _ _ _ _ Hr0). pose proof (getN_ret _ _ _ _ Hr0) as ->.
    apply bind_ret in H as ([] & s1 & H0 & H).
    assert (∀ t n s b s', disk s = D → validateNode cb fuel0 fuel t n s = ORet b s' → disk s' = D) as HV.
    { intros t' n' s2 b s3 E2 E3. pose proof (ls_validateNode cb false fuel0 fuel t' n' s2) as HX. rewrite E3 in HX. cbn in HX. congruence. }
    assert (disk s1 = D) as HD1.
    { destruct (b_loaded r0); [cbn in H0; congruence|]. pose proof (ls_loadNode cb false t n s) as HX. rewrite H0 in HX. cbn in HX. congruence. }
    assert ((if b_loaded r0 then ret tt else match D !! b_loc r0 with Some _ => loadNode cb t n | None => fail ELogic end) s = ORet tt s1) as Hload.
    { destruct (b_loaded r0); [done|]. destruct (D !! b_loc r0) as [b|] eqn:Hb; [done|]. exfalso.
      unfold loadNode in H0. apply bind_ret in H0 as (r1 & s2 & H1 & H0). assert (r1 = r0) as -> by congruence. assert (s2 = s) as -> by congruence.
      apply bind_ret in H0 as (b & s2 & H2 & _). clear H1. cbn in H2. destruct (ch_crash _); [done|]. destruct (ch_fail _); [done|]. cbn in H2. by rewrite HD Hb in H2. }
    rewrite (bind_go _ _ _ _ _ Hload). clear Hload H0. unfold vrest.
    apply bind_ret in H as (r & s2 & H0 & H). rewrite (bind_go _ _ _ _ _ H0). apply getN_ret in H0 as ->.
    apply bind_ret in H as (T & s2 & ->%getT_ret & H).
    apply bind_ret in H as (tr & s2 & H0 & H). rewrite (bind_go _ _ _ _ _ H0). apply kvOf_ret in H0 as ->.
    destruct (b_leaf r).
    { cbn in H. injection H as H ->. apply andb_true_iff in H as [H _]. apply andb_true_iff in H as [H _]. apply andb_true_iff in H as [_ H]. cbn. by rewrite H. }
    apply bind_ret in H as ([ok sum] & s2 & H0 & H).
    destruct ok; [|cbn in H; done]. 
    assert (disk s2 = D ∧ (match b_left r with
            | None => ret (true, 0)
            | Some l => bind (vnode fuel t l) (λ ok, bind (getN l) (λ rl, ret (ok, b_items rl)))
            end) s1 = ORet (true, sum) s2) as [HD2 Hleft].
    { destruct (b_left r) as [l|]; [|cbn in *; split; [congruence|done]].
      apply bind_ret in H0 as (rl & s3 & ->%getN_ret & H0). destruct (decide _); [|by cbn in H0].
      apply bind_ret in H0 as (ok & s3 & H1 & H0). apply bind_ret in H0 as (rl2 & s4 & H2 & H0). cbn in H0. injection H0 as -> <- ->.
      split. { rewrite (getN_ret _ _ _ _ H2). by eapply HV. }
      rewrite (bind_go _ _ _ _ _ (IH _ _ _ _ HD1 H1)). rewrite (bind_go _ _ _ _ _ H2). done. }
    rewrite (bind_go _ _ _ _ _ Hleft). cbn [negb]. clear Hleft H0.
    destruct (negb _) eqn:E1; [by cbn in H|]. clear E1.
    apply bind_ret in H as ([ok sum'] & s3 & H0 & H). destruct ok; [|done]. cbn [negb orb] in H.
    assert (vloop (vnode fuel t) n (range (Len tr)) sum s2 = ORet (true, sum') s3) as Hl.
    { revert sum s2 HD2 H0. generalize (range (Len tr)). intros ix. induction ix as [|i ix IHl]; intros sum s2 HD2 H0; [done|]. cbn [vloop].
      apply bind_ret in H0 as (o & s4 & H1 & H0). rewrite (bind_go _ _ _ _ _ H1). apply kvGet_ret in H1 as ->. destruct o as [[k v]|]; [|done].
      apply bind_ret in H0 as (c & s4 & H1 & H0). rewrite (bind_go _ _ _ _ _ H1). assert (s4 = s2) as ->. { destruct v; cbn in H1; [done|by injection H1]. }
      apply bind_ret in H0 as (rc & s4 & ->%getN_ret & H0). destruct (decide _); [|done].
      apply bind_ret in H0 as (ok & s4 & H2 & H0). destruct ok; [|done].
      rewrite (bind_go _ _ _ _ _ (IH _ _ _ _ HD2 H2)). apply bind_ret in H0 as (rc2 & s5 & H3 & H0). rewrite (bind_go _ _ _ _ _ H3).
      apply IHl; [|done]. rewrite (getN_ret _ _ _ _ H3). by eapply HV. }
    rewrite (bind_go _ _ _ _ _ Hl). cbn [negb orb]. destruct (sum' =? b_items r); [|done]. cbn [negb] in *.
    destruct (b_psroot r) as [m|]; [|done]. apply bind_ret in H as (pm & s4 & ->%getP_ret & H). destruct (pspar pm); [done|].
    destruct (negb _); [done|]. apply vps_ret in H as ->. done.
  Qed.

  (** ** What it accepts *)
  Notation DD := ([∗ map] l ↦ b ∈ D, isD l b : hProp)%I.
  Definition post (t : tid) (n : nid) (l : loc) (ok : bool) : hProp :=
    (∃ r', isN n r' ∗ (if ok then (∃ T', isR t T') ∗ DD ∗ <affine> ⌜stores cb D l (b_items r')⌝ else emp) ∗ True)%I.
  Definition specd (rec : nid → M bool) (t : tid) : Prop := ∀ T n r, b_loaded r = false → b_tree r = t → b_psroot r = None →
    isR t T -∗ isN n r -∗ isT n noLRU -∗ DD -∗ wp true (rec n) (post t n (b_loc r)) TT.
  Lemma vloop_spec rec t n r kv els : specd rec t → b_kv r = Some kv → iskv (VN <$> els) kv → ∀ todo pre sum T Q, els = pre ++ todo →
    isR t T -∗ isN n r -∗ DD -∗ ([∗ list] p ∈ todo, kid t n p.2) -∗
    (∀ zs T' (_ : Forall2 (λ p : K * kd, stores cb D p.2.2.1) todo zs), isR t T' -∗ isN n r -∗ DD -∗ True -∗ Q (true, sum + sumz zs)) ∧
    (∀ z, isN n r -∗ True -∗ Q (false, z)) -∗
    wp true (vloop rec n (Z.of_nat <$> seq (length pre) (length todo)) sum) Q TT.
  Proof using Type.
    intros HS Hr Hkv todo. induction todo as [|p todo IH]; intros pre sum T Q He; iIntros "HR HN HD Hk H".
    { cbn. iApply wp_ret. iDestruct "H" as "[H _]". iSpecialize ("H" $! [] T (List.Forall2_nil _)). cbn [sumz foldr]. rewrite Z.add_0_r.
      iApply ("H" with "HR HN HD"). iStopProof. apply bi.True_intro. }
    cbn [length seq fmap list_fmap vloop]. iApply wp_bind.
    iApply (wp_kvGet_nat cb domA _ _ _ _ _ Hr Hkv _ (VN p) with "HN").
    { rewrite list_lookup_fmap He lookup_app_r // Nat.sub_diag. done. }
    iIntros "HN". cbn [big_opL]. iDestruct "Hk" as "[[HC HT] Hk]". iApply wp_bind. iApply wp_asNode. iApply wp_bind.
    iApply (wp_wand with "[HR HC HT HD]"). { iApply (HS with "HR HC HT HD"); done. }
    iSplit; [|auto]. iIntros (ok) "(%r' & HC & HX & Hx)". destruct ok.
    - iDestruct "HX" as "([%T' HR] & HD & %Hh)". iApply wp_bind. iApply (wp_getN with "HC"). iIntros "HC".
      change (Z.of_nat <$> seq (Datatypes.S (length pre)) (length todo)) with (Z.of_nat <$> seq (Datatypes.S (length pre)) (length todo)).
      replace (Datatypes.S (length pre)) with (length (pre ++ [p])) by (rewrite app_length /=; lia).
      iApply (IH (pre ++ [p]) with "HR HN HD Hk"); [by rewrite -app_assoc|]. iSplit.
      + iDestruct "H" as "[H _]". iIntros (zs T2 Hz) "HR HN HD Hy". 
        assert (Forall2 (λ p : K * kd, stores cb D p.2.2.1) (p :: todo) (b_items r' :: zs)) as HF by by constructor.
        iSpecialize ("H" $! (b_items r' :: zs) T2 HF).
        rewrite sumz_cons Z.add_assoc. iApply ("H" with "HR HN HD"). iStopProof. apply bi.True_intro.
      + iDestruct "H" as "[_ H]". iIntros (z) "HN Hy". iApply ("H" with "HN"). iStopProof. apply bi.True_intro.
    - iApply wp_ret. iDestruct "H" as "[_ H]". iApply ("H" with "HN"). iStopProof. apply bi.True_intro.
  Qed.
  Lemma vrest_spec rec t T n l b r : specd rec t → D !! l = Some b →
    isR t T -∗ isN n r -∗ loaded t n b r -∗ DD -∗ wp true (vrest rec n) (post t n l) TT.
  Proof using Type.
    intros HS Hl. iIntros "HR HN (%x & (%Hx & %Hld & %Htr) & HX) HD". iApply wp_bind. iApply (wp_getN with "HN"). iIntros "HN".
    destruct x as [z mx bo]. cbn [sn_body sn_items]. destruct bo as [kvs|rf krs|].
    - iDestruct "HX" as (kv els) "(%Hlf & %Hkv & %Hi & %Hp & %Hit)". iApply wp_bind. iApply (wp_kvOf with "HN"); [done|]. iIntros "HN".
      rewrite Hlf. iApply wp_ret. iExists r. iFrame "HN". destruct Hi as [Hi1 Hi2]. rewrite (inv_Len _ _ _ Hi1) Hi2 fmap_length Hp.
      destruct (Z.eqb_spec (Z.of_nat (length kvs)) (b_items r)) as [E|E].
      + iFrame "HD". iSplit; [|done]. iSplitL; [by iExists _|]. iPureIntro. rewrite -E. rewrite -Hit -E in Hx.
        eapply stores_leaf; [done|exact Hx|done|]. apply (asc_vals VUser). apply (iskv_asc cb domA _ kv). by split.
      + iSplit; [done|]. iStopProof. apply bi.True_intro.
    - iDestruct "HX" as (kv c els) "((%Hlf & %Hkv & %Hi & %Hleft & %Hc & %Hit) & [HC HT] & Hk)".
      iApply wp_bind. iApply (wp_kvOf with "HN"); [done|]. iIntros "HN". rewrite Hlf Hleft.
      iApply wp_bind. iApply wp_bind. iApply (wp_wand with "[HR HC HT HD]"). { iApply (HS with "HR HC HT HD"); done. }
      iSplit; [|auto]. iIntros (ok) "(%r' & HC & HX & Hx)". iApply wp_bind. iApply (wp_getN with "HC"). iIntros "HC". iApply wp_ret.
      destruct ok; cbn [negb].
      + iDestruct "HX" as "([%T' HR] & HD & %Hh)". iApply wp_bind.
        assert (Len kv = Z.of_nat (length els)) as ->. { destruct Hi as [Hi1 Hi2]. by rewrite (inv_Len _ _ _ Hi1) Hi2 fmap_length. }
        rewrite range_of_nat. iApply (vloop_spec rec t n r kv els HS Hkv Hi els [] with "HR HN HD Hk"); [done|]. iSplit.
        * iIntros (zs T2 Hz) "HR HN HD Hy". cbn [negb orb]. destruct (Z.eqb_spec (b_items r' + sumz zs) (b_items r)) as [E|E]; cbn [negb].
          -- iApply wp_ret. iExists r. iFrame "HN". destruct (b_psroot r); cbn [isS].
             ++ iFrame "HD". iSplitL "HR"; [iSplitL; [by iExists _|]|iStopProof; apply bi.True_intro]. iPureIntro. rewrite -E -sumz_cons.
                eapply (stores_inner _ _ _ _ _ _ _ _ (refs els) (b_items r' :: zs)); [done|exact Hx|done| |].
                ** constructor; [done|]. rewrite -list_fmap_compose Forall2_fmap_l. exact Hz.
                ** rewrite sumz_cons E Hit. cbn. rewrite -!list_fmap_compose. done.
             ++ iSplit; [done|]. iStopProof. apply bi.True_intro.
          -- iApply wp_ret. iExists r. iFrame "HN". iSplit; [done|]. iStopProof. apply bi.True_intro.
        * iIntros (z') "HN Hy". iApply wp_ret. iExists r. iFrame "HN". iSplit; [done|]. iStopProof. apply bi.True_intro.
      + iApply wp_ret. iExists r. iFrame "HN". iSplit; [done|]. iStopProof. apply bi.True_intro.
    - iDestruct "HX" as "(%Hlf & %Hkv & %Hleft & %Hps)". iApply wp_bind. iApply (wp_kvOf with "HN"); [done|]. iIntros "HN".
      rewrite Hlf Hleft Hps. iApply wp_bind. iApply wp_ret. cbn [negb]. iApply wp_bind.
      change (vloop rec n (range (Len Llrb.E)) 0) with (ret (K:=K) (V:=V) (true, 0)). iApply wp_ret. cbn [negb orb isS].
      destruct (negb (0 =? b_items r)); iApply wp_ret; iExists r; iFrame "HN"; (iSplit; [done|]); iStopProof; apply bi.True_intro.
  Qed.
  Lemma vnode_spec fuel t : specd (vnode fuel t) t.
  Proof using TA.
    induction fuel as [|fuel IH]; intros T n r Hr Htr Hps; iIntros "HR HN HT HD"; cbn [vnode]; [by iApply wp_fail|].
    iApply wp_bind. iApply (wp_getN with "HN"). iIntros "HN". rewrite Hr. iApply wp_bind. destruct (D !! b_loc r) as [b|] eqn:Hb; [|by iApply wp_fail].
    iDestruct (big_sepM_lookup_acc _ _ _ _ Hb with "HD") as "[HD Hback]".
    iApply (wp_wand with "[HR HN HT HD]"). { iApply (loadNode_sound with "HR HN HT HD"); done. }
    iSplit; [|auto]. iIntros (_) "(%T' & %r' & _ & HR & HN & HD & HL & Hx)". iDestruct ("Hback" with "HD") as "HD".
    iApply (wp_wand with "[HR HN HD HL]"). { iApply (vrest_spec with "HR HN HL HD"); done. }
    iSplit; [|auto]. iIntros (ok) "(%r2 & HN & HX & Hy)". iExists r2. iFrame "HN HX".
  Qed.

  Local Instance KD_inj : Inj (=) (=) KD.
  Proof. by intros x y [= ->]. Qed.
  Lemma own_all : ([∗ map] l ↦ b ∈ D, isD l b : hProp)%I (kmap KD (RD <$> D)).
  Proof using Type.
    clear. induction D as [|l b m Hl IH] using map_ind.
    - rewrite fmap_empty kmap_empty big_sepM_empty. apply alldrop_empty.
    - rewrite fmap_insert kmap_insert.
      assert ((isD l b ∗ [∗ map] l ↦ b ∈ m, isD l b : hProp)%I (<[KD l := RD b]> (kmap KD (RD <$> m)))) as HX.
      { exists {[KD l := RD b]}, (kmap KD (RD <$> m)). split_and!; [by rewrite insert_union_singleton_l| | |done].
        - apply map_disjoint_singleton_l. rewrite lookup_kmap lookup_fmap Hl. done.
        - exists ∅. split_and!; [done|done|apply alldrop_empty]. }
      revert HX. apply hmono. by rewrite big_sepM_insert.
  Qed.
  (** opening a tree and validating it *)
  Definition opened (l : loc) (ca : bool) (fuel : nat) : M bool :=
    bind (bt_Old cb l ca) (λ t, bind (rootOf t) (λ rt, vnode fuel t rt)).
  Lemma opened_spec l b ca fuel : D !! l = Some b →
    DD ⊢ wp true (opened l ca fuel) (λ ok, <affine> ⌜ok = true → ∃ z, stores cb D l z⌝ ∗ True)%I TT.
  Proof using TA.
    intros Hl. iIntros "HD". unfold opened. iApply wp_bind. iApply wp_bind. iApply wp_newTree. iIntros (t) "HR". iApply wp_bind. iApply wp_newNode. iIntros (n) "HN HP HT".
    iApply wp_bind. iApply (wp_modT with "HR"). iIntros "HR". iApply wp_bind. iApply (wp_initNodeAsEvicted with "HR HT"). iIntros "HR HT".
    iApply wp_bind. iDestruct (big_sepM_lookup_acc _ _ _ _ Hl with "HD") as "[HD Hback]".
    iApply (wp_wand with "[HR HN HT HD]"). { iApply (loadNode_sound with "HR HN HT HD"); done. }
    iSplit; [|auto]. iIntros (_) "(%T' & %r' & %HT' & HR & HN & HD & HL & Hx)". iDestruct ("Hback" with "HD") as "HD". iApply wp_ret.
    iApply wp_bind. iApply wp_bind. iApply (wp_getT with "HR"). iIntros "HR". rewrite HT'. iApply wp_deref; [done|].
    destruct fuel as [|fuel]; cbn [vnode]; [by iApply wp_fail|].
    iApply wp_bind. iApply (wp_getN with "HN"). iIntros "HN". iDestruct "HL" as "(%x & (%Hx & %Hld & %Htr) & HX)". rewrite Hld. iApply wp_bind. iApply wp_ret.
    iApply (wp_wand with "[HR HN HD HX]").
    { iApply (vrest_spec _ _ _ _ l b with "HR HN [HX] HD"); [apply vnode_spec|done|]. iExists x. by iFrame. }
    iSplit; [|auto]. iIntros (ok) "(%r2 & HN & HX2 & Hy)". destruct ok.
    - iDestruct "HX2" as "(HR & HD & %Hh)". iSplit; [|iStopProof; apply bi.True_intro]. iPureIntro. intros _. by eexists.
    - iSplit; [by iPureIntro|]. iStopProof. apply bi.True_intro.
  Qed.
  Theorem validated dom domV (WF : wf_cb cb dom domV) hi (s : st) l b ca t s1 s2 : history cb dom domV hi s → D !! l = Some b →
    exec cb (OldTree l ca) (set_disk D s) = ORet (RTree t) s1 → exec cb (Validate t) s1 = ORet (RValid true) s2 → ∃ z, stores cb D l z.
  Proof using TA.
    intros Hh Hl H1 H2. destruct (hist_facts cb dom domV WF hi s Hh) as (_ & _ & HW). destruct HW as [HI _ _ _ _ (σ0 & Hv0 & _)].
    destruct (view_disk s D σ0 Hv0) as (σ & Hv).
    assert (Inv (set_disk D s)) as HI'. { destruct HI as [[L HL] ????]. split; try done. exists L. by eapply lru_ext. }
    cbn [exec] in H1, H2. apply bind_ret in H1 as (t' & s1' & H1 & H1'). cbn in H1'. injection H1' as -> ->.
    apply bind_ret in H2 as (ok & s2' & H2 & H2'). cbn in H2'. injection H2' as -> ->.
    unfold bt_Validate, with_fuel in H2. apply bind_ret in H2 as (fuel & s3 & Hf & H2). cbn in Hf. injection Hf as _ ->.
    apply bind_ret in H2 as (rt & s3' & H3 & H2). assert (s3' = s3) as ->.
    { apply bind_ret in H3 as (T & s4 & ->%getT_ret & H3). destruct (t_root T); cbn in H3; [by injection H3|done]. }
    assert (disk s3 = D) as HD3. { pose proof (ls_bt_Old cb false l ca (set_disk D s)) as HX. rewrite H1 in HX. exact HX. }
    apply (vnode_below _ _ _ _ _ _ HD3) in H2.
    assert (opened l ca fuel (set_disk D s) = ORet true s2) as HO.
    { unfold opened. rewrite (bind_go _ _ _ _ _ H1) (bind_go _ _ _ _ _ H3). exact H2. }
    pose proof (opened_spec l b ca fuel Hl) as Hwp. destruct Hwp as [Hwp]. specialize (Hwp _ own_all).
    apply wp_run in Hwp. specialize (Hwp (filter (λ p, isKD p.1 = false) σ) (set_disk D s)).
    assert (kmap KD (RD <$> D) ##ₘ filter (λ p, isKD p.1 = false) σ) as Hdj.
    { apply map_disjoint_spec. intros k x y Hx Hy. apply (lookup_kmap_Some KD) in Hx as (l' & -> & _). by apply map_filter_lookup_Some in Hy as [_ Hy]. }
    assert (views (set_disk D s) (kmap KD (RD <$> D) ∪ filter (λ p, isKD p.1 = false) σ)) as Hv'.
    { intros k. pose proof (Hv k) as Hk. pose proof (dmap_look (set_disk D s) k) as Hd. unfold dmap in Hd. cbn [disk set_disk] in Hd. destruct (isKD k) eqn:E.
      - destruct k as [n|n|n|l'|t0]; try done. cbn in Hk, Hd |- *. destruct (D !! l') as [b'|] eqn:El; cbn [fmap option_fmap option_map] in *.
        + symmetry. by apply lookup_union_Some_l.
        + rewrite lookup_union_r //. symmetry. apply map_filter_lookup_None. by right.
      - rewrite Hk lookup_union_r; [|by destruct k].
        destruct (σ !! k) eqn:E2; symmetry; [by apply map_filter_lookup_Some|apply map_filter_lookup_None; by left]. }
    specialize (Hwp Hdj Hv' HI'). rewrite HO in Hwp. destruct Hwp as (_ & σ' & _ & _ & _ & Hq).
    apply holds_aff in Hq as [Hq _]. by apply Hq.
  Qed.
End sound.

(** * Insertion into a node, with splitting

    Models no code. *)
From Coq Require Import ssreflect Sorted.
From stdpp Require Import prelude list gmap.
From iris.bi Require Import bi.
From iris.proofmode Require Import proofmode.
From Verif Require Import Spec SpecFacts Llrb LlrbApi BTree HProp Lru Wp Kv Codec Ghost Order PsTree Rep Load Search Update Plug.
Open Scope Z_scope.

Section insert.
  Context {K V : Type}.
  Variable cb : callbacks K V.
  Variable dom : K → Prop.
  Variable domV : V → Prop.
  Hypothesis WF : wf_cb cb dom domV.
  Variable mn : nat.
  Hypothesis MN : (2 ≤ mn)%nat.
  Variable t : tid.
  Variable ca : bool.
  Notation cmp := (cb_cmp cb).
  Notation M := (M K V).
  Notation hProp := (hProp K V).
  Notation bval := (bval V).
  Notation gt := (gt K V).
  Notation frame := (frame K V).
  Let ORD := wf_ord _ _ _ WF.
  Notation rep := (rep cb dom mn t ca).
  Notation reps := (reps cb dom mn t ca).
  Notation isTR := (isTR mn t ca).
  Notation inode := (inode cb dom mn t ca).
  Notation inodeU := (inodeU cb dom t ca).
  Notation lnode := (lnode cb dom mn t ca).
  Notation lnode' := (lnode' cb dom mn t ca).
  Notation whole := (whole cb dom mn t ca).
  Notation ctx := (ctx cb dom mn t ca).
  Notation nrec := (nrec t).
  Notation good := (good cmp dom domV).
  Notation "'let*' x := m 'in' e" := (bind m (fun x => e))
    (at level 200, x name, m at level 100, e at level 200, right associativity).
  Notation "'let*' ' x := m 'in' e" := (bind m (fun x => e))
    (at level 200, x strict pattern, m at level 100, e at level 200, right associativity).
  Notation "m ;; e" := (bind m (fun _ : unit => e))
    (at level 100, e at level 200, right associativity, format "m ;;  '/' e").
  Implicit Types (g c : gt) (n : nid) (f : frame) (C : list frame) (h : nat).

  (** ** Moving the upper half of a node into a new one *)
  Lemma splitLeaf io T n m : ∀ (B A X : list (K * bval)) fuel rn rm kn km Q E, (length B ≤ fuel)%nat → B ≠ [] →
    t_min T = Z.of_nat (length A) → b_leaf rn = true →
    b_kv rn = Some kn → iskv cb dom (A ++ B) kn → b_kv rm = Some km → iskv cb dom X km → ascending cmp (B ++ X) →
    isR t T -∗ isN n rn -∗ isN m rm -∗
    (∀ k0 kn' km' (_ : iskv cb dom A kn' ∧ iskv cb dom (B ++ X) km' ∧ head B.*1 = Some k0),
       isR t T -∗ isN n (set_kv (Some kn') (set_items (b_items rn - Z.of_nat (length B)) rn)) -∗
       isN m (set_kv (Some km') (set_items (b_items rm + Z.of_nat (length B)) rm)) -∗ Q k0) -∗
    wp io (splitLoop cb fuel t n m (Z.of_nat (length A + length B))) Q E.
  Proof using WF MN.
    induction B as [|[k v] B IH] using rev_ind; intros A X fuel rn rm kn km Q E Hf HB HT Hl Hkn Hin Hkm Him Hasc; [done|].
    rewrite !app_length /= in Hf |- *. destruct fuel as [|fuel]; [lia|]. cbn [splitLoop].
    iIntros "HR HN HM H".
    replace (Z.of_nat (length A + (length B + 1)) - 1) with (Z.of_nat (length (A ++ B))) by (rewrite app_length; lia).
    rewrite app_assoc in Hin.
    iApply wp_bind. iApply (wp_kvGet_nat cb dom _ _ _ _ _ Hkn Hin _ (k, v) with "HN").
    { rewrite lookup_app_r // Nat.sub_diag. done. }
    iIntros "HN". iApply wp_bind. iApply wp_logicSome. cbn beta iota.
    iApply wp_bind. iApply (wp_kvDelIndex cb dom ORD _ _ _ _ _ Hkn Hin _ (k, v) with "HN").
    { rewrite lookup_app_r // Nat.sub_diag. done. }
    iIntros (kn' Hkn') "HN". rewrite s_remove_mid app_nil_r in Hkn'.
    iApply wp_bind. iApply wp_logicOk.
    iApply wp_bind. iApply (wp_getN with "HN"). iIntros "HN".
    iApply wp_bind. iApply (wp_getT with "HR"). iIntros "HR".
    cbn [set_kv b_leaf]. rewrite Hl.
    iApply wp_bind. iApply (wp_modN with "HN"). iIntros "HN".
    iApply wp_bind. iApply (wp_modN with "HM"). iIntros "HM".
    assert (alldom dom ((k, v) :: X) ∧ ascending cmp ((k, v) :: X)) as [Hd Ha].
    { split.
      - apply iskv_dom in Hin, Him. apply Forall_app in Hin as [_ Hin]. apply Forall_cons in Hin as [Hk _].
        by constructor.
      - rewrite -app_assoc in Hasc. by apply ascending_app in Hasc as (_ & ? & _). }
    destruct (insert_asc cmp dom ORD k v [] X Hd Ha) as [Hpr Hins]. cbn [app] in Hpr, Hins.
    assert (dom k) as Hdk by (by apply Forall_cons in Hd as [? _]).
    iApply wp_bind. iApply (wp_kvPut cb dom ORD _ _ _ km _ with "HM"); [done|exact Him|done|done|].
    iIntros (km' Hkm') "HM". rewrite Hins in Hkm'.
    iApply wp_bind. iApply wp_logicOk. rewrite HT.
    destruct B as [|b B].
    - cbn [app]. rewrite app_nil_r. rewrite Z.eqb_refl. iApply wp_ret.
      rewrite app_nil_r in Hkn'.
      iApply ("H" $! k kn' km' (conj Hkn' (conj Hkm' eq_refl)) with "HR HN HM").
    - destruct (Z.eqb_spec (Z.of_nat (length A)) (Z.of_nat (length (A ++ b :: B)))) as [He|_].
      { rewrite app_length /= in He. lia. }
      rewrite app_length.
      iApply (IH A ((k, v) :: X) with "HR HN HM"); [cbn in Hf |- *; lia|done|done|done|done|done|done|done| |].
      { by rewrite -app_assoc in Hasc. }
      iIntros (k0 kn2 km2 (Hn2 & Hm2 & Hk0)) "HR HN HM".
      assert (iskv cb dom A kn2 ∧ iskv cb dom (((b :: B) ++ [(k, v)]) ++ X) km2 ∧ head ((b :: B) ++ [(k, v)]).*1 = Some k0) as HX.
      { rewrite -app_assoc. split_and!; [done|done|]. by rewrite fmap_app. }
      iApply ("H" $! k0 kn2 km2 HX with "HR [HN] [HM]").
      + replace (b_items rn - Z.of_nat (length (b :: B) + 1)) with (b_items rn - 1 - Z.of_nat (length (b :: B))) by lia.
        done.
      + replace (b_items rm + Z.of_nat (length (b :: B) + 1)) with (b_items rm + 1 + Z.of_nat (length (b :: B))) by lia.
        done.
  Qed.

  Definition bel (p : K * gt) : K * bval := (p.1, VNode (gid p.2)).
  Lemma splitInner io T h n m : ∀ (B : list (K * gt)) (A X : list (K * bval)) fuel rn rm kn km Q E, (length B ≤ fuel)%nat → B ≠ [] →
    t_min T = Z.of_nat (length A) → b_leaf rn = false →
    b_kv rn = Some kn → iskv cb dom (A ++ (bel <$> B)) kn → b_kv rm = Some km → iskv cb dom X km → ascending cmp ((bel <$> B) ++ X) →
    isR t T -∗ isN n rn -∗ isN m rm -∗ reps h n B.*2 -∗
    (∀ k0 c0 B' kn' km' sn sm (_ : iskv cb dom A kn' ∧ B = (k0, c0) :: B' ∧ iskv cb dom ((bel <$> B') ++ X) km'),
       isR t T -∗ isN n (set_kv (Some kn') (set_items sn rn)) -∗
       isN m (set_left (Some (gid c0)) (set_kv (Some km') (set_items sm rm))) -∗ reps h m B.*2 -∗ Q k0) -∗
    wp io (splitLoop cb fuel t n m (Z.of_nat (length A + length B))) Q E.
  Proof using WF MN.
    induction B as [|[k v] B IH] using rev_ind; intros A X fuel rn rm kn km Q E Hf HB HT Hl Hkn Hin Hkm Him Hasc; [done|].
    rewrite !app_length /= in Hf |- *. destruct fuel as [|fuel]; [lia|]. cbn [splitLoop].
    rewrite fmap_app in Hin, Hasc. cbn [fmap list_fmap bel fst snd] in Hin, Hasc.
    iIntros "HR HN HM Hk H".
    replace (Z.of_nat (length A + (length B + 1)) - 1) with (Z.of_nat (length (A ++ (bel <$> B)))) by (rewrite app_length fmap_length; lia).
    rewrite app_assoc in Hin.
    iApply wp_bind. iApply (wp_kvGet_nat cb dom _ _ _ _ _ Hkn Hin _ (k, VNode (gid v)) with "HN").
    { rewrite lookup_app_r // Nat.sub_diag. done. }
    iIntros "HN". iApply wp_bind. iApply wp_logicSome. cbn beta iota.
    iApply wp_bind. iApply (wp_kvDelIndex cb dom ORD _ _ _ _ _ Hkn Hin _ (k, VNode (gid v)) with "HN").
    { rewrite lookup_app_r // Nat.sub_diag. done. }
    iIntros (kn' Hkn') "HN". rewrite s_remove_mid app_nil_r in Hkn'.
    iApply wp_bind. iApply wp_logicOk.
    iApply wp_bind. iApply (wp_getN with "HN"). iIntros "HN".
    iApply wp_bind. iApply (wp_getT with "HR"). iIntros "HR".
    cbn [set_kv b_leaf]. rewrite Hl.
    iApply wp_bind. iApply wp_asNode.
    unfold Rep.reps. rewrite fmap_app big_sepL_app. cbn [fmap list_fmap snd big_opL]. iDestruct "Hk" as "(Hk & Hv & _)".
    iDestruct (rep_rec with "Hv") as (rv) "(Hvn & _ & Hv)".
    iApply wp_bind. iApply (wp_modN with "Hvn"). iIntros "Hvn".
    iApply wp_bind. iApply (wp_getN with "Hvn"). iIntros "Hvn".
    iSpecialize ("Hv" with "Hvn").
    iApply wp_bind. iApply (wp_modN with "HN"). iIntros "HN".
    iApply wp_bind. iApply (wp_modN with "HM"). iIntros "HM".
    rewrite HT. destruct B as [|b B].
    - cbn [app fmap list_fmap]. rewrite app_nil_r Z.eqb_refl.
      iApply wp_bind. iApply (wp_modN with "HM"). iIntros "HM". iApply wp_ret.
      rewrite app_nil_r in Hkn'.
      iApply ("H" $! k v [] kn' km _ _ (conj Hkn' (conj eq_refl Him)) with "HR HN [HM] [Hv]").
      + rewrite -Hkm. iExact "HM".
      + cbn. iFrame.
    - destruct (Z.eqb_spec (Z.of_nat (length A)) (Z.of_nat (length (A ++ (bel <$> b :: B))))) as [He|_].
      { rewrite app_length /= in He. lia. }
      assert (alldom dom ((k, VNode (gid v)) :: X) ∧ ascending cmp ((k, VNode (gid v)) :: X)) as [Hd Ha].
      { split.
        - apply iskv_dom in Hin, Him. apply Forall_app in Hin as [_ Hin]. apply Forall_cons in Hin as [Hk _].
          by constructor.
        - rewrite -app_assoc in Hasc. by apply ascending_app in Hasc as (_ & ? & _). }
      destruct (insert_asc cmp dom ORD k _ [] X Hd Ha) as [Hpr Hins]. cbn [app] in Hpr, Hins.
      assert (dom k) as Hdk by (by apply Forall_cons in Hd as [? _]).
      iApply wp_bind. iApply (wp_kvPut cb dom ORD _ _ _ km _ with "HM"); [done|exact Him|done|done|].
      iIntros (km' Hkm') "HM". rewrite Hins in Hkm'.
      iApply wp_bind. iApply wp_logicOk.
      rewrite app_length fmap_length.
      iApply (IH A ((k, VNode (gid v)) :: X) with "HR HN HM Hk"); [cbn in Hf |- *; lia|done|done|done|done|done|done|done| |].
      { by rewrite -app_assoc in Hasc. }
      iIntros (k0 c0 B' kn2 km2 sn sm (Hn2 & HB' & Hm2)) "HR HN HM Hk".
      assert (iskv cb dom A kn2 ∧ (b :: B) ++ [(k, v)] = (k0, c0) :: B' ++ [(k, v)] ∧
        iskv cb dom ((bel <$> (B' ++ [(k, v)])) ++ X) km2) as HX.
      { split_and!; [done| |]; [by rewrite HB'|]. by rewrite fmap_app -app_assoc. }
      iApply ("H" $! k0 c0 (B' ++ [(k, v)]) kn2 km2 sn sm HX with "HR HN HM [Hk Hv]").
      rewrite big_sepL_app. iFrame. cbn. by iFrame.
  Qed.


  (** ** States during a split *)
  Definition isdirty g : Prop := match g with GL _ Dirty _ | GI _ Dirty _ _ => True | _ => False end.
  Definition isnew g : Prop := match g with GL _ New _ | GI _ New _ _ => True | _ => False end.
  Definition mkdirty g : gt := match g with GL n _ kvs => GL n Dirty kvs | GI n _ ks cs => GI n Dirty ks cs | GD n d => GD n d end.
  Definition alldirty C : Prop := Forall (λ f, f_st f = Dirty) C.
  Lemma mkdirty_strip g : strip (mkdirty g) = strip g.
  Proof. by destruct g. Qed.
  Lemma mkdirty_gid g : gid (mkdirty g) = gid g.
  Proof. by destruct g. Qed.
  Lemma mkdirty_info g : isnew g → ginfo (mkdirty g) = ginfo g.
  Proof. by destruct g as [|n []|n []]. Qed.
  Lemma rep_root h par ir g : isdirty g ∨ isnew g → rep h par ir g ⊢ ∃ r, isN (gid g) r ∗ <affine> ⌜b_parent r = par ∧ b_root r = ir⌝ ∗
    ∀ par' ir', isN (gid g) (set_parent par' (set_root ir' r)) -∗ rep h par' ir' g.
  Proof.
    intros Hd. destruct g as [n d|n st kvs|n st ks cs].
    - by destruct Hd.
    - destruct h; [|iIntros "[]"]. cbn [Rep.rep]. iIntros "(%kv & %left & %ps & %Hkv & HN & HT & Hb)".
      iExists _. iFrame "HN". iSplit; [done|].
      iIntros (par' ir') "HN". iExists kv, left, ps. iFrame. iSplit; [done|]. by destruct st, Hd.
    - destruct h; [iIntros "[]"|]. rewrite !rep_GI. iIntros "[(%kv & %b & (%Hkv & %Hlen & %Hb) & HN & HT & Hp & Hb) Hr]".
      iExists _. iFrame "HN". iSplit; [done|].
      iIntros (par' ir') "HN". rewrite rep_GI. iFrame "Hr". iExists kv, b. iFrame. iSplit; [done|]. by destruct st, Hd.
  Qed.
  Lemma rep_new io root S h par ir g Q E : isnew g →
    isTR root S -∗ rep h par ir g -∗ (∀ S' (_ : S ⊆ S'), isTR root S' -∗ rep h par ir (mkdirty g) -∗ Q tt) -∗
    wp io (initNodeAsEvicted t (gid g) ;; markNodeDirty t (gid g)) Q E.
  Proof using WF MN.
    iIntros (Hn) "HT Hr H". iApply wp_bind. destruct g as [|n [] kvs|n [] ks cs]; try done; cbn [gid mkdirty].
    - destruct h; [|iDestruct "Hr" as "[]"]. cbn [Rep.rep]. iDestruct "Hr" as (kv left ps Hkv) "(HN & Ht & Hb)".
      iDestruct "HT" as "[HR HS]". cbn [sttag]. replace (tg ca noLRU) with noLRU by by destruct ca.
      iApply (wp_initNodeAsEvicted with "HR Ht"). iIntros "HR Ht".
      iApply (lnode_dirty cb dom mn t ca _ _ _ _ _ _ New with "[$HR $HS] [HN Ht Hb]").
      { iExists kv, left, ps. cbn [sttag]. replace (tg ca noLRU) with noLRU by by destruct ca. iFrame. done. }
      iIntros (S' [HS' _]) "HT Hr". iApply ("H" $! S' HS' with "HT Hr").
    - destruct h; [iDestruct "Hr" as "[]"|]. rewrite !rep_GI. iDestruct "Hr" as "[(%kv & %b & %Hkv & HN & Ht & Hp & Hb) Hk]".
      iDestruct "HT" as "[HR HS]". cbn [sttag]. replace (tg ca noLRU) with noLRU by by destruct ca.
      iApply (wp_initNodeAsEvicted with "HR Ht"). iIntros "HR Ht".
      iApply (inode_dirty cb dom mn t ca _ _ _ _ _ _ New with "[$HR $HS] [HN Ht Hb Hp]").
      { iExists kv, b. cbn [sttag]. replace (tg ca noLRU) with noLRU by by destruct ca. iFrame. done. }
      iIntros (S' [HS' _]) "HT Hr". iApply ("H" $! S' HS' with "HT"). rewrite rep_GI. iFrame.
  Qed.
  Lemma rep_len h par ir n st ks cs : rep h par ir (GI n st ks cs) ⊢ ⌜length cs = Datatypes.S (length ks)⌝.
  Proof.
    destruct h; [iIntros "[]"|]. rewrite rep_GI. iIntros "[H _]". iDestruct (inode_len with "H") as %H.
    iPureIntro. by rewrite fmap_length in H.
  Qed.

  (** ** What a split leaves behind *)
  Record splitok (b : nat) (T : list (tok K V)) (root : nid) (S S' : list loc) h (D : dctx K V) gn gm : Prop := SplitOk {
    sp_S : S ⊆ S';
    sp_id : gid (plug2 D gn gm) = root;
    sp_lens : lensD D;
    sp_pend : pendD D = [];
    sp_wf : wfo mn (rlow (h + dlen D)) (h + dlen D) (strip (plug2 D gn gm));
    sp_toks : toks (strip (plug2 D gn gm)) = T;
    sp_len : (dlen D ≤ b)%nat;
    sp_loc : gloc (plug2 D gn gm) = None }.

  Definition insSpec (io : bool) (fuel0 fuel : nat) C : Prop := ∀ root S h p ka kb sk ls gn gm rs sz o Q E,
    length ka = length ls → length kb = length rs → wfC mn (Datatypes.S h) C → alldirty C → pendC C = [] →
    pendl ls = [] → pendl rs = [] →
    Forall (wfo mn mn h) (strip <$> (ls ++ gn :: gm :: rs)) →
    (low mn C (Datatypes.S h) ≤ length ka + length kb ≤ 2 * mn)%nat →
    good (cpre C ++ inter (ka ++ sk :: kb) (ltoks (ls ++ gn :: gm :: rs)) ++ cpost C) →
    top C p = root →
    isTR root S -∗ inodeU p (hpar C) (isnil C) Dirty (ka ++ kb) (gid <$> (ls ++ gn :: rs)) -∗
    reps h p (ls ++ gn :: rs) -∗ rep h (Some p) false gm -∗ (∃ x, isP (gid gm) x) -∗ ctx (Datatypes.S h) C (Info p sz o) -∗
    ((∀ (_ : (length ka + length kb < 2 * mn)%nat),
        isTR root S -∗ inodeU p (hpar C) (isnil C) Dirty (ka ++ sk :: kb) (gid <$> (ls ++ gn :: gm :: rs)) -∗
        reps h p (ls ++ gn :: gm :: rs) -∗ ctx (Datatypes.S h) C (Info p sz o) -∗ Q tt) ∧
     (∀ root' S' D (_ : splitok (length C + 2) (cpre C ++ inter (ka ++ sk :: kb) (ltoks (ls ++ gn :: gm :: rs)) ++ cpost C)
                          root' S S' h D gn gm),
        isTR root' S' -∗ whole (h + dlen D) (plug2 D gn gm) -∗ Q tt)) -∗
    wp io (insertHere cb fuel0 fuel t p sk (VNode (gid gm))) Q E.

  (** insertHere after the split of [n] into [n] and [m] *)
  Definition splitTail (fuel0 fuel : nat) n (m : nid) (sk : K) (rt : bool) (par : option nid) : M unit :=
    (if rt then
       modN n (set_root false) ;;
       let* rn := getN n in
       let* rm := getN m in
       let* p := newNode (freshNode t (b_items rn + b_items rm) true false None (Some n)) in
       modT t (λ T, Tree (t_min T) (t_max T) (Some p) (t_stale T) (t_cache T)) ;;
       modN n (set_parent (Some p)) ;;
       modN m (set_parent (Some p)) ;;
       kvPut_ cb p sk (VNode m) ;;
       initNodeAsEvicted t m ;;
       markNodeDirty t m ;;
       initNodeAsEvicted t p ;;
       markNodeDirty t p
     else
       let* p := deref par in
       insertHere cb fuel0 fuel t p sk (VNode m) ;;
       initNodeAsEvicted t m ;;
       markNodeDirty t m) ;;
    let* r := getN n in
    let* p := deref (b_parent r) in
    rearrangeToRoot fuel0 t p.

  Lemma top_fill C g n : gid g = n → gid (fill C g) = top C n.
  Proof. intros <-. apply gid_fill. Qed.
  Lemma alldirty_C C : alldirty C → dirtyC C = C.
  Proof.
    induction 1 as [|f C Hf H IH]; [done|]. unfold dirtyC in *. cbn. rewrite IH. f_equal. destruct f; cbn in *. by subst.
  Qed.
  Lemma inode_Ug n par ir st ks (cs : list gt) : inode n par ir st ks (ginfo <$> cs) ⊢ inodeU n par ir st ks (gid <$> cs).
  Proof. rewrite inode_U -list_fmap_compose. done. Qed.

  Lemma splitTail_spec io fuel0 fuel C root S h gx gy sk sz o Q Er :
    (∀ f C', C = f :: C' → insSpec io fuel0 fuel C') → (length C < fuel0)%nat →
    isdirty gx → isnew gy → wfC mn h C → alldirty C → pendC C = [] →
    wfo mn mn h (strip gx) → wfo mn mn h (strip gy) →
    good (cpre C ++ (toks (strip gx) ++ TS sk :: toks (strip gy)) ++ cpost C) →
    top C (gid gx) = root →
    isTR root S -∗ rep h (hpar C) (isnil C) gx -∗ rep h (hpar C) false gy -∗ (∃ x, isP (gid gy) x) -∗
    ctx h C (Info (gid gx) sz o) -∗
    (∀ root' S' D (_ : splitok (Datatypes.S (length C)) (cpre C ++ (toks (strip gx) ++ TS sk :: toks (strip gy)) ++ cpost C)
                         root' S S' h D gx (mkdirty gy)),
       isTR root' S' -∗ whole (h + dlen D) (plug2 D gx (mkdirty gy)) -∗ Q tt) -∗
    wp io (splitTail fuel0 fuel (gid gx) (gid gy) sk (isnil C) (hpar C)) Q Er.
  Proof using WF MN.
    intros IH Hf Hgx Hgy HwC HdC HpC Hwx Hwy Hgood Htop.
    destruct C as [|f C]; cbn [isnil splitTail hpar head fmap option_fmap option_map].
    - (* a new root *)
      iIntros "[HR HS] Hx Hy [%px Hpy] [%py Hpx] H". cbn [i_id] in *.
      iDestruct (rep_root with "Hx") as (rx) "(HNx & (%Hx1 & %Hx2) & Hx)"; [by left|].
      iDestruct (rep_root with "Hy") as (ry) "(HNy & (%Hy1 & %Hy2) & Hy)"; [by right|].
      iApply wp_bind.
      iApply wp_bind. iApply (wp_modN with "HNx"). iIntros "HNx".
      iApply wp_bind. iApply (wp_getN with "HNx"). iIntros "HNx".
      iApply wp_bind. iApply (wp_getN with "HNy"). iIntros "HNy".
      iApply wp_bind. iApply wp_newNode. iIntros (p) "HNp HPp HTp".
      iApply wp_bind. iApply (wp_modT with "HR"). iIntros "HR".
      iApply wp_bind. iApply (wp_modN with "HNx"). iIntros "HNx".
      iApply wp_bind. iApply (wp_modN with "HNy"). iIntros "HNy".
      assert (dom sk) as Hdk.
      { apply good_app in Hgood as (_ & Hgood & _). apply good_app in Hgood as (Hgood & _).
        apply good_app in Hgood as (_ & [_ Hgood] & _). by apply Forall_cons in Hgood as [? _]. }
      iApply wp_bind. iApply (wp_kvPut_ cb dom ORD _ _ _ E [] with "HNp"); [done|apply iskv_E|done|done|].
      iIntros (kp Hkp) "HNp".
      iSpecialize ("Hx" $! (Some p) false with "HNx").
      iSpecialize ("Hy" $! (Some p) false with "[HNy]").
      { replace (set_root false ry) with ry; [done|]. rewrite -Hy2. by destruct ry. }
      iApply (wp_bind_assoc _ (initNodeAsEvicted t (gid gy)) (λ _, markNodeDirty t (gid gy))). iApply wp_bind.
      iApply (rep_new _ p S with "[HR HS] Hy"); [done|iFrame|].
      iIntros (S1 HS1) "[HR HS] Hy".
      iApply wp_bind. iApply (wp_initNodeAsEvicted with "HR HTp"). iIntros "HR HTp".
      iApply (wp_dirty mn t ca io _ _ _ _ noLRU with "[$HR $HS] HNp [HTp] []").
      { by destruct ca. } { iApply held_no. }
      iIntros (S2 [HS2 _]) "HT HNp HTp".
      iDestruct (rep_root with "Hx") as (rx') "(HNx & (%Hx1' & %Hx2') & Hx)"; [by left|].
      iApply wp_bind. iApply (wp_getN with "HNx"). iIntros "HNx".
      iSpecialize ("Hx" $! (Some p) false with "[HNx]").
      { replace (set_parent (Some p) (set_root false rx')) with rx'; [done|]. rewrite -Hx1' -Hx2'. by destruct rx'. }
      rewrite Hx1'. iApply wp_bind. iApply (wp_deref _ _ p); [done|].
      iApply (rearrUp cb dom mn t ca io [] fuel0 p S2 h p Dirty [sk] [gx; mkdirty gy] 0 None with "HT [HNp HTp Hpx Hpy] [Hx Hy] [HPp]").
      { cbn in Hf |- *. lia. } { constructor. }
      { iExists kp, _, None. iFrame "HTp HNp". iSplit; [iPureIntro; split; [|done]|].
        - rewrite /kels /=. rewrite mkdirty_gid. exact Hkp.
        - cbn. rewrite mkdirty_gid. iSplitL; [|iApply held_no]. iSplitL "Hpx"; [by iExists _|]. iSplitL; [by iExists _|done]. }
      { cbn. iFrame. } { cbn. by iExists _. }
      iIntros (S3 HS3) "HT Hw".
      cbn [length dirtyC fmap list_fmap fill]. 
      assert (splitok 1 (cpre [] ++ (toks (strip gx) ++ TS sk :: toks (strip gy)) ++ cpost []) p S S3 h
        (DH (Frame p Dirty [] [] [] []) sk []) gx (mkdirty gy)) as HX.
      { split; cbn; try done.
        - by do 2 (etrans; [done|]).
        - split; [done|constructor].
        - replace (h + 1)%nat with (Datatypes.S h) by lia. cbn. rewrite mkdirty_strip. split_and!; [done|lia|lia|]. by repeat constructor.
        - rewrite mkdirty_strip !app_nil_r. done. }
      iApply ("H" $! p S3 _ HX with "HT"). cbn. rewrite Nat.add_0_r. replace (h + 1)%nat with (Datatypes.S h) by lia. done.
    - (* insertion into the parent *)
      iIntros "HT Hx Hy Hpy (Hf & Hl & Hr & Hc) H". cbn [i_id] in *.
      cbn [wfC] in HwC. destruct HwC as (L1 & L2 & W1 & W2 & W3 & HwC).
      apply Forall_cons in HdC as [Hfd HdC].
      cbn [pendC] in HpC. apply app_eq_nil in HpC as (_ & (Hp1 & (Hp2 & HpC)%app_eq_nil)%app_eq_nil).
      assert (∀ gy', strip gy' = strip gy → cpre (f :: C) ++ (toks (strip gx) ++ TS sk :: toks (strip gy)) ++ cpost (f :: C) =
        cpre C ++ inter (f_ka f ++ sk :: f_kb f) (ltoks (f_ls f ++ gx :: gy' :: f_rs f)) ++ cpost C) as Htk.
      { intros gy' Hgy'. unfold ltoks. rewrite fmap_app !fmap_cons inter_mid ?fmap_length //.
        change (tpost (sk :: f_kb f) ((toks ∘ strip) gy' :: (toks ∘ strip <$> f_rs f)))
          with (TS sk :: toks (strip gy') ++ tpost (f_kb f) (ltoks (f_rs f))).
        rewrite Hgy'. cbn [cpre cpost]. rewrite -!app_assoc. cbn. rewrite -app_assoc. done. }
      iApply wp_bind. iApply wp_bind. iApply (wp_deref _ _ (f_n f)); [done|]. iApply wp_bind.
      iApply (IH f C eq_refl root S h (f_n f) (f_ka f) (f_kb f) sk (f_ls f) gx gy (f_rs f) with "HT [Hf] [Hx Hl Hr] Hy Hpy Hc"); try done.
      { rewrite fmap_app !fmap_cons. apply Forall_app. split; [done|]. by repeat constructor. }
      { by rewrite -(Htk gy). }
      { rewrite inode_U Hfd /chs_of !fmap_app !fmap_cons -!list_fmap_compose. done. }
      { unfold Rep.reps. rewrite big_sepL_app big_sepL_cons. iFrame. }
      iSplit.
      + iIntros (Hlt) "HT Hf Hk Hc". unfold Rep.reps. rewrite big_sepL_app !big_sepL_cons. iDestruct "Hk" as "(Hl & Hx & Hy & Hr)".
        iApply (rep_new with "HT Hy"); [done|]. iIntros (S1 HS1) "HT Hy".
        iDestruct (rep_get with "Hx") as (rx) "(HNx & %Hrx & Hx)".
        iApply wp_bind. iApply (wp_getN with "HNx"). iIntros "HNx". iSpecialize ("Hx" with "HNx").
        iApply wp_bind. iApply (wp_deref _ _ (f_n f)); [apply Hrx|].
        iApply (rearrUp cb dom mn t ca io C fuel0 root S1 h (f_n f) Dirty (f_ka f ++ sk :: f_kb f) (f_ls f ++ gx :: mkdirty gy :: f_rs f)
          with "HT [Hf] [Hl Hx Hy Hr] Hc").
        { cbn in Hf. lia. } { by eapply wfC_lens. }
        { rewrite !fmap_app !fmap_cons mkdirty_gid. done. }
        { unfold Rep.reps. rewrite big_sepL_app !big_sepL_cons. iFrame. }
        iIntros (S2 HS2) "HT Hw".
        assert (splitok (Datatypes.S (length (f :: C))) (cpre (f :: C) ++ (toks (strip gx) ++ TS sk :: toks (strip gy)) ++ cpost (f :: C))
          root S S2 h (DH f sk C) gx (mkdirty gy)) as HX.
        { split; cbn [plug2 dlen lensD pendD].
          - by etrans.
          - by rewrite (top_fill C _ (f_n f)).
          - split; [done|]. by eapply wfC_lens.
          - rewrite Hp1 Hp2 HpC Hfd. done.
          - rewrite -Nat.add_succ_comm. apply wfo_fill; [done|]. cbn [strip wfo]. rewrite fmap_length !app_length /=.
            split_and!; [lia|lia|lia|]. rewrite fmap_app !fmap_cons mkdirty_strip. apply Forall_app. split; [done|]. by repeat constructor.
          - rewrite (Htk (mkdirty gy) (mkdirty_strip gy)). rewrite toks_fill; [|by eapply wfC_lens]. cbn [strip toks]. unfold ltoks.
            by rewrite -list_fmap_compose.
          - cbn. lia.
          - rewrite -(alldirty_C C) //. apply gloc_dirty. right. cbn. by rewrite Hfd. }
        iApply ("H" $! root S2 (DH f sk C) HX with "HT"). cbn [plug2 dlen]. rewrite -Nat.add_succ_comm (alldirty_C C) // Hfd. done.
      + iIntros (root' S' D Hsp) "HT Hw". destruct Hsp as [Q1 Q2 Q3 Q4 Q5 Q6 Q7 Q8].
        rewrite plug_R -(dR_len D gx). iDestruct (fill_ctx with "Hw") as "[Hc Hy]"; [by apply dR_lens|].
        iAssert (rep h (hpar (dR D gx)) false gy) with "[Hy]" as "Hy".
        { by destruct D. }
        iApply (rep_new with "HT Hy"); [done|]. iIntros (S1 HS1) "HT Hy".
        iAssert (whole (h + length (dR D gx)) (fill (dR D gx) (mkdirty gy))) with "[Hc Hy]" as "Hw".
        { iApply fill_ctx; [by apply dR_lens|]. rewrite mkdirty_info //. iFrame. by destruct D. }
        rewrite -plug_R dR_len plug_L -(dL_len D (mkdirty gy)).
        destruct (dL D (mkdirty gy)) as [|fx Cx] eqn:HD; [by destruct D|].
        assert (lens (fx :: Cx)) as Hlens. { rewrite -HD. by apply dL_lens. }
        assert (length (fx :: Cx) = dlen D) as HlD. { by rewrite -HD dL_len. }
        pose proof Hlens as Hlens'. apply Forall_cons in Hlens' as [[L3 L4] Hlens'].
        cbn [fill length]. rewrite -Nat.add_succ_comm.
        iDestruct (fill_ctx with "Hw") as "[Hc Hx]"; [done|]. unfold zip1. rewrite rep_GI. iDestruct "Hx" as "[Hn Hk]".
        iDestruct (big_sepL_lookup_acc _ _ (length (f_ls fx)) gx with "Hk") as "[Hx Hk]"; [by rewrite list_lookup_middle|].
        iDestruct (rep_get with "Hx") as (rx) "(HNx & %Hrx & Hx)".
        iApply wp_bind. iApply (wp_getN with "HNx"). iIntros "HNx". iSpecialize ("Hx" with "HNx"). iSpecialize ("Hk" with "Hx").
        iApply wp_bind. iApply (wp_deref _ _ (f_n fx)); [apply Hrx|].
        iApply (rearrUp cb dom mn t ca io Cx fuel0 root' S1 h (f_n fx) (f_st fx) with "HT [Hn] Hk Hc").
        { cbn in Hf, HlD. lia. } { done. } { by rewrite inode_Ug. }
        iIntros (S2 HS2) "HT Hw".
        assert (fill (dirtyC Cx) (GI (f_n fx) Dirty (f_ka fx ++ f_kb fx) (f_ls fx ++ gx :: f_rs fx)) = plug2 (dirtyL D) gx (mkdirty gy)) as Heq.
        { rewrite -plug_dirty HD. done. }
        rewrite Heq. replace (Datatypes.S h + length Cx)%nat with (h + dlen (dirtyL D))%nat by (rewrite dirtyL_len; cbn in HlD; lia).
        assert (strip (plug2 (dirtyL D) gx (mkdirty gy)) = strip (plug2 D gx gy)) as Hst.
        { rewrite strip_dirtyL. apply strip_plug; [done|]. apply mkdirty_strip. }
        assert (splitok (Datatypes.S (length (f :: C))) (cpre (f :: C) ++ (toks (strip gx) ++ TS sk :: toks (strip gy)) ++ cpost (f :: C))
          root' S S2 h (dirtyL D) gx (mkdirty gy)) as HX.
        { split.
          - by do 2 (etrans; [done|]).
          - rewrite -Q2. apply gid_dirtyL.
          - by apply dirtyL_lens.
          - by apply dirtyL_pend.
          - by rewrite Hst dirtyL_len.
          - by rewrite Hst Q6 -Htk.
          - rewrite dirtyL_len. cbn in Q7 |- *. lia.
          - apply gloc_dirtyL. }
        iApply ("H" $! root' S2 (dirtyL D) HX with "HT Hw").
  Qed.

  Lemma tail_mid {A} (l : list A) x r : tail (l ++ x :: r) = tail (l ++ [x]) ++ r.
  Proof. by destruct l; cbn; rewrite -?app_assoc. Qed.
  Lemma tail_app {A} (l r : list A) : l ≠ [] → tail (l ++ r) = tail l ++ r.
  Proof. by destruct l. Qed.
  Lemma tail_len {A} (l : list A) : length (tail l) = (length l - 1)%nat.
  Proof. destruct l; cbn; lia. Qed.
  Lemma kvals_app (a b : list nid) : kvals (V:=V) (a ++ b) = kvals a ++ kvals b.
  Proof. apply fmap_app. Qed.

  Lemma bel_zip ks (cs : list gt) : bel <$> zip ks cs = zip ks (kvals (gid <$> cs)).
  Proof. revert cs. induction ks as [|k ks IH]; intros [|c cs]; [done..|]. cbn. by rewrite IH. Qed.
  Lemma insertInner io fuel0 : ∀ fuel C, (length C < fuel)%nat → (length C < fuel0)%nat → insSpec io fuel0 fuel C.
  Proof using WF MN.
    induction fuel as [|fuel IHf]; intros C Hf Hf0; [lia|].
    intros root S h p ka kb sk ls gn gm rs sz o Q Er La Lb HwC HdC HpC Hp1 Hp2 Hwf Hlen Hgood Htop.
    iIntros "HT (%kv & %s & %ps & (%Hkv & %Hl) & HN & Ht & Hps & Hh) Hk Hm HPm Hc H".
    cbn [insertHere].
    assert (ksorted cmp dom (ka ++ sk :: kb)) as Hks.
    { apply good_app in Hgood as (_ & Hgood & _). apply good_app in Hgood as (Hgood & _).
      apply (good_seps cmp dom domV ORD _ _) with (2 := Hgood). unfold ltoks. rewrite fmap_length !app_length /=. lia. }
    set ids1 := gid <$> (ls ++ [gn]).
    assert (kels (V:=V) (ka ++ kb) (gid <$> (ls ++ gn :: rs)) = zip (ka ++ kb) (kvals (tail ids1) ++ kvals (gid <$> rs))) as He1.
    { unfold kels, ids1. rewrite !fmap_app fmap_cons tail_mid kvals_app. done. }
    assert (kels (V:=V) (ka ++ sk :: kb) (gid <$> (ls ++ gn :: gm :: rs)) = zip (ka ++ sk :: kb) (kvals (tail ids1) ++ VNode (gid gm) :: kvals (gid <$> rs))) as He2.
    { unfold kels, ids1. rewrite !fmap_app !fmap_cons tail_mid kvals_app. done. }
    destruct (insert_sep cmp dom ORD sk (VNode (gid gm) : bval) ka kb (kvals (tail ids1)) (kvals (gid <$> rs))) as (Hdk & Hpr & Hins).
    { unfold kvals, ids1. rewrite fmap_length tail_len fmap_length app_length /=. lia. } { done. }
    rewrite -He1 in Hpr, Hins. rewrite -He2 in Hins.
    iApply wp_bind. iApply (wp_kvPut_ cb dom ORD _ _ _ kv _ with "HN"); [done|done|done|done|].
    iIntros (kv1 Hkv1) "HN". rewrite Hins in Hkv1.
    iApply wp_bind. iApply (wp_getN with "HN"). iIntros "HN".
    cbn [Rep.nrec set_kv b_leaf].
    iApply wp_bind. iApply wp_ret.
    iApply wp_bind. iApply (wp_kvLen cb dom _ _ _ kv1 _ with "HN"); [done|done|]. iIntros "HN".
    assert (length (kels (V:=V) (ka ++ sk :: kb) (gid <$> (ls ++ gn :: gm :: rs))) = Datatypes.S (length ka + length kb)) as Hln.
    { unfold kels, kvals. rewrite zip_with_length fmap_length tail_len fmap_length !app_length /=. lia. }
    rewrite Hln. iDestruct "HT" as "[HR HS]".
    iApply wp_bind. iApply (wp_getT with "HR"). iIntros "HR". cbn [trec t_max].
    iAssert ([∗ list] c ∈ (gid <$> (ls ++ gn :: gm :: rs)), ∃ x, isP (K:=K) (V:=V) c x)%I with "[Hps HPm]" as "Hps".
    { rewrite !fmap_app !fmap_cons !big_sepL_app !big_sepL_cons. iDestruct "Hps" as "($ & $ & $)". done. }
    iAssert (reps h p (ls ++ gn :: gm :: rs)) with "[Hk Hm]" as "Hk".
    { unfold Rep.reps. rewrite !big_sepL_app !big_sepL_cons. iDestruct "Hk" as "($ & $ & $)". done. }
    destruct (Z.leb_spec (Z.of_nat (Datatypes.S (length ka + length kb))) (2 * Z.of_nat mn)).
    { (* fits *)
      iApply wp_ret. iDestruct "H" as "[H _]". assert (length ka + length kb < 2 * mn)%nat as HX by lia.
      iApply ("H" $! HX with "[$HR $HS] [HN Ht Hps Hh] Hk Hc").
      iExists kv1, s, ps. iFrame. iSplit; [iPureIntro; split; [done|]|].
      - rewrite fmap_length !app_length /=. lia.
      - destruct ls; done. }
    iDestruct "H" as "[_ H]".
    remember (cpre C ++ inter (ka ++ sk :: kb) (ltoks (ls ++ gn :: gm :: rs)) ++ cpost C) as T0 eqn:HT0.
    (* split *)
    set ks' := ka ++ sk :: kb. set cs' := ls ++ gn :: gm :: rs.
    assert (length ks' = 2 * mn + 1 ∧ length cs' = 2 * mn + 2)%nat as [Hlk Hlc].
    { unfold ks', cs'. rewrite !app_length /=. lia. }
    assert (∃ ks1 sep ks2 cs1 c2 cs2, ks' = ks1 ++ sep :: ks2 ∧ cs' = cs1 ++ c2 :: cs2 ∧ length ks1 = mn ∧ length ks2 = mn ∧
      length cs1 = Datatypes.S mn ∧ length cs2 = mn) as (ks1 & sep & ks2 & cs1 & c2 & cs2 & Hk' & Hc' & L1 & L2 & L3 & L4).
    { destruct (lookup_lt_is_Some_2 ks' mn) as [sep Hsep]; [lia|]. destruct (lookup_lt_is_Some_2 cs' (Datatypes.S mn)) as [c2 Hc2]; [lia|].
      exists (take mn ks'), sep, (drop (Datatypes.S mn) ks'), (take (Datatypes.S mn) cs'), c2, (drop (Datatypes.S (Datatypes.S mn)) cs').
      rewrite !take_drop_middle // !take_length !drop_length. split_and!; [done|done|lia..]. }
    iApply wp_bind. iApply (wp_getN with "HN"). iIntros "HN".
    iApply wp_bind. iApply wp_newNode. iIntros (m) "HM HPM HTM".
    cbn [b_leaf b_parent].
    assert (kels (V:=V) ks' (gid <$> cs') = kels ks1 (gid <$> cs1) ++ (bel <$> zip (sep :: ks2) (c2 :: cs2))) as Hels.
    { rewrite Hk' Hc' /kels fmap_app tail_app; [|by destruct cs1]. rewrite kvals_app zip_with_app; [|rewrite /kvals fmap_length tail_len fmap_length; lia].
      f_equal. by rewrite bel_zip. }
    fold ks' cs' in Hkv1. rewrite Hels in Hkv1.
    assert (ascending cmp ((bel <$> zip (sep :: ks2) (c2 :: cs2)) ++ [])) as Hasc.
    { rewrite app_nil_r. apply iskv_asc in Hkv1. by apply ascending_app in Hkv1 as (_ & ? & _). }
    unfold Rep.reps. fold cs'. rewrite Hc' big_sepL_app fmap_app big_sepL_app. iDestruct "Hk" as "[Hk1 Hk2]". iDestruct "Hps" as "[Hps1 Hps2]".
    replace (Z.of_nat (Datatypes.S (length ka + length kb))) with (Z.of_nat (length (kels (V:=V) ks1 (gid <$> cs1)) + length (zip (sep :: ks2) (c2 :: cs2)))).
    2: { rewrite /kels /kvals !zip_with_length fmap_length tail_len fmap_length L1 L3 /= L2 L4. unfold ks' in Hlk. rewrite app_length /= in Hlk. lia. }
    assert ((zip (sep :: ks2) (c2 :: cs2)).*2 = c2 :: cs2) as Hz2. { apply snd_zip. cbn. lia. }
    iApply wp_bind. iApply (splitInner io _ h p m (zip (sep :: ks2) (c2 :: cs2)) (kels ks1 (gid <$> cs1)) [] with "HR HN HM [Hk2]").
    { rewrite Nat2Z.id. lia. } { done. }
    { cbn [trec t_min]. rewrite /kels /kvals zip_with_length fmap_length tail_len fmap_length L1 L3. lia. }
    { done. } { done. } { done. } { done. } { apply iskv_E. } { done. } { by rewrite Hz2. }
    iIntros (k0 c0 B' kn km sn sm (Hkn & HB & Hkm)) "HR HN HM Hk2". rewrite Hz2. cbn in HB. injection HB as <- <- <-. rewrite app_nil_r in Hkm.
    iApply wp_bind. iApply wp_bind.
    iApply (arrange_rep cb dom mn t ca io h p (hpar C) (isnil C) Dirty ks1 cs1 with "[HN Ht Hps1 Hh] Hk1"); [done| |].
    { iExists kn, sn, ps. iFrame. iSplit; [iPureIntro; split; [done|]|].
      - rewrite fmap_length. lia.
      - replace (head (gid <$> cs1)) with (head (gid <$> (ls ++ gn :: rs))); [done|].
        transitivity (head (gid <$> cs')); [by destruct ls|]. rewrite Hc'. by destruct cs1. }
    iIntros "Hn Hk1".
    iApply (arrange_rep cb dom mn t ca io h m (hpar C) false New ks2 (c2 :: cs2) with "[HM HTM Hps2] Hk2"); [done| |].
    { iExists km, sm, None. cbn [sttag]. replace (tg ca noLRU) with noLRU by by destruct ca. iFrame "HTM HM". iSplit; [iPureIntro; split|].
      - unfold kels. cbn [fmap list_fmap tail]. replace (zip ks2 (kvals (gid <$> cs2))) with (bel <$> zip ks2 cs2); [done|].
        by rewrite bel_zip.
      - cbn. rewrite fmap_length. lia.
      - iFrame. iApply held_no. }
    iIntros "Hm Hk2".
    set gx := GI p Dirty ks1 cs1. set gy := GI m New ks2 (c2 :: cs2).
    assert (inter (ka ++ sk :: kb) (ltoks (ls ++ gn :: gm :: rs)) = toks (strip gx) ++ TS sep :: toks (strip gy)) as Htk.
    { fold ks' cs'. rewrite Hk' Hc'. unfold gx, gy. cbn [strip toks]. unfold ltoks. rewrite -!list_fmap_compose fmap_app.
      destruct cs1 as [|c1 cs1]; [done|]. cbn [fmap list_fmap app inter]. rewrite -!app_assoc. f_equal.
      rewrite tpost_app; [|rewrite fmap_length; cbn in L3; lia]. f_equal. }
    assert (Forall (wfo mn mn h) (strip <$> cs1) ∧ Forall (wfo mn mn h) (strip <$> c2 :: cs2)) as [Hw1 Hw2].
    { fold cs' in Hwf. rewrite Hc' fmap_app in Hwf. by apply Forall_app. }
    rewrite Htk in HT0. rewrite HT0 in Hgood.
    iApply (splitTail_spec io fuel0 fuel C root S (Datatypes.S h) gx gy sep sz o with "[$HR $HS] [Hn Hk1] [Hm Hk2] [HPM] [Hc]").
    { intros f C' ->. apply IHf; cbn in Hf, Hf0; lia. }
    { done. } { done. } { done. } { done. } { done. } { done. }
    { cbn. rewrite fmap_length. split_and!; [lia|lia|lia|done]. }
    { cbn. rewrite fmap_length. split_and!; [lia|lia|lia|done]. }
    { done. } { done. }
    { unfold gx. rewrite rep_GI. iFrame. } { unfold gy. rewrite rep_GI. iFrame. } { by iExists _. } { done. }
    iIntros (root' S' D [Q1 Q2 Q3 Q4 Q5 Q6 Q7 Q8]) "HT Hw".
    destruct (plug_cases D p m ks1 cs1 sep ks2 (c2 :: cs2) ka sk kb ls gn gm rs) as (D' & E1 & E2 & E3 & E4); try done.
    { lia. } { cbn. lia. }
    assert (splitok (length C + 2) T0 root' S S' h D' gn gm) as HX.
    { split; [done|by rewrite E1|done|done| | |rewrite E4; lia|by rewrite E1].
      - rewrite E1 E4 -Nat.add_succ_comm. done.
      - by rewrite E1 HT0. }
    iApply ("H" $! root' S' D' HX with "HT"). rewrite E1 E4 -Nat.add_succ_comm. done.
  Qed.

  (** ** At the leaf *)
  (** a complete tree between two calls *)
  Record treeok (root : nid) h g : Prop := TreeOk {
    tk_id : gid g = root;
    tk_wf : wfo mn (rlow h) h (strip g);
    tk_good : good (toks (strip g));
    tk_pend : pend g = [] }.
  Definition framesmall (b : nat) C : Prop := Forall (λ f, length (f_ls f) + length (f_rs f) < b)%nat C.
  Lemma cnt_frames C : ∀ g, framesmall (cnt (strip (fill C g))) C.
  Proof.
    induction C as [|f C IH]; intros g; [constructor|]. constructor; [|apply IH].
    cbn [fill]. pose proof (cnt_fill C (zip1 f g)) as H. 
    pose proof (cnt_kids (f_ka f ++ f_kb f) (strip <$> (f_ls f ++ g :: f_rs f))) as H2.
    change (cnt (strip (zip1 f g)) + length C ≤ cnt (strip (fill C (zip1 f g))))%nat in H.
    change (length (strip <$> f_ls f ++ g :: f_rs f) < cnt (strip (zip1 f g)))%nat in H2.
    rewrite fmap_length app_length in H2. cbn [length] in H2. lia.
  Qed.
  Lemma framesmall_dirty b C : framesmall b (dirtyC C) ↔ framesmall b C.
  Proof. unfold framesmall, dirtyC. by rewrite Forall_fmap. Qed.
  Lemma framesmall_le b b' C : (b ≤ b')%nat → framesmall b C → framesmall b' C.
  Proof. intros Hb H. eapply Forall_impl; [exact H|]. cbn. intros; lia. Qed.

  Lemma leafUpdate io fuel C root S n st sz kvs o Q Er : (length C < fuel)%nat → framesmall fuel C →
    Z.of_nat (length kvs) ≠ sz →
    isTR root S -∗ lnode' n (hpar C) (isnil C) st sz kvs -∗ ctx 0 C (Info n sz o) -∗
    (∀ S' (_ : S ⊆ S'), isTR root S' -∗ lnode n (hpar C) (isnil C) Dirty kvs -∗
       ctx 0 (dirtyC C) (Info n (Z.of_nat (length kvs)) None) -∗ Q tt) -∗
    wp io (updatePrefixSumTreeLeafToRoot fuel t n) Q Er.
  Proof using WF MN.
    iIntros (Hf Hfs Hne) "HT (%kv & %left & %ps & %Hkv & HN & Ht & Hb) Hc H". rewrite leafblk_held.
    iApply wp_bind. iApply (wp_getN with "HN"). iIntros "HN". cbn [Rep.nrec b_leaf].
    iApply wp_bind. iApply (wp_kvLen cb dom _ _ _ kv _ with "HN"); [done|done|]. iIntros "HN".
    unfold uels. rewrite fmap_length.
    change (b_items (nrec st sz (isnil C) true (hpar C) kv left ps)) with sz.
    destruct (Z.eqb_spec (Z.of_nat (length kvs) - sz) 0); [lia|].
    iApply (updateUp cb dom mn t ca io _ fuel C fuel with "HT HN Ht Hb Hc"); [done|done|done|done|].
    iIntros (S' HS') "HT HN Ht Hc".
    change (b_items (nrec st sz (isnil C) true (hpar C) kv left ps)) with sz. replace (sz + (Z.of_nat (length kvs) - sz)) with (Z.of_nat (length kvs)) by lia.
    iApply ("H" $! S' HS' with "HT [HN Ht] Hc"). iExists kv, left, ps. iFrame "Ht". iSplit; [done|].
    iSplitL; [iExact "HN"|iApply held_no].
  Qed.

  Lemma uels_app a b : uels (K:=K) (V:=V) (a ++ b) = uels a ++ uels b.
  Proof. apply fmap_app. Qed.
  Lemma uels_len (m : list (K * V)) : length (uels m) = length m.
  Proof. apply fmap_length. Qed.
  Lemma uels_insert k v (m : list (K * V)) : s_insert cmp k (VUser v) (uels m) = uels (s_insert cmp k v m).
  Proof.
    unfold s_insert. assert (rank cmp k (uels m) = rank cmp k m) as ->.
    { unfold rank, uels. clear. induction m as [|p m IH]; [done|]. rewrite fmap_cons !filter_cons. cbn [fst].
      destruct (decide (below cmp p.1 k = true)); cbn; by rewrite ?IH. }
    rewrite uels_app. unfold uels. by rewrite fmap_cons fmap_take fmap_drop.
  Qed.
  Lemma uels_present k (m : list (K * V)) : present cmp k (uels m) = present cmp k m.
  Proof. unfold present, uels. induction m as [|p m IH]; [done|]. cbn. by rewrite IH. Qed.

  Lemma insertLeaf io fuel fuel0 C root S n st kvs k v Q Er :
    (length C < fuel)%nat → (length C < fuel0)%nat → framesmall fuel0 C →
    wfC mn 0 C → wfo mn (low mn C 0) 0 (CL kvs) → pendC C = [] →
    good (cpre C ++ itoks kvs ++ cpost C) → dom k → domV v → present cmp k kvs = false →
    cutL cmp k (cpre C) → cutR cmp k (cpost C) → top C n = root →
    isTR root S -∗ rep 0 (hpar C) (isnil C) (GL n st kvs) -∗ ctx 0 C (ginfo (GL n st kvs)) -∗
    (∀ root' S' h' g' (_ : treeok root' h' g' ∧ S ⊆ S' ∧ gloc g' = None ∧
        items (strip g') = titems (cpre C) ++ s_insert cmp k v kvs ++ titems (cpost C)),
       isTR root' S' -∗ whole h' g' -∗ Q tt) -∗
    wp io (insertHere cb fuel0 fuel t n k (VUser v)) Q Er.
  Proof using WF MN.
    iIntros (Hf Hf0 Hfs HwC Hwf HpC Hgood Hdk Hdv Hpr HL HR Htop) "HT (%kv & %left & %ps & %Hkv & HN & Ht & Hb) Hc H".
    destruct fuel as [|fuel]; [lia|]. cbn [insertHere].
    rewrite leafblk_held.
    iApply wp_bind. iApply (wp_kvPut_ cb dom ORD _ _ _ kv _ with "HN"); [done|done|done|by rewrite uels_present|].
    iIntros (kv1 Hkv1) "HN". rewrite uels_insert in Hkv1.
    iApply wp_bind. iApply (wp_getN with "HN"). iIntros "HN". cbn [Rep.nrec set_kv b_leaf].
    iApply wp_bind.
    set kvs1 := s_insert cmp k v kvs.
    assert (length kvs1 = Datatypes.S (length kvs)) as Hl1.
    { unfold kvs1, s_insert. rewrite app_length /= take_length drop_length. lia. }
    iAssert (lnode' n (hpar C) (isnil C) (weak st) (Z.of_nat (length kvs)) kvs1) with "[HN Ht Hb]" as "Hn".
    { iExists kv1, left, ps. rewrite weak_tag nrec_weak. rewrite leafblk_nc; [|apply weak_notclean]. rewrite weak_loc. iFrame. done. }
    unfold ginfo, gsz. cbn [gid strip]. rewrite csz_CL.
    iApply (leafUpdate with "HT Hn Hc"); [done|done|lia|].
    iIntros (S1 HS1) "HT Hn Hc".
    assert (good (cpre C ++ itoks kvs1 ++ cpost C)) as Hg1. { by apply (good_insert cmp dom domV ORD). }
    iDestruct "Hn" as (kv2 left2 ps2 Hkv2) "(HN & Ht & Hb)".
    iApply wp_bind. iApply (wp_kvLen cb dom _ _ _ kv2 _ with "HN"); [done|done|]. iIntros "HN".
    unfold uels. rewrite fmap_length. fold (uels (K:=K) (V:=V)).
    iDestruct "HT" as "[HR HS]".
    iApply wp_bind. iApply (wp_getT with "HR"). iIntros "HR". cbn [trec t_max].
    destruct (Z.leb_spec (Z.of_nat (length kvs1)) (2 * Z.of_nat mn)).
    { iApply wp_ret.
      assert (lens (dirtyC C)) as Hlens. { apply dirtyC_lens. by eapply wfC_lens. }
      set g' := fill (dirtyC C) (GL n Dirty kvs1).
      assert (treeok root (length C) g' ∧ S ⊆ S1 ∧ gloc g' = None ∧
        items (strip g') = titems (cpre C) ++ s_insert cmp k v kvs ++ titems (cpost C)) as HX.
      { split_and!; [split| | |].
        - unfold g'. by rewrite gid_fill top_dirty.
        - unfold g'. rewrite -{1 2}(dirtyC_len C). apply (wfo_fill mn (dirtyC C) 0).
          + by apply dirtyC_wf. + rewrite dirtyC_low. cbn in Hwf |- *. lia.
        - unfold g'. rewrite toks_fill // dirtyC_pre dirtyC_post. done.
        - apply Permutation_nil. unfold g'. rewrite pend_fill dirtyC_pend //.
        - done.
        - apply gloc_dirty. by right.
        - unfold g'. rewrite items_fill // dirtyC_pre dirtyC_post. cbn [strip]. by rewrite items_CL. }
      iApply ("H" $! root S1 (length C) g' HX with "[$HR $HS]").
      unfold g'. rewrite -{1}(dirtyC_len C). iApply (fill_ctx cb dom mn t ca (dirtyC C) 0); [done|].
      unfold ginfo, gsz. cbn [gid gloc strip]. rewrite csz_CL dirtyC_hpar dirtyC_isnil. iFrame "Hc".
      iExists kv2, left2, ps2. iFrame. done. }
    (* split *)
    iApply wp_bind. iApply (wp_getN with "HN"). iIntros "HN".
    iApply wp_bind. iApply wp_newNode. iIntros (m) "HM HPM HTM".
    cbn [Rep.nrec b_leaf b_parent b_root].
    cbn in Hwf.
    assert (∃ A k0 v0 B, kvs1 = A ++ (k0, v0) :: B ∧ length A = mn ∧ length B = mn) as (A & k0 & v0 & B & HAB & LA & LB).
    { destruct (lookup_lt_is_Some_2 kvs1 mn) as [[k0 v0] Hk0]; [lia|]. exists (take mn kvs1), k0, v0, (drop (Datatypes.S mn) kvs1).
      rewrite take_drop_middle // take_length drop_length. split_and!; [done|lia|lia]. }
    rewrite HAB uels_app in Hkv2. rewrite HAB.
    replace (Z.of_nat (length (A ++ (k0, v0) :: B))) with (Z.of_nat (length (uels A) + length (uels ((k0, v0) :: B)))).
    2: { unfold uels. rewrite !fmap_length app_length. done. }
    iApply wp_bind. iApply (splitLeaf io _ n m (uels ((k0, v0) :: B)) (uels A) [] with "HR HN HM").
    { rewrite Nat2Z.id. lia. } { done. } { cbn [trec t_min]. unfold uels. rewrite fmap_length. by rewrite LA. } { done. } { done. } { done. } { done. } { apply iskv_E. }
    { rewrite app_nil_r. apply iskv_asc in Hkv2. by apply ascending_app in Hkv2 as (_ & ? & _). }
    iIntros (sk kn km (Hkn & Hkm & Hsk)) "HR HN HM". injection Hsk as <-. rewrite app_nil_r in Hkm.
    iApply wp_bind. iApply wp_ret.
    set gx := GL n Dirty A. set gy := GL m New ((k0, v0) :: B).
    assert (good (cpre C ++ (toks (strip gx) ++ TS k0 :: toks (strip gy)) ++ cpost C)) as Hg2.
    { unfold gx, gy. cbn [strip toks]. rewrite HAB itoks_app in Hg1. destruct A as [|[x w] A' _] using rev_ind; [cbn in LA; lia|].
      rewrite itoks_app in Hg1 |- *. cbn [itoks fmap list_fmap fst snd] in Hg1 |- *. rewrite -!app_assoc in Hg1 |- *. cbn [app] in Hg1 |- *.
      rewrite app_assoc in Hg1. rewrite app_assoc. by apply (good_sep cmp dom domV ORD) with (v := v0). }
    iEval (rewrite -(dirtyC_hpar C) -(dirtyC_isnil C)).
    iApply (splitTail_spec io fuel0 fuel (dirtyC C) root S1 0 gx gy k0 _ None with "[$HR $HS] [HN Ht Hb] [HM HTM] [HPM] Hc").
    { intros f C' HC. apply insertInner; apply (f_equal length) in HC; rewrite dirtyC_len in HC; cbn in HC; lia. }
    { by rewrite dirtyC_len. } { done. } { done. } { by apply dirtyC_wf. }
    { unfold alldirty, dirtyC. rewrite Forall_fmap. by apply Forall_true. } { by apply dirtyC_pend. }
    { cbn. lia. } { cbn. lia. } { by rewrite dirtyC_pre dirtyC_post. }
    { by rewrite top_dirty. }
    { rewrite dirtyC_hpar dirtyC_isnil. iExists kn, left2, ps2. iFrame "Ht". iSplit; [done|].
      unfold set_items, set_kv, nrec. cbn -[uels]. rewrite !uels_len.
      replace (Z.of_nat (length A + length ((k0, v0) :: B)) - Z.of_nat (length ((k0, v0) :: B))) with (Z.of_nat (length A)) by lia.
      iFrame "HN Hb". }
    { rewrite dirtyC_hpar. iExists km, None, None. cbn [sttag]. replace (tg ca noLRU) with noLRU by by destruct ca. iFrame "HTM". iSplit; [done|].
      unfold set_items, set_kv, nrec, freshNode. cbn -[uels]. rewrite !uels_len. iFrame "HM". iApply held_no. }
    { by iExists _. }
    iIntros (root' S' D Hsp) "HT Hw". destruct Hsp as [Q1 Q2 Q3 Q4 Q5 Q6 Q7 Q8].
    assert (treeok root' (0 + dlen D) (plug2 D gx (mkdirty gy)) ∧ S ⊆ S' ∧ gloc (plug2 D gx (mkdirty gy)) = None ∧
        items (strip (plug2 D gx (mkdirty gy))) = titems (cpre C) ++ s_insert cmp k v kvs ++ titems (cpost C)) as HX.
    { split_and!; [split| | |]; try done.
      - rewrite Q6. by rewrite dirtyC_pre dirtyC_post.
      - apply Permutation_nil. rewrite pend_plug Q4. done.
      - by etrans.
      - unfold items. rewrite Q6 dirtyC_pre dirtyC_post !titems_app. fold kvs1. rewrite HAB. cbn [strip toks gx gy].
        change (titems (TS k0 :: itoks ((k0, v0) :: B))) with (titems (itoks ((k0, v0) :: B))). by rewrite !titems_itoks. }
    fold kvs1 in HX. rewrite HAB in HX. iApply ("H" $! root' S' _ _ HX with "HT Hw").
  Qed.
End insert.

(** * Merging two neighbours

    Models no code. *)
From Coq Require Import ssreflect Sorted.
From stdpp Require Import prelude list gmap.
From iris.bi Require Import bi.
From iris.proofmode Require Import proofmode.
From Verif Require Import Spec SpecFacts Llrb LlrbApi BTree HProp Lru Wp Kv Codec Ghost Order PsTree Rep Load Search Update Plug Insert Borrow.
Open Scope Z_scope.

Section merge.
  Context {K V : Type}.
  Variable cb : callbacks K V.
  Variable dom : K → Prop.
  Variable domV : V → Prop.
  Hypothesis WF : wf_cb cb dom domV.
  Variable mn : nat.
  Hypothesis MN : (2 ≤ mn)%nat.
  Variable t : tid.
  Variable ca : bool.
  Notation cmp := (cb_cmp cb).
  Notation M := (M K V).
  Notation hProp := (hProp K V).
  Notation bval := (bval V).
  Notation gt := (gt K V).
  Notation frame := (frame K V).
  Let ORD := wf_ord _ _ _ WF.
  Notation rep := (rep cb dom mn t ca).
  Notation reps := (reps cb dom mn t ca).
  Notation isTR := (isTR mn t ca).
  Notation inode := (inode cb dom mn t ca).
  Notation inodeU := (inodeU cb dom t ca).
  Notation lnode := (lnode cb dom mn t ca).
  Notation lnode' := (lnode' cb dom mn t ca).
  Notation nrec := (nrec t).
  Notation good := (good cmp dom domV).
  Notation ksorted := (ksorted cmp dom).
  Notation "'let*' x := m 'in' e" := (bind m (fun x => e))
    (at level 200, x name, m at level 100, e at level 200, right associativity).
  Notation "'let*' ' x := m 'in' e" := (bind m (fun x => e))
    (at level 200, x strict pattern, m at level 100, e at level 200, right associativity).
  Notation "m ;; e" := (bind m (fun _ : unit => e))
    (at level 100, e at level 200, right associativity, format "m ;;  '/' e").
  Implicit Types (g c : gt) (n : nid) (f : frame) (C : list frame) (h : nat).
  Notation whole := (whole cb dom mn t ca).
  Notation ctx := (ctx cb dom mn t ca).
  Notation knode := (knode cb dom t).

  (** ** Moving the entries *)
  Lemma moveLeaf io dst src par ir st sz left par2 ir2 lf2 st2 sz2 left2 Q Er :
    ∀ B A (e0 : list (K * bval)), ascending cmp (A ++ B) → alldom dom (A ++ B) →
    knode dst par ir true st sz (uels A) left -∗ knode src par2 ir2 lf2 st2 sz2 (e0 ++ uels B) left2 -∗
    (knode dst par ir true st sz (uels (A ++ B)) left -∗ knode src par2 ir2 lf2 st2 sz2 (e0 ++ uels B) left2 -∗ Q tt) -∗
    wp io (moveAll cb dst src (Z.of_nat <$> seq (length e0) (length B))) Q Er.
  Proof using WF MN.
    induction B as [|[k v] B IH]; intros A e0 Ha Hd; iIntros "Hd Hs H".
    { rewrite app_nil_r. iApply wp_ret. iApply ("H" with "Hd Hs"). }
    cbn [length seq fmap list_fmap moveAll]. rewrite uels_cons.
    iApply wp_bind. iApply (kn_get _ _ _ _ _ _ _ _ _ _ _ _ (length e0) with "Hs"); [by apply list_lookup_middle|]. iIntros "Hs".
    iApply wp_bind. iApply wp_logicSome. cbn beta iota. iApply wp_bind. iApply wp_ret.
    assert (A ++ (k, v) :: B = (A ++ [(k, v)]) ++ B) as Heq by by rewrite -app_assoc.
    rewrite Heq in Ha. rewrite Heq in Hd.
    destruct (uels_ok cb dom (A ++ [(k, v)])) as [Ha' Hd'].
    { by apply ascending_app in Ha as [? _]. } { by apply alldom_app in Hd as [? _]. }
    rewrite uels_snoc in Ha'. rewrite uels_snoc in Hd'.
    iApply wp_bind. iApply (kn_put cb dom domV WF _ _ _ _ _ _ _ _ (uels A) _ _ [] with "[Hd]"); [exact Hd'|exact Ha'|by rewrite app_nil_r|]. iIntros "Hd".
    iApply wp_bind. iApply wp_logicOk. rewrite -uels_snoc.
    assert (e0 ++ (k, VUser v) :: uels B = (e0 ++ [(k, VUser v)]) ++ uels B) as Heq2 by by rewrite -app_assoc.
    rewrite Heq Heq2. replace (Datatypes.S (length e0)) with (length (e0 ++ [(k, VUser v : bval)])) by (rewrite app_length /=; lia).
    iApply (IH with "Hd Hs H"); done.
  Qed.

  Lemma moveInner io h dst src par ir st sz left par2 ir2 lf2 st2 sz2 left2 Q Er :
    ∀ ks cs kd ids (e0 : list (K * bval)), length ks = length cs → length ids = Datatypes.S (length kd) → ksorted (kd ++ ks) →
    knode dst par ir false st sz (kels kd ids) left -∗ knode src par2 ir2 lf2 st2 sz2 (e0 ++ zip ks (kvals (gid <$> cs))) left2 -∗
    reps h src cs -∗
    (knode dst par ir false st sz (kels (kd ++ ks) (ids ++ (gid <$> cs))) left -∗
     knode src par2 ir2 lf2 st2 sz2 (e0 ++ zip ks (kvals (gid <$> cs))) left2 -∗ reps h dst cs -∗ Q tt) -∗
    wp io (moveAll cb dst src (Z.of_nat <$> seq (length e0) (length ks))) Q Er.
  Proof using WF MN.
    induction ks as [|k ks IH]; intros cs kd ids e0 Hl Hli Hks; iIntros "Hd Hs Hk H".
    { destruct cs; [|done]. rewrite !app_nil_r. iApply wp_ret. iApply ("H" with "Hd Hs"). by unfold Rep.reps. }
    destruct cs as [|c cs]; [done|]. injection Hl as Hl.
    cbn [length seq moveAll]. rewrite !fmap_cons. cbn [moveAll].
    change (zip (k :: ks) (kvals (gid c :: (gid <$> cs)))) with ((k, VNode (gid c) : bval) :: zip ks (kvals (gid <$> cs))).
    iApply wp_bind. iApply (kn_get _ _ _ _ _ _ _ _ _ _ _ _ (length e0) with "Hs"); [by apply list_lookup_middle|]. iIntros "Hs".
    iApply wp_bind. iApply wp_logicSome. cbn beta iota.
    iEval (rewrite reps_cons) in "Hk". iDestruct "Hk" as "[Hc Hk]".
    iApply wp_bind. iApply (rep_setpar _ _ _ _ _ _ _ _ _ _ (Some dst) with "Hc"). iIntros "Hc".
    assert (kd ++ k :: ks = (kd ++ [k]) ++ ks) as Heq by by rewrite -app_assoc.
    rewrite Heq in Hks.
    destruct (kels_ok cb dom (kd ++ [k]) (ids ++ [gid c])) as [Hd Ha]; [by apply ksorted_app in Hks as [? _]|].
    rewrite kels_mid // in Hd. rewrite kels_mid // in Ha.
    iApply wp_bind. iApply (kn_put cb dom domV WF _ _ _ _ _ _ _ _ (kels kd ids) _ _ [] with "[Hd]"); [exact Hd|exact Ha|by rewrite app_nil_r|]. iIntros "Hd".
    iApply wp_bind. iApply wp_logicOk.
    assert (e0 ++ (k, VNode (gid c) : bval) :: zip ks (kvals (gid <$> cs)) = (e0 ++ [(k, VNode (gid c) : bval)]) ++ zip ks (kvals (gid <$> cs))) as Heq2 by by rewrite -app_assoc.
    rewrite Heq Heq2. replace (Datatypes.S (length e0)) with (length (e0 ++ [(k, VNode (gid c) : bval)])) by (rewrite app_length /=; lia).
    assert (ids ++ gid c :: (gid <$> cs) = (ids ++ [gid c]) ++ (gid <$> cs)) as Heq3 by by rewrite -app_assoc.
    rewrite Heq3.
    iApply (IH cs (kd ++ [k]) (ids ++ [gid c]) with "[Hd] Hs Hk"); [done| |done| |].
    { rewrite !app_length /=. lia. }
    { rewrite (kels_mid kd k [] ids (gid c) []) //. }
    iIntros "Hd Hs Hk". iApply ("H" with "Hd Hs"). rewrite reps_cons. iFrame.
  Qed.

  (** ** The merged node *)
  Definition mjn x (s : K) (y : gt) : gt :=
    match x, y with
    | GL n st A, GL _ _ B => GL n st (A ++ B)
    | GI n st kx cx, GI _ _ ky cy => GI n st (kx ++ s :: ky) (cx ++ cy)
    | _, _ => x
    end.
  Definition isleaf g : bool := match g with GL _ _ _ => true | _ => false end.
  (** the merged node, prefix sums not yet rearranged *)
  Definition pre h par ir g : hProp := (match h, g with
    | O, GL _ _ _ => rep 0 par ir g
    | S h, GI n st ks cs => inodeU n par ir st ks (gid <$> cs) ∗ reps h n cs
    | _, _ => False
    end)%I.
  Definition arr n (lf : bool) : M unit := if lf then ret tt else ignoreErr (arrangePrefixSumTree n).
  Lemma pre_arr io h par ir g Q Er : nclean g →
    pre h par ir g -∗ (rep h par ir g -∗ Q tt) -∗ wp io (arr (gid g) (isleaf g)) Q Er.
  Proof.
    iIntros (Hn) "Hp H". destruct h, g as [n d|n st kvs|n st ks cs]; try done; cbn [pre].
    - iApply wp_ret. by iApply "H".
    - iDestruct "Hp" as "[Hn Hk]". iApply (arrange_ig with "Hn Hk"); [done|]. iIntros "Hn Hk". iApply "H". rewrite rep_GI. iFrame.
  Qed.
  Lemma pre_root io h par ir ir' g Q Er : nclean g →
    pre h par ir g -∗ (pre h par ir' g -∗ Q tt) -∗ wp io (modN (gid g) (set_root ir')) Q Er.
  Proof.
    iIntros (Hn) "Hp H". destruct h, g as [n d|n st kvs|n st ks cs]; try done; cbn [pre gid].
    - rewrite !rep_knL //. iDestruct "Hp" as (left) "[Hp Hr]". iApply (kn_root with "Hp"). iIntros "Hp". iApply "H". iExists left. iFrame.
    - rewrite !inodeU_kn. iDestruct "Hp" as "[(%sz & %Hl & Hp & Hr) Hk]". iApply (kn_root with "Hp"). iIntros "Hp". iApply "H". iFrame "Hk". iExists sz. by iFrame.
  Qed.
  Lemma pre_parent io h par par' ir g Q Er : nclean g →
    pre h par ir g -∗ (pre h par' ir g -∗ Q tt) -∗ wp io (modN (gid g) (set_parent par')) Q Er.
  Proof.
    iIntros (Hn) "Hp H". destruct h, g as [n d|n st kvs|n st ks cs]; try done; cbn [pre gid].
    - rewrite !rep_knL //. iDestruct "Hp" as (left) "[Hp Hr]". iApply (kn_parent with "Hp"). iIntros "Hp". iApply "H". iExists left. iFrame.
    - rewrite !inodeU_kn. iDestruct "Hp" as "[(%sz & %Hl & Hp & Hr) Hk]". iApply (kn_parent with "Hp"). iIntros "Hp". iApply "H". iFrame "Hk". iExists sz. by iFrame.
  Qed.
  (** the emptied node *)
  Definition carcass n : hProp := (∃ r x, <affine> ⌜x ≠ noLRU⌝ ∗ isN n r ∗ isT n (tg ca x) ∗ held (b_loc r))%I.
  Lemma discard_carcass io root S n Q Er :
    isTR root S -∗ carcass n -∗ (∀ S' (_ : S ⊆ S'), isTR root S' -∗ Q tt) -∗ wp io (markNodeToBeDiscarded t n) Q Er.
  Proof.
    iIntros "HT (%r & %x & %Hx & HN & Ht & Hh) H". iApply (wp_discarded with "HT HN Ht Hh"); [done|].
    iIntros (S' HS') "HT _ _". iApply ("H" $! S' HS' with "HT").
  Qed.

  Definition mergeTail (dst src p : nid) (si : Z) (lf : bool) (rec : M unit) : M unit :=
    let* plen := kvLen p in
    let* rp := getN p in
    (if b_root rp && (plen =? 1) then
       let* T := getT t in
       let* rt := deref (t_root T) in
       markNodeToBeDiscarded t rt ;;
       modN dst (set_root true) ;;
       modN dst (set_parent None) ;;
       modT t (λ T, Tree (t_min T) (t_max T) (Some dst) (t_stale T) (t_cache T)) ;;
       arr dst lf
     else
       let* ok := kvDelIndex cb p si in logicOk ok ;;
       arr dst lf ;;
       ignoreErr (arrangePrefixSumTree p) ;;
       rec) ;;
    markNodeToBeDiscarded t src ;;
    markNodeDirty t dst.

  Definition mgood x (s : K) (y : gt) : Prop :=
    match x, y with
    | GL _ _ A, GL _ _ B => ascending cmp (A ++ B) ∧ alldom dom (A ++ B)
    | GI _ _ kx cx, GI _ _ ky cy => ksorted (kx ++ s :: ky) ∧ length cx = Datatypes.S (length kx) ∧ length cy = Datatypes.S (length ky)
    | _, _ => False
    end.
  Lemma range_seq (n : nat) : range (Z.of_nat n) = Z.of_nat <$> seq 0 n.
  Proof. unfold range. by rewrite Nat2Z.id. Qed.
  Lemma mergeHead io h p par ir szp ea eb lp x y s chk rec Q Er : nclean x → nclean y → usable y → mgood x s y →
    knode p par ir false Dirty szp (ea ++ (s, VNode (gid y)) :: eb) lp -∗
    rep h (Some p) false x -∗ rep h (Some p) false y -∗
    (knode p par ir false Dirty szp (ea ++ (s, VNode (gid y)) :: eb) lp -∗ pre h (Some p) false (mjn x s y) -∗
     carcass (gid y) -∗ wp io (mergeTail (gid x) (gid y) p (Z.of_nat (length ea)) (isleaf x) rec) Q Er) -∗
    wp io (mergeNodes cb t (gid x) (gid y) p (Z.of_nat (length ea)) chk rec) Q Er.
  Proof using WF MN.
    iIntros (Hx Hy Hu Hm) "Hp Hx Hy H".
    destruct x as [nx dx|nx sx A|nx sx kx cx], y as [ny dy|ny sy B|ny sy ky cy]; try done.
    - destruct Hm as [Ha Hd]. cbn [gid isleaf mjn] in *. destruct h; [|done].
      iEval (rewrite rep_knL //) in "Hx". iEval (rewrite rep_knL //) in "Hy".
      iDestruct "Hx" as (lx) "(Hx & Htx & Hhx)". iDestruct "Hy" as (ly) "(Hy & Hty & Hhy)".
      iApply wp_bind. iApply (kn_getN with "Hy"). iIntros (rs (Hlf & _ & _ & Hls & Hit)) "Hy".
      iApply wp_bind. iApply (kn_items _ _ _ _ _ _ _ _ _ _ _ _ (λ z, z + b_items rs) with "Hx"). iIntros "Hx".
      iApply wp_bind. iApply (kn_get _ _ _ _ _ _ _ _ _ _ _ _ (length ea) with "Hp"); [by apply list_lookup_middle|]. iIntros "Hp".
      iApply wp_bind. iApply wp_logicSome. cbn beta iota.
      iApply wp_bind. iApply (kn_getN with "Hx"). iIntros (rd (Hlfd & _)) "Hx".
      replace (b_leaf (if chk then rd else rs)) with true by by destruct chk.
      iApply wp_bind. iApply wp_ret.
      iApply wp_bind. iApply (kn_len with "Hy"). iIntros "Hy". rewrite uels_len range_seq.
      iApply wp_bind. iApply (moveLeaf _ _ _ _ _ _ _ _ _ _ _ _ _ _ _ _ B A [] with "Hx Hy"); [done..|].
      iIntros "Hx Hy". rewrite Hlfd. iApply ("H" with "Hp [Hx Htx Hhx] [Hy Hty Hhy]").
      + cbn [pre]. rewrite rep_knL //. iExists lx. rewrite Hit app_length Nat2Z.inj_add. iFrame.
      + iDestruct "Hy" as (kv ps Hkv) "Hy". iExists _, (sttag sy). iFrame "Hy Hty". iSplit; [done|]. iExact "Hhy".
    - destruct Hm as (Hks & Lx & Ly). cbn [gid isleaf mjn] in *. destruct h; [done|].
      destruct cy as [|c cy]; [done|]. injection Ly as Ly.
      iEval (rewrite rep_GI inode_Ug inodeU_kn) in "Hx". iEval (rewrite rep_GI inode_Ug inodeU_kn) in "Hy".
      iDestruct "Hx" as "[(%szx & %Hlx & Hx & Htx & Hpx & Hhx) Hkx]".
      iDestruct "Hy" as "[(%szy & %Hly & Hy & Hty & Hpy & Hhy) Hky]".
      rewrite fmap_cons. cbn [head].
      iApply wp_bind. iApply (kn_getN with "Hy"). iIntros (rs (Hlf & _ & _ & Hls & Hit)) "Hy".
      iApply wp_bind. iApply (kn_items _ _ _ _ _ _ _ _ _ _ _ _ (λ z, z + b_items rs) with "Hx"). iIntros "Hx".
      iApply wp_bind. iApply (kn_get _ _ _ _ _ _ _ _ _ _ _ _ (length ea) with "Hp"); [by apply list_lookup_middle|]. iIntros "Hp".
      iApply wp_bind. iApply wp_logicSome. cbn beta iota.
      iApply wp_bind. iApply (kn_getN with "Hx"). iIntros (rd (Hlfd & _)) "Hx".
      replace (b_leaf (if chk then rd else rs)) with false by by destruct chk.
      iApply wp_bind. iApply wp_bind. iApply (wp_deref _ _ (gid c)); [done|].
      iEval (rewrite reps_cons) in "Hky". iDestruct "Hky" as "[Hc Hky]".
      iApply wp_bind. iApply (rep_setpar _ _ _ _ _ _ _ _ _ _ (Some nx) with "Hc"). iIntros "Hc".
      assert (length (gid <$> cx) = Datatypes.S (length kx)) as Lx' by by rewrite fmap_length.
      assert (kx ++ s :: ky = (kx ++ [s]) ++ ky) as Heq by by rewrite -app_assoc.
      rewrite Heq in Hks.
      destruct (kels_ok cb dom (kx ++ [s]) ((gid <$> cx) ++ [gid c])) as [Hd Ha]; [by apply ksorted_app in Hks as [? _]|].
      rewrite kels_mid // in Hd. rewrite kels_mid // in Ha.
      iAssert (∀ Q, (knode nx (Some p) false false sx (szx + b_items rs) (kels (kx ++ [s]) ((gid <$> cx) ++ [gid c])) (head (gid <$> cx)) -∗ Q tt) -∗
        wp io (if chk then let* ok := kvPut cb nx s (VNode (gid c)) in logicOk ok else kvPut_ cb nx s (VNode (gid c))) Q Er)%I with "[Hx]" as "Hput".
      { iIntros (Q') "H". rewrite kels_mid //. destruct chk.
        - iApply wp_bind. iApply (kn_put cb dom domV WF _ _ _ _ _ _ _ _ (kels kx (gid <$> cx)) _ _ [] with "[Hx]"); [exact Hd|exact Ha|by rewrite app_nil_r|]. iIntros "Hx".
          iApply wp_logicOk. by iApply "H".
        - iApply (kn_put_ cb dom domV WF _ _ _ _ _ _ _ _ (kels kx (gid <$> cx)) _ _ [] with "[Hx]"); [exact Hd|exact Ha|by rewrite app_nil_r|]. iIntros "Hx".
          by iApply "H". }
      iApply "Hput". iIntros "Hx". cbn beta.
      iApply wp_bind. iApply (kn_len with "Hy"). iIntros "Hy". rewrite kels_front.
      replace (length (zip ky (kvals (V:=V) (gid <$> cy)))) with (length ky).
      2: { rewrite zip_with_length. unfold kvals. rewrite !fmap_length. lia. }
      rewrite range_seq.
      iApply wp_bind. iApply (moveInner _ h _ _ _ _ _ _ _ _ _ _ _ _ _ _ _ ky cy (kx ++ [s]) ((gid <$> cx) ++ [gid c]) [] with "Hx Hy Hky"); [done| |done|].
      { rewrite !app_length /=. lia. }
      iIntros "Hx Hy Hky". rewrite Hlfd. iApply ("H" with "Hp [Hx Htx Hhx Hpx Hpy Hkx Hc Hky] [Hy Hty Hhy]").
      + cbn [pre]. rewrite reps_app reps_cons inodeU_kn. iFrame "Hkx Hc Hky". iExists _. rewrite -!app_assoc fmap_app fmap_cons.
        iFrame "Htx Hhx". iSplit; [|iSplitL "Hx"].
        * iPureIntro. rewrite !app_length /= !fmap_length. lia.
        * replace (head ((gid <$> cx) ++ gid c :: (gid <$> cy))) with (head (gid <$> cx)) by by destruct cx. iFrame.
        * rewrite pfields_app. iFrame.
      + iDestruct "Hy" as (kv ps Hkv) "Hy". iExists _, (sttag sy). iFrame "Hy Hty". iSplit; [done|]. iExact "Hhy".
  Qed.
End merge.

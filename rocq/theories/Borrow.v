(** * Moving entries between neighbouring nodes

    Models no code. *)
From Coq Require Import ssreflect Sorted.
From stdpp Require Import prelude list gmap.
From iris.bi Require Import bi.
From iris.proofmode Require Import proofmode.
From Verif Require Import Spec SpecFacts Llrb LlrbApi BTree HProp Lru Wp Kv Codec Ghost Order PsTree Rep Load Search Update Plug Insert.
Open Scope Z_scope.

Section borrow.
  Context {K V : Type}.
  Variable cb : callbacks K V.
  Variable dom : K → Prop.
  Variable domV : V → Prop.
  Hypothesis WF : wf_cb cb dom domV.
  Variable mn : nat.
  Hypothesis MN : (2 ≤ mn)%nat.
  Variable t : tid.
  Variable ca : bool.
  Notation cmp := (cb_cmp cb).
  Notation M := (M K V).
  Notation hProp := (hProp K V).
  Notation bval := (bval V).
  Notation gt := (gt K V).
  Notation frame := (frame K V).
  Let ORD := wf_ord _ _ _ WF.
  Notation rep := (rep cb dom mn t ca).
  Notation reps := (reps cb dom mn t ca).
  Notation isTR := (isTR mn t ca).
  Notation inode := (inode cb dom mn t ca).
  Notation inodeU := (inodeU cb dom t ca).
  Notation lnode := (lnode cb dom mn t ca).
  Notation lnode' := (lnode' cb dom mn t ca).
  Notation nrec := (nrec t).
  Notation good := (good cmp dom domV).
  Notation ksorted := (ksorted cmp dom).
  Notation "'let*' x := m 'in' e" := (bind m (fun x => e))
    (at level 200, x name, m at level 100, e at level 200, right associativity).
  Notation "'let*' ' x := m 'in' e" := (bind m (fun x => e))
    (at level 200, x strict pattern, m at level 100, e at level 200, right associativity).
  Notation "m ;; e" := (bind m (fun _ : unit => e))
    (at level 100, e at level 200, right associativity, format "m ;;  '/' e").
  Implicit Types (g c : gt) (n : nid) (f : frame) (C : list frame) (h : nat).

  (** ** A node seen through its entries *)
  Definition knode n par ir lf st sz (els : list (K * bval)) left : hProp :=
    (∃ kv ps, <affine> ⌜iskv cb dom els kv⌝ ∗ isN n (nrec st sz ir lf par kv left ps))%I.
  Lemma kn_getN io n par ir lf st sz els left (Q : bnode K V → hProp) Er :
    knode n par ir lf st sz els left -∗
    (∀ r (_ : b_leaf r = lf ∧ b_parent r = par ∧ b_root r = ir ∧ b_left r = left ∧ b_items r = sz),
       knode n par ir lf st sz els left -∗ Q r) -∗ wp io (getN n) Q Er.
  Proof.
    iIntros "(%kv & %ps & %Hkv & HN) H". iApply (wp_getN with "HN"). iIntros "HN".
    assert (∀ r, r = nrec st sz ir lf par kv left ps → b_leaf r = lf ∧ b_parent r = par ∧ b_root r = ir ∧ b_left r = left ∧ b_items r = sz) as HX.
    { by intros r ->. }
    iApply ("H" $! _ (HX _ eq_refl)). iExists kv, ps. by iFrame.
  Qed.
  Lemma kn_get io n par ir lf st sz els left i p Q Er : els !! i = Some p →
    knode n par ir lf st sz els left -∗ (knode n par ir lf st sz els left -∗ Q (Some p)) -∗
    wp io (kvGet n (Z.of_nat i)) Q Er.
  Proof.
    iIntros (Hi) "(%kv & %ps & %Hkv & HN) H". iApply (wp_kvGet_nat cb dom _ _ _ kv els with "HN"); [done..|]. iIntros "HN".
    iApply "H". iExists kv, ps. by iFrame.
  Qed.
  Lemma kn_len io n par ir lf st sz els left Q Er :
    knode n par ir lf st sz els left -∗ (knode n par ir lf st sz els left -∗ Q (Z.of_nat (length els))) -∗
    wp io (kvLen n) Q Er.
  Proof.
    iIntros "(%kv & %ps & %Hkv & HN) H". iApply (wp_kvLen cb dom _ _ _ kv els with "HN"); [done..|]. iIntros "HN".
    iApply "H". iExists kv, ps. by iFrame.
  Qed.
  Lemma kn_del io n par ir lf st sz a p b left Q Er :
    knode n par ir lf st sz (a ++ p :: b) left -∗ (knode n par ir lf st sz (a ++ b) left -∗ Q true) -∗
    wp io (kvDelIndex cb n (Z.of_nat (length a))) Q Er.
  Proof using WF.
    iIntros "(%kv & %ps & %Hkv & HN) H". iApply (wp_kvDelIndex cb dom ORD _ _ _ kv _ with "HN"); [done|done|by apply list_lookup_middle|].
    iIntros (kv' Hkv') "HN". rewrite s_remove_mid in Hkv'. iApply "H". iExists kv', ps. by iFrame.
  Qed.
  Lemma kn_put io n par ir lf st sz a k v b left Q Er : alldom dom (a ++ (k, v) :: b) → ascending cmp (a ++ (k, v) :: b) →
    knode n par ir lf st sz (a ++ b) left -∗ (knode n par ir lf st sz (a ++ (k, v) :: b) left -∗ Q true) -∗
    wp io (kvPut cb n k v) Q Er.
  Proof using WF.
    iIntros (Hd Ha) "(%kv & %ps & %Hkv & HN) H".
    destruct (insert_asc cmp dom ORD k v a b Hd Ha) as [Hpr Hins].
    assert (dom k) as Hdk. { apply alldom_app in Hd as [_ Hd]. by apply alldom_cons in Hd as [? _]. }
    iApply (wp_kvPut cb dom ORD _ _ _ kv _ with "HN"); [done..|]. iIntros (kv' Hkv') "HN". rewrite Hins in Hkv'.
    iApply "H". iExists kv', ps. by iFrame.
  Qed.
  Lemma kn_put_ io n par ir lf st sz a k v b left Q Er : alldom dom (a ++ (k, v) :: b) → ascending cmp (a ++ (k, v) :: b) →
    knode n par ir lf st sz (a ++ b) left -∗ (knode n par ir lf st sz (a ++ (k, v) :: b) left -∗ Q tt) -∗
    wp io (kvPut_ cb n k v) Q Er.
  Proof using WF.
    iIntros (Hd Ha) "(%kv & %ps & %Hkv & HN) H".
    destruct (insert_asc cmp dom ORD k v a b Hd Ha) as [Hpr Hins].
    assert (dom k) as Hdk. { apply alldom_app in Hd as [_ Hd]. by apply alldom_cons in Hd as [? _]. }
    iApply (wp_kvPut_ cb dom ORD _ _ _ kv _ with "HN"); [done..|]. iIntros (kv' Hkv') "HN". rewrite Hins in Hkv'.
    iApply "H". iExists kv', ps. by iFrame.
  Qed.
  Lemma kn_items io n par ir lf st sz els left (f : Z → Z) Q Er :
    knode n par ir lf st sz els left -∗ (knode n par ir lf st (f sz) els left -∗ Q tt) -∗
    wp io (modN n (λ r, set_items (f (b_items r)) r)) Q Er.
  Proof.
    iIntros "(%kv & %ps & %Hkv & HN) H". iApply (wp_modN with "HN"). iIntros "HN". iApply "H". iExists kv, ps. by iFrame.
  Qed.
  Lemma kn_left io n par ir lf st sz els left left' Q Er :
    knode n par ir lf st sz els left -∗ (knode n par ir lf st sz els left' -∗ Q tt) -∗
    wp io (modN n (set_left left')) Q Er.
  Proof.
    iIntros "(%kv & %ps & %Hkv & HN) H". iApply (wp_modN with "HN"). iIntros "HN". iApply "H". iExists kv, ps. by iFrame.
  Qed.
  Lemma kn_root io n par ir ir' lf st sz els left Q Er :
    knode n par ir lf st sz els left -∗ (knode n par ir' lf st sz els left -∗ Q tt) -∗
    wp io (modN n (set_root ir')) Q Er.
  Proof.
    iIntros "(%kv & %ps & %Hkv & HN) H". iApply (wp_modN with "HN"). iIntros "HN". iApply "H". iExists kv, ps. by iFrame.
  Qed.
  Lemma kn_parent io n par par' ir lf st sz els left Q Er :
    knode n par ir lf st sz els left -∗ (knode n par' ir lf st sz els left -∗ Q tt) -∗
    wp io (modN n (set_parent par')) Q Er.
  Proof.
    iIntros "(%kv & %ps & %Hkv & HN) H". iApply (wp_modN with "HN"). iIntros "HN". iApply "H". iExists kv, ps. by iFrame.
  Qed.
  Lemma rep_setpar io h par ir g par' Q Er :
    rep h par ir g -∗ (rep h par' ir g -∗ Q tt) -∗ wp io (modN (gid g) (set_parent par')) Q Er.
  Proof.
    iIntros "Hr H". iDestruct (rep_rec with "Hr") as (r) "(HN & _ & Hr)".
    iApply (wp_modN with "HN"). iIntros "HN". iApply "H". by iApply "Hr".
  Qed.
  Lemma kn_asc n par ir lf st sz els left : knode n par ir lf st sz els left ⊢ ⌜ascending cmp els ∧ alldom dom els⌝.
  Proof. iIntros "(%kv & %ps & %Hkv & _)". iPureIntro. split; [by eapply iskv_asc|by eapply iskv_dom]. Qed.

  Definition pfields (ids : list nid) : hProp := ([∗ list] c ∈ ids, ∃ x, isP c x)%I.
  Lemma lnode_kn n par ir st sz kvs : notclean st → lnode' n par ir st sz kvs ⊣⊢
    ∃ left, knode n par ir true st sz (uels kvs) left ∗ isT n (tg ca (sttag st)) ∗ held (stloc st).
  Proof.
    intros Hst. unfold lnode', Rep.lnode', knode. iSplit.
    - iIntros "(%kv & %left & %ps & %Hkv & HN & HT & Hb)". rewrite leafblk_nc //. iExists left. iFrame "HT Hb". iExists kv, ps. by iFrame.
    - iIntros "(%left & (%kv & %ps & %Hkv & HN) & HT & Hb)". iExists kv, left, ps. rewrite leafblk_nc //. by iFrame.
  Qed.
  Lemma inodeU_kn n par ir st ks ids : inodeU n par ir st ks ids ⊣⊢
    ∃ sz, <affine> ⌜length ids = S (length ks)⌝ ∗ knode n par ir false st sz (kels ks ids) (head ids) ∗
      isT n (tg ca (sttag st)) ∗ pfields ids ∗ held (stloc st).
  Proof.
    unfold inodeU, Rep.inodeU, knode, pfields. iSplit.
    - iIntros "(%kv & %sz & %ps & (%Hkv & %Hl) & HN & $ & $ & $)". iExists sz. iSplit; [done|]. iExists kv, ps. by iFrame.
    - iIntros "(%sz & %Hl & (%kv & %ps & %Hkv & HN) & $ & $ & $)". iExists kv, sz, ps. by iFrame.
  Qed.
  Lemma pfields_app a b : pfields (a ++ b) ⊣⊢ pfields a ∗ pfields b.
  Proof. apply big_sepL_app. Qed.

  (** the entries of an inner node around one separator *)
  Lemma kels_mid (ka : list K) s kb (ia : list nid) y ib : length ia = S (length ka) →
    kels (V:=V) (ka ++ s :: kb) (ia ++ y :: ib) = kels ka ia ++ (s, VNode y) :: zip kb (kvals ib).
  Proof.
    intros H. destruct ia as [|i ia]; [done|]. injection H as H. unfold kels. cbn [app tail]. rewrite kvals_app. cbn [kvals fmap list_fmap].
    rewrite zip_with_app; [done|]. unfold kvals. by rewrite fmap_length.
  Qed.
  Lemma kels_skip (ka kb : list K) (ia ib : list nid) : length ia = S (length ka) →
    kels (V:=V) (ka ++ kb) (ia ++ ib) = kels ka ia ++ zip kb (kvals ib).
  Proof.
    intros H. destruct ia as [|i ia]; [done|]. injection H as H. unfold kels. cbn [app tail]. rewrite kvals_app.
    rewrite zip_with_app; [done|]. unfold kvals. by rewrite fmap_length.
  Qed.
  Lemma kels_front (ks : list K) i (ids : list nid) : kels (V:=V) ks (i :: ids) = zip ks (kvals ids).
  Proof. done. Qed.
  Lemma kels_ok (ks : list K) (ids : list nid) : ksorted ks → alldom dom (kels (V:=V) ks ids) ∧ ascending cmp (kels (V:=V) ks ids).
  Proof.
    intros Hk. split; [|by apply (ksorted_asc cmp dom)]. apply Forall_forall. intros [x w] Hin. unfold kels in Hin. apply elem_of_zip_l in Hin.
    destruct Hk as [_ Hk]. rewrite Forall_forall in Hk. by apply Hk.
  Qed.

  (** ** States *)
  Definition weakg g : gt := match g with GL n st kvs => GL n (weak st) kvs | GI n st ks cs => GI n (weak st) ks cs | GD n d => GD n d end.
  Definition nclean g : Prop := match g with GL _ st _ | GI _ st _ _ => notclean st | _ => False end.
  Lemma rep_weak h par ir g : rep h par ir g ⊢ rep h par ir (weakg g).
  Proof.
    destruct g as [n d|n st kvs|n st ks cs]; [done|..]; destruct h; try done; cbn [weakg].
    - cbn [Rep.rep]. iIntros "(%kv & %left & %ps & %Hkv & HN & HT & Hb)". iExists kv, left, ps.
      rewrite nrec_weak weak_tag leafblk_weak. by iFrame.
    - rewrite !rep_GI. iIntros "[H $]". by iApply inode_weak.
  Qed.
  Lemma rep_dirty io root S h par ir g Q E : isloaded g →
    isTR root S -∗ rep h par ir g -∗ (∀ S' (_ : S ⊆ S'), isTR root S' -∗ rep h par ir (mkdirty g) -∗ Q tt) -∗
    wp io (markNodeDirty t (gid g)) Q E.
  Proof.
    iIntros (Hl) "HT Hr H". destruct g as [n d|n st kvs|n st ks cs]; [done|..]; destruct h; try done; cbn [mkdirty gid].
    - iApply (lnode_dirty with "HT Hr"). iIntros (S' [HS' _]) "HT Hr". iApply ("H" $! S' HS' with "HT Hr").
    - rewrite !rep_GI. iDestruct "Hr" as "[Hn Hk]". iApply (inode_dirty with "HT Hn"). iIntros (S' [HS' _]) "HT Hn".
      iApply ("H" $! S' HS' with "HT"). rewrite rep_GI. iFrame.
  Qed.
  Lemma mkdirty_ginfo g : nclean g → ginfo (mkdirty g) = ginfo g.
  Proof. by destruct g as [|n []|n []]. Qed.

  (** ** The parent *)
  Lemma reps_cons h n c cs : reps h n (c :: cs) ⊣⊢ rep h (Some n) false c ∗ reps h n cs.
  Proof. done. Qed.
  Lemma reps_app h n cs cs' : reps h n (cs ++ cs') ⊣⊢ reps h n cs ∗ reps h n cs'.
  Proof. apply big_sepL_app. Qed.
  Lemma arrange_ig io h n par ir st ks cs Q E : notclean st →
    inodeU n par ir st ks (gid <$> cs) -∗ reps h n cs -∗
    (inode n par ir st ks (ginfo <$> cs) -∗ reps h n cs -∗ Q tt) -∗
    wp io (ignoreErr (arrangePrefixSumTree n)) Q E.
  Proof. iIntros (Hst) "H1 H2 H3". iApply wp_ignoreErr. iApply (arrange_rep with "H1 H2 H3"). done. Qed.

  (** rearranging the parent, then marking the donor *)
  Definition pairTail (p x : nid) : M unit := ignoreErr (arrangePrefixSumTree p) ;; markNodeDirty t x.
  Lemma pairTail_spec io root S h p par ir ks L x R Q Er : nclean x →
    isTR root S -∗ inodeU p par ir Dirty ks (gid <$> (L ++ x :: R)) -∗ reps h p (L ++ x :: R) -∗
    (∀ S' (_ : S ⊆ S'), isTR root S' -∗ inode p par ir Dirty ks (ginfo <$> (L ++ mkdirty x :: R)) -∗
        reps h p (L ++ mkdirty x :: R) -∗ Q tt) -∗
    wp io (pairTail p (gid x)) Q Er.
  Proof.
    iIntros (Hx) "HT Hp Hk H". iApply wp_bind. iApply (arrange_ig with "Hp Hk"); [done|]. iIntros "Hp Hk".
    iEval (rewrite reps_app reps_cons) in "Hk". iDestruct "Hk" as "(HL & Hx & HR)".
    iApply (rep_dirty with "HT Hx"); [by destruct x|]. iIntros (S' HS') "HT Hx".
    iApply ("H" $! S' HS' with "HT [Hp] [HL Hx HR]").
    - rewrite !fmap_app !fmap_cons mkdirty_ginfo //.
    - rewrite reps_app reps_cons. iFrame.
  Qed.
  Lemma rep_knL n par ir st kvs : notclean st → rep 0 par ir (GL n st kvs) ⊣⊢
    ∃ left, knode n par ir true st (Z.of_nat (length kvs)) (uels kvs) left ∗ isT n (tg ca (sttag st)) ∗ held (stloc st).
  Proof. intros. by apply lnode_kn. Qed.

  Lemma mid2 (L : list gt) x y R : (L ++ [x]) ++ y :: R = L ++ x :: y :: R.
  Proof. by rewrite -app_assoc. Qed.
  Lemma ids_mid (L : list gt) x R : gid <$> (L ++ x :: R) = ((gid <$> L) ++ [gid x]) ++ (gid <$> R).
  Proof. by rewrite fmap_app fmap_cons -app_assoc. Qed.
  Lemma ids_len (L : list gt) x (ka : list K) : length ka = length L → length ((gid <$> L) ++ [x]) = S (length ka).
  Proof. intros ->. rewrite app_length fmap_length /=. lia. Qed.
  Lemma uels_snoc (A : list (K * V)) k v : uels (A ++ [(k, v)]) = uels A ++ [(k, VUser v)].
  Proof. by rewrite /uels fmap_app. Qed.
  Lemma uels_cons (A : list (K * V)) k v : uels ((k, v) :: A) = (k, VUser v) :: uels A.
  Proof. done. Qed.
  Lemma uels_ok (A : list (K * V)) : ascending cmp A → alldom dom A → ascending cmp (uels A) ∧ alldom dom (uels A).
  Proof. intros Ha Hd. split; [by apply asc_keys|]. unfold alldom, uels. by rewrite Forall_fmap. Qed.

  Lemma borrowLeft_leaf io root S p par ir l n stl A k v B ka s kb L R Q Er : notclean stl →
    length ka = length L → length kb = length R → ascending cmp ((k, v) :: B) → alldom dom ((k, v) :: B) → ksorted (ka ++ k :: kb) →
    isTR root S -∗ inodeU p par ir Dirty (ka ++ s :: kb) (gid <$> (L ++ GL l stl (A ++ [(k, v)]) :: GL n Dirty B :: R)) -∗
    reps 0 p L -∗ reps 0 p R -∗ rep 0 (Some p) false (GL l stl (A ++ [(k, v)])) -∗ rep 0 (Some p) false (GL n Dirty B) -∗
    (∀ S' (_ : S ⊆ S'), isTR root S' -∗
       inode p par ir Dirty (ka ++ k :: kb) (ginfo <$> (L ++ GL l Dirty A :: GL n Dirty ((k, v) :: B) :: R)) -∗
       reps 0 p (L ++ GL l Dirty A :: GL n Dirty ((k, v) :: B) :: R) -∗ Q tt) -∗
    wp io (borrowLeft cb t n p l (Z.of_nat (length ka)) (Z.of_nat (length A + 1))) Q Er.
  Proof using WF MN.
    iIntros (Hst La Lb Ha Hd Hks) "HT Hp HL HR Hl Hn H".
    rewrite !(rep_knL _ (Some p)) //. iDestruct "Hl" as (ll) "(Hl & Htl & Hhl)". iDestruct "Hn" as (ln) "(Hn & Htn & Hhn)".
    iEval (rewrite ids_mid inodeU_kn) in "Hp". iDestruct "Hp" as (szp) "(%Hlp & Hp & Htp & Hpf & Hhp)". cbn [gid] in *.
    iEval (rewrite fmap_cons; cbn [gid]; rewrite kels_mid; [|by apply ids_len]) in "Hp".
    iApply wp_bind. iApply (kn_items _ _ _ _ _ _ _ _ _ (λ z, z - 1) with "Hl"). iIntros "Hl".
    iApply wp_bind. iApply (kn_items _ _ _ _ _ _ _ _ _ (λ z, z + 1) with "Hn"). iIntros "Hn".
    iApply wp_bind. iApply (kn_getN with "Hn"). iIntros (r (Hlf & _)) "Hn". rewrite Hlf.
    replace (Z.of_nat (length A + 1) - 1) with (Z.of_nat (length (uels A))) by (rewrite uels_len; lia).
    rewrite uels_snoc.
    iApply wp_bind. iApply wp_bind. iApply (kn_get _ _ _ _ _ _ _ _ _ (length (uels A)) with "Hl"); [by apply list_lookup_middle|]. iIntros "Hl".
    iApply wp_bind. iApply wp_logicSome. cbn beta iota.
    iApply wp_bind. iApply (kn_del with "Hl"). iIntros "Hl". rewrite app_nil_r. iApply wp_bind. iApply wp_logicOk.
    destruct (uels_ok _ Ha Hd) as [Ha' Hd'].
    iApply wp_bind. iApply (kn_put _ _ _ _ _ _ _ [] with "Hn"); [done|done|]. iIntros "Hn". iApply wp_bind. iApply wp_logicOk.
    assert (length (kels (V:=V) ka ((gid <$> L) ++ [l])) = length ka) as Hlk.
    { apply (kels_len mn MN). by apply ids_len. }
    rewrite -{1}Hlk.
    iApply wp_bind. iApply (kn_del with "Hp"). iIntros "Hp". iApply wp_bind. iApply wp_logicOk.
    destruct (kels_ok (ka ++ k :: kb) (((gid <$> L) ++ [l]) ++ n :: (gid <$> R)) Hks) as [Hd2 Ha2].
    rewrite kels_mid in Hd2; [|by apply ids_len]. rewrite kels_mid in Ha2; [|by apply ids_len].
    iApply wp_bind. iApply (kn_put with "Hp"); [done|done|]. iIntros "Hp". iApply wp_logicOk.
    change (l) with (gid (GL l stl A)) at 2.
    iApply (pairTail_spec _ _ _ 0 _ _ _ (ka ++ k :: kb) L (GL l stl A) (GL n Dirty ((k, v) :: B) :: R) with "HT [Hp Htp Hpf Hhp] [HL HR Hl Htl Hhl Hn Htn Hhn]").
    { done. }
    { rewrite ids_mid inodeU_kn. iExists szp. cbn [gid]. rewrite fmap_cons. cbn [gid]. rewrite kels_mid; [|by apply ids_len].
      iFrame. iPureIntro. rewrite !app_length /= in Hlp |- *. lia. }
    { rewrite reps_app !reps_cons !rep_knL //. iFrame "HL HR". iSplitL "Hl Htl Hhl".
      - iExists ll. rewrite app_length /=. replace (Z.of_nat (length A + 1) - 1) with (Z.of_nat (length A)) by lia. iFrame.
      - iExists ln. cbn [length]. replace (Z.of_nat (Datatypes.S (length B))) with (Z.of_nat (length B) + 1) by lia. iFrame. }
    iExact "H".
  Qed.

  Lemma borrowRight_leaf io root S p par ir q n stq A k v k2 v2 B ka s kb L R Q Er : notclean stq →
    length ka = length L → length kb = length R → ascending cmp (A ++ [(k, v)]) → alldom dom (A ++ [(k, v)]) → ksorted (ka ++ k2 :: kb) →
    isTR root S -∗ inodeU p par ir Dirty (ka ++ s :: kb) (gid <$> (L ++ GL n Dirty A :: GL q stq ((k, v) :: (k2, v2) :: B) :: R)) -∗
    reps 0 p L -∗ reps 0 p R -∗ rep 0 (Some p) false (GL n Dirty A) -∗ rep 0 (Some p) false (GL q stq ((k, v) :: (k2, v2) :: B)) -∗
    (∀ S' (_ : S ⊆ S'), isTR root S' -∗
       inode p par ir Dirty (ka ++ k2 :: kb) (ginfo <$> (L ++ GL n Dirty (A ++ [(k, v)]) :: GL q Dirty ((k2, v2) :: B) :: R)) -∗
       reps 0 p (L ++ GL n Dirty (A ++ [(k, v)]) :: GL q Dirty ((k2, v2) :: B) :: R) -∗ Q tt) -∗
    wp io (borrowRight cb t n p q (Z.of_nat (length ka) - 1)) Q Er.
  Proof using WF MN.
    iIntros (Hst La Lb Ha Hd Hks) "HT Hp HL HR Hn Hq H".
    rewrite !(rep_knL _ (Some p)) //. iDestruct "Hq" as (lq) "(Hq & Htq & Hhq)". iDestruct "Hn" as (ln) "(Hn & Htn & Hhn)".
    iEval (rewrite ids_mid inodeU_kn) in "Hp". iDestruct "Hp" as (szp) "(%Hlp & Hp & Htp & Hpf & Hhp)". cbn [gid] in *.
    iEval (rewrite fmap_cons; cbn [gid]; rewrite kels_mid; [|by apply ids_len]) in "Hp".
    iApply wp_bind. iApply (kn_items _ _ _ _ _ _ _ _ _ (λ z, z + 1) with "Hn"). iIntros "Hn".
    iApply wp_bind. iApply (kn_items _ _ _ _ _ _ _ _ _ (λ z, z - 1) with "Hq"). iIntros "Hq".
    iApply wp_bind. iApply (kn_getN with "Hn"). iIntros (r (Hlf & _)) "Hn". rewrite Hlf.
    rewrite !uels_cons. change 0 with (Z.of_nat (length ([] : list (K * bval)))).
    iApply wp_bind. iApply wp_bind. iApply (kn_get _ _ _ _ _ _ _ _ _ 0 with "Hq"); [done|]. iIntros "Hq".
    iApply wp_bind. iApply wp_logicSome. cbn beta iota.
    iApply wp_bind. iApply (kn_del _ _ _ _ _ _ _ [] with "Hq"). iIntros "Hq". cbn [app]. iApply wp_bind. iApply wp_logicOk.
    destruct (uels_ok _ Ha Hd) as [Ha' Hd']. rewrite uels_snoc in Ha'. rewrite uels_snoc in Hd'.
    iApply wp_bind. iApply (kn_put _ _ _ _ _ _ _ (uels A) _ _ [] with "[Hn]"); [done|done|by rewrite app_nil_r|]. iIntros "Hn". iApply wp_bind. iApply wp_logicOk.
    iApply wp_bind. iApply (kn_get _ _ _ _ _ _ _ _ _ 0 with "Hq"); [done|]. iIntros "Hq".
    iApply wp_bind. iApply wp_logicSome. cbn beta iota.
    assert (length (kels (V:=V) ka ((gid <$> L) ++ [n])) = length ka) as Hlk.
    { apply (kels_len mn MN). by apply ids_len. }
    replace (Z.of_nat (length ka) - 1 + 1) with (Z.of_nat (length (kels (V:=V) ka ((gid <$> L) ++ [n])))) by lia.
    iApply wp_bind. iApply (kn_del with "Hp"). iIntros "Hp". iApply wp_bind. iApply wp_logicOk.
    destruct (kels_ok (ka ++ k2 :: kb) (((gid <$> L) ++ [n]) ++ q :: (gid <$> R)) Hks) as [Hd2 Ha2].
    rewrite kels_mid in Hd2; [|by apply ids_len]. rewrite kels_mid in Ha2; [|by apply ids_len].
    iApply wp_bind. iApply (kn_put with "Hp"); [done|done|]. iIntros "Hp". iApply wp_logicOk.
    change (q) with (gid (GL q stq ((k2, v2) :: B))) at 2.
    iApply (pairTail_spec _ _ _ 0 _ _ _ (ka ++ k2 :: kb) (L ++ [GL n Dirty (A ++ [(k, v)])]) (GL q stq ((k2, v2) :: B)) R with "HT [Hp Htp Hpf Hhp] [HL HR Hq Htq Hhq Hn Htn Hhn]").
    { done. }
    { rewrite mid2 ids_mid inodeU_kn. iExists szp. cbn [gid]. rewrite fmap_cons. cbn [gid]. rewrite kels_mid; [|by apply ids_len].
      iFrame. iPureIntro. rewrite !app_length /= in Hlp |- *. lia. }
    { rewrite !reps_app !reps_cons !rep_knL //. iFrame "HL HR". iSplitL "Hn Htn Hhn".
      - iSplitL; [|by unfold Rep.reps]. iExists ln. rewrite app_length uels_snoc /=. replace (Z.of_nat (length A + 1)) with (Z.of_nat (length A) + 1) by lia. iFrame.
      - iExists lq. cbn [length]. replace (Z.of_nat (Datatypes.S (Datatypes.S (length B))) - 1) with (Z.of_nat (Datatypes.S (length B))) by lia. iFrame. }
    rewrite mid2. iExact "H".
  Qed.

  (** ** Inner nodes *)
  Lemma borrowLeft_inner io root S h p par ir l n stl kx mk cx c ky c0 cy ka s kb L R Q Er : notclean stl →
    length ka = length L → length kb = length R → length cx = Datatypes.S (length kx) →
    ksorted (ka ++ mk :: kb) → ksorted (s :: ky) →
    isTR root S -∗ inodeU p par ir Dirty (ka ++ s :: kb) (gid <$> (L ++ GI l stl (kx ++ [mk]) (cx ++ [c]) :: GI n Dirty ky (c0 :: cy) :: R)) -∗
    reps (Datatypes.S h) p L -∗ reps (Datatypes.S h) p R -∗
    rep (Datatypes.S h) (Some p) false (GI l stl (kx ++ [mk]) (cx ++ [c])) -∗ rep (Datatypes.S h) (Some p) false (GI n Dirty ky (c0 :: cy)) -∗
    (∀ S' (_ : S ⊆ S'), isTR root S' -∗
       inode p par ir Dirty (ka ++ mk :: kb) (ginfo <$> (L ++ GI l Dirty kx cx :: GI n Dirty (s :: ky) (c :: c0 :: cy) :: R)) -∗
       reps (Datatypes.S h) p (L ++ GI l Dirty kx cx :: GI n Dirty (s :: ky) (c :: c0 :: cy) :: R) -∗ Q tt) -∗
    wp io (borrowLeft cb t n p l (Z.of_nat (length ka)) (Z.of_nat (length kx + 1))) Q Er.
  Proof using WF MN.
    iIntros (Hst La Lb Lx Hks Hky) "HT Hp HL HR Hl Hn H".
    iEval (rewrite rep_GI inode_Ug) in "Hl". iDestruct "Hl" as "[Hl Hkl]".
    iEval (rewrite rep_GI inode_Ug) in "Hn". iDestruct "Hn" as "[Hn Hkn]".
    iEval (rewrite ids_mid inodeU_kn) in "Hp". iDestruct "Hp" as (szp) "(%Hlp & Hp & Htp & Hpf & Hhp)". cbn [gid] in *.
    iEval (rewrite fmap_cons; cbn [gid]; rewrite kels_mid; [|by apply ids_len]) in "Hp".
    iEval (rewrite inodeU_kn fmap_app fmap_cons) in "Hl". iDestruct "Hl" as (szl) "(%Hll & Hl & Htl & Hpl & Hhl)".
    assert (length (gid <$> cx) = Datatypes.S (length kx)) as Lx' by by rewrite fmap_length.
    rewrite kels_mid //. cbn [fmap list_fmap kvals zip zip_with].
    iEval (rewrite inodeU_kn) in "Hn". iDestruct "Hn" as (szn) "(%Hln & Hn & Htn & Hpn & Hhn)". iEval (rewrite kels_front; cbn [head]) in "Hn".
    iApply wp_bind. iApply (kn_items _ _ _ _ _ _ _ _ _ (λ z, z - 1) with "Hl"). iIntros "Hl".
    iApply wp_bind. iApply (kn_items _ _ _ _ _ _ _ _ _ (λ z, z + 1) with "Hn"). iIntros "Hn".
    iApply wp_bind. iApply (kn_getN with "Hn"). iIntros (r (Hlf & _ & _ & Hlft & _)) "Hn". rewrite Hlf Hlft.
    assert (length (kels (V:=V) kx (gid <$> cx)) = length kx) as Hlx.
    { by apply (kels_len mn MN). }
    replace (Z.of_nat (length kx + 1) - 1) with (Z.of_nat (length (kels (V:=V) kx (gid <$> cx)))) by (rewrite Hlx; lia).
    iApply wp_bind. iApply wp_bind. iApply (kn_get _ _ _ _ _ _ _ _ _ (length (kels (V:=V) kx (gid <$> cx))) with "Hl"); [by apply list_lookup_middle|]. iIntros "Hl".
    iApply wp_bind. iApply wp_logicSome. cbn beta iota.
    iApply wp_bind. iApply wp_asNode.
    iApply wp_bind. iApply (kn_del with "Hl"). iIntros "Hl". rewrite app_nil_r. iApply wp_bind. iApply wp_logicOk.
    assert (length (kels (V:=V) ka ((gid <$> L) ++ [l])) = length ka) as Hlk.
    { apply (kels_len mn MN). by apply ids_len. }
    rewrite -{1 2}Hlk.
    iApply wp_bind. iApply (kn_get _ _ _ _ _ _ _ _ _ (length (kels (V:=V) ka ((gid <$> L) ++ [l]))) with "Hp"); [by apply list_lookup_middle|]. iIntros "Hp".
    iApply wp_bind. iApply wp_logicSome. cbn beta iota.
    iApply wp_bind. iApply (kn_del with "Hp"). iIntros "Hp". iApply wp_bind. iApply wp_logicOk.
    iApply wp_bind. iApply (wp_deref _ _ (gid c0)); [done|].
    destruct (kels_ok (s :: ky) (gid c :: gid c0 :: (gid <$> cy)) Hky) as [Hd Ha]. rewrite kels_front in Hd. rewrite kels_front in Ha.
    iApply wp_bind. iApply (kn_put _ _ _ _ _ _ _ [] with "Hn"); [exact Hd|exact Ha|]. iIntros "Hn". iApply wp_bind. iApply wp_logicOk.
    iEval (rewrite reps_app reps_cons) in "Hkl". iDestruct "Hkl" as "(Hkl & Hc & _)".
    iApply wp_bind. iApply (rep_setpar _ _ _ _ _ (Some n) with "Hc"). iIntros "Hc".
    iApply wp_bind. iApply (kn_left with "Hn"). iIntros "Hn".
    destruct (kels_ok (ka ++ mk :: kb) (((gid <$> L) ++ [l]) ++ n :: (gid <$> R)) Hks) as [Hd2 Ha2].
    rewrite kels_mid in Hd2; [|by apply ids_len]. rewrite kels_mid in Ha2; [|by apply ids_len].
    iApply wp_bind. iApply (kn_put with "Hp"); [done|done|]. iIntros "Hp". iApply wp_bind. iApply wp_logicOk.
    iEval (rewrite pfields_app) in "Hpl". iDestruct "Hpl" as "[Hpl Hpc]".
    iApply wp_bind. iApply (arrange_ig _ h _ _ _ stl kx cx with "[Hl Htl Hpl Hhl] Hkl"); [done|..].
    { rewrite inodeU_kn. iExists _. iFrame. iSplit; [done|]. destruct cx; done. }
    iIntros "Hl Hkl".
    iApply (arrange_ig _ h _ _ _ Dirty (s :: ky) (c :: c0 :: cy) with "[Hn Htn Hpn Hhn Hpc] [Hkn Hc]"); [done|..].
    { rewrite inodeU_kn. iExists _. iFrame "Htn Hhn Hn". iSplit; [iPureIntro; cbn [length] in Hln; rewrite !fmap_cons; cbn [length]; congruence|]. unfold pfields. cbn. iDestruct "Hpc" as "[$ _]". done. }
    { rewrite reps_cons. iFrame. }
    iIntros "Hn Hkn".
    change (l) with (gid (GI l stl kx cx)) at 2.
    iApply (pairTail_spec _ _ _ (Datatypes.S h) _ _ _ (ka ++ mk :: kb) L (GI l stl kx cx) (GI n Dirty (s :: ky) (c :: c0 :: cy) :: R) with "HT [Hp Htp Hpf Hhp] [HL HR Hl Hkl Hn Hkn]").
    { done. }
    { rewrite ids_mid inodeU_kn. iExists szp. cbn [gid]. rewrite fmap_cons. cbn [gid]. rewrite kels_mid; [|by apply ids_len].
      iFrame. iPureIntro. rewrite !app_length /= in Hlp |- *. lia. }
    { rewrite reps_app !(reps_cons (Datatypes.S h)) !rep_GI. iFrame. }
    iExact "H".
  Qed.

  Lemma borrowRight_inner io root S h p par ir q n stq kx cx sk ky c c1 cy ka s kb L R Q Er : notclean stq →
    length ka = length L → length kb = length R → length cx = Datatypes.S (length kx) →
    ksorted (ka ++ sk :: kb) → ksorted (kx ++ [s]) →
    isTR root S -∗ inodeU p par ir Dirty (ka ++ s :: kb) (gid <$> (L ++ GI n Dirty kx cx :: GI q stq (sk :: ky) (c :: c1 :: cy) :: R)) -∗
    reps (Datatypes.S h) p L -∗ reps (Datatypes.S h) p R -∗
    rep (Datatypes.S h) (Some p) false (GI n Dirty kx cx) -∗ rep (Datatypes.S h) (Some p) false (GI q stq (sk :: ky) (c :: c1 :: cy)) -∗
    (∀ S' (_ : S ⊆ S'), isTR root S' -∗
       inode p par ir Dirty (ka ++ sk :: kb) (ginfo <$> (L ++ GI n Dirty (kx ++ [s]) (cx ++ [c]) :: GI q Dirty ky (c1 :: cy) :: R)) -∗
       reps (Datatypes.S h) p (L ++ GI n Dirty (kx ++ [s]) (cx ++ [c]) :: GI q Dirty ky (c1 :: cy) :: R) -∗ Q tt) -∗
    wp io (borrowRight cb t n p q (Z.of_nat (length ka) - 1)) Q Er.
  Proof using WF MN.
    iIntros (Hst La Lb Lx Hks Hkx) "HT Hp HL HR Hn Hq H".
    iEval (rewrite rep_GI inode_Ug) in "Hq". iDestruct "Hq" as "[Hq Hkq]".
    iEval (rewrite rep_GI inode_Ug) in "Hn". iDestruct "Hn" as "[Hn Hkn]".
    iEval (rewrite ids_mid inodeU_kn) in "Hp". iDestruct "Hp" as (szp) "(%Hlp & Hp & Htp & Hpf & Hhp)". cbn [gid] in *.
    iEval (rewrite fmap_cons; cbn [gid]; rewrite kels_mid; [|by apply ids_len]) in "Hp".
    iEval (rewrite inodeU_kn) in "Hq". iDestruct "Hq" as (szq) "(%Hlq & Hq & Htq & Hpq & Hhq)".
    rewrite !fmap_cons. iEval (rewrite kels_front; cbn [head kvals fmap list_fmap zip zip_with]) in "Hq".
    assert (length (gid <$> cx) = Datatypes.S (length kx)) as Lx' by by rewrite fmap_length.
    iEval (rewrite inodeU_kn) in "Hn". iDestruct "Hn" as (szn) "(%Hln & Hn & Htn & Hpn & Hhn)".
    iApply wp_bind. iApply (kn_items _ _ _ _ _ _ _ _ _ (λ z, z + 1) with "Hn"). iIntros "Hn".
    iApply wp_bind. iApply (kn_items _ _ _ _ _ _ _ _ _ (λ z, z - 1) with "Hq"). iIntros "Hq".
    iApply wp_bind. iApply (kn_getN with "Hn"). iIntros (r (Hlf & _)) "Hn". rewrite Hlf.
    change 0 with (Z.of_nat (length ([] : list (K * bval)))).
    iApply wp_bind. iApply wp_bind. iApply (kn_get _ _ _ _ _ _ _ _ _ 0 with "Hq"); [done|]. iIntros "Hq".
    iApply wp_bind. iApply wp_logicSome. cbn beta iota.
    iApply wp_bind. iApply (kn_del _ _ _ _ _ _ _ [] with "Hq"). iIntros "Hq". cbn [app]. iApply wp_bind. iApply wp_logicOk.
    assert (length (kels (V:=V) ka ((gid <$> L) ++ [n])) = length ka) as Hlk.
    { apply (kels_len mn MN). by apply ids_len. }
    replace (Z.of_nat (length ka) - 1 + 1) with (Z.of_nat (length (kels (V:=V) ka ((gid <$> L) ++ [n])))) by lia.
    iApply wp_bind. iApply (kn_get _ _ _ _ _ _ _ _ _ (length (kels (V:=V) ka ((gid <$> L) ++ [n]))) with "Hp"); [by apply list_lookup_middle|]. iIntros "Hp".
    iApply wp_bind. iApply wp_logicSome. cbn beta iota.
    iApply wp_bind. iApply (kn_del with "Hp"). iIntros "Hp". iApply wp_bind. iApply wp_logicOk.
    iApply wp_bind. iApply (kn_getN with "Hq"). iIntros (rq (_ & _ & _ & Hlftq & _)) "Hq". rewrite Hlftq.
    iApply wp_bind. iApply (wp_deref _ _ (gid c)); [done|].
    iApply wp_bind. iApply wp_asNode.
    iApply wp_bind. iApply (kn_left with "Hq"). iIntros "Hq".
    iEval (rewrite reps_cons) in "Hkq". iDestruct "Hkq" as "(Hc & Hkq)".
    iApply wp_bind. iApply (rep_setpar _ _ _ _ _ (Some n) with "Hc"). iIntros "Hc".
    destruct (kels_ok (kx ++ [s]) ((gid <$> cx) ++ [gid c]) Hkx) as [Hd Ha]. rewrite kels_mid // in Hd. rewrite kels_mid // in Ha.
    iApply wp_bind. iApply (kn_put _ _ _ _ _ _ _ (kels kx (gid <$> cx)) _ _ [] with "[Hn]"); [exact Hd|exact Ha|by rewrite app_nil_r|]. iIntros "Hn". iApply wp_bind. iApply wp_logicOk.
    destruct (kels_ok (ka ++ sk :: kb) (((gid <$> L) ++ [n]) ++ q :: (gid <$> R)) Hks) as [Hd2 Ha2].
    rewrite kels_mid in Hd2; [|by apply ids_len]. rewrite kels_mid in Ha2; [|by apply ids_len].
    iApply wp_bind. iApply (kn_put with "Hp"); [done|done|]. iIntros "Hp". iApply wp_bind. iApply wp_logicOk.
    iAssert (pfields [gid c] ∗ pfields (gid c1 :: (gid <$> cy)))%I with "[Hpq]" as "[Hpc Hpq]".
    { by rewrite -pfields_app. }
    iApply wp_bind. iApply (arrange_ig _ h _ _ _ Dirty (kx ++ [s]) (cx ++ [c]) with "[Hn Htn Hpn Hhn Hpc] [Hkn Hc]"); [done|..].
    { rewrite inodeU_kn. iExists _. rewrite fmap_app fmap_cons pfields_app kels_mid //. iFrame "Htn Hhn Hpn Hpc". iSplit; [|].
      - iPureIntro. rewrite !app_length /=. lia.
      - destruct cx; done. }
    { rewrite reps_app reps_cons. iFrame. by unfold Rep.reps. }
    iIntros "Hn Hkn".
    iApply (arrange_ig _ h _ _ _ stq ky (c1 :: cy) with "[Hq Htq Hpq Hhq] Hkq"); [done|..].
    { rewrite inodeU_kn. iExists _. iFrame. iPureIntro. rewrite /= in Hlq |- *. lia. }
    iIntros "Hq Hkq".
    change (q) with (gid (GI q stq ky (c1 :: cy))) at 2.
    iApply (pairTail_spec _ _ _ (Datatypes.S h) _ _ _ (ka ++ sk :: kb) (L ++ [GI n Dirty (kx ++ [s]) (cx ++ [c])]) (GI q stq ky (c1 :: cy)) R with "HT [Hp Htp Hpf Hhp] [HL HR Hn Hkn Hq Hkq]").
    { done. }
    { rewrite mid2 ids_mid inodeU_kn. iExists szp. cbn [gid]. rewrite fmap_cons. cbn [gid]. rewrite kels_mid; [|by apply ids_len].
      iFrame. iPureIntro. rewrite !app_length /= in Hlp |- *. lia. }
    { rewrite mid2 !reps_app !(reps_cons (Datatypes.S h)) !rep_GI. iFrame. }
    rewrite mid2. iExact "H".
  Qed.
End borrow.

(** * Loading nodes from storage

    Models no code. *)
From Coq Require Import ssreflect Sorted.
From stdpp Require Import prelude list gmap.
From iris.bi Require Import bi.
From iris.proofmode Require Import proofmode.
From Verif Require Import Spec SpecFacts Llrb LlrbApi BTree HProp Lru Wp Kv Codec Ghost Order PsTree Rep.
Open Scope Z_scope.

(** ** What reading and evicting cannot change *)
Section view.
  Context {K V : Type}.
  Notation gt := (gt K V).
  Notation dt := (dt K V).
  Notation ct := (ct K V).
  Notation frame := (frame K V).

  (** a tree seen without regard to which unmodified nodes are in memory *)
  Inductive vt :=
    | VC (n : nid) (d : dt)
    | VL (n : nid) (st : nst) (kvs : list (K * V))
    | VI (n : nid) (st : nst) (ks : list K) (vs : list vt).
  Fixpoint vdt (v : vt) : dt :=
    match v with
    | VC _ d => d
    | VL _ st kvs => DL (stloc st) kvs
    | VI _ st ks vs => DI (stloc st) ks (vdt <$> vs)
    end.
  Fixpoint vw (g : gt) : vt :=
    match g with
    | GD n d => VC n d
    | GL n (Clean l) kvs => VC n (DL l kvs)
    | GL n st kvs => VL n st kvs
    | GI n (Clean l) ks cs => VC n (DI l ks (vdt <$> (vw <$> cs)))
    | GI n st ks cs => VI n st ks (vw <$> cs)
    end.
  Fixpoint vstrip (v : vt) : ct :=
    match v with VC _ d => dstrip d | VL _ _ kvs => CL kvs | VI _ _ ks vs => CI ks (vstrip <$> vs) end.
  Fixpoint vt_ind' (P : vt → Prop) (HD : ∀ n d, P (VC n d)) (HL : ∀ n st kvs, P (VL n st kvs))
    (HI : ∀ n st ks cs, Forall P cs → P (VI n st ks cs)) (g : vt) : P g :=
    match g with
    | VC n d => HD n d
    | VL n st kvs => HL n st kvs
    | VI n st ks cs => HI n st ks cs
        ((fix go (l : list vt) : Forall P l :=
            match l with [] => Forall_nil_2 P | x :: l => Forall_cons_2 P x l (vt_ind' P HD HL HI x) (go l) end) cs)
    end.
  Definition vid (v : vt) : nid := match v with VC n _ | VL n _ _ | VI n _ _ _ => n end.
  Definition vloc (v : vt) : option loc := match v with VC _ d => Some (dloc d) | _ => None end.
  Lemma strip_vdt v : dstrip (vdt v) = vstrip v.
  Proof.
    induction v as [n d|n st kvs|n st ks cs IH] using vt_ind'; cbn; [done..|]. f_equal.
    rewrite -list_fmap_compose. induction IH as [|c cs Hc _ IHcs]; cbn; [done|]. by rewrite Hc IHcs.
  Qed.
  Lemma strip_vw g : vstrip (vw g) = strip g.
  Proof.
    induction g as [n d|n st kvs|n st ks cs IH] using gt_ind'; [done|by destruct st|].
    destruct st; cbn; f_equal; rewrite -!list_fmap_compose; (induction IH as [|c cs Hc _ IHcs]; cbn; [done|]);
      rewrite ?strip_vdt Hc; f_equal; exact IHcs.
  Qed.
  Lemma vid_vw g : vid (vw g) = gid g.
  Proof. by destruct g as [|? []|? []]. Qed.
  Lemma vloc_vw g : vloc (vw g) = gloc g.
  Proof. by destruct g as [|? []|? []]. Qed.
  Lemma vw_strip g g' : vw g' = vw g → strip g' = strip g.
  Proof. intros H. by rewrite -!strip_vw H. Qed.
  Lemma vw_info g g' : vw g' = vw g → ginfo g' = ginfo g.
  Proof. intros H. unfold ginfo, gsz. by rewrite -!vid_vw -!vloc_vw -!strip_vw H. Qed.
  Lemma vw_infos (cs cs' : list gt) : vw <$> cs' = vw <$> cs → ginfo <$> cs' = ginfo <$> cs.
  Proof.
    revert cs'. induction cs as [|c cs IH]; intros [|c' cs'] H; simplify_eq/=; [done|]. f_equal; [by apply vw_info|by apply IH].
  Qed.
  Lemma vw_ltoks (cs cs' : list gt) : vw <$> cs' = vw <$> cs → ltoks cs' = ltoks cs.
  Proof.
    revert cs'. induction cs as [|c cs IH]; intros [|c' cs'] H; simplify_eq/=; [done|]. f_equal; [|by apply IH].
    cbn. by rewrite (vw_strip c c').
  Qed.

  (** unmodified nodes have unmodified children *)
  Fixpoint cleanok (g : gt) : Prop :=
    match g with
    | GI _ (Clean _) _ cs => Forall (λ c, is_Some (gloc c)) cs ∧ foldr (λ c P, cleanok c ∧ P) True cs
    | GI _ _ _ cs => foldr (λ c P, cleanok c ∧ P) True cs
    | _ => True
    end.
  Lemma cleanok_all (cs : list gt) : foldr (λ c P, cleanok c ∧ P) True cs ↔ Forall cleanok cs.
  Proof. induction cs as [|c cs IH]; cbn; [split; auto|]. rewrite IH Forall_cons. done. Qed.
  Definition isloaded (g : gt) : Prop := match g with GD _ _ => False | _ => True end.

  (** the intermediate states *)
  Fixpoint vpend (v : vt) : list nid :=
    match v with
    | VC _ _ => []
    | VL n st _ => pst n st
    | VI n st _ vs => pst n st ++ mjoin (vpend <$> vs)
    end.
  Lemma pend_vw g : cleanok g → pend g = vpend (vw g).
  Proof.
    induction g as [n d|n st kvs|n st ks cs IH] using gt_ind'; intros Hc; [done|by destruct st|].
    assert (foldr (λ c P, cleanok c ∧ P) True cs) as Hall by by destruct st; [destruct Hc as [_ ?]|..].
    rewrite cleanok_all in Hall.
    assert (pend <$> cs = (vpend ∘ vw) <$> cs) as Heq.
    { clear Hc. induction IH as [|c cs Hc _ IHcs]; cbn; [done|].
      apply Forall_cons in Hall as [H1 H2]. rewrite Hc // IHcs //. }
    destruct st; cbn -[pst]; rewrite Heq list_fmap_compose //.
    cbn. destruct Hc as [Hc _]. clear -Hc. induction Hc as [|c cs [l Hl] _ IH]; cbn; [done|].
    rewrite IH. destruct c as [|? []|? []]; done.
  Qed.
  Lemma vw_pend g g' : cleanok g → cleanok g' → vw g' = vw g → pend g' = pend g.
  Proof. intros. by rewrite !pend_vw //; f_equal. Qed.

  Lemma vw_GI n st ks (cs cs' : list gt) : vw <$> cs' = vw <$> cs → vw (GI n st ks cs') = vw (GI n st ks cs).
  Proof. intros H. destruct st; cbn; by rewrite H. Qed.
  Lemma vw_zip1 f c c' : vw c' = vw c → vw (zip1 f c') = vw (zip1 f c).
  Proof. intros Hv. apply vw_GI. by rewrite !fmap_app !fmap_cons Hv. Qed.
  Lemma vw_fill C c c' : vw c' = vw c → vw (fill C c') = vw (fill C c).
  Proof. revert c c'. induction C as [|f C IH]; intros c c' Hv; [done|]. cbn. by apply IH, vw_zip1. Qed.
End view.
Arguments vt : clear implicits.

Section load.
  Context {K V : Type}.
  Variable cb : callbacks K V.
  Variable dom : K → Prop.
  Variable domV : V → Prop.
  Hypothesis WF : wf_cb cb dom domV.
  Variable mn : nat.
  Variable t : tid.
  Variable ca : bool.
  Notation cmp := (cb_cmp cb).
  Notation M := (M K V).
  Notation hProp := (hProp K V).
  Notation bval := (bval V).
  Notation gt := (gt K V).
  Notation dt := (dt K V).
  Notation ct := (ct K V).
  Notation frame := (frame K V).
  Implicit Types (g c : gt) (d : dt) (n : nid) (C : list frame).
  Let ORD := wf_ord _ _ _ WF.
  Notation good := (good cmp dom domV).
  Notation ksorted := (ksorted cmp dom).
  Notation rep := (rep cb dom mn t ca).
  Notation reps := (reps cb dom mn t ca).
  Notation dsk := (dsk cb).
  Notation isTR := (isTR mn t ca).
  Notation inode := (inode cb dom mn t ca).
  Notation lnode := (lnode cb dom mn t ca).
  Notation whole := (whole cb dom mn t ca).
  Notation ctx := (ctx cb dom mn t ca).

  Lemma rep_GD h par ir n d : rep h par ir (GD n d) ⊣⊢
    ∃ r, <affine> ⌜drec t par d r⌝ ∗ isN n r ∗ isT n noLRU ∗ dsk h (mxof mn ir) d.
  Proof. by destruct h. Qed.

  Lemma rep_GI h par ir n st ks cs : rep (S h) par ir (GI n st ks cs) ⊣⊢
    inode n par ir st ks (ginfo <$> cs) ∗ reps h n cs.
  Proof. done. Qed.
  Lemma kv_snoc {W} k (w : W) els : dom k → Forall (λ p, dom p.1) els →
    Forall (λ p, below cmp p.1 k = true) els →
    present cmp k els = false ∧ s_insert cmp k w els = els ++ [(k, w)].
  Proof using WF. by apply (s_insert_snoc cb dom domV WF). Qed.

  Definition refs_at n (ids : list nid) (krefs : list (ref)) : hProp :=
    ([∗ list] c;kr ∈ ids;krefs, isN c (refNode t n kr.1 kr.2) ∗ isT c noLRU ∗ ∃ x, isP c x)%I.

  Lemma loadInner_spec io n T (krefs : list (K * ref)) : ∀ els r kv rest Q E,
    b_kv r = Some kv → iskv cb dom els kv →
    Forall (λ p, locok p.2.1 ∧ fits p.2.2) krefs → ksorted (els.*1 ++ krefs.*1) →
    isR t T -∗ isN n r -∗
    (∀ ids kv' (_ : length ids = length krefs ∧ iskv cb dom (els ++ zip krefs.*1 (VNode <$> ids)) kv'),
       isR t T -∗ isN n (set_kv (Some kv') r) -∗ refs_at n ids krefs.*2 -∗ Q rest) -∗
    wp io (loadInner cb (length krefs) t n (mjoin (enc_kref cb <$> krefs) ++ rest)) Q E.
  Proof using WF.
    induction krefs as [|[k rf] krefs IH]; intros els r kv rest Q E Hr Hkv Hok Hs; cbn [loadInner length]; iIntros "HR HN H".
    { iApply wp_ret. assert (length ([] : list nid) = length ([] : list (K * ref)) ∧ iskv cb dom (els ++ zip ([] : list (K * ref)).*1 (VNode <$> [])) kv) as HX.
      { split; [done|]. cbn. by rewrite app_nil_r. }
      iApply ("H" $! [] kv HX with "HR [HN]"); [|by unfold refs_at].
      destruct r; simpl in *; by rewrite -Hr. }
    apply Forall_cons in Hok as [[Hlo Hfi] Hok]. cbn [fst snd] in *.
    cbn [fmap list_fmap mjoin list_join]. unfold enc_kref at 1. cbn [fst snd]. rewrite -!app_assoc.
    assert (dom k) as Hk. { destruct Hs as [_ Hs]. apply Forall_app in Hs as [_ Hs]. cbn in Hs. by apply Forall_cons in Hs as [? _]. }
    iApply wp_bind. iApply (wp_unpackKeyM cb dom domV WF); [done|].
    iApply wp_bind. iApply wp_unpackRef; [done..|].
    iApply wp_bind. iApply wp_newNode. iIntros (c) "HC HP HT".
    destruct (kv_snoc k (VNode c) els Hk) as [Hp Hi].
    { by eapply iskv_dom. }
    { pose proof Hs as (_ & _ & Hb)%ksorted_app. apply Forall_forall. intros p Hp'. apply Hb; [|by left].
      by apply (elem_of_list_fmap_1 fst). }
    iApply wp_bind. iApply (wp_kvPut_ cb dom ORD with "HN"); [done..|]. iIntros (kv' Hkv') "HN". rewrite Hi in Hkv'.
    iApply wp_bind. iApply (wp_initNodeAsEvicted with "HR HT"). iIntros "HR HT".
    iApply (IH (els ++ [(k, VNode c)]) with "HR HN"); [done..| |].
    { rewrite fmap_app -app_assoc. exact Hs. }
    iIntros (ids kv2 [Hlen Hkv2]) "HR HN Hrefs".
    assert (length (c :: ids) = length ((k, rf) :: krefs) ∧ iskv cb dom (els ++ zip ((k, rf) :: krefs).*1 (VNode <$> (c :: ids))) kv2) as HX.
    { split; [cbn; by rewrite Hlen|]. rewrite -app_assoc in Hkv2. exact Hkv2. }
    iApply ("H" $! (c :: ids) kv2 HX with "HR HN [HC HP HT Hrefs]").
    unfold refs_at. cbn. iFrame. by iExists _.
  Qed.

  Lemma dsk_facts h mx d : dsk h mx d ⊢ ⌜locok (dloc d) ∧ fits (csz (dstrip d))⌝.
  Proof.
    destruct h, d; cbn [Rep.dsk dloc dstrip]; try by iIntros "[]".
    - iIntros "[[_ (%H1 & %H2)] (%H3 & %H4)]". iPureIntro. by rewrite csz_CL.
    - iIntros "([_ (%H1 & %H2)] & (%H3 & %H4 & %H5) & _)". done.
  Qed.
  Lemma dsks_facts h ds : ([∗ list] x ∈ ds, dsk h None x) ⊢ ⌜Forall (λ d, locok (dloc d) ∧ fits (csz (dstrip d))) ds⌝.
  Proof.
    induction ds as [|d ds IH]; cbn; [iIntros "_"; iPureIntro; constructor|].
    iIntros "[Hd H]". rewrite IH dsk_facts. iDestruct "Hd" as %Hd. iDestruct "H" as %H. iPureIntro. by constructor.
  Qed.

  Definition loadedT (ir : bool) (T : treerec) : treerec :=
    if ir then Tree (Z.of_nat mn) (2 * Z.of_nat mn) (t_root T) (t_stale T) (t_cache T) else T.
  Definition gkids (ids : list nid) (ds : list dt) : list gt := zip_with GD ids ds.

  Lemma reps_refs h n ids ds : length ids = length ds →
    ([∗ list] c;kr ∈ ids;(dref <$> ds), isN c (refNode t n kr.1 kr.2) ∗ isT c noLRU) -∗
    ([∗ list] x ∈ ds, dsk h None x) -∗ reps h n (gkids ids ds).
  Proof.
    revert ds. induction ids as [|c ids IH]; intros [|d ds] Hl; simplify_eq/=; [auto|].
    iIntros "[(HN & HT) H] [Hd Hds]". unfold Rep.reps. cbn. iSplitL "HN HT Hd".
    - rewrite rep_GD. iExists _. iFrame. iPureIntro. done.
    - by iApply (IH with "H Hds").
  Qed.
  Lemma gkids_id ids ds : length ids = length ds → gid <$> gkids ids ds = ids.
  Proof. revert ds. induction ids as [|c ids IH]; intros [|d ds] H; simplify_eq/=; [done|]. f_equal. by apply IH. Qed.
  Lemma gkids_sz ids ds : length ids = length ds → gsz <$> gkids ids ds = (csz ∘ dstrip) <$> ds.
  Proof. revert ds. induction ids as [|c ids IH]; intros [|d ds] H; simplify_eq/=; [done|]. f_equal. by apply IH. Qed.
  Lemma gkids_vw ids ds : length ids = length ds → vdt <$> (vw <$> gkids ids ds) = ds.
  Proof. revert ds. induction ids as [|c ids IH]; intros [|d ds] H; simplify_eq/=; [done|]. f_equal. by apply IH. Qed.
  Lemma gkids_ref ids ds : length ids = length ds → Forall2 refok (ginfo <$> gkids ids ds) (dref <$> ds).
  Proof. revert ds. induction ids as [|c ids IH]; intros [|d ds] H; simplify_eq/=; constructor; [done|]. by apply IH. Qed.
  Lemma gkids_len ids ds : length ids = length ds → length (gkids ids ds) = length ds.
  Proof. intros H. unfold gkids. rewrite zip_with_length. lia. Qed.

  Definition rkids n (ids : list nid) (ds : list dt) : list (kid (K:=K) (V:=V)) :=
    zip_with (λ (x : nid) (y : dt), (x, refNode t n (dloc y) (csz (dstrip y)))) ids ds.
  Lemma rkids_1 n ids ds : length ids = length ds → (rkids n ids ds).*1 = ids.
  Proof. revert ds. induction ids as [|x ids IH]; intros [|d ds] H; simplify_eq/=; [done|]. f_equal. by apply IH. Qed.
  Lemma rkids_ent n ids ds : length ids = length ds →
    imap ent_at (rkids n ids ds) = imap entof (ginfo <$> gkids ids ds).
  Proof.
    intros H. rewrite imap_fmap. unfold rkids, gkids.
    apply list_eq. intros i. rewrite !list_lookup_imap !lookup_zip_with.
    destruct (ids !! i), (ds !! i); done.
  Qed.
  Lemma rkids_N n ids ds : length ids = length ds →
    ([∗ list] x;kr ∈ ids;(dref <$> ds), isN x (refNode t n kr.1 kr.2)) ⊣⊢ ([∗ list] p ∈ rkids n ids ds, isN p.1 p.2 : hProp).
  Proof.
    revert ds. induction ids as [|x ids IH]; intros [|d ds] H; simplify_eq/=; [done|]. rewrite IH //.
  Qed.
  Lemma rkids_P n ids ds : length ids = length ds →
    ([∗ list] x;_ ∈ ids;(dref <$> ds), ∃ p, isP x p) ⊣⊢ ([∗ list] p ∈ rkids n ids ds, ∃ x, isP p.1 x : hProp).
  Proof.
    revert ds. induction ids as [|x ids IH]; intros [|d ds] H; simplify_eq/=; [done|]. rewrite IH //.
  Qed.

  Lemma wp_loadMax io ir T rest (Q : bytes → hProp) E : mxfit (mxof mn ir) →
    isR t T -∗ (isR t (loadedT ir T) -∗ Q rest) -∗
    wp io (if isS (mxof mn ir) then
         bind (unpackU64 (enc_mx (mxof mn ir) ++ rest)) (λ '(max, payload),
         bind (modT t (λ T, Tree (max / 2) max (t_root T) (t_stale T) (t_cache T))) (λ _ : unit,
         ret payload))
        else ret (enc_mx (mxof mn ir) ++ rest)) Q E.
  Proof.
    iIntros (Hm) "HR H". destruct ir; cbn [mxof isS enc_mx loadedT].
    - iApply wp_bind. iApply wp_unpackU64; [done|]. iApply wp_bind. iApply (wp_modT with "HR"). iIntros "HR".
      iApply wp_ret. iApply "H". replace (2 * Z.of_nat mn / 2) with (Z.of_nat mn); [done|].
      rewrite Z.mul_comm Z.div_mul //.
    - iApply wp_ret. by iApply "H".
  Qed.

  (** a node not yet loaded; its item count does not matter *)
  Definition drec0 (par : option nid) (d : dt) (r : bnode K V) : Prop :=
    b_loc r = dloc d ∧ b_loaded r = false ∧ b_dirty r = false ∧ b_tree r = t ∧ b_parent r = par.
  Lemma drec_0 par d r : drec t par d r → drec0 par d r.
  Proof. intros (?&?&?&?&?&?&?). done. Qed.
  Lemma loadNode_spec h par ir n d r T Q E : drec0 par d r → t_cache T = ca →
    good (toks (dstrip d)) → (∃ b, wfo mn b h (dstrip d)) →
    isR t T -∗ isN n r -∗ isT n noLRU -∗ dsk h (mxof mn ir) d -∗
    ((∀ g (_ : vw g = VC n d ∧ isloaded g), isR t (loadedT ir T) -∗ rep h par ir g -∗ Q tt) ∧
     (isR t T -∗ isN n r -∗ isT n noLRU -∗ dsk h (mxof mn ir) d -∗ E EIO)) -∗
    wp true (loadNode cb t n) Q E.
  Proof using WF.
    iIntros (Hr Hca Hg [b0 Hw]) "HR HN HT Hd H". iApply wp_bind. iApply (wp_getN with "HN"). iIntros "HN".
    destruct Hr as (Hloc & Hld & Hdi & Htr & Hpar). iApply wp_bind. rewrite Hloc.
    assert (t_cache (loadedT ir T) = ca) as Hca' by by destruct ir.
    destruct d as [l kvs|l ks ds].
    - (* leaf *)
      destruct h as [|h]; [|done]. cbn [Rep.dsk dloc].
      iDestruct "Hd" as "[[Hd (%Hlo & %Hpos)] (%Hmx & %Hfit)]".
      iApply (wp_GetNode with "Hd"). iSplit; last first.
      { iDestruct "H" as "[_ H]". iIntros "Hd". iApply ("H" with "HR HN HT"). unfold blk. iFrame. done. }
      iDestruct "H" as "[H _]". iIntros "Hd".
      iApply wp_bind. iApply (wp_modN with "HN"). iIntros "HN".
      iApply wp_bind. unfold enc_leaf at 2. change [bool_byte (isS (mxof mn ir)); 1] with [bool_byte (isS (mxof mn ir)); bool_byte true].
      iApply wp_unpackNode; [done|].
      iApply wp_bind. iApply (wp_modN with "HN"). iIntros "HN".
      iApply wp_bind. iApply (wp_modN with "HN"). iIntros "HN".
      iApply wp_bind. iApply (wp_modN with "HN"). iIntros "HN".
      iApply wp_bind. iApply (wp_loadMax with "HR"); [done|]. iIntros "HR".
      iApply wp_bind. iApply wp_bind. iApply wp_unpackU64; [done|].
      iApply wp_bind. rewrite Nat2Z.id. rewrite -(app_nil_r (mjoin (enc_kv cb <$> kvs))).
      cbn [dstrip toks] in Hg. apply good_leaf in Hg as [Hasc Hdm].
      iApply (loadLeaf_spec cb dom domV WF with "HN"); [done|apply iskv_E|done| |].
      { by apply asc_keys. }
      iIntros (kv Hkv) "HN". cbn [app] in Hkv.
      iApply wp_bind. iApply (wp_modN with "HN"). iIntros "HN". iApply wp_ret.
      iApply wp_bind. iApply (wp_modN with "HN"). iIntros "HN".
      iApply (wp_markNodeClean _ _ _ _ _ noLRU with "HR HN [HT]").
      { unfold ctagof. rewrite Hca'. destruct ca; iExact "HT". }
      iIntros "HR HN HT". unfold ctagof. rewrite Hca'.
      assert (vw (GL n (Clean l) kvs : gt) = VC n (DL l kvs) ∧ isloaded (GL n (Clean l) kvs)) as HX by done.
      iApply ("H" $! _ HX with "HR"). cbn [Rep.rep]. iExists kv, (b_left r), None. iSplit; [done|].
      iSplitL "HN".
      { destruct r; cbn in *. subst. unfold nrec. cbn. destruct ir; done. }
      iSplitL "HT"; [done|]. cbn. unfold blk. iFrame. done.
    - destruct h as [|h]; [done|]. cbn [Rep.dsk dloc].
      iDestruct "Hd" as "([Hd (%Hlo & %Hpos)] & (%Hmx & %Hfit & %Hfl & %Hlen) & Hds)".
      iApply (wp_GetNode with "Hd"). iSplit; last first.
      { iDestruct "H" as "[_ H]". iIntros "Hd". iApply ("H" with "HR HN HT"). unfold blk. iFrame. done. }
      iDestruct "H" as "[H _]". iIntros "Hd".
      iApply wp_bind. iApply (wp_modN with "HN"). iIntros "HN".
      iApply wp_bind. destruct ds as [|d0 ds]; [done|]. injection Hlen as Hlen.
      iDestruct (dsks_facts with "Hds") as %Hfacts.
      cbn [fmap list_fmap enc_inner']. unfold enc_inner at 2.
      change [bool_byte (isS (mxof mn ir)); 0] with [bool_byte (isS (mxof mn ir)); bool_byte false].
      iApply wp_unpackNode; [done|].
      iApply wp_bind. iApply (wp_modN with "HN"). iIntros "HN".
      iApply wp_bind. iApply (wp_modN with "HN"). iIntros "HN".
      iApply wp_bind. iApply (wp_modN with "HN"). iIntros "HN".
      iApply wp_bind. iApply (wp_loadMax with "HR"); [done|]. iIntros "HR".
      iApply wp_bind. iApply wp_bind.
      assert (length (zip ks (dref <$> ds)) = length ks) as Hlz.
      { rewrite zip_with_length fmap_length. lia. }
      rewrite Hlz.
      iApply wp_unpackU64; [done|].
      destruct (Z.eqb_spec (1 + Z.of_nat (length ks)) 0); [lia|].
      apply Forall_cons in Hfacts as [[Hlo0 Hfi0] Hfacts].
      iApply wp_bind. iApply wp_unpackRef; [done..|].
      iApply wp_bind. iApply wp_newNode. iIntros (c0) "HC HP0 HT0".
      iApply wp_bind. iApply (wp_modN with "HN"). iIntros "HN".
      iApply wp_bind. iApply (wp_initNodeAsEvicted with "HR HT0"). iIntros "HR HT0".
      assert (ksorted ks) as Hks.
      { apply (good_seps cmp dom domV ORD ks (toks <$> (dstrip <$> (d0 :: ds)))); [|exact Hg]. rewrite !fmap_length. cbn. by rewrite Hlen. }
      assert ((zip ks (dref <$> ds)).*1 = ks ∧ (zip ks (dref <$> ds)).*2 = dref <$> ds) as [Hz1 Hz2].
      { split; [apply fst_zip|apply snd_zip]; rewrite fmap_length; lia. }
      iApply wp_bind. replace (Z.to_nat (1 + Z.of_nat (length ks) - 1)) with (length (zip ks (dref <$> ds))) by lia.
      rewrite -(app_nil_r (mjoin (enc_kref cb <$> _))).
      iApply (loadInner_spec with "HR HN"); [done|apply iskv_E| | |].
      { apply Forall_forall. intros [k rf] Hin. apply elem_of_zip_r in Hin. cbn.
        apply elem_of_list_fmap in Hin as (d & -> & Hin). exact (proj1 (Forall_forall _ _) Hfacts d Hin). }
      { cbn. by rewrite Hz1. }
      iIntros (ids kv [Hli Hkv]) "HR HN Hrefs". rewrite Hz1 in Hkv. rewrite Hz2. cbn [app] in Hkv.
      iApply wp_bind. iApply wp_ignoreErr.
      iAssert (refs_at n (c0 :: ids) (dref <$> (d0 :: ds))) with "[Hrefs HC HP0 HT0]" as "Hrefs".
      { unfold refs_at. cbn. iFrame. by iExists _. }
      set (ids' := c0 :: ids). set (ds' := d0 :: ds).
      assert (length ids' = length ds') as Hids by (cbn; lia).
      unfold refs_at. rewrite big_sepL2_sep big_sepL2_sep rkids_N // rkids_P //.
      iDestruct "Hrefs" as "(HNs & HTs & HPs)".
      iApply (arrange_spec cb dom true n _ kv ks (rkids n ids' ds') with "HN HNs HPs"); [done|by rewrite rkids_1|by rewrite rkids_1|..].
      { unfold rkids. rewrite zip_with_length. cbn. lia. }
      iIntros (b [Hb Hlf]) "HN HNs Hps". iApply wp_ret.
      iApply wp_bind. iApply (wp_modN with "HN"). iIntros "HN".
      iApply (wp_markNodeClean _ _ _ _ _ noLRU with "HR HN [HT]").
      { unfold ctagof. rewrite Hca'. destruct ca; iExact "HT". }
      iIntros "HR HN HT". unfold ctagof. rewrite Hca'.
      rewrite -rkids_N // -/ids'. 
      set (cs := gkids ids' ds').
      assert (vw (GI n (Clean l) ks cs : gt) = VC n (DI l ks ds') ∧ isloaded (GI n (Clean l) ks cs)) as HX.
      { split; [|done]. change (VC n (DI l ks (vdt <$> (vw <$> cs))) = VC n (DI l ks ds')). by rewrite gkids_vw. }
      iApply ("H" $! _ HX with "HR"). rewrite rep_GI. iSplitR "HNs HTs Hds"; last first.
      { iApply (reps_refs with "[HNs HTs] Hds"); [done|]. rewrite big_sepL2_sep. iFrame. }
      assert (isum (ginfo <$> cs) = csz (dstrip (DI l ks ds'))) as Hsum.
      { cbn [dstrip]. rewrite csz_CI; [|by rewrite !fmap_length; cbn; lia]. rewrite chs_sum. unfold cs. rewrite gkids_sz //. by rewrite -list_fmap_compose. }
      assert (i_id <$> (ginfo <$> cs) = ids') as Hid.
      { rewrite -list_fmap_compose. by apply gkids_id. }
      iExists kv, b. rewrite Hid. iSplit.
      { iPureIntro. split_and!; [done| | |done].
        - rewrite fmap_length gkids_len //. cbn. lia.
        - by rewrite Hb rkids_ent. }
      iSplitL "HN".
      { assert (bsum b = csz (dstrip (DI l ks ds'))) as Hbs.
        { rewrite -Hsum bsum_bins Hb rkids_ent // imap_entof_sz. done. }
        rewrite Hsum Hbs. clear -Hloc Hld Hdi Htr Hpar. destruct r; cbn in *. subst. destruct ir; done. }
      iSplitL "HT"; [done|]. iFrame "Hps". iExists (dref <$> ds'). rewrite Hsum. iSplitL "Hd".
      { unfold blk. iFrame. done. }
      iPureIntro. split_and!; [done|done|done|by apply gkids_ref].
  Qed.

  (** ** Visiting a node *)
  Definition usable g : Prop := match g with GL _ st _ | GI _ st _ _ => sttag st ≠ noLRU | _ => True end.
  Lemma pend_usable g : pend g = [] → usable g.
  Proof. by destruct g as [|? []|? []]. Qed.
  Lemma usable_vw g g' : vw g' = vw g → usable g → usable g'.
  Proof. destruct g as [|? []|? []], g' as [|? []|? []]; try done; by intros [= -> -> _]. Qed.

  Lemma load_spec h par ir n d r root S Q E : drec t par d r →
    good (toks (dstrip d)) → (∃ b, wfo mn b h (dstrip d)) →
    isTR root S -∗ isN n r -∗ isT n noLRU -∗ dsk h (mxof mn ir) d -∗
    ((∀ g (_ : vw g = VC n d ∧ isloaded g), isTR root S -∗ rep h par ir g -∗ Q tt) ∧
     (isTR root S -∗ rep h par ir (GD n d) -∗ E EIO)) -∗
    wp true (loadNode cb t n) Q E.
  Proof using WF.
    iIntros (Hr Hg Hw) "[HR HS] HN HT Hd H".
    iApply (loadNode_spec with "HR HN HT Hd"); [by apply drec_0|done..|].
    assert (loadedT ir (trec mn ca root S) = trec mn ca root S) as -> by by destruct ir.
    iSplit.
    - iDestruct "H" as "[H _]". iIntros (g Hgg) "HR Hr". iApply ("H" $! g Hgg with "[$HR $HS] Hr").
    - iDestruct "H" as "[_ H]". iIntros "HR HN HT Hd". iApply ("H" with "[$HR $HS]"). rewrite rep_GD. iExists r. iFrame. done.
  Qed.
  Lemma visit_spec mark h par ir g root S Q E :
    good (toks (strip g)) → (∃ b, wfo mn b h (strip g)) → (mark = true → usable g) →
    isTR root S -∗ rep h par ir g -∗
    ((∀ g' (_ : vw g' = vw g ∧ isloaded g'), isTR root S -∗ rep h par ir g' -∗ Q tt) ∧
     (isTR root S -∗ rep h par ir g -∗ E EIO)) -∗
    wp true (visit cb mark t (gid g)) Q E.
  Proof using WF.
    iIntros (Hg Hw Hu) "HT Hr H". destruct g as [n d|n st kvs|n st ks cs].
    - iEval (rewrite rep_GD) in "Hr". iDestruct "Hr" as (r Hr) "(HN & Ht & Hd)".
      iApply wp_bind. iApply (wp_getN with "HN"). iIntros "HN".
      pose proof Hr as (_ & _ & Hld & _). rewrite Hld.
      iApply wp_bind. iDestruct "HT" as "[HR HS]". iApply (wp_incCacheMisses with "HR"). iIntros "HR".
      iApply (load_spec with "[$HR $HS] HN Ht Hd"); [done..|].
      iExact "H".
    - iDestruct "H" as "[H _]". destruct h; [|done]. cbn [Rep.rep].
      iDestruct "Hr" as (kv left ps Hkv) "(HN & Ht & Hb)".
      iApply wp_bind. iApply (wp_getN with "HN"). iIntros "HN". cbn [nrec b_loaded].
      iApply wp_bind. iDestruct "HT" as "[HR HS]". iApply (wp_incCacheHits with "HR"). iIntros "HR".
      iAssert (isTR root S -∗ isT n (tg ca (sttag st)) -∗ Q tt)%I with "[H HN Hb]" as "H".
      { iIntros "HT Ht". assert (vw (GL n st kvs) = vw (GL n st kvs) ∧ isloaded (GL n st kvs)) as HX by done.
        iApply ("H" $! _ HX with "HT"). iExists kv, left, ps. iFrame. done. }
      destruct mark.
      + iApply (wp_used with "[$HR $HS] Ht"); [by apply Hu|]. iIntros "HT Ht". iApply ("H" with "HT Ht").
      + iApply wp_ret. iApply ("H" with "[$HR $HS] Ht").
    - iDestruct "H" as "[H _]". destruct h; [done|]. rewrite rep_GI.
      iDestruct "Hr" as "[(%kv & %b & %Hkv & HN & Ht & Hb) Hk]".
      iApply wp_bind. iApply (wp_getN with "HN"). iIntros "HN". cbn [nrec b_loaded].
      iApply wp_bind. iDestruct "HT" as "[HR HS]". iApply (wp_incCacheHits with "HR"). iIntros "HR".
      iAssert (isTR root S -∗ isT n (tg ca (sttag st)) -∗ Q tt)%I with "[H HN Hb Hk]" as "H".
      { iIntros "HT Ht". assert (vw (GI n st ks cs) = vw (GI n st ks cs) ∧ isloaded (GI n st ks cs)) as HX by done.
        iApply ("H" $! _ HX with "HT"). rewrite rep_GI. iFrame "Hk". iExists kv, b. iFrame. done. }
      destruct mark.
      + iApply (wp_used with "[$HR $HS] Ht"); [by apply Hu|]. iIntros "HT Ht". iApply ("H" with "HT Ht").
      + iApply wp_ret. iApply ("H" with "[$HR $HS] Ht").
  Qed.
  (** the view determines the shape of a loaded node *)
  Lemma isloaded_leaf g h b : isloaded g → wfo mn b h (strip g) →
    match g with GL _ _ _ => h = 0%nat | GI _ _ _ _ => (0 < h)%nat | _ => False end.
  Proof. destruct g, h; cbn; try done. lia. Qed.

  (** modified children make a node modified *)
  Lemma rep_cleanok h par ir g : rep h par ir g ⊢ ⌜cleanok g⌝.
  Proof.
    revert h par ir. induction g as [n d|n st kvs|n st ks cs IH] using gt_ind'; intros h par ir; [iIntros; done..|].
    destruct h as [|h]; [iIntros "[]"|]. rewrite rep_GI. iIntros "[Hi Hk]".
    iAssert (⌜Forall cleanok cs⌝)%I with "[Hk]" as %Hall.
    { unfold Rep.reps. iInduction IH as [|c cs Hc _] "IH"; cbn; [iPureIntro; constructor|].
      iDestruct "Hk" as "[Hc Hk]". rewrite Hc. iDestruct "Hc" as %Hok. iDestruct ("IH" with "Hk") as %Hall.
      iPureIntro. by constructor. }
    apply cleanok_all in Hall.
    iDestruct "Hi" as (kv b _) "(_ & _ & _ & Hb)". destruct st; try done.
    iDestruct "Hb" as (refs) "[_ (_ & _ & _ & %Href)]". iPureIntro. split; [|done].
    clear -Href. remember (ginfo <$> cs) as chs eqn:E. revert cs E. induction Href as [|? r chs refs [H1 H2] _ IH]; intros [|c cs] E; simplify_eq/=; constructor; eauto.
  Qed.
End load.

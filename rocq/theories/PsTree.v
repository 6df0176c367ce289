(** * Prefix-sum trees: arranging, updating and searching them

    Models no code; proofs about BTree.v. *)
From Coq Require Import ssreflect.
From stdpp Require Import prelude list gmap.
From iris.bi Require Import bi.
From iris.proofmode Require Import proofmode.
From Verif Require Import Spec SpecFacts Llrb LlrbApi BTree HProp Lru Wp Kv Codec Ghost.
Open Scope Z_scope.

(** a prefix-sum tree over entries (node, items of that node, kv index) *)
Definition ent : Type := nid * Z * Z.
Definition e_id (e : ent) : nid := e.1.1.
Definition e_sz (e : ent) : Z := e.1.2.
Definition e_ix (e : ent) : Z := e.2.
Inductive bt := BE | BN (l : bt) (e : ent) (r : bt).
Fixpoint bins (b : bt) : list ent :=
  match b with BE => [] | BN l e r => bins l ++ e :: bins r end.
Fixpoint bsum (b : bt) : Z :=
  match b with BE => 0 | BN l e r => bsum l + e_sz e + bsum r end.
Definition brt (b : bt) : option nid := match b with BE => None | BN _ e _ => Some (e_id e) end.
(** no node has a right child only *)
Fixpoint lefty (b : bt) : Prop :=
  match b with BE => True | BN l _ r => (l = BE → r = BE) ∧ lefty l ∧ lefty r end.
Notation esum l := (sumz (e_sz <$> l)).
Lemma bsum_bins b : bsum b = esum (bins b).
Proof.
  induction b as [|l IHl e r IHr]; [done|]. cbn [bins bsum]. rewrite IHl IHr fmap_app fmap_cons sumz_app sumz_cons. lia.
Qed.
Lemma brt_None b : brt b = None ↔ b = BE.
Proof. by destruct b. Qed.

Section ps.
  Context {K V : Type}.
  Variable cb : callbacks K V.
  Variable dom : K → Prop.
  Hypothesis ORD : total_order (cb_cmp cb) dom.
  Notation M := (M K V).
  Notation hProp := (hProp K V).
  Notation bval := (bval V).

  Fixpoint pstr (par : option nid) (b : bt) : hProp :=
    match b with
    | BE => emp
    | BN l e r =>
        isP (e_id e) (Ps (bsum b) (e_ix e) par (brt l) (brt r)) ∗
        pstr (Some (e_id e)) l ∗ pstr (Some (e_id e)) r
    end%I.
  Global Instance pstr_affine par b : Affine (pstr par b).
  Proof. revert par. induction b; intros; simpl; apply _. Qed.

  Lemma big_sepL_emp_mono (Φ : ent → hProp) l : (∀ x, Affine (Φ x)) → Affine ([∗ list] x ∈ l, Φ x).
  Proof. intros. induction l; simpl; apply _. Qed.

  (** ** Arranging *)
  Definition raw (e : ent) : hProp := isP (e_id e) (Ps (e_sz e) (e_ix e) None None None).
  Lemma pstr_par par b n : brt b = Some n → pstr par b ⊢
    ∃ p, isP n p ∗ <affine> ⌜pspar p = par⌝ ∗
      ∀ par', isP n (Ps (psitems p) (pskv p) par' (psl p) (psr p)) -∗ pstr par' b.
  Proof.
    destruct b as [|l e r]; [done|]. intros [= <-]. simpl. iIntros "(HP & Hl & Hr)".
    iExists _. iFrame "HP". iSplit; [done|]. iIntros (par') "HP". simpl. iFrame.
  Qed.
  Lemma pstr_root par b n : brt b = Some n → pstr par b ⊢
    ∃ ix l r, isP n (Ps (bsum b) ix par l r) ∗ (isP n (Ps (bsum b) ix par l r) -∗ pstr par b).
  Proof.
    destruct b as [|l e r]; [done|]. intros [= <-]. simpl. iIntros "(HP & Hl & Hr)".
    iExists _, _, _. iFrame "HP". iIntros "HP". simpl. iFrame.
  Qed.
  Lemma bsum_item par b n : brt b = Some n → pstr par b ⊢
    ∃ p, isP n p ∗ <affine> ⌜psitems p = bsum b⌝ ∗ (isP n p -∗ pstr par b).
  Proof.
    destruct b as [|l e r]; [done|]. intros [= <-]. simpl. iIntros "(HP & Hl & Hr)".
    iExists _. iFrame "HP". iSplit; [done|]. iIntros "HP". simpl. iFrame.
  Qed.
  Lemma arrangeRec_spec io : ∀ fuel (L : list ent) Q E, (length L ≤ fuel)%nat → L ≠ [] →
    ([∗ list] e ∈ L, raw e) -∗
    (∀ b n (_ : bins b = L ∧ lefty b ∧ brt b = Some n), pstr None b -∗ Q n) -∗
    wp io (arrangeRec fuel (e_id <$> L)) Q E.
  Proof.
    induction fuel as [|fuel IH]; intros L Q E Hf HL; [by destruct L; simpl in *; [|lia]|].
    cbn [arrangeRec]. rewrite fmap_length. set mid := Nat.div2 (length L).
    assert (length L ≠ 0)%nat as Hn0 by by destruct L.
    assert (mid < length L)%nat as Hmid by (by apply Nat.lt_div2; lia).
    destruct (lookup_lt_is_Some_2 L mid) as [e He]; [done|].
    rewrite list_lookup_fmap He /=.
    set A := take mid L. set B := drop (S mid) L.
    assert (L = A ++ e :: B) as HLe by by rewrite take_drop_middle.
    assert (length A = mid) as HlA. { unfold A. rewrite take_length. lia. }
    assert (length B = length L - mid - 1)%nat as HlB. { unfold B. rewrite drop_length. lia. }
    rewrite {1}HLe big_sepL_app big_sepL_cons. iIntros "(HA & He & HB) HQ".
    iApply wp_bind.
    iAssert (∀ bl (_ : bins bl = A ∧ lefty bl), pstr (Some (e_id e)) bl -∗
       isP (e_id e) (Ps (e_sz e + bsum bl) (e_ix e) None (brt bl) None) -∗
       wp io (bind
         (if decide (mid + 1 < length L)%nat then
            bind (arrangeRec fuel (drop (mid + 1) (e_id <$> L))) (λ r : nid,
              bind (modP (e_id e) (λ p, Ps (psitems p) (pskv p) (pspar p) (psl p) (Some r))) (λ _ : unit,
              bind (modP r (λ p, Ps (psitems p) (pskv p) (Some (e_id e)) (psl p) (psr p))) (λ _ : unit,
              bind (getP r) (λ pr,
              modP (e_id e) (λ p, Ps (psitems p + psitems pr) (pskv p) (pspar p) (psl p) (psr p))))))
          else ret tt) (λ _ : unit, ret (e_id e))) Q E)%I with "[HB HQ]" as "Hk".
    { iIntros (bl [Hbl Hlf]) "Hl He". iApply wp_bind. destruct (decide (mid + 1 < length L)%nat) as [Hc|Hc].
      - assert (B ≠ []) as HBn. { intros HB0. rewrite HB0 /= in HlB. lia. }
        rewrite Nat.add_1_r -fmap_drop. fold B.
        iApply wp_bind. iApply (IH with "HB"); [lia|done|].
        iIntros (br n (Hbr & Hlfr & Hn)) "Hr".
        iApply wp_bind. iApply (wp_modP with "He"). iIntros "He". simpl.
        iDestruct (pstr_par _ _ _ Hn with "Hr") as (p) "(Hp & %Hpar & Hr)".
        iApply wp_bind. iApply (wp_modP with "Hp"). iIntros "Hp".
        iDestruct ("Hr" with "Hp") as "Hr".
        iDestruct (bsum_item _ _ _ Hn with "Hr") as (p') "(Hp & %Hit & Hr)".
        iApply wp_bind. iApply (wp_getP with "Hp"). iIntros "Hp". iDestruct ("Hr" with "Hp") as "Hr".
        iApply (wp_modP with "He"). iIntros "He". simpl. rewrite Hit.
        iApply wp_ret.
        assert (bins (BN bl e br) = L ∧ lefty (BN bl e br) ∧ brt (BN bl e br) = Some (e_id e)) as HX.
        { cbn. rewrite Hbl Hbr. split_and!; try done.
          intros ->. simpl in Hbl. rewrite -Hbl /= in HlA.
          assert (mid = 0)%nat as Hm0 by lia. unfold mid in Hm0. destruct (length L) as [|[|[]]] eqn:HlL; simpl in *; lia. }
        iApply ("HQ" $! _ _ HX).
        cbn. iFrame "Hl Hr". rewrite Hn. replace (bsum bl + e_sz e + bsum br) with (e_sz e + bsum bl + bsum br) by lia. done.
      - assert (B = []) as HBn. { destruct B; [done|]. simpl in HlB. lia. }
        iApply wp_ret. iApply wp_ret.
        assert (bins (BN bl e BE) = L ∧ lefty (BN bl e BE) ∧ brt (BN bl e BE) = Some (e_id e)) as HX.
        { cbn. rewrite Hbl HLe HBn. done. }
        iApply ("HQ" $! _ _ HX).
        cbn. iFrame "Hl". replace (bsum bl + e_sz e + 0) with (e_sz e + bsum bl) by lia. iFrame "He". }
    destruct (decide (0 < mid)%nat) as [Hc|Hc].
    - assert (A ≠ []) as HAn. { intros HA0. rewrite HA0 /= in HlA. lia. }
      rewrite -fmap_take. fold A.
      iApply wp_bind. iApply (IH with "HA"); [lia|done|].
      iIntros (bl n (Hbl & Hlfl & Hn)) "Hl". unfold raw.
      iApply wp_bind. iApply (wp_modP with "He"). iIntros "He". simpl.
      iDestruct (pstr_par _ _ _ Hn with "Hl") as (p) "(Hp & %Hpar & Hl)".
      iApply wp_bind. iApply (wp_modP with "Hp"). iIntros "Hp".
      iDestruct ("Hl" with "Hp") as "Hl".
      iDestruct (bsum_item _ _ _ Hn with "Hl") as (p') "(Hp & %Hit & Hl)".
      iApply wp_bind. iApply (wp_getP with "Hp"). iIntros "Hp". iDestruct ("Hl" with "Hp") as "Hl".
      iApply (wp_modP with "He"). iIntros "He". simpl. rewrite Hit.
      iApply ("Hk" $! bl (conj Hbl Hlfl) with "Hl"). by rewrite Hn.
    - assert (A = []) as HAn. { destruct A; [done|]. simpl in *. lia. }
      iApply wp_ret. rewrite HAn. iApply ("Hk" $! BE (conj eq_refl I)); [done|]. simpl. by rewrite Z.add_0_r.
  Qed.

  (** children with their records *)
  Definition kid : Type := nid * bnode K V.
  Definition ent_at (i : nat) (p : kid) : ent := (p.1, b_items p.2, Z.of_nat i - 1).
  Definition kvals (ids : list nid) : list bval := VNode <$> ids.
  (** entries of an inner node's kvLLRB *)
  Definition kels (ks : list K) (ids : list nid) : list (K * bval) := zip ks (kvals (tail ids)).

  Lemma arrangeInit_spec io n r kv ks (all : list nid) (kids : list kid) : ∀ i Q E,
    b_kv r = Some kv → iskv cb dom (kels ks all) kv →
    kids.*1 = drop (S i) all → length all = S (length ks) →
    isN n r -∗
    ([∗ list] p ∈ kids, isN p.1 p.2) -∗ ([∗ list] p ∈ kids, ∃ x, isP p.1 x) -∗
    (isN n r -∗ ([∗ list] p ∈ kids, isN p.1 p.2) -∗
       ([∗ list] e ∈ imap (λ j, ent_at (S i + j)) kids, raw e) -∗ Q (kids.*1)) -∗
    wp io (arrangeInit n (Z.of_nat <$> seq i (length kids))) Q E.
  Proof using Type.
    induction kids as [|[c rc] kids IH]; intros i Q E Hr Hkv Hall Hlen; iIntros "HN Hk Hp H".
    { iApply wp_ret. iApply ("H" with "HN Hk"). done. }
    cbn [length seq fmap list_fmap arrangeInit].
    iDestruct "Hk" as "[Hc Hk]". iDestruct "Hp" as "[[%x Hx] Hp]". cbn [fst snd] in *.
    cbn in Hall.
    assert (all !! S i = Some c) as Hci. { rewrite -(Nat.add_0_r (S i)) -lookup_drop -Hall. done. }
    assert (i < length ks)%nat as Hik. { apply lookup_lt_Some in Hci. lia. }
    destruct (lookup_lt_is_Some_2 ks i) as [k Hk]; [done|].
    iApply wp_bind. iApply (wp_kvGet_nat cb dom _ _ _ _ _ Hr Hkv i (k, VNode c) with "HN").
    { unfold kels. apply lookup_zip_with_Some. exists k, (VNode c). split_and!; [done|done|].
      unfold kvals. rewrite list_lookup_fmap. destruct all as [|a all]; [done|]. simpl in *. by rewrite Hci. }
    iIntros "HN". iApply wp_bind. iApply wp_logicSome.
    iApply wp_bind. iApply wp_asNode.
    iApply wp_bind. iApply (wp_getN with "Hc"). iIntros "Hc".
    iApply wp_bind. iApply (wp_modP with "Hx"). iIntros "Hx".
    iApply wp_bind. iApply (IH (S i) with "HN Hk Hp"); [done|done| |done|].
    { pose proof (drop_drop all 1 (S i)) as Hdd. rewrite -Hall Nat.add_1_r in Hdd. by rewrite -Hdd. }
    iIntros "HN Hk He". iApply wp_ret. iApply ("H" with "HN [Hc Hk]").
    { iFrame. }
    assert (imap (λ j, ent_at (S i + j)) ((c, rc) :: kids : list kid) =
      ent_at (S i) (c, rc) :: imap (λ j, ent_at (S (S i) + j)) kids) as Himap.
    { cbn. rewrite Nat.add_0_r. f_equal. apply imap_ext. intros j x' _. cbn. f_equal; lia. }
    iEval (rewrite Himap). iSplitL "Hx"; [|done]. unfold raw, ent_at. cbn.
    by replace (Z.of_nat (S i) - 1) with (Z.of_nat i) by lia.
  Qed.

  Lemma arrange_spec io n r kv ks (kids : list kid) Q E :
    b_kv r = Some kv → iskv cb dom (kels ks kids.*1) kv →
    b_left r = head (kids.*1) → length kids = S (length ks) →
    isN n r -∗
    ([∗ list] p ∈ kids, isN p.1 p.2) -∗ ([∗ list] p ∈ kids, ∃ x, isP p.1 x) -∗
    (∀ b (_ : bins b = imap ent_at kids ∧ lefty b),
       isN n (set_items (bsum b) (set_psroot (brt b) r)) -∗ ([∗ list] p ∈ kids, isN p.1 p.2) -∗
       pstr None b -∗ Q tt) -∗
    wp io (arrangePrefixSumTree n) Q E.
  Proof using Type.
    intros Hr Hkv Hl Hlen. iIntros "HN Hk Hp H".
    assert (length (kels ks kids.*1) = length ks) as Hlk.
    { unfold kels, kvals. destruct kids; [done|]. injection Hlen as Hlen.
      cbn. rewrite zip_with_length !fmap_length Hlen. lia. }
    iApply wp_bind. iApply (wp_kvLen cb dom _ _ _ _ _ Hr Hkv with "HN"). iIntros "HN".
    iApply wp_bind. iApply (wp_getN with "HN"). iIntros "HN".
    destruct kids as [|[l rl] kids]; [done|]. cbn in Hl. injection Hlen as Hlen.
    iDestruct "Hk" as "[Hl Hk]". iDestruct "Hp" as "[[%x Hx] Hp]". cbn [fst snd].
    iApply wp_bind. iApply wp_deref; [done|].
    iApply wp_bind. iApply (wp_getN with "Hl"). iIntros "Hl".
    iApply wp_bind. iApply (wp_modP with "Hx"). iIntros "Hx".
    rewrite Hlk -Hlen range_of_nat.
    iApply wp_bind. iApply (arrangeInit_spec _ _ _ _ ks (((l, rl) :: kids).*1) kids 0 with "HN Hk Hp"); [done..| |].
    { by rewrite fmap_length /= Hlen. }
    iIntros "HN Hk Hp".
    assert (l :: kids.*1 = e_id <$> imap ent_at ((l, rl) :: kids)) as ->.
    { cbn. f_equal. rewrite fmap_imap. symmetry. etrans; [apply imap_ext; intros; cbn; reflexivity|].
      clear. generalize 1%nat. induction kids as [|a kids IH]; intros i; [done|]. cbn. f_equal. apply (IH i). }
    iApply wp_bind. iApply (arrangeRec_spec with "[Hx Hp]").
    { rewrite imap_length fmap_length /=. done. }
    { done. }
    { cbn. iFrame "Hx". iApply (big_sepL_proper with "Hp"). done. }
    iIntros (b m (Hb & Hlf & Hm)) "Hb".
    iApply wp_bind. iApply (wp_modN with "HN"). iIntros "HN".
    iDestruct (bsum_item _ _ _ Hm with "Hb") as (p) "(Hpm & %Hit & Hb)".
    iApply wp_bind. iApply (wp_getP with "Hpm"). iIntros "Hpm". iDestruct ("Hb" with "Hpm") as "Hb".
    iApply (wp_modN with "HN"). iIntros "HN". rewrite Hit -Hm.
    iApply ("H" $! b (conj Hb Hlf) with "HN [Hl Hk] Hb"). iFrame.
  Qed.

  (** ** Adding to one entry's count *)
  Definition bump (d : Z) (i : nat) (L : list ent) : list ent :=
    alter (λ e : ent, (e.1.1, e.1.2 + d, e.2)) i L.
  Fixpoint bbump (d : Z) (i : nat) (b : bt) : bt :=
    match b with
    | BE => BE
    | BN l e r =>
        let m := length (bins l) in
        if decide (i < m)%nat then BN (bbump d i l) e r
        else if decide (i = m) then BN l (e.1.1, e.1.2 + d, e.2) r
        else BN l e (bbump d (i - m - 1) r)
    end.
  Lemma bbump_bins d : ∀ b i, bins (bbump d i b) = bump d i (bins b).
  Proof.
    unfold bump. induction b as [|l IHl e r IHr]; intros i; [done|]. cbn.
    case_decide; [|case_decide].
    - cbn. rewrite IHl alter_app_l //.
    - cbn. subst. rewrite -{1}(Nat.add_0_r (length (bins l))) alter_app_r. done.
    - cbn. rewrite IHr. assert (∃ j, i = length (bins l) + S j ∧ i - length (bins l) - 1 = j)%nat as (j & -> & ->).
      { exists (i - length (bins l) - 1)%nat. lia. }
      rewrite alter_app_r. done.
  Qed.
  Lemma bbump_brt d b i : brt (bbump d i b) = brt b.
  Proof. destruct b; [done|]. cbn. repeat case_decide; done. Qed.
  Lemma bbump_sum d : ∀ b i, (i < length (bins b))%nat → bsum (bbump d i b) = bsum b + d.
  Proof.
    induction b as [|l IHl e r IHr]; intros i; cbn; [lia|]. rewrite app_length /=.
    repeat case_decide; cbn; intros.
    - rewrite IHl //. lia.
    - unfold e_sz. cbn. lia.
    - rewrite IHr; lia.
  Qed.
  Lemma bbump_lefty d : ∀ b i, lefty b → lefty (bbump d i b).
  Proof.
    induction b as [|l IHl e r IHr]; intros i; [done|]. cbn. intros (H1 & H2 & H3).
    repeat case_decide; cbn; split_and!; auto.
    - intros Hl. apply H1. apply brt_None. rewrite -(bbump_brt d l i) Hl. done.
    - intros Hl. apply brt_None. rewrite bbump_brt. apply brt_None. auto.
  Qed.
  Lemma bumpLoop_spec io d : ∀ b par i n fuel Q E,
    e_id <$> bins b !! i = Some n → (length (bins b) ≤ fuel)%nat →
    pstr par b -∗
    (∀ fuel' (_ : (fuel - length (bins b) ≤ fuel')%nat), pstr par (bbump d i b) -∗
       match par with None => Q tt | Some m => wp io (bumpLoop fuel' m d) Q E end) -∗
    wp io (bumpLoop fuel n d) Q E.
  Proof.
    induction b as [|l IHl e r IHr]; intros par i n fuel Q E Hn Hf; [done|].
    cbn in Hf, Hn. rewrite app_length /= in Hf. cbn [pstr bins]. rewrite app_length /=. iIntros "(HP & Hl & Hr) H".
    (* at the subtree's root *)
    iAssert (∀ fuel1 (_ : (S fuel1 ≥ fuel - length (bins l) - length (bins r))%nat) b'
       (_ : bbump d i (BN l e r) = b'), match b' with BE => emp | BN l' e' r' =>
         isP (e_id e) (Ps (bsum (BN l e r)) (e_ix e) par (brt l) (brt r)) ∗
         pstr (Some (e_id e)) l' ∗ pstr (Some (e_id e)) r' end -∗
       wp io (bumpLoop (S fuel1) (e_id e) d) Q E)%I with "[H]" as "Hroot".
    { iIntros (fuel1 Hf1 b' Hb') "Hb'". destruct b' as [|l' e' r'].
      { exfalso. clear -Hb'. cbn in Hb'. repeat case_decide; done. }
      iDestruct "Hb'" as "(HP & Hl & Hr)". cbn [bumpLoop].
      iApply wp_bind. iApply (wp_modP with "HP"). iIntros "HP". cbn [psitems pskv pspar psl psr].
      iApply wp_bind. iApply (wp_getP with "HP"). iIntros "HP". cbn [pspar].
      assert (fuel - (length (bins l) + S (length (bins r))) ≤ fuel1)%nat as Hf2 by lia.
      assert (i < length (bins (BN l e r)))%nat as Hi.
      { destruct ((bins l ++ e :: bins r) !! i) eqn:Hx; [|done]. apply lookup_lt_Some in Hx. done. }
      iSpecialize ("H" $! fuel1 Hf2). rewrite -/(bbump d i (BN l e r)).
      pose proof (bbump_sum d _ _ Hi) as Hs.
      change (match decide (i < length (bins l))%nat with left _ => BN (bbump d i l) e r
        | right _ => if decide (i = length (bins l)) then BN l (e.1.1, e.1.2 + d, e.2) r
          else BN l e (bbump d (i - length (bins l) - 1) r) end) with (bbump d i (BN l e r)).
      rewrite Hb'. rewrite Hb' in Hs.
      assert (e_id e' = e_id e ∧ e_ix e' = e_ix e ∧ brt l' = brt l ∧ brt r' = brt r) as (Hx1&Hx2&Hx3&Hx4).
      { clear -Hb'. cbn in Hb'. repeat case_decide; simplify_eq; rewrite ?bbump_brt; done. }
      iAssert (pstr par (BN l' e' r')) with "[HP Hl Hr]" as "Hb".
      { cbn [pstr]. rewrite Hx1 Hx2 Hx3 Hx4 Hs. iFrame. }
      iSpecialize ("H" with "Hb"). destruct par; [done|]. by iApply wp_ret. }
    destruct (decide (i < length (bins l))%nat) as [Hi|Hi].
    - rewrite lookup_app_l // in Hn.
      iApply (IHl with "Hl"); [done|lia|]. iIntros (fuel' Hf') "Hl".
      destruct fuel' as [|fuel']; [exfalso; lia|].
      assert (S fuel' ≥ fuel - length (bins l) - length (bins r))%nat as Hx by lia.
      assert (bbump d i (BN l e r) = BN (bbump d i l) e r) as Hb'.
      { cbn. by rewrite decide_True. }
      iApply ("Hroot" $! fuel' Hx _ Hb'). iFrame.
    - rewrite lookup_app_r in Hn; [|lia]. destruct (decide (i = length (bins l))) as [->|Hne].
      + rewrite Nat.sub_diag in Hn. injection Hn as <-.
        destruct fuel as [|fuel]; [exfalso; lia|].
        assert (S fuel ≥ S fuel - length (bins l) - length (bins r))%nat as Hx by lia.
        assert (bbump d (length (bins l)) (BN l e r) = BN l (e.1.1, e.1.2 + d, e.2) r) as Hb'.
        { cbn. rewrite decide_False; [|lia]. by rewrite decide_True. }
        iApply ("Hroot" $! fuel Hx _ Hb'). iFrame.
      + destruct (i - length (bins l))%nat as [|j] eqn:Hj; [exfalso; lia|]. cbn in Hn.
        iApply (IHr with "Hr"); [done|lia|]. iIntros (fuel' Hf') "Hr".
        destruct fuel' as [|fuel']; [exfalso; lia|].
        assert (S fuel' ≥ fuel - length (bins l) - length (bins r))%nat as Hx by lia.
        assert (bbump d i (BN l e r) = BN l e (bbump d j r)) as Hb'.
        { cbn. rewrite decide_False // decide_False //. do 2 f_equal. lia. }
        iApply ("Hroot" $! fuel' Hx _ Hb'). iFrame.
  Qed.

  (** ** Searching *)
  (** read access to the records of the nodes in a prefix-sum tree *)
  Definition readable (R : hProp) (L : list ent) : Prop :=
    ∀ e, e ∈ L → R ⊢ ∃ r, isN (e_id e) r ∗ <affine> ⌜b_items r = e_sz e⌝ ∗ (isN (e_id e) r -∗ R).
  Lemma wp_leftSum io par l e r Q E :
    pstr par (BN l e r) -∗ (pstr par (BN l e r) -∗ Q (bsum l)) -∗
    wp io (leftSum (Ps (bsum (BN l e r)) (e_ix e) par (brt l) (brt r))) Q E.
  Proof.
    iIntros "Hb H". unfold leftSum. cbn [psl]. destruct (brt l) as [m|] eqn:Hm.
    - iDestruct "Hb" as "(HP & Hl & Hr)".
      iDestruct (bsum_item _ _ _ Hm with "Hl") as (p) "(Hp & %Hit & Hl)".
      iApply wp_bind. iApply (wp_getP with "Hp"). iIntros "Hp". iDestruct ("Hl" with "Hp") as "Hl".
      iApply wp_ret. rewrite Hit. iApply "H". cbn. rewrite Hm. iFrame.
    - apply brt_None in Hm as ->. iApply wp_ret. by iApply "H".
  Qed.
  Lemma walkPs_spec io R : ∀ b par n fuel i Q E,
    brt b = Some n → (length (bins b) ≤ fuel)%nat → 0 ≤ i < bsum b → readable R (bins b) →
    pstr par b -∗ R -∗
    (∀ A e B i' (_ : bins b = A ++ e :: B ∧ i = esum A + i' ∧ 0 ≤ i' < e_sz e), pstr par b -∗ R -∗ Q (e_id e, i')) -∗
    wp io (walkPs fuel n i) Q E.
  Proof.
    induction b as [|l IHl e r IHr]; intros par n fuel i Q E Hn Hf Hi HR; [done|].
    injection Hn as <-. cbn [bins] in Hf. rewrite app_length /= in Hf.
    destruct fuel as [|fuel]; [exfalso; lia|]. cbn [walkPs].
    iIntros "(HP & Hl & Hr) HR H".
    iApply wp_bind. iApply (wp_getP with "HP"). iIntros "HP".
    iApply wp_bind. iApply (wp_leftSum with "[$HP $Hl $Hr]"). iIntros "(HP & Hl & Hr)".
    assert (e ∈ bins (BN l e r)) as He by (cbn; set_solver).
    iDestruct (HR e He with "HR") as (rc) "(HN & %Hsz & HR)".
    iApply wp_bind. iApply (wp_getN with "HN"). iIntros "HN". iDestruct ("HR" with "HN") as "HR".
    rewrite Hsz. cbn in Hi. cbn [psl psr].
    destruct (Z.ltb_spec i (bsum l)) as [H1|H1].
    { destruct (brt l) as [m|] eqn:Hm; last first.
      { apply brt_None in Hm as ->. cbn in *. lia. }
      iApply wp_bind. iApply wp_deref; [done|].
      iApply (IHl with "Hl HR"); [done|lia|lia| |].
      { intros e' He'. apply HR. cbn. set_solver. }
      iIntros (A e' B i' (Hb & Hii & Hi')) "Hl HR".
      assert (bins (BN l e r) = A ++ e' :: (B ++ e :: bins r) ∧ i = esum A + i' ∧ 0 ≤ i' < e_sz e') as HX.
      { cbn. rewrite Hb -app_assoc. done. }
      iApply ("H" $! _ _ _ _ HX with "[HP Hl Hr] HR"). cbn. rewrite Hm. iFrame. }
    destruct (Z.ltb_spec i (bsum l + e_sz e)) as [H2|H2].
    { iApply wp_ret.
      assert (bins (BN l e r) = bins l ++ e :: bins r ∧ i = esum (bins l) + (i - bsum l) ∧ 0 ≤ i - bsum l < e_sz e) as HX.
      { rewrite -bsum_bins. cbn. split_and!; [done|lia..]. }
      iApply ("H" $! _ _ _ _ HX with "[HP Hl Hr] HR"). cbn. iFrame. }
    destruct (brt r) as [m|] eqn:Hm; last first.
    { apply brt_None in Hm as ->. cbn in *. lia. }
    iApply wp_bind. iApply wp_deref; [done|].
    iApply (IHr with "Hr HR"); [done|lia|lia| |].
    { intros e' He'. apply HR. cbn. set_solver. }
    iIntros (A e' B i' (Hb & Hii & Hi')) "Hr HR".
    assert (bins (BN l e r) = (bins l ++ e :: A) ++ e' :: B ∧ i = esum (bins l ++ e :: A) + i' ∧ 0 ≤ i' < e_sz e') as HX.
    { cbn. rewrite Hb -app_assoc. split_and!; [done| |lia|lia].
      rewrite fmap_app fmap_cons sumz_app sumz_cons -bsum_bins. lia. }
    iApply ("H" $! _ _ _ _ HX with "[HP Hl Hr] HR"). cbn. rewrite Hm. iFrame.
  Qed.

  (** [way b w c s]: following [w] ([true] = right) from the root of [b] leads
      to entry [c]; [s] is the total of the entries before [c] and outside
      [c]'s own subtree, [s'] that of its left subtree *)
  Inductive way : bt → list bool → ent → Z → Z → Prop :=
    | way_here l e r : way (BN l e r) [] e 0 (bsum l)
    | way_left l e r w c s s' : way l w c s s' → way (BN l e r) (false :: w) c s s'
    | way_right l e r w c s s' : way r w c s s' → way (BN l e r) (true :: w) c (bsum l + e_sz e + s) s'.
  Lemma way_ex b A c B : bins b = A ++ c :: B → ∃ w s s', way b w c s s' ∧ s + s' = esum A.
  Proof.
    revert A c B. induction b as [|l IHl e r IHr]; intros A c B Hb; cbn in Hb; [by destruct A|].
    apply app_eq_inv in Hb as [(k & Hl & Hr)|(k & HA & Hr)].
    - destruct k as [|c' k]; simplify_eq/=.
      + exists [], 0, (bsum l). split; [constructor|]. rewrite bsum_bins Hl app_nil_r. lia.
      + destruct (IHl _ _ _ Hl) as (w & s & s' & Hw & Hs). exists (false :: w), s, s'. split; [by constructor|done].
    - destruct k as [|c' k]; simplify_eq/=.
      + exists [], 0, (bsum l). split; [constructor|]. rewrite bsum_bins app_nil_r. lia.
      + destruct (IHr _ _ _ ltac:(eassumption)) as (w & s & s' & Hw & Hs).
        exists (true :: w), (bsum l + e_sz c' + s), s'. split; [by constructor|].
        rewrite fmap_app fmap_cons sumz_app sumz_cons -bsum_bins. lia.
  Qed.
  Lemma way_in b w c s s' : way b w c s s' → c ∈ bins b.
  Proof. induction 1; cbn; set_solver. Qed.
  Lemma way_len b w c s s' : way b w c s s' → (length w < length (bins b))%nat.
  Proof. induction 1; cbn; rewrite app_length /=; lia. Qed.
  Lemma way_nil b c s s' : way b [] c s s' → ∃ l r, b = BN l c r ∧ s = 0 ∧ s' = bsum l.
  Proof. inversion 1; subst. eauto. Qed.
  Lemma climb_spec io : ∀ b w c s s', way b w c s s' → ∀ par fuel acc Q E,
    (length w < fuel)%nat → w ≠ [] ∨ par ≠ None →
    pstr par b -∗
    (∀ fuel' n (_ : (fuel - length w ≤ fuel')%nat ∧ brt b = Some n), pstr par b -∗
       match par with
       | None => Q (n, w ++ acc)
       | Some _ => wp io (climb fuel' n (w ++ acc)) Q E
       end) -∗
    wp io (climb fuel (e_id c) acc) Q E.
  Proof.
    induction 1 as [l e r|l e r w c s s' Hw IH|l e r w c s s' Hw IH]; intros par fuel acc Q E Hf Hor.
    - iIntros "Hb H". destruct par; [|by destruct Hor].
      assert (fuel - length (@nil bool) ≤ fuel ∧ brt (BN l e r) = Some (e_id e))%nat as HX by (cbn; split; [lia|done]).
      iApply ("H" $! _ _ HX with "Hb").
    - cbn in Hf. iIntros "(HP & Hl & Hr) H".
      iApply (IH (Some (e_id e)) with "Hl"); [lia|by right|].
      iIntros (fuel' n (Hf' & Hn)) "Hl". destruct fuel' as [|fuel']; [exfalso; lia|]. cbn [climb].
      iDestruct (pstr_par _ _ _ Hn with "Hl") as (p) "(Hp & %Hpar & Hl)".
      iApply wp_bind. iApply (wp_getP with "Hp"). iIntros "Hp".
      iSpecialize ("Hl" $! (Some (e_id e)) with "[Hp]"). { destruct p; cbn in *. by rewrite Hpar. }
      iApply wp_bind. iApply wp_deref; [done|].
      iApply wp_bind. iApply (wp_getP with "HP"). iIntros "HP". cbn [psl pspar].
      rewrite decide_True //.
      assert (fuel - length (false :: w) ≤ fuel' ∧ brt (BN l e r) = Some (e_id e))%nat as HX by (cbn; split; [lia|done]).
      iSpecialize ("H" $! _ _ HX with "[$HP $Hl $Hr]").
      destruct par; [done|]. by iApply wp_ret.
    - cbn in Hf. iIntros "(HP & Hl & Hr) H".
      iApply (IH (Some (e_id e)) with "Hr"); [lia|by right|].
      iIntros (fuel' n (Hf' & Hn)) "Hr". destruct fuel' as [|fuel']; [exfalso; lia|]. cbn [climb].
      iDestruct (pstr_par _ _ _ Hn with "Hr") as (p) "(Hp & %Hpar & Hr)".
      iApply wp_bind. iApply (wp_getP with "Hp"). iIntros "Hp".
      iAssert (⌜brt l ≠ Some n⌝)%I as %Hne.
      { iIntros (Hl). iDestruct (bsum_item _ _ _ Hl with "Hl") as (p') "(Hp' & _)".
        iApply (own_excl with "Hp Hp'"). }
      iSpecialize ("Hr" $! (Some (e_id e)) with "[Hp]"). { destruct p; cbn in *. by rewrite Hpar. }
      iApply wp_bind. iApply wp_deref; [done|].
      iApply wp_bind. iApply (wp_getP with "HP"). iIntros "HP". cbn [psl pspar].
      rewrite decide_False //.
      assert (fuel - length (true :: w) ≤ fuel' ∧ brt (BN l e r) = Some (e_id e))%nat as HX by (cbn; split; [lia|done]).
      iSpecialize ("H" $! _ _ HX with "[$HP $Hl $Hr]").
      destruct par; [done|]. by iApply wp_ret.
  Qed.
  Lemma unclimb_spec io R : ∀ b w c s s', way b w c s s' → ∀ par n delta Q E,
    brt b = Some n → readable R (bins b) →
    pstr par b -∗ R -∗
    (pstr par b -∗ R -∗ Q (e_id c, delta + s)) -∗
    wp io (unclimb n w delta) Q E.
  Proof.
    induction 1 as [l e r|l e r w c s s' Hw IH|l e r w c s s' Hw IH]; intros par n delta Q E [= <-] HR;
      iIntros "Hb HR H"; cbn [unclimb].
    - iApply wp_ret. rewrite Z.add_0_r. iApply ("H" with "Hb HR").
    - iDestruct "Hb" as "(HP & Hl & Hr)".
      iApply wp_bind. iApply (wp_getP with "HP"). iIntros "HP". cbn [psl].
      destruct (brt l) as [m|] eqn:Hm; last first. { apply brt_None in Hm as ->. inversion Hw. }
      iApply wp_bind. iApply wp_deref; [done|].
      iApply (IH with "Hl HR"); [done| |].
      { intros e' He'. apply HR. cbn. set_solver. }
      iIntros "Hl HR". iApply ("H" with "[HP Hl Hr] HR"). cbn. rewrite Hm. iFrame.
    - iDestruct "Hb" as "(HP & Hl & Hr)".
      iApply wp_bind. iApply (wp_getP with "HP"). iIntros "HP".
      iApply wp_bind. iApply (wp_leftSum with "[$HP $Hl $Hr]"). iIntros "(HP & Hl & Hr)".
      assert (e ∈ bins (BN l e r)) as He by (cbn; set_solver).
      iDestruct (HR e He with "HR") as (rc) "(HN & %Hsz & HR)".
      iApply wp_bind. iApply (wp_getN with "HN"). iIntros "HN". iDestruct ("HR" with "HN") as "HR".
      rewrite Hsz. cbn [psr].
      destruct (brt r) as [m|] eqn:Hm; last first. { apply brt_None in Hm as ->. inversion Hw. }
      iApply wp_bind. iApply wp_deref; [done|].
      iApply (IH with "Hr HR"); [done| |].
      { intros e' He'. apply HR. cbn. set_solver. }
      iIntros "Hr HR". replace (delta + (bsum l + e_sz e + s)) with (delta + bsum l + e_sz e + s) by lia.
      iApply ("H" with "[HP Hl Hr] HR"). cbn. rewrite Hm. iFrame.
  Qed.
  Lemma way_leftSum io b w c s s' par Q E : way b w c s s' →
    pstr par b -∗
    (pstr par b -∗ Q s') -∗
    wp io (bind (getP (e_id c)) (λ pc, leftSum pc)) Q E.
  Proof.
    intros Hw. revert par Q E. induction Hw as [l e r|l e r w c s s' Hw IH|l e r w c s s' Hw IH]; intros par Q E; iIntros "Hb H".
    - iDestruct "Hb" as "(HP & Hl & Hr)".
      iApply wp_bind. iApply (wp_getP with "HP"). iIntros "HP".
      iApply (wp_leftSum with "[$HP $Hl $Hr]"). done.
    - iDestruct "Hb" as "(HP & Hl & Hr)". iApply (IH with "Hl"). iIntros "Hl". iApply "H". cbn. iFrame.
    - iDestruct "Hb" as "(HP & Hl & Hr)". iApply (IH with "Hr"). iIntros "Hr". iApply "H". cbn. iFrame.
  Qed.
  Lemma wp_bind_assoc io {A B C} (m : M A) (f : A → M B) (g : B → M C) Q E :
    wp io (bind (bind m f) g) Q E ⊢ wp io (bind m (λ a, bind (f a) g)) Q E.
  Proof.
    iIntros "H". iExact "H".
  Qed.

  Lemma pstr_in b c par : c ∈ bins b → pstr par b ⊢ ∃ p, isP (e_id c) p ∗ (isP (e_id c) p -∗ pstr par b).
  Proof.
    revert par. induction b as [|l IHl e r IHr]; intros par Hc; cbn in Hc; [by apply elem_of_nil in Hc|].
    iIntros "(HP & Hl & Hr)". apply elem_of_app in Hc as [Hc|[->|Hc]%elem_of_cons].
    - iDestruct (IHl _ Hc with "Hl") as (p) "[Hp Hl]". iExists p. iFrame "Hp". iIntros "Hp".
      iSpecialize ("Hl" with "Hp"). cbn. iFrame.
    - iExists _. iFrame "HP". iIntros "HP". cbn. iFrame.
    - iDestruct (IHr _ Hc with "Hr") as (p) "[Hp Hr]". iExists p. iFrame "Hp". iIntros "Hp".
      iSpecialize ("Hr" with "Hp"). cbn. iFrame.
  Qed.
  Lemma childOffset_spec io R b A c B r n fuel delta Q E :
    bins b = A ++ c :: B → b_psroot r = brt b → (length (bins b) ≤ fuel)%nat → readable R (bins b) →
    isN n r -∗ pstr None b -∗ R -∗
    (isN n r -∗ pstr None b -∗ R -∗ Q (e_id c, delta + esum A)) -∗
    wp io (childOffset fuel n (e_id c) delta) Q E.
  Proof.
    intros Hb Hr Hf HR. destruct (way_ex b A c B Hb) as (w & s & s' & Hw & Hs).
    iIntros "HN Hb HR H". iApply wp_bind. iApply (wp_getN with "HN"). iIntros "HN". rewrite Hr.
    case_decide as Hc.
    - (* c is the root *)
      iAssert (⌜w = []⌝)%I as %->.
      { destruct w as [|a w]; [done|]. destruct b as [|l e r']; [done|]. injection Hc as Hc.
        iDestruct "Hb" as "(HP & Hl & Hr)". iExFalso. rewrite -Hc.
        inversion Hw as [|? ? ? ? ? ? ? Hw'|? ? ? ? ? ? ? Hw']; subst; apply way_in in Hw'.
        - iDestruct (pstr_in _ _ _ Hw' with "Hl") as (p) "[Hp _]". iApply (own_excl with "HP Hp").
        - iDestruct (pstr_in _ _ _ Hw' with "Hr") as (p) "[Hp _]". iApply (own_excl with "HP Hp"). }
      apply way_nil in Hw as (l & r' & -> & -> & ->).
      iDestruct "Hb" as "(HP & Hl & Hr)".
      iApply wp_bind. iApply (wp_getP with "HP"). iIntros "HP".
      iApply wp_bind. iApply (wp_leftSum with "[$HP $Hl $Hr]"). iIntros "Hb".
      iApply wp_ret. rewrite -Hs Z.add_0_l. iApply ("H" with "HN Hb HR").
    - assert (w ≠ []) as Hne. { intros ->. apply way_nil in Hw as (l & r' & -> & _). done. }
      iApply wp_bind. iApply (climb_spec _ _ _ _ _ _ Hw None with "Hb").
      { apply way_len in Hw. lia. }
      { by left. }
      iIntros (fuel' top (Hf' & Htop)) "Hb". rewrite app_nil_r.
      iApply wp_bind. iApply (unclimb_spec _ R _ _ _ _ _ Hw with "Hb HR"); [done..|]. iIntros "Hb HR".
      iApply (wp_bind_assoc _ (getP (e_id c)) (λ pc, leftSum pc) (λ ls, ret (e_id c, delta + s + ls))).
      iApply wp_bind. iApply (way_leftSum _ _ _ _ _ _ _ _ _ Hw with "Hb"). iIntros "Hb".
      iApply wp_ret. replace (delta + s + s') with (delta + esum A) by lia. iApply ("H" with "HN Hb HR").
  Qed.

  (** ** Validation *)
  Lemma validatePrefixSum_spec io R : ∀ b par n fuel Q E,
    brt b = Some n → (length (bins b) ≤ fuel)%nat → lefty b → readable R (bins b) →
    pstr par b -∗ R -∗
    (pstr par b -∗ R -∗ Q true) -∗
    wp io (validatePrefixSum fuel (Some n)) Q E.
  Proof.
    induction b as [|l IHl e r IHr]; intros par n fuel Q E Hn Hf Hlf HR; [done|].
    injection Hn as <-. cbn [bins] in Hf. rewrite app_length /= in Hf.
    destruct fuel as [|fuel]; [exfalso; lia|]. cbn [validatePrefixSum].
    destruct Hlf as (Hlf & Hlfl & Hlfr).
    assert (readable R (bins l)) as HRl. { intros e' He'. apply HR. cbn. set_solver. }
    iIntros "(HP & Hl & Hr) HR H".
    iApply wp_bind. iApply wp_ret.
    assert (e ∈ bins (BN l e r)) as He by (cbn; set_solver).
    iDestruct (HR e He with "HR") as (rc) "(HN & %Hsz & HR)".
    iApply wp_bind. iApply (wp_getN with "HN"). iIntros "HN". iDestruct ("HR" with "HN") as "HR".
    iApply wp_bind. iApply (wp_getP with "HP"). iIntros "HP". cbn [psl psr psitems].
    rewrite Hsz.
    iApply wp_bind.
    iAssert (∀ a (_ : a = e_sz e + bsum l), pstr (Some (e_id e)) l -∗ R -∗
      wp io (bind
        match brt r with
        | None => ret (a, false)
        | Some q =>
            bind (getP q) (λ pq,
              if decide (pspar pq = Some (e_id e)) then
                bind (validatePrefixSum fuel (brt l)) (λ ok, ret (a + psitems pq, negb ok))
              else ret (a + psitems pq, true))
        end (λ '(exp, bad), if (bad : bool) then ret false else ret (exp =? bsum (BN l e r)))) Q E)%I
      with "[Hr HP H]" as "Hk".
    { iIntros (a Ha) "Hl HR". iApply wp_bind. destruct (brt r) as [q|] eqn:Hq.
      - iDestruct (pstr_root _ _ _ Hq with "Hr") as (ix x y) "(Hp & Hr)".
        iApply wp_bind. iApply (wp_getP with "Hp"). iIntros "Hp".
        iSpecialize ("Hr" with "Hp"). cbn [pspar psitems]. rewrite decide_True //.
        destruct (brt l) as [m|] eqn:Hm; last first.
        { apply brt_None in Hm. apply Hlf in Hm. by rewrite Hm in Hq. }
        iApply wp_bind. iApply (IHl with "Hl HR"); [done|lia|done|done|]. iIntros "Hl HR".
        iApply wp_ret. cbn [negb]. iApply wp_ret.
        replace (a + bsum r =? bsum (BN l e r)) with true; last first.
        { symmetry. apply Z.eqb_eq. cbn. lia. }
        iApply ("H" with "[HP Hl Hr] HR"). cbn. rewrite Hm Hq. iFrame.
      - iApply wp_ret. iApply wp_ret. apply brt_None in Hq as ->.
        replace (a =? bsum (BN l e BE)) with true; last first.
        { symmetry. apply Z.eqb_eq. cbn. lia. }
        iApply ("H" with "[HP Hl] HR"). cbn. iFrame. }
    destruct (brt l) as [m|] eqn:Hm.
    - iDestruct (pstr_root _ _ _ Hm with "Hl") as (ix x y) "(Hp & Hl)".
      iApply wp_bind. iApply (wp_getP with "Hp"). iIntros "Hp".
      iSpecialize ("Hl" with "Hp"). cbn [pspar psitems]. rewrite decide_True //.
      iApply wp_bind. iApply (IHl with "Hl HR"); [done|lia|done|done|]. iIntros "Hl HR".
      iApply wp_ret. iApply ("Hk" $! _ eq_refl with "Hl HR").
    - apply brt_None in Hm as ->. iApply wp_ret. assert (e_sz e = e_sz e + bsum BE) as HX by (cbn; lia).
      iApply ("Hk" $! _ HX with "Hl HR").
  Qed.
End ps.

(** * How a tree of nodes is laid out in memory and on storage

    Models no code: the assertions that connect the ghost trees of Ghost.v
    with the state of BTree.v. *)
From Coq Require Import ssreflect.
From stdpp Require Import prelude list gmap.
From iris.bi Require Import bi.
From iris.proofmode Require Import proofmode.
From Verif Require Import Spec SpecFacts Llrb LlrbApi BTree HProp Lru Wp Kv Codec Ghost PsTree.
Open Scope Z_scope.

Lemma big_exists {PROP : bi} {A B} (φ : A → B → Prop) (P : B → PROP) (l : list A) :
  ([∗ list] a ∈ l, ∃ b, <affine> ⌜φ a b⌝ ∗ P b) ⊢ ∃ l', <affine> ⌜Forall2 φ l l'⌝ ∗ [∗ list] b ∈ l', P b.
Proof.
  induction l as [|a l IH]; cbn.
  - iIntros "_". iExists []. cbn. iSplit; [|done]. iPureIntro. constructor.
  - iIntros "[(%b & %Hb & Hp) H]". iDestruct (IH with "H") as (l') "[%Hl H]".
    iExists (b :: l'). cbn. iFrame. iPureIntro. by constructor.
Qed.

(** number of nodes *)
Fixpoint cnt {K V} (c : ct K V) : nat :=
  match c with CL _ => 1 | CI _ cs => S (sum_list (cnt <$> cs)) end.

Section rep.
  Context {K V : Type}.
  Variable cb : callbacks K V.
  Variable dom : K → Prop.
  Variable domV : V → Prop.
  Variable mn : nat.
  Variable t : tid.
  Variable ca : bool.
  Notation M := (M K V).
  Notation hProp := (hProp K V).
  Notation bval := (bval V).
  Notation gt := (gt K V).
  Notation dt := (dt K V).
  Notation ct := (ct K V).
  Notation frame := (frame K V).
  Implicit Types (g c : gt) (d : dt) (n : nid) (C : list frame).

  (** ** The tree's own record *)
  Definition tg (x : ctag) : ctag := if ca then x else noLRU.
  Definition trec (root : nid) (S : list loc) : treerec :=
    Tree (Z.of_nat mn) (2 * Z.of_nat mn) (Some root) S ca.
  Definition blk (l : loc) (b : bytes) : hProp := (isD l b ∗ <affine> ⌜locok l ∧ 0 < llen l⌝)%I.
  Definition stales (S : list loc) : hProp := ([∗ list] l ∈ S, ∃ b, blk l b)%I.
  Definition isTR (root : nid) (S : list loc) : hProp := (isR t (trec root S) ∗ stales S)%I.
  (** the block at [l], if [l] is a location at all *)
  Definition held (l : loc) : hProp := (<affine> ⌜l = noloc⌝ ∨ ∃ b, blk l b)%I.

  (** ** Nodes *)
  Definition mxof (ir : bool) : option Z := if ir then Some (2 * Z.of_nat mn) else None.
  Definition mxfit (mx : option Z) : Prop := match mx with Some m => fits m | None => True end.
  Definition nrec (st : nst) (sz : Z) (ir leaf : bool) (par : option nid) (kv : tree K bval)
      (left ps : option nid) : bnode K V :=
    Node (stloc st) sz true (stdirty st) ir leaf t par (Some kv) left ps.
  Definition uels (kvs : list (K * V)) : list (K * bval) := (λ p, (p.1, VUser p.2)) <$> kvs.
  Definition ref : Type := loc * Z.
  Definition enc_inner' (mx : option Z) (sz : Z) (ks : list K) (refs : list ref) : bytes :=
    match refs with [] => [] | r :: refs => enc_inner cb mx sz r (zip ks refs) end.

  Definition leafblk (ir : bool) (st : nst) (kvs : list (K * V)) : hProp := (match st with
    | Clean l => blk l (enc_leaf cb (mxof ir) kvs) ∗ <affine> ⌜mxfit (mxof ir) ∧ fits (Z.of_nat (length kvs))⌝
    | _ => held (stloc st)
    end)%I.
  (** a leaf whose item count reads [sz] *)
  Definition lnode' n (par : option nid) (ir : bool) (st : nst) (sz : Z) (kvs : list (K * V)) : hProp := (∃ kv left ps, <affine> ⌜iskv cb dom (uels kvs) kv⌝ ∗
      isN n (nrec st sz ir true par kv left ps) ∗ isT n (tg (sttag st)) ∗ leafblk ir st kvs)%I.
  Definition lnode n par ir st kvs : hProp := lnode' n par ir st (Z.of_nat (length kvs)) kvs.

  Definition entof (i : nat) (c : info) : ent := (i_id c, i_sz c, Z.of_nat i - 1).
  Definition isum (chs : list info) : Z := sumz (i_sz <$> chs).
  Definition refok (c : info) (r : ref) : Prop := i_loc c = Some r.1 ∧ i_sz c = r.2.
  Definition innerblk (ir : bool) (st : nst) (ks : list K) (chs : list info) : hProp := (match st with
    | Clean l =>
        ∃ refs, blk l (enc_inner' (mxof ir) (isum chs) ks refs) ∗
          <affine> ⌜mxfit (mxof ir) ∧ fits (isum chs) ∧ fits (1 + Z.of_nat (length ks)) ∧ Forall2 refok chs refs⌝
    | _ => held (stloc st)
    end)%I.
  (** an inner node without its children; the prefix-sum fields of the
      children belong to it *)
  Definition inode n (par : option nid) (ir : bool) (st : nst) (ks : list K) (chs : list info) : hProp := (∃ kv b, <affine> ⌜iskv cb dom (kels ks (i_id <$> chs)) kv ∧ length chs = S (length ks) ∧
                      bins b = imap entof chs ∧ lefty b⌝ ∗
      isN n (nrec st (isum chs) ir false par kv (head (i_id <$> chs)) (brt b)) ∗
      isT n (tg (sttag st)) ∗ pstr None b ∗ innerblk ir st ks chs)%I.
  (** the same with arbitrary counts and prefix-sum fields *)
  Definition inodeU n (par : option nid) (ir : bool) (st : nst) (ks : list K) (cids : list nid) : hProp := (∃ kv sz ps, <affine> ⌜iskv cb dom (kels ks cids) kv ∧ length cids = S (length ks)⌝ ∗
      isN n (nrec st sz ir false par kv (head cids) ps) ∗
      isT n (tg (sttag st)) ∗ ([∗ list] c ∈ cids, ∃ x, isP c x) ∗ held (stloc st))%I.

  Definition dref (d : dt) : ref := (dloc d, csz (dstrip d)).
  Fixpoint dsk (h : nat) (mx : option Z) (d : dt) : hProp := (match h, d with
    | O, DL l kvs => blk l (enc_leaf cb mx kvs) ∗ <affine> ⌜mxfit mx ∧ fits (Z.of_nat (length kvs))⌝
    | S h, DI l ks ds =>
        blk l (enc_inner' mx (csz (dstrip d)) ks (dref <$> ds)) ∗
        <affine> ⌜mxfit mx ∧ fits (csz (dstrip d)) ∧ fits (1 + Z.of_nat (length ks)) ∧ length ds = S (length ks)⌝ ∗
        [∗ list] x ∈ ds, dsk h None x
    | _, _ => False
    end)%I.
  Definition drec (par : option nid) (d : dt) (r : bnode K V) : Prop :=
    b_loc r = dloc d ∧ b_items r = csz (dstrip d) ∧ b_loaded r = false ∧ b_dirty r = false ∧
    b_tree r = t ∧ b_parent r = par ∧ b_kv r = None ∧ b_left r = None ∧ b_psroot r = None.

  Fixpoint rep (h : nat) (par : option nid) (ir : bool) (g : gt) : hProp := (match h, g with
    | _, GD n d => ∃ r, <affine> ⌜drec par d r⌝ ∗ isN n r ∗ isT n noLRU ∗ dsk h (mxof ir) d
    | O, GL n st kvs => lnode n par ir st kvs
    | S h, GI n st ks cs =>
        inode n par ir st ks (ginfo <$> cs) ∗ [∗ list] c ∈ cs, rep h (Some n) false c
    | _, _ => False
    end)%I.
  Definition reps (h : nat) (par : nid) (cs : list gt) : hProp := ([∗ list] c ∈ cs, rep h (Some par) false c)%I.

  (** ** A tree with a hole *)
  Definition hpar C : option nid := f_n <$> head C.
  Definition isnil {A} (l : list A) : bool := match l with [] => true | _ => false end.
  Definition chs_of (f : frame) (hi : info) : list info := (ginfo <$> f_ls f) ++ hi :: (ginfo <$> f_rs f).
  Definition stloc' (st : nst) : option loc := match st with Clean l => Some l | _ => None end.
  Definition finfo (f : frame) (hi : info) : info := Info (f_n f) (isum (chs_of f hi)) (stloc' (f_st f)).
  Fixpoint ctx (h : nat) (C : list frame) (hi : info) : hProp := (match C with
    | [] => ∃ p, isP (i_id hi) p
    | f :: C =>
        inode (f_n f) (hpar C) (isnil C) (f_st f) (f_ka f ++ f_kb f) (chs_of f hi) ∗
        reps h (f_n f) (f_ls f) ∗ reps h (f_n f) (f_rs f) ∗ ctx (S h) C (finfo f hi)
    end)%I.
  Fixpoint top (C : list frame) (n : nid) : nid := match C with [] => n | f :: C => top C (f_n f) end.
  (** the whole tree *)
  Definition whole (h : nat) (g : gt) : hProp := ((∃ p, isP (gid g) p) ∗ rep h None true g)%I.

  Lemma gid_fill C g : gid (fill C g) = top C (gid g).
  Proof. revert g. induction C as [|f C IH]; intros g; [done|]. cbn. by rewrite IH. Qed.
  Lemma chs_sum (cs : list gt) : isum (ginfo <$> cs) = sumz (gsz <$> cs).
  Proof. unfold isum. by rewrite -list_fmap_compose. Qed.
  Lemma gsz_GI n st ks (cs : list gt) : length cs = S (length ks) → gsz (GI n st ks cs) = isum (ginfo <$> cs).
  Proof.
    intros H. rewrite chs_sum. unfold gsz at 1. cbn [strip]. rewrite csz_CI ?fmap_length //.
    by rewrite -list_fmap_compose.
  Qed.
  Lemma chs_zip f g : chs_of f (ginfo g) = ginfo <$> (f_ls f ++ g :: f_rs f).
  Proof. unfold chs_of. by rewrite fmap_app fmap_cons. Qed.
  Lemma ginfo_GI n st ks (cs : list gt) : length cs = S (length ks) →
    ginfo (GI n st ks cs) = Info n (isum (ginfo <$> cs)) (stloc' st).
  Proof. intros H. unfold ginfo at 1. by rewrite gsz_GI //; destruct st. Qed.
  Lemma ginfo_zip f g : length (f_ka f) = length (f_ls f) → length (f_kb f) = length (f_rs f) →
    ginfo (zip1 f g) = finfo f (ginfo g).
  Proof.
    intros H1 H2. unfold zip1. rewrite ginfo_GI.
    - unfold finfo. by rewrite chs_zip.
    - rewrite !app_length /=. lia.
  Qed.

  Lemma fill_ctx C : ∀ h g, lens C →
    ctx h C (ginfo g) ∗ rep h (hpar C) (isnil C) g ⊣⊢ whole (h + length C) (fill C g).
  Proof.
    induction C as [|f C IH]; intros h g HC.
    { cbn [length]. rewrite Nat.add_0_r. unfold whole. cbn. done. }
    apply Forall_cons in HC as [[H1 H2] HC].
    cbn [length fill]. rewrite -Nat.add_succ_comm -(IH (S h)) //. cbn [ctx]. rewrite ginfo_zip // chs_zip.
    cbn [rep zip1 hpar head fmap option_fmap option_map isnil]. unfold reps. rewrite big_sepL_app big_sepL_cons.
    iSplit.
    - iIntros "[($ & $ & $ & $) $]".
    - iIntros "[$ ($ & $ & $ & $)]".
  Qed.

  (** ** Simple consequences *)
  Lemma held_clean l b : blk l b ⊢ held l.
  Proof. iIntros "H". iRight. by iExists b. Qed.
  Lemma held_no : ⊢ held noloc.
  Proof. iLeft. done. Qed.
  Lemma leafblk_held ir st kvs : leafblk ir st kvs ⊢ held (stloc st).
  Proof.
    destruct st; cbn; try done. iIntros "[H _]". by iApply held_clean.
  Qed.
  Lemma innerblk_held ir st ks chs : innerblk ir st ks chs ⊢ held (stloc st).
  Proof.
    destruct st; cbn; try done. iIntros "(%refs & H & _)". by iApply held_clean.
  Qed.
  Lemma pstr_dissolve par b : pstr (K:=K) (V:=V) par b ⊢ [∗ list] e ∈ bins b, ∃ x, isP (e_id e) x.
  Proof.
    revert par. induction b as [|l IHl e r IHr]; intros par; cbn; [done|].
    rewrite big_sepL_app big_sepL_cons. iIntros "(HP & Hl & Hr)".
    iSplitL "Hl"; [by iApply IHl|]. iSplitL "HP"; [by iExists _|by iApply IHr].
  Qed.
  Lemma imap_entof_id (chs : list info) : e_id <$> imap entof chs = i_id <$> chs.
  Proof.
    rewrite fmap_imap. assert (∀ k, imap (λ i (c : info), e_id (entof (k + i) c)) chs = i_id <$> chs) as H; [|apply (H 0%nat)].
    induction chs as [|c chs IH]; intros k; [done|]. cbn. f_equal.
    rewrite -(IH (S k)). apply imap_ext. intros i x _. done.
  Qed.
  Lemma imap_entof_sz (chs : list info) : e_sz <$> imap entof chs = i_sz <$> chs.
  Proof.
    rewrite fmap_imap. assert (∀ k, imap (λ i (c : info), e_sz (entof (k + i) c)) chs = i_sz <$> chs) as H; [|apply (H 0%nat)].
    induction chs as [|c chs IH]; intros k; [done|]. cbn. f_equal.
    rewrite -(IH (S k)). apply imap_ext. intros i x _. done.
  Qed.
  Lemma pstr_isPs b chs : bins b = imap entof chs →
    pstr (K:=K) (V:=V) None b ⊢ [∗ list] c ∈ (i_id <$> chs), ∃ x, isP c x.
  Proof. intros Hb. rewrite pstr_dissolve Hb -imap_entof_id big_sepL_fmap. done. Qed.
  Lemma inode_U n par ir st ks chs : inode n par ir st ks chs ⊢ inodeU n par ir st ks (i_id <$> chs).
  Proof.
    iIntros "(%kv & %b & (%Hkv & %Hlen & %Hb & %Hlf) & HN & HT & Hp & Hb)".
    iExists kv, _, _. iFrame "HN HT". rewrite pstr_isPs // innerblk_held. iFrame.
    iPureIntro. by rewrite fmap_length.
  Qed.
  Lemma inode_len n par ir st ks chs : inode n par ir st ks chs ⊢ ⌜length chs = S (length ks)⌝.
  Proof. iIntros "(%kv & %b & (%Hkv & %Hlen & %Hb & %Hlf) & _)". done. Qed.

  (** the record of a node *)
  Definition recok (par : option nid) (g : gt) (r : bnode K V) : Prop :=
    b_items r = gsz g ∧ b_parent r = par ∧ b_tree r = t ∧
    (∀ l, gloc g = Some l → b_dirty r = false ∧ b_loc r = l) ∧
    (gloc g = None → b_loaded r = true) ∧
    match g with
    | GD _ _ => b_loaded r = false
    | GL _ st _ => b_loaded r = true ∧ b_leaf r = true ∧ b_dirty r = stdirty st ∧ b_loc r = stloc st
    | GI _ st _ _ => b_loaded r = true ∧ b_leaf r = false ∧ b_dirty r = stdirty st ∧ b_loc r = stloc st
    end.
  Lemma rep_rec h par ir g : rep h par ir g ⊢ ∃ r, isN (gid g) r ∗ <affine> ⌜recok par g r⌝ ∗
    ∀ par', isN (gid g) (set_parent par' r) -∗ rep h par' ir g.
  Proof.
    destruct g as [n d|n st kvs|n st ks cs].
    - iIntros "H". assert (∀ h, rep h par ir (GD n d) ⊣⊢ ∃ r, <affine> ⌜drec par d r⌝ ∗ isN n r ∗ isT n noLRU ∗ dsk h (mxof ir) d) as Hr.
      { by intros []. }
      rewrite Hr. iDestruct "H" as (r (H1&H2&H3&H4&H5&H6&H7&H8&H9)) "(HN & HT & Hd)".
      iExists r. iFrame "HN". iSplit.
      { iPureIntro. split_and!; try done. intros l [= <-]. done. }
      iIntros (par') "HN". assert (rep h par' ir (GD n d) ⊣⊢ ∃ r, <affine> ⌜drec par' d r⌝ ∗ isN n r ∗ isT n noLRU ∗ dsk h (mxof ir) d) as ->.
      { by destruct h. }
      iExists _. iFrame. iPureIntro. split_and!; done.
    - destruct h; [|iIntros "[]"]. cbn [rep]. iIntros "(%kv & %left & %ps & %Hkv & HN & HT & Hb)".
      iExists _. iFrame "HN". iSplit.
      { iPureIntro. split_and!; try done.
        - unfold gsz. cbn [strip]. by rewrite csz_CL.
        - destruct st; try done. intros ? [= <-]. done. }
      iIntros (par') "HN". iExists kv, left, ps. iFrame. done.
    - destruct h; [iIntros "[]"|]. cbn [rep]. iIntros "[(%kv & %b & (%Hkv & %Hlen & %Hb) & HN & HT & Hp & Hb) Hr]".
      iExists _. iFrame "HN". iSplit.
      { iPureIntro. split_and!; try done.
        - rewrite gsz_GI //. by rewrite fmap_length in Hlen.
        - destruct st; try done. intros ? [= <-]. done. }
      iIntros (par') "HN". iFrame "Hr". iExists kv, b. iFrame. done.
  Qed.
  Lemma set_parent_id (r : bnode K V) : set_parent (b_parent r) r = r.
  Proof. by destruct r. Qed.
  Lemma rep_get h par ir g : rep h par ir g ⊢ ∃ r, isN (gid g) r ∗ <affine> ⌜recok par g r⌝ ∗
    (isN (gid g) r -∗ rep h par ir g).
  Proof.
    iIntros "H". iDestruct (rep_rec with "H") as "(%r & HN & %Hr & H)". iExists r. iFrame "HN". iSplit; [done|].
    iIntros "HN". iApply "H". replace par with (b_parent r) by apply Hr. by rewrite set_parent_id.
  Qed.
  Lemma reps_kids h n cs : reps h n cs ⊢ ∃ kids : list (kid (K:=K) (V:=V)),
    <affine> ⌜kids.*1 = gid <$> cs ∧ (λ k, b_items k.2) <$> kids = gsz <$> cs⌝ ∗
    ([∗ list] p ∈ kids, isN p.1 p.2) ∗ (([∗ list] p ∈ kids, isN p.1 p.2) -∗ reps h n cs).
  Proof.
    induction cs as [|c cs IH].
    { iIntros "_". iExists []. cbn. iSplit; [done|]. iSplit; [done|]. by iIntros "_". }
    unfold reps in *. cbn. iIntros "[Hc H]". iDestruct (IH with "H") as "(%kids & (%H1 & %H2) & Hk & H)".
    iDestruct (rep_get with "Hc") as (r) "(HN & %Hr & Hc)".
    iExists ((gid c, r) :: kids). cbn. iFrame "HN Hk". iSplit.
    { iPureIntro. rewrite H1 H2. split; [done|]. f_equal. apply Hr. }
    iIntros "[HN Hk]". iSplitL "HN Hc"; [by iApply "Hc"|by iApply "H"].
  Qed.
  Lemma reps_readable h n cs : readable (reps h n cs) (imap entof (ginfo <$> cs)).
  Proof.
    intros e He. apply elem_of_list_lookup in He as (i & Hi).
    rewrite list_lookup_imap list_lookup_fmap in Hi.
    destruct (cs !! i) as [c|] eqn:Hc; simplify_eq/=.
    unfold reps. iIntros "H". iDestruct (big_sepL_lookup_acc _ _ _ _ Hc with "H") as "[Hc H]".
    iDestruct (rep_get with "Hc") as (r) "(HN & %Hr & Hc)".
    iExists r. iFrame "HN". iSplit; [iPureIntro; apply Hr|].
    iIntros "HN". iApply "H". by iApply "Hc".
  Qed.

  (** ** Cache and stale-list bookkeeping *)
  Lemma blk_excl l b b' : blk l b -∗ blk l b' -∗ False.
  Proof. iIntros "[H _] [H' _]". iApply (own_excl with "H H'"). Qed.
  Lemma stales_notin S l b : stales S -∗ blk l b -∗ ⌜l ∉ S⌝.
  Proof.
    iIntros "HS Hb" (Hin). apply elem_of_list_lookup in Hin as [i Hi]. unfold stales.
    rewrite (big_sepL_lookup_acc _ _ _ _ Hi). iDestruct "HS" as "[(%b' & Hl) _]". iApply (blk_excl with "Hb Hl").
  Qed.
  Lemma wp_stale io root S n r Q E :
    isTR root S -∗ isN n r -∗ held (b_loc r) -∗
    (∀ S' (_ : S ⊆ S' ∧ (b_loc r = noloc → S' = S)), isTR root S' -∗ isN n (set_loc noloc r) -∗ Q tt) -∗
    wp io (placeNodeOnStale t n) Q E.
  Proof.
    iIntros "[HR HS] HN [%Hl|[%b Hb]] H".
    - iApply (wp_placeNodeOnStale with "HR HN"). iIntros "HR HN".
      assert (stale_of r (trec root S) = trec root S ∧ unloc r = set_loc noloc r) as [-> ->].
      { unfold stale_of, unloc. rewrite Hl. cbn. split; [done|]. destruct r; cbn in *. by rewrite Hl. }
      assert (S ⊆ S ∧ (b_loc r = noloc → S = S)) as HX by done.
      iApply ("H" $! S HX with "[$HR $HS] HN").
    - iAssert (⌜b_loc r ∉ S⌝)%I as %Hni. { iApply (stales_notin with "HS Hb"). }
      iDestruct "Hb" as "[Hb (%Hlo & %Hpos)]".
      iApply (wp_placeNodeOnStale with "HR HN"). iIntros "HR HN".
      unfold stale_of, unloc. destruct (Z.eqb_spec (llen (b_loc r)) 0); [lia|].
      assert (S ⊆ (b_loc r :: S) ∧ (b_loc r = noloc → b_loc r :: S = S)) as HX.
      { split; [set_solver|]. intros Hx. rewrite Hx in Hpos. done. }
      unfold addstale. cbn [trec t_stale t_min t_max t_root t_cache]. rewrite decide_False //.
      iApply ("H" $! _ HX with "[HR HS Hb] HN").
      iFrame "HR". unfold stales. cbn. iFrame "HS". iExists b. unfold blk. iFrame "Hb". done.
  Qed.
  Lemma wp_dirty io root S n r x Q E :
    isTR root S -∗ isN n r -∗ isT n (tg x) -∗ held (b_loc r) -∗
    (∀ S' (_ : S ⊆ S' ∧ (b_loc r = noloc → S' = S)), isTR root S' -∗ isN n (set_loc noloc (set_dirty true r)) -∗
       isT n (tg dirtyLRU) -∗ Q tt) -∗
    wp io (markNodeDirty t n) Q E.
  Proof.
    iIntros "HT HN Ht Hh H". iApply wp_bind. iApply (wp_modN with "HN"). iIntros "HN".
    iApply wp_bind. iApply (wp_stale with "HT HN [Hh]"); [by destruct r|].
    iIntros (S' HS') "[HR HS] HN".
    iApply (wp_whenCache with "HR"). iIntros "HR". cbn [trec t_cache].
    iSpecialize ("H" $! S' HS' with "[$HR $HS] HN"). unfold tg. destruct ca; [|by iApply "H"].
    iApply wp_atomic_bind. iApply wp_atomic. iApply (wp_getC with "Ht"). iIntros (c <-) "Ht".
    destruct (ctg c).
    - iApply (wp_lruAppend _ true with "Ht H").
    - iApply (wp_lruMove _ false with "Ht H").
    - iApply (wp_lruToTail _ true with "Ht H").
  Qed.
  Lemma wp_discarded io root S n r x Q E : x ≠ noLRU →
    isTR root S -∗ isN n r -∗ isT n (tg x) -∗ held (b_loc r) -∗
    (∀ S' (_ : S ⊆ S'), isTR root S' -∗ isN n (set_loc noloc r) -∗ isT n noLRU -∗ Q tt) -∗
    wp io (markNodeToBeDiscarded t n) Q E.
  Proof.
    iIntros (Hx) "HT HN Ht Hh H". iApply wp_bind. iApply (wp_stale with "HT HN Hh").
    iIntros (S' [HS' _]) "[HR HS] HN".
    iApply (wp_whenCache with "HR"). iIntros "HR". cbn [trec t_cache].
    iSpecialize ("H" $! S' HS' with "[$HR $HS] HN"). unfold tg. destruct ca; [|by iApply "H"].
    iApply wp_atomic_bind. iApply wp_atomic. iApply (wp_getC with "Ht"). iIntros (c <-) "Ht".
    destruct (ctg c); [done|..].
    - iApply (wp_lruRemove _ false with "Ht H").
    - iApply (wp_lruRemove _ true with "Ht H").
  Qed.
  Lemma wp_used io root S n x Q E : x ≠ noLRU →
    isTR root S -∗ isT n (tg x) -∗ (isTR root S -∗ isT n (tg x) -∗ Q tt) -∗
    wp io (markNodeUsed (K:=K) (V:=V) t n) Q E.
  Proof.
    iIntros (Hx) "[HR HS] HT H". iApply (wp_markNodeUsed with "HR HT"); [done|]. iIntros "HR HT".
    iApply ("H" with "[$HR $HS] HT").
  Qed.
  Lemma wp_clean io root S n r x Q E :
    isTR root S -∗ isN n r -∗ isT n (tg x) -∗
    (isTR root S -∗ isN n (set_dirty false r) -∗ isT n (tg cleanLRU) -∗ Q tt) -∗
    wp io (markNodeClean t n) Q E.
  Proof.
    iIntros "[HR HS] HN HT H". iApply (wp_markNodeClean with "HR HN HT"). iIntros "HR HN HT".
    iApply ("H" with "[$HR $HS] HN HT").
  Qed.
  Lemma wp_evicted io root S n x Q E : x ≠ noLRU →
    isTR root S -∗ isT n (tg x) -∗ (isTR root S -∗ isT n noLRU -∗ Q tt) -∗
    wp io (markNodeEvicted (K:=K) (V:=V) t n) Q E.
  Proof.
    iIntros (Hx) "[HR HS] Ht H".
    iApply (wp_whenCache with "HR"). iIntros "HR". cbn [trec t_cache].
    iSpecialize ("H" with "[$HR $HS]"). unfold tg. destruct ca; [|by iApply "H"].
    iApply wp_atomic_bind. iApply wp_atomic. iApply (wp_getC with "Ht"). iIntros (c <-) "Ht".
    destruct (ctg c); [done|..].
    - iApply (wp_lruRemove _ false with "Ht H").
    - iApply (wp_lruRemove _ true with "Ht H").
  Qed.
End rep.

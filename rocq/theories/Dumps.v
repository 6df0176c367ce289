(** * Dump

    What Dump prints.  Models no code. *)
From Coq Require Import ssreflect Sorted.
From stdpp Require Import prelude list gmap.
From iris.bi Require Import bi.
From iris.proofmode Require Import proofmode.
From Verif Require Import Spec SpecFacts Llrb LlrbApi BTree HProp Lru Wp Kv Codec Ghost Order PsTree Rep Load Search Update Plug Insert Borrow Merge Rebal Api Walk Touch Maint Report Open Machine.
Open Scope Z_scope.

(** [x] shows all of these entries and locations, except for what a child that
    could not be read kept from it *)
Definition said {K V} (its : list (K * V)) (ls : list loc) (x : dump K V) : Prop :=
  (printed x.1 `sublist_of` its ∧ shown x.1 `sublist_of` ls) ∧
  (x.2 = None → printed x.1 = its ∧ shown x.1 = ls) ∧ ∀ e, x.2 = Some e → e = EIO.
Lemma said_cat {K V} its1 ls1 its2 ls2 (x y : dump K V) : said its1 ls1 x → said its2 ls2 y →
  said (its1 ++ its2) (ls1 ++ ls2) (dcat x y).
Proof.
  intros [[A1 A2] [A3 A4]] [[B1 B2] [B3 B4]]. destruct x as [lx ex], y as [ly ey]. cbn in *. unfold said, dcat, printed, shown in *. cbn.
  rewrite !omap_app. split; [split; by apply sublist_app|]. split.
  - destruct ex; [done|]. intros ->. destruct (A3 eq_refl) as [-> ->]. by destruct (B3 eq_refl) as [-> ->].
  - destruct ex; [by apply A4|by apply B4].
Qed.
Lemma said_lines {K V} ls : said (printed ls) (shown ls) ((ls, None) : dump K V).
Proof. by split_and!. Qed.
Lemma said_err {K V} its ls : said its ls (([], Some EIO) : dump K V).
Proof. unfold said. cbn. split_and!; [apply sublist_nil_l..|done|by intros e [= <-]]. Qed.

Section dumps.
  Context {K V : Type}.
  Variable cb : callbacks K V.
  Variable dom : K → Prop.
  Variable domV : V → Prop.
  Hypothesis WF : wf_cb cb dom domV.
  Variable mn : nat.
  Hypothesis MN : (2 ≤ mn)%nat.
  Variable t : tid.
  Variable ca : bool.
  Notation cmp := (cb_cmp cb).
  Notation M := (M K V).
  Notation hProp := (hProp K V).
  Notation bval := (bval V).
  Notation gt := (gt K V).
  Notation frame := (frame K V).
  Let ORD := wf_ord _ _ _ WF.
  Notation rep := (rep cb dom mn t ca).
  Notation reps := (reps cb dom mn t ca).
  Notation isTR := (isTR mn t ca).
  Notation inode := (inode cb dom mn t ca).
  Notation inodeU := (inodeU cb dom t ca).
  Notation lnode := (lnode cb dom mn t ca).
  Notation lnode' := (lnode' cb dom mn t ca).
  Notation nrec := (nrec t).
  Notation good := (good cmp dom domV).
  Notation ksorted := (ksorted cmp dom).
  Notation "'let*' x := m 'in' e" := (bind m (fun x => e))
    (at level 200, x name, m at level 100, e at level 200, right associativity).
  Notation "'let*' ' x := m 'in' e" := (bind m (fun x => e))
    (at level 200, x strict pattern, m at level 100, e at level 200, right associativity).
  Notation "m ;; e" := (bind m (fun _ : unit => e))
    (at level 100, e at level 200, right associativity, format "m ;;  '/' e").
  Implicit Types (g c : gt) (n : nid) (f : frame) (C : list frame) (h : nat).
  Notation whole := (whole cb dom mn t ca).
  Notation ctx := (ctx cb dom mn t ca).
  Notation knode := (knode cb dom t).
  Notation pre := (pre cb dom mn t ca).

  Implicit Types (L R : list gt).

  Notation cur := (cur cb dom mn t ca).
  Notation okc := (okc mn).
  Notation goodW := (goodW cb dom domV).
  Notation treeok := (treeok cb dom domV mn).
  Notation framesmall := (framesmall (K:=K) (V:=V)).
  Notation sub := (sub cb dom domV mn).
  Notation TRs := (TRs mn t ca).



  Definition dloop n (leaf : bool) (f : nid → M (dump K V)) : list Z → dump K V → M (dump K V) :=
    fix loop ix x :=
      match ix with
      | [] => ret x
      | i :: ix =>
          let* o := kvGet n i in
          match o with
          | None => panic
          | Some (k, v) =>
              if leaf then let* u := asUser v in loop ix (dcat x ([DItem i k u], None))
              else
                let* c := asNode v in
                let* y := f c in
                loop ix (dcat (dcat x ([DSep i k c], None)) y)
          end
      end.
  Lemma dloop_leaf n r kv kvs (F : nid → M (dump K V)) E its ls : b_kv r = Some kv → iskv cb dom (uels kvs) kv →
    ∀ m j x, (j + m = length kvs)%nat → said its ls x →
      isN n r ⊢ wp true (dloop n true F (Z.of_nat <$> seq j m) x) (λ x', <affine> ⌜said (its ++ drop j kvs) ls x'⌝ ∗ isN n r) E.
  Proof.
    intros Hr Hkv. induction m as [|m IH] in its |- *; intros j x Hj Hx; cbn [seq fmap list_fmap dloop].
    { iIntros "HN". iApply wp_ret. iFrame. iPureIntro. rewrite drop_ge; [|lia]. by rewrite app_nil_r. }
    destruct (lookup_lt_is_Some_2 kvs j) as [[k v] Hk]; [lia|].
    iIntros "HN". iApply wp_bind. iApply (wp_kvGet_nat cb dom with "HN"); [done..|by rewrite uels_lookup Hk|]. iIntros "HN". cbn.
    iApply wp_bind. iApply wp_ret. rewrite (drop_S _ _ _ Hk) (cons_middle (k, v) its) app_assoc.
    iApply (IH (its ++ [(k, v)]) with "HN"); [lia|]. rewrite -{1}(app_nil_r ls). apply said_cat; [done|].
    apply (said_lines [DItem (Z.of_nat j) k v]).
  Qed.
  Lemma dloop_kids n r kv ks cs (F : nid → M (dump K V)) (P : hProp) (J : err → hProp) :
    b_kv r = Some kv → iskv cb dom (kels ks (gid <$> cs)) kv → length cs = Datatypes.S (length ks) →
    (∀ j c, cs !! Datatypes.S j = Some c → P ⊢ wp true (F (gid c)) (λ y, <affine> ⌜said (items (strip c)) (vlocs (vw c)) y⌝ ∗ P) J) →
    ∀ m j x its ls, (j + m = length ks)%nat → said its ls x →
      isN n r ∗ P ⊢ wp true (dloop n false F (Z.of_nat <$> seq j m) x)
        (λ x', <affine> ⌜said (its ++ mjoin ((λ c, items (strip c)) <$> drop (Datatypes.S j) cs)) (ls ++ mjoin ((λ c, vlocs (vw c)) <$> drop (Datatypes.S j) cs)) x'⌝ ∗ isN n r ∗ P)
        (λ e, isN n r ∗ J e).
  Proof.
    intros Hr Hkv Hlen Hf. induction m as [|m IH]; intros j x its ls Hj Hx; cbn [seq fmap list_fmap dloop].
    { iIntros "H". iApply wp_ret. iFrame. iPureIntro. rewrite drop_ge; [|lia]. by rewrite !app_nil_r. }
    destruct (lookup_lt_is_Some_2 ks j) as [k Hk]; [lia|].
    destruct (lookup_lt_is_Some_2 cs (Datatypes.S j)) as [c Hc]; [lia|].
    iIntros "[HN HP]". iApply wp_bind. iApply (wp_kvGet_nat cb dom with "HN"); [done..| |].
    { apply kels_lookup; [by rewrite fmap_length|done|]. by rewrite list_lookup_fmap Hc. }
    iIntros "HN". iApply wp_bind. iApply wp_asNode. iApply wp_bind. pose proof (Hf j c Hc) as Hf'. rewrite {1}Hf'.
    iApply (wp_wand with "HP"). iSplit; [|by iIntros (e) "$"].
    iIntros (y) "[%Hy HP]". rewrite (drop_S _ _ _ Hc) !fmap_cons /= !app_assoc.
    iApply (IH with "[$HN $HP]"); [lia|]. apply said_cat; [|done].
    rewrite -{1}(app_nil_r its) -{1}(app_nil_r ls). apply said_cat; [done|]. apply (said_lines [DSep (Z.of_nat j) k (gid c)]).
  Qed.
  Lemma shown_st n n' st z b1 b2 b3 : pst n' st = [] → (∀ l, st = Clean l → locok l) →
    shown ([DNode n (stloc st) z b1 b2 b3] : list (dline K V)) = option_list (layR st).
  Proof.
    intros Hst Hl. destruct st as [l| | | |]; try done. cbn. destruct (Hl l eq_refl) as [[? _] _].
    destruct (Z.eqb_spec (lnum l) 0); [lia|done].
  Qed.

  Lemma said_head n n' st z b1 b2 b3 : pst n' st = [] → (∀ l, st = Clean l → locok l) →
    said [] (option_list (layR st)) (([DNode n (stloc st) z b1 b2 b3], None) : dump K V).
  Proof. intros H1 H2. rewrite -(shown_st n n' st z b1 b2 b3); [apply (said_lines [DNode n (stloc st) z b1 b2 b3])|done..]. Qed.

  Lemma dump_spec root S : ∀ fuel h par ir g, (Datatypes.S h < fuel)%nat → sub h g →
    isTR root S ∗ rep h par ir g ⊢ wp true (dumpNode cb fuel t (gid g))
      (λ x, <affine> ⌜said (items (strip g)) (vlocs (vw g)) x⌝ ∗ ∃ g', <affine> ⌜seen g g'⌝ ∗ isTR root S ∗ rep h par ir g')
      (λ e, <affine> ⌜e = EIO⌝ ∗ ∃ g', <affine> ⌜seen g g'⌝ ∗ isTR root S ∗ rep h par ir g').
  Proof using WF MN.
    induction fuel as [|fuel IH]; intros h par ir g Hf Hs; [lia|]. iIntros "[HT Hr]". cbn [dumpNode].
    iDestruct (rep_get with "Hr") as (r0) "(HN & %Hr0 & Hr)".
    iApply wp_bind. iApply (wp_getN with "HN"). iIntros "HN". iSpecialize ("Hr" with "HN").
    iApply wp_bind. iApply (load_seen with "HT Hr"); [done..|]. iSplit; last first.
    { iIntros "HT Hr". iSplit; [done|]. iExists g. iFrame. iPureIntro. apply seen_refl, Hs. }
    iIntros (g1 (Hsn & Hs1 & Hl)) "HT Hr". rewrite -(proj1 (proj2 Hsn)).
    assert (strip g = strip g1) as Hst by by rewrite (proj1 (proj2 (proj2 Hsn))).
    assert (vw g = vw g1) as Hvw by by rewrite (proj1 Hsn).
    rewrite Hst Hvw.
    assert (pend g1 = []) as Hp1 by apply Hs1.
    destruct g1 as [|n st kvs|n st ks cs]; [done|..]; cbn [gid].
    - iDestruct (rep_locok _ _ _ _ _ _ _ _ _ n st with "Hr") as %Hlk; [by left; eexists|].
      destruct h as [|h]; [|done]. iDestruct "Hr" as (kv left ps) "(%Hkv & HN & Ht & Hb)".
      iApply wp_bind. iApply (wp_getN with "HN"). iIntros "HN". cbn [BTree.b_leaf Rep.nrec].
      iApply wp_bind. iApply wp_ret. iApply wp_bind.
      iApply (wp_kvLen cb dom with "HN"); [done|exact Hkv|]. iIntros "HN". rewrite uels_len range_of_nat.
      iApply (wp_wand with "[HN]").
      { iApply (dloop_leaf n _ kv kvs (λ c : nid, Try (dumpNode cb fuel t c) (λ e, ret ([], Some e))) (λ _, False)%I [] (option_list (layR st)) with "HN"); [done|exact Hkv|done|].
        by apply (said_head n n). }
      iSplit; [|by iIntros (e) "[]"].
      iIntros (x) "[%Hx HN]". iSplit.
      { iPureIntro. cbn [strip]. rewrite items_CL. rewrite drop_0 app_nil_l in Hx. by destruct st. }
      iExists (GL n st kvs). iFrame "HT". iSplit; [done|]. iExists kv, left, ps. by iFrame.
    - destruct h as [|h]; [done|]. iDestruct (rep_cleanok with "Hr") as %Hok.
      iDestruct (rep_locok _ _ _ _ _ _ _ _ _ n st with "Hr") as %Hlk; [by right; do 2 eexists|].
      assert (pst n st = []) as Hpst by (cbn in Hp1; by apply app_eq_nil in Hp1 as [? _]).
      iEval (rewrite rep_GI) in "Hr". iDestruct "Hr" as "[Hi Hk]". rewrite (skids_refl cb dom mn t ca); [|by eapply sub_pends].
      iDestruct "Hi" as (kv b) "(%Hkv & HN & Ht & Hp & Hb)".
      iApply wp_bind. iApply (wp_getN with "HN"). iIntros "HN".
      cbn [BTree.b_leaf BTree.b_left BTree.b_loc Rep.nrec]. 
      pose proof Hkv as Hkv0. destruct Hkv as (Hkv & Hlen & _). rewrite fmap_length in Hlen.
      assert (i_id <$> (ginfo <$> cs) = gid <$> cs) as Hid by by rewrite -list_fmap_compose.
      rewrite Hid. rewrite Hid in Hkv.
      destruct (lookup_lt_is_Some_2 cs 0) as [c0 Hc0]; [lia|].
      assert (head (gid <$> cs) = Some (gid c0)) as Hhd by (destruct cs; [done|]; by injection Hc0 as ->). rewrite Hhd.
      set F := (λ c : nid, Try (dumpNode cb fuel t c) (λ e, ret ([], Some e))) : nid → M (dump K V).
      set P := (isTR root S ∗ skids cb dom mn t ca h n cs)%I : hProp.
      set J := (λ e, False)%I : err → hProp.
      assert (∀ j c, cs !! j = Some c → P ⊢ wp true (F (gid c)) (λ y, <affine> ⌜said (items (strip c)) (vlocs (vw c)) y⌝ ∗ P) J) as Hstep.
      { intros j c Hc. iIntros "[HT Hk]". iDestruct (skids_focus _ _ _ _ _ _ _ _ _ _ Hc with "Hk") as (c') "(%Hcc & Hc & Hk)".
        iApply wp_try.
        assert (gid c' = gid c) as <- by apply Hcc. assert (strip c' = strip c) as <- by apply Hcc. assert (vw c' = vw c) as <- by apply Hcc.
        iCombine "HT Hc" as "HH". rewrite (IH h (Some n) false c'); [|lia|].
        2: { eapply seen_sub; [|exact Hcc]. eapply sub_kid; [exact MN|exact Hs1|]. by eapply elem_of_list_lookup_2. }
        iApply (wp_wand with "HH"). iSplit.
        - iIntros (y) "[$ (%g' & %Hg' & $ & Hg)]". iApply ("Hk" $! g' Hg' with "Hg").
        - iIntros (e) "[-> (%g' & %Hg' & HT & Hg)]". iApply wp_ret. iSplit; [iPureIntro; apply said_err|]. iFrame "HT". iApply ("Hk" $! g' Hg' with "Hg"). }
      iApply wp_bind. iApply wp_bind. iAssert P with "[$HT $Hk]" as "HP". iEval (rewrite {1}(Hstep 0%nat c0 Hc0)) in "HP".
      iApply (wp_wand with "HP"). iSplit; [|by iIntros (e) "[]"].
      iIntros (y) "[%Hy HP]". iApply wp_ret. iApply wp_bind.
      iApply (wp_kvLen cb dom with "HN"); [done|exact Hkv|]. iIntros "HN".
      rewrite (kels_len mn MN); [|by rewrite fmap_length]. rewrite range_of_nat.
      iApply (wp_wand with "[HN HP]").
      { iApply (dloop_kids n (nrec st (isum (ginfo <$> cs)) ir false par kv (Some (gid c0)) (brt b)) kv ks cs F P J eq_refl Hkv Hlen
          (λ j c Hc, Hstep (Datatypes.S j) c Hc) (length ks) 0 _ (items (strip c0)) (option_list (layR st) ++ vlocs (vw c0)) with "[$HN $HP]"); [done|].
        rewrite -(app_nil_l (items (strip c0))). apply said_cat; [|exact Hy]. by apply (said_head n n). }
      iSplit; [|by iIntros (e) "[_ []]"].
      iIntros (x) "(%Hx & HN & HT & Hk)".
      iDestruct (skids_close cb dom mn t ca with "[HN Ht Hp Hb $Hk]") as (g' [Hs' _]) "Hr"; [exact Hp1| |].
      { iExists kv, b. rewrite Hid Hhd. iFrame. iPureIntro. rewrite -Hid. apply Hkv0. }
      iSplit; [|iExists g'; iFrame; iPureIntro; by eapply seen_trans].
      iPureIntro. rewrite (gi_locs n) //. cbn [strip]. rewrite items_CI; [|by rewrite fmap_length].
      destruct cs as [|c cs]; [done|]. injection Hc0 as ->. cbn [drop] in Hx. rewrite drop_0 in Hx.
      rewrite -!list_fmap_compose. cbn. rewrite -app_assoc in Hx. exact Hx.
  Qed.

  Lemma bt_Dump_spec root S h g : treeok root h g →
    isTR root S ∗ whole h g ⊢ wp true (bt_Dump cb t)
      (λ x, <affine> ⌜said (items (strip g)) (vlocs (vw g)) x⌝ ∗ ∃ g', <affine> ⌜treeok root h g' ∧ vw g' = vw g⌝ ∗ isTR root S ∗ whole h g')
      (λ e, <affine> ⌜e = EIO⌝ ∗ ∃ g', <affine> ⌜treeok root h g' ∧ vw g' = vw g⌝ ∗ isTR root S ∗ whole h g').
  Proof using WF MN.
    iIntros (Ht) "[HT Hw]". iApply (start_rep cb dom domV WF mn MN t ca true (λ fuel rt, dumpNode cb fuel t rt) with "HT Hw"); [done|].
    iIntros (fuel [Hf _]) "Hp HH". rewrite (dump_spec root S fuel); [|lia|by eapply sub_tree].
    iApply (wp_wand with "HH"). iSplit.
    - iIntros (R) "[$ (%g' & %Hs & HT & Hr)]". iExists g'. iFrame. rewrite (proj1 (proj2 Hs)). iFrame. iPureIntro.
      split; [by eapply tree_seen|apply Hs].
    - iIntros (R) "[$ (%g' & %Hs & HT & Hr)]". iExists g'. iFrame. rewrite (proj1 (proj2 Hs)). iFrame. iPureIntro.
      split; [by eapply tree_seen|apply Hs].
  Qed.
End dumps.

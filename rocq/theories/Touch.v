(** * Walks over a whole tree, continued: touch, discard, reports

    Models no code. *)
From Coq Require Import ssreflect Sorted.
From stdpp Require Import prelude list gmap.
From iris.bi Require Import bi.
From iris.proofmode Require Import proofmode.
From Verif Require Import Spec SpecFacts Llrb LlrbApi BTree HProp Lru Wp Kv Codec Ghost Order PsTree Rep Load Search Update Plug Insert Borrow Merge Rebal Api Walk.
Open Scope Z_scope.

Section touch.
  Context {K V : Type}.
  Variable cb : callbacks K V.
  Variable dom : K → Prop.
  Variable domV : V → Prop.
  Hypothesis WF : wf_cb cb dom domV.
  Variable mn : nat.
  Hypothesis MN : (2 ≤ mn)%nat.
  Variable t : tid.
  Variable ca : bool.
  Notation cmp := (cb_cmp cb).
  Notation M := (M K V).
  Notation hProp := (hProp K V).
  Notation bval := (bval V).
  Notation gt := (gt K V).
  Notation frame := (frame K V).
  Let ORD := wf_ord _ _ _ WF.
  Notation rep := (rep cb dom mn t ca).
  Notation reps := (reps cb dom mn t ca).
  Notation isTR := (isTR mn t ca).
  Notation inode := (inode cb dom mn t ca).
  Notation inodeU := (inodeU cb dom t ca).
  Notation lnode := (lnode cb dom mn t ca).
  Notation lnode' := (lnode' cb dom mn t ca).
  Notation nrec := (nrec t).
  Notation good := (good cmp dom domV).
  Notation ksorted := (ksorted cmp dom).
  Notation "'let*' x := m 'in' e" := (bind m (fun x => e))
    (at level 200, x name, m at level 100, e at level 200, right associativity).
  Notation "'let*' ' x := m 'in' e" := (bind m (fun x => e))
    (at level 200, x strict pattern, m at level 100, e at level 200, right associativity).
  Notation "m ;; e" := (bind m (fun _ : unit => e))
    (at level 100, e at level 200, right associativity, format "m ;;  '/' e").
  Implicit Types (g c : gt) (n : nid) (f : frame) (C : list frame) (h : nat).
  Notation whole := (whole cb dom mn t ca).
  Notation ctx := (ctx cb dom mn t ca).
  Notation knode := (knode cb dom t).
  Notation pre := (pre cb dom mn t ca).

  Implicit Types (L R : list gt) (x y : gt).

  Notation cur := (cur cb dom mn t ca).
  Notation okc := (okc mn).
  Notation goodW := (goodW cb dom domV).
  Notation treeok := (treeok cb dom domV mn).
  Notation framesmall := (framesmall (K:=K) (V:=V)).
  Notation sub := (sub cb dom domV mn).

  (** ** Touch *)
  (** the same nodes with the same contents *)
  Definition same g g' : Prop := gid g' = gid g ∧ strip g' = strip g ∧ pend g' = [].
  Lemma same_refl g : pend g = [] → same g g.
  Proof. done. Qed.
  Lemma same_ids cs cs' : Forall2 same cs cs' → gid <$> cs' = gid <$> cs.
  Proof. induction 1 as [|c c' cs cs' (H&_) _ IH]; [done|]. by rewrite !fmap_cons H IH. Qed.
  Lemma same_strips cs cs' : Forall2 same cs cs' → strip <$> cs' = strip <$> cs.
  Proof. induction 1 as [|c c' cs cs' (_&H&_) _ IH]; [done|]. by rewrite !fmap_cons H IH. Qed.
  Lemma same_pend cs cs' : Forall2 same cs cs' → mjoin (pend <$> cs') = [].
  Proof. induction 1 as [|c c' cs cs' (_&_&H) _ IH]; [done|]. by rewrite fmap_cons /= H IH. Qed.
  Lemma same_szs cs cs' : Forall2 same cs cs' → gsz <$> cs' = gsz <$> cs.
  Proof. induction 1 as [|c c' cs cs' (_&H&_) _ IH]; [done|]. by rewrite !fmap_cons /gsz H IH. Qed.
  Lemma inode_same n par ir st ks cs cs' : notclean st → Forall2 same cs cs' →
    inode n par ir st ks (ginfo <$> cs) ⊢ inode n par ir st ks (ginfo <$> cs').
  Proof.
    intros Hst H. apply inode_locs; [done|..]; rewrite -!list_fmap_compose.
    - transitivity (gid <$> cs); [by apply list_fmap_ext|]. rewrite -(same_ids _ _ H). by apply list_fmap_ext.
    - transitivity (gsz <$> cs); [by apply list_fmap_ext|]. rewrite -(same_szs _ _ H). by apply list_fmap_ext.
  Qed.
  Lemma same_vw g g' : cleanok g → cleanok g' → pend g = [] → vw g' = vw g → same g g'.
  Proof.
    intros H1 H2 H3 H4. split_and!; [by rewrite -vid_vw H4 vid_vw|by apply vw_strip|by rewrite (vw_pend g g')].
  Qed.
  Lemma same_trans g1 g2 g3 : same g1 g2 → same g2 g3 → same g1 g3.
  Proof. intros (H1&H2&H3) (K1&K2&K3). split_and!; congruence. Qed.
  Lemma sub_same h g g' : sub h g → same g g' → sub h g'.
  Proof. intros [H1 H2 H3] (K1 & K2 & K3). split; by rewrite ?K2. Qed.

  (** every node is in memory and modified *)
  Fixpoint alldirty g : Prop :=
    match g with
    | GD _ _ => False
    | GL _ st _ => st = Dirty
    | GI _ st _ cs => st = Dirty ∧ foldr (λ c P, alldirty c ∧ P) True cs
    end.
  Lemma alldirty_all cs : foldr (λ c P, alldirty c ∧ P) True cs ↔ Forall alldirty cs.
  Proof.
    induction cs as [|c cs IH]; cbn; [by split|]. rewrite IH. split; [by intros [??]; constructor|by intros [??]%Forall_cons].
  Qed.

  (** a walk that loads each node it visits *)
  Lemma visit_sub mark h par ir g root S Q E : sub h g →
    isTR root S -∗ rep h par ir g -∗
    ((∀ g' (_ : vw g' = vw g ∧ same g g' ∧ sub h g' ∧ isloaded g'), isTR root S -∗ rep h par ir g' -∗ Q tt) ∧
     (isTR root S -∗ rep h par ir g -∗ E EIO)) -∗
    wp true (visit cb mark t (gid g)) Q E.
  Proof using WF MN.
    iIntros (Hs) "HT Hr H". iDestruct (rep_cleanok with "Hr") as %Hok.
    iApply (visit_spec with "HT Hr"); [done|apply Hs|apply Hs|intros _; apply pend_usable, Hs|].
    iSplit; last by iDestruct "H" as "[_ H]".
    iIntros (g' (Hv & Hl)) "HT Hr". iDestruct (rep_cleanok with "Hr") as %Hok'.
    assert (same g g') as Hsm by (apply same_vw; try done; apply Hs).
    assert (vw g' = vw g ∧ same g g' ∧ sub h g' ∧ isloaded g') as HX by (split_and!; try done; by eapply sub_same).
    iDestruct "H" as "[H _]". iApply ("H" $! g' HX with "HT Hr").
  Qed.

  Definition TRs root S : hProp := (∃ S', <affine> ⌜S ⊆ S'⌝ ∗ isTR root S')%I.
  Lemma touch_spec fuel root : ∀ S h par ir g, (h < fuel)%nat → sub h g →
    isTR root S ∗ rep h par ir g ⊢ wp true (touchNode cb fuel t (gid g))
      (λ _, TRs root S ∗ ∃ g', <affine> ⌜same g g' ∧ alldirty g'⌝ ∗ rep h par ir g')
      (λ e, <affine> ⌜e = EIO⌝ ∗ TRs root S ∗ ∃ g', <affine> ⌜same g g' ∧ (gloc g' = gloc g ∨ gloc g' = None)⌝ ∗ rep h par ir g').
  Proof using WF MN.
    induction fuel as [|fuel IH]; intros S h par ir g Hf Hs; [lia|]. iIntros "[HT Hr]". cbn [touchNode].
    iApply wp_bind. iApply (visit_sub with "HT Hr"); [done|]. iSplit; last first.
    { iIntros "HT Hr". iSplit; [done|]. iSplitL "HT"; [iExists S; by iFrame|]. iExists g. iFrame. iPureIntro. split; [|by left].
      apply same_refl, Hs. }
    iIntros (g' (Hv & Hsm & Hs' & Hl)) "HT Hr". rewrite -(proj1 Hsm). iApply wp_bind.
    destruct g' as [n d|n st kvs|n st ks cs]; [done|..]; cbn [gid].
    - destruct h as [|h]; [|done]. iApply (lnode_dirty with "HT Hr"). iIntros (S' [HS _]) "HT Hr".
      iAssert (rep 0 par ir (GL n Dirty kvs)) with "Hr" as "Hr".
      iDestruct (rep_get with "Hr") as (r) "(HN & %Hr & Hr)". cbn [gid].
      iApply wp_bind. iApply (wp_getN with "HN"). iIntros "HN". iSpecialize ("Hr" with "HN").
      destruct Hr as (R1 & R2 & R3 & R4 & R5 & R6). destruct R6 as (_ & -> & _).
      iApply wp_ret. iSplitL "HT"; [iExists S'; by iFrame|]. iExists (GL n Dirty kvs). iFrame. iPureIntro.
      split; [|done]. eapply same_trans; [exact Hsm|]. done.
    - destruct h as [|h]; [done|]. iEval (rewrite rep_GI) in "Hr". iDestruct "Hr" as "[Hi Hk]".
      iApply (inode_dirty with "HT Hi"). iIntros (S' [HS _]) "HT Hi".
      iAssert (rep (Datatypes.S h) par ir (GI n Dirty ks cs)) with "[Hi Hk]" as "Hr"; [rewrite rep_GI; iFrame|].
      iDestruct (rep_get with "Hr") as (r) "(HN & %Hr & Hr)". cbn [gid].
      iApply wp_bind. iApply (wp_getN with "HN"). iIntros "HN". iSpecialize ("Hr" with "HN").
      destruct Hr as (R1 & R2 & R3 & R4 & R5 & R6). destruct R6 as (_ & -> & _).
      iEval (rewrite rep_GI) in "Hr". iDestruct "Hr" as "[Hi Hk]".
      iAssert (TRs root S) with "[HT]" as "HT"; [iExists S'; by iFrame|].
      iCombine "Hi HT Hk" as "H".
      rewrite (walk_inode cb dom mn MN t ca true n par ir Dirty ks cs (λ c : nid, touchNode cb fuel t c) (TRs root S) (λ c, rep h (Some n) false c)
        (λ c, ∃ c', <affine> ⌜same c c' ∧ alldirty c'⌝ ∗ rep h (Some n) false c')%I
        (λ c, ∃ c', <affine> ⌜same c c'⌝ ∗ rep h (Some n) false c')%I
        (λ e, <affine> ⌜e = EIO⌝ ∗ TRs root S)%I); last first.
      { intros c Hc. iIntros "(%c' & (%H1 & %H2) & H)". iExists c'. by iFrame. }
      { intros c Hc. iIntros "H". iExists c. iFrame. iPureIntro. apply same_refl. by eapply sub_pends. }
      { intros c Hc. iIntros "[HT H]". iDestruct "HT" as (S1 HS1) "HT". iCombine "HT H" as "H". rewrite IH; [|lia|by eapply sub_kid].
        iApply (wp_wand with "H"). iSplit.
        - iIntros (_) "[HT (%c' & %H & Hc)]". iSplitL "HT"; [|iExists c'; by iFrame].
          iDestruct "HT" as (S2 HS2) "HT". iExists S2. iFrame. iPureIntro. set_solver.
        - iIntros (e) "[$ [HT (%c' & (%H & _) & Hc)]]". iSplitL "HT"; [|iExists c'; by iFrame].
          iDestruct "HT" as (S2 HS2) "HT". iExists S2. iFrame. iPureIntro. set_solver. }
      iApply (wp_wand with "H"). iSplit; last first.
      { iIntros (e) "(Hi & [$ $] & Hk)". rewrite big_exists. iDestruct "Hk" as (cs' Hcs) "Hk". iExists (GI n Dirty ks cs'). rewrite rep_GI.
        rewrite (inode_same _ _ _ _ _ cs cs') //. iFrame. iPureIntro. split; [|by right].
        eapply same_trans; [exact Hsm|]. split_and!; [done|cbn; by rewrite (same_strips _ _ Hcs)|cbn; by rewrite (same_pend _ _ Hcs)]. }
      iIntros (_) "(Hi & $ & Hk)". rewrite big_exists. iDestruct "Hk" as (cs' Hcs) "Hk". iExists (GI n Dirty ks cs').
      assert (Forall2 same cs cs') as Hcs'. { eapply Forall2_impl; [exact Hcs|]. by intros ?? []. }
      rewrite rep_GI (inode_same _ _ _ _ _ cs cs') //. iFrame. iPureIntro. split.
      + eapply same_trans; [exact Hsm|]. split_and!; [done|cbn; by rewrite (same_strips _ _ Hcs')|cbn; by rewrite (same_pend _ _ Hcs')].
      + split; [done|]. apply alldirty_all. clear -Hcs. induction Hcs as [|??? ? [_ ?] _ IH]; by constructor.
  Qed.

  (** ** Discard *)
  Lemma st_used n st : pst n st = [] → sttag st ≠ noLRU.
  Proof. by destruct st. Qed.
  Lemma discard_spec fuel root : ∀ S h par ir g, (h < fuel)%nat → sub h g →
    isTR root S ∗ rep h par ir g ⊢ wp true (discardNode cb fuel t (gid g))
      (λ _, TRs root S) (λ e, <affine> ⌜e = EIO⌝ ∗ TRs root S ∗ True).
  Proof using WF MN.
    induction fuel as [|fuel IH]; intros S h par ir g Hf Hs; [lia|]. iIntros "[HT Hr]". cbn [discardNode].
    iApply wp_bind. iApply (visit_sub with "HT Hr"); [done|]. iSplit; last first.
    { iIntros "HT Hr". iSplit; [done|]. iSplitL "HT"; [iExists S; by iFrame|]. done. }
    iIntros (g' (Hv & Hsm & Hs' & Hl)) "HT Hr". rewrite -(proj1 Hsm).
    iDestruct (rep_get with "Hr") as (r) "(HN & %Hr & Hr)".
    iApply wp_bind. iApply (wp_getN with "HN"). iIntros "HN". iSpecialize ("Hr" with "HN").
    destruct Hr as (R1 & R2 & R3 & R4 & R5 & R6). iApply wp_bind.
    destruct g' as [n d|n st kvs|n st ks cs]; [done|..]; cbn [gid].
    - destruct h as [|h]; [|done]. destruct R6 as (_ & -> & _). iApply wp_ret.
      iDestruct "Hr" as (kv left ps) "(%Hkv & HN & Ht & Hb)". rewrite leafblk_held.
      iApply (wp_discarded with "HT HN Ht Hb"); [eapply st_used, (sb_pend _ _ _ _ _ _ Hs')|].
      iIntros (S' HS) "HT HN Ht". iExists S'. by iFrame.
    - destruct h as [|h]; [done|]. destruct R6 as (_ & -> & _). iEval (rewrite rep_GI) in "Hr". iDestruct "Hr" as "[Hi Hk]".
      iAssert (TRs root S) with "[HT]" as "HT"; [iExists S; by iFrame|].
      iCombine "Hi HT Hk" as "H".
      rewrite (walk_inode cb dom mn MN t ca true n par ir st ks cs (λ c : nid, discardNode cb fuel t c) (TRs root S) (λ c, rep h (Some n) false c)
        (λ c, emp)%I (λ c, True)%I (λ e, <affine> ⌜e = EIO⌝ ∗ TRs root S)%I); last first.
      { intros c Hc. by iIntros "_". }
      { intros c Hc. by iIntros "_". }
      { intros c Hc. iIntros "[HT H]". iDestruct "HT" as (S1 HS1) "HT". iCombine "HT H" as "H". rewrite IH; [|lia|by eapply sub_kid].
        iApply (wp_wand with "H"). iSplit.
        - iIntros (_) "HT". rewrite right_id.
          iDestruct "HT" as (S2 HS2) "HT". iExists S2. iFrame. iPureIntro. set_solver.
        - iIntros (e) "[$ [HT HX]]". iSplitL "HT"; [|done]. iDestruct "HT" as (S2 HS2) "HT". iExists S2. iFrame. iPureIntro. set_solver. }
      iApply (wp_wand with "H"). iSplit; last first.
      { iIntros (e) "(Hi & [$ $] & Hk)". }
      iIntros (_) "(Hi & HT & _)". iDestruct "HT" as (S1 HS1) "HT".
      iDestruct "Hi" as (kv b) "(%Hkv & HN & Ht & Hp & Hb)". rewrite innerblk_held.
      iApply (wp_discarded with "HT HN Ht Hb").
      { pose proof (sb_pend _ _ _ _ _ _ Hs') as Hp. cbn in Hp. apply app_eq_nil in Hp as [Hp _]. by eapply st_used. }
      iIntros (S' HS) "HT HN Ht". rewrite pstr_dissolve. iExists S'. iFrame. iPureIntro. set_solver.
  Qed.

  (** deleting a list of blocks, in any order *)
  Lemma wp_state io {A} (φ : st K V → A) Q (Er : err → hProp) : (∀ a, Q a) ⊢ wp io (Act (λ s, ORet (φ s) s)) Q Er.
  Proof. apply wp_step. intros σ H σf s Hd Hv HI. split; [qt|]. exists σ. split_and!; try done. apply H. Qed.
  Lemma wp_discardAll : ∀ fuel ls Q (Er : err → hProp), (length ls ≤ fuel)%nat →
    stales ls ∗ (Q tt ∧ (∀ ls' (_ : ls' ⊆ ls), stales ls' -∗ Er EIO)) ⊢
    wp true (discardAll (K:=K) (V:=V) fuel ls) Q Er.
  Proof.
    induction fuel as [|fuel IH]; intros [|l0 ls] Q Er Hf; cbn [length] in Hf; try lia; iIntros "[HS H]".
    - cbn. iApply wp_ret. by iDestruct "H" as "[$ _]".
    - cbn. iApply wp_ret. by iDestruct "H" as "[$ _]".
    - cbn [discardAll]. iApply wp_bind. iApply wp_state. iIntros (pick). set (i := Nat.modulo _ _).
      assert (i < length (l0 :: ls))%nat as Hi by (apply Nat.mod_upper_bound; done).
      destruct (lookup_lt_is_Some_2 (l0 :: ls) i Hi) as [l Hl]. rewrite Hl. cbn [default].
      pose proof (delete_Permutation _ _ _ Hl) as Hperm.
      unfold stales at 1. iEval (rewrite Hperm) in "HS". rewrite big_sepL_cons. iDestruct "HS" as "[(%b & Hb & %Hlk) HS]".
      iApply wp_bind. iApply (wp_DiscardNode with "Hb"). iSplit.
      + iApply (IH with "[HS H]").
        { apply Permutation_length in Hperm. cbn in Hperm |- *. lia. }
        iFrame. iSplit; [by iDestruct "H" as "[$ _]"|]. iIntros (ls' Hls) "HS". iDestruct "H" as "[_ H]".
        assert (ls' ⊆ l0 :: ls) as HX. { intros x Hx. rewrite Hperm. right. by apply Hls. }
        iApply ("H" $! ls' HX with "HS").
      + iIntros "Hb". iDestruct "H" as "[_ H]". assert (l0 :: ls ⊆ l0 :: ls) as HX by done.
        iApply ("H" $! _ HX). unfold stales. rewrite {2}Hperm. rewrite big_sepL_cons. iFrame. iExists b. by iFrame.
  Qed.
  Lemma prune_spec root S Q (Er : err → hProp) :
    isTR root S -∗ (isTR root [] -∗ Q tt) ∧ (∀ S' (_ : S' ⊆ S), isR t (trec mn ca root S) -∗ stales S' -∗ Er EIO) -∗
    wp true (pruneWhileLocked (K:=K) (V:=V) t) Q Er.
  Proof.
    iIntros "[HR HS] H". iApply wp_bind. iApply (wp_getT with "HR"). iIntros "HR".
    iApply wp_bind. cbn [trec t_stale]. iApply wp_discardAll; [done|]. iFrame "HS". iSplit; last first.
    { iDestruct "H" as "[_ H]". iIntros (S' HS) "HS". iApply ("H" $! S' HS with "HR HS"). }
    iApply (wp_modT with "HR"). iIntros "HR". iDestruct "H" as "[H _]". iApply "H". iFrame. by unfold stales.
  Qed.
End touch.

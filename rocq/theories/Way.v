(** * The checked descents

    Copies of the descents of BTree.v that, at every step, look whether the node
    they go to is a child of the node they come from, and panic if not.  They do
    not panic, so the descents of BTree.v go from parents to children.  Models no
    code. *)
From Coq Require Import ssreflect Sorted.
From stdpp Require Import prelude list gmap.
From iris.bi Require Import bi.
From iris.proofmode Require Import proofmode.
From Verif Require Import Spec SpecFacts Llrb LlrbApi BTree HProp Lru Wp Kv Codec Ghost Order PsTree Rep Load Search Update Plug Insert Borrow Merge Rebal Api Walk Touch Maint Report Open Pres Machine World Client Disk Picture Hist Seat History Footprint Cache CacheHist Cost Recent.
From Verif Require Sample.
Open Scope Z_scope.

Section way.
  Context {K V : Type}.
  Variable cb : callbacks K V.
  Notation st := (st K V).
  Notation M := (M K V).
  Notation "'let*' x := m 'in' e" := (bind m (fun x => e))
    (at level 200, x name, m at level 100, e at level 200, right associativity).
  Notation "'let*' ' x := m 'in' e" := (bind m (fun x => e))
    (at level 200, x strict pattern, m at level 100, e at level 200, right associativity).
  Notation "m ;; e" := (bind m (fun _ : unit => e))
    (at level 100, e at level 200, right associativity, format "m ;;  '/' e").

  Definition leads (r : bnode K V) (m : nid) : bool :=
    bool_decide (b_left r = Some m) ||
    match b_kv r with Some tr => existsb (λ p, match p.2 with VNode c => bool_decide (c = m) | _ => false end) (elements tr) | None => false end.
  Definition check (n m : nid) : M unit := let* r := getN n in if leads r m then ret tt else panic.

  Fixpoint bisectC (fuel0 fuel : nat) (t : tid) (n : nid) (delta : Z) (key : K) : M (nid * Z) :=
    match fuel with
    | O => nofuel
    | S fuel =>
        visit cb true t n ;;
        let* r := getN n in
        if b_leaf r then ret (n, delta)
        else
          let* '(c, o) := findChild cb n key in
          match o with
          | Some i =>
              if i =? -1 then check n c ;; bisectC fuel0 fuel t c delta key
              else
                let* '(c', delta) := childOffset fuel0 n c delta in
                check n c' ;;
                bisectC fuel0 fuel t c' delta key
          | None => check n c ;; bisectC fuel0 fuel t c delta key
          end
    end.
  Fixpoint indexC (fuel0 fuel : nat) (mark : bool) (t : tid) (n : nid) (i : Z) (stack : list Z)
      : M (nid * Z * list Z) :=
    match fuel with
    | O => nofuel
    | S fuel =>
        visit cb mark t n ;;
        let* r := getN n in
        if b_leaf r then ret (n, i, stack)
        else
          let* m := deref (b_psroot r) in
          let* '(c, i) := walkPs fuel0 m i in
          let* pc := getP c in
          check n c ;;
          indexC fuel0 fuel mark t c i (pskv pc :: stack)
    end.

  (** the same results, unless it panics *)
  Definition unless {A} (m m' : M A) : Prop := ∀ s, m s = m' s ∨ ∃ s', m s = OStop Panic s'.
  Lemma un_refl {A} (m : M A) : unless m m.
  Proof. by left. Qed.
  Lemma un_bind {A B} (m m' : M A) (f f' : A → M B) : unless m m' → (∀ a, unless (f a) (f' a)) → unless (bind m f) (bind m' f').
  Proof.
    intros Hm Hf s. rewrite !run_bind. destruct (Hm s) as [->|[s' ->]]; [|right; by eexists].
    destruct (m' s) as [a s'|e s'|x s']; [apply Hf|by left..].
  Qed.
  Lemma un_check {A} n m (p p' : M A) : unless p p' → unless (check n m ;; p) p'.
  Proof.
    intros Hp s. unfold check. rewrite !run_bind. cbn [run getN]. destruct (nodes s !! n) as [r|]; [|right; by eexists].
    destruct (leads r m); [apply Hp|right; by eexists].
  Qed.
  Lemma un_bisect key fuel0 : ∀ fuel t n i, unless (bisectC fuel0 fuel t n i key) (descendBisect cb fuel0 fuel t n i key).
  Proof.
    induction fuel as [|fuel IH]; intros t n i; cbn [bisectC descendBisect]; [apply un_refl|].
    apply un_bind; [apply un_refl|intros _]. apply un_bind; [apply un_refl|intros r]. destruct (b_leaf r); [apply un_refl|].
    apply un_bind; [apply un_refl|intros [c o]]. destruct o as [j|]; [|by apply un_check]. destruct (j =? -1); [by apply un_check|].
    apply un_bind; [apply un_refl|intros [c' dl]]. by apply un_check.
  Qed.
  Lemma un_index mark fuel0 : ∀ fuel t n i stack, unless (indexC fuel0 fuel mark t n i stack) (descendIndex cb fuel0 fuel mark t n i stack).
  Proof.
    induction fuel as [|fuel IH]; intros t n i stack; cbn [indexC descendIndex]; [apply un_refl|].
    apply un_bind; [apply un_refl|intros _]. apply un_bind; [apply un_refl|intros r]. destruct (b_leaf r); [apply un_refl|].
    apply un_bind; [apply un_refl|intros m]. apply un_bind; [apply un_refl|intros [c j]]. apply un_bind; [apply un_refl|intros pc]. by apply un_check.
  Qed.
  Lemma check_ret n m s s' : check n m s = ORet tt s' → s' = s ∧ ∃ r, nodes s !! n = Some r ∧ (b_left r = Some m ∨ ∃ tr k, b_kv r = Some tr ∧ (k, VNode m) ∈ elements tr).
  Proof.
    unfold check. rewrite run_bind. cbn [run getN]. destruct (nodes s !! n) as [r|]; [|done]. destruct (leads r m) eqn:E; [|done].
    intros [= <-]. split; [done|]. exists r. split; [done|]. unfold leads in E. apply orb_true_iff in E as [E|E].
    - left. by apply bool_decide_eq_true in E.
    - right. destruct (b_kv r) as [tr|]; [|done]. apply existsb_exists in E as ([k v] & Hin & E). apply elem_of_list_In in Hin.
      cbn in E. destruct v as [|c]; [done|]. apply bool_decide_eq_true in E as ->. by exists tr, k.
  Qed.

  (** ** The ways they go *)
  Section trips.
  Variable t : tid.
  Lemma trip_indexC fuel0 : ∀ fuel n i stack s n' i' stack' s' c d, indexC fuel0 fuel true t n i stack s = ORet (n', i', stack') s' → fr s → attached t s = true → lists s c d →
    trip t down c d n s s'.
  Proof.
    induction fuel as [|fuel IH]; intros n i stack s n' i' stack' s' c d; cbn [indexC]; [done|].
    intros ([] & s1 & H1 & H)%bind_ret HF Ha HL. destruct (visit_head _ _ _ _ _ _ _ H1 HF Ha HL) as (u & r & Hu & HW & Hr & Hl).
    apply bind_ret in H as (r' & s2 & H2 & H). pose proof (same_ret _ _ _ _ (sa_getN n) H2) as ->.
    assert (r' = r) as ->. { revert H2. cbn. rewrite Hr. congruence. } clear H2.
    destruct (b_leaf r) eqn:Hf.
    { injection H as _ _ _ ->. exists [u]. cbn. rewrite Hu. split_and!; [done..|]. constructor. by exists r. }
    apply bind_ret in H as (m & s3 & H3 & H). pose proof (same_ret _ _ _ _ (sa_deref _) H3) as ->.
    apply bind_ret in H as ([x j] & s4 & H4 & H). pose proof (same_ret _ _ _ _ (sa_walkPs _ _ _) H4) as ->.
    apply bind_ret in H as (pc & s5 & H5 & H). pose proof (same_ret _ _ _ _ (sa_getP _) H5) as ->.
    apply bind_ret in H as ([] & s6 & (-> & r2 & Hr2 & HC)%check_ret & H). rewrite Hr in Hr2. injection Hr2 as <-.
    destruct (IH _ _ _ _ _ _ _ _ _ _ H (we_fr _ _ _ _ _ _ HW) (we_attached _ _ _ _ _ _ HW) (we_lists _ _ _ _ _ _ HW)) as (us & HW' & Hh & Hd).
    exists (u :: us). split_and!; [by eapply (went_trans t c d [u] us)|by cbn; rewrite Hu|]. cbn. rewrite Hu. eapply down_step, Hd.
    eapply we_child; [done|]. by exists r.
  Qed.
  Lemma trip_bisectC key fuel0 : ∀ fuel n i s n' i' s' c d, bisectC fuel0 fuel t n i key s = ORet (n', i') s' → fr s → attached t s = true → lists s c d →
    trip t down c d n s s'.
  Proof.
    induction fuel as [|fuel IH]; intros n i s n' i' s' c d; cbn [bisectC]; [done|].
    intros ([] & s1 & H1 & H)%bind_ret HF Ha HL. destruct (visit_head _ _ _ _ _ _ _ H1 HF Ha HL) as (u & r & Hu & HW & Hr & Hl).
    apply bind_ret in H as (r' & s2 & H2 & H). pose proof (same_ret _ _ _ _ (sa_getN n) H2) as ->.
    assert (r' = r) as ->. { revert H2. cbn. rewrite Hr. congruence. } clear H2.
    destruct (b_leaf r) eqn:Hf.
    { injection H as _ _ ->. exists [u]. cbn. rewrite Hu. split_and!; [done..|]. constructor. by exists r. }
    apply bind_ret in H as ([m o] & s3 & H3 & H). pose proof (same_ret _ _ _ _ (sa_findChild _ n key) H3) as ->.
    assert (∃ m' i2, (check n m' ;; bisectC fuel0 fuel t m' i2 key) s1 = ORet (n', i') s') as (m' & i2 & H').
    { destruct o as [j|]; [|by eauto]. destruct (j =? -1); [by eauto|]. apply bind_ret in H as ([x dl] & s4 & H4 & H).
      pose proof (same_ret _ _ _ _ (sa_childOffset _ _ _ _) H4) as ->. by eauto. }
    apply bind_ret in H' as ([] & s6 & (-> & r2 & Hr2 & HC)%check_ret & H'). rewrite Hr in Hr2. injection Hr2 as <-.
    destruct (IH _ _ _ _ _ _ _ _ H' (we_fr _ _ _ _ _ _ HW) (we_attached _ _ _ _ _ _ HW) (we_lists _ _ _ _ _ _ HW)) as (us & HW' & Hh & Hd).
    exists (u :: us). split_and!; [by eapply (went_trans t c d [u] us)|by cbn; rewrite Hu|]. cbn. rewrite Hu. eapply down_step, Hd.
    eapply we_child; [done|]. by exists r.
  Qed.
  End trips.
End way.

(** ** They do not panic *)
Section spec.
  Context {K V : Type}.
  Variable cb : callbacks K V.
  Variable dom : K → Prop.
  Variable domV : V → Prop.
  Hypothesis WF : wf_cb cb dom domV.
  Variable mn : nat.
  Hypothesis MN : (2 ≤ mn)%nat.
  Variable t : tid.
  Variable ca : bool.
  Notation cmp := (cb_cmp cb).
  Notation M := (M K V).
  Notation hProp := (hProp K V).
  Notation bval := (bval V).
  Notation gt := (gt K V).
  Notation frame := (frame K V).
  Let ORD := wf_ord _ _ _ WF.
  Notation good := (good cmp dom domV).
  Notation ksorted := (ksorted cmp dom).
  Notation cutL := (cutL cmp (V:=V)).
  Notation cutR := (cutR cmp (V:=V)).
  Notation rep := (rep cb dom mn t ca).
  Notation reps := (reps cb dom mn t ca).
  Notation isTR := (isTR mn t ca).
  Notation inode := (inode cb dom mn t ca).
  Notation lnode := (lnode cb dom mn t ca).
  Notation whole := (whole cb dom mn t ca).
  Notation ctx := (ctx cb dom mn t ca).
  Implicit Types (g c : gt) (n : nid) (C : list frame) (W : vt K V) (h : nat).

  Notation stk := (Search.stk (K:=K) (V:=V)).
  Notation cur := (Search.cur cb dom mn t ca).
  Notation okc := (Search.okc mn).
  Notation goodW := (Search.goodW cb dom domV).
  Lemma check_spec io n r kv ks (cs : list gt) (j : nat) c Q E : b_kv r = Some kv → b_left r = head (i_id <$> (ginfo <$> cs)) →
    iskv cb dom (kels ks (i_id <$> (ginfo <$> cs))) kv → length cs = Datatypes.S (length ks) → cs !! j = Some c →
    isN n r -∗ (isN n r -∗ Q tt) -∗ wp io (check n (gid c)) Q E.
  Proof.
    iIntros (Hkv Hleft Hi Hlen Hj) "HN H". unfold check. iApply wp_bind. iApply (wp_getN with "HN"). iIntros "HN".
    assert (leads r (gid c) = true) as ->; [|iApply wp_ret; by iApply "H"].
    unfold leads. rewrite Hkv Hleft. destruct Hi as [_ ->]. destruct j as [|j].
    { destruct cs as [|c0 cs]; [done|]. cbn in Hj. injection Hj as ->. cbn. by rewrite bool_decide_eq_true_2. }
    apply orb_true_iff. right. destruct cs as [|c0 cs]; [done|]. cbn in Hj, Hlen.
    destruct (ks !! j) as [k|] eqn:Hk; [|apply lookup_ge_None in Hk; apply lookup_lt_Some in Hj; lia].
    apply existsb_exists. exists (k, VNode (gid c)). cbn [snd]. rewrite bool_decide_eq_true_2 //. split; [|done].
    apply elem_of_list_In, elem_of_list_lookup. exists j. unfold kels, kvals. cbn [fmap list_fmap tail].
    rewrite lookup_zip_with Hk /= !list_lookup_fmap Hj. done.
  Qed.
  Lemma bisectC_spec key fuel0 : dom key → ∀ h fuel W root S C g Q E, (h < fuel)%nat → (cnt (vstrip W) ≤ fuel0)%nat →
    okc W h C g → goodW W → cutL key (cpre C) → cutR key (cpost C) →
    cur root S h C g -∗
    ((∀ C' n st kvs (_ : okc W 0 C' (GL n st kvs) ∧ (h + length C)%nat = length C' ∧ cutL key (cpre C') ∧ cutR key (cpost C')),
        cur root S 0 C' (GL n st kvs) -∗ Q (n, plen C')) ∧
     (∀ C' h' g' (_ : okc W h' C' g' ∧ (h + length C)%nat = (h' + length C')%nat), cur root S h' C' g' -∗ E EIO)) -∗
    wp true (bisectC cb fuel0 fuel t (gid g) (plen C) key) Q E.
  Proof using WF MN.
    intros Hk. induction h as [|h IH]; intros fuel W root S C g Q E Hf Hf0 Hok Hg HL HR; (destruct fuel as [|fuel]; [lia|]);
      cbn [bisectC]; iIntros "Hcur H"; iApply wp_bind; (iApply (cur_visit cb dom domV WF mn MN with "Hcur"); [done..|]); iSplit.
    2,4: iDestruct "H" as "[_ H]"; iIntros "Hcur"; iApply ("H" $! C _ g (conj Hok eq_refl) with "Hcur").
    - iIntros (g' (Hok' & Hl & Hvw)) "Hcur".
      destruct g' as [|n st kvs|]; [done| |by destruct Hok' as [_ _ ? _ _]].
      iDestruct "Hcur" as "(HT & Hc & Hr)". cbn [Rep.rep].
      iDestruct "Hr" as (kv left ps Hkv) "(HN & Ht & Hb)".
      assert (gid g = n) as ->. { by rewrite -vid_vw -Hvw vid_vw. }
      iApply wp_bind. iApply (wp_getN with "HN"). iIntros "HN". cbn [nrec b_leaf]. iApply wp_ret.
      iDestruct "H" as "[H _]". iApply ("H" $! C n st kvs (conj Hok' (conj eq_refl (conj HL HR)))).
      iFrame. cbn [Rep.rep]. iExists kv, left, ps. iFrame. done.
    - iIntros (g' (Hok' & Hl & Hvw)) "Hcur".
      destruct g' as [|n st kvs|n st ks cs]; [done|by destruct Hok' as [_ _ ? _ _]|].
      assert (gid g = n) as ->. { by rewrite -vid_vw -Hvw vid_vw. }
      destruct (okc_kids mn MN _ _ _ _ _ _ _ Hok') as (Hlen & Hne & Hcnt).
      iDestruct "Hcur" as "(HT & Hc & Hr)". rewrite rep_GI. iDestruct "Hr" as "[(%kv & %b & (%Hkv & %Hlen' & %Hb & %Hlf) & HN & Ht & Hp & Hib) Hk]".
      iApply wp_bind. iApply (wp_getN with "HN"). iIntros "HN". cbn [nrec b_leaf].
      iApply wp_bind. iApply (findChild_spec cb dom domV WF mn MN with "HN"); [done|exact Hkv|done|by rewrite fmap_length|done|done|].
      iIntros (j cj (Hcj & Hka & Hkb)) "HN".
      rewrite -list_fmap_compose list_lookup_fmap in Hcj. destruct (cs !! j) as [c|] eqn:Hj; [|done].
      injection Hcj as <-. cbn [i_id ginfo].
      pose proof (okc_down mn MN _ _ _ _ _ _ _ _ _ Hok' Hj) as Hok2.
      destruct (cut_down cb dom domV WF mn _ _ _ _ _ _ _ _ _ _ Hk Hg Hok2 Hka Hkb HL HR) as [HL2 HR2].
      pose proof (wfC_lens _ _ _ (ok_wfC _ _ _ _ _ Hok2)) as [[L1 L2] _]%Forall_cons.
      pose proof (plen_cons (frame_at n st ks cs j) C L1) as Hpl. cbn [frame_at f_ls] in Hpl.
      iAssert (isTR root S -∗ Rep.ctx cb dom mn t ca (Datatypes.S h) C (ginfo (GI n st ks cs)) -∗
               isN n (nrec t st (isum (ginfo <$> cs)) (isnil C) false (hpar C) kv (head (i_id <$> (ginfo <$> cs))) (brt b)) -∗
               isT n (tg ca (sttag st)) -∗ pstr None b -∗ innerblk cb mn (isnil C) st ks (ginfo <$> cs) -∗ reps h n cs -∗
               wp true (bisectC cb fuel0 fuel t (gid c) (plen (frame_at n st ks cs j :: C)) key) Q E)%I with "[H]" as "H".
      { iIntros "HT Hc HN Ht Hp Hib Hk".
        iApply (IH fuel W with "[HT Hc HN Ht Hp Hib Hk]"); [lia|done..| |].
        + iApply cur_down; [done..|]. iFrame "HT Hc". rewrite rep_GI. iFrame "Hk". iExists kv, b. iFrame. done.
        + iSplit.
          * iDestruct "H" as "[H _]". iIntros (C' n' st' kvs' (H1&H2&H3)) "Hcur".
            cbn [length] in H2. rewrite -Nat.add_succ_comm in H2.
            iApply ("H" $! C' n' st' kvs' (conj H1 (conj H2 H3)) with "Hcur").
          * iDestruct "H" as "[_ H]". iIntros (C' h' g' (H1&H2)) "Hcur".
            cbn [length] in H2. rewrite -Nat.add_succ_comm in H2.
            iApply ("H" $! C' h' g' (conj H1 H2) with "Hcur"). }
      destruct (Z.of_nat j - 1 =? -1) eqn:Hj0.
      + assert (j = 0%nat) as -> by lia. cbn [take fmap list_fmap sumz foldr] in Hpl. rewrite Z.add_0_r in Hpl. rewrite -Hpl.
        iApply wp_bind. iApply (check_spec _ _ _ kv ks cs 0%nat c with "HN"); [done|done|exact Hkv|done|done|]. iIntros "HN".
        iApply ("H" with "HT Hc HN Ht Hp Hib Hk").
      + iApply wp_bind.
        change (gid c) with (e_id (entof j (ginfo c))).
        iApply (childOffset_spec cb dom ORD _ (reps h n cs) b _ (entof j (ginfo c)) with "HN Hp Hk").
        { rewrite Hb. by apply (ents_at mn). } { done. } { rewrite Hb imap_length fmap_length. lia. }
        { rewrite Hb. apply reps_readable. }
        iIntros "HN Hp Hk". rewrite ents_sum -Hpl. cbn [e_id entof fst i_id ginfo].
        iApply wp_bind. iApply (check_spec _ _ _ kv ks cs j c with "HN"); [done|done|exact Hkv|done|done|]. iIntros "HN".
        iApply ("H" with "HT Hc HN Ht Hp Hib Hk").
  Qed.
  Lemma indexC_spec mark fuel0 : ∀ h fuel W root S C g i Q E, (h < fuel)%nat → (cnt (vstrip W) ≤ fuel0)%nat →
    okc W h C g → goodW W → 0 ≤ i < gsz g →
    cur root S h C g -∗
    ((∀ C' n st kvs i' (_ : okc W 0 C' (GL n st kvs) ∧ (h + length C)%nat = length C' ∧ plen C + i = plen C' + Z.of_nat i' ∧ (i' < length kvs)%nat),
        cur root S 0 C' (GL n st kvs) -∗ Q (n, Z.of_nat i', stk C')) ∧
     (∀ C' h' g' (_ : okc W h' C' g' ∧ (h + length C)%nat = (h' + length C')%nat), cur root S h' C' g' -∗ E EIO)) -∗
    wp true (indexC cb fuel0 fuel mark t (gid g) i (stk C)) Q E.
  Proof using WF MN.
    induction h as [|h IH]; intros fuel W root S C g i Q E Hf Hf0 Hok Hg Hi; (destruct fuel as [|fuel]; [lia|]);
      cbn [indexC]; iIntros "Hcur H"; iApply wp_bind; (iApply (cur_visit cb dom domV WF mn MN with "Hcur"); [done..|]); iSplit.
    2,4: iDestruct "H" as "[_ H]"; iIntros "Hcur"; iApply ("H" $! C _ g (conj Hok eq_refl) with "Hcur").
    - iIntros (g' (Hok' & Hl & Hvw)) "Hcur".
      destruct g' as [|n st kvs|]; [done| |by destruct Hok' as [_ _ ? _ _]].
      iDestruct "Hcur" as "(HT & Hc & Hr)". cbn [Rep.rep].
      iDestruct "Hr" as (kv left ps Hkv) "(HN & Ht & Hb)".
      assert (gid g = n) as ->. { by rewrite -vid_vw -Hvw vid_vw. }
      iApply wp_bind. iApply (wp_getN with "HN"). iIntros "HN". cbn [nrec b_leaf]. iApply wp_ret.
      iDestruct "H" as "[H _]".
      assert (gsz g = Z.of_nat (length kvs)) as Hsz. { unfold gsz. rewrite -(vw_strip _ _ Hvw). cbn [strip]. by rewrite csz_CL. }
      destruct (Z_of_nat_complete i) as [i0 ->]; [lia|].
      assert (plen C + Z.of_nat i0 = plen C + Z.of_nat i0 ∧ (i0 < length kvs)%nat) as HX by lia.
      iApply ("H" $! C n st kvs i0 (conj Hok' (conj eq_refl HX))).
      iFrame. cbn [Rep.rep]. iExists kv, left, ps. iFrame. done.
    - iIntros (g' (Hok' & Hl & Hvw)) "Hcur".
      destruct g' as [|n st kvs|n st ks cs]; [done|by destruct Hok' as [_ _ ? _ _]|].
      assert (gid g = n) as ->. { by rewrite -vid_vw -Hvw vid_vw. }
      destruct (okc_kids mn MN _ _ _ _ _ _ _ Hok') as (Hlen & Hne & Hcnt).
      assert (gsz g = sumz (gsz <$> cs)) as Hsz.
      { unfold gsz at 1. rewrite -(vw_strip _ _ Hvw). fold (gsz (GI n st ks cs)). rewrite gsz_GI // chs_sum //. }
      iDestruct "Hcur" as "(HT & Hc & Hr)". rewrite rep_GI. iDestruct "Hr" as "[(%kv & %b & (%Hkv & %Hlen' & %Hb & %Hlf) & HN & Ht & Hp & Hib) Hk]".
      iApply wp_bind. iApply (wp_getN with "HN"). iIntros "HN". cbn [nrec b_leaf b_psroot].
      destruct (brt b) as [m|] eqn:Hm; last first.
      { apply brt_None in Hm. subst b. destruct cs; done. }
      iApply wp_bind. iApply (wp_deref _ _ m); [done|].
      iApply wp_bind. iApply (walkPs_spec cb dom ORD _ (reps h n cs) b with "Hp Hk").
      { done. } { rewrite Hb imap_length fmap_length. lia. } { rewrite bsum_bins Hb ents_sum -Hsz. done. } { rewrite Hb. apply reps_readable. }
      iIntros (A e B i' (HA & Hi' & Hsze)) "Hp Hk".
      pose proof HA as HA'. rewrite Hb in HA'. apply (ents_split mn MN) in HA' as (j & c & Hj & HjA & -> & HsA).
      iDestruct (pstr_ix b (entof j (ginfo c)) None with "Hp") as (p) "(HP & %Hix & Hp)".
      { rewrite HA. apply elem_of_app. right. by left. }
      iApply wp_bind. iApply (wp_getP with "HP"). iIntros "HP". iSpecialize ("Hp" with "HP"). rewrite Hix. cbn [e_ix e_id e_sz entof fst snd i_id i_sz ginfo] in *.
      pose proof (okc_down mn MN _ _ _ _ _ _ _ _ _ Hok' Hj) as Hok2.
      pose proof (wfC_lens _ _ _ (ok_wfC _ _ _ _ _ Hok2)) as [[L1 L2] _]%Forall_cons.
      pose proof (plen_cons (frame_at n st ks cs j) C L1) as Hpl. cbn [frame_at f_ls] in Hpl.
      assert (stk (frame_at n st ks cs j :: C) = (Z.of_nat j - 1) :: stk C) as Hstk.
      { unfold stk. cbn [fmap list_fmap frame_at f_ls]. rewrite take_length. apply lookup_lt_Some in Hj. do 2 f_equal. lia. }
      rewrite -Hstk.
      iApply wp_bind. iApply (check_spec _ _ _ kv ks cs j c with "HN"); [done|done|exact Hkv|done|done|]. iIntros "HN".
      iApply (IH fuel W with "[HT Hc HN Ht Hp Hib Hk]"); [lia|done..| |].
      + iApply cur_down; [done..|]. iFrame "HT Hc". rewrite rep_GI. iFrame "Hk". iExists kv, b. rewrite Hm. iFrame. done.
      + assert (plen C + i = plen (frame_at n st ks cs j :: C) + i') as Hpi. { rewrite Hpl Hi' HsA. lia. }
        iSplit.
        * iDestruct "H" as "[H _]". iIntros (C' n' st' kvs' i2 (H1&H2&H3)) "Hcur". rewrite -Hpi in H3.
          cbn [length] in H2. rewrite -Nat.add_succ_comm in H2.
          iApply ("H" $! C' n' st' kvs' i2 (conj H1 (conj H2 H3)) with "Hcur").
        * iDestruct "H" as "[_ H]". iIntros (C' h' g' (H1&H2)) "Hcur".
          cbn [length] in H2. rewrite -Nat.add_succ_comm in H2.
          iApply ("H" $! C' h' g' (conj H1 H2) with "Hcur").
  Qed.
End spec.

(** ** At the states of histories *)
Section hist.
  Context {K V : Type}.
  Variable cb : callbacks K V.
  Variable dom : K → Prop.
  Variable domV : V → Prop.
  Hypothesis WF : wf_cb cb dom domV.
  Notation cmp := (cb_cmp cb).
  Notation hProp := (hProp K V).
  Notation st := (st K V).
  Notation M := (M K V).
  Notation gt := (gt K V).
  Notation winv := (winv cb dom domV).
  Notation seat := (seat cb dom domV).
  Notation treeok := (treeok cb dom domV).
  Notation whole := (whole cb dom).
  Notation after := (after (K:=K) (V:=V) cmp).
  Notation history := (Sample.history cb dom domV).
  Implicit Types (s : st) (g : gt) (h : nat).

  Section probes.
    Context (mn : nat) (t : tid) (ca : bool) (root : nid) (S : list loc) (h : nat) (g : gt).
    Context (MN : (2 ≤ mn)%nat) (Ht : treeok mn root h g).
    Notation own := (isTR mn t ca root S ∗ whole mn t ca h g)%I.
    Lemma probe_bisectC k : dom k → own ⊢ wp true (with_fuel (λ fuel, bind (rootOf t) (λ rt, bisectC cb fuel fuel t rt 0 k))) (λ x, ⌜True⌝) (λ _, True).
    Proof using WF MN Ht.
      iIntros (Hk) "[HT Hw]". iApply (start cb dom domV mn MN with "HT Hw"); [done|]. iIntros (fuel Hf) "Hcur".
      destruct (tree_okc cb dom domV mn root h g Ht) as [Hok Hg].
      iApply (bisectC_spec cb dom domV WF mn MN t ca k fuel Hk h fuel (vw g) root S [] g with "Hcur"); [by eapply (height_fuel cb dom domV mn)|rewrite strip_vw; lia|done|done|constructor|constructor|].
      iSplit; by iIntros.
    Qed.
    Lemma probe_indexC i : 0 ≤ i < gsz g → own ⊢ wp true (with_fuel (λ fuel, bind (rootOf t) (λ rt, indexC cb fuel fuel true t rt i []))) (λ x, ⌜True⌝) (λ _, True).
    Proof using WF MN Ht.
      iIntros (Hi) "[HT Hw]". iApply (start cb dom domV mn MN with "HT Hw"); [done|]. iIntros (fuel Hf) "Hcur".
      destruct (tree_okc cb dom domV mn root h g Ht) as [Hok Hg].
      iApply (indexC_spec cb dom domV WF mn MN t ca true fuel h fuel (vw g) root S [] g with "Hcur"); [by eapply (height_fuel cb dom domV mn)|rewrite strip_vw; lia|done|done|done|].
      iSplit; by iIntros.
    Qed.
  End probes.

  Section one.
    Context w s t i f lv ca root S h g σ σf (HW : winv w s) (HS : seat w s t i f lv ca root S h g σ σf).
    Lemma bisect_checked k n : dom k → rootOf t s = ORet n s → bisectC cb (fuel_at s) (fuel_at s) t n 0 k s = descendBisect cb (fuel_at s) (fuel_at s) t n 0 k s.
    Proof using HS HW WF.
      intros Hk Hn. pose proof HS as [H1 H2 _ _ _ _ _ _].
      pose proof (seat_safe cb dom domV _ _ _ _ _ _ _ _ _ _ _ _ _ _ _ _ HW HS (probe_bisectC (mnof f) t ca root S h g H1 H2 k Hk)) as HP.
      rewrite fuel_run run_bind Hn in HP.
      destruct (un_bisect cb k (fuel_at s) (fuel_at s) t n 0 s) as [?|[s' E]]; [done|]. by rewrite E in HP.
    Qed.
    Lemma index_checked j n : 0 ≤ j < gsz g → rootOf t s = ORet n s → indexC cb (fuel_at s) (fuel_at s) true t n j [] s = descendIndex cb (fuel_at s) (fuel_at s) true t n j [] s.
    Proof using HS HW WF.
      intros Hj Hn. pose proof HS as [H1 H2 _ _ _ _ _ _].
      pose proof (seat_safe cb dom domV _ _ _ _ _ _ _ _ _ _ _ _ _ _ _ _ HW HS (probe_indexC (mnof f) t ca root S h g H1 H2 j Hj)) as HP.
      rewrite fuel_run run_bind Hn in HP.
      destruct (un_index cb true (fuel_at s) (fuel_at s) t n j [] s) as [?|[s' E]]; [done|]. by rewrite E in HP.
    Qed.
  End one.

  Hint Resolve sa_ret sa_fail sa_panic sa_nofuel sa_getN sa_getP sa_getT sa_deref sa_lift sa_kvOf sa_kvGet sa_kvLen sa_kvBisectLeft sa_kvBisectRight sa_kvGetKey sa_compareM sa_asNode sa_asUser : sa.
  Ltac sa1 :=
    match goal with
    | |- same (bind _ _) => apply sa_bind; [|intros ?]
    | H : ∀ _, same _ |- same _ => apply H
    | |- same (match ?x with _ => _ end) => destruct x
    | _ => solve [auto with sa nocore]
    end.
  Ltac sa := repeat sa1.
  Lemma bisect_way hi s t m (left : bool) key a s' c d : history hi s → contents (after hi) t = Some m → dom key →
    exec cb (MapCall t (if left then CBisectLeft key else CBisectRight key)) s = ORet a s' → attached t s = true → lists s c d →
    ∃ n, root t s n ∧ trip t down c d n s s'.
  Proof using WF.
    intros HH Hm Hk H Ha HL. destruct (hist_Inv cb dom domV WF _ _ HH) as [_ I1 _ I2 _].
    destruct (hist_seat cb dom domV WF _ _ _ _ HH Hm) as (i & f & lv & ca' & rt & S' & h' & g' & σ & σf & Hon & Hits & HS).
    destruct (hist_facts cb dom domV WF _ _ HH) as (_ & _ & HW).
    destruct left; cbn [exec bt_call] in H; apply bind_ret in H as (a1 & s1 & H & [= _ <-]); [unfold bt_BisectLeft in H|unfold bt_BisectRight in H]; rewrite fuel_run in H;
    apply bind_ret in H as (n & s2 & Hr & H); pose proof (root_of _ _ _ _ Hr) as [-> Hn]; exists n; (split; [done|]);
    (eapply then_same, H; [|by intros [? ?]; sa]); intros [n1 st1] s3 H3; rewrite -(bisect_checked _ _ _ _ _ _ _ _ _ _ _ _ _ HW HS _ _ Hk Hr) in H3; by eapply trip_bisectC.
  Qed.
  Lemma index_way hi s t m j kv s' c d : history hi s → contents (after hi) t = Some m →
    exec cb (MapCall t (CGetByIndex j)) s = ORet (RAns (RItem (Some kv))) s' → attached t s = true → lists s c d →
    ∃ n, root t s n ∧ trip t down c d n s s'.
  Proof using WF.
    intros HH Hm H Ha HL. destruct (hist_Inv cb dom domV WF _ _ HH) as [_ I1 _ I2 _].
    destruct (hist_seat cb dom domV WF _ _ _ _ HH Hm) as (i & f & lv & ca' & rt & S' & h' & g' & σ & σf & Hon & Hits & HS).
    destruct (hist_facts cb dom domV WF _ _ HH) as (_ & _ & HW).
    cbn [exec bt_call] in H. apply bind_ret in H as (a1 & s1 & H & [= -> <-]). unfold bt_GetByIndex in H. rewrite fuel_run in H.
    apply bind_ret in H as (n & s2 & Hr & H). pose proof (root_of _ _ _ _ Hr) as [-> Hn]. exists n. split; [done|].
    apply bind_ret in H as (r & s2 & H2 & H). pose proof (same_ret _ _ _ _ (sa_getN n) H2) as ->.
    assert (n = gid g') as ->. { pose proof (seat_root cb dom domV _ _ _ _ _ _ _ _ _ _ _ _ _ HS) as HR. rewrite HR in Hr. by injection Hr. }
    destruct (seat_items cb dom domV WF _ _ _ _ _ _ _ _ _ _ _ _ _ HW HS _ _ H2) as [_ Hsz].
    destruct (_ || _) eqn:Hb; [done|]. apply orb_false_iff in Hb as [Hb1 Hb2]. rewrite Hsz in Hb1 Hb2.
    eapply then_same, H; [|by intros [[? ?] ?]; sa]. intros [[n1 ?] st1] s3 H3.
    rewrite -(index_checked _ _ _ _ _ _ _ _ _ _ _ _ _ HW HS j) in H3; [by eapply trip_indexC|lia|done].
  Qed.

  Theorem used_way hi s t m T c d cmd a s' : history hi s → contents (after hi) t = Some m → legal dom domV (after hi) cmd →
    trees s !! t = Some T → t_cache T = true → lists s c d →
    looks t cmd a → exec cb cmd s = ORet a s' →
    ∃ n ns cs ds, t_root T = Some n ∧ down s' n ns ∧
      lists s' (filter (λ m, m ∉ ns) c ++ cs) (filter (λ m, m ∉ ns) d ++ ds) ∧ (∀ m, m ∈ ns ↔ m ∈ cs ∨ m ∈ ds) ∧
      c_hits (cache s') + c_misses (cache s') = c_hits (cache s) + c_misses (cache s) + Z.of_nat (length ns).
  Proof using WF.
    intros HH Hm Hleg HT Hc HL Hcmd H. pose proof (hist_Inv cb dom domV WF _ _ HH) as HI. pose proof (att _ _ _ HT Hc) as Ha.
    assert (∃ n, root t s n ∧ trip t down c d n s s') as (n & (T' & HT' & Hn) & HTr).
    { destruct Hcmd as [k a|i [k v]|k a|k a|a].
      - by eapply get_trip.
      - by eapply index_way.
      - eapply (bisect_way hi s t m true k); [done..| |done|done|done]. destruct Hleg as [_ [Hk _]]. by apply Forall_cons in Hk as [? _].
      - eapply (bisect_way hi s t m false k); [done..| |done|done|done]. destruct Hleg as [_ [Hk _]]. by apply Forall_cons in Hk as [? _].
      - by eapply dim_trip. }
    rewrite HT in HT'. injection HT' as <-. destruct (trip_lists _ _ _ _ _ _ _ HTr) as (ns & cs & ds & HP & _ & HL' & HM & Hcnt). by exists n, ns, cs, ds.
  Qed.
  (** the next victim was not among them, if there is another clean node *)
  Theorem way_spared hi s t m T c d cmd a s' v s'' : history hi s → contents (after hi) t = Some m → legal dom domV (after hi) cmd →
    trees s !! t = Some T → t_cache T = true → lists s c d →
    looks t cmd a → exec cb cmd s = ORet a s' → exec cb DrainSelect s' = ORet (RVictim (Some v)) s'' →
    ∃ n ns, t_root T = Some n ∧ down s' n ns ∧
      c_hits (cache s') + c_misses (cache s') = c_hits (cache s) + c_misses (cache s) + Z.of_nat (length ns) ∧
      ((∃ m, m ∈ c ∧ m ∉ ns) → v ∈ c ∧ v ∉ ns ∧ head (filter (λ m, m ∉ ns) c) = Some v).
  Proof using WF.
    intros HH Hm Hleg HT Hc HL Hcmd H Hv. destruct (used_way _ _ _ _ _ _ _ _ _ _ HH Hm Hleg HT Hc HL Hcmd H) as (n & ns & cs & ds & H1 & H2 & HL' & HM & Hcnt).
    exists n, ns. split_and!; [done..|]. intros (y & Hmc & Hmn).
    destruct (select_choice cb s' _ _ HL') as (v' & s2 & Hv' & _ & _ & HX). rewrite Hv in Hv'. injection Hv' as <- <-. destruct (HX v eq_refl) as [Hh _].
    assert (y ∈ filter (λ m, m ∉ ns) c) as Hin by by apply elem_of_list_filter.
    destruct (filter (λ m, m ∉ ns) c) as [|v2 L] eqn:E; [by apply elem_of_nil in Hin|]. cbn in Hh. injection Hh as ->.
    assert (v ∈ filter (λ m, m ∉ ns) c) as [? ?]%elem_of_list_filter by by rewrite E; left. done.
  Qed.
End hist.

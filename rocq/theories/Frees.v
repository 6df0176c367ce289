(** * What Flush and Purge leave in memory

    Models no code. *)
From Coq Require Import ssreflect.
From stdpp Require Import prelude list gmap.
From iris.bi Require Import bi.
From iris.proofmode Require Import proofmode.
From Verif Require Import Spec SpecFacts BTree HProp Lru Wp Kv Codec Ghost Order PsTree Rep Load Search Update Plug Insert Borrow Merge Rebal Api Walk Touch Maint Report Open Pres Machine Still World Client Sample Disk Picture Hist Seat History Footprint Cache CacheHist.
Open Scope Z_scope.

Section frees.
  Context {K V : Type}.
  Variable cb : callbacks K V.
  Variable dom : K → Prop.
  Variable domV : V → Prop.
  Hypothesis WF : wf_cb cb dom domV.
  Notation cmp := (cb_cmp cb).
  Notation st := (st K V).
  Notation gt := (gt K V).
  Notation vt := (vt K V).
  Notation history := (history cb dom domV).
  Notation after := (after cmp).
  Notation pictured := (pictured cb dom domV).
  Implicit Types (s : st) (g : gt) (l : loc) (t : tid).

  Lemma loaded_GD x g : isGD g → loaded x g = [].
  Proof. by destruct g. Qed.
  Lemma lean_loaded g : lean g → pend g = [] → loaded cleanLRU g = [].
  Proof.
    induction g as [n d|n st kvs|n st ks cs IH] using gt_ind'; intros Hl Hp; [done|by destruct st|].
    assert (foldr (λ c P, lean c ∧ P) True cs ∧ tagged cleanLRU n st = [] ∧ mjoin (pend <$> cs) = []) as (Hcs & Ht & Hp').
    { cbn in Hp. unfold pst in Hp. by destruct st. }
    cbn. rewrite Ht. clear -IH Hcs Hp'. induction IH as [|c cs Hc _ IHc]; [done|]. destruct Hcs as [H1 H2]. cbn in Hp'. apply app_eq_nil in Hp' as [Hp1 Hp2].
    rewrite fmap_cons. cbn. by rewrite Hc // IHc.
  Qed.
  (** the modified nodes of a picture *)
  Fixpoint vdirty (v : vt) : list nid :=
    match v with
    | VC _ _ => []
    | VL n st _ => tagged dirtyLRU n st
    | VI n st _ vs => tagged dirtyLRU n st ++ mjoin (vdirty <$> vs)
    end.
  Lemma dirty_vw g : cleanok g → pend g = [] → loaded dirtyLRU g = vdirty (vw g).
  Proof.
    induction g as [n d|n st kvs|n st ks cs IH] using gt_ind'; intros Hok Hp; [done|by destruct st|].
    destruct (gloc (GI n st ks cs)) as [l|] eqn:Hg.
    { rewrite loaded_gloc; [by destruct st|done|done|by rewrite Hg; eexists]. }
    assert (stok st = true) as Hst by by cbn in Hp; unfold pst in Hp; destruct (stok st).
    assert (mjoin (loaded dirtyLRU <$> cs) = mjoin (vdirty <$> (vw <$> cs))) as HE; [|by destruct st; cbn; try done; rewrite HE].
    cbn in Hp. unfold pst in Hp. rewrite Hst in Hp. cbn in Hp.
    assert (Forall cleanok cs) as Hcs. { apply cleanok_all. destruct st; [apply Hok|exact Hok..]. }
    clear -IH Hcs Hp. induction IH as [|c cs Hc _ IHc]; [done|]. apply Forall_cons in Hcs as [Hcc Hcs].
    cbn in Hp. apply app_eq_nil in Hp as [Hp1 Hp2]. rewrite !fmap_cons. cbn. rewrite Hc // IHc //.
  Qed.

  Theorem flush_frees hi s t m mn ca S h g r s' : history hi s → contents (after hi) t = Some m → pictured s t mn ca S h g →
    exec cb (Flush t true) s = ORet r s' →
    ∃ g', pictured s' t mn ca S h g' ∧ strip g' = strip g ∧ loaded cleanLRU g' = [] ∧ loaded dirtyLRU g' = [].
  Proof using WF.
    intros HH Hm HP He. assert (legal dom domV (after hi) (Flush t true)) as Hl by by eapply legal_call.
    pose proof (hist_call cb dom domV WF _ _ _ _ _ _ _ _ _ (Flush t true) HH Hm HP eq_refl Hl) as HC. rewrite He in HC.
    destruct HC as (S' & h' & g' & (-> & -> & ((_ & Hs & _) & _ & HD) & _) & HM). specialize (HD eq_refl).
    exists g'. split_and!; [apply HM|done|by apply loaded_GD..].
  Qed.
  Theorem purge_frees hi s t m mn ca S h g full r s' : history hi s → contents (after hi) t = Some m → pictured s t mn ca S h g →
    exec cb (Purge t full) s = ORet r s' →
    ∃ g', pictured s' t mn ca S h g' ∧ strip g' = strip g ∧ locs g' = locs g ∧
      loaded cleanLRU g' = [] ∧ loaded dirtyLRU g' = loaded dirtyLRU g ∧ (full = true → loaded dirtyLRU g' = []).
  Proof using WF.
    intros HH Hm HP He. assert (legal dom domV (after hi) (Purge t full)) as Hl by by eapply legal_call.
    pose proof (hist_call cb dom domV WF _ _ _ _ _ _ _ _ _ (Purge t full) HH Hm HP eq_refl Hl) as HC. rewrite He in HC.
    destruct HC as (S' & h' & g' & (-> & -> & (Hv & Hp & HD & Hle)) & [M1 M2 M3 M4 M5 M6]).
    destruct (hist_pic cb dom domV WF _ _ _ _ _ _ _ _ _ HH Hm HP) as (i & f & lv & root & σ & σf & Hon & _ & -> & HS).
    assert (cleanok g) as Hok by (eapply own_cleanok, HS). assert (pend g = []) as Hpe by (eapply tk_pend, HS).
    exists g'. split_and!; [done|by apply vw_strip|by rewrite !locs_vw // Hv|by apply lean_loaded|by rewrite !dirty_vw // Hv|].
    intros ->. rewrite dirty_vw // Hv.
    destruct (gloc g) as [l|] eqn:Hg; [rewrite -Hv -dirty_vw //; apply loaded_GD, HD; by eexists|].
    (* Purge(true) of a modified tree fails *)
    pose proof (bt_Purge_dirty cb dom domV WF (mnof f) (se_mn _ _ _ _ _ _ _ _ _ _ _ _ _ _ _ _ HS) t ca root S h g) as HX.
    destruct (hist_facts cb dom domV WF _ _ HH) as (_ & _ & HW). pose proof HS as [H1 H2 H3 H4 H5 H6 H7 H8].
    specialize (HX H2 Hg). pose proof (seat_run _ _ _ _ _ _ _ _ _ _ _ _ _ _ _ _ _ _ _ _ HW HS HX) as HR.
    cbn [exec] in He. rewrite run_bind in He. destruct (bt_Purge t true s) as [x s1|e s1|w s1]; [|done..]. by destruct HR as (σ' & _ & _ & []).
  Qed.

  (** the nodes on the lists afterwards are nodes of other trees *)
  Definition drops (t : tid) (c : cmd K V) : Prop := c = Flush t true ∨ c = Purge t true.
  Lemma drops_done hi s t m c r cbs : history (hi ++ [Done c r cbs]) s → drops t c → contents (after hi) t = Some m →
    ∃ mn ca S h g, pictured s t mn ca S h g ∧ loaded cleanLRU g = [] ∧ loaded dirtyLRU g = [].
  Proof using WF.
    intros HH Hc Hm. apply hist_app in HH as (s1 & HH & Hst).
    destruct (tree_shape cb dom domV WF _ _ _ _ HH Hm) as (mn & ca & S & h & g & HP & _).
    inversion Hst as [|? ? ? ? ? ? He Hst'| | |]; subst. inversion Hst'; subst.
    destruct Hc as [-> | ->].
    - destruct (flush_frees _ _ _ _ _ _ _ _ _ _ _ HH Hm HP He) as (g' & HP' & _ & H1 & H2). by exists mn, ca, S, h, g'.
    - destruct (purge_frees _ _ _ _ _ _ _ _ _ _ _ _ HH Hm HP He) as (g' & HP' & _ & _ & H1 & _ & H2). exists mn, ca, S, h, g'. split_and!; [done..|by apply H2].
  Qed.
  Theorem drops_others hi s t m c r cbs cl d n : history (hi ++ [Done c r cbs]) s → drops t c → contents (after hi) t = Some m →
    Forall unbroken (w_fams (after (hi ++ [Done c r cbs]))) → lists s cl d → n ∈ cl ∨ n ∈ d →
    ∃ t' m' mn' S' h' g', t' ≠ t ∧ contents (after (hi ++ [Done c r cbs])) t' = Some m' ∧ pictured s t' mn' true S' h' g' ∧
      (n ∈ loaded cleanLRU g' ∨ n ∈ loaded dirtyLRU g').
  Proof using WF.
    intros HH Hc Hm Hun HL Hn. destruct (drops_done _ _ _ _ _ _ _ HH Hc Hm) as (mn & ca & S & h & g & HP & H1 & H2).
    destruct (cache_only cb dom domV WF _ _ cl d n HH Hun HL Hn) as (t' & m' & mn' & S' & h' & g' & Hm' & HP' & Hin).
    exists t', m', mn', S', h', g'. split_and!; [|done|done|].
    - intros ->. destruct (pictured_inj cb dom domV WF _ _ _ _ _ _ _ _ _ _ _ _ HP HP') as (_ & _ & -> & -> & ->).
      rewrite H1 H2 in Hin. destruct Hin as [[_ ?%elem_of_nil]|[_ ?%elem_of_nil]]; done.
    - destruct Hin as [[_ ?]|[_ ?]]; [by left|by right].
  Qed.
  (** a tree alone: Stats counts nothing *)
  Theorem drops_alone hi s t m c r cbs : history (hi ++ [Done c r cbs]) s → drops t c → contents (after hi) t = Some m →
    Forall unbroken (w_fams (after (hi ++ [Done c r cbs]))) → (∀ t' m', contents (after (hi ++ [Done c r cbs])) t' = Some m' → t' = t) →
    ∃ x, cache_Stats s = ORet x s ∧ st_clean x = 0 ∧ st_dirty x = 0.
  Proof using WF.
    intros HH Hc Hm Hun Hall. destruct (hist_lists cb dom domV WF _ _ HH) as (cl & d & x & HL & Hx & H1 & H2).
    exists x. rewrite H1 H2. assert (∀ n, ¬ (n ∈ cl ∨ n ∈ d)) as Hno.
    { intros n Hn. destruct (drops_others _ _ _ _ _ _ _ _ _ _ HH Hc Hm Hun HL Hn) as (t' & m' & _ & _ & _ & _ & Hne & Hm' & _). by apply Hne, (Hall _ _ Hm'). }
    assert (cl = []) as -> by (apply elem_of_nil_inv; intros n Hn; apply (Hno n); by left).
    assert (d = []) as -> by (apply elem_of_nil_inv; intros n Hn; apply (Hno n); by right). done.
  Qed.
  Lemma contents_handle (w : world K V) t m : contents w t = Some m → t ∈ omap (λ f, lv_tree <$> fm_live f) (w_fams w).
  Proof.
    intros (i & f & lv & Hf & Hl & _)%contents_Some. apply fam_of_Some in Hf as (Hi & Ht & _). apply elem_of_list_omap. exists f. split; [by eapply elem_of_list_lookup_2|].
    unfold has_tree in Ht. rewrite Hl in Ht |- *. cbn. by rewrite Ht.
  Qed.
  (** no node in memory: the tree keeps nothing but the root's record, which is empty *)
  Definition holds_nothing s t : Prop := ∃ T n r, trees s !! t = Some T ∧ t_root T = Some n ∧ nodes s !! n = Some r ∧
    b_loaded r = false ∧ b_kv r = None ∧ b_left r = None ∧ b_psroot r = None.
  Lemma none_held s t mn ca S h g : pictured s t mn ca S h g → loaded cleanLRU g = [] → loaded dirtyLRU g = [] → holds_nothing s t.
  Proof.
    intros HP H1 H2. pose proof (pc_shown _ _ _ _ _ _ _ _ _ _ HP) as HS. destruct g as [n d|n st kvs|n st ks cs].
    - apply shown_GD in HS as [(r & Hr & Hl & _ & _ & _ & _ & _ & Hk & Hle & Hps) _]. eexists _, n, r. split; [apply (pc_tree _ _ _ _ _ _ _ _ _ _ HP)|done].
    - destruct h; [|done]. destruct HS as [_ HS]. destruct st; done.
    - destruct h; [done|]. destruct HS as (_ & _ & _ & HS). destruct st; done.
  Qed.
  Theorem drops_all hi s t m c r s' : history hi s → contents (after hi) t = Some m → drops t c → exec cb c s = ORet r s' → holds_nothing s' t.
  Proof using WF.
    intros HH Hm Hc He. destruct (tree_shape cb dom domV WF _ _ _ _ HH Hm) as (mn & ca & S & h & g & HP & _).
    destruct Hc as [-> | ->].
    - destruct (flush_frees _ _ _ _ _ _ _ _ _ _ _ HH Hm HP He) as (g' & HP' & _ & ? & ?). by eapply none_held.
    - destruct (purge_frees _ _ _ _ _ _ _ _ _ _ _ _ HH Hm HP He) as (g' & HP' & _ & _ & ? & _ & H2). by eapply none_held; [done..|apply H2].
  Qed.
End frees.

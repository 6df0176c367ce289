(** * The invariant tying a running program to its specification

    Models no code. *)
From Coq Require Import ssreflect.
From stdpp Require Import prelude list gmap.
From iris.bi Require Import bi.
From iris.proofmode Require Import proofmode.
From Verif Require Import Spec SpecFacts Llrb LlrbApi BTree HProp Lru Wp Kv Codec Ghost Order PsTree Rep Load Search Update Plug Insert Borrow Merge Rebal Api Walk Touch Maint Report Open Pres Machine.
Open Scope Z_scope.

(** ** Stored blocks only *)
Section diskpart.
  Context {K V : Type}.
  Variable cb : callbacks K V.
  Notation hProp := (hProp K V).
  Notation heap := (gmap rkey (rval K V)).
  Implicit Types (σ : heap) (P Q : hProp).

  Definition isRD (p : rkey * rval K V) : Prop := match p.2 with RD _ => True | _ => False end.
  Global Instance isRD_dec p : Decision (isRD p).
  Proof. destruct p as [k []]; apply _. Defined.
  Definition dpart σ : heap := filter isRD σ.
  Lemma dpart_look σ k v : dpart σ !! k = Some v ↔ σ !! k = Some v ∧ isRD (k, v).
  Proof. unfold dpart. by rewrite map_filter_lookup_Some. Qed.
  Lemma dpart_RD σ k b : dpart σ !! k = Some (RD b) ↔ σ !! k = Some (RD b).
  Proof. rewrite dpart_look. split; [by intros []|done]. Qed.
  Lemma dpart_sub σ : dpart σ ⊆ σ.
  Proof. apply map_subseteq_spec. intros k v H%dpart_look. apply H. Qed.
  Lemma dpart_drop σ : alldrop σ → dpart σ = ∅.
  Proof.
    intros H. apply map_empty. intros k. destruct (dpart σ !! k) as [v|] eqn:E; [|done].
    apply dpart_look in E as [E1 E2]. specialize (H _ _ E1). by destruct v.
  Qed.
  Lemma dpart_disj σ1 σ2 : σ1 ##ₘ σ2 → dpart σ1 ##ₘ dpart σ2.
  Proof. intros H. eapply map_disjoint_weaken; [exact H|apply dpart_sub..]. Qed.
  Lemma dpart_union σ1 σ2 : σ1 ##ₘ σ2 → dpart (σ1 ∪ σ2) = dpart σ1 ∪ dpart σ2.
  Proof. intros H. unfold dpart. by rewrite map_filter_union. Qed.

  (** assertions about stored blocks only *)
  Definition diskonly P : Prop := ∀ σ, P σ → P (dpart σ).
  Lemma do_sep P Q : diskonly P → diskonly Q → diskonly (P ∗ Q)%I.
  Proof.
    intros HP HQ σ (σ1 & σ2 & -> & Hd & H1 & H2). exists (dpart σ1), (dpart σ2).
    split_and!; [by apply dpart_union|by apply dpart_disj|by apply HP|by apply HQ].
  Qed.
  Lemma do_emp : diskonly emp%I.
  Proof. intros σ H. rewrite (dpart_drop _ H). apply alldrop_empty. Qed.
  Lemma do_pure φ : diskonly (<affine> ⌜φ⌝)%I.
  Proof. intros σ [H1 H2]. split; [by apply do_emp|done]. Qed.
  Lemma do_False : diskonly False%I.
  Proof. intros σ []. Qed.
  Lemma do_exist {A} (Φ : A → hProp) : (∀ a, diskonly (Φ a)) → diskonly (∃ a, Φ a)%I.
  Proof. intros H σ [a Ha]. exists a. by apply H. Qed.
  Lemma do_D l b : diskonly (isD l b).
  Proof.
    intros σ (d & -> & Hk & Hd). exists ∅. split_and!; [|by rewrite lookup_empty|apply alldrop_empty].
    unfold dpart. rewrite map_filter_insert_True //. f_equal. by apply dpart_drop.
  Qed.
  Lemma do_blk l b : diskonly (blk l b).
  Proof. apply do_sep; [apply do_D|apply do_pure]. Qed.
  Lemma do_bigL {A} (l : list A) (Φ : A → hProp) : (∀ a, diskonly (Φ a)) → diskonly ([∗ list] x ∈ l, Φ x)%I.
  Proof. intros H. induction l as [|a l IH]; [apply do_emp|]. by apply do_sep. Qed.
  Lemma do_dsk h mx d : diskonly (dsk cb h mx d).
  Proof.
    revert mx d. induction h as [|h IH]; intros mx [l kvs|l ks ds]; cbn [dsk]; try apply do_False.
    - apply do_sep; [apply do_blk|apply do_pure].
    - apply do_sep; [apply do_blk|]. apply do_sep; [apply do_pure|]. apply do_bigL. intros x. apply IH.
  Qed.

  (** [σ'] still has the blocks of [σ] outside [X] *)
  Definition dle (X : loc → Prop) σ σ' : Prop :=
    ∀ k b, σ !! k = Some (RD b) → (∀ l, k = KD l → ¬ X l) → σ' !! k = Some (RD b).
  Lemma dle_True P X σ1 σ2 σ' : diskonly P → P σ1 → σ1 ##ₘ σ2 → dle X (σ1 ∪ σ2) σ' →
    (∀ l b, σ1 !! KD l = Some (RD b) → ¬ X l) → (P ∗ True)%I σ'.
  Proof.
    intros HP H1 Hd Hle HX. assert (dpart σ1 ⊆ σ') as Hsub.
    { apply map_subseteq_spec. intros k v Hk. apply dpart_look in Hk as [Hk Hr].
      destruct v as [| | |b|]; try done. apply Hle.
      - by apply lookup_union_Some_l.
      - intros l ->. by eapply HX. }
    exists (dpart σ1), (σ' ∖ dpart σ1). split_and!; [by rewrite map_difference_union|apply map_disjoint_difference_r; done|by apply HP|done].
  Qed.
  Lemma dle_sepT P σ σ' : diskonly P → (P ∗ True)%I σ → dle (λ _, False) σ σ' → (P ∗ True)%I σ'.
  Proof.
    intros HP (σ1 & σ2 & -> & Hd & H1 & _) Hle. eapply dle_True; [done|exact H1|done|exact Hle|]. auto.
  Qed.
  Lemma dle_trans X σ1 σ2 σ3 : dle X σ1 σ2 → dle X σ2 σ3 → dle X σ1 σ3.
  Proof. intros H1 H2 k b Hk HX. apply H2; [|done]. by apply H1. Qed.
  Lemma dle_dpart σ : dle (λ _, False) σ (dpart σ).
  Proof. intros k b Hk _. by apply dpart_RD. Qed.

  (** no node is on a cache list *)
  Program Definition notags : hProp := HProp (λ σ, ∀ n x, σ !! KT n = Some (RT x) → x = noLRU) _.
  Next Obligation.
    intros σ d H Hd Hdr n x Hk. apply lookup_union_Some_raw in Hk as [Hk|[_ Hk]]; [by eapply H|].
    by apply Hdr in Hk.
  Qed.
  Lemma dpart_notags σ : notags (dpart σ).
  Proof. intros n x H. apply dpart_look in H as [_ []]. Qed.
  Lemma emp_notags : emp ⊢ notags.
  Proof. constructor. intros σ H n x Hk. by apply H in Hk. Qed.
End diskpart.

Section world.
  Context {K V : Type}.
  Variable cb : callbacks K V.
  Variable dom : K → Prop.
  Variable domV : V → Prop.
  Hypothesis WF : wf_cb cb dom domV.
  Notation cmp := (cb_cmp cb).
  Notation hProp := (hProp K V).
  Notation heap := (gmap rkey (rval K V)).
  Notation st := (st K V).
  Notation M := (M K V).
  Notation family := (family K V).
  Notation world := (world K V).
  Notation live := (live K V).
  Implicit Types (σ : heap) (P Q : hProp) (f : family) (w : world) (s : st).
  Definition mnof f : nat := Z.to_nat (fm_min f).

  Definition condok (x : cond) (g : gt K V) : Prop :=
    match x with Stored l => gloc g = Some l | Modified => gloc g = None | Unsure => True end.
  (** the tree in use *)
  Definition treeres (mn : nat) (t : tid) (its : list (K * V)) (x : cond) : hProp :=
    (∃ ca root S h g, <affine> ⌜treeok cb dom domV mn root h g ∧ items (strip g) = its ∧ condok x g⌝ ∗
       isTR mn t ca root S ∗ whole cb dom mn t ca h g)%I.
  Definition junk (x : rest) : hProp := (match x with Exact => emp | Tidy => notags | Lost => True end)%I.
  Definition body f : hProp :=
    (match fm_live f with
     | None => junk (fm_rest f)
     | Some lv => if lv_broken lv then True
                  else treeres (mnof f) (lv_tree lv) (lv_items lv) (lv_cond lv) ∗ junk (fm_rest f)
     end)%I.
  (** a stored version *)
  Definition stored_at σ (mn : nat) (l : loc) (its : list (K * V)) : Prop :=
    ∃ h d, dloc d = l ∧ items (dstrip d) = its ∧ good cmp dom domV (toks (dstrip d)) ∧
      wfo mn (rlow h) h (dstrip d) ∧ (dsk cb h (Some (2 * Z.of_nat mn)) d ∗ True)%I σ.
  Definition snapsat σ f : Prop := ∀ l its, fm_snaps f !! l = Some its → stored_at σ (mnof f) l its.
  Lemma stored_le σ σ' mn l its : stored_at σ mn l its → dle (λ _, False) σ σ' → stored_at σ' mn l its.
  Proof.
    intros (h & d & H1 & H2 & H3 & H4 & H5) Hle. exists h, d. split_and!; try done.
    eapply dle_sepT; [apply do_dsk|exact H5|exact Hle].
  Qed.
  Lemma snaps_le σ σ' f : snapsat σ f → dle (λ _, False) σ σ' → snapsat σ' f.
  Proof. intros H Hle l its Hl. eapply stored_le; eauto. Qed.
  Program Definition famres f : hProp := HProp (λ σ, body f σ ∧ snapsat σ f) _.
  Next Obligation.
    intros f σ d [H1 H2] Hd Hdr. split; [by apply holds_closed|]. eapply snaps_le; [done|].
    intros k b Hk _. by apply lookup_union_Some_l.
  Qed.
  Definition fams_res (l : list family) : hProp := ([∗ list] f ∈ l, famres f)%I.

  Record winv w s : Prop := WInv {
    wi_inv : Inv s;
    wi_dom : base.dom (cells s) = base.dom (nodes s);
    wi_min : Forall (λ f, 2 ≤ fm_min f) (w_fams w);
    wi_chosen n : n ∈ w_chosen w → n ∈ base.dom (nodes s);
    wi_handle f lv : f ∈ w_fams w → fm_live f = Some lv → lv_tree lv ∈ base.dom (trees s);
    wi_res : ∃ σ, views s σ ∧ fams_res (w_fams w) σ }.

  (** *** One family and the rest *)
  Lemma delete_insert_same {A} (l : list A) i x : base.delete i (<[i := x]> l) = base.delete i l.
  Proof. revert i. induction l as [|y l IH]; intros [|i]; try done. cbn. f_equal. apply IH. Qed.
  Lemma fams_split fams i f : fams !! i = Some f → fams_res fams ⊣⊢ famres f ∗ fams_res (base.delete i fams).
  Proof. intros H. unfold fams_res. rewrite {1}(delete_Permutation _ _ _ H). done. Qed.
  Lemma fams_insert fams i f f' : fams !! i = Some f →
    fams_res (<[i := f']> fams) ⊣⊢ famres f' ∗ fams_res (base.delete i fams).
  Proof.
    intros H. rewrite (fams_split _ i f'); [|apply list_lookup_insert; by eapply lookup_lt_Some].
    by rewrite delete_insert_same.
  Qed.

  (** *** A new process *)
  Definition dmap s : heap := kmap KD (RD <$> disk s).
  Local Instance KD_inj : Inj (=) (=) KD.
  Proof. by intros x y [= ->]. Qed.
  Lemma dmap_look s k : dmap s !! k = match k with KD l => RD <$> disk s !! l | _ => None end.
  Proof.
    unfold dmap. destruct k as [n|n|n|l|t]; [| | |by rewrite lookup_kmap lookup_fmap|].
    all: match goal with |- ?x = None => destruct x eqn:E; [|done] end; apply (lookup_kmap_Some KD) in E as (? & [=] & _).
  Qed.
  Lemma reboot_views lo hi s : views (reboot lo hi s) (dmap s).
  Proof. intros k. rewrite dmap_look. by destruct k. Qed.
  Lemma reboot_inv lo hi s : Inv (reboot lo hi s).
  Proof.
    split; try done. exists (λ _, []). split; try done.
    - by intros [].
    - by intros [].
    - by intros [].
    - intros d. constructor.
    - intros d m Hm. by apply elem_of_nil in Hm.
  Qed.
  Lemma close_res f σ : famres f σ → famres (close f) (dpart σ).
  Proof. intros [_ H]. split; [apply dpart_notags|]. eapply snaps_le; [exact H|]. apply dle_dpart. Qed.
  Lemma closes_res fams σ : fams_res fams σ → fams_res (close <$> fams) (dpart σ).
  Proof.
    unfold fams_res. revert σ. induction fams as [|f fams IH]; intros σ H; [by apply do_emp|].
    destruct H as (σ1 & σ2 & -> & Hd & H1 & H2). rewrite fmap_cons. exists (dpart σ1), (dpart σ2).
    split_and!; [by apply dpart_union|by apply dpart_disj|by apply close_res|by apply IH].
  Qed.

  (** *** One call on one family *)
  Definition within σ s : Prop := ∀ k v, σ !! k = Some v → viewf s k = Some v.
  Lemma views_within s σ1 σ2 : σ1 ##ₘ σ2 → views s (σ1 ∪ σ2) → within σ1 s.
  Proof. intros Hd Hv k v Hk. rewrite Hv. by apply lookup_union_Some_l. Qed.
  Lemma within_RD σ s k b : within σ s → σ !! k = Some (RD b) → ∃ l, k = KD l ∧ disk s !! l = Some b.
  Proof.
    intros Hw Hk. apply Hw in Hk. destruct k as [n|n|n|l|t]; cbn in Hk.
    - by destruct (nodes s !! n).
    - by destruct (pss s !! n).
    - by destruct (cells s !! n).
    - exists l. split; [done|]. destruct (disk s !! l); by simplify_eq/=.
    - by destruct (trees s !! t).
  Qed.
  Lemma grow_dle X s s' σ σ' σf : σ ##ₘ σf → views s (σ ∪ σf) → views s' (σ' ∪ σf) → grow X s s' → dle X σ σ'.
  Proof.
    intros Hd Hv Hv' Hg k b Hk HX. destruct (within_RD σ s k b) as (l & -> & Hl); [by eapply views_within|done|].
    pose proof (g_disk _ _ _ Hg l b Hl (HX l eq_refl)) as Hl'.
    specialize (Hv' (KD l)). cbn in Hv'. rewrite Hl' in Hv'. cbn in Hv'. symmetry in Hv'.
    apply lookup_union_Some_raw in Hv' as [?|[_ Hf]]; [done|].
    by destruct (map_disjoint_Some_l _ _ _ _ Hd Hk) as [] || (rewrite (map_disjoint_Some_l _ _ _ _ Hd Hk) in Hf).
  Qed.
  Lemma in_insert {A} (l : list A) i x y : y ∈ <[i := x]> l → y = x ∨ y ∈ l.
  Proof.
    intros [j Hj]%elem_of_list_lookup. apply list_lookup_insert_Some in Hj as [(_ & -> & _)|[_ Hj]]; [by left|right].
    by eapply elem_of_list_lookup_2.
  Qed.
  Lemma winv_set w s s' i f f' X σ' σf : winv w s → w_fams w !! i = Some f → grow X s s' → Inv s' →
    σ' ##ₘ σf → views s' (σ' ∪ σf) → fams_res (base.delete i (w_fams w)) σf → famres f' σ' →
    fm_min f' = fm_min f → (∀ lv, fm_live f' = Some lv → lv_tree lv ∈ base.dom (trees s')) →
    winv (set_fam i f' w) s'.
  Proof.
    intros [H1 H2 H3 H4 H5 _] Hi Hg HI Hd Hv Hf Hf' Hmin Hh. split.
    - done.
    - by apply (g_same _ _ _ Hg).
    - cbn. apply Forall_insert; [done|]. rewrite Hmin. rewrite Forall_lookup in H3. by eapply H3.
    - intros n Hn. apply (g_nodes _ _ _ Hg). by apply H4.
    - intros f0 lv Hin Hlv. cbn in Hin. apply in_insert in Hin as [->|Hin]; [by apply Hh|].
      apply (g_trees _ _ _ Hg). by eapply H5.
    - exists (σ' ∪ σf). split; [done|]. cbn. assert ((famres f' ∗ fams_res (base.delete i (w_fams w)))%I (σ' ∪ σf)) as HX.
      { exists σ', σf. done. }
      pose proof (fams_insert (w_fams w) i f f' Hi) as HE. destruct HE as [HE]. by apply HE.
  Qed.

  Definition step_post {A} io w s i f X (Q : A → hProp) (E : err → hProp) (o : out K V A) : Prop :=
    match o with
    | ORet a s' => quiet io s s' ∧ (∃ σ', Q a σ') ∧ ∀ f', fm_min f' = fm_min f →
        (∀ σ σ', famres f σ → within σ s → within σ' s' → dle X σ σ' → Q a σ' →
           famres f' σ' ∧ (∀ lv, fm_live f' = Some lv → lv_tree lv ∈ base.dom (trees s'))) → winv (set_fam i f' w) s'
    | OErr e s' => quiet io s s' ∧ cause s s' e ∧ (∃ σ', E e σ') ∧ ∀ f', fm_min f' = fm_min f →
        (∀ σ σ', famres f σ → within σ s → within σ' s' → dle X σ σ' → E e σ' →
           famres f' σ' ∧ (∀ lv, fm_live f' = Some lv → lv_tree lv ∈ base.dom (trees s'))) → winv (set_fam i f' w) s'
    | OStop Crash s' => io = true ∧ ∀ lo hi f', fm_min f' = fm_min f →
        (∀ σ σ', famres f σ → within σ s → dle X σ σ' → snapsat σ' f') → winv (restart (set_fam i f' w)) (reboot lo hi s')
    | OStop Env _ => io = true
    | OStop _ _ => False
    end.
  Lemma step_at {A} io w s i f (m : M A) X (Q : A → hProp) (E : err → hProp) σi σf : winv w s → w_fams w !! i = Some f →
    σi ##ₘ σf → views s (σi ∪ σf) → famres f σi → fams_res (base.delete i (w_fams w)) σf →
    wp io m Q E σi → grow X s (stof (m s)) → step_post io w s i f X Q E (m s).
  Proof.
    intros Hw Hi Hd Hv Hfi Hff Hwp Hg. pose proof Hw as [HI _ Hmin _ _ _].
    apply wp_run in Hwp. specialize (Hwp σf s Hd Hv HI). unfold step_post.
    destruct (m s) as [a s'|e s'|[] s'] eqn:Hm; cbn in Hg; try done.
    - destruct Hwp as (Hq & σ' & Hd' & Hv' & HI' & HQ). split_and!; [done|by eexists|]. intros f' Hf' HX.
      destruct (HX σi σ') as [HR Hh]; [done|by eapply views_within|by eapply views_within|by eapply grow_dle|done|].
      by apply (winv_set w s s' i f f' X σ' σf).
    - destruct Hwp as ([Hq Hc] & σ' & Hd' & Hv' & HI' & HQ). split_and!; [done|done|by eexists|]. intros f' Hf' HX.
      destruct (HX σi σ') as [HR Hh]; [done|by eapply views_within|by eapply views_within|by eapply grow_dle|done|].
      by apply (winv_set w s s' i f f' X σ' σf).
    - by destruct Hwp.
    - destruct Hwp as [-> Hk]. split; [done|]. intros lo hi f' Hf' HX. split.
      + apply reboot_inv.
      + cbn. by rewrite !dom_empty_L.
      + cbn. apply Forall_fmap. apply Forall_insert; [|by rewrite /= Hf'; rewrite Forall_lookup in Hmin; eapply Hmin].
        done.
      + intros n Hn. by apply elem_of_empty in Hn.
      + intros f0 lv Hin Hlv. cbn in Hin. by apply elem_of_list_fmap in Hin as (f1 & -> & _).
      + exists (dmap s'). split; [apply reboot_views|]. cbn [w_fams restart set_fam].
        rewrite list_fmap_insert.
        assert (dpart σf ⊆ dmap s') as Hsub.
        { apply map_subseteq_spec. intros k v Hkv. apply dpart_look in Hkv as [Hkv Hr].
          destruct v as [| | |b|]; try done. destruct (within_RD σf s k b) as (l & -> & Hl).
          - eapply views_within; [symmetry; exact Hd|]. by rewrite map_union_comm.
          - done.
          - rewrite dmap_look. by rewrite (Hk _ _ Hkv). }
        assert ((famres (close f') ∗ fams_res (base.delete i (close <$> w_fams w)))%I (dmap s')) as HX'.
        { exists (dmap s' ∖ dpart σf), (dpart σf). split_and!.
          - rewrite map_union_comm; [by rewrite map_difference_union|]. by apply map_disjoint_difference_l.
          - by apply map_disjoint_difference_l.
          - split.
            + intros n x Hn. apply lookup_difference_Some in Hn as [Hn _]. by rewrite dmap_look in Hn.
            + apply (HX σi); [done|by eapply views_within|]. intros k b Hkb HnX.
              destruct (within_RD σi s k b) as (l & -> & Hl); [by eapply views_within|done|].
              apply lookup_difference_Some. split.
              * rewrite dmap_look. by rewrite (g_disk _ _ _ Hg l b Hl (HnX l eq_refl)).
              * destruct (dpart σf !! KD l) eqn:Hf; [|done]. apply dpart_look in Hf as [Hf _].
                by rewrite (map_disjoint_Some_l _ _ _ _ Hd Hkb) in Hf.
          - rewrite -list_fmap_delete. by apply closes_res. }
        pose proof (fams_insert (close <$> w_fams w) i (close f) (close f')) as HE'.
        destruct HE' as [HE']; [by rewrite list_lookup_fmap Hi|]. by apply HE'.
  Qed.
  Lemma step_gen {A} io w s i f (m : M A) X (Q : A → hProp) (E : err → hProp) : winv w s → w_fams w !! i = Some f →
    (famres f ⊢ wp io m Q E) → grow X s (stof (m s)) → step_post io w s i f X Q E (m s).
  Proof.
    intros Hw Hi [Hwp] Hg. pose proof Hw as [_ _ _ _ _ (σ & Hv & HW)].
    destruct (fams_split (w_fams w) i f Hi) as [HE]. apply HE in HW. destruct HW as (σi & σf & -> & Hd & Hfi & Hff).
    by apply (step_at io w s i f m X Q E σi σf); [..|apply Hwp|].
  Qed.
  (** one call that needs nothing *)
  Lemma step_new {A} io w s (m : M A) (Q : A → hProp) (E : err → hProp) : winv w s →
    (emp ⊢ wp io m Q E) → grow (λ _, False) s (stof (m s)) →
    match m s with
    | ORet a s' => quiet io s s' ∧ ∀ fs C,
        (∀ σ', Q a σ' → within σ' s' → fams_res fs σ' ∧
           ∀ f lv, f ∈ fs → fm_live f = Some lv → lv_tree lv ∈ base.dom (trees s')) →
        Forall (λ f, 2 ≤ fm_min f) fs →
        (∀ n, n ∈ C → n ∈ base.dom (nodes s')) → winv (World (w_fams w ++ fs) C) s'
    | OErr e s' => ∃ σ', E e σ'
    | OStop Crash s' => io = true
    | OStop Env _ => io = true
    | OStop _ _ => False
    end.
  Proof.
    intros Hw [Hwp] Hg. pose proof Hw as [HI HD Hmin HC HH (σ & Hv & HW)].
    assert (wp io m Q E ∅) as Hwp'. { apply Hwp. apply alldrop_empty. }
    apply wp_run in Hwp'. specialize (Hwp' σ s). rewrite left_id_L in Hwp'. specialize (Hwp' (map_disjoint_empty_l _) Hv HI).
    destruct (m s) as [a s'|e s'|[] s'] eqn:Hm; cbn in Hg; try done.
    - destruct Hwp' as (Hq & σ' & Hd' & Hv' & HI' & HQ). split; [done|]. intros fs C HX Hmin' HC'.
      destruct (HX σ' HQ) as [HX' HH']; [by eapply views_within|]. split.
      + done.
      + by apply (g_same _ _ _ Hg).
      + by apply Forall_app.
      + done.
      + intros f lv Hf Hl. apply elem_of_app in Hf as [Hf|Hf]; [|by eapply HH'].
        apply (g_trees _ _ _ Hg). by eapply HH.
      + exists (σ' ∪ σ). split; [done|]. cbn. unfold fams_res. apply (@big_sepL_app (hPropI K V)).
        exists σ, σ'. rewrite map_union_comm //.
    - destruct Hwp' as (_ & σ' & _ & _ & _ & HE). by exists σ'.
    - by destruct Hwp'.
    - by destruct Hwp'.
  Qed.
  Lemma winv_restart w s lo hi : winv w s → winv (restart w) (reboot lo hi s).
  Proof.
    intros [HI HD Hmin HC HH (σ & Hv & HW)]. split.
    - apply reboot_inv.
    - cbn. by rewrite !dom_empty_L.
    - cbn. apply Forall_fmap. eapply Forall_impl; [exact Hmin|]. done.
    - intros n Hn. by apply elem_of_empty in Hn.
    - intros f0 lv Hin Hlv. cbn in Hin. by apply elem_of_list_fmap in Hin as (f1 & -> & _).
    - exists (dmap s). split; [apply reboot_views|]. cbn [w_fams restart].
      replace (dmap s) with (dpart σ); [by apply closes_res|]. apply map_eq. intros k.
      rewrite dmap_look. destruct (dpart σ !! k) as [v|] eqn:E.
      + apply dpart_look in E as [E Hr]. rewrite -Hv in E. destruct v as [| | |b|]; try done.
        destruct k as [n|n|n|l|t]; cbn in E; [by destruct (nodes s !! n)|by destruct (pss s !! n)|by destruct (cells s !! n)|done|by destruct (trees s !! t)].
      + destruct k as [n|n|n|l|t]; [done..| |done]. destruct (disk s !! l) as [b|] eqn:E'; [|done].
        specialize (Hv (KD l)). cbn in Hv. rewrite E' in Hv. cbn in Hv. symmetry in Hv. apply dpart_RD in Hv. congruence.
  Qed.

  (** *** Footprints *)
  Lemma own_look k v σ k' v' : own k v σ → σ !! k' = Some v' → ¬ droppable v' → k' = k ∧ v' = v.
  Proof.
    intros (d & -> & Hk & Hd) Hl Hn. apply lookup_insert_Some in Hl as [[-> ->]|[_ Hl]]; [done|].
    by apply Hd in Hl.
  Qed.
  Lemma own_in k v σ : own k v σ → σ !! k = Some v.
  Proof. intros (d & -> & Hk & Hd). by rewrite lookup_insert. Qed.
  Lemma big_look {B} (Φ : B → hProp) (l : list B) σ : ([∗ list] x ∈ l, Φ x)%I σ →
    ∀ k v, σ !! k = Some v → ¬ droppable v → ∃ x σ1, x ∈ l ∧ Φ x σ1 ∧ σ1 !! k = Some v.
  Proof.
    revert σ. induction l as [|x l IH]; intros σ H k v Hk Hn; [by apply H in Hk|].
    destruct H as (σ1 & σ2 & -> & Hd & H1 & H2). apply lookup_union_Some in Hk as [Hk|Hk]; [..|done].
    - exists x, σ1. split_and!; [by left|done|done].
    - destruct (IH _ H2 k v Hk Hn) as (y & σ' & Hy & ? & ?). exists y, σ'. split_and!; [by right|done|done].
  Qed.
  Lemma big_in {B} (Φ : B → hProp) (l : list B) σ x : ([∗ list] x ∈ l, Φ x)%I σ → x ∈ l → ∃ σ1, Φ x σ1 ∧ σ1 ⊆ σ.
  Proof.
    revert σ. induction l as [|y l IH]; intros σ H Hx; [by apply elem_of_nil in Hx|].
    destruct H as (σ1 & σ2 & -> & Hd & H1 & H2). apply elem_of_cons in Hx as [->|Hx].
    - exists σ1. split; [done|]. by apply map_union_subseteq_l.
    - destruct (IH _ H2 Hx) as (σ' & ? & ?). exists σ'. split; [done|]. etrans; [done|]. by apply map_union_subseteq_r.
  Qed.
  (** the family that has a node on a cache list *)
  Lemma big_find {B} (Φ : B → hProp) (l : list B) σ k v : ([∗ list] x ∈ l, Φ x)%I σ → σ !! k = Some v → ¬ droppable v →
    ∃ i x σ1 σ2, l !! i = Some x ∧ σ = σ1 ∪ σ2 ∧ σ1 ##ₘ σ2 ∧ Φ x σ1 ∧ ([∗ list] x ∈ base.delete i l, Φ x)%I σ2 ∧ σ1 !! k = Some v.
  Proof.
    revert σ. induction l as [|x l IH]; intros σ H Hk Hn; [by apply H in Hk|].
    destruct H as (σ1 & σ2 & -> & Hd & H1 & H2). apply lookup_union_Some in Hk as [Hk|Hk]; [..|done].
    - by exists 0%nat, x, σ1, σ2.
    - destruct (IH _ H2 Hk Hn) as (i & y & σ3 & σ4 & Hi & -> & Hd' & Hy & Hr & Hk').
      apply map_disjoint_union_r in Hd as [Hd3 Hd4]. exists (S i), y, σ3, (σ1 ∪ σ4). split_and!; [done| |by apply map_disjoint_union_r|done| |done].
      + rewrite !map_union_assoc. f_equal. by apply map_union_comm.
      + exists σ1, σ4. done.
  Qed.
End world.

(** * Weakest preconditions for the monad of BTree.v

    Models no code. *)
From Coq Require Import ssreflect.
From stdpp Require Import prelude list gmap.
From iris.bi Require Import bi.
From iris.proofmode Require Import proofmode.
From Verif Require Import Spec Llrb BTree HProp Lru.
Open Scope Z_scope.

Ltac qt := hnf; cbn; split_and!; solve [done | lia | by intros ?].

Section wp.
  Context {K V : Type}.
  Notation st := (st K V).
  Notation M := (M K V).
  Notation hProp := (hProp K V).
  Notation heap := (gmap rkey (rval K V)).
  Implicit Types (s : st) (σ : heap).

  (** the state as a heap *)
  Definition viewf s (k : rkey) : option (rval K V) :=
    match k with
    | KN n => RN <$> nodes s !! n
    | KP n => RP <$> pss s !! n
    | KT n => (RT ∘ ctg) <$> cells s !! n
    | KD l => RD <$> disk s !! l
    | KR t => RR <$> trees s !! t
    end.
  Definition views s σ : Prop := ∀ k, viewf s k = σ !! k.

  (** facts true of every state: the cache lists are well formed, and
      pointers beyond [fresh] are unused *)
  Record Inv s : Prop := {
    inv_lru : ∃ L, lru s L;
    inv_n n r : nodes s !! n = Some r → (n < fresh s)%positive;
    inv_p n r : pss s !! n = Some r → (n < fresh s)%positive;
    inv_c n r : cells s !! n = Some r → (n < fresh s)%positive;
    inv_t n r : trees s !! n = Some r → (n < fresh s)%positive;
  }.

  (** [io]: may storage be used (and the process die or leave the modelled
      world while doing so) *)
  Definition quiet (io : bool) s s' : Prop :=
    orc s' = orc s ∧ (iocount s ≤ iocount s')%nat ∧ (io = false → iocount s' = iocount s ∧ disk s' = disk s).
  (** an I/O error is returned only when one of the callbacks made by the very
      same run failed *)
  Definition cause s s' (e : err) : Prop :=
    e = EIO → ∃ i, (iocount s ≤ i < iocount s')%nat ∧ ch_fail (orc s i) = true.
  Lemma quiet_trans io s1 s2 s3 : quiet io s1 s2 → quiet io s2 s3 → quiet io s1 s3.
  Proof.
    unfold quiet. intros (H1 & H1' & H1i) (H2 & H2' & H2i). split_and!; [congruence|lia|].
    intros Hi. destruct (H1i Hi), (H2i Hi). split; congruence.
  Qed.
  Lemma cause_trans io s1 s2 s3 e : quiet io s1 s2 → cause s2 s3 e → cause s1 s3 e.
  Proof. intros (H1 & H2 & _) H He. destruct (H He) as (i & ? & ?). exists i. rewrite -H1. split; [lia|done]. Qed.
  (** the stored blocks of [σ] are still there *)
  Definition keeps σ s : Prop := ∀ l b, σ !! KD l = Some (RD b) → disk s !! l = Some b.
  Lemma views_keeps s σ σf : σ ##ₘ σf → views s (σ ∪ σf) → keeps σf s.
  Proof.
    intros Hd Hv l b Hl. specialize (Hv (KD l)). rewrite (lookup_union_Some_r _ _ _ _ Hd Hl) in Hv. cbn in Hv.
    destruct (disk s !! l); by simplify_eq/=.
  Qed.
  Lemma keeps_union_r σ1 σ2 s : σ1 ##ₘ σ2 → keeps (σ1 ∪ σ2) s → keeps σ2 s.
  Proof. intros Hd Hk l b Hl. apply Hk. by apply lookup_union_Some_r. Qed.
  (** one step: the resources owned by the program are taken to new ones, for
      every state that contains them *)
  Definition wp_pre (io : bool) {A} (m : st → out K V A) (Q : A → hProp) (E : err → hProp) σ : Prop :=
    ∀ σf s, σ ##ₘ σf → views s (σ ∪ σf) → Inv s →
      match m s with
      | ORet a s' => quiet io s s' ∧ ∃ σ', σ' ##ₘ σf ∧ views s' (σ' ∪ σf) ∧ Inv s' ∧ Q a σ'
      | OErr e s' => (quiet io s s' ∧ cause s s' e) ∧ ∃ σ', σ' ##ₘ σf ∧ views s' (σ' ∪ σf) ∧ Inv s' ∧ E e σ'
      | OStop Panic _ | OStop Fuel _ => False
      | OStop Env s' | OStop Crash s' => io = true ∧ keeps σf s'
      end.
  Program Definition wp_act (io : bool) {A} (m : st → out K V A) Q E : hProp := HProp (wp_pre io m Q E) _.
  Next Obligation.
    intros io A m Q E σ d Hwp Hd Hdr σf s Hf Hv HI.
    apply map_disjoint_union_l in Hf as [Hf1 Hf2].
    assert (σ ##ₘ d ∪ σf) as Hf by by apply map_disjoint_union_r.
    rewrite -map_union_assoc in Hv.
    specialize (Hwp (d ∪ σf) s Hf Hv HI).
    destruct (m s) as [a s'|e s'|[] s']; try done.
    - destruct Hwp as (Hq & σ' & Hσ' & Hv' & HI' & HQ).
      apply map_disjoint_union_r in Hσ' as [??].
      split; [done|]. exists (σ' ∪ d). rewrite -map_union_assoc. split_and!; try done.
      + by apply map_disjoint_union_l.
      + by apply holds_closed.
    - destruct Hwp as (Hq & σ' & Hσ' & Hv' & HI' & HQ).
      apply map_disjoint_union_r in Hσ' as [??].
      split; [done|]. exists (σ' ∪ d). rewrite -map_union_assoc. split_and!; try done.
      + by apply map_disjoint_union_l.
      + by apply holds_closed.
    - destruct Hwp as [? Hk]. split; [done|]. by eapply keeps_union_r.
    - destruct Hwp as [? Hk]. split; [done|]. by eapply keeps_union_r.
  Qed.
  Implicit Types (P R : hProp).
  (** a program: step by step; between two steps anything may happen to what it
      does not own *)
  Fixpoint wp (io : bool) {A} (m : M A) : (A → hProp) → (err → hProp) → hProp :=
    match m in BTree.M _ _ A return (A → hProp) → (err → hProp) → hProp with
    | Act f => λ Q E, wp_act io f Q E
    | Bind m f => λ Q E, wp io m (λ a, wp io (f a) Q E) E
    | Try m h => λ Q E, wp io m Q (λ e, wp io (h e) Q E)
    end.

  Global Instance holds_proper : Proper ((≡) ==> (=) ==> iff) (@holds K V).
  Proof. intros P R [H] ? σ ->. apply H. Qed.
  Lemma hsep P R σ : (P ∗ R)%I σ ↔ ∃ σ1 σ2, σ = σ1 ∪ σ2 ∧ σ1 ##ₘ σ2 ∧ P σ1 ∧ R σ2.
  Proof. done. Qed.
  Lemma hent P R : (P ⊢ R) ↔ ∀ σ, P σ → R σ.
  Proof. split; [by intros [?]|by constructor]. Qed.

  Lemma hmono P R σ : (P ⊢ R) → P σ → R σ.
  Proof. intros [H]. apply H. Qed.

  (** ** Structural rules *)
  Lemma wp_step io {A} (f : st → out K V A) P Q E : (∀ σ, P σ → wp_pre io f Q E σ) → P ⊢ wp io (Act f) Q E.
  Proof. intros H. by constructor. Qed.
  Lemma wp_ret io {A} (a : A) Q E : Q a ⊢ wp io (ret a) Q E.
  Proof. apply wp_step. intros σ HQ σf s Hd Hv HI. split; [qt|]. exists σ. done. Qed.
  Lemma wp_fail io {A} e (Q : A → hProp) E : e ≠ EIO → E e ⊢ wp io (fail e) Q E.
  Proof. intros He. apply wp_step. intros σ HQ σf s Hd Hv HI. split; [split; [qt|by intros ?]|]. exists σ. done. Qed.
  Lemma wp_envbad {A} P (Q : A → hProp) E : P ⊢ wp true envbad Q E.
  Proof. apply wp_step. intros σ HQ σf s Hd Hv HI. split; [done|]. by eapply views_keeps. Qed.
  Lemma wp_bind io {A B} (m : M A) (f : A → M B) Q E :
    wp io m (λ a, wp io (f a) Q E) E ⊢ wp io (bind m f) Q E.
  Proof. done. Qed.
  Lemma wp_try io {A} (m : M A) h Q E : wp io m Q (λ e, wp io (h e) Q E) ⊢ wp io (Try m h) Q E.
  Proof. done. Qed.
  Lemma wp_wand io {A} (m : M A) Q E Q' E' :
    wp io m Q E -∗ (∀ a, Q a -∗ Q' a) ∧ (∀ e, E e -∗ E' e) -∗ wp io m Q' E'.
  Proof.
    revert Q E Q' E'. induction m as [A f|A B m IHm f IHf|A m IHm h IHh]; intros Q E Q' E'.
    - apply bi.wand_intro_r. constructor. intros σ (σ1 & σ2 & -> & H12 & Hwp & HQ) σf s Hd Hv HI.
      apply map_disjoint_union_l in Hd as [Hd1 Hd2].
      assert (σ1 ##ₘ σ2 ∪ σf) as Hd by by apply map_disjoint_union_r.
      rewrite -map_union_assoc in Hv. specialize (Hwp _ s Hd Hv HI).
      destruct (f s) as [a s'|e s'|[] s']; try done.
      + destruct Hwp as (Hq & σ' & Hσ' & Hv' & HI' & H). apply map_disjoint_union_r in Hσ' as [??].
        split; [done|]. exists (σ' ∪ σ2). rewrite -map_union_assoc. split_and!; try done.
        { by apply map_disjoint_union_l. }
        rewrite map_union_comm //. apply HQ; [|done]. by symmetry.
      + destruct Hwp as (Hq & σ' & Hσ' & Hv' & HI' & H). apply map_disjoint_union_r in Hσ' as [??].
        split; [done|]. exists (σ' ∪ σ2). rewrite -map_union_assoc. split_and!; try done.
        { by apply map_disjoint_union_l. }
        rewrite map_union_comm //. apply HQ; [|done]. by symmetry.
      + destruct Hwp as [? Hk]. split; [done|]. by eapply keeps_union_r.
      + destruct Hwp as [? Hk]. split; [done|]. by eapply keeps_union_r.
    - cbn [wp]. iIntros "H HQ". iApply (IHm with "H"). iSplit.
      + iIntros (a) "H". iApply (IHf with "H HQ").
      + iIntros (e) "H". iDestruct "HQ" as "[_ HQ]". by iApply "HQ".
    - cbn [wp]. iIntros "H HQ". iApply (IHm with "H"). iSplit.
      + iIntros (a) "H". iDestruct "HQ" as "[HQ _]". by iApply "HQ".
      + iIntros (e) "H". iApply (IHh with "H HQ").
  Qed.
  Lemma wp_ignoreErr io m Q E : wp io m Q (λ _, Q tt) ⊢ wp io (ignoreErr m) Q E.
  Proof.
    iIntros "H". iApply wp_try. iApply (wp_wand with "H"). iSplit; [by iIntros (?) "?"|].
    iIntros (?) "H". by iApply wp_ret.
  Qed.
  Lemma wp_io io {A} (m : M A) Q E : wp false m Q E ⊢ wp io m Q E.
  Proof.
    revert Q E. induction m as [A f|A B m IHm f IHf|A m IHm h IHh]; intros Q E.
    - constructor. intros σ Hwp σf s Hd Hv HI. specialize (Hwp σf s Hd Hv HI).
      destruct (f s) as [a s'|e s'|[] s']; try done; destruct Hwp as [Hq Hwp]; try done.
      + split; [|done]. destruct Hq as (? & ? & Hq). split_and!; try done. intros _. by apply Hq.
      + split; [|done]. destruct Hq as [(? & ? & Hq) ?]. split; [|done]. split_and!; try done. intros _. by apply Hq.
    - cbn [wp]. rewrite IHm. iIntros "H". iApply (wp_wand with "H"). iSplit; [|by iIntros (?) "?"].
      iIntros (a) "H". by rewrite IHf.
    - cbn [wp]. rewrite IHm. iIntros "H". iApply (wp_wand with "H"). iSplit; [by iIntros (?) "?"|].
      iIntros (e) "H". by rewrite IHh.
  Qed.
  (** without interruption *)
  Lemma wp_run io {A} (m : M A) Q E σ : wp io m Q E σ → wp_pre io m Q E σ.
  Proof.
    revert Q E σ. induction m as [A f|A B m IHm f IHf|A m IHm h IHh]; intros Q E σ; [done|..]; cbn [wp];
      intros Hwp%IHm σf s Hd Hv HI; specialize (Hwp σf s Hd Hv HI); cbn [run].
    - destruct (m s) as [a s'|e s'|[] s']; try done.
      destruct Hwp as (Hq & σ' & Hσ' & Hv' & HI' & HQ). specialize (IHf _ _ _ _ HQ σf s' Hσ' Hv' HI').
      destruct (f a s') as [b s2|e s2|[] s2]; try done; destruct IHf as [Hq2 HQ'].
      + split; [by eapply quiet_trans|done].
      + destruct Hq2 as [Hq2 Hc2]. split; [split; [by eapply quiet_trans|by eapply cause_trans]|done].
    - destruct (m s) as [a s'|e s'|[] s']; try done.
      destruct Hwp as ([Hq _] & σ' & Hσ' & Hv' & HI' & HQ). specialize (IHh _ _ _ _ HQ σf s' Hσ' Hv' HI').
      destruct (h e s') as [b s2|e2 s2|[] s2]; try done; destruct IHh as [Hq2 HQ'].
      + split; [by eapply quiet_trans|done].
      + destruct Hq2 as [Hq2 Hc2]. split; [split; [by eapply quiet_trans|by eapply cause_trans]|done].
  Qed.
  Global Arguments wp : simpl never.
  Lemma wp_atomic io {A} (m : M A) Q E : wp io m Q E ⊢ wp io (atomic m) Q E.
  Proof. apply wp_step. intros σ. apply wp_run. Qed.
  Lemma wp_atomic_bind io {A B} (m : M A) (f : A → M B) Q E :
    wp io (atomic m) (λ a, wp io (atomic (f a)) Q E) E ⊢ wp io (atomic (bind m f)) Q E.
  Proof. apply wp_step. intros σ H. apply (wp_run io (Bind (Act (run m)) (λ a, Act (run (f a))))). exact H. Qed.
  Lemma own_list (ks : list rkey) : ∀ σ, ([∗ list] k ∈ ks, ∃ v, own k v : hProp)%I σ →
    NoDup ks ∧ ∀ k, k ∈ ks → is_Some (σ !! k).
  Proof.
    induction ks as [|k ks IH]; intros σ.
    { intros _. split; [constructor|]. by intros k ?%elem_of_nil. }
    rewrite big_sepL_cons. intros (σ1 & σ2 & -> & H12 & (v & d & -> & Hn & Hr) & H2).
    destruct (IH _ H2) as [Hnd Hin]. apply map_disjoint_insert_l in H12 as [H12 _]. split.
    - constructor; [|done]. intros Hk. destruct (Hin _ Hk). congruence.
    - intros k' [->|Hk]%elem_of_cons; apply lookup_union_is_Some; [left|right; by auto].
      rewrite lookup_insert. by eauto.
  Qed.
  Lemma size_NoDup `{Countable A} {B} (m : gmap A B) (l : list A) :
    NoDup l → (∀ x, x ∈ l → is_Some (m !! x)) → (length l ≤ size m)%nat.
  Proof.
    intros Hnd Hl. rewrite -size_dom -(size_list_to_set (C:=gset A)) //. apply subseteq_size.
    intros x Hx%elem_of_list_to_set. apply elem_of_dom. by auto.
  Qed.
  Lemma wp_with_fuel io {A} (f : nat → M A) Q E (ns : list nid) (ls : list loc) P :
    (P ⊢ ([∗ list] n ∈ ns, ∃ r, isN n r) ∗ ([∗ list] l ∈ ls, ∃ b, isD l b) ∗ True) →
    (∀ fuel, (length ns + length ls < fuel)%nat → P ⊢ wp io (f fuel) Q E) →
    P ⊢ wp io (with_fuel f) Q E.
  Proof.
    intros HP Hf. iIntros "H". iApply wp_bind. iStopProof. apply wp_step. intros σ HPσ σf s Hd Hv HI.
    assert (length ns + length ls ≤ size (nodes s) + size (disk s))%nat as Hle; last first.
    { destruct (Hf (S (size (nodes s) + size (disk s)))) as [Hf']; [lia|].
      split; [qt|]. exists σ. split_and!; try done. by apply Hf'. }
    assert (∃ σ0, σ0 ⊆ σ ∧ ([∗ list] k ∈ (KN <$> ns) ++ (KD <$> ls), ∃ v, own k v : hProp)%I σ0) as (σ0 & Hsub & H0).
    { destruct HP as [HP]. apply HP in HPσ as (σ1 & σ2 & -> & H12 & H1 & (σ2' & σ3 & -> & H23 & H2 & _)).
      exists (σ1 ∪ σ2'). split.
      { rewrite map_union_assoc. apply map_union_subseteq_l. }
      apply map_disjoint_union_r in H12 as [? ?].
      rewrite big_sepL_app (big_sepL_fmap KN) (big_sepL_fmap KD). exists σ1, σ2'. split_and!; [done|done|..].
      - revert H1. apply (proj1 (hent _ _)). apply big_sepL_mono. iIntros (???) "[%r H]". by iExists _.
      - revert H2. apply (proj1 (hent _ _)). apply big_sepL_mono. iIntros (???) "[%r H]". by iExists _. }
    apply own_list in H0 as [Hnd Hin]. apply NoDup_app in Hnd as (Hnd1 & _ & Hnd2).
    apply Nat.add_le_mono; apply size_NoDup.
    - by apply NoDup_fmap_1 in Hnd1.
    - intros n Hn. destruct (Hin (KN n)) as [v Hx]. { apply elem_of_app. left. by apply elem_of_list_fmap_1. }
      eapply lookup_weaken in Hx; [|exact Hsub]. specialize (Hv (KN n)).
      rewrite (lookup_union_Some_l _ _ _ _ Hx) /= in Hv. destruct (nodes s !! n); by eauto.
    - by apply NoDup_fmap_1 in Hnd2.
    - intros n Hn. destruct (Hin (KD n)) as [v Hx]. { apply elem_of_app. right. by apply elem_of_list_fmap_1. }
      eapply lookup_weaken in Hx; [|exact Hsub]. specialize (Hv (KD n)).
      rewrite (lookup_union_Some_l _ _ _ _ Hx) /= in Hv. destruct (disk s !! n); by eauto.
  Qed.

  (** ** Primitives *)
  Lemma own_look k v R σ : (own k v ∗ R)%I σ → σ !! k = Some v.
  Proof.
    intros (σ1 & σ2 & -> & H12 & (d & -> & ? & ?) & H2).
    apply lookup_union_Some_l. by rewrite lookup_insert.
  Qed.
  Lemma own_upd k v v' R σ : (own k v ∗ (own k v' -∗ R))%I σ → R (<[k := v']> σ).
  Proof.
    intros (σ1 & σ2 & -> & H12 & (d & -> & ? & ?) & H2).
    apply map_disjoint_insert_l in H12 as [Hk H12].
    rewrite insert_union_l insert_insert map_union_comm.
    - apply H2; [|by exists d]. apply map_disjoint_insert_r. by split.
    - apply map_disjoint_insert_l. by split.
  Qed.
  Lemma own_new k v R σ : (own k v -∗ R)%I σ → σ !! k = None → R (<[k := v]> σ).
  Proof.
    intros H Hk. rewrite insert_union_singleton_r //. apply H.
    - by apply map_disjoint_singleton_r.
    - exists ∅. split_and!; [done|done|apply alldrop_empty].
  Qed.
  Lemma own_del k v R σ : (own k v ∗ R)%I σ → R (base.delete k σ).
  Proof.
    intros (σ1 & σ2 & -> & H12 & (d & -> & Hd & Hdr) & H2).
    apply map_disjoint_insert_l in H12 as [Hk H12].
    rewrite delete_union delete_insert // (delete_notin σ2) // map_union_comm //.
    apply holds_closed; by auto.
  Qed.
  Lemma own_pop k v R σ : (own k v ∗ R)%I σ → ∃ d, R d ∧ d !! k = None ∧ σ = <[k := v]> d.
  Proof.
    intros (σ1 & σ2 & -> & H12 & (d & -> & Hd & Hdr) & H2).
    apply map_disjoint_insert_l in H12 as [Hk H12].
    exists (σ2 ∪ d). split_and!.
    - by apply holds_closed.
    - by apply lookup_union_None.
    - rewrite -insert_union_l (map_union_comm σ2 d) //.
  Qed.
  Lemma views_upd s s' σ σf k v : views s (σ ∪ σf) → σ ##ₘ σf → is_Some (σ !! k) →
    (∀ k', viewf s' k' = if decide (k = k') then Some v else viewf s k') →
    <[k := v]> σ ##ₘ σf ∧ views s' (<[k := v]> σ ∪ σf).
  Proof.
    intros Hv Hd [v0 Hk] H. split.
    - apply map_disjoint_insert_l. split; [|done]. by eapply map_disjoint_Some_l.
    - intros k'. rewrite H -insert_union_l. case_decide as Hc.
      + by rewrite Hc lookup_insert.
      + by rewrite lookup_insert_ne.
  Qed.
  Lemma view_of {s σ σf k v} : views s (σ ∪ σf) → σ !! k = Some v → viewf s k = Some v.
  Proof. intros Hv Hk. rewrite Hv. by apply lookup_union_Some_l. Qed.

  Lemma wp_getN io n r Q E : isN n r -∗ (isN n r -∗ Q r) -∗ wp io (getN n) Q E.
  Proof.
    apply bi.wand_intro_r, wp_step. intros σ H σf s Hd Hv HI.
    pose proof (own_look _ _ _ _ H) as Hk. pose proof (view_of Hv Hk) as Hs. simpl in Hs.
    destruct (nodes s !! n) as [r'|]; simplify_eq/=.
    split; [qt|]. exists σ. split_and!; try done. rewrite -(insert_id σ (KN n) (RN r)) //. by eapply own_upd.
  Qed.
  Lemma wp_getP io n r Q E : isP n r -∗ (isP n r -∗ Q r) -∗ wp io (getP n) Q E.
  Proof.
    apply bi.wand_intro_r, wp_step. intros σ H σf s Hd Hv HI.
    pose proof (own_look _ _ _ _ H) as Hk. pose proof (view_of Hv Hk) as Hs. simpl in Hs.
    destruct (pss s !! n) as [r'|]; simplify_eq/=.
    split; [qt|]. exists σ. split_and!; try done. rewrite -(insert_id σ (KP n) (RP r)) //. by eapply own_upd.
  Qed.
  Lemma wp_getT io n r Q E : isR n r -∗ (isR n r -∗ Q r) -∗ wp io (getT n) Q E.
  Proof.
    apply bi.wand_intro_r, wp_step. intros σ H σf s Hd Hv HI.
    pose proof (own_look _ _ _ _ H) as Hk. pose proof (view_of Hv Hk) as Hs. simpl in Hs.
    destruct (trees s !! n) as [r'|]; simplify_eq/=.
    split; [qt|]. exists σ. split_and!; try done. rewrite -(insert_id σ (KR n) (RR r)) //. by eapply own_upd.
  Qed.
  Lemma wp_getC io n tg Q E : isT n tg -∗ (∀ c (_ : ctg c = tg), isT n tg -∗ Q c) -∗ wp io (getC n) Q E.
  Proof.
    apply bi.wand_intro_r, wp_step. intros σ H σf s Hd Hv HI.
    pose proof (own_look _ _ _ _ H) as Hk. pose proof (view_of Hv Hk) as Hs. simpl in Hs.
    destruct (cells s !! n) as [c|]; simplify_eq/=.
    split; [qt|]. exists σ. split_and!; try done. rewrite -(insert_id σ (KT n) (RT (ctg c))) //. apply own_upd with (RT (ctg c)).
    eapply hmono; [|exact H]. iIntros "[$ H]". by iApply ("H" $! c eq_refl).
  Qed.
  Lemma lru_ext s s' L : lru s L → cells s' = cells s → cache s' = cache s → lru s' L.
  Proof. intros [] Hc Hca. split; rewrite ?Hc ?Hca; done. Qed.
  Lemma Inv_same s s' : Inv s → fresh s' = fresh s → cells s' = cells s → cache s' = cache s →
    (∀ n, is_Some (nodes s' !! n) → is_Some (nodes s !! n)) →
    (∀ n, is_Some (pss s' !! n) → is_Some (pss s !! n)) →
    (∀ n, is_Some (trees s' !! n) → is_Some (trees s !! n)) → Inv s'.
  Proof.
    intros [[L HL] H1 H2 H3 H4] Hf Hc Hca Hn Hp Ht. split.
    - exists L. by eapply lru_ext.
    - intros n r Hr. destruct (Hn n) as [? ?]; [by eauto|]. rewrite Hf. by eauto.
    - intros n r Hr. destruct (Hp n) as [? ?]; [by eauto|]. rewrite Hf. by eauto.
    - intros n r Hr. rewrite Hf. rewrite Hc in Hr. by eauto.
    - intros n r Hr. destruct (Ht n) as [? ?]; [by eauto|]. rewrite Hf. by eauto.
  Qed.
  Lemma wp_modN io n r f Q E : isN n r -∗ (isN n (f r) -∗ Q tt) -∗ wp io (modN n f) Q E.
  Proof.
    apply bi.wand_intro_r, wp_step. intros σ H σf s Hd Hv HI.
    pose proof (own_look _ _ _ _ H) as Hk. pose proof (view_of Hv Hk) as Hs. simpl in Hs.
    destruct (nodes s !! n) as [r'|] eqn:Hn; simplify_eq/=.
    split; [qt|]. exists (<[KN n := RN (f r)]> σ).
    destruct (views_upd s (set_nodes (<[n:=f r]> (nodes s)) s) σ σf (KN n) (RN (f r))) as [Hd' Hv']; [done|done|by eauto| |].
    { intros [m|m|m|m|m]; case_decide; simplify_eq; cbn; rewrite ?lookup_insert //.
      rewrite lookup_insert_ne //. congruence. }
    split_and!; [done|done| |by eapply own_upd].
    eapply Inv_same; try done. intros m. simpl. destruct (decide (m = n)) as [->|]; [by eauto|].
    by rewrite lookup_insert_ne.
  Qed.
  Lemma wp_modP io n r f Q E : isP n r -∗ (isP n (f r) -∗ Q tt) -∗ wp io (modP n f) Q E.
  Proof.
    apply bi.wand_intro_r, wp_step. intros σ H σf s Hd Hv HI.
    pose proof (own_look _ _ _ _ H) as Hk. pose proof (view_of Hv Hk) as Hs. simpl in Hs.
    destruct (pss s !! n) as [r'|] eqn:Hn; simplify_eq/=.
    split; [qt|]. exists (<[KP n := RP (f r)]> σ).
    destruct (views_upd s (set_pss (<[n:=f r]> (pss s)) s) σ σf (KP n) (RP (f r))) as [Hd' Hv']; [done|done|by eauto| |].
    { intros [m|m|m|m|m]; case_decide; simplify_eq; cbn; rewrite ?lookup_insert //.
      rewrite lookup_insert_ne //. congruence. }
    split_and!; [done|done| |by eapply own_upd].
    eapply Inv_same; try done. intros m. simpl. destruct (decide (m = n)) as [->|]; [by eauto|].
    by rewrite lookup_insert_ne.
  Qed.
  Lemma wp_modT io n r f Q E : isR n r -∗ (isR n (f r) -∗ Q tt) -∗ wp io (modT n f) Q E.
  Proof.
    apply bi.wand_intro_r, wp_step. intros σ H σf s Hd Hv HI.
    pose proof (own_look _ _ _ _ H) as Hk. pose proof (view_of Hv Hk) as Hs. simpl in Hs.
    destruct (trees s !! n) as [r'|] eqn:Hn; simplify_eq/=.
    split; [qt|]. exists (<[KR n := RR (f r)]> σ).
    destruct (views_upd s (set_trees (<[n:=f r]> (trees s)) s) σ σf (KR n) (RR (f r))) as [Hd' Hv']; [done|done|by eauto| |].
    { intros [m|m|m|m|m]; case_decide; simplify_eq; cbn; rewrite ?lookup_insert //.
      rewrite lookup_insert_ne //. congruence. }
    split_and!; [done|done| |by eapply own_upd].
    eapply Inv_same; try done. intros m. simpl. destruct (decide (m = n)) as [->|]; [by eauto|].
    by rewrite lookup_insert_ne.
  Qed.
End wp.

(** ** Allocation *)
Section alloc.
  Context {K V : Type}.
  Notation st := (st K V).
  Notation M := (M K V).
  Notation hProp := (hProp K V).
  Notation heap := (gmap rkey (rval K V)).
  Implicit Types (s : st) (σ : heap) (P R : hProp).

  Lemma views_none s σ σf k : views s (σ ∪ σf) → viewf s k = None → σ !! k = None ∧ σf !! k = None.
  Proof. intros Hv Hk. rewrite Hv in Hk. by apply lookup_union_None. Qed.
  Lemma views_ins s s' σ σf k v : views s (σ ∪ σf) → σ ##ₘ σf → viewf s k = None →
    (∀ k', viewf s' k' = if decide (k = k') then Some v else viewf s k') →
    <[k := v]> σ ##ₘ σf ∧ views s' (<[k := v]> σ ∪ σf).
  Proof.
    intros Hv Hd Hk H. destruct (views_none _ _ _ _ Hv Hk). split.
    - apply map_disjoint_insert_l. by split.
    - intros k'. rewrite H -insert_union_l. case_decide as Hc.
      + by rewrite Hc lookup_insert.
      + by rewrite lookup_insert_ne.
  Qed.
  Lemma lru_newcell s L n : lru s L → cells s !! n = None →
    lru (set_cells (<[n := Cell noLRU None None]> (cells s)) s) L.
  Proof.
    intros HL Hn.
    assert (∀ d, n ∉ L d) as Hd.
    { intros d Hd. destruct (seg_lookup _ _ _ _ _ _ (lru_seg _ _ _ HL d) Hd) as (c & Hc & _). congruence. }
    split; try apply HL.
    - intros d. apply seg_insert; [done|]. apply HL.
    - intros m c. simpl. destruct (decide (m = n)) as [->|Hne].
      + rewrite lookup_insert. by intros [= <-].
      + rewrite lookup_insert_ne //. apply HL.
  Qed.
  Lemma wp_newNode io r Q E :
    (∀ n, isN n r -∗ isP n (Ps 0 0 None None None) -∗ isT n noLRU -∗ Q n) ⊢ wp (K:=K) (V:=V) io (newNode r) Q E.
  Proof.
    apply wp_step. intros σ H σf s Hd Hv HI. set n := fresh s. specialize (H n).
    destruct HI as [[L HL] I1 I2 I3 I4].
    assert (nodes s !! n = None) as Hn. { destruct (nodes s !! n) eqn:Hx; [|done]. apply I1 in Hx. unfold n in Hx. lia. }
    assert (pss s !! n = None) as Hp. { destruct (pss s !! n) eqn:Hx; [|done]. apply I2 in Hx. unfold n in Hx. lia. }
    assert (cells s !! n = None) as Hc. { destruct (cells s !! n) eqn:Hx; [|done]. apply I3 in Hx. unfold n in Hx. lia. }
    destruct (views_none s σ σf (KN n) Hv) as [??]; [by rewrite /= Hn|].
    destruct (views_none s σ σf (KP n) Hv) as [??]; [by rewrite /= Hp|].
    destruct (views_none s σ σf (KT n) Hv) as [??]; [by rewrite /= Hc|].
    split; [qt|]. exists (<[KT n := RT noLRU]> (<[KP n := RP (Ps 0 0 None None None)]> (<[KN n := RN r]> σ))).
    split_and!.
    - by repeat (apply map_disjoint_insert_l; split; [rewrite ?lookup_insert_ne //|]).
    - intros k. rewrite -!insert_union_l. specialize (Hv k).
      destruct k as [m|m|m|l|m]; [| | |by rewrite ?lookup_insert_ne|];
        cbn [viewf] in *; destruct (decide (m = n)) as [->|Hmn];
        repeat first [rewrite lookup_insert | rewrite lookup_insert_ne; [|congruence]]; cbn;
        rewrite ?lookup_insert //; rewrite ?lookup_insert_ne //; congruence.
    - split.
      + exists L. eapply lru_ext; [eapply (lru_newcell s L n)|..]; done.
      + intros m r'. cbn. destruct (decide (m = n)) as [->|]; [unfold n; lia|].
        rewrite lookup_insert_ne //. intros ?%I1. lia.
      + intros m r'. cbn. destruct (decide (m = n)) as [->|]; [unfold n; lia|].
        rewrite lookup_insert_ne //. intros ?%I2. lia.
      + intros m r'. cbn. destruct (decide (m = n)) as [->|]; [unfold n; lia|].
        rewrite lookup_insert_ne //. intros ?%I3. lia.
      + intros m r'. cbn. intros ?%I4. lia.
    - apply own_new; [|rewrite !lookup_insert_ne //]. apply own_new; [|rewrite !lookup_insert_ne //].
      by apply own_new.
  Qed.
  Lemma wp_newTree io T Q E : (∀ t, isR t T -∗ Q t) ⊢ wp (K:=K) (V:=V) io (newTree T) Q E.
  Proof.
    apply wp_step. intros σ H σf s Hd Hv HI. set n := fresh s. specialize (H n).
    destruct HI as [[L HL] I1 I2 I3 I4].
    assert (trees s !! n = None) as Hn. { destruct (trees s !! n) eqn:Hx; [|done]. apply I4 in Hx. unfold n in Hx. lia. }
    destruct (views_none s σ σf (KR n) Hv) as [??]; [by rewrite /= Hn|].
    split; [qt|]. exists (<[KR n := RR T]> σ).
    split_and!.
    - by apply map_disjoint_insert_l.
    - intros k. rewrite -!insert_union_l. specialize (Hv k).
      destruct k as [m|m|m|l|m]; [| | |by rewrite ?lookup_insert_ne|];
        cbn [viewf] in *; destruct (decide (m = n)) as [->|Hmn];
        repeat first [rewrite lookup_insert | rewrite lookup_insert_ne; [|congruence]]; cbn;
        rewrite ?lookup_insert //; rewrite ?lookup_insert_ne //; congruence.
    - split.
      + exists L. by eapply lru_ext.
      + intros m r'. cbn. intros ?%I1. lia.
      + intros m r'. cbn. intros ?%I2. lia.
      + intros m r'. cbn. intros ?%I3. lia.
      + intros m r'. cbn. destruct (decide (m = n)) as [->|]; [unfold n; lia|].
        rewrite lookup_insert_ne //. intros ?%I4. lia.
    - by apply own_new.
  Qed.

  (** ** Storage *)
  Definition locok (l : loc) : Prop :=
    0 < lnum l < 2 ^ 64 ∧ 0 ≤ loff l < 2 ^ 64 ∧ 0 ≤ llen l < 2 ^ 64.

  Lemma wp_callback {A} (f : choice → st → out K V A) Q E :
    (∀ c (_ : ch_fail c = false), wp true (Act (f c)) Q E) ∧ E EIO ⊢ wp true (callback f) Q E.
  Proof.
    apply wp_step. intros σ [H HE] σf s Hd Hv HI. cbn.
    destruct (ch_crash _); [split; [done|by eapply views_keeps]|]. destruct (ch_fail (orc s (iocount s))) eqn:Hf.
    - split; [split; [qt|]|].
      + intros _. exists (iocount s). split; [cbn; lia|done].
      + exists σ. split_and!; try done. by eapply Inv_same.
    - specialize (H (orc s (iocount s)) Hf). 
      assert (Inv (set_iocount (S (iocount s)) s)) as HI' by by eapply Inv_same.
      specialize (H σf (set_iocount (S (iocount s)) s) Hd Hv HI').
      assert (quiet true s (set_iocount (S (iocount s)) s)) as Hq by qt.
      destruct (f _ _) as [a s'|e s'|[] s']; try done; destruct H as [Hq2 H].
      + split; [by eapply quiet_trans|done].
      + destruct Hq2. split; [split; [by eapply quiet_trans|by eapply cause_trans]|done].
  Qed.
  Lemma wp_GetNode l b Q E :
    isD l b -∗ (isD l b -∗ Q b) ∧ (isD l b -∗ E EIO) -∗ wp (K:=K) (V:=V) true (GetNode l) Q E.
  Proof.
    iIntros "Hl HQ". iApply wp_callback. iSplit; [|by iApply "HQ"]. iIntros (c _).
    iDestruct "HQ" as "[HQ _]". iCombine "Hl HQ" as "H". iStopProof.
    apply wp_step. intros σ H σf s Hd Hv HI.
    pose proof (own_look _ _ _ _ H) as Hk. pose proof (view_of Hv Hk) as Hs. simpl in Hs.
    destruct (disk s !! l); simplify_eq/=. split; [qt|]. exists σ. split_and!; try done.
    rewrite -(insert_id σ (KD l) (RD b)) //. by eapply own_upd.
  Qed.
  Lemma wp_PutNode b Q E :
    (∀ num off (_ : locok (num, off, Z.of_nat (length b))), isD (num, off, Z.of_nat (length b)) b -∗ Q (num, off)) ∧ E EIO
    ⊢ wp (K:=K) (V:=V) true (PutNode b) Q E.
  Proof.
    iIntros "HQ". iApply wp_callback. iSplit; [|by iDestruct "HQ" as "[_ HQ]"]. iIntros (c _).
    iDestruct "HQ" as "[HQ _]". iSpecialize ("HQ" $! (ch_num c) (ch_off c)). iStopProof.
    set l : loc := (ch_num c, ch_off c, Z.of_nat (length b)).
    apply wp_step. intros σ H σf s Hd Hv HI.
    destruct (_ && _) eqn:Hb; [|split; [done|by eapply views_keeps]].
    destruct (disk s !! l) eqn:Hl; [split; [done|by eapply views_keeps]|].
    assert (locok l) as Hok.
    { unfold locok, l, lnum, loff, llen. simpl. lia. }
    destruct (views_none s σ σf (KD l) Hv) as [??]; [by rewrite /= Hl|].
    split; [qt|]. exists (<[KD l := RD b]> σ). split_and!.
    - by apply map_disjoint_insert_l.
    - intros k. rewrite -!insert_union_l. specialize (Hv k).
      destruct k as [m|m|m|m|m]; cbn [viewf] in *;
        repeat first [rewrite lookup_insert | rewrite lookup_insert_ne; [|congruence]]; cbn; try done.
      destruct (decide (m = l)) as [->|].
      + by rewrite !lookup_insert.
      + rewrite !lookup_insert_ne //; congruence.
    - by eapply Inv_same.
    - apply own_new; [|done]. eapply hmono; [|exact H]. iIntros "H HD". iApply ("H" $! Hok with "HD").
  Qed.
  Lemma wp_DiscardNode l b Q E :
    isD l b -∗ Q tt ∧ (isD l b -∗ E EIO) -∗ wp (K:=K) (V:=V) true (DiscardNode l) Q E.
  Proof.
    iIntros "Hl HQ". iApply wp_callback. iSplit; [|by iApply "HQ"]. iIntros (c _).
    iDestruct "HQ" as "[HQ _]". iCombine "Hl HQ" as "H". iStopProof.
    apply wp_step. intros σ H σf s Hd Hv HI.
    pose proof (own_look _ _ _ _ H) as Hk. pose proof (view_of Hv Hk) as Hs. simpl in Hs.
    destruct (disk s !! l); simplify_eq/=. split; [qt|]. exists (base.delete (KD l) σ). split_and!; try done.
    - eapply map_disjoint_weaken_l; [done|]. apply delete_subseteq.
    - intros k. rewrite -(delete_notin σf (KD l)); [|by eapply map_disjoint_Some_l].
      rewrite -delete_union. specialize (Hv k).
      destruct k as [m|m|m|m|m]; cbn [viewf] in *; cbn; try (by rewrite lookup_delete_ne).
      destruct (decide (m = l)) as [->|].
      + by rewrite !lookup_delete.
      + rewrite !lookup_delete_ne //; congruence.
    - by eapply Inv_same.
    - by eapply own_del.
  Qed.
  Lemma wp_limit z Q E : (∀ _ : z < 2 ^ 64, Q tt) ⊢ wp (K:=K) (V:=V) true (limit z) Q E.
  Proof.
    iIntros "HQ". unfold limit. destruct (Z.ltb_spec z (2 ^ 64)).
    - iApply wp_ret. by iApply ("HQ" $! ltac:(done)).
    - iApply wp_envbad. iExact "HQ".
  Qed.

  (** ** The cache lists *)
  Definition ontag (L : bool → list nid) (n : nid) (tg : ctag) : Prop :=
    match tg with
    | noLRU => n ∉ L false ∧ n ∉ L true
    | cleanLRU => n ∈ L false
    | dirtyLRU => n ∈ L true
    end.
  Lemma lru_ontag s L n c : lru s L → cells s !! n = Some c → ontag L n (ctg c).
  Proof.
    intros HL Hc. destruct (decide (n ∈ L false)) as [H|H].
    { destruct (seg_lookup _ _ _ _ _ _ (lru_seg _ _ _ HL false) H) as (c' & Hc' & Hx). simplify_eq. by rewrite Hx. }
    destruct (decide (n ∈ L true)) as [H'|H'].
    { destruct (seg_lookup _ _ _ _ _ _ (lru_seg _ _ _ HL true) H') as (c' & Hc' & Hx). simplify_eq. by rewrite Hx. }
    rewrite (lru_none _ _ _ HL _ _ Hc) //. by auto.
  Qed.
  Lemma ontag_inj s L n tg tg' : lru s L → ontag L n tg → ontag L n tg' → tg = tg'.
  Proof.
    intros HL. pose proof (lru_disj _ _ _ HL false n) as H. simpl in H.
    destruct tg, tg'; cbn; intros; destruct_and?; try done; exfalso; naive_solver.
  Qed.
  Lemma wp_lru io n tg tg' (m : M unit) Q E :
    (∀ s L c, lru s L → cells s !! n = Some c → ctg c = tg →
       ∃ s' L', m s = ORet tt s' ∧ lru_frame s s' ∧ lru s' L' ∧
         (∀ x d, x ≠ n → x ∈ L' d ↔ x ∈ L d) ∧ ontag L' n tg') →
    isT n tg -∗ (isT n tg' -∗ Q tt) -∗ wp io (atomic m) Q E.
  Proof.
    intros Hm. apply bi.wand_intro_r, wp_step. intros σ H σf s Hd Hv HI.
    pose proof (own_look _ _ _ _ H) as Hk. pose proof (view_of Hv Hk) as Hs. simpl in Hs.
    destruct (cells s !! n) as [c|] eqn:Hc; simplify_eq/=.
    pose proof HI as [[L HL] I1 I2 I3 I4].
    destruct (Hm s L c HL Hc eq_refl) as (s' & L' & -> & (cs & ca & -> & Hdom & _) & HL' & HLL & Htag).
    split; [qt|]. exists (<[KT n := RT tg']> σ). 
    destruct (views_upd s (set_cells cs (set_cache ca s)) σ σf (KT n) (RT tg')) as [Hd' Hv']; [done|done|by eauto| |].
    { intros [x|x|x|x|x]; case_decide; simplify_eq; cbn; try done.
      - assert (is_Some (cs !! x)) as [c' Hc']. { apply elem_of_dom. rewrite Hdom. apply elem_of_dom. by eauto. }
        rewrite Hc' /=. do 2 f_equal. eapply (ontag_inj _ L'); [done| |done].
        by eapply (lru_ontag (set_cells cs (set_cache ca s))).
      - assert (x ≠ n) as Hx by congruence.
        destruct (cells s !! x) as [c'|] eqn:Hc'.
        + assert (is_Some (cs !! x)) as [c2 Hc2]. { apply elem_of_dom. rewrite Hdom. apply elem_of_dom. by eauto. }
          rewrite Hc2 /=. do 2 f_equal. eapply (ontag_inj _ L'); [done|by eapply (lru_ontag (set_cells cs (set_cache ca s)))|].
          pose proof (lru_ontag _ _ _ _ HL Hc') as Ht. revert Ht. unfold ontag.
          destruct (ctg c'); rewrite ?(HLL _ _ Hx) //.
        + destruct (cs !! x) eqn:Hc2; [|done]. apply elem_of_dom_2 in Hc2. rewrite Hdom in Hc2.
          apply elem_of_dom in Hc2 as [??]. congruence. }
    split_and!; [done|done| |by eapply own_upd].
    split; try done.
    - by exists L'.
    - intros x r Hr. cbn in Hr. apply elem_of_dom_2 in Hr. rewrite Hdom in Hr.
      apply elem_of_dom in Hr as [? Hr]. by eapply I3.
  Qed.
  Lemma elem_split (n : nid) L : n ∈ L → ∃ L1 L2, L = L1 ++ n :: L2.
  Proof. apply elem_of_list_split. Qed.
  Lemma dcase (d d' : bool) : d' = d ∨ d' = negb d.
  Proof. destruct d, d'; by auto. Qed.

  Lemma wp_lruAppend io d n Q E :
    isT n noLRU -∗ (isT n (side d) -∗ Q tt) -∗ wp (K:=K) (V:=V) io (atomic (lruAppend d n)) Q E.
  Proof.
    apply wp_lru. intros s L c HL Hc Ht.
    pose proof (lru_ontag _ _ _ _ HL Hc) as Hon. rewrite Ht in Hon. destruct Hon as [Hf Htr].
    assert (c = Cell noLRU None None) as -> by (eapply (lru_none _ _ _ HL); by eauto).
    destruct (lruAppend_spec s L d n HL Hc) as (s' & ? & ? & L' & ? & H1 & H2); [by destruct d..|].
    exists s', L'. split_and!; try done.
    - intros x d' Hx. destruct (dcase d d') as [->| ->]; rewrite ?H1 ?H2 //. set_solver.
    - destruct d; cbn; rewrite H1; set_solver +.
  Qed.
  Lemma ontag_side L n d : ontag L n (side d) ↔ n ∈ L d.
  Proof. by destruct d. Qed.
  Lemma wp_lruToTail io d n Q E :
    isT n (side d) -∗ (isT n (side d) -∗ Q tt) -∗ wp (K:=K) (V:=V) io (atomic (lruToTail d n)) Q E.
  Proof.
    apply wp_lru. intros s L c HL Hc Ht.
    pose proof (lru_ontag _ _ _ _ HL Hc) as Hon. rewrite Ht in Hon. apply ontag_side in Hon.
    apply elem_split in Hon as (L1 & L2 & Hd).
    destruct (lruToTail_spec s L d n L1 L2 HL Hd) as (s' & ? & ? & L' & ? & H1 & H2).
    exists s', L'. split_and!; try done.
    - intros x d' Hx. destruct (dcase d d') as [->| ->]; rewrite ?H1 ?H2 // Hd. set_solver.
    - apply ontag_side. rewrite H1. set_solver +.
  Qed.
  Lemma wp_lruMove io d n Q E :
    isT n (side d) -∗ (isT n (side (negb d)) -∗ Q tt) -∗
    wp (K:=K) (V:=V) io (atomic (bind (lruTake d n) (λ _ : unit, lruGive (negb d) n))) Q E.
  Proof.
    apply wp_lru. intros s L c HL Hc Ht.
    pose proof (lru_ontag _ _ _ _ HL Hc) as Hon. rewrite Ht in Hon. apply ontag_side in Hon.
    apply elem_split in Hon as (L1 & L2 & Hd).
    destruct (lru_cell _ _ _ _ _ _ _ HL Hd) as (_ & Hn1 & Hn2 & Hn3 & _).
    destruct (lruTake_spec s L d n L1 L2 HL Hd) as (s' & Hrun & [pv Hc'] & Hfr & L' & HL' & H1 & H2).
    destruct (lruGive_spec s' L' (negb d) n _ pv HL' Hc') as (s2 & Hrun2 & Hfr2 & L2' & HL2 & H3 & H4).
    { by rewrite H2. }
    { rewrite negb_involutive H1. set_solver. }
    rewrite negb_involutive in H4.
    exists s2, L2'. split_and!; try done.
    - cbn [run bind]. by rewrite Hrun.
    - destruct Hfr as (cs & ca & -> & Hdom & ? & ? & ? & ? & ?), Hfr2 as (cs2 & ca2 & -> & Hdom2 & ? & ? & ? & ? & ?).
      exists cs2, ca2. cbn in *. split_and!; try done; by etrans.
    - intros x d' Hx. destruct (dcase d d') as [->| ->]; rewrite ?H4 ?H3 ?H2 ?H1 ?Hd; set_solver.
    - apply ontag_side. rewrite H3. set_solver +.
  Qed.
  Lemma wp_lruRemove io d n Q E :
    isT n (side d) -∗ (isT n noLRU -∗ Q tt) -∗ wp (K:=K) (V:=V) io (atomic (lruRemove d n)) Q E.
  Proof.
    apply wp_lru. intros s L c HL Hc Ht.
    pose proof (lru_ontag _ _ _ _ HL Hc) as Hon. rewrite Ht in Hon. apply ontag_side in Hon.
    apply elem_split in Hon as (L1 & L2 & Hd).
    destruct (lru_cell _ _ _ _ _ _ _ HL Hd) as (_ & Hn1 & Hn2 & Hn3 & _).
    destruct (lruRemove_spec s L d n L1 L2 HL Hd) as (s' & ? & ? & L' & ? & H1 & H2).
    exists s', L'. split_and!; try done.
    - intros x d' Hx. destruct (dcase d d') as [->| ->]; rewrite ?H1 ?H2 // Hd. set_solver.
    - cbn. destruct d; cbn in *; rewrite H1 H2; set_solver.
  Qed.
  Lemma wp_modCache io f (Q : unit → hProp) E : (∀ c d, qof d (f c) = qof d c) →
    Q tt ⊢ wp io (atomic (modCache f)) Q E.
  Proof.
    intros Hf. apply wp_step. intros σ H σf s Hd Hv HI. split; [qt|]. exists σ. split_and!; try done.
    destruct HI as [[L HL] I1 I2 I3 I4]. split; try done. exists L.
    destruct HL. split; cbn; try done; intros d; by rewrite Hf.
  Qed.
  Lemma wp_kickDrainer io b (Q : unit → hProp) E : Q tt ⊢ wp io (atomic (kickDrainer b)) Q E.
  Proof. apply wp_modCache. intros c []; by destruct (_ && _). Qed.
  Lemma wp_whenCache io t T m Q E :
    isR t T -∗ (isR t T -∗ if t_cache T then wp io (atomic m) Q E else Q tt) -∗ wp (K:=K) (V:=V) io (whenCache t m) Q E.
  Proof.
    iIntros "HR H". iApply wp_bind. iApply (wp_getT with "HR"). iIntros "HR".
    iSpecialize ("H" with "HR"). destruct (t_cache T); [done|]. by iApply wp_ret.
  Qed.
  Lemma wp_incCacheHits io t T Q E :
    isR t T -∗ (isR t T -∗ Q tt) -∗ wp (K:=K) (V:=V) io (incCacheHits t) Q E.
  Proof.
    iIntros "HR H". iApply (wp_whenCache with "HR"). iIntros "HR". iSpecialize ("H" with "HR").
    destruct (t_cache T); [|done]. iApply wp_modCache; [by intros ? []|done].
  Qed.
  Lemma wp_incCacheMisses io t T Q E :
    isR t T -∗ (isR t T -∗ Q tt) -∗ wp (K:=K) (V:=V) io (incCacheMisses t) Q E.
  Proof.
    iIntros "HR H". iApply (wp_whenCache with "HR"). iIntros "HR". iSpecialize ("H" with "HR").
    destruct (t_cache T); [|done]. iApply wp_modCache; [by intros ? []|done].
  Qed.
  Lemma wp_initNodeAsEvicted io t T n Q E :
    isR t T -∗ isT n noLRU -∗ (isR t T -∗ isT n noLRU -∗ Q tt) -∗
    wp (K:=K) (V:=V) io (initNodeAsEvicted t n) Q E.
  Proof.
    iIntros "HR HT H". iApply wp_bind. iApply (wp_getT with "HR"). iIntros "HR". iSpecialize ("H" with "HR").
    destruct (t_cache T); [|iApply wp_ret; by iApply "H"].
    iApply (wp_lru _ _ _ _ (modC n (λ _, Cell noLRU None None)) with "HT H"). intros s L c HL Hc Ht.
    pose proof (lru_ontag _ _ _ _ HL Hc) as Hon. rewrite Ht in Hon. destruct Hon as [Hf Htr].
    assert (c = Cell noLRU None None) as -> by (eapply (lru_none _ _ _ HL); by eauto).
    exists s, L. split_and!; try done.
    - rewrite (modC_end _ _ _ _ Hc) insert_id //. by destruct s.
    - exists (cells s), (cache s). by destruct s.
  Qed.
  (** tag of a node of a tree with or without cache *)
  Definition ctagof (T : treerec) (tg : ctag) : ctag := if t_cache T then tg else noLRU.
  Lemma wp_markNodeUsed io t T n tg Q E : tg ≠ noLRU →
    isR t T -∗ isT n (ctagof T tg) -∗ (isR t T -∗ isT n (ctagof T tg) -∗ Q tt) -∗
    wp (K:=K) (V:=V) io (markNodeUsed t n) Q E.
  Proof.
    iIntros (Htg) "HR HT H". iApply (wp_whenCache with "HR"). iIntros "HR". iSpecialize ("H" with "HR").
    unfold ctagof. destruct (t_cache T); [|by iApply "H"].
    iApply wp_atomic_bind. iApply wp_atomic. iApply (wp_getC with "HT"). iIntros (c <-) "HT".
    destruct (ctg c) eqn:Hc; [done|..].
    - by iApply (wp_lruToTail _ false with "HT").
    - by iApply (wp_lruToTail _ true with "HT").
  Qed.
  Lemma wp_markNodeClean io t T n r tg Q E :
    isR t T -∗ isN n r -∗ isT n (ctagof T tg) -∗
    (isR t T -∗ isN n (set_dirty false r) -∗ isT n (ctagof T cleanLRU) -∗ Q tt) -∗
    wp (K:=K) (V:=V) io (markNodeClean t n) Q E.
  Proof.
    iIntros "HR HN HT H". iApply wp_bind. iApply (wp_modN with "HN"). iIntros "HN".
    iApply (wp_whenCache with "HR"). iIntros "HR". iSpecialize ("H" with "HR HN").
    unfold ctagof. destruct (t_cache T); [|by iApply "H"].
    iApply wp_atomic_bind. iApply wp_atomic. iApply (wp_getC with "HT"). iIntros (c <-) "HT".
    iApply wp_atomic_bind.
    destruct (ctg c) eqn:Hc.
    - iApply (wp_lruAppend _ false with "HT"). iIntros "HT". iApply wp_kickDrainer. by iApply "H".
    - iApply (wp_lruToTail _ false with "HT"). iIntros "HT". iApply wp_kickDrainer. by iApply "H".
    - iApply (wp_lruMove _ true with "HT"). iIntros "HT". iApply wp_kickDrainer. by iApply "H".
  Qed.
  (** staleOnDiskReferencesList with one more entry *)
  Definition addstale (l : loc) (T : treerec) : treerec :=
    Tree (t_min T) (t_max T) (t_root T) (if decide (l ∈ t_stale T) then t_stale T else l :: t_stale T) (t_cache T).
  Definition stale_of (r : bnode K V) (T : treerec) : treerec :=
    if llen (b_loc r) =? 0 then T else addstale (b_loc r) T.
  Definition unloc (r : bnode K V) : bnode K V :=
    if llen (b_loc r) =? 0 then r else set_loc noloc r.
  Lemma wp_placeNodeOnStale io t T n r Q E :
    isR t T -∗ isN n r -∗ (isR t (stale_of r T) -∗ isN n (unloc r) -∗ Q tt) -∗
    wp (K:=K) (V:=V) io (placeNodeOnStale t n) Q E.
  Proof.
    iIntros "HR HN H". iApply wp_bind. iApply (wp_getN with "HN"). iIntros "HN".
    unfold stale_of, unloc. destruct (llen (b_loc r) =? 0).
    { iApply wp_ret. iApply ("H" with "HR HN"). }
    iApply wp_bind. iApply (wp_modT with "HR"). iIntros "HR".
    iApply (wp_modN with "HN"). iIntros "HN". iApply ("H" with "HR HN").
  Qed.
  Lemma ctagof_stale r T tg : ctagof (stale_of r T) tg = ctagof T tg.
  Proof. unfold stale_of. by destruct (_ =? _). Qed.
  Lemma wp_markNodeDirty io t T n r tg Q E :
    isR t T -∗ isN n r -∗ isT n (ctagof T tg) -∗
    (isR t (stale_of r T) -∗ isN n (unloc (set_dirty true r)) -∗ isT n (ctagof T dirtyLRU) -∗ Q tt) -∗
    wp (K:=K) (V:=V) io (markNodeDirty t n) Q E.
  Proof.
    iIntros "HR HN HT H". iApply wp_bind. iApply (wp_modN with "HN"). iIntros "HN".
    iApply wp_bind. iApply (wp_placeNodeOnStale with "HR HN"). iIntros "HR HN".
    rewrite -(ctagof_stale (set_dirty true r) T tg) -(ctagof_stale (set_dirty true r) T dirtyLRU).
    change (stale_of r T) with (stale_of (set_dirty true r) T).
    iApply (wp_whenCache with "HR"). iIntros "HR". iSpecialize ("H" with "HR HN").
    unfold ctagof. destruct (t_cache (stale_of (set_dirty true r) T)); [|by iApply "H"].
    iApply wp_atomic_bind. iApply wp_atomic. iApply (wp_getC with "HT"). iIntros (c <-) "HT".
    destruct (ctg c) eqn:Hc.
    - by iApply (wp_lruAppend _ true with "HT").
    - by iApply (wp_lruMove _ false with "HT").
    - by iApply (wp_lruToTail _ true with "HT").
  Qed.
  Lemma wp_markNodeEvicted io t T n tg Q E : tg ≠ noLRU →
    isR t T -∗ isT n (ctagof T tg) -∗ (isR t T -∗ isT n noLRU -∗ Q tt) -∗
    wp (K:=K) (V:=V) io (markNodeEvicted t n) Q E.
  Proof.
    iIntros (Htg) "HR HT H". iApply (wp_whenCache with "HR"). iIntros "HR". iSpecialize ("H" with "HR").
    unfold ctagof. destruct (t_cache T); [|by iApply "H"].
    iApply wp_atomic_bind. iApply wp_atomic. iApply (wp_getC with "HT"). iIntros (c <-) "HT".
    destruct (ctg c) eqn:Hc; [done|..].
    - by iApply (wp_lruRemove _ false with "HT").
    - by iApply (wp_lruRemove _ true with "HT").
  Qed.
  Lemma wp_markNodeToBeDiscarded io t T n r tg Q E : tg ≠ noLRU →
    isR t T -∗ isN n r -∗ isT n (ctagof T tg) -∗
    (isR t (stale_of r T) -∗ isN n (unloc r) -∗ isT n noLRU -∗ Q tt) -∗
    wp (K:=K) (V:=V) io (markNodeToBeDiscarded t n) Q E.
  Proof.
    iIntros (Htg) "HR HN HT H". iApply wp_bind. iApply (wp_placeNodeOnStale with "HR HN"). iIntros "HR HN".
    rewrite -(ctagof_stale r T tg). iApply (wp_markNodeEvicted with "HR HT"); [done|]. iIntros "HR HT".
    iApply ("H" with "HR HN HT").
  Qed.
End alloc.

(** * Errors that are caught

    A program that catches the error of a failed callback and goes on can still
    tell in its answer that it did.  Models no code. *)
From Coq Require Import ssreflect.
From stdpp Require Import prelude list gmap.
From iris.bi Require Import bi.
From iris.proofmode Require Import proofmode.
From Verif Require Import Spec BTree HProp Lru Wp Pres Machine.
Open Scope Z_scope.

Section blame.
  Context {K V : Type}.
  Notation st := (st K V).
  Notation M := (M K V).
  Notation hProp := (hProp K V).
  Implicit Types s : st.

  (** an answer in [P] is returned only after an I/O error was caught *)
  Fixpoint blames {A} (m : M A) : (A → Prop) → Prop :=
    match m in BTree.M _ _ A return (A → Prop) → Prop with
    | Act f => λ P, ∀ s, match f s with ORet a _ => ¬ P a | _ => True end
    | Bind m f => λ P, ∃ P', blames m P' ∧ ∀ a, P' a ∨ blames (f a) P
    | Try m h => λ P, blames m P ∧ ∀ e, e = EIO ∨ blames (h e) P
    end.
  Lemma bl_none {A} (m : M A) : blames m (λ _, False).
  Proof.
    induction m as [A f|A B m IHm f IHf|A m IHm h IHh]; cbn.
    - intros s. destruct (f s); tauto.
    - exists (λ _, False). split; [done|]. intros a. by right.
    - split; [done|]. intros e. by right.
  Qed.
  Lemma bl_pre {A B} (m : M A) (f : A → M B) P : (∀ a, blames (f a) P) → blames (bind m f) P.
  Proof. intros H. exists (λ _, False). split; [apply bl_none|]. intros a. by right. Qed.
  Lemma bl_bind {A B} (m : M A) (f : A → M B) P' P : blames m P' → (∀ a, P' a ∨ blames (f a) P) → blames (bind m f) P.
  Proof. intros H1 H2. by exists P'. Qed.
  Lemma bl_ret {A} (a : A) P : ¬ P a → blames (ret a) P.
  Proof. by intros H s. Qed.
  Lemma bl_panic {A} P : blames (panic (A:=A)) P.
  Proof. by intros s. Qed.
  Lemma bl_nofuel {A} P : blames (nofuel (A:=A)) P.
  Proof. by intros s. Qed.
  Lemma bl_fuel {A} (f : nat → M A) P : (∀ n, blames (f n) P) → blames (with_fuel f) P.
  Proof. apply bl_pre. Qed.

  Lemma made_app io io' s1 s2 s3 : quiet io s1 s2 → quiet io' s2 s3 → made s1 s3 = made s1 s2 ++ made s2 s3.
  Proof.
    intros (H1 & H2 & _) (H3 & H4 & _). unfold made. rewrite H1.
    replace (iocount s3 - iocount s1)%nat with ((iocount s2 - iocount s1) + (iocount s3 - iocount s2))%nat by lia.
    rewrite seq_app fmap_app. do 3 f_equal. lia.
  Qed.
  Lemma made_cause s s' : cause s s' EIO → true ∈ made s s'.
  Proof.
    intros H. destruct (H eq_refl) as (i & Hi & Hf). unfold made. apply elem_of_list_fmap. exists i. split; [done|].
    apply elem_of_seq. lia.
  Qed.
  Lemma blames_run io {A} (m : M A) P Q E σ : wp io m Q E σ → blames m P → ∀ σf s, σ ##ₘ σf → views s (σ ∪ σf) → Inv s →
    match m s with ORet a s' => P a → true ∈ made s s' | _ => True end.
  Proof.
    revert P Q E σ. induction m as [A f|A B m IHm f IHf|A m IHm h IHh]; intros P Q E σ Hwp HB σf s Hd Hv HI.
    - cbn in *. specialize (HB s). destruct (f s); tauto.
    - destruct HB as (P' & HB & HBf). pose proof (wp_run _ _ _ _ _ Hwp σf s Hd Hv HI) as HR0.
      specialize (IHm P' _ _ _ Hwp HB σf s Hd Hv HI).
      pose proof (wp_run io m _ _ σ Hwp σf s Hd Hv HI) as HR. cbn [run] in *. destruct (m s) as [a s1|e s1|w s1]; try done.
      destruct HR as (Hq & σ' & Hd' & Hv' & HI' & HQ). pose proof (wp_run _ _ _ _ _ HQ σf s1 Hd' Hv' HI') as HR2.
      specialize (IHf a P _ _ _ HQ). destruct (f a s1) as [b s2|e s2|w s2] eqn:Ef; try done. destruct HR2 as [Hq2 _].
      intros HP. rewrite (made_app _ _ _ _ _ Hq Hq2) elem_of_app. destruct (HBf a) as [Ha|Hfa]; [left; by apply IHm|right].
      specialize (IHf Hfa σf s1 Hd' Hv' HI'). rewrite Ef in IHf. by apply IHf.
    - destruct HB as [HB HBh]. specialize (IHm P _ _ _ Hwp HB σf s Hd Hv HI).
      pose proof (wp_run io m _ _ σ Hwp σf s Hd Hv HI) as HR. cbn [run] in *. destruct (m s) as [a s1|e s1|w s1]; try done.
      destruct HR as ([Hq Hc] & σ' & Hd' & Hv' & HI' & HQ). pose proof (wp_run _ _ _ _ _ HQ σf s1 Hd' Hv' HI') as HR2.
      specialize (IHh e P _ _ _ HQ). destruct (h e s1) as [b s2|e2 s2|w s2] eqn:Ef; try done. destruct HR2 as [Hq2 _].
      intros HP. rewrite (made_app _ _ _ _ _ Hq Hq2) elem_of_app. destruct (HBh e) as [->|He]; [left; by apply made_cause|right].
      specialize (IHh He σf s1 Hd' Hv' HI'). rewrite Ef in IHh. by apply IHh.
  Qed.

  (** the same program, telling also which callbacks it made *)
  Definition tallied {A} (m : M A) : M (A * list bool) :=
    Act (λ s, match m s with ORet a s' => ORet (a, made s s') s' | OErr e s' => OErr e s' | OStop w s' => OStop w s' end).
  Lemma tallied_wp io {A} (m : M A) P Q E : blames m P →
    wp io m Q E ⊢ wp io (tallied m) (λ p, <affine> ⌜P p.1 → true ∈ p.2⌝ ∗ Q p.1) E.
  Proof.
    intros HB. apply wp_step. intros σ Hwp σf s Hd Hv HI. pose proof (blames_run _ _ _ _ _ _ Hwp HB σf s Hd Hv HI) as HX.
    pose proof (wp_run _ _ _ _ _ Hwp σf s Hd Hv HI) as HR. destruct (m s) as [a s'|e s'|w s']; [|done..].
    destruct HR as (Hq & σ' & Hd' & Hv' & HI' & HQ). split; [done|]. exists σ'. split_and!; [done..|].
    assert (Q a ⊢ <affine> ⌜P a → true ∈ made s s'⌝ ∗ Q a) as [HE]; [|by apply HE]. iIntros "$". done.
  Qed.
  Lemma tallied_grows X {A} (m : M A) : grows X m → grows X (tallied m).
  Proof. intros H s. specialize (H s). cbn. by destruct (m s). Qed.
End blame.

Section dump.
  Context {K V : Type}.
  Variable cb : callbacks K V.
  Notation missed := (λ x : dump K V, x.2 = Some EIO).
  Local Instance err_dec : EqDecision err.
  Proof. solve_decision. Defined.
  Lemma bl_dumpNode t : ∀ fuel n, blames (dumpNode cb fuel t n) missed.
  Proof.
    induction fuel as [|fuel IH]; intros n; [apply bl_nofuel|]. cbn [dumpNode].
    apply bl_pre. intros r0. apply bl_pre. intros _. apply bl_pre. intros r.
    assert (∀ c, blames (Try (dumpNode cb fuel t c) (λ e, ret ([], Some e))) missed) as Hc.
    { intros c. split; [apply IH|]. intros e. destruct (decide (e = EIO)) as [->|Hn]; [by left|right].
      apply bl_ret. cbn. congruence. }
    apply (bl_bind _ _ missed).
    { destruct (b_leaf r); [by apply bl_ret|]. destruct (b_left r) as [c|]; [|by apply bl_ret].
      apply (bl_bind _ _ missed); [done|]. intros y. destruct (decide (y.2 = Some EIO)) as [?|Hn]; [by left|right].
      apply bl_ret. by cbn. }
    intros x. destruct (decide (x.2 = Some EIO)) as [?|Hx]; [by left|right]. apply bl_pre. intros len.
    generalize (range len). intros ix. revert x Hx. induction ix as [|i ix IHx]; intros x Hx; [by apply bl_ret|].
    apply bl_pre. intros [[k v]|]; [|apply bl_panic]. destruct (b_leaf r).
    - apply bl_pre. intros u. apply IHx. cbn. by destruct (x.2).
    - apply bl_pre. intros c. apply (bl_bind _ _ missed); [done|]. intros y.
      destruct (decide (y.2 = Some EIO)) as [?|Hn]; [by left|right]. apply IHx. cbn. by destruct (x.2).
  Qed.
  Lemma bl_bt_Dump t : blames (bt_Dump cb t) missed.
  Proof. apply bl_fuel. intros fuel. apply bl_pre. intros rt. apply bl_dumpNode. Qed.
End dump.

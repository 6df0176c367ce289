(** * Weakest preconditions that remember the callbacks made

    The reasoning of Wp.v for a program that is interrupted after every step:
    what is left to do is again such a program.

    Models no code. *)
From Coq Require Import ssreflect.
From stdpp Require Import prelude list gmap.
From iris.bi Require Import bi.
From Verif Require Import Spec BTree HProp Lru Wp Pres Blame Local Machine Threads.
Open Scope Z_scope.

Section wpt.
  Context {K V : Type}.
  Notation st := (st K V).
  Notation M := (M K V).
  Notation hProp := (hProp K V).
  Notation heap := (gmap rkey (rval K V)).
  Notation post A := (A → list bool → heap → Prop).
  Implicit Types (s : st) (σ G : heap).

  (** [G]: not owned, but known to be there *)
  Definition wpt_pre G io {A} (m : st → out K V A) (cbs : list bool) (Q : post A) (E : post err) σ : Prop :=
    ∀ σf s, σ ##ₘ σf → G ⊆ σf → views s (σ ∪ σf) → Inv s →
      match m s with
      | ORet a s' => quiet io s s' ∧ ∃ σ', σ' ##ₘ σf ∧ views s' (σ' ∪ σf) ∧ Inv s' ∧ Q a (cbs ++ made s s') σ'
      | OErr e s' => quiet io s s' ∧ ∃ σ', σ' ##ₘ σf ∧ views s' (σ' ∪ σf) ∧ Inv s' ∧ E e (cbs ++ made s s') σ'
      | OStop Panic _ | OStop Fuel _ => False
      | OStop Env s' | OStop Crash s' => io = true ∧ keeps σf s'
      end.
  Fixpoint wpt G io {A} (m : M A) : list bool → post A → post err → heap → Prop :=
    match m in BTree.M _ _ A return list bool → post A → post err → heap → Prop with
    | Act f => λ cbs Q E σ, wpt_pre G io f cbs Q E σ
    | Bind m f => λ cbs Q E σ, wpt G io m cbs (λ a cbs σ, wpt G io (f a) cbs Q E σ) E σ
    | Try m h => λ cbs Q E σ, wpt G io m cbs Q (λ e cbs σ, wpt G io (h e) cbs Q E σ) σ
    end.
  Lemma wpt_mono G G' io {A} (m : M A) cbs (Q Q' : post A) (E E' : post err) σ : G ⊆ G' →
    (∀ a cbs σ, Q a cbs σ → Q' a cbs σ) → (∀ e cbs σ, E e cbs σ → E' e cbs σ) →
    wpt G io m cbs Q E σ → wpt G' io m cbs Q' E' σ.
  Proof.
    intros HG. revert cbs Q Q' E E' σ. induction m as [A f|A B m IHm f IHf|A m IHm h IHh]; intros cbs Q Q' E E' σ HQ HE; cbn [wpt].
    - intros H σf s Hd Hs Hv HI. specialize (H σf s Hd ltac:(by etrans) Hv HI).
      destruct (f s) as [a s'|e s'|[] s']; try done; destruct H as (Hq & σ' & ? & ? & ? & ?);
        (split; [done|exists σ'; split_and!; by auto]).
    - apply IHm; [|done]. intros a cbs' σ'. by apply IHf.
    - apply IHm; [done|]. intros e cbs' σ'. by apply IHh.
  Qed.
  (** from the reasoning of Wp.v *)
  Lemma wp_wpt io {A} (m : M A) cbs (Q : A → hProp) (E : err → hProp) σ : wp io m Q E σ →
    wpt ∅ io m cbs (λ a cbs' σ', Q a σ' ∧ ∃ cs, cbs' = cbs ++ cs ∧ (io = false → cs = []))
      (λ e cbs' σ', E e σ' ∧ ∃ cs, cbs' = cbs ++ cs ∧ (io = false → cs = []) ∧ (e = EIO → true ∈ cs)) σ.
  Proof.
    revert cbs Q E σ. induction m as [A f|A B m IHm f IHf|A m IHm h IHh]; intros cbs Q E σ.
    - intros H σf s Hd _ Hv HI. specialize (H σf s Hd Hv HI).
      assert (∀ s', quiet io s s' → io = false → made s s' = []) as Hn.
      { intros s' (_ & _ & Hq) Hio. destruct (Hq Hio) as [Hq' _]. unfold made. by rewrite Hq' Nat.sub_diag. }
      destruct (f s) as [a s'|e s'|[] s']; try done.
      + destruct H as (Hq & σ' & ? & ? & ? & ?). split; [done|]. exists σ'. split_and!; [done..|]. eauto 6.
      + destruct H as ([Hq Hc] & σ' & ? & ? & ? & ?). split; [done|]. exists σ'. split_and!; [done..|].
        exists (made s s'). split_and!; [done|by auto|]. intros ->. destruct (Hc eq_refl) as (i & Hi & Hf).
        apply elem_of_list_fmap. exists i. split; [done|]. apply elem_of_seq. lia.
    - intros H. cbn [wpt]. apply (IHm cbs) in H. eapply wpt_mono; [done| | |exact H].
      + intros a cbs' σ' (Hf & cs & -> & Hcs). apply (IHf a (cbs ++ cs)) in Hf. eapply wpt_mono; [done| | |exact Hf].
        * intros b cbs2 σ2 (HQ & cs2 & -> & Hcs2). split; [done|]. exists (cs ++ cs2). rewrite app_assoc. split; [done|].
          intros Hio. by rewrite (Hcs Hio) (Hcs2 Hio).
        * intros e cbs2 σ2 (HQ & cs2 & -> & Hcs2 & He). split; [done|]. exists (cs ++ cs2). rewrite app_assoc. split; [done|]. split.
          -- intros Hio. by rewrite (Hcs Hio) (Hcs2 Hio).
          -- intros ->. apply elem_of_app. right. by apply He.
      + done.
    - intros H. cbn [wpt]. apply (IHm cbs) in H. eapply wpt_mono; [done| | |exact H].
      + done.
      + intros e cbs' σ' (Hf & cs & -> & Hcs & _). apply (IHh e (cbs ++ cs)) in Hf. eapply wpt_mono; [done| | |exact Hf].
        * intros b cbs2 σ2 (HQ & cs2 & -> & Hcs2). split; [done|]. exists (cs ++ cs2). rewrite app_assoc. split; [done|].
          intros Hio. by rewrite (Hcs Hio) (Hcs2 Hio).
        * intros e2 cbs2 σ2 (HQ & cs2 & -> & Hcs2 & He). split; [done|]. exists (cs ++ cs2). rewrite app_assoc. split; [done|]. split.
          -- intros Hio. by rewrite (Hcs Hio) (Hcs2 Hio).
          -- intros ->. apply elem_of_app. right. by apply He.
  Qed.
  (** the same, for a program that tells when it caught an I/O error *)
  Lemma wp_wpt_blame io {A} (m : M A) cbs (P : A → Prop) (Q : A → hProp) (E : err → hProp) σ : wp io m Q E σ → blames m P →
    wpt ∅ io m cbs (λ a cbs' σ', Q a σ' ∧ ∃ cs, cbs' = cbs ++ cs ∧ (P a → true ∈ cs))
      (λ e cbs' σ', E e σ' ∧ ∃ cs, cbs' = cbs ++ cs ∧ (e = EIO → true ∈ cs)) σ.
  Proof.
    revert cbs P Q E σ. induction m as [A f|A B m IHm f IHf|A m IHm h IHh]; intros cbs P Q E σ H HB.
    - intros σf s Hd _ Hv HI. specialize (H σf s Hd Hv HI). specialize (HB s). destruct (f s) as [a s'|e s'|[] s']; try done.
      + destruct H as (Hq & σ' & ? & ? & ? & ?). split; [done|]. exists σ'. split_and!; [done..|]. exists (made s s'). by split.
      + destruct H as ([Hq Hc] & σ' & ? & ? & ? & ?). split; [done|]. exists σ'. split_and!; [done..|].
        exists (made s s'). split_and!; [done|]. intros ->. by apply made_cause.
    - destruct HB as (P' & HB & HBf). cbn [wpt]. apply (IHm cbs P') in H; [|done]. eapply wpt_mono; [done| | |exact H]; [|done].
      intros a cbs' σ' (Hf & cs & -> & Hcs).
      assert (∃ P0 : B → Prop, blames (f a) P0 ∧ ∀ b, P b → P' a ∨ P0 b) as (P0 & H0 & H1).
      { destruct (HBf a) as [Ha|Ha]; [|exists P; split; [done|]; tauto]. exists (λ _, False). split; [apply bl_none|by left]. }
      apply (IHf a (cbs ++ cs) P0) in Hf; [|done]. eapply wpt_mono; [done| | |exact Hf].
      + intros b cbs2 σ2 (HQ & cs2 & -> & Hcs2). split; [done|]. exists (cs ++ cs2). rewrite app_assoc. split; [done|].
        intros [HP|HP]%H1; apply elem_of_app; auto.
      + intros e cbs2 σ2 (HQ & cs2 & -> & He). split; [done|]. exists (cs ++ cs2). rewrite app_assoc. split; [done|].
        intros ->. apply elem_of_app. right. by apply He.
    - destruct HB as (HB & HBh). cbn [wpt]. apply (IHm cbs P) in H; [|done]. eapply wpt_mono; [done| | |exact H]; [done|].
      intros e cbs' σ' (Hf & cs & -> & Hcs).
      assert (∃ P0 : A → Prop, blames (h e) P0 ∧ ∀ b, P b → e = EIO ∨ P0 b) as (P0 & H0 & H1).
      { destruct (HBh e) as [Ha|Ha]; [|exists P; split; [done|]; tauto]. exists (λ _, False). split; [apply bl_none|by left]. }
      apply (IHh e (cbs ++ cs) P0) in Hf; [|done]. eapply wpt_mono; [done| | |exact Hf].
      + intros b cbs2 σ2 (HQ & cs2 & -> & Hcs2). split; [done|]. exists (cs ++ cs2). rewrite app_assoc. split; [done|].
        intros [HP|HP]%H1; apply elem_of_app; auto.
      + intros e2 cbs2 σ2 (HQ & cs2 & -> & He). split; [done|]. exists (cs ++ cs2). rewrite app_assoc. split; [done|].
        intros ->. apply elem_of_app. right. by apply He.
  Qed.
  Lemma wpt_ret G io {A} (a : A) cbs (Q : post A) E σ : Q a cbs σ → wpt G io (ret a) cbs Q E σ.
  Proof.
    intros H σf s Hd _ Hv HI. cbn. split; [by split_and!|]. exists σ. split_and!; try done.
    unfold made. by rewrite Nat.sub_diag app_nil_r.
  Qed.

  Lemma wpt_bind G io {A B} (m : M A) (f : A → M B) cbs (Q : post B) E σ :
    wpt G io (bind m f) cbs Q E σ = wpt G io m cbs (λ a cbs σ, wpt G io (f a) cbs Q E σ) E σ.
  Proof. done. Qed.
  Lemma wpt_try G io {A} (m : M A) (h : err → M A) cbs (Q : post A) E σ :
    wpt G io (Try m h) cbs Q E σ = wpt G io m cbs Q (λ e cbs σ, wpt G io (h e) cbs Q E σ) σ.
  Proof. done. Qed.

  Lemma wpt_fuel G io {A} (f : nat → M A) cbs (Q : post A) E σ :
    (∀ fuel, wpt G io (f fuel) cbs Q E σ) → wpt G io (with_fuel f) cbs Q E σ.
  Proof.
    intros H σf s Hd _ Hv HI. cbn. split; [by split_and!|]. exists σ. split_and!; try done.
    unfold made. rewrite Nat.sub_diag app_nil_r. apply H.
  Qed.

  (** one step *)
  Lemma wpt_sstep G io {A} (p : M A) cbs (Q : post A) (E : post err) σ σf s : wpt G io p cbs Q E σ →
    σ ##ₘ σf → G ⊆ σf → views s (σ ∪ σf) → Inv s →
    match sstep p s with
    | SMore p' s' => quiet io s s' ∧ ∃ σ', σ' ##ₘ σf ∧ views s' (σ' ∪ σf) ∧ Inv s' ∧ wpt G io p' (cbs ++ made s s') Q E σ'
    | SRet a s' => quiet io s s' ∧ ∃ σ', σ' ##ₘ σf ∧ views s' (σ' ∪ σf) ∧ Inv s' ∧ Q a (cbs ++ made s s') σ'
    | SErr e s' => quiet io s s' ∧ ∃ σ', σ' ##ₘ σf ∧ views s' (σ' ∪ σf) ∧ Inv s' ∧ E e (cbs ++ made s s') σ'
    | SStop Panic _ | SStop Fuel _ => False
    | SStop Env s' | SStop Crash s' => io = true ∧ keeps σf s'
    end.
  Proof.
    revert cbs Q E σ. induction p as [A f|A B m IHm f IHf|A m IHm h IHh]; intros cbs Q E σ; cbn [wpt sstep].
    - intros H Hd HG Hv HI. specialize (H σf s Hd HG Hv HI). by destruct (f s) as [a s'|e s'|[] s'].
    - intros H Hd HG Hv HI. specialize (IHm _ _ _ _ H Hd HG Hv HI). by destruct (sstep m s) as [p' s'|a s'|e s'|[] s'].
    - intros H Hd HG Hv HI. specialize (IHm _ _ _ _ H Hd HG Hv HI). by destruct (sstep m s) as [p' s'|a s'|e s'|[] s'].
  Qed.
  Definition sst {A} (o : sres (K:=K) (V:=V) A) : st :=
    match o with SMore _ s | SRet _ s | SErr _ s | SStop _ s => s end.
  Lemma locals_sstep X t {A} (p : M A) s : locals X t p →
    local X t s (sst (sstep p s)) ∧ match sstep p s with SMore p' _ => locals X t p' | _ => True end.
  Proof.
    induction p as [A f|A B m IHm f IHf|A m IHm h IHh]; cbn [locals sstep].
    - intros H. specialize (H s). by destruct (f s) as [a s'|e s'|w s'].
    - intros [H1 H2]. destruct (IHm H1) as [HL HP]. destruct (sstep m s) as [p' s'|a s'|e s'|w s']; cbn in *; try done.
    - intros [H1 H2]. destruct (IHm H1) as [HL HP]. destruct (sstep m s) as [p' s'|a s'|e s'|w s']; cbn in *; try done.
  Qed.
End wpt.

(** * The life of a program with threads

    Models no code. *)
From Coq Require Import ssreflect.
From stdpp Require Import prelude functions list gmap.
From iris.proofmode Require Import proofmode.
From Verif Require Import Spec SpecFacts BTree HProp Lru Wp Kv Codec Ghost Order PsTree Rep Load Search Update Plug Insert Borrow Merge Rebal Api Walk Touch Maint Report Open Pres Local Machine Client World Disk Hist Threads Wpt Calls Steady Parts Conc Joint Sched Start Moves Crowd History.
Open Scope Z_scope.

Section lives.
  Context {K V : Type}.
  Variable cb : callbacks K V.
  Variable dom : K → Prop.
  Variable domV : V → Prop.
  Hypothesis WF : wf_cb cb dom domV.
  Notation cmp := (cb_cmp cb).
  Notation hProp := (hProp K V).
  Notation heap := (gmap rkey (rval K V)).
  Notation st := (st K V).
  Notation M := (M K V).
  Notation cmd := (cmd K V).
  Notation result := (result K V).
  Notation family := (family K V).
  Notation world := (world K V).
  Notation live := (live K V).
  Notation thread := (thread K V).
  Notation stored_at := (stored_at cb dom domV).
  Notation snapsat := (snapsat cb dom domV).
  Notation body := (body cb dom domV).
  Notation doneon := (doneon cb dom domV).
  Notation failon := (failon cb dom domV).
  Notation ready := (ready cb dom domV).
  Notation tinv := (tinv cb dom domV).
  Notation thinv := (thinv cb dom domV).
  Notation pok := (pok cb dom domV).
  Notation cinv := (cinv cb dom domV).
  Implicit Types (σ τ : heap) (f : family) (w : world) (s : st) (lv : live) (X : loc → Prop) (P : part → heap) (ths : list thread) (ro : nat → role) (x : thread).
  Notation reach := (reach cb dom domV).
  Notation cafter := (cafter cb).
  Notation cnext := (cnext cb).

  (** ** Every reachable configuration *)
  Lemma cafter_app h1 h2 : cafter (h1 ++ h2) = foldl cnext (cafter h1) h2.
  Proof. apply foldl_app. Qed.
  Lemma calls_right_app w h1 h2 : calls_right cb w (h1 ++ h2) ↔ calls_right cb w h1 ∧ calls_right cb (foldl cnext w h1) h2.
  Proof. revert w. induction h1 as [|l h1 IH]; intros w; cbn; [tauto|]. rewrite IH. tauto. Qed.
  Lemma reach_inv h cf : reach h cf → cinv (cafter h) cf ∧ calls_right cb world0 h.
  Proof using WF.
    induction 1 as [lo hi o n|h cf l cf' _ [IH IH'] Hst Hal].
    - split; [apply booted|done].
    - destruct (cstep_inv cb dom domV WF _ _ _ _ IH Hst Hal) as [H1 H2]. split; [by rewrite cafter_app|].
      apply calls_right_app. split; [done|]. by split.
  Qed.
  Lemma reach_prefix h1 h2 cf : reach (h1 ++ h2) cf → ∃ cf1, reach h1 cf1.
  Proof.
    revert cf. induction h2 as [|l h2 IH] using rev_ind; intros cf H; [rewrite app_nil_r in H; by exists cf|].
    rewrite app_assoc in H. inversion H as [lo hi o n E|h cf0 l0 cf' H1 H2 H3 E]; subst; [by destruct (h1 ++ h2)|].
    apply app_inj_tail in E as [-> ->]. by eapply IH.
  Qed.
  Lemma reach_last h l cf : reach (h ++ [l]) cf → ∃ cf0, reach h cf0 ∧ cstep cb cf0 l cf ∧ allowed dom domV (cafter h) (cf_ths cf0) l.
  Proof.
    inversion 1 as [lo hi o n E|h0 cf0 l0 cf' H1 H2 H3 E]; subst; [by destruct h|]. apply app_inj_tail in E as [-> ->]. eauto.
  Qed.

  (** ** No panic, no endless loop *)
  Lemma run_safe w cf j c t p cbs : cinv w cf → cf_ths cf !! j = Some (Runs c t p cbs) →
    match sstep p (cf_st cf) with
    | SStop Panic _ | SStop Fuel _ => False
    | SStop Env _ | SStop Crash _ => ¬ silent w c
    | _ => True
    end.
  Proof.
    destruct cf as [s ths]. intros (P & ro & HS & HW & HT & HP) Hj. cbn in *. destruct (ro j) as [|i| | |i] eqn:Hr.
    - pose proof (po_th _ _ _ _ _ _ _ HP _ _ Hj) as Hx. by rewrite Hr in Hx.
    - pose proof (po_th _ _ _ _ _ _ _ HP _ _ Hj) as Hx. rewrite Hr in Hx.
      destruct Hx as (HPT & f & Hi & Hc & (σp & σk & io & X & Hσ & Hd & Hio & Hw & Hl & HX) & Hh & Hy & Hpr & Hdr).
      pose proof (part_step P s (PF i) ∅ io p cbs _ _ σp σk X t HS Hσ Hd (map_empty_subseteq _) ltac:(done) Hw Hl (th_low _ _ _ HT _ _ _ _ _ Hj)) as Hps.
      pose proof (is_owned _ _ _ _ _ _ _ _ _ _ _ _ HS HW HP Hi Hc) as Ho.
      destruct (sstep p s) as [| | |[] s']; try done; destruct Hps as [-> _]; intros Hs; apply (Hio eq_refl); by eapply lift_silent.
    - pose proof (quiet_end _ _ _ _ _ _ _ _ _ _ _ _ _ HS HW HT HP Hj (or_introl Hr)) as Hq. by destruct (sstep p s) as [| | |[]].
    - pose proof (quiet_end _ _ _ _ _ _ _ _ _ _ _ _ _ HS HW HT HP Hj (or_intror Hr)) as Hq. by destruct (sstep p s) as [| | |[]].
    - destruct (fetch_step _ _ _ _ _ _ _ _ _ _ _ _ _ _ HS HW HT HP Hj Hr) as [(p2 & -> & H)|(r & -> & _)]; done.
  Qed.
  Theorem right_always h cf : reach h cf → calls_right cb world0 h.
  Proof using WF. by intros [_ H]%reach_inv. Qed.

  (** ** Locks *)
  (** whatever the other threads do to memory meanwhile *)
  Theorem finite (ps : nat → M result) : (∀ n, ∃ s s', sstep (ps n) s = SMore (ps (S n)) s') → False.
  Proof.
    intros H. assert (∀ p, Acc rem p → ∀ n, p = ps n → False) as Hacc; [|by eapply (Hacc _ (rem_wf (ps 0%nat)))].
    induction 1 as [p _ IH]. intros n ->. eapply IH; [|done]. exact (H n).
  Qed.

  (** ** The answers of one tree *)
  Lemma begin_contents w c t m : contents w t = Some m → contents (begin w c) t = Some m.
  Proof.
    intros Hm. assert (∀ (F : family → live → family) t', (∀ f lv, fm_live (F f lv) = fm_live f) → contents (upd w t' F) t = Some m) as HF.
    { intros F t' HF. apply (case_upd w t t' F m m); [|done|done|].
      - intros f lv lv' Hl Hl'. rewrite HF in Hl'. by simplify_eq.
      - intros _ f [tr it x b] Hl Hi Hb. cbn in *. exists x. rewrite HF Hl. by subst. }
    destruct c; try done; by apply HF.
  Qed.
  Lemma step_lawful w cf l cf' e : cinv w cf → cstep cb cf l cf' → event_of l = Some e → lawful w e.
  Proof.
    intros (P & ro & HS & HW & HT & HP) Hst He. destruct Hst as [| | | |s ths j c t p cbs r s' Hj Hst| |s ths j c r s' Hj Hsh Hex| |]; try done; injection He as <-; try done.
    - cbn in *. pose proof (po_th _ _ _ _ _ _ _ HP _ _ Hj) as Hx.
      assert (∀ i, ro j = ROwn i → ∃ f, w_fams w !! i = Some f ∧ oncmd c t f) as Ho.
      { intros i Hr. rewrite Hr in Hx. destruct Hx as (_ & f & Hi & Hc & _). eauto. }
      assert (∀ i f lv, w_fams w !! i = Some f → inuse t f lv → usable w t f lv) as Hu.
      { intros i f lv Hi (Hl & Htl & Hb). exists i. split_and!; try done. rewrite -Htl. by eapply wok_live. }
      destruct c as [max a|l a|t' c|t' ap|t' full|t'|t' n|t'|t'|t'|t'|t'|t'|t'|t'|lo hi| |n]; try done; destruct (ro j) as [|i| | |i] eqn:Hr; try done; destruct (Ho i eq_refl) as (f & Hi & Hc).
      + destruct Hc as [Hl Hs]. exists i, f. split; [|done]. by eapply snap_at.
      + destruct Hc as (-> & lv & Hlv). exists f, lv. by eapply Hu.
      + destruct Hc as (-> & lv & Hlv). exists f, lv. by eapply Hu.
    - by destruct c.
  Qed.
  Lemma cnext_event w l e : event_of l = Some e → (∀ c, e ≠ Died c) → cnext w l = next cmp w e.
  Proof. destruct l; cbn; intros [= <-] H; try done. by destruct (H c). Qed.
  Lemma cright_event w l e : event_of l = Some e → cright cb w l → right cmp w e.
  Proof. destruct l; cbn; intros [= <-]; done. Qed.
  Lemma view_label w cf l cf' t m : cinv w cf → cstep cb cf l cf' → cright cb w l → Forall (spares t) (returns [l]) → contents w t = Some m →
    contents (cnext w l) t = Some (spec_run cmp m (calls_on t (returns [l]))).1 ∧
    answers_on t (returns [l]) = (spec_run cmp m (calls_on t (returns [l]))).2.
  Proof.
    intros HI Hst Hr Hsp Hm. unfold returns in *. cbn [omap list_omap] in *. destruct (event_of l) as [e|] eqn:He; last first.
    { cbn. split; [|done]. destruct l; try done. cbn. by apply begin_contents. }
    inversion Hsp as [|? ? Hs _]; subst. rewrite (cnext_event _ _ _ He); [|by intros c ->].
    eapply view_step0; [by eapply step_lawful|by eapply cright_event|done|done].
  Qed.

  (** ** Stored versions *)
  Lemma version_label w cf l cf' i cap lo m : cinv w cf → cstep cb cf l cf' → cright cb w l →
    (∀ t, drops l = Some t → ¬ handle_of w i t) → has_version w i cap lo m → has_version (cnext w l) i cap lo m.
  Proof.
    intros HI Hst Hr Hd HV. destruct (event_of l) as [e|] eqn:He; last first.
    { destruct l; try done. cbn. destruct c; try done; apply version_not; try done; by apply Hd. }
    assert (cnext w l = next cmp w e ∨ cnext w l = restart w) as [-> | ->]; [|..|by apply version_restart].
    { destruct l; cbn in *; simplify_eq; auto. }
    eapply version_step0; [by eapply step_lawful|by eapply cright_event| |done].
    intros t Ht. apply Hd. destruct l; cbn in *; simplify_eq; done.
  Qed.
  Lemma flush_here w j t ap l cbs i f m : fam_of w t = Some (i, f) → contents w t = Some m →
    has_version (cnext w (LDone j (Flush t ap) (RLoc l) cbs)) i (fm_min f) l m.
  Proof.
    intros Hf (i' & f' & lv & Hf' & Hl & Hb & <-)%contents_Some. rewrite Hf in Hf'. simplify_eq. cbn. unfold upd. rewrite Hf Hl. unfold has_version. cbn.
    rewrite list_lookup_insert. { eexists. split_and!; [done|apply lookup_insert|done]. }
    apply list_find_Some in Hf as (Hi & _). by eapply lookup_lt_Some.
  Qed.
  Theorem fetched h1 h2 cf j t r cbs m l : reach (h1 ++ LDone j (FetchLocation t) r cbs :: h2) cf →
    contents (cafter h1) t = Some m → status (cafter h1) t = Some (Stored l) → r = RLoc l.
  Proof using WF.
    intros [_ HR]%reach_inv (f & lv & Hu & _)%contents_usable (i & f' & lv' & Hf & Hl & Hc)%status_Some.
    apply calls_right_app in HR as [_ [Hr _]]. cbn in Hr. pose proof Hu as (i' & Hf' & Hl' & _). rewrite Hf in Hf'. simplify_eq.
    destruct (Hr _ _ Hu) as (l0 & -> & _ & H). rewrite Hc in H. by subst.
  Qed.
End lives.

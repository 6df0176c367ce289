(** * Threads, and FetchLocation at any time

    Models no code. *)
From Coq Require Import ssreflect.

From Coq Require Import ssreflect.
From stdpp Require Import prelude functions list gmap.
From iris.proofmode Require Import proofmode.
From Verif Require Import Spec SpecFacts BTree HProp Lru Wp Kv Codec Ghost Order PsTree Rep Load Search Update Plug Insert Borrow Merge Rebal Api Walk Touch Maint Report Open Pres Local Machine Client World Disk Hist Threads Wpt Calls Steady Parts Conc Joint Sched Start Moves Crowd History Lives.
Open Scope Z_scope.

Section free.
  Context {K V : Type}.
  Variable cb : callbacks K V.
  Variable dom : K → Prop.
  Variable domV : V → Prop.
  Hypothesis WF : wf_cb cb dom domV.
  Notation cmp := (cb_cmp cb).
  Notation hProp := (hProp K V).
  Notation heap := (gmap rkey (rval K V)).
  Notation st := (st K V).
  Notation M := (M K V).
  Notation cmd := (cmd K V).
  Notation result := (result K V).
  Notation family := (family K V).
  Notation world := (world K V).
  Notation live := (live K V).
  Notation thread := (thread K V).
  Notation stored_at := (stored_at cb dom domV).
  Notation snapsat := (snapsat cb dom domV).
  Notation body := (body cb dom domV).
  Notation doneon := (doneon cb dom domV).
  Notation failon := (failon cb dom domV).
  Notation ready := (ready cb dom domV).
  Notation tinv := (tinv cb dom domV).
  Notation thinv := (thinv cb dom domV).
  Notation pok := (pok cb dom domV).
  Notation cinv := (cinv cb dom domV).
  Implicit Types (σ τ : heap) (f : family) (w : world) (s : st) (lv : live) (X : loc → Prop) (P : part → heap) (ths : list thread) (ro : nat → role) (x : thread).
  Notation free := (free cb dom domV).
  Notation cafter := (cafter cb).
  Notation cnext := (cnext cb).
  Notation config := (config K V).

  (** ** Forgetting FetchLocation *)
  Definition hush x : thread := match x with Waits (FetchLocation _) | Runs (FetchLocation _) _ _ _ => Idle | x => x end.
  Definition hushed (cf : config) : config := Config (cf_st cf) (hush <$> cf_ths cf).
  (** a program that only reads *)
  Fixpoint reads {A} (m : M A) : Prop :=
    match m with
    | Act f => ∀ s, (∃ a, f s = ORet a s) ∨ f s = OStop Panic s
    | Bind m f => reads m ∧ ∀ a, reads (f a)
    | Try m h => reads m
    end.
  Lemma reads_sstep {A} (m : M A) s : reads m → (∃ p, sstep m s = SMore p s ∧ reads p) ∨ (∃ a, sstep m s = SRet a s) ∨ sstep m s = SStop Panic s.
  Proof.
    revert s. induction m as [A f|A B m IHm f IHf|A m IHm h IHh]; intros s H; cbn in *.
    - destruct (H s) as [[a ->]| ->]; eauto.
    - destruct H as [H1 H2]. destruct (IHm s H1) as [(p & -> & Hp)|[[a ->]| ->]]; [left; by eexists|left; eauto|auto].
    - destruct (IHm s H) as [(p & -> & Hp)|[[a ->]| ->]]; [left; eauto|eauto|auto].
  Qed.
  Lemma reads_fetch t : reads (exec cb (FetchLocation t)).
  Proof.
    assert (∀ t', reads (rootOf (K:=K) (V:=V) t')) as Hr.
    { intros t'. cbn. split; [|intros T; by destruct (t_root T); cbn; eauto]. intros s. cbn. unfold getT. destruct (trees s !! t'); cbn; eauto. }
    assert (∀ n, reads (getN (K:=K) (V:=V) n)) as Hn.
    { intros n s. cbn. destruct (nodes s !! n); cbn; eauto. }
    unfold exec, bt_FetchLocation, bind, ret. repeat first [split|intros ?|apply Hr|apply Hn|cbn; eauto].
  Qed.
  Definition readers (ths : list thread) : Prop := ∀ j t t' p cbs, ths !! j = Some (Runs (FetchLocation t) t' p cbs) → reads p.
  Lemma hush_other x : match x with Waits c | Runs c _ _ _ => fetch_call c = false | Idle => True end → hush x = x.
  Proof. destruct x as [|[]|[]]; cbn; solve [done|tauto|by intros [=]|by intros [= -> _ _ _]]. Qed.
  Lemma hush_holds t x : holds_lock t (hush x) → holds_lock t x.
  Proof. destruct x as [|[]|[]]; cbn; solve [done|tauto|by intros [=]|by intros [= -> _ _ _]]. Qed.
  Lemma hush_on t x : on t (hush x) → on t x.
  Proof. destruct x as [|[]|[]]; cbn; solve [done|tauto|by intros [=]|by intros [= -> _ _ _]]. Qed.
  Lemma hush_runs x c t p cbs : hush x = Runs c t p cbs → x = Runs c t p cbs.
  Proof. destruct x as [|[]|[]]; cbn; solve [done|tauto|by intros [=]|by intros [= -> _ _ _]]. Qed.
  Lemma hush_fetches t x : ¬ fetches t (hush x).
  Proof. destruct x as [|[]|[]]; cbn; solve [done|tauto|by intros [=]|by intros [= -> _ _ _]]. Qed.
  Lemma hush_lookup ths j x : (hush <$> ths) !! j = Some x → ∃ y, ths !! j = Some y ∧ x = hush y.
  Proof. intros (y & -> & H)%list_lookup_fmap_inv. eauto. Qed.
  Lemma hush_locked ths t : locked (hush <$> ths) t → locked ths t.
  Proof. intros (j & x & (y & Hy & ->)%hush_lookup & H). exists j, y. split; [done|]. by apply hush_holds. Qed.
  Lemma hush_same ths j x y : ths !! j = Some x → hush y = hush x → hush <$> (<[j := y]> ths) = hush <$> ths.
  Proof. intros Hj E. rewrite list_fmap_insert E. apply list_insert_id. by rewrite list_lookup_fmap Hj. Qed.
  Lemma hush_idle n : hush <$> replicate n Idle = replicate n (Idle : thread).
  Proof. by rewrite fmap_replicate. Qed.
  Lemma readers_insert ths j x : readers ths → (∀ t t' p cbs, x = Runs (FetchLocation t) t' p cbs → reads p) → readers (<[j := x]> ths).
  Proof. intros H Hx k t t' p cbs [(-> & E & _)|[_ Hk]]%list_lookup_insert_Some; [by eapply Hx|by eapply H]. Qed.
  Lemma readers_idle n : readers (replicate n Idle).
  Proof. intros k t t' p cbs [E _]%lookup_replicate. done. Qed.

  Definition fetching (ths : list thread) (l : label K V) : Prop :=
    match l with
    | LCall _ c | LStart _ c | LDone _ c _ _ => fetch_call c = true
    | LStep j => ∃ t t' p cbs, ths !! j = Some (Runs (FetchLocation t) t' p cbs)
    | LFailed _ _ _ _ | LDied _ _ | LKilled => False
    end.
  Lemma hush_step w cf l cf' : cstep cb cf l cf' → allowed_free dom domV w (cf_ths cf) l → readers (cf_ths cf) →
    readers (cf_ths cf') ∧
    ((fetching (cf_ths cf) l ∧ hushed cf' = hushed cf) ∨
     (¬ fetching (cf_ths cf) l ∧ cstep cb (hushed cf) l (hushed cf') ∧ Threads.allowed dom domV w (hush <$> cf_ths cf) l)).
  Proof.
    intros Hst Hal HR. assert (∀ ths j x, ths !! j = Some x → match x with Waits c | Runs c _ _ _ => fetch_call c = false | Idle => True end →
      (hush <$> ths) !! j = Some x) as HL.
    { intros ths j x Hj Hx. by rewrite list_lookup_fmap Hj /= hush_other. }
    destruct Hst as [s ths j c Hj|s ths j c t Hj Ht Hlk|s ths j c p s' Hj Hm Hp|s ths j c t p cbs p' s' Hj Hp|s ths j c t p cbs r s' Hj Hp|s ths j c t p cbs e s' Hj Hp|s ths j c r s' Hj Hsh Hex|s ths j c t p cbs s' lo hi n Hj Hp|s ths lo hi n]; cbn [cf_ths cf_st] in *; unfold hushed; cbn [cf_ths cf_st].
    - split; [by apply readers_insert|]. destruct (fetch_call c) eqn:Hc.
      + left. split; [done|]. by erewrite hush_same; [|exact Hj|destruct c].
      + right. split; [by rewrite /= Hc|]. rewrite list_fmap_insert hush_other //. split; [|done]. constructor. by apply HL.
    - destruct (fetch_call c) eqn:Hc.
      + destruct c; try done. injection Ht as <-. split; [apply readers_insert; [done|]; intros ? ? ? ? [= <- <- <- <-]; apply reads_fetch|].
        left. split; [done|]. by erewrite hush_same; [|exact Hj|].
      + split; [apply readers_insert; [done|]; by intros ? ? ? ? [= -> _ _ _]|]. right. split; [by rewrite /= Hc|]. rewrite list_fmap_insert hush_other //. split.
        * apply c_start; [by apply HL|done|]. intros H1 H2%hush_locked. by apply Hlk.
        * destruct Hal as [H1 H2]. split; [done|]. destruct c; try done; intros k x (y & Hy & ->)%hush_lookup; try apply hush_fetches.
    - assert (fetch_call c = false) as Hc by by destruct c. split; [apply readers_insert; [done|]; by intros ? ? ? ? [= -> _ _ _]|].
      right. split; [by rewrite /= Hc|]. rewrite list_fmap_insert hush_other //. split; [apply c_make; [by apply HL|done|done]|].
      destruct Hal as [H1 H2]. split; [done|]. destruct c; try done. intros k lo a' t p0 cbs (y & Hy & Ey)%hush_lookup. symmetry in Ey. apply hush_runs in Ey as ->.
      by eapply H2.
    - destruct (fetch_call c) eqn:Hc.
      + destruct c; try done. pose proof (HR _ _ _ _ _ Hj) as Hr. destruct (reads_sstep _ s Hr) as [(p2 & E & Hp2)|[[a E]|E]]; rewrite E in Hp; simplify_eq.
        split; [apply readers_insert; [done|]; by intros ? ? ? ? [= <- <- <- <-]|]. left. split; [by eexists _, _, _, _|].
        by erewrite hush_same; [|exact Hj|].
      + split; [apply readers_insert; [done|]; by intros ? ? ? ? [= -> _ _ _]|]. right. split; [intros (? & ? & ? & ? & E); rewrite Hj in E; by simplify_eq|].
        rewrite list_fmap_insert hush_other //. split; [|done]. apply c_step with (p := p); [by apply HL|done].
    - split; [apply readers_insert; done|]. destruct (fetch_call c) eqn:Hc.
      + destruct c; try done. pose proof (HR _ _ _ _ _ Hj) as Hr. destruct (reads_sstep _ s Hr) as [(p2 & E & Hp2)|[[a E]|E]]; rewrite E in Hp; simplify_eq.
        left. split; [done|]. by erewrite hush_same; [|exact Hj|].
      + right. split; [by rewrite /= Hc|]. rewrite list_fmap_insert. split; [apply c_done with (t := t) (p := p); [by apply HL|done]|].
        destruct c; try done. destruct Hal as [H1 H2]. split; [done|]. intros k x (y & Hy & ->)%hush_lookup Hx%hush_on. by eapply H2.
    - split; [apply readers_insert; done|]. right. split; [by intros []|]. rewrite list_fmap_insert. split; [|done]. destruct (fetch_call c) eqn:Hc.
      + destruct c; try done. pose proof (HR _ _ _ _ _ Hj) as Hr. destruct (reads_sstep _ s Hr) as [(p2 & E & Hp2)|[[a E]|E]]; rewrite E in Hp; simplify_eq.
      + apply c_failed with (t := t) (p := p); [by apply HL|done].
    - assert (fetch_call c = false) as Hc by by destruct c. split; [apply readers_insert; done|]. right. split; [by rewrite /= Hc|]. rewrite list_fmap_insert. split; [apply c_short; [by apply HL|done|done]|].
      destruct c; try done. destruct Hal as [H1 H2]. split; [done|]. intros k x (y & Hy & ->)%hush_lookup Hx%hush_on. by eapply H2.
    - split; [apply readers_idle|]. right. split; [by intros []|]. rewrite hush_idle. split; [|done]. destruct (fetch_call c) eqn:Hc.
      + destruct c; try done. pose proof (HR _ _ _ _ _ Hj) as Hr. destruct (reads_sstep _ s Hr) as [(p2 & E & Hp2)|[[a E]|E]]; rewrite E in Hp; simplify_eq.
      + eapply c_died; [by apply HL|done].
    - split; [apply readers_idle|]. right. split; [by intros []|]. rewrite hush_idle. split; [constructor|done].
  Qed.
  Lemma cnext_fetching w ths l : fetching ths l → cnext w l = w.
  Proof. destruct l as [| | |j c r cbs| | |]; try done; cbn; by destruct c. Qed.
  Lemma free_inv h cf : free h cf → cinv (cafter h) (hushed cf) ∧ readers (cf_ths cf) ∧ all_right cb world0 h.
  Proof using WF.
    assert (∀ h1 h2 w, all_right cb w (h1 ++ h2) ↔ all_right cb w h1 ∧ all_right cb (foldl cnext w h1) h2) as Happ.
    { induction h1 as [|l h1 IH]; intros h2 w; cbn; [tauto|]. rewrite IH. tauto. }
    induction 1 as [lo hi o n|h cf l cf' _ (IH & IHr & IH') Hst Hal].
    - split_and!; [unfold hushed; cbn [cf_ths cf_st]; rewrite hush_idle; apply booted|apply readers_idle|done].
    - destruct (hush_step _ _ _ _ Hst Hal IHr) as [Hrd [[Hf E]|(Hf & Hst' & Hal')]].
      + assert (cafter (h ++ [l]) = cafter h) as E' by (unfold cafter; rewrite foldl_app; by eapply cnext_fetching).
        rewrite E' E. split_and!; [done|done|]. apply Happ. split; [done|]. split; [|done]. destruct l; try done. cbn in *. by destruct c.
      + destruct (cstep_inv cb dom domV WF _ _ _ _ IH Hst' Hal') as [H1 H2]. split_and!; [|done|].
        * unfold cafter. by rewrite foldl_app.
        * apply Happ. split; [done|]. split; [|done]. unfold right_free. destruct l; try done. by destruct c.
  Qed.

  Lemma cafter_snoc h l : cafter (h ++ [l]) = cnext (cafter h) l.
  Proof. unfold cafter. by rewrite foldl_app. Qed.
  Lemma free_last h l cf : free (h ++ [l]) cf → ∃ cf0, free h cf0 ∧ cstep cb cf0 l cf ∧ allowed_free dom domV (cafter h) (cf_ths cf0) l.
  Proof.
    inversion 1 as [lo hi o n E|h0 cf0 l0 cf' H1 H2 H3 E]; subst; [by destruct h|]. apply app_inj_tail in E as [-> ->]. eauto.
  Qed.
  Lemma free_prefix h1 h2 cf : free (h1 ++ h2) cf → ∃ cf1, free h1 cf1.
  Proof.
    revert cf. induction h2 as [|l h2 IH] using rev_ind; intros cf H; [rewrite app_nil_r in H; by exists cf|].
    rewrite app_assoc in H. apply free_last in H as (cf0 & H & _). by eapply IH.
  Qed.
  (** one more label: it is about a FetchLocation, or a move of the program without FetchLocation *)
  Lemma free_label h l cf : free (h ++ [l]) cf → ∃ cf0, cinv (cafter h) (hushed cf0) ∧
    ((fetching (cf_ths cf0) l ∧ cnext (cafter h) l = cafter h) ∨ (cstep cb (hushed cf0) l (hushed cf) ∧ cright cb (cafter h) l)).
  Proof using WF.
    intros (cf0 & H & Hst & Hal)%free_last. apply free_inv in H as (HI & Hr & _). exists cf0. split; [done|].
    destruct (hush_step _ _ _ _ Hst Hal Hr) as [_ [[Hf E]|(Hf & Hst' & Hal')]]; [left; split; [done|by eapply cnext_fetching]|right].
    split; [done|]. by apply (cstep_inv cb dom domV WF _ _ _ _ HI Hst' Hal').
  Qed.

  Theorem free_safe h cf j c t p cbs : free h cf → cf_ths cf !! j = Some (Runs c t p cbs) → fetch_call c = false →
    match sstep p (cf_st cf) with
    | SStop Panic _ | SStop Fuel _ => False
    | SStop Env _ | SStop Crash _ => ¬ silent (cafter h) c
    | _ => True
    end.
  Proof using WF.
    intros (HI & _ & _)%free_inv Hj Hc. apply (run_safe cb dom domV _ _ j c t p cbs HI). unfold hushed; cbn [cf_ths]. rewrite list_lookup_fmap Hj. by destruct c.
  Qed.
  Theorem free_right h cf : free h cf → all_right cb world0 h.
  Proof using WF. by intros (_ & _ & H)%free_inv. Qed.
  Theorem free_exclusive h cf j k c c' t p p' cbs cbs' : free h cf →
    cf_ths cf !! j = Some (Runs c t p cbs) → cf_ths cf !! k = Some (Runs c' t p' cbs') → locks c = true → locks c' = true → j = k.
  Proof using WF.
    intros ((P & ro & HS & HW & HT & HP) & _ & _)%free_inv Hj Hk Hc Hc'.
    assert (∀ j c t p cbs, cf_ths cf !! j = Some (Runs c t p cbs) → locks c = true → (hush <$> cf_ths cf) !! j = Some (Runs c t p cbs)) as HL.
    { intros ? c0 ? ? ? H H'. rewrite list_lookup_fmap H. by destruct c0. }
    eapply (th_lock _ _ _ HT); [by apply HL|by apply HL|done|done].
  Qed.
  Lemma free_runs h cf j c t p cbs : free h cf → cf_ths cf !! j = Some (Runs c t p cbs) → fetch_call c = false → can_move cb cf j.
  Proof using WF.
    intros H Hj Hc. pose proof (free_safe _ _ _ _ _ _ _ H Hj Hc) as Hs. destruct cf as [s ths]. cbn in *.
    destruct (sstep p s) as [p' s'|a s'|e s'|[] s'] eqn:E; try done.
    - left. eexists _, _. split; [by eapply c_step|done].
    - left. eexists _, _. split; [by eapply c_done|done].
    - left. eexists _, _. split; [by eapply c_failed|done].
    - right. by eexists _, _, _, _, _.
    - left. eexists _, _. split; [by eapply (c_died cb s ths j c t p cbs s' 0 0 0%nat)|done].
  Qed.
  Local Instance free_lock_dec t x : Decision (holds_lock t x).
  Proof. destruct x; cbn; apply _. Defined.
  Theorem free_no_deadlock h cf j x : free h cf → cf_ths cf !! j = Some x → x ≠ Idle → ¬ fetcher x → (∀ c, x = Waits c → legal dom domV (cafter h) c) →
    can_move cb cf j ∨
    ∃ c t k y, x = Waits c ∧ tree_of (cf_st cf) c = Some t ∧ cf_ths cf !! k = Some y ∧ holds_lock t y ∧ can_move cb cf k.
  Proof using WF.
    intros H Hj Hx Hfx Hlg. destruct x as [|c|c t p cbs]; [done| |left; eapply free_runs; [done|done|by destruct c]]. specialize (Hlg c eq_refl).
    pose proof H as ((P & ro & HS & HW & HT & HP) & _ & _)%free_inv. destruct cf as [s ths]. cbn in *.
    destruct (short c) eqn:Hsh.
    { left; left. assert (∃ r s', exec cb c s = ORet r s') as (r & s' & E); [|eexists _, _; split; [by eapply c_short|done]].
      destruct c; try done; cbn; try by eexists _, _. unfold drainerSelect, atomic, getCache, bind; cbn [run].
      destruct (_ || _); [by eexists _, _|]. destruct (qhead _); by eexists _, _. }
    destruct (makes c) eqn:Hm.
    { left; left. assert (∃ p s', sstep (exec cb c) s = SMore p s') as (p & s' & E); [|eexists _, _; split; [by eapply c_make|done]].
      destruct c; try done; [by apply makes_more; destruct Hlg|]. cbn. by eexists _, _. }
    assert (∃ t, tree_of s c = Some t) as [t Ht].
    { destruct c; try done; try by eexists. destruct Hlg as [Hn _]. apply (wk_chosen _ _ HW), elem_of_dom in Hn as [r Hr].
      exists (b_tree r). cbn. by rewrite Hr. }
    destruct (decide (Exists (holds_lock t) ths)) as [He|He].
    - apply Exists_exists in He as (y & Hy & Hlk). apply elem_of_list_lookup in Hy as [k Hk]. right. exists c, t, k, y. split_and!; try done.
      destruct y as [| |c' t' p' cbs']; try done. eapply free_runs; [done|done|]. destruct Hlk as [_ Hl]. by destruct c'.
    - left; left. eexists _, _. split; [apply (c_start _ s ths j c t); [done|done|]|done]. intros _ (k & y & Hk & Hy). apply He, Exists_exists.
      exists y. split; [by eapply elem_of_list_lookup_2|done].
  Qed.

  (** ** Calls take effect between their beginning and their end *)
  Lemma free_since h cf j x c : free h cf → cf_ths cf !! j = Some x → (x = Waits c ∨ ∃ t p cbs, x = Runs c t p cbs) →
    ∃ h0 h1, h = h0 ++ LCall j c :: h1 ∧ Forall (λ l, ¬ edge j l) h1.
  Proof.
    intros H. revert j x c. induction H as [lo hi o n|h cf l cf' _ IH Hst _]; intros j x c Hj Hx.
    { cbn in Hj. apply lookup_replicate in Hj as [-> _]. destruct Hx as [[=]|(? & ? & ? & [=])]. }
    assert (∀ x', cf_ths cf !! j = Some x' → (x' = Waits c ∨ ∃ t p cbs, x' = Runs c t p cbs) → ¬ edge j l →
      ∃ h0 h1, h ++ [l] = h0 ++ LCall j c :: h1 ∧ Forall (λ l, ¬ edge j l) h1) as Hs.
    { intros x' H1 H2 H3. destruct (IH _ _ _ H1 H2) as (h0 & h1 & -> & Hf). exists h0, (h1 ++ [l]). split; [by rewrite -app_assoc|].
      apply Forall_app. split; [done|]. by apply Forall_singleton. }
    destruct Hst; cbn [cf_ths cf_st] in *;
      try (apply lookup_replicate in Hj as [-> _]; destruct Hx as [[=]|(? & ? & ? & [=])]);
      apply list_lookup_insert_Some in Hj as [(-> & <- & _)|[Hne Hj]];
      try (by eapply Hs; [exact Hj|exact Hx|cbn; congruence]);
      try (by destruct Hx as [[=]|(? & ? & ? & [=])]).
    - destruct Hx as [[= ->]|(? & ? & ? & [=])]. by exists h, [].
    - destruct Hx as [[=]|(? & ? & ? & [= -> _ _ _])]. eapply Hs; [done|by left|cbn; tauto].
    - destruct Hx as [[=]|(? & ? & ? & [= -> _ _ _])]. eapply Hs; [done|by left|cbn; tauto].
    - destruct Hx as [[=]|(? & ? & ? & [= -> _ _ _])]. eapply Hs; [done|right; by eexists _, _, _|cbn; tauto].
  Qed.
  Theorem free_inside h1 h2 l cf j c : free (h1 ++ l :: h2) cf →
    ((∃ r cbs, l = LDone j c r cbs) ∨ (∃ e cbs, l = LFailed j c e cbs)) →
    ∃ h0 h0', h1 = h0 ++ LCall j c :: h0' ∧ Forall (λ l, ¬ edge j l) h0'.
  Proof.
    intros H Hl. rewrite cons_middle app_assoc in H. apply free_prefix in H as [cf1 H]. apply free_last in H as (cf0 & H0 & Hst & _).
    destruct Hl as [(r & cbs & ->)|(e & cbs & ->)]; inversion Hst; subst.
    - eapply free_since; [exact H0|done|right; by eexists _, _, _].
    - eapply free_since; [exact H0|done|by left].
    - eapply free_since; [exact H0|done|right; by eexists _, _, _].
  Qed.

  (** ** The answers of one tree *)
  Theorem free_answers h1 h2 cf t m : free (h1 ++ h2) cf → contents (cafter h1) t = Some m → Forall (spares t) (returns h2) →
    answers_on t (returns h2) = (spec_run cmp m (calls_on t (returns h2))).2 ∧
    contents (cafter (h1 ++ h2)) t = Some (spec_run cmp m (calls_on t (returns h2))).1.
  Proof using WF.
    revert cf. induction h2 as [|l h2 IH] using rev_ind; intros cf H Hm Hsp; [by rewrite app_nil_r|].
    rewrite app_assoc in H. pose proof (free_label _ _ _ H) as (cf0 & HI & Hl). apply free_prefix in H as [cf1 H].
    unfold returns in Hsp. rewrite omap_app in Hsp. apply Forall_app in Hsp as [Hsp1 Hsp2].
    destruct (IH _ H Hm Hsp1) as [IH1 IH2].
    assert (contents (cnext (cafter (h1 ++ h2)) l) t = Some (spec_run cmp (spec_run cmp m (calls_on t (returns h2))).1 (calls_on t (returns [l]))).1 ∧
      answers_on t (returns [l]) = (spec_run cmp (spec_run cmp m (calls_on t (returns h2))).1 (calls_on t (returns [l]))).2) as [H1 H2].
    { destruct Hl as [[Hf Hn]|[Hst Hr]]; [|by eapply view_label]. rewrite Hn.
      assert (calls_on t (returns [l]) = [] ∧ answers_on t (returns [l]) = []) as [-> ->]; [|by rewrite IH2].
      destruct l as [| | |j c r cbs| | |]; try done. by destruct c. }
    rewrite (app_assoc h1) cafter_snoc. unfold returns, calls_on, answers_on in *. rewrite !omap_app spec_run_app.
    destruct (spec_run cmp m (omap (call_of t) (omap event_of h2))) as [m1 a1]. cbn in IH1, IH2, H1, H2 |- *.
    destruct (spec_run cmp m1 (omap (call_of t) _)) as [m2 a2]. cbn in *. split; [|done]. rewrite IH1 H2 //.
  Qed.
  Lemma all_right_app w h1 h2 : all_right cb w (h1 ++ h2) ↔ all_right cb w h1 ∧ all_right cb (foldl cnext w h1) h2.
  Proof. revert w. induction h1 as [|l h1 IH]; intros w; cbn; [tauto|]. rewrite IH. tauto. Qed.
  Theorem free_new h1 h2 cf j t max b cbs : free (h1 ++ LDone j (NewTree max b) (RTree t) cbs :: h2) cf → Forall (spares t) (returns h2) →
    answers_on t (returns h2) = (spec_run cmp [] (calls_on t (returns h2))).2.
  Proof using WF.
    intros H Hs. pose proof H as HR%free_right. apply all_right_app in HR as [_ [(t' & [= <-] & Hn & _) _]].
    rewrite cons_middle app_assoc in H. refine (proj1 (free_answers _ _ _ _ _ H _ Hs)).
    rewrite cafter_snoc. exact (new_contents cb (cafter h1) max b t cbs Hn).
  Qed.

  (** ** Stored versions *)
  Lemma free_versions h1 h2 cf i cap lo m : free (h1 ++ h2) cf → keeps_all cb i (cafter h1) h2 → has_version (cafter h1) i cap lo m →
    has_version (cafter (h1 ++ h2)) i cap lo m.
  Proof using WF.
    revert h1. induction h2 as [|l h2 IH]; intros h1 H Hk HV; [by rewrite app_nil_r|]. destruct Hk as [Hd Hk].
    rewrite cons_middle app_assoc in H |- *. apply IH; rewrite ?cafter_snoc; try done. apply free_prefix in H as [cf1 H].
    apply free_label in H as (cf0 & HI & [[_ ->]|[Hst Hr]]); [done|]. by eapply version_label.
  Qed.
  Lemma free_here h cf i cap l m : free h cf → has_version (cafter h) i cap l m →
    ∃ f, fam_at (cafter h) l = Some (i, f) ∧ w_fams (cafter h) !! i = Some f ∧ fm_snaps f !! l = Some m ∧ fm_min f = cap.
  Proof using WF.
    intros ((P & ro & HS & HW & HT & HP) & _ & _)%free_inv (f & Hi & Hm & Hc). exists f. split_and!; try done. eapply snap_at; [done..|by eexists].
  Qed.
  Lemma free_version h1 h2 cf j t ap l cbs i f m : free (h1 ++ LDone j (Flush t ap) (RLoc l) cbs :: h2) cf →
    fam_of (cafter h1) t = Some (i, f) → contents (cafter h1) t = Some m →
    keeps_all cb i (cafter (h1 ++ [LDone j (Flush t ap) (RLoc l) cbs])) h2 →
    ∃ f', fam_at (cafter (h1 ++ LDone j (Flush t ap) (RLoc l) cbs :: h2)) l = Some (i, f') ∧ fm_min f' = fm_min f ∧ fm_snaps f' !! l = Some m.
  Proof using WF.
    intros H Hf Hm Hk. pose proof H as H'. rewrite cons_middle app_assoc in H' |- *.
    assert (has_version (cafter (h1 ++ [LDone j (Flush t ap) (RLoc l) cbs])) i (fm_min f) l m) as HV.
    { rewrite cafter_snoc. by apply flush_here. }
    pose proof (free_versions _ _ _ _ _ _ _ H' Hk HV) as HV'. destruct (free_here _ _ _ _ _ _ H' HV') as (f' & ? & ? & ? & ?). by exists f'.
  Qed.
  Theorem free_kept h1 h2 h3 cf j k t ap l cbs i m t' b cbs' :
    free (h1 ++ LDone j (Flush t ap) (RLoc l) cbs :: h2 ++ LDone k (OldTree l b) (RTree t') cbs' :: h3) cf →
    handle_of (cafter h1) i t → contents (cafter h1) t = Some m →
    keeps_all cb i (cafter (h1 ++ [LDone j (Flush t ap) (RLoc l) cbs])) h2 →
    let h := h1 ++ LDone j (Flush t ap) (RLoc l) cbs :: h2 ++ [LDone k (OldTree l b) (RTree t') cbs'] in
    contents (cafter h) t' = Some m ∧ capacity (cafter h) t' = capacity (cafter h1) t ∧ handle_of (cafter h) i t' ∧
    (Forall (spares t') (returns h3) → answers_on t' (returns h3) = (spec_run cmp m (calls_on t' (returns h3))).2).
  Proof using WF.
    intros H Hi Hm Hk h. unfold handle_of in Hi. destruct (fam_of (cafter h1) t) as [[i' f]|] eqn:Hf; [|done]. cbn in Hi. simplify_eq.
    set (hh := h1 ++ LDone j (Flush t ap) (RLoc l) cbs :: h2).
    assert (h1 ++ LDone j (Flush t ap) (RLoc l) cbs :: h2 ++ LDone k (OldTree l b) (RTree t') cbs' :: h3 = hh ++ LDone k (OldTree l b) (RTree t') cbs' :: h3) as E1.
    { unfold hh. by rewrite -app_assoc. }
    assert (h = hh ++ [LDone k (OldTree l b) (RTree t') cbs']) as E2. { unfold h, hh. by rewrite -app_assoc. }
    rewrite E1 in H. destruct (free_prefix _ _ _ H) as [cf1 H1].
    destruct (free_version _ _ _ _ _ _ _ _ _ _ _ H1 Hf Hm Hk) as (f' & Ha & Hc & Hl).
    pose proof H as HR%free_right. apply all_right_app in HR as [_ [(t1 & [= <-] & Hn) _]]. fold hh in Ha.
    pose proof (old_handle_at cb _ l b t' cbs' _ _ Hn Ha) as Ho. pose proof (old_contents cb _ l b t' cbs' _ _ _ Hn Ha Hl) as Hcn.
    assert (cafter h = next cmp (cafter hh) (Done (OldTree l b) (RTree t') cbs')) as E3 by by rewrite E2 cafter_snoc.
    rewrite -E3 in Ho Hcn. split_and!.
    - done.
    - unfold capacity. rewrite Ho Hf. cbn. by rewrite Hc.
    - unfold handle_of. by rewrite Ho.
    - intros Hs. rewrite cons_middle app_assoc -E2 in H. by refine (proj1 (free_answers _ _ _ _ _ H _ Hs)).
  Qed.
  Theorem free_opens h1 h2 cf j t ap l cbs i m b :
    free (h1 ++ LDone j (Flush t ap) (RLoc l) cbs :: h2) cf →
    handle_of (cafter h1) i t → contents (cafter h1) t = Some m →
    keeps_all cb i (cafter (h1 ++ [LDone j (Flush t ap) (RLoc l) cbs])) h2 →
    let h := h1 ++ LDone j (Flush t ap) (RLoc l) cbs :: h2 in
    closed (cafter h) i → legal dom domV (cafter h) (OldTree l b).
  Proof using WF.
    intros H Hi Hm Hk h Hcl. unfold handle_of in Hi. destruct (fam_of (cafter h1) t) as [[i' f]|] eqn:Hf; [|done]. cbn in Hi. simplify_eq.
    destruct (free_version _ _ _ _ _ _ _ _ _ _ _ H Hf Hm Hk) as (f' & Ha & Hc & Hl). exists i, f'. split; [done|].
    apply list_find_Some in Ha as (Hfi & _). unfold closed in Hcl. unfold h in Hcl. rewrite Hfi in Hcl. cbn in Hcl. congruence.
  Qed.
  Theorem free_open_fails h1 h2 cf j l b e cbs : free (h1 ++ LFailed j (OldTree l b) e cbs :: h2) cf → e = EIO ∧ true ∈ cbs.
  Proof using WF. intros HR%free_right. apply all_right_app in HR as [_ [Hr _]]. by destruct Hr as (-> & Hc & _). Qed.
End free.

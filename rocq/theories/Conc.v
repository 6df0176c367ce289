(** * The invariant of a program with threads

    What holds between any two steps: which thread works on which tree, and
    what is left to do there.  No new code is modelled here. *)
From Coq Require Import ssreflect.
From stdpp Require Import prelude functions list gmap.
From iris.proofmode Require Import proofmode.
From Verif Require Import Spec SpecFacts BTree HProp Lru Wp Kv Codec Ghost Order PsTree Rep Load Search Update Plug Insert Borrow Merge Rebal Api Walk Touch Maint Report Open Pres Local Machine Client World Disk Hist Threads Wpt Calls Steady Parts.
Open Scope Z_scope.

(** what a thread is doing: nothing, a call on family [i], making a new tree,
    a drainer round on a node no tree has any more, FetchLocation on family [i] *)
Inductive role := RNone | ROwn (i : nat) | RMake | RSkip | RFetch (i : nat).
Global Instance role_dec : EqDecision role.
Proof. solve_decision. Defined.

Section conc.
  Context {K V : Type}.
  Variable cb : callbacks K V.
  Variable dom : K → Prop.
  Variable domV : V → Prop.
  Hypothesis WF : wf_cb cb dom domV.
  Notation cmp := (cb_cmp cb).
  Notation hProp := (hProp K V).
  Notation heap := (gmap rkey (rval K V)).
  Notation st := (st K V).
  Notation M := (M K V).
  Notation cmd := (cmd K V).
  Notation result := (result K V).
  Notation family := (family K V).
  Notation world := (world K V).
  Notation live := (live K V).
  Notation thread := (thread K V).
  Notation treeok := (treeok cb dom domV).
  Notation treeres := (treeres cb dom domV).
  Notation stored_at := (stored_at cb dom domV).
  Notation snapsat := (snapsat cb dom domV).
  Notation body := (body cb dom domV).
  Notation whole := (whole cb dom).
  Notation donepost := (donepost cb dom domV).
  Notation failpost := (failpost cb dom domV).
  Notation doneon := (doneon cb dom domV).
  Notation failon := (failon cb dom domV).
  Implicit Types (σ τ : heap) (f : family) (w : world) (s : st) (lv : live) (X : loc → Prop) (P : part → heap) (ths : list thread) (ro : nat → role).

  (** ** The location of the root *)
  Definition condloc (x : cond) (l : loc) : Prop :=
    match x with Stored l' => l = l' | Modified => l = noloc | Unsure => True end.
  Definition atloc σ (t : tid) (rt : nid) (l : loc) : Prop :=
    ∃ T r, σ !! KR t = Some (RR T) ∧ t_root T = Some rt ∧ σ !! KN rt = Some (RN r) ∧ b_loc r = l.
  Lemma body_atloc t f lv σ : inuse t f lv → body f σ → ∃ rt l, atloc σ t rt l ∧ condloc (lv_cond lv) l.
  Proof.
    intros Hu HB. rewrite (inuse_body cb dom domV _ _ _ Hu) in HB.
    destruct HB as (σt & σj & -> & _ & (ca & root & S & h & g & HX) & _). apply holds_affine in HX as [(Ht & _ & Hc) HX].
    assert ((∃ r, <affine> ⌜b_loc r = default noloc (gloc g)⌝ ∗ (isN root r ∗ (isR t (trec (mnof f) ca root S) ∗ True)))%I σt) as HY.
    { revert HX. apply entails_holds. iIntros "[[HR _] [_ Hr]]". rewrite -(tk_id _ _ _ _ _ _ _ Ht).
      iDestruct (rep_get with "Hr") as (r) "(HN & %Hr & Hr)". iExists r. iFrame "HN HR". iSplitR; [|done]. iPureIntro.
      destruct Hr as (R1 & R2 & R3 & R4 & R5 & R6). destruct (gloc g) as [l|] eqn:Hl.
      - by destruct (R4 l eq_refl) as [_ ->].
      - pose proof (tk_pend _ _ _ _ _ _ _ Ht) as Hp. destruct g as [n d|n st kvs|n st ks cs]; cbn in *; [done|..].
        + destruct R6 as (_ & _ & _ & ->). by destruct st.
        + destruct R6 as (_ & _ & _ & ->). by destruct st. }
    destruct HY as (r & HY). apply holds_affine in HY as [Hl HY]. pose proof (Wp.own_look _ _ _ _ HY) as HN.
    destruct HY as (σ1 & σ2 & -> & Hd & _ & HR). apply Wp.own_look in HR.
    exists root, (default noloc (gloc g)). split.
    - exists (trec (mnof f) ca root S), r. split_and!; try done.
      + by apply lookup_union_Some_l, lookup_union_Some_r.
      + by apply lookup_union_Some_l.
    - destruct (lv_cond lv); cbn in *; [by rewrite Hc|by rewrite Hc|done].
  Qed.

  (** ** Calls and the family they work on *)
  Definition oncmd (c : cmd) (t : tid) f : Prop :=
    match c with
    | MapCall t' _ | Flush t' _ | Purge t' _ | Touch t' | TouchItem t' _ | Prune t' | Discard t'
    | LayoutReport t' | DimensionsReport t' | Validate t' | Dump t' => t' = t ∧ ∃ lv, inuse t f lv
    | DrainEvict _ => ∃ lv, inuse t f lv
    | OldTree l _ => fm_live f = None ∧ has_snap l f
    | _ => False
    end.
  Lemma oncmd_live c t f : oncmd c t f → fm_live f = None ∧ (∃ l a, c = OldTree l a ∧ has_snap l f) ∨ ∃ lv, inuse t f lv.
  Proof. destruct c; cbn; naive_solver. Qed.
  Lemma oncmd_locks c t f : oncmd c t f → locks c = true.
  Proof. by destruct c. Qed.
  (** in the middle of [c] *)
  Definition tinv (c : cmd) (t : tid) (p : M result) (cbs : list bool) f σ : Prop :=
    ∃ σp σk io X, σ = σp ∪ σk ∧ σp ##ₘ σk ∧ (io = true → ¬ silent (solo f) c) ∧
      wpt ∅ io p cbs (doneon c f σk) (failon c f σk) σp ∧ locals X t p ∧ ((∀ l, ¬ X l) ∨ snapsat σk f).
  (** nodes in memory all belong to the tree in use *)
  Definition famhome f σ : Prop := fm_rest f ≠ Lost →
    match fm_live f with Some lv => lv_broken lv = false → home (lv_tree lv) σ | None => dpart σ = σ end.

  (** *** What a call does to the world, it does to its family *)
  Definition owned w (c : cmd) (t : tid) i f : Prop :=
    w_fams w !! i = Some f ∧ oncmd c t f ∧ (∀ lv, fm_live f = Some lv → fam_of w (lv_tree lv) = Some (i, f)) ∧
    (∀ l, has_snap l f → fam_at w l = Some (i, f)).
  Lemma owned_fam w c t i f lv : owned w c t i f → inuse t f lv → fam_of w t = Some (i, f).
  Proof. intros (_ & _ & H & _) (Hl & <- & _). by apply H. Qed.
  Lemma owned_upd w c t i f lv F : owned w c t i f → inuse t f lv → upd w t F = set_fam i (F f lv) w.
  Proof. intros Ho Hu. unfold upd. rewrite (owned_fam _ _ _ _ _ _ Ho Hu). by destruct Hu as (-> & _). Qed.
  Lemma owned_same w c t i f : owned w c t i f → set_fam i f w = w.
  Proof. intros (H & _). by apply set_fam_same. Qed.
  Lemma owned_usable w c t i f lv f' lv' : owned w c t i f → inuse t f lv → usable w t f' lv' ↔ f' = f ∧ lv' = lv.
  Proof.
    intros Ho Hu. pose proof (owned_fam _ _ _ _ _ _ Ho Hu) as Hf. destruct Hu as (Hl & Ht & Hb). split.
    - intros (j & Hj & Hl' & Hb'). rewrite Hf in Hj. injection Hj as <- <-. split; [done|]. congruence.
    - intros [-> ->]. by exists i.
  Qed.
  Lemma solo_usable t f lv f' lv' : inuse t f lv → usable (solo f) t f' lv' ↔ f' = f ∧ lv' = lv.
  Proof.
    intros Hu. split; [by apply inuse_uniq|]. intros [-> ->]. exists 0%nat. pose proof (inuse_on _ _ _ Hu) as [? ? ?]. done.
  Qed.
  Lemma solo_inj f f' : solo f = solo f' → f = f'.
  Proof. by intros [= ->]. Qed.
  Lemma solo_at f l : has_snap l f → fam_at (solo f) l = Some (0%nat, f).
  Proof. intros H. unfold fam_at, solo; cbn. by rewrite decide_True. Qed.

  Lemma lift_done w c t i f r cbs f' : owned w c t i f → next_done cmp (solo f) c r cbs = solo f' →
    next_done cmp w c r cbs = set_fam i f' w.
  Proof.
    intros Ho. pose proof Ho as (Hi & Hc & Hof & Hat).
    assert (∀ f', solo f = solo f' → w = set_fam i f' w) as Hsame.
    { intros f2 <-%solo_inj. symmetry. by eapply owned_same. }
    destruct c as [max a|l a|t' c|t' ap|t' full|t'|t' n|t'|t'|t'|t'|t'|t'|t'|t'|lo hi| |n]; cbn in Hc; try done; cbn [next_done]; try apply Hsame.
    - destruct Hc as [Hl Hsn]. destruct r; try apply Hsame. rewrite (solo_at _ _ Hsn) (Hat _ Hsn). cbn. by intros <-%solo_inj.
    - destruct Hc as (-> & lv & Hu). rewrite (inuse_upd _ _ _ _ Hu) (owned_upd _ _ _ _ _ _ _ Ho Hu). by intros <-%solo_inj.
    - destruct Hc as (-> & lv & Hu). destruct r; try apply Hsame. rewrite (inuse_upd _ _ _ _ Hu) (owned_upd _ _ _ _ _ _ _ Ho Hu). by intros <-%solo_inj.
    - destruct Hc as (-> & lv & Hu). rewrite (inuse_upd _ _ _ _ Hu) (owned_upd _ _ _ _ _ _ _ Ho Hu). by intros <-%solo_inj.
    - destruct Hc as (-> & lv & Hu). rewrite (inuse_upd _ _ _ _ Hu) (owned_upd _ _ _ _ _ _ _ Ho Hu). by intros <-%solo_inj.
    - destruct Hc as (-> & lv & Hu). rewrite (inuse_upd _ _ _ _ Hu) (owned_upd _ _ _ _ _ _ _ Ho Hu). by intros <-%solo_inj.
    - destruct Hc as (-> & lv & Hu). rewrite (inuse_upd _ _ _ _ Hu) (owned_upd _ _ _ _ _ _ _ Ho Hu). by intros <-%solo_inj.
  Qed.
  Lemma lift_failed w c t i f f' : owned w c t i f → next_failed (solo f) c = solo f' → next_failed w c = set_fam i f' w.
  Proof.
    intros Ho. pose proof Ho as (Hi & Hc & Hof & Hat).
    assert (∀ f', solo f = solo f' → w = set_fam i f' w) as Hsame.
    { intros f2 <-%solo_inj. symmetry. by eapply owned_same. }
    destruct c as [max a|l a|t' c|t' ap|t' full|t'|t' n|t'|t'|t'|t'|t'|t'|t'|t'|lo hi| |n]; cbn in Hc; try done; cbn [next_failed]; try apply Hsame.
    - destruct (is_delete c); [|apply Hsame]. destruct Hc as (-> & lv & Hu). rewrite (inuse_upd _ _ _ _ Hu) (owned_upd _ _ _ _ _ _ _ Ho Hu). by intros <-%solo_inj.
    - destruct Hc as (-> & lv & Hu). rewrite (inuse_upd _ _ _ _ Hu) (owned_upd _ _ _ _ _ _ _ Ho Hu). by intros <-%solo_inj.
    - destruct Hc as (-> & lv & Hu). rewrite (inuse_upd _ _ _ _ Hu) (owned_upd _ _ _ _ _ _ _ Ho Hu). by intros <-%solo_inj.
    - destruct Hc as (-> & lv & Hu). rewrite (inuse_upd _ _ _ _ Hu) (owned_upd _ _ _ _ _ _ _ Ho Hu). by intros <-%solo_inj.
  Qed.
  Lemma lift_silent w c t i f : owned w c t i f → silent w c → silent (solo f) c.
  Proof.
    intros Ho. pose proof Ho as (Hi & Hc & _).
    destruct c as [max a|l a|t' c|t' ap|t' full|t'|t' n|t'|t'|t'|t'|t'|t'|t'|t'|lo hi| |n]; try done; cbn [silent].
    destruct Hc as (-> & lv & Hu). intros (f' & lv' & l & Hus & Hl). apply (owned_usable _ _ _ _ _ _ _ _ Ho Hu) in Hus as [-> ->].
    exists f, lv, l. split; [|done]. by apply (solo_usable _ _ _ _ _ Hu).
  Qed.
  Lemma lift_error w c t i f e cbs : owned w c t i f → right_error (solo f) c e cbs → right_error w c e cbs.
  Proof.
    intros Ho. pose proof (lift_silent _ _ _ _ _ Ho) as Hs. pose proof Ho as (Hi & Hc & _).
    destruct c as [max a|l a|t' c|t' ap|t' full|t'|t' n|t'|t'|t'|t'|t'|t'|t'|t'|lo hi| |n]; try done; cbn [right_error].
    all: try (intros (H1 & H2 & H3); split_and!; [done|done|by auto]).
    destruct Hc as (-> & lv & Hu). intros (H1 & H2 & H3 & H4). split_and!; [done..|]. intros f' lv' Hus.
    apply (owned_usable _ _ _ _ _ _ _ _ Ho Hu) in Hus as [-> ->]. apply (H4 f). by apply (solo_usable _ _ _ _ _ Hu).
  Qed.
  (** everything but Flush and OldTree: the family alone decides *)
  Lemma lift_result w c t i f r cbs : owned w c t i f → right_result cmp (solo f) c r cbs →
    (∀ t', makes c = true → r = RTree t' → fam_of w t' = None) →
    (∀ t' ap l, c = Flush t' ap → r = RLoc l → ∀ j g m, w_fams w !! j = Some g → fm_snaps g !! l = Some m → j = i) →
    right_result cmp w c r cbs.
  Proof.
    intros Ho Hr Hmk Hfl. pose proof Ho as (Hi & Hc & Hof & Hat).
    destruct c as [max a|l a|t' c|t' ap|t' full|t'|t' n|t'|t'|t'|t'|t'|t'|t'|t'|lo hi| |n]; cbn in Hc; try done; cbn [right_result] in *; try done.
    - destruct Hr as (t' & -> & _). exists t'. split; [done|]. by apply Hmk.
    - destruct Hc as (-> & lv & Hu). intros f' lv' Hus. apply (owned_usable _ _ _ _ _ _ _ _ Ho Hu) in Hus as [-> ->].
      apply (Hr f). by apply (solo_usable _ _ _ _ _ Hu).
    - destruct Hc as (-> & lv & Hu). intros f' lv' Hus. apply (owned_usable _ _ _ _ _ _ _ _ Ho Hu) in Hus as [-> ->].
      destruct (Hr f lv) as (l & -> & Hc & Ha); [by apply (solo_usable _ _ _ _ _ Hu)|]. exists l. split_and!; [done..|].
      intros j g m Hj Hg. pose proof (Hfl _ _ _ eq_refl eq_refl j g m Hj Hg) as ->. rewrite Hi in Hj. injection Hj as <-.
      rewrite (owned_fam _ _ _ _ _ _ Ho Hu). split; [done|]. by apply (Ha 0%nat f m).
    - destruct Hc as (-> & lv & Hu). destruct Hr as (-> & -> & Hr). split_and!; [done..|]. intros f' lv' Hus.
      apply (owned_usable _ _ _ _ _ _ _ _ Ho Hu) in Hus as [-> ->]. apply (Hr f). by apply (solo_usable _ _ _ _ _ Hu).
    - destruct Hc as (-> & lv & Hu). intros f' lv' Hus. apply (owned_usable _ _ _ _ _ _ _ _ Ho Hu) in Hus as [-> ->].
      apply (Hr f). by apply (solo_usable _ _ _ _ _ Hu).
    - destruct Hc as (-> & lv & Hu). intros f' lv' Hus. apply (owned_usable _ _ _ _ _ _ _ _ Ho Hu) in Hus as [-> ->].
      apply (Hr f). by apply (solo_usable _ _ _ _ _ Hu).
    - destruct Hc as (-> & lv & Hu). intros f' lv' Hus. apply (owned_usable _ _ _ _ _ _ _ _ Ho Hu) in Hus as [-> ->].
      apply (Hr f). by apply (solo_usable _ _ _ _ _ Hu).
  Qed.
  (** what can become of a family *)
  Record becomes (t : tid) f f' : Prop := Becomes {
    be_live lv' : fm_live f' = Some lv' → lv_tree lv' = t;
    be_rest : fm_rest f = Lost → fm_rest f' = Lost;
    be_snaps l its : fm_snaps f' !! l = Some its → fm_snaps f !! l = Some its ∨
      ∃ lv', inuse t f' lv' ∧ lv_cond lv' = Stored l ∧ lv_items lv' = its }.
  Lemma becomes_refl c t f : oncmd c t f → becomes t f f.
  Proof.
    intros Hc. split; [|done|by left]. intros lv' Hl. apply oncmd_live in Hc as [[Hn _]|(lv & Hl' & Ht & _)]; [congruence|].
    rewrite Hl in Hl'. by injection Hl' as <-.
  Qed.
  Lemma done_becomes c t f r cbs f' : oncmd c t f → (makes c = true → ∀ t', r = RTree t' → t' = t) →
    next_done cmp (solo f) c r cbs = solo f' → becomes t f f'.
  Proof.
    intros Hc Hmk. pose proof (becomes_refl _ _ _ Hc) as Hrf.
    assert (∀ f', solo f = solo f' → becomes t f f') as Hsame by (by intros f2 <-%solo_inj).
    destruct c as [max a|l a|t' c|t' ap|t' full|t'|t' n|t'|t'|t'|t'|t'|t'|t'|t'|lo hi| |n]; cbn in Hc; try done; cbn [next_done]; try apply Hsame.
    - destruct Hc as [Hl Hsn]. destruct r; try apply Hsame. rewrite (solo_at _ _ Hsn). intros <-%solo_inj. split; cbn.
      + intros lv' [= <-]. cbn. by apply Hmk.
      + by intros ->.
      + by left.
    - destruct Hc as (-> & lv & Hu). rewrite (inuse_upd _ _ _ _ Hu). destruct (spec_call _ _ _) as [m ans]. intros <-%solo_inj. pose proof Hu as (Hl & Ht & Hb). split; cbn; [|done|by left]. by intros lv' [= <-].
    - destruct Hc as (-> & lv & Hu). destruct r; try apply Hsame. rewrite (inuse_upd _ _ _ _ Hu). intros <-%solo_inj. pose proof Hu as (Hl' & Ht & Hb). split; cbn; [by intros lv' [= <-]|done|].
      intros l0 its Hlk. apply lookup_insert_Some in Hlk as [[<- <-]|[_ Hlk]]; [right|by left]. eexists. split; [by split_and!|done].
    - destruct Hc as (-> & lv & Hu). rewrite (inuse_upd _ _ _ _ Hu). intros <-%solo_inj. pose proof Hu as (Hl & Ht & Hb). split; cbn; [|done|by left]. by intros lv' [= <-].
    - destruct Hc as (-> & lv & Hu). rewrite (inuse_upd _ _ _ _ Hu). intros <-%solo_inj. pose proof Hu as (Hl & Ht & Hb). split; cbn; [|done|by left]. by intros lv' [= <-].
    - destruct Hc as (-> & lv & Hu). rewrite (inuse_upd _ _ _ _ Hu). intros <-%solo_inj. pose proof Hu as (Hl & Ht & Hb). split; cbn; [|done|].
      + intros lv'. rewrite Hl. by intros [= <-].
      + intros l its Hlk. apply current_look in Hlk as [Hc ->]. right. exists lv. done.
    - destruct Hc as (-> & lv & Hu). rewrite (inuse_upd _ _ _ _ Hu). pose proof Hu as (Hl & Ht & Hb). destruct (existsb id cbs); intros <-%solo_inj; split; cbn; try done.
      by intros lv' [= <-].
  Qed.
  Lemma failed_becomes c t f f' : oncmd c t f → next_failed (solo f) c = solo f' → (∀ t', c = Prune t' → ∀ lv, fm_live f = Some lv → fm_snaps f = current lv) → becomes t f f'.
  Proof.
    intros Hc. pose proof (becomes_refl _ _ _ Hc) as Hrf.
    assert (∀ f', solo f = solo f' → becomes t f f') as Hsame by (by intros f2 <-%solo_inj).
    destruct c as [max a|l a|t' c|t' ap|t' full|t'|t' n|t'|t'|t'|t'|t'|t'|t'|t'|lo hi| |n]; cbn in Hc; try done; cbn [next_failed]; try (intros; by apply Hsame).
    - destruct (is_delete c); [|intros; by apply Hsame]. destruct Hc as (-> & lv & Hu). rewrite (inuse_upd _ _ _ _ Hu). intros <-%solo_inj _. pose proof Hu as (Hl & Ht & Hb). split; cbn; [|done|by left]. by intros lv' [= <-].
    - destruct Hc as (-> & lv & Hu). rewrite (inuse_upd _ _ _ _ Hu). intros <-%solo_inj _. pose proof Hu as (Hl & Ht & Hb). split; cbn; [|done|by left]. by intros lv' [= <-].
    - destruct Hc as (-> & lv & Hu). rewrite (inuse_upd _ _ _ _ Hu). intros <-%solo_inj Hcu. pose proof Hu as (Hl & Ht & Hb). split; cbn; [|done|].
      + by intros lv' [= <-].
      + intros l its Hlk. left. by rewrite (Hcu t eq_refl lv Hl).
    - destruct Hc as (-> & lv & Hu). rewrite (inuse_upd _ _ _ _ Hu). intros <-%solo_inj _. pose proof Hu as (Hl & Ht & Hb). split; cbn; [|done|done]. by intros lv' [= <-].
  Qed.
  Lemma becomes_snaps t f f' σ : becomes t f f' → snapsat σ f → mnof f' = mnof f → body f' σ → snapsat σ f'.
  Proof.
    intros Hb HS Hmn HB l its Hlk. destruct (be_snaps _ _ _ Hb l its Hlk) as [Ho|(lv' & Hu & Hc & <-)].
    - rewrite Hmn. by apply HS.
    - by eapply (stored_of cb dom domV t f' lv').
  Qed.
End conc.

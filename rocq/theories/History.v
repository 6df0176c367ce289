(** * What every history of a running program looks like to its clients

    Consequences of [hist_ok] (Hist.v), phrased with the definitions of
    Client.v.  Models no code. *)
From Coq Require Import ssreflect.
From stdpp Require Import prelude list gmap.
From iris.bi Require Import bi.
From iris.proofmode Require Import proofmode.
From Verif Require Import Spec SpecFacts Llrb LlrbSpec LlrbProps BTree HProp Wp Codec Ghost Order Rep Api Open Machine Client Sample World Disk Hist.
Open Scope Z_scope.

Section history.
  Context {K V : Type}.
  Variable cb : callbacks K V.
  Variable dom : K → Prop.
  Variable domV : V → Prop.
  Hypothesis WF : wf_cb cb dom domV.
  Notation cmp := (cb_cmp cb).
  Notation items := (list (K * V)).
  Notation event := (event K V).
  Notation world := (world K V).
  Notation history := (history cb dom domV).
  Notation after := (after cmp).
  Notation next := (next cmp).
  Notation obeys := (obeys cmp dom domV).
  Notation all_right := (all_right cmp).
  Notation winv := (winv cb dom domV).
  Implicit Types (w : world) (e : event) (h : list event) (t : tid) (s : st K V) (m : items).

  Lemma after_app h1 h2 : after (h1 ++ h2) = foldl next (after h1) h2.
  Proof. apply foldl_app. Qed.
  Lemma obeys_app w h1 h2 : obeys w (h1 ++ h2) ↔ obeys w h1 ∧ obeys (foldl next w h1) h2.
  Proof. revert w. induction h1 as [|e h1 IH]; intros w; cbn; [tauto|]. rewrite IH. tauto. Qed.
  Lemma right_app w h1 h2 : all_right w (h1 ++ h2) ↔ all_right w h1 ∧ all_right (foldl next w h1) h2.
  Proof. revert w. induction h1 as [|e h1 IH]; intros w; cbn; [tauto|]. rewrite IH. tauto. Qed.
  Lemma steps_app s h1 h2 s' : steps cb s (h1 ++ h2) s' ↔ ∃ s1, steps cb s h1 s1 ∧ steps cb s1 h2 s'.
  Proof.
    split.
    - revert s. induction h1 as [|e h1 IH]; intros s H; [exists s; by split; [constructor|]|].
      cbn in H. inversion H; subst; (edestruct IH as (s2 & ? & ?); [eassumption|]; exists s2; split; [by econstructor|done]).
    - intros (s1 & H1 & H2). induction H1; cbn; [done|econstructor; eauto..].
  Qed.
  Lemma hist_facts h s : history h s → all_right world0 h ∧ obeys world0 h ∧ winv (after h) s.
  Proof using WF.
    intros (lo & hi & o & Hst & Ho). destruct (hist_ok cb dom domV WF world0 _ h s Hst (boot_winv _ _ _ _ _ _) Ho). done.
  Qed.
  Lemma hist_app h1 h2 s : history (h1 ++ h2) s → ∃ s1, history h1 s1 ∧ steps cb s1 h2 s.
  Proof.
    intros (lo & hi & o & (s1 & H1 & H2)%steps_app & [Ho _]%obeys_app). exists s1. split; [|done]. by exists lo, hi, o.
  Qed.
  Lemma hist_after h1 h2 s : history (h1 ++ h2) s → all_right (after h1) h2 ∧ obeys (after h1) h2.
  Proof using WF. intros ([_ H1]%right_app & [_ H2]%obeys_app & _)%hist_facts. done. Qed.
  Lemma hist_done h s c r s' : history h s → legal dom domV (after h) c → exec cb c s = ORet r s' →
    history (h ++ [Done c r (made s s')]) s'.
  Proof.
    intros (lo & hi & o & Hst & Ho) Hl He. exists lo, hi, o. split.
    - apply steps_app. exists s. split; [done|]. econstructor; [done|constructor].
    - apply obeys_app. split; [done|]. by split.
  Qed.

  (** ** Sorted maps *)
  Theorem tree_view h1 h2 s t m : history (h1 ++ h2) s → contents (after h1) t = Some m → Forall (spares t) h2 →
    answers_on t h2 = (spec_run cmp m (calls_on t h2)).2 ∧
    contents (after (h1 ++ h2)) t = Some (spec_run cmp m (calls_on t h2)).1.
  Proof using WF.
    intros H Hm Hs. destruct (hist_after _ _ _ H) as [Hr Ho]. rewrite after_app.
    by destruct (view cmp dom domV _ _ _ _ Ho Hr Hs Hm).
  Qed.
  Lemma new_contents w max b t cbs : fam_of w t = None → contents (next w (Done (NewTree max b) (RTree t) cbs)) t = Some [].
  Proof.
    intros Hn. apply contents_Some. exists (length (w_fams w)), (Family (max / 2) (Some (Live t [] Modified false)) ∅ Exact), (Live t [] Modified false).
    split_and!; [|done|done|done].
    apply fam_of_Some. cbn. split_and!; [by apply list_lookup_middle|done|].
    intros j g Hj Hlt. rewrite lookup_app_l // in Hj. apply list_find_None in Hn. rewrite Forall_lookup in Hn. by eapply Hn.
  Qed.
  Lemma old_contents w l b t cbs i f m : fam_of w t = None → fam_at w l = Some (i, f) → fm_snaps f !! l = Some m →
    contents (next w (Done (OldTree l b) (RTree t) cbs)) t = Some m.
  Proof.
    intros Hn Ha Hm. cbn. rewrite Ha Hm. apply contents_Some.
    exists i, (Family (fm_min f) (Some (Live t m (Stored l) false)) (fm_snaps f) (loosen (fm_rest f))), (Live t m (Stored l) false).
    split_and!; [|done|done|done].
    apply list_find_Some in Ha as (Hi & _). apply list_find_None in Hn. rewrite Forall_lookup in Hn.
    apply fam_of_Some. cbn. split_and!; [apply list_lookup_insert; by eapply lookup_lt_Some|done|].
    intros j g [(<- & <- & _)|[_ Hj]]%list_lookup_insert_Some Hlt; [lia|]. by eapply Hn.
  Qed.
  Theorem new_tree_view h1 h2 s t max b cbs : history (h1 ++ Done (NewTree max b) (RTree t) cbs :: h2) s → Forall (spares t) h2 →
    answers_on t h2 = (spec_run cmp [] (calls_on t h2)).2.
  Proof using WF.
    intros H Hs. destruct (hist_after _ _ _ H) as [[Hr _] _]. destruct Hr as (t' & [= <-] & Hn & _).
    rewrite cons_middle app_assoc in H. refine (proj1 (tree_view _ _ _ _ _ H _ Hs)).
    rewrite after_app. by apply new_contents.
  Qed.
  Theorem old_tree_view h1 h2 s t l b cbs m : history (h1 ++ Done (OldTree l b) (RTree t) cbs :: h2) s →
    stored_version (after h1) l = Some m → Forall (spares t) h2 →
    answers_on t h2 = (spec_run cmp m (calls_on t h2)).2.
  Proof using WF.
    intros H Hm Hs. destruct (hist_after _ _ _ H) as [[Hr _] _]. destruct Hr as (t' & [= <-] & Hn).
    rewrite cons_middle app_assoc in H. refine (proj1 (tree_view _ _ _ _ _ H _ Hs)).
    rewrite after_app. unfold stored_version in Hm. destruct (fam_at (after h1) l) as [[i f]|] eqn:Ha; [|done].
    by eapply old_contents.
  Qed.

  (** ** The entries of a tree are sorted *)
  Lemma good_items (ts : list (tok K V)) : good cmp dom domV ts → ascending cmp (titems ts) ∧ Forall (λ p, dom p.1 ∧ domV p.2) (titems ts).
  Proof.
    intros [H1 H2]. induction H1 as [|x ts H1 IH Hx]; [split; constructor|].
    inversion H2 as [|? ? Hd Hds]; subst. destruct (IH Hds) as [IH1 IH2]. unfold titems in *.
    destruct x as [k v|k]; cbn; [|done]. split.
    - constructor; [done|]. apply Forall_forall. intros p Hp. apply elem_of_list_omap in Hp as (y & Hy & Hyp).
      rewrite Forall_forall in Hx. specialize (Hx y Hy). destruct y; simplify_eq/=; done.
    - constructor; done.
  Qed.
  Lemma hist_contents h s t m : history h s → contents (after h) t = Some m → ascending cmp m ∧ Forall (λ p, dom p.1 ∧ domV p.2) m.
  Proof using WF.
    intros HH Hm. destruct (hist_facts _ _ HH) as (_ & _ & HW). apply contents_usable in Hm as (f & lv & Hu & <-). destruct (ot_usable _ _ _ _ Hu) as [i Hon].
    destruct (ot_at _ _ _ _ _ Hon) as [Hi _]. destruct HW as [_ _ _ _ _ (σ & Hv & HR)].
    assert ((famres cb dom domV f ∗ fams_res cb dom domV (base.delete i (w_fams (after h))))%I σ) as HR'.
    { revert HR. apply entails_at. by rewrite (fams_split cb dom domV _ i f Hi). }
    destruct HR' as (σ1 & σ2 & -> & Hd & [H1 _] & _).
    rewrite (ot_body cb dom domV _ _ _ _ _ Hon) in H1. destruct H1 as (σ3 & σ4 & -> & Hd' & H1 & _).
    destruct H1 as (ca & root & S & hh & g & HX). apply holds_aff in HX as [(Ht & <- & _) _]. apply good_items. apply Ht.
  Qed.

  (** ** Every call ends, and only storage failures are reported *)
  Theorem call_ends h s c : history h s → legal dom domV (after h) c →
    match exec cb c s with
    | ORet r s' => right_result cmp (after h) c r (made s s')
    | OErr EIO s' => true ∈ made s s' ∧ ¬ silent (after h) c
    | OErr ELogic s' => ∃ t, c = Purge t true ∧ made s s' = [] ∧ ∀ l, status (after h) t ≠ Some (Stored l)
    | OErr _ _ => False
    | OStop Crash _ | OStop Env _ => ¬ silent (after h) c
    | OStop _ _ => False
    end.
  Proof using WF.
    intros (_ & _ & HW)%hist_facts Hl. pose proof (step_ok cb dom domV WF _ s c HW Hl) as HP. unfold cmd_post in HP.
    destruct (exec cb c s) as [r s'|e s'|[] s']; try done; [apply HP| |apply HP]. destruct HP as [HP _].
    destruct c; cbn [right_error] in HP; try done; try (destruct HP as [-> HP]; done).
    destruct HP as (-> & -> & Hc & Hx). exists t. split_and!; [done|done|]. intros l Hst. apply status_Some in Hst as (i & f & lv & Hf & Hl' & Hc').
    destruct Hl as (f' & lv' & Hu). eapply (Hx f' lv' Hu l). destruct Hu as (j & H1 & H2 & _). by simplify_eq.
  Qed.
  Lemma usable_of w t m : contents w t = Some m → ∃ f lv, usable w t f lv.
  Proof. intros (f & lv & Hu & _)%contents_usable. eauto. Qed.
  Definition values_in (c : call K V) : Prop := match c with CPut _ v | CPatchByKey _ v | CPatchByIndex _ v => domV v | _ => True end.
  Lemma call_answer h s t m c r s' : history h s → contents (after h) t = Some m → Forall dom (call_keys c) → values_in c →
    exec cb (MapCall t c) s = ORet r s' →
    r = RAns (spec_call cmp m c).2 ∧ contents (after (h ++ [Done (MapCall t c) r (made s s')])) t = Some (spec_call cmp m c).1.
  Proof using WF.
    intros HH Hm Hk Hv He. destruct (usable_of _ _ _ Hm) as (f & lv & Hu).
    assert (legal dom domV (after h) (MapCall t c)) as Hl by (split_and!; eauto).
    pose proof (call_ends _ _ _ HH Hl) as HE. rewrite He in HE. cbn [right_result] in HE.
    assert (r = RAns (spec_call cmp m c).2) as Hr.
    { apply contents_usable in Hm as (f' & lv' & Hu' & <-). by apply HE in Hu'. }
    split; [done|]. pose proof (hist_done _ _ _ _ _ HH Hl He) as HH'.
    destruct (tree_view _ _ _ t m HH' Hm) as [_ ->]; [by repeat constructor|].
    unfold calls_on. cbn. rewrite bool_decide_true //. cbn. by destruct (spec_call cmp m c).
  Qed.
  (** ranks *)
  Theorem positions h s t m : history h s → contents (after h) t = Some m →
    ascending cmp m ∧
    (∀ i r s', exec cb (MapCall t (CGetByIndex i)) s = ORet r s' →
       r = RAns (RItem (if bool_decide (0 ≤ i) then m !! Z.to_nat i else None))) ∧
    (∀ i v r s', domV v → exec cb (MapCall t (CPatchByIndex i v)) s = ORet r s' →
       let ok := bool_decide (0 ≤ i < Z.of_nat (length m)) in
       r = RAns (ROk ok) ∧
       contents (after (h ++ [Done (MapCall t (CPatchByIndex i v)) r (made s s')])) t =
         Some (if ok then alter (λ p, (p.1, v)) (Z.to_nat i) m else m)) ∧
    (∀ i r s', exec cb (MapCall t (CDeleteByIndex i)) s = ORet r s' →
       let ok := bool_decide (0 ≤ i < Z.of_nat (length m)) in
       r = RAns (ROk ok) ∧
       contents (after (h ++ [Done (MapCall t (CDeleteByIndex i)) r (made s s')])) t =
         Some (if ok then base.delete (Z.to_nat i) m else m)) ∧
    (∀ k r s', dom k →
       let n := Z.of_nat (length (filter (λ p, below cmp p.1 k = true) m)) in
       let found := existsb (λ p, same cmp k p.1) m in
       (exec cb (MapCall t (CBisectLeft k)) s = ORet r s' → r = RAns (RIndex (if found then n else n - 1) found)) ∧
       (exec cb (MapCall t (CBisectRight k)) s = ORet r s' → r = RAns (RIndex n found)) ∧
       (found = true → ∃ p, m !! Z.to_nat n = Some p ∧ same cmp k p.1 = true)).
  Proof using WF.
    intros HH Hm. destruct (hist_contents _ _ _ _ HH Hm) as [Ha Hd]. split_and!; [done|..].
    - intros i r s' He. destruct (call_answer _ _ _ _ (CGetByIndex i) _ _ HH Hm (Forall_nil_2 _) I He) as [-> _]. cbn. unfold at_index.
      case_bool_decide; destruct (i <? 0) eqn:?; try done; lia.
    - intros i v r s' Hv He ok. destruct (call_answer _ _ _ _ (CPatchByIndex i v) _ _ HH Hm (Forall_nil_2 _) Hv He) as [Hr Hc]. cbn in Hr, Hc.
      destruct (at_index i m) as [p|] eqn:E.
      + apply at_index_Some in E as [H0 Hp]. apply lookup_lt_Some in Hp. subst ok. rewrite bool_decide_true; [|lia]. done.
      + apply at_index_None in E. subst ok. rewrite bool_decide_false; [|lia]. done.
    - intros i r s' He ok. destruct (call_answer _ _ _ _ (CDeleteByIndex i) _ _ HH Hm (Forall_nil_2 _) I He) as [Hr Hc]. cbn in Hr, Hc.
      destruct (at_index i m) as [p|] eqn:E.
      + apply at_index_Some in E as [H0 Hp]. apply lookup_lt_Some in Hp. subst ok. rewrite bool_decide_true; [|lia].
        rewrite delete_take_drop. done.
      + apply at_index_None in E. subst ok. rewrite bool_decide_false; [|lia]. done.
    - intros k r s' Hk n found. split_and!.
      + intros He. destruct (call_answer _ _ _ _ (CBisectLeft k) _ _ HH Hm (proj2 (Forall_singleton _ _) Hk) I He) as [-> _]. cbn.
        subst found n. change (existsb _ m) with (present cmp k m). by destruct (present cmp k m).
      + intros He. destruct (call_answer _ _ _ _ (CBisectRight k) _ _ HH Hm (proj2 (Forall_singleton _ _) Hk) I He) as [-> _]. cbn.
        subst found n. change (existsb _ m) with (present cmp k m). by destruct (present cmp k m).
      + intros Hf. change found with (present cmp k m) in Hf. apply present_spec in Hf as (p & Hin & Hs).
        apply elem_of_list_split in Hin as (l1 & l2 & Heq). exists p. split; [|done]. subst n.
        assert (Forall (λ p, dom p.1) m) as Hd' by (eapply Forall_impl; [exact Hd|]; by intros ? []).
        rewrite Heq in Ha, Hd' |- *. destruct (pivot_eq cmp dom (wf_ord _ _ _ WF) l1 l2 p k) as (_ & _ & Hrk & _); auto.
        unfold rank in Hrk. rewrite Hrk Nat2Z.id. by apply list_lookup_middle.
  Qed.
  (** patches *)
  Theorem patches h s t m v r s' : history h s → contents (after h) t = Some m → domV v →
    (∀ k0, dom k0 → exec cb (MapCall t (CPatchByKey k0 v)) s = ORet r s' → ∃ m',
       contents (after (h ++ [Done (MapCall t (CPatchByKey k0 v)) r (made s s')])) t = Some m' ∧
       r = RAns (ROk (existsb (λ p, same cmp k0 p.1) m)) ∧ length m' = length m ∧
       ∀ (j : nat) k u, m !! j = Some (k, u) → m' !! j = Some (k, if same cmp k0 k then v else u)) ∧
    (∀ i, exec cb (MapCall t (CPatchByIndex i v)) s = ORet r s' → ∃ m',
       contents (after (h ++ [Done (MapCall t (CPatchByIndex i v)) r (made s s')])) t = Some m' ∧
       r = RAns (ROk (bool_decide (0 ≤ i < Z.of_nat (length m)))) ∧ length m' = length m ∧
       ∀ (j : nat) k u, m !! j = Some (k, u) → m' !! j = Some (k, if bool_decide (Z.of_nat j = i) then v else u)).
  Proof using WF.
    intros HH Hm Hv. destruct (hist_contents _ _ _ _ HH Hm) as [Ha Hd].
    assert (Forall (λ p, dom p.1) m) as Hd' by (eapply Forall_impl; [exact Hd|]; by intros ? []). split.
    - intros k0 Hk He. destruct (call_answer _ _ _ _ (CPatchByKey k0 v) _ _ HH Hm (proj2 (Forall_singleton _ _) Hk) Hv He) as [Hr Hc]. cbn in Hr, Hc.
      change (existsb _ m) with (present cmp k0 m). eexists. split; [exact Hc|].
      destruct (present cmp k0 m) eqn:Hp; cbn.
      + split; [done|]. split; [unfold s_set; by rewrite alter_length|]. intros j k u Hj.
        apply present_spec in Hp as (p & Hin & Hs). apply elem_of_list_split in Hin as (l1 & l2 & Heq).
        destruct (pivot_eq cmp dom (wf_ord _ _ _ WF) l1 l2 p k0) as (_ & _ & Hrk & _); try by rewrite -?Heq. rewrite -Heq in Hrk.
        unfold s_set. rewrite Hrk. destruct (decide (length l1 = j)) as [<-|Hne].
        * rewrite list_lookup_alter Hj. rewrite Heq list_lookup_middle // in Hj. injection Hj as ->. cbn in *. by rewrite Hs.
        * rewrite list_lookup_alter_ne // Hj. destruct (same cmp k0 k) eqn:Hs'; [|done]. exfalso. apply Hne.
          pose proof (take_drop_middle _ _ _ Hj) as Hsp.
          destruct (pivot_eq cmp dom (wf_ord _ _ _ WF) (take j m) (drop (S j) m) (k, u) k0) as (_ & _ & Hrk' & _); try by rewrite ?Hsp.
          rewrite Hsp Hrk in Hrk'. rewrite Hrk'. apply take_length_le. apply lookup_lt_Some in Hj. lia.
      + split; [done|]. split; [done|]. intros j k u Hj. rewrite Hj. destruct (same cmp k0 k) eqn:Hs; [|done].
        exfalso. assert (present cmp k0 m = true); [|congruence]. apply present_spec. exists (k, u). split; [by eapply elem_of_list_lookup_2|done].
    - intros i He. destruct (positions _ _ _ _ HH Hm) as (_ & _ & HP & _). destruct (HP i v r s' Hv He) as [Hr Hc].
      eexists. split; [exact Hc|]. split; [done|]. case_bool_decide as Hb.
      + split; [by rewrite alter_length|]. intros j k u Hj. case_bool_decide as Hji.
        * subst i. rewrite Nat2Z.id list_lookup_alter Hj. done.
        * rewrite list_lookup_alter_ne; [done|lia].
      + split; [done|]. intros j k u Hj. rewrite bool_decide_false //. apply lookup_lt_Some in Hj. lia.
  Qed.
  Theorem validates h s t m : history h s → contents (after h) t = Some m →
    match exec cb (Validate t) s with
    | ORet r _ => r = RValid true
    | OErr e s' => e = EIO ∧ true ∈ made s s'
    | OStop x _ => x = Crash ∨ x = Env
    end.
  Proof using WF.
    intros HH Hm. pose proof (call_ends _ _ (Validate t) HH (usable_of _ _ _ Hm)) as HE.
    destruct (exec cb (Validate t) s) as [r s'|[] s'|[] s']; try done; try (by left); try by right.
    - by split; [|apply HE].
    - by destruct HE as (? & [=] & _).
  Qed.

  (** ** The two implementations *)
  Lemma spec_llrb m cs : spec_llrb_run cmp m (LCall <$> cs) = spec_run cmp m cs.
  Proof.
    revert m. induction cs as [|c cs IH]; intros m; [done|]. cbn. destruct (spec_call cmp m c) as [m1 a].
    change (list_fmap _ _ LCall cs) with (LCall <$> cs). rewrite IH. done.
  Qed.
  Lemma calls_dom t h w : obeys w h → Forall dom (concat (call_keys <$> calls_on t h)).
  Proof.
    revert w. induction h as [|e h IH]; intros w; [constructor|]. intros [H1 H2]. specialize (IH _ H2).
    unfold calls_on. cbn [omap list_omap]. destruct (call_of t e) as [c|] eqn:E; [|done]. cbn. apply Forall_app. split; [|done].
    destruct e as [c' r cbs| | |]; try done. destruct c'; try done. cbn in E. case_bool_decide; [|done]. simplify_eq. by apply H1.
  Qed.
  Theorem interchangeable h1 h2 s t max b cbs : history (h1 ++ Done (NewTree max b) (RTree t) cbs :: h2) s → Forall (spares t) h2 →
    ∃ x, llrb_run cmp NewLLRBTree (LCall <$> calls_on t h2) = LRet (x, answers_on t h2).
  Proof using WF.
    intros H Hs. rewrite (new_tree_view _ _ _ _ _ _ _ H Hs). rewrite -spec_llrb. apply (llrb_refines _ _ cmp dom).
    - apply WF.
    - destruct (hist_after _ _ _ H) as [_ [_ Ho]]. pose proof (calls_dom t _ _ Ho) as HD. unfold keys_in.
      revert HD. generalize (calls_on t h2). clear. intros cs. induction cs as [|c cs IH]; [done|]. cbn. rewrite !Forall_app. naive_solver.
  Qed.
  (** ** Stored versions *)
  Lemma flush_version h1 t ap l cbs s i f m : history (h1 ++ [Done (Flush t ap) (RLoc l) cbs]) s → fam_of (after h1) t = Some (i, f) →
    contents (after h1) t = Some m → has_version (after (h1 ++ [Done (Flush t ap) (RLoc l) cbs])) i (fm_min f) l m.
  Proof.
    intros H Hf Hm. rewrite after_app. cbn. apply contents_Some in Hm as (i' & f' & lv & Hf' & Hl & Hb & <-).
    rewrite Hf in Hf'. simplify_eq. unfold upd. rewrite Hf Hl. unfold has_version. cbn. rewrite list_lookup_insert.
    { eexists. split_and!; [done|apply lookup_insert|done]. }
    apply list_find_Some in Hf as (Hi & _). by eapply lookup_lt_Some.
  Qed.
  Lemma version_at h s i cap l m : history h s → has_version (after h) i cap l m →
    ∃ f, fam_at (after h) l = Some (i, f) ∧ w_fams (after h) !! i = Some f ∧ fm_snaps f !! l = Some m ∧ fm_min f = cap.
  Proof using WF.
    intros (_ & _ & HW)%hist_facts (f & Hi & Hm & Hc). exists f. split_and!; try done. apply list_find_Some. split_and!; [done|by eexists|].
    intros j g Hj Hlt Hg. assert (j = i); [|lia]. by eapply (snaps_uniq cb dom domV WF _ s j i g f l); [..|eexists].
  Qed.
  Theorem checkpoint h1 h2 s t ap l cbs i f m : history (h1 ++ Done (Flush t ap) (RLoc l) cbs :: h2) s →
    fam_of (after h1) t = Some (i, f) → contents (after h1) t = Some m →
    keeps_versions cmp i (after (h1 ++ [Done (Flush t ap) (RLoc l) cbs])) h2 →
    ∃ f', fam_at (after (h1 ++ Done (Flush t ap) (RLoc l) cbs :: h2)) l = Some (i, f') ∧ fm_min f' = fm_min f ∧ fm_snaps f' !! l = Some m.
  Proof using WF.
    intros H Hf Hm Hk. pose proof H as H'. rewrite cons_middle app_assoc in H'. destruct (hist_app _ _ _ H') as (s1 & H1 & _).
    pose proof (flush_version _ _ _ _ _ _ _ _ _ H1 Hf Hm) as HV. destruct (hist_after _ _ _ H') as [Hr Ho].
    pose proof (versions cmp dom domV _ _ _ _ _ _ Ho Hr Hk HV) as HV'. rewrite -after_app -app_assoc -cons_middle in HV'.
    destruct (version_at _ _ _ _ _ _ H HV') as (f' & ? & ? & ? & ?). by exists f'.
  Qed.

  (** ** What leaves a tree alone *)
  Definition on_tree t e : Prop :=
    match e with
    | Done (MapCall t' _) _ _ | Failed (MapCall t' _) _ _ | Done (Discard t') _ _ | Failed (Discard t') _ _
    | Failed (Prune t') _ _ | Done (Forget t') _ _ => t' = t
    | _ => False
    end.
  Definition dies e : Prop := match e with Died _ | Restart => True | _ => False end.
  (** no SortedMap call, Discard, failed Prune or Forget on the tree, no end of the process *)
  Definition aside t e : Prop := ¬ on_tree t e ∧ ¬ dies e.
  Lemma aside_spares t e : aside t e → spares t e.
  Proof.
    intros [H1 H2]. destruct e as [c r cbs|c e cbs|c|]; try (by exfalso; apply H2); destruct c; cbn in *; try done; by left.
  Qed.
  Lemma aside_calls t h : Forall (aside t) h → calls_on t h = [].
  Proof.
    induction 1 as [|e h [H1 _] _ IH]; [done|]. unfold calls_on in *. cbn. rewrite IH.
    destruct e as [c r cbs|c e cbs|c|]; try done; destruct c; try done; cbn in *. by rewrite bool_decide_false.
  Qed.
  Theorem unaffected h1 h2 s t m : history (h1 ++ h2) s → contents (after h1) t = Some m → Forall (aside t) h2 →
    contents (after (h1 ++ h2)) t = Some m.
  Proof using WF.
    intros HH Hm Ha. destruct (tree_view _ _ _ _ _ HH Hm) as [_ H]; [eapply Forall_impl; [exact Ha|apply aside_spares]|].
    by rewrite (aside_calls _ _ Ha) in H.
  Qed.
  Theorem same_answers h1 h2 h2' s s' t m : history (h1 ++ h2) s → history (h1 ++ h2') s' → contents (after h1) t = Some m →
    Forall (spares t) h2 → Forall (spares t) h2' → calls_on t h2 = calls_on t h2' →
    answers_on t h2 = answers_on t h2' ∧ contents (after (h1 ++ h2)) t = contents (after (h1 ++ h2')) t.
  Proof using WF.
    intros H H' Hm Hs Hs' Hc. destruct (tree_view _ _ _ _ _ H Hm Hs) as [-> ->]. destruct (tree_view _ _ _ _ _ H' Hm Hs') as [-> ->].
    by rewrite Hc.
  Qed.

  (** ** Reopening *)
  Definition capacity w t : option Z := match fam_of w t with Some (_, f) => Some (2 * fm_min f) | None => None end.
  Lemma old_handle_at w l b t cbs i f : fam_of w t = None → fam_at w l = Some (i, f) →
    fam_of (next w (Done (OldTree l b) (RTree t) cbs)) t = Some (i, Family (fm_min f) (Some (Live t (default [] (fm_snaps f !! l)) (Stored l) false)) (fm_snaps f) (loosen (fm_rest f))).
  Proof.
    intros Hn Ha. cbn. rewrite Ha. apply list_find_Some in Ha as (Hi & _). apply list_find_None in Hn. rewrite Forall_lookup in Hn.
    apply fam_of_Some. cbn. split_and!; [apply list_lookup_insert; by eapply lookup_lt_Some|done|].
    intros j g [(<- & <- & _)|[_ Hj]]%list_lookup_insert_Some Hlt; [lia|]. by eapply Hn.
  Qed.
  Theorem reopened h1 h2 h3 s t ap l cbs i m t' b cbs' :
    history (h1 ++ Done (Flush t ap) (RLoc l) cbs :: h2 ++ Done (OldTree l b) (RTree t') cbs' :: h3) s →
    handle_of (after h1) i t → contents (after h1) t = Some m →
    keeps_versions cmp i (after (h1 ++ [Done (Flush t ap) (RLoc l) cbs])) h2 →
    let h := h1 ++ Done (Flush t ap) (RLoc l) cbs :: h2 ++ [Done (OldTree l b) (RTree t') cbs'] in
    contents (after h) t' = Some m ∧ capacity (after h) t' = capacity (after h1) t ∧ handle_of (after h) i t' ∧
    (Forall (spares t') h3 → answers_on t' h3 = (spec_run cmp m (calls_on t' h3)).2).
  Proof using WF.
    intros HH Hi Hm Hk h. unfold handle_of in Hi. destruct (fam_of (after h1) t) as [[i' f]|] eqn:Hf; [|done]. cbn in Hi. simplify_eq.
    set (hh := h1 ++ Done (Flush t ap) (RLoc l) cbs :: h2).
    assert (h1 ++ Done (Flush t ap) (RLoc l) cbs :: h2 ++ Done (OldTree l b) (RTree t') cbs' :: h3 = hh ++ Done (OldTree l b) (RTree t') cbs' :: h3) as E1.
    { unfold hh. by rewrite -app_assoc. }
    assert (h = hh ++ [Done (OldTree l b) (RTree t') cbs']) as E2. { unfold h, hh. by rewrite -app_assoc. }
    rewrite E1 in HH. destruct (hist_app _ _ _ HH) as (s1 & HH1 & _).
    destruct (checkpoint _ _ _ _ _ _ _ _ _ _ HH1 Hf Hm Hk) as (f' & Ha & Hc & Hl).
    destruct (hist_after _ _ _ HH) as [[Hr _] _]. destruct Hr as (t1 & [= <-] & Hn).
    pose proof (old_handle_at _ l b t' cbs' _ _ Hn Ha) as Ho. pose proof (old_contents _ l b t' cbs' _ _ _ Hn Ha Hl) as Hcn.
    rewrite E2 after_app. cbn [foldl]. split_and!.
    - done.
    - unfold capacity. rewrite Ho Hf. cbn. by rewrite Hc.
    - unfold handle_of. by rewrite Ho.
    - intros Hs. eapply old_tree_view; [exact HH| |done]. unfold stored_version. by rewrite Ha.
  Qed.
  (** a version that is kept can be opened when the tree is not in use *)
  Definition closed w (i : nat) : Prop := fm_live <$> w_fams w !! i = Some None.
  Lemma opens h s i cap l m b : history h s → has_version (after h) i cap l m → closed (after h) i →
    legal dom domV (after h) (OldTree l b) ∧
    match exec cb (OldTree l b) s with
    | ORet r s' => ∃ t', r = RTree t' ∧ contents (after (h ++ [Done (OldTree l b) (RTree t') (made s s')])) t' = Some m
    | OErr e s' => e = EIO ∧ true ∈ made s s'
    | OStop x _ => x = Crash ∨ x = Env
    end.
  Proof using WF.
    intros HH HV Hcl. destruct (version_at _ _ _ _ _ _ HH HV) as (f' & Ha & Hfi & Hl & Hc).
    assert (legal dom domV (after h) (OldTree l b)) as Hleg.
    { exists i, f'. split; [done|]. unfold closed in Hcl. rewrite Hfi in Hcl. cbn in Hcl. congruence. }
    split; [done|]. pose proof (call_ends _ _ _ HH Hleg) as HE.
    destruct (exec cb (OldTree l b) s) as [r s'|[] s'|[] s']; try done; try (by left); try by right.
    - destruct HE as (t' & -> & Hn). exists t'. split; [done|]. rewrite after_app. cbn [foldl]. by eapply old_contents.
    - by split; [|apply HE].
    - by destruct HE as (? & [=] & _).
  Qed.
  Theorem reopenable h1 h2 s t ap l cbs i m b : history (h1 ++ Done (Flush t ap) (RLoc l) cbs :: h2) s →
    handle_of (after h1) i t → contents (after h1) t = Some m →
    keeps_versions cmp i (after (h1 ++ [Done (Flush t ap) (RLoc l) cbs])) h2 →
    let h := h1 ++ Done (Flush t ap) (RLoc l) cbs :: h2 in
    closed (after h) i →
    legal dom domV (after h) (OldTree l b) ∧
    match exec cb (OldTree l b) s with
    | ORet r s' => ∃ t', r = RTree t' ∧ contents (after (h ++ [Done (OldTree l b) (RTree t') (made s s')])) t' = Some m
    | OErr e s' => e = EIO ∧ true ∈ made s s'
    | OStop x _ => x = Crash ∨ x = Env
    end.
  Proof using WF.
    intros HH Hi Hm Hk h Hcl. unfold handle_of in Hi. destruct (fam_of (after h1) t) as [[i' f]|] eqn:Hf; [|done]. cbn in Hi. simplify_eq.
    destruct (checkpoint _ _ _ _ _ _ _ _ _ _ HH Hf Hm Hk) as (f' & Ha & Hc & Hl).
    apply (opens h s i (fm_min f') l m b HH); [|done]. exists f'. by apply list_find_Some in Ha as (Hfi & _).
  Qed.

  (** ** Flushing and locations *)
  Lemma flush_status h1 h2 s t ap l cbs : history (h1 ++ Done (Flush t ap) (RLoc l) cbs :: h2) s → Forall (calm t) h2 →
    ∃ m, contents (after (h1 ++ Done (Flush t ap) (RLoc l) cbs :: h2)) t = Some m ∧
    status (after (h1 ++ Done (Flush t ap) (RLoc l) cbs :: h2)) t = Some (Stored l).
  Proof using WF.
    intros HH Hc. destruct (hist_after _ _ _ HH) as [[Hr Ha] [Hl Ho]]. cbn in Hl. destruct Hl as (f & lv & Hu).
    assert (contents (after h1) t = Some (lv_items lv)) as Hm by (apply contents_usable; eauto).
    assert (status (after h1) t = Some (lv_cond lv)) as Hst by (apply status_Some; destruct Hu as (i & ? & ? & _); eauto 6).
    assert (legal_event dom domV (after h1) (Done (Flush t ap) (RLoc l) cbs)) as Hleg by (cbn; eauto).
    pose proof (status_step cmp dom domV _ _ _ _ Hleg Hr I Hst) as Hst'. cbn in Hst'. rewrite bool_decide_true // in Hst'.
    destruct (view_step cmp dom domV _ _ t _ Hleg Hr I Hm) as [Hm' _].
    assert (Forall (spares t) h2) as Hs by (eapply Forall_impl; [exact Hc|]; by intros e []).
    destruct (view cmp dom domV _ _ _ _ Ho Ha Hs Hm') as [Hm2 _]. eexists. rewrite after_app. cbn [foldl]. split; [exact Hm2|].
    eapply status_calm; [exact Ho|exact Ha|exact Hc|exact Hst'|eauto].
  Qed.
  Lemma status_usable w t x m : status w t = Some x → contents w t = Some m → ∃ f lv, usable w t f lv ∧ lv_cond lv = x.
  Proof.
    intros (i & f & lv & Hf & Hl & Hx)%status_Some (i' & f' & lv' & Hf' & Hl' & Hb & _)%contents_Some. simplify_eq.
    exists f, lv. split; [by exists i|done].
  Qed.
  Theorem flush_again h1 h2 s t ap l cbs ap' : history (h1 ++ Done (Flush t ap) (RLoc l) cbs :: h2) s → Forall (calm t) h2 →
    ∃ s', exec cb (Flush t ap') s = ORet (RLoc l) s' ∧ made s s' = [].
  Proof using WF.
    intros HH Hc. destruct (flush_status _ _ _ _ _ _ _ HH Hc) as (m & Hm & Hst).
    destruct (status_usable _ _ _ _ Hst Hm) as (f & lv & Hu & Hx).
    pose proof (call_ends _ _ (Flush t ap') HH ltac:(cbn; eauto)) as HE.
    assert (silent (after (h1 ++ Done (Flush t ap) (RLoc l) cbs :: h2)) (Flush t ap')) as Hsi by (exists f, lv, l; done).
    destruct (exec cb (Flush t ap') s) as [r s'|[] s'|[] s']; try done; try by destruct HE.
    - cbn in HE. destruct (HE _ _ Hu) as (l' & -> & H & _). rewrite Hx in H. destruct H as [-> H]. eauto.
    - by destruct HE as (? & [=] & _).
  Qed.
  Lemma location h s t x m : history h s → status (after h) t = Some x → contents (after h) t = Some m →
    ∃ l s', exec cb (FetchLocation t) s = ORet (RLoc l) s' ∧ made s s' = [] ∧
      match x with Stored l' => l = l' | Modified => l = noloc | Unsure => True end.
  Proof using WF.
    intros HH Hst Hm. destruct (status_usable _ _ _ _ Hst Hm) as (f & lv & Hu & Hx).
    pose proof (call_ends _ _ (FetchLocation t) HH ltac:(cbn; eauto)) as HE.
    destruct (exec cb (FetchLocation t) s) as [r s'|[] s'|[] s']; try done; try (by destruct HE); try by destruct HE as (? & [=] & _).
    - cbn in HE. destruct (HE _ _ Hu) as (l & -> & H1 & H2). exists l, s'. split_and!; [done|done|]. by rewrite -Hx.
  Qed.
  Theorem location_flushed h1 h2 s t ap l cbs : history (h1 ++ Done (Flush t ap) (RLoc l) cbs :: h2) s → Forall (calm t) h2 →
    ∃ s', exec cb (FetchLocation t) s = ORet (RLoc l) s'.
  Proof using WF.
    intros HH Hc. destruct (flush_status _ _ _ _ _ _ _ HH Hc) as (m & Hm & Hst).
    destruct (location _ _ _ _ _ HH Hst Hm) as (l' & s' & He & _ & ->). eauto.
  Qed.
  Theorem location_opened h1 h2 s t l b cbs : history (h1 ++ Done (OldTree l b) (RTree t) cbs :: h2) s → Forall (calm t) h2 →
    ∃ s', exec cb (FetchLocation t) s = ORet (RLoc l) s'.
  Proof using WF.
    intros HH Hc. destruct (hist_after _ _ _ HH) as [[Hr Ha] [Hl Ho]]. destruct Hr as (t' & [= <-] & Hn). destruct Hl as (i & f & Hf & Hlv).
    pose proof Hf as Hf'. apply list_find_Some in Hf' as (Hi & [m Hm] & _).
    pose proof (old_contents _ l b t cbs _ _ _ Hn Hf Hm) as Hm'. pose proof (old_handle_at _ l b t cbs _ _ Hn Hf) as Hh.
    assert (status (next (after h1) (Done (OldTree l b) (RTree t) cbs)) t = Some (Stored l)) as Hst by (unfold status; by rewrite Hh).
    assert (Forall (spares t) h2) as Hs by (eapply Forall_impl; [exact Hc|]; by intros e []).
    destruct (view cmp dom domV _ _ _ _ Ho Ha Hs Hm') as [Hm2 _].
    assert (status (foldl next (next (after h1) (Done (OldTree l b) (RTree t) cbs)) h2) t = Some (Stored l)) as Hst2.
    { eapply status_calm; [exact Ho|exact Ha|exact Hc|exact Hst|eauto]. }
    destruct (location _ _ t (Stored l) (spec_run cmp m (calls_on t h2)).1 HH) as (l' & s' & He & _ & ->); [by rewrite after_app|rewrite after_app; exact Hm2|]. eauto.
  Qed.
  Theorem location_modified h1 e h2 s t m : history (h1 ++ e :: h2) s → contents (after h1) t = Some m → dirties t e →
    Forall (λ e, spares t e ∧ ¬ flushes t e) h2 →
    ∃ s', exec cb (FetchLocation t) s = ORet (RLoc noloc) s'.
  Proof using WF.
    intros HH Hm Hd Hc. destruct (hist_after _ _ _ HH) as [[Hr Ha] [Hl Ho]].
    assert (spares t e) as Hsp by (destruct e as [c r cbs| | |]; try done; destruct c; done).
    pose proof Hm as (i & f & lv & Hf & Hlv & Hb & _)%contents_Some.
    assert (status (after h1) t = Some (lv_cond lv)) as Hst by (apply status_Some; eauto 6).
    pose proof (status_dirt cmp dom domV _ _ _ _ Hl Hr Hd Hsp Hst) as Hst'.
    destruct (view_step cmp dom domV _ _ t _ Hl Hr Hsp Hm) as [Hm' _].
    assert (Forall (spares t) h2) as Hs by (eapply Forall_impl; [exact Hc|]; by intros ? []).
    destruct (view cmp dom domV _ _ _ _ Ho Ha Hs Hm') as [Hm2 _].
    pose proof (status_mod cmp dom domV _ _ _ Ho Ha Hc Hst') as Hst2.
    destruct (location _ _ t Modified (spec_run cmp (spec_run cmp m (calls_on t [e])).1 (calls_on t h2)).1 HH) as (l' & s' & He & _ & ->); [by rewrite after_app|rewrite after_app; exact Hm2|]. eauto.
  Qed.
  Theorem location_new h1 h2 s t max b cbs : history (h1 ++ Done (NewTree max b) (RTree t) cbs :: h2) s →
    Forall (λ e, spares t e ∧ ¬ flushes t e) h2 →
    ∃ s', exec cb (FetchLocation t) s = ORet (RLoc noloc) s'.
  Proof using WF.
    intros HH Hc. destruct (hist_after _ _ _ HH) as [[Hr Ha] [Hl Ho]]. destruct Hr as (t' & [= <-] & Hn & _).
    pose proof (new_contents _ max b t cbs Hn) as Hm'.
    pose proof Hm' as (i & f & lv & Hf & Hlv & Hb & _)%contents_Some.
    assert (status (next (after h1) (Done (NewTree max b) (RTree t) cbs)) t = Some Modified) as Hst.
    { unfold status. cbn. unfold fam_of. cbn. rewrite list_find_app_r //. cbn. rewrite decide_True //. }
    assert (Forall (spares t) h2) as Hs by (eapply Forall_impl; [exact Hc|]; by intros ? []).
    destruct (view cmp dom domV _ _ _ _ Ho Ha Hs Hm') as [Hm2 _].
    pose proof (status_mod cmp dom domV _ _ _ Ho Ha Hc Hst) as Hst2.
    destruct (location _ _ t Modified (spec_run cmp [] (calls_on t h2)).1 HH) as (l' & s' & He & _ & ->); [by rewrite after_app|rewrite after_app; exact Hm2|]. eauto.
  Qed.

  (** ** Evictions *)
  Definition evicts e : Prop :=
    match e with Done (Purge _ _) _ _ | Failed (Purge _ _) _ _ | Done DrainSelect _ _ | Done (DrainEvict _) _ _ => True | _ => False end.
  Theorem evictions h1 es h2 h2' s s' t m : history (h1 ++ es ++ h2) s → history (h1 ++ h2') s' → Forall evicts es →
    contents (after h1) t = Some m → Forall (spares t) h2 → Forall (spares t) h2' → calls_on t h2 = calls_on t h2' →
    contents (after (h1 ++ es)) t = Some m ∧ answers_on t h2 = answers_on t h2' ∧
    contents (after (h1 ++ es ++ h2)) t = contents (after (h1 ++ h2')) t.
  Proof using WF.
    intros H H' He Hm Hs Hs' Hc. pose proof H as H1. rewrite app_assoc in H1. destruct (hist_app _ _ _ H1) as (s1 & H2 & _).
    assert (Forall (aside t) es) as Ha.
    { eapply Forall_impl; [exact He|]. intros e Hx. destruct e as [c r cbs|c e cbs|c|]; try done; destruct c; try done; split; by intros []. }
    pose proof (unaffected _ _ _ _ _ H2 Hm Ha) as Hm1. split; [done|].
    destruct (tree_view _ _ _ _ _ H1 Hm1 Hs) as [-> Hc1]. destruct (tree_view _ _ _ _ _ H' Hm Hs') as [-> ->].
    rewrite -app_assoc in Hc1. rewrite Hc1 Hc. done.
  Qed.
  Theorem purges h s t m full : history h s → contents (after h) t = Some m →
    full = false ∨ (∃ l, status (after h) t = Some (Stored l)) → ∃ s', exec cb (Purge t full) s = ORet RUnit s' ∧ made s s' = [].
  Proof using WF.
    intros HH Hm Hf. pose proof (call_ends _ _ (Purge t full) HH (usable_of _ _ _ Hm)) as HE.
    destruct (exec cb (Purge t full) s) as [r s'|[] s'|[] s']; try done; try (by exfalso; apply HE).
    - destruct HE as (-> & ? & _). eauto.
    - destruct HE as (t' & [= <- ->] & _ & Hx). destruct Hf as [|[l Hl]]; [done|]. by apply Hx in Hl.
  Qed.
  (** ** Failed calls *)
  Definition harmless (c : cmd K V) : Prop :=
    match c with MapCall _ c => is_delete c = false | Prune _ | Discard _ => False | _ => True end.
  Theorem failed_calls h1 c er cbs h2 s t m : history (h1 ++ Failed c er cbs :: h2) s → harmless c →
    contents (after h1) t = Some m → Forall (spares t) h2 →
    contents (after (h1 ++ [Failed c er cbs])) t = Some m ∧
    answers_on t h2 = (spec_run cmp m (calls_on t h2)).2 ∧
    contents (after (h1 ++ Failed c er cbs :: h2)) t = Some (spec_run cmp m (calls_on t h2)).1.
  Proof using WF.
    intros H Hh Hm Hs. assert (spares t (Failed c er cbs)) as He by (destruct c; cbn in *; try done; by right).
    assert (calls_on t (Failed c er cbs :: h2) = calls_on t h2) as E1 by done.
    assert (answers_on t (Failed c er cbs :: h2) = answers_on t h2) as E2 by done.
    destruct (tree_view _ _ _ _ _ H Hm) as [H1 H2]; [by constructor|]. rewrite E1 in H1, H2. rewrite E2 in H1. split_and!; [|done|done].
    rewrite cons_middle app_assoc in H. destruct (hist_app _ _ _ H) as (s1 & H3 & _).
    destruct (tree_view _ _ _ _ _ H3 Hm) as [_ H4]; [by repeat constructor|]. exact H4.
  Qed.
  (** ** New trees *)
  Theorem new_guard h s max attach : history h s → 
    (∃ s', exec cb (NewTree max attach) s = OStop Panic s') ↔ Z.odd max = true ∨ max < 4.
  Proof using WF.
    intros HH. split.
    - intros [s' He]. destruct (decide (4 ≤ max)) as [H4|H4]; [|right; lia]. left.
      destruct (Z.odd max) eqn:Ho; [done|]. exfalso.
      pose proof (call_ends _ _ (NewTree max attach) HH) as HE. rewrite He in HE. apply HE. split; [done|].
      by rewrite -Z.negb_odd Ho.
    - intros Hx. cbn. unfold bt_New, bind; cbn [run]. destruct (_ || _) eqn:Hg; [by eexists|]. exfalso.
      apply orb_false_iff in Hg as [Hg1 Hg2]. destruct Hx as [Hx|Hx]; [|lia].
      apply negb_false_iff, Z.eqb_eq in Hg2. rewrite -Hg2 Z.odd_mul in Hx. done.
  Qed.
  (** ** Prune and Discard that fail *)
  Definition prunes t e : Prop := match e with Done (Prune t') _ _ | Failed (Prune t') _ _ | Died (Prune t') => t' = t | _ => False end.
  Lemma prune_version h1 e i t m l : prunes t e → handle_of (after h1) i t → contents (after h1) t = Some m → status (after h1) t = Some (Stored l) →
    ∃ cap, has_version (after (h1 ++ [e])) i cap l m.
  Proof.
    intros He Hi Hm Hst. pose proof Hm as (i1 & f & lv & Hf & Hl & Hb & Hits)%contents_Some.
    unfold handle_of in Hi. rewrite Hf in Hi. injection Hi as ->.
    apply status_Some in Hst as (i' & f' & lv' & Hf' & Hl' & Hc). rewrite Hf in Hf'. injection Hf' as <- <-. rewrite Hl in Hl'. injection Hl' as <-. subst m.
    rewrite after_app. cbn. apply fam_of_Some in Hf as Hfi. destruct Hfi as [Hfi _].
    assert (∀ F : family K V → live K V → family K V, fm_snaps (F f lv) = current lv → 
      ∃ cap, has_version (upd (after h1) t F) i cap l (lv_items lv)) as HU.
    { intros F HF. unfold upd. rewrite Hf Hl. exists (fm_min (F f lv)), (F f lv). split_and!; [|rewrite HF; unfold current; rewrite Hc; apply lookup_singleton|done].
      cbn. apply list_lookup_insert. by eapply lookup_lt_Some. }
    destruct e as [c r cbs|c er cbs|c|]; try done; destruct c; try done; cbn in He; subst t0; cbn.
    - by apply HU.
    - by apply HU.
    - destruct (HU forget) as [cap HV]; [done|]. exists cap. by apply version_restart.
  Qed.
  Theorem pruned h1 e h2 s t i m l b : history (h1 ++ e :: h2) s → prunes t e →
    handle_of (after h1) i t → contents (after h1) t = Some m → status (after h1) t = Some (Stored l) →
    keeps_versions cmp i (after (h1 ++ [e])) h2 →
    let h := h1 ++ e :: h2 in
    closed (after h) i →
    legal dom domV (after h) (OldTree l b) ∧
    match exec cb (OldTree l b) s with
    | ORet r s' => ∃ t', r = RTree t' ∧ contents (after (h ++ [Done (OldTree l b) (RTree t') (made s s')])) t' = Some m
    | OErr e s' => e = EIO ∧ true ∈ made s s'
    | OStop x _ => x = Crash ∨ x = Env
    end.
  Proof using WF.
    intros HH He Hi Hm Hst Hk h Hcl. destruct (prune_version _ e _ _ _ _ He Hi Hm Hst) as [cap HV].
    pose proof HH as H'. rewrite cons_middle app_assoc in H'. destruct (hist_after _ _ _ H') as [Hr Ho].
    pose proof (versions cmp dom domV _ _ _ _ _ _ Ho Hr Hk HV) as HV'. rewrite -after_app -app_assoc -cons_middle in HV'.
    by eapply opens.
  Qed.
  (** Discard returns nothing, or an error because a callback failed *)
  Theorem discards h s t m : history h s → contents (after h) t = Some m →
    match exec cb (Discard t) s with
    | ORet r _ => r = RUnit
    | OErr e s' => e = EIO ∧ true ∈ made s s'
    | OStop x _ => x = Crash ∨ x = Env
    end.
  Proof using WF.
    intros HH Hm. pose proof (call_ends _ _ (Discard t) HH (usable_of _ _ _ Hm)) as HE.
    destruct (exec cb (Discard t) s) as [r s'|[] s'|[] s']; try done; try (by left); try by right.
    - by split; [|apply HE].
    - by destruct HE as (? & [=] & _).
  Qed.
End history.

(** * What a client of the package sees

    Small definitions, independent of the model, used in the statements of the
    property theorems, and what the specification of Machine.v says in their
    terms.  No code is modelled here. *)
From Coq Require Import ssreflect.
From stdpp Require Import prelude list gmap.
From Verif Require Import Spec SpecFacts BTree Machine.
Open Scope Z_scope.

Section client.
  Context {K V : Type}.
  Variable cmp : K → K → option Z.
  Notation items := (list (K * V)).
  Notation event := (event K V).
  Notation world := (world K V).
  Implicit Types (w : world) (e : event) (h : list event) (t : tid) (f : family K V) (lv : live K V).

  (** the entries of a tree, if it is in use and no call has left it broken *)
  Definition contents w t : option items :=
    match fam_of w t with
    | Some (_, f) => match fm_live f with Some lv => if lv_broken lv then None else Some (lv_items lv) | None => None end
    | None => None
    end.
  (** the successful SortedMap calls on one tree, and what they returned *)
  Definition call_of t e : option (call K V) :=
    match e with Done (MapCall t' c) _ _ => if bool_decide (t' = t) then Some c else None | _ => None end.
  Definition answer_of t e : option (answer K V) :=
    match e with Done (MapCall t' _) (RAns a) _ => if bool_decide (t' = t) then Some a else None | _ => None end.
  Definition calls_on t h : list (call K V) := omap (call_of t) h.
  Definition answers_on t h : list (answer K V) := omap (answer_of t) h.
  (** events after which the tree is not in use any more: the process died,
      the tree was discarded, or a failed delete or Prune broke it *)
  Definition spares t e : Prop :=
    match e with
    | Restart | Died _ => False
    | Done (Discard t') _ _ | Done (Forget t') _ _ | Failed (Discard t') _ _ | Failed (Prune t') _ _ => t' ≠ t
    | Failed (MapCall t' c) _ _ => t' ≠ t ∨ is_delete c = false
    | _ => True
    end.

  (** the stored version at a location, and the tree it is a version of *)
  Definition stored_version w (l : loc) : option items :=
    match fam_at w l with Some (_, f) => fm_snaps f !! l | None => None end.
  (** which tree an event asks to give up older versions of *)
  Definition gives_up e : option tid :=
    match e with
    | Done (Prune t) _ _ | Failed (Prune t) _ _ | Died (Prune t) => Some t
    | Done (Discard t) _ _ | Failed (Discard t) _ _ | Died (Discard t) => Some t
    | _ => None
    end.
  (** [t] is a handle of the tree number [i] *)
  Definition handle_of w (i : nat) t : Prop := fst <$> fam_of w t = Some i.
  (** no Prune and no Discard of the tree number [i], whatever the handle *)
  Fixpoint keeps_versions (i : nat) w h : Prop :=
    match h with
    | [] => True
    | e :: h => (∀ t, gives_up e = Some t → ¬ handle_of w i t) ∧ keeps_versions i (next cmp w e) h
    end.

  (** events that leave the tree modified; TouchItem returns 0 when it touched
      nothing *)
  Definition dirties t e : Prop :=
    match e with
    | Done (MapCall t' c) (RAns a) _ => t' = t ∧ modifies c a = true
    | Done (Touch t') _ _ => t' = t
    | Done (TouchItem t' _) (RPos j) _ => t' = t ∧ j ≠ 0
    | _ => False
    end.
  (** events that leave the tree as it is *)
  Definition calm t e : Prop :=
    spares t e ∧ ¬ dirties t e ∧ match e with Failed (Touch t') _ _ => t' ≠ t | _ => True end.
  Definition flushes t e : Prop := match e with Done (Flush t' _) _ _ => t' = t | _ => False end.
  Definition status w t : option cond :=
    match fam_of w t with Some (_, f) => lv_cond <$> fm_live f | None => None end.

  (** ** Families and handles *)
  Lemma fam_of_Some w t i f : fam_of w t = Some (i, f) ↔
    w_fams w !! i = Some f ∧ has_tree t f ∧ ∀ j g, w_fams w !! j = Some g → (j < i)%nat → ¬ has_tree t g.
  Proof. apply list_find_Some. Qed.
  Lemma set_other w i f f' t : w_fams w !! i = Some f → ¬ has_tree t f → ¬ has_tree t f' →
    fam_of (set_fam i f' w) t = fam_of w t.
  Proof.
    intros Hi H1 H2. destruct (fam_of w t) as [[j g]|] eqn:E.
    - apply fam_of_Some in E as (Hj & Hg & Hmin). apply fam_of_Some. cbn. split_and!.
      + rewrite list_lookup_insert_ne //. intros <-. congruence.
      + done.
      + intros j' g' [(<- & -> & _)|[_ Hg']]%list_lookup_insert_Some Hlt; [done|by eapply Hmin].
    - apply list_find_None in E. apply list_find_None. cbn. by apply Forall_insert.
  Qed.
  Lemma set_own w i f f' t : fam_of w t = Some (i, f) → has_tree t f' → fam_of (set_fam i f' w) t = Some (i, f').
  Proof.
    intros (Hj & Hg & Hmin)%fam_of_Some Hf'. apply fam_of_Some. cbn. split_and!.
    - apply list_lookup_insert. by eapply lookup_lt_Some.
    - done.
    - intros j' g' [(<- & -> & _)|[_ Hg']]%list_lookup_insert_Some Hlt; [lia|by eapply Hmin].
  Qed.
  Lemma has_live t f lv : fm_live f = Some lv → has_tree t f ↔ lv_tree lv = t.
  Proof. intros H. unfold has_tree. by rewrite H. Qed.
  Lemma has_none t f : fm_live f = None → ¬ has_tree t f.
  Proof. intros H. unfold has_tree. rewrite H. intros []. Qed.

  (** [F] keeps the handle, or closes the family *)
  Definition tame (F : family K V → live K V → family K V) : Prop :=
    ∀ f lv lv', fm_live f = Some lv → fm_live (F f lv) = Some lv' → lv_tree lv' = lv_tree lv.
  Lemma upd_other w t t' F : tame F → t' ≠ t → fam_of (upd w t' F) t = fam_of w t.
  Proof.
    intros HF Hne. unfold upd. destruct (fam_of w t') as [[i f]|] eqn:E; [|done].
    destruct (fm_live f) as [lv|] eqn:Hl; [|done]. apply fam_of_Some in E as (Hi & Ht & _).
    apply (set_other _ _ f); [done| |].
    - rewrite (has_live _ _ lv) //. rewrite (has_live _ _ lv) // in Ht. congruence.
    - rewrite (has_live _ _ lv) // in Ht. unfold has_tree. destruct (fm_live (F f lv)) as [lv'|] eqn:Hl'; [|intros []].
      rewrite (HF _ _ _ Hl Hl'). congruence.
  Qed.
  Lemma upd_own w t i f lv F lv' : fam_of w t = Some (i, f) → fm_live f = Some lv → fm_live (F f lv) = Some lv' →
    lv_tree lv' = lv_tree lv → fam_of (upd w t F) t = Some (i, F f lv).
  Proof.
    intros Hf Hl Hl' Ht. unfold upd. rewrite Hf Hl. apply (set_own _ _ f); [done|].
    apply fam_of_Some in Hf as (_ & Hx & _). rewrite (has_live _ _ lv) // in Hx. rewrite (has_live _ _ lv') //. congruence.
  Qed.
  Lemma contents_eq w w' t : fam_of w' t = fam_of w t → contents w' t = contents w t.
  Proof. unfold contents. by intros ->. Qed.
  Lemma contents_Some w t m : contents w t = Some m ↔
    ∃ i f lv, fam_of w t = Some (i, f) ∧ fm_live f = Some lv ∧ lv_broken lv = false ∧ lv_items lv = m.
  Proof.
    unfold contents. destruct (fam_of w t) as [[i f]|]; [|naive_solver].
    destruct (fm_live f) as [lv|] eqn:Hl.
    - destruct (lv_broken lv) eqn:Hb.
      + split; [done|]. intros (i' & f' & lv' & ? & ? & ? & _). simplify_eq. congruence.
      + split; [intros [= <-]; by exists i, f, lv|]. intros (i' & f' & lv' & ? & ? & ? & <-). simplify_eq. congruence.
    - split; [done|]. intros (i' & f' & lv' & ? & ? & ? & _). by simplify_eq.
  Qed.
  Lemma contents_usable w t m : contents w t = Some m ↔ ∃ f lv, usable w t f lv ∧ lv_items lv = m.
  Proof. rewrite contents_Some. unfold usable. naive_solver. Qed.

  (** one event *)
  Lemma contents_upd_other w t t' F : tame F → t' ≠ t → contents (upd w t' F) t = contents w t.
  Proof. intros. by apply contents_eq, upd_other. Qed.
  Lemma contents_upd w t F m m' : contents w t = Some m →
    (∀ f lv, fm_live f = Some lv → lv_items lv = m → lv_broken lv = false →
       ∃ x, fm_live (F f lv) = Some (Live (lv_tree lv) m' x false)) →
    contents (upd w t F) t = Some m'.
  Proof.
    intros (i & f & lv & Hf & Hl & Hb & Hm)%contents_Some HF. destruct (HF f lv Hl Hm Hb) as [x Hx].
    apply contents_Some. exists i, (F f lv), (Live (lv_tree lv) m' x false). split_and!; [by eapply upd_own|done|done|done].
  Qed.
  Lemma tame_set_items m x : tame (λ f lv, set_items (m f lv) (x f lv) f lv).
  Proof. intros f lv lv' _ [= <-]. done. Qed.
  Ltac solve_tame := let H := fresh in let H' := fresh in
    intros ? ? ? H; cbn; repeat case_match; cbn; rewrite ?H; intros H'; by simplify_eq.
  Lemma case_upd w t t' F m m' : tame F → contents w t = Some m → (t' ≠ t → m' = m) →
    (t' = t → ∀ f lv, fm_live f = Some lv → lv_items lv = m → lv_broken lv = false →
       ∃ x, fm_live (F f lv) = Some (Live (lv_tree lv) m' x false)) →
    contents (upd w t' F) t = Some m'.
  Proof.
    intros HF Hm Hne Heq. destruct (decide (t' = t)) as [->|Hx].
    - eapply contents_upd; [done|]. by apply Heq.
    - rewrite contents_upd_other // Hne //.
  Qed.
  (** what matters here of the rules *)
  Definition lawful w e : Prop :=
    match e with
    | Done (OldTree l _) _ _ => ∃ i f, fam_at w l = Some (i, f) ∧ fm_live f = None
    | Done (MapCall t _) _ _ | Done (Flush t _) _ _ => ∃ f lv, usable w t f lv
    | _ => True
    end.
  Lemma legal_lawful dom domV w e : legal_event dom domV w e → lawful w e.
  Proof. destruct e as [c r cbs| | |]; try done. destruct c; try done. cbn. by intros [H _]. Qed.
  Lemma view_step0 w e t m : lawful w e → right cmp w e → spares t e → contents w t = Some m →
    contents (next cmp w e) t = Some (spec_run cmp m (calls_on t [e])).1 ∧
    answers_on t [e] = (spec_run cmp m (calls_on t [e])).2.
  Proof.
    intros Hlg Hr Hsp Hm. destruct e as [c r cbs|c er cbs|c|]; try done.
    - destruct c as [max at'|l at'|t' c|t' ap|t' fu|t'|t' ix|t'|t'|t'|t'|t'|t'|t'|t'|lo hi| |n];
        cbn [right right_result] in Hr; cbn [spares] in Hsp; cbn [lawful] in Hlg;
        cbn [calls_on answers_on omap list_omap call_of answer_of].
      + destruct Hr as (t1 & -> & Hn & _). cbn. split; [|done]. rewrite -Hm. apply contents_eq.
        apply contents_Some in Hm as (i & f & lv & Hf & Hl & _). rewrite Hf. apply fam_of_Some in Hf as (Hi & Ht & Hmin).
        apply fam_of_Some. cbn. split_and!; [by apply lookup_app_l_Some|done|].
        intros j g Hj Hlt. rewrite lookup_app_l in Hj; [apply lookup_lt_Some in Hi; lia|]. by eapply Hmin.
      + destruct Hr as (t1 & -> & Hn). cbn. split; [|done]. destruct Hlg as (i & f & Ha & Hl). rewrite Ha. rewrite -Hm.
        apply contents_eq. apply list_find_Some in Ha as (Hi & _). apply (set_other _ _ f); [done|by apply has_none|].
        rewrite (has_live _ _ (Live t1 (default [] (fm_snaps f !! l)) (Stored l) false)) //. cbn. intros ->.
        apply contents_Some in Hm as (? & ? & ? & Hf & _). congruence.
      + split.
        * cbn. apply (case_upd _ _ _ _ m); [solve_tame|done| |].
          -- intros Hne. rewrite bool_decide_false //.
          -- intros -> f lv Hl <- Hb. rewrite bool_decide_true //. cbn. destruct (spec_call cmp (lv_items lv) c). cbn. rewrite Hb. eauto.
        * destruct Hlg as (f & lv & Hu). rewrite (Hr _ _ Hu). cbn. case_bool_decide as Ht; [|done]. subst t'.
          apply contents_usable in Hm as (f' & lv' & Hu' & <-). cbn. destruct Hu as (i & H1 & H2 & _), Hu' as (i' & H1' & H2' & _).
          simplify_eq. by destruct (spec_call cmp (lv_items lv) c).
      + destruct Hlg as (f & lv & Hu). destruct (Hr _ _ Hu) as (l & -> & _). cbn. split; [|done].
        apply (case_upd _ _ _ _ m); [solve_tame|done|done|]. intros -> f' lv' Hl <- Hb. cbn. rewrite Hb. eauto.
      + done.
      + cbn. split; [|done]. apply (case_upd _ _ _ _ m); [solve_tame|done|done|]. intros -> f' lv' Hl <- Hb. cbn. rewrite Hb. eauto.
      + cbn. split; [|done]. apply (case_upd _ _ _ _ m); [solve_tame|done|done|]. intros -> f' lv' Hl <- Hb. cbn. rewrite Hb. eauto.
      + cbn. split; [|done]. apply (case_upd _ _ _ _ m); [solve_tame|done|done|]. intros -> f' lv' Hl <- Hb. cbn. rewrite Hl.
        destruct lv'. cbn in *. subst. eauto.
      + cbn. split; [|done]. apply (case_upd _ _ _ _ m); [solve_tame|done|done|]. done.
      + done.
      + done.
      + done.
      + done.
      + done.
      + cbn. split; [|done]. apply (case_upd _ _ _ _ m); [solve_tame|done|done|]. done.
      + done.
      + destruct Hr as (n & -> & _). cbn. split; [|done]. by destruct n.
      + done.
    - split; [|done]. destruct c; cbn [right right_error] in Hr; cbn [spares] in Hsp; try done; cbn [next next_failed].
      + destruct (is_delete c) eqn:Hd; [|done]. apply (case_upd _ _ _ _ m); [solve_tame|done|done|]. intros ->. naive_solver.
      + apply (case_upd _ _ _ _ m); [solve_tame|done|done|]. intros -> f' lv' Hl <- Hb. cbn. rewrite Hb. eauto.
      + apply (case_upd _ _ _ _ m); [solve_tame|done|done|]. done.
      + apply (case_upd _ _ _ _ m); [solve_tame|done|done|]. done.
  Qed.
  Lemma view_step dom domV w e t m : legal_event dom domV w e → right cmp w e → spares t e → contents w t = Some m →
    contents (next cmp w e) t = Some (spec_run cmp m (calls_on t [e])).1 ∧
    answers_on t [e] = (spec_run cmp m (calls_on t [e])).2.
  Proof. intros H. eapply view_step0, legal_lawful, H. Qed.
  Lemma spec_run_app (m : items) (cs cs' : list (call K V)) : spec_run cmp m (cs ++ cs') =
    let '(m1, a1) := spec_run cmp m cs in let '(m2, a2) := spec_run cmp m1 cs' in (m2, a1 ++ a2).
  Proof.
    revert m. induction cs as [|c cs IH]; intros m; cbn; [by destruct (spec_run cmp m cs')|].
    destruct (spec_call cmp m c) as [m1 a]. rewrite IH. destruct (spec_run cmp m1 cs). by destruct (spec_run cmp l cs').
  Qed.
  (** A tree in use answers as a sorted list does, and stays in use, whatever
      else happens. *)
  Lemma view dom domV w h t m : obeys cmp dom domV w h → all_right cmp w h → Forall (spares t) h → contents w t = Some m →
    contents (foldl (next cmp) w h) t = Some (spec_run cmp m (calls_on t h)).1 ∧
    answers_on t h = (spec_run cmp m (calls_on t h)).2.
  Proof.
    revert w m. induction h as [|e h IH]; intros w m Ho Ha Hs Hm; [done|].
    destruct Ho as [Ho1 Ho2], Ha as [Ha1 Ha2]. inversion Hs as [|? ? Hs1 Hs2]; subst.
    destruct (view_step dom domV _ _ _ _ Ho1 Ha1 Hs1 Hm) as [H1 H2].
    destruct (IH _ _ Ho2 Ha2 Hs2 H1) as [H3 H4]. cbn [foldl].
    change (e :: h) with ([e] ++ h). unfold calls_on, answers_on in *. rewrite !omap_app spec_run_app.
    destruct (spec_run cmp m (omap (call_of t) [e])) as [m1 a1]. cbn in H1, H2, H3, H4.
    destruct (spec_run cmp m1 (omap (call_of t) h)) as [m2 a2]. cbn in *. split; [done|]. rewrite H2 H4 //.
  Qed.

  (** ** Stored versions *)
  Definition has_version w (i : nat) (cap : Z) (l : loc) (m : items) : Prop :=
    ∃ f, w_fams w !! i = Some f ∧ fm_snaps f !! l = Some m ∧ fm_min f = cap.
  Lemma upd_at w t F i f : w_fams w !! i = Some f →
    w_fams (upd w t F) !! i = Some f ∨
    ∃ lv, fam_of w t = Some (i, f) ∧ fm_live f = Some lv ∧ w_fams (upd w t F) !! i = Some (F f lv).
  Proof.
    intros Hi. unfold upd. destruct (fam_of w t) as [[j g]|] eqn:E; [|by left].
    destruct (fm_live g) as [lv|] eqn:Hl; [|by left]. cbn. destruct (decide (j = i)) as [->|Hne].
    - pose proof E as (Hj & _)%fam_of_Some. rewrite Hi in Hj. injection Hj as <-. right. exists lv. split_and!; try done.
      apply list_lookup_insert. by eapply lookup_lt_Some.
    - left. by rewrite list_lookup_insert_ne.
  Qed.
  Lemma version_upd w t F i cap l m : has_version w i cap l m →
    (∀ f lv, fam_of w t = Some (i, f) → fm_live f = Some lv → fm_snaps f !! l = Some m →
       fm_snaps (F f lv) !! l = Some m ∧ fm_min (F f lv) = fm_min f) → has_version (upd w t F) i cap l m.
  Proof.
    intros (f & Hi & Hm & Hc) HF. destruct (upd_at w t F i f Hi) as [H|(lv & Hf & Hl & H)].
    - by exists f.
    - destruct (HF _ _ Hf Hl Hm) as [H1 H2]. exists (F f lv). split_and!; [done|done|congruence].
  Qed.
  Lemma version_restart w i cap l m : has_version w i cap l m → has_version (restart w) i cap l m.
  Proof. intros (f & Hi & Hm & Hc). exists (close f). split_and!; [|done|done]. cbn. by rewrite list_lookup_fmap Hi. Qed.
  Lemma version_not w t F i cap l m : has_version w i cap l m → ¬ handle_of w i t → has_version (upd w t F) i cap l m.
  Proof. intros H Hn. apply version_upd; [done|]. intros f lv Hf. exfalso. apply Hn. unfold handle_of. by rewrite Hf. Qed.
  Lemma version_step0 w e i cap l m : lawful w e → right cmp w e →
    (∀ t, gives_up e = Some t → ¬ handle_of w i t) → has_version w i cap l m → has_version (next cmp w e) i cap l m.
  Proof.
    intros Hlg Hr Hg HV.
    assert (∀ (F : family K V → live K V → family K V) t, (∀ f lv, fm_snaps (F f lv) = fm_snaps f ∧ fm_min (F f lv) = fm_min f) → has_version (upd w t F) i cap l m) as Hsame.
    { intros F t HF. apply version_upd; [done|]. intros f lv _ _ Hm. destruct (HF f lv) as [-> ->]. done. }
    destruct e as [c r cbs|c er cbs|c|].
    - destruct c as [max at'|l' at'|t' c|t' ap|t' fu|t'|t' ix|t'|t'|t'|t'|t'|t'|t'|t'|lo hi| |n];
        cbn [right right_result] in Hr; cbn [lawful] in Hlg; cbn [next next_done]; try done; try by apply Hsame.
      + destruct Hr as (t1 & -> & Hn & _). destruct HV as (f & Hi & Hm & Hc). exists f. split_and!; [|done|done]. cbn. by apply lookup_app_l_Some.
      + destruct Hr as (t1 & -> & Hn). destruct Hlg as (j & f & Ha & Hl). rewrite Ha. apply list_find_Some in Ha as (Hj & _).
        destruct HV as (f' & Hi & Hm & Hc). destruct (decide (i = j)) as [->|Hne].
        * rewrite Hi in Hj. injection Hj as ->. eexists. split_and!; [apply list_lookup_insert; by eapply lookup_lt_Some|done|done].
        * exists f'. split_and!; [|done|done]. cbn. by rewrite list_lookup_insert_ne.
      + apply Hsame. intros f lv. by destruct (spec_call cmp (lv_items lv) c).
      + destruct Hlg as (f & lv & Hu). destruct (Hr _ _ Hu) as (l1 & -> & _ & Hl1). apply version_upd; [done|].
        intros f' lv' Hf Hl Hm. cbn. split; [|done]. destruct (decide (l1 = l)) as [->|Hne]; [|by rewrite lookup_insert_ne].
        rewrite lookup_insert. destruct HV as (f0 & Hi & Hm0 & _). destruct (Hl1 i f0 m Hi Hm0) as [Hf0 ->].
        destruct Hu as (j & Hu1 & Hu2 & _). congruence.
      + apply version_not; [done|]. by apply Hg.
      + apply version_not; [done|]. by apply Hg.
      + destruct Hr as (n & -> & _). by destruct n.
    - destruct c; cbn [right right_error] in Hr; cbn [next next_failed]; try done; try by apply Hsame.
      + destruct (is_delete c); [|done]. by apply Hsame.
      + apply version_not; [done|]. by apply Hg.
      + apply version_not; [done|]. by apply Hg.
    - cbn [next]. apply version_restart. destruct c; try done; apply version_not; try done; by apply Hg.
    - by apply version_restart.
  Qed.
  Lemma version_step dom domV w e i cap l m : legal_event dom domV w e → right cmp w e →
    (∀ t, gives_up e = Some t → ¬ handle_of w i t) → has_version w i cap l m → has_version (next cmp w e) i cap l m.
  Proof. intros H. eapply version_step0, legal_lawful, H. Qed.
  Lemma versions dom domV w h i cap l m : obeys cmp dom domV w h → all_right cmp w h → keeps_versions i w h →
    has_version w i cap l m → has_version (foldl (next cmp) w h) i cap l m.
  Proof.
    revert w. induction h as [|e h IH]; intros w Ho Ha Hk HV; [done|]. destruct Ho as [Ho1 Ho2], Ha as [Ha1 Ha2], Hk as [Hk1 Hk2].
    cbn. apply IH; try done. by eapply version_step.
  Qed.

  (** ** Modified or stored *)
  Lemma unmodified (m : items) c : modifies c (spec_call cmp m c).2 = false → (spec_call cmp m c).1 = m.
  Proof. destruct c; cbn; repeat case_match; cbn in *; congruence. Qed.
  Lemma status_Some w t x : status w t = Some x ↔ ∃ i f lv, fam_of w t = Some (i, f) ∧ fm_live f = Some lv ∧ lv_cond lv = x.
  Proof.
    unfold status. destruct (fam_of w t) as [[i f]|]; [|naive_solver]. destruct (fm_live f) as [lv|] eqn:Hl; cbn; [|naive_solver].
    split; [intros [= <-]; by exists i, f, lv|]. intros (i' & f' & lv' & ? & ? & <-). by simplify_eq.
  Qed.
  Lemma status_eq w w' t : fam_of w' t = fam_of w t → status w' t = status w t.
  Proof. unfold status. by intros ->. Qed.
  Lemma status_upd w t t' F x x' : tame F → status w t = Some x → (t' ≠ t → x' = x) →
    (t' = t → ∀ i f lv, fam_of w t = Some (i, f) → fm_live f = Some lv → lv_cond lv = x →
      ∃ lv', fm_live (F f lv) = Some lv' ∧ lv_tree lv' = lv_tree lv ∧ lv_cond lv' = x') →
    status (upd w t' F) t = Some x'.
  Proof.
    intros HF Hx Hne Heq. destruct (decide (t' = t)) as [->|Hn].
    - apply status_Some in Hx as (i & f & lv & Hf & Hl & Hx). destruct (Heq eq_refl _ _ _ Hf Hl Hx) as (lv' & H1 & H2 & H3).
      apply status_Some. exists i, (F f lv), lv'. split_and!; [by eapply upd_own|done|done].
    - rewrite Hne //. rewrite (status_eq w) //. by apply upd_other.
  Qed.
  (** the new status of a tree *)
  Definition new_status t e (x : cond) : cond :=
    match e with
    | Done (MapCall t' c) (RAns a) _ => if bool_decide (t' = t) && modifies c a then Modified else x
    | Done (Flush t' _) (RLoc l) _ => if bool_decide (t' = t) then Stored l else x
    | Done (Touch t') _ _ => if bool_decide (t' = t) then Modified else x
    | Done (TouchItem t' _) (RPos j) _ => if bool_decide (t' = t) && negb (j =? 0) then Modified else x
    | Failed (Touch t') _ _ => if bool_decide (t' = t) then match x with Modified => Modified | _ => Unsure end else x
    | _ => x
    end.
  Lemma status_step dom domV w e t x : legal_event dom domV w e → right cmp w e → spares t e → status w t = Some x →
    status (next cmp w e) t = Some (new_status t e x).
  Proof.
    intros Hlg Hr Hsp Hx. destruct e as [c r cbs|c er cbs|c|]; try done.
    - destruct c as [max at'|l at'|t' c|t' ap|t' fu|t'|t' ix|t'|t'|t'|t'|t'|t'|t'|t'|lo hi| |n];
        cbn [right right_result] in Hr; cbn [spares] in Hsp; cbn [legal_event legal] in Hlg; cbn [new_status]; try done.
      + destruct Hr as (t1 & -> & Hn & _). cbn. rewrite -Hx. apply status_eq.
        apply status_Some in Hx as (i & f & lv & Hf & Hl & _). rewrite Hf. apply fam_of_Some in Hf as (Hi & Ht & Hmin).
        apply fam_of_Some. cbn. split_and!; [by apply lookup_app_l_Some|done|].
        intros j g Hj Hlt. rewrite lookup_app_l in Hj; [apply lookup_lt_Some in Hi; lia|]. by eapply Hmin.
      + destruct Hr as (t1 & -> & Hn). cbn. destruct Hlg as (i & f & Ha & Hl). rewrite Ha. rewrite -Hx.
        apply status_eq. apply list_find_Some in Ha as (Hi & _). apply (set_other _ _ f); [done|by apply has_none|].
        rewrite (has_live _ _ (Live t1 (default [] (fm_snaps f !! l)) (Stored l) false)) //. cbn. intros ->.
        apply status_Some in Hx as (? & ? & ? & Hf & _). congruence.
      + destruct Hlg as [(f & lv & Hu) _]. rewrite (Hr _ _ Hu). cbn. apply (status_upd _ _ _ _ x); [solve_tame|done| |].
        * intros Hne. rewrite bool_decide_false //.
        * intros -> i f' lv' Hf Hl <-. rewrite bool_decide_true //. destruct Hu as (j & H1 & H2 & _). simplify_eq.
          destruct (spec_call cmp (lv_items lv) c) as [m1 a1]. cbn. eauto.
      + destruct Hlg as (f & lv & Hu). destruct (Hr _ _ Hu) as (l & -> & _). cbn. apply (status_upd _ _ _ _ x); [solve_tame|done| |].
        * intros Hne. rewrite bool_decide_false //.
        * intros -> i f' lv' Hf Hl <-. rewrite bool_decide_true //. cbn. eauto.
      + cbn. apply (status_upd _ _ _ _ x); [solve_tame|done| |].
        * intros Hne. rewrite bool_decide_false //.
        * intros -> i f' lv' Hf Hl <-. rewrite bool_decide_true //. cbn. eauto.
      + destruct Hlg as [(f & lv & Hu) Hix]. destruct (Hr _ _ Hu) as (j & -> & Hj). cbn. apply (status_upd _ _ _ _ x); [solve_tame|done| |].
        * intros Hne. rewrite bool_decide_false //.
        * intros -> i f' lv' Hf Hl <-. rewrite bool_decide_true //. destruct Hu as (j' & H1 & H2 & _). simplify_eq. cbn.
          eexists. split; [done|]. split; [done|]. cbn. destruct (ix <? Z.of_nat (length (lv_items lv))).
          -- assert (j =? 0 = false) as -> by lia. done.
          -- subst j. done.
      + cbn. apply (status_upd _ _ _ _ x); [solve_tame|done|done|]. intros -> i f' lv' Hf Hl <-. cbn. rewrite Hl. eauto.
      + cbn. apply (status_upd _ _ _ _ x); [solve_tame|done|done|]. done.
      + cbn. apply (status_upd _ _ _ _ x); [solve_tame|done|done|]. done.
      + destruct Hr as (n & -> & _). by destruct n.
    - destruct c; cbn [right right_error] in Hr; cbn [spares] in Hsp; try done; cbn [next next_failed new_status].
      + destruct (is_delete c) eqn:Hd; [|done]. apply (status_upd _ _ _ _ x); [solve_tame|done|done|]. intros ->. naive_solver.
      + apply (status_upd _ _ _ _ x); [solve_tame|done| |].
        * intros Hne. rewrite bool_decide_false //.
        * intros -> i f' lv' Hf Hl <-. rewrite bool_decide_true //. cbn. eauto.
      + apply (status_upd _ _ _ _ x); [solve_tame|done|done|]. done.
      + apply (status_upd _ _ _ _ x); [solve_tame|done|done|]. done.
  Qed.
  Lemma status_calm dom domV w h t l : obeys cmp dom domV w h → all_right cmp w h → Forall (calm t) h → status w t = Some (Stored l) →
    (∃ m, contents w t = Some m) → status (foldl (next cmp) w h) t = Some (Stored l).
  Proof.
    revert w. induction h as [|e h IH]; intros w Ho Ha Hs Hx Hm; [done|].
    destruct Ho as [Ho1 Ho2], Ha as [Ha1 Ha2]. inversion Hs as [|? ? (Hs1 & Hs2 & Hs3) Hs4]; subst. cbn. destruct Hm as [m Hm].
    assert (∃ m, contents (next cmp w e) t = Some m) as Hm'. { destruct (view_step dom domV _ _ _ _ Ho1 Ha1 Hs1 Hm). eauto. }
    apply IH; try done. rewrite (status_step dom domV _ _ _ _ Ho1 Ha1 Hs1 Hx). f_equal.
    destruct e as [c r cbs|c er cbs|c|]; try done.
    - destruct c; cbn in *; try done.
      + destruct r; try done. case_bool_decide; [|done]. cbn. destruct (modifies c a); [|done]. naive_solver.
      + destruct r; try done. case_bool_decide; [|done]. subst t0. f_equal.
        apply contents_usable in Hm as (f & lv & Hu & _). destruct (Ha1 f lv Hu) as (l1 & [= <-] & Hc & _).
        apply status_Some in Hx as (i & f' & lv' & Hf & Hl & Hx). destruct Hu as (j & H1 & H2 & _). simplify_eq. rewrite Hx in Hc. by destruct Hc.
      + case_bool_decide; [|done]. naive_solver.
      + destruct r; try done. case_bool_decide; [|done]. cbn. destruct (decide (i0 = 0)) as [->|?]; [done|]. naive_solver.
    - destruct c; try done. cbn in *. case_bool_decide; done.
  Qed.
  Lemma status_mod dom domV w h t : obeys cmp dom domV w h → all_right cmp w h → Forall (λ e, spares t e ∧ ¬ flushes t e) h →
    status w t = Some Modified → status (foldl (next cmp) w h) t = Some Modified.
  Proof.
    revert w. induction h as [|e h IH]; intros w Ho Ha Hs Hx; [done|].
    destruct Ho as [Ho1 Ho2], Ha as [Ha1 Ha2]. inversion Hs as [|? ? (Hs1 & Hs2) Hs4]; subst. cbn.
    apply IH; try done. rewrite (status_step dom domV _ _ _ _ Ho1 Ha1 Hs1 Hx). f_equal.
    destruct e as [c r cbs|c er cbs|c|]; try done; destruct c; cbn in *; try done; try destruct r; repeat case_match; try done.
    apply bool_decide_eq_true in H. naive_solver.
  Qed.
  Lemma status_dirt dom domV w e t x : legal_event dom domV w e → right cmp w e → dirties t e → spares t e → status w t = Some x →
    status (next cmp w e) t = Some Modified.
  Proof.
    intros Hl Hr Hd Hs Hx. rewrite (status_step dom domV _ _ _ _ Hl Hr Hs Hx). f_equal.
    destruct e as [c r cbs|c er cbs|c|]; try done; destruct c; cbn in *; try done; try destruct r; try done.
    - destruct Hd as [-> ->]. by rewrite bool_decide_true.
    - subst. by rewrite bool_decide_true.
    - destruct Hd as [-> Hj]. rewrite bool_decide_true //. cbn. by rewrite (proj2 (Z.eqb_neq _ _) Hj).
  Qed.
End client.

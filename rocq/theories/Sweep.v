(** * Sweeping a tree with TouchItem

    Models no code. *)
From Coq Require Import ssreflect.
From stdpp Require Import prelude list gmap.
From iris.bi Require Import bi.
From iris.proofmode Require Import proofmode.
From Verif Require Import Spec SpecFacts BTree HProp Lru Wp Kv Codec Ghost Order PsTree Rep Load Search Update Plug Insert Borrow Merge Rebal Api Walk Touch Maint Report Open Pres Machine World Client Sample Disk Picture Hist Seat History Still Footprint.
Open Scope Z_scope.

Section touched.
  Context {K V : Type}.
  Notation gt := (gt K V).
  Notation vt := (vt K V).
  Implicit Types (g c : gt) (v : vt) (i : Z) (mn : nat).

  (** every node that holds, or leads to, one of the first [i] entries is
      modified *)
  Fixpoint touched i g : Prop :=
    i ≤ 0 ∨
    match g with
    | GD _ _ => False
    | GL _ st _ => st = Dirty
    | GI _ st _ cs => st = Dirty ∧
        (fix go (o : Z) cs := match cs with [] => True | c :: cs => touched (i - o) c ∧ go (o + gsz c) cs end) 0 cs
    end.
  Lemma touched_GI i n st ks cs : touched i (GI n st ks cs) ↔
    i ≤ 0 ∨ (st = Dirty ∧ ∀ a c b, cs = a ++ c :: b → touched (i - sumz (gsz <$> a)) c).
  Proof.
    cbn [touched]. apply or_iff_compat_l, and_iff_compat_l.
    assert (∀ o, (fix go (o : Z) cs := match cs with [] => True | c :: cs => touched (i - o) c ∧ go (o + gsz c) cs end) o cs ↔
      ∀ a c b, cs = a ++ c :: b → touched (i - (o + sumz (gsz <$> a))) c) as H.
    { induction cs as [|c cs IH]; intros o.
      - split; [|done]. intros _ a c b H. by destruct a.
      - split.
        + intros [H1 H2] [|x a] c' b Heq; cbn in Heq.
          * injection Heq as <- <-. cbn. by rewrite Z.add_0_r.
          * injection Heq as <- ->. rewrite fmap_cons sumz_cons Z.add_assoc. by eapply (proj1 (IH _) H2).
        + intros H. split.
          * specialize (H [] c cs eq_refl). cbn in H. by rewrite Z.add_0_r in H.
          * apply IH. intros a c' b ->. specialize (H (c :: a) c' b eq_refl). by rewrite fmap_cons sumz_cons Z.add_assoc in H. }
    rewrite H. split; intros HX a c b Heq; specialize (HX a c b Heq); done.
  Qed.
  Lemma touched_le i g : i ≤ 0 → touched i g.
  Proof. intros. destruct g; by left. Qed.
  Lemma alldirty_touched i g : alldirty g → touched i g.
  Proof.
    revert i. induction g as [n d|n st kvs|n st ks cs IH] using gt_ind'; intros i Ha; [done|by right|].
    apply touched_GI. right. destruct Ha as [-> Ha]. split; [done|]. intros a c b ->. apply alldirty_all in Ha.
    apply Forall_app in IH as [_ [IH _]%Forall_cons]. apply Forall_app in Ha as [_ [Ha _]%Forall_cons]. by apply IH.
  Qed.
  Lemma gsz_ge0 g : 0 ≤ gsz g.
  Proof. unfold gsz, csz. lia. Qed.
  Lemma sumz_ge0 (cs : list gt) : 0 ≤ sumz (gsz <$> cs).
  Proof. induction cs as [|c cs IH]; [done|]. rewrite fmap_cons sumz_cons. pose proof (gsz_ge0 c). lia. Qed.
  Lemma gsz_sum n st ks (cs : list gt) : length cs = S (length ks) → gsz (GI n st ks cs) = sumz (gsz <$> cs).
  Proof. intros. rewrite gsz_GI //. apply chs_sum. Qed.
  Lemma wfo_pos mn b h g : (1 ≤ mn)%nat → (1 ≤ b)%nat → wfo mn b h (strip g) → 0 < gsz g.
  Proof.
    intros Hm Hb Hw. pose proof (wfo_cnt mn h b (strip g) Hw) as H. unfold gsz, csz.
    assert (1 ≤ mn ^ h)%nat by (apply Nat.le_succ_l, Nat.neq_0_lt_0, Nat.pow_nonzero; lia). nia.
  Qed.
  Lemma touched_full mn g : (1 ≤ mn)%nat → ∀ b h j, wfo mn b h (strip g) → 0 < gsz g → touched j g → gsz g ≤ j → alldirty g.
  Proof.
    intros Hm. induction g as [n d|n st kvs|n st ks cs IH] using gt_ind'; intros b h j Hw Hs Ht Hj.
    - destruct Ht as [?|[]]. lia.
    - destruct Ht as [?| ->]; [lia|done].
    - apply touched_GI in Ht as [?|[-> Ht]]; [lia|]. split; [done|]. apply alldirty_all. destruct h as [|h]; [done|]. cbn in Hw. destruct Hw as (Hl & _ & Hf).
      rewrite fmap_length in Hl. rewrite Forall_fmap in Hf. apply Forall_lookup. intros i c Hi. pose proof (take_drop_middle _ _ _ Hi) as Heq.
      rewrite Forall_lookup in IH. rewrite Forall_lookup in Hf. specialize (Hf _ _ Hi). cbn in Hf.
      eapply (IH i c Hi mn h); [exact Hf|by eapply wfo_pos|by eapply Ht|].
      rewrite gsz_sum // in Hj. rewrite -Heq fmap_app sumz_app fmap_cons sumz_cons in Hj. pose proof (sumz_ge0 (drop (S i) cs)). lia.
  Qed.

  (** depends on the view only *)
  Fixpoint vtouched i v : Prop :=
    i ≤ 0 ∨
    match v with
    | VC _ _ => False
    | VL _ st _ => st = Dirty
    | VI _ st _ vs => st = Dirty ∧
        (fix go (o : Z) vs := match vs with [] => True | v :: vs => vtouched (i - o) v ∧ go (o + csz (vstrip v)) vs end) 0 vs
    end.
  Lemma touched_vw g : ∀ i, touched i g ↔ vtouched i (vw g).
  Proof.
    induction g as [n d|n st kvs|n st ks cs IH] using gt_ind'; intros i; [done|by destruct st; cbn; intuition|].
    destruct st; cbn [vw vtouched touched]; try (split; [intros [?|[? _]]; [by left|done]|intros [?|[]]; by left]); try (split; [intros [?|[? _]]; [by left|done]|intros [?|[? _]]; [by left|done]]).
    apply or_iff_compat_l, and_iff_compat_l. generalize 0. induction IH as [|c cs Hc _ IH']; intros o; [done|].
    rewrite fmap_cons Hc IH' strip_vw. done.
  Qed.
  Lemma touched_same i g g' : vw g' = vw g → touched i g → touched i g'.
  Proof. rewrite !touched_vw. by intros ->. Qed.

  (** along a path *)
  Lemma touched_down C : ∀ x g, lens C → 0 ≤ x → touched (plen C + x) (fill C g) → touched x g.
  Proof.
    induction C as [|f C IH]; intros x g Hl Hx Ht; [by rewrite Z.add_0_l in Ht|].
    apply Forall_cons in Hl as [[H1 H2] Hl]. rewrite plen_cons // -Z.add_assoc in Ht. pose proof (sumz_ge0 (f_ls f)).
    apply IH in Ht; [|done|lia]. apply touched_GI in Ht as [Ht|[_ Ht]]; [by apply touched_le; lia|].
    specialize (Ht (f_ls f) g (f_rs f) eq_refl). by replace (sumz (gsz <$> f_ls f) + x - sumz (gsz <$> f_ls f)) with x in Ht by lia.
  Qed.
  Lemma lefts_dirty mn h f g x : (1 ≤ mn)%nat → Forall (λ c, wfo mn mn h (strip c)) (f_ls f) → 0 ≤ x →
    touched (sumz (gsz <$> f_ls f) + x) (zip1 f g) → Forall alldirty (f_ls f).
  Proof.
    intros Hm Hw Hx Ht. apply Forall_lookup. intros i c Hi. pose proof (take_drop_middle _ _ _ Hi) as Heq.
    assert (wfo mn mn h (strip c)) as Hc by exact (Forall_lookup_1 _ _ _ _ Hw Hi). pose proof (wfo_pos mn mn h c Hm Hm Hc) as Hp.
    assert (sumz (gsz <$> f_ls f) = sumz (gsz <$> take i (f_ls f)) + (gsz c + sumz (gsz <$> drop (S i) (f_ls f)))) as Hs.
    { by rewrite -{1}Heq fmap_app sumz_app fmap_cons sumz_cons. }
    pose proof (sumz_ge0 (take i (f_ls f))). pose proof (sumz_ge0 (drop (S i) (f_ls f))).
    apply touched_GI in Ht as [Ht|[_ Ht]]; [lia|].
    eapply (touched_full mn c Hm mn h); [done|done|eapply (Ht (take i (f_ls f)) c (drop (S i) (f_ls f) ++ g :: f_rs f))|lia].
    rewrite -{1}Heq -app_assoc //.
  Qed.
  Lemma strip_dirtyC C : ∀ g g', strip g = strip g' → strip (fill (dirtyC C) g) = strip (fill C g').
  Proof.
    induction C as [|f C IH]; intros g g' H; [done|]. cbn [dirtyC fmap list_fmap fill]. apply IH. cbn. by rewrite !fmap_app !fmap_cons H.
  Qed.
  Lemma touched_up mn C : (1 ≤ mn)%nat → ∀ h x y g0 g1, wfC mn h C → 0 ≤ x → 0 < y ≤ gsz g1 →
    touched (plen C + x) (fill C g0) → touched y g1 → touched (plen C + y) (fill (dirtyC C) g1).
  Proof.
    intros Hm. induction C as [|f C IH]; intros h x y g0 g1 Hw Hx Hy H0 H1; [by rewrite Z.add_0_l|].
    pose proof (wfC_lens _ _ _ Hw) as Hl. apply Forall_cons in Hl as [[Hl1 Hl2] Hl].
    destruct Hw as (_ & _ & Hwl & _ & _ & Hw). rewrite Forall_fmap in Hwl. pose proof (sumz_ge0 (f_ls f)). pose proof (sumz_ge0 (f_rs f)).
    rewrite plen_cons // -Z.add_assoc in H0. rewrite plen_cons // -Z.add_assoc. cbn [dirtyC fmap list_fmap fill].
    eapply (IH (S h) (sumz (gsz <$> f_ls f) + x)); [done|lia| |exact H0|].
    - unfold zip1. rewrite gsz_sum; [|cbn; rewrite !app_length /= Hl1 Hl2; lia]. cbn [fdirty f_ls f_rs]. rewrite fmap_app sumz_app fmap_cons sumz_cons. lia.
    - cbn [fill] in H0. apply touched_down in H0; [|done|lia]. pose proof (lefts_dirty mn h f g0 x Hm Hwl Hx H0) as Hd.
      unfold zip1. apply touched_GI. right. split; [done|]. intros a c b Heq. cbn [fdirty f_ls f_rs] in Heq.
      apply app_eq_inv in Heq as [(k & Ha & Hb)|(k & Ha & Hb)].
      + destruct k as [|c' k]; cbn in Hb.
        * injection Hb as -> ->. rewrite app_nil_r in Ha. rewrite Ha. by replace (sumz (gsz <$> a) + y - sumz (gsz <$> a)) with y by lia.
        * injection Hb as -> ->. apply alldirty_touched. rewrite Ha in Hd. by apply Forall_app in Hd as [_ [? _]%Forall_cons].
      + destruct k as [|c' k]; cbn in Hb.
        * injection Hb as <- <-. rewrite app_nil_r in Ha. rewrite Ha. by replace (sumz (gsz <$> f_ls f) + y - sumz (gsz <$> f_ls f)) with y by lia.
        * injection Hb as <- Hb. apply touched_le. rewrite Ha fmap_app sumz_app fmap_cons sumz_cons. pose proof (sumz_ge0 k). lia.
  Qed.
End touched.

Section sweep.
  Context {K V : Type}.
  Variable cb : callbacks K V.
  Variable dom : K → Prop.
  Variable domV : V → Prop.
  Hypothesis WF : wf_cb cb dom domV.
  Notation cmp := (cb_cmp cb).
  Notation st := (st K V).
  Notation gt := (gt K V).
  Notation history := (history cb dom domV).
  Notation after := (after cmp).
  Notation pictured := (pictured cb dom domV).
  Implicit Types (s : st) (g : gt) (l : loc) (t : tid) (i j : Z).

  (** calls TouchItem(i0) = i1, TouchItem(i1) = i2, ... in a row *)
  Inductive sweep t : Z → st → Z → st → Prop :=
    | sweep_none i s : sweep t i s i s
    | sweep_one i s j s1 k s' : exec cb (TouchItem t i) s = ORet (RPos j) s1 → sweep t j s1 k s' → sweep t i s k s'.

  Lemma sweep_step hi s t m mn ca S h g i r s' : history hi s → contents (after hi) t = Some m → pictured s t mn ca S h g →
    0 ≤ i < Z.of_nat (length m) → touched i g → exec cb (TouchItem t i) s = ORet r s' →
    ∃ j S' g', r = RPos j ∧ i < j ≤ Z.of_nat (length m) ∧ pictured s' t mn ca S' h g' ∧ touched j g' ∧ strip g' = strip g.
  Proof using WF.
    intros HH Hm HP Hi Hto He. destruct (usable_of _ _ _ Hm) as (f & lv & Hu).
    assert (legal dom domV (after hi) (TouchItem t i)) as Hl by (split; [eauto|lia]).
    destruct (height_bound cb dom domV WF _ _ _ _ _ _ _ _ _ HH Hm HP) as (Hmn & Hw & Hits & _).
    pose proof (hist_call cb dom domV WF _ _ _ _ _ _ _ _ _ (TouchItem t i) HH Hm HP eq_refl Hl) as HC. rewrite He in HC.
    destruct HC as (S' & h' & g' & (-> & Hx) & [M1 M2 M3 M4 M5 M6]). rewrite bool_decide_false in Hx; [|rewrite Hits; lia].
    destruct Hx as (C & n & st & kvs & Hok & Hij & -> & ->).
    destruct (hist_pic cb dom domV WF _ _ _ _ _ _ _ _ _ HH Hm HP) as (i' & f' & lv' & root & σ & σf & Hon & Hits' & -> & HS).
    destruct (leaf_toks cb dom domV (mnof f') h g root C n st kvs ltac:(apply HS) Hok) as [_ Hit].
    assert (touched (plen C + Z.of_nat (length kvs)) (fill (dirtyC C) (GL n Dirty kvs))) as Hto'.
    { eapply (touched_up (mnof f') C ltac:(lia) 0 (i - plen C) _ (GL n st kvs)); [apply Hok|lia| | |by right].
      - rewrite /gsz /= csz_CL. lia.
      - replace (plen C + (i - plen C)) with i by lia. eapply touched_same; [|exact Hto]. apply Hok. }
    eexists _, S', _. split_and!; [done|lia| |exact M1|exact Hto'|].
    - rewrite -Hits Hit !app_length. unfold plen. lia.
    - rewrite (strip_dirtyC _ _ (GL n st kvs)) //. rewrite -!strip_vw. f_equal. apply Hok.
  Qed.
  Theorem item_out hi s t m i r s' : history hi s → contents (after hi) t = Some m → Z.of_nat (length m) ≤ i →
    exec cb (TouchItem t i) s = ORet r s' → r = RPos 0.
  Proof using WF.
    intros HH Hm Hi He. destruct (usable_of _ _ _ Hm) as (f & lv & Hu).
    destruct (tree_shape cb dom domV WF _ _ _ _ HH Hm) as (mn & ca & S & h & g & HP & _ & Hits & _).
    assert (legal dom domV (after hi) (TouchItem t i)) as Hl by (split; [eauto|lia]).
    pose proof (hist_call cb dom domV WF _ _ _ _ _ _ _ _ _ (TouchItem t i) HH Hm HP eq_refl Hl) as HC. rewrite He in HC.
    destruct HC as (S' & h' & g' & (-> & Hx) & _). rewrite bool_decide_true in Hx; [by destruct Hx as [-> _]|by rewrite Hits].
  Qed.
  (** the blocks of a tree are the same ones as long as storage is *)
  Lemma moved_same s t mn ca S h g s' S' h' g' : moved cb dom domV s t mn ca S h g s' S' h' g' → disk s' = disk s →
    (∀ l, l ∈ locs g ++ S → is_Some (disk s !! l)) → ∀ l, l ∈ locs g' ++ S' ↔ l ∈ locs g ++ S.
  Proof.
    intros [_ _ _ _ M5 M6] Hdk Hin0 l. split; intros Hin.
    - destruct (M5 l Hin) as [b Hb]. destruct (decide (l ∈ locs g ++ S)) as [|Hn]; [done|exfalso].
      by destruct (proj1 (M6 l b)) as [_ []]; [split; [by rewrite -Hdk|done]|].
    - destruct (Hin0 l Hin) as [b Hb]. destruct (decide (l ∈ locs g' ++ S')) as [|Hn]; [done|exfalso].
      by destruct (proj2 (M6 l b)) as [_ []]; [split; [by rewrite Hdk|done]|].
  Qed.
  Lemma sweep_any t i s j s' : sweep t i s j s' → ∀ hi m mn ca S h g, history hi s → contents (after hi) t = Some m → pictured s t mn ca S h g →
    0 ≤ i → touched i g →
    ∃ hi' S' g', history hi' s' ∧ contents (after hi') t = Some m ∧ pictured s' t mn ca S' h g' ∧ touched j g' ∧ strip g' = strip g ∧
      disk s' = disk s ∧ ∀ l, l ∈ locs g' ++ S' ↔ l ∈ locs g ++ S.
  Proof using WF.
    induction 1 as [i s|i s j s1 k s' He _ IH]; intros hi m mn ca S h g HH Hm HP Hi Hto.
    - by exists hi, S, g.
    - destruct (usable_of _ _ _ Hm) as (f & lv & Hu).
      assert (legal dom domV (after hi) (TouchItem t i)) as Hl by (split; [eauto|lia]).
      assert (disk s1 = disk s) as Hdk. { pose proof (ls_exec cb false (TouchItem t i) I s) as HX. by rewrite He in HX. }
      destruct (same_contents cb dom domV WF _ _ _ _ _ _ _ HH Hm Hl He I) as [HH1 Hm1].
      assert (∀ l, l ∈ locs g ++ S → is_Some (disk s !! l)) as Hin0.
      { destruct (tree_shape cb dom domV WF _ _ _ _ HH Hm) as (mn' & ca' & S' & h' & g' & HP' & _ & _ & _ & _ & _ & Hin).
        destruct (pictured_inj cb dom domV WF _ _ _ _ _ _ _ _ _ _ _ _ HP' HP) as (-> & -> & -> & -> & ->). done. }
      assert (∃ S1 g1, pictured s1 t mn ca S1 h g1 ∧ 0 ≤ j ∧ touched j g1 ∧ strip g1 = strip g ∧ ∀ l, l ∈ locs g1 ++ S1 ↔ l ∈ locs g ++ S) as (S1 & g1 & HP1 & Hj & Ht1 & Hs1 & HL1).
      { pose proof (hist_call cb dom domV WF _ _ _ _ _ _ _ _ _ (TouchItem t i) HH Hm HP eq_refl Hl) as HC. rewrite He in HC.
        destruct HC as (S' & h' & g' & (-> & Hx) & HM). pose proof (moved_same _ _ _ _ _ _ _ _ _ _ _ HM Hdk Hin0) as HL.
        exists S', g'. destruct (decide (Z.of_nat (length m) ≤ i)) as [Hge|Hlt].
        - pose proof (item_out _ _ _ _ _ _ _ HH Hm Hge He) as [= ->].
          destruct (height_bound cb dom domV WF _ _ _ _ _ _ _ _ _ HH Hm HP) as (_ & _ & Hits & _).
          rewrite bool_decide_true in Hx; [|by rewrite Hits]. destruct Hx as (_ & -> & ->). split_and!; [apply HM|done|by apply touched_le|done|done].
        - assert (0 ≤ i < Z.of_nat (length m)) as Hr by lia. destruct (sweep_step _ _ _ _ _ _ _ _ _ _ _ _ HH Hm HP Hr Hto He) as (j' & S1 & g1 & [= <-] & Hj & HP1 & Ht1 & Hs1).
          destruct (pictured_inj cb dom domV WF _ _ _ _ _ _ _ _ _ _ _ _ (mv_pic _ _ _ _ _ _ _ _ _ _ _ _ _ _ HM) HP1) as (_ & _ & -> & _ & ->).
          split_and!; [done|lia|done..]. }
      destruct (IH _ _ _ _ _ _ _ HH1 Hm1 HP1 Hj Ht1) as (hi' & S' & g' & X1 & X2 & X3 & X4 & X5 & X6 & X7).
      exists hi', S', g'. split_and!; [done..|congruence|congruence|]. intros l. by rewrite X7 HL1.
  Qed.
  (** a sweep from 0 to the number of items leaves no node unmarked *)
  Theorem sweep_covers hi s t m mn ca S h g s' : history hi s → contents (after hi) t = Some m → m ≠ [] → pictured s t mn ca S h g →
    sweep t 0 s (Z.of_nat (length m)) s' →
    ∃ hi' S' g', history hi' s' ∧ contents (after hi') t = Some m ∧ pictured s' t mn ca S' h g' ∧ alldirty g' ∧ strip g' = strip g ∧
      disk s' = disk s ∧ ∀ l, l ∈ S' ↔ l ∈ locs g ++ S.
  Proof using WF.
    intros HH Hm Hne HP Hsw. destruct (sweep_any _ _ _ _ _ Hsw _ _ _ _ _ _ _ HH Hm HP (Z.le_refl 0) (touched_le 0 g (Z.le_refl 0))) as (hi' & S' & g' & X1 & X2 & X3 & X4 & X5 & X6 & X7).
    destruct (height_bound cb dom domV WF _ _ _ _ _ _ _ _ _ X1 X2 X3) as (Hmn & Hw & Hits & _).
    assert (alldirty g') as Hd.
    { eapply (touched_full mn g' ltac:(lia)); [exact Hw| |exact X4|]; rewrite /gsz /csz Hits; [|done]. destruct m; [done|cbn; lia]. }
    exists hi', S', g'. split_and!; try done. intros l. rewrite -X7 (alldirty_locs _ Hd). done.
  Qed.
  Theorem sweep_rewrites hi s t m mn ca S h g s1 ap r2 s2 r3 s3 : history hi s → contents (after hi) t = Some m → m ≠ [] → pictured s t mn ca S h g →
    sweep t 0 s (Z.of_nat (length m)) s1 → exec cb (Flush t ap) s1 = ORet r2 s2 → exec cb (Prune t) s2 = ORet r3 s3 →
    ∃ g' d, pictured s3 t mn ca [] h g' ∧ strip g' = strip g ∧ image g' = Some d ∧ r2 = RLoc (dloc d) ∧ NoDup (locs g') ∧ locs g' = dlocs d ∧
      (∀ l, l ∈ locs g' → disk s !! l = None ∧ is_Some (disk s3 !! l)) ∧ (∀ l, l ∈ locs g ++ S → disk s3 !! l = None).
  Proof using WF.
    intros HH Hm Hne HP H1 H2 H3.
    destruct (sweep_covers _ _ _ _ _ _ _ _ _ _ HH Hm Hne HP H1) as (hi' & S1 & g1 & HH1 & Hm1 & HP1 & Hd1 & Hs1 & Hdk & HS1).
    destruct (moved_out cb dom domV WF _ _ _ _ _ _ _ _ _ _ _ _ _ _ HH1 Hm1 HP1 Hd1 H2 H3) as (g' & d & X1 & X2 & X3 & X4 & X5 & X6 & X7 & X8).
    rewrite Hdk in X7. exists g', d. split_and!; [done|congruence|done..|]. intros l Hin. by apply X8, HS1.
  Qed.
  Theorem sweep_progress hi s t m i r s' : history hi s → contents (after hi) t = Some m → 0 ≤ i → exec cb (TouchItem t i) s = ORet r s' →
    ∃ j, r = RPos j ∧ if bool_decide (i < Z.of_nat (length m)) then i < j ≤ Z.of_nat (length m) else j = 0.
  Proof using WF.
    intros HH Hm Hi He. case_bool_decide as Hlt.
    - destruct (tree_shape cb dom domV WF _ _ _ _ HH Hm) as (mn & ca & S & h & g & HP & _).
      destruct (usable_of _ _ _ Hm) as (f & lv & Hu).
      assert (legal dom domV (after hi) (TouchItem t i)) as Hl by (split; [eauto|lia]).
      destruct (height_bound cb dom domV WF _ _ _ _ _ _ _ _ _ HH Hm HP) as (Hmn & Hw & Hits & _).
      pose proof (hist_call cb dom domV WF _ _ _ _ _ _ _ _ _ (TouchItem t i) HH Hm HP eq_refl Hl) as HC. rewrite He in HC.
      destruct HC as (S' & h' & g' & (-> & Hx) & _). rewrite bool_decide_false in Hx; [|rewrite Hits; lia].
      destruct Hx as (C & n & st & kvs & Hok & Hij & _ & ->). eexists. split; [done|]. split; [lia|].
      destruct (hist_pic cb dom domV WF _ _ _ _ _ _ _ _ _ HH Hm HP) as (i' & f' & lv' & root & σ & σf & Hon & Hits' & -> & HS).
      destruct (leaf_toks cb dom domV (mnof f') h g root C n st kvs ltac:(apply HS) Hok) as [_ Hit].
      rewrite -Hits Hit !app_length. unfold plen. lia.
    - exists 0. split; [|done]. apply (item_out hi s t m i r s' HH Hm); [lia|done].
  Qed.
End sweep.

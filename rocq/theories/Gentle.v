(** * Compare failing during a lookup that reads nothing from storage

    [gentle m' m]: whenever [m] returns without having called the storage, it has changed nothing but the
    bookkeeping of the node cache, and [m'] either does exactly the same or returns Compare's error, having
    changed nothing but that bookkeeping either.  Models no code. *)
From Coq Require Import ssreflect.
From stdpp Require Import prelude list gmap.
From Verif Require Import Spec Llrb LlrbFailed BTree Lru Wp Codec Machine World Client Hist History Strangers Cost.
From Verif Require Sample.
Open Scope Z_scope.

(** nothing but the order of the cache's lists and its counters differs *)
Record kept {K V} (s s' : st K V) : Prop := Kept {
  kt_nodes : nodes s' = nodes s; kt_pss : pss s' = pss s; kt_trees : trees s' = trees s;
  kt_disk : disk s' = disk s; kt_io : iocount s' = iocount s; kt_orc : orc s' = orc s; kt_fresh : fresh s' = fresh s;
  kt_tags : ∀ n, ctg <$> cells s' !! n = ctg <$> cells s !! n }.
(** well-formed lists stay so *)
Definition sorted_on {K V} (s s' : st K V) : Prop := (∃ L, lru s L) → ∃ L, lru s' L.

Section gentle.
  Context {K V : Type}.
  Variables cb cb' : callbacks K V.
  Hypothesis AG : ∀ x y, cb_cmp cb' x y = None ∨ cb_cmp cb' x y = cb_cmp cb x y.
  Notation st := (st K V).
  Notation M := (M K V).
  Notation bval := (bval V).
  Notation llrb := (tree K bval).
  Implicit Types (s : st).

  Lemma kept_refl s : kept s s.
  Proof using. done. Qed.
  Lemma kept_trans s1 s2 s3 : kept s1 s2 → kept s2 s3 → kept s1 s3.
  Proof using. intros [A1 A2 A3 A4 A5 A6 A7 A8] [B1 B2 B3 B4 B5 B6 B7 B8]. split; congruence. Qed.
  (** the same, for the steps inside one update of the lists *)
  Definition light0 {A} (m : M A) : Prop := ∀ s a s1, m s = ORet a s1 → kept s s1.
  Lemma l0_bind {A B} (m : M A) (f : A → M B) : light0 m → (∀ a, light0 (f a)) → light0 (bind m f).
  Proof using.
    intros Lm Lf s b s2. unfold bind; cbn [run]. destruct (m s) as [a s1| |] eqn:E; [|done..]. intros H.
    eapply kept_trans; [by eapply Lm|by eapply Lf].
  Qed.
  Lemma l0_ret {A} (a : A) : light0 (ret a).
  Proof using. intros s b s1 [= _ <-]. done. Qed.
  Lemma l0_panic {A} : light0 (A:=A) panic.
  Proof using. done. Qed.
  Lemma l0_getC n : light0 (getC n).
  Proof using. intros s a s1. cbn. destruct (_ !! _); [|done]. by intros [= _ <-]. Qed.
  Lemma l0_modC n f : (∀ c, ctg (f c) = ctg c) → light0 (modC n f).
  Proof using.
    intros Hf s a s1. cbn. destruct (cells s !! n) as [c|] eqn:E; [|done]. intros [= _ <-]. split; try done. cbn. intros m.
    destruct (decide (m = n)) as [->|]; [by rewrite lookup_insert E /= Hf|by rewrite lookup_insert_ne].
  Qed.
  Lemma l0_getCache : light0 getCache.
  Proof using. intros s a s1. cbn. by intros [= _ <-]. Qed.
  Lemma l0_modCache f : light0 (modCache f).
  Proof using. intros s a s1. cbn. by intros [= _ <-]. Qed.
  Create HintDb l0 discriminated.
  Local Hint Resolve l0_ret l0_panic l0_getC l0_getCache l0_modCache : l0.
  Local Hint Extern 1 (light0 (modC _ _)) => (apply l0_modC; intros []; reflexivity) : l0.
  Ltac l0 := repeat match goal with
    | |- light0 (bind _ _) => apply l0_bind; [|intros ?]
    | |- light0 (match ?x with _ => _ end) => destruct x
    | _ => solve [auto with l0 nocore]
    end.
  Lemma l0_lruToTail d n : light0 (lruToTail d n).
  Proof using. unfold lruToTail, getQ, modQ, putNext, putPrev, deref. l0. Qed.

  Definition fine s s' : Prop := kept s s' ∧ sorted_on s s'.
  Lemma fine_refl s : fine s s.
  Proof using. split; [done|]. by intros H. Qed.
  Lemma fine_trans s1 s2 s3 : fine s1 s2 → fine s2 s3 → fine s1 s3.
  Proof using. intros [K1 L1] [K2 L2]. split; [by eapply kept_trans|]. intros H. auto. Qed.
  Definition gentle {A} (m' m : M A) : Prop := ∀ s a s1, m s = ORet a s1 →
    (iocount s ≤ iocount s1)%nat ∧
    (iocount s1 = iocount s → fine s s1 ∧ (m' s = ORet a s1 ∨ ∃ s2, m' s = OErr ECmp s2 ∧ fine s s2)).

  (** the same program on both sides, changing nothing but bookkeeping *)
  Definition light {A} (m : M A) : Prop := ∀ s a s1, m s = ORet a s1 → fine s s1.
  Lemma ge_light {A} (m : M A) : light m → gentle m m.
  Proof using. intros L s a s1 H. pose proof (L _ _ _ H) as HK. split; [by rewrite (kt_io _ _ (proj1 HK))|]. intros _. split; [done|by left]. Qed.
  Lemma li_bind {A B} (m : M A) (f : A → M B) : light m → (∀ a, light (f a)) → light (bind m f).
  Proof using.
    intros Lm Lf s b s2. unfold bind; cbn [run]. destruct (m s) as [a s1| |] eqn:E; [|done..]. intros H.
    eapply fine_trans; [by eapply Lm|by eapply Lf].
  Qed.
  Lemma ge_bind {A B} (m' m : M A) (f' f : A → M B) : gentle m' m → (∀ a, gentle (f' a) (f a)) → gentle (bind m' f') (bind m f).
  Proof using.
    intros Gm Gf s b s2. unfold bind; cbn [run]. destruct (m s) as [a s1| |] eqn:E; [|done..]. intros H.
    destruct (Gm _ _ _ E) as (I1 & H1). destruct (Gf _ _ _ _ H) as (I2 & H2). split; [lia|]. intros I.
    destruct H1 as (K1 & H1); [lia|]. destruct H2 as (K2 & H2); [lia|]. split; [by eapply fine_trans|].
    destruct H1 as [-> | (s3 & -> & K3)]; [|right; by eauto].
    destruct H2 as [-> | (s3 & -> & K3)]; [by left|right]. exists s3. split; [done|by eapply fine_trans].
  Qed.
  Lemma ge_failed {A} (m : M A) : light m → gentle (fail ECmp) m.
  Proof using. intros L s a s1 H. pose proof (L _ _ _ H) as HK. split; [by rewrite (kt_io _ _ (proj1 HK))|]. intros _. split; [done|right]. exists s. split; [done|apply fine_refl]. Qed.

  Lemma li_ret {A} (a : A) : light (ret a).
  Proof using. intros s b s1 [= _ <-]. apply fine_refl. Qed.
  Lemma li_fail {A} e : light (A:=A) (fail e).
  Proof using. done. Qed.
  Lemma li_panic {A} : light (A:=A) panic.
  Proof using. done. Qed.
  Lemma li_nofuel {A} : light (A:=A) nofuel.
  Proof using. done. Qed.
  Lemma li_atomic {A} (m : M A) : light m → light (atomic m).
  Proof using. done. Qed.
  Lemma li_getN n : light (getN n).
  Proof using. intros s a s1. cbn. destruct (_ !! _); [|done]. (intros [= _ <-]; apply fine_refl). Qed.
  Lemma li_getP n : light (getP n).
  Proof using. intros s a s1. cbn. destruct (_ !! _); [|done]. (intros [= _ <-]; apply fine_refl). Qed.
  Lemma li_getT n : light (getT n).
  Proof using. intros s a s1. cbn. destruct (_ !! _); [|done]. (intros [= _ <-]; apply fine_refl). Qed.
  Lemma li_lift {A} (m : lo A) : light (lift m).
  Proof using. destruct m; [apply li_ret|done..]. Qed.
  Create HintDb li discriminated.
  Local Hint Resolve li_ret li_fail li_panic li_nofuel li_getN li_getP li_getT li_lift : li.
  Ltac li1 :=
    match goal with
    | |- light (bind _ _) => apply li_bind; [|intros ?]
    | |- light (atomic _) => apply li_atomic
    | H : ∀ _, light _ |- light _ => apply H
    | |- light (match ?x with _ => _ end) => destruct x
    | _ => solve [auto with li nocore]
    end.
  Ltac li := repeat li1.
  Lemma li_deref o : light (deref o).
  Proof using. unfold deref. li. Qed.
  Local Hint Resolve li_deref : li.
  Lemma li_kvOf n : light (kvOf n).
  Proof using. unfold kvOf. li. Qed.
  Local Hint Resolve li_kvOf : li.
  Lemma li_kvGet n i : light (kvGet n i).
  Proof using. unfold kvGet. li. Qed.
  Local Hint Resolve li_kvGet : li.
  Lemma li_asNode v : light (asNode v).
  Proof using. unfold asNode. li. Qed.
  Lemma li_asUser v : light (asUser v).
  Proof using. unfold asUser. li. Qed.
  Local Hint Resolve li_asNode li_asUser : li.
  Lemma li_markNodeUsed t n : light (markNodeUsed t n).
  Proof using.
    intros s a s1. unfold markNodeUsed, whenCache, bind, atomic, getT, getC. cbn [run].
    destruct (trees s !! t) as [T|]; [|done]. destruct (t_cache T); [|(intros [= _ <-]; apply fine_refl)]. cbn [run].
    destruct (cells s !! n) as [c|] eqn:Hc; [|done].
    assert (∀ d, ctg c = side d → lruToTail d n s = ORet a s1 → fine s s1) as HT.
    { intros d Hd H. split; [by eapply l0_lruToTail|]. intros [L HL].
      assert (n ∈ L d) as Hin.
      { destruct (decide (n ∈ L d)) as [|Hn]; [done|exfalso]. destruct (decide (n ∈ L (negb d))) as [Hn'|Hn'].
        - destruct (seg_lookup _ _ _ _ _ _ (lru_seg _ _ _ HL (negb d)) Hn') as (c' & Hc' & Ht). rewrite Hc in Hc'. injection Hc' as <-.
          rewrite Hd in Ht. by destruct d.
        - assert (c = Cell noLRU None None) as -> by (destruct d; apply (lru_none _ _ _ HL n c Hc); first [assumption|tauto]). by destruct d. }
      apply elem_of_list_split in Hin as (L1 & L2 & HL12). destruct (lruToTail_spec s L d n L1 L2 HL HL12) as (s' & Hr & _ & L' & HL' & _).
      rewrite H in Hr. injection Hr as _ ->. by exists L'. }
    destruct (ctg c); [done|apply (HT false eq_refl)|apply (HT true eq_refl)].
  Qed.
  Lemma li_incCacheHits t : light (incCacheHits t).
  Proof using.
    intros s a s1. unfold incCacheHits, whenCache, bind, atomic, getT, modCache. cbn [run].
    destruct (trees s !! t) as [T|]; [|done]. destruct (t_cache T); [|(intros [= _ <-]; apply fine_refl)]. cbn. intros [= _ <-]. split; [done|].
    intros [L HL]. exists L. destruct HL. by split.
  Qed.
  Local Hint Resolve li_markNodeUsed li_incCacheHits : li.
  Lemma li_leftSum p : light (leftSum p).
  Proof using. unfold leftSum. li. Qed.
  Local Hint Resolve li_leftSum : li.
  Lemma li_climb : ∀ fuel c acc, light (climb fuel c acc).
  Proof using. induction fuel; intros; cbn [climb]; li. Qed.
  Lemma li_unclimb : ∀ stack c delta, light (unclimb c stack delta).
  Proof using. induction stack; intros; cbn [unclimb]; li. Qed.
  Local Hint Resolve li_climb li_unclimb : li.
  Lemma li_childOffset fuel n c delta : light (childOffset fuel n c delta).
  Proof using. unfold childOffset. li. Qed.
  Lemma li_walkPs : ∀ fuel c i, light (walkPs fuel c i).
  Proof using. induction fuel; intros; cbn [walkPs]; li. Qed.
  Lemma li_rootOf t : light (rootOf t).
  Proof using. unfold rootOf. li. Qed.
  Local Hint Resolve li_childOffset li_walkPs li_rootOf : li.

  (** ** What compares *)
  Lemma ge_compareM a b : gentle (compareM cb' a b) (compareM cb a b).
  Proof using AG. unfold compareM. destruct (AG a b) as [-> | ->]; [apply ge_failed|apply ge_light]; li. Qed.
  Lemma ge_kvGetKey n k : gentle (kvGetKey cb' n k) (kvGetKey cb n k).
  Proof using AG.
    unfold kvGetKey. apply ge_bind; [apply ge_light; li|]. intros t.
    destruct (ei_get (cb_cmp cb) (cb_cmp cb') AG t k) as [-> | ->]; [apply ge_failed|apply ge_light]; li.
  Qed.
  Lemma ge_kvBisectLeft n k : gentle (kvBisectLeft cb' n k) (kvBisectLeft cb n k).
  Proof using AG.
    unfold kvBisectLeft. apply ge_bind; [apply ge_light; li|]. intros t.
    assert (BisectLeft (cb_cmp cb') t k = LRet (RErr false) ∨ BisectLeft (cb_cmp cb') t k = BisectLeft (cb_cmp cb) t k) as [-> | ->].
    { destruct t; [by right|]. apply (ei_left (cb_cmp cb) (cb_cmp cb') AG). }
    - apply (ge_failed (bind (lift (BisectLeft (cb_cmp cb) t k)) _)). li.
    - apply ge_light. li.
  Qed.
  Lemma ge_kvBisectRight n k : gentle (kvBisectRight cb' n k) (kvBisectRight cb n k).
  Proof using AG.
    unfold kvBisectRight. apply ge_bind; [apply ge_light; li|]. intros t.
    assert (BisectRight (cb_cmp cb') t k = LRet (RErr false) ∨ BisectRight (cb_cmp cb') t k = BisectRight (cb_cmp cb) t k) as [-> | ->].
    { destruct t; [by right|]. apply (ei_right (cb_cmp cb) (cb_cmp cb') AG). }
    - apply (ge_failed (bind (lift (BisectRight (cb_cmp cb) t k)) _)). li.
    - apply ge_light. li.
  Qed.
  Lemma ge_findChild n k : gentle (findChild cb' n k) (findChild cb n k).
  Proof using AG.
    unfold findChild. apply ge_bind; [apply ge_light; li|]. intros o. apply ge_bind; [apply ge_light; li|]. intros r.
    destruct o as [[mk mv]|]; [|apply ge_light; li]. apply ge_bind; [apply ge_compareM|]. intros c.
    destruct (c <? 0); [apply ge_light; li|]. apply ge_bind; [apply ge_kvBisectLeft|]. intros [i b]. apply ge_light. li.
  Qed.
  (** a node that is in memory is visited alike; one that is not is read from storage *)
  Lemma ge_visit mark t n : gentle (visit cb' mark t n) (visit cb mark t n).
  Proof using.
    unfold visit. apply ge_bind; [apply ge_light; li|]. intros r. destruct (b_loaded r); [apply ge_light; li|].
    intros s a s1. unfold bind; cbn [run]. pose proof (miss_run t s) as HM. destruct (incCacheMisses t s) as [u s2| |]; [|done..].
    destruct HM as (M1 & _). pose proof (once_loadNode cb t t n s2) as HO. intros H. rewrite H in HO. destruct HO as (H1 & _).
    split; [lia|]. lia.
  Qed.
  Lemma ge_descendKey mark t k : ∀ fuel n stack, gentle (descendKey cb' fuel mark t n stack k) (descendKey cb fuel mark t n stack k).
  Proof using AG.
    induction fuel as [|fuel IH]; intros n stack; cbn [descendKey]; [by apply ge_light|].
    apply ge_bind; [apply ge_visit|]. intros _. apply ge_bind; [apply ge_light; li|]. intros r.
    destruct (b_leaf r); [apply ge_light; li|]. apply ge_bind; [apply ge_findChild|]. intros [c o]. apply IH.
  Qed.
  Lemma ge_descendBisect fuel0 t k : ∀ fuel n delta, gentle (descendBisect cb' fuel0 fuel t n delta k) (descendBisect cb fuel0 fuel t n delta k).
  Proof using AG.
    induction fuel as [|fuel IH]; intros n delta; cbn [descendBisect]; [by apply ge_light|].
    apply ge_bind; [apply ge_visit|]. intros _. apply ge_bind; [apply ge_light; li|]. intros r.
    destruct (b_leaf r); [apply ge_light; li|]. apply ge_bind; [apply ge_findChild|]. intros [c [i|]]; [|apply IH].
    destruct (i =? -1); [apply IH|]. apply ge_bind; [apply ge_light; li|]. intros [c' d']. apply IH.
  Qed.
  Lemma ge_descendIndex fuel0 mark t : ∀ fuel n i stack, gentle (descendIndex cb' fuel0 fuel mark t n i stack) (descendIndex cb fuel0 fuel mark t n i stack).
  Proof using.
    induction fuel as [|fuel IH]; intros n i stack; cbn [descendIndex]; [by apply ge_light|].
    apply ge_bind; [apply ge_visit|]. intros _. apply ge_bind; [apply ge_light; li|]. intros r.
    destruct (b_leaf r); [apply ge_light; li|]. apply ge_bind; [apply ge_light; li|]. intros m.
    apply ge_bind; [apply ge_light; li|]. intros [c i']. apply ge_bind; [apply ge_light; li|]. intros pc. apply IH.
  Qed.
  Lemma ge_fuel {A} (f' f : nat → M A) : (∀ n, gentle (f' n) (f n)) → gentle (with_fuel f') (with_fuel f).
  Proof using. intros H. unfold with_fuel. apply ge_bind; [|done]. apply ge_light. intros s a s1 [= _ <-]. apply fine_refl. Qed.

  (** the calls that look without changing *)
  Definition looks (c : call K V) : bool :=
    match c with CGetByKey _ | CGetByIndex _ | CBisectLeft _ | CBisectRight _ | CLen => true | _ => false end.
  Lemma ge_call t c : looks c = true → gentle (bt_call cb' t c) (bt_call cb t c).
  Proof using AG.
    destruct c; try done; intros _; cbn [bt_call].
    all: unfold bt_GetByKey, bt_GetByIndex, bt_BisectLeft, bt_BisectRight, bt_Len.
    all: try (apply ge_fuel; intros fuel); apply ge_bind; [apply ge_light; li|]; intros rt.
    - apply ge_bind; [apply ge_descendKey|]. intros [n stack]. apply ge_bind; [apply ge_kvGetKey|]. intros o. apply ge_light. li.
    - apply ge_bind; [apply ge_light; li|]. intros r. destruct (_ || _); [apply ge_light; li|].
      apply ge_bind; [apply ge_descendIndex|]. intros [[n i'] stack]. apply ge_light. li.
    - apply ge_bind; [apply ge_descendBisect|]. intros [n delta]. apply ge_bind; [apply ge_kvBisectLeft|]. intros [j b]. apply ge_light. li.
    - apply ge_bind; [apply ge_descendBisect|]. intros [n delta]. apply ge_bind; [apply ge_kvBisectRight|]. intros [j b]. apply ge_light. li.
    - apply ge_bind; [apply ge_visit|]. intros _. apply ge_light. li.
  Qed.
  Lemma ge_exec t c : looks c = true → gentle (exec cb' (MapCall t c)) (exec cb (MapCall t c)).
  Proof using AG. intros H. cbn [exec]. apply ge_bind; [by apply ge_call|]. intros a. apply ge_light. li. Qed.
End gentle.

(** what the lookups may change does not matter to anything that is called later *)
Lemma fine_winv {K V} (cb : callbacks K V) dom domV w s s' : fine s s' → winv cb dom domV w s → winv cb dom domV w s'.
Proof.
  intros [[A1 A2 A3 A4 A5 A6 A7 A8] HS] [[I1 I2 I3 I4 I5] W2 W3 W4 W5 (σ & Hv & Hr)].
  assert (∀ n, is_Some (cells s' !! n) ↔ is_Some (cells s !! n)) as Hc.
  { intros n. rewrite -!(fmap_is_Some ctg) A8. done. }
  split.
  - split; rewrite ?A1 ?A2 ?A3 ?A7; [by apply HS|done..| |done].
    intros n r Hn. destruct (proj1 (Hc n)) as [r' Hr']; [by eexists|]. by eapply I4.
  - rewrite A1 -W2. apply set_eq. intros n. by rewrite !elem_of_dom Hc.
  - done.
  - by rewrite A1.
  - by rewrite A3.
  - exists σ. split; [|done]. intros k. rewrite -Hv. destruct k as [n|n|n|l|t]; cbn; rewrite ?A1 ?A2 ?A3 ?A4; try done.
    specialize (A8 n). destruct (cells s' !! n) as [x|], (cells s !! n) as [y|]; cbn in A8; try done. injection A8 as A8. cbn. by rewrite A8.
Qed.
Theorem lookup_failing {K V} (cb cb' : callbacks K V) (dom : K → Prop) (domV : V → Prop) : wf_cb cb dom domV →
  (∀ x y, cb_cmp cb' x y = None ∨ cb_cmp cb' x y = cb_cmp cb x y) →
  ∀ hi s t (c : call K V) r s1, Sample.history cb dom domV hi s → looks c = true → exec cb (MapCall t c) s = ORet r s1 → made s s1 = [] →
  exec cb' (MapCall t c) s = ORet r s1 ∨
  ∃ s2, exec cb' (MapCall t c) s = OErr ECmp s2 ∧ kept s s2 ∧ carries_on cb dom domV (after (cb_cmp cb) hi) s2.
Proof.
  intros WF AG hi s t c r s1 HH Hl HE HM. destruct (ge_exec cb cb' AG t c Hl s r s1 HE) as (I & H).
  destruct H as (_ & [H|(s2 & H & HF)]).
  { unfold made in HM. apply fmap_nil_inv in HM. destruct (iocount s1 - iocount s)%nat eqn:E; [lia|done]. }
  - by left.
  - right. exists s2. split_and!; [done|by destruct HF|]. apply (winv_on cb dom domV WF).
    destruct (hist_facts cb dom domV WF _ _ HH) as (_ & _ & HW). by eapply fine_winv.
Qed.

(** * Unreadable blocks

    A run on a storage some of whose blocks cannot be read as nodes, next to the
    run of the same program on the undamaged storage: as long as no error is
    returned the two do the same.  Models no code. *)
From Coq Require Import ssreflect.
From stdpp Require Import prelude list gmap.
From Verif Require Import Spec Llrb BTree Pres Machine Format.
Open Scope Z_scope.

(** [d'] is [d] with some blocks replaced by bytes that are not a node *)
Definition spoiled {K V} (cb : callbacks K V) (d d' : gmap loc bytes) : Prop :=
  ∀ l, match d !! l, d' !! l with
       | Some b, Some b' => b' = b ∨ read cb b' = None
       | None, None => True
       | _, _ => False
       end.

Section hurt.
  Context {K V : Type}.
  Variable cb : callbacks K V.
  Notation st := (st K V).
  Notation M := (M K V).
  Notation bval := (bval V).
  Notation bnode := (bnode K V).
  Notation llrb := (tree K bval).
  Notation spoiled := (spoiled cb).
  Implicit Types s : st.

  Lemma spoiled_size d d' : spoiled d d' → size d' = size d.
  Proof.
    intros H. rewrite -!size_dom. f_equal. apply set_eq. intros l. rewrite !elem_of_dom. specialize (H l).
    destruct (d !! l), (d' !! l); try done; split; intros [? ?]; done.
  Qed.
  Lemma spoiled_insert d d' l b : spoiled d d' → spoiled (<[l := b]> d) (<[l := b]> d').
  Proof. intros H l'. destruct (decide (l' = l)) as [->|]; [rewrite !lookup_insert; by left|rewrite !lookup_insert_ne //]. apply H. Qed.
  Lemma spoiled_delete d d' l : spoiled d d' → spoiled (base.delete l d) (base.delete l d').
  Proof. intros H l'. destruct (decide (l' = l)) as [->|]; [by rewrite !lookup_delete|rewrite !lookup_delete_ne //]. apply H. Qed.

  (** [s'] is [s] on a spoiled storage *)
  Definition hurt s s' : Prop := s' = set_disk (disk s') s ∧ spoiled (disk s) (disk s').
  Lemma hurt_set s s' d d' : hurt s s' → spoiled d d' → hurt (set_disk d s) (set_disk d' s').
  Proof. intros [H _] Hd. split; [|done]. remember (disk s') as e. subst s'. done. Qed.
  (** [x]: also errors are the same *)
  Definition like (x : bool) {A} (o o' : out K V A) : Prop :=
    match o' with
    | ORet a s' => ∃ s, o = ORet a s ∧ hurt s s'
    | OErr e s' => x = true → ∃ s, o = OErr e s ∧ hurt s s'
    | OStop w s' => x = true → ∃ s, o = OStop w s ∧ hurt s s'
    end.
  Definition sim (x : bool) {A} (m : M A) : Prop := ∀ s s', hurt s s' → like x (m s) (m s').

  Lemma hu_ret {A} x (a : A) : sim x (ret a).
  Proof. intros s s' H. by exists s. Qed.
  Lemma hu_fail {A} x e : sim x (A:=A) (fail e).
  Proof. intros s s' H _. by exists s. Qed.
  Lemma hu_panic {A} x : sim x (A:=A) panic.
  Proof. intros s s' H _. by exists s. Qed.
  Lemma hu_nofuel {A} x : sim x (A:=A) nofuel.
  Proof. intros s s' H _. by exists s. Qed.
  Lemma hu_envbad {A} x : sim x (A:=A) envbad.
  Proof. intros s s' H _. by exists s. Qed.
  Lemma hu_bind {A B} x (m : M A) (f : A → M B) : sim x m → (∀ a, sim x (f a)) → sim x (bind m f).
  Proof.
    intros Hm Hf s s' H. cbn [run bind]. specialize (Hm s s' H). unfold like in Hm. destruct (m s') as [a s1|e s1|w s1]; cbn [like].
    - destruct Hm as (s2 & -> & H2). by apply Hf.
    - intros Hx. destruct (Hm Hx) as (s2 & -> & H2). by exists s2.
    - intros Hx. destruct (Hm Hx) as (s2 & -> & H2). by exists s2.
  Qed.
  Lemma hu_try {A} x (m : M A) h : sim true m → (∀ e, sim x (h e)) → sim x (Try m h).
  Proof.
    intros Hm Hh s s' H. cbn [run]. specialize (Hm s s' H). unfold like in Hm. destruct (m s') as [a s1|e s1|w s1]; cbn [like].
    - destruct Hm as (s2 & -> & H2). by exists s2.
    - destruct (Hm eq_refl) as (s2 & -> & H2). by apply Hh.
    - intros _. destruct (Hm eq_refl) as (s2 & -> & H2). by exists s2.
  Qed.
  Lemma hu_ignoreErr x m : sim true m → sim x (ignoreErr m).
  Proof. intros Hm. apply hu_try; [done|]. intros _. apply hu_ret. Qed.
  Lemma hu_atomic {A} x (m : M A) : sim x m → sim x (atomic m).
  Proof. done. Qed.
  (** steps that do not look at the storage *)
  Lemma hu_blind {A} x (f : st → out K V A) :
    (∀ s d, f (set_disk d s) = match f s with ORet a s => ORet a (set_disk d s) | OErr e s => OErr e (set_disk d s) | OStop w s => OStop w (set_disk d s) end) →
    (∀ s, disk (stof (f s)) = disk s) → sim x (Act f).
  Proof.
    intros H1 H2 s s' [Hs Hb]. pose proof (H2 s) as Hd. rewrite Hs. cbn [run]. rewrite H1.
    destruct (f s) as [a s1|e s1|w s1]; cbn [like stof] in *; (try intros _); exists s1; (split; [done|]); split; [done| |done| |done|]; cbn; by rewrite Hd.
  Qed.
  Create HintDb hu discriminated.
  Local Hint Resolve hu_ret hu_fail hu_panic hu_nofuel hu_envbad : hu.

  Ltac hu1 :=
    match goal with
    | |- sim _ (bind _ _) => apply hu_bind; [|intros ?]
    | |- sim _ (ignoreErr _) => apply hu_ignoreErr
    | |- sim _ (atomic _) => apply hu_atomic
    | |- sim _ (Try _ _) => apply hu_try; [|intros ?]
    | H : ∀ _, sim _ _ |- sim _ _ => apply H
    | H : sim _ _ |- sim _ _ => apply H
    | |- sim _ (match ?x with _ => _ end) => destruct x
    | _ => solve [auto with hu nocore]
    end.
  Ltac hu := repeat hu1.
  Ltac blind := apply hu_blind; [intros s d; cbn; first [done|by destruct (_ !! _)]|intros s; cbn; first [done|by destruct (_ !! _)]].

  Lemma hu_deref x o : sim x (deref o).
  Proof. unfold deref. hu. Qed.
  Local Hint Resolve hu_deref : hu.
  Lemma hu_getN x n : sim x (getN n).
  Proof. blind. Qed.
  Local Hint Resolve hu_getN : hu.
  Lemma hu_modN x n f : sim x (modN n f).
  Proof. blind. Qed.
  Local Hint Resolve hu_modN : hu.
  Lemma hu_getP x n : sim x (getP n).
  Proof. blind. Qed.
  Local Hint Resolve hu_getP : hu.
  Lemma hu_modP x n f : sim x (modP n f).
  Proof. blind. Qed.
  Local Hint Resolve hu_modP : hu.
  Lemma hu_getC x n : sim x (getC n).
  Proof. blind. Qed.
  Local Hint Resolve hu_getC : hu.
  Lemma hu_modC x n f : sim x (modC n f).
  Proof. blind. Qed.
  Local Hint Resolve hu_modC : hu.
  Lemma hu_getT x n : sim x (getT n).
  Proof. blind. Qed.
  Local Hint Resolve hu_getT : hu.
  Lemma hu_modT x n f : sim x (modT n f).
  Proof. blind. Qed.
  Local Hint Resolve hu_modT : hu.
  Lemma hu_getCache x : sim x getCache.
  Proof. blind. Qed.
  Local Hint Resolve hu_getCache : hu.
  Lemma hu_modCache x f : sim x (modCache f).
  Proof. blind. Qed.
  Local Hint Resolve hu_modCache : hu.
  Lemma hu_newNode x r : sim x (newNode r).
  Proof. blind. Qed.
  Local Hint Resolve hu_newNode : hu.
  Lemma hu_newTree x T : sim x (newTree T).
  Proof. blind. Qed.
  Local Hint Resolve hu_newTree : hu.
  Lemma hu_forM {A} x (l : list A) f : (∀ a, sim x (f a)) → sim x (forM l f).
  Proof. intros Hf. induction l; cbn [forM]; hu. Qed.
  Lemma hu_with_fuel {A} x (f : nat → M A) : (∀ n, sim x (f n)) → sim x (with_fuel f).
  Proof. intros Hf. apply hu_bind; [|done]. intros s s' H. eexists. split; [|done]. cbn. destruct H as [H1 H2]. rewrite (spoiled_size _ _ H2). rewrite H1. done. Qed.
  Ltac hu ::= repeat first [hu1 | apply hu_forM; intros ? | apply hu_with_fuel; intros ?].
  Lemma hu_callback {A} x (f : choice → st → out K V A) : (∀ c s s', hurt s s' → like x (f c s) (f c s')) → sim x (callback f).
  Proof.
    intros Hf s s' H. destruct (H) as [Hs Hb]. cbn. rewrite Hs. cbn. destruct (ch_crash _); [intros _; exists s; split; [done|]; by rewrite -Hs|].
    assert (hurt (set_iocount (S (iocount s)) s) (set_iocount (S (iocount s)) (set_disk (disk s') s))) as H1 by (by split).
    destruct (ch_fail _); [intros _; by eexists|]. by apply Hf.
  Qed.
  Lemma hu_GetNode l s s' : hurt s s' →
    match GetNode l s' with ORet b' s1' => ∃ b s1, GetNode l s = ORet b s1 ∧ hurt s1 s1' ∧ (b' = b ∨ read cb b' = None) | _ => True end.
  Proof.
    intros [Hs Hb]. cbn. rewrite Hs. cbn. destruct (ch_crash _); [done|]. destruct (ch_fail _); [done|]. specialize (Hb l) as Hl.
    destruct (disk s' !! l) as [b'|]; [|done]. destruct (disk s !! l) as [b|]; [|done]. exists b. eexists. split; [done|]. by split.
  Qed.
  Lemma hu_PutNode x b : sim x (PutNode b).
  Proof.
    apply hu_callback. intros c s s' H. destruct (H) as [Hs Hb]. cbn. destruct (_ && _); [|intros _; by exists s].
    change (like x
      (match disk s !! ((ch_num c, ch_off c, Z.of_nat (length b)) : loc) with Some _ => OStop Env s | None => ORet (ch_num c, ch_off c) (set_disk (<[(ch_num c, ch_off c, Z.of_nat (length b)) : loc := b]> (disk s)) s) end)
      (match disk s' !! ((ch_num c, ch_off c, Z.of_nat (length b)) : loc) with Some _ => OStop Env s' | None => ORet (ch_num c, ch_off c) (set_disk (<[(ch_num c, ch_off c, Z.of_nat (length b)) : loc := b]> (disk s')) s') end)).
    generalize ((ch_num c, ch_off c, Z.of_nat (length b)) : loc). intros l. specialize (Hb l) as Hl.
    destruct (disk s' !! l) as [b'|], (disk s !! l) as [b0|]; try done; [intros _; by exists s|].
    eexists. split; [done|]. by apply hurt_set, spoiled_insert.
  Qed.
  Local Hint Resolve hu_PutNode : hu.
  Lemma hu_DiscardNode x l : sim x (DiscardNode l).
  Proof.
    apply hu_callback. intros c s s' H. destruct (H) as [Hs Hb]. cbn. specialize (Hb l) as Hl.
    destruct (disk s' !! l) as [b'|], (disk s !! l) as [b0|]; try done; [|intros _; by exists s].
    eexists. split; [done|]. by apply hurt_set, spoiled_delete.
  Qed.
  Local Hint Resolve hu_DiscardNode : hu.
  Lemma hu_limit x (z : Z) : sim x (limit z).
  Proof. unfold limit. hu. Qed.
  Local Hint Resolve hu_limit : hu.
  Lemma hu_lift {A} x (m : lo A) : sim x (lift m).
  Proof. unfold lift. hu. Qed.
  Local Hint Resolve hu_lift : hu.
  Lemma hu_kvOf x (n : nid) : sim x (kvOf n).
  Proof. unfold kvOf. hu. Qed.
  Local Hint Resolve hu_kvOf : hu.
  Lemma hu_kvLen x (n : nid) : sim x (kvLen n).
  Proof. unfold kvLen. hu. Qed.
  Local Hint Resolve hu_kvLen : hu.
  Lemma hu_kvGet x (n : nid) (i : Z) : sim x (kvGet n i).
  Proof. unfold kvGet. hu. Qed.
  Local Hint Resolve hu_kvGet : hu.
  Lemma hu_kvSet x (n : nid) (t : llrb) : sim x (kvSet n t).
  Proof. unfold kvSet. hu. Qed.
  Local Hint Resolve hu_kvSet : hu.
  Lemma hu_kvPut x (n : nid) (k : K) (v : bval) : sim x (kvPut cb n k v).
  Proof. unfold kvPut. hu. Qed.
  Local Hint Resolve hu_kvPut : hu.
  Lemma hu_kvPut_ x (n : nid) (k : K) (v : bval) : sim x (kvPut_ cb n k v).
  Proof. unfold kvPut_. hu. Qed.
  Local Hint Resolve hu_kvPut_ : hu.
  Lemma hu_kvDelIndex x (n : nid) (i : Z) : sim x (kvDelIndex cb n i).
  Proof. unfold kvDelIndex. hu. Qed.
  Local Hint Resolve hu_kvDelIndex : hu.
  Lemma hu_kvDelKey x (n : nid) (k : K) : sim x (kvDelKey cb n k).
  Proof. unfold kvDelKey. hu. Qed.
  Local Hint Resolve hu_kvDelKey : hu.
  Lemma hu_kvBisectLeft x (n : nid) (k : K) : sim x (kvBisectLeft cb n k).
  Proof. unfold kvBisectLeft. hu. Qed.
  Local Hint Resolve hu_kvBisectLeft : hu.
  Lemma hu_kvBisectRight x (n : nid) (k : K) : sim x (kvBisectRight cb n k).
  Proof. unfold kvBisectRight. hu. Qed.
  Local Hint Resolve hu_kvBisectRight : hu.
  Lemma hu_kvGetKey x (n : nid) (k : K) : sim x (kvGetKey cb n k).
  Proof. unfold kvGetKey. hu. Qed.
  Local Hint Resolve hu_kvGetKey : hu.
  Lemma hu_compareM x (a b : K) : sim x (compareM cb a b).
  Proof. unfold compareM. hu. Qed.
  Local Hint Resolve hu_compareM : hu.
  Lemma hu_asNode x (v : bval) : sim x (asNode v).
  Proof. unfold asNode. hu. Qed.
  Local Hint Resolve hu_asNode : hu.
  Lemma hu_logicOk x (b : bool) : sim x (logicOk b).
  Proof. unfold logicOk. hu. Qed.
  Local Hint Resolve hu_logicOk : hu.
  Lemma hu_logicSome {A} x (o : option A) : sim x (logicSome o).
  Proof. unfold logicSome. hu. Qed.
  Local Hint Resolve hu_logicSome : hu.
  Lemma hu_getQ x (d : bool) : sim x (getQ d).
  Proof. unfold getQ. hu. Qed.
  Local Hint Resolve hu_getQ : hu.
  Lemma hu_modQ x (d : bool) (f : lruq → lruq) : sim x (modQ d f).
  Proof. unfold modQ. hu. Qed.
  Local Hint Resolve hu_modQ : hu.
  Lemma hu_putNext x (p : option nid) (o : option nid) : sim x (putNext p o).
  Proof. unfold putNext. hu. Qed.
  Local Hint Resolve hu_putNext : hu.
  Lemma hu_putPrev x (p : option nid) (o : option nid) : sim x (putPrev p o).
  Proof. unfold putPrev. hu. Qed.
  Local Hint Resolve hu_putPrev : hu.
  Lemma hu_lruAppend x (d : bool) (n : nid) : sim x (lruAppend d n).
  Proof. unfold lruAppend. hu. Qed.
  Local Hint Resolve hu_lruAppend : hu.
  Lemma hu_lruToTail x (d : bool) (n : nid) : sim x (lruToTail d n).
  Proof. unfold lruToTail. hu. Qed.
  Local Hint Resolve hu_lruToTail : hu.
  Lemma hu_lruTake x (d : bool) (n : nid) : sim x (lruTake d n).
  Proof. unfold lruTake. hu. Qed.
  Local Hint Resolve hu_lruTake : hu.
  Lemma hu_lruGive x (d : bool) (n : nid) : sim x (lruGive d n).
  Proof. unfold lruGive. hu. Qed.
  Local Hint Resolve hu_lruGive : hu.
  Lemma hu_lruRemove x (d : bool) (n : nid) : sim x (lruRemove d n).
  Proof. unfold lruRemove. hu. Qed.
  Local Hint Resolve hu_lruRemove : hu.
  Lemma hu_whenCache x t m : sim x m → sim x (whenCache t m).
  Proof. intros. unfold whenCache. hu. Qed.
  Ltac hu ::= repeat first [hu1 | apply hu_forM; intros ? | apply hu_with_fuel; intros ? | apply hu_whenCache].
  Lemma hu_initNodeAsEvicted x (t : tid) (n : nid) : sim x (initNodeAsEvicted t n).
  Proof. unfold initNodeAsEvicted. hu. Qed.
  Local Hint Resolve hu_initNodeAsEvicted : hu.
  Lemma hu_incCacheHits x (t : tid) : sim x (incCacheHits t).
  Proof. unfold incCacheHits. hu. Qed.
  Local Hint Resolve hu_incCacheHits : hu.
  Lemma hu_incCacheMisses x (t : tid) : sim x (incCacheMisses t).
  Proof. unfold incCacheMisses. hu. Qed.
  Local Hint Resolve hu_incCacheMisses : hu.
  Lemma hu_markNodeUsed x (t : tid) (n : nid) : sim x (markNodeUsed t n).
  Proof. unfold markNodeUsed. hu. Qed.
  Local Hint Resolve hu_markNodeUsed : hu.
  Lemma hu_kickDrainer x (needClean : bool) : sim x (kickDrainer needClean).
  Proof. unfold kickDrainer. hu. Qed.
  Local Hint Resolve hu_kickDrainer : hu.
  Lemma hu_markNodeClean x (t : tid) (n : nid) : sim x (markNodeClean t n).
  Proof. unfold markNodeClean. hu. Qed.
  Local Hint Resolve hu_markNodeClean : hu.
  Lemma hu_placeNodeOnStale x (t : tid) (n : nid) : sim x (placeNodeOnStale t n).
  Proof. unfold placeNodeOnStale. hu. Qed.
  Local Hint Resolve hu_placeNodeOnStale : hu.
  Lemma hu_markNodeDirty x (t : tid) (n : nid) : sim x (markNodeDirty t n).
  Proof. unfold markNodeDirty. hu. Qed.
  Local Hint Resolve hu_markNodeDirty : hu.
  Lemma hu_markNodeEvicted x (t : tid) (n : nid) : sim x (markNodeEvicted t n).
  Proof. unfold markNodeEvicted. hu. Qed.
  Local Hint Resolve hu_markNodeEvicted : hu.
  Lemma hu_markNodeToBeDiscarded x (t : tid) (n : nid) : sim x (markNodeToBeDiscarded t n).
  Proof. unfold markNodeToBeDiscarded. hu. Qed.
  Local Hint Resolve hu_markNodeToBeDiscarded : hu.
  Lemma hu_arrangeRec x : ∀ (fuel : nat) (slice : list nid), sim x (arrangeRec fuel slice).
  Proof. intros fuel. induction fuel as [|? IH]; intros; cbn [arrangeRec]; hu. Qed.
  Local Hint Resolve hu_arrangeRec : hu.
  Lemma hu_arrangeInit x : ∀ (n : nid) (ix : list Z), sim x (arrangeInit n ix).
  Proof. intros n ix. induction ix as [|? ? IH] || induction ix as [|? IH]; intros; cbn [arrangeInit]; hu. Qed.
  Local Hint Resolve hu_arrangeInit : hu.
  Lemma hu_arrangePrefixSumTree x (n : nid) : sim x (arrangePrefixSumTree n).
  Proof. unfold arrangePrefixSumTree. hu. Qed.
  Local Hint Resolve hu_arrangePrefixSumTree : hu.
  Lemma hu_rearrangeToRoot x : ∀ (fuel : nat) (t : tid) (n : nid), sim x (rearrangeToRoot fuel t n).
  Proof. intros fuel. induction fuel as [|? IH]; intros; cbn [rearrangeToRoot]; hu. Qed.
  Local Hint Resolve hu_rearrangeToRoot : hu.
  Lemma hu_bumpLoop x : ∀ (fuel : nat) (n : nid) (delta : Z), sim x (bumpLoop fuel n delta).
  Proof. intros fuel. induction fuel as [|? IH]; intros; cbn [bumpLoop]; hu. Qed.
  Local Hint Resolve hu_bumpLoop : hu.
  Lemma hu_updateRec x : ∀ (fuel0 fuel : nat) (t : tid) (n : nid) (delta : Z), sim x (updateRec fuel0 fuel t n delta).
  Proof. intros fuel0 fuel. induction fuel as [|? IH]; intros; cbn [updateRec]; hu. Qed.
  Local Hint Resolve hu_updateRec : hu.
  Lemma hu_updatePrefixSumTreeLeafToRoot x (fuel : nat) (t : tid) (n : nid) : sim x (updatePrefixSumTreeLeafToRoot fuel t n).
  Proof. unfold updatePrefixSumTreeLeafToRoot. hu. Qed.
  Local Hint Resolve hu_updatePrefixSumTreeLeafToRoot : hu.
  Lemma hu_unpackU64 x (b : bytes) : sim x (unpackU64 b).
  Proof. unfold unpackU64. hu. Qed.
  Local Hint Resolve hu_unpackU64 : hu.
  Lemma hu_unpackNode x (b : bytes) : sim x (unpackNode b).
  Proof. unfold unpackNode. hu. Qed.
  Local Hint Resolve hu_unpackNode : hu.
  Lemma hu_unpackRef x (b : bytes) : sim x (unpackRef b).
  Proof. unfold unpackRef. hu. Qed.
  Local Hint Resolve hu_unpackRef : hu.
  Lemma hu_slice x (n : nat) (b : bytes) : sim x (slice n b).
  Proof. unfold slice. hu. Qed.
  Local Hint Resolve hu_slice : hu.
  Lemma hu_unpackKeyM x (b : bytes) : sim x (unpackKeyM cb b).
  Proof. unfold unpackKeyM. hu. Qed.
  Local Hint Resolve hu_unpackKeyM : hu.
  Lemma hu_unpackValM x (b : bytes) : sim x (unpackValM cb b).
  Proof. unfold unpackValM. hu. Qed.
  Local Hint Resolve hu_unpackValM : hu.
  Lemma hu_loadLeaf x : ∀ (cnt : nat) (n : nid) (b : bytes), sim x (loadLeaf cb cnt n b).
  Proof. intros cnt. induction cnt as [|? ? IH] || induction cnt as [|? IH]; intros; cbn [loadLeaf]; hu. Qed.
  Local Hint Resolve hu_loadLeaf : hu.
  Lemma hu_loadInner x : ∀ (cnt : nat) (t : tid) (n : nid) (b : bytes), sim x (loadInner cb cnt t n b).
  Proof. intros cnt. induction cnt as [|? ? IH] || induction cnt as [|? IH]; intros; cbn [loadInner]; hu. Qed.
  Local Hint Resolve hu_loadInner : hu.
  Lemma hu_loadLeaf_reads cnt : ∀ n b s b' s', loadLeaf cb cnt n b s = ORet b' s' → ∃ kvs, readLeaf cb cnt b = Some (kvs, b').
  Proof.
    induction cnt as [|cnt IH]; intros n b s b' s'; cbn [loadLeaf readLeaf].
    - intros [= <- <-]. by eexists.
    - rewrite run_bind read_key. destruct (readKey cb b) as [[k b1]|]; [|by destruct (cb_unpackK cb b)]. rewrite run_ret run_bind read_val.
      destruct (readVal cb b1) as [[v b2]|]; [|by destruct (cb_unpackV cb b1)]. rewrite run_ret run_bind.
      destruct (kvPut cb n k (VUser v) s) as [ok s1|?|?]; [|done..]. rewrite run_bind. destruct (logicOk ok s1) as [? s2|?|?]; [|done..].
      intros H. apply IH in H as [kvs ->]. by eexists.
  Qed.
  Lemma hu_loadInner_reads cnt : ∀ t n b s b' s', loadInner cb cnt t n b s = ORet b' s' → ∃ krs, readInner cb cnt b = Some (krs, b').
  Proof.
    induction cnt as [|cnt IH]; intros t n b s b' s'; cbn [loadInner readInner].
    - intros [= <- <-]. by eexists.
    - rewrite run_bind read_key. destruct (readKey cb b) as [[k b1]|]; [|by destruct (cb_unpackK cb b)]. rewrite run_ret run_bind read_ref.
      destruct (readRef b1) as [[[l i] b2]|]; [|done]. rewrite run_ret. rewrite run_bind.
      destruct (newNode _ s) as [c s1|?|?]; [|done..]. rewrite run_bind. destruct (kvPut_ cb n k (VNode c) s1) as [? s2|?|?]; [|done..].
      rewrite run_bind. destruct (initNodeAsEvicted t c s2) as [? s3|?|?]; [|done..].
      intros H. apply IH in H as [krs ->]. by eexists.
  Qed.
  (** loadNode after GetNode *)
  Definition parse (t : tid) (n : nid) (b : bytes) : M unit :=
    bind (modN n (set_kv (Some E))) (λ _,
    bind (unpackNode b) (λ '(items, isroot, isleaf, payload),
    bind (modN n (BTree.set_items items)) (λ _,
    bind (modN n (set_root isroot)) (λ _,
    bind (modN n (set_leaf isleaf)) (λ _,
    bind (if (isroot : bool) then
        bind (unpackU64 payload) (λ '(max, payload),
        bind (modT t (λ T, Tree (max / 2) max (t_root T) (t_stale T) (t_cache T))) (λ _, ret payload))
      else ret payload) (λ payload,
    bind (if (isleaf : bool) then
        bind (unpackU64 payload) (λ '(cnt, payload),
        bind (loadLeaf cb (Z.to_nat cnt) n payload) (λ payload,
        bind (modN n (set_psroot None)) (λ _, ret payload)))
      else
        bind (unpackU64 payload) (λ '(cnt, payload),
        if cnt =? 0 then bind (modN n (set_left None)) (λ _, ret payload)
        else
          bind (unpackRef payload) (λ '(l, items, payload),
          bind (newNode (refNode t n l items)) (λ c,
          bind (modN n (set_left (Some c))) (λ _,
          bind (initNodeAsEvicted t c) (λ _,
          bind (loadInner cb (Z.to_nat (cnt - 1)) t n payload) (λ payload,
          bind (ignoreErr (arrangePrefixSumTree n)) (λ _, ret payload)))))))) (λ payload,
    match payload with
    | _ :: _ => fail ELogic
    | [] => bind (modN n (set_loaded true)) (λ _, markNodeClean t n)
    end))))))).
  Lemma loadNode_parse t n : loadNode cb t n = bind (getN n) (λ r, bind (GetNode (b_loc r)) (parse t n)).
  Proof. reflexivity. Qed.
  Lemma hu_parse x t n b : sim x (parse t n b).
  Proof. unfold parse. hu. Qed.
  Lemma ret_bind {A B} (m : M A) (f : A → M B) s b s' : bind m f s = ORet b s' → ∃ a s1, m s = ORet a s1 ∧ f a s1 = ORet b s'.
  Proof. rewrite run_bind. destruct (m s) as [a s1|?|?]; [|done..]. eauto. Qed.
  Lemma ret_U64 b s p s' : unpackU64 b s = ORet p s' → unle 8 b = Some p.
  Proof. unfold unpackU64. destruct (unle 8 b); [|done]. by intros [= -> _]. Qed.
  Lemma ret_Ref b s p s' : unpackRef b s = ORet p s' → readRef b = Some p.
  Proof. rewrite read_ref. destruct (readRef b); [|done]. by intros [= -> _]. Qed.
  Lemma parse_reads t n b s s' : parse t n b s = ORet tt s' → is_Some (read cb b).
  Proof.
    unfold parse. intros (_ & s1 & _ & H)%ret_bind. apply ret_bind in H as ([[[items isroot] isleaf] p1] & s2 & H1 & H).
    unfold unpackNode in H1. apply ret_bind in H1 as ([it b1] & s3 & Hb%ret_U64 & H1). unfold read. rewrite Hb.
    destruct b1 as [|r [|l b1]]; [done..|]. injection H1 as <- <- <- <- <-.
    apply ret_bind in H as (_ & s4 & _ & H). apply ret_bind in H as (_ & s5 & _ & H). apply ret_bind in H as (_ & s6 & _ & H).
    apply ret_bind in H as (p2 & s7 & H2 & H).
    assert (∃ mx, (if negb (r =? 0) then match unle 8 b1 with Some (m, b) => Some (Some m, b) | None => None end else Some (None, b1)) = Some (mx, p2)) as [mx ->].
    { destruct (negb (r =? 0)).
      - apply ret_bind in H2 as ([m b2] & s8 & Hm%ret_U64 & H2). apply ret_bind in H2 as (_ & s9 & _ & H2). injection H2 as -> _. rewrite Hm. eauto.
      - injection H2 as -> _. eauto. }
    apply ret_bind in H as (p3 & s8 & H3 & H). assert (p3 = []) as -> by (by destruct p3). unfold readBody.
    destruct (negb (l =? 0)).
    - apply ret_bind in H3 as ([cnt b3] & s9 & Hc%ret_U64 & H3). rewrite Hc. apply ret_bind in H3 as (p4 & s10 & H4 & H3).
      apply hu_loadLeaf_reads in H4 as [kvs ->]. apply ret_bind in H3 as (_ & s11 & _ & H3). injection H3 as -> _. eauto.
    - apply ret_bind in H3 as ([cnt b3] & s9 & Hc%ret_U64 & H3). rewrite Hc. destruct (cnt =? 0).
      + apply ret_bind in H3 as (_ & s10 & _ & H3). injection H3 as -> _. eauto.
      + apply ret_bind in H3 as ([[l0 i0] b4] & s10 & Hr%ret_Ref & H3). rewrite Hr.
        apply ret_bind in H3 as (c & s11 & _ & H3). apply ret_bind in H3 as (_ & s12 & _ & H3). apply ret_bind in H3 as (_ & s13 & _ & H3).
        apply ret_bind in H3 as (p5 & s14 & H5 & H3). apply hu_loadInner_reads in H5 as [krs ->].
        apply ret_bind in H3 as (_ & s15 & _ & H3). injection H3 as -> _. eauto.
  Qed.
  Lemma hu_loadNode t n : sim false (loadNode cb t n).
  Proof.
    rewrite loadNode_parse. apply hu_bind; [hu|]. intros r s s' H. rewrite !run_bind. pose proof (hu_GetNode (b_loc r) s s' H) as HG.
    destruct (GetNode (b_loc r) s') as [b' s1'|?|?]; [|done..]. destruct HG as (b & s1 & -> & H1 & [->|Hn]); [by apply hu_parse|].
    destruct (parse t n b' s1') as [[] s2|?|?] eqn:E; [|done..]. apply parse_reads in E as [y Hy]. congruence.
  Qed.
  Local Hint Resolve hu_loadNode : hu.
  Lemma hu_packU64 (z : Z) : sim false (packU64 z).
  Proof. unfold packU64. hu. Qed.
  Local Hint Resolve hu_packU64 : hu.
  Lemma hu_packKeyM (k : K) : sim false (packKeyM cb k).
  Proof. unfold packKeyM. hu. Qed.
  Local Hint Resolve hu_packKeyM : hu.
  Lemma hu_packValM (v : V) : sim false (packValM cb v).
  Proof. unfold packValM. hu. Qed.
  Local Hint Resolve hu_packValM : hu.
  Lemma hu_packRef (c : nid) : sim false (packRef c).
  Proof. unfold packRef. hu. Qed.
  Local Hint Resolve hu_packRef : hu.
  Lemma hu_asUser (v : bval) : sim false (asUser v).
  Proof. unfold asUser. hu. Qed.
  Local Hint Resolve hu_asUser : hu.
  Lemma hu_postLeaf : ∀ (n : nid) (ix : list Z), sim false (postLeaf cb n ix).
  Proof. intros n ix. induction ix as [|? ? IH] || induction ix as [|? IH]; intros; cbn [postLeaf]; hu. Qed.
  Local Hint Resolve hu_postLeaf : hu.
  Lemma hu_postInner : ∀ (n : nid) (ix : list Z), sim false (postInner cb n ix).
  Proof. intros n ix. induction ix as [|? ? IH] || induction ix as [|? IH]; intros; cbn [postInner]; hu. Qed.
  Local Hint Resolve hu_postInner : hu.
  Lemma hu_postNode (t : tid) (n : nid) : sim false (postNode cb t n).
  Proof. unfold postNode. hu. Qed.
  Local Hint Resolve hu_postNode : hu.
  Lemma hu_forChildren x n f : (∀ c, sim x (f c)) → sim x (forChildren n f).
  Proof. intros. unfold forChildren. hu. Qed.
  Lemma hu_forLeft x n f : (∀ c, sim x (f c)) → sim x (forLeft n f).
  Proof. intros. unfold forLeft. hu. Qed.
  Ltac hu ::= repeat first [hu1 | apply hu_forM; intros ? | apply hu_with_fuel; intros ? | apply hu_whenCache | apply hu_forChildren; intros ? | apply hu_forLeft; intros ?].
  Lemma hu_evictNode x (t : tid) (n : nid) : sim x (evictNode t n).
  Proof. unfold evictNode. hu. Qed.
  Local Hint Resolve hu_evictNode : hu.
  Lemma hu_flushNode : ∀ (fuel : nat) (t : tid) (n : nid) (andPurge : bool), sim false (flushNode cb fuel t n andPurge).
  Proof. intros fuel. induction fuel as [|? IH]; intros; cbn [flushNode]; hu. Qed.
  Local Hint Resolve hu_flushNode : hu.
  Lemma hu_purgeNode x : ∀ (fuel : nat) (t : tid) (n : nid) (full : bool), sim x (purgeNode fuel t n full).
  Proof. intros fuel. induction fuel as [|? IH]; intros; cbn [purgeNode]; hu. Qed.
  Local Hint Resolve hu_purgeNode : hu.
  Lemma hu_visit (mark : bool) (t : tid) (n : nid) : sim false (visit cb mark t n).
  Proof. unfold visit. hu. Qed.
  Local Hint Resolve hu_visit : hu.
  Lemma hu_touchNode : ∀ (fuel : nat) (t : tid) (n : nid), sim false (touchNode cb fuel t n).
  Proof. intros fuel. induction fuel as [|? IH]; intros; cbn [touchNode]; hu. Qed.
  Local Hint Resolve hu_touchNode : hu.
  Lemma hu_touchLoadedNodeToRoot : ∀ (fuel : nat) (t : tid) (n : nid), sim false (touchLoadedNodeToRoot fuel t n).
  Proof. intros fuel. induction fuel as [|? IH]; intros; cbn [touchLoadedNodeToRoot]; hu. Qed.
  Local Hint Resolve hu_touchLoadedNodeToRoot : hu.
  Lemma hu_discardAll x : ∀ fuel ls, sim x (discardAll fuel ls).
  Proof.
    induction fuel as [|fuel IH]; intros [|l0 ls]; cbn [discardAll]; hu. blind.
  Qed.
  Local Hint Resolve hu_discardAll : hu.
  Lemma hu_updateLayoutReport : ∀ (fuel : nat) (t : tid) (n : nid) (rep : report), sim false (updateLayoutReport cb fuel t n rep).
  Proof.
    induction fuel as [|? IH]; intros; cbn [updateLayoutReport]; hu.
    match goal with |- sim _ (_ (range ?x) ?y) => generalize (range x); intros ix; generalize y end.
    induction ix; intros; hu.
  Qed.
  Local Hint Resolve hu_updateLayoutReport : hu.
  Lemma hu_splitLoop : ∀ (fuel : nat) (t : tid) (n m : nid) (len : Z), sim false (splitLoop cb fuel t n m len).
  Proof. intros fuel. induction fuel as [|? IH]; intros; cbn [splitLoop]; hu. Qed.
  Local Hint Resolve hu_splitLoop : hu.
  Lemma hu_insertHere : ∀ (fuel0 fuel : nat) (t : tid) (n : nid) (k : K) (v : bval), sim false (insertHere cb fuel0 fuel t n k v).
  Proof. intros fuel0 fuel. induction fuel as [|? IH]; intros; cbn [insertHere]; hu. Qed.
  Local Hint Resolve hu_insertHere : hu.
  Lemma hu_borrowLeft (t : tid) (n p l : nid) (pi len : Z) : sim false (borrowLeft cb t n p l pi len).
  Proof. unfold borrowLeft. hu. Qed.
  Local Hint Resolve hu_borrowLeft : hu.
  Lemma hu_borrowRight (t : tid) (n p q : nid) (pi : Z) : sim false (borrowRight cb t n p q pi).
  Proof. unfold borrowRight. hu. Qed.
  Local Hint Resolve hu_borrowRight : hu.
  Lemma hu_moveAll : ∀ (dst src : nid) (ix : list Z), sim false (moveAll cb dst src ix).
  Proof. intros dst src ix. induction ix as [|? ? IH] || induction ix as [|? IH]; intros; cbn [moveAll]; hu. Qed.
  Local Hint Resolve hu_moveAll : hu.
  Lemma hu_mergeNodes t dst src p si chk rec : sim false rec → sim false (mergeNodes cb t dst src p si chk rec).
  Proof. intros. unfold mergeNodes. hu. Qed.
  Ltac hu ::= repeat first [hu1 | apply hu_forM; intros ? | apply hu_with_fuel; intros ? | apply hu_whenCache | apply hu_forChildren; intros ? | apply hu_forLeft; intros ? | apply hu_mergeNodes].
  Lemma hu_leftSibling (t : tid) (p : nid) (pi : Z) : sim false (leftSibling cb t p pi).
  Proof. unfold leftSibling. hu. Qed.
  Local Hint Resolve hu_leftSibling : hu.
  Lemma hu_rightSibling (t : tid) (p : nid) (pi : Z) : sim false (rightSibling cb t p pi).
  Proof. unfold rightSibling. hu. Qed.
  Local Hint Resolve hu_rightSibling : hu.
  Lemma hu_rebalanceHere : ∀ (fuel : nat) (t : tid) (n : nid) (stack : list Z), sim false (rebalanceHere cb fuel t n stack).
  Proof. intros fuel. induction fuel as [|? IH]; intros; cbn [rebalanceHere]; hu. Qed.
  Local Hint Resolve hu_rebalanceHere : hu.
  Lemma hu_findChild (n : nid) (key : K) : sim false (findChild cb n key).
  Proof. unfold findChild. hu. Qed.
  Local Hint Resolve hu_findChild : hu.
  Lemma hu_descendKey : ∀ (fuel : nat) (mark : bool) (t : tid) (n : nid) (stack : list Z) (key : K), sim false (descendKey cb fuel mark t n stack key).
  Proof. intros fuel. induction fuel as [|? IH]; intros; cbn [descendKey]; hu. Qed.
  Local Hint Resolve hu_descendKey : hu.
  Lemma hu_leftSum (p : psrec) : sim false (leftSum p).
  Proof. unfold leftSum. hu. Qed.
  Local Hint Resolve hu_leftSum : hu.
  Lemma hu_climb : ∀ (fuel : nat) (c : nid) (acc : list bool), sim false (climb fuel c acc).
  Proof. intros fuel. induction fuel as [|? IH]; intros; cbn [climb]; hu. Qed.
  Local Hint Resolve hu_climb : hu.
  Lemma hu_unclimb : ∀ (c : nid) (stack : list bool) (delta : Z), sim false (unclimb c stack delta).
  Proof. intros c stack. revert c. induction stack as [|? ? IH]; intros; cbn [unclimb]; hu. Qed.
  Local Hint Resolve hu_unclimb : hu.
  Lemma hu_childOffset (fuel : nat) (n c : nid) (delta : Z) : sim false (childOffset fuel n c delta).
  Proof. unfold childOffset. hu. Qed.
  Local Hint Resolve hu_childOffset : hu.
  Lemma hu_descendBisect : ∀ (fuel0 fuel : nat) (t : tid) (n : nid) (delta : Z) (key : K), sim false (descendBisect cb fuel0 fuel t n delta key).
  Proof. intros fuel0 fuel. induction fuel as [|? IH]; intros; cbn [descendBisect]; hu. Qed.
  Local Hint Resolve hu_descendBisect : hu.
  Lemma hu_walkPs : ∀ (fuel : nat) (c : nid) (i : Z), sim false (walkPs fuel c i).
  Proof. intros fuel. induction fuel as [|? IH]; intros; cbn [walkPs]; hu. Qed.
  Local Hint Resolve hu_walkPs : hu.
  Lemma hu_descendIndex : ∀ (fuel0 fuel : nat) (mark : bool) (t : tid) (n : nid) (i : Z) (stack : list Z), sim false (descendIndex cb fuel0 fuel mark t n i stack).
  Proof. intros fuel0 fuel. induction fuel as [|? IH]; intros; cbn [descendIndex]; hu. Qed.
  Local Hint Resolve hu_descendIndex : hu.
  Lemma hu_rootOf (t : tid) : sim false (rootOf t).
  Proof. unfold rootOf. hu. Qed.
  Local Hint Resolve hu_rootOf : hu.
  Lemma hu_bt_BisectLeft (t : tid) (key : K) : sim false (bt_BisectLeft cb t key).
  Proof. unfold bt_BisectLeft. hu. Qed.
  Local Hint Resolve hu_bt_BisectLeft : hu.
  Lemma hu_bt_BisectRight (t : tid) (key : K) : sim false (bt_BisectRight cb t key).
  Proof. unfold bt_BisectRight. hu. Qed.
  Local Hint Resolve hu_bt_BisectRight : hu.
  Lemma hu_bt_DeleteByIndex (t : tid) (i : Z) : sim false (bt_DeleteByIndex cb t i).
  Proof. unfold bt_DeleteByIndex. hu. Qed.
  Local Hint Resolve hu_bt_DeleteByIndex : hu.
  Lemma hu_bt_DeleteByKey (t : tid) (key : K) : sim false (bt_DeleteByKey cb t key).
  Proof. unfold bt_DeleteByKey. hu. Qed.
  Local Hint Resolve hu_bt_DeleteByKey : hu.
  Lemma hu_bt_GetByIndex (t : tid) (i : Z) : sim false (bt_GetByIndex cb t i).
  Proof. unfold bt_GetByIndex. hu. Qed.
  Local Hint Resolve hu_bt_GetByIndex : hu.
  Lemma hu_bt_GetByKey (t : tid) (key : K) : sim false (bt_GetByKey cb t key).
  Proof. unfold bt_GetByKey. hu. Qed.
  Local Hint Resolve hu_bt_GetByKey : hu.
  Lemma hu_bt_Len (t : tid) : sim false (bt_Len cb t).
  Proof. unfold bt_Len. hu. Qed.
  Local Hint Resolve hu_bt_Len : hu.
  Lemma hu_bt_PatchByIndex (t : tid) (i : Z) (v : V) : sim false (bt_PatchByIndex cb t i v).
  Proof. unfold bt_PatchByIndex. hu. Qed.
  Local Hint Resolve hu_bt_PatchByIndex : hu.
  Lemma hu_bt_PatchByKey (t : tid) (key : K) (v : V) : sim false (bt_PatchByKey cb t key v).
  Proof. unfold bt_PatchByKey. hu. Qed.
  Local Hint Resolve hu_bt_PatchByKey : hu.
  Lemma hu_bt_Put (t : tid) (key : K) (v : V) : sim false (bt_Put cb t key v).
  Proof. unfold bt_Put. hu. Qed.
  Local Hint Resolve hu_bt_Put : hu.
  Lemma hu_bt_FetchLocation (t : tid) : sim false (bt_FetchLocation t).
  Proof. unfold bt_FetchLocation. hu. Qed.
  Local Hint Resolve hu_bt_FetchLocation : hu.
  Lemma hu_bt_FetchLayoutReport (t : tid) : sim false (bt_FetchLayoutReport cb t).
  Proof. unfold bt_FetchLayoutReport. hu. Qed.
  Local Hint Resolve hu_bt_FetchLayoutReport : hu.
  Lemma hu_dimLoop : ∀ (fuel : nat) (t : tid) (n : nid) (dim : dimensions), sim false (dimLoop cb fuel t n dim).
  Proof. intros fuel. induction fuel as [|? IH]; intros; cbn [dimLoop]; hu. Qed.
  Local Hint Resolve hu_dimLoop : hu.
  Lemma hu_bt_FetchDimensionsReport (t : tid) : sim false (bt_FetchDimensionsReport cb t).
  Proof. unfold bt_FetchDimensionsReport. hu. Qed.
  Local Hint Resolve hu_bt_FetchDimensionsReport : hu.
  Lemma hu_bt_Flush (t : tid) (andPurge : bool) : sim false (bt_Flush cb t andPurge).
  Proof. unfold bt_Flush. hu. Qed.
  Local Hint Resolve hu_bt_Flush : hu.
  Lemma hu_bt_Purge (t : tid) (full : bool) : sim false (bt_Purge t full).
  Proof. unfold bt_Purge. hu. Qed.
  Local Hint Resolve hu_bt_Purge : hu.
  Lemma hu_bt_Touch (t : tid) : sim false (bt_Touch cb t).
  Proof. unfold bt_Touch. hu. Qed.
  Local Hint Resolve hu_bt_Touch : hu.
  Lemma hu_bt_TouchItem (t : tid) (i : Z) : sim false (bt_TouchItem cb t i).
  Proof. unfold bt_TouchItem. hu. Qed.
  Local Hint Resolve hu_bt_TouchItem : hu.


  Lemma hu_bt_New (max : Z) (attach : bool) : sim false (bt_New max attach).
  Proof. unfold bt_New. hu. Qed.
  Local Hint Resolve hu_bt_New : hu.
  Lemma hu_bt_Old (l : loc) (attach : bool) : sim false (bt_Old cb l attach).
  Proof. unfold bt_Old. hu. Qed.
  Local Hint Resolve hu_bt_Old : hu.
  Lemma hu_validatePrefixSum : ∀ (fuel : nat) (o : option nid), sim false (validatePrefixSum fuel o).
  Proof. intros fuel. induction fuel as [|? IH]; intros; cbn [validatePrefixSum]; hu. Qed.
  Local Hint Resolve hu_validatePrefixSum : hu.
  Lemma hu_validateNode : ∀ (fuel0 fuel : nat) (t : tid) (n : nid), sim false (validateNode cb fuel0 fuel t n).
  Proof.
    intros fuel0. induction fuel as [|? IH]; intros; cbn [validateNode]; hu.
    all: match goal with |- sim _ (_ (range ?x) ?y) => generalize (range x); intros ix; generalize y end.
    all: induction ix; intros; hu.
  Qed.
  Local Hint Resolve hu_validateNode : hu.
  Lemma hu_bt_Validate (t : tid) : sim false (bt_Validate cb t).
  Proof. unfold bt_Validate. hu. Qed.
  Local Hint Resolve hu_bt_Validate : hu.
  Lemma hu_cache_UpdateLimits (low high : Z) : sim false (cache_UpdateLimits low high).
  Proof. unfold cache_UpdateLimits. hu. Qed.
  Local Hint Resolve hu_cache_UpdateLimits : hu.
  Lemma hu_drainerSelect  : sim false (drainerSelect).
  Proof. unfold drainerSelect. hu. Qed.
  Local Hint Resolve hu_drainerSelect : hu.
  Lemma hu_drainerEvict n : sim false (drainerEvict n).
  Proof.
    unfold drainerEvict. hu.
  Qed.
  Lemma hu_bt_call (t : tid) (c : call K V) : sim false (bt_call cb t c).
  Proof. unfold bt_call. hu. Qed.
  Local Hint Resolve hu_bt_call : hu.
  Lemma hu_prune x t : sim x (pruneWhileLocked t).
  Proof. unfold pruneWhileLocked. hu. Qed.
  Local Hint Resolve hu_prune : hu.
  Lemma hu_bt_Prune x t : sim x (bt_Prune t).
  Proof. unfold bt_Prune. hu. Qed.
  Local Hint Resolve hu_bt_Prune : hu.
  (** all calls but Discard and Dump, which drop errors *)
  Definition careful (c : cmd K V) : Prop := match c with Discard _ | Dump _ => False | _ => True end.
  Lemma hu_exec c : careful c → sim false (exec cb c).
  Proof. destruct c; cbn [careful exec]; intros Hc; try done; hu. Qed.
  Lemma spoiled_one d l e b : d !! l = Some e → read cb b = None → spoiled d (<[l := b]> d).
  Proof.
    intros He Hb l'. destruct (decide (l' = l)) as [->|]; [rewrite He lookup_insert; by right|rewrite lookup_insert_ne //]. destruct (d !! l'); by try left.
  Qed.
  (** calls, as long as each of them returns without an error *)
  Fixpoint answers (cs : list (cmd K V)) s : option (list (result K V) * st) :=
    match cs with
    | [] => Some ([], s)
    | c :: cs =>
        match exec cb c s with
        | ORet r s => match answers cs s with Some (rs, s) => Some (r :: rs, s) | None => None end
        | _ => None
        end
    end.
  Theorem hurt_answers cs : Forall careful cs → ∀ s s' rs s1', hurt s s' → answers cs s' = Some (rs, s1') →
    ∃ s1, answers cs s = Some (rs, s1) ∧ hurt s1 s1'.
  Proof.
    induction 1 as [|c cs Hc _ IH]; intros s s' rs s1' H; cbn [answers].
    - intros [= <- <-]. eauto.
    - pose proof (hu_exec c Hc s s' H) as HE. unfold like in HE. destruct (exec cb c s') as [r s2'|?|?]; [|done..].
      destruct HE as (s2 & -> & H2). destruct (answers cs s2') as [[rs2 s3']|] eqn:E; [|done]. intros [= <- <-].
      destruct (IH s2 s2' rs2 s3' H2 E) as (s3 & -> & H3). eauto.
  Qed.
  Corollary spoiled_answers cs s D rs s1' : Forall careful cs → spoiled (disk s) D → answers cs (set_disk D s) = Some (rs, s1') →
    ∃ s1, answers cs s = Some (rs, s1).
  Proof. intros Hc HD HA. destruct (hurt_answers cs Hc s (set_disk D s) rs s1') as (s1 & H1 & _); [by split|done|eauto]. Qed.
End hurt.

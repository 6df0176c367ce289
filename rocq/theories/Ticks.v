(** * The hit and miss counters of the cache

    Only the calls that look items up, Touch, FetchDimensionsReport and Discard
    change them, and no call decreases them: in any state and for any outcome.
    Models no code. *)
From Coq Require Import ssreflect.
From stdpp Require Import prelude list gmap.
From Verif Require Import Spec Llrb BTree Pres Machine Cache.
Open Scope Z_scope.

Section tick.
  Context {K V : Type}.
  Variable cb : callbacks K V.
  (** may visits be counted? *)
  Variable D : bool.
  Notation st := (st K V).
  Notation M := (M K V).
  Notation bval := (bval V).
  Notation bnode := (bnode K V).
  Notation llrb := (tree K bval).
  Implicit Types s : st.

  Definition tick s s' : Prop :=
    if D then c_hits (cache s) ≤ c_hits (cache s') ∧ c_misses (cache s) ≤ c_misses (cache s')
    else c_hits (cache s') = c_hits (cache s) ∧ c_misses (cache s') = c_misses (cache s).
  Lemma tick_refl s : tick s s.
  Proof. unfold tick. by destruct D. Qed.
  Lemma tick_eq s s' : c_hits (cache s') = c_hits (cache s) → c_misses (cache s') = c_misses (cache s) → tick s s'.
  Proof. unfold tick. intros -> ->. by destruct D. Qed.
  Lemma tick_trans s1 s2 s3 : tick s1 s2 → tick s2 s3 → tick s1 s3.
  Proof. unfold tick. destruct D; lia. Qed.
  Definition ticks {A} (m : M A) : Prop := ∀ s, tick s (stof (m s)).

  Lemma ti_ret {A} (a : A) : ticks (ret a).
  Proof. intros s. apply tick_refl. Qed.
  Lemma ti_fail {A} e : ticks (A:=A) (fail e).
  Proof. intros s. apply tick_refl. Qed.
  Lemma ti_panic {A} : ticks (A:=A) panic.
  Proof. intros s. apply tick_refl. Qed.
  Lemma ti_nofuel {A} : ticks (A:=A) nofuel.
  Proof. intros s. apply tick_refl. Qed.
  Lemma ti_envbad {A} : ticks (A:=A) envbad.
  Proof. intros s. apply tick_refl. Qed.
  Lemma ti_bind {A B} (m : M A) (f : A → M B) : ticks m → (∀ a, ticks (f a)) → ticks (bind m f).
  Proof.
    intros Hm Hf s. unfold bind; cbn [run]. specialize (Hm s). destruct (m s) as [a s1|e s1|w s1]; try done.
    eapply tick_trans; [exact Hm|]. apply Hf.
  Qed.
  Lemma ti_ignoreErr m : ticks m → ticks (ignoreErr m).
  Proof. intros Hm s. cbn [run ignoreErr]. specialize (Hm s). destruct (m s); done. Qed.
  Lemma ti_atomic {A} (m : M A) : ticks m → ticks (atomic m).
  Proof. done. Qed.
  Lemma ti_try {A} (m : M A) h : ticks m → (∀ e, ticks (h e)) → ticks (Try m h).
  Proof.
    intros Hm Hh s. cbn [run]. specialize (Hm s). destruct (m s) as [a s1|e s1|w s1]; try done.
    eapply tick_trans; [exact Hm|]. apply Hh.
  Qed.
  Create HintDb ls discriminated.
  Local Hint Resolve ti_ret ti_fail ti_panic ti_nofuel ti_envbad : ls.

  Ltac ls1 :=
    match goal with
    | |- ticks (bind _ _) => apply ti_bind; [|intros ?]
    | |- ticks (ignoreErr _) => apply ti_ignoreErr
    | |- ticks (atomic _) => apply ti_atomic
    | |- ticks (Try _ _) => apply ti_try; [|intros ?]
    | H : ∀ _, ticks _ |- ticks _ => apply H
    | H : ticks _ |- ticks _ => apply H
    | |- ticks (match ?x with _ => _ end) => destruct x
    | _ => solve [auto with ls nocore]
    end.
  Ltac ls := repeat ls1.

  Lemma ti_deref o : ticks (deref o).
  Proof. unfold deref. ls. Qed.
  Local Hint Resolve ti_deref : ls.
  Lemma ti_getN n : ticks (getN n).
  Proof. intros s. cbn. destruct (_ !! _); apply tick_refl. Qed.
  Local Hint Resolve ti_getN : ls.
  Lemma ti_modN n f : ticks (modN n f).
  Proof. intros s. cbn. destruct (_ !! _) eqn:E; [|apply tick_refl]. by apply tick_eq. Qed.
  Local Hint Resolve ti_modN : ls.
  Lemma ti_getP n : ticks (getP n).
  Proof. intros s. cbn. destruct (_ !! _); apply tick_refl. Qed.
  Local Hint Resolve ti_getP : ls.
  Lemma ti_modP n f : ticks (modP n f).
  Proof. intros s. cbn. destruct (_ !! _) eqn:E; [|apply tick_refl]. by apply tick_eq. Qed.
  Local Hint Resolve ti_modP : ls.
  Lemma ti_getC n : ticks (getC n).
  Proof. intros s. cbn. destruct (_ !! _); apply tick_refl. Qed.
  Local Hint Resolve ti_getC : ls.
  Lemma ti_modC n f : ticks (modC n f).
  Proof. intros s. cbn. destruct (_ !! _) eqn:E; [|apply tick_refl]. by apply tick_eq. Qed.
  Local Hint Resolve ti_modC : ls.
  Lemma ti_getT n : ticks (getT n).
  Proof. intros s. cbn. destruct (_ !! _); apply tick_refl. Qed.
  Local Hint Resolve ti_getT : ls.
  Lemma ti_modT n f : ticks (modT n f).
  Proof. intros s. cbn. destruct (_ !! _) eqn:E; [|apply tick_refl]. by apply tick_eq. Qed.
  Local Hint Resolve ti_modT : ls.
  Lemma ti_getCache : ticks getCache.
  Proof. intros s. apply tick_refl. Qed.
  Local Hint Resolve ti_getCache : ls.
  Lemma ti_modCache f : (∀ c, c_hits (f c) = c_hits c ∧ c_misses (f c) = c_misses c) → ticks (modCache f).
  Proof. intros Hf s. cbn. destruct (Hf (cache s)). by apply tick_eq. Qed.
  Local Hint Extern 1 (ticks (modCache _)) => (apply ti_modCache; intros []; split; reflexivity) : ls.
  Lemma ti_newNode r : ticks (newNode r).
  Proof. intros s. by apply tick_eq. Qed.
  Local Hint Resolve ti_newNode : ls.
  Lemma ti_newTree T : ticks (newTree T).
  Proof. intros s. by apply tick_eq. Qed.
  Local Hint Resolve ti_newTree : ls.
  Lemma ti_forM {A} (l : list A) f : (∀ a, ticks (f a)) → ticks (forM l f).
  Proof. intros Hf. induction l; cbn [forM]; ls. Qed.
  Lemma ti_with_fuel {A} (f : nat → M A) : (∀ n, ticks (f n)) → ticks (with_fuel f).
  Proof. intros Hf. apply ti_bind; [intros s; apply tick_refl|done]. Qed.
  Ltac ls ::= repeat first [ls1 | apply ti_forM; intros ? | apply ti_with_fuel; intros ?].
  Lemma ti_callback {A} (f : choice → st → out K V A) : (∀ c s, tick s (stof (f c s))) → ticks (callback f).
  Proof.
    intros Hf s. cbn. destruct (ch_crash _); [apply tick_refl|].
    assert (tick s (set_iocount (S (iocount s)) s)) as H0 by by apply tick_eq.
    destruct (ch_fail _); [done|]. by eapply tick_trans, Hf.
  Qed.
  Lemma ti_GetNode l : ticks (GetNode l).
  Proof. apply ti_callback. intros c s. destruct (_ !! _); apply tick_refl. Qed.
  Local Hint Resolve ti_GetNode : ls.
  Lemma ti_DiscardNode l : ticks (DiscardNode l).
  Proof. apply ti_callback. intros c s. destruct (_ !! _); [by apply tick_eq|apply tick_refl]. Qed.
  Local Hint Resolve ti_DiscardNode : ls.
  Lemma ti_PutNode b : ticks (PutNode b).
  Proof. apply ti_callback. intros c s. cbv zeta. destruct (_ && _); [|apply tick_refl]. destruct (disk s !! _); [apply tick_refl|by apply tick_eq]. Qed.
  Local Hint Resolve ti_PutNode : ls.
  Lemma ti_limit (z : Z) : ticks (limit z).
  Proof. unfold limit. ls. Qed.
  Local Hint Resolve ti_limit : ls.
  Lemma ti_lift {A} (m : lo A) : ticks (lift m).
  Proof. unfold lift. ls. Qed.
  Local Hint Resolve ti_lift : ls.
  Lemma ti_kvOf (n : nid) : ticks (kvOf n).
  Proof. unfold kvOf. ls. Qed.
  Local Hint Resolve ti_kvOf : ls.
  Lemma ti_kvLen (n : nid) : ticks (kvLen n).
  Proof. unfold kvLen. ls. Qed.
  Local Hint Resolve ti_kvLen : ls.
  Lemma ti_kvGet (n : nid) (i : Z) : ticks (kvGet n i).
  Proof. unfold kvGet. ls. Qed.
  Local Hint Resolve ti_kvGet : ls.
  Lemma ti_kvSet (n : nid) (t : llrb) : ticks (kvSet n t).
  Proof. unfold kvSet. ls. Qed.
  Local Hint Resolve ti_kvSet : ls.
  Lemma ti_kvPut (n : nid) (k : K) (v : bval) : ticks (kvPut cb n k v).
  Proof. unfold kvPut. ls. Qed.
  Local Hint Resolve ti_kvPut : ls.
  Lemma ti_kvPut_ (n : nid) (k : K) (v : bval) : ticks (kvPut_ cb n k v).
  Proof. unfold kvPut_. ls. Qed.
  Local Hint Resolve ti_kvPut_ : ls.
  Lemma ti_kvDelIndex (n : nid) (i : Z) : ticks (kvDelIndex cb n i).
  Proof. unfold kvDelIndex. ls. Qed.
  Local Hint Resolve ti_kvDelIndex : ls.
  Lemma ti_kvDelKey (n : nid) (k : K) : ticks (kvDelKey cb n k).
  Proof. unfold kvDelKey. ls. Qed.
  Local Hint Resolve ti_kvDelKey : ls.
  Lemma ti_kvBisectLeft (n : nid) (k : K) : ticks (kvBisectLeft cb n k).
  Proof. unfold kvBisectLeft. ls. Qed.
  Local Hint Resolve ti_kvBisectLeft : ls.
  Lemma ti_kvBisectRight (n : nid) (k : K) : ticks (kvBisectRight cb n k).
  Proof. unfold kvBisectRight. ls. Qed.
  Local Hint Resolve ti_kvBisectRight : ls.
  Lemma ti_kvGetKey (n : nid) (k : K) : ticks (kvGetKey cb n k).
  Proof. unfold kvGetKey. ls. Qed.
  Local Hint Resolve ti_kvGetKey : ls.
  Lemma ti_compareM (a b : K) : ticks (compareM cb a b).
  Proof. unfold compareM. ls. Qed.
  Local Hint Resolve ti_compareM : ls.
  Lemma ti_asNode (v : bval) : ticks (asNode v).
  Proof. unfold asNode. ls. Qed.
  Local Hint Resolve ti_asNode : ls.
  Lemma ti_logicOk (b : bool) : ticks (logicOk b).
  Proof. unfold logicOk. ls. Qed.
  Local Hint Resolve ti_logicOk : ls.
  Lemma ti_logicSome {A} (o : option A) : ticks (logicSome o).
  Proof. unfold logicSome. ls. Qed.
  Local Hint Resolve ti_logicSome : ls.
  Lemma ti_getQ (d : bool) : ticks (getQ d).
  Proof. unfold getQ. ls. Qed.
  Local Hint Resolve ti_getQ : ls.
  Lemma ti_modQ (d : bool) (f : lruq → lruq) : ticks (modQ d f).
  Proof. unfold modQ. apply ti_modCache. intros []; destruct d; done. Qed.
  Local Hint Resolve ti_modQ : ls.
  Lemma ti_putNext (p : option nid) (o : option nid) : ticks (putNext p o).
  Proof. unfold putNext. ls. Qed.
  Local Hint Resolve ti_putNext : ls.
  Lemma ti_putPrev (p : option nid) (o : option nid) : ticks (putPrev p o).
  Proof. unfold putPrev. ls. Qed.
  Local Hint Resolve ti_putPrev : ls.
  Lemma ti_lruAppend (d : bool) (n : nid) : ticks (lruAppend d n).
  Proof. unfold lruAppend. ls. Qed.
  Local Hint Resolve ti_lruAppend : ls.
  Lemma ti_lruToTail (d : bool) (n : nid) : ticks (lruToTail d n).
  Proof. unfold lruToTail. ls. Qed.
  Local Hint Resolve ti_lruToTail : ls.
  Lemma ti_lruTake (d : bool) (n : nid) : ticks (lruTake d n).
  Proof. unfold lruTake. ls. Qed.
  Local Hint Resolve ti_lruTake : ls.
  Lemma ti_lruGive (d : bool) (n : nid) : ticks (lruGive d n).
  Proof. unfold lruGive. ls. Qed.
  Local Hint Resolve ti_lruGive : ls.
  Lemma ti_lruRemove (d : bool) (n : nid) : ticks (lruRemove d n).
  Proof. unfold lruRemove. ls. Qed.
  Local Hint Resolve ti_lruRemove : ls.
  Lemma ti_whenCache t m : ticks m → ticks (whenCache t m).
  Proof. intros. unfold whenCache. ls. Qed.
  Ltac ls ::= repeat first [ls1 | apply ti_forM; intros ? | apply ti_with_fuel; intros ? | apply ti_whenCache].
  Lemma ti_initNodeAsEvicted (t : tid) (n : nid) : ticks (initNodeAsEvicted t n).
  Proof. unfold initNodeAsEvicted. ls. Qed.
  Local Hint Resolve ti_initNodeAsEvicted : ls.
  Lemma ti_incCacheHits (t : tid) : D = true → ticks (incCacheHits t).
  Proof. intros HD. unfold incCacheHits. apply ti_whenCache. intros s. cbn. unfold tick. rewrite HD. cbn. lia. Qed.
  Local Hint Resolve ti_incCacheHits : ls.
  Lemma ti_incCacheMisses (t : tid) : D = true → ticks (incCacheMisses t).
  Proof. intros HD. unfold incCacheMisses. apply ti_whenCache. intros s. cbn. unfold tick. rewrite HD. cbn. lia. Qed.
  Local Hint Resolve ti_incCacheMisses : ls.
  Lemma ti_markNodeUsed (t : tid) (n : nid) : ticks (markNodeUsed t n).
  Proof. unfold markNodeUsed. ls. Qed.
  Local Hint Resolve ti_markNodeUsed : ls.
  Lemma ti_kickDrainer (needClean : bool) : ticks (kickDrainer needClean).
  Proof. unfold kickDrainer. apply ti_modCache. intros c. by case_match. Qed.
  Local Hint Resolve ti_kickDrainer : ls.
  Lemma ti_markNodeClean (t : tid) (n : nid) : ticks (markNodeClean t n).
  Proof. unfold markNodeClean. ls. Qed.
  Local Hint Resolve ti_markNodeClean : ls.
  Lemma ti_placeNodeOnStale (t : tid) (n : nid) : ticks (placeNodeOnStale t n).
  Proof. unfold placeNodeOnStale. ls. Qed.
  Local Hint Resolve ti_placeNodeOnStale : ls.
  Lemma ti_markNodeDirty (t : tid) (n : nid) : ticks (markNodeDirty t n).
  Proof. unfold markNodeDirty. ls. Qed.
  Local Hint Resolve ti_markNodeDirty : ls.
  Lemma ti_markNodeEvicted (t : tid) (n : nid) : ticks (markNodeEvicted t n).
  Proof. unfold markNodeEvicted. ls. Qed.
  Local Hint Resolve ti_markNodeEvicted : ls.
  Lemma ti_markNodeToBeDiscarded (t : tid) (n : nid) : ticks (markNodeToBeDiscarded t n).
  Proof. unfold markNodeToBeDiscarded. ls. Qed.
  Local Hint Resolve ti_markNodeToBeDiscarded : ls.
  Lemma ti_arrangeRec : ∀ (fuel : nat) (slice : list nid), ticks (arrangeRec fuel slice).
  Proof. intros fuel. induction fuel as [|? IH]; intros; cbn [arrangeRec]; ls. Qed.
  Local Hint Resolve ti_arrangeRec : ls.
  Lemma ti_arrangeInit : ∀ (n : nid) (ix : list Z), ticks (arrangeInit n ix).
  Proof. intros n ix. induction ix as [|? ? IH] || induction ix as [|? IH]; intros; cbn [arrangeInit]; ls. Qed.
  Local Hint Resolve ti_arrangeInit : ls.
  Lemma ti_arrangePrefixSumTree (n : nid) : ticks (arrangePrefixSumTree n).
  Proof. unfold arrangePrefixSumTree. ls. Qed.
  Local Hint Resolve ti_arrangePrefixSumTree : ls.
  Lemma ti_rearrangeToRoot : ∀ (fuel : nat) (t : tid) (n : nid), ticks (rearrangeToRoot fuel t n).
  Proof. intros fuel. induction fuel as [|? IH]; intros; cbn [rearrangeToRoot]; ls. Qed.
  Local Hint Resolve ti_rearrangeToRoot : ls.
  Lemma ti_bumpLoop : ∀ (fuel : nat) (n : nid) (delta : Z), ticks (bumpLoop fuel n delta).
  Proof. intros fuel. induction fuel as [|? IH]; intros; cbn [bumpLoop]; ls. Qed.
  Local Hint Resolve ti_bumpLoop : ls.
  Lemma ti_updateRec : ∀ (fuel0 fuel : nat) (t : tid) (n : nid) (delta : Z), ticks (updateRec fuel0 fuel t n delta).
  Proof. intros fuel0 fuel. induction fuel as [|? IH]; intros; cbn [updateRec]; ls. Qed.
  Local Hint Resolve ti_updateRec : ls.
  Lemma ti_updatePrefixSumTreeLeafToRoot (fuel : nat) (t : tid) (n : nid) : ticks (updatePrefixSumTreeLeafToRoot fuel t n).
  Proof. unfold updatePrefixSumTreeLeafToRoot. ls. Qed.
  Local Hint Resolve ti_updatePrefixSumTreeLeafToRoot : ls.
  Lemma ti_unpackU64 (b : bytes) : ticks (unpackU64 b).
  Proof. unfold unpackU64. ls. Qed.
  Local Hint Resolve ti_unpackU64 : ls.
  Lemma ti_unpackNode (b : bytes) : ticks (unpackNode b).
  Proof. unfold unpackNode. ls. Qed.
  Local Hint Resolve ti_unpackNode : ls.
  Lemma ti_unpackRef (b : bytes) : ticks (unpackRef b).
  Proof. unfold unpackRef. ls. Qed.
  Local Hint Resolve ti_unpackRef : ls.
  Lemma ti_slice (n : nat) (b : bytes) : ticks (slice n b).
  Proof. unfold slice. ls. Qed.
  Local Hint Resolve ti_slice : ls.
  Lemma ti_unpackKeyM (b : bytes) : ticks (unpackKeyM cb b).
  Proof. unfold unpackKeyM. ls. Qed.
  Local Hint Resolve ti_unpackKeyM : ls.
  Lemma ti_unpackValM (b : bytes) : ticks (unpackValM cb b).
  Proof. unfold unpackValM. ls. Qed.
  Local Hint Resolve ti_unpackValM : ls.
  Lemma ti_loadLeaf : ∀ (cnt : nat) (n : nid) (b : bytes), ticks (loadLeaf cb cnt n b).
  Proof. intros cnt. induction cnt as [|? IH]; intros; cbn [loadLeaf]; ls. Qed.
  Local Hint Resolve ti_loadLeaf : ls.
  Lemma ti_loadInner : ∀ (cnt : nat) (t : tid) (n : nid) (b : bytes), ticks (loadInner cb cnt t n b).
  Proof. intros cnt. induction cnt as [|? IH]; intros; cbn [loadInner]; ls. Qed.
  Local Hint Resolve ti_loadInner : ls.
  Lemma ti_loadNode (t : tid) (n : nid) : ticks (loadNode cb t n).
  Proof. unfold loadNode. ls. Qed.
  Local Hint Resolve ti_loadNode : ls.
  Lemma ti_packU64 (z : Z) : ticks (packU64 z).
  Proof. unfold packU64. ls. Qed.
  Local Hint Resolve ti_packU64 : ls.
  Lemma ti_packKeyM (k : K) : ticks (packKeyM cb k).
  Proof. unfold packKeyM. ls. Qed.
  Local Hint Resolve ti_packKeyM : ls.
  Lemma ti_packValM (v : V) : ticks (packValM cb v).
  Proof. unfold packValM. ls. Qed.
  Local Hint Resolve ti_packValM : ls.
  Lemma ti_packRef (c : nid) : ticks (packRef c).
  Proof. unfold packRef. ls. Qed.
  Local Hint Resolve ti_packRef : ls.
  Lemma ti_asUser (v : bval) : ticks (asUser v).
  Proof. unfold asUser. ls. Qed.
  Local Hint Resolve ti_asUser : ls.
  Lemma ti_postLeaf : ∀ (n : nid) (ix : list Z), ticks (postLeaf cb n ix).
  Proof. intros n ix. induction ix as [|? ? IH] || induction ix as [|? IH]; intros; cbn [postLeaf]; ls. Qed.
  Local Hint Resolve ti_postLeaf : ls.
  Lemma ti_postInner : ∀ (n : nid) (ix : list Z), ticks (postInner cb n ix).
  Proof. intros n ix. induction ix as [|? ? IH] || induction ix as [|? IH]; intros; cbn [postInner]; ls. Qed.
  Local Hint Resolve ti_postInner : ls.
  Lemma ti_forChildren n f : (∀ c, ticks (f c)) → ticks (forChildren n f).
  Proof. intros. unfold forChildren. ls. Qed.
  Lemma ti_forLeft n f : (∀ c, ticks (f c)) → ticks (forLeft n f).
  Proof. intros. unfold forLeft. ls. Qed.
  Ltac ls ::= repeat first [ls1 | apply ti_forM; intros ? | apply ti_with_fuel; intros ? | apply ti_whenCache | apply ti_forChildren; intros ? | apply ti_forLeft; intros ?].
  Lemma ti_evictNode (t : tid) (n : nid) : ticks (evictNode t n).
  Proof. unfold evictNode. ls. Qed.
  Local Hint Resolve ti_evictNode : ls.
  Lemma ti_postNode (t : tid) (n : nid) : ticks (postNode cb t n).
  Proof. unfold postNode. ls. Qed.
  Local Hint Resolve ti_postNode : ls.
  Lemma ti_flushNode : ∀ (fuel : nat) (t : tid) (n : nid) (ap : bool), ticks (flushNode cb fuel t n ap).
  Proof. intros fuel. induction fuel as [|? IH]; intros; cbn [flushNode]; ls. Qed.
  Local Hint Resolve ti_flushNode : ls.
  Lemma ti_purgeNode : ∀ (fuel : nat) (t : tid) (n : nid) (full : bool), ticks (purgeNode fuel t n full).
  Proof. intros fuel. induction fuel as [|? IH]; intros; cbn [purgeNode]; ls. Qed.
  Local Hint Resolve ti_purgeNode : ls.
  Lemma ti_visit (mark : bool) (t : tid) (n : nid) : D = true → ticks (visit cb mark t n).
  Proof. intros HD. unfold visit. ls. Qed.
  Local Hint Resolve ti_visit : ls.
  Lemma ti_touchNode : D = true → ∀ (fuel : nat) (t : tid) (n : nid), ticks (touchNode cb fuel t n).
  Proof. intros HD. intros fuel. induction fuel as [|? IH]; intros; cbn [touchNode]; ls. Qed.
  Local Hint Resolve ti_touchNode : ls.
  Lemma ti_touchLoadedNodeToRoot : ∀ (fuel : nat) (t : tid) (n : nid), ticks (touchLoadedNodeToRoot fuel t n).
  Proof. intros fuel. induction fuel as [|? IH]; intros; cbn [touchLoadedNodeToRoot]; ls. Qed.
  Local Hint Resolve ti_touchLoadedNodeToRoot : ls.
  Lemma ti_discardNode : D = true → ∀ (fuel : nat) (t : tid) (n : nid), ticks (discardNode cb fuel t n).
  Proof. intros HD. induction fuel as [|? IH]; intros; cbn [discardNode]; ls. Qed.
  Local Hint Resolve ti_discardNode : ls.
  Lemma ti_discardAll : ∀ fuel ls0, ticks (discardAll fuel ls0).
  Proof.
    induction fuel as [|fuel IH]; intros [|l0 ls0]; cbn [discardAll]; [ls..|].
    apply ti_bind; [intros s; apply tick_refl|intros pick]. ls.
  Qed.
  Local Hint Resolve ti_discardAll : ls.
  Lemma ti_updateLayoutReport : ∀ (fuel : nat) (t : tid) (n : nid) (rep : report), ticks (updateLayoutReport cb fuel t n rep).
  Proof.
    induction fuel as [|? IH]; intros; cbn [updateLayoutReport]; ls.
    match goal with |- ticks (_ (range ?x) ?y) => generalize (range x); intros ix; generalize y end.
    induction ix; intros; ls.
  Qed.
  Local Hint Resolve ti_updateLayoutReport : ls.
  Lemma ti_splitLoop : ∀ (fuel : nat) (t : tid) (n m : nid) (len : Z), ticks (splitLoop cb fuel t n m len).
  Proof. intros fuel. induction fuel as [|? IH]; intros; cbn [splitLoop]; ls. Qed.
  Local Hint Resolve ti_splitLoop : ls.
  Lemma ti_insertHere : ∀ (fuel0 fuel : nat) (t : tid) (n : nid) (k : K) (v : bval), ticks (insertHere cb fuel0 fuel t n k v).
  Proof. intros fuel0 fuel. induction fuel as [|? IH]; intros; cbn [insertHere]; ls. Qed.
  Local Hint Resolve ti_insertHere : ls.
  Lemma ti_borrowLeft (t : tid) (n p l : nid) (pi len : Z) : ticks (borrowLeft cb t n p l pi len).
  Proof. unfold borrowLeft. ls. Qed.
  Local Hint Resolve ti_borrowLeft : ls.
  Lemma ti_borrowRight (t : tid) (n p q : nid) (pi : Z) : ticks (borrowRight cb t n p q pi).
  Proof. unfold borrowRight. ls. Qed.
  Local Hint Resolve ti_borrowRight : ls.
  Lemma ti_moveAll : ∀ (dst src : nid) (ix : list Z), ticks (moveAll cb dst src ix).
  Proof. intros dst src ix. induction ix as [|? ? IH] || induction ix as [|? IH]; intros; cbn [moveAll]; ls. Qed.
  Local Hint Resolve ti_moveAll : ls.
  Lemma ti_mergeNodes t dst src p si chk rec : ticks rec → ticks (mergeNodes cb t dst src p si chk rec).
  Proof. intros. unfold mergeNodes. ls. Qed.
  Ltac ls ::= repeat first [ls1 | apply ti_forM; intros ? | apply ti_with_fuel; intros ? | apply ti_whenCache | apply ti_forChildren; intros ? | apply ti_forLeft; intros ? | apply ti_mergeNodes].
  Lemma ti_leftSibling (t : tid) (p : nid) (pi : Z) : D = true → ticks (leftSibling cb t p pi).
  Proof. intros HD. unfold leftSibling. ls. Qed.
  Local Hint Resolve ti_leftSibling : ls.
  Lemma ti_rightSibling (t : tid) (p : nid) (pi : Z) : D = true → ticks (rightSibling cb t p pi).
  Proof. intros HD. unfold rightSibling. ls. Qed.
  Local Hint Resolve ti_rightSibling : ls.
  Lemma ti_rebalanceHere : D = true → ∀ (fuel : nat) (t : tid) (n : nid) (stack : list Z), ticks (rebalanceHere cb fuel t n stack).
  Proof. intros HD. intros fuel. induction fuel as [|? IH]; intros; cbn [rebalanceHere]; ls. Qed.
  Local Hint Resolve ti_rebalanceHere : ls.
  Lemma ti_findChild (n : nid) (key : K) : ticks (findChild cb n key).
  Proof. unfold findChild. ls. Qed.
  Local Hint Resolve ti_findChild : ls.
  Lemma ti_descendKey : D = true → ∀ (fuel : nat) (mark : bool) (t : tid) (n : nid) (stack : list Z) (key : K), ticks (descendKey cb fuel mark t n stack key).
  Proof. intros HD. intros fuel. induction fuel as [|? IH]; intros; cbn [descendKey]; ls. Qed.
  Local Hint Resolve ti_descendKey : ls.
  Lemma ti_leftSum (p : psrec) : ticks (leftSum p).
  Proof. unfold leftSum. ls. Qed.
  Local Hint Resolve ti_leftSum : ls.
  Lemma ti_climb : ∀ (fuel : nat) (c : nid) (acc : list bool), ticks (climb fuel c acc).
  Proof. intros fuel. induction fuel as [|? IH]; intros; cbn [climb]; ls. Qed.
  Local Hint Resolve ti_climb : ls.
  Lemma ti_unclimb : ∀ (c : nid) (stack : list bool) (delta : Z), ticks (unclimb c stack delta).
  Proof. intros c stack. revert c. induction stack as [|? ? IH]; intros; cbn [unclimb]; ls. Qed.
  Local Hint Resolve ti_unclimb : ls.
  Lemma ti_childOffset (fuel : nat) (n c : nid) (delta : Z) : ticks (childOffset fuel n c delta).
  Proof. unfold childOffset. ls. Qed.
  Local Hint Resolve ti_childOffset : ls.
  Lemma ti_descendBisect : D = true → ∀ (fuel0 fuel : nat) (t : tid) (n : nid) (delta : Z) (key : K), ticks (descendBisect cb fuel0 fuel t n delta key).
  Proof. intros HD. intros fuel0 fuel. induction fuel as [|? IH]; intros; cbn [descendBisect]; ls. Qed.
  Local Hint Resolve ti_descendBisect : ls.
  Lemma ti_walkPs : ∀ (fuel : nat) (c : nid) (i : Z), ticks (walkPs fuel c i).
  Proof. intros fuel. induction fuel as [|? IH]; intros; cbn [walkPs]; ls. Qed.
  Local Hint Resolve ti_walkPs : ls.
  Lemma ti_descendIndex : D = true → ∀ (fuel0 fuel : nat) (mark : bool) (t : tid) (n : nid) (i : Z) (stack : list Z), ticks (descendIndex cb fuel0 fuel mark t n i stack).
  Proof. intros HD. intros fuel0 fuel. induction fuel as [|? IH]; intros; cbn [descendIndex]; ls. Qed.
  Local Hint Resolve ti_descendIndex : ls.
  Lemma ti_rootOf (t : tid) : ticks (rootOf t).
  Proof. unfold rootOf. ls. Qed.
  Local Hint Resolve ti_rootOf : ls.
  Lemma ti_bt_BisectLeft (t : tid) (key : K) : D = true → ticks (bt_BisectLeft cb t key).
  Proof. intros HD. unfold bt_BisectLeft. ls. Qed.
  Local Hint Resolve ti_bt_BisectLeft : ls.
  Lemma ti_bt_BisectRight (t : tid) (key : K) : D = true → ticks (bt_BisectRight cb t key).
  Proof. intros HD. unfold bt_BisectRight. ls. Qed.
  Local Hint Resolve ti_bt_BisectRight : ls.
  Lemma ti_bt_DeleteByIndex (t : tid) (i : Z) : D = true → ticks (bt_DeleteByIndex cb t i).
  Proof. intros HD. unfold bt_DeleteByIndex. ls. Qed.
  Local Hint Resolve ti_bt_DeleteByIndex : ls.
  Lemma ti_bt_DeleteByKey (t : tid) (key : K) : D = true → ticks (bt_DeleteByKey cb t key).
  Proof. intros HD. unfold bt_DeleteByKey. ls. Qed.
  Local Hint Resolve ti_bt_DeleteByKey : ls.
  Lemma ti_bt_GetByIndex (t : tid) (i : Z) : D = true → ticks (bt_GetByIndex cb t i).
  Proof. intros HD. unfold bt_GetByIndex. ls. Qed.
  Local Hint Resolve ti_bt_GetByIndex : ls.
  Lemma ti_bt_GetByKey (t : tid) (key : K) : D = true → ticks (bt_GetByKey cb t key).
  Proof. intros HD. unfold bt_GetByKey. ls. Qed.
  Local Hint Resolve ti_bt_GetByKey : ls.
  Lemma ti_bt_Len (t : tid) : D = true → ticks (bt_Len cb t).
  Proof. intros HD. unfold bt_Len. ls. Qed.
  Local Hint Resolve ti_bt_Len : ls.
  Lemma ti_bt_PatchByIndex (t : tid) (i : Z) (v : V) : D = true → ticks (bt_PatchByIndex cb t i v).
  Proof. intros HD. unfold bt_PatchByIndex. ls. Qed.
  Local Hint Resolve ti_bt_PatchByIndex : ls.
  Lemma ti_bt_PatchByKey (t : tid) (key : K) (v : V) : D = true → ticks (bt_PatchByKey cb t key v).
  Proof. intros HD. unfold bt_PatchByKey. ls. Qed.
  Local Hint Resolve ti_bt_PatchByKey : ls.
  Lemma ti_bt_Put (t : tid) (key : K) (v : V) : D = true → ticks (bt_Put cb t key v).
  Proof. intros HD. unfold bt_Put. ls. Qed.
  Local Hint Resolve ti_bt_Put : ls.
  Lemma ti_bt_FetchLocation (t : tid) : ticks (bt_FetchLocation t).
  Proof. unfold bt_FetchLocation. ls. Qed.
  Local Hint Resolve ti_bt_FetchLocation : ls.
  Lemma ti_bt_FetchLayoutReport (t : tid) : ticks (bt_FetchLayoutReport cb t).
  Proof. unfold bt_FetchLayoutReport. ls. Qed.
  Local Hint Resolve ti_bt_FetchLayoutReport : ls.
  Lemma ti_dimLoop : D = true → ∀ (fuel : nat) (t : tid) (n : nid) (dim : dimensions), ticks (dimLoop cb fuel t n dim).
  Proof. intros HD. intros fuel. induction fuel as [|? IH]; intros; cbn [dimLoop]; ls. Qed.
  Local Hint Resolve ti_dimLoop : ls.
  Lemma ti_bt_FetchDimensionsReport (t : tid) : D = true → ticks (bt_FetchDimensionsReport cb t).
  Proof. intros HD. unfold bt_FetchDimensionsReport. ls. Qed.
  Local Hint Resolve ti_bt_FetchDimensionsReport : ls.
  Lemma ti_bt_Purge (t : tid) (full : bool) : ticks (bt_Purge t full).
  Proof. unfold bt_Purge. ls. Qed.
  Local Hint Resolve ti_bt_Purge : ls.
  Lemma ti_bt_Touch (t : tid) : D = true → ticks (bt_Touch cb t).
  Proof. intros HD. unfold bt_Touch. ls. Qed.
  Local Hint Resolve ti_bt_Touch : ls.
  Lemma ti_bt_TouchItem (t : tid) (i : Z) : D = true → ticks (bt_TouchItem cb t i).
  Proof. intros HD. unfold bt_TouchItem. ls. Qed.
  Local Hint Resolve ti_bt_TouchItem : ls.


  Lemma ti_bt_New (max : Z) (attach : bool) : ticks (bt_New max attach).
  Proof. unfold bt_New. ls. Qed.
  Local Hint Resolve ti_bt_New : ls.
  Lemma ti_bt_Old (l : loc) (attach : bool) : ticks (bt_Old cb l attach).
  Proof. unfold bt_Old. ls. Qed.
  Local Hint Resolve ti_bt_Old : ls.
  Lemma ti_validatePrefixSum : ∀ (fuel : nat) (o : option nid), ticks (validatePrefixSum fuel o).
  Proof. intros fuel. induction fuel as [|? IH]; intros; cbn [validatePrefixSum]; ls. Qed.
  Local Hint Resolve ti_validatePrefixSum : ls.
  Lemma ti_validateNode : ∀ (fuel0 fuel : nat) (t : tid) (n : nid), ticks (validateNode cb fuel0 fuel t n).
  Proof.
    intros fuel0. induction fuel as [|? IH]; intros; cbn [validateNode]; ls.
    all: match goal with |- ticks (_ (range ?x) ?y) => generalize (range x); intros ix; generalize y end.
    all: induction ix; intros; ls.
  Qed.
  Local Hint Resolve ti_validateNode : ls.
  Lemma ti_bt_Validate (t : tid) : ticks (bt_Validate cb t).
  Proof. unfold bt_Validate. ls. Qed.
  Local Hint Resolve ti_bt_Validate : ls.
  Lemma ti_dumpNode : ∀ (fuel : nat) (t : tid) (n : nid), ticks (dumpNode cb fuel t n).
  Proof.
    induction fuel as [|? IH]; intros; cbn [dumpNode]; ls.
    all: match goal with |- ticks (_ (range ?x) ?y) => generalize (range x); intros ix; generalize y end.
    all: induction ix; intros; ls.
  Qed.
  Local Hint Resolve ti_dumpNode : ls.
  Lemma ti_bt_Dump (t : tid) : ticks (bt_Dump cb t).
  Proof. unfold bt_Dump. ls. Qed.
  Local Hint Resolve ti_bt_Dump : ls.
  Lemma ti_cache_UpdateLimits (low high : Z) : ticks (cache_UpdateLimits low high).
  Proof. unfold cache_UpdateLimits. ls; apply ti_modCache; intros c; by case_match. Qed.
  Local Hint Resolve ti_cache_UpdateLimits : ls.
  Lemma ti_drainerSelect  : ticks (drainerSelect).
  Proof. unfold drainerSelect. ls. Qed.
  Local Hint Resolve ti_drainerSelect : ls.
  Lemma ti_drainerEvict n : ticks (drainerEvict n).
  Proof.
    unfold drainerEvict. ls.
  Qed.
  Lemma ti_bt_call (t : tid) (c : call K V) : D = true → ticks (bt_call cb t c).
  Proof. intros HD. unfold bt_call. ls. Qed.
  Local Hint Resolve ti_bt_call : ls.
  Lemma ti_pruneAll t : ticks (pruneWhileLocked t).
  Proof. unfold pruneWhileLocked. ls. Qed.
  Local Hint Resolve ti_pruneAll : ls.
  Lemma ti_bt_Discard t : D = true → ticks (bt_Discard cb t).
  Proof. intros HX. unfold bt_Discard. ls. Qed.
  Lemma ti_bt_Flush t ap : ticks (bt_Flush cb t ap).
  Proof. unfold bt_Flush. ls. Qed.
  Lemma ti_exec c : match c with MapCall _ _ | Touch _ | TouchItem _ _ | DimensionsReport _ | Discard _ => D = true | _ => True end → ticks (exec cb c).
  Proof.
    intros Hc. destruct c; try done; cbn [exec]; try (apply ti_bind; [|intros; apply ti_ret]).
    all: first [by apply ti_bt_Discard|apply ti_bt_Flush|apply ti_drainerEvict|solve [ls]].
  Qed.
End tick.

(** the calls that count visits *)
Definition counts {K V} (c : cmd K V) : bool :=
  match c with MapCall _ _ | Touch _ | TouchItem _ _ | DimensionsReport _ | Discard _ => true | _ => false end.
(** the state a run ends in, however it ends *)
Definition ends {K V A} (o : out K V A) (s' : st K V) : Prop := match o with ORet _ s | OErr _ s | OStop _ s => s = s' end.
Theorem counters {K V} (cb : callbacks K V) c s s' x x' : ends (exec cb c s) s' → cache_Stats s = ORet x s → cache_Stats s' = ORet x' s' →
  (st_hits x ≤ st_hits x' ∧ st_misses x ≤ st_misses x') ∧ (counts c = false → st_hits x' = st_hits x ∧ st_misses x' = st_misses x).
Proof.
  intros He [= <-] [= <-]. cbn [st_hits st_misses].
  assert (stof (exec cb c s) = s') as <- by by destruct (exec cb c s). split.
  - apply (ti_exec cb true c). by destruct c.
  - intros Hc. apply (ti_exec cb false c). by destruct c.
Qed.

(** * Which calls write to storage

    Only Flush adds blocks, only Prune and Discard remove any: no other
    function changes storage, in any state and for any outcome.  Models no
    code. *)
From Coq Require Import ssreflect.
From stdpp Require Import prelude list gmap.
From Verif Require Import Spec Llrb BTree Pres Machine.
Open Scope Z_scope.

Section still.
  Context {K V : Type}.
  Variable cb : callbacks K V.
  (** may blocks be discarded? *)
  Variable D : bool.
  Notation st := (st K V).
  Notation M := (M K V).
  Notation bval := (bval V).
  Notation bnode := (bnode K V).
  Notation llrb := (tree K bval).
  Implicit Types s : st.

  Definition less s s' : Prop := if D then disk s' ⊆ disk s else disk s' = disk s.
  Lemma less_refl s : less s s.
  Proof. unfold less. by destruct D. Qed.
  Lemma less_eq s s' : disk s' = disk s → less s s'.
  Proof. unfold less. intros ->. by destruct D. Qed.
  Lemma less_trans s1 s2 s3 : less s1 s2 → less s2 s3 → less s1 s3.
  Proof. unfold less. destruct D; [by intros H1 H2; etrans|congruence]. Qed.
  Definition lesses {A} (m : M A) : Prop := ∀ s, less s (stof (m s)).

  Lemma ls_ret {A} (a : A) : lesses (ret a).
  Proof. intros s. apply less_refl. Qed.
  Lemma ls_fail {A} e : lesses (A:=A) (fail e).
  Proof. intros s. apply less_refl. Qed.
  Lemma ls_panic {A} : lesses (A:=A) panic.
  Proof. intros s. apply less_refl. Qed.
  Lemma ls_nofuel {A} : lesses (A:=A) nofuel.
  Proof. intros s. apply less_refl. Qed.
  Lemma ls_envbad {A} : lesses (A:=A) envbad.
  Proof. intros s. apply less_refl. Qed.
  Lemma ls_bind {A B} (m : M A) (f : A → M B) : lesses m → (∀ a, lesses (f a)) → lesses (bind m f).
  Proof.
    intros Hm Hf s. unfold bind; cbn [run]. specialize (Hm s). destruct (m s) as [a s1|e s1|w s1]; try done.
    eapply less_trans; [exact Hm|]. apply Hf.
  Qed.
  Lemma ls_ignoreErr m : lesses m → lesses (ignoreErr m).
  Proof. intros Hm s. cbn [run ignoreErr]. specialize (Hm s). destruct (m s); done. Qed.
  Lemma ls_atomic {A} (m : M A) : lesses m → lesses (atomic m).
  Proof. done. Qed.
  Lemma ls_try {A} (m : M A) h : lesses m → (∀ e, lesses (h e)) → lesses (Try m h).
  Proof.
    intros Hm Hh s. cbn [run]. specialize (Hm s). destruct (m s) as [a s1|e s1|w s1]; try done.
    eapply less_trans; [exact Hm|]. apply Hh.
  Qed.
  Create HintDb ls discriminated.
  Local Hint Resolve ls_ret ls_fail ls_panic ls_nofuel ls_envbad : ls.

  Ltac ls1 :=
    match goal with
    | |- lesses (bind _ _) => apply ls_bind; [|intros ?]
    | |- lesses (ignoreErr _) => apply ls_ignoreErr
    | |- lesses (atomic _) => apply ls_atomic
    | |- lesses (Try _ _) => apply ls_try; [|intros ?]
    | H : ∀ _, lesses _ |- lesses _ => apply H
    | H : lesses _ |- lesses _ => apply H
    | |- lesses (match ?x with _ => _ end) => destruct x
    | _ => solve [auto with ls nocore]
    end.
  Ltac ls := repeat ls1.

  Lemma ls_deref o : lesses (deref o).
  Proof. unfold deref. ls. Qed.
  Local Hint Resolve ls_deref : ls.
  Lemma ls_getN n : lesses (getN n).
  Proof. intros s. cbn. destruct (_ !! _); apply less_refl. Qed.
  Local Hint Resolve ls_getN : ls.
  Lemma ls_modN n f : lesses (modN n f).
  Proof. intros s. cbn. destruct (_ !! _) eqn:E; [|apply less_refl]. by apply less_eq. Qed.
  Local Hint Resolve ls_modN : ls.
  Lemma ls_getP n : lesses (getP n).
  Proof. intros s. cbn. destruct (_ !! _); apply less_refl. Qed.
  Local Hint Resolve ls_getP : ls.
  Lemma ls_modP n f : lesses (modP n f).
  Proof. intros s. cbn. destruct (_ !! _) eqn:E; [|apply less_refl]. by apply less_eq. Qed.
  Local Hint Resolve ls_modP : ls.
  Lemma ls_getC n : lesses (getC n).
  Proof. intros s. cbn. destruct (_ !! _); apply less_refl. Qed.
  Local Hint Resolve ls_getC : ls.
  Lemma ls_modC n f : lesses (modC n f).
  Proof. intros s. cbn. destruct (_ !! _) eqn:E; [|apply less_refl]. by apply less_eq. Qed.
  Local Hint Resolve ls_modC : ls.
  Lemma ls_getT n : lesses (getT n).
  Proof. intros s. cbn. destruct (_ !! _); apply less_refl. Qed.
  Local Hint Resolve ls_getT : ls.
  Lemma ls_modT n f : lesses (modT n f).
  Proof. intros s. cbn. destruct (_ !! _) eqn:E; [|apply less_refl]. by apply less_eq. Qed.
  Local Hint Resolve ls_modT : ls.
  Lemma ls_getCache : lesses getCache.
  Proof. intros s. apply less_refl. Qed.
  Local Hint Resolve ls_getCache : ls.
  Lemma ls_modCache f : lesses (modCache f).
  Proof. intros s. by apply less_eq. Qed.
  Local Hint Resolve ls_modCache : ls.
  Lemma ls_newNode r : lesses (newNode r).
  Proof. intros s. by apply less_eq. Qed.
  Local Hint Resolve ls_newNode : ls.
  Lemma ls_newTree T : lesses (newTree T).
  Proof. intros s. by apply less_eq. Qed.
  Local Hint Resolve ls_newTree : ls.
  Lemma ls_forM {A} (l : list A) f : (∀ a, lesses (f a)) → lesses (forM l f).
  Proof. intros Hf. induction l; cbn [forM]; ls. Qed.
  Lemma ls_with_fuel {A} (f : nat → M A) : (∀ n, lesses (f n)) → lesses (with_fuel f).
  Proof. intros Hf. apply ls_bind; [intros s; apply less_refl|done]. Qed.
  Ltac ls ::= repeat first [ls1 | apply ls_forM; intros ? | apply ls_with_fuel; intros ?].
  Lemma ls_callback {A} (f : choice → st → out K V A) : (∀ c s, less s (stof (f c s))) → lesses (callback f).
  Proof.
    intros Hf s. cbn. destruct (ch_crash _); [apply less_refl|].
    assert (less s (set_iocount (S (iocount s)) s)) as H0 by by apply less_eq.
    destruct (ch_fail _); [done|]. by eapply less_trans, Hf.
  Qed.
  Lemma ls_GetNode l : lesses (GetNode l).
  Proof. apply ls_callback. intros c s. destruct (_ !! _); apply less_refl. Qed.
  Local Hint Resolve ls_GetNode : ls.
  Lemma ls_DiscardNode l : D = true → lesses (DiscardNode l).
  Proof.
    intros HX. apply ls_callback. intros c s. destruct (_ !! _) eqn:E; [|apply less_refl].
    unfold less. rewrite HX. apply delete_subseteq.
  Qed.
  Lemma ls_limit (z : Z) : lesses (limit z).
  Proof. unfold limit. ls. Qed.
  Local Hint Resolve ls_limit : ls.
  Lemma ls_lift {A} (m : lo A) : lesses (lift m).
  Proof. unfold lift. ls. Qed.
  Local Hint Resolve ls_lift : ls.
  Lemma ls_kvOf (n : nid) : lesses (kvOf n).
  Proof. unfold kvOf. ls. Qed.
  Local Hint Resolve ls_kvOf : ls.
  Lemma ls_kvLen (n : nid) : lesses (kvLen n).
  Proof. unfold kvLen. ls. Qed.
  Local Hint Resolve ls_kvLen : ls.
  Lemma ls_kvGet (n : nid) (i : Z) : lesses (kvGet n i).
  Proof. unfold kvGet. ls. Qed.
  Local Hint Resolve ls_kvGet : ls.
  Lemma ls_kvSet (n : nid) (t : llrb) : lesses (kvSet n t).
  Proof. unfold kvSet. ls. Qed.
  Local Hint Resolve ls_kvSet : ls.
  Lemma ls_kvPut (n : nid) (k : K) (v : bval) : lesses (kvPut cb n k v).
  Proof. unfold kvPut. ls. Qed.
  Local Hint Resolve ls_kvPut : ls.
  Lemma ls_kvPut_ (n : nid) (k : K) (v : bval) : lesses (kvPut_ cb n k v).
  Proof. unfold kvPut_. ls. Qed.
  Local Hint Resolve ls_kvPut_ : ls.
  Lemma ls_kvDelIndex (n : nid) (i : Z) : lesses (kvDelIndex cb n i).
  Proof. unfold kvDelIndex. ls. Qed.
  Local Hint Resolve ls_kvDelIndex : ls.
  Lemma ls_kvDelKey (n : nid) (k : K) : lesses (kvDelKey cb n k).
  Proof. unfold kvDelKey. ls. Qed.
  Local Hint Resolve ls_kvDelKey : ls.
  Lemma ls_kvBisectLeft (n : nid) (k : K) : lesses (kvBisectLeft cb n k).
  Proof. unfold kvBisectLeft. ls. Qed.
  Local Hint Resolve ls_kvBisectLeft : ls.
  Lemma ls_kvBisectRight (n : nid) (k : K) : lesses (kvBisectRight cb n k).
  Proof. unfold kvBisectRight. ls. Qed.
  Local Hint Resolve ls_kvBisectRight : ls.
  Lemma ls_kvGetKey (n : nid) (k : K) : lesses (kvGetKey cb n k).
  Proof. unfold kvGetKey. ls. Qed.
  Local Hint Resolve ls_kvGetKey : ls.
  Lemma ls_compareM (a b : K) : lesses (compareM cb a b).
  Proof. unfold compareM. ls. Qed.
  Local Hint Resolve ls_compareM : ls.
  Lemma ls_asNode (v : bval) : lesses (asNode v).
  Proof. unfold asNode. ls. Qed.
  Local Hint Resolve ls_asNode : ls.
  Lemma ls_logicOk (b : bool) : lesses (logicOk b).
  Proof. unfold logicOk. ls. Qed.
  Local Hint Resolve ls_logicOk : ls.
  Lemma ls_logicSome {A} (o : option A) : lesses (logicSome o).
  Proof. unfold logicSome. ls. Qed.
  Local Hint Resolve ls_logicSome : ls.
  Lemma ls_getQ (d : bool) : lesses (getQ d).
  Proof. unfold getQ. ls. Qed.
  Local Hint Resolve ls_getQ : ls.
  Lemma ls_modQ (d : bool) (f : lruq → lruq) : lesses (modQ d f).
  Proof. unfold modQ. ls. Qed.
  Local Hint Resolve ls_modQ : ls.
  Lemma ls_putNext (p : option nid) (o : option nid) : lesses (putNext p o).
  Proof. unfold putNext. ls. Qed.
  Local Hint Resolve ls_putNext : ls.
  Lemma ls_putPrev (p : option nid) (o : option nid) : lesses (putPrev p o).
  Proof. unfold putPrev. ls. Qed.
  Local Hint Resolve ls_putPrev : ls.
  Lemma ls_lruAppend (d : bool) (n : nid) : lesses (lruAppend d n).
  Proof. unfold lruAppend. ls. Qed.
  Local Hint Resolve ls_lruAppend : ls.
  Lemma ls_lruToTail (d : bool) (n : nid) : lesses (lruToTail d n).
  Proof. unfold lruToTail. ls. Qed.
  Local Hint Resolve ls_lruToTail : ls.
  Lemma ls_lruTake (d : bool) (n : nid) : lesses (lruTake d n).
  Proof. unfold lruTake. ls. Qed.
  Local Hint Resolve ls_lruTake : ls.
  Lemma ls_lruGive (d : bool) (n : nid) : lesses (lruGive d n).
  Proof. unfold lruGive. ls. Qed.
  Local Hint Resolve ls_lruGive : ls.
  Lemma ls_lruRemove (d : bool) (n : nid) : lesses (lruRemove d n).
  Proof. unfold lruRemove. ls. Qed.
  Local Hint Resolve ls_lruRemove : ls.
  Lemma ls_whenCache t m : lesses m → lesses (whenCache t m).
  Proof. intros. unfold whenCache. ls. Qed.
  Ltac ls ::= repeat first [ls1 | apply ls_forM; intros ? | apply ls_with_fuel; intros ? | apply ls_whenCache].
  Lemma ls_initNodeAsEvicted (t : tid) (n : nid) : lesses (initNodeAsEvicted t n).
  Proof. unfold initNodeAsEvicted. ls. Qed.
  Local Hint Resolve ls_initNodeAsEvicted : ls.
  Lemma ls_incCacheHits (t : tid) : lesses (incCacheHits t).
  Proof. unfold incCacheHits. ls. Qed.
  Local Hint Resolve ls_incCacheHits : ls.
  Lemma ls_incCacheMisses (t : tid) : lesses (incCacheMisses t).
  Proof. unfold incCacheMisses. ls. Qed.
  Local Hint Resolve ls_incCacheMisses : ls.
  Lemma ls_markNodeUsed (t : tid) (n : nid) : lesses (markNodeUsed t n).
  Proof. unfold markNodeUsed. ls. Qed.
  Local Hint Resolve ls_markNodeUsed : ls.
  Lemma ls_kickDrainer (needClean : bool) : lesses (kickDrainer needClean).
  Proof. unfold kickDrainer. ls. Qed.
  Local Hint Resolve ls_kickDrainer : ls.
  Lemma ls_markNodeClean (t : tid) (n : nid) : lesses (markNodeClean t n).
  Proof. unfold markNodeClean. ls. Qed.
  Local Hint Resolve ls_markNodeClean : ls.
  Lemma ls_placeNodeOnStale (t : tid) (n : nid) : lesses (placeNodeOnStale t n).
  Proof. unfold placeNodeOnStale. ls. Qed.
  Local Hint Resolve ls_placeNodeOnStale : ls.
  Lemma ls_markNodeDirty (t : tid) (n : nid) : lesses (markNodeDirty t n).
  Proof. unfold markNodeDirty. ls. Qed.
  Local Hint Resolve ls_markNodeDirty : ls.
  Lemma ls_markNodeEvicted (t : tid) (n : nid) : lesses (markNodeEvicted t n).
  Proof. unfold markNodeEvicted. ls. Qed.
  Local Hint Resolve ls_markNodeEvicted : ls.
  Lemma ls_markNodeToBeDiscarded (t : tid) (n : nid) : lesses (markNodeToBeDiscarded t n).
  Proof. unfold markNodeToBeDiscarded. ls. Qed.
  Local Hint Resolve ls_markNodeToBeDiscarded : ls.
  Lemma ls_arrangeRec : ∀ (fuel : nat) (slice : list nid), lesses (arrangeRec fuel slice).
  Proof. intros fuel. induction fuel as [|? IH]; intros; cbn [arrangeRec]; ls. Qed.
  Local Hint Resolve ls_arrangeRec : ls.
  Lemma ls_arrangeInit : ∀ (n : nid) (ix : list Z), lesses (arrangeInit n ix).
  Proof. intros n ix. induction ix as [|? ? IH] || induction ix as [|? IH]; intros; cbn [arrangeInit]; ls. Qed.
  Local Hint Resolve ls_arrangeInit : ls.
  Lemma ls_arrangePrefixSumTree (n : nid) : lesses (arrangePrefixSumTree n).
  Proof. unfold arrangePrefixSumTree. ls. Qed.
  Local Hint Resolve ls_arrangePrefixSumTree : ls.
  Lemma ls_rearrangeToRoot : ∀ (fuel : nat) (t : tid) (n : nid), lesses (rearrangeToRoot fuel t n).
  Proof. intros fuel. induction fuel as [|? IH]; intros; cbn [rearrangeToRoot]; ls. Qed.
  Local Hint Resolve ls_rearrangeToRoot : ls.
  Lemma ls_bumpLoop : ∀ (fuel : nat) (n : nid) (delta : Z), lesses (bumpLoop fuel n delta).
  Proof. intros fuel. induction fuel as [|? IH]; intros; cbn [bumpLoop]; ls. Qed.
  Local Hint Resolve ls_bumpLoop : ls.
  Lemma ls_updateRec : ∀ (fuel0 fuel : nat) (t : tid) (n : nid) (delta : Z), lesses (updateRec fuel0 fuel t n delta).
  Proof. intros fuel0 fuel. induction fuel as [|? IH]; intros; cbn [updateRec]; ls. Qed.
  Local Hint Resolve ls_updateRec : ls.
  Lemma ls_updatePrefixSumTreeLeafToRoot (fuel : nat) (t : tid) (n : nid) : lesses (updatePrefixSumTreeLeafToRoot fuel t n).
  Proof. unfold updatePrefixSumTreeLeafToRoot. ls. Qed.
  Local Hint Resolve ls_updatePrefixSumTreeLeafToRoot : ls.
  Lemma ls_unpackU64 (b : bytes) : lesses (unpackU64 b).
  Proof. unfold unpackU64. ls. Qed.
  Local Hint Resolve ls_unpackU64 : ls.
  Lemma ls_unpackNode (b : bytes) : lesses (unpackNode b).
  Proof. unfold unpackNode. ls. Qed.
  Local Hint Resolve ls_unpackNode : ls.
  Lemma ls_unpackRef (b : bytes) : lesses (unpackRef b).
  Proof. unfold unpackRef. ls. Qed.
  Local Hint Resolve ls_unpackRef : ls.
  Lemma ls_slice (n : nat) (b : bytes) : lesses (slice n b).
  Proof. unfold slice. ls. Qed.
  Local Hint Resolve ls_slice : ls.
  Lemma ls_unpackKeyM (b : bytes) : lesses (unpackKeyM cb b).
  Proof. unfold unpackKeyM. ls. Qed.
  Local Hint Resolve ls_unpackKeyM : ls.
  Lemma ls_unpackValM (b : bytes) : lesses (unpackValM cb b).
  Proof. unfold unpackValM. ls. Qed.
  Local Hint Resolve ls_unpackValM : ls.
  Lemma ls_loadLeaf : ∀ (cnt : nat) (n : nid) (b : bytes), lesses (loadLeaf cb cnt n b).
  Proof. intros cnt. induction cnt as [|? IH]; intros; cbn [loadLeaf]; ls. Qed.
  Local Hint Resolve ls_loadLeaf : ls.
  Lemma ls_loadInner : ∀ (cnt : nat) (t : tid) (n : nid) (b : bytes), lesses (loadInner cb cnt t n b).
  Proof. intros cnt. induction cnt as [|? IH]; intros; cbn [loadInner]; ls. Qed.
  Local Hint Resolve ls_loadInner : ls.
  Lemma ls_loadNode (t : tid) (n : nid) : lesses (loadNode cb t n).
  Proof. unfold loadNode. ls. Qed.
  Local Hint Resolve ls_loadNode : ls.
  Lemma ls_packU64 (z : Z) : lesses (packU64 z).
  Proof. unfold packU64. ls. Qed.
  Local Hint Resolve ls_packU64 : ls.
  Lemma ls_packKeyM (k : K) : lesses (packKeyM cb k).
  Proof. unfold packKeyM. ls. Qed.
  Local Hint Resolve ls_packKeyM : ls.
  Lemma ls_packValM (v : V) : lesses (packValM cb v).
  Proof. unfold packValM. ls. Qed.
  Local Hint Resolve ls_packValM : ls.
  Lemma ls_packRef (c : nid) : lesses (packRef c).
  Proof. unfold packRef. ls. Qed.
  Local Hint Resolve ls_packRef : ls.
  Lemma ls_asUser (v : bval) : lesses (asUser v).
  Proof. unfold asUser. ls. Qed.
  Local Hint Resolve ls_asUser : ls.
  Lemma ls_postLeaf : ∀ (n : nid) (ix : list Z), lesses (postLeaf cb n ix).
  Proof. intros n ix. induction ix as [|? ? IH] || induction ix as [|? IH]; intros; cbn [postLeaf]; ls. Qed.
  Local Hint Resolve ls_postLeaf : ls.
  Lemma ls_postInner : ∀ (n : nid) (ix : list Z), lesses (postInner cb n ix).
  Proof. intros n ix. induction ix as [|? ? IH] || induction ix as [|? IH]; intros; cbn [postInner]; ls. Qed.
  Local Hint Resolve ls_postInner : ls.
  Lemma ls_forChildren n f : (∀ c, lesses (f c)) → lesses (forChildren n f).
  Proof. intros. unfold forChildren. ls. Qed.
  Lemma ls_forLeft n f : (∀ c, lesses (f c)) → lesses (forLeft n f).
  Proof. intros. unfold forLeft. ls. Qed.
  Ltac ls ::= repeat first [ls1 | apply ls_forM; intros ? | apply ls_with_fuel; intros ? | apply ls_whenCache | apply ls_forChildren; intros ? | apply ls_forLeft; intros ?].
  Lemma ls_evictNode (t : tid) (n : nid) : lesses (evictNode t n).
  Proof. unfold evictNode. ls. Qed.
  Local Hint Resolve ls_evictNode : ls.
  Lemma ls_purgeNode : ∀ (fuel : nat) (t : tid) (n : nid) (full : bool), lesses (purgeNode fuel t n full).
  Proof. intros fuel. induction fuel as [|? IH]; intros; cbn [purgeNode]; ls. Qed.
  Local Hint Resolve ls_purgeNode : ls.
  Lemma ls_visit (mark : bool) (t : tid) (n : nid) : lesses (visit cb mark t n).
  Proof. unfold visit. ls. Qed.
  Local Hint Resolve ls_visit : ls.
  Lemma ls_touchNode : ∀ (fuel : nat) (t : tid) (n : nid), lesses (touchNode cb fuel t n).
  Proof. intros fuel. induction fuel as [|? IH]; intros; cbn [touchNode]; ls. Qed.
  Local Hint Resolve ls_touchNode : ls.
  Lemma ls_touchLoadedNodeToRoot : ∀ (fuel : nat) (t : tid) (n : nid), lesses (touchLoadedNodeToRoot fuel t n).
  Proof. intros fuel. induction fuel as [|? IH]; intros; cbn [touchLoadedNodeToRoot]; ls. Qed.
  Local Hint Resolve ls_touchLoadedNodeToRoot : ls.
  Lemma ls_discardNode : ∀ (fuel : nat) (t : tid) (n : nid), lesses (discardNode cb fuel t n).
  Proof. induction fuel as [|? IH]; intros; cbn [discardNode]; ls. Qed.
  Local Hint Resolve ls_discardNode : ls.
  Lemma ls_discardAll : ∀ fuel ls0, D = true → lesses (discardAll fuel ls0).
  Proof.
    induction fuel as [|fuel IH]; intros [|l0 ls0] HX; cbn [discardAll]; [ls..|].
    apply ls_bind; [intros s; apply less_refl|intros pick]. apply ls_bind; [by apply ls_DiscardNode|]. intros _. by apply IH.
  Qed.
  Lemma ls_updateLayoutReport : ∀ (fuel : nat) (t : tid) (n : nid) (rep : report), lesses (updateLayoutReport cb fuel t n rep).
  Proof.
    induction fuel as [|? IH]; intros; cbn [updateLayoutReport]; ls.
    match goal with |- lesses (_ (range ?x) ?y) => generalize (range x); intros ix; generalize y end.
    induction ix; intros; ls.
  Qed.
  Local Hint Resolve ls_updateLayoutReport : ls.
  Lemma ls_splitLoop : ∀ (fuel : nat) (t : tid) (n m : nid) (len : Z), lesses (splitLoop cb fuel t n m len).
  Proof. intros fuel. induction fuel as [|? IH]; intros; cbn [splitLoop]; ls. Qed.
  Local Hint Resolve ls_splitLoop : ls.
  Lemma ls_insertHere : ∀ (fuel0 fuel : nat) (t : tid) (n : nid) (k : K) (v : bval), lesses (insertHere cb fuel0 fuel t n k v).
  Proof. intros fuel0 fuel. induction fuel as [|? IH]; intros; cbn [insertHere]; ls. Qed.
  Local Hint Resolve ls_insertHere : ls.
  Lemma ls_borrowLeft (t : tid) (n p l : nid) (pi len : Z) : lesses (borrowLeft cb t n p l pi len).
  Proof. unfold borrowLeft. ls. Qed.
  Local Hint Resolve ls_borrowLeft : ls.
  Lemma ls_borrowRight (t : tid) (n p q : nid) (pi : Z) : lesses (borrowRight cb t n p q pi).
  Proof. unfold borrowRight. ls. Qed.
  Local Hint Resolve ls_borrowRight : ls.
  Lemma ls_moveAll : ∀ (dst src : nid) (ix : list Z), lesses (moveAll cb dst src ix).
  Proof. intros dst src ix. induction ix as [|? ? IH] || induction ix as [|? IH]; intros; cbn [moveAll]; ls. Qed.
  Local Hint Resolve ls_moveAll : ls.
  Lemma ls_mergeNodes t dst src p si chk rec : lesses rec → lesses (mergeNodes cb t dst src p si chk rec).
  Proof. intros. unfold mergeNodes. ls. Qed.
  Ltac ls ::= repeat first [ls1 | apply ls_forM; intros ? | apply ls_with_fuel; intros ? | apply ls_whenCache | apply ls_forChildren; intros ? | apply ls_forLeft; intros ? | apply ls_mergeNodes].
  Lemma ls_leftSibling (t : tid) (p : nid) (pi : Z) : lesses (leftSibling cb t p pi).
  Proof. unfold leftSibling. ls. Qed.
  Local Hint Resolve ls_leftSibling : ls.
  Lemma ls_rightSibling (t : tid) (p : nid) (pi : Z) : lesses (rightSibling cb t p pi).
  Proof. unfold rightSibling. ls. Qed.
  Local Hint Resolve ls_rightSibling : ls.
  Lemma ls_rebalanceHere : ∀ (fuel : nat) (t : tid) (n : nid) (stack : list Z), lesses (rebalanceHere cb fuel t n stack).
  Proof. intros fuel. induction fuel as [|? IH]; intros; cbn [rebalanceHere]; ls. Qed.
  Local Hint Resolve ls_rebalanceHere : ls.
  Lemma ls_findChild (n : nid) (key : K) : lesses (findChild cb n key).
  Proof. unfold findChild. ls. Qed.
  Local Hint Resolve ls_findChild : ls.
  Lemma ls_descendKey : ∀ (fuel : nat) (mark : bool) (t : tid) (n : nid) (stack : list Z) (key : K), lesses (descendKey cb fuel mark t n stack key).
  Proof. intros fuel. induction fuel as [|? IH]; intros; cbn [descendKey]; ls. Qed.
  Local Hint Resolve ls_descendKey : ls.
  Lemma ls_leftSum (p : psrec) : lesses (leftSum p).
  Proof. unfold leftSum. ls. Qed.
  Local Hint Resolve ls_leftSum : ls.
  Lemma ls_climb : ∀ (fuel : nat) (c : nid) (acc : list bool), lesses (climb fuel c acc).
  Proof. intros fuel. induction fuel as [|? IH]; intros; cbn [climb]; ls. Qed.
  Local Hint Resolve ls_climb : ls.
  Lemma ls_unclimb : ∀ (c : nid) (stack : list bool) (delta : Z), lesses (unclimb c stack delta).
  Proof. intros c stack. revert c. induction stack as [|? ? IH]; intros; cbn [unclimb]; ls. Qed.
  Local Hint Resolve ls_unclimb : ls.
  Lemma ls_childOffset (fuel : nat) (n c : nid) (delta : Z) : lesses (childOffset fuel n c delta).
  Proof. unfold childOffset. ls. Qed.
  Local Hint Resolve ls_childOffset : ls.
  Lemma ls_descendBisect : ∀ (fuel0 fuel : nat) (t : tid) (n : nid) (delta : Z) (key : K), lesses (descendBisect cb fuel0 fuel t n delta key).
  Proof. intros fuel0 fuel. induction fuel as [|? IH]; intros; cbn [descendBisect]; ls. Qed.
  Local Hint Resolve ls_descendBisect : ls.
  Lemma ls_walkPs : ∀ (fuel : nat) (c : nid) (i : Z), lesses (walkPs fuel c i).
  Proof. intros fuel. induction fuel as [|? IH]; intros; cbn [walkPs]; ls. Qed.
  Local Hint Resolve ls_walkPs : ls.
  Lemma ls_descendIndex : ∀ (fuel0 fuel : nat) (mark : bool) (t : tid) (n : nid) (i : Z) (stack : list Z), lesses (descendIndex cb fuel0 fuel mark t n i stack).
  Proof. intros fuel0 fuel. induction fuel as [|? IH]; intros; cbn [descendIndex]; ls. Qed.
  Local Hint Resolve ls_descendIndex : ls.
  Lemma ls_rootOf (t : tid) : lesses (rootOf t).
  Proof. unfold rootOf. ls. Qed.
  Local Hint Resolve ls_rootOf : ls.
  Lemma ls_bt_BisectLeft (t : tid) (key : K) : lesses (bt_BisectLeft cb t key).
  Proof. unfold bt_BisectLeft. ls. Qed.
  Local Hint Resolve ls_bt_BisectLeft : ls.
  Lemma ls_bt_BisectRight (t : tid) (key : K) : lesses (bt_BisectRight cb t key).
  Proof. unfold bt_BisectRight. ls. Qed.
  Local Hint Resolve ls_bt_BisectRight : ls.
  Lemma ls_bt_DeleteByIndex (t : tid) (i : Z) : lesses (bt_DeleteByIndex cb t i).
  Proof. unfold bt_DeleteByIndex. ls. Qed.
  Local Hint Resolve ls_bt_DeleteByIndex : ls.
  Lemma ls_bt_DeleteByKey (t : tid) (key : K) : lesses (bt_DeleteByKey cb t key).
  Proof. unfold bt_DeleteByKey. ls. Qed.
  Local Hint Resolve ls_bt_DeleteByKey : ls.
  Lemma ls_bt_GetByIndex (t : tid) (i : Z) : lesses (bt_GetByIndex cb t i).
  Proof. unfold bt_GetByIndex. ls. Qed.
  Local Hint Resolve ls_bt_GetByIndex : ls.
  Lemma ls_bt_GetByKey (t : tid) (key : K) : lesses (bt_GetByKey cb t key).
  Proof. unfold bt_GetByKey. ls. Qed.
  Local Hint Resolve ls_bt_GetByKey : ls.
  Lemma ls_bt_Len (t : tid) : lesses (bt_Len cb t).
  Proof. unfold bt_Len. ls. Qed.
  Local Hint Resolve ls_bt_Len : ls.
  Lemma ls_bt_PatchByIndex (t : tid) (i : Z) (v : V) : lesses (bt_PatchByIndex cb t i v).
  Proof. unfold bt_PatchByIndex. ls. Qed.
  Local Hint Resolve ls_bt_PatchByIndex : ls.
  Lemma ls_bt_PatchByKey (t : tid) (key : K) (v : V) : lesses (bt_PatchByKey cb t key v).
  Proof. unfold bt_PatchByKey. ls. Qed.
  Local Hint Resolve ls_bt_PatchByKey : ls.
  Lemma ls_bt_Put (t : tid) (key : K) (v : V) : lesses (bt_Put cb t key v).
  Proof. unfold bt_Put. ls. Qed.
  Local Hint Resolve ls_bt_Put : ls.
  Lemma ls_bt_FetchLocation (t : tid) : lesses (bt_FetchLocation t).
  Proof. unfold bt_FetchLocation. ls. Qed.
  Local Hint Resolve ls_bt_FetchLocation : ls.
  Lemma ls_bt_FetchLayoutReport (t : tid) : lesses (bt_FetchLayoutReport cb t).
  Proof. unfold bt_FetchLayoutReport. ls. Qed.
  Local Hint Resolve ls_bt_FetchLayoutReport : ls.
  Lemma ls_dimLoop : ∀ (fuel : nat) (t : tid) (n : nid) (dim : dimensions), lesses (dimLoop cb fuel t n dim).
  Proof. intros fuel. induction fuel as [|? IH]; intros; cbn [dimLoop]; ls. Qed.
  Local Hint Resolve ls_dimLoop : ls.
  Lemma ls_bt_FetchDimensionsReport (t : tid) : lesses (bt_FetchDimensionsReport cb t).
  Proof. unfold bt_FetchDimensionsReport. ls. Qed.
  Local Hint Resolve ls_bt_FetchDimensionsReport : ls.
  Lemma ls_bt_Purge (t : tid) (full : bool) : lesses (bt_Purge t full).
  Proof. unfold bt_Purge. ls. Qed.
  Local Hint Resolve ls_bt_Purge : ls.
  Lemma ls_bt_Touch (t : tid) : lesses (bt_Touch cb t).
  Proof. unfold bt_Touch. ls. Qed.
  Local Hint Resolve ls_bt_Touch : ls.
  Lemma ls_bt_TouchItem (t : tid) (i : Z) : lesses (bt_TouchItem cb t i).
  Proof. unfold bt_TouchItem. ls. Qed.
  Local Hint Resolve ls_bt_TouchItem : ls.


  Lemma ls_bt_New (max : Z) (attach : bool) : lesses (bt_New max attach).
  Proof. unfold bt_New. ls. Qed.
  Local Hint Resolve ls_bt_New : ls.
  Lemma ls_bt_Old (l : loc) (attach : bool) : lesses (bt_Old cb l attach).
  Proof. unfold bt_Old. ls. Qed.
  Local Hint Resolve ls_bt_Old : ls.
  Lemma ls_validatePrefixSum : ∀ (fuel : nat) (o : option nid), lesses (validatePrefixSum fuel o).
  Proof. intros fuel. induction fuel as [|? IH]; intros; cbn [validatePrefixSum]; ls. Qed.
  Local Hint Resolve ls_validatePrefixSum : ls.
  Lemma ls_validateNode : ∀ (fuel0 fuel : nat) (t : tid) (n : nid), lesses (validateNode cb fuel0 fuel t n).
  Proof.
    intros fuel0. induction fuel as [|? IH]; intros; cbn [validateNode]; ls.
    all: match goal with |- lesses (_ (range ?x) ?y) => generalize (range x); intros ix; generalize y end.
    all: induction ix; intros; ls.
  Qed.
  Local Hint Resolve ls_validateNode : ls.
  Lemma ls_bt_Validate (t : tid) : lesses (bt_Validate cb t).
  Proof. unfold bt_Validate. ls. Qed.
  Local Hint Resolve ls_bt_Validate : ls.
  Lemma ls_dumpNode : ∀ (fuel : nat) (t : tid) (n : nid), lesses (dumpNode cb fuel t n).
  Proof.
    induction fuel as [|? IH]; intros; cbn [dumpNode]; ls.
    all: match goal with |- lesses (_ (range ?x) ?y) => generalize (range x); intros ix; generalize y end.
    all: induction ix; intros; ls.
  Qed.
  Local Hint Resolve ls_dumpNode : ls.
  Lemma ls_bt_Dump (t : tid) : lesses (bt_Dump cb t).
  Proof. unfold bt_Dump. ls. Qed.
  Local Hint Resolve ls_bt_Dump : ls.
  Lemma ls_cache_UpdateLimits (low high : Z) : lesses (cache_UpdateLimits low high).
  Proof. unfold cache_UpdateLimits. ls. Qed.
  Local Hint Resolve ls_cache_UpdateLimits : ls.
  Lemma ls_drainerSelect  : lesses (drainerSelect).
  Proof. unfold drainerSelect. ls. Qed.
  Local Hint Resolve ls_drainerSelect : ls.
  Lemma ls_drainerEvict n : lesses (drainerEvict n).
  Proof.
    unfold drainerEvict. ls.
  Qed.
  Lemma ls_bt_call (t : tid) (c : call K V) : lesses (bt_call cb t c).
  Proof. unfold bt_call. ls. Qed.
  Local Hint Resolve ls_bt_call : ls.
  Lemma ls_pruneAll t : D = true → lesses (pruneWhileLocked t).
  Proof. intros HX. unfold pruneWhileLocked. ls. by apply ls_discardAll. Qed.
  Lemma ls_bt_Discard t : D = true → lesses (bt_Discard cb t).
  Proof. intros HX. unfold bt_Discard. ls. by apply ls_pruneAll. Qed.
  Lemma ls_exec c : match c with Flush _ _ => False | Prune _ | Discard _ => D = true | _ => True end → lesses (exec cb c).
  Proof.
    intros Hc. destruct c; try done; cbn [exec]; try (apply ls_bind; [|intros; apply ls_ret]).
    all: first [by apply ls_pruneAll|by apply ls_bt_Discard|apply ls_drainerEvict|solve [ls]].
  Qed.
End still.

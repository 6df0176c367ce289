(** * What every call preserves, whatever the state

    Every function of the model only ever adds nodes to memory and blocks to
    storage, except for the blocks handed to DiscardNode.  This holds in any
    state and for any outcome, in particular when the process dies in the
    middle.  Models no code. *)
From Coq Require Import ssreflect.
From stdpp Require Import prelude list gmap.
From Verif Require Import Spec Llrb BTree.
Open Scope Z_scope.

Section pres.
  Context {K V : Type}.
  Variable cb : callbacks K V.
  (** the locations that may be discarded *)
  Variable X : loc → Prop.
  Notation st := (st K V).
  Notation M := (M K V).
  Notation bval := (bval V).
  Notation bnode := (bnode K V).
  Notation llrb := (tree K bval).
  Implicit Types s : st.

  Lemma run_bind {A B} (m : M A) (f : A → M B) s :
    bind m f s = match m s with ORet a s' => f a s' | OErr e s' => OErr e s' | OStop w s' => OStop w s' end.
  Proof. done. Qed.
  Lemma run_act {A} (f : st → out K V A) s : Act f s = f s.
  Proof. done. Qed.
  Lemma run_ret {A} (a : A) s : ret a s = ORet a s.
  Proof. done. Qed.
  Lemma run_try {A} (m : M A) h s : Try m h s = match m s with OErr e s' => h e s' | o => o end.
  Proof. done. Qed.
  Lemma run_atomic {A} (m : M A) s : atomic m s = m s.
  Proof. done. Qed.
  Lemma run_fuel {A} (f : nat → M A) s : with_fuel f s = f (S (size (nodes s) + size (disk s))) s.
  Proof. done. Qed.

  Record grow s s' : Prop := Grow {
    g_nodes : dom (nodes s) ⊆ dom (nodes s');
    g_cells : dom (cells s) ⊆ dom (cells s');
    g_trees : dom (trees s) ⊆ dom (trees s');
    g_same : dom (cells s) = dom (nodes s) → dom (cells s') = dom (nodes s');
    g_disk : ∀ l b, disk s !! l = Some b → ¬ X l → disk s' !! l = Some b;
    g_orc : orc s' = orc s;
    g_io : (iocount s ≤ iocount s')%nat }.
  Lemma grow_refl s : grow s s.
  Proof. by split. Qed.
  Lemma grow_trans s1 s2 s3 : grow s1 s2 → grow s2 s3 → grow s1 s3.
  Proof.
    intros [A1 A2 A3 A4 A5 A6 A7] [B1 B2 B3 B4 B5 B6 B7]. split; [by etrans|by etrans|by etrans|by auto|by auto|congruence|lia].
  Qed.
  Definition stof {A} (o : out K V A) : st := match o with ORet _ s | OErr _ s | OStop _ s => s end.
  Definition grows {A} (m : M A) : Prop := ∀ s, grow s (stof (m s)).

  Lemma gr_ret {A} (a : A) : grows (ret a).
  Proof. intros s. apply grow_refl. Qed.
  Lemma gr_fail {A} e : grows (A:=A) (fail e).
  Proof. intros s. apply grow_refl. Qed.
  Lemma gr_panic {A} : grows (A:=A) panic.
  Proof. intros s. apply grow_refl. Qed.
  Lemma gr_nofuel {A} : grows (A:=A) nofuel.
  Proof. intros s. apply grow_refl. Qed.
  Lemma gr_envbad {A} : grows (A:=A) envbad.
  Proof. intros s. apply grow_refl. Qed.
  Lemma gr_bind {A B} (m : M A) (f : A → M B) : grows m → (∀ a, grows (f a)) → grows (bind m f).
  Proof.
    intros Hm Hf s. cbn [run bind]. specialize (Hm s). destruct (m s) as [a s1|e s1|w s1]; try done.
    eapply grow_trans; [exact Hm|]. apply Hf.
  Qed.
  Lemma gr_ignoreErr m : grows m → grows (ignoreErr m).
  Proof. intros Hm s. cbn [run ignoreErr]. specialize (Hm s). destruct (m s); done. Qed.
  Lemma gr_atomic {A} (m : M A) : grows m → grows (atomic m).
  Proof. done. Qed.
  Lemma gr_try {A} (m : M A) h : grows m → (∀ e, grows (h e)) → grows (Try m h).
  Proof.
    intros Hm Hh s. cbn [run]. specialize (Hm s). destruct (m s) as [a s1|e s1|w s1]; try done.
    eapply grow_trans; [exact Hm|]. apply Hh.
  Qed.
  Create HintDb gr discriminated.
  Local Hint Resolve gr_ret gr_fail gr_panic gr_nofuel gr_envbad : gr.

  Ltac gr1 :=
    match goal with
    | |- grows (bind _ _) => apply gr_bind; [|intros ?]
    | |- grows (ignoreErr _) => apply gr_ignoreErr
    | |- grows (atomic _) => apply gr_atomic
    | |- grows (Try _ _) => apply gr_try; [|intros ?]
    | H : ∀ _, grows _ |- grows _ => apply H
    | H : grows _ |- grows _ => apply H
    | |- grows (match ?x with _ => _ end) => destruct x
    | _ => solve [auto with gr nocore]
    end.
  Ltac gr := repeat gr1.

  Lemma gr_deref o : grows (deref o).
  Proof. unfold deref. gr. Qed.
  Local Hint Resolve gr_deref : gr.
  Lemma gr_getN n : grows (getN n).
  Proof. intros s. cbn. destruct (_ !! _); apply grow_refl. Qed.
  Local Hint Resolve gr_getN : gr.
  Lemma gr_modN n f : grows (modN n f).
  Proof. intros s. cbn. destruct (_ !! _) eqn:E; [|apply grow_refl]. split; try done; cbn; try lia; rewrite ?dom_insert_L; apply elem_of_dom_2 in E; set_solver. Qed.
  Local Hint Resolve gr_modN : gr.
  Lemma gr_getP n : grows (getP n).
  Proof. intros s. cbn. destruct (_ !! _); apply grow_refl. Qed.
  Local Hint Resolve gr_getP : gr.
  Lemma gr_modP n f : grows (modP n f).
  Proof. intros s. cbn. destruct (_ !! _) eqn:E; [|apply grow_refl]. split; try done; cbn; try lia; rewrite ?dom_insert_L; apply elem_of_dom_2 in E; set_solver. Qed.
  Local Hint Resolve gr_modP : gr.
  Lemma gr_getC n : grows (getC n).
  Proof. intros s. cbn. destruct (_ !! _); apply grow_refl. Qed.
  Local Hint Resolve gr_getC : gr.
  Lemma gr_modC n f : grows (modC n f).
  Proof. intros s. cbn. destruct (_ !! _) eqn:E; [|apply grow_refl]. split; try done; cbn; try lia; rewrite ?dom_insert_L; apply elem_of_dom_2 in E; set_solver. Qed.
  Local Hint Resolve gr_modC : gr.
  Lemma gr_getT n : grows (getT n).
  Proof. intros s. cbn. destruct (_ !! _); apply grow_refl. Qed.
  Local Hint Resolve gr_getT : gr.
  Lemma gr_modT n f : grows (modT n f).
  Proof. intros s. cbn. destruct (_ !! _) eqn:E; [|apply grow_refl]. split; try done; cbn; try lia; rewrite ?dom_insert_L; apply elem_of_dom_2 in E; set_solver. Qed.
  Local Hint Resolve gr_modT : gr.
  Lemma gr_getCache : grows getCache.
  Proof. intros s. apply grow_refl. Qed.
  Local Hint Resolve gr_getCache : gr.
  Lemma gr_modCache f : grows (modCache f).
  Proof. intros s. split; try done; cbn; lia. Qed.
  Local Hint Resolve gr_modCache : gr.
  Lemma gr_newNode r : grows (newNode r).
  Proof. intros s. split; try done; cbn; try lia; rewrite ?dom_insert_L; set_solver. Qed.
  Local Hint Resolve gr_newNode : gr.
  Lemma gr_newTree T : grows (newTree T).
  Proof. intros s. split; try done; cbn; try lia; rewrite ?dom_insert_L; set_solver. Qed.
  Local Hint Resolve gr_newTree : gr.
  Lemma gr_forM {A} (l : list A) f : (∀ a, grows (f a)) → grows (forM l f).
  Proof. intros Hf. induction l; cbn [forM]; gr. Qed.
  Lemma gr_with_fuel {A} (f : nat → M A) : (∀ n, grows (f n)) → grows (with_fuel f).
  Proof. intros Hf. apply gr_bind; [intros s; apply grow_refl|done]. Qed.
  Ltac gr ::= repeat first [gr1 | apply gr_forM; intros ? | apply gr_with_fuel; intros ?].
  Lemma gr_callback {A} (f : choice → st → out K V A) : (∀ c s, grow s (stof (f c s))) → grows (callback f).
  Proof.
    intros Hf s. cbn. destruct (ch_crash _); [apply grow_refl|].
    assert (grow s (set_iocount (S (iocount s)) s)) as H0 by (split; try done; cbn; lia).
    destruct (ch_fail _); [done|]. by eapply grow_trans, Hf.
  Qed.
  Lemma gr_GetNode l : grows (GetNode l).
  Proof. apply gr_callback. intros c s. destruct (_ !! _); apply grow_refl. Qed.
  Local Hint Resolve gr_GetNode : gr.
  Lemma gr_PutNode b : grows (PutNode b).
  Proof.
    apply gr_callback. intros c s. cbn. destruct (_ && _); [|apply grow_refl]. destruct (_ !! _) eqn:E; [apply grow_refl|].
    split; try done; cbn; try lia. intros l b' Hl _. rewrite lookup_insert_ne //. congruence.
  Qed.
  Local Hint Resolve gr_PutNode : gr.
  Lemma gr_DiscardNode l : X l → grows (DiscardNode l).
  Proof.
    intros HX. apply gr_callback. intros c s. cbn. destruct (_ !! _) eqn:E; [|apply grow_refl].
    split; try done; cbn; try lia. intros l' b' Hl Hx. rewrite lookup_delete_ne //. congruence.
  Qed.
  Lemma gr_limit (z : Z) : grows (limit z).
  Proof. unfold limit. gr. Qed.
  Local Hint Resolve gr_limit : gr.
  Lemma gr_lift {A} (m : lo A) : grows (lift m).
  Proof. unfold lift. gr. Qed.
  Local Hint Resolve gr_lift : gr.
  Lemma gr_kvOf (n : nid) : grows (kvOf n).
  Proof. unfold kvOf. gr. Qed.
  Local Hint Resolve gr_kvOf : gr.
  Lemma gr_kvLen (n : nid) : grows (kvLen n).
  Proof. unfold kvLen. gr. Qed.
  Local Hint Resolve gr_kvLen : gr.
  Lemma gr_kvGet (n : nid) (i : Z) : grows (kvGet n i).
  Proof. unfold kvGet. gr. Qed.
  Local Hint Resolve gr_kvGet : gr.
  Lemma gr_kvSet (n : nid) (t : llrb) : grows (kvSet n t).
  Proof. unfold kvSet. gr. Qed.
  Local Hint Resolve gr_kvSet : gr.
  Lemma gr_kvPut (n : nid) (k : K) (v : bval) : grows (kvPut cb n k v).
  Proof. unfold kvPut. gr. Qed.
  Local Hint Resolve gr_kvPut : gr.
  Lemma gr_kvPut_ (n : nid) (k : K) (v : bval) : grows (kvPut_ cb n k v).
  Proof. unfold kvPut_. gr. Qed.
  Local Hint Resolve gr_kvPut_ : gr.
  Lemma gr_kvDelIndex (n : nid) (i : Z) : grows (kvDelIndex cb n i).
  Proof. unfold kvDelIndex. gr. Qed.
  Local Hint Resolve gr_kvDelIndex : gr.
  Lemma gr_kvDelKey (n : nid) (k : K) : grows (kvDelKey cb n k).
  Proof. unfold kvDelKey. gr. Qed.
  Local Hint Resolve gr_kvDelKey : gr.
  Lemma gr_kvBisectLeft (n : nid) (k : K) : grows (kvBisectLeft cb n k).
  Proof. unfold kvBisectLeft. gr. Qed.
  Local Hint Resolve gr_kvBisectLeft : gr.
  Lemma gr_kvBisectRight (n : nid) (k : K) : grows (kvBisectRight cb n k).
  Proof. unfold kvBisectRight. gr. Qed.
  Local Hint Resolve gr_kvBisectRight : gr.
  Lemma gr_kvGetKey (n : nid) (k : K) : grows (kvGetKey cb n k).
  Proof. unfold kvGetKey. gr. Qed.
  Local Hint Resolve gr_kvGetKey : gr.
  Lemma gr_compareM (a b : K) : grows (compareM cb a b).
  Proof. unfold compareM. gr. Qed.
  Local Hint Resolve gr_compareM : gr.
  Lemma gr_asNode (v : bval) : grows (asNode v).
  Proof. unfold asNode. gr. Qed.
  Local Hint Resolve gr_asNode : gr.
  Lemma gr_logicOk (b : bool) : grows (logicOk b).
  Proof. unfold logicOk. gr. Qed.
  Local Hint Resolve gr_logicOk : gr.
  Lemma gr_logicSome {A} (o : option A) : grows (logicSome o).
  Proof. unfold logicSome. gr. Qed.
  Local Hint Resolve gr_logicSome : gr.
  Lemma gr_getQ (d : bool) : grows (getQ d).
  Proof. unfold getQ. gr. Qed.
  Local Hint Resolve gr_getQ : gr.
  Lemma gr_modQ (d : bool) (f : lruq → lruq) : grows (modQ d f).
  Proof. unfold modQ. gr. Qed.
  Local Hint Resolve gr_modQ : gr.
  Lemma gr_putNext (p : option nid) (o : option nid) : grows (putNext p o).
  Proof. unfold putNext. gr. Qed.
  Local Hint Resolve gr_putNext : gr.
  Lemma gr_putPrev (p : option nid) (o : option nid) : grows (putPrev p o).
  Proof. unfold putPrev. gr. Qed.
  Local Hint Resolve gr_putPrev : gr.
  Lemma gr_lruAppend (d : bool) (n : nid) : grows (lruAppend d n).
  Proof. unfold lruAppend. gr. Qed.
  Local Hint Resolve gr_lruAppend : gr.
  Lemma gr_lruToTail (d : bool) (n : nid) : grows (lruToTail d n).
  Proof. unfold lruToTail. gr. Qed.
  Local Hint Resolve gr_lruToTail : gr.
  Lemma gr_lruTake (d : bool) (n : nid) : grows (lruTake d n).
  Proof. unfold lruTake. gr. Qed.
  Local Hint Resolve gr_lruTake : gr.
  Lemma gr_lruGive (d : bool) (n : nid) : grows (lruGive d n).
  Proof. unfold lruGive. gr. Qed.
  Local Hint Resolve gr_lruGive : gr.
  Lemma gr_lruRemove (d : bool) (n : nid) : grows (lruRemove d n).
  Proof. unfold lruRemove. gr. Qed.
  Local Hint Resolve gr_lruRemove : gr.
  Lemma gr_whenCache t m : grows m → grows (whenCache t m).
  Proof. intros. unfold whenCache. gr. Qed.
  Ltac gr ::= repeat first [gr1 | apply gr_forM; intros ? | apply gr_with_fuel; intros ? | apply gr_whenCache].
  Lemma gr_initNodeAsEvicted (t : tid) (n : nid) : grows (initNodeAsEvicted t n).
  Proof. unfold initNodeAsEvicted. gr. Qed.
  Local Hint Resolve gr_initNodeAsEvicted : gr.
  Lemma gr_incCacheHits (t : tid) : grows (incCacheHits t).
  Proof. unfold incCacheHits. gr. Qed.
  Local Hint Resolve gr_incCacheHits : gr.
  Lemma gr_incCacheMisses (t : tid) : grows (incCacheMisses t).
  Proof. unfold incCacheMisses. gr. Qed.
  Local Hint Resolve gr_incCacheMisses : gr.
  Lemma gr_markNodeUsed (t : tid) (n : nid) : grows (markNodeUsed t n).
  Proof. unfold markNodeUsed. gr. Qed.
  Local Hint Resolve gr_markNodeUsed : gr.
  Lemma gr_kickDrainer (needClean : bool) : grows (kickDrainer needClean).
  Proof. unfold kickDrainer. gr. Qed.
  Local Hint Resolve gr_kickDrainer : gr.
  Lemma gr_markNodeClean (t : tid) (n : nid) : grows (markNodeClean t n).
  Proof. unfold markNodeClean. gr. Qed.
  Local Hint Resolve gr_markNodeClean : gr.
  Lemma gr_placeNodeOnStale (t : tid) (n : nid) : grows (placeNodeOnStale t n).
  Proof. unfold placeNodeOnStale. gr. Qed.
  Local Hint Resolve gr_placeNodeOnStale : gr.
  Lemma gr_markNodeDirty (t : tid) (n : nid) : grows (markNodeDirty t n).
  Proof. unfold markNodeDirty. gr. Qed.
  Local Hint Resolve gr_markNodeDirty : gr.
  Lemma gr_markNodeEvicted (t : tid) (n : nid) : grows (markNodeEvicted t n).
  Proof. unfold markNodeEvicted. gr. Qed.
  Local Hint Resolve gr_markNodeEvicted : gr.
  Lemma gr_markNodeToBeDiscarded (t : tid) (n : nid) : grows (markNodeToBeDiscarded t n).
  Proof. unfold markNodeToBeDiscarded. gr. Qed.
  Local Hint Resolve gr_markNodeToBeDiscarded : gr.
  Lemma gr_arrangeRec : ∀ (fuel : nat) (slice : list nid), grows (arrangeRec fuel slice).
  Proof. intros fuel. induction fuel as [|? IH]; intros; cbn [arrangeRec]; gr. Qed.
  Local Hint Resolve gr_arrangeRec : gr.
  Lemma gr_arrangeInit : ∀ (n : nid) (ix : list Z), grows (arrangeInit n ix).
  Proof. intros n ix. induction ix as [|? ? IH] || induction ix as [|? IH]; intros; cbn [arrangeInit]; gr. Qed.
  Local Hint Resolve gr_arrangeInit : gr.
  Lemma gr_arrangePrefixSumTree (n : nid) : grows (arrangePrefixSumTree n).
  Proof. unfold arrangePrefixSumTree. gr. Qed.
  Local Hint Resolve gr_arrangePrefixSumTree : gr.
  Lemma gr_rearrangeToRoot : ∀ (fuel : nat) (t : tid) (n : nid), grows (rearrangeToRoot fuel t n).
  Proof. intros fuel. induction fuel as [|? IH]; intros; cbn [rearrangeToRoot]; gr. Qed.
  Local Hint Resolve gr_rearrangeToRoot : gr.
  Lemma gr_bumpLoop : ∀ (fuel : nat) (n : nid) (delta : Z), grows (bumpLoop fuel n delta).
  Proof. intros fuel. induction fuel as [|? IH]; intros; cbn [bumpLoop]; gr. Qed.
  Local Hint Resolve gr_bumpLoop : gr.
  Lemma gr_updateRec : ∀ (fuel0 fuel : nat) (t : tid) (n : nid) (delta : Z), grows (updateRec fuel0 fuel t n delta).
  Proof. intros fuel0 fuel. induction fuel as [|? ? IH] || induction fuel as [|? IH]; intros; cbn [updateRec]; gr. Qed.
  Local Hint Resolve gr_updateRec : gr.
  Lemma gr_updatePrefixSumTreeLeafToRoot (fuel : nat) (t : tid) (n : nid) : grows (updatePrefixSumTreeLeafToRoot fuel t n).
  Proof. unfold updatePrefixSumTreeLeafToRoot. gr. Qed.
  Local Hint Resolve gr_updatePrefixSumTreeLeafToRoot : gr.
  Lemma gr_unpackU64 (b : bytes) : grows (unpackU64 b).
  Proof. unfold unpackU64. gr. Qed.
  Local Hint Resolve gr_unpackU64 : gr.
  Lemma gr_unpackNode (b : bytes) : grows (unpackNode b).
  Proof. unfold unpackNode. gr. Qed.
  Local Hint Resolve gr_unpackNode : gr.
  Lemma gr_unpackRef (b : bytes) : grows (unpackRef b).
  Proof. unfold unpackRef. gr. Qed.
  Local Hint Resolve gr_unpackRef : gr.
  Lemma gr_slice (n : nat) (b : bytes) : grows (slice n b).
  Proof. unfold slice. gr. Qed.
  Local Hint Resolve gr_slice : gr.
  Lemma gr_unpackKeyM (b : bytes) : grows (unpackKeyM cb b).
  Proof. unfold unpackKeyM. gr. Qed.
  Local Hint Resolve gr_unpackKeyM : gr.
  Lemma gr_unpackValM (b : bytes) : grows (unpackValM cb b).
  Proof. unfold unpackValM. gr. Qed.
  Local Hint Resolve gr_unpackValM : gr.
  Lemma gr_loadLeaf : ∀ (cnt : nat) (n : nid) (b : bytes), grows (loadLeaf cb cnt n b).
  Proof. intros cnt. induction cnt as [|? ? IH] || induction cnt as [|? IH]; intros; cbn [loadLeaf]; gr. Qed.
  Local Hint Resolve gr_loadLeaf : gr.
  Lemma gr_loadInner : ∀ (cnt : nat) (t : tid) (n : nid) (b : bytes), grows (loadInner cb cnt t n b).
  Proof. intros cnt. induction cnt as [|? ? IH] || induction cnt as [|? IH]; intros; cbn [loadInner]; gr. Qed.
  Local Hint Resolve gr_loadInner : gr.
  Lemma gr_loadNode (t : tid) (n : nid) : grows (loadNode cb t n).
  Proof. unfold loadNode. gr. Qed.
  Local Hint Resolve gr_loadNode : gr.
  Lemma gr_packU64 (z : Z) : grows (packU64 z).
  Proof. unfold packU64. gr. Qed.
  Local Hint Resolve gr_packU64 : gr.
  Lemma gr_packKeyM (k : K) : grows (packKeyM cb k).
  Proof. unfold packKeyM. gr. Qed.
  Local Hint Resolve gr_packKeyM : gr.
  Lemma gr_packValM (v : V) : grows (packValM cb v).
  Proof. unfold packValM. gr. Qed.
  Local Hint Resolve gr_packValM : gr.
  Lemma gr_packRef (c : nid) : grows (packRef c).
  Proof. unfold packRef. gr. Qed.
  Local Hint Resolve gr_packRef : gr.
  Lemma gr_asUser (v : bval) : grows (asUser v).
  Proof. unfold asUser. gr. Qed.
  Local Hint Resolve gr_asUser : gr.
  Lemma gr_postLeaf : ∀ (n : nid) (ix : list Z), grows (postLeaf cb n ix).
  Proof. intros n ix. induction ix as [|? ? IH] || induction ix as [|? IH]; intros; cbn [postLeaf]; gr. Qed.
  Local Hint Resolve gr_postLeaf : gr.
  Lemma gr_postInner : ∀ (n : nid) (ix : list Z), grows (postInner cb n ix).
  Proof. intros n ix. induction ix as [|? ? IH] || induction ix as [|? IH]; intros; cbn [postInner]; gr. Qed.
  Local Hint Resolve gr_postInner : gr.
  Lemma gr_postNode (t : tid) (n : nid) : grows (postNode cb t n).
  Proof. unfold postNode. gr. Qed.
  Local Hint Resolve gr_postNode : gr.
  Lemma gr_forChildren n f : (∀ c, grows (f c)) → grows (forChildren n f).
  Proof. intros. unfold forChildren. gr. Qed.
  Lemma gr_forLeft n f : (∀ c, grows (f c)) → grows (forLeft n f).
  Proof. intros. unfold forLeft. gr. Qed.
  Ltac gr ::= repeat first [gr1 | apply gr_forM; intros ? | apply gr_with_fuel; intros ? | apply gr_whenCache | apply gr_forChildren; intros ? | apply gr_forLeft; intros ?].
  Lemma gr_evictNode (t : tid) (n : nid) : grows (evictNode t n).
  Proof. unfold evictNode. gr. Qed.
  Local Hint Resolve gr_evictNode : gr.
  Lemma gr_flushNode : ∀ (fuel : nat) (t : tid) (n : nid) (andPurge : bool), grows (flushNode cb fuel t n andPurge).
  Proof. intros fuel. induction fuel as [|? IH]; intros; cbn [flushNode]; gr. Qed.
  Local Hint Resolve gr_flushNode : gr.
  Lemma gr_purgeNode : ∀ (fuel : nat) (t : tid) (n : nid) (full : bool), grows (purgeNode fuel t n full).
  Proof. intros fuel. induction fuel as [|? IH]; intros; cbn [purgeNode]; gr. Qed.
  Local Hint Resolve gr_purgeNode : gr.
  Lemma gr_visit (mark : bool) (t : tid) (n : nid) : grows (visit cb mark t n).
  Proof. unfold visit. gr. Qed.
  Local Hint Resolve gr_visit : gr.
  Lemma gr_touchNode : ∀ (fuel : nat) (t : tid) (n : nid), grows (touchNode cb fuel t n).
  Proof. intros fuel. induction fuel as [|? IH]; intros; cbn [touchNode]; gr. Qed.
  Local Hint Resolve gr_touchNode : gr.
  Lemma gr_touchLoadedNodeToRoot : ∀ (fuel : nat) (t : tid) (n : nid), grows (touchLoadedNodeToRoot fuel t n).
  Proof. intros fuel. induction fuel as [|? IH]; intros; cbn [touchLoadedNodeToRoot]; gr. Qed.
  Local Hint Resolve gr_touchLoadedNodeToRoot : gr.
  Lemma gr_discardNode : ∀ (fuel : nat) (t : tid) (n : nid), grows (discardNode cb fuel t n).
  Proof. induction fuel as [|? IH]; intros; cbn [discardNode]; gr. Qed.
  Local Hint Resolve gr_discardNode : gr.
  Lemma gr_discardAll : ∀ fuel ls, (∀ l, l ∈ ls → X l) → grows (discardAll fuel ls).
  Proof.
    induction fuel as [|fuel IH]; intros [|l0 ls] HX; cbn [discardAll]; [gr..|].
    apply gr_bind; [intros s; apply grow_refl|intros pick]. set i := Nat.modulo _ _. apply gr_bind.
    - apply gr_DiscardNode. apply HX. destruct ((l0 :: ls) !! i) as [l|] eqn:E; cbn; [by eapply elem_of_list_lookup_2|left].
    - intros _. apply IH. intros l Hl. apply HX. revert Hl. rewrite delete_take_drop elem_of_app => -[Hl|Hl]; [by rewrite -(take_drop i (l0 :: ls)) elem_of_app; left|by rewrite -(take_drop (S i) (l0 :: ls)) elem_of_app; right].
  Qed.
  Lemma gr_prune t s : (∀ T l, trees s !! t = Some T → l ∈ t_stale T → X l) → grow s (stof (pruneWhileLocked t s)).
  Proof.
    intros HX. unfold pruneWhileLocked, getT, bind; cbn [run]. destruct (trees s !! t) as [T|] eqn:E; [|apply grow_refl].
    pose proof (gr_discardAll (length (t_stale T)) (t_stale T) (λ l Hl, HX T l eq_refl Hl) s) as H1.
    destruct (discardAll _ _ s) as [a s1|e s1|w s1]; try done. eapply grow_trans; [exact H1|]. apply gr_modT.
  Qed.
  Lemma gr_updateLayoutReport : ∀ (fuel : nat) (t : tid) (n : nid) (rep : report), grows (updateLayoutReport cb fuel t n rep).
  Proof.
    induction fuel as [|? IH]; intros; cbn [updateLayoutReport]; gr.
    match goal with |- grows (_ (range ?x) ?y) => generalize (range x); intros ix; generalize y end.
    induction ix; intros; gr.
  Qed.
  Local Hint Resolve gr_updateLayoutReport : gr.
  Lemma gr_splitLoop : ∀ (fuel : nat) (t : tid) (n m : nid) (len : Z), grows (splitLoop cb fuel t n m len).
  Proof. intros fuel. induction fuel as [|? IH]; intros; cbn [splitLoop]; gr. Qed.
  Local Hint Resolve gr_splitLoop : gr.
  Lemma gr_insertHere : ∀ (fuel0 fuel : nat) (t : tid) (n : nid) (k : K) (v : bval), grows (insertHere cb fuel0 fuel t n k v).
  Proof. intros fuel0 fuel. induction fuel as [|? ? IH] || induction fuel as [|? IH]; intros; cbn [insertHere]; gr. Qed.
  Local Hint Resolve gr_insertHere : gr.
  Lemma gr_borrowLeft (t : tid) (n p l : nid) (pi len : Z) : grows (borrowLeft cb t n p l pi len).
  Proof. unfold borrowLeft. gr. Qed.
  Local Hint Resolve gr_borrowLeft : gr.
  Lemma gr_borrowRight (t : tid) (n p q : nid) (pi : Z) : grows (borrowRight cb t n p q pi).
  Proof. unfold borrowRight. gr. Qed.
  Local Hint Resolve gr_borrowRight : gr.
  Lemma gr_moveAll : ∀ (dst src : nid) (ix : list Z), grows (moveAll cb dst src ix).
  Proof. intros dst src ix. induction ix as [|? ? IH] || induction ix as [|? IH]; intros; cbn [moveAll]; gr. Qed.
  Local Hint Resolve gr_moveAll : gr.
  Lemma gr_mergeNodes t dst src p si chk rec : grows rec → grows (mergeNodes cb t dst src p si chk rec).
  Proof. intros. unfold mergeNodes. gr. Qed.
  Ltac gr ::= repeat first [gr1 | apply gr_forM; intros ? | apply gr_with_fuel; intros ? | apply gr_whenCache | apply gr_forChildren; intros ? | apply gr_forLeft; intros ? | apply gr_mergeNodes].
  Lemma gr_leftSibling (t : tid) (p : nid) (pi : Z) : grows (leftSibling cb t p pi).
  Proof. unfold leftSibling. gr. Qed.
  Local Hint Resolve gr_leftSibling : gr.
  Lemma gr_rightSibling (t : tid) (p : nid) (pi : Z) : grows (rightSibling cb t p pi).
  Proof. unfold rightSibling. gr. Qed.
  Local Hint Resolve gr_rightSibling : gr.
  Lemma gr_rebalanceHere : ∀ (fuel : nat) (t : tid) (n : nid) (stack : list Z), grows (rebalanceHere cb fuel t n stack).
  Proof. intros fuel. induction fuel as [|? IH]; intros; cbn [rebalanceHere]; gr. Qed.
  Local Hint Resolve gr_rebalanceHere : gr.
  Lemma gr_findChild (n : nid) (key : K) : grows (findChild cb n key).
  Proof. unfold findChild. gr. Qed.
  Local Hint Resolve gr_findChild : gr.
  Lemma gr_descendKey : ∀ (fuel : nat) (mark : bool) (t : tid) (n : nid) (stack : list Z) (key : K), grows (descendKey cb fuel mark t n stack key).
  Proof. intros fuel. induction fuel as [|? IH]; intros; cbn [descendKey]; gr. Qed.
  Local Hint Resolve gr_descendKey : gr.
  Lemma gr_leftSum (p : psrec) : grows (leftSum p).
  Proof. unfold leftSum. gr. Qed.
  Local Hint Resolve gr_leftSum : gr.
  Lemma gr_climb : ∀ (fuel : nat) (c : nid) (acc : list bool), grows (climb fuel c acc).
  Proof. intros fuel. induction fuel as [|? IH]; intros; cbn [climb]; gr. Qed.
  Local Hint Resolve gr_climb : gr.
  Lemma gr_unclimb : ∀ (c : nid) (stack : list bool) (delta : Z), grows (unclimb c stack delta).
  Proof. intros c stack. revert c. induction stack as [|? ? IH]; intros; cbn [unclimb]; gr. Qed.
  Local Hint Resolve gr_unclimb : gr.
  Lemma gr_childOffset (fuel : nat) (n c : nid) (delta : Z) : grows (childOffset fuel n c delta).
  Proof. unfold childOffset. gr. Qed.
  Local Hint Resolve gr_childOffset : gr.
  Lemma gr_descendBisect : ∀ (fuel0 fuel : nat) (t : tid) (n : nid) (delta : Z) (key : K), grows (descendBisect cb fuel0 fuel t n delta key).
  Proof. intros fuel0 fuel. induction fuel as [|? ? IH] || induction fuel as [|? IH]; intros; cbn [descendBisect]; gr. Qed.
  Local Hint Resolve gr_descendBisect : gr.
  Lemma gr_walkPs : ∀ (fuel : nat) (c : nid) (i : Z), grows (walkPs fuel c i).
  Proof. intros fuel. induction fuel as [|? IH]; intros; cbn [walkPs]; gr. Qed.
  Local Hint Resolve gr_walkPs : gr.
  Lemma gr_descendIndex : ∀ (fuel0 fuel : nat) (mark : bool) (t : tid) (n : nid) (i : Z) (stack : list Z), grows (descendIndex cb fuel0 fuel mark t n i stack).
  Proof. intros fuel0 fuel. induction fuel as [|? ? IH] || induction fuel as [|? IH]; intros; cbn [descendIndex]; gr. Qed.
  Local Hint Resolve gr_descendIndex : gr.
  Lemma gr_rootOf (t : tid) : grows (rootOf t).
  Proof. unfold rootOf. gr. Qed.
  Local Hint Resolve gr_rootOf : gr.
  Lemma gr_bt_BisectLeft (t : tid) (key : K) : grows (bt_BisectLeft cb t key).
  Proof. unfold bt_BisectLeft. gr. Qed.
  Local Hint Resolve gr_bt_BisectLeft : gr.
  Lemma gr_bt_BisectRight (t : tid) (key : K) : grows (bt_BisectRight cb t key).
  Proof. unfold bt_BisectRight. gr. Qed.
  Local Hint Resolve gr_bt_BisectRight : gr.
  Lemma gr_bt_DeleteByIndex (t : tid) (i : Z) : grows (bt_DeleteByIndex cb t i).
  Proof. unfold bt_DeleteByIndex. gr. Qed.
  Local Hint Resolve gr_bt_DeleteByIndex : gr.
  Lemma gr_bt_DeleteByKey (t : tid) (key : K) : grows (bt_DeleteByKey cb t key).
  Proof. unfold bt_DeleteByKey. gr. Qed.
  Local Hint Resolve gr_bt_DeleteByKey : gr.
  Lemma gr_bt_GetByIndex (t : tid) (i : Z) : grows (bt_GetByIndex cb t i).
  Proof. unfold bt_GetByIndex. gr. Qed.
  Local Hint Resolve gr_bt_GetByIndex : gr.
  Lemma gr_bt_GetByKey (t : tid) (key : K) : grows (bt_GetByKey cb t key).
  Proof. unfold bt_GetByKey. gr. Qed.
  Local Hint Resolve gr_bt_GetByKey : gr.
  Lemma gr_bt_Len (t : tid) : grows (bt_Len cb t).
  Proof. unfold bt_Len. gr. Qed.
  Local Hint Resolve gr_bt_Len : gr.
  Lemma gr_bt_PatchByIndex (t : tid) (i : Z) (v : V) : grows (bt_PatchByIndex cb t i v).
  Proof. unfold bt_PatchByIndex. gr. Qed.
  Local Hint Resolve gr_bt_PatchByIndex : gr.
  Lemma gr_bt_PatchByKey (t : tid) (key : K) (v : V) : grows (bt_PatchByKey cb t key v).
  Proof. unfold bt_PatchByKey. gr. Qed.
  Local Hint Resolve gr_bt_PatchByKey : gr.
  Lemma gr_bt_Put (t : tid) (key : K) (v : V) : grows (bt_Put cb t key v).
  Proof. unfold bt_Put. gr. Qed.
  Local Hint Resolve gr_bt_Put : gr.
  Lemma gr_bt_FetchLocation (t : tid) : grows (bt_FetchLocation t).
  Proof. unfold bt_FetchLocation. gr. Qed.
  Local Hint Resolve gr_bt_FetchLocation : gr.
  Lemma gr_bt_FetchLayoutReport (t : tid) : grows (bt_FetchLayoutReport cb t).
  Proof. unfold bt_FetchLayoutReport. gr. Qed.
  Local Hint Resolve gr_bt_FetchLayoutReport : gr.
  Lemma gr_dimLoop : ∀ (fuel : nat) (t : tid) (n : nid) (dim : dimensions), grows (dimLoop cb fuel t n dim).
  Proof. intros fuel. induction fuel as [|? IH]; intros; cbn [dimLoop]; gr. Qed.
  Local Hint Resolve gr_dimLoop : gr.
  Lemma gr_bt_FetchDimensionsReport (t : tid) : grows (bt_FetchDimensionsReport cb t).
  Proof. unfold bt_FetchDimensionsReport. gr. Qed.
  Local Hint Resolve gr_bt_FetchDimensionsReport : gr.
  Lemma gr_bt_Flush (t : tid) (andPurge : bool) : grows (bt_Flush cb t andPurge).
  Proof. unfold bt_Flush. gr. Qed.
  Local Hint Resolve gr_bt_Flush : gr.
  Lemma gr_bt_Purge (t : tid) (full : bool) : grows (bt_Purge t full).
  Proof. unfold bt_Purge. gr. Qed.
  Local Hint Resolve gr_bt_Purge : gr.
  Lemma gr_bt_Touch (t : tid) : grows (bt_Touch cb t).
  Proof. unfold bt_Touch. gr. Qed.
  Local Hint Resolve gr_bt_Touch : gr.
  Lemma gr_bt_TouchItem (t : tid) (i : Z) : grows (bt_TouchItem cb t i).
  Proof. unfold bt_TouchItem. gr. Qed.
  Local Hint Resolve gr_bt_TouchItem : gr.


  Lemma gr_bt_New (max : Z) (attach : bool) : grows (bt_New max attach).
  Proof. unfold bt_New. gr. Qed.
  Local Hint Resolve gr_bt_New : gr.
  Lemma gr_bt_Old (l : loc) (attach : bool) : grows (bt_Old cb l attach).
  Proof. unfold bt_Old. gr. Qed.
  Local Hint Resolve gr_bt_Old : gr.
  Lemma gr_validatePrefixSum : ∀ (fuel : nat) (o : option nid), grows (validatePrefixSum fuel o).
  Proof. intros fuel. induction fuel as [|? IH]; intros; cbn [validatePrefixSum]; gr. Qed.
  Local Hint Resolve gr_validatePrefixSum : gr.
  Lemma gr_validateNode : ∀ (fuel0 fuel : nat) (t : tid) (n : nid), grows (validateNode cb fuel0 fuel t n).
  Proof.
    intros fuel0. induction fuel as [|? IH]; intros; cbn [validateNode]; gr.
    all: match goal with |- grows (_ (range ?x) ?y) => generalize (range x); intros ix; generalize y end.
    all: induction ix; intros; gr.
  Qed.
  Local Hint Resolve gr_validateNode : gr.
  Lemma gr_bt_Validate (t : tid) : grows (bt_Validate cb t).
  Proof. unfold bt_Validate. gr. Qed.
  Local Hint Resolve gr_bt_Validate : gr.
  Lemma gr_dumpNode : ∀ (fuel : nat) (t : tid) (n : nid), grows (dumpNode cb fuel t n).
  Proof.
    induction fuel as [|? IH]; intros; cbn [dumpNode]; gr.
    all: match goal with |- grows (_ (range ?x) ?y) => generalize (range x); intros ix; generalize y end.
    all: induction ix; intros; gr.
  Qed.
  Local Hint Resolve gr_dumpNode : gr.
  Lemma gr_bt_Dump (t : tid) : grows (bt_Dump cb t).
  Proof. unfold bt_Dump. gr. Qed.
  Local Hint Resolve gr_bt_Dump : gr.
  Lemma gr_cache_UpdateLimits (low high : Z) : grows (cache_UpdateLimits low high).
  Proof. unfold cache_UpdateLimits. gr. Qed.
  Local Hint Resolve gr_cache_UpdateLimits : gr.
  Lemma gr_drainerSelect  : grows (drainerSelect).
  Proof. unfold drainerSelect. gr. Qed.
  Local Hint Resolve gr_drainerSelect : gr.
  Lemma gr_drainerEvict n : grows (drainerEvict n).
  Proof.
    unfold drainerEvict. gr.
  Qed.
  Lemma gr_bt_call (t : tid) (c : call K V) : grows (bt_call cb t c).
  Proof. unfold bt_call. gr. Qed.
  Local Hint Resolve gr_bt_call : gr.
  Lemma gr_pruneAll t : (∀ l, X l) → grows (pruneWhileLocked t).
  Proof. intros HX. unfold pruneWhileLocked. gr. by apply gr_discardAll. Qed.
  Lemma gr_bt_Discard t : (∀ l, X l) → grows (bt_Discard cb t).
  Proof. intros HX. unfold bt_Discard. gr. by apply gr_pruneAll. Qed.
  Lemma gr_discard_strict t : (∀ l, X l) → grows (with_fuel (λ fuel,
    bind (rootOf t) (λ rt, bind (discardNode cb fuel t rt) (λ _, bind (pruneWhileLocked t) (λ _, modT t (λ T, Tree (t_min T) (t_max T) None [] false)))))).
  Proof. intros HX. gr. by apply gr_pruneAll. Qed.
End pres.
Tactic Notation "urun" "in" hyp(H) := repeat rewrite ?run_bind ?run_atomic ?run_act ?run_fuel ?run_ret ?run_try in H; cbv beta iota in H.
Tactic Notation "urun" := repeat rewrite ?run_bind ?run_atomic ?run_act ?run_fuel ?run_ret ?run_try; cbv beta iota.

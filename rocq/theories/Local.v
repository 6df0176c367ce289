(** * What every step of a call preserves

    The same as Pres.v, but for every single step of a call on the tree [t0]:
    nodes and blocks are only added, except for the blocks handed to
    DiscardNode, nodes keep their tree, and new nodes belong to [t0].  Models
    no code. *)
From Coq Require Import ssreflect.
From stdpp Require Import prelude list gmap.
From Verif Require Import Spec Llrb BTree Pres.
Open Scope Z_scope.

Section local.
  Context {K V : Type}.
  Variable cb : callbacks K V.
  (** the locations that may be discarded, the tree of the call *)
  Variable X : loc → Prop.
  Variable t0 : tid.
  Notation st := (st K V).
  Notation M := (M K V).
  Notation bval := (bval V).
  Notation bnode := (bnode K V).
  Notation llrb := (tree K bval).
  Notation grow := (grow (K:=K) (V:=V) X).
  Implicit Types s : st.

  (** unused pointers are above [fresh] *)
  Definition bounded s : Prop := ∀ n r, nodes s !! n = Some r → (n < fresh s)%positive.
  Record local s s' : Prop := Local {
    l_grow : grow s s';
    l_bound : bounded s → bounded s';
    l_fresh : (fresh s ≤ fresh s')%positive;
    l_home n r : bounded s → nodes s !! n = Some r → ∃ r', nodes s' !! n = Some r' ∧ b_tree r' = b_tree r;
    l_new n r' : bounded s → nodes s !! n = None → nodes s' !! n = Some r' → b_tree r' = t0 }.
  Lemma local_refl s : local s s.
  Proof. split; [apply grow_refl|done|lia|eauto|congruence]. Qed.
  Lemma local_trans s1 s2 s3 : local s1 s2 → local s2 s3 → local s1 s3.
  Proof.
    intros [A1 A A0 A2 A3] [B1 B B0 B2 B3]. split; [by eapply grow_trans|by auto|lia| |].
    - intros n r Hb Hn. destruct (A2 _ _ Hb Hn) as (r2 & Hn2 & <-). by apply B2; [apply A|].
    - intros n r Hb Hn Hn3. destruct (nodes s2 !! n) as [r2|] eqn:Hn2; [|by eapply B3; [apply A|..]].
      destruct (B2 _ _ (A Hb) Hn2) as (r3 & Hr3 & He). rewrite Hn3 in Hr3. injection Hr3 as <-. rewrite He. by eapply A3.
  Qed.
  Lemma local_same s s' : nodes s' = nodes s → (fresh s ≤ fresh s')%positive → grow s s' → local s s'.
  Proof.
    intros He Hf Hg. split; [done|unfold bounded; rewrite He; intros H n r Hn; specialize (H n r Hn); lia|done|rewrite He; eauto|rewrite He; congruence].
  Qed.
  Fixpoint locals {A} (m : M A) : Prop :=
    match m with
    | Act f => ∀ s, local s (stof (f s))
    | Bind m f => locals m ∧ ∀ a, locals (f a)
    | Try m h => locals m ∧ ∀ e, locals (h e)
    end.
  Lemma locals_run {A} (m : M A) : locals m → ∀ s, local s (stof (m s)).
  Proof.
    induction m as [A f|A B m IHm f IHf|A m IHm h IHh]; [done| |]; intros [H1 H2] s; cbn [run].
    - specialize (IHm H1 s). destruct (run m s) as [a s1|e s1|w s1]; try done.
      eapply local_trans; [exact IHm|]. by apply IHf.
    - specialize (IHm H1 s). destruct (run m s) as [a s1|e s1|w s1]; try done.
      eapply local_trans; [exact IHm|]. by apply IHh.
  Qed.

  Lemma lc_ret {A} (a : A) : locals (ret a).
  Proof. intros s. apply local_refl. Qed.
  Lemma lc_fail {A} e : locals (A:=A) (fail e).
  Proof. intros s. apply local_refl. Qed.
  Lemma lc_panic {A} : locals (A:=A) panic.
  Proof. intros s. apply local_refl. Qed.
  Lemma lc_nofuel {A} : locals (A:=A) nofuel.
  Proof. intros s. apply local_refl. Qed.
  Lemma lc_envbad {A} : locals (A:=A) envbad.
  Proof. intros s. apply local_refl. Qed.
  Lemma lc_bind {A B} (m : M A) (f : A → M B) : locals m → (∀ a, locals (f a)) → locals (bind m f).
  Proof. by split. Qed.
  Lemma lc_ignoreErr m : locals m → locals (ignoreErr m).
  Proof. split; [done|]. intros _. apply lc_ret. Qed.
  Lemma lc_atomic {A} (m : M A) : locals m → locals (atomic m).
  Proof. intros H. exact (locals_run m H). Qed.
  Lemma lc_try {A} (m : M A) h : locals m → (∀ e, locals (h e)) → locals (Try m h).
  Proof. by split. Qed.
  Create HintDb lc discriminated.
  Local Hint Extern 1 (∀ r, b_tree _ = b_tree r) => (by intros []) : lc.
  Local Hint Extern 1 (b_tree _ = t0) => done : lc.
  Local Hint Resolve lc_ret lc_fail lc_panic lc_nofuel lc_envbad : lc.

  Ltac lc1 :=
    match goal with
    | |- locals (bind _ _) => apply lc_bind; [|intros ?]
    | |- locals (ignoreErr _) => apply lc_ignoreErr
    | |- locals (atomic _) => apply lc_atomic
    | |- locals (Try _ _) => apply lc_try; [|intros ?]
    | H : ∀ _, locals _ |- locals _ => apply H
    | H : locals _ |- locals _ => apply H
    | |- locals (match ?x with _ => _ end) => destruct x
    | _ => solve [auto with lc nocore]
    end.
  Ltac lc := repeat lc1.

  Lemma lc_deref o : locals (deref o).
  Proof. unfold deref. lc. Qed.
  Local Hint Resolve lc_deref : lc.
  Lemma lc_getN n : locals (getN n).
  Proof. intros s. cbn. destruct (_ !! _); apply local_refl. Qed.
  Local Hint Resolve lc_getN : lc.
  Lemma lc_modN n f : (∀ r, b_tree (f r) = b_tree r) → locals (modN n f).
  Proof. intros Hf s. pose proof (gr_modN X n f s) as Hg. cbn in *. destruct (_ !! _) as [r|] eqn:E; [|apply local_refl]. split; [done| |cbn..].
    - intros Hb m r0. cbn. rewrite lookup_insert_Some. intros [[<- _]|[_ Hm]]; by eapply Hb.
    - lia.
    - intros m r0 _ Hm. destruct (decide (m = n)) as [->|?]; [rewrite lookup_insert; rewrite E in Hm; injection Hm as <-; eauto|rewrite lookup_insert_ne //; eauto].
    - intros m r0 _ Hm. rewrite lookup_insert_ne; congruence. Qed.
  Local Hint Resolve lc_modN : lc.
  Lemma lc_getP n : locals (getP n).
  Proof. intros s. cbn. destruct (_ !! _); apply local_refl. Qed.
  Local Hint Resolve lc_getP : lc.
  Lemma lc_modP n f : locals (modP n f).
  Proof. intros s. pose proof (gr_modP X n f s) as Hg. cbn in *. destruct (_ !! _); [apply local_same; [done|cbn; lia|done]|apply local_refl]. Qed.
  Local Hint Resolve lc_modP : lc.
  Lemma lc_getC n : locals (getC n).
  Proof. intros s. cbn. destruct (_ !! _); apply local_refl. Qed.
  Local Hint Resolve lc_getC : lc.
  Lemma lc_modC n f : locals (modC n f).
  Proof. intros s. pose proof (gr_modC X n f s) as Hg. cbn in *. destruct (_ !! _); [apply local_same; [done|cbn; lia|done]|apply local_refl]. Qed.
  Local Hint Resolve lc_modC : lc.
  Lemma lc_getT n : locals (getT n).
  Proof. intros s. cbn. destruct (_ !! _); apply local_refl. Qed.
  Local Hint Resolve lc_getT : lc.
  Lemma lc_modT n f : locals (modT n f).
  Proof. intros s. pose proof (gr_modT X n f s) as Hg. cbn in *. destruct (_ !! _); [apply local_same; [done|cbn; lia|done]|apply local_refl]. Qed.
  Local Hint Resolve lc_modT : lc.
  Lemma lc_getCache : locals getCache.
  Proof. intros s. apply local_refl. Qed.
  Local Hint Resolve lc_getCache : lc.
  Lemma lc_modCache f : locals (modCache f).
  Proof. intros s. apply local_same; [done|cbn; lia|]. apply (gr_modCache X f s). Qed.
  Local Hint Resolve lc_modCache : lc.
  Lemma lc_newNode r : b_tree r = t0 → locals (newNode r).
  Proof.
    intros Hr s. split; [apply (gr_newNode X r s)|cbn..].
    - intros Hb n r0. cbn. rewrite lookup_insert_Some. intros [[<- _]|[_ Hn]]; [cbn; lia|]. specialize (Hb _ _ Hn). cbn. lia.
    - lia.
    - intros n r0 Hb Hn. exists r0. split; [|done]. cbn. rewrite lookup_insert_ne; [|done]. intros <-. specialize (Hb _ _ Hn). lia.
    - intros n r' _ Hn. rewrite lookup_insert_Some Hn. by intros [[_ <-]|[_ ?]].
  Qed.
  Local Hint Resolve lc_newNode : lc.
  Lemma lc_newTree T : locals (newTree T).
  Proof. intros s. apply local_same; [done|cbn; lia|]. apply (gr_newTree X T s). Qed.
  Local Hint Resolve lc_newTree : lc.
  Lemma lc_forM {A} (l : list A) f : (∀ a, locals (f a)) → locals (forM l f).
  Proof. intros Hf. induction l; cbn [forM]; lc. Qed.
  Lemma lc_with_fuel {A} (f : nat → M A) : (∀ n, locals (f n)) → locals (with_fuel f).
  Proof. intros Hf. apply lc_bind; [intros s; apply local_refl|done]. Qed.
  Ltac lc ::= repeat first [lc1 | apply lc_forM; intros ? | apply lc_with_fuel; intros ?].
  Lemma lc_callback {A} (f : choice → st → out K V A) : (∀ c s, local s (stof (f c s))) → locals (callback f).
  Proof.
    intros Hf s. cbn. destruct (ch_crash _); [apply local_refl|].
    assert (local s (set_iocount (S (iocount s)) s)) as H0 by (apply local_same; [done|cbn; lia|]; split; try done; cbn; lia).
    destruct (ch_fail _); [done|]. by eapply local_trans, Hf.
  Qed.
  Lemma lc_GetNode l : locals (GetNode l).
  Proof. apply lc_callback. intros c s. destruct (_ !! _); apply local_refl. Qed.
  Local Hint Resolve lc_GetNode : lc.
  Lemma lc_PutNode b : locals (PutNode b).
  Proof.
    apply lc_callback. intros c s. cbn. destruct (_ && _); [|apply local_refl]. destruct (_ !! _) eqn:E; [apply local_refl|].
    apply local_same; [done|cbn; lia|]. split; try done; cbn; try lia. intros l b' Hl _. rewrite lookup_insert_ne //. congruence.
  Qed.
  Local Hint Resolve lc_PutNode : lc.
  Lemma lc_DiscardNode l : X l → locals (DiscardNode l).
  Proof.
    intros HX. apply lc_callback. intros c s. cbn. destruct (_ !! _) eqn:E; [|apply local_refl].
    apply local_same; [done|cbn; lia|]. split; try done; cbn; try lia. intros l' b' Hl Hx. rewrite lookup_delete_ne //. congruence.
  Qed.
  Lemma lc_limit (z : Z) : locals (limit z).
  Proof. unfold limit. lc. Qed.
  Local Hint Resolve lc_limit : lc.
  Lemma lc_lift {A} (m : lo A) : locals (lift m).
  Proof. unfold lift. lc. Qed.
  Local Hint Resolve lc_lift : lc.
  Lemma lc_kvOf (n : nid) : locals (kvOf n).
  Proof. unfold kvOf. lc. Qed.
  Local Hint Resolve lc_kvOf : lc.
  Lemma lc_kvLen (n : nid) : locals (kvLen n).
  Proof. unfold kvLen. lc. Qed.
  Local Hint Resolve lc_kvLen : lc.
  Lemma lc_kvGet (n : nid) (i : Z) : locals (kvGet n i).
  Proof. unfold kvGet. lc. Qed.
  Local Hint Resolve lc_kvGet : lc.
  Lemma lc_kvSet (n : nid) (t : llrb) : locals (kvSet n t).
  Proof. unfold kvSet. lc. Qed.
  Local Hint Resolve lc_kvSet : lc.
  Lemma lc_kvPut (n : nid) (k : K) (v : bval) : locals (kvPut cb n k v).
  Proof. unfold kvPut. lc. Qed.
  Local Hint Resolve lc_kvPut : lc.
  Lemma lc_kvPut_ (n : nid) (k : K) (v : bval) : locals (kvPut_ cb n k v).
  Proof. unfold kvPut_. lc. Qed.
  Local Hint Resolve lc_kvPut_ : lc.
  Lemma lc_kvDelIndex (n : nid) (i : Z) : locals (kvDelIndex cb n i).
  Proof. unfold kvDelIndex. lc. Qed.
  Local Hint Resolve lc_kvDelIndex : lc.
  Lemma lc_kvDelKey (n : nid) (k : K) : locals (kvDelKey cb n k).
  Proof. unfold kvDelKey. lc. Qed.
  Local Hint Resolve lc_kvDelKey : lc.
  Lemma lc_kvBisectLeft (n : nid) (k : K) : locals (kvBisectLeft cb n k).
  Proof. unfold kvBisectLeft. lc. Qed.
  Local Hint Resolve lc_kvBisectLeft : lc.
  Lemma lc_kvBisectRight (n : nid) (k : K) : locals (kvBisectRight cb n k).
  Proof. unfold kvBisectRight. lc. Qed.
  Local Hint Resolve lc_kvBisectRight : lc.
  Lemma lc_kvGetKey (n : nid) (k : K) : locals (kvGetKey cb n k).
  Proof. unfold kvGetKey. lc. Qed.
  Local Hint Resolve lc_kvGetKey : lc.
  Lemma lc_compareM (a b : K) : locals (compareM cb a b).
  Proof. unfold compareM. lc. Qed.
  Local Hint Resolve lc_compareM : lc.
  Lemma lc_asNode (v : bval) : locals (asNode v).
  Proof. unfold asNode. lc. Qed.
  Local Hint Resolve lc_asNode : lc.
  Lemma lc_logicOk (b : bool) : locals (logicOk b).
  Proof. unfold logicOk. lc. Qed.
  Local Hint Resolve lc_logicOk : lc.
  Lemma lc_logicSome {A} (o : option A) : locals (logicSome o).
  Proof. unfold logicSome. lc. Qed.
  Local Hint Resolve lc_logicSome : lc.
  Lemma lc_getQ (d : bool) : locals (getQ d).
  Proof. unfold getQ. lc. Qed.
  Local Hint Resolve lc_getQ : lc.
  Lemma lc_modQ (d : bool) (f : lruq → lruq) : locals (modQ d f).
  Proof. unfold modQ. lc. Qed.
  Local Hint Resolve lc_modQ : lc.
  Lemma lc_putNext (p : option nid) (o : option nid) : locals (putNext p o).
  Proof. unfold putNext. lc. Qed.
  Local Hint Resolve lc_putNext : lc.
  Lemma lc_putPrev (p : option nid) (o : option nid) : locals (putPrev p o).
  Proof. unfold putPrev. lc. Qed.
  Local Hint Resolve lc_putPrev : lc.
  Lemma lc_lruAppend (d : bool) (n : nid) : locals (lruAppend d n).
  Proof. unfold lruAppend. lc. Qed.
  Local Hint Resolve lc_lruAppend : lc.
  Lemma lc_lruToTail (d : bool) (n : nid) : locals (lruToTail d n).
  Proof. unfold lruToTail. lc. Qed.
  Local Hint Resolve lc_lruToTail : lc.
  Lemma lc_lruTake (d : bool) (n : nid) : locals (lruTake d n).
  Proof. unfold lruTake. lc. Qed.
  Local Hint Resolve lc_lruTake : lc.
  Lemma lc_lruGive (d : bool) (n : nid) : locals (lruGive d n).
  Proof. unfold lruGive. lc. Qed.
  Local Hint Resolve lc_lruGive : lc.
  Lemma lc_lruRemove (d : bool) (n : nid) : locals (lruRemove d n).
  Proof. unfold lruRemove. lc. Qed.
  Local Hint Resolve lc_lruRemove : lc.
  Lemma lc_whenCache t m : locals m → locals (whenCache t m).
  Proof. intros. unfold whenCache. lc. Qed.
  Ltac lc ::= repeat first [lc1 | apply lc_forM; intros ? | apply lc_with_fuel; intros ? | apply lc_whenCache].
  Lemma lc_initNodeAsEvicted (t : tid) (n : nid) : locals (initNodeAsEvicted t n).
  Proof. unfold initNodeAsEvicted. lc. Qed.
  Local Hint Resolve lc_initNodeAsEvicted : lc.
  Lemma lc_incCacheHits (t : tid) : locals (incCacheHits t).
  Proof. unfold incCacheHits. lc. Qed.
  Local Hint Resolve lc_incCacheHits : lc.
  Lemma lc_incCacheMisses (t : tid) : locals (incCacheMisses t).
  Proof. unfold incCacheMisses. lc. Qed.
  Local Hint Resolve lc_incCacheMisses : lc.
  Lemma lc_markNodeUsed (t : tid) (n : nid) : locals (markNodeUsed t n).
  Proof. unfold markNodeUsed. lc. Qed.
  Local Hint Resolve lc_markNodeUsed : lc.
  Lemma lc_kickDrainer (needClean : bool) : locals (kickDrainer needClean).
  Proof. unfold kickDrainer. lc. Qed.
  Local Hint Resolve lc_kickDrainer : lc.
  Lemma lc_markNodeClean (t : tid) (n : nid) : locals (markNodeClean t n).
  Proof. unfold markNodeClean. lc. Qed.
  Local Hint Resolve lc_markNodeClean : lc.
  Lemma lc_placeNodeOnStale (t : tid) (n : nid) : locals (placeNodeOnStale t n).
  Proof. unfold placeNodeOnStale. lc. Qed.
  Local Hint Resolve lc_placeNodeOnStale : lc.
  Lemma lc_markNodeDirty (t : tid) (n : nid) : locals (markNodeDirty t n).
  Proof. unfold markNodeDirty. lc. Qed.
  Local Hint Resolve lc_markNodeDirty : lc.
  Lemma lc_markNodeEvicted (t : tid) (n : nid) : locals (markNodeEvicted t n).
  Proof. unfold markNodeEvicted. lc. Qed.
  Local Hint Resolve lc_markNodeEvicted : lc.
  Lemma lc_markNodeToBeDiscarded (t : tid) (n : nid) : locals (markNodeToBeDiscarded t n).
  Proof. unfold markNodeToBeDiscarded. lc. Qed.
  Local Hint Resolve lc_markNodeToBeDiscarded : lc.
  Lemma lc_arrangeRec : ∀ (fuel : nat) (slice : list nid), locals (arrangeRec fuel slice).
  Proof. intros fuel. induction fuel as [|? IH]; intros; cbn [arrangeRec]; lc. Qed.
  Local Hint Resolve lc_arrangeRec : lc.
  Lemma lc_arrangeInit : ∀ (n : nid) (ix : list Z), locals (arrangeInit n ix).
  Proof. intros n ix. induction ix as [|? ? IH] || induction ix as [|? IH]; intros; cbn [arrangeInit]; lc. Qed.
  Local Hint Resolve lc_arrangeInit : lc.
  Lemma lc_arrangePrefixSumTree (n : nid) : locals (arrangePrefixSumTree n).
  Proof. unfold arrangePrefixSumTree. lc. Qed.
  Local Hint Resolve lc_arrangePrefixSumTree : lc.
  Lemma lc_rearrangeToRoot : ∀ (fuel : nat) (t : tid) (n : nid), locals (rearrangeToRoot fuel t n).
  Proof. intros fuel. induction fuel as [|? IH]; intros; cbn [rearrangeToRoot]; lc. Qed.
  Local Hint Resolve lc_rearrangeToRoot : lc.
  Lemma lc_bumpLoop : ∀ (fuel : nat) (n : nid) (delta : Z), locals (bumpLoop fuel n delta).
  Proof. intros fuel. induction fuel as [|? IH]; intros; cbn [bumpLoop]; lc. Qed.
  Local Hint Resolve lc_bumpLoop : lc.
  Lemma lc_updateRec : ∀ (fuel0 fuel : nat) (t : tid) (n : nid) (delta : Z), locals (updateRec fuel0 fuel t n delta).
  Proof. intros fuel0 fuel. induction fuel as [|? ? IH] || induction fuel as [|? IH]; intros; cbn [updateRec]; lc. Qed.
  Local Hint Resolve lc_updateRec : lc.
  Lemma lc_updatePrefixSumTreeLeafToRoot (fuel : nat) (t : tid) (n : nid) : locals (updatePrefixSumTreeLeafToRoot fuel t n).
  Proof. unfold updatePrefixSumTreeLeafToRoot. lc. Qed.
  Local Hint Resolve lc_updatePrefixSumTreeLeafToRoot : lc.
  Lemma lc_unpackU64 (b : bytes) : locals (unpackU64 b).
  Proof. unfold unpackU64. lc. Qed.
  Local Hint Resolve lc_unpackU64 : lc.
  Lemma lc_unpackNode (b : bytes) : locals (unpackNode b).
  Proof. unfold unpackNode. lc. Qed.
  Local Hint Resolve lc_unpackNode : lc.
  Lemma lc_unpackRef (b : bytes) : locals (unpackRef b).
  Proof. unfold unpackRef. lc. Qed.
  Local Hint Resolve lc_unpackRef : lc.
  Lemma lc_slice (n : nat) (b : bytes) : locals (slice n b).
  Proof. unfold slice. lc. Qed.
  Local Hint Resolve lc_slice : lc.
  Lemma lc_unpackKeyM (b : bytes) : locals (unpackKeyM cb b).
  Proof. unfold unpackKeyM. lc. Qed.
  Local Hint Resolve lc_unpackKeyM : lc.
  Lemma lc_unpackValM (b : bytes) : locals (unpackValM cb b).
  Proof. unfold unpackValM. lc. Qed.
  Local Hint Resolve lc_unpackValM : lc.
  Lemma lc_loadLeaf : ∀ (cnt : nat) (n : nid) (b : bytes), locals (loadLeaf cb cnt n b).
  Proof. intros cnt. induction cnt as [|? ? IH] || induction cnt as [|? IH]; intros; cbn [loadLeaf]; lc. Qed.
  Local Hint Resolve lc_loadLeaf : lc.
  Lemma lc_loadInner : ∀ (cnt : nat) (n : nid) (b : bytes), locals (loadInner cb cnt t0 n b).
  Proof. intros cnt. induction cnt as [|? ? IH] || induction cnt as [|? IH]; intros; cbn [loadInner]; lc. Qed.
  Local Hint Resolve lc_loadInner : lc.
  Lemma lc_loadNode (n : nid) : locals (loadNode cb t0 n).
  Proof. unfold loadNode. lc. Qed.
  Local Hint Resolve lc_loadNode : lc.
  Lemma lc_packU64 (z : Z) : locals (packU64 z).
  Proof. unfold packU64. lc. Qed.
  Local Hint Resolve lc_packU64 : lc.
  Lemma lc_packKeyM (k : K) : locals (packKeyM cb k).
  Proof. unfold packKeyM. lc. Qed.
  Local Hint Resolve lc_packKeyM : lc.
  Lemma lc_packValM (v : V) : locals (packValM cb v).
  Proof. unfold packValM. lc. Qed.
  Local Hint Resolve lc_packValM : lc.
  Lemma lc_packRef (c : nid) : locals (packRef c).
  Proof. unfold packRef. lc. Qed.
  Local Hint Resolve lc_packRef : lc.
  Lemma lc_asUser (v : bval) : locals (asUser v).
  Proof. unfold asUser. lc. Qed.
  Local Hint Resolve lc_asUser : lc.
  Lemma lc_postLeaf : ∀ (n : nid) (ix : list Z), locals (postLeaf cb n ix).
  Proof. intros n ix. induction ix as [|? ? IH] || induction ix as [|? IH]; intros; cbn [postLeaf]; lc. Qed.
  Local Hint Resolve lc_postLeaf : lc.
  Lemma lc_postInner : ∀ (n : nid) (ix : list Z), locals (postInner cb n ix).
  Proof. intros n ix. induction ix as [|? ? IH] || induction ix as [|? IH]; intros; cbn [postInner]; lc. Qed.
  Local Hint Resolve lc_postInner : lc.
  Lemma lc_postNode (t : tid) (n : nid) : locals (postNode cb t n).
  Proof. unfold postNode. lc. Qed.
  Local Hint Resolve lc_postNode : lc.
  Lemma lc_forChildren n f : (∀ c, locals (f c)) → locals (forChildren n f).
  Proof. intros. unfold forChildren. lc. Qed.
  Lemma lc_forLeft n f : (∀ c, locals (f c)) → locals (forLeft n f).
  Proof. intros. unfold forLeft. lc. Qed.
  Ltac lc ::= repeat first [lc1 | apply lc_forM; intros ? | apply lc_with_fuel; intros ? | apply lc_whenCache | apply lc_forChildren; intros ? | apply lc_forLeft; intros ?].
  Lemma lc_evictNode (t : tid) (n : nid) : locals (evictNode t n).
  Proof. unfold evictNode. lc. Qed.
  Local Hint Resolve lc_evictNode : lc.
  Lemma lc_flushNode : ∀ (fuel : nat) (t : tid) (n : nid) (andPurge : bool), locals (flushNode cb fuel t n andPurge).
  Proof. intros fuel. induction fuel as [|? IH]; intros; cbn [flushNode]; lc. Qed.
  Local Hint Resolve lc_flushNode : lc.
  Lemma lc_purgeNode : ∀ (fuel : nat) (t : tid) (n : nid) (full : bool), locals (purgeNode fuel t n full).
  Proof. intros fuel. induction fuel as [|? IH]; intros; cbn [purgeNode]; lc. Qed.
  Local Hint Resolve lc_purgeNode : lc.
  Lemma lc_visit (mark : bool) (n : nid) : locals (visit cb mark t0 n).
  Proof. unfold visit. lc. Qed.
  Local Hint Resolve lc_visit : lc.
  Lemma lc_touchNode : ∀ (fuel : nat) (n : nid), locals (touchNode cb fuel t0 n).
  Proof. intros fuel. induction fuel as [|? IH]; intros; cbn [touchNode]; lc. Qed.
  Local Hint Resolve lc_touchNode : lc.
  Lemma lc_touchLoadedNodeToRoot : ∀ (fuel : nat) (t : tid) (n : nid), locals (touchLoadedNodeToRoot fuel t n).
  Proof. intros fuel. induction fuel as [|? IH]; intros; cbn [touchLoadedNodeToRoot]; lc. Qed.
  Local Hint Resolve lc_touchLoadedNodeToRoot : lc.
  Lemma lc_discardNode : ∀ (fuel : nat) (n : nid), locals (discardNode cb fuel t0 n).
  Proof. induction fuel as [|? IH]; intros; cbn [discardNode]; lc. Qed.
  Local Hint Resolve lc_discardNode : lc.
  Lemma lc_discardAll : ∀ fuel ls, (∀ l, l ∈ ls → X l) → locals (discardAll fuel ls).
  Proof.
    induction fuel as [|fuel IH]; intros [|l0 ls] HX; cbn [discardAll]; [lc..|].
    apply lc_bind; [intros s; apply local_refl|intros pick]. set i := Nat.modulo _ _. apply lc_bind.
    - apply lc_DiscardNode. apply HX. destruct ((l0 :: ls) !! i) as [l|] eqn:E; cbn; [by eapply elem_of_list_lookup_2|left].
    - intros _. apply IH. intros l Hl. apply HX. revert Hl. rewrite delete_take_drop elem_of_app => -[Hl|Hl]; [by rewrite -(take_drop i (l0 :: ls)) elem_of_app; left|by rewrite -(take_drop (S i) (l0 :: ls)) elem_of_app; right].
  Qed.
  Lemma lc_updateLayoutReport : ∀ (fuel : nat) (n : nid) (rep : report), locals (updateLayoutReport cb fuel t0 n rep).
  Proof.
    induction fuel as [|? IH]; intros; cbn [updateLayoutReport]; lc.
    match goal with |- locals (_ (range ?x) ?y) => generalize (range x); intros ix; generalize y end.
    induction ix; intros; lc.
  Qed.
  Local Hint Resolve lc_updateLayoutReport : lc.
  Lemma lc_splitLoop : ∀ (fuel : nat) (n m : nid) (len : Z), locals (splitLoop cb fuel t0 n m len).
  Proof. intros fuel. induction fuel as [|? IH]; intros; cbn [splitLoop]; lc. Qed.
  Local Hint Resolve lc_splitLoop : lc.
  Lemma lc_insertHere : ∀ (fuel0 fuel : nat) (n : nid) (k : K) (v : bval), locals (insertHere cb fuel0 fuel t0 n k v).
  Proof. intros fuel0 fuel. induction fuel as [|? ? IH] || induction fuel as [|? IH]; intros; cbn [insertHere]; lc. Qed.
  Local Hint Resolve lc_insertHere : lc.
  Lemma lc_borrowLeft (n p l : nid) (pi len : Z) : locals (borrowLeft cb t0 n p l pi len).
  Proof. unfold borrowLeft. lc. Qed.
  Local Hint Resolve lc_borrowLeft : lc.
  Lemma lc_borrowRight (n p q : nid) (pi : Z) : locals (borrowRight cb t0 n p q pi).
  Proof. unfold borrowRight. lc. Qed.
  Local Hint Resolve lc_borrowRight : lc.
  Lemma lc_moveAll : ∀ (dst src : nid) (ix : list Z), locals (moveAll cb dst src ix).
  Proof. intros dst src ix. induction ix as [|? ? IH] || induction ix as [|? IH]; intros; cbn [moveAll]; lc. Qed.
  Local Hint Resolve lc_moveAll : lc.
  Lemma lc_mergeNodes dst src p si chk rec : locals rec → locals (mergeNodes cb t0 dst src p si chk rec).
  Proof. intros. unfold mergeNodes. lc. Qed.
  Ltac lc ::= repeat first [lc1 | apply lc_forM; intros ? | apply lc_with_fuel; intros ? | apply lc_whenCache | apply lc_forChildren; intros ? | apply lc_forLeft; intros ? | apply lc_mergeNodes].
  Lemma lc_leftSibling (p : nid) (pi : Z) : locals (leftSibling cb t0 p pi).
  Proof. unfold leftSibling. lc. Qed.
  Local Hint Resolve lc_leftSibling : lc.
  Lemma lc_rightSibling (p : nid) (pi : Z) : locals (rightSibling cb t0 p pi).
  Proof. unfold rightSibling. lc. Qed.
  Local Hint Resolve lc_rightSibling : lc.
  Lemma lc_rebalanceHere : ∀ (fuel : nat) (n : nid) (stack : list Z), locals (rebalanceHere cb fuel t0 n stack).
  Proof. intros fuel. induction fuel as [|? IH]; intros; cbn [rebalanceHere]; lc. Qed.
  Local Hint Resolve lc_rebalanceHere : lc.
  Lemma lc_findChild (n : nid) (key : K) : locals (findChild cb n key).
  Proof. unfold findChild. lc. Qed.
  Local Hint Resolve lc_findChild : lc.
  Lemma lc_descendKey : ∀ (fuel : nat) (mark : bool) (n : nid) (stack : list Z) (key : K), locals (descendKey cb fuel mark t0 n stack key).
  Proof. intros fuel. induction fuel as [|? IH]; intros; cbn [descendKey]; lc. Qed.
  Local Hint Resolve lc_descendKey : lc.
  Lemma lc_leftSum (p : psrec) : locals (leftSum p).
  Proof. unfold leftSum. lc. Qed.
  Local Hint Resolve lc_leftSum : lc.
  Lemma lc_climb : ∀ (fuel : nat) (c : nid) (acc : list bool), locals (climb fuel c acc).
  Proof. intros fuel. induction fuel as [|? IH]; intros; cbn [climb]; lc. Qed.
  Local Hint Resolve lc_climb : lc.
  Lemma lc_unclimb : ∀ (c : nid) (stack : list bool) (delta : Z), locals (unclimb c stack delta).
  Proof. intros c stack. revert c. induction stack as [|? ? IH]; intros; cbn [unclimb]; lc. Qed.
  Local Hint Resolve lc_unclimb : lc.
  Lemma lc_childOffset (fuel : nat) (n c : nid) (delta : Z) : locals (childOffset fuel n c delta).
  Proof. unfold childOffset. lc. Qed.
  Local Hint Resolve lc_childOffset : lc.
  Lemma lc_descendBisect : ∀ (fuel0 fuel : nat) (n : nid) (delta : Z) (key : K), locals (descendBisect cb fuel0 fuel t0 n delta key).
  Proof. intros fuel0 fuel. induction fuel as [|? ? IH] || induction fuel as [|? IH]; intros; cbn [descendBisect]; lc. Qed.
  Local Hint Resolve lc_descendBisect : lc.
  Lemma lc_walkPs : ∀ (fuel : nat) (c : nid) (i : Z), locals (walkPs fuel c i).
  Proof. intros fuel. induction fuel as [|? IH]; intros; cbn [walkPs]; lc. Qed.
  Local Hint Resolve lc_walkPs : lc.
  Lemma lc_descendIndex : ∀ (fuel0 fuel : nat) (mark : bool) (n : nid) (i : Z) (stack : list Z), locals (descendIndex cb fuel0 fuel mark t0 n i stack).
  Proof. intros fuel0 fuel. induction fuel as [|? ? IH] || induction fuel as [|? IH]; intros; cbn [descendIndex]; lc. Qed.
  Local Hint Resolve lc_descendIndex : lc.
  Lemma lc_rootOf : locals (rootOf t0).
  Proof. unfold rootOf. lc. Qed.
  Local Hint Resolve lc_rootOf : lc.
  Lemma lc_bt_BisectLeft (key : K) : locals (bt_BisectLeft cb t0 key).
  Proof. unfold bt_BisectLeft. lc. Qed.
  Local Hint Resolve lc_bt_BisectLeft : lc.
  Lemma lc_bt_BisectRight (key : K) : locals (bt_BisectRight cb t0 key).
  Proof. unfold bt_BisectRight. lc. Qed.
  Local Hint Resolve lc_bt_BisectRight : lc.
  Lemma lc_bt_DeleteByIndex (i : Z) : locals (bt_DeleteByIndex cb t0 i).
  Proof. unfold bt_DeleteByIndex. lc. Qed.
  Local Hint Resolve lc_bt_DeleteByIndex : lc.
  Lemma lc_bt_DeleteByKey (key : K) : locals (bt_DeleteByKey cb t0 key).
  Proof. unfold bt_DeleteByKey. lc. Qed.
  Local Hint Resolve lc_bt_DeleteByKey : lc.
  Lemma lc_bt_GetByIndex (i : Z) : locals (bt_GetByIndex cb t0 i).
  Proof. unfold bt_GetByIndex. lc. Qed.
  Local Hint Resolve lc_bt_GetByIndex : lc.
  Lemma lc_bt_GetByKey (key : K) : locals (bt_GetByKey cb t0 key).
  Proof. unfold bt_GetByKey. lc. Qed.
  Local Hint Resolve lc_bt_GetByKey : lc.
  Lemma lc_bt_Len : locals (bt_Len cb t0).
  Proof. unfold bt_Len. lc. Qed.
  Local Hint Resolve lc_bt_Len : lc.
  Lemma lc_bt_PatchByIndex (i : Z) (v : V) : locals (bt_PatchByIndex cb t0 i v).
  Proof. unfold bt_PatchByIndex. lc. Qed.
  Local Hint Resolve lc_bt_PatchByIndex : lc.
  Lemma lc_bt_PatchByKey (key : K) (v : V) : locals (bt_PatchByKey cb t0 key v).
  Proof. unfold bt_PatchByKey. lc. Qed.
  Local Hint Resolve lc_bt_PatchByKey : lc.
  Lemma lc_bt_Put (key : K) (v : V) : locals (bt_Put cb t0 key v).
  Proof. unfold bt_Put. lc. Qed.
  Local Hint Resolve lc_bt_Put : lc.
  Lemma lc_bt_FetchLocation : locals (bt_FetchLocation t0).
  Proof. unfold bt_FetchLocation. lc. Qed.
  Local Hint Resolve lc_bt_FetchLocation : lc.
  Lemma lc_bt_FetchLayoutReport : locals (bt_FetchLayoutReport cb t0).
  Proof. unfold bt_FetchLayoutReport. lc. Qed.
  Local Hint Resolve lc_bt_FetchLayoutReport : lc.
  Lemma lc_dimLoop : ∀ (fuel : nat) (n : nid) (dim : dimensions), locals (dimLoop cb fuel t0 n dim).
  Proof. intros fuel. induction fuel as [|? IH]; intros; cbn [dimLoop]; lc. Qed.
  Local Hint Resolve lc_dimLoop : lc.
  Lemma lc_bt_FetchDimensionsReport : locals (bt_FetchDimensionsReport cb t0).
  Proof. unfold bt_FetchDimensionsReport. lc. Qed.
  Local Hint Resolve lc_bt_FetchDimensionsReport : lc.
  Lemma lc_bt_Flush (andPurge : bool) : locals (bt_Flush cb t0 andPurge).
  Proof. unfold bt_Flush. lc. Qed.
  Local Hint Resolve lc_bt_Flush : lc.
  Lemma lc_bt_Purge (full : bool) : locals (bt_Purge t0 full).
  Proof. unfold bt_Purge. lc. Qed.
  Local Hint Resolve lc_bt_Purge : lc.
  Lemma lc_bt_Touch : locals (bt_Touch cb t0).
  Proof. unfold bt_Touch. lc. Qed.
  Local Hint Resolve lc_bt_Touch : lc.
  Lemma lc_bt_TouchItem (i : Z) : locals (bt_TouchItem cb t0 i).
  Proof. unfold bt_TouchItem. lc. Qed.
  Local Hint Resolve lc_bt_TouchItem : lc.


  Lemma lc_validatePrefixSum : ∀ (fuel : nat) (o : option nid), locals (validatePrefixSum fuel o).
  Proof. intros fuel. induction fuel as [|? IH]; intros; cbn [validatePrefixSum]; lc. Qed.
  Local Hint Resolve lc_validatePrefixSum : lc.
  Lemma lc_validateNode : ∀ (fuel0 fuel : nat) (n : nid), locals (validateNode cb fuel0 fuel t0 n).
  Proof.
    intros fuel0. induction fuel as [|? IH]; intros; cbn [validateNode]; lc.
    all: match goal with |- locals (_ (range ?x) ?y) => generalize (range x); intros ix; generalize y end.
    all: induction ix; intros; lc.
  Qed.
  Local Hint Resolve lc_validateNode : lc.
  Lemma lc_bt_Validate : locals (bt_Validate cb t0).
  Proof. unfold bt_Validate. lc. Qed.
  Local Hint Resolve lc_bt_Validate : lc.
  Lemma lc_dumpNode : ∀ (fuel : nat) (n : nid), locals (dumpNode cb fuel t0 n).
  Proof.
    induction fuel as [|? IH]; intros; cbn [dumpNode]; lc.
    all: match goal with |- locals (_ (range ?x) ?y) => generalize (range x); intros ix; generalize y end.
    all: induction ix; intros; lc.
  Qed.
  Local Hint Resolve lc_dumpNode : lc.
  Lemma lc_bt_Dump  : locals (bt_Dump cb t0).
  Proof. unfold bt_Dump. lc. Qed.
  Local Hint Resolve lc_bt_Dump : lc.
  Lemma lc_drainerEvict n : locals (drainerEvict n).
  Proof.
    unfold drainerEvict. lc.
  Qed.
  Lemma lc_bt_call (c : call K V) : locals (bt_call cb t0 c).
  Proof. unfold bt_call. lc. Qed.
  Local Hint Resolve lc_bt_call : lc.
  Lemma lc_pruneAll : (∀ l, X l) → locals (pruneWhileLocked t0).
  Proof. intros HX. unfold pruneWhileLocked. lc. by apply lc_discardAll. Qed.
  Lemma lc_bt_Discard : (∀ l, X l) → locals (bt_Discard cb t0).
  Proof. intros HX. unfold bt_Discard. lc. by apply lc_pruneAll. Qed.
End local.

(** * What a call costs: storage reads, and the hit and miss counters of the cache

    [spent t k s s']: between [s] and [s'] at most [k] nodes of tree [t] were
    visited; each visit counted as a hit or as a miss if the tree is attached to
    the cache, and each miss made one storage callback.  Models no code. *)
From Coq Require Import ssreflect.
From stdpp Require Import prelude list gmap.
From iris.proofmode Require Import proofmode.
From Verif Require Import Spec SpecFacts Llrb BTree HProp Lru Wp Kv Codec Ghost Order PsTree Rep Load Search Update Plug Insert Borrow Merge Rebal Api Walk Touch Maint Report Open Pres Machine World Client Disk Picture Hist Seat History Footprint Cache.
From Verif Require Sample.
Open Scope Z_scope.

Section cost.
  Context {K V : Type}.
  Variable cb : callbacks K V.
  Variable t : tid.
  Notation st := (st K V).
  Notation M := (M K V).
  Notation bval := (bval V).
  Notation llrb := (tree K bval).
  Implicit Types (s : st) (k : nat).

  (** is the tree attached to the cache *)
  Definition attached s : bool := default false (t_cache <$> trees s !! t).
  (** all hits and misses so far *)
  Definition counted s : Z := c_hits (cache s) + c_misses (cache s).
  Record spent k s s' : Prop := Spent {
    sp_io : (iocount s ≤ iocount s' ≤ iocount s + k)%nat;
    sp_attached : attached s' = attached s;
    sp_misses : c_misses (cache s') = c_misses (cache s) + (if attached s then Z.of_nat (iocount s') - Z.of_nat (iocount s) else 0);
    sp_hits : c_hits (cache s) ≤ c_hits (cache s');
    sp_none : attached s = false → c_hits (cache s') = c_hits (cache s);
    sp_all : counted s' ≤ counted s + Z.of_nat k }.
  Lemma spent_refl k s : spent k s s.
  Proof. split; try done; unfold counted; try case_match; lia. Qed.
  Lemma spent_calm s s' : iocount s' = iocount s → c_hits (cache s') = c_hits (cache s) → c_misses (cache s') = c_misses (cache s) →
    attached s' = attached s → spent 0 s s'.
  Proof. intros H1 H2 H3 H4. split; try done; unfold counted; rewrite ?H1 ?H2 ?H3; try case_match; lia. Qed.
  Lemma spent_trans k k' s1 s2 s3 : spent k s1 s2 → spent k' s2 s3 → spent (k + k') s1 s3.
  Proof.
    intros [A1 A2 A3 A4 A5 A6] [B1 B2 B3 B4 B5 B6]. rewrite A2 in B2, B3, B5.
    split; [lia|congruence|destruct (attached s1); lia|lia| |lia]. intros Ha. rewrite B5 // A5 //.
  Qed.
  Lemma spent_le k k' s s' : (k ≤ k')%nat → spent k s s' → spent k' s s'.
  Proof. intros ? [A1 A2 A3 A4 A5 A6]. split; try done; lia. Qed.

  (** if [m] returns at all, at most [k] nodes were visited *)
  Definition charge {A} k (o : out K V A) s : Prop := match o with ORet _ s' | OErr _ s' => spent k s s' | OStop _ _ => True end.
  Definition spends {A} k (m : M A) : Prop := ∀ s, charge k (m s) s.
  Definition calm {A} (m : M A) : Prop := spends 0 m.
  Lemma charge_le {A} k k' (o : out K V A) s : (k ≤ k')%nat → charge k o s → charge k' o s.
  Proof. intros H. destruct o; [by apply spent_le..|done]. Qed.
  Lemma charge_bind {A B} k k' (m : M A) (f : A → M B) s : charge k (m s) s → (∀ a s', m s = ORet a s' → charge k' (f a s') s') →
    charge (k + k') (bind m f s) s.
  Proof.
    intros Hm Hf. unfold bind; cbn [run]. destruct (m s) as [a s1|e s1|w s1]; [|eapply spent_le, Hm; lia|done].
    specialize (Hf a s1 eq_refl). cbn in Hm. destruct (f a s1) as [b s2|e s2|w s2]; [by eapply spent_trans..|done].
  Qed.
  Lemma sp_le {A} k k' (m : M A) : (k ≤ k')%nat → spends k m → spends k' m.
  Proof. intros H Hm s. by eapply charge_le, Hm. Qed.
  Lemma sp_bind {A B} k k' (m : M A) (f : A → M B) : spends k m → (∀ a, spends k' (f a)) → spends (k + k') (bind m f).
  Proof. intros Hm Hf s. apply charge_bind; [done|]. intros a s' _. apply Hf. Qed.
  Lemma sp_pre {A B} k (m : M A) (f : A → M B) : calm m → (∀ a, spends k (f a)) → spends k (bind m f).
  Proof. apply (sp_bind 0 k). Qed.
  Lemma sp_post {A B} k (m : M A) (f : A → M B) : spends k m → (∀ a, calm (f a)) → spends k (bind m f).
  Proof. intros. rewrite -(Nat.add_0_r k). by apply sp_bind. Qed.

  Lemma sp_calm {A} k (m : M A) : calm m → spends k m.
  Proof. apply sp_le. lia. Qed.
  Lemma ca_ret {A} (a : A) : calm (ret a).
  Proof. intros s. apply spent_refl. Qed.
  Lemma ca_fail {A} e : calm (A:=A) (fail e).
  Proof. intros s. apply spent_refl. Qed.
  Lemma ca_panic {A} : calm (A:=A) panic.
  Proof. done. Qed.
  Lemma ca_nofuel {A} : calm (A:=A) nofuel.
  Proof. done. Qed.
  Lemma ca_envbad {A} : calm (A:=A) envbad.
  Proof. done. Qed.
  Lemma ca_bind {A B} (m : M A) (f : A → M B) : calm m → (∀ a, calm (f a)) → calm (bind m f).
  Proof. apply (sp_bind 0 0). Qed.
  Lemma ca_try {A} (m : M A) h : calm m → (∀ e, calm (h e)) → calm (Try m h).
  Proof.
    intros Hm Hh s. cbn [run]. specialize (Hm s). destruct (m s) as [a s1|e s1|w s1]; [done| |done].
    specialize (Hh e s1). cbn in Hm. destruct (h e s1) as [b s2|e2 s2|w s2]; [by eapply (spent_trans 0 0)..|done].
  Qed.
  Lemma ca_ignoreErr m : calm m → calm (ignoreErr m).
  Proof. intros Hm. apply ca_try; [done|]. intros e. apply ca_ret. Qed.
  Lemma ca_atomic {A} (m : M A) : calm m → calm (atomic m).
  Proof. done. Qed.
  Create HintDb ca discriminated.
  Local Hint Resolve ca_ret ca_fail ca_panic ca_nofuel ca_envbad : ca.
  Ltac ca1 :=
    match goal with
    | |- calm (bind _ _) => apply ca_bind; [|intros ?]
    | |- calm (ignoreErr _) => apply ca_ignoreErr
    | |- calm (atomic _) => apply ca_atomic
    | |- calm (Try _ _) => apply ca_try; [|intros ?]
    | H : ∀ _, calm _ |- calm _ => apply H
    | H : calm _ |- calm _ => apply H
    | |- calm (match ?x with _ => _ end) => destruct x
    | _ => solve [auto with ca nocore]
    end.
  Ltac ca := repeat ca1.

  Lemma ca_deref o : calm (deref o).
  Proof. unfold deref. ca. Qed.
  Local Hint Resolve ca_deref : ca.
  Lemma ca_getN n : calm (getN n).
  Proof. intros s. cbn. destruct (_ !! _); first [done|apply spent_refl]. Qed.
  Local Hint Resolve ca_getN : ca.
  Lemma ca_modN n f : calm (modN n f).
  Proof. intros s. cbn. destruct (_ !! _) eqn:E; [|first [done|apply spent_refl]]. by apply spent_calm. Qed.
  Local Hint Resolve ca_modN : ca.
  Lemma ca_getP n : calm (getP n).
  Proof. intros s. cbn. destruct (_ !! _); first [done|apply spent_refl]. Qed.
  Local Hint Resolve ca_getP : ca.
  Lemma ca_modP n f : calm (modP n f).
  Proof. intros s. cbn. destruct (_ !! _) eqn:E; [|first [done|apply spent_refl]]. by apply spent_calm. Qed.
  Local Hint Resolve ca_modP : ca.
  Lemma ca_getC n : calm (getC n).
  Proof. intros s. cbn. destruct (_ !! _); first [done|apply spent_refl]. Qed.
  Local Hint Resolve ca_getC : ca.
  Lemma ca_modC n f : calm (modC n f).
  Proof. intros s. cbn. destruct (_ !! _) eqn:E; [|first [done|apply spent_refl]]. by apply spent_calm. Qed.
  Local Hint Resolve ca_modC : ca.
  Lemma ca_getT n : calm (getT n).
  Proof. intros s. cbn. destruct (_ !! _); first [done|apply spent_refl]. Qed.
  Local Hint Resolve ca_getT : ca.
  Lemma ca_modT t' f : (∀ T, t_cache (f T) = t_cache T) → calm (modT t' f).
  Proof.
    intros Hf s. cbn. destruct (trees s !! t') as [T|] eqn:E; [|done]. apply spent_calm; [done..|].
    unfold attached. cbn. destruct (decide (t = t')) as [<-|]; [by rewrite lookup_insert E /= Hf|by rewrite lookup_insert_ne].
  Qed.
  Local Hint Extern 1 (calm (modT _ _)) => (apply ca_modT; intros []; reflexivity) : ca.
  Lemma ca_getCache : calm getCache.
  Proof. intros s. first [done|apply spent_refl]. Qed.
  Local Hint Resolve ca_getCache : ca.
  Lemma ca_modCache f : (∀ c, c_hits (f c) = c_hits c ∧ c_misses (f c) = c_misses c) → calm (modCache f).
  Proof. intros Hf s. cbn. destruct (Hf (cache s)). by apply spent_calm. Qed.
  Local Hint Extern 1 (calm (modCache _)) => (apply ca_modCache; intros []; split; reflexivity) : ca.
  Lemma ca_newNode r : calm (newNode r).
  Proof. intros s. by apply spent_calm. Qed.
  Local Hint Resolve ca_newNode : ca.
  Lemma ca_forM {A} (l : list A) f : (∀ a, calm (f a)) → calm (forM l f).
  Proof. intros Hf. induction l; cbn [forM]; ca. Qed.
  Ltac ca ::= repeat first [ca1 | apply ca_forM; intros ?].
  Lemma ca_limit (z : Z) : calm (limit z).
  Proof. unfold limit. ca. Qed.
  Local Hint Resolve ca_limit : ca.
  Lemma ca_lift {A} (m : lo A) : calm (lift m).
  Proof. unfold lift. ca. Qed.
  Local Hint Resolve ca_lift : ca.
  Lemma ca_kvOf (n : nid) : calm (kvOf n).
  Proof. unfold kvOf. ca. Qed.
  Local Hint Resolve ca_kvOf : ca.
  Lemma ca_kvLen (n : nid) : calm (kvLen n).
  Proof. unfold kvLen. ca. Qed.
  Local Hint Resolve ca_kvLen : ca.
  Lemma ca_kvGet (n : nid) (i : Z) : calm (kvGet n i).
  Proof. unfold kvGet. ca. Qed.
  Local Hint Resolve ca_kvGet : ca.
  Lemma ca_kvSet (n : nid) (t' : llrb) : calm (kvSet n t').
  Proof. unfold kvSet. ca. Qed.
  Local Hint Resolve ca_kvSet : ca.
  Lemma ca_kvPut (n : nid) (k : K) (v : bval) : calm (kvPut cb n k v).
  Proof. unfold kvPut. ca. Qed.
  Local Hint Resolve ca_kvPut : ca.
  Lemma ca_kvPut_ (n : nid) (k : K) (v : bval) : calm (kvPut_ cb n k v).
  Proof. unfold kvPut_. ca. Qed.
  Local Hint Resolve ca_kvPut_ : ca.
  Lemma ca_kvDelIndex (n : nid) (i : Z) : calm (kvDelIndex cb n i).
  Proof. unfold kvDelIndex. ca. Qed.
  Local Hint Resolve ca_kvDelIndex : ca.
  Lemma ca_kvDelKey (n : nid) (k : K) : calm (kvDelKey cb n k).
  Proof. unfold kvDelKey. ca. Qed.
  Local Hint Resolve ca_kvDelKey : ca.
  Lemma ca_kvBisectLeft (n : nid) (k : K) : calm (kvBisectLeft cb n k).
  Proof. unfold kvBisectLeft. ca. Qed.
  Local Hint Resolve ca_kvBisectLeft : ca.
  Lemma ca_kvBisectRight (n : nid) (k : K) : calm (kvBisectRight cb n k).
  Proof. unfold kvBisectRight. ca. Qed.
  Local Hint Resolve ca_kvBisectRight : ca.
  Lemma ca_kvGetKey (n : nid) (k : K) : calm (kvGetKey cb n k).
  Proof. unfold kvGetKey. ca. Qed.
  Local Hint Resolve ca_kvGetKey : ca.
  Lemma ca_compareM (a b : K) : calm (compareM cb a b).
  Proof. unfold compareM. ca. Qed.
  Local Hint Resolve ca_compareM : ca.
  Lemma ca_asNode (v : bval) : calm (asNode v).
  Proof. unfold asNode. ca. Qed.
  Local Hint Resolve ca_asNode : ca.
  Lemma ca_logicOk (b : bool) : calm (logicOk b).
  Proof. unfold logicOk. ca. Qed.
  Local Hint Resolve ca_logicOk : ca.
  Lemma ca_logicSome {A} (o : option A) : calm (logicSome o).
  Proof. unfold logicSome. ca. Qed.
  Local Hint Resolve ca_logicSome : ca.
  Lemma ca_getQ (d : bool) : calm (getQ d).
  Proof. unfold getQ. ca. Qed.
  Local Hint Resolve ca_getQ : ca.
  Lemma ca_modQ (d : bool) (f : lruq → lruq) : calm (modQ d f).
  Proof. unfold modQ. apply ca_modCache. intros []; destruct d; done. Qed.
  Local Hint Resolve ca_modQ : ca.
  Lemma ca_putNext (p : option nid) (o : option nid) : calm (putNext p o).
  Proof. unfold putNext. ca. Qed.
  Local Hint Resolve ca_putNext : ca.
  Lemma ca_putPrev (p : option nid) (o : option nid) : calm (putPrev p o).
  Proof. unfold putPrev. ca. Qed.
  Local Hint Resolve ca_putPrev : ca.
  Lemma ca_lruAppend (d : bool) (n : nid) : calm (lruAppend d n).
  Proof. unfold lruAppend. ca. Qed.
  Local Hint Resolve ca_lruAppend : ca.
  Lemma ca_lruToTail (d : bool) (n : nid) : calm (lruToTail d n).
  Proof. unfold lruToTail. ca. Qed.
  Local Hint Resolve ca_lruToTail : ca.
  Lemma ca_lruTake (d : bool) (n : nid) : calm (lruTake d n).
  Proof. unfold lruTake. ca. Qed.
  Local Hint Resolve ca_lruTake : ca.
  Lemma ca_lruGive (d : bool) (n : nid) : calm (lruGive d n).
  Proof. unfold lruGive. ca. Qed.
  Local Hint Resolve ca_lruGive : ca.
  Lemma ca_lruRemove (d : bool) (n : nid) : calm (lruRemove d n).
  Proof. unfold lruRemove. ca. Qed.
  Local Hint Resolve ca_lruRemove : ca.
  Lemma ca_whenCache t' m : calm m → calm (whenCache t' m).
  Proof. intros. unfold whenCache. ca. Qed.
  Ltac ca ::= repeat first [ca1 | apply ca_forM; intros ? | apply ca_whenCache].
  Lemma ca_initNodeAsEvicted (t' : tid) (n : nid) : calm (initNodeAsEvicted t' n).
  Proof. unfold initNodeAsEvicted. ca. Qed.
  Local Hint Resolve ca_initNodeAsEvicted : ca.
  Lemma ca_markNodeUsed (t' : tid) (n : nid) : calm (markNodeUsed t' n).
  Proof. unfold markNodeUsed. ca. Qed.
  Local Hint Resolve ca_markNodeUsed : ca.
  Lemma ca_kickDrainer (needClean : bool) : calm (kickDrainer needClean).
  Proof. unfold kickDrainer. apply ca_modCache. intros c. by case_match. Qed.
  Local Hint Resolve ca_kickDrainer : ca.
  Lemma ca_markNodeClean (t' : tid) (n : nid) : calm (markNodeClean t' n).
  Proof. unfold markNodeClean. ca. Qed.
  Local Hint Resolve ca_markNodeClean : ca.
  Lemma ca_placeNodeOnStale (t' : tid) (n : nid) : calm (placeNodeOnStale t' n).
  Proof. unfold placeNodeOnStale. ca. Qed.
  Local Hint Resolve ca_placeNodeOnStale : ca.
  Lemma ca_markNodeDirty (t' : tid) (n : nid) : calm (markNodeDirty t' n).
  Proof. unfold markNodeDirty. ca. Qed.
  Local Hint Resolve ca_markNodeDirty : ca.
  Lemma ca_markNodeEvicted (t' : tid) (n : nid) : calm (markNodeEvicted t' n).
  Proof. unfold markNodeEvicted. ca. Qed.
  Local Hint Resolve ca_markNodeEvicted : ca.
  Lemma ca_markNodeToBeDiscarded (t' : tid) (n : nid) : calm (markNodeToBeDiscarded t' n).
  Proof. unfold markNodeToBeDiscarded. ca. Qed.
  Local Hint Resolve ca_markNodeToBeDiscarded : ca.
  Lemma ca_arrangeRec : ∀ (fuel : nat) (slice : list nid), calm (arrangeRec fuel slice).
  Proof. intros fuel. induction fuel as [|? IH]; intros; cbn [arrangeRec]; ca. Qed.
  Local Hint Resolve ca_arrangeRec : ca.
  Lemma ca_arrangeInit : ∀ (n : nid) (ix : list Z), calm (arrangeInit n ix).
  Proof. intros n ix. induction ix as [|? ? IH] || induction ix as [|? IH]; intros; cbn [arrangeInit]; ca. Qed.
  Local Hint Resolve ca_arrangeInit : ca.
  Lemma ca_arrangePrefixSumTree (n : nid) : calm (arrangePrefixSumTree n).
  Proof. unfold arrangePrefixSumTree. ca. Qed.
  Local Hint Resolve ca_arrangePrefixSumTree : ca.
  Lemma ca_rearrangeToRoot : ∀ (fuel : nat) (t' : tid) (n : nid), calm (rearrangeToRoot fuel t' n).
  Proof. intros fuel. induction fuel as [|? IH]; intros; cbn [rearrangeToRoot]; ca. Qed.
  Local Hint Resolve ca_rearrangeToRoot : ca.
  Lemma ca_bumpLoop : ∀ (fuel : nat) (n : nid) (delta : Z), calm (bumpLoop fuel n delta).
  Proof. intros fuel. induction fuel as [|? IH]; intros; cbn [bumpLoop]; ca. Qed.
  Local Hint Resolve ca_bumpLoop : ca.
  Lemma ca_updateRec : ∀ (fuel0 fuel : nat) (t' : tid) (n : nid) (delta : Z), calm (updateRec fuel0 fuel t' n delta).
  Proof. intros fuel0 fuel. induction fuel as [|? IH]; intros; cbn [updateRec]; ca. Qed.
  Local Hint Resolve ca_updateRec : ca.
  Lemma ca_updatePrefixSumTreeLeafToRoot (fuel : nat) (t' : tid) (n : nid) : calm (updatePrefixSumTreeLeafToRoot fuel t' n).
  Proof. unfold updatePrefixSumTreeLeafToRoot. ca. Qed.
  Local Hint Resolve ca_updatePrefixSumTreeLeafToRoot : ca.
  Lemma ca_unpackU64 (b : bytes) : calm (unpackU64 b).
  Proof. unfold unpackU64. ca. Qed.
  Local Hint Resolve ca_unpackU64 : ca.
  Lemma ca_unpackNode (b : bytes) : calm (unpackNode b).
  Proof. unfold unpackNode. ca. Qed.
  Local Hint Resolve ca_unpackNode : ca.
  Lemma ca_unpackRef (b : bytes) : calm (unpackRef b).
  Proof. unfold unpackRef. ca. Qed.
  Local Hint Resolve ca_unpackRef : ca.
  Lemma ca_slice (n : nat) (b : bytes) : calm (slice n b).
  Proof. unfold slice. ca. Qed.
  Local Hint Resolve ca_slice : ca.
  Lemma ca_unpackKeyM (b : bytes) : calm (unpackKeyM cb b).
  Proof. unfold unpackKeyM. ca. Qed.
  Local Hint Resolve ca_unpackKeyM : ca.
  Lemma ca_unpackValM (b : bytes) : calm (unpackValM cb b).
  Proof. unfold unpackValM. ca. Qed.
  Local Hint Resolve ca_unpackValM : ca.
  Lemma ca_loadLeaf : ∀ (cnt : nat) (n : nid) (b : bytes), calm (loadLeaf cb cnt n b).
  Proof. intros cnt. induction cnt as [|? IH]; intros; cbn [loadLeaf]; ca. Qed.
  Local Hint Resolve ca_loadLeaf : ca.
  Lemma ca_loadInner : ∀ (cnt : nat) (t' : tid) (n : nid) (b : bytes), calm (loadInner cb cnt t' n b).
  Proof. intros cnt. induction cnt as [|? IH]; intros; cbn [loadInner]; ca. Qed.
  Local Hint Resolve ca_loadInner : ca.
  Lemma ca_asUser (v : bval) : calm (asUser v).
  Proof. unfold asUser. ca. Qed.
  Local Hint Resolve ca_asUser : ca.
  Lemma ca_touchLoadedNodeToRoot : ∀ (fuel : nat) (t' : tid) (n : nid), calm (touchLoadedNodeToRoot fuel t' n).
  Proof. intros fuel. induction fuel as [|? IH]; intros; cbn [touchLoadedNodeToRoot]; ca. Qed.
  Local Hint Resolve ca_touchLoadedNodeToRoot : ca.
  Lemma ca_splitLoop : ∀ (fuel : nat) (t' : tid) (n m : nid) (len : Z), calm (splitLoop cb fuel t' n m len).
  Proof. intros fuel. induction fuel as [|? IH]; intros; cbn [splitLoop]; ca. Qed.
  Local Hint Resolve ca_splitLoop : ca.
  Lemma ca_insertHere : ∀ (fuel0 fuel : nat) (t' : tid) (n : nid) (k : K) (v : bval), calm (insertHere cb fuel0 fuel t' n k v).
  Proof. intros fuel0 fuel. induction fuel as [|? IH]; intros; cbn [insertHere]; ca. Qed.
  Local Hint Resolve ca_insertHere : ca.
  Lemma ca_borrowLeft (t' : tid) (n p l : nid) (pi len : Z) : calm (borrowLeft cb t' n p l pi len).
  Proof. unfold borrowLeft. ca. Qed.
  Local Hint Resolve ca_borrowLeft : ca.
  Lemma ca_borrowRight (t' : tid) (n p q : nid) (pi : Z) : calm (borrowRight cb t' n p q pi).
  Proof. unfold borrowRight. ca. Qed.
  Local Hint Resolve ca_borrowRight : ca.
  Lemma ca_moveAll : ∀ (dst src : nid) (ix : list Z), calm (moveAll cb dst src ix).
  Proof. intros dst src ix. induction ix as [|? ? IH] || induction ix as [|? IH]; intros; cbn [moveAll]; ca. Qed.
  Local Hint Resolve ca_moveAll : ca.
  Lemma ca_findChild (n : nid) (key : K) : calm (findChild cb n key).
  Proof. unfold findChild. ca. Qed.
  Local Hint Resolve ca_findChild : ca.
  Lemma ca_leftSum (p : psrec) : calm (leftSum p).
  Proof. unfold leftSum. ca. Qed.
  Local Hint Resolve ca_leftSum : ca.
  Lemma ca_climb : ∀ (fuel : nat) (c : nid) (acc : list bool), calm (climb fuel c acc).
  Proof. intros fuel. induction fuel as [|? IH]; intros; cbn [climb]; ca. Qed.
  Local Hint Resolve ca_climb : ca.
  Lemma ca_unclimb : ∀ (c : nid) (stack : list bool) (delta : Z), calm (unclimb c stack delta).
  Proof. intros c stack. revert c. induction stack as [|? ? IH]; intros; cbn [unclimb]; ca. Qed.
  Local Hint Resolve ca_unclimb : ca.
  Lemma ca_childOffset (fuel : nat) (n c : nid) (delta : Z) : calm (childOffset fuel n c delta).
  Proof. unfold childOffset. ca. Qed.
  Local Hint Resolve ca_childOffset : ca.
  Lemma ca_walkPs : ∀ (fuel : nat) (c : nid) (i : Z), calm (walkPs fuel c i).
  Proof. intros fuel. induction fuel as [|? IH]; intros; cbn [walkPs]; ca. Qed.
  Local Hint Resolve ca_walkPs : ca.
  Lemma ca_rootOf (t' : tid) : calm (rootOf t').
  Proof. unfold rootOf. ca. Qed.
  Local Hint Resolve ca_rootOf : ca.

  (** ** Visits *)
  Lemma sp_if {A} k (b : bool) (m m' : M A) : spends k m → spends k m' → spends k (if b then m else m').
  Proof. by destruct b. Qed.
  Lemma sp_GetNode l s : match GetNode l s with ORet _ s' | OErr _ s' =>
    iocount s' = S (iocount s) ∧ cache s' = cache s ∧ trees s' = trees s | OStop _ _ => True end.
  Proof. cbn. destruct (ch_crash _); [done|]. destruct (ch_fail _); [done|]. by destruct (disk s !! l). Qed.
  Definition once {A} (m : M A) : Prop := ∀ s, match m s with ORet _ s' | OErr _ s' =>
    iocount s' = S (iocount s) ∧ c_hits (cache s') = c_hits (cache s) ∧ c_misses (cache s') = c_misses (cache s) ∧ attached s' = attached s
    | OStop _ _ => True end.
  Lemma calm_inv s s' : spent 0 s s' → iocount s' = iocount s ∧ c_hits (cache s') = c_hits (cache s) ∧ c_misses (cache s') = c_misses (cache s) ∧ attached s' = attached s.
  Proof. intros [A1 A2 A3 A4 A5 A6]. unfold counted in A6. destruct (attached s); split_and!; lia || done || idtac. Qed.
  Lemma once_post {A B} (m : M A) (f : A → M B) : once m → (∀ a, calm (f a)) → once (bind m f).
  Proof.
    intros Hm Hf s. unfold bind; cbn [run]. specialize (Hm s). destruct (m s) as [a s1|e s1|w s1]; [|done..].
    specialize (Hf a s1). destruct (f a s1) as [b s2|e s2|w s2]; cbn in Hf; [apply calm_inv in Hf; destruct_and!; split_and!; congruence..|done].
  Qed.
  Lemma once_pre {A B} (m : M A) (f : A → M B) : (∀ s, match m s with ORet _ s' => s' = s | OErr _ _ => False | _ => True end) → (∀ a, once (f a)) → once (bind m f).
  Proof.
    intros Hm Hf s. unfold bind; cbn [run]. specialize (Hm s). destruct (m s) as [a s1|e s1|w s1]; [|done..]. subst. apply Hf.
  Qed.
  Lemma once_loadNode t' n : once (loadNode cb t' n).
  Proof.
    unfold loadNode. apply once_pre. { intros s. cbn. by destruct (_ !! _). } intros r.
    apply once_post.
    { intros s. pose proof (sp_GetNode (b_loc r) s) as H. unfold attached. destruct (GetNode _ s); [destruct H as (-> & -> & ->)..|]; done. }
    intros b. ca.
  Qed.
  Lemma miss_run s : match incCacheMisses t s with ORet _ s' => iocount s' = iocount s ∧ c_hits (cache s') = c_hits (cache s) ∧
    c_misses (cache s') = c_misses (cache s) + (if attached s then 1 else 0) ∧ attached s' = attached s | OErr _ _ => False | _ => True end.
  Proof.
    unfold incCacheMisses, whenCache. unfold bind, atomic; cbn [run]. unfold getT; cbn [run].
    destruct (trees s !! t) as [T|] eqn:HT; [|done].
    assert (attached s = t_cache T) as Ha by by unfold attached; rewrite HT. cbn. rewrite Ha.
    destruct (t_cache T) eqn:Hc; cbn; split_and!; try done; try lia.
  Qed.
  Lemma sp_visit mark n : spends 1 (visit cb mark t n).
  Proof.
    unfold visit. apply sp_pre; [ca|]. intros r. destruct (b_loaded r).
    - apply sp_post; [|intros _; ca]. intros s. unfold incCacheHits, whenCache. unfold bind, atomic; cbn [run]. unfold getT; cbn [run].
      destruct (trees s !! t) as [T|] eqn:HT; [|done].
      assert (attached s = t_cache T) as Ha by by unfold attached; rewrite HT. cbn.
      destruct (t_cache T) eqn:Hc; cbn; split; unfold counted; cbn; try (done || lia); rewrite Ha; try done; lia.
    - intros s. rewrite run_bind. pose proof (miss_run s) as HM. destruct (incCacheMisses t s) as [u s1|e s1|w s1]; [|done..].
      destruct HM as (M1 & M2 & M3 & M4). pose proof (once_loadNode t n s1) as HO.
      destruct (loadNode cb t n s1) as [u2 s2|e s2|w s2]; [..|done]; destruct HO as (H1 & H2 & H3 & H4);
        (split; unfold counted; rewrite ?H1 ?H2 ?H3 ?M1 ?M2 ?M3; [lia|congruence|destruct (attached s); lia|lia|done|destruct (attached s); lia]).
  Qed.
  Lemma sp_leftSibling p pi : spends 1 (leftSibling cb t p pi).
  Proof.
    unfold leftSibling. apply sp_if; [eapply sp_le, ca_ret; lia|]. apply sp_pre; [ca|]. intros l. apply sp_post; [apply sp_visit|intros; ca].
  Qed.
  Lemma sp_rightSibling p pi : spends 1 (rightSibling cb t p pi).
  Proof.
    unfold rightSibling. apply sp_pre; [ca|]. intros pl. apply sp_if; [eapply sp_le, ca_ret; lia|]. apply sp_pre; [ca|]. intros o.
    apply sp_pre; [ca|]. intros [k v]. apply sp_pre; [ca|]. intros q. apply sp_post; [apply sp_visit|intros; ca].
  Qed.
  Lemma sp_mergeNodes k t' dst src p si chk rec : spends k rec → spends k (mergeNodes cb t' dst src p si chk rec).
  Proof.
    intros Hr. unfold mergeNodes.
    apply sp_pre; [ca|intros rs]. apply sp_pre; [ca|intros _]. apply sp_pre; [ca|intros o]. apply sp_pre; [ca|intros [sk v]].
    apply sp_pre; [ca|intros rd]. apply sp_pre; [ca|intros _]. apply sp_pre; [ca|intros n]. apply sp_pre; [ca|intros _].
    apply sp_pre; [ca|intros plen]. apply sp_pre; [ca|intros rp].
    apply sp_post; [|intros _; ca]. apply sp_if; [apply sp_calm; ca|]. repeat (apply sp_pre; [solve [ca]|intros ?]).
    done.
  Qed.
  Lemma sp_rebalanceHere : ∀ fuel n stack, spends (2 * length stack) (rebalanceHere cb fuel t n stack).
  Proof.
    induction fuel as [|fuel IH]; intros n stack; cbn [rebalanceHere]; [done|].
    apply sp_pre; [ca|intros r]. apply sp_if; [eapply sp_le, ca_ret; lia|]. apply sp_pre; [ca|intros len]. apply sp_pre; [ca|intros T].
    apply sp_if; [eapply sp_le, ca_ret; lia|]. destruct stack as [|pi stack]; [done|]. cbn [length].
    apply sp_pre; [ca|intros p]. replace (2 * S (length stack))%nat with (1 + (1 + 2 * length stack))%nat by lia.
    apply sp_bind; [apply sp_leftSibling|intros ol]. apply sp_pre; [ca|intros [[l llen]|]]; [apply sp_calm; ca|].
    apply sp_bind; [apply sp_rightSibling|intros oq]. apply sp_pre; [ca|intros [q|]]; [apply sp_calm; ca|].
    destruct ol; [by apply sp_mergeNodes|]. destruct oq; [by apply sp_mergeNodes|eapply sp_le, ca_fail; lia].
  Qed.
  Lemma sp_descendKey mark key : ∀ fuel n stack, spends fuel (descendKey cb fuel mark t n stack key).
  Proof.
    induction fuel as [|fuel IH]; intros n stack; cbn [descendKey]; [done|]. apply (sp_bind 1 fuel); [apply sp_visit|intros _].
    apply sp_pre; [ca|intros r]. apply sp_if; [eapply sp_le, ca_ret; lia|]. apply sp_pre; [ca|intros [c o]]. apply IH.
  Qed.
  Lemma sp_descendBisect fuel0 key : ∀ fuel n delta, spends fuel (descendBisect cb fuel0 fuel t n delta key).
  Proof.
    induction fuel as [|fuel IH]; intros n delta; cbn [descendBisect]; [done|]. apply (sp_bind 1 fuel); [apply sp_visit|intros _].
    apply sp_pre; [ca|intros r]. apply sp_if; [eapply sp_le, ca_ret; lia|]. apply sp_pre; [ca|intros [c o]]. destruct o; [|apply IH].
    apply sp_if; [apply IH|]. apply sp_pre; [ca|intros [c' d']]. apply IH.
  Qed.
  Lemma sp_descendIndex fuel0 mark : ∀ fuel n i stack, spends fuel (descendIndex cb fuel0 fuel mark t n i stack).
  Proof.
    induction fuel as [|fuel IH]; intros n i stack; cbn [descendIndex]; [done|]. apply (sp_bind 1 fuel); [apply sp_visit|intros _].
    apply sp_pre; [ca|intros r]. apply sp_if; [eapply sp_le, ca_ret; lia|]. apply sp_pre; [ca|intros m]. apply sp_pre; [ca|intros [c j]].
    apply sp_pre; [ca|intros pc]. apply IH.
  Qed.
  Lemma sp_dimLoop : ∀ fuel n dim, spends fuel (dimLoop cb fuel t n dim).
  Proof.
    induction fuel as [|fuel IH]; intros n dim; cbn [dimLoop]; [done|]. apply (sp_bind 1 fuel); [apply sp_visit|intros _].
    apply sp_pre; [ca|intros r]. apply sp_pre; [ca|intros T]. destruct (b_leaf r); [eapply sp_le, ca_ret; lia|].
    apply sp_pre; [ca|intros l]. apply IH.
  Qed.

  (** ** More fuel changes nothing *)
  Definition dry {A} (o : out K V A) : Prop := match o with OStop Fuel _ => True | _ => False end.
  Lemma more_bind {A B} (m : M A) (f f' : A → M B) s : (∀ a s', m s = ORet a s' → ¬ dry (f a s') → f' a s' = f a s') →
    ¬ dry (bind m f s) → bind m f' s = bind m f s.
  Proof. rewrite !run_bind. destruct (m s) as [a s1|e s1|w s1]; [|done..]. intros Hf Hd. by apply Hf. Qed.
  Lemma more_key mark key : ∀ fuel fuel' n stack s, (fuel ≤ fuel')%nat → ¬ dry (descendKey cb fuel mark t n stack key s) →
    descendKey cb fuel' mark t n stack key s = descendKey cb fuel mark t n stack key s.
  Proof.
    induction fuel as [|fuel IH]; intros fuel' n stack s Hf; (destruct fuel' as [|fuel']; [try lia; done|]); cbn [descendKey]; [intros H; by destruct H|].
    apply more_bind. intros _ s1 _. apply more_bind. intros r s2 _. destruct (b_leaf r); [done|].
    apply more_bind. intros [c o] s3 _. apply IH. lia.
  Qed.
  Lemma more_bisect fuel0 key : ∀ fuel fuel' n delta s, (fuel ≤ fuel')%nat → ¬ dry (descendBisect cb fuel0 fuel t n delta key s) →
    descendBisect cb fuel0 fuel' t n delta key s = descendBisect cb fuel0 fuel t n delta key s.
  Proof.
    induction fuel as [|fuel IH]; intros fuel' n delta s Hf; (destruct fuel' as [|fuel']; [try lia; done|]); cbn [descendBisect]; [intros H; by destruct H|].
    apply more_bind. intros _ s1 _. apply more_bind. intros r s2 _. destruct (b_leaf r); [done|].
    apply more_bind. intros [c o] s3 _. destruct o; [|apply IH; lia]. destruct (_ =? _); [apply IH; lia|].
    apply more_bind. intros [c' d'] s4 _. apply IH. lia.
  Qed.
  Lemma more_index fuel0 mark : ∀ fuel fuel' n i stack s, (fuel ≤ fuel')%nat → ¬ dry (descendIndex cb fuel0 fuel mark t n i stack s) →
    descendIndex cb fuel0 fuel' mark t n i stack s = descendIndex cb fuel0 fuel mark t n i stack s.
  Proof.
    induction fuel as [|fuel IH]; intros fuel' n i stack s Hf; (destruct fuel' as [|fuel']; [try lia; done|]); cbn [descendIndex]; [intros H; by destruct H|].
    apply more_bind. intros _ s1 _. apply more_bind. intros r s2 _. destruct (b_leaf r); [done|].
    apply more_bind. intros m s3 _. apply more_bind. intros [c j] s4 _. apply more_bind. intros pc s5 _. apply IH. lia.
  Qed.
  Lemma more_dim : ∀ fuel fuel' n dim s, (fuel ≤ fuel')%nat → ¬ dry (dimLoop cb fuel t n dim s) →
    dimLoop cb fuel' t n dim s = dimLoop cb fuel t n dim s.
  Proof.
    induction fuel as [|fuel IH]; intros fuel' n dim s Hf; (destruct fuel' as [|fuel']; [try lia; done|]); cbn [dimLoop]; [intros H; by destruct H|].
    apply more_bind. intros _ s1 _. apply more_bind. intros r s2 _. apply more_bind. intros T s3 _. cbv zeta. destruct (b_leaf r); [done|].
    apply more_bind. intros l s4 _. apply IH. lia.
  Qed.

  (** ** How far down *)
  Lemma bind_ret {A B} (m : M A) (f : A → M B) s b s' : bind m f s = ORet b s' → ∃ a s1, m s = ORet a s1 ∧ f a s1 = ORet b s'.
  Proof. rewrite run_bind. destruct (m s) as [a s1|e s1|w s1]; [|done..]. by exists a, s1. Qed.
  Lemma deep_key mark key : ∀ fuel n stack s n' stack' s', descendKey cb fuel mark t n stack key s = ORet (n', stack') s' →
    (length stack' < length stack + fuel)%nat.
  Proof.
    induction fuel as [|fuel IH]; intros n stack s n' stack' s'; cbn [descendKey]; [done|].
    intros (_ & s1 & _ & (r & s2 & _ & H)%bind_ret)%bind_ret. destruct (b_leaf r); [injection H as <- <- <-; lia|].
    apply bind_ret in H as ([c o] & s3 & _ & H%IH). destruct o; cbn in H; lia.
  Qed.
  Lemma deep_index fuel0 mark : ∀ fuel n i stack s n' i' stack' s', descendIndex cb fuel0 fuel mark t n i stack s = ORet (n', i', stack') s' →
    (length stack' < length stack + fuel)%nat.
  Proof.
    induction fuel as [|fuel IH]; intros n i stack s n' i' stack' s'; cbn [descendIndex]; [done|].
    intros (_ & s1 & _ & (r & s2 & _ & H)%bind_ret)%bind_ret. destruct (b_leaf r); [injection H as <- <- <- <-; lia|].
    apply bind_ret in H as (m & s3 & _ & ([c j] & s4 & _ & (pc & s5 & _ & H%IH)%bind_ret)%bind_ret). cbn in H; lia.
  Qed.
  (** and how much was counted on the way *)
  Lemma charge_ret {A} k (m : M A) s a s' : spends k m → m s = ORet a s' → spent k s s'.
  Proof. intros Hm H. specialize (Hm s). by rewrite H in Hm. Qed.
  Lemma calm_ret {A} (m : M A) s a s' : calm m → m s = ORet a s' → spent 0 s s'.
  Proof. apply charge_ret. Qed.
  Lemma calm_counted s s' : spent 0 s s' → counted s' = counted s ∧ attached s' = attached s.
  Proof. intros (_ & H1 & H2 & H3)%calm_inv. unfold counted. split; [lia|done]. Qed.
  Ltac calmly H C A :=
    let X := fresh in
    match type of H with run ?m ?a = ORet ?x ?b =>
      assert (calm m) as X by ca; destruct (calm_counted a b (calm_ret m a x b X H)) as [C A]; clear X end.
  Lemma visit_counted mark n s s' : visit cb mark t n s = ORet tt s' → attached s = true → counted s' = counted s + 1 ∧ attached s' = true.
  Proof.
    unfold visit. intros (r & s1 & H1 & H)%bind_ret Ha.
    assert (s1 = s) as ->. { revert H1. cbn. destruct (_ !! _); [congruence|done]. } destruct (b_loaded r).
    - apply bind_ret in H as ([] & s2 & H2 & H3). 
      assert (calm (if mark then markNodeUsed (K:=K) (V:=V) t n else ret tt)) as Hc by by destruct mark; ca.
      destruct (calm_counted s2 s') as [-> ->]; [by eapply charge_ret|].
      revert H2. unfold incCacheHits, whenCache. unfold bind, atomic; cbn [run]. unfold getT; cbn [run].
      revert Ha. unfold attached. destruct (trees s !! t) as [T|] eqn:HT; [|done]. cbn. intros HTc. rewrite HTc. cbn. intros [= <-]. unfold counted. cbn. rewrite HT /= HTc. split; [lia|done].
    - apply bind_ret in H as ([] & s2 & H2 & H3). pose proof (miss_run s) as HM. rewrite H2 Ha in HM. destruct HM as (M1 & M2 & M3 & M4).
      pose proof (once_loadNode t n s2) as HO. rewrite H3 in HO. destruct HO as (O1 & O2 & O3 & O4). unfold counted. split; [lia|congruence].
  Qed.
  Lemma paid_key mark key : ∀ fuel n stack s n' stack' s', descendKey cb fuel mark t n stack key s = ORet (n', stack') s' → attached s = true →
    counted s + 1 + Z.of_nat (length stack') ≤ counted s' + Z.of_nat (length stack).
  Proof.
    induction fuel as [|fuel IH]; intros n stack s n' stack' s'; cbn [descendKey]; [done|].
    intros ([] & s1 & H1 & (r & s2 & H2 & H)%bind_ret)%bind_ret Ha. destruct (visit_counted _ _ _ _ H1 Ha) as [C1 A1].
    calmly H2 C2 A2.
    destruct (b_leaf r). { injection H as <- <- <-. lia. }
    apply bind_ret in H as ([c o] & s3 & H3 & H). calmly H3 C3 A3.
    apply IH in H; [|congruence]. destruct o; cbn [length] in H; lia.
  Qed.
  Lemma paid_index fuel0 mark : ∀ fuel n i stack s n' i' stack' s', descendIndex cb fuel0 fuel mark t n i stack s = ORet (n', i', stack') s' → attached s = true →
    counted s + 1 + Z.of_nat (length stack') ≤ counted s' + Z.of_nat (length stack).
  Proof.
    induction fuel as [|fuel IH]; intros n i stack s n' i' stack' s'; cbn [descendIndex]; [done|].
    intros ([] & s1 & H1 & (r & s2 & H2 & H)%bind_ret)%bind_ret Ha. destruct (visit_counted _ _ _ _ H1 Ha) as [C1 A1].
    calmly H2 C2 A2.
    destruct (b_leaf r). { injection H as <- <- <- <-. lia. }
    apply bind_ret in H as (m & s3 & H3 & ([c j] & s4 & H4 & (pc & s5 & H5 & H)%bind_ret)%bind_ret).
    calmly H3 C3 A3.
    calmly H4 C4 A4.
    calmly H5 C5 A5.
    apply IH in H; [|congruence]. cbn [length] in H; lia.
  Qed.
  Lemma paid_dim : ∀ fuel n dim s dim' s', dimLoop cb fuel t n dim s = ORet dim' s' → attached s = true →
    counted s + dim_height dim' ≤ counted s' + (dim_height dim `max` 1) - 1.
  Proof.
    induction fuel as [|fuel IH]; intros n dim s dim' s'; cbn [dimLoop]; [done|].
    intros ([] & s1 & H1 & (r & s2 & H2 & (T & s3 & H3 & H)%bind_ret)%bind_ret)%bind_ret Ha. destruct (visit_counted _ _ _ _ H1 Ha) as [C1 A1].
    calmly H2 C2 A2.
    calmly H3 C3 A3.
    destruct (b_leaf r). { injection H as <- <-. destruct (b_root r); cbn; lia. }
    apply bind_ret in H as (l & s4 & H4 & H). calmly H4 C4 A4.
    apply IH in H; [|congruence]. destruct (b_root r); cbn [dim_height] in H; lia.
  Qed.
  (** ** Touch *)
  Definition tally {A} (m : M A) : Prop := ∀ s, ∃ k, charge k (m s) s.
  Lemma ta_sp {A} k (m : M A) : spends k m → tally m.
  Proof. intros Hm s. by exists k. Qed.
  Lemma ta_ca {A} (m : M A) : calm m → tally m.
  Proof. apply ta_sp. Qed.
  Lemma ta_bind {A B} (m : M A) (f : A → M B) : tally m → (∀ a, tally (f a)) → tally (bind m f).
  Proof.
    intros Hm Hf s. destruct (Hm s) as [k Hk]. destruct (m s) as [a s1|e s1|w s1] eqn:E.
    - destruct (Hf a s1) as [k' Hk']. exists (k + k')%nat. apply charge_bind; [by rewrite E|]. intros a' s' H. rewrite E in H. by injection H as <- <-.
    - exists k. by rewrite run_bind E.
    - exists k. by rewrite run_bind E.
  Qed.
  Lemma ta_forM {A} (l : list A) f : (∀ a, tally (f a)) → tally (forM l f).
  Proof. intros Hf. induction l; cbn [forM]; [apply ta_ca, ca_ret|by apply ta_bind]. Qed.
  Lemma ta_touchNode : ∀ fuel n, tally (touchNode cb fuel t n).
  Proof.
    induction fuel as [|fuel IH]; intros n; cbn [touchNode]; [by apply ta_ca; intros s|].
    apply ta_bind; [apply (ta_sp 1), sp_visit|]. intros _. apply ta_bind; [apply ta_ca; ca|]. intros _. apply ta_bind; [apply ta_ca; ca|]. intros r.
    destruct (b_leaf r); [apply ta_ca, ca_ret|]. unfold forLeft, forChildren.
    apply ta_bind; [apply ta_bind; [apply ta_ca; ca|intros r']; destruct (b_left r'); [apply IH|apply ta_ca, ca_ret]|]. intros ?.
    repeat first [apply IH|apply ta_forM; intros ?|apply ta_ca; solve [ca]|case_match|apply ta_bind; [|intros ?]].
  Qed.
  Lemma ta_touch : tally (exec cb (Touch t)).
  Proof.
    cbn [exec]. apply ta_bind; [|intros; apply ta_ca, ca_ret]. unfold bt_Touch, with_fuel. apply ta_bind; [by apply ta_ca; intros s; apply spent_refl|]. intros fuel.
    apply ta_bind; [apply ta_ca; ca|]. intros rt. apply ta_touchNode.
  Qed.

  (** ** Whole calls, given what the descents cost *)
  (** the calls that look for one item, or report on the root *)
  Definition narrow (c : cmd K V) : Prop :=
    match c with MapCall t' _ | TouchItem t' _ | DimensionsReport t' | FetchLocation t' => t' = t | _ => False end.
  (** the most nodes a call visits in a tree of [1 + h] levels *)
  Definition most (h : nat) (c : cmd K V) : nat :=
    match c with
    | MapCall _ (CDeleteByIndex _ | CDeleteByKey _) => 3 * h + 1
    | MapCall _ CLen => 1
    | FetchLocation _ => 0
    | _ => S h
    end.
  (** the least, if it succeeds, in a tree of [1 + h] levels with [z] items *)
  Definition least (h : nat) (z : Z) (c : cmd K V) : nat :=
    match c with
    | MapCall _ (CBisectLeft _ | CBisectRight _ | CLen) => 1
    | MapCall _ (CGetByIndex i | CPatchByIndex i _ | CDeleteByIndex i) | TouchItem _ i => if bool_decide (0 ≤ i < z) then S h else 0%nat
    | FetchLocation _ => 0
    | _ => S h
    end.
  Definition fuel_at s : nat := S (size (nodes s) + size (disk s)).
  Record ways (dom : K → Prop) s (rt : nid) (h : nat) (z : Z) : Prop := Ways {
    wy_root : rootOf t s = ORet rt s;
    wy_items r s' : getN rt s = ORet r s' → s' = s ∧ b_items r = z;
    wy_key mark (k : K) : dom k → charge (S h) (descendKey cb (fuel_at s) mark t rt [] k s) s ∧
      ∀ n stack s', descendKey cb (fuel_at s) mark t rt [] k s = ORet (n, stack) s' → length stack = h ∧
        (attached s = true → counted s + 1 + Z.of_nat h ≤ counted s');
    wy_bisect (k : K) : dom k → charge (S h) (descendBisect cb (fuel_at s) (fuel_at s) t rt 0 k s) s;
    wy_index mark j : 0 ≤ j < z → charge (S h) (descendIndex cb (fuel_at s) (fuel_at s) mark t rt j [] s) s ∧
      ∀ n j' stack s', descendIndex cb (fuel_at s) (fuel_at s) mark t rt j [] s = ORet (n, j', stack) s' → length stack = h ∧
        (attached s = true → counted s + 1 + Z.of_nat h ≤ counted s');
    wy_dim : charge (S h) (dimLoop cb (fuel_at s) t rt (Dimensions 0 0 0 0) s) s ∧
      ∀ d s', dimLoop cb (fuel_at s) t rt (Dimensions 0 0 0 0) s = ORet d s' → attached s = true → counted s + 1 + Z.of_nat h ≤ counted s' }.
  (** at most [k], and at least [l] if it succeeds *)
  Definition within {A} (l k : nat) (o : out K V A) s : Prop :=
    charge k o s ∧ ∀ a s', o = ORet a s' → attached s = true → counted s + Z.of_nat l ≤ counted s'.
  Lemma within_bind {A B} l k k' (m : M A) (f : A → M B) s : within l k (m s) s → (∀ a s', m s = ORet a s' → charge k' (f a s') s') →
    within l (k + k') (bind m f s) s.
  Proof.
    intros [Hm Hl] Hf. split; [by apply charge_bind|]. intros b s2 (a & s1 & H1 & H2)%bind_ret Ha.
    specialize (Hl _ _ H1 Ha). specialize (Hf _ _ H1). rewrite H2 in Hf. rewrite H1 in Hm. cbn in Hf, Hm. destruct Hf as [B1 B2 B3 B4 B5 B6]. unfold counted in *.
    rewrite (sp_attached _ _ _ Hm) Ha in B3. lia.
  Qed.
  Lemma within_post {A B} l k (m : M A) (f : A → M B) s : within l k (m s) s → (∀ a, calm (f a)) → within l k (bind m f s) s.
  Proof. intros Hm Hf. rewrite -(Nat.add_0_r k). apply within_bind; [done|]. intros a s' _. apply Hf. Qed.
  Lemma within_eq {A} l k (m m' : M A) s : m s = m' s → within l k (m' s) s → within l k (m s) s.
  Proof. by intros ->. Qed.
  Lemma within_nil {A} k (m : M A) s : calm m → within 0 k (m s) s.
  Proof.
    intros Hm. split; [eapply charge_le, Hm; lia|]. intros a s' H Ha. destruct (calm_counted _ _ (calm_ret _ _ _ _ Hm H)). lia.
  Qed.
  Lemma within_charge {A} l k (o : out K V A) s : charge k o s → (∀ a s', o = ORet a s' → attached s = true → counted s + Z.of_nat l ≤ counted s') → within l k o s.
  Proof. done. Qed.
  Section calls.
    Context (dom : K → Prop) s rt h z (HY : ways dom s rt h z).
    Lemma go {A} (F : nat → nid → M A) : with_fuel (λ fuel, bind (rootOf t) (λ rt, F fuel rt)) s = F (fuel_at s) rt s.
    Proof using HY. unfold with_fuel. rewrite run_bind. cbn [run]. by rewrite run_bind (wy_root _ _ _ _ _ HY). Qed.
    Lemma go_items {A} (F : bnode K V → M A) l k : (∀ r, b_items r = z → within l k (F r s) s) → within l k (bind (getN rt) F s) s.
    Proof using HY.
      intros HF. rewrite run_bind. destruct (getN rt s) as [r s'|e s'|w s'] eqn:E; [|exfalso|done].
      - by destruct (wy_items _ _ _ _ _ HY _ _ E) as [-> ?]; apply HF.
      - revert E. cbn. by destruct (_ !! _).
    Qed.
    Lemma go_key mark (k : K) : dom k → within (S h) (S h) (descendKey cb (fuel_at s) mark t rt [] k s) s.
    Proof using HY. intros Hk. destruct (wy_key _ _ _ _ _ HY mark k Hk) as [H1 H2]. split; [done|]. intros [n stack] s' H Ha. destruct (H2 _ _ _ H) as [_ HX]. specialize (HX Ha). lia. Qed.
    Lemma go_index mark j : 0 ≤ j < z → within (S h) (S h) (descendIndex cb (fuel_at s) (fuel_at s) mark t rt j [] s) s.
    Proof using HY. intros Hk. destruct (wy_index _ _ _ _ _ HY mark j Hk) as [H1 H2]. split; [done|]. intros [[n j'] stack] s' H Ha. destruct (H2 _ _ _ _ H) as [_ HX]. specialize (HX Ha). lia. Qed.
    Lemma bisect_paid fuel0 fuel n d (k : K) : ∀ a s', descendBisect cb fuel0 fuel t n d k s = ORet a s' → attached s = true → counted s + 1 ≤ counted s'.
    Proof.
      destruct fuel as [|fuel]; [done|]. cbn [descendBisect]. intros a s' ([] & s1 & H1 & H)%bind_ret Ha. destruct (visit_counted _ _ _ _ H1 Ha) as [C1 A1].
      assert (spends fuel (bind (getN n) (λ r : bnode K V, if b_leaf r then ret (n, d) else
         bind (findChild cb n k) (λ '(c, o), match o with Some i => if i =? -1 then descendBisect cb fuel0 fuel t c d k else
            bind (childOffset fuel0 n c d) (λ '(c', delta), descendBisect cb fuel0 fuel t c' delta k) | None => descendBisect cb fuel0 fuel t c d k end)))) as HX.
      { apply sp_pre; [ca|intros r]. apply sp_if; [eapply sp_le, ca_ret; lia|]. apply sp_pre; [ca|intros [c o]]. destruct o; [|apply sp_descendBisect].
        apply sp_if; [apply sp_descendBisect|]. apply sp_pre; [ca|intros [c' d']]. apply sp_descendBisect. }
      destruct (charge_ret _ _ _ _ _ HX H) as [B1 B2 B3 B4 B5 B6]. rewrite A1 in B3. unfold counted in *. lia.
    Qed.
    Lemma go_bisect (k : K) : dom k → within 1 (S h) (descendBisect cb (fuel_at s) (fuel_at s) t rt 0 k s) s.
    Proof using HY. intros Hk. split; [by apply (wy_bisect _ _ _ _ _ HY)|]. apply bisect_paid. Qed.

    Lemma call_cost c : narrow c → match c with MapCall _ c => Forall dom (call_keys c) | TouchItem _ i => 0 ≤ i | _ => True end →
      within (least h z c) (most h c) (exec cb c s) s.
    Proof using HY.
      intros Hn Hk. destruct c as [| |t' c| | | |t' i| | | |t'| | |t'| | | |]; cbn in Hn; try done; subst t'; cbn [exec].
      - apply within_post; [|intros a; ca]. destruct c as [k v|k|i|k v|i v|k|i|k|k|]; cbn [bt_call least most] in *.
        + apply Forall_cons in Hk as [Hk _]. unfold bt_Put. rewrite go. apply within_post; [by apply go_key|]. intros [n stack]. ca.
        + apply Forall_cons in Hk as [Hk _]. unfold bt_GetByKey. rewrite go. apply within_post; [by apply go_key|]. intros [n stack]. ca.
        + unfold bt_GetByIndex. rewrite go. apply go_items. intros r ->. case_bool_decide as Hj.
          * rewrite orb_false_intro; [|apply Z.ltb_ge; lia|apply Z.leb_gt; lia]. apply within_post; [by apply go_index|]. intros [[n j] stack]. ca.
          * destruct (_ || _) eqn:E; [by apply within_nil, ca_ret|]. exfalso. apply orb_false_elim in E as [?%Z.ltb_ge ?%Z.leb_gt]. lia.
        + apply Forall_cons in Hk as [Hk _]. unfold bt_PatchByKey. rewrite go. apply within_post; [by apply go_key|]. intros [n stack]. ca.
        + unfold bt_PatchByIndex. rewrite go. apply go_items. intros r ->. case_bool_decide as Hj.
          * rewrite orb_false_intro; [|apply Z.ltb_ge; lia|apply Z.leb_gt; lia]. apply within_post; [by apply go_index|]. intros [[n j] stack]. ca.
          * destruct (_ || _) eqn:E; [by apply within_nil, ca_ret|]. exfalso. apply orb_false_elim in E as [?%Z.ltb_ge ?%Z.leb_gt]. lia.
        + apply Forall_cons in Hk as [Hk _]. unfold bt_DeleteByKey. rewrite go. replace (3 * h + 1)%nat with (S h + 2 * h)%nat by lia.
          apply within_bind; [by apply go_key|]. intros [n stack] s' Hs. destruct (wy_key _ _ _ _ _ HY true k Hk) as [_ Hd]. destruct (Hd _ _ _ Hs) as [<- _].
          apply sp_pre; [ca|intros ok]. apply sp_post; [|intros _; ca]. destruct ok; [|eapply sp_le, ca_ret; lia].
          apply sp_pre; [ca|intros _]. apply sp_pre; [ca|intros _]. apply sp_rebalanceHere.
        + unfold bt_DeleteByIndex. rewrite go. apply go_items. intros r ->. case_bool_decide as Hj.
          * rewrite orb_false_intro; [|apply Z.ltb_ge; lia|apply Z.leb_gt; lia]. replace (3 * h + 1)%nat with (S h + 2 * h)%nat by lia.
            apply within_bind; [by apply go_index|]. intros [[n j] stack] s' Hs. destruct (wy_index _ _ _ _ _ HY true i Hj) as [_ Hd]. destruct (Hd _ _ _ _ Hs) as [<- _].
            apply sp_pre; [ca|intros ok]. apply sp_pre; [ca|intros _]. apply sp_pre; [ca|intros _]. apply sp_post; [apply sp_rebalanceHere|intros _; ca].
          * destruct (_ || _) eqn:E; [by apply within_nil, ca_ret|]. exfalso. apply orb_false_elim in E as [?%Z.ltb_ge ?%Z.leb_gt]. lia.
        + apply Forall_cons in Hk as [Hk _]. unfold bt_BisectLeft. rewrite go. apply within_post; [by apply go_bisect|]. intros [n d]. ca.
        + apply Forall_cons in Hk as [Hk _]. unfold bt_BisectRight. rewrite go. apply within_post; [by apply go_bisect|]. intros [n d]. ca.
        + unfold bt_Len. rewrite run_bind (wy_root _ _ _ _ _ HY). apply within_post; [|intros _; ca]. split; [apply sp_visit|].
          intros [] s' H Ha. by destruct (visit_counted _ _ _ _ H Ha) as [-> _].
      - apply within_post; [|intros a; ca]. cbn [least most]. unfold bt_TouchItem. rewrite go. apply go_items. intros r ->. case_bool_decide as Hj.
        + destruct (z =? 0) eqn:E0; [apply Z.eqb_eq in E0; lia|]. destruct (z <=? i) eqn:E1; [apply Z.leb_le in E1; lia|].
          apply within_post; [by apply go_index|]. intros [[n j] stack]. ca.
        + destruct (z =? 0) eqn:E0; [by apply within_nil, ca_ret|]. destruct (z <=? i) eqn:E1; [by apply within_nil, ca_ret|]. apply Z.leb_gt in E1; lia.
      - apply within_post; [|intros a; ca]. cbn [least most]. unfold bt_FetchDimensionsReport. rewrite go.
        destruct (wy_dim _ _ _ _ _ HY) as [H1 H2]. split; [done|]. intros d s' H Ha. specialize (H2 d s' H Ha). lia.
      - apply within_nil. unfold bt_FetchLocation. ca.
    Qed.
  End calls.
End cost.

Section reads.
  Context {K V : Type}.
  Variable cb : callbacks K V.
  Variable dom : K → Prop.
  Variable domV : V → Prop.
  Hypothesis WF : wf_cb cb dom domV.
  Notation cmp := (cb_cmp cb).
  Notation hProp := (hProp K V).
  Notation st := (st K V).
  Notation M := (M K V).
  Notation gt := (gt K V).
  Notation world := (world K V).
  Notation winv := (winv cb dom domV).
  Notation seat := (seat cb dom domV).
  Notation treeok := (treeok cb dom domV).
  Notation whole := (whole cb dom).
  Notation pictured := (pictured cb dom domV).
  Notation after := (after (K:=K) (V:=V) cmp).
  Notation history := (Sample.history cb dom domV).
  Notation spent := (spent (K:=K) (V:=V)).
  Notation charge := (charge (K:=K) (V:=V)).
  Implicit Types (w : world) (s : st) (g : gt) (h : nat).

  Lemma seat_safe {A} io w s t i f lv ca root S h g σ σf (m : M A) (φ : A → Prop) : winv w s → seat w s t i f lv ca root S h g σ σf →
    (isTR (mnof f) t ca root S ∗ whole (mnof f) t ca h g ⊢ wp io m (λ a, ⌜φ a⌝) (λ _, True)) →
    match m s with ORet a _ => φ a | OErr _ _ => True | OStop Panic _ | OStop Fuel _ => False | OStop _ _ => True end.
  Proof.
    intros HW HS [Hwp]. pose proof (Hwp σ (se_own _ _ _ _ _ _ _ _ _ _ _ _ _ _ _ _ HS)) as HP.
    apply wp_run in HP. specialize (HP σf s (se_disj _ _ _ _ _ _ _ _ _ _ _ _ _ _ _ _ HS) (se_views _ _ _ _ _ _ _ _ _ _ _ _ _ _ _ _ HS) (wi_inv _ _ _ _ _ HW)).
    destruct (m s) as [a s'|e s'|[] s']; try done. by destruct HP as (_ & σ' & _ & _ & _ & HX).
  Qed.

  Section probes.
    Context (mn : nat) (t : tid) (ca : bool) (root : nid) (S : list loc) (h : nat) (g : gt).
    Context (MN : (2 ≤ mn)%nat) (Ht : treeok mn root h g).
    Notation own := (isTR mn t ca root S ∗ whole mn t ca h g)%I.
    Lemma probe_key mark k : dom k → own ⊢ wp true (with_fuel (λ _, bind (rootOf t) (λ rt, descendKey cb (Datatypes.S h) mark t rt [] k)))
      (λ x, ⌜length x.2 = h⌝) (λ _, True).
    Proof using WF MN Ht.
      iIntros (Hk) "[HT Hw]". iApply (start cb dom domV mn MN with "HT Hw"); [done|]. iIntros (fuel Hf) "Hcur".
      destruct (tree_okc cb dom domV mn root h g Ht) as [Hok Hg].
      iApply (descendKey_spec cb dom domV WF mn MN t ca mark k Hk h (Datatypes.S h) (vw g) root S [] g with "Hcur"); [lia|done|done|constructor|constructor|].
      iSplit; [|by iIntros]. iIntros (C n st kvs (_ & Hh & _)) "_". iPureIntro. cbn. unfold stk. rewrite fmap_length. cbn in Hh. lia.
    Qed.
    Lemma probe_bisect k : dom k → own ⊢ wp true (with_fuel (λ fuel, bind (rootOf t) (λ rt, descendBisect cb fuel (Datatypes.S h) t rt 0 k)))
      (λ x, ⌜True⌝) (λ _, True).
    Proof using WF MN Ht.
      iIntros (Hk) "[HT Hw]". iApply (start cb dom domV mn MN with "HT Hw"); [done|]. iIntros (fuel Hf) "Hcur".
      destruct (tree_okc cb dom domV mn root h g Ht) as [Hok Hg].
      iApply (descendBisect_spec cb dom domV WF mn MN t ca k fuel Hk h (Datatypes.S h) (vw g) root S [] g with "Hcur"); [lia|rewrite strip_vw; lia|done|done|constructor|constructor|].
      iSplit; by iIntros.
    Qed.
    Lemma probe_index mark i : 0 ≤ i < gsz g → own ⊢ wp true (with_fuel (λ fuel, bind (rootOf t) (λ rt, descendIndex cb fuel (Datatypes.S h) mark t rt i [])))
      (λ x, ⌜length x.2 = h⌝) (λ _, True).
    Proof using WF MN Ht.
      iIntros (Hi) "[HT Hw]". iApply (start cb dom domV mn MN with "HT Hw"); [done|]. iIntros (fuel Hf) "Hcur".
      destruct (tree_okc cb dom domV mn root h g Ht) as [Hok Hg].
      iApply (descendIndex_spec cb dom domV WF mn MN t ca mark fuel h (Datatypes.S h) (vw g) root S [] g with "Hcur"); [lia|rewrite strip_vw; lia|done|done|done|].
      iSplit; [|by iIntros]. iIntros (C n st kvs j (_ & Hh & _)) "_". iPureIntro. cbn. unfold stk. rewrite fmap_length. cbn in Hh. lia.
    Qed.
    Lemma probe_fuel : own ⊢ wp true (with_fuel (λ fuel, bind (rootOf t) (λ _, ret fuel))) (λ z, ⌜(h < z)%nat⌝) (λ _, True).
    Proof using WF MN Ht.
      iIntros "[HT Hw]". iApply (start cb dom domV mn MN t ca true (λ fuel _, ret fuel) with "HT Hw"); [done|]. iIntros (fuel Hf) "Hcur".
      iApply wp_ret. iPureIntro. by eapply (height_fuel cb dom domV mn).
    Qed.
    Lemma probe_items : own ⊢ wp true (with_fuel (λ _, bind (rootOf t) (λ rt, bind (getN rt) (λ r, ret (b_items r))))) (λ z, ⌜z = gsz g⌝) (λ _, True).
    Proof using WF MN Ht.
      iIntros "[HT Hw]". iApply (start cb dom domV mn MN with "HT Hw"); [done|]. iIntros (fuel Hf) "Hcur".
      iDestruct (cur_rec with "Hcur") as (r) "(HN & %Hr & Hcur)".
      iApply wp_bind. iApply (wp_getN with "HN"). iIntros "HN". iApply wp_ret. iPureIntro. apply Hr.
    Qed.
    Lemma probe_dim : own ⊢ wp true (with_fuel (λ _, bind (rootOf t) (λ rt, dimLoop cb (Datatypes.S h) t rt (Dimensions 0 0 0 0))))
      (λ d, ⌜dim_height d = (1 + Z.of_nat h)%Z⌝) (λ _, True).
    Proof using WF MN Ht.
      iIntros "[HT Hw]". iApply (start_rep cb dom domV WF mn MN t ca true (λ _ rt, dimLoop cb (Datatypes.S h) t rt (Dimensions 0 0 0 0)) with "HT Hw"); [done|].
      iIntros (fuel [Hf _]) "Hp HH". rewrite (dim_spec cb dom domV WF mn MN t ca root S h (Datatypes.S h)); [|lia|by eapply sub_tree].
      iApply (wp_wand with "HH"). iSplit; [|by iIntros]. iIntros (d) "[%Hd _]". iPureIntro. by rewrite Hd.
    Qed.
  End probes.

  Section one.
    Context w s t i f lv ca root S h g σ σf (HW : winv w s) (HS : seat w s t i f lv ca root S h g σ σf).
    Let fuel0 : nat := Datatypes.S (size (nodes s) + size (disk s)).
    Lemma seat_root : rootOf t s = ORet (gid g) s.
    Proof using HS.
      pose proof (seat_pictured _ _ _ _ _ _ _ _ _ _ _ _ _ _ _ _ HS) as HP. unfold rootOf. rewrite run_bind. unfold getT; cbn [run].
      by rewrite (pc_tree _ _ _ _ _ _ _ _ _ _ HP).
    Qed.
    Lemma fuel_root {A} (F : nat → nid → M A) : with_fuel (λ fuel, bind (rootOf t) (λ rt, F fuel rt)) s = F fuel0 (gid g) s.
    Proof using HS. unfold with_fuel. rewrite run_bind. cbn [run]. by rewrite run_bind seat_root. Qed.
    Lemma seat_items r s' : getN (gid g) s = ORet r s' → s' = s ∧ b_items r = gsz g.
    Proof using HS HW WF.
      intros H. pose proof HS as [H1 H2 _ _ _ _ _ _].
      pose proof (seat_safe _ _ _ _ _ _ _ _ _ _ _ _ _ _ _ _ HW HS (probe_items (mnof f) t ca root S h g H1 H2)) as HP.
      rewrite (fuel_root (λ _ rt, bind (getN rt) (λ r, ret (b_items r)))) run_bind H in HP. cbn in HP. split; [|done].
      revert H. cbn. destruct (_ !! _); congruence.
    Qed.
    Lemma fuel_enough : (Datatypes.S h ≤ fuel0)%nat.
    Proof using HS HW WF.
      pose proof HS as [H1 H2 _ _ _ _ _ _].
      pose proof (seat_safe _ _ _ _ _ _ _ _ _ _ _ _ _ _ _ _ HW HS (probe_fuel (mnof f) t ca root S h g H1 H2)) as HP.
      rewrite (fuel_root (λ fuel _, ret fuel)) in HP. cbn in HP. unfold fuel0. lia.
    Qed.
    Lemma key_run mark k : dom k →
      charge t (Datatypes.S h) (descendKey cb fuel0 mark t (gid g) [] k s) s ∧
      ∀ n stack s', descendKey cb fuel0 mark t (gid g) [] k s = ORet (n, stack) s' → length stack = h ∧
        (attached t s = true → counted s + 1 + Z.of_nat h ≤ counted s').
    Proof using HS HW WF.
      intros Hk. pose proof HS as [H1 H2 _ _ _ _ _ _].
      pose proof (seat_safe _ _ _ _ _ _ _ _ _ _ _ _ _ _ _ _ HW HS (probe_key (mnof f) t ca root S h g H1 H2 mark k Hk)) as HP.
      rewrite (fuel_root (λ _ rt, descendKey cb (Datatypes.S h) mark t rt [] k)) in HP.
      rewrite (more_key cb t mark k _ fuel0 _ _ _ fuel_enough); [|intros Hd; revert HP; by destruct (descendKey cb (Datatypes.S h) mark t (gid g) [] k s) as [| |[]]].
      split; [apply sp_descendKey|]. intros n stack s' Hr. rewrite Hr in HP. cbn in HP. split; [done|]. intros Ha.
      pose proof (paid_key cb t mark k _ _ _ _ _ _ _ Hr Ha). cbn in *. lia.
    Qed.
    Lemma bisect_run k : dom k → charge t (Datatypes.S h) (descendBisect cb fuel0 fuel0 t (gid g) 0 k s) s.
    Proof using HS HW WF.
      intros Hk. pose proof HS as [H1 H2 _ _ _ _ _ _].
      pose proof (seat_safe _ _ _ _ _ _ _ _ _ _ _ _ _ _ _ _ HW HS (probe_bisect (mnof f) t ca root S h g H1 H2 k Hk)) as HP.
      rewrite (fuel_root (λ fuel rt, descendBisect cb fuel (Datatypes.S h) t rt 0 k)) in HP.
      rewrite (more_bisect cb t fuel0 k _ fuel0 _ _ _ fuel_enough); [|intros Hd; revert HP; by destruct (descendBisect cb fuel0 (Datatypes.S h) t (gid g) 0 k s) as [| |[]]].
      apply sp_descendBisect.
    Qed.
    Lemma index_run mark j : 0 ≤ j < gsz g →
      charge t (Datatypes.S h) (descendIndex cb fuel0 fuel0 mark t (gid g) j [] s) s ∧
      ∀ n j' stack s', descendIndex cb fuel0 fuel0 mark t (gid g) j [] s = ORet (n, j', stack) s' → length stack = h ∧
        (attached t s = true → counted s + 1 + Z.of_nat h ≤ counted s').
    Proof using HS HW WF.
      intros Hj. pose proof HS as [H1 H2 _ _ _ _ _ _].
      pose proof (seat_safe _ _ _ _ _ _ _ _ _ _ _ _ _ _ _ _ HW HS (probe_index (mnof f) t ca root S h g H1 H2 mark j Hj)) as HP.
      rewrite (fuel_root (λ fuel rt, descendIndex cb fuel (Datatypes.S h) mark t rt j [])) in HP.
      rewrite (more_index cb t fuel0 mark _ fuel0 _ _ _ _ fuel_enough); [|intros Hd; revert HP; by destruct (descendIndex cb fuel0 (Datatypes.S h) mark t (gid g) j [] s) as [| |[]]].
      split; [apply sp_descendIndex|]. intros n j' stack s' Hr. rewrite Hr in HP. cbn in HP. split; [done|]. intros Ha.
      pose proof (paid_index cb t fuel0 mark _ _ _ _ _ _ _ _ _ Hr Ha). cbn in *. lia.
    Qed.
    Lemma dim_run : charge t (Datatypes.S h) (dimLoop cb fuel0 t (gid g) (Dimensions 0 0 0 0) s) s ∧
      ∀ d s', dimLoop cb fuel0 t (gid g) (Dimensions 0 0 0 0) s = ORet d s' → attached t s = true → counted s + 1 + Z.of_nat h ≤ counted s'.
    Proof using HS HW WF.
      pose proof HS as [H1 H2 _ _ _ _ _ _].
      pose proof (seat_safe _ _ _ _ _ _ _ _ _ _ _ _ _ _ _ _ HW HS (probe_dim (mnof f) t ca root S h g H1 H2)) as HP.
      rewrite (fuel_root (λ _ rt, dimLoop cb (Datatypes.S h) t rt (Dimensions 0 0 0 0))) in HP.
      rewrite (more_dim cb t _ fuel0 _ _ _ fuel_enough); [|intros Hd; revert HP; by destruct (dimLoop cb (Datatypes.S h) t (gid g) (Dimensions 0 0 0 0) s) as [| |[]]].
      split; [apply sp_dimLoop|]. intros d s' Hr Ha. rewrite Hr in HP.
      pose proof (paid_dim cb t _ _ _ _ _ _ Hr Ha). cbn in *. lia.
    Qed.
    Lemma seat_ways : ways cb t dom s (gid g) h (gsz g).
    Proof using HS HW WF.
      split; [apply seat_root|apply seat_items|intros; by apply key_run|intros; by apply bisect_run|intros; by apply index_run|apply dim_run].
    Qed.
  End one.

  (** the number of storage callbacks made between two states *)
  Lemma made_length s s' : length (made s s') = (iocount s' - iocount s)%nat.
  Proof. unfold made. by rewrite fmap_length seq_length. Qed.
  Lemma call_within hi s t m mn ca S h g c : history hi s → contents (after hi) t = Some m → pictured s t mn ca S h g → narrow t c → legal dom domV (after hi) c →
    within t (least h (Z.of_nat (length m)) c) (most h c) (exec cb c s) s ∧ attached t s = ca.
  Proof using WF.
    intros HH Hm HP Hn Hl. destruct (hist_pic cb dom domV WF _ _ _ _ _ _ _ _ _ HH Hm HP) as (i & f & lv & root & σ & σf & Hon & Hits & -> & HS).
    destruct (hist_facts cb dom domV WF _ _ HH) as (_ & _ & HW). split.
    - replace (Z.of_nat (length m)) with (gsz g); [|by rewrite /gsz -Hits -(se_items _ _ _ _ _ _ _ _ _ _ _ _ _ _ _ _ HS)].
      eapply call_cost; [by eapply seat_ways|done|]. destruct c; cbn in Hn, Hl |- *; try done; apply Hl.
    - unfold attached. by rewrite (pc_tree _ _ _ _ _ _ _ _ _ _ HP).
  Qed.
  Definition returned {A} (o : out K V A) s' : Prop := (∃ a, o = ORet a s') ∨ (∃ e, o = OErr e s').
  Theorem call_reads hi s t m mn ca S h g c s' : history hi s → contents (after hi) t = Some m → pictured s t mn ca S h g → narrow t c → legal dom domV (after hi) c →
    returned (exec cb c s) s' → (length (made s s') ≤ most h c)%nat ∧ (h = 0%nat ∨ 2 * Z.of_nat mn ^ Z.of_nat h ≤ Z.of_nat (length m)).
  Proof using WF.
    intros HH Hm HP Hn Hl Hr. destruct (call_within _ _ _ _ _ _ _ _ _ _ HH Hm HP Hn Hl) as [[HC _] _]. split.
    - rewrite made_length. destruct Hr as [[a Hr]|[e Hr]]; rewrite Hr in HC; destruct HC; lia.
    - by destruct (height_bound cb dom domV WF _ _ _ _ _ _ _ _ _ HH Hm HP) as (_ & _ & _ & HX).
  Qed.
  Theorem call_stats hi s t m mn ca S h g c s' x x' : history hi s → contents (after hi) t = Some m → pictured s t mn ca S h g → narrow t c → legal dom domV (after hi) c →
    returned (exec cb c s) s' → cache_Stats s = ORet x s → cache_Stats s' = ORet x' s' →
    if ca then
      st_misses x' = st_misses x + Z.of_nat (length (made s s')) ∧ st_hits x ≤ st_hits x' ∧
      st_hits x' + st_misses x' ≤ st_hits x + st_misses x + Z.of_nat (most h c) ∧
      ((∃ r, exec cb c s = ORet r s') → st_hits x + st_misses x + Z.of_nat (least h (Z.of_nat (length m)) c) ≤ st_hits x' + st_misses x')
    else st_hits x' = st_hits x ∧ st_misses x' = st_misses x.
  Proof using WF.
    intros HH Hm HP Hn Hl Hr [= <-] [= <-]. destruct (call_within _ _ _ _ _ _ _ _ _ _ HH Hm HP Hn Hl) as [[HC HL] Ha]. cbn [st_hits st_misses]. rewrite made_length.
    assert (spent t (most h c) s s') as [A1 A2 A3 A4 A5 A6]. { destruct Hr as [[a Hr]|[e Hr]]; by rewrite Hr in HC. }
    rewrite Ha in A3, A5, HL. unfold counted in A6. destruct ca; [|split; [by apply A5|lia]]. split_and!; [lia|lia|lia|].
    intros [r Hx]. specialize (HL _ _ Hx eq_refl). unfold counted in HL. lia.
  Qed.
  Theorem touch_stats s t T s' x x' : trees s !! t = Some T → returned (exec cb (Touch t) s) s' →
    cache_Stats s = ORet x s → cache_Stats s' = ORet x' s' →
    if t_cache T then st_misses x' = st_misses x + Z.of_nat (length (made s s')) ∧ st_hits x ≤ st_hits x'
    else st_hits x' = st_hits x ∧ st_misses x' = st_misses x.
  Proof.
    intros HT Hr [= <-] [= <-]. cbn [st_hits st_misses]. rewrite made_length. destruct (ta_touch cb t s) as [k HC].
    assert (spent t k s s') as [A1 A2 A3 A4 A5 A6]. { destruct Hr as [[a Hr]|[e Hr]]; by rewrite Hr in HC. }
    assert (attached t s = t_cache T) as Ha by by unfold attached; rewrite HT. rewrite Ha in A3, A5.
    destruct (t_cache T); [lia|]. split; [by apply A5|lia].
  Qed.
End reads.

(** * Programs that make no storage callback

    For a program that neither stores nodes nor ignores errors: either it makes
    no storage callback, or on another storage it would have asked for a block
    that is not there.  Models no code. *)
From Coq Require Import ssreflect.
From stdpp Require Import prelude list gmap.
From Verif Require Import Spec Llrb BTree Pres Machine.
Open Scope Z_scope.

Section mute.
  Context {K V : Type}.
  Variable cb : callbacks K V.
  Notation st := (st K V).
  Notation M := (M K V).
  Notation bval := (bval V).
  Notation bnode := (bnode K V).
  Notation llrb := (tree K bval).
  Implicit Types s : st.

  (** [s] with another storage and other fortunes *)
  Definition veil (D : gmap loc bytes) (O : nat → choice) s : st :=
    St (nodes s) (pss s) (cells s) (trees s) (cache s) D O (iocount s) (fresh s).
  Definition under {A} (f : st → st) (o : out K V A) : out K V A :=
    match o with ORet a s => ORet a (f s) | OErr e s => OErr e (f s) | OStop w s => OStop w (f s) end.
  (** the order in which Go ranges over a map is not a matter of the storage *)
  Definition picks (O : nat → choice) s : Prop := ∀ i, ch_pick (O i) = ch_pick (orc s i).
  Definition alive {A} (o : out K V A) : Prop := match o with OStop Crash _ => False | _ => True end.
  (** no callback *)
  Definition mute {A} (m : M A) s : Prop :=
    (∀ D O, size D = size (disk s) → picks O s → m (veil D O s) = under (veil D O) (m s)) ∧
    disk (stof (m s)) = disk s ∧ orc (stof (m s)) = orc s ∧ iocount (stof (m s)) = iocount s ∧ alive (m s).
  (** a callback that asks for the block [l] *)
  Definition asks {A} (m : M A) s : Prop :=
    ∃ l, ∀ D O, size D = size (disk s) → picks O s → D !! l = None → (∀ i, ch_crash (O i) = false ∧ ch_fail (O i) = false) → ∃ s', m (veil D O s) = OErr EIO s'.
  (** [x]: never *)
  Definition sim (x : bool) {A} (m : M A) : Prop := ∀ s, mute m s ∨ x = false ∧ asks m s.

  Lemma hu_bind {A B} x (m : M A) (f : A → M B) : sim x m → (∀ a, sim x (f a)) → sim x (bind m f).
  Proof.
    intros Hm Hf s. destruct (Hm s) as [(H1 & H2 & H3 & H4 & H5)|(-> & l & H)].
    - destruct (m s) as [a s1|e s1|w s1] eqn:E; cbn [stof under] in *.
      + destruct (Hf a s1) as [(G1 & G2 & G3 & G4 & G5)|(-> & l & H)].
        * left. unfold mute. rewrite !run_bind E. split_and!; [|congruence|congruence|congruence|done]. intros D O HD HP. rewrite run_bind (H1 D O HD HP). apply G1; [by rewrite H2|]. unfold picks. by rewrite H3.
        * right. split; [done|]. exists l. intros D O HD HP. rewrite run_bind (H1 D O HD HP). apply H; [by rewrite H2|]. unfold picks. by rewrite H3.
      + left. unfold mute. rewrite !run_bind E. split_and!; [|done..]. intros D O HD HP. by rewrite run_bind (H1 D O HD HP).
      + left. unfold mute. rewrite !run_bind E. split_and!; [|done..]. intros D O HD HP. by rewrite run_bind (H1 D O HD HP).
    - right. split; [done|]. exists l. intros D O HD HP Hl HO. destruct (H D O HD HP Hl HO) as [s' Hs]. exists s'. by rewrite run_bind Hs.
  Qed.
  Lemma hu_try {A} x (m : M A) h : sim true m → (∀ e, sim x (h e)) → sim x (Try m h).
  Proof.
    intros Hm Hf s. destruct (Hm s) as [(H1 & H2 & H3 & H4 & H5)|[[=] _]].
    unfold mute, asks. cbn [run]. destruct (m s) as [a s1|e s1|w s1] eqn:E; cbn [stof under] in *.
    - left. split_and!; [|done..]. intros D O HD HP. by rewrite (H1 D O HD HP).
    - destruct (Hf e s1) as [(G1 & G2 & G3 & G4 & G5)|(-> & l & H)].
      + left. split_and!; [|congruence|congruence|congruence|done]. intros D O HD HP. rewrite (H1 D O HD HP). apply G1; [by rewrite H2|]. unfold picks. by rewrite H3.
      + right. split; [done|]. exists l. intros D O HD HP. rewrite (H1 D O HD HP). apply H; [by rewrite H2|]. unfold picks. by rewrite H3.
    - left. split_and!; [|done..]. intros D O HD HP. by rewrite (H1 D O HD HP).
  Qed.
  Lemma hu_blind {A} x (f : st → out K V A) :
    (∀ s D O, f (veil D O s) = under (veil D O) (f s)) →
    (∀ s, disk (stof (f s)) = disk s ∧ orc (stof (f s)) = orc s ∧ iocount (stof (f s)) = iocount s ∧ alive (f s)) → sim x (Act f).
  Proof. intros H1 H2 s. left. split; [|apply H2]. intros D O _ _. apply H1. Qed.
  Lemma hu_ret {A} x (a : A) : sim x (ret a).
  Proof. by apply hu_blind. Qed.
  Lemma hu_fail {A} x e : sim x (A:=A) (fail e).
  Proof. by apply hu_blind. Qed.
  Lemma hu_panic {A} x : sim x (A:=A) panic.
  Proof. by apply hu_blind. Qed.
  Lemma hu_nofuel {A} x : sim x (A:=A) nofuel.
  Proof. by apply hu_blind. Qed.
  Lemma hu_envbad {A} x : sim x (A:=A) envbad.
  Proof. by apply hu_blind. Qed.
  Lemma hu_ignoreErr x m : sim true m → sim x (ignoreErr m).
  Proof. intros Hm. apply hu_try; [done|]. intros _. apply hu_ret. Qed.
  Lemma hu_atomic {A} x (m : M A) : sim x m → sim x (atomic m).
  Proof. done. Qed.
  Create HintDb hu discriminated.
  Local Hint Resolve hu_ret hu_fail hu_panic hu_nofuel hu_envbad : hu.

  Ltac hu1 :=
    match goal with
    | |- sim _ (bind _ _) => apply hu_bind; [|intros ?]
    | |- sim _ (ignoreErr _) => apply hu_ignoreErr
    | |- sim _ (atomic _) => apply hu_atomic
    | |- sim _ (Try _ _) => apply hu_try; [|intros ?]
    | H : ∀ _, sim _ _ |- sim _ _ => apply H
    | H : sim _ _ |- sim _ _ => apply H
    | |- sim _ (match ?x with _ => _ end) => destruct x
    | _ => solve [auto with hu nocore]
    end.
  Ltac hu := repeat hu1.
  Ltac blind := apply hu_blind; [intros s D O; cbn; first [done|by destruct (_ !! _)]|intros s; cbn; first [done|by destruct (_ !! _)]].

  Lemma hu_deref x o : sim x (deref o).
  Proof. unfold deref. hu. Qed.
  Local Hint Resolve hu_deref : hu.
  Lemma hu_getN x n : sim x (getN n).
  Proof. blind. Qed.
  Local Hint Resolve hu_getN : hu.
  Lemma hu_modN x n f : sim x (modN n f).
  Proof. blind. Qed.
  Local Hint Resolve hu_modN : hu.
  Lemma hu_getP x n : sim x (getP n).
  Proof. blind. Qed.
  Local Hint Resolve hu_getP : hu.
  Lemma hu_modP x n f : sim x (modP n f).
  Proof. blind. Qed.
  Local Hint Resolve hu_modP : hu.
  Lemma hu_getC x n : sim x (getC n).
  Proof. blind. Qed.
  Local Hint Resolve hu_getC : hu.
  Lemma hu_modC x n f : sim x (modC n f).
  Proof. blind. Qed.
  Local Hint Resolve hu_modC : hu.
  Lemma hu_getT x n : sim x (getT n).
  Proof. blind. Qed.
  Local Hint Resolve hu_getT : hu.
  Lemma hu_modT x n f : sim x (modT n f).
  Proof. blind. Qed.
  Local Hint Resolve hu_modT : hu.
  Lemma hu_getCache x : sim x getCache.
  Proof. blind. Qed.
  Local Hint Resolve hu_getCache : hu.
  Lemma hu_modCache x f : sim x (modCache f).
  Proof. blind. Qed.
  Local Hint Resolve hu_modCache : hu.
  Lemma hu_newNode x r : sim x (newNode r).
  Proof. blind. Qed.
  Local Hint Resolve hu_newNode : hu.
  Lemma hu_newTree x T : sim x (newTree T).
  Proof. blind. Qed.
  Local Hint Resolve hu_newTree : hu.
  Lemma hu_forM {A} x (l : list A) f : (∀ a, sim x (f a)) → sim x (forM l f).
  Proof. intros Hf. induction l; cbn [forM]; hu. Qed.
  Lemma hu_with_fuel {A} x (f : nat → M A) : (∀ n, sim x (f n)) → sim x (with_fuel f).
  Proof. intros Hf. apply hu_bind; [|done]. intros s. left. split; [|done]. intros D O HD _. cbn. by rewrite HD. Qed.
  Ltac hu ::= repeat first [hu1 | apply hu_forM; intros ? | apply hu_with_fuel; intros ?].
  Lemma hu_limit x (z : Z) : sim x (limit z).
  Proof. unfold limit. hu. Qed.
  Local Hint Resolve hu_limit : hu.
  Lemma hu_lift {A} x (m : lo A) : sim x (lift m).
  Proof. unfold lift. hu. Qed.
  Local Hint Resolve hu_lift : hu.
  Lemma hu_kvOf x (n : nid) : sim x (kvOf n).
  Proof. unfold kvOf. hu. Qed.
  Local Hint Resolve hu_kvOf : hu.
  Lemma hu_kvLen x (n : nid) : sim x (kvLen n).
  Proof. unfold kvLen. hu. Qed.
  Local Hint Resolve hu_kvLen : hu.
  Lemma hu_kvGet x (n : nid) (i : Z) : sim x (kvGet n i).
  Proof. unfold kvGet. hu. Qed.
  Local Hint Resolve hu_kvGet : hu.
  Lemma hu_kvSet x (n : nid) (t : llrb) : sim x (kvSet n t).
  Proof. unfold kvSet. hu. Qed.
  Local Hint Resolve hu_kvSet : hu.
  Lemma hu_kvPut x (n : nid) (k : K) (v : bval) : sim x (kvPut cb n k v).
  Proof. unfold kvPut. hu. Qed.
  Local Hint Resolve hu_kvPut : hu.
  Lemma hu_kvPut_ x (n : nid) (k : K) (v : bval) : sim x (kvPut_ cb n k v).
  Proof. unfold kvPut_. hu. Qed.
  Local Hint Resolve hu_kvPut_ : hu.
  Lemma hu_kvDelIndex x (n : nid) (i : Z) : sim x (kvDelIndex cb n i).
  Proof. unfold kvDelIndex. hu. Qed.
  Local Hint Resolve hu_kvDelIndex : hu.
  Lemma hu_kvDelKey x (n : nid) (k : K) : sim x (kvDelKey cb n k).
  Proof. unfold kvDelKey. hu. Qed.
  Local Hint Resolve hu_kvDelKey : hu.
  Lemma hu_kvBisectLeft x (n : nid) (k : K) : sim x (kvBisectLeft cb n k).
  Proof. unfold kvBisectLeft. hu. Qed.
  Local Hint Resolve hu_kvBisectLeft : hu.
  Lemma hu_kvBisectRight x (n : nid) (k : K) : sim x (kvBisectRight cb n k).
  Proof. unfold kvBisectRight. hu. Qed.
  Local Hint Resolve hu_kvBisectRight : hu.
  Lemma hu_kvGetKey x (n : nid) (k : K) : sim x (kvGetKey cb n k).
  Proof. unfold kvGetKey. hu. Qed.
  Local Hint Resolve hu_kvGetKey : hu.
  Lemma hu_compareM x (a b : K) : sim x (compareM cb a b).
  Proof. unfold compareM. hu. Qed.
  Local Hint Resolve hu_compareM : hu.
  Lemma hu_asNode x (v : bval) : sim x (asNode v).
  Proof. unfold asNode. hu. Qed.
  Local Hint Resolve hu_asNode : hu.
  Lemma hu_logicOk x (b : bool) : sim x (logicOk b).
  Proof. unfold logicOk. hu. Qed.
  Local Hint Resolve hu_logicOk : hu.
  Lemma hu_logicSome {A} x (o : option A) : sim x (logicSome o).
  Proof. unfold logicSome. hu. Qed.
  Local Hint Resolve hu_logicSome : hu.
  Lemma hu_getQ x (d : bool) : sim x (getQ d).
  Proof. unfold getQ. hu. Qed.
  Local Hint Resolve hu_getQ : hu.
  Lemma hu_modQ x (d : bool) (f : lruq → lruq) : sim x (modQ d f).
  Proof. unfold modQ. hu. Qed.
  Local Hint Resolve hu_modQ : hu.
  Lemma hu_putNext x (p : option nid) (o : option nid) : sim x (putNext p o).
  Proof. unfold putNext. hu. Qed.
  Local Hint Resolve hu_putNext : hu.
  Lemma hu_putPrev x (p : option nid) (o : option nid) : sim x (putPrev p o).
  Proof. unfold putPrev. hu. Qed.
  Local Hint Resolve hu_putPrev : hu.
  Lemma hu_lruAppend x (d : bool) (n : nid) : sim x (lruAppend d n).
  Proof. unfold lruAppend. hu. Qed.
  Local Hint Resolve hu_lruAppend : hu.
  Lemma hu_lruToTail x (d : bool) (n : nid) : sim x (lruToTail d n).
  Proof. unfold lruToTail. hu. Qed.
  Local Hint Resolve hu_lruToTail : hu.
  Lemma hu_lruTake x (d : bool) (n : nid) : sim x (lruTake d n).
  Proof. unfold lruTake. hu. Qed.
  Local Hint Resolve hu_lruTake : hu.
  Lemma hu_lruGive x (d : bool) (n : nid) : sim x (lruGive d n).
  Proof. unfold lruGive. hu. Qed.
  Local Hint Resolve hu_lruGive : hu.
  Lemma hu_lruRemove x (d : bool) (n : nid) : sim x (lruRemove d n).
  Proof. unfold lruRemove. hu. Qed.
  Local Hint Resolve hu_lruRemove : hu.
  Lemma hu_whenCache x t m : sim x m → sim x (whenCache t m).
  Proof. intros. unfold whenCache. hu. Qed.
  Ltac hu ::= repeat first [hu1 | apply hu_forM; intros ? | apply hu_with_fuel; intros ? | apply hu_whenCache].
  Lemma hu_initNodeAsEvicted x (t : tid) (n : nid) : sim x (initNodeAsEvicted t n).
  Proof. unfold initNodeAsEvicted. hu. Qed.
  Local Hint Resolve hu_initNodeAsEvicted : hu.
  Lemma hu_incCacheHits x (t : tid) : sim x (incCacheHits t).
  Proof. unfold incCacheHits. hu. Qed.
  Local Hint Resolve hu_incCacheHits : hu.
  Lemma hu_incCacheMisses x (t : tid) : sim x (incCacheMisses t).
  Proof. unfold incCacheMisses. hu. Qed.
  Local Hint Resolve hu_incCacheMisses : hu.
  Lemma hu_markNodeUsed x (t : tid) (n : nid) : sim x (markNodeUsed t n).
  Proof. unfold markNodeUsed. hu. Qed.
  Local Hint Resolve hu_markNodeUsed : hu.
  Lemma hu_kickDrainer x (needClean : bool) : sim x (kickDrainer needClean).
  Proof. unfold kickDrainer. hu. Qed.
  Local Hint Resolve hu_kickDrainer : hu.
  Lemma hu_markNodeClean x (t : tid) (n : nid) : sim x (markNodeClean t n).
  Proof. unfold markNodeClean. hu. Qed.
  Local Hint Resolve hu_markNodeClean : hu.
  Lemma hu_placeNodeOnStale x (t : tid) (n : nid) : sim x (placeNodeOnStale t n).
  Proof. unfold placeNodeOnStale. hu. Qed.
  Local Hint Resolve hu_placeNodeOnStale : hu.
  Lemma hu_markNodeDirty x (t : tid) (n : nid) : sim x (markNodeDirty t n).
  Proof. unfold markNodeDirty. hu. Qed.
  Local Hint Resolve hu_markNodeDirty : hu.
  Lemma hu_markNodeEvicted x (t : tid) (n : nid) : sim x (markNodeEvicted t n).
  Proof. unfold markNodeEvicted. hu. Qed.
  Local Hint Resolve hu_markNodeEvicted : hu.
  Lemma hu_markNodeToBeDiscarded x (t : tid) (n : nid) : sim x (markNodeToBeDiscarded t n).
  Proof. unfold markNodeToBeDiscarded. hu. Qed.
  Local Hint Resolve hu_markNodeToBeDiscarded : hu.
  Lemma hu_arrangeRec x : ∀ (fuel : nat) (slice : list nid), sim x (arrangeRec fuel slice).
  Proof. intros fuel. induction fuel as [|? IH]; intros; cbn [arrangeRec]; hu. Qed.
  Local Hint Resolve hu_arrangeRec : hu.
  Lemma hu_arrangeInit x : ∀ (n : nid) (ix : list Z), sim x (arrangeInit n ix).
  Proof. intros n ix. induction ix as [|? ? IH] || induction ix as [|? IH]; intros; cbn [arrangeInit]; hu. Qed.
  Local Hint Resolve hu_arrangeInit : hu.
  Lemma hu_arrangePrefixSumTree x (n : nid) : sim x (arrangePrefixSumTree n).
  Proof. unfold arrangePrefixSumTree. hu. Qed.
  Local Hint Resolve hu_arrangePrefixSumTree : hu.
  Lemma hu_rearrangeToRoot x : ∀ (fuel : nat) (t : tid) (n : nid), sim x (rearrangeToRoot fuel t n).
  Proof. intros fuel. induction fuel as [|? IH]; intros; cbn [rearrangeToRoot]; hu. Qed.
  Local Hint Resolve hu_rearrangeToRoot : hu.
  Lemma hu_bumpLoop x : ∀ (fuel : nat) (n : nid) (delta : Z), sim x (bumpLoop fuel n delta).
  Proof. intros fuel. induction fuel as [|? IH]; intros; cbn [bumpLoop]; hu. Qed.
  Local Hint Resolve hu_bumpLoop : hu.
  Lemma hu_updateRec x : ∀ (fuel0 fuel : nat) (t : tid) (n : nid) (delta : Z), sim x (updateRec fuel0 fuel t n delta).
  Proof. intros fuel0 fuel. induction fuel as [|? IH]; intros; cbn [updateRec]; hu. Qed.
  Local Hint Resolve hu_updateRec : hu.
  Lemma hu_updatePrefixSumTreeLeafToRoot x (fuel : nat) (t : tid) (n : nid) : sim x (updatePrefixSumTreeLeafToRoot fuel t n).
  Proof. unfold updatePrefixSumTreeLeafToRoot. hu. Qed.
  Local Hint Resolve hu_updatePrefixSumTreeLeafToRoot : hu.
  (** the two callbacks *)
  Lemma hu_GetNode {A} l (f : bytes → M A) : sim false (bind (GetNode l) f).
  Proof.
    intros s. right. split; [done|]. exists l. intros D O HD HP Hl HO. rewrite run_bind. cbn. destruct (HO (iocount s)) as [-> ->]. rewrite Hl. eauto.
  Qed.
  Lemma hu_DiscardNode l : sim false (DiscardNode l).
  Proof.
    intros s. right. split; [done|]. exists l. intros D O HD HP Hl HO. cbn. destruct (HO (iocount s)) as [-> ->]. rewrite Hl. eauto.
  Qed.
  Local Hint Resolve hu_DiscardNode : hu.
  Lemma hu_loadNode t n : sim false (loadNode cb t n).
  Proof. unfold loadNode. apply hu_bind; [hu|]. intros r. apply hu_GetNode. Qed.
  Local Hint Resolve hu_loadNode : hu.
  Lemma hu_asUser x (v : bval) : sim x (asUser v).
  Proof. unfold asUser. hu. Qed.
  Local Hint Resolve hu_asUser : hu.
  Lemma hu_forChildren x n f : (∀ c, sim x (f c)) → sim x (forChildren n f).
  Proof. intros. unfold forChildren. hu. Qed.
  Lemma hu_forLeft x n f : (∀ c, sim x (f c)) → sim x (forLeft n f).
  Proof. intros. unfold forLeft. hu. Qed.
  Ltac hu ::= repeat first [hu1 | apply hu_forM; intros ? | apply hu_with_fuel; intros ? | apply hu_whenCache | apply hu_forChildren; intros ? | apply hu_forLeft; intros ?].
  Lemma hu_evictNode x (t : tid) (n : nid) : sim x (evictNode t n).
  Proof. unfold evictNode. hu. Qed.
  Local Hint Resolve hu_evictNode : hu.
  Lemma hu_purgeNode x : ∀ (fuel : nat) (t : tid) (n : nid) (full : bool), sim x (purgeNode fuel t n full).
  Proof. intros fuel. induction fuel as [|? IH]; intros; cbn [purgeNode]; hu. Qed.
  Local Hint Resolve hu_purgeNode : hu.
  Lemma hu_visit (mark : bool) (t : tid) (n : nid) : sim false (visit cb mark t n).
  Proof. unfold visit. hu. Qed.
  Local Hint Resolve hu_visit : hu.
  Lemma hu_touchNode : ∀ (fuel : nat) (t : tid) (n : nid), sim false (touchNode cb fuel t n).
  Proof. intros fuel. induction fuel as [|? IH]; intros; cbn [touchNode]; hu. Qed.
  Local Hint Resolve hu_touchNode : hu.
  Lemma hu_touchLoadedNodeToRoot : ∀ (fuel : nat) (t : tid) (n : nid), sim false (touchLoadedNodeToRoot fuel t n).
  Proof. intros fuel. induction fuel as [|? IH]; intros; cbn [touchLoadedNodeToRoot]; hu. Qed.
  Local Hint Resolve hu_touchLoadedNodeToRoot : hu.
  Lemma hu_discardAll : ∀ fuel ls, sim false (discardAll fuel ls).
  Proof.
    induction fuel as [|fuel IH]; intros [|l0 ls]; cbn [discardAll]; hu. intros s. left. split; [|done]. intros D O _ HP. cbn. by rewrite HP.
  Qed.
  Local Hint Resolve hu_discardAll : hu.
  Lemma hu_updateLayoutReport : ∀ (fuel : nat) (t : tid) (n : nid) (rep : report), sim false (updateLayoutReport cb fuel t n rep).
  Proof.
    induction fuel as [|? IH]; intros; cbn [updateLayoutReport]; hu.
    match goal with |- sim _ (_ (range ?x) ?y) => generalize (range x); intros ix; generalize y end.
    induction ix; intros; hu.
  Qed.
  Local Hint Resolve hu_updateLayoutReport : hu.
  Lemma hu_splitLoop : ∀ (fuel : nat) (t : tid) (n m : nid) (len : Z), sim false (splitLoop cb fuel t n m len).
  Proof. intros fuel. induction fuel as [|? IH]; intros; cbn [splitLoop]; hu. Qed.
  Local Hint Resolve hu_splitLoop : hu.
  Lemma hu_insertHere : ∀ (fuel0 fuel : nat) (t : tid) (n : nid) (k : K) (v : bval), sim false (insertHere cb fuel0 fuel t n k v).
  Proof. intros fuel0 fuel. induction fuel as [|? IH]; intros; cbn [insertHere]; hu. Qed.
  Local Hint Resolve hu_insertHere : hu.
  Lemma hu_borrowLeft (t : tid) (n p l : nid) (pi len : Z) : sim false (borrowLeft cb t n p l pi len).
  Proof. unfold borrowLeft. hu. Qed.
  Local Hint Resolve hu_borrowLeft : hu.
  Lemma hu_borrowRight (t : tid) (n p q : nid) (pi : Z) : sim false (borrowRight cb t n p q pi).
  Proof. unfold borrowRight. hu. Qed.
  Local Hint Resolve hu_borrowRight : hu.
  Lemma hu_moveAll : ∀ (dst src : nid) (ix : list Z), sim false (moveAll cb dst src ix).
  Proof. intros dst src ix. induction ix as [|? ? IH] || induction ix as [|? IH]; intros; cbn [moveAll]; hu. Qed.
  Local Hint Resolve hu_moveAll : hu.
  Lemma hu_mergeNodes t dst src p si chk rec : sim false rec → sim false (mergeNodes cb t dst src p si chk rec).
  Proof. intros. unfold mergeNodes. hu. Qed.
  Ltac hu ::= repeat first [hu1 | apply hu_forM; intros ? | apply hu_with_fuel; intros ? | apply hu_whenCache | apply hu_forChildren; intros ? | apply hu_forLeft; intros ? | apply hu_mergeNodes].
  Lemma hu_leftSibling (t : tid) (p : nid) (pi : Z) : sim false (leftSibling cb t p pi).
  Proof. unfold leftSibling. hu. Qed.
  Local Hint Resolve hu_leftSibling : hu.
  Lemma hu_rightSibling (t : tid) (p : nid) (pi : Z) : sim false (rightSibling cb t p pi).
  Proof. unfold rightSibling. hu. Qed.
  Local Hint Resolve hu_rightSibling : hu.
  Lemma hu_rebalanceHere : ∀ (fuel : nat) (t : tid) (n : nid) (stack : list Z), sim false (rebalanceHere cb fuel t n stack).
  Proof. intros fuel. induction fuel as [|? IH]; intros; cbn [rebalanceHere]; hu. Qed.
  Local Hint Resolve hu_rebalanceHere : hu.
  Lemma hu_findChild (n : nid) (key : K) : sim false (findChild cb n key).
  Proof. unfold findChild. hu. Qed.
  Local Hint Resolve hu_findChild : hu.
  Lemma hu_descendKey : ∀ (fuel : nat) (mark : bool) (t : tid) (n : nid) (stack : list Z) (key : K), sim false (descendKey cb fuel mark t n stack key).
  Proof. intros fuel. induction fuel as [|? IH]; intros; cbn [descendKey]; hu. Qed.
  Local Hint Resolve hu_descendKey : hu.
  Lemma hu_leftSum (p : psrec) : sim false (leftSum p).
  Proof. unfold leftSum. hu. Qed.
  Local Hint Resolve hu_leftSum : hu.
  Lemma hu_climb : ∀ (fuel : nat) (c : nid) (acc : list bool), sim false (climb fuel c acc).
  Proof. intros fuel. induction fuel as [|? IH]; intros; cbn [climb]; hu. Qed.
  Local Hint Resolve hu_climb : hu.
  Lemma hu_unclimb : ∀ (c : nid) (stack : list bool) (delta : Z), sim false (unclimb c stack delta).
  Proof. intros c stack. revert c. induction stack as [|? ? IH]; intros; cbn [unclimb]; hu. Qed.
  Local Hint Resolve hu_unclimb : hu.
  Lemma hu_childOffset (fuel : nat) (n c : nid) (delta : Z) : sim false (childOffset fuel n c delta).
  Proof. unfold childOffset. hu. Qed.
  Local Hint Resolve hu_childOffset : hu.
  Lemma hu_descendBisect : ∀ (fuel0 fuel : nat) (t : tid) (n : nid) (delta : Z) (key : K), sim false (descendBisect cb fuel0 fuel t n delta key).
  Proof. intros fuel0 fuel. induction fuel as [|? IH]; intros; cbn [descendBisect]; hu. Qed.
  Local Hint Resolve hu_descendBisect : hu.
  Lemma hu_walkPs : ∀ (fuel : nat) (c : nid) (i : Z), sim false (walkPs fuel c i).
  Proof. intros fuel. induction fuel as [|? IH]; intros; cbn [walkPs]; hu. Qed.
  Local Hint Resolve hu_walkPs : hu.
  Lemma hu_descendIndex : ∀ (fuel0 fuel : nat) (mark : bool) (t : tid) (n : nid) (i : Z) (stack : list Z), sim false (descendIndex cb fuel0 fuel mark t n i stack).
  Proof. intros fuel0 fuel. induction fuel as [|? IH]; intros; cbn [descendIndex]; hu. Qed.
  Local Hint Resolve hu_descendIndex : hu.
  Lemma hu_rootOf (t : tid) : sim false (rootOf t).
  Proof. unfold rootOf. hu. Qed.
  Local Hint Resolve hu_rootOf : hu.
  Lemma hu_bt_BisectLeft (t : tid) (key : K) : sim false (bt_BisectLeft cb t key).
  Proof. unfold bt_BisectLeft. hu. Qed.
  Local Hint Resolve hu_bt_BisectLeft : hu.
  Lemma hu_bt_BisectRight (t : tid) (key : K) : sim false (bt_BisectRight cb t key).
  Proof. unfold bt_BisectRight. hu. Qed.
  Local Hint Resolve hu_bt_BisectRight : hu.
  Lemma hu_bt_DeleteByIndex (t : tid) (i : Z) : sim false (bt_DeleteByIndex cb t i).
  Proof. unfold bt_DeleteByIndex. hu. Qed.
  Local Hint Resolve hu_bt_DeleteByIndex : hu.
  Lemma hu_bt_DeleteByKey (t : tid) (key : K) : sim false (bt_DeleteByKey cb t key).
  Proof. unfold bt_DeleteByKey. hu. Qed.
  Local Hint Resolve hu_bt_DeleteByKey : hu.
  Lemma hu_bt_GetByIndex (t : tid) (i : Z) : sim false (bt_GetByIndex cb t i).
  Proof. unfold bt_GetByIndex. hu. Qed.
  Local Hint Resolve hu_bt_GetByIndex : hu.
  Lemma hu_bt_GetByKey (t : tid) (key : K) : sim false (bt_GetByKey cb t key).
  Proof. unfold bt_GetByKey. hu. Qed.
  Local Hint Resolve hu_bt_GetByKey : hu.
  Lemma hu_bt_Len (t : tid) : sim false (bt_Len cb t).
  Proof. unfold bt_Len. hu. Qed.
  Local Hint Resolve hu_bt_Len : hu.
  Lemma hu_bt_PatchByIndex (t : tid) (i : Z) (v : V) : sim false (bt_PatchByIndex cb t i v).
  Proof. unfold bt_PatchByIndex. hu. Qed.
  Local Hint Resolve hu_bt_PatchByIndex : hu.
  Lemma hu_bt_PatchByKey (t : tid) (key : K) (v : V) : sim false (bt_PatchByKey cb t key v).
  Proof. unfold bt_PatchByKey. hu. Qed.
  Local Hint Resolve hu_bt_PatchByKey : hu.
  Lemma hu_bt_Put (t : tid) (key : K) (v : V) : sim false (bt_Put cb t key v).
  Proof. unfold bt_Put. hu. Qed.
  Local Hint Resolve hu_bt_Put : hu.
  Lemma hu_bt_FetchLocation (t : tid) : sim false (bt_FetchLocation t).
  Proof. unfold bt_FetchLocation. hu. Qed.
  Local Hint Resolve hu_bt_FetchLocation : hu.
  Lemma hu_bt_FetchLayoutReport (t : tid) : sim false (bt_FetchLayoutReport cb t).
  Proof. unfold bt_FetchLayoutReport. hu. Qed.
  Local Hint Resolve hu_bt_FetchLayoutReport : hu.
  Lemma hu_dimLoop : ∀ (fuel : nat) (t : tid) (n : nid) (dim : dimensions), sim false (dimLoop cb fuel t n dim).
  Proof. intros fuel. induction fuel as [|? IH]; intros; cbn [dimLoop]; hu. Qed.
  Local Hint Resolve hu_dimLoop : hu.
  Lemma hu_bt_FetchDimensionsReport (t : tid) : sim false (bt_FetchDimensionsReport cb t).
  Proof. unfold bt_FetchDimensionsReport. hu. Qed.
  Local Hint Resolve hu_bt_FetchDimensionsReport : hu.
  Lemma hu_bt_Purge (t : tid) (full : bool) : sim false (bt_Purge t full).
  Proof. unfold bt_Purge. hu. Qed.
  Local Hint Resolve hu_bt_Purge : hu.
  Lemma hu_bt_Touch (t : tid) : sim false (bt_Touch cb t).
  Proof. unfold bt_Touch. hu. Qed.
  Local Hint Resolve hu_bt_Touch : hu.
  Lemma hu_bt_TouchItem (t : tid) (i : Z) : sim false (bt_TouchItem cb t i).
  Proof. unfold bt_TouchItem. hu. Qed.
  Local Hint Resolve hu_bt_TouchItem : hu.


  Lemma hu_bt_New (max : Z) (attach : bool) : sim false (bt_New max attach).
  Proof. unfold bt_New. hu. Qed.
  Local Hint Resolve hu_bt_New : hu.
  Lemma hu_validatePrefixSum : ∀ (fuel : nat) (o : option nid), sim false (validatePrefixSum fuel o).
  Proof. intros fuel. induction fuel as [|? IH]; intros; cbn [validatePrefixSum]; hu. Qed.
  Local Hint Resolve hu_validatePrefixSum : hu.
  Lemma hu_validateNode : ∀ (fuel0 fuel : nat) (t : tid) (n : nid), sim false (validateNode cb fuel0 fuel t n).
  Proof.
    intros fuel0. induction fuel as [|? IH]; intros; cbn [validateNode]; hu.
    all: match goal with |- sim _ (_ (range ?x) ?y) => generalize (range x); intros ix; generalize y end.
    all: induction ix; intros; hu.
  Qed.
  Local Hint Resolve hu_validateNode : hu.
  Lemma hu_bt_Validate (t : tid) : sim false (bt_Validate cb t).
  Proof. unfold bt_Validate. hu. Qed.
  Local Hint Resolve hu_bt_Validate : hu.
  Lemma hu_cache_UpdateLimits (low high : Z) : sim false (cache_UpdateLimits low high).
  Proof. unfold cache_UpdateLimits. hu. Qed.
  Local Hint Resolve hu_cache_UpdateLimits : hu.
  Lemma hu_drainerSelect  : sim false (drainerSelect).
  Proof. unfold drainerSelect. hu. Qed.
  Local Hint Resolve hu_drainerSelect : hu.
  Lemma hu_drainerEvict n : sim false (drainerEvict n).
  Proof.
    unfold drainerEvict. hu.
  Qed.
  Lemma hu_bt_call (t : tid) (c : call K V) : sim false (bt_call cb t c).
  Proof. unfold bt_call. hu. Qed.
  Local Hint Resolve hu_bt_call : hu.
  Lemma hu_prune t : sim false (pruneWhileLocked t).
  Proof. unfold pruneWhileLocked. hu. Qed.
  Local Hint Resolve hu_prune : hu.
  Lemma hu_bt_Prune t : sim false (bt_Prune t).
  Proof. unfold bt_Prune. hu. Qed.
  Local Hint Resolve hu_bt_Prune : hu.
  Definition unstored (c : cmd K V) : Prop := match c with Flush _ _ | Discard _ | Dump _ | OldTree _ _ => False | _ => True end.
  Lemma hu_exec c : unstored c → sim false (exec cb c).
  Proof. destruct c; cbn [unstored exec]; intros Hc; try done; hu. Qed.
End mute.

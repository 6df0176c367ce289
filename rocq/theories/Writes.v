(** * What Flush and Prune cost: one storage callback for each node

    Models no code. *)
From Coq Require Import ssreflect.
From stdpp Require Import prelude list gmap.
From iris.proofmode Require Import proofmode.
From Verif Require Import Spec SpecFacts Llrb BTree HProp Lru Wp Kv Codec Ghost Order PsTree Rep Load Search Update Plug Insert Borrow Merge Rebal Api Walk Touch Maint Report Open Pres Machine World Client Disk Picture Hist Seat History Footprint Cache.
From Verif Require Sample.
Open Scope Z_scope.

Section writes.
  Context {K V : Type}.
  Variable cb : callbacks K V.
  Notation st := (st K V).
  Notation M := (M K V).
  Notation bval := (bval V).
  Notation bnode := (bnode K V).
  Notation llrb := (tree K bval).
  Implicit Types s : st.

  (** one more block for each callback *)
  Definition even s s' : Prop := (iocount s ≤ iocount s' ∧ size (disk s') + iocount s = size (disk s) + iocount s')%nat.
  Definition evens {A} (m : M A) : Prop := ∀ s, match m s with ORet _ s' => even s s' | _ => True end.
  (** nothing is stored and no callback made, and errors leave it so *)
  Definition plain s s' : Prop := disk s' = disk s ∧ iocount s' = iocount s.
  Definition idles {A} (m : M A) : Prop := ∀ s, match m s with ORet _ s' | OErr _ s' => plain s s' | _ => True end.
  Lemma id_bind {A B} (m : M A) (f : A → M B) : idles m → (∀ a, idles (f a)) → idles (bind m f).
  Proof.
    intros Hm Hf s. rewrite run_bind. specialize (Hm s). destruct (m s) as [a s1|e s1|w s1]; try done.
    specialize (Hf a s1). destruct (f a s1), Hm; try done; destruct Hf; split; congruence.
  Qed.
  Lemma id_ret {A} (a : A) : idles (ret a).
  Proof. done. Qed.
  Lemma id_fail {A} e : idles (A:=A) (fail e).
  Proof. done. Qed.
  Lemma id_panic {A} : idles (A:=A) panic.
  Proof. done. Qed.
  Lemma id_nofuel {A} : idles (A:=A) nofuel.
  Proof. done. Qed.
  Lemma id_envbad {A} : idles (A:=A) envbad.
  Proof. done. Qed.
  Lemma id_ignoreErr m : idles m → idles (ignoreErr m).
  Proof. intros Hm s. cbn [run ignoreErr]. specialize (Hm s). by destruct (m s). Qed.
  Lemma id_atomic {A} (m : M A) : idles m → idles (atomic m).
  Proof. done. Qed.
  Create HintDb idl discriminated.
  Local Hint Resolve id_ret id_fail id_panic id_nofuel id_envbad : idl.
  Ltac evs := done.
  Ltac idl1 :=
    match goal with
    | |- idles (bind _ _) => apply id_bind; [|intros ?]
    | |- idles (ignoreErr _) => apply id_ignoreErr
    | |- idles (atomic _) => apply id_atomic
    | H : ∀ _, idles _ |- idles _ => apply H
    | H : idles _ |- idles _ => apply H
    | |- idles (match ?x with _ => _ end) => destruct x
    | _ => solve [auto with idl nocore]
    end.
  Ltac idl := repeat idl1.

  Lemma id_deref o : idles (deref o).
  Proof. unfold deref. idl. Qed.
  Local Hint Resolve id_deref : idl.
  Lemma id_getN n : idles (getN n).
  Proof. intros s. cbn. destruct (_ !! _); evs. Qed.
  Local Hint Resolve id_getN : idl.
  Lemma id_modN n f : idles (modN n f).
  Proof. intros s. cbn. destruct (_ !! _) eqn:E; [|evs]. evs. Qed.
  Local Hint Resolve id_modN : idl.
  Lemma id_getP n : idles (getP n).
  Proof. intros s. cbn. destruct (_ !! _); evs. Qed.
  Local Hint Resolve id_getP : idl.
  Lemma id_modP n f : idles (modP n f).
  Proof. intros s. cbn. destruct (_ !! _) eqn:E; [|evs]. evs. Qed.
  Local Hint Resolve id_modP : idl.
  Lemma id_getC n : idles (getC n).
  Proof. intros s. cbn. destruct (_ !! _); evs. Qed.
  Local Hint Resolve id_getC : idl.
  Lemma id_modC n f : idles (modC n f).
  Proof. intros s. cbn. destruct (_ !! _) eqn:E; [|evs]. evs. Qed.
  Local Hint Resolve id_modC : idl.
  Lemma id_getT n : idles (getT n).
  Proof. intros s. cbn. destruct (_ !! _); evs. Qed.
  Local Hint Resolve id_getT : idl.
  Lemma id_modT n f : idles (modT n f).
  Proof. intros s. cbn. destruct (_ !! _) eqn:E; [|evs]. evs. Qed.
  Local Hint Resolve id_modT : idl.
  Lemma id_getCache : idles getCache.
  Proof. intros s. evs. Qed.
  Local Hint Resolve id_getCache : idl.
  Lemma id_modCache f : idles (modCache f).
  Proof. intros s. evs. Qed.
  Local Hint Resolve id_modCache : idl.
  Lemma id_newNode r : idles (newNode r).
  Proof. intros s. evs. Qed.
  Local Hint Resolve id_newNode : idl.
  Lemma id_forM {A} (l : list A) f : (∀ a, idles (f a)) → idles (forM l f).
  Proof. intros Hf. induction l; cbn [forM]; idl. Qed.
  Lemma id_with_fuel {A} (f : nat → M A) : (∀ n, idles (f n)) → idles (with_fuel f).
  Proof. intros Hf. apply id_bind; [intros s; evs|done]. Qed.
  Ltac idl ::= repeat first [idl1 | apply id_forM; intros ? | apply id_with_fuel; intros ?].
  Lemma id_limit (z : Z) : idles (limit z).
  Proof. unfold limit. idl. Qed.
  Local Hint Resolve id_limit : idl.
  Lemma id_lift {A} (m : lo A) : idles (lift m).
  Proof. unfold lift. idl. Qed.
  Local Hint Resolve id_lift : idl.
  Lemma id_kvOf (n : nid) : idles (kvOf n).
  Proof. unfold kvOf. idl. Qed.
  Local Hint Resolve id_kvOf : idl.
  Lemma id_kvLen (n : nid) : idles (kvLen n).
  Proof. unfold kvLen. idl. Qed.
  Local Hint Resolve id_kvLen : idl.
  Lemma id_kvGet (n : nid) (i : Z) : idles (kvGet n i).
  Proof. unfold kvGet. idl. Qed.
  Local Hint Resolve id_kvGet : idl.
  Lemma id_kvSet (n : nid) (t : llrb) : idles (kvSet n t).
  Proof. unfold kvSet. idl. Qed.
  Local Hint Resolve id_kvSet : idl.
  Lemma id_kvPut (n : nid) (k : K) (v : bval) : idles (kvPut cb n k v).
  Proof. unfold kvPut. idl. Qed.
  Local Hint Resolve id_kvPut : idl.
  Lemma id_kvPut_ (n : nid) (k : K) (v : bval) : idles (kvPut_ cb n k v).
  Proof. unfold kvPut_. idl. Qed.
  Local Hint Resolve id_kvPut_ : idl.
  Lemma id_kvDelIndex (n : nid) (i : Z) : idles (kvDelIndex cb n i).
  Proof. unfold kvDelIndex. idl. Qed.
  Local Hint Resolve id_kvDelIndex : idl.
  Lemma id_kvDelKey (n : nid) (k : K) : idles (kvDelKey cb n k).
  Proof. unfold kvDelKey. idl. Qed.
  Local Hint Resolve id_kvDelKey : idl.
  Lemma id_kvBisectLeft (n : nid) (k : K) : idles (kvBisectLeft cb n k).
  Proof. unfold kvBisectLeft. idl. Qed.
  Local Hint Resolve id_kvBisectLeft : idl.
  Lemma id_kvBisectRight (n : nid) (k : K) : idles (kvBisectRight cb n k).
  Proof. unfold kvBisectRight. idl. Qed.
  Local Hint Resolve id_kvBisectRight : idl.
  Lemma id_kvGetKey (n : nid) (k : K) : idles (kvGetKey cb n k).
  Proof. unfold kvGetKey. idl. Qed.
  Local Hint Resolve id_kvGetKey : idl.
  Lemma id_compareM (a b : K) : idles (compareM cb a b).
  Proof. unfold compareM. idl. Qed.
  Local Hint Resolve id_compareM : idl.
  Lemma id_asNode (v : bval) : idles (asNode v).
  Proof. unfold asNode. idl. Qed.
  Local Hint Resolve id_asNode : idl.
  Lemma id_logicOk (b : bool) : idles (logicOk b).
  Proof. unfold logicOk. idl. Qed.
  Local Hint Resolve id_logicOk : idl.
  Lemma id_logicSome {A} (o : option A) : idles (logicSome o).
  Proof. unfold logicSome. idl. Qed.
  Local Hint Resolve id_logicSome : idl.
  Lemma id_getQ (d : bool) : idles (getQ d).
  Proof. unfold getQ. idl. Qed.
  Local Hint Resolve id_getQ : idl.
  Lemma id_modQ (d : bool) (f : lruq → lruq) : idles (modQ d f).
  Proof. unfold modQ. idl. Qed.
  Local Hint Resolve id_modQ : idl.
  Lemma id_putNext (p : option nid) (o : option nid) : idles (putNext p o).
  Proof. unfold putNext. idl. Qed.
  Local Hint Resolve id_putNext : idl.
  Lemma id_putPrev (p : option nid) (o : option nid) : idles (putPrev p o).
  Proof. unfold putPrev. idl. Qed.
  Local Hint Resolve id_putPrev : idl.
  Lemma id_lruAppend (d : bool) (n : nid) : idles (lruAppend d n).
  Proof. unfold lruAppend. idl. Qed.
  Local Hint Resolve id_lruAppend : idl.
  Lemma id_lruToTail (d : bool) (n : nid) : idles (lruToTail d n).
  Proof. unfold lruToTail. idl. Qed.
  Local Hint Resolve id_lruToTail : idl.
  Lemma id_lruTake (d : bool) (n : nid) : idles (lruTake d n).
  Proof. unfold lruTake. idl. Qed.
  Local Hint Resolve id_lruTake : idl.
  Lemma id_lruGive (d : bool) (n : nid) : idles (lruGive d n).
  Proof. unfold lruGive. idl. Qed.
  Local Hint Resolve id_lruGive : idl.
  Lemma id_lruRemove (d : bool) (n : nid) : idles (lruRemove d n).
  Proof. unfold lruRemove. idl. Qed.
  Local Hint Resolve id_lruRemove : idl.
  Lemma id_whenCache t m : idles m → idles (whenCache t m).
  Proof. intros. unfold whenCache. idl. Qed.
  Ltac idl ::= repeat first [idl1 | apply id_forM; intros ? | apply id_with_fuel; intros ? | apply id_whenCache].
  Lemma id_initNodeAsEvicted (t : tid) (n : nid) : idles (initNodeAsEvicted t n).
  Proof. unfold initNodeAsEvicted. idl. Qed.
  Local Hint Resolve id_initNodeAsEvicted : idl.
  Lemma id_incCacheHits (t : tid) : idles (incCacheHits t).
  Proof. unfold incCacheHits. idl. Qed.
  Local Hint Resolve id_incCacheHits : idl.
  Lemma id_incCacheMisses (t : tid) : idles (incCacheMisses t).
  Proof. unfold incCacheMisses. idl. Qed.
  Local Hint Resolve id_incCacheMisses : idl.
  Lemma id_markNodeUsed (t : tid) (n : nid) : idles (markNodeUsed t n).
  Proof. unfold markNodeUsed. idl. Qed.
  Local Hint Resolve id_markNodeUsed : idl.
  Lemma id_kickDrainer (needClean : bool) : idles (kickDrainer needClean).
  Proof. unfold kickDrainer. idl. Qed.
  Local Hint Resolve id_kickDrainer : idl.
  Lemma id_markNodeClean (t : tid) (n : nid) : idles (markNodeClean t n).
  Proof. unfold markNodeClean. idl. Qed.
  Local Hint Resolve id_markNodeClean : idl.
  Lemma id_placeNodeOnStale (t : tid) (n : nid) : idles (placeNodeOnStale t n).
  Proof. unfold placeNodeOnStale. idl. Qed.
  Local Hint Resolve id_placeNodeOnStale : idl.
  Lemma id_markNodeDirty (t : tid) (n : nid) : idles (markNodeDirty t n).
  Proof. unfold markNodeDirty. idl. Qed.
  Local Hint Resolve id_markNodeDirty : idl.
  Lemma id_markNodeEvicted (t : tid) (n : nid) : idles (markNodeEvicted t n).
  Proof. unfold markNodeEvicted. idl. Qed.
  Local Hint Resolve id_markNodeEvicted : idl.
  Lemma id_markNodeToBeDiscarded (t : tid) (n : nid) : idles (markNodeToBeDiscarded t n).
  Proof. unfold markNodeToBeDiscarded. idl. Qed.
  Local Hint Resolve id_markNodeToBeDiscarded : idl.
  Lemma id_arrangeRec : ∀ (fuel : nat) (slice : list nid), idles (arrangeRec fuel slice).
  Proof. intros fuel. induction fuel as [|? IH]; intros; cbn [arrangeRec]; idl. Qed.
  Local Hint Resolve id_arrangeRec : idl.
  Lemma id_arrangeInit : ∀ (n : nid) (ix : list Z), idles (arrangeInit n ix).
  Proof. intros n ix. induction ix as [|? ? IH] || induction ix as [|? IH]; intros; cbn [arrangeInit]; idl. Qed.
  Local Hint Resolve id_arrangeInit : idl.
  Lemma id_arrangePrefixSumTree (n : nid) : idles (arrangePrefixSumTree n).
  Proof. unfold arrangePrefixSumTree. idl. Qed.
  Local Hint Resolve id_arrangePrefixSumTree : idl.
  Lemma id_rearrangeToRoot : ∀ (fuel : nat) (t : tid) (n : nid), idles (rearrangeToRoot fuel t n).
  Proof. intros fuel. induction fuel as [|? IH]; intros; cbn [rearrangeToRoot]; idl. Qed.
  Local Hint Resolve id_rearrangeToRoot : idl.
  Lemma id_bumpLoop : ∀ (fuel : nat) (n : nid) (delta : Z), idles (bumpLoop fuel n delta).
  Proof. intros fuel. induction fuel as [|? IH]; intros; cbn [bumpLoop]; idl. Qed.
  Local Hint Resolve id_bumpLoop : idl.
  Lemma id_updateRec : ∀ (fuel0 fuel : nat) (t : tid) (n : nid) (delta : Z), idles (updateRec fuel0 fuel t n delta).
  Proof. intros fuel0 fuel. induction fuel as [|? IH]; intros; cbn [updateRec]; idl. Qed.
  Local Hint Resolve id_updateRec : idl.
  Lemma id_updatePrefixSumTreeLeafToRoot (fuel : nat) (t : tid) (n : nid) : idles (updatePrefixSumTreeLeafToRoot fuel t n).
  Proof. unfold updatePrefixSumTreeLeafToRoot. idl. Qed.
  Local Hint Resolve id_updatePrefixSumTreeLeafToRoot : idl.
  Lemma id_packU64 (z : Z) : idles (packU64 z).
  Proof. unfold packU64. idl. Qed.
  Local Hint Resolve id_packU64 : idl.
  Lemma id_packKeyM (k : K) : idles (packKeyM cb k).
  Proof. unfold packKeyM. idl. Qed.
  Local Hint Resolve id_packKeyM : idl.
  Lemma id_packValM (v : V) : idles (packValM cb v).
  Proof. unfold packValM. idl. Qed.
  Local Hint Resolve id_packValM : idl.
  Lemma id_packRef (c : nid) : idles (packRef c).
  Proof. unfold packRef. idl. Qed.
  Local Hint Resolve id_packRef : idl.
  Lemma id_asUser (v : bval) : idles (asUser v).
  Proof. unfold asUser. idl. Qed.
  Local Hint Resolve id_asUser : idl.
  Lemma id_postLeaf : ∀ (n : nid) (ix : list Z), idles (postLeaf cb n ix).
  Proof. intros n ix. induction ix as [|? ? IH] || induction ix as [|? IH]; intros; cbn [postLeaf]; idl. Qed.
  Local Hint Resolve id_postLeaf : idl.
  Lemma id_postInner : ∀ (n : nid) (ix : list Z), idles (postInner cb n ix).
  Proof. intros n ix. induction ix as [|? ? IH] || induction ix as [|? IH]; intros; cbn [postInner]; idl. Qed.
  Local Hint Resolve id_postInner : idl.
  Lemma id_forChildren n f : (∀ c, idles (f c)) → idles (forChildren n f).
  Proof. intros. unfold forChildren. idl. Qed.
  Lemma id_forLeft n f : (∀ c, idles (f c)) → idles (forLeft n f).
  Proof. intros. unfold forLeft. idl. Qed.
  Ltac idl ::= repeat first [idl1 | apply id_forM; intros ? | apply id_with_fuel; intros ? | apply id_whenCache | apply id_forChildren; intros ? | apply id_forLeft; intros ?].
  Lemma id_evictNode (t : tid) (n : nid) : idles (evictNode t n).
  Proof. unfold evictNode. idl. Qed.
  Local Hint Resolve id_evictNode : idl.

  Lemma even_trans s1 s2 s3 : even s1 s2 → even s2 s3 → even s1 s3.
  Proof. unfold even. lia. Qed.
  Lemma ev_plain {A} (m : M A) : idles m → evens m.
  Proof. intros Hm s. specialize (Hm s). destruct (m s); try done. destruct Hm as [H1 H2]. unfold even. rewrite H1 H2. lia. Qed.
  Lemma ev_bind {A B} (m : M A) (f : A → M B) : evens m → (∀ a, evens (f a)) → evens (bind m f).
  Proof.
    intros Hm Hf s. rewrite run_bind. specialize (Hm s). destruct (m s) as [a s1|e s1|w s1]; try done.
    specialize (Hf a s1). destruct (f a s1); try done. by eapply even_trans.
  Qed.
  Lemma ev_forM {A} (l : list A) f : (∀ a, evens (f a)) → evens (forM l f).
  Proof. intros Hf. induction l; cbn [forM]; [apply ev_plain; idl|by apply ev_bind]. Qed.
  Lemma ev_PutNode b : evens (PutNode b).
  Proof.
    intros s. unfold PutNode, callback. cbn [run]. cbv zeta. destruct (ch_crash _); [done|]. destruct (ch_fail _); [done|].
    destruct (_ && _); [|done]. cbn [disk set_iocount]. destruct (disk s !! _) eqn:E; [done|]. split; cbn; [lia|]. rewrite map_size_insert_None //. lia.
  Qed.
  Lemma ev_postNode t n : evens (postNode cb t n).
  Proof.
    unfold postNode. repeat first [apply ev_bind; [first [apply ev_PutNode|apply ev_plain; solve [idl]]|intros ?]|case_match|apply ev_plain; solve [idl]].
  Qed.
  Lemma ev_flushNode : ∀ fuel t n ap, evens (flushNode cb fuel t n ap).
  Proof.
    induction fuel as [|fuel IH]; intros t n ap; cbn [flushNode]; [done|]. unfold forLeft, forChildren.
    repeat first [apply IH|apply ev_postNode|apply ev_forM; intros ?|apply ev_plain; solve [idl]|case_match|apply ev_bind; [|intros ?]].
  Qed.
  Lemma ev_flush t ap : evens (exec cb (Flush t ap)).
  Proof.
    cbn [exec]. apply ev_bind; [|intros; apply ev_plain; idl]. unfold bt_Flush, with_fuel. apply ev_bind; [by intros s; split; lia|]. intros fuel.
    apply ev_bind; [apply ev_plain; unfold rootOf; idl|intros rt]. apply ev_bind; [apply ev_flushNode|intros _; apply ev_plain; idl].
  Qed.

  Lemma discardAll_io : ∀ fuel ls0 s s', discardAll (K:=K) (V:=V) fuel ls0 s = ORet tt s' → iocount s' = (iocount s + length ls0)%nat.
  Proof.
    induction fuel as [|fuel IH]; intros [|l0 L] s s'; cbn [discardAll].
    1,3: by intros [= <-]; cbn; lia. { done. }
    rewrite run_bind. cbn [run]. set (i := Nat.modulo _ _). rewrite run_bind.
    assert (is_Some ((l0 :: L) !! i)) as [x Hi]. { apply lookup_lt_is_Some. subst i. apply Nat.mod_upper_bound. cbn. lia. }
    destruct (DiscardNode _ s) as [u s1|e s1|w s1] eqn:E; [|done..]. intros H%IH. rewrite H length_delete; [|rewrite Hi; by eexists].
    assert (iocount s1 = S (iocount s)) as ->.
    { revert E. unfold DiscardNode, callback. cbn [run]. destruct (ch_crash _); [done|]. destruct (ch_fail _); [done|]. cbn [disk set_iocount].
      destruct (disk s !! _); [|done]. by intros [= <- <-]. }
    cbn [length]. lia.
  Qed.
End writes.

Section counts.
  Context {K V : Type}.
  Variable cb : callbacks K V.
  Variable dom : K → Prop.
  Variable domV : V → Prop.
  Hypothesis WF : wf_cb cb dom domV.
  Notation cmp := (cb_cmp cb).
  Notation st := (st K V).
  Notation gt := (gt K V).
  Notation pictured := (pictured cb dom domV).
  Notation after := (after (K:=K) (V:=V) cmp).
  Notation history := (Sample.history cb dom domV).
  Implicit Types (s : st) (g : gt) (h : nat).

  Lemma dlocs_cnt (d : dt K V) : length (dlocs d) = cnt (dstrip d).
  Proof.
    revert d. fix IH 1. intros [l kvs|l ks ds]; [done|]. cbn. f_equal. induction ds as [|d ds IHd]; [done|].
    rewrite !fmap_cons. cbn. rewrite app_length IH IHd. done.
  Qed.
  (** every node is either stored or modified *)
  Lemma locs_cnt g : pend g = [] → (length (locs g) + length (loaded dirtyLRU g) = cnt (strip g))%nat.
  Proof.
    induction g as [n d|n st kvs|n st ks cs IH] using gt_ind'; intros Hp.
    - cbn. rewrite dlocs_cnt. lia.
    - by destruct st.
    - assert (stok st = true) as Hst by by cbn in Hp; unfold pst in Hp; destruct (stok st).
      cbn in Hp. unfold pst in Hp. rewrite Hst in Hp. cbn in Hp.
      assert (length (mjoin (locs <$> cs)) + length (mjoin (loaded dirtyLRU <$> cs)) = sum_list (cnt <$> (strip <$> cs)))%nat as HE.
      { clear -IH Hp. induction IH as [|c cs Hc _ IHc]; [done|]. rewrite !fmap_cons in Hp |- *. apply app_eq_nil in Hp as [Hp1 Hp2].
        change (length (locs c ++ mjoin (locs <$> cs)) + length (loaded dirtyLRU c ++ mjoin (loaded dirtyLRU <$> cs)) = cnt (strip c) + sum_list (cnt <$> (strip <$> cs)))%nat.
        rewrite !app_length -(Hc Hp1) -(IHc Hp2). lia. }
      change (cnt (strip (GI n st ks cs))) with (S (sum_list (cnt <$> (strip <$> cs)))). rewrite -HE.
      destruct st as [l| | | |]; try done.
      change (length (mjoin (locs <$> cs)) + length (tagged dirtyLRU n Dirty ++ mjoin (loaded dirtyLRU <$> cs)) = S (length (mjoin (locs <$> cs)) + length (mjoin (loaded dirtyLRU <$> cs))))%nat.
      unfold tagged. case_decide as Hd; [|by destruct Hd]. rewrite app_length. cbn. lia.
  Qed.

  Lemma made_len s s' : length (made s s') = (iocount s' - iocount s)%nat.
  Proof. unfold made. by rewrite fmap_length seq_length. Qed.
  (** Flush makes one callback for each modified node, and no other. *)
  Theorem flush_writes hi s t m mn ca S h g ap r s' : history hi s → contents (after hi) t = Some m → pictured s t mn ca S h g →
    exec cb (Flush t ap) s = ORet r s' → length (made s s') = length (loaded dirtyLRU g).
  Proof using WF.
    intros HH Hm HP He. destruct (flush_exact cb dom domV WF _ _ _ _ _ _ _ _ _ _ _ _ HH Hm HP He) as (g' & d & HP' & Hst & Him & _ & Hl & _ & H1 & H2 & H3 & H4).
    destruct (hist_pic cb dom domV WF _ _ _ _ _ _ _ _ _ HH Hm HP) as (i & f & lv & root & σ & σf & Hon & Hits & -> & HS).
    pose proof (seat_owns _ _ _ _ _ _ _ _ _ _ _ _ _ _ _ _ HS) as Ho. pose proof (ow_nodup _ _ _ _ _ Ho) as Hnd. apply NoDup_app in Hnd as (Hnd & _ & _).
    pose proof (locs_cnt g (tk_pend _ _ _ _ _ _ _ (se_ok _ _ _ _ _ _ _ _ _ _ _ _ _ _ _ _ HS))) as Hc.
    assert (length (locs g') = cnt (strip g)) as Hc'. { rewrite Hl dlocs_cnt -Hst (image_strip _ _ Him) //. }
    assert (NoDup (locs g')) as Hnd'. {
      assert (legal dom domV (after hi) (Flush t ap)) as Hl1 by by eapply legal_call.
      destruct (same_contents cb dom domV WF _ _ _ _ _ _ _ HH Hm Hl1 He I) as [HH2 Hm2].
      destruct (hist_pic cb dom domV WF _ _ _ _ _ _ _ _ _ HH2 Hm2 HP') as (i2 & f2 & lv2 & root2 & σ2 & σf2 & _ & _ & _ & HS2).
      pose proof (ow_nodup _ _ _ _ _ (seat_owns _ _ _ _ _ _ _ _ _ _ _ _ _ _ _ _ HS2)) as Hn. by apply NoDup_app in Hn as [? _]. }
    pose proof (ev_flush cb t ap s) as HE. rewrite He in HE. destruct HE as [E1 E2]. rewrite made_len.
    assert (size (disk s') = size (disk s) + (length (locs g') - length (locs g)))%nat as Hsz; [|lia].
    rewrite -!size_dom.
    assert (base.dom (disk s') = base.dom (disk s) ∪ (list_to_set (locs g') ∖ list_to_set (locs g))) as ->.
    { apply set_eq. intros l. rewrite elem_of_union elem_of_difference !elem_of_list_to_set !elem_of_dom.
      destruct (disk s !! l) as [b|] eqn:Hb.
      - split; [by left; eexists|]. intros _. rewrite (H1 _ _ Hb). by eexists.
      - rewrite (H2 _ Hb). split; [by right|]. intros [[? ?]|?]; done. }
    rewrite size_union.
    - rewrite size_difference; [by rewrite !size_list_to_set|]. intros l. rewrite !elem_of_list_to_set. apply H4.
    - intros l. rewrite elem_of_difference !elem_of_list_to_set elem_of_dom. intros Hs [Hin Hn]. by apply Hn, H3.
  Qed.
  Theorem prune_discards hi s t m mn ca S h g r s' : history hi s → contents (after hi) t = Some m → pictured s t mn ca S h g →
    exec cb (Prune t) s = ORet r s' → length (made s s') = length S.
  Proof using WF.
    intros HH Hm HP He. destruct (hist_pic cb dom domV WF _ _ _ _ _ _ _ _ _ HH Hm HP) as (i & f & lv & root & σ & σf & Hon & Hits & -> & HS).
    rewrite made_len. pose proof (pc_tree _ _ _ _ _ _ _ _ _ _ HP) as HT. revert He. cbn [exec]. unfold bt_Prune, pruneWhileLocked.
    rewrite !run_bind (_ : getT t s = ORet (Tree (Z.of_nat (mnof f)) (2 * Z.of_nat (mnof f)) (Some (gid g)) S ca) s); [|cbn; by rewrite HT].
    rewrite run_bind. cbn [t_stale]. destruct (discardAll _ _ s) as [[] s1|e s1|w s1] eqn:E; [|done..]. apply discardAll_io in E.
    cbn. destruct (trees s1 !! t); [|done]. intros [= <- <-]. cbn. lia.
  Qed.
End counts.

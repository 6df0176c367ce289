(** * Reading starts the drainer

    A call that reads or writes blocks and succeeds leaves the cache at most at
    its high limit, or the drainer running: in any state.  Models no code. *)
From Coq Require Import ssreflect.
From stdpp Require Import prelude list gmap.
From Verif Require Import Spec Llrb BTree Pres Machine Cache.
Open Scope Z_scope.

(** the cache holds at most as many nodes as its high limit, or the drainer runs *)
Definition drained {K V} (s : st K V) : Prop :=
  c_drainer (cache s) = true ∨ qitems (c_clean (cache s)) + qitems (c_dirty (cache s)) ≤ c_high (cache s).
(** tree [t] uses the cache *)
Definition cached {K V} (s : st K V) (t : tid) : Prop := ∃ T, trees s !! t = Some T ∧ t_cache T = true.

Section wake.
  Context {K V : Type}.
  Variable cb : callbacks K V.
  Variable t : tid.
  Notation st := (st K V).
  Notation M := (M K V).
  Notation bval := (bval V).
  Notation llrb := (tree K bval).
  Implicit Types s : st.

  (** what [m] does to a cached tree: it stays one; *)
  Definition stays {A} (m : M A) : Prop := ∀ s, cached s t → cached (stof (m s)) t.
  (** makes no callback and leaves the cache drained if it was; *)
  Definition quiets {A} (m : M A) : Prop := ∀ s, cached s t →
    cached (stof (m s)) t ∧ iocount (stof (m s)) = iocount s ∧ (drained s → drained (stof (m s))).
  (** leaves the cache drained if it returns; *)
  Definition ends {A} (m : M A) : Prop := ∀ s, cached s t →
    cached (stof (m s)) t ∧ match m s with ORet _ s' => drained s' | _ => True end.
  (** leaves it drained if it returns and it was, or there was a callback *)
  Definition wakes {A} (m : M A) : Prop := ∀ s, cached s t →
    cached (stof (m s)) t ∧ match m s with ORet _ s' => (drained s → drained s') ∧ (iocount s' = iocount s ∨ drained s') | _ => True end.

  Lemma qu_st {A} (m : M A) : quiets m → stays m.
  Proof. intros H s Hs. apply (H s Hs). Qed.
  Lemma wa_st {A} (m : M A) : wakes m → stays m.
  Proof. intros H s Hs. apply (H s Hs). Qed.
  Lemma en_wa {A} (m : M A) : ends m → wakes m.
  Proof. intros H s Hs. destruct (H s Hs) as [? Hm]. split; [done|]. destruct (m s); [|done..]. split; [done|by right]. Qed.
  Lemma qu_wa {A} (m : M A) : quiets m → wakes m.
  Proof. intros H s Hs. destruct (H s Hs) as (? & ? & ?). split; [done|]. destruct (m s); [|done..]. split; [done|by left]. Qed.

  Lemma st_bind {A B} (m : M A) (f : A → M B) : stays m → (∀ a, stays (f a)) → stays (bind m f).
  Proof. intros Hm Hf s Hs. unfold bind; cbn [run]. specialize (Hm s Hs). destruct (m s) as [a s1|e s1|w s1]; try done. by apply Hf. Qed.
  Lemma qu_bind {A B} (m : M A) (f : A → M B) : quiets m → (∀ a, quiets (f a)) → quiets (bind m f).
  Proof.
    intros Hm Hf s Hs. unfold bind; cbn [run]. specialize (Hm s Hs). destruct (m s) as [a s1|e s1|w s1]; try done.
    destruct Hm as (H1 & H2 & H3). destruct (Hf a s1 H1) as (H4 & H5 & H6). cbn in *. split_and!; [done|congruence|by auto].
  Qed.
  Lemma en_bind {A B} (m : M A) (f : A → M B) : stays m → (∀ a, ends (f a)) → ends (bind m f).
  Proof. intros Hm Hf s Hs. unfold bind; cbn [run]. specialize (Hm s Hs). destruct (m s) as [a s1|e s1|w s1]; try done. by apply Hf. Qed.
  Lemma wa_bind {A B} (m : M A) (f : A → M B) : wakes m → (∀ a, wakes (f a)) → wakes (bind m f).
  Proof.
    intros Hm Hf s Hs. unfold bind; cbn [run]. specialize (Hm s Hs). destruct (m s) as [a s1|e s1|w s1]; try done.
    destruct Hm as (H1 & H2 & H3). destruct (Hf a s1 H1) as (H4 & H5). cbn in *. split; [done|]. destruct (run (f a) s1); [|done..].
    destruct H5 as [H5 H6]. split; [by auto|]. destruct H6 as [->|]; [|by right]. destruct H3; [by left|right; by apply H5].
  Qed.
  Lemma qu_ret {A} (a : A) : quiets (ret a).
  Proof. by intros s Hs. Qed.
  Lemma qu_fail {A} e : quiets (A:=A) (fail e).
  Proof. by intros s Hs. Qed.
  Lemma qu_panic {A} : quiets (A:=A) panic.
  Proof. by intros s Hs. Qed.
  Lemma qu_nofuel {A} : quiets (A:=A) nofuel.
  Proof. by intros s Hs. Qed.
  Lemma qu_envbad {A} : quiets (A:=A) envbad.
  Proof. by intros s Hs. Qed.
  Lemma en_fail {A} e : ends (A:=A) (fail e).
  Proof. by intros s Hs. Qed.
  Lemma en_panic {A} : ends (A:=A) panic.
  Proof. by intros s Hs. Qed.
  Lemma qu_try {A} (m : M A) h : quiets m → (∀ e, quiets (h e)) → quiets (Try m h).
  Proof.
    intros Hm Hh s Hs. cbn [run]. specialize (Hm s Hs). destruct (m s) as [a s1|e s1|w s1]; try done.
    destruct Hm as (H1 & H2 & H3). destruct (Hh e s1 H1) as (H4 & H5 & H6). cbn in *. split_and!; [done|congruence|by auto].
  Qed.
  Lemma qu_ignoreErr m : quiets m → quiets (ignoreErr m).
  Proof. intros Hm. apply qu_try; [done|]. intros. apply qu_ret. Qed.
  Lemma qu_atomic {A} (m : M A) : quiets m → quiets (atomic m).
  Proof. done. Qed.
  Lemma st_atomic {A} (m : M A) : stays m → stays (atomic m).
  Proof. done. Qed.
  Lemma en_atomic {A} (m : M A) : ends m → ends (atomic m).
  Proof. done. Qed.
  Create HintDb ls discriminated.
  Local Hint Resolve qu_ret qu_fail qu_panic qu_nofuel qu_envbad en_fail en_panic : ls.
  Local Hint Extern 8 (stays _) => (apply qu_st) : ls.

  Ltac ls1 :=
    match goal with
    | |- quiets (bind _ _) => apply qu_bind; [|intros ?]
    | |- stays (bind _ _) => apply st_bind; [|intros ?]
    | |- ends (bind _ _) => apply en_bind; [|intros ?]
    | |- wakes (bind _ _) => apply wa_bind; [|intros ?]
    | |- quiets (ignoreErr _) => apply qu_ignoreErr
    | |- quiets (atomic _) => apply qu_atomic
    | |- stays (atomic _) => apply st_atomic
    | |- ends (atomic _) => apply en_atomic
    | |- stays (ignoreErr _) => apply qu_st
    | |- quiets (Try _ _) => apply qu_try; [|intros ?]
    | H : ∀ _, quiets _ |- quiets _ => apply H
    | H : ∀ _, wakes _ |- wakes _ => apply H
    | H : ∀ _, stays _ |- stays _ => apply H
    | H : quiets _ |- quiets _ => apply H
    | H : wakes _ |- wakes _ => apply H
    | H : stays _ |- stays _ => apply H
    | |- quiets (match ?x with _ => _ end) => destruct x
    | |- stays (match ?x with _ => _ end) => destruct x
    | |- ends (match ?x with _ => _ end) => destruct x
    | |- wakes (match ?x with _ => _ end) => destruct x
    | |- wakes _ => solve [auto with ls nocore | apply qu_wa; auto with ls nocore | apply en_wa; auto with ls nocore]
    | _ => solve [auto with ls nocore]
    end.
  Ltac ls := repeat ls1.

  Lemma qu_deref o : quiets (deref o).
  Proof. unfold deref. ls. Qed.
  Local Hint Resolve qu_deref : ls.
  Lemma qu_getN n : quiets (getN n).
  Proof. intros s Hs. cbn. by destruct (_ !! _). Qed.
  Local Hint Resolve qu_getN : ls.
  Lemma qu_getP n : quiets (getP n).
  Proof. intros s Hs. cbn. by destruct (_ !! _). Qed.
  Local Hint Resolve qu_getP : ls.
  Lemma qu_getC n : quiets (getC n).
  Proof. intros s Hs. cbn. by destruct (_ !! _). Qed.
  Local Hint Resolve qu_getC : ls.
  Lemma qu_getT n : quiets (getT n).
  Proof. intros s Hs. cbn. by destruct (_ !! _). Qed.
  Local Hint Resolve qu_getT : ls.
  Lemma qu_modN n f : quiets (modN n f).
  Proof. intros s Hs. cbn. by destruct (_ !! _). Qed.
  Local Hint Resolve qu_modN : ls.
  Lemma qu_modP n f : quiets (modP n f).
  Proof. intros s Hs. cbn. by destruct (_ !! _). Qed.
  Local Hint Resolve qu_modP : ls.
  Lemma qu_modC n f : quiets (modC n f).
  Proof. intros s Hs. cbn. by destruct (_ !! _). Qed.
  Local Hint Resolve qu_modC : ls.
  Lemma qu_modT n f : (∀ T, t_cache (f T) = t_cache T) → quiets (modT n f).
  Proof.
    intros Hf s Hs. cbn. destruct (trees s !! n) as [T|] eqn:E; [|done]. split_and!; try done. destruct Hs as (T' & HT & Hc). destruct (decide (n = t)) as [->|Hne].
    - exists (f T). cbn. rewrite lookup_insert. split; [done|]. rewrite Hf. congruence.
    - exists T'. cbn. by rewrite lookup_insert_ne.
  Qed.
  Local Hint Extern 1 (quiets (modT _ _)) => (apply qu_modT; intros []; reflexivity) : ls.
  Lemma qu_getCache : quiets (getCache).
  Proof. by intros s Hs. Qed.
  Local Hint Resolve qu_getCache : ls.
  (** the number of nodes does not grow, the drainer does not stop *)
  Lemma qu_modCache f : (∀ c, c_drainer (f c) = c_drainer c ∧ c_high (f c) = c_high c ∧ qitems (c_clean (f c)) + qitems (c_dirty (f c)) ≤ qitems (c_clean c) + qitems (c_dirty c)) → quiets (modCache f).
  Proof. intros Hf s Hs. cbn. destruct (Hf (cache s)) as (H1 & H2 & H3). split_and!; [done..|]. unfold drained. cbn. rewrite H1 H2. intros [?|?]; [by left|right; lia]. Qed.
  Local Hint Extern 1 (quiets (modCache _)) => (apply qu_modCache; intros []; cbn; split_and!; [reflexivity|reflexivity|lia]) : ls.
  Lemma st_modCache f : stays (modCache f).
  Proof. by intros s Hs. Qed.
  Local Hint Resolve st_modCache : ls.
  Lemma qu_newNode r : quiets (newNode r).
  Proof. by intros s Hs. Qed.
  Local Hint Resolve qu_newNode : ls.
  Lemma qu_forM {A} (l : list A) f : (∀ a, quiets (f a)) → quiets (forM l f).
  Proof. intros Hf. induction l; cbn [forM]; ls. Qed.
  Lemma wa_forM {A} (l : list A) f : (∀ a, wakes (f a)) → wakes (forM l f).
  Proof. intros Hf. induction l; cbn [forM]; ls. Qed.
  Lemma wa_with_fuel {A} (f : nat → M A) : (∀ n, wakes (f n)) → wakes (with_fuel f).
  Proof. intros Hf. apply wa_bind; [|done]. apply qu_wa. by intros s Hs. Qed.
  Ltac ls ::= repeat first [ls1 | apply qu_forM; intros ? | apply wa_forM; intros ? | apply wa_with_fuel; intros ?].
  Lemma st_callback {A} (f : choice → st → out K V A) : (∀ c s, cached s t → cached (stof (f c s)) t) → stays (callback f).
  Proof. intros Hf s Hs. cbn. destruct (ch_crash _); [done|]. destruct (ch_fail _); [done|]. by apply Hf. Qed.
  Lemma st_GetNode l : stays (GetNode l).
  Proof. apply st_callback. intros c s Hs. by destruct (_ !! _). Qed.
  Local Hint Resolve st_GetNode : ls.
  Lemma st_PutNode b : stays (PutNode b).
  Proof. apply st_callback. intros c s Hs. cbv zeta. destruct (_ && _); [|done]. by destruct (disk s !! _). Qed.
  Local Hint Resolve st_PutNode : ls.
  Lemma qu_limit (z : Z) : quiets (limit z).
  Proof. unfold limit. ls. Qed.
  Local Hint Resolve qu_limit : ls.
  Lemma qu_lift {A} (m : lo A) : quiets (lift m).
  Proof. unfold lift. ls. Qed.
  Local Hint Resolve qu_lift : ls.
  Lemma qu_kvOf (n : nid) : quiets (kvOf n).
  Proof. unfold kvOf. ls. Qed.
  Local Hint Resolve qu_kvOf : ls.
  Lemma qu_kvLen (n : nid) : quiets (kvLen n).
  Proof. unfold kvLen. ls. Qed.
  Local Hint Resolve qu_kvLen : ls.
  Lemma qu_kvGet n i : quiets (kvGet n i).
  Proof. unfold kvGet. ls. Qed.
  Local Hint Resolve qu_kvGet : ls.
  Lemma qu_kvSet n (x : llrb) : quiets (kvSet n x).
  Proof. unfold kvSet. ls. Qed.
  Local Hint Resolve qu_kvSet : ls.
  Lemma qu_kvPut n k (v : bval) : quiets (kvPut cb n k v).
  Proof. unfold kvPut. ls. Qed.
  Local Hint Resolve qu_kvPut : ls.
  Lemma qu_kvPut_ n k (v : bval) : quiets (kvPut_ cb n k v).
  Proof. unfold kvPut_. ls. Qed.
  Local Hint Resolve qu_kvPut_ : ls.
  Lemma qu_kvBisectLeft n k : quiets (kvBisectLeft cb n k).
  Proof. unfold kvBisectLeft. ls. Qed.
  Local Hint Resolve qu_kvBisectLeft : ls.
  Lemma qu_kvBisectRight n k : quiets (kvBisectRight cb n k).
  Proof. unfold kvBisectRight. ls. Qed.
  Local Hint Resolve qu_kvBisectRight : ls.
  Lemma qu_kvGetKey n k : quiets (kvGetKey cb n k).
  Proof. unfold kvGetKey. ls. Qed.
  Local Hint Resolve qu_kvGetKey : ls.
  Lemma qu_compareM (a b : K) : quiets (compareM cb a b).
  Proof. unfold compareM. ls. Qed.
  Local Hint Resolve qu_compareM : ls.
  Lemma qu_asNode (v : bval) : quiets (asNode v).
  Proof. unfold asNode. ls. Qed.
  Local Hint Resolve qu_asNode : ls.
  Lemma qu_logicOk b : quiets (logicOk b).
  Proof. unfold logicOk. ls. Qed.
  Local Hint Resolve qu_logicOk : ls.
  Lemma qu_logicSome {A} (o : option A) : quiets (logicSome o).
  Proof. unfold logicSome. ls. Qed.
  Local Hint Resolve qu_logicSome : ls.
  Lemma qu_getQ d : quiets (getQ d).
  Proof. unfold getQ. ls. Qed.
  Local Hint Resolve qu_getQ : ls.
  Lemma qu_modQ d f : (∀ q, qitems (f q) ≤ qitems q) → quiets (modQ d f).
  Proof. intros Hf. unfold modQ. apply qu_modCache. intros []. destruct d; cbn; split_and!; try done; match goal with |- context[f ?q] => pose proof (Hf q) end; lia. Qed.
  Local Hint Extern 1 (quiets (modQ _ _)) => (apply qu_modQ; intros []; cbn; lia) : ls.
  Lemma st_modQ d f : stays (modQ d f).
  Proof. unfold modQ. ls. Qed.
  Local Hint Resolve st_modQ : ls.
  Lemma qu_putNext p o : quiets (putNext p o).
  Proof. unfold putNext. ls. Qed.
  Local Hint Resolve qu_putNext : ls.
  Lemma qu_putPrev p o : quiets (putPrev p o).
  Proof. unfold putPrev. ls. Qed.
  Local Hint Resolve qu_putPrev : ls.
  Lemma qu_lruToTail d n : quiets (lruToTail d n).
  Proof. unfold lruToTail. ls. Qed.
  Local Hint Resolve qu_lruToTail : ls.
  Lemma qu_lruRemove d n : quiets (lruRemove d n).
  Proof. unfold lruRemove. ls. Qed.
  Local Hint Resolve qu_lruRemove : ls.
  Lemma st_lruAppend d n : stays (lruAppend d n).
  Proof. unfold lruAppend. ls. Qed.
  Local Hint Resolve st_lruAppend : ls.
  Lemma st_lruTake d n : stays (lruTake d n).
  Proof. unfold lruTake. ls. Qed.
  Local Hint Resolve st_lruTake : ls.
  Lemma st_lruGive d n : stays (lruGive d n).
  Proof. unfold lruGive. ls. Qed.
  Local Hint Resolve st_lruGive : ls.
  Lemma qu_whenCache t' m : quiets m → quiets (whenCache t' m).
  Proof. intros. unfold whenCache. ls. Qed.
  Lemma en_whenCache m : ends m → ends (whenCache t m).
  Proof. intros Hm s Hs. unfold whenCache, bind, getT. cbn [run]. pose proof Hs as (T & HT & Hc). rewrite HT Hc. by apply Hm. Qed.
  Ltac ls ::= repeat first [ls1 | apply qu_forM; intros ? | apply wa_forM; intros ? | apply wa_with_fuel; intros ? | apply qu_whenCache | apply en_whenCache].
  Lemma qu_initNodeAsEvicted (t' : tid) n : quiets (initNodeAsEvicted t' n).
  Proof. unfold initNodeAsEvicted. ls. Qed.
  Local Hint Resolve qu_initNodeAsEvicted : ls.
  Lemma qu_incCacheHits (t' : tid) : quiets (incCacheHits t').
  Proof. unfold incCacheHits. ls. Qed.
  Local Hint Resolve qu_incCacheHits : ls.
  Lemma qu_incCacheMisses (t' : tid) : quiets (incCacheMisses t').
  Proof. unfold incCacheMisses. ls. Qed.
  Local Hint Resolve qu_incCacheMisses : ls.
  Lemma qu_markNodeUsed (t' : tid) n : quiets (markNodeUsed t' n).
  Proof. unfold markNodeUsed. ls. Qed.
  Local Hint Resolve qu_markNodeUsed : ls.
  Lemma qu_markNodeEvicted (t' : tid) n : quiets (markNodeEvicted t' n).
  Proof. unfold markNodeEvicted. ls. Qed.
  Local Hint Resolve qu_markNodeEvicted : ls.
  Lemma qu_evictNode (t' : tid) n : quiets (evictNode t' n).
  Proof. unfold evictNode. ls. Qed.
  Local Hint Resolve qu_evictNode : ls.
  Lemma en_kickDrainer : ends (kickDrainer false).
  Proof.
    intros s Hs. cbn. split; [done|]. unfold drained. cbn. destruct (c_drainer (cache s)) eqn:E; cbn; [by left|].
    destruct (c_high (cache s) <? _) eqn:Hl; cbn; [by left|right]. apply Z.ltb_ge in Hl. lia.
  Qed.
  Local Hint Resolve en_kickDrainer : ls.
  Lemma en_markNodeClean n : ends (markNodeClean t n).
  Proof. unfold markNodeClean. ls. Qed.
  Local Hint Resolve en_markNodeClean : ls.
  Lemma qu_arrangeRec : ∀ fuel sl, quiets (arrangeRec fuel sl).
  Proof. intros fuel. induction fuel as [|? IH] || induction fuel as [|? ? IH]; intros; cbn [arrangeRec]; ls. Qed.
  Local Hint Resolve qu_arrangeRec : ls.
  Lemma qu_arrangeInit : ∀ n ix, quiets (arrangeInit n ix).
  Proof. intros n ix. induction ix as [|? IH] || induction ix as [|? ? IH]; intros; cbn [arrangeInit]; ls. Qed.
  Local Hint Resolve qu_arrangeInit : ls.
  Lemma qu_arrangePrefixSumTree n : quiets (arrangePrefixSumTree n).
  Proof. unfold arrangePrefixSumTree. ls. Qed.
  Local Hint Resolve qu_arrangePrefixSumTree : ls.
  Lemma qu_unpackU64 b : quiets (unpackU64 b).
  Proof. unfold unpackU64. ls. Qed.
  Local Hint Resolve qu_unpackU64 : ls.
  Lemma qu_unpackNode b : quiets (unpackNode b).
  Proof. unfold unpackNode. ls. Qed.
  Local Hint Resolve qu_unpackNode : ls.
  Lemma qu_unpackRef b : quiets (unpackRef b).
  Proof. unfold unpackRef. ls. Qed.
  Local Hint Resolve qu_unpackRef : ls.
  Lemma qu_slice n b : quiets (slice n b).
  Proof. unfold slice. ls. Qed.
  Local Hint Resolve qu_slice : ls.
  Lemma qu_unpackKeyM b : quiets (unpackKeyM cb b).
  Proof. unfold unpackKeyM. ls. Qed.
  Local Hint Resolve qu_unpackKeyM : ls.
  Lemma qu_unpackValM b : quiets (unpackValM cb b).
  Proof. unfold unpackValM. ls. Qed.
  Local Hint Resolve qu_unpackValM : ls.
  Lemma qu_loadLeaf : ∀ cnt n b, quiets (loadLeaf cb cnt n b).
  Proof. intros cnt. induction cnt as [|? IH] || induction cnt as [|? ? IH]; intros; cbn [loadLeaf]; ls. Qed.
  Local Hint Resolve qu_loadLeaf : ls.
  Lemma qu_loadInner : ∀ cnt t' n b, quiets (loadInner cb cnt t' n b).
  Proof. intros cnt. induction cnt as [|? IH] || induction cnt as [|? ? IH]; intros; cbn [loadInner]; ls. Qed.
  Local Hint Resolve qu_loadInner : ls.
  Lemma en_loadNode n : ends (loadNode cb t n).
  Proof. unfold loadNode. ls. Qed.
  Local Hint Resolve en_loadNode : ls.
  Lemma qu_packU64 z : quiets (packU64 z).
  Proof. unfold packU64. ls. Qed.
  Local Hint Resolve qu_packU64 : ls.
  Lemma qu_packKeyM k : quiets (packKeyM cb k).
  Proof. unfold packKeyM. ls. Qed.
  Local Hint Resolve qu_packKeyM : ls.
  Lemma qu_packValM v : quiets (packValM cb v).
  Proof. unfold packValM. ls. Qed.
  Local Hint Resolve qu_packValM : ls.
  Lemma qu_packRef c : quiets (packRef c).
  Proof. unfold packRef. ls. Qed.
  Local Hint Resolve qu_packRef : ls.
  Lemma qu_asUser (v : bval) : quiets (asUser v).
  Proof. unfold asUser. ls. Qed.
  Local Hint Resolve qu_asUser : ls.
  Lemma qu_postLeaf : ∀ n ix, quiets (postLeaf cb n ix).
  Proof. intros n ix. induction ix as [|? IH] || induction ix as [|? ? IH]; intros; cbn [postLeaf]; ls. Qed.
  Local Hint Resolve qu_postLeaf : ls.
  Lemma qu_postInner : ∀ n ix, quiets (postInner cb n ix).
  Proof. intros n ix. induction ix as [|? IH] || induction ix as [|? ? IH]; intros; cbn [postInner]; ls. Qed.
  Local Hint Resolve qu_postInner : ls.
  Lemma wa_postNode n : wakes (postNode cb t n).
  Proof. unfold postNode. ls1; [ls|]. ls1; [ls|]. apply en_wa. ls. Qed.
  Local Hint Resolve wa_postNode : ls.
  Lemma wa_forChildren n f : (∀ c, wakes (f c)) → wakes (forChildren n f).
  Proof. intros. unfold forChildren. ls. Qed.
  Lemma wa_forLeft n f : (∀ c, wakes (f c)) → wakes (forLeft n f).
  Proof. intros. unfold forLeft. ls. Qed.
  Ltac ls ::= repeat first [ls1 | apply qu_forM; intros ? | apply wa_forM; intros ? | apply wa_with_fuel; intros ? | apply qu_whenCache | apply en_whenCache | apply wa_forChildren; intros ? | apply wa_forLeft; intros ?].
  Lemma wa_flushNode : ∀ fuel n ap, wakes (flushNode cb fuel t n ap).
  Proof. intros fuel. induction fuel as [|? IH] || induction fuel as [|? ? IH]; intros; cbn [flushNode]; ls. Qed.
  Local Hint Resolve wa_flushNode : ls.
  Lemma wa_purgeNode : ∀ fuel n full, wakes (purgeNode fuel t n full).
  Proof. intros fuel. induction fuel as [|? IH] || induction fuel as [|? ? IH]; intros; cbn [purgeNode]; ls. Qed.
  Local Hint Resolve wa_purgeNode : ls.
  Lemma wa_visit mark n : wakes (visit cb mark t n).
  Proof. unfold visit. ls. Qed.
  Local Hint Resolve wa_visit : ls.
  Lemma wa_updateLayoutReport : ∀ fuel n (rep : report), wakes (updateLayoutReport cb fuel t n rep).
  Proof.
    induction fuel as [|? IH]; intros; cbn [updateLayoutReport]; ls.
    match goal with |- wakes (_ (range ?x) ?y) => generalize (range x); intros ix; generalize y end.
    induction ix; intros; ls.
  Qed.
  Local Hint Resolve wa_updateLayoutReport : ls.
  Lemma qu_findChild n key : quiets (findChild cb n key).
  Proof. unfold findChild. ls. Qed.
  Local Hint Resolve qu_findChild : ls.
  Lemma wa_descendKey : ∀ fuel mark n stack key, wakes (descendKey cb fuel mark t n stack key).
  Proof. intros fuel. induction fuel as [|? IH] || induction fuel as [|? ? IH]; intros; cbn [descendKey]; ls. Qed.
  Local Hint Resolve wa_descendKey : ls.
  Lemma qu_leftSum p : quiets (leftSum p).
  Proof. unfold leftSum. ls. Qed.
  Local Hint Resolve qu_leftSum : ls.
  Lemma qu_climb : ∀ fuel c acc, quiets (climb fuel c acc).
  Proof. intros fuel. induction fuel as [|? IH] || induction fuel as [|? ? IH]; intros; cbn [climb]; ls. Qed.
  Local Hint Resolve qu_climb : ls.
  Lemma qu_unclimb : ∀ stack c delta, quiets (unclimb c stack delta).
  Proof. induction stack as [|? ? IH]; intros; cbn [unclimb]; ls. Qed.
  Local Hint Resolve qu_unclimb : ls.
  Lemma qu_childOffset fuel n c delta : quiets (childOffset fuel n c delta).
  Proof. unfold childOffset. ls. Qed.
  Local Hint Resolve qu_childOffset : ls.
  Lemma wa_descendBisect : ∀ fuel0 fuel n delta key, wakes (descendBisect cb fuel0 fuel t n delta key).
  Proof. intros fuel0 fuel. induction fuel as [|? IH] || induction fuel as [|? ? IH]; intros; cbn [descendBisect]; ls. Qed.
  Local Hint Resolve wa_descendBisect : ls.
  Lemma qu_walkPs : ∀ fuel c i, quiets (walkPs fuel c i).
  Proof. intros fuel. induction fuel as [|? IH] || induction fuel as [|? ? IH]; intros; cbn [walkPs]; ls. Qed.
  Local Hint Resolve qu_walkPs : ls.
  Lemma wa_descendIndex : ∀ fuel0 fuel mark n i stack, wakes (descendIndex cb fuel0 fuel mark t n i stack).
  Proof. intros fuel0 fuel. induction fuel as [|? IH] || induction fuel as [|? ? IH]; intros; cbn [descendIndex]; ls. Qed.
  Local Hint Resolve wa_descendIndex : ls.
  Lemma qu_rootOf t' : quiets (rootOf t').
  Proof. unfold rootOf. ls. Qed.
  Local Hint Resolve qu_rootOf : ls.
  Lemma wa_bt_BisectLeft key : wakes (bt_BisectLeft cb t key).
  Proof. unfold bt_BisectLeft. ls. Qed.
  Local Hint Resolve wa_bt_BisectLeft : ls.
  Lemma wa_bt_BisectRight key : wakes (bt_BisectRight cb t key).
  Proof. unfold bt_BisectRight. ls. Qed.
  Local Hint Resolve wa_bt_BisectRight : ls.
  Lemma wa_bt_GetByIndex i : wakes (bt_GetByIndex cb t i).
  Proof. unfold bt_GetByIndex. ls. Qed.
  Local Hint Resolve wa_bt_GetByIndex : ls.
  Lemma wa_bt_GetByKey key : wakes (bt_GetByKey cb t key).
  Proof. unfold bt_GetByKey. ls. Qed.
  Local Hint Resolve wa_bt_GetByKey : ls.
  Lemma wa_bt_Len : wakes (bt_Len cb t).
  Proof. unfold bt_Len. ls. Qed.
  Local Hint Resolve wa_bt_Len : ls.
  Lemma wa_bt_FetchLayoutReport : wakes (bt_FetchLayoutReport cb t).
  Proof. unfold bt_FetchLayoutReport. ls. Qed.
  Local Hint Resolve wa_bt_FetchLayoutReport : ls.
  Lemma wa_dimLoop : ∀ fuel n dim, wakes (dimLoop cb fuel t n dim).
  Proof. intros fuel. induction fuel as [|? IH] || induction fuel as [|? ? IH]; intros; cbn [dimLoop]; ls. Qed.
  Local Hint Resolve wa_dimLoop : ls.
  Lemma wa_bt_FetchDimensionsReport : wakes (bt_FetchDimensionsReport cb t).
  Proof. unfold bt_FetchDimensionsReport. ls. Qed.
  Local Hint Resolve wa_bt_FetchDimensionsReport : ls.
  Lemma wa_bt_Flush ap : wakes (bt_Flush cb t ap).
  Proof. unfold bt_Flush. ls. Qed.
  Local Hint Resolve wa_bt_Flush : ls.
  Lemma wa_bt_Purge full : wakes (bt_Purge t full).
  Proof. unfold bt_Purge. ls. Qed.
  Local Hint Resolve wa_bt_Purge : ls.
  Lemma qu_validatePrefixSum : ∀ fuel o, quiets (validatePrefixSum fuel o).
  Proof. intros fuel. induction fuel as [|? IH] || induction fuel as [|? ? IH]; intros; cbn [validatePrefixSum]; ls. Qed.
  Local Hint Resolve qu_validatePrefixSum : ls.
  Lemma wa_validateNode : ∀ fuel0 fuel n, wakes (validateNode cb fuel0 fuel t n).
  Proof.
    intros fuel0. induction fuel as [|? IH]; intros; cbn [validateNode]; ls.
    all: match goal with |- wakes (_ (range ?x) ?y) => generalize (range x); intros ix; generalize y end.
    all: induction ix; intros; ls.
  Qed.
  Local Hint Resolve wa_validateNode : ls.
  Lemma wa_bt_Validate : wakes (bt_Validate cb t).
  Proof. unfold bt_Validate. ls. Qed.
  Local Hint Resolve wa_bt_Validate : ls.

  (** the calls that change no node *)
  Definition reads (c : cmd K V) : Prop :=
    match c with
    | MapCall t' (CGetByKey _ | CGetByIndex _ | CBisectLeft _ | CBisectRight _ | CLen)
    | LayoutReport t' | DimensionsReport t' | Validate t' | Flush t' _ | Purge t' _ => t' = t
    | _ => False
    end.
  Lemma wa_exec c : reads c → wakes (exec cb c).
  Proof.
    intros Hc. destruct c as [| |t' []| | | | | | | | | | | | | | |]; try done; cbn in Hc; subst; cbn [exec bt_call]; ls.
  Qed.
  Theorem reads_wake s c r s' : reads c → cached s t → exec cb c s = ORet r s' →
    (made s s' ≠ [] → drained s') ∧ (drained s → drained s').
  Proof.
    intros Hc Hs He. destruct (wa_exec _ Hc s Hs) as [_ H]. rewrite He in H. destruct H as [H1 H2]. split; [|done].
    intros Hm. destruct H2 as [H2|]; [|done]. destruct Hm. unfold made. by rewrite H2 Nat.sub_diag.
  Qed.
  Lemma en_then {A B} (m : M A) (f : A → M B) : ends m → (∀ a, quiets (f a)) → ends (bind m f).
  Proof.
    intros Hm Hf s Hs. unfold bind; cbn [run]. specialize (Hm s Hs). destruct (m s) as [a s1|e s1|w s1]; try done.
    destruct Hm as [H1 H2]. destruct (Hf a s1 H1) as (H4 & _ & H6). split; [done|]. destruct (run (f a) s1); [|done..]. by apply H6.
  Qed.
  Lemma en_open r0 : ends (bind (newNode r0) (λ rt, bind (modT t (set_rootptr (Some rt))) (λ _, bind (initNodeAsEvicted t rt) (λ _, bind (loadNode cb t rt) (λ _, ret t))))).
  Proof. apply en_bind; [ls|intros rt]. apply en_bind; [ls|intros _]. apply en_bind; [ls|intros _]. apply en_then; [ls|intros; ls]. Qed.
End wake.

(** opening a stored tree *)
Theorem open_wakes {K V} (cb : callbacks K V) (s : st K V) l r s' : exec cb (OldTree l true) s = ORet r s' → drained s'.
Proof.
  cbn [exec]. rewrite run_bind. unfold bt_Old. rewrite run_bind. intros He.
  unfold newTree in He. cbn [run] in He. cbv zeta in He.
  match type of He with context [run _ ?x] => set (s1 := x) in He end.
  assert (cached s1 (fresh s)) as Hc. { exists (Tree 0 0 None [] true). unfold s1. cbn. by rewrite lookup_insert. }
  pose proof (en_open cb (fresh s) (Node l 0 false false true true (fresh s) None None None None) s1 Hc) as [_ HE].
  match type of HE with match ?o with _ => _ end => destruct o as [t s2|e s2|w s2] eqn:Ho end.
  - change (run _ s1) with (ORet t s2) in He. unfold ret in He. cbn in He. by injection He as _ <-.
  - by change (run _ s1) with (OErr (A:=tid) e s2) in He.
  - by change (run _ s1) with (OStop (A:=tid) w s2) in He.
Qed.

(** [drained] as Stats shows it *)
Lemma drained_stats {K V} (s : st K V) : drained s → c_drainer (cache s) = true ∨ ∃ x, cache_Stats s = ORet x s ∧ st_clean x + st_dirty x ≤ st_high x.
Proof. intros [H|H]; [by left|right]. eexists. split; [reflexivity|]. exact H. Qed.
Theorem reads_run {K V} (cb : callbacks K V) t (s : st K V) c r s' : reads t c → cached s t → exec cb c s = ORet r s' → made s s' ≠ [] →
  c_drainer (cache s') = true ∨ ∃ x, cache_Stats s' = ORet x s' ∧ st_clean x + st_dirty x ≤ st_high x.
Proof. intros Hc Hs He Hm. apply drained_stats. destruct (reads_wake cb t s c r s' Hc Hs He) as [H _]. by apply H. Qed.
Theorem open_run {K V} (cb : callbacks K V) (s : st K V) l r s' : exec cb (OldTree l true) s = ORet r s' →
  c_drainer (cache s') = true ∨ ∃ x, cache_Stats s' = ORet x s' ∧ st_clean x + st_dirty x ≤ st_high x.
Proof. intros He. apply drained_stats. by eapply open_wakes. Qed.

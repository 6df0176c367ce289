(** * What a drainer round leaves alone, and what creating a tree returns

    For every single step: an eviction changes no tree record and no node's
    location; the program that makes a tree returns the handle it began with.
    Models no code. *)
From Coq Require Import ssreflect.
From stdpp Require Import prelude list gmap.
From Verif Require Import Spec Llrb BTree Pres Local Machine Threads.
Open Scope Z_scope.

Section steady.
  Context {K V : Type}.
  Variable cb : callbacks K V.
  Notation st := (st K V).
  Notation M := (M K V).
  Implicit Types s : st.

  Record steady s s' : Prop := Steady {
    y_trees : trees s' = trees s;
    y_loc n r : nodes s !! n = Some r → ∃ r', nodes s' !! n = Some r' ∧ b_loc r' = b_loc r }.
  Lemma steady_refl s : steady s s.
  Proof. split; eauto. Qed.
  Lemma steady_trans s1 s2 s3 : steady s1 s2 → steady s2 s3 → steady s1 s3.
  Proof.
    intros [A1 A2] [B1 B2]. split; [congruence|]. intros n r Hn. destruct (A2 _ _ Hn) as (r2 & Hn2 & <-). by apply B2.
  Qed.
  Lemma steady_same s s' : nodes s' = nodes s → trees s' = trees s → steady s s'.
  Proof. intros H1 H2. split; [done|]. rewrite H1. eauto. Qed.
  Fixpoint steadys {A} (m : M A) : Prop :=
    match m with
    | Act f => ∀ s, steady s (stof (f s))
    | Bind m f => steadys m ∧ ∀ a, steadys (f a)
    | Try m h => steadys m ∧ ∀ e, steadys (h e)
    end.
  Lemma steadys_run {A} (m : M A) : steadys m → ∀ s, steady s (stof (m s)).
  Proof.
    induction m as [A f|A B m IHm f IHf|A m IHm h IHh]; [done| |]; intros [H1 H2] s; cbn [run].
    - specialize (IHm H1 s). destruct (run m s) as [a s1|e s1|w s1]; try done.
      eapply steady_trans; [exact IHm|]. by apply IHf.
    - specialize (IHm H1 s). destruct (run m s) as [a s1|e s1|w s1]; try done.
      eapply steady_trans; [exact IHm|]. by apply IHh.
  Qed.
  Lemma sd_ret {A} (a : A) : steadys (ret a).
  Proof. intros s. apply steady_refl. Qed.
  Lemma sd_fail {A} e : steadys (A:=A) (fail e).
  Proof. intros s. apply steady_refl. Qed.
  Lemma sd_panic {A} : steadys (A:=A) panic.
  Proof. intros s. apply steady_refl. Qed.
  Lemma sd_nofuel {A} : steadys (A:=A) nofuel.
  Proof. intros s. apply steady_refl. Qed.
  Lemma sd_bind {A B} (m : M A) (f : A → M B) : steadys m → (∀ a, steadys (f a)) → steadys (bind m f).
  Proof. by split. Qed.
  Lemma sd_try {A} (m : M A) h : steadys m → (∀ e, steadys (h e)) → steadys (Try m h).
  Proof. by split. Qed.
  Lemma sd_atomic {A} (m : M A) : steadys m → steadys (atomic m).
  Proof. intros H. exact (steadys_run m H). Qed.
  Create HintDb sd discriminated.
  Local Hint Extern 1 (∀ r, b_loc _ = b_loc r) => (by intros []) : sd.
  Local Hint Resolve sd_ret sd_fail sd_panic sd_nofuel : sd.
  Ltac sd1 :=
    match goal with
    | |- steadys (bind _ _) => apply sd_bind; [|intros ?]
    | |- steadys (atomic _) => apply sd_atomic
    | |- steadys (Try _ _) => apply sd_try; [|intros ?]
    | H : ∀ _, steadys _ |- steadys _ => apply H
    | H : steadys _ |- steadys _ => apply H
    | |- steadys (match ?x with _ => _ end) => destruct x
    | _ => solve [auto with sd nocore]
    end.
  Ltac sd := repeat sd1.
  Lemma sd_getN n : steadys (getN n).
  Proof. intros s. cbn. destruct (_ !! _); apply steady_refl. Qed.
  Local Hint Resolve sd_getN : sd.
  Lemma sd_modN n f : (∀ r, b_loc (f r) = b_loc r) → steadys (modN n f).
  Proof.
    intros Hf s. cbn. destruct (nodes s !! n) as [r|] eqn:E; [|apply steady_refl]. split; [done|]. intros m r0 Hm. cbn.
    destruct (decide (m = n)) as [->|?]; [rewrite lookup_insert; rewrite E in Hm; injection Hm as <-; eauto|rewrite lookup_insert_ne //; eauto].
  Qed.
  Local Hint Resolve sd_modN : sd.
  Lemma sd_getC n : steadys (getC n).
  Proof. intros s. cbn. destruct (_ !! _); apply steady_refl. Qed.
  Local Hint Resolve sd_getC : sd.
  Lemma sd_modC n f : steadys (modC n f).
  Proof. intros s. cbn in *. destruct (_ !! _); [by apply steady_same|apply steady_refl]. Qed.
  Local Hint Resolve sd_modC : sd.
  Lemma sd_getT n : steadys (getT n).
  Proof. intros s. cbn. destruct (_ !! _); apply steady_refl. Qed.
  Local Hint Resolve sd_getT : sd.
  Lemma sd_getCache : steadys getCache.
  Proof. intros s. apply steady_refl. Qed.
  Local Hint Resolve sd_getCache : sd.
  Lemma sd_modCache f : steadys (modCache f).
  Proof. intros s. by apply steady_same. Qed.
  Local Hint Resolve sd_modCache : sd.
  Lemma sd_forM {A} (l : list A) f : (∀ a, steadys (f a)) → steadys (forM l f).
  Proof. intros Hf. induction l; cbn [forM]; sd. Qed.
  Lemma sd_with_fuel {A} (f : nat → M A) : (∀ n, steadys (f n)) → steadys (with_fuel f).
  Proof. intros Hf. apply sd_bind; [intros s; apply steady_refl|done]. Qed.
  Lemma sd_deref o : steadys (deref o).
  Proof. unfold deref. sd. Qed.
  Local Hint Resolve sd_deref : sd.
  Lemma sd_lift {A} (m : lo A) : steadys (lift m).
  Proof. unfold lift. sd. Qed.
  Local Hint Resolve sd_lift : sd.
  Lemma sd_kvOf (n : nid) : steadys (kvOf n).
  Proof. unfold kvOf. sd. Qed.
  Local Hint Resolve sd_kvOf : sd.
  Lemma sd_kvLen (n : nid) : steadys (kvLen n).
  Proof. unfold kvLen. sd. Qed.
  Local Hint Resolve sd_kvLen : sd.
  Lemma sd_kvGet (n : nid) (i : Z) : steadys (kvGet n i).
  Proof. unfold kvGet. sd. Qed.
  Local Hint Resolve sd_kvGet : sd.
  Lemma sd_asNode (v : bval V) : steadys (asNode v).
  Proof. unfold asNode. sd. Qed.
  Local Hint Resolve sd_asNode : sd.
  Lemma sd_logicSome {A} (o : option A) : steadys (logicSome o).
  Proof. unfold logicSome. sd. Qed.
  Local Hint Resolve sd_logicSome : sd.
  Lemma sd_getQ (d : bool) : steadys (getQ d).
  Proof. unfold getQ. sd. Qed.
  Local Hint Resolve sd_getQ : sd.
  Lemma sd_modQ (d : bool) (f : lruq → lruq) : steadys (modQ d f).
  Proof. unfold modQ. sd. Qed.
  Local Hint Resolve sd_modQ : sd.
  Lemma sd_putNext (p : option nid) (o : option nid) : steadys (putNext p o).
  Proof. unfold putNext. sd. Qed.
  Local Hint Resolve sd_putNext : sd.
  Lemma sd_putPrev (p : option nid) (o : option nid) : steadys (putPrev p o).
  Proof. unfold putPrev. sd. Qed.
  Local Hint Resolve sd_putPrev : sd.
  Lemma sd_lruTake (d : bool) (n : nid) : steadys (lruTake d n).
  Proof. unfold lruTake. sd. Qed.
  Local Hint Resolve sd_lruTake : sd.
  Lemma sd_lruRemove (d : bool) (n : nid) : steadys (lruRemove d n).
  Proof. unfold lruRemove. sd. Qed.
  Local Hint Resolve sd_lruRemove : sd.
  Lemma sd_whenCache t m : steadys m → steadys (whenCache t m).
  Proof. intros. unfold whenCache. sd. Qed.
  Ltac sd ::= repeat first [sd1 | apply sd_forM; intros ? | apply sd_with_fuel; intros ? | apply sd_whenCache].
  Lemma sd_markNodeEvicted (t : tid) (n : nid) : steadys (markNodeEvicted t n).
  Proof. unfold markNodeEvicted. sd. Qed.
  Local Hint Resolve sd_markNodeEvicted : sd.
  Lemma sd_forChildren n f : (∀ c, steadys (f c)) → steadys (forChildren n f).
  Proof. intros. unfold forChildren. sd. Qed.
  Lemma sd_forLeft n f : (∀ c, steadys (f c)) → steadys (forLeft n f).
  Proof. intros. unfold forLeft. sd. Qed.
  Ltac sd ::= repeat first [sd1 | apply sd_forM; intros ? | apply sd_with_fuel; intros ? | apply sd_whenCache | apply sd_forChildren; intros ? | apply sd_forLeft; intros ?].
  Lemma sd_evictNode (t : tid) (n : nid) : steadys (evictNode t n).
  Proof. unfold evictNode. sd. Qed.
  Local Hint Resolve sd_evictNode : sd.
  Lemma sd_purgeNode : ∀ (fuel : nat) (t : tid) (n : nid) (full : bool), steadys (purgeNode fuel t n full).
  Proof. intros fuel. induction fuel as [|? IH]; intros; cbn [purgeNode]; sd. Qed.
  Local Hint Resolve sd_purgeNode : sd.
  Lemma sd_drainerEvict n : steadys (drainerEvict n).
  Proof. unfold drainerEvict. sd. Qed.
  Lemma sd_DrainEvict n : steadys (exec cb (DrainEvict n)).
  Proof. apply sd_bind; [apply sd_drainerEvict|]. intros _. apply sd_ret. Qed.
  Lemma steadys_sstep {A} (p : M A) s : steadys p →
    steady s (match sstep p s with SMore _ s | SRet _ s | SErr _ s | SStop _ s => s end) ∧
    match sstep p s with SMore p' _ => steadys p' | _ => True end.
  Proof.
    induction p as [A f|A B m IHm f IHf|A m IHm h IHh]; cbn [steadys sstep].
    - intros H. specialize (H s). by destruct (f s) as [a s'|e s'|w s'].
    - intros [H1 H2]. destruct (IHm H1) as [HL HP]. destruct (sstep m s) as [p' s'|a s'|e s'|w s']; cbn in *; try done.
    - intros [H1 H2]. destruct (IHm H1) as [HL HP]. destruct (sstep m s) as [p' s'|a s'|e s'|w s']; cbn in *; try done.
  Qed.

  (** ** What a program can return *)
  Fixpoint yields {A} (m : M A) : (A → Prop) → Prop :=
    match m in BTree.M _ _ A return (A → Prop) → Prop with
    | Act f => λ P, ∀ s a s', f s = ORet a s' → P a
    | Bind m f => λ P, yields m (λ a, yields (f a) P)
    | Try m h => λ P, yields m P ∧ ∀ e, yields (h e) P
    end.
  Lemma yields_all {A} (m : M A) (P : A → Prop) : (∀ a, P a) → yields m P.
  Proof. revert P. induction m as [A f|A B m IHm f IHf|A m IHm h IHh]; intros P HP; cbn [yields]; [by eauto|by auto|by auto]. Qed.
  Lemma yields_seq {A B} (m : M A) (f : A → M B) (P : B → Prop) : (∀ a, yields (f a) P) → yields (bind m f) P.
  Proof. intros H. by apply (yields_all m). Qed.
  Lemma yields_ret {A} (a : A) (P : A → Prop) : P a → yields (ret a) P.
  Proof. intros H s b s' [= <- _]. done. Qed.
  Lemma yields_sstep {A} (p : M A) (P : A → Prop) s : yields p P →
    match sstep p s with SMore p' _ => yields p' P | SRet a _ => P a | _ => True end.
  Proof.
    revert P. induction p as [A f|A B m IHm f IHf|A m IHm h IHh]; intros P; cbn [yields sstep].
    - intros H. specialize (H s). destruct (f s); eauto.
    - intros H. specialize (IHm _ H). by destruct (sstep m s).
    - intros [H1 H2]. specialize (IHm _ H1). by destruct (sstep m s).
  Qed.

  (** ** The first step of making a tree *)
  Lemma step_OldTree l a s p s' : sstep (exec cb (OldTree l a)) s = SMore p s' →
    local (λ _, False) (fresh s) s s' ∧ locals (λ _, False) (fresh s) p ∧ yields p (λ r, r = RTree (fresh s)) ∧
    fresh s' = Pos.succ (fresh s) ∧ nodes s' = nodes s ∧ iocount s' = iocount s.
  Proof.
    cbn [exec]. unfold bt_Old, bind at 1 2. cbn [sstep]. unfold newTree at 1. cbn [sstep]. intros [= <- <-].
    split; [apply (lc_newTree (λ _, False) (fresh s) (Tree 0 0 None [] a) s)|]. split_and!; try done.
    - apply (lc_bind (λ _, False) (fresh s)); [|intros ?; apply lc_ret]. apply lc_bind; [by apply lc_newNode|intros rt]. apply lc_bind; [apply lc_modT|intros _]. apply lc_bind; [apply lc_initNodeAsEvicted|intros _]. apply lc_bind; [apply lc_loadNode|intros _]. apply lc_ret.
    - cbn [yields]. do 4 (apply yields_seq; intros ?). by do 2 apply yields_ret.
  Qed.
  Lemma step_NewTree max a s p s' : sstep (exec cb (NewTree max a)) s = SMore p s' →
    local (λ _, False) (fresh s) s s' ∧ locals (λ _, False) (fresh s) p ∧ yields p (λ r, r = RTree (fresh s)) ∧
    fresh s' = Pos.succ (fresh s) ∧ nodes s' = nodes s ∧ iocount s' = iocount s.
  Proof.
    cbn [exec]. unfold bt_New. destruct (_ || _); [done|]. unfold bind at 1 2. cbn [sstep]. unfold newTree at 1. cbn [sstep]. intros [= <- <-].
    split; [apply (lc_newTree (λ _, False) (fresh s) (Tree (max / 2) max None [] a) s)|]. split_and!; try done.
    - apply lc_bind; [|intros ?; apply lc_ret]. apply lc_bind; [by apply lc_newNode|intros rt]. apply lc_bind; [apply lc_modT|intros _]. apply lc_bind; [apply lc_initNodeAsEvicted|intros _]. apply lc_bind; [apply lc_markNodeDirty|intros _]. apply lc_ret.
    - cbn [yields]. do 4 (apply yields_seq; intros ?). by do 2 apply yields_ret.
  Qed.
  Lemma makes_more max a s : 4 ≤ max → Z.even max = true → ∃ p s', sstep (exec cb (NewTree max a)) s = SMore p s'.
  Proof.
    intros H4 Hev. cbn. unfold bt_New. assert ((max <? 4) || negb (2 * (max / 2) =? max) = false) as ->; [|cbn; eauto].
    apply Z.even_spec in Hev as [q ->]. rewrite (Z.mul_comm 2 q) Z.div_mul; [done|]. apply orb_false_iff. split; [lia|]. by rewrite (Z.mul_comm 2 q) Z.eqb_refl.
  Qed.

  (** ** Looking without changing anything, as long as [Φ] holds *)
  Fixpoint peeks (Φ : st → Prop) {A} (m : M A) : (A → Prop) → Prop :=
    match m in BTree.M _ _ A return (A → Prop) → Prop with
    | Act f => λ Q, ∀ s, Φ s → ∃ a, f s = ORet a s ∧ Q a
    | Bind m f => λ Q, peeks Φ m (λ a, peeks Φ (f a) Q)
    | Try m h => λ Q, peeks Φ m Q
    end.
  Lemma peeks_sstep (Φ : st → Prop) {A} (p : M A) (Q : A → Prop) s : Φ s → peeks Φ p Q →
    (∃ p', sstep p s = SMore p' s ∧ peeks Φ p' Q) ∨ ∃ a, sstep p s = SRet a s ∧ Q a.
  Proof.
    intros HΦ. revert Q. induction p as [A f|A B m IHm f IHf|A m IHm h IHh]; intros Q; cbn [peeks sstep].
    - intros H. destruct (H s HΦ) as (a & -> & HQ). right. by exists a.
    - intros H. left. destruct (IHm _ H) as [(p' & -> & Hp)|(a & -> & Hp)]; by eexists.
    - intros H. destruct (IHm _ H) as [(p' & -> & Hp)|(a & -> & Hp)]; [left|right]; by eexists.
  Qed.
  Definition rootat (t : tid) (rt : nid) (l : loc) s : Prop :=
    ∃ T r, trees s !! t = Some T ∧ t_root T = Some rt ∧ nodes s !! rt = Some r ∧ b_loc r = l.
  Lemma pk_FetchLocation t rt l : peeks (rootat t rt l) (exec cb (FetchLocation t)) (λ r, r = RLoc l).
  Proof.
    assert (∀ (Q : nid → Prop), Q rt → peeks (rootat t rt l) (rootOf t) Q) as Hr.
    { intros Q HQ s (T & r & HT & Hr & _). exists T. cbn. rewrite HT. split; [done|]. rewrite Hr. intros s' _. by exists rt. }
    assert (∀ (Q : bnode K V → Prop), (∀ r, b_loc r = l → Q r) → peeks (rootat t rt l) (getN rt) Q) as Hn.
    { intros Q HQ s (T & r & _ & _ & Hn & Hl). exists r. cbn. rewrite Hn. split; [done|]. by apply HQ. }
    apply Hr. apply Hn. intros r1 H1. apply Hr. apply Hn. intros r2 H2. apply Hr. apply Hn. intros r3 H3.
    intros s _. eexists. split; [done|]. intros s' _. eexists. split; [done|]. rewrite H1 H2 H3. by destruct l as [[??]?].
  Qed.
End steady.

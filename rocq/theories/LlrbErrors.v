(** * LLRB calls and comparisons that fail *)
From Coq Require Import Sorted.
From stdpp Require Import prelude list.
From Verif Require Import Spec SpecFacts Llrb LlrbSpec LlrbProof LlrbDelete LlrbApi LlrbProps Compare.
Open Scope Z_scope.

(** ** Comparisons that fail (C49): an answer other than an error does not depend on them *)
Section failing.
  Context {K V : Type}.
  Variables cmp cmp' : K → K → option Z.
  Hypothesis AG : ∀ x y c, cmp x y = Some c → cmp' x y = Some c.
  Implicit Types (t l r : tree K V) (k : K) (v : V).

  Lemma ag_get t k : (∀ ok, GetByKey cmp t k ≠ RErr ok) → GetByKey cmp' t k = GetByKey cmp t k.
  Proof using AG.
    induction t as [|c l IHl k' v' r IHr n]; intros H; [done|]. cbn in H |- *.
    destruct (cmp k k') as [cr|] eqn:E; [|by destruct (H false)]. rewrite (AG _ _ _ E).
    destruct (cr <? 0); [auto|]. destruct (0 <? cr); auto.
  Qed.
  Lemma ag_patch t k v : (∀ ok, (PatchByKey cmp t k v).2 ≠ RErr ok) → PatchByKey cmp' t k v = PatchByKey cmp t k v.
  Proof using AG.
    induction t as [|c l IHl k' v' r IHr n]; intros H; [done|]. cbn in H |- *.
    destruct (cmp k k') as [cr|] eqn:E; [|by destruct (H false)]. rewrite (AG _ _ _ E).
    destruct (cr <? 0); [|destruct (0 <? cr); [|done]].
    - destruct (PatchByKey cmp l k v) as [l' a] eqn:El. rewrite IHl by (by rewrite ?El). done.
    - destruct (PatchByKey cmp r k v) as [r' a] eqn:El. rewrite IHr by (by rewrite ?El). done.
  Qed.
  Lemma ag_left t k : ∀ i a, bisectLeftLoop cmp t i k = LRet a → (∀ ok, a ≠ RErr ok) → bisectLeftLoop cmp' t i k = LRet a.
  Proof using AG.
    induction t as [|c l IHl k' v' r IHr n]; intros i a H Ha; [done|]. cbn [bisectLeftLoop] in H |- *.
    destruct (cmp k k') as [cr|] eqn:E; [|injection H as <-; by destruct (Ha false)]. rewrite (AG _ _ _ E).
    destruct (cr =? 0); [done|]. destruct (cr <? 0); [destruct l|destruct r]; auto.
  Qed.
  Lemma ag_right t k : ∀ i a, bisectRightLoop cmp t i k = LRet a → (∀ ok, a ≠ RErr ok) → bisectRightLoop cmp' t i k = LRet a.
  Proof using AG.
    induction t as [|c l IHl k' v' r IHr n]; intros i a H Ha; [done|]. cbn [bisectRightLoop] in H |- *.
    destruct (cmp k k') as [cr|] eqn:E; [|injection H as <-; by destruct (Ha false)]. rewrite (AG _ _ _ E).
    destruct (cr =? 0); [done|]. destruct (cr <? 0); [destruct l|destruct r]; auto.
  Qed.
  Lemma ag_insert t k v : ∀ t' ok, insert cmp t k v = LRet (t', ok, false) → insert cmp' t k v = LRet (t', ok, false).
  Proof using AG.
    induction t as [|c l IHl k' v' r IHr n]; intros t' ok H; [done|]. cbn in H |- *.
    destruct (cmp k k') as [cr|] eqn:E; [|done]. rewrite (AG _ _ _ E).
    destruct (cr <? 0); [|destruct (0 <? cr); [|done]].
    - destruct (insert cmp l k v) as [[[l' ok'] []]| |]; try done. by rewrite (IHl _ _ eq_refl).
    - destruct (insert cmp r k v) as [[[r' ok'] []]| |]; try done. by rewrite (IHr _ _ eq_refl).
  Qed.
  Lemma ag_pre t k : ∀ t' ok, preDeleteByKeyAdjustLen cmp t k = (t', ok, false) → preDeleteByKeyAdjustLen cmp' t k = (t', ok, false).
  Proof using AG.
    induction t as [|c l IHl k' v' r IHr n]; intros t' ok H; [done|]. cbn in H |- *.
    destruct (cmp k k') as [cr|] eqn:E; [|done]. rewrite (AG _ _ _ E).
    destruct (cr <? 0); [|destruct (0 <? cr); [|done]].
    - destruct (preDeleteByKeyAdjustLen cmp l k) as [[l' ok'] []]; try done. by rewrite (IHl _ _ eq_refl).
    - destruct (preDeleteByKeyAdjustLen cmp r k) as [[r' ok'] []]; try done. by rewrite (IHr _ _ eq_refl).
  Qed.
  Lemma ag_node t k c : cmpNode cmp k t = LRet (Some c) → cmpNode cmp' k t = LRet (Some c).
  Proof using AG. destruct t; [done|]. cbn. intros [= H]. by rewrite (AG _ _ _ H). Qed.
  Lemma ag_delete fuel t k : ∀ t', delete cmp fuel t k = LRet (t', false) → delete cmp' fuel t k = LRet (t', false).
  Proof using AG.
    revert t. induction fuel as [|fuel IH]; intros t t' H; [done|]. destruct t as [|c l k' v' r n]; [done|]. cbn [delete] in H |- *.
    destruct (cmp k k') as [cr|] eqn:E; [|done]. rewrite (AG _ _ _ E). destruct (cr <? 0).
    - destruct (bothBlack l) as [b| |]; try done. cbn [lbind] in *.
      destruct (if b then _ else _) as [t1| |]; try done. cbn [lbind] in *. destruct t1 as [|c1 l1 k1 v1 r1 n1]; [done|].
      destruct (delete cmp fuel l1 k) as [[l2 []]| |] eqn:Ed; try done. by rewrite (IH _ _ Ed).
    - assert (∀ t1 o, (if isRed l then let! t' := rotateRight (T c l k' v' r n) in let! o := cmpNode cmp k t' in LRet (t', o)
        else LRet (T c l k' v' r n, Some cr)) = LRet (t1, Some o) →
        (if isRed l then let! t' := rotateRight (T c l k' v' r n) in let! o := cmpNode cmp' k t' in LRet (t', o)
        else LRet (T c l k' v' r n, Some cr)) = LRet (t1, Some o)) as Hrot.
      { intros t1 o. destruct (isRed l); [|done]. destruct (rotateRight _) as [t2| |]; try done. cbn [lbind].
        destruct (cmpNode cmp k t2) as [[o2|]| |] eqn:E2; try done. cbn [lbind]. intros [= <- <-]. by rewrite (ag_node _ _ _ E2). }
      destruct (if isRed l then _ else _) as [[t1 [cr1|]]| |]; try done. rewrite (Hrot _ _ eq_refl). clear Hrot. cbn [lbind] in *.
      destruct (getRight t1) as [r1| |]; try done. cbn [lbind] in *. destruct r1 as [|c1 l1 k1 v1 r1 n1]; [done|].
      destruct (bothBlack _) as [b| |]; try done. cbn [lbind] in *.
      assert (∀ t2 o, (if b then let! t' := moveRedRight t1 in let! o := cmpNode cmp k t' in LRet (t', o) else LRet (t1, Some cr1)) = LRet (t2, Some o) →
        (if b then let! t' := moveRedRight t1 in let! o := cmpNode cmp' k t' in LRet (t', o) else LRet (t1, Some cr1)) = LRet (t2, Some o)) as Hmov.
      { intros t2 o. destruct b; [|done]. destruct (moveRedRight _) as [t3| |]; try done. cbn [lbind].
        destruct (cmpNode cmp k t3) as [[o2|]| |] eqn:E2; try done. cbn [lbind]. intros [= <- <-]. by rewrite (ag_node _ _ _ E2). }
      destruct (if b then _ else _) as [[t2 [cr2|]]| |]; try done. rewrite (Hmov _ _ eq_refl). clear Hmov. cbn [lbind] in *.
      destruct t2 as [|c2 l2 k2 v2 r2 n2]; [done|]. destruct (cr2 =? 0); [done|].
      destruct (delete cmp fuel r2 k) as [[r3 []]| |] eqn:Ed; try done. by rewrite (IH _ _ Ed).
  Qed.
  Lemma llrb_no_silent_failure t (o : llrb_op K V) t' a : llrb_step cmp t o = LRet (t', a) → (∀ ok, a ≠ RErr ok) →
    match o with
    | LCall (CPut _ _) => ∀ t2 a2, llrb_step cmp' t o = LRet (t2, a2) → a2 = a
    | _ => llrb_step cmp' t o = LRet (t', a)
    end.
  Proof using AG.
    intros H Ha. destruct o as [c| |]; [|done..]. destruct c as [k v|k|i|k v|i v|k|i|k|k|]; try done; cbn [llrb_step llrb_call] in *.
    - intros t2 a2. unfold Put in *. destruct (insert cmp t k v) as [[[u ok] []]| |] eqn:Ei; try done; cbn [lbind] in *.
      { injection H as <- <-. by destruct (Ha ok). }
      rewrite (ag_insert _ _ _ _ _ Ei). cbn [lbind]. destruct ok; [|congruence].
      destruct (postInsertAdjustLen cmp u k); try done. destruct (postInsertAdjustLen cmp' u k); try done. cbn [lbind] in *. congruence.
    - injection H as <- <-. by rewrite ag_get.
    - injection H as H. rewrite ag_patch; by rewrite H.
    - unfold DeleteByKey in *. destruct (preDeleteByKeyAdjustLen cmp t k) as [[t1 ok] []] eqn:Ep.
      { injection H as <- <-. by destruct (Ha ok). }
      rewrite (ag_pre _ _ _ _ Ep). destruct ok; [|done].
      destruct (delete cmp (budget t1) t1 k) as [[t2 []]| |] eqn:Ed; try done; cbn [lbind] in *.
      { injection H as <- <-. by destruct (Ha true). }
      by rewrite (ag_delete _ _ _ _ Ed).
    - unfold DeleteByIndex in *. destruct t as [|c l k v r n]; [done|]. destruct (_ || _); [done|].
      destruct (preDeleteByIndexAdjustLen _ i) as [[t1 key]| |]; try done. cbn [lbind] in *.
      destruct (delete cmp (budget t1) t1 key) as [[t2 []]| |] eqn:Ed; try done; cbn [lbind] in *.
      { injection H as <- <-. by destruct (Ha true). }
      by rewrite (ag_delete _ _ _ _ Ed).
    - unfold BisectLeft in *. destruct t as [|c l k' v r n]; [done|].
      destruct (bisectLeftLoop cmp _ _ k) as [b| |] eqn:Eb; try done. cbn [lbind] in *. injection H as <- <-. by rewrite (ag_left _ _ _ _ Eb).
    - unfold BisectRight in *. destruct t as [|c l k' v r n]; [done|].
      destruct (bisectRightLoop cmp _ _ k) as [b| |] eqn:Eb; try done. cbn [lbind] in *. injection H as <- <-. by rewrite (ag_right _ _ _ _ Eb).
  Qed.
End failing.
Lemma llrb_foreign {K V} (cmp : K → K → option Z) (t : tree K V) k (c : call K V) : elements t ≠ [] →
  (∀ k' v, (k', v) ∈ elements t → cmp k k' = None) → call_keys c = [k] →
  llrb_step cmp t (LCall c) = LRet (t, RErr false).
Proof.
  intros Ht Hk Hc. destruct t as [|col l k' v' r n]; [done|].
  assert (cmp k k' = None) as E by (apply (Hk k' v'); cbn; set_solver).
  destruct c; simplify_eq/=; unfold Put, DeleteByKey, BisectLeft, BisectRight; cbn; by rewrite E.
Qed.

(** * LLRB calls during which Compare fails: no panic, no entry lost *)
From Coq Require Import Sorted.
From stdpp Require Import prelude list.
From Verif Require Import Spec SpecFacts Llrb LlrbSpec LlrbProof LlrbDelete LlrbApi LlrbProps LlrbAsked.
Open Scope Z_scope.

(** ** An error leaves the entries in place: every comparator, every tree *)
Section kept.
  Context {K V : Type}.
  Variable cmp : K → K → option Z.
  Implicit Types (t l r : tree K V) (k : K) (v : V).

  Lemma moveRedLeft_elements t t' : moveRedLeft t = LRet t' → elements t' = elements t.
  Proof.
    unfold moveRedLeft. destruct (colorFlip t) as [[|c l k v r n]| |] eqn:E1; try done. cbn [lbind].
    apply colorFlip_similar in E1 as [<- _].
    destruct (getLeft r) as [rl| |]; try done. cbn [lbind]. destruct (isRed rl); [|by intros [= <-]].
    destruct (rotateRight r) as [r1| |] eqn:E2; try done. cbn [lbind]. apply rotateRight_similar in E2 as [E2 _].
    destruct (rotateLeft _) as [t2| |] eqn:E3; try done. cbn [lbind]. apply rotateLeft_similar in E3 as [E3 _].
    intros [-> _]%colorFlip_similar. rewrite E3. cbn. by rewrite E2.
  Qed.
  Lemma moveRedRight_elements t t' : moveRedRight t = LRet t' → elements t' = elements t.
  Proof.
    unfold moveRedRight. destruct (colorFlip t) as [[|c l k v r n]| |] eqn:E1; try done. cbn [lbind].
    apply colorFlip_similar in E1 as [<- _].
    destruct (getLeft l) as [ll| |]; try done. cbn [lbind]. destruct (isRed ll); [|by intros [= <-]].
    destruct (rotateRight _) as [t2| |] eqn:E3; try done. cbn [lbind]. apply rotateRight_similar in E3 as [E3 _].
    intros [-> _]%colorFlip_similar. done.
  Qed.
  Lemma delete_kept fuel k : ∀ t t', delete cmp fuel t k = LRet (t', true) → elements t' = elements t.
  Proof.
    induction fuel as [|fuel IH]; intros t t'; [done|]. destruct t as [|c l k' v' r n]; [done|]. cbn [delete].
    destruct (cmp k k') as [cr|]; [|by intros [= <-]]. set (t := T c l k' v' r n). destruct (cr <? 0).
    - destruct (bothBlack l) as [b| |]; try done. cbn [lbind].
      destruct (if b then _ else _) as [t1| |] eqn:E1; try done. cbn [lbind].
      assert (elements t1 = elements t) as <- by (destruct b; [by apply moveRedLeft_elements|by simplify_eq]).
      destruct t1 as [|c1 l1 k1 v1 r1 n1]; [done|].
      destruct (delete cmp fuel l1 k) as [[l2 []]| |] eqn:Ed; try done; cbn [lbind].
      + intros [= <-]. cbn. by rewrite (IH _ _ Ed).
      + by destruct (fixUp _).
    - destruct (if isRed l then _ else _) as [[t1 o]| |] eqn:E1; try done. cbn [lbind].
      assert (elements t1 = elements t) as <-.
      { destruct (isRed l); [|by simplify_eq]. destruct (rotateRight t) as [u| |] eqn:E2; try done. cbn [lbind] in E1.
        destruct (cmpNode cmp k u); try done. cbn [lbind] in E1. injection E1 as <- <-. by apply rotateRight_similar in E2 as [-> _]. }
      destruct o as [cr1|]; [|by intros [= <-]]. destruct (getRight t1) as [r1| |]; try done. cbn [lbind].
      destruct r1 as [|c1 l1 k1 v1 r1 n1]; [by destruct (cr1 =? 0)|].
      destruct (bothBlack _) as [b| |]; try done. cbn [lbind].
      destruct (if b then _ else _) as [[t2 o]| |] eqn:E2; try done. cbn [lbind].
      assert (elements t2 = elements t1) as <-.
      { destruct b; [|by simplify_eq]. destruct (moveRedRight t1) as [u| |] eqn:E3; try done. cbn [lbind] in E2.
        destruct (cmpNode cmp k u); try done. cbn [lbind] in E2. injection E2 as <- <-. by apply moveRedRight_elements. }
      destruct o as [cr2|]; [|by intros [= <-]]. destruct t2 as [|c2 l2 k2 v2 r2 n2]; [done|].
      destruct (cr2 =? 0).
      + destruct (deleteMin fuel r2) as [[[r3 mk] mv]| |]; try done. cbn [lbind]. by destruct (fixUp _).
      + destruct (delete cmp fuel r2 k) as [[r3 []]| |] eqn:Ed; try done; cbn [lbind].
        * intros [= <-]. cbn. by rewrite (IH _ _ Ed).
        * by destruct (fixUp _).
  Qed.
  Lemma pre_elements t k : elements (preDeleteByKeyAdjustLen cmp t k).1.1 = elements t.
  Proof.
    induction t as [|c l IHl k' v r IHr n]; [done|]. cbn. destruct (cmp k k') as [cr|]; [|done].
    destruct (cr <? 0); [|destruct (0 <? cr); [|done]].
    - destruct (preDeleteByKeyAdjustLen cmp l k) as [[l' ok] []]; [|destruct ok]; cbn in *; by rewrite IHl.
    - destruct (preDeleteByKeyAdjustLen cmp r k) as [[r' ok] []]; [|destruct ok]; cbn in *; by rewrite IHr.
  Qed.
  Lemma preIndex_elements t : ∀ i t' k, preDeleteByIndexAdjustLen t i = LRet (t', k) → elements t' = elements t.
  Proof.
    induction t as [|c l IHl k' v r IHr n]; intros i t' k; [done|]. cbn [preDeleteByIndexAdjustLen].
    destruct (i <? tlen l); [|destruct (tlen l <? i); [|by intros [= <- <-]]].
    - destruct (preDeleteByIndexAdjustLen l i) as [[l' key]| |] eqn:E; try done. intros [= <- <-]. cbn. by rewrite (IHl _ _ _ E).
    - destruct (preDeleteByIndexAdjustLen r _) as [[r' key]| |] eqn:E; try done. intros [= <- <-]. cbn. by rewrite (IHr _ _ _ E).
  Qed.
  Lemma patch_err t k v t' ok : PatchByKey cmp t k v = (t', RErr ok) → t' = t.
  Proof.
    revert t'. induction t as [|c l IHl k' v' r IHr n]; intros t'; [done|]. cbn.
    destruct (cmp k k') as [cr|]; [|by intros [= <-]]. destruct (cr <? 0); [|destruct (0 <? cr); [|done]].
    - destruct (PatchByKey cmp l k v) as [l' a]. intros [= <- ->]. by rewrite (IHl _ eq_refl).
    - destruct (PatchByKey cmp r k v) as [r' a]. intros [= <- ->]. by rewrite (IHr _ eq_refl).
  Qed.
  Lemma failed_kept t (o : llrb_op K V) t' ok : llrb_step cmp t o = LRet (t', RErr ok) → elements t' = elements t.
  Proof.
    destruct o as [c| |]; [|done..]. destruct c as [k v|k|i|k v|i v|k|i|k|k|]; cbn [llrb_step llrb_call].
    - intros H. by apply llrb_failed_put in H as [-> _].
    - by intros [= <- _].
    - intros H. destruct (GetByIndex t i); by simplify_eq/=.
    - by intros [= ->%patch_err].
    - intros H. exfalso. unfold PatchByIndex in H. repeat case_match; try done.
      all: unfold lbind in H; repeat case_match; simplify_eq.
    - unfold DeleteByKey. pose proof (pre_elements t k) as He.
      destruct (preDeleteByKeyAdjustLen cmp t k) as [[t1 ok1] []]; cbn in He; [by intros [= <- _]|]. destruct ok1; [|done].
      destruct (delete cmp _ t1 k) as [[t2 []]| |] eqn:Ed; try done. cbn [lbind]. intros [= <- _]. by rewrite (delete_kept _ _ _ _ Ed).
    - unfold DeleteByIndex. destruct t as [|c l k v r n]; [done|]. destruct (_ || _); [done|].
      destruct (preDeleteByIndexAdjustLen _ i) as [[t1 key]| |] eqn:Ep; try done. cbn [lbind]. apply preIndex_elements in Ep as <-.
      destruct (delete cmp _ t1 key) as [[t2 []]| |] eqn:Ed; try done. cbn [lbind]. intros [= <- _]. by rewrite (delete_kept _ _ _ _ Ed).
    - intros H. destruct (BisectLeft cmp t k); by simplify_eq/=.
    - intros H. destruct (BisectRight cmp t k); by simplify_eq/=.
    - done.
  Qed.
End kept.

(** ** The second pass of Put meets no key that the first did not *)
Section path.
  Context {K V : Type}.
  Variable cmp : K → K → option Z.
  Implicit Types (t l r : tree K V) (k : K) (v : V).
  Lemma colorFlip_path t t' k : colorFlip t = LRet t' → asked_down cmp t' k = asked_down cmp t k.
  Proof.
    destruct t as [|c [|c1 l1 k1 v1 r1 n1] x v [|c2 l2 k2 v2 r2 n2] n]; try done. by intros [= <-].
  Qed.
  Lemma rotateRight_path c l x v r n t' k cr : rotateRight (T c l x v r n) = LRet t' → cmp k x = Some cr → cr < 0 →
    ∀ y, y ∈ asked_down cmp t' k → y ∈ asked_down cmp (T c l x v r n) k.
  Proof.
    destruct l as [|c1 a y1 v1 b n1]; [done|]. cbn [rotateRight]. intros [= <-] Hx Hcr y. cbn [asked_down]. rewrite Hx.
    rewrite (proj2 (Z.ltb_lt _ _) Hcr). destruct (cmp k y1) as [cr1|]; [|set_solver].
    destruct (cr1 <? 0); [set_solver|]. destruct (0 <? cr1); set_solver.
  Qed.
  Lemma rotateLeft_path c l x v r n t' k cr : rotateLeft (T c l x v r n) = LRet t' → cmp k x = Some cr → 0 < cr →
    ∀ y, y ∈ asked_down cmp t' k → y ∈ asked_down cmp (T c l x v r n) k.
  Proof.
    destruct r as [|c1 a y1 v1 b n1]; [done|]. cbn [rotateLeft]. intros [= <-] Hx Hcr y. cbn [asked_down]. rewrite Hx.
    rewrite (proj2 (Z.ltb_lt _ _) Hcr), (proj2 (Z.ltb_ge _ _)) by lia. destruct (cmp k y1) as [cr1|]; [|set_solver].
    destruct (cr1 <? 0); [set_solver|]. destruct (0 <? cr1); set_solver.
  Qed.
  Lemma flip_last_path t t' k :
    (let! l2 := getLeft t in let! r2 := getRight t in if isRed l2 && isRed r2 then colorFlip t else LRet t) = LRet t' →
    asked_down cmp t' k = asked_down cmp t k.
  Proof.
    destruct (getLeft t) as [l2| |]; try done. cbn [lbind]. destruct (getRight t) as [r2| |]; try done. cbn [lbind].
    destruct (_ && _); [apply colorFlip_path|by intros [= <-]].
  Qed.
  Lemma fixUp_path_left c l x v r n t' k cr : fixUp (T c l x v r n) = LRet t' → isRed r = false → cmp k x = Some cr → cr < 0 →
    ∀ y, y ∈ asked_down cmp t' k → y ∈ asked_down cmp (T c l x v r n) k.
  Proof.
    unfold fixUp. intros Hf Hr Hx Hcr. rewrite Hr in Hf. cbn [lbind getLeft] in Hf.
    destruct (if isRed l then _ else _) as [t2| |] eqn:E2; try done. cbn [lbind] in Hf.
    intros y. rewrite (flip_last_path _ _ k Hf). destruct (isRed l); [|by simplify_eq].
    destruct (getLeft l) as [ll| |]; try done. cbn [lbind] in E2. destruct (isRed ll); [|by simplify_eq].
    by apply (rotateRight_path _ _ _ _ _ _ _ _ _ E2 Hx).
  Qed.
  Lemma fixUp_path_right c l x v r n t' k cr : fixUp (T c l x v r n) = LRet t' →
    (isRed l = true → ∀ ll, getLeft l = LRet ll → isRed ll = false) → cmp k x = Some cr → 0 < cr →
    ∀ y, y ∈ asked_down cmp t' k → y ∈ asked_down cmp (T c l x v r n) k.
  Proof.
    unfold fixUp. intros Hf Hl Hx Hcr. destruct (isRed r).
    - destruct r as [|c1 b z v1 d n1]; [done|]. cbn [rotateLeft lbind getLeft isRed] in Hf.
      unfold RED at 1 in Hf. cbn [lbind] in Hf. destruct (isRed l).
      + cbn [rotateRight lbind] in Hf. intros y. rewrite (flip_last_path _ _ k Hf). done.
      + cbn [lbind] in Hf. intros y. rewrite (flip_last_path _ _ k Hf).
        apply (rotateLeft_path c l x v (T c1 b z v1 d n1) n _ k cr eq_refl Hx Hcr).
    - cbn [lbind getLeft] in Hf. destruct (isRed l).
      + destruct (getLeft l) as [ll| |]; try done. cbn [lbind] in Hf. rewrite (Hl eq_refl _ eq_refl) in Hf. cbn [lbind] in Hf.
        intros y. by rewrite (flip_last_path _ _ k Hf).
      + cbn [lbind] in Hf. intros y. by rewrite (flip_last_path _ _ k Hf).
  Qed.
  Lemma insert_path k v : cmp k k = Some 0 → ∀ t t' n, wf n t ∨ wfr n t → insert cmp t k v = LRet (t', true, false) →
    ∀ y, y ∈ asked_down cmp t' k → y ∈ asked_down cmp t k ∨ cmp k y = Some 0.
  Proof.
    intros Hk. induction t as [|c l IHl x v' r IHr s]; intros t' n Hw Hi y.
    { simplify_eq/=. rewrite Hk. cbn. rewrite elem_of_list_singleton. intros ->. by right. }
    assert (∃ m, (wf m l ∨ wfr m l) ∧ wf m r) as (m & Hl & Hr).
    { destruct Hw as [Hw|Hw]; inversion Hw; subst; eexists; (split; [|eassumption]); auto; right; by constructor. }
    cbn [insert] in Hi. destruct (cmp k x) as [cr|] eqn:Hx; [|done]. destruct (Z.ltb_spec cr 0) as [Hc|Hc].
    - destruct (insert cmp l k v) as [[[l' []] []]| |] eqn:El; try done. cbn [lbind] in Hi.
      destruct (fixUp _) as [t1| |] eqn:Ef; try done. cbn [lbind] in Hi. injection Hi as <-.
      intros Hy. apply (fixUp_path_left _ _ _ _ _ _ _ _ _ Ef (wf_isRed _ _ Hr) Hx Hc) in Hy.
      cbn [asked_down] in Hy |- *. rewrite Hx, (proj2 (Z.ltb_lt _ _) Hc) in Hy |- *.
      apply elem_of_cons in Hy as [->|Hy]; [set_solver|]. destruct (IHl _ _ Hl eq_refl y Hy); set_solver.
    - destruct (Z.ltb_spec 0 cr) as [Hc'|]; [|done].
      destruct (insert cmp r k v) as [[[r' []] []]| |] eqn:El; try done. cbn [lbind] in Hi.
      destruct (fixUp _) as [t1| |] eqn:Ef; try done. cbn [lbind] in Hi. injection Hi as <-.
      intros Hy. unshelve epose proof (fixUp_path_right _ _ _ _ _ _ _ k cr Ef _ Hx Hc' y Hy) as Hy'; [|clear Hy; rename Hy' into Hy].
      + intros Hred ll Hll. destruct Hl as [Hl|Hl]; [by rewrite (wf_isRed _ _ Hl) in Hred|].
        inversion Hl as [? a ak av b sb Ha Hb]; subst. injection Hll as <-. by eapply wf_isRed.
      + cbn [asked_down] in Hy |- *. rewrite Hx, (proj2 (Z.ltb_ge _ _) Hc), (proj2 (Z.ltb_lt _ _) Hc') in Hy |- *.
        apply elem_of_cons in Hy as [->|Hy]; [set_solver|]. destruct (IHr _ _ (or_introl Hr) eq_refl y Hy); set_solver.
  Qed.
End path.

(** ** Fails, or as if no comparison had failed *)
Section either.
  Context {K V : Type}.
  Variables cmp cmp' : K → K → option Z.
  Hypothesis AG : ∀ x y, cmp' x y = None ∨ cmp' x y = cmp x y.
  Implicit Types (t l r : tree K V) (k : K) (v : V).
  Ltac ask k x := let E := fresh "E" in destruct (AG k x) as [E|E]; rewrite E; clear E; [by eauto|].

  Lemma ei_get t k : GetByKey cmp' t k = RErr false ∨ GetByKey cmp' t k = GetByKey cmp t k.
  Proof using AG.
    induction t as [|c l IHl k' v' r IHr n]; [by right|]. cbn. ask k k'. destruct (cmp k k') as [cr|]; [|auto].
    destruct (cr <? 0); [auto|]. destruct (0 <? cr); auto.
  Qed.
  Lemma ei_patch t k v : (PatchByKey cmp' t k v).2 = RErr false ∨ PatchByKey cmp' t k v = PatchByKey cmp t k v.
  Proof using AG.
    induction t as [|c l IHl k' v' r IHr n]; [by right|]. cbn. ask k k'. destruct (cmp k k') as [cr|]; [|auto].
    destruct (cr <? 0); [|destruct (0 <? cr); [|auto]].
    - destruct IHl as [H| ->]; [|auto]. left. by destruct (PatchByKey cmp' l k v).
    - destruct IHr as [H| ->]; [|auto]. left. by destruct (PatchByKey cmp' r k v).
  Qed.
  Lemma ei_left t k i : bisectLeftLoop cmp' t i k = LRet (RErr false) ∨ bisectLeftLoop cmp' t i k = bisectLeftLoop cmp t i k.
  Proof using AG.
    revert i. induction t as [|c l IHl k' v' r IHr n]; intros i; [by right|]. cbn [bisectLeftLoop]. ask k k'.
    destruct (cmp k k') as [cr|]; [|auto]. destruct (cr =? 0); [auto|]. destruct (cr <? 0); [destruct l|destruct r]; auto.
  Qed.
  Lemma ei_right t k i : bisectRightLoop cmp' t i k = LRet (RErr false) ∨ bisectRightLoop cmp' t i k = bisectRightLoop cmp t i k.
  Proof using AG.
    revert i. induction t as [|c l IHl k' v' r IHr n]; intros i; [by right|]. cbn [bisectRightLoop]. ask k k'.
    destruct (cmp k k') as [cr|]; [|auto]. destruct (cr =? 0); [auto|]. destruct (cr <? 0); [destruct l|destruct r]; auto.
  Qed.
  Lemma ei_insert t k v : (∃ t', insert cmp' t k v = LRet (t', false, true)) ∨
    (insert cmp' t k v = insert cmp t k v ∧ ∀ x, x ∈ asked_down cmp t k → cmp' k x = cmp k x).
  Proof using AG.
    induction t as [|c l IHl k' v' r IHr n]; [right; set_solver|]. cbn. destruct (AG k k') as [E|E]; rewrite E; [by eauto|].
    destruct (cmp k k') as [cr|] eqn:E'; [|eauto].
    destruct (cr <? 0); [|destruct (0 <? cr)].
    - destruct IHl as [[u ->]|[-> H]]; [eauto|]. right. split; [done|]. intros x [->|Hx]%elem_of_cons; [congruence|auto].
    - destruct IHr as [[u ->]|[-> H]]; [eauto|]. right. split; [done|]. intros x [->|Hx]%elem_of_cons; [congruence|auto].
    - right. split; [done|]. intros x ->%elem_of_list_singleton. congruence.
  Qed.
  Lemma ei_post t k : (∀ x, x ∈ asked_down cmp t k → cmp' k x = cmp k x ∨ cmp k x = Some 0) →
    postInsertAdjustLen cmp' t k = postInsertAdjustLen cmp t k.
  Proof using AG.
    induction t as [|c l IHl k' v' r IHr n]; [done|]. cbn. intros H.
    destruct (H k' ltac:(left)) as [E|E].
    - rewrite E. destruct (cmp k k') as [cr|]; [|done].
      destruct (cr <? 0); [rewrite IHl; [done|set_solver]|]. destruct (0 <? cr); [rewrite IHr; [done|set_solver]|done].
    - rewrite E. cbn. destruct (AG k k') as [->| ->]; [done|]. by rewrite E.
  Qed.
  Lemma ei_pre t k : (∃ t' ok, preDeleteByKeyAdjustLen cmp' t k = (t', ok, true)) ∨
    preDeleteByKeyAdjustLen cmp' t k = preDeleteByKeyAdjustLen cmp t k.
  Proof using AG.
    induction t as [|c l IHl k' v' r IHr n]; [by right|]. cbn. ask k k'. destruct (cmp k k') as [cr|]; [|eauto].
    destruct (cr <? 0); [|destruct (0 <? cr); [|eauto]].
    - destruct IHl as [(u&ok&->)| ->]; eauto.
    - destruct IHr as [(u&ok&->)| ->]; eauto.
  Qed.
  Lemma ei_delete fuel k : ∀ t, (∃ t', delete cmp' fuel t k = LRet (t', true)) ∨ delete cmp' fuel t k = delete cmp fuel t k.
  Proof using AG.
    induction fuel as [|fuel IH]; intros t; [by right|]. destruct t as [|c l k' v' r n]; [by right|]. cbn [delete].
    ask k k'. destruct (cmp k k') as [cr|] eqn:Ecr; [|eauto]. set (t := T c l k' v' r n). destruct (cr <? 0).
    - destruct (bothBlack l) as [b| |]; [|by right..]. cbn [lbind].
      destruct (if b then _ else _) as [[|c1 l1 k1 v1 r1 n1]| |]; [by right| |by right..]. cbn [lbind].
      destruct (IH l1) as [[u ->]| ->]; cbn [lbind]; eauto.
    - assert (∀ t1 cr1, let rest cmp0 := let! r1 := getRight t1 in
          match r1 with
          | E => if cr1 =? 0 then LRet (E, false) else LPanic
          | T _ _ _ _ _ _ =>
              let! b := bothBlack r1 in
              let! '(t2, cr2) := (if (b : bool) then let! t' := moveRedRight t1 in let! o := cmpNode cmp0 k t' in LRet (t', o)
                                  else LRet (t1, Some cr1)) in
              match cr2 with
              | None => LRet (t2, true)
              | Some cr2 =>
                  match t2 with
                  | E => LPanic
                  | T c2 l2 k2 v2 r2 n2 =>
                      if cr2 =? 0 then
                        let! '(r3, mk, mv) := deleteMin fuel r2 in
                        let! t3 := fixUp (T c2 l2 mk mv r3 n2) in LRet (t3, false)
                      else
                        let! '(r3, err) := delete cmp0 fuel r2 k in
                        if (err : bool) then LRet (T c2 l2 k2 v2 r3 n2, true)
                        else let! t3 := fixUp (T c2 l2 k2 v2 r3 n2) in LRet (t3, false)
                  end
              end
          end in (∃ t', rest cmp' = LRet (t', true)) ∨ rest cmp' = rest cmp) as Hrest.
      { intros t1 cr1. cbn zeta. destruct (getRight t1) as [[|c1 l1 k1 v1 r1 n1]| |]; [by right| |by right..]. cbn [lbind].
        destruct (bothBlack _) as [b| |]; [|by right..]. cbn [lbind]. destruct b.
        - destruct (moveRedRight t1) as [[|c2 l2 k2 v2 r2 n2]| |]; [by right| |by right..]. cbn [lbind cmpNode]. ask k k2.
          destruct (cmp k k2) as [cr2|]; [|eauto]. destruct (cr2 =? 0); [by right|]. destruct (IH r2) as [[u ->]| ->]; cbn [lbind]; eauto.
        - cbn [lbind]. destruct t1 as [|c2 l2 k2 v2 r2 n2]; [by right|]. destruct (cr1 =? 0); [by right|].
          destruct (IH r2) as [[u ->]| ->]; cbn [lbind]; eauto. }
      cbn zeta in Hrest. destruct (isRed l); [|apply (Hrest t cr)].
      destruct (rotateRight t) as [[|c1 l1 k1 v1 r1 n1]| |]; [by right| |by right..]. cbn [lbind cmpNode]. ask k k1.
      destruct (cmp k k1) as [cr1|]; [|eauto]. apply (Hrest (T c1 l1 k1 v1 r1 n1) cr1).
  Qed.
  Lemma failed_or_same t (o : llrb_op K V) n : wf n t → (∀ k, k ∈ op_keys o → cmp k k = Some 0) →
    (∃ t' ok, llrb_step cmp' t o = LRet (t', RErr ok)) ∨ llrb_step cmp' t o = llrb_step cmp t o.
  Proof using AG.
    intros Hw Hz. destruct o as [c| |]; [|by right..]. destruct c as [k v|k|i|k v|i v|k|i|k|k|]; try (by right); cbn [llrb_step llrb_call].
    - unfold Put. destruct (ei_insert t k v) as [[u ->]|[-> Hag]]; [cbn [lbind]; eauto|].
      destruct (insert cmp t k v) as [[[u ok] []]| |] eqn:Ei; [by right| |by right..]. cbn [lbind]. destruct ok; [|by right].
      right. rewrite ei_post; [done|]. intros x Hx.
      destruct (insert_path cmp k v (Hz k ltac:(cbn; left)) t u n (or_introl Hw) Ei x Hx); auto.
    - destruct (ei_get t k) as [->| ->]; eauto.
    - destruct (ei_patch t k v) as [H| ->]; [|by right]. left. destruct (PatchByKey cmp' t k v) as [u a]. cbn in H. subst. eauto.
    - unfold DeleteByKey. destruct (ei_pre t k) as [(u&ok&->)| ->]; [eauto|].
      destruct (preDeleteByKeyAdjustLen cmp t k) as [[t1 ok] []]; [by right|]. destruct ok; [|by right].
      destruct (ei_delete (budget t1) k t1) as [[u ->]| ->]; [cbn [lbind]; eauto|by right].
    - unfold DeleteByIndex. destruct t as [|c l k v r s]; [by right|]. destruct (_ || _); [by right|].
      destruct (preDeleteByIndexAdjustLen _ i) as [[t1 key]| |]; [|by right..]. cbn [lbind].
      destruct (ei_delete (budget t1) key t1) as [[u ->]| ->]; [cbn [lbind]; eauto|by right].
    - unfold BisectLeft. destruct t as [|c l k' v r s]; [by right|].
      destruct (ei_left (T c l k' v r s) k (tlen l)) as [->| ->]; [cbn [lbind]; eauto|by right].
    - unfold BisectRight. destruct t as [|c l k' v r s]; [by right|].
      destruct (ei_right (T c l k' v r s) k (tlen l)) as [->| ->]; [cbn [lbind]; eauto|by right].
  Qed.
End either.

Section failing.
  Context {K V : Type}.
  Variable cmp : K → K → option Z.
  Variable dom : K → Prop.
  Hypothesis ORD : total_order cmp dom.
  Implicit Types (t l r : tree K V) (k : K) (v : V).
  Hint Resolve asc_l asc_r dom_l dom_r : core.
  (** GetByKey depends on the entries and their order only (proof of
      [GetByKey_spec], which has the whole invariant as hypothesis) *)
  Lemma get_elements t k : alldom dom (elements t) → ascending cmp (elements t) → dom k →
    GetByKey cmp t k = RValue (s_lookup cmp k (elements t)).
  Proof using ORD.
    intros Hd Hs Hk. induction t as [|c l IHl k' v' r IHr n]; [done|]. simpl in *.
    pose proof (dom_m _ _ _ _ Hd) as Hk'. simpl in Hk'. unfold s_lookup.
    destruct (cmp_cases cmp dom ORD k k') as (cr&Hcmp&[[Hc Hb]|[[Hc Hb]|[Hc Hb]]]); auto;
      rewrite Hcmp.
    - rewrite (proj2 (Z.ltb_lt cr 0)) by lia.
      destruct (pivot_lt cmp dom ORD (elements l) (elements r) (k', v') k) as (_&->&->); auto.
      rewrite IHl by eauto. f_equal. unfold s_lookup.
      destruct (present cmp k (elements l)) eqn:Hp; [|done].
      rewrite lookup_app_l; [done|]. apply (present_rank cmp dom ORD); eauto.
    - rewrite (proj2 (Z.ltb_ge cr 0)), (proj2 (Z.ltb_ge 0 cr)) by lia.
      destruct (pivot_eq cmp dom ORD (elements l) (elements r) (k', v') k) as (_&_&->&->); auto.
      rewrite list_lookup_middle by done. done.
    - rewrite (proj2 (Z.ltb_ge cr 0)), (proj2 (Z.ltb_lt 0 cr)) by lia.
      destruct (pivot_gt cmp dom ORD (elements l) (elements r) (k', v') k) as (_&->&->); auto.
      rewrite IHr by eauto. f_equal. unfold s_lookup.
      destruct (present cmp k (elements r)) eqn:Hp; [|done].
      rewrite lookup_app_r by lia.
      replace (length (elements l) + 1 + rank cmp k (elements r) - length (elements l))%nat
        with (S (rank cmp k (elements r))) by lia. done.
  Qed.
  Lemma llrb_failing_compare t : llrb_reachable cmp dom t → ∀ o : llrb_op K V, Forall dom (op_keys o) →
    ∀ cmp', (∀ x y, cmp' x y = None ∨ cmp' x y = cmp x y) →
    (∃ t' ok, llrb_step cmp' t o = LRet (t', RErr ok) ∧
       elements t' = elements t ∧ ∀ k, dom k → GetByKey cmp t' k = GetByKey cmp t k) ∨
    llrb_step cmp' t o = llrb_step cmp t o.
  Proof using ORD.
    intros Hr o Ho cmp' AG. destruct (reachable_inv _ _ _ _ ORD t Hr) as (Hd&Hs&_&n&Hw).
    destruct (failed_or_same cmp cmp' AG t o n Hw) as [(t'&ok&H')|H]; [..|by right].
    { intros k Hk. apply same_spec, (same_refl cmp dom ORD). by eapply Forall_forall. }
    left. exists t', ok. pose proof (failed_kept _ _ _ _ _ H') as He. split_and!; auto.
    intros k Hk. rewrite !get_elements; rewrite ?He; auto.
  Qed.
End failing.

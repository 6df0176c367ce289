(** * Which comparisons an LLRB call makes *)
From Coq Require Import Sorted.
From stdpp Require Import prelude list.
From Verif Require Import Spec SpecFacts Llrb LlrbSpec LlrbProof LlrbDelete LlrbApi LlrbProps.
Open Scope Z_scope.

Section asked.
  Context {K V : Type}.
  Variable cmp : K → K → option Z.
  Implicit Types (t l r : tree K V) (k : K) (v : V).

  (** The keys the call's key is compared with on the way down from [t], in
      order: the loops and recursions of GetByKey (llrb_tree.go:304-338),
      PatchByKey (llrb_tree.go:401-434), BisectLeft and BisectRight
      (llrb_tree.go:42-200), insert (llrb_tree.go:462-523),
      postInsertAdjustLen (llrb_tree.go:525-546) and preDeleteByKeyAdjustLen
      (llrb_tree.go:568-607).  They make one Compare call per node and go left
      below the node's key, right above it, and stop otherwise. *)
  Fixpoint asked_down (t : tree K V) (key : K) : list K :=
    match t with
    | E => []
    | T _ l k _ r _ =>
        k :: match cmp key k with
             | None => []
             | Some cr => if cr <? 0 then asked_down l key
                          else if 0 <? cr then asked_down r key else []
             end
    end.

  (** The same for delete (llrb_tree.go:609-666), which compares again after
      rotateRight (628-637) and after moveRedRight (643-651).  deleteMin
      (668-690) compares no keys. *)
  Fixpoint asked_delete (fuel : nat) (t : tree K V) (key : K) : list K :=
    match fuel, t with
    | S fuel, T _ l k _ _ _ =>
        k :: match cmp key k with
             | None => []
             | Some cr =>
                 if cr <? 0 then
                   match bothBlack l with
                   | LRet b =>
                       match (if (b : bool) then moveRedLeft t else LRet t) with
                       | LRet (T _ l1 _ _ _ _) => asked_delete fuel l1 key
                       | _ => []
                       end
                   | _ => []
                   end
                 else
                   match (if isRed l then rotateRight t else LRet t) with
                   | LRet (T _ _ k1 _ r1 _ as t1) =>
                       (if isRed l then [k1] else []) ++
                       match cmp key k1, bothBlack r1 with
                       | Some _, LRet b =>
                           match (if (b : bool) then moveRedRight t1 else LRet t1) with
                           | LRet (T _ _ k2 _ r2 _) =>
                               (if (b : bool) then [k2] else []) ++
                               match cmp key k2 with
                               | Some cr2 => if cr2 =? 0 then [] else asked_delete fuel r2 key
                               | None => []
                               end
                           | _ => []
                           end
                       | _, _ => []
                       end
                   | _ => []
                   end
             end
    | _, _ => []
    end.

  (** All Compare calls of a method call, as (first argument, second argument):
      Put (llrb_tree.go:436-454), DeleteByIndex (202-229), DeleteByKey
      (231-253); Len, GetByIndex, PatchByIndex, Reset and Validate make none. *)
  Definition asked (t : tree K V) (o : llrb_op K V) : list (K * K) :=
    match o with
    | LCall (CPut k v) =>
        (k,.) <$> asked_down t k ++ match insert cmp t k v with
                                    | LRet (u, true, false) => asked_down u k
                                    | _ => []
                                    end
    | LCall (CGetByKey k) | LCall (CPatchByKey k _) | LCall (CBisectLeft k) | LCall (CBisectRight k) =>
        (k,.) <$> asked_down t k
    | LCall (CDeleteByKey k) =>
        (k,.) <$> asked_down t k ++ match preDeleteByKeyAdjustLen cmp t k with
                                    | (t1, true, false) => asked_delete (budget t1) t1 k
                                    | _ => []
                                    end
    | LCall (CDeleteByIndex i) =>
        match t with
        | E => []
        | T _ _ _ _ _ n =>
            if (i <? 0) || (n <=? i) then []
            else match preDeleteByIndexAdjustLen t i with
                 | LRet (t1, key) => (key,.) <$> asked_delete (budget t1) t1 key
                 | _ => []
                 end
        end
    | _ => []
    end.
End asked.

(** ** A call depends on no other comparison *)
Section enough.
  Context {K V : Type}.
  Variables cmp cmp' : K → K → option Z.
  Implicit Types (t l r : tree K V) (k : K) (v : V).
  Local Notation agree xs k := (∀ x, x ∈ xs → cmp' k x = cmp k x).

  Lemma agree_cons x xs k : agree (x :: xs) k → cmp' k x = cmp k x ∧ agree xs k.
  Proof. intros H. split; [apply H; left|]. intros y Hy. apply H. by right. Qed.
  Lemma agree_app xs ys k : agree (xs ++ ys) k → agree xs k ∧ agree ys k.
  Proof. intros H. split; intros y Hy; apply H, elem_of_app; auto. Qed.

  Lemma en_get t k : agree (asked_down cmp t k) k → GetByKey cmp' t k = GetByKey cmp t k.
  Proof.
    induction t as [|c l IHl k' v' r IHr n]; [done|]. cbn. intros [-> H]%agree_cons.
    destruct (cmp k k') as [cr|]; [|done]. destruct (cr <? 0); [auto|]. destruct (0 <? cr); auto.
  Qed.
  Lemma en_patch t k v : agree (asked_down cmp t k) k → PatchByKey cmp' t k v = PatchByKey cmp t k v.
  Proof.
    induction t as [|c l IHl k' v' r IHr n]; [done|]. cbn. intros [-> H]%agree_cons.
    destruct (cmp k k') as [cr|]; [|done]. destruct (cr <? 0); [by rewrite IHl|]. destruct (0 <? cr); [by rewrite IHr|done].
  Qed.
  Lemma en_insert t k v : agree (asked_down cmp t k) k → insert cmp' t k v = insert cmp t k v.
  Proof.
    induction t as [|c l IHl k' v' r IHr n]; [done|]. cbn. intros [-> H]%agree_cons.
    destruct (cmp k k') as [cr|]; [|done]. destruct (cr <? 0); [by rewrite IHl|]. destruct (0 <? cr); [by rewrite IHr|done].
  Qed.
  Lemma en_post t k : agree (asked_down cmp t k) k → postInsertAdjustLen cmp' t k = postInsertAdjustLen cmp t k.
  Proof.
    induction t as [|c l IHl k' v' r IHr n]; [done|]. cbn. intros [-> H]%agree_cons.
    destruct (cmp k k') as [cr|]; [|done]. destruct (cr <? 0); [by rewrite IHl|]. destruct (0 <? cr); [by rewrite IHr|done].
  Qed.
  Lemma en_pre t k : agree (asked_down cmp t k) k → preDeleteByKeyAdjustLen cmp' t k = preDeleteByKeyAdjustLen cmp t k.
  Proof.
    induction t as [|c l IHl k' v' r IHr n]; [done|]. cbn. intros [-> H]%agree_cons.
    destruct (cmp k k') as [cr|]; [|done]. destruct (cr <? 0); [by rewrite IHl|]. destruct (0 <? cr); [by rewrite IHr|done].
  Qed.
  Lemma en_left t k : agree (asked_down cmp t k) k → ∀ i, bisectLeftLoop cmp' t i k = bisectLeftLoop cmp t i k.
  Proof.
    induction t as [|c l IHl k' v' r IHr n]; [done|]. cbn [asked_down bisectLeftLoop]. intros [-> H]%agree_cons i.
    destruct (cmp k k') as [cr|]; [|done]. destruct (Z.eqb_spec cr 0); [done|].
    destruct (Z.ltb_spec cr 0); [destruct l; auto|]. rewrite (proj2 (Z.ltb_lt 0 cr)) in H by lia. destruct r; auto.
  Qed.
  Lemma en_right t k : agree (asked_down cmp t k) k → ∀ i, bisectRightLoop cmp' t i k = bisectRightLoop cmp t i k.
  Proof.
    induction t as [|c l IHl k' v' r IHr n]; [done|]. cbn [asked_down bisectRightLoop]. intros [-> H]%agree_cons i.
    destruct (cmp k k') as [cr|]; [|done]. destruct (Z.eqb_spec cr 0); [done|].
    destruct (Z.ltb_spec cr 0); [destruct l; auto|]. rewrite (proj2 (Z.ltb_lt 0 cr)) in H by lia. destruct r; auto.
  Qed.
  Lemma en_delete fuel t k : agree (asked_delete cmp fuel t k) k → delete cmp' fuel t k = delete cmp fuel t k.
  Proof.
    revert t. induction fuel as [|fuel IH]; [done|]. intros [|c l k' v' r n]; [done|].
    cbn [asked_delete delete]. intros [-> H]%agree_cons. destruct (cmp k k') as [cr|] eqn:Ecr; [|done].
    destruct (cr <? 0).
    - destruct (bothBlack l) as [b| |]; try done. cbn [lbind].
      destruct (if b then _ else _) as [[|c1 l1 k1 v1 r1 n1]| |]; try done. cbn [lbind]. by rewrite IH.
    - set (t := T c l k' v' r n) in *.
      assert (∀ cmp0, cmp0 k k' = Some cr → (if isRed l then let! t' := rotateRight t in let! o := cmpNode cmp0 k t' in LRet (t', o) else LRet (t, Some cr)) =
        let! t1 := (if isRed l then rotateRight t else LRet t) in let! o := cmpNode cmp0 k t1 in LRet (t1, o)) as Hrot.
      { intros cmp0 H0. destruct (isRed l); [done|]. cbn. by rewrite H0. }
      destruct (isRed l) eqn:El.
      + destruct (rotateRight t) as [[|c1 l1 k1 v1 r1 n1]| |]; try done. cbn [lbind cmpNode getRight app] in *.
        apply agree_cons in H as [-> H]. destruct (cmp k k1) as [cr1|] eqn:E1; [|done].
        destruct r1 as [|c2 l2 k2 v2 r2 n2]; [done|]. destruct (bothBlack _) as [b| |]; try done. cbn [lbind]. destruct b.
        * destruct (moveRedRight _) as [[|c3 l3 k3 v3 r3 n3]| |]; try done. cbn [lbind cmpNode app] in *.
          apply agree_cons in H as [-> H]. destruct (cmp k k3) as [cr2|]; [|done]. destruct (cr2 =? 0); [done|]. by rewrite IH.
        * cbn [lbind app] in *. rewrite E1 in H. destruct (cr1 =? 0); [done|]. by rewrite IH.
      + cbn [lbind cmpNode getRight app] in *. subst t. cbn [getRight lbind] in *. rewrite Ecr in H.
        destruct r as [|c2 l2 k2 v2 r2 n2]; [done|]. destruct (bothBlack _) as [b| |]; try done. cbn [lbind]. destruct b.
        * destruct (moveRedRight _) as [[|c3 l3 k3 v3 r3 n3]| |]; try done. cbn [lbind cmpNode app] in *.
          apply agree_cons in H as [-> H]. destruct (cmp k k3) as [cr2|]; [|done]. destruct (cr2 =? 0); [done|]. by rewrite IH.
        * cbn [lbind app] in *. rewrite Ecr in H. destruct (cr =? 0); [done|]. by rewrite IH.
  Qed.
  Lemma agree_pairs (xs : list K) k : (∀ x y, (x, y) ∈ (k,.) <$> xs → cmp' x y = cmp x y) → agree xs k.
  Proof. intros H x Hx. apply H. apply elem_of_list_fmap. eauto. Qed.
  Lemma asked_enough t (o : llrb_op K V) : (∀ x y, (x, y) ∈ asked cmp t o → cmp' x y = cmp x y) → llrb_step cmp' t o = llrb_step cmp t o.
  Proof.
    destruct o as [c| |]; [|done..]. destruct c as [k v|k|i|k v|i v|k|i|k|k|]; try done; cbn [llrb_step llrb_call asked].
    - intros H. pose proof (agree_app _ _ _ (agree_pairs _ _ H)) as [H1 H2]. unfold Put. rewrite en_insert by done.
      destruct (insert cmp t k v) as [[[u []] []]| |]; try done. cbn [lbind]. by rewrite en_post.
    - intros H. pose proof (agree_pairs _ _ H) as H'. clear H. rename H' into H. by rewrite en_get.
    - intros H. pose proof (agree_pairs _ _ H) as H'. clear H. rename H' into H. by rewrite en_patch.
    - intros H. pose proof (agree_app _ _ _ (agree_pairs _ _ H)) as [H1 H2]. unfold DeleteByKey. rewrite en_pre by done.
      destruct (preDeleteByKeyAdjustLen cmp t k) as [[t1 []] []]; try done. by rewrite en_delete.
    - unfold DeleteByIndex. destruct t as [|c l k v r n]; [done|]. destruct (_ || _); [done|].
      destruct (preDeleteByIndexAdjustLen _ i) as [[t1 key]| |]; try done. intros H. pose proof (agree_pairs _ _ H) as H'. clear H. rename H' into H. cbn [lbind]. by rewrite en_delete.
    - intros H. pose proof (agree_pairs _ _ H) as H'. clear H. rename H' into H. unfold BisectLeft. destruct t; [done|]. by rewrite en_left.
    - intros H. pose proof (agree_pairs _ _ H) as H'. clear H. rename H' into H. unfold BisectRight. destruct t; [done|]. by rewrite en_right.
  Qed.
End enough.

(** ** There are logarithmically many *)
Section bound.
  Context {K V : Type}.
  Variable cmp : K → K → option Z.
  Variable dom : K → Prop.
  Hypothesis ORD : total_order cmp dom.
  Implicit Types (t l r : tree K V) (k : K) (v : V).

  Lemma down_height t k : (length (asked_down cmp t k) ≤ height t)%nat.
  Proof using.
    induction t as [|c l IHl k' v r IHr n]; cbn; [lia|]. destruct (cmp k k') as [cr|]; cbn; [|lia].
    destruct (cr <? 0); [lia|]. destruct (0 <? cr); cbn; lia.
  Qed.
  Lemma delete_few fuel : ∀ t key, ∀ n : nat,
    ((∃ c l k v r s, t = T c l k v r s ∧ wf n l ∧ wf n r) → (length (asked_delete cmp fuel t key) ≤ 6 * n + 3)%nat) ∧
    (wf3 n t → (length (asked_delete cmp fuel t key) ≤ 6 * n + 6)%nat) ∧
    ((∃ l k v r s, t = T BLACK l k v r s ∧ wf n l ∧ wfr n r ∧ below cmp key k = false) →
       (length (asked_delete cmp fuel t key) ≤ 6 * n + 6)%nat).
  Proof using.
    induction fuel as [|fuel IH]; intros t key n; [cbn; split_and!; intros; lia|]. split_and!.
    - intros (c&l&k&v&r&s&->&Hwl&Hwr). cbn [asked_delete length].
      destruct (cmp key k) as [cr|] eqn:Ecr; [|cbn; lia]. destruct (Z.ltb_spec cr 0) as [Hcr|Hcr].
      + destruct n as [|m].
        { inversion Hwl; subst. cbn. lia. }
        pose proof Hwl as Hwl0. apply wf_S in Hwl as [Hw3|(ll&lk&lv&lr&ls&->&Hwll&Hwlr)].
        * rewrite (bothBlack_3 m) by done. destruct (IH l key m) as (_&I2&_). specialize (I2 Hw3). lia.
        * rewrite (bothBlack_2 m) by done.
          destruct (moveRedLeft_spec m c ll lk lv lr ls k v r s) as (c1&l1&k1&v1&r1&n1&->&_&_&Hcol); auto.
          destruct (IH l1 key m) as (I1&I2&_).
          destruct Hcol as [(?&Hw&?)|(?&Hw&?)]; [|specialize (I2 Hw); lia].
          inversion Hw; subst. match type of I1 with ?P → _ => assert P as HP by eauto 12; specialize (I1 HP) end. lia.
      + rewrite (wf_isRed _ _ Hwl). cbn [app]. rewrite Ecr.
        destruct n as [|m].
        { inversion Hwr; subst. cbn. lia. }
        apply wf_S in Hwr as [Hw3|(rl&rk&rv&rr&rs&->&Hwrl&Hwrr)].
        * rewrite (bothBlack_3 m) by done. cbn [app]. rewrite Ecr. destruct (cr =? 0); [cbn; lia|].
          destruct (IH r key m) as (_&I2&_). specialize (I2 Hw3). lia.
        * rewrite (bothBlack_2 m) by done.
          destruct (moveRedRight_spec m c l k v rl rk rv rr rs s) as (c1&l1&k1&v1&r1&n1&->&_&Hcol); auto.
          cbn [app length]. destruct (cmp key k1) as [cr1|]; [|cbn; lia]. destruct (cr1 =? 0); [cbn; lia|].
          destruct (IH r1 key m) as (I1&_&I3).
          destruct Hcol as [(?&?&Hw&_)|(?&?&a&b&sb&->&Ha&Hb&_)].
          -- inversion Hw; subst. match type of I1 with ?P → _ => assert P as HP by eauto 12; specialize (I1 HP) end. lia.
          -- match type of I3 with ?P → _ => assert P as HP end.
             { do 5 eexists. split_and!; eauto. unfold below. rewrite Ecr. by apply Z.ltb_ge. }
             specialize (I3 HP). lia.
    - inversion 1 as [? l k v r s Hwl Hwr]; subst. cbn [asked_delete length].
      inversion Hwl as [? a ak av b sb Ha Hb]; subst.
      destruct (cmp key k) as [cr|] eqn:Ecr; [|cbn; lia]. destruct (Z.ltb_spec cr 0) as [Hcr|Hcr].
      + rewrite (bothBlack_r n) by done. destruct (IH (T RED a ak av b sb) key n) as (I1&_).
        match type of I1 with ?P → _ => assert P as HP by eauto 12; specialize (I1 HP) end. lia.
      + cbn [isRed]. unfold RED at 1. cbn [rotateRight app length].
        destruct (cmp key ak) as [cr1|] eqn:E1; [|cbn; lia].
        cbn [bothBlack isBlack isRed negb]. unfold bothBlack at 1. cbn [isBlack isRed RED negb app]. rewrite ?E1.
        destruct (cr1 =? 0); [cbn; lia|].
        match goal with |- context [asked_delete cmp fuel ?u key] => destruct (IH u key n) as (I1&_) end.
        match type of I1 with ?P → _ => assert P as HP by eauto 12; specialize (I1 HP) end. cbn [app length]. lia.
    - intros (l&k&v&r&s&->&Hwl&Hwr&Hnb). cbn [asked_delete length]. unfold below in Hnb.
      destruct (cmp key k) as [cr|] eqn:Ecr; [|cbn; lia]. rewrite Hnb.
      rewrite (wf_isRed _ _ Hwl). cbn [app]. rewrite Ecr. rewrite (bothBlack_r n) by done. cbn [app]. rewrite Ecr.
      destruct (cr =? 0); [cbn; lia|]. destruct (IH r key n) as (I1&_).
      inversion Hwr; subst. match type of I1 with ?P → _ => assert P as HP by eauto 12; specialize (I1 HP) end. lia.
  Qed.
  Lemma wf_log n t : wf n t → (n ≤ Nat.log2 (length (elements t) + 1))%nat.
  Proof using. intros H%wf_size. apply Nat.log2_le_pow2; lia. Qed.
  Lemma delete_root_few fuel n t key : wf n t → (length (asked_delete cmp fuel t key) ≤ 6 * Nat.log2 (length (elements t) + 1))%nat.
  Proof using.
    intros Hw. pose proof (wf_log _ _ Hw). destruct n as [|m].
    { inversion Hw; subst. destruct fuel; cbn; lia. }
    destruct (delete_few fuel t key m) as (D1&D2&_).
    pose proof Hw as Hw'. apply wf_S in Hw' as [Hw3|(l&k&v&r&s&->&Hl&Hr)].
    - specialize (D2 Hw3). lia.
    - match type of D1 with ?P → _ => assert P as HP by eauto 12; specialize (D1 HP) end. lia.
  Qed.
  Lemma height_blacken t : height (blacken t) = height t.
  Proof using. by destruct t. Qed.
  Lemma log_mono a b : (a ≤ b)%nat → (Nat.log2 a ≤ Nat.log2 b)%nat.
  Proof using. apply Nat.log2_le_mono. Qed.
  Lemma insert_grows t k v t' ok e : insert cmp t k v = LRet (t', ok, e) → (length (elements t') ≤ S (length (elements t)))%nat.
  Proof using.
    revert t' ok e. induction t as [|c l IHl k' v' r IHr n]; intros t' ok e; cbn [insert].
    { intros [= <- <- <-]. cbn. lia. }
    destruct (cmp k k') as [cr|]; [|intros [= <- <- <-]; lia].
    destruct (cr <? 0); [|destruct (0 <? cr); [|intros [= <- <- <-]; lia]].
    - destruct (insert cmp l k v) as [[[l' ok'] e']| |]; try done. cbn [lbind]. specialize (IHl _ _ _ eq_refl).
      destruct e'; [|destruct ok'].
      + intros [= <- <- <-]. cbn. rewrite !app_length. cbn. lia.
      + destruct (fixUp _) as [t2| |] eqn:Ef; try done. cbn [lbind]. intros [= <- <- <-].
        apply fixUp_similar in Ef as [-> _]. cbn. rewrite !app_length. cbn. lia.
      + intros [= <- <- <-]. cbn. rewrite !app_length. cbn. lia.
    - destruct (insert cmp r k v) as [[[r' ok'] e']| |]; try done. cbn [lbind]. specialize (IHr _ _ _ eq_refl).
      destruct e'; [|destruct ok'].
      + intros [= <- <- <-]. cbn. rewrite !app_length. cbn. lia.
      + destruct (fixUp _) as [t2| |] eqn:Ef; try done. cbn [lbind]. intros [= <- <- <-].
        apply fixUp_similar in Ef as [-> _]. cbn. rewrite !app_length. cbn. lia.
      + intros [= <- <- <-]. cbn. rewrite !app_length. cbn. lia.
  Qed.
  Lemma asked_few t (o : llrb_op K V) : llrb_reachable cmp dom t → Forall dom (op_keys o) →
    (length (asked cmp t o) ≤ 8 * Nat.log2 (Z.to_nat (Len t) + 2))%nat.
  Proof using ORD.
    intros Hr Ho. pose proof (reachable_inv _ _ _ _ ORD t Hr) as Hi. rewrite (inv_Len cmp dom), Nat2Z.id by done.
    destruct Hi as (Hd&Hs&Hl&n&Hw). set (m := length (elements t)).
    pose proof (wf_depth n t Hw) as Hh. fold m in Hh. pose proof (log_mono (m + 1) (m + 2) ltac:(lia)).
    destruct o as [c| |]; [|cbn; lia..]. destruct c as [k v|k|i|k v|i v|k|i|k|k|]; cbn [asked]; try (cbn; lia);
      rewrite ?fmap_length, ?app_length; try (pose proof (down_height t k); lia).
    - pose proof (down_height t k). destruct (insert cmp t k v) as [[[u []] []]| |] eqn:Ei; try (cbn; lia).
      pose proof (down_height u k). destruct (insert_color _ _ _ _ _ Ei n) as [Hc _]. specialize (Hc Hw).
      pose proof (insert_grows _ _ _ _ _ _ Ei). fold m in H2.
      destruct (wf_blacken n u) as [n' Hn']; [done|]. apply wf_depth in Hn'. rewrite height_blacken, elements_blacken in Hn'.
      pose proof (log_mono (length (elements u) + 1) (m + 2) ltac:(lia)). lia.
    - pose proof (down_height t k).
      cbn in Ho. apply Forall_cons in Ho as [Hk _].
      destruct (preDeleteByKey_spec cmp dom ORD t k) as (t1&Ep&He&Hsh&_); auto. rewrite Ep.
      destruct (present cmp k (elements t)); [|cbn; lia].
      pose proof (delete_root_few (budget t1) n t1 k ltac:(eauto using shape_wf)) as Hf. rewrite He in Hf. fold m in Hf. lia.
    - destruct t as [|c l k v r s] eqn:Et; [cbn; lia|]. rewrite <-Et in *.
      assert (s = Z.of_nat (length (elements t))) as ->.
      { subst t. by apply (lens_one_len c l k v r s) in Hl. }
      destruct (_ || _) eqn:Eb; [cbn; lia|]. apply orb_false_iff in Eb as [?%Z.ltb_ge ?%Z.leb_gt].
      destruct (preDeleteByIndex_spec cmp dom ORD t i) as (t1&k0&v0&->&_&He&Hsh&_); auto. rewrite fmap_length.
      pose proof (delete_root_few (budget t1) n t1 k0 ltac:(eauto using shape_wf)) as Hf. rewrite He in Hf.
      subst m. rewrite <-Et. rewrite <-Et in H. lia.
  Qed.
End bound.

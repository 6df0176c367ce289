(** Refinement of the LLRB API to the specification. *)
From Coq Require Import Sorted.
From stdpp Require Import prelude list.
From Verif Require Import Spec SpecFacts Llrb LlrbProof LlrbDelete LlrbSpec.
Open Scope Z_scope.

Local Arguments fixUp : simpl never.
Local Arguments moveRedLeft : simpl never.
Local Arguments moveRedRight : simpl never.

Section proof.
  Context {K V : Type}.
  Variable cmp : K → K → option Z.
  Implicit Types (t l r : tree K V) (k : K) (v : V) (m : list (K * V)).

  Lemma validate_spec t : validate t = true ↔ lens one t.
  Proof.
    induction t as [|c l IHl k v r IHr n]; simpl; [done|].
    rewrite !andb_true_iff, IHl, IHr, Z.eqb_eq. split.
    - intros [[Hl Hr] Hn]. split_and!; auto.
      rewrite (lens_tlen one l), (lens_tlen one r) in Hn by done. unfold one in *. lia.
    - intros (Hl&Hr&Hn). split_and!; auto.
      rewrite (lens_tlen one l), (lens_tlen one r) by done. unfold one in *. lia.
  Qed.

  Fixpoint height t : nat :=
    match t with E => 0 | T _ l _ _ r _ => S (height l `max` height r) end.
  Lemma wf_height n t : wf n t → (height t ≤ 2 * n)%nat.
  Proof. induction 1; simpl in *; lia. Qed.
  Lemma wf_size n t : wf n t → (2 ^ n ≤ length (elements t) + 1)%nat.
  Proof.
    induction 1; simpl in *; rewrite ?app_length in *; simpl in *;
      rewrite ?app_length in *; simpl in *; lia.
  Qed.
  Lemma wf_depth n t : wf n t → (height t ≤ 2 * Nat.log2 (length (elements t) + 1))%nat.
  Proof.
    intros H. pose proof (wf_height _ _ H). pose proof (wf_size _ _ H) as Hs.
    assert (n ≤ Nat.log2 (length (elements t) + 1))%nat; [|lia].
    apply Nat.log2_le_pow2 in Hs; lia.
  Qed.
  Lemma compares_height t k : (GetByKey_compares cmp t k ≤ height t)%nat ∧
    (Bisect_compares cmp t k ≤ height t)%nat.
  Proof.
    induction t as [|c l [IHl1 IHl2] k' v r [IHr1 IHr2] n]; simpl; [lia|].
    destruct (cmp k k') as [cr|]; [|lia].
    split; repeat case_match; lia.
  Qed.

  Lemma insert_err t k v t' ok : insert cmp t k v = LRet (t', ok, true) → t' = t.
  Proof.
    revert t' ok. induction t as [|c l IHl k' v' r IHr n]; simpl; intros t' ok H; [done|].
    destruct (cmp k k'); [|naive_solver].
    destruct (_ <? _); [|destruct (_ <? _); [|done]].
    - destruct (insert cmp l k v) as [[[l' ok'] err]| |]; try done. cbn [lbind] in H.
      destruct err; [|destruct ok'; [destruct (fixUp _)|]; done].
      injection H as <- <-. f_equal. by eapply IHl.
    - destruct (insert cmp r k v) as [[[r' ok'] err]| |]; try done. cbn [lbind] in H.
      destruct err; [|destruct ok'; [destruct (fixUp _)|]; done].
      injection H as <- <-. f_equal. by eapply IHr.
  Qed.
  Lemma Put_err t k v t' ok : Put cmp t k v = LRet (t', RErr ok) → t' = t.
  Proof.
    unfold Put. destruct (insert cmp t k v) as [[[t1 ok'] err]| |] eqn:Hi; try done.
    cbn [lbind]. destruct err.
    - intros [= <- <-]. by eapply insert_err.
    - destruct ok'; [|done]. by destruct (postInsertAdjustLen _ _ _).
  Qed.

  Variable dom : K → Prop.
  Hypothesis ORD : total_order cmp dom.
  Notation alldom := (alldom dom).
  Hint Resolve asc_l asc_r dom_l dom_r : core.

  Definition inv t : Prop :=
    alldom (elements t) ∧ ascending cmp (elements t) ∧ lens one t ∧ ∃ n, wf n t.

  Lemma inv_Len t : inv t → Len t = Z.of_nat (length (elements t)).
  Proof. intros (_&_&Hl&_). unfold Len. by rewrite (lens_tlen one), sumw_one. Qed.

  Lemma lens_one_len c l k v r n : lens one (T c l k v r n) →
    n = Z.of_nat (length (elements l ++ (k, v) :: elements r)).
  Proof. intros H. apply lens_tlen in H. simpl in H. rewrite H. by rewrite sumw_one. Qed.

  (** ** Put *)
  Lemma Put_spec t k v : inv t → dom k →
    ∃ t' a, Put cmp t k v = LRet (t', a) ∧ inv t' ∧
      (elements t', a) = spec_call cmp (elements t) (CPut k v).
  Proof using ORD.
    intros (Hd&Hs&Hl&n&Hw) Hk. simpl.
    pose proof (insert_spec cmp dom ORD t k v Hk Hd Hs) as Hi. unfold Put.
    destruct (present cmp k (elements t)) eqn:Hp.
    { rewrite Hi. simpl. do 2 eexists. split_and!; [done| |done]. split_and!; eauto. }
    destruct Hi as (t1&Hi&He1&Hl1). rewrite Hi. cbn [lbind].
    assert (alldom (elements t1)) by (rewrite He1; by apply alldom_insert).
    assert (ascending cmp (elements t1)) by (rewrite He1; by apply (ascending_insert cmp dom ORD)).
    destruct (postInsert_spec cmp dom ORD t1 k) as (t2&->&He2&Hsh&Hl2); auto.
    { rewrite He1. unfold s_insert. rewrite present_app, present_cons. simpl.
      rewrite (same_refl cmp dom ORD) by done. by rewrite orb_true_r. }
    { apply Hl1; [|by apply (lens_absent cmp k)]. apply W_same. by apply (same_refl cmp dom ORD). }
    cbn [lbind]. do 2 eexists. split_and!; [done| |].
    - split_and!; rewrite ?elements_blacken, ?He2; auto; [by apply lens_blacken|].
      destruct (insert_color _ _ _ _ _ Hi n) as [Hc _]. specialize (Hc Hw).
      destruct (wf_blacken n t2) as [n' ?]; [|eauto].
      destruct Hc; [left; by eapply shape_wf|right; by eapply shape_wfr].
    - rewrite elements_blacken, He2, He1. done.
  Qed.

  (** ** Deletes *)
  Lemma wf_delete_case n t : wf n t → t ≠ E → ∃ m : nat,
    (∃ c l k v r s, t = T c l k v r s ∧ wf m l ∧ wf m r) ∨ wf3 m t.
  Proof.
    inversion 1; subst; [done|..]; intros _; eexists; [left; do 6 eexists; split_and!; eauto|right].
    constructor; [constructor|]; eauto.
  Qed.
  Lemma delete_root t key n : wf n t → dom key → alldom (elements t) →
    ascending cmp (elements t) → present cmp key (elements t) = true → lens (W cmp key) t →
    ∃ t', delete cmp (budget t) t key = LRet (t', false) ∧
      elements t' = s_remove (rank cmp key (elements t)) (elements t) ∧
      lens one t' ∧ ∃ n', wf n' (blacken t').
  Proof using ORD.
    intros Hw Hk Hd Hs Hp Hl.
    destruct (wf_delete_case n t) as [m Hm]; [done|by destruct t|].
    destruct (delete_spec cmp dom ORD (budget t) t key Hk Hd Hs Hp Hl ltac:(reflexivity) m)
      as (D1&D2&_).
    destruct Hm as [Hm|Hm].
    - destruct (D1 Hm) as (t'&(?&?&?)&?&_). eauto.
    - destruct (D2 Hm) as (t'&(?&?&?)&?). exists t'. split_and!; auto.
      apply (wf_blacken (S m)); auto.
  Qed.

  Lemma DeleteByKey_spec t k : inv t → dom k →
    ∃ t' a, DeleteByKey cmp t k = LRet (t', a) ∧ inv t' ∧
      (elements t', a) = spec_call cmp (elements t) (CDeleteByKey k).
  Proof using ORD.
    intros (Hd&Hs&Hl&n&Hw) Hk. simpl. unfold DeleteByKey.
    destruct (preDeleteByKey_spec cmp dom ORD t k) as (t1&->&He&Hsh&Heq&Hl1); auto.
    destruct (present cmp k (elements t)) eqn:Hp.
    - destruct (delete_root t1 k n) as (t2&->&He2&Hl2&Hw2);
        rewrite ?He; eauto using shape_wf. cbn [lbind].
      do 2 eexists. split_and!; [done|..].
      + split_and!; rewrite ?elements_blacken, ?He2, ?He; auto using lens_blacken,
          alldom_remove, ascending_remove.
      + by rewrite elements_blacken, He2, He.
    - rewrite Heq by done. do 2 eexists. split_and!; [done| |done]. split_and!; eauto.
  Qed.

  Lemma rank_lookup k v i m : alldom m → ascending cmp m → m !! i = Some (k, v) →
    rank cmp k m = i ∧ present cmp k m = true.
  Proof using ORD.
    intros Hd Hs Hi. pose proof (lookup_lt_Some _ _ _ Hi).
    rewrite <-(take_drop_middle m i (k, v)) in Hd, Hs |- * by done.
    pose proof (dom_m dom _ _ _ Hd) as Hk.
    destruct (pivot_eq cmp dom ORD (take i m) (drop (S i) m) (k, v) k) as (_&_&Hr&Hp); auto.
    { by apply (same_refl cmp dom ORD). }
    split; [|done]. rewrite Hr, take_length. lia.
  Qed.

  Lemma DeleteByIndex_spec t i : inv t →
    ∃ t' a, DeleteByIndex cmp t i = LRet (t', a) ∧ inv t' ∧
      (elements t', a) = spec_call cmp (elements t) (CDeleteByIndex i).
  Proof using ORD.
    intros (Hd&Hs&Hl&n&Hw). simpl. unfold DeleteByIndex.
    destruct t as [|c l k v r s] eqn:Ht.
    { do 2 eexists. split_and!; [done|split_and!; eauto|].
      unfold at_index. simpl. by destruct (i <? 0). }
    rewrite <-Ht in *.
    assert (s = Z.of_nat (length (elements t))) as ->.
    { subst t. by apply (lens_one_len c l k v r s) in Hl. }
    destruct (at_index i (elements t)) as [p|] eqn:Hi.
    - pose proof Hi as [? Hlk]%at_index_Some. pose proof (lookup_lt_Some _ _ _ Hlk).
      rewrite (proj2 (Z.ltb_ge i 0)), (proj2 (Z.leb_gt _ i)) by lia. cbn [orb].
      destruct (preDeleteByIndex_spec cmp dom ORD t i) as (t1&k0&v0&->&Hlk'&He&Hsh&Hl1);
        auto; [lia|]. cbn [lbind].
      destruct (rank_lookup k0 v0 (Z.to_nat i) (elements t)) as [Hr Hp]; auto.
      assert (dom k0) by (by apply (Forall_lookup_1 _ _ _ _ Hd Hlk')).
      destruct (delete_root t1 k0 n) as (t2&->&He2&Hl2&Hw2);
        rewrite ?He; eauto using shape_wf. cbn [lbind].
      do 2 eexists. split_and!; [done|..].
      + split_and!; rewrite ?elements_blacken, ?He2, ?He; auto using lens_blacken,
          alldom_remove, ascending_remove.
      + by rewrite elements_blacken, He2, He, Hr.
    - apply at_index_None in Hi.
      assert ((i <? 0) || (Z.of_nat (length (elements t)) <=? i) = true) as ->.
      { apply orb_true_iff. rewrite Z.ltb_lt, Z.leb_le. lia. }
      do 2 eexists. split_and!; [done| |done]. split_and!; eauto.
  Qed.

  (** ** Lookups *)
  Lemma GetByKey_spec t k : inv t → dom k →
    GetByKey cmp t k = RValue (s_lookup cmp k (elements t)).
  Proof using ORD.
    intros (Hd&Hs&_) Hk. induction t as [|c l IHl k' v' r IHr n]; [done|]. simpl in *.
    pose proof (dom_m _ _ _ _ Hd) as Hk'. simpl in Hk'. unfold s_lookup.
    destruct (cmp_cases cmp dom ORD k k') as (cr&Hcmp&[[Hc Hb]|[[Hc Hb]|[Hc Hb]]]); auto;
      rewrite Hcmp.
    - rewrite (proj2 (Z.ltb_lt cr 0)) by lia.
      destruct (pivot_lt cmp dom ORD (elements l) (elements r) (k', v') k) as (_&->&->); auto.
      rewrite IHl by eauto. f_equal. unfold s_lookup.
      destruct (present cmp k (elements l)) eqn:Hp; [|done].
      rewrite lookup_app_l; [done|]. apply (present_rank cmp dom ORD); eauto.
    - rewrite (proj2 (Z.ltb_ge cr 0)), (proj2 (Z.ltb_ge 0 cr)) by lia.
      destruct (pivot_eq cmp dom ORD (elements l) (elements r) (k', v') k) as (_&_&->&->); auto.
      rewrite list_lookup_middle by done. done.
    - rewrite (proj2 (Z.ltb_ge cr 0)), (proj2 (Z.ltb_lt 0 cr)) by lia.
      destruct (pivot_gt cmp dom ORD (elements l) (elements r) (k', v') k) as (_&->&->); auto.
      rewrite IHr by eauto. f_equal. unfold s_lookup.
      destruct (present cmp k (elements r)) eqn:Hp; [|done].
      rewrite lookup_app_r by lia.
      replace (length (elements l) + 1 + rank cmp k (elements r) - length (elements l))%nat
        with (S (rank cmp k (elements r))) by lia. done.
  Qed.

  Lemma walkIndex_spec t : lens one t → ∀ off i p, elements t !! i = Some p →
    ∀ c l k v r n, t = T c l k v r n →
    walkIndex t (off + tlen l) (off + Z.of_nat i) = LRet p.
  Proof.
    induction t as [|c l IHl k v r IHr n]; intros Hl off i p Hi c0 l0 k0 v0 r0 n0 [=]; subst c0 l0 k0 v0 r0 n0.
    simpl in Hl, Hi. destruct Hl as (Hll&Hlr&_). pose proof (lens_tlen _ _ Hll) as Htl.
    rewrite sumw_one in Htl. simpl. rewrite Htl.
    destruct (Z.eqb_spec (off + Z.of_nat (length (elements l))) (off + Z.of_nat i)) as [Heq|Hne].
    - assert (i = length (elements l)) as -> by lia.
      rewrite list_lookup_middle in Hi by done. by simplify_eq.
    - destruct (Z.ltb_spec (off + Z.of_nat i) (off + Z.of_nat (length (elements l)))) as [Hlt|Hge].
      + rewrite lookup_app_l in Hi by lia.
        destruct l as [|cl ll lk lv lr ln]; [done|].
        pose proof Hll as Hll'. simpl in Hll'. destruct Hll' as (H1&H2&_).
        rewrite (lens_tlen one lr), sumw_one by done.
        pose proof (IHl Hll off i p Hi _ _ _ _ _ _ eq_refl) as IH.
        rewrite (lens_tlen one ll), sumw_one in IH by done.
        rewrite <-IH. f_equal. simpl. rewrite app_length. simpl. lia.
      + rewrite lookup_app_r in Hi by lia.
        destruct (i - length (elements l))%nat as [|j] eqn:Hj; [lia|]. simpl in Hi.
        destruct r as [|cr rl rk rv rr rn]; [done|].
        pose proof (IHr Hlr (off + Z.of_nat (length (elements l)) + 1) j p Hi
          _ _ _ _ _ _ eq_refl) as IH.
        rewrite <-IH. f_equal; lia.
  Qed.

  Lemma GetByIndex_spec t i : inv t →
    GetByIndex t i = LRet (RItem (at_index i (elements t))).
  Proof.
    intros (_&_&Hl&_). unfold GetByIndex.
    destruct t as [|c l k v r s] eqn:Ht.
    { unfold at_index. simpl. by destruct (i <? 0). }
    rewrite <-Ht in *.
    assert (s = Z.of_nat (length (elements t))) as ->.
    { subst t. by apply (lens_one_len c l k v r s) in Hl. }
    destruct (at_index i (elements t)) as [p|] eqn:Hi.
    - pose proof Hi as [? Hlk]%at_index_Some. pose proof (lookup_lt_Some _ _ _ Hlk).
      rewrite (proj2 (Z.ltb_ge i 0)), (proj2 (Z.leb_gt _ i)) by lia. cbn [orb].
      pose proof (walkIndex_spec t Hl 0 _ _ Hlk _ _ _ _ _ _ Ht) as Hwalk.
      rewrite Z2Nat.id in Hwalk by lia.
      change (0 + tlen l) with (tlen l) in Hwalk. change (0 + i) with i in Hwalk.
      by rewrite Hwalk.
    - apply at_index_None in Hi.
      assert ((i <? 0) || (Z.of_nat (length (elements t)) <=? i) = true) as ->; [|done].
      apply orb_true_iff. rewrite Z.ltb_lt, Z.leb_le. lia.
  Qed.

  (** ** Patches *)
  Lemma s_set_app_l i v m p m' : (i < length m)%nat →
    s_set i v (m ++ p :: m') = s_set i v m ++ p :: m'.
  Proof. intros. unfold s_set. by rewrite alter_app_l. Qed.
  Lemma s_set_mid v m k v0 m' :
    s_set (length m) v (m ++ (k, v0) :: m') = m ++ (k, v) :: m'.
  Proof.
    unfold s_set. replace (length m) with (length m + 0)%nat by lia.
    by rewrite alter_app_r.
  Qed.
  Lemma s_set_app_r i v m p m' :
    s_set (length m + 1 + i) v (m ++ p :: m') = m ++ p :: s_set i v m'.
  Proof.
    unfold s_set. replace (length m + 1 + i)%nat with (length m + S i)%nat by lia.
    by rewrite alter_app_r.
  Qed.
  Lemma sumw_fst w m m' : m.*1 = m'.*1 → sumw w m = sumw w m'.
  Proof.
    revert m'. induction m as [|p m IH]; intros [|p' m']; simpl; try done.
    intros [= Hp Hm]. rewrite Hp. f_equal. by apply IH.
  Qed.
  Lemma length_fst m m' : m.*1 = m'.*1 → length m = length m'.
  Proof. intros H. apply (f_equal length) in H. by rewrite !fmap_length in H. Qed.
  Lemma length_s_set i v m : length (s_set i v m) = length m.
  Proof. unfold s_set. by rewrite alter_length. Qed.

  Lemma patchIndex_spec t v : lens one t → ∀ off i p, elements t !! i = Some p →
    ∀ c l k v0 r n, t = T c l k v0 r n → ∃ t',
    patchIndex t (off + tlen l) (off + Z.of_nat i) v = LRet t' ∧
    elements t' = s_set i v (elements t) ∧ shape t t' ∧ lens one t'.
  Proof.
    induction t as [|c l IHl k v1 r IHr n]; intros Hl off i p Hi c0 l0 k0 v0 r0 n0 [=]; subst c0 l0 k0 v0 r0 n0.
    pose proof (lens_one_len _ _ _ _ _ _ Hl) as Hn.
    simpl in Hl, Hi. destruct Hl as (Hll&Hlr&_). pose proof (lens_tlen _ _ Hll) as Htl.
    rewrite sumw_one in Htl. simpl. rewrite Htl.
    rewrite app_length in Hn. simpl in Hn.
    destruct (Z.eqb_spec (off + Z.of_nat (length (elements l))) (off + Z.of_nat i)) as [Heq|Hne].
    - assert (i = length (elements l)) as -> by lia.
      eexists. split_and!; [done|..]; simpl.
      + by rewrite s_set_mid.
      + constructor; apply shape_refl.
      + split_and!; auto. rewrite !sumw_one. unfold one. lia.
    - destruct (Z.ltb_spec (off + Z.of_nat i) (off + Z.of_nat (length (elements l)))) as [Hlt|Hge].
      + rewrite lookup_app_l in Hi by lia.
        destruct l as [|cl ll lk lv lr ln]; [done|].
        pose proof Hll as Hll'. simpl in Hll'. destruct Hll' as (H1&H2&_).
        rewrite (lens_tlen one lr), sumw_one by done.
        destruct (IHl Hll off i p Hi _ _ _ _ _ _ eq_refl) as (l'&IH&He&Hsh&Hl').
        rewrite (lens_tlen one ll), sumw_one in IH by done.
        match type of IH with patchIndex _ ?x _ _ = _ =>
          match goal with |- context [patchIndex _ ?y _ _] =>
            replace y with x by (simpl; rewrite app_length; simpl; lia) end end.
        rewrite IH. cbn [lbind]. eexists. split_and!; [done|..]; simpl.
        * rewrite He. simpl. rewrite (s_set_app_l i v (elements ll ++ (lk, lv) :: elements lr)); [done|]. simpl in Hlt. lia.
        * constructor; [done|apply shape_refl].
        * split_and!; auto. rewrite He, !sumw_one, length_s_set. unfold one. lia.
      + rewrite lookup_app_r in Hi by lia.
        destruct (i - length (elements l))%nat as [|j] eqn:Hj; [lia|]. simpl in Hi.
        destruct r as [|cr rl rk rv rr rn]; [done|].
        destruct (IHr Hlr (off + Z.of_nat (length (elements l)) + 1) j p Hi
          _ _ _ _ _ _ eq_refl) as (r'&IH&He&Hsh&Hr').
        match type of IH with patchIndex _ ?x ?i1 _ = _ =>
          match goal with |- context [patchIndex _ ?y ?i2 _] =>
            replace y with x by lia; replace i2 with i1 by lia end end.
        rewrite IH. cbn [lbind]. eexists. split_and!; [done|..]; simpl.
        * rewrite He. replace i with (length (elements l) + 1 + j)%nat by lia.
          by rewrite s_set_app_r.
        * constructor; [apply shape_refl|done].
        * split_and!; auto. rewrite He, !sumw_one, length_s_set. unfold one. lia.
  Qed.

  Lemma PatchByIndex_spec t i v : inv t →
    ∃ t' a, PatchByIndex t i v = LRet (t', a) ∧ inv t' ∧
      (elements t', a) = spec_call cmp (elements t) (CPatchByIndex i v).
  Proof.
    intros (Hd&Hs&Hl&n&Hw). simpl. unfold PatchByIndex.
    destruct t as [|c l k v0 r s] eqn:Ht.
    { do 2 eexists. split_and!; [done|split_and!; eauto|].
      unfold at_index. simpl. by destruct (i <? 0). }
    rewrite <-Ht in *.
    assert (s = Z.of_nat (length (elements t))) as ->.
    { subst t. by apply (lens_one_len c l k v0 r s) in Hl. }
    destruct (at_index i (elements t)) as [p|] eqn:Hi.
    - pose proof Hi as [? Hlk]%at_index_Some. pose proof (lookup_lt_Some _ _ _ Hlk).
      rewrite (proj2 (Z.ltb_ge i 0)), (proj2 (Z.leb_gt _ i)) by lia. cbn [orb].
      destruct (patchIndex_spec t v Hl 0 _ _ Hlk _ _ _ _ _ _ Ht) as (t'&Hwalk&He&Hsh&Hl').
      rewrite Z2Nat.id in Hwalk by lia.
      change (0 + tlen l) with (tlen l) in Hwalk. change (0 + i) with i in Hwalk.
      rewrite Hwalk. cbn [lbind]. do 2 eexists. split_and!; [done| |by rewrite He].
      split_and!; rewrite ?He; eauto using alldom_set, ascending_set, shape_wf.
    - apply at_index_None in Hi.
      assert ((i <? 0) || (Z.of_nat (length (elements t)) <=? i) = true) as ->.
      { apply orb_true_iff. rewrite Z.ltb_lt, Z.leb_le. lia. }
      do 2 eexists. split_and!; [done| |done]. split_and!; eauto.
  Qed.

  Lemma PatchByKey_spec' t k v : alldom (elements t) → ascending cmp (elements t) →
    lens one t → dom k →
    ∃ t', PatchByKey cmp t k v = (t', ROk (present cmp k (elements t))) ∧ shape t t' ∧
      lens one t' ∧
      elements t' = if present cmp k (elements t)
                    then s_set (rank cmp k (elements t)) v (elements t) else elements t.
  Proof using ORD.
    intros Hd Hs Hl Hk. induction t as [|c l IHl k' v' r IHr n]; simpl in *.
    { eexists. split_and!; try done. constructor. }
    pose proof (dom_m _ _ _ _ Hd) as Hk'. simpl in Hk'. destruct Hl as (Hll&Hlr&Hn).
    rewrite !sumw_one in Hn.
    destruct (cmp_cases cmp dom ORD k k') as (cr&Hcmp&[[Hc Hb]|[[Hc Hb]|[Hc Hb]]]); auto;
      rewrite Hcmp.
    - rewrite (proj2 (Z.ltb_lt cr 0)) by lia.
      destruct (pivot_lt cmp dom ORD (elements l) (elements r) (k', v') k) as (_&->&->); auto.
      destruct IHl as (l'&->&Hsh&Hl'&He); eauto. eexists. split_and!; [done|..]; simpl.
      + constructor; [done|apply shape_refl].
      + split_and!; auto. rewrite !sumw_one, He.
        match goal with |- context [if ?b then _ else _] => destruct b end;
          rewrite ?length_s_set; unfold one in *; lia.
      + rewrite He. destruct (present cmp k (elements l)) eqn:Hp; [|done].
        rewrite s_set_app_l; [done|]. apply (present_rank cmp dom ORD); eauto.
    - rewrite (proj2 (Z.ltb_ge cr 0)), (proj2 (Z.ltb_ge 0 cr)) by lia.
      destruct (pivot_eq cmp dom ORD (elements l) (elements r) (k', v') k) as (_&_&->&->); auto.
      eexists. split_and!; [done|..]; simpl.
      + constructor; apply shape_refl.
      + by rewrite !sumw_one.
      + by rewrite s_set_mid.
    - rewrite (proj2 (Z.ltb_ge cr 0)), (proj2 (Z.ltb_lt 0 cr)) by lia.
      destruct (pivot_gt cmp dom ORD (elements l) (elements r) (k', v') k) as (_&->&->); auto.
      destruct IHr as (r'&->&Hsh&Hl'&He); eauto. eexists. split_and!; [done|..]; simpl.
      + constructor; [apply shape_refl|done].
      + split_and!; auto. rewrite !sumw_one, He.
        match goal with |- context [if ?b then _ else _] => destruct b end;
          rewrite ?length_s_set; unfold one in *; lia.
      + rewrite He. destruct (present cmp k (elements r)) eqn:Hp; [|done].
        by rewrite s_set_app_r.
  Qed.
  Lemma PatchByKey_spec t k v : inv t → dom k →
    ∃ t' a, PatchByKey cmp t k v = (t', a) ∧ inv t' ∧
      (elements t', a) = spec_call cmp (elements t) (CPatchByKey k v).
  Proof using ORD.
    intros (Hd&Hs&Hl&n&Hw) Hk.
    destruct (PatchByKey_spec' t k v) as (t'&->&Hsh&Hl'&He); auto.
    do 2 eexists. split_and!; [done|..]; simpl.
    - split_and!; rewrite ?He; eauto using shape_wf;
        destruct (present _ _ _); auto using alldom_set, ascending_set.
    - rewrite He. by destruct (present _ _ _).
  Qed.

  (** ** Bisect *)
  Lemma bisectLoop_spec t k : alldom (elements t) → ascending cmp (elements t) →
    lens one t → dom k → ∀ off c l k0 v r n, t = T c l k0 v r n →
    let R := off + Z.of_nat (rank cmp k (elements t)) in
    bisectLeftLoop cmp t (off + tlen l) k =
      LRet (if present cmp k (elements t) then RIndex R true else RIndex (R - 1) false) ∧
    bisectRightLoop cmp t (off + tlen l) k =
      LRet (if present cmp k (elements t) then RIndex R true else RIndex R false).
  Proof using ORD.
    intros Hd Hs Hl Hk. induction t as [|c l IHl k' v' r IHr n];
      intros off c0 l0 k0 v0 r0 n0 [=]; subst c0 l0 k0 v0 r0 n0. simpl in *.
    pose proof (dom_m _ _ _ _ Hd) as Hk'. simpl in Hk'. destruct Hl as (Hll&Hlr&Hn).
    destruct (cmp_cases cmp dom ORD k k') as (cr&Hcmp&[[Hc Hb]|[[Hc Hb]|[Hc Hb]]]); auto;
      rewrite Hcmp.
    - rewrite (proj2 (Z.eqb_neq cr 0)), (proj2 (Z.ltb_lt cr 0)) by lia.
      destruct (pivot_lt cmp dom ORD (elements l) (elements r) (k', v') k) as (_&->&->); auto.
      destruct l as [|cl ll lk lv lr ln].
      + simpl. split; do 2 f_equal; lia.
      + destruct (IHl ltac:(eauto) ltac:(eauto) Hll off _ _ _ _ _ _ eq_refl) as [I1 I2].
        replace (off + tlen (T cl ll lk lv lr ln) - tlen lr - 1) with (off + tlen ll).
        * by rewrite I1, I2.
        * pose proof Hll as (H1&H2&?). simpl. rewrite !(lens_tlen one) by done.
          subst ln. rewrite !sumw_one. unfold one. lia.
    - rewrite (proj2 (Z.eqb_eq cr 0)) by lia.
      destruct (pivot_eq cmp dom ORD (elements l) (elements r) (k', v') k) as (_&_&->&->); auto.
      rewrite (lens_tlen one l), sumw_one by done. done.
    - rewrite (proj2 (Z.eqb_neq cr 0)), (proj2 (Z.ltb_ge cr 0)) by lia.
      destruct (pivot_gt cmp dom ORD (elements l) (elements r) (k', v') k) as (_&->&->); auto.
      rewrite (lens_tlen one l), sumw_one by done.
      destruct r as [|cr' rl rk rv rr rn].
      + simpl. rewrite rank_nil. split; do 2 f_equal; lia.
      + destruct (IHr ltac:(eauto) ltac:(eauto) Hlr (off + Z.of_nat (length (elements l)) + 1)
          _ _ _ _ _ _ eq_refl) as [I1 I2].
        match type of I1 with bisectLeftLoop _ _ ?x _ = _ =>
          match goal with |- context [bisectLeftLoop _ _ ?y _] =>
            replace y with x by lia end end.
        rewrite I1, I2. split; match goal with |- context [if ?b then _ else _] => destruct b end; do 2 f_equal; lia.
  Qed.

  Lemma Bisect_spec t k : inv t → dom k →
    LRet (spec_call cmp (elements t) (CBisectLeft k)).2 = BisectLeft cmp t k ∧
    LRet (spec_call cmp (elements t) (CBisectRight k)).2 = BisectRight cmp t k.
  Proof using ORD.
    intros (Hd&Hs&Hl&_) Hk. destruct t as [|c l k' v r n] eqn:Ht; [done|].
    unfold BisectLeft, BisectRight. rewrite <-Ht in *.
    destruct (bisectLoop_spec t k Hd Hs Hl Hk 0 _ _ _ _ _ _ Ht) as [I1 I2].
    change (0 + tlen l) with (tlen l) in *. rewrite I1, I2. done.
  Qed.

  (** ** All calls *)
  Lemma llrb_call_spec t c : inv t → Forall dom (call_keys c) →
    ∃ t' a, llrb_call cmp t c = LRet (t', a) ∧ inv t' ∧
      (elements t', a) = spec_call cmp (elements t) c.
  Proof using ORD.
    intros Hi Hk. destruct c as [k v|k|i|k v|i v|k|i|k|k|]; cbn [call_keys] in Hk;
      try (apply Forall_cons in Hk as [Hk _]); cbn [llrb_call].
    - by apply Put_spec.
    - rewrite GetByKey_spec by done. eauto 10.
    - rewrite GetByIndex_spec by done. simpl. eauto 10.
    - destruct (PatchByKey_spec t k v) as (t'&a&->&?&?); auto. eauto 10.
    - by apply PatchByIndex_spec.
    - by apply DeleteByKey_spec.
    - by apply DeleteByIndex_spec.
    - destruct (Bisect_spec t k) as [<- _]; auto. simpl. eauto 10.
    - destruct (Bisect_spec t k) as [_ <-]; auto. simpl. eauto 10.
    - rewrite inv_Len by done. simpl. eauto 10.
  Qed.

  Lemma inv_E : inv E.
  Proof. split_and!; [constructor|constructor|done|exists 0%nat; constructor]. Qed.

  Lemma llrb_step_spec t o : inv t → Forall dom (op_keys o) →
    ∃ t' a, llrb_step cmp t o = LRet (t', a) ∧ inv t' ∧
      (elements t', a) = spec_llrb_step cmp (elements t) o.
  Proof using ORD.
    intros Hi Hk. destruct o as [c| |]; simpl.
    - by apply llrb_call_spec.
    - do 2 eexists. split_and!; [done|apply inv_E|done].
    - do 2 eexists. split_and!; [done..|]. f_equal. f_equal.
      apply validate_spec. apply Hi.
  Qed.

  Lemma llrb_run_spec os : ∀ t, inv t → Forall dom (concat (op_keys <$> os)) →
    ∃ t' as_, llrb_run cmp t os = LRet (t', as_) ∧ inv t' ∧
      spec_llrb_run cmp (elements t) os = (elements t', as_).
  Proof using ORD.
    induction os as [|o os IH]; intros t Hi Hk; simpl; [by eauto|].
    simpl in Hk. apply Forall_app in Hk as [Hk1 Hk2].
    destruct (llrb_step_spec t o) as (t1&a&->&Hi1&<-); auto. cbn [lbind].
    destruct (IH t1) as (t2&as_&->&Hi2&->); auto. cbn [lbind]. eauto.
  Qed.
End proof.

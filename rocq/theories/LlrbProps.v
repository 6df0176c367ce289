(** Proofs of the LLRB property statements. *)
From Coq Require Import Sorted.
From stdpp Require Import prelude list.
From Verif Require Import Spec SpecFacts Llrb LlrbSpec LlrbProof LlrbDelete LlrbApi Compare.
Open Scope Z_scope.

Section props.
  Context (K V : Type) (cmp : K → K → option Z) (dom : K → Prop).
  Hypothesis ORD : total_order cmp dom.

  Lemma llrb_refines (os : list (llrb_op K V)) : keys_in dom os →
    ∃ t, llrb_run cmp NewLLRBTree os = LRet (t, (spec_llrb_run cmp [] os).2).
  Proof using ORD.
    intros Hk. destruct (llrb_run_spec cmp dom ORD os E) as (t&as_&Hr&_&Hs);
      [apply inv_E|done|].
    exists t. unfold NewLLRBTree. rewrite Hr. simpl in Hs. by rewrite Hs.
  Qed.
  Lemma reachable_inv t : llrb_reachable (V:=V) cmp dom t → inv cmp dom t.
  Proof using ORD.
    intros (os&as_&Hk&Hr). destruct (llrb_run_spec cmp dom ORD os E) as (t'&as'&Hr'&Hi&_);
      [apply inv_E|done|]. unfold NewLLRBTree in Hr. rewrite Hr in Hr'. by simplify_eq.
  Qed.
  Lemma run_elements os t as_ : keys_in (V:=V) dom os →
    llrb_run cmp NewLLRBTree os = LRet (t, as_) →
    inv cmp dom t ∧ (spec_llrb_run cmp [] os).1 = elements t.
  Proof using ORD.
    intros Hk Hr. destruct (llrb_run_spec cmp dom ORD os E) as (t'&as'&Hr'&Hi&Hs);
      [apply inv_E|done|]. unfold NewLLRBTree in Hr. rewrite Hr in Hr'. simplify_eq.
    simpl in Hs. by rewrite Hs.
  Qed.

  Lemma llrb_index_order t : llrb_reachable (V:=V) cmp dom t →
    (∀ i, if bool_decide (0 ≤ i < Len t)
          then ∃ k v, GetByIndex t i = LRet (RItem (Some (k, v))) ∧
                      GetByKey cmp t k = RValue (Some v)
          else GetByIndex t i = LRet (RItem None)) ∧
    (∀ i j ki vi kj vj, i < j →
       GetByIndex t i = LRet (RItem (Some (ki, vi))) →
       GetByIndex t j = LRet (RItem (Some (kj, vj))) → below cmp ki kj = true).
  Proof using ORD.
    intros Hr. pose proof (reachable_inv t Hr) as Hi. split.
    - intros i. rewrite (GetByIndex_spec cmp dom) by done.
      rewrite (inv_Len cmp dom) by done. case_bool_decide as Hb.
      + destruct (at_index i (elements t)) as [[k v]|] eqn:Hat.
        * exists k, v. split; [done|].
          apply at_index_Some in Hat as [_ Hlk]. destruct Hi as (Hd&Hs&?).
          destruct (rank_lookup cmp dom ORD k v _ _ Hd Hs Hlk) as [Hrk Hp].
          rewrite (GetByKey_spec cmp dom ORD); [|done|].
          -- unfold s_lookup. rewrite Hp, Hrk, Hlk. done.
          -- exact (Forall_lookup_1 _ _ _ _ Hd Hlk).
        * apply at_index_None in Hat. lia.
      + rewrite (proj2 (at_index_None i (elements t))); [done|lia].
    - intros i j ki vi kj vj Hij. rewrite !(GetByIndex_spec cmp dom) by done.
      intros [= [? H1]%at_index_Some] [= [? H2]%at_index_Some]. destruct Hi as (_&Hs&_).
      rewrite <-(take_drop_middle _ _ _ H1) in Hs. apply ascending_mid in Hs as (_&_&_&Ha&_).
      assert (drop (S (Z.to_nat i)) (elements t) !! (Z.to_nat j - S (Z.to_nat i))%nat
              = Some (kj, vj)) as Hl.
      { rewrite lookup_drop. replace (S (Z.to_nat i) + (Z.to_nat j - S (Z.to_nat i)))%nat
          with (Z.to_nat j) by lia. done. }
      exact (Forall_lookup_1 _ _ _ _ Ha Hl).
  Qed.

  Lemma present_spec k (m : list (K * V)) :
    present cmp k m = true ↔ ∃ p, p ∈ m ∧ same cmp k p.1 = true.
  Proof.
    unfold present. rewrite existsb_exists. setoid_rewrite elem_of_list_In. done.
  Qed.

  Lemma llrb_bisect (os : list (llrb_op K V)) t as_ : keys_in dom os →
    llrb_run cmp NewLLRBTree os = LRet (t, as_) →
    let m := (spec_llrb_run cmp [] os).1 in
    ∀ k, dom k →
    let r := Z.of_nat (length (filter (λ p, below cmp p.1 k = true) m)) in
    ((∃ p, p ∈ m ∧ same cmp k p.1 = true) →
       BisectLeft cmp t k = LRet (RIndex r true) ∧ BisectRight cmp t k = LRet (RIndex r true) ∧
       ∃ k' v, GetByIndex t r = LRet (RItem (Some (k', v))) ∧ same cmp k k' = true) ∧
    ((¬ ∃ p, p ∈ m ∧ same cmp k p.1 = true) →
       BisectLeft cmp t k = LRet (RIndex (r - 1) false) ∧
       BisectRight cmp t k = LRet (RIndex r false)).
  Proof using ORD.
    intros Hk Hr m k Hdk. unfold m. destruct (run_elements os t as_ Hk Hr) as [Hi ->].
    destruct (Bisect_spec cmp dom ORD t k Hi Hdk) as [<- <-].
    cbn [spec_call snd]. split.
    - intros Hp%present_spec. rewrite Hp. split_and!; [done..|].
      rewrite (GetByIndex_spec cmp dom) by done.
      destruct Hi as (Hd&Hs&_). apply present_spec in Hp as ([k' v]&Hin&Hsame).
      apply elem_of_list_split in Hin as (l1&l2&Heq). rewrite Heq in Hd, Hs |- *.
      destruct (pivot_eq cmp dom ORD l1 l2 (k', v) k) as (_&_&Hrk&_); auto.
      unfold rank in Hrk. rewrite Hrk, at_index_mid. eauto.
    - intros Hp. assert (present cmp k (elements t) = false) as ->; [|done].
      apply not_true_iff_false. by rewrite present_spec.
  Qed.

  Lemma llrb_no_panic t : llrb_reachable (V:=V) cmp dom t →
    ∀ o, Forall dom (op_keys o) →
    ∃ t' a, llrb_step cmp t o = LRet (t', a) ∧ ∀ ok, a ≠ RErr ok.
  Proof using ORD.
    intros Hr o Ho. pose proof (reachable_inv t Hr) as Hi.
    destruct (llrb_step_spec cmp dom ORD t o Hi Ho) as (t'&a&->&_&Hs).
    do 2 eexists. split; [done|]. intros ok ->.
    destruct o as [[]| |]; simpl in Hs; repeat case_match; simplify_eq.
  Qed.

  Lemma llrb_logarithmic t : llrb_reachable (V:=V) cmp dom t → ∀ k,
    let n := Z.to_nat (Len t) in
    (GetByKey_compares cmp t k ≤ 2 * Nat.log2 (n + 1))%nat ∧
    (Bisect_compares cmp t k ≤ 2 * Nat.log2 (n + 1))%nat.
  Proof using ORD.
    intros Hr k. pose proof (reachable_inv t Hr) as Hi. simpl.
    rewrite (inv_Len cmp dom), Nat2Z.id by done. destruct Hi as (_&_&_&n&Hw).
    pose proof (wf_depth n t Hw). destruct (compares_height cmp t k). lia.
  Qed.

  Lemma llrb_patch t : llrb_reachable (V:=V) cmp dom t → ∀ v t',
    (∀ i a, PatchByIndex t i v = LRet (t', a) →
       a = ROk (bool_decide (0 ≤ i < Len t)) ∧ Len t' = Len t ∧
       ∀ j k w, GetByIndex t j = LRet (RItem (Some (k, w))) →
                GetByIndex t' j = LRet (RItem (Some (k, if bool_decide (j = i) then v else w)))) ∧
    (∀ k0 a, dom k0 → PatchByKey cmp t k0 v = (t', a) →
       a = ROk (match GetByKey cmp t k0 with RValue (Some _) => true | _ => false end) ∧ Len t' = Len t ∧
       ∀ j k w, GetByIndex t j = LRet (RItem (Some (k, w))) →
                GetByIndex t' j = LRet (RItem (Some (k, if same cmp k0 k then v else w)))).
  Proof using ORD.
    intros Hr v t'. pose proof (reachable_inv t Hr) as Hi. split.
    - intros i a Ha. destruct (PatchByIndex_spec cmp dom t i v Hi) as (t1&a1&Ha1&Hi1&Hs).
      rewrite Ha in Ha1. simplify_eq. simpl in Hs. rewrite !(inv_Len cmp dom) by done.
      destruct (at_index i (elements t)) eqn:Hat; simplify_eq.
      + pose proof Hat as [? Hlk]%at_index_Some. pose proof (lookup_lt_Some _ _ _ Hlk).
        split_and!.
        * rewrite bool_decide_true; [done|lia].
        * congruence || (rewrite H; by rewrite length_s_set).
        * intros j k w. rewrite !(GetByIndex_spec cmp dom) by done.
          intros [= [? Hj]%at_index_Some].
          match goal with H : elements t1 = _ |- _ => rewrite H end.
          unfold s_set. unfold at_index. rewrite (proj2 (Z.ltb_ge j 0)) by lia.
          case_bool_decide as Hji.
          -- subst. rewrite list_lookup_alter, Hj. done.
          -- rewrite list_lookup_alter_ne by lia. by rewrite Hj.
      + apply at_index_None in Hat. split_and!.
        * rewrite bool_decide_false; [done|lia].
        * congruence.
        * intros j k w. rewrite !(GetByIndex_spec cmp dom) by done.
          match goal with H : elements t1 = _ |- _ => rewrite H end.
          intros [= Hj]. rewrite Hj. rewrite bool_decide_false; [done|].
          apply at_index_Some in Hj as [? Hj]. apply lookup_lt_Some in Hj. lia.
    - intros k0 a Hk0 Ha. destruct (PatchByKey_spec cmp dom ORD t k0 v Hi Hk0) as (t1&a1&Ha1&Hi1&Hs).
      rewrite Ha in Ha1. injection Ha1 as <- <-. simpl in Hs. rewrite !(inv_Len cmp dom) by done.
      rewrite (GetByKey_spec cmp dom ORD) by done. unfold s_lookup.
      destruct Hi as (Hd&Hs'&Hl'). destruct (present cmp k0 (elements t)) eqn:Hp.
      + injection Hs as He ->. pose proof (present_rank cmp dom ORD _ _ Hk0 Hd Hs' Hp) as Hlt.
        split_and!.
        * apply lookup_lt_is_Some_2 in Hlt as [[k' v'] ->]. done.
        * by rewrite He, length_s_set.
        * intros j k w. rewrite !(GetByIndex_spec cmp dom) by done.
          intros [= [? Hj]%at_index_Some]. rewrite He.
          unfold s_set. unfold at_index. rewrite (proj2 (Z.ltb_ge j 0)) by lia.
          apply present_spec in Hp as ([k' v']&Hin&Hsame).
          apply elem_of_list_split in Hin as (l1&l2&Heq). rewrite Heq in Hd, Hs'.
          destruct (pivot_eq cmp dom ORD l1 l2 (k', v') k0) as (Hb&Hab&Hrk&_); auto.
          rewrite Heq in Hj |- *. rewrite Hrk. clear Heq He Hlt.
          apply alldom_app in Hd as [Hd1 [? Hd2]%alldom_cons].
          destruct (decide (Z.to_nat j = length l1)) as [Hjl|Hjl].
          -- rewrite Hjl, list_lookup_alter. rewrite Hjl, list_lookup_middle in Hj by done.
             injection Hj as <- <-. rewrite list_lookup_middle by done. simpl.
             simpl in Hsame. by rewrite Hsame.
          -- rewrite list_lookup_alter_ne by done. rewrite Hj. repeat f_equal.
             destruct (decide (Z.to_nat j < length l1)%nat).
             ++ rewrite lookup_app_l in Hj by lia.
                rewrite (below_not_same' cmp dom ORD); auto.
                ** exact (Forall_lookup_1 _ _ _ _ Hd1 Hj).
                ** exact (Forall_lookup_1 _ _ _ _ Hb Hj).
             ++ rewrite lookup_app_r in Hj by lia.
                destruct (Z.to_nat j - length l1)%nat eqn:?; [lia|]. simpl in Hj.
                rewrite (below_not_same cmp dom); auto.
                ** exact (Forall_lookup_1 _ _ _ _ Hd2 Hj).
                ** exact (Forall_lookup_1 _ _ _ _ Hab Hj).
      + injection Hs as He ->. split_and!.
        * done.
        * by rewrite He.
        * intros j k w. rewrite !(GetByIndex_spec cmp dom) by done. rewrite He.
          intros [= Hj]. rewrite Hj. repeat f_equal.
          apply at_index_Some in Hj as [? Hj]. destruct (same cmp k0 k) eqn:Hsame; [|done].
          exfalso. apply not_true_iff_false in Hp. apply Hp, present_spec.
          exists (k, w). split; [|done]. by eapply elem_of_list_lookup_2.
  Qed.
End props.

Local Arguments fixUp : simpl never.
Lemma count_elements {K V} (t : tree K V) : count t = Z.of_nat (length (elements t)).
Proof.
  induction t as [|c l IHl k v r IHr n]; simpl; [done|]. rewrite app_length. simpl. lia.
Qed.
Lemma llrb_validate :
  (∀ (K V : Type) (cmp : K → K → option Z) (dom : K → Prop), total_order cmp dom →
   ∀ t : tree K V, llrb_reachable cmp dom t → validate t = true) ∧
  (∀ (K V : Type) (t : tree K V),
     validate t = true ↔ ∀ s, is_node_of s t → tlen s = count s).
Proof.
  split.
  - intros K V cmp dom ORD t Hr. apply validate_spec.
    by apply (reachable_inv K V cmp dom ORD t Hr).
  - intros K V t. rewrite validate_spec.
    induction t as [|c l IHl k v r IHr n].
    { simpl. split; [|done]. by intros _ s []. }
    cbn [lens is_node_of]. rewrite IHl, IHr, !sumw_one. split.
    + intros (Hl&Hr&Hn) s [->|[Hs|Hs]]; auto. simpl. rewrite !count_elements.
      unfold one in Hn. lia.
    + intros H. split_and!; auto. specialize (H _ (or_introl eq_refl)). simpl in H.
      rewrite !count_elements in H. unfold one. lia.
Qed.

Lemma llrb_failed_put : ∀ (K V : Type) (cmp : K → K → option Z) (t : tree K V) k v t' ok,
  Put cmp t k v = LRet (t', RErr ok) → t' = t ∧ ok = false.
Proof.
  intros K V cmp t k v t' ok H. split; [by eapply Put_err|].
  unfold Put in H. destruct (insert cmp t k v) as [[[t1 ok'] err]| |] eqn:Hi; try done.
  cbn [lbind] in H. destruct err; [|destruct ok'; [destruct (postInsertAdjustLen _ _ _)|]; done].
  injection H as <- <-. clear -Hi.
  destruct t as [|c l k' v' r n]; simpl in Hi; [done|].
  destruct (cmp k k'); [|naive_solver].
  destruct (_ <? _); [|destruct (_ <? _); [|done]].
  - destruct (insert cmp l k v) as [[[? []] []]| |]; simpl in Hi; try naive_solver.
    destruct (fixUp _); naive_solver.
  - destruct (insert cmp r k v) as [[[? []] []]| |]; simpl in Hi; try naive_solver.
    destruct (fixUp _); naive_solver.
Qed.

Lemma preDelete_err {K V} (cmp : K → K → option Z) (t : tree K V) k t' ok :
  preDeleteByKeyAdjustLen cmp t k = (t', ok, true) → t' = t.
Proof.
  revert t' ok. induction t as [|c l IHl k' v r IHr n]; simpl; intros t' ok H; [done|].
  destruct (cmp k k'); [|by simplify_eq].
  destruct (_ <? _); [|destruct (_ <? _); [|done]].
  - destruct (preDeleteByKeyAdjustLen cmp l k) as [[l' ok'] []]; [|by destruct ok'].
    injection H as <- <-. f_equal. by eapply IHl.
  - destruct (preDeleteByKeyAdjustLen cmp r k) as [[r' ok'] []]; [|by destruct ok'].
    injection H as <- <-. f_equal. by eapply IHr.
Qed.
Lemma llrb_failed_delete : ∀ (K V : Type) (cmp : K → K → option Z) (t : tree K V) k t',
  DeleteByKey cmp t k = LRet (t', RErr false) → t' = t.
Proof.
  intros K V cmp t k t'. unfold DeleteByKey.
  destruct (preDeleteByKeyAdjustLen cmp t k) as [[t1 ok] err] eqn:Hp.
  destruct err.
  - intros [= <- ->]. by eapply preDelete_err.
  - destruct ok; [|done]. destruct (delete _ _ _ _) as [[t2 []]| |]; done.
Qed.
Lemma llrb_failed_delete_refuted :
  ∃ (t t' : tree key Z),
    Put CompareInt NewLLRBTree (KString [97]) 1 = LRet (t, ROk true) ∧
    DeleteByIndex CompareInt t 0 = LRet (t', RErr true) ∧
    Len t = 1 ∧ Len t' = 0 ∧ validate t' = false ∧ count t' = 1.
Proof. do 2 eexists. split_and!; reflexivity. Qed.

(** * Rules for the calls a B+Tree node makes on its own LLRB tree

    Models no code. *)
From Coq Require Import ssreflect.
From stdpp Require Import prelude list gmap.
From iris.bi Require Import bi.
From iris.proofmode Require Import proofmode.
From Verif Require Import Spec SpecFacts Llrb LlrbApi BTree HProp Lru Wp.
Open Scope Z_scope.

Section kv.
  Context {K V : Type}.
  Variable cb : callbacks K V.
  Variable dom : K → Prop.
  Hypothesis ORD : total_order (cb_cmp cb) dom.
  Notation cmp := (cb_cmp cb).
  Notation M := (M K V).
  Notation hProp := (hProp K V).
  Notation bval := (bval V).
  Notation tree := (tree K bval).
  Implicit Types (els : list (K * bval)) (kv : tree) (r : bnode K V).

  Definition iskv els kv : Prop := inv cmp dom kv ∧ elements kv = els.
  Lemma iskv_E : iskv [] E.
  Proof. split; [apply inv_E|done]. Qed.
  Lemma iskv_dom els kv : iskv els kv → Forall (λ p, dom p.1) els.
  Proof. intros [(H & _) <-]. done. Qed.
  Lemma iskv_asc els kv : iskv els kv → ascending cmp els.
  Proof. intros [(_ & H & _) <-]. done. Qed.

  Lemma wp_lift io {A} (m : lo A) a Q E : m = LRet a → Q a ⊢ wp (K:=K) (V:=V) io (lift m) Q E.
  Proof. intros ->. apply wp_ret. Qed.
  Lemma wp_deref io o n Q E : o = Some n → Q n ⊢ wp (K:=K) (V:=V) io (deref o) Q E.
  Proof. intros ->. apply wp_ret. Qed.
  Lemma wp_asNode io n Q E : Q n ⊢ wp (K:=K) (V:=V) io (asNode (VNode n)) Q E.
  Proof. apply wp_ret. Qed.
  Lemma wp_logicOk io Q E : Q tt ⊢ wp (K:=K) (V:=V) io (logicOk true) Q E.
  Proof. apply wp_ret. Qed.
  Lemma wp_logicSome io {A} (a : A) Q E : Q a ⊢ wp (K:=K) (V:=V) io (logicSome (Some a)) Q E.
  Proof. apply wp_ret. Qed.

  Section rules.
    Context (io : bool) (n : nid) (r : bnode K V) (kv : tree) (els : list (K * bval)).
    Hypothesis (Hr : b_kv r = Some kv) (Hkv : iskv els kv).

    Lemma wp_kvOf Q E : isN n r -∗ (isN n r -∗ Q kv) -∗ wp io (kvOf n) Q E.
    Proof using Hr.
      iIntros "HN H". iApply wp_bind. iApply (wp_getN with "HN"). iIntros "HN". rewrite Hr.
      iApply wp_ret. by iApply "H".
    Qed.
    Lemma wp_kvLen Q E : isN n r -∗ (isN n r -∗ Q (Z.of_nat (length els))) -∗ wp io (kvLen n) Q E.
    Proof using Hr Hkv.
      iIntros "HN H". iApply wp_bind. iApply (wp_kvOf with "HN"). iIntros "HN".
      destruct Hkv as [Hi <-]. rewrite (inv_Len _ _ _ Hi). iApply wp_ret. by iApply "H".
    Qed.
    Lemma wp_kvGet i Q E : isN n r -∗ (isN n r -∗ Q (at_index i els)) -∗ wp io (kvGet n i) Q E.
    Proof using Hr Hkv.
      iIntros "HN H". iApply wp_bind. iApply (wp_kvOf with "HN"). iIntros "HN".
      destruct Hkv as [Hi <-]. rewrite (GetByIndex_spec _ _ _ _ Hi).
      iApply wp_bind. iApply wp_ret. iApply wp_ret. by iApply "H".
    Qed.
    Lemma wp_kvGet_nat i p Q E : els !! i = Some p →
      isN n r -∗ (isN n r -∗ Q (Some p)) -∗ wp io (kvGet n (Z.of_nat i)) Q E.
    Proof using Hr Hkv.
      iIntros (Hi) "HN H". iApply (wp_kvGet with "HN"). unfold at_index.
      destruct (Z.ltb_spec (Z.of_nat i) 0); [lia|]. by rewrite Nat2Z.id Hi.
    Qed.
    Lemma wp_kvPut k v Q E : dom k → present cmp k els = false →
      isN n r -∗ (∀ kv' (_ : iskv (s_insert cmp k v els) kv'), isN n (set_kv (Some kv') r) -∗ Q true) -∗
      wp io (kvPut cb n k v) Q E.
    Proof using Hr Hkv ORD.
      iIntros (Hk Hp) "HN H". iApply wp_bind. iApply (wp_kvOf with "HN"). iIntros "HN".
      destruct Hkv as [Hi <-]. destruct (Put_spec cmp dom ORD kv k v Hi Hk) as (t' & a & Hput & Hi' & Hc).
      cbn in Hc. rewrite Hp in Hc. simplify_eq.
      rewrite Hput. iApply wp_bind. iApply wp_ret. iApply wp_bind. iApply (wp_modN with "HN"). iIntros "HN".
      iApply wp_ret. by iApply ("H" $! _ (conj Hi' ltac:(done))).
    Qed.
    Lemma wp_kvPut_ k v Q E : dom k → present cmp k els = false →
      isN n r -∗ (∀ kv' (_ : iskv (s_insert cmp k v els) kv'), isN n (set_kv (Some kv') r) -∗ Q tt) -∗
      wp io (kvPut_ cb n k v) Q E.
    Proof using Hr Hkv ORD.
      iIntros (Hk Hp) "HN H". iApply wp_bind. iApply (wp_kvOf with "HN"). iIntros "HN".
      destruct Hkv as [Hi <-]. destruct (Put_spec cmp dom ORD kv k v Hi Hk) as (t' & a & Hput & Hi' & Hc).
      cbn in Hc. rewrite Hp in Hc. simplify_eq.
      rewrite Hput. iApply wp_bind. iApply wp_ret. iApply (wp_modN with "HN"). iIntros "HN".
      by iApply ("H" $! _ (conj Hi' ltac:(done))).
    Qed.
    Lemma wp_kvDelIndex i p Q E : els !! i = Some p →
      isN n r -∗ (∀ kv' (_ : iskv (s_remove i els) kv'), isN n (set_kv (Some kv') r) -∗ Q true) -∗
      wp io (kvDelIndex cb n (Z.of_nat i)) Q E.
    Proof using Hr Hkv ORD.
      iIntros (Hp) "HN H". iApply wp_bind. iApply (wp_kvOf with "HN"). iIntros "HN".
      destruct Hkv as [Hi <-]. destruct (DeleteByIndex_spec cmp dom ORD kv (Z.of_nat i) Hi) as (t' & a & Hput & Hi' & Hc).
      cbn in Hc. unfold at_index in Hc. destruct (Z.ltb_spec (Z.of_nat i) 0); [lia|]. rewrite Nat2Z.id Hp in Hc. simplify_eq.
      rewrite Hput. iApply wp_bind. iApply wp_ret. iApply wp_bind. iApply (wp_modN with "HN"). iIntros "HN".
      iApply wp_ret. by iApply ("H" $! _ (conj Hi' ltac:(done))).
    Qed.
    Lemma wp_kvDelKey k Q E : dom k →
      isN n r -∗
      (∀ kv' (_ : iskv (if present cmp k els then s_remove (rank cmp k els) els else els) kv'),
         isN n (set_kv (Some kv') r) -∗ Q (present cmp k els)) -∗
      wp io (kvDelKey cb n k) Q E.
    Proof using Hr Hkv ORD.
      iIntros (Hk) "HN H". iApply wp_bind. iApply (wp_kvOf with "HN"). iIntros "HN".
      destruct Hkv as [Hi <-]. destruct (DeleteByKey_spec cmp dom ORD kv k Hi Hk) as (t' & a & Hput & Hi' & Hc).
      cbn in Hc.
      rewrite Hput. iApply wp_bind. iApply wp_ret. iApply wp_bind. iApply (wp_modN with "HN"). iIntros "HN".
      destruct (present cmp k (elements kv)); simplify_eq;
      iApply wp_ret; by iApply ("H" $! _ (conj Hi' ltac:(done))).
    Qed.
    Lemma wp_kvBisectLeft k Q E : dom k →
      isN n r -∗
      (isN n r -∗ Q (if present cmp k els then (Z.of_nat (rank cmp k els), true) else (Z.of_nat (rank cmp k els) - 1, false))) -∗
      wp io (kvBisectLeft cb n k) Q E.
    Proof using Hr Hkv ORD.
      iIntros (Hk) "HN H". iApply wp_bind. iApply (wp_kvOf with "HN"). iIntros "HN".
      destruct Hkv as [Hi <-]. destruct (Bisect_spec cmp dom ORD kv k Hi Hk) as [<- _].
      cbn. iApply wp_bind. iApply wp_ret. destruct (present cmp k (elements kv)); iApply wp_ret; by iApply "H".
    Qed.
    Lemma wp_kvBisectRight k Q E : dom k →
      isN n r -∗
      (isN n r -∗ Q (Z.of_nat (rank cmp k els), present cmp k els)) -∗
      wp io (kvBisectRight cb n k) Q E.
    Proof using Hr Hkv ORD.
      iIntros (Hk) "HN H". iApply wp_bind. iApply (wp_kvOf with "HN"). iIntros "HN".
      destruct Hkv as [Hi <-]. destruct (Bisect_spec cmp dom ORD kv k Hi Hk) as [_ <-].
      cbn. iApply wp_bind. iApply wp_ret. destruct (present cmp k (elements kv)); iApply wp_ret; by iApply "H".
    Qed.
    Lemma wp_kvGetKey k Q E : dom k →
      isN n r -∗ (isN n r -∗ Q (s_lookup cmp k els)) -∗ wp io (kvGetKey cb n k) Q E.
    Proof using Hr Hkv ORD.
      iIntros (Hk) "HN H". iApply wp_bind. iApply (wp_kvOf with "HN"). iIntros "HN".
      destruct Hkv as [Hi <-]. rewrite (GetByKey_spec cmp dom ORD kv k Hi Hk).
      iApply wp_ret. by iApply "H".
    Qed.
  End rules.
End kv.

(** * On-disk encoding of nodes, and reading and writing it

    Models no code; proofs about the serialisation in BTree.v. *)
From Coq Require Import ssreflect.
From stdpp Require Import prelude list gmap.
From iris.bi Require Import bi.
From iris.proofmode Require Import proofmode.
From Verif Require Import Spec SpecFacts Llrb LlrbApi BTree HProp Lru Wp Kv.
Open Scope Z_scope.

Global Arguments u64 : simpl never.

(** a uint64 *)
Definition fits (z : Z) : Prop := 0 ≤ z < 2 ^ 64.

Lemma unle_le n z rest : 0 ≤ z < 256 ^ Z.of_nat n → unle n (le n z ++ rest) = Some (z, rest).
Proof.
  revert z. induction n as [|n IH]; intros z Hz.
  - simpl. do 2 f_equal. change (256 ^ Z.of_nat 0) with 1 in Hz. lia.
  - rewrite Nat2Z.inj_succ Z.pow_succ_r in Hz; [|lia]. cbn. rewrite IH.
    + do 2 f_equal. pose proof (Z.div_mod z 256). lia.
    + pose proof (Z.div_mod z 256). pose proof (Z.mod_pos_bound z 256). nia.
Qed.
Lemma unle_u64 z rest : fits z → unle 8 (u64 z ++ rest) = Some (z, rest).
Proof. intros H. apply unle_le. exact H. Qed.
Lemma le_length n z : length (le n z) = n.
Proof. revert z. induction n as [|n IH]; intros z; simpl; [done|]. by rewrite IH. Qed.
Lemma u64_length z : length (u64 z) = 8%nat.
Proof. apply le_length. Qed.

(** The client's side of the contract *)
Record wf_cb {K V} (cb : callbacks K V) (dom : K → Prop) (domV : V → Prop) : Prop := {
  wf_ord : total_order (cb_cmp cb) dom;
  wf_packK k : dom k → ∃ b, cb_packK cb k = Some b ∧
    ∀ rest, cb_unpackK cb (b ++ rest) = Some (k, length b);
  wf_packV v : domV v → ∃ b, cb_packV cb v = Some b ∧
    ∀ rest, cb_unpackV cb (b ++ rest) = Some (v, length b);
}.

Section codec.
  Context {K V : Type}.
  Variable cb : callbacks K V.
  Variable dom : K → Prop.
  Variable domV : V → Prop.
  Hypothesis WF : wf_cb cb dom domV.
  Notation cmp := (cb_cmp cb).
  Notation M := (M K V).
  Notation hProp := (hProp K V).
  Notation bval := (bval V).
  Let ORD := wf_ord _ _ _ WF.

  Definition pk (k : K) : bytes := default [] (cb_packK cb k).
  Definition pv (v : V) : bytes := default [] (cb_packV cb v).
  Definition enc_mx (mx : option Z) : bytes := match mx with Some m => u64 m | None => [] end.
  Definition enc_kv (p : K * V) : bytes := pk p.1 ++ pv p.2.
  Definition enc_ref (p : loc * Z) : bytes :=
    u64 (lnum p.1) ++ u64 (loff p.1) ++ u64 (llen p.1) ++ u64 p.2.
  Definition enc_kref (p : K * (loc * Z)) : bytes := pk p.1 ++ enc_ref p.2.
  Definition isS {A} (o : option A) : bool := match o with Some _ => true | None => false end.
  Definition enc_leaf (mx : option Z) (kvs : list (K * V)) : bytes :=
    u64 (Z.of_nat (length kvs)) ++ [bool_byte (isS mx); 1] ++ enc_mx mx ++
    u64 (Z.of_nat (length kvs)) ++ mjoin (enc_kv <$> kvs).
  Definition enc_inner (mx : option Z) (sz : Z) (ref : loc * Z) (krefs : list (K * (loc * Z))) : bytes :=
    u64 sz ++ [bool_byte (isS mx); 0] ++ enc_mx mx ++
    u64 (1 + Z.of_nat (length krefs)) ++ enc_ref ref ++ mjoin (enc_kref <$> krefs).

  Lemma unpackU64_ok z rest : fits z → unpackU64 (K:=K) (V:=V) (u64 z ++ rest) = ret (z, rest).
  Proof. intros H. unfold unpackU64. by rewrite unle_u64. Qed.
  Lemma slice_ok b rest : slice (K:=K) (V:=V) (length b) (b ++ rest) = ret rest.
  Proof.
    unfold slice. rewrite decide_True; [by rewrite drop_app|]. rewrite app_length; lia.
  Qed.
  Lemma pk_ok k : dom k → cb_packK cb k = Some (pk k) ∧
    ∀ rest, cb_unpackK cb (pk k ++ rest) = Some (k, length (pk k)).
  Proof using WF. intros Hk. destruct (wf_packK _ _ _ WF k Hk) as (b & Hb & Hu). unfold pk. by rewrite Hb. Qed.
  Lemma pv_ok v : domV v → cb_packV cb v = Some (pv v) ∧
    ∀ rest, cb_unpackV cb (pv v ++ rest) = Some (v, length (pv v)).
  Proof using WF. intros Hk. destruct (wf_packV _ _ _ WF v Hk) as (b & Hb & Hu). unfold pv. by rewrite Hb. Qed.

  Lemma wp_unpackU64 io z rest Q E : fits z → Q (z, rest) ⊢ wp (K:=K) (V:=V) io (unpackU64 (u64 z ++ rest)) Q E.
  Proof. intros H. rewrite unpackU64_ok //. apply wp_ret. Qed.
  Lemma wp_unpackKeyM io k rest Q E : dom k → Q (k, rest) ⊢ wp io (unpackKeyM cb (pk k ++ rest)) Q E.
  Proof using WF.
    intros H. unfold unpackKeyM. destruct (pk_ok k H) as [_ Hu]. rewrite Hu slice_ok.
    iIntros "H". iApply wp_bind. by do 2 iApply wp_ret.
  Qed.
  Lemma wp_unpackValM io v rest Q E : domV v → Q (v, rest) ⊢ wp io (unpackValM cb (pv v ++ rest)) Q E.
  Proof using WF.
    intros H. unfold unpackValM. destruct (pv_ok v H) as [_ Hu]. rewrite Hu slice_ok.
    iIntros "H". iApply wp_bind. by do 2 iApply wp_ret.
  Qed.
  Lemma wp_unpackRef io p rest Q E : locok p.1 → fits p.2 →
    Q (p.1, p.2, rest) ⊢ wp (K:=K) (V:=V) io (unpackRef (enc_ref p ++ rest)) Q E.
  Proof.
    destruct p as [[[a b] c] z]. intros (Ha & Hb & Hc) Hz. unfold unpackRef, enc_ref, locok, lnum, loff, llen in *. cbn [fst snd] in *.
    rewrite -!app_assoc. iIntros "H".
    iApply wp_bind. iApply wp_unpackU64; [split; lia|].
    iApply wp_bind. iApply wp_unpackU64; [done|].
    iApply wp_bind. iApply wp_unpackU64; [done|].
    iApply wp_bind. iApply wp_unpackU64; [done|].
    by iApply wp_ret.
  Qed.
  Lemma wp_unpackNode io z (a b : bool) rest Q E : fits z →
    Q (z, a, b, rest) ⊢ wp (K:=K) (V:=V) io (unpackNode (u64 z ++ [bool_byte a; bool_byte b] ++ rest)) Q E.
  Proof.
    intros Hz. iIntros "H". iApply wp_bind. iApply wp_unpackU64; [done|].
    iApply wp_ret. by destruct a, b.
  Qed.

  (** appending to a node's sorted entries *)
  Lemma s_insert_snoc {W} k (v : W) els : dom k → Forall (λ p, dom p.1) els →
    Forall (λ p, below cmp p.1 k = true) els →
    present cmp k els = false ∧ s_insert cmp k v els = els ++ [(k, v)].
  Proof using WF.
    intros Hk Hd Hb. split; [by eapply (present_allbelow cmp dom ORD)|].
    unfold s_insert. rewrite rank_allbelow // take_ge // drop_ge //.
  Qed.
  Lemma loadLeaf_spec io n kvs : ∀ els r kv rest Q E,
    b_kv r = Some kv → iskv cb dom els kv →
    Forall (λ p, dom p.1 ∧ domV p.2) kvs →
    ascending cmp (els ++ ((λ p, (p.1, VUser p.2)) <$> kvs)) →
    isN n r -∗
    (∀ kv' (_ : iskv cb dom (els ++ ((λ p, (p.1, VUser p.2)) <$> kvs)) kv'), isN n (set_kv (Some kv') r) -∗ Q rest) -∗
    wp io (loadLeaf cb (length kvs) n (mjoin (enc_kv <$> kvs) ++ rest)) Q E.
  Proof using WF.
    induction kvs as [|[k v] kvs IH]; intros els r kv rest Q E Hr Hkv Hd Hs; simpl; iIntros "HN H".
    { iApply wp_ret. rewrite app_nil_r. iApply ("H" $! kv Hkv).
      destruct r; simpl in *; by rewrite -Hr. }
    apply Forall_cons in Hd as [[Hk Hv] Hd]. simpl in *.
    unfold enc_kv at 1. simpl. rewrite -!app_assoc.
    iApply wp_bind. iApply wp_unpackKeyM; [done|].
    iApply wp_bind. iApply wp_unpackValM; [done|].
    iApply wp_bind.
    destruct (s_insert_snoc k (VUser v) els Hk) as [Hp Hi].
    { by eapply iskv_dom. }
    { pose proof Hs as (_ & _ & Hb & _)%ascending_mid. done. }
    iApply (wp_kvPut cb dom ORD with "HN"); [done..|]. iIntros (kv' Hkv') "HN".
    rewrite Hi in Hkv'. iApply wp_bind. iApply wp_logicOk.
    rewrite cons_middle app_assoc in Hs.
    iApply (IH with "HN"); [done..|]. iIntros (kv2 Hkv2) "HN".
    rewrite -app_assoc in Hkv2. iApply ("H" $! kv2 Hkv2 with "HN").
  Qed.

  (** writing *)
  Lemma wp_packKeyM io k Q E : dom k → Q (pk k) ⊢ wp io (packKeyM cb k) Q E.
  Proof using WF. intros Hk. unfold packKeyM. destruct (pk_ok k Hk) as [-> _]. apply wp_ret. Qed.
  Lemma wp_packValM io k Q E : domV k → Q (pv k) ⊢ wp io (packValM cb k) Q E.
  Proof using WF. intros Hk. unfold packValM. destruct (pv_ok k Hk) as [-> _]. apply wp_ret. Qed.
  Lemma wp_packU64 z Q E : (∀ _ : z < 2 ^ 64, Q (u64 z)) ⊢ wp (K:=K) (V:=V) true (packU64 z) Q E.
  Proof.
    iIntros "H". iApply wp_bind. iApply wp_limit. iIntros (Hz). iApply wp_ret. iApply ("H" $! Hz).
  Qed.
  Lemma postLeaf_spec io n r kv (kvs : list (K * V)) : ∀ i Q E,
    b_kv r = Some kv → iskv cb dom ((λ p, (p.1, VUser p.2)) <$> kvs) kv →
    Forall (λ p, dom p.1 ∧ domV p.2) kvs →
    (i ≤ length kvs)%nat →
    isN n r -∗ (isN n r -∗ Q (mjoin (enc_kv <$> drop i kvs))) -∗
    wp io (postLeaf cb n (Z.of_nat <$> List.seq i (length kvs - i))) Q E.
  Proof using WF.
    intros i. remember (length kvs - i)%nat as m eqn:Hm. revert i Hm.
    induction m as [|m IH]; intros i Hm Q E Hr Hkv Hd Hi; simpl; iIntros "HN H".
    { iApply wp_ret. rewrite drop_ge; [by iApply "H"|lia]. }
    destruct (lookup_lt_is_Some_2 kvs i) as [[k v] Hp]; [lia|].
    iApply wp_bind. iApply (wp_kvGet_nat cb dom with "HN"); [done..| |].
    { by rewrite list_lookup_fmap Hp. }
    iIntros "HN". simpl. iApply wp_bind. iApply wp_logicSome.
    pose proof (Forall_lookup_1 _ _ _ _ Hd Hp) as [Hk Hv]. simpl in *.
    iApply wp_bind. iApply wp_packKeyM; [done|].
    iApply wp_bind. iApply wp_ret.
    iApply wp_bind. iApply wp_packValM; [done|].
    iApply wp_bind. iApply (IH with "HN"); [lia|done..|lia|].
    iIntros "HN". iApply wp_ret. rewrite (drop_S kvs (k, v) i) //. simpl.
    unfold enc_kv at 2. simpl. rewrite -app_assoc. by iApply "H".
  Qed.
  Lemma range_of_nat m : range (Z.of_nat m) = Z.of_nat <$> List.seq 0 m.
  Proof. unfold range. by rewrite Nat2Z.id. Qed.
End codec.

(** * Separation logic over the state of the B+Tree model

    Models no code.  Assertions are predicates on fragments of the state; the
    BI interface of Iris is instantiated so that its proof mode can be used.
    The logic is linear in stored blocks and in cache-list membership: such a
    fragment can never be silently dropped, which is what makes the absence of
    leaks provable. *)
From stdpp Require Import prelude list gmap.
From iris.bi Require Import bi.
From iris.proofmode Require Import proofmode.
From Verif Require Import Spec Llrb BTree.
Open Scope Z_scope.

(** Names of the pieces of the state: node fields, prefix-sum fields, cache
    tag, stored block, tree record *)
Inductive rkey := KN (n : nid) | KP (n : nid) | KT (n : nid) | KD (l : loc) | KR (t : tid).
Global Instance rkey_eq_dec : EqDecision rkey.
Proof. solve_decision. Defined.
Global Instance rkey_countable : Countable rkey.
Proof.
  refine (inj_countable'
    (λ k, match k with
          | KN n => inl (inl n) | KP n => inl (inr n) | KT n => inr (inl n)
          | KD l => inr (inr (inl l)) | KR t => inr (inr (inr t)) end)
    (λ x, match x with
          | inl (inl n) => KN n | inl (inr n) => KP n | inr (inl n) => KT n
          | inr (inr (inl l)) => KD l | inr (inr (inr t)) => KR t end) _).
  by intros [].
Qed.

Section hprop.
  Context {K V : Type}.
  Inductive rval := RN (r : bnode K V) | RP (p : psrec) | RT (t : ctag) | RD (b : bytes) | RR (T : treerec).
  Local Notation heap := (gmap rkey rval).
  (** pieces that may be forgotten *)
  Definition droppable (v : rval) : Prop :=
    match v with RD _ => False | RT t => t = noLRU | _ => True end.
  Definition alldrop (d : heap) : Prop := map_Forall (λ _, droppable) d.

  Lemma alldrop_empty : alldrop ∅.
  Proof. apply map_Forall_empty. Qed.
  Lemma alldrop_union d1 d2 : alldrop d1 → alldrop d2 → alldrop (d1 ∪ d2).
  Proof.
    intros H1 H2 k v [Hk|[_ Hk]]%lookup_union_Some_raw; eauto.
  Qed.
  Lemma alldrop_union_inv d1 d2 : d1 ##ₘ d2 → alldrop (d1 ∪ d2) → alldrop d1 ∧ alldrop d2.
  Proof. intros Hd H. split; [by eapply map_Forall_union_1_1|by eapply map_Forall_union_1_2]. Qed.

  Record hProp := HProp {
    holds :> heap → Prop;
    holds_closed σ d : holds σ → σ ##ₘ d → alldrop d → holds (σ ∪ d) }.
  Arguments HProp _%type_scope _.

  (* OFE structure *)
    Inductive hprop_equiv' (P Q : hProp) : Prop := { hprop_in_equiv : ∀ σ, P σ ↔ Q σ }.
    Global Instance hprop_equiv : Equiv hProp := hprop_equiv'.
    Global Instance hprop_equivalence : Equivalence (≡@{hProp}).
    Proof.
      split; repeat destruct 1; constructor; naive_solver.
    Qed.
    Canonical Structure hPropO := discreteO hProp.

  Inductive hprop_entails (P Q : hProp) : Prop := { hprop_in_entails : ∀ σ, P σ → Q σ }.

  Program Definition hprop_emp : hProp := HProp alldrop _.
  Next Obligation. intros. by apply alldrop_union. Qed.
  Program Definition hprop_pure (φ : Prop) : hProp := HProp (λ _, φ) _.
  Next Obligation. done. Qed.
  Program Definition hprop_and (P Q : hProp) : hProp := HProp (λ σ, P σ ∧ Q σ) _.
  Next Obligation. intros P Q σ d [??] ??. split; by apply holds_closed. Qed.
  Program Definition hprop_or (P Q : hProp) : hProp := HProp (λ σ, P σ ∨ Q σ) _.
  Next Obligation. intros P Q σ d [?|?] ??; [left|right]; by apply holds_closed. Qed.
  Program Definition hprop_impl (P Q : hProp) : hProp :=
    HProp (λ σ, ∀ d, σ ##ₘ d → alldrop d → P (σ ∪ d) → Q (σ ∪ d)) _.
  Next Obligation.
    intros P Q σ d H Hd Hdr d' Hd' Hdr' HP. simpl in *.
    rewrite -map_union_assoc in HP. rewrite -map_union_assoc. apply H; [|by apply alldrop_union|done].
    apply map_disjoint_union_r. split; [done|]. by apply map_disjoint_union_l in Hd' as [??].
  Qed.
  Program Definition hprop_forall {A} (Φ : A → hProp) : hProp := HProp (λ σ, ∀ a, Φ a σ) _.
  Next Obligation. intros A Φ σ d H ?? a. by apply holds_closed. Qed.
  Program Definition hprop_exist {A} (Φ : A → hProp) : hProp := HProp (λ σ, ∃ a, Φ a σ) _.
  Next Obligation. intros A Φ σ d [a H] ??. exists a. by apply holds_closed. Qed.
  Program Definition hprop_sep (P Q : hProp) : hProp :=
    HProp (λ σ, ∃ σ1 σ2, σ = σ1 ∪ σ2 ∧ σ1 ##ₘ σ2 ∧ P σ1 ∧ Q σ2) _.
  Next Obligation.
    intros P Q σ d (σ1 & σ2 & -> & H12 & HP & HQ) Hd Hdr.
    apply map_disjoint_union_l in Hd as [??].
    exists σ1, (σ2 ∪ d). rewrite map_union_assoc. split_and!; [done| |done|by apply holds_closed].
    by apply map_disjoint_union_r.
  Qed.
  Program Definition hprop_wand (P Q : hProp) : hProp :=
    HProp (λ σ, ∀ σ', σ ##ₘ σ' → P σ' → Q (σ ∪ σ')) _.
  Next Obligation.
    intros P Q σ d H Hd Hdr σ' Hσ' HP. simpl in *.
    apply map_disjoint_union_l in Hσ' as [??].
    rewrite -map_union_assoc (map_union_comm d) // map_union_assoc.
    apply holds_closed; [by apply H| |done]. apply map_disjoint_union_l. by split.
  Qed.
  Program Definition hprop_persistently (P : hProp) : hProp := HProp (λ _, P ∅) _.
  Next Obligation. done. Qed.

  Lemma hprop_bi_mixin :
    BiMixin (PROP := hProp) hprop_entails hprop_emp hprop_pure hprop_and hprop_or hprop_impl
      (@hprop_forall) (@hprop_exist) hprop_sep hprop_wand hprop_persistently.
  Proof.
    split.
    - split; [by constructor|]. intros P Q R [H1] [H2]. constructor. eauto.
    - intros P Q. split; [intros [H]; split; constructor; intros; by apply H|].
      intros [[H1] [H2]]. constructor. split; eauto.
    - intros n φ ψ H. constructor. done.
    - intros n P P' [HP] Q Q' [HQ]. constructor. intros σ. cbn. by rewrite HP HQ.
    - intros n P P' [HP] Q Q' [HQ]. constructor. intros σ. cbn. by rewrite HP HQ.
    - intros n P P' [HP] Q Q' [HQ]. constructor. intros σ. cbn.
      split; intros H d ??; [rewrite -HP -HQ|rewrite HP HQ]; auto.
    - intros A n Φ Ψ H. constructor. intros σ. cbn. split; intros H' a; by apply H.
    - intros A n Φ Ψ H. constructor. intros σ. cbn. split; intros [a H']; exists a; by apply H.
    - intros n P P' [HP] Q Q' [HQ]. constructor. intros σ. cbn.
      split; intros (σ1 & σ2 & ? & ? & ? & ?); exists σ1, σ2; split_and!; naive_solver.
    - intros n P P' [HP] Q Q' [HQ]. constructor. intros σ. cbn.
      split; intros H σ' ??; apply HQ, H; naive_solver.
    - intros n P P' [HP]. constructor. intros σ. cbn. by rewrite HP.
    - intros φ P H. constructor. done.
    - intros φ P H. constructor. intros σ Hφ. by destruct (H Hφ) as [H']; apply H'.
    - intros P Q. constructor. by intros σ [??].
    - intros P Q. constructor. by intros σ [??].
    - intros P Q R [H1] [H2]. constructor. intros σ ?. cbn. eauto.
    - intros P Q. constructor. intros σ ?. cbn. eauto.
    - intros P Q. constructor. intros σ ?. cbn. eauto.
    - intros P Q R [H1] [H2]. constructor. intros σ [?|?]; eauto.
    - intros P Q R [H]. constructor. intros σ HP d ???. apply H. split; [by apply holds_closed|done].
    - intros P Q R [H]. constructor. intros σ [HP HQ].
      pose proof (H σ HP ∅) as H'. rewrite right_id_L in H'. apply H'; [apply map_disjoint_empty_r|apply alldrop_empty|done].
    - intros A P Ψ H. constructor. intros σ HP a. by destruct (H a) as [H']; apply H'.
    - intros A Ψ a. constructor. intros σ H. apply H.
    - intros A Ψ a. constructor. intros σ H. by exists a.
    - intros A Φ Q H. constructor. intros σ [a Ha]. by destruct (H a) as [H']; apply H'.
    - intros P P' Q Q' [H1] [H2]. constructor. intros σ (σ1 & σ2 & ? & ? & ? & ?).
      exists σ1, σ2. naive_solver.
    - intros P. constructor. intros σ HP. exists ∅, σ. rewrite left_id_L.
      split_and!; [done|apply map_disjoint_empty_l|apply alldrop_empty|done].
    - intros P. constructor. intros σ (σ1 & σ2 & -> & Hd & He & HP).
      rewrite map_union_comm //. by apply holds_closed.
    - intros P Q. constructor. intros σ (σ1 & σ2 & -> & Hd & HP & HQ).
      exists σ2, σ1. rewrite map_union_comm //.
    - intros P Q R. constructor. intros σ (σ12 & σ3 & -> & Hd & (σ1 & σ2 & -> & Hd' & HP & HQ) & HR).
      apply map_disjoint_union_l in Hd as [??].
      exists σ1, (σ2 ∪ σ3). rewrite map_union_assoc. split_and!; [done| |done|].
      { by apply map_disjoint_union_r. }
      exists σ2, σ3. naive_solver.
    - intros P Q R [H]. constructor. intros σ HP σ' ??. apply H. exists σ, σ'. naive_solver.
    - intros P Q R [H]. constructor. intros σ (σ1 & σ2 & -> & Hd & HP & HQ). by apply (H σ1).
    - intros P Q [H]. constructor. intros σ HP. by apply H.
    - intros P. constructor. done.
    - constructor. intros. apply alldrop_empty.
    - intros P Q. constructor. done.
    - intros A Ψ. constructor. done.
    - intros P Q. constructor. intros σ (σ1 & σ2 & -> & Hd & HP & HQ). done.
    - intros P Q. constructor. intros σ [HP HQ]. exists ∅, σ. rewrite left_id_L.
      split_and!; [done|apply map_disjoint_empty_l|done|done].
  Qed.

  Definition hprop_later (P : hProp) : hProp := P.
  Lemma hprop_bi_later_mixin :
    BiLaterMixin (PROP := hProp) hprop_entails hprop_pure hprop_or hprop_impl
      (@hprop_forall) (@hprop_exist) hprop_sep hprop_persistently hprop_later.
  Proof. eapply bi_later_mixin_id; [done|apply hprop_bi_mixin]. Qed.

  Canonical Structure hPropI : bi :=
    {| bi_ofe_mixin := ofe_mixin_of hProp; bi_bi_mixin := hprop_bi_mixin;
       bi_bi_later_mixin := hprop_bi_later_mixin |}.

  Global Instance hprop_pure_forall : BiPureForall hPropI.
  Proof. intros A φ. constructor. intros σ H. cbn in *. exact H. Qed.

  (** ** Single pieces *)
  Program Definition own (k : rkey) (v : rval) : hProp :=
    HProp (λ σ, ∃ d, σ = <[k := v]> d ∧ d !! k = None ∧ alldrop d) _.
  Next Obligation.
    intros k v σ d (d0 & -> & Hk & Hd0) Hd Hdr. exists (d0 ∪ d).
    apply map_disjoint_insert_l in Hd as [Hk' Hd]. rewrite insert_union_l. split_and!; [done| |by apply alldrop_union].
    by apply lookup_union_None.
  Qed.
  Definition isN (n : nid) (r : bnode K V) : hProp := own (KN n) (RN r).
  Definition isP (n : nid) (p : psrec) : hProp := own (KP n) (RP p).
  Definition isT (n : nid) (t : ctag) : hProp := own (KT n) (RT t).
  Definition isD (l : loc) (b : bytes) : hProp := own (KD l) (RD b).
  Definition isR (t : tid) (T : treerec) : hProp := own (KR t) (RR T).

  Lemma own_drop k v : droppable v → Affine (own k v).
  Proof.
    intros Hv. constructor. intros σ (d & -> & Hk & Hd). by apply map_Forall_insert.
  Qed.
  Global Instance isN_affine n r : Affine (isN n r).
  Proof. by apply own_drop. Qed.
  Global Instance isP_affine n r : Affine (isP n r).
  Proof. by apply own_drop. Qed.
  Global Instance isR_affine n r : Affine (isR n r).
  Proof. by apply own_drop. Qed.
  Global Instance isT_affine n : Affine (isT n noLRU).
  Proof. by apply own_drop. Qed.

  Lemma own_excl k v v' : own k v -∗ own k v' -∗ False.
  Proof.
    apply bi.wand_intro_r. constructor.
    intros σ (σ1 & σ2 & -> & Hd & (d1 & -> & ? & ?) & (d2 & -> & ? & ?)).
    apply map_disjoint_insert_l in Hd as [Hk _]. by rewrite lookup_insert in Hk.
  Qed.
End hprop.
Arguments rval : clear implicits.
Arguments hProp : clear implicits.
Arguments hPropI : clear implicits.

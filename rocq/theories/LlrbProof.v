(** Invariants and refinement of the LLRB model. *)
From Coq Require Import Sorted.
From stdpp Require Import prelude list.
From Verif Require Import Spec SpecFacts Llrb.
Open Scope Z_scope.

Local Arguments fixUp : simpl never.
Local Arguments moveRedLeft : simpl never.
Local Arguments moveRedRight : simpl never.

Section proof.
  Context {K V : Type}.
  Variable cmp : K → K → option Z.
  Implicit Types (t l r a b : tree K V) (k : K) (v : V) (m : list (K * V)).

  (** ** Sizes, with a weight per key (the code's [len] fields are
      temporarily off by one on a search path) *)
  Fixpoint sumw (w : K → Z) m : Z :=
    match m with [] => 0 | p :: m => w p.1 + sumw w m end.
  Lemma sumw_app w m m' : sumw w (m ++ m') = sumw w m + sumw w m'.
  Proof. induction m as [|p m IH]; simpl; lia. Qed.
  Lemma sumw_ext w w' m : Forall (λ p, w p.1 = w' p.1) m → sumw w m = sumw w' m.
  Proof. induction 1; simpl; lia. Qed.
  Definition one : K → Z := λ _, 1.
  Lemma sumw_one m : sumw one m = Z.of_nat (length m).
  Proof. induction m as [|p m IH]; simpl; unfold one in *; lia. Qed.

  Fixpoint lens (w : K → Z) t : Prop :=
    match t with
    | E => True
    | T _ l k v r n =>
        lens w l ∧ lens w r ∧ n = sumw w (elements l) + w k + sumw w (elements r)
    end.
  Lemma lens_tlen w t : lens w t → tlen t = sumw w (elements t).
  Proof. destruct t; simpl; [done|]. rewrite sumw_app. simpl. lia. Qed.
  Lemma lens_ext w w' t :
    Forall (λ p, w p.1 = w' p.1) (elements t) → lens w t → lens w' t.
  Proof.
    induction t as [|c l IHl k v r IHr n]; simpl; [done|].
    rewrite Forall_app, Forall_cons. intros (Hl&Hk&Hr) (?&?&->).
    split_and!; auto. simpl in Hk. rewrite (sumw_ext w w'), (sumw_ext w w' (elements r)); auto.
    lia.
  Qed.

  (** ** Colours: the tree is a 2-3 tree *)
  Inductive wf : nat → tree K V → Prop :=
    | wf_E : wf 0 E
    | wf_2 n l k v r s : wf n l → wf n r → wf (S n) (T BLACK l k v r s)
    | wf_3 n a k1 v1 b s1 k v c s :
        wf n a → wf n b → wf n c →
        wf (S n) (T BLACK (T RED a k1 v1 b s1) k v c s).
  Inductive wfr : nat → tree K V → Prop :=
    | wfr_intro n l k v r s : wf n l → wf n r → wfr n (T RED l k v r s).
  Inductive wfll : nat → tree K V → Prop :=
    | wfll_intro n l k v r s : wfr n l → wf n r → wfll n (T RED l k v r s).
  Inductive wf3 : nat → tree K V → Prop :=
    | wf3_intro n l k v r s : wfr n l → wf n r → wf3 n (T BLACK l k v r s).
  Inductive wf3r : nat → tree K V → Prop :=
    | wf3r_intro n l k v r s : wf n l → wfr n r → wf3r n (T BLACK l k v r s).

  Lemma wf_isRed n t : wf n t → isRed t = false.
  Proof. by inversion 1. Qed.
  Lemma wf_isBlack n t : wf n t → isBlack t = true.
  Proof. by inversion 1. Qed.

  (** ** Rotations and friends keep contents and sizes *)
  Definition similar t t' : Prop :=
    elements t' = elements t ∧ ∀ w, lens w t → lens w t'.
  Lemma similar_refl t : similar t t.
  Proof. by split. Qed.
  Lemma similar_trans t1 t2 t3 : similar t1 t2 → similar t2 t3 → similar t1 t3.
  Proof. intros [H1 ?] [H2 ?]. split; [by rewrite H2|auto]. Qed.

  Lemma flipColor_similar t t' : flipColor t = LRet t' → similar t t'.
  Proof. destruct t; simpl; [done|]. intros [= <-]. done. Qed.
  Lemma colorFlip_similar t t' : colorFlip t = LRet t' → similar t t'.
  Proof.
    destruct t as [|? [] ?? [] ?]; simpl; try done. intros [= <-]. done.
  Qed.
  Lemma rotateLeft_similar t t' : rotateLeft t = LRet t' → similar t t'.
  Proof.
    destruct t as [|c l k v [|c' l' k' v' r' n'] n]; simpl; try done. intros [= <-].
    split; simpl; [by rewrite <-app_assoc|]. intros w (?&(?&?&->)&->).
    rewrite (lens_tlen w l') by done. rewrite !sumw_app. simpl. split_and!; auto; lia.
  Qed.
  Lemma rotateRight_similar t t' : rotateRight t = LRet t' → similar t t'.
  Proof.
    destruct t as [|c [|c' l' k' v' r' n'] k v r n]; simpl; try done. intros [= <-].
    split; simpl; [by rewrite <-app_assoc|]. intros w ((?&?&->)&?&->).
    rewrite (lens_tlen w r') by done. rewrite !sumw_app. simpl. split_and!; auto; lia.
  Qed.

  Lemma fixUp_total c l k v r n :
    ∃ t', fixUp (T c l k v r n) = LRet t' ∧ similar (T c l k v r n) t'.
  Proof.
    unfold fixUp.
    assert (∃ t1, (if isRed r then rotateLeft (T c l k v r n) else LRet (T c l k v r n))
                  = LRet t1 ∧ similar (T c l k v r n) t1 ∧ t1 ≠ E) as (t1&->&Hs1&Hne).
    { destruct (isRed r) eqn:Hr.
      - destruct r; [done|]. eexists. split_and!; [done| |done]. by apply rotateLeft_similar.
      - eexists; split_and!; [done|apply similar_refl|done]. }
    destruct t1 as [|c1 l1 k1 v1 r1 n1]; [done|]. cbn [getLeft getRight lbind].
    match goal with |- context [lbind (if isRed l1 then ?a else ?b) _] =>
      assert (∃ t2, (if isRed l1 then a else b) = LRet t2 ∧
                similar (T c1 l1 k1 v1 r1 n1) t2 ∧ t2 ≠ E) as (t2&->&Hs2&Hne2) end.
    { destruct (isRed l1) eqn:Hr1; [|by eauto using similar_refl].
      destruct l1 as [|? ll1 ????]; [done|]. cbn [getLeft getRight lbind].
      destruct (isRed ll1); [|by eauto using similar_refl].
      eexists. split_and!; [done| |done]. by apply rotateRight_similar. }
    destruct t2 as [|c2 l2 k2 v2 r2 n2]; [done|]. cbn [getLeft getRight lbind].
    destruct (isRed l2 && isRed r2) eqn:Hrr.
    - destruct l2 as [|[] ?????], r2 as [|[] ?????]; try done. eexists. split; [reflexivity|].
      eapply similar_trans; [done|]. eapply similar_trans; [done|].
      by apply colorFlip_similar.
    - eexists. split; [done|]. by eapply similar_trans.
  Qed.
  Lemma fixUp_similar t t' : fixUp t = LRet t' → similar t t'.
  Proof.
    destruct t as [|c l k v r n]; [done|].
    destruct (fixUp_total c l k v r n) as (t1&->&?). by intros [= <-].
  Qed.

  (** colour automation *)
  Hint Constructors wf wfr wfll wf3 wf3r : core.
  Ltac inv_wf :=
    repeat match goal with
    | H : wfr _ _ |- _ => inversion H; clear H; subst
    | H : wfll _ _ |- _ => inversion H; clear H; subst
    | H : wf3 _ _ |- _ => inversion H; clear H; subst
    | H : wf3r _ _ |- _ => inversion H; clear H; subst
    | H : wf _ E |- _ => inversion H; clear H; subst
    | H : wf _ (T _ _ _ _ _ _) |- _ => inversion H; clear H; subst
    end.
  Lemma fixUp_color n c l k v r s t' :
    fixUp (T c l k v r s) = LRet t' →
    (* black node with two black children, or left red, or left-left red, or right red *)
    (c = BLACK → wf n l ∨ wfr n l ∨ wfll n l → wf n r → wf (S n) t' ∨ wfr (S n) t') ∧
    (c = BLACK → wf n l ∨ wfr n l → wf n r ∨ wfr n r → wf (S n) t' ∨ wfr (S n) t') ∧
    (c = BLACK → wf n l ∨ wfr n l → wf n r → wf (S n) t') ∧
    (c = BLACK → wf n l → wf n r ∨ wfr n r → wf (S n) t') ∧
    (c = RED → wf n l → wf n r → wfr n t') ∧
    (c = RED → wf n l → wfr n r → wfll n t') ∧
    (c = RED → wfr n l → wf n r → wfll n t').
  Proof.
    intros Hf.
    split_and!; intros ->; intros; destruct_or?; inv_wf;
      repeat match goal with H : wf _ ?x |- _ =>
        lazymatch goal with
        | _ : isRed x = false |- _ => fail
        | _ => let Hr := fresh in pose proof (wf_isRed _ _ H) as Hr
        end end;
      unfold fixUp in Hf;
      repeat (first [ match goal with H : isRed _ = false |- _ => rewrite H in Hf end
                    | progress simpl in Hf ]);
      simplify_eq; eauto 8.
  Qed.

  Lemma insert_color t k v t' :
    insert cmp t k v = LRet (t', true, false) →
    ∀ n, (wf n t → wf n t' ∨ wfr n t') ∧ (wfr n t → wfr n t' ∨ wfll n t').
  Proof.
    revert t'. induction t as [|c l IHl k' v' r IHr s]; intros t' Hi n; simpl in Hi.
    { simplify_eq. split; [|by inversion 1]. inversion 1; subst. auto. }
    destruct (cmp k k') as [cr|]; [|done].
    destruct (cr <? 0).
    - destruct (insert cmp l k v) as [[[l' ok] err]| |] eqn:Hl; try done. simpl in Hi.
      destruct err; [done|]. destruct ok; [|done].
      destruct (fixUp (T c l' k' v' r s)) as [t1| |] eqn:Hf; try done. simpl in Hi.
      simplify_eq. specialize (IHl _ eq_refl).
      split.
      + inversion 1; subst.
        * destruct (IHl n0) as [[?|?] _]; auto;
            destruct (fixUp_color n0 _ _ _ _ _ _ _ Hf) as (F1&F2&F3&_); eauto.
        * destruct (IHl n0) as [_ [?|?]]; auto;
            destruct (fixUp_color n0 _ _ _ _ _ _ _ Hf) as (F1&F2&F3&_); eauto.
      + inversion 1; subst.
        destruct (IHl n) as [[?|?] _]; auto;
          destruct (fixUp_color n _ _ _ _ _ _ _ Hf) as (_&_&_&_&F5&F6&F7); eauto.
    - destruct (0 <? cr); [|done].
      destruct (insert cmp r k v) as [[[r' ok] err]| |] eqn:Hl; try done. simpl in Hi.
      destruct err; [done|]. destruct ok; [|done].
      destruct (fixUp (T c l k' v' r' s)) as [t1| |] eqn:Hf; try done. simpl in Hi.
      simplify_eq. specialize (IHr _ eq_refl).
      split.
      + inversion 1; subst; destruct (IHr n0) as [[?|?] _]; auto;
            destruct (fixUp_color n0 _ _ _ _ _ _ _ Hf) as (F1&F2&F3&_); eauto.
      + inversion 1; subst.
        destruct (IHr n) as [[?|?] _]; auto;
          destruct (fixUp_color n _ _ _ _ _ _ _ Hf) as (_&_&_&_&F5&F6&F7); eauto.
  Qed.

  (** trees of the same shape and colours *)
  Inductive shape : tree K V → tree K V → Prop :=
    | shape_E : shape E E
    | shape_T c l k v r n l' k' v' r' n' :
        shape l l' → shape r r' → shape (T c l k v r n) (T c l' k' v' r' n').
  Lemma shape_refl t : shape t t.
  Proof. induction t; constructor; auto. Qed.
  Lemma shape_wf n t t' : shape t t' → wf n t → wf n t'.
  Proof.
    intros Hs Hw. revert t' Hs. induction Hw; inversion 1; subst; auto.
    match goal with H : shape (T RED _ _ _ _ _) _ |- _ => inversion H; subst end. auto.
  Qed.
  Lemma shape_wfr n t t' : shape t t' → wfr n t → wfr n t'.
  Proof. inversion 2; subst. inversion H; subst. constructor; eauto using shape_wf. Qed.
  Lemma shape_blacken t t' : shape t t' → shape (blacken t) (blacken t').
  Proof. inversion 1; subst; constructor; auto. Qed.
  Lemma elements_blacken t : elements (blacken t) = elements t.
  Proof. by destruct t. Qed.
  Lemma lens_blacken w t : lens w t → lens w (blacken t).
  Proof. by destruct t. Qed.

  (** ** The order-dependent part *)
  Variable dom : K → Prop.
  Hypothesis ORD : total_order cmp dom.
  Notation alldom := (alldom dom).

  Ltac cases_cmp k k' :=
    let c := fresh "c" in
    destruct (cmp_cases cmp dom ORD k k') as (c & Hcmp & [[Hc Hb]|[[Hc Hb]|[Hc Hb]]]);
      [try done; auto..| | |];
    rewrite Hcmp;
    [rewrite (proj2 (Z.ltb_lt c 0)) by lia
    |rewrite (proj2 (Z.ltb_ge c 0)) by lia; rewrite (proj2 (Z.ltb_ge 0 c)) by lia
    |rewrite (proj2 (Z.ltb_ge c 0)) by lia; rewrite (proj2 (Z.ltb_lt 0 c)) by lia].

  Lemma asc_l m p m' : ascending cmp (m ++ p :: m') → ascending cmp m.
  Proof. rewrite ascending_mid. tauto. Qed.
  Lemma asc_r m p m' : ascending cmp (m ++ p :: m') → ascending cmp m'.
  Proof. rewrite ascending_mid. tauto. Qed.
  Lemma dom_l m p m' : alldom (m ++ p :: m') → alldom m.
  Proof. rewrite alldom_app. tauto. Qed.
  Lemma dom_r m p m' : alldom (m ++ p :: m') → alldom m'.
  Proof. rewrite alldom_app, alldom_cons. tauto. Qed.
  Lemma dom_m m p m' : alldom (m ++ p :: m') → dom p.1.
  Proof. rewrite alldom_app, alldom_cons. tauto. Qed.
  Hint Resolve asc_l asc_r dom_l dom_r : core.

  Lemma s_insert_lt k v m p m' : dom k → alldom (m ++ p :: m') →
    ascending cmp (m ++ p :: m') → below cmp k p.1 = true →
    s_insert cmp k v (m ++ p :: m') = s_insert cmp k v m ++ p :: m'.
  Proof.
    intros ? Hd Hs Hb. destruct (pivot_lt cmp dom ORD m m' p k) as (_&Hr&_); auto.
    unfold s_insert. rewrite Hr. pose proof (rank_le cmp k m).
    rewrite take_app_le, drop_app_le by done. by rewrite <-app_assoc.
  Qed.
  Lemma s_insert_gt k v m p m' : dom k → alldom (m ++ p :: m') →
    ascending cmp (m ++ p :: m') → below cmp p.1 k = true →
    s_insert cmp k v (m ++ p :: m') = m ++ p :: s_insert cmp k v m'.
  Proof.
    intros ? Hd Hs Hb. destruct (pivot_gt cmp dom ORD m m' p k) as (_&Hr&_); auto.
    unfold s_insert. rewrite Hr.
    rewrite take_app_ge, drop_app_ge by lia.
    replace (length m + 1 + rank cmp k m' - length m)%nat with (S (rank cmp k m')) by lia.
    simpl. by rewrite <-app_assoc.
  Qed.

  Lemma insert_spec t k v : dom k → alldom (elements t) → ascending cmp (elements t) →
    if present cmp k (elements t)
    then insert cmp t k v = LRet (t, false, false)
    else ∃ t', insert cmp t k v = LRet (t', true, false) ∧
           elements t' = s_insert cmp k v (elements t) ∧
           ∀ w, w k = 0 → lens w t → lens w t'.
  Proof.
    intros Hk. induction t as [|c l IHl k' v' r IHr n]; simpl; intros Hd Hs.
    { eexists. split_and!; [done..|]. intros w Hw _. simpl. rewrite Hw. done. }
    pose proof (dom_m _ _ _ Hd) as Hk'. simpl in Hk'.
    cases_cmp k k'.
    - destruct (pivot_lt cmp dom ORD (elements l) (elements r) (k', v') k) as (_&_&Hp); auto.
      rewrite Hp. rewrite s_insert_lt; auto. specialize (IHl ltac:(eauto) ltac:(eauto)).
      destruct (present cmp k (elements l)).
      + rewrite IHl. done.
      + destruct IHl as (l'&->&Hel&Hl). simpl.
        destruct (fixUp_total c l' k' v' r n) as (t'&->&Hel'&Ht'). simpl.
        eexists. split_and!; [done| |].
        * rewrite Hel'. simpl. by rewrite Hel.
        * intros w Hw (?&?&->). apply Ht'. simpl. split_and!; auto.
          rewrite Hel. unfold s_insert. rewrite sumw_app. simpl. rewrite Hw.
          rewrite <-(take_drop (rank cmp k (elements l)) (elements l)) at 1.
          rewrite sumw_app. lia.
    - destruct (pivot_eq cmp dom ORD (elements l) (elements r) (k', v') k) as (_&_&_&->); auto.
    - destruct (pivot_gt cmp dom ORD (elements l) (elements r) (k', v') k) as (_&_&Hp); auto.
      rewrite Hp. rewrite s_insert_gt; auto. specialize (IHr ltac:(eauto) ltac:(eauto)).
      destruct (present cmp k (elements r)).
      + rewrite IHr. done.
      + destruct IHr as (r'&->&Hel&Hl). simpl.
        destruct (fixUp_total c l k' v' r' n) as (t'&->&Hel'&Ht'). simpl.
        eexists. split_and!; [done| |].
        * rewrite Hel'. simpl. by rewrite Hel.
        * intros w Hw (?&?&->). apply Ht'. simpl. split_and!; auto.
          rewrite Hel. unfold s_insert. rewrite sumw_app. simpl. rewrite Hw.
          rewrite <-(take_drop (rank cmp k (elements r)) (elements r)) at 1.
          rewrite sumw_app. lia.
  Qed.

  (** weight 0 on the key being inserted or deleted *)
  Definition W (k : K) : K → Z := λ x, if same cmp k x then 0 else 1.
  Lemma W_absent k m : present cmp k m = false → Forall (λ p, W k p.1 = one p.1) m.
  Proof.
    induction m as [|p m IH]; simpl; intros H; constructor.
    - apply orb_false_iff in H as [H _]. unfold W. by rewrite H.
    - apply orb_false_iff in H as [_ H]. auto.
  Qed.
  Lemma sumw_absent k m : present cmp k m = false → sumw (W k) m = Z.of_nat (length m).
  Proof. intros. rewrite (sumw_ext _ one), sumw_one; auto using W_absent. Qed.
  Lemma sumw_present k m : dom k → alldom m → ascending cmp m → present cmp k m = true →
    sumw (W k) m = Z.of_nat (length m) - 1.
  Proof.
    intros Hk. induction m as [|p m IH]; [done|]. intros Hd Hs Hp.
    apply alldom_cons in Hd as [??]. apply ascending_cons in Hs as [? Ha].
    cbn [length sumw]. rewrite present_cons in Hp. destruct (same cmp k p.1) eqn:Hsame.
    - rewrite sumw_absent.
      + unfold W. rewrite Hsame. lia.
      + apply (present_allabove cmp dom); auto.
        apply (allabove_same cmp dom ORD m p.1 k); auto. by apply (same_sym cmp dom ORD).
    - simpl in Hp. rewrite IH by auto. unfold W. rewrite Hsame. lia.
  Qed.
  Lemma lens_absent k t : present cmp k (elements t) = false →
    lens (W k) t ↔ lens one t.
  Proof.
    intros H. pose proof (W_absent _ _ H) as HW. split; apply lens_ext; [done|].
    eapply Forall_impl; [done|]. simpl. auto.
  Qed.
  Lemma W_same k k' : same cmp k k' = true → W k k' = 0.
  Proof. unfold W. by intros ->. Qed.
  Lemma W_diff k k' : same cmp k k' = false → W k k' = 1.
  Proof. unfold W. by intros ->. Qed.
  Lemma not_same_lt k k' : dom k → dom k' → below cmp k k' = true → same cmp k k' = false.
  Proof. intros. by apply (below_not_same cmp dom). Qed.
  Lemma not_same_gt k k' : dom k → dom k' → below cmp k' k = true → same cmp k k' = false.
  Proof using ORD. intros. by apply (below_not_same' cmp dom). Qed.

  Lemma postInsert_spec t k : dom k → alldom (elements t) → ascending cmp (elements t) →
    present cmp k (elements t) = true → lens (W k) t →
    ∃ t', postInsertAdjustLen cmp t k = LRet t' ∧ elements t' = elements t ∧
          shape t t' ∧ lens one t'.
  Proof using ORD.
    intros Hk. induction t as [|c l IHl k' v' r IHr n]; simpl; [done|]. intros Hd Hs Hp (Hl&Hr&Hn).
    pose proof (dom_m _ _ _ Hd) as Hk'. simpl in Hk'.
    cases_cmp k k'.
    - destruct (pivot_lt cmp dom ORD (elements l) (elements r) (k', v') k) as (Ha&_&Hp'); auto.
      rewrite Hp' in Hp. apply allabove_cons in Ha as [_ Ha].
      assert (present cmp k (elements r) = false) as Hpr
        by (apply (present_allabove cmp dom); eauto).
      destruct IHl as (l'&->&Hel&Hsh&Hln); eauto. simpl. eexists. split_and!; [done|..]; simpl.
      + by rewrite Hel.
      + constructor; auto using shape_refl.
      + split_and!; [done|by apply (lens_absent k)|].
        rewrite Hel, !sumw_one, Hn, sumw_present, sumw_absent, W_diff;
          eauto using not_same_lt. unfold one. lia.
    - destruct (pivot_eq cmp dom ORD (elements l) (elements r) (k', v') k) as (Hal&Har&_&_); auto.
      assert (present cmp k (elements r) = false) as Hpr
        by (apply (present_allabove cmp dom); eauto).
      assert (present cmp k (elements l) = false) as Hpl
        by (apply (present_allbelow cmp dom); eauto).
      eexists. split_and!; [done..| |]; simpl.
      + constructor; auto using shape_refl.
      + split_and!; [by apply (lens_absent k)..|].
        rewrite !sumw_one, Hn, !sumw_absent, W_same by auto. unfold one. lia.
    - destruct (pivot_gt cmp dom ORD (elements l) (elements r) (k', v') k) as (Ha&_&Hp'); auto.
      rewrite Hp' in Hp. apply allbelow_app in Ha as [Ha _].
      assert (present cmp k (elements l) = false) as Hpl
        by (apply (present_allbelow cmp dom); eauto).
      destruct IHr as (r'&->&Hel&Hsh&Hln); eauto. simpl. eexists. split_and!; [done|..]; simpl.
      + by rewrite Hel.
      + constructor; auto using shape_refl.
      + split_and!; [by apply (lens_absent k)|done|].
        rewrite Hel, !sumw_one, Hn, sumw_absent, sumw_present, W_diff;
          eauto using not_same_gt. unfold one. lia.
  Qed.

  Lemma preDeleteByKey_spec t k : dom k → alldom (elements t) → ascending cmp (elements t) →
    lens one t →
    ∃ t', preDeleteByKeyAdjustLen cmp t k = (t', present cmp k (elements t), false) ∧
      elements t' = elements t ∧ shape t t' ∧
      (present cmp k (elements t) = false → t' = t) ∧ lens (W k) t'.
  Proof using ORD.
    intros Hk. induction t as [|c l IHl k' v' r IHr n]; simpl.
    { intros. eexists. split_and!; try done. constructor. }
    intros Hd Hs (Hl&Hr&Hn).
    pose proof (dom_m _ _ _ Hd) as Hk'. simpl in Hk'.
    cases_cmp k k'.
    - destruct (pivot_lt cmp dom ORD (elements l) (elements r) (k', v') k) as (Ha&_&Hp'); auto.
      rewrite Hp'. apply allabove_cons in Ha as [_ Ha].
      assert (present cmp k (elements r) = false) as Hpr
        by (apply (present_allabove cmp dom); eauto).
      destruct IHl as (l'&->&Hel&Hsh&Heq&Hln); eauto.
      rewrite !sumw_one in Hn.
      destruct (present cmp k (elements l)) eqn:Hpl; eexists; split_and!; try reflexivity; simpl.
      + by rewrite Hel.
      + constructor; auto using shape_refl.
      + done.
      + split_and!; [done|by apply (lens_absent k)|].
        rewrite Hel, Hn, sumw_present, sumw_absent, W_diff;
          eauto using not_same_lt. unfold one. lia.
      + by rewrite Hel.
      + constructor; auto using shape_refl.
      + intros _. by rewrite Heq.
      + split_and!; [done|by apply (lens_absent k)|].
        rewrite Hel, Hn, !sumw_absent, W_diff;
          eauto using not_same_lt.
    - destruct (pivot_eq cmp dom ORD (elements l) (elements r) (k', v') k) as (Hal&Har&_&Hp); auto.
      rewrite Hp.
      assert (present cmp k (elements r) = false) as Hpr
        by (apply (present_allabove cmp dom); eauto).
      assert (present cmp k (elements l) = false) as Hpl
        by (apply (present_allbelow cmp dom); eauto).
      eexists. split_and!; try reflexivity; simpl.
      + constructor; auto using shape_refl.
      + done.
      + rewrite !sumw_one in Hn. split_and!; [by apply (lens_absent k)..|].
        rewrite Hn, !sumw_absent, W_same by auto. unfold one. lia.
    - destruct (pivot_gt cmp dom ORD (elements l) (elements r) (k', v') k) as (Ha&_&Hp'); auto.
      rewrite Hp'. apply allbelow_app in Ha as [Ha _].
      assert (present cmp k (elements l) = false) as Hpl
        by (apply (present_allbelow cmp dom); eauto).
      destruct IHr as (r'&->&Hel&Hsh&Heq&Hln); eauto.
      rewrite !sumw_one in Hn.
      destruct (present cmp k (elements r)) eqn:Hpr; eexists; split_and!; try reflexivity; simpl.
      + by rewrite Hel.
      + constructor; auto using shape_refl.
      + done.
      + split_and!; [by apply (lens_absent k)|done|].
        rewrite Hel, Hn, sumw_absent, sumw_present, W_diff;
          eauto using not_same_gt. unfold one. lia.
      + by rewrite Hel.
      + constructor; auto using shape_refl.
      + intros _. by rewrite Heq.
      + split_and!; [by apply (lens_absent k)|done|].
        rewrite Hel, Hn, !sumw_absent, W_diff;
          eauto using not_same_gt.
  Qed.

  Lemma preDeleteByIndex_spec t i : alldom (elements t) → ascending cmp (elements t) →
    lens one t → 0 ≤ i < Z.of_nat (length (elements t)) →
    ∃ t' k v, preDeleteByIndexAdjustLen t i = LRet (t', k) ∧
      elements t !! Z.to_nat i = Some (k, v) ∧
      elements t' = elements t ∧ shape t t' ∧ lens (W k) t'.
  Proof using ORD.
    revert i. induction t as [|c l IHl k' v' r IHr n]; intros i; simpl; [lia|].
    intros Hd Hs (Hl&Hr&Hn) Hi. rewrite app_length in Hi. simpl in Hi.
    pose proof (dom_m _ _ _ Hd) as Hk'. simpl in Hk'.
    rewrite (lens_tlen one l), sumw_one by done. rewrite !sumw_one in Hn.
    destruct (Z.ltb_spec i (Z.of_nat (length (elements l)))) as [Hlt|Hge];
      [|destruct (Z.ltb_spec (Z.of_nat (length (elements l))) i) as [Hgt|Hle]].
    - destruct (IHl i) as (l'&k&v&->&Hlk&Hel&Hsh&Hln); eauto; [lia|]. simpl.
      assert (dom k) as Hk.
      { assert (alldom (elements l)) as Hdl by eauto.
        pose proof (Forall_lookup_1 _ _ _ _ Hdl Hlk). done. }
      assert ((k, v) ∈ elements l) as Hin by (eapply elem_of_list_lookup_2; eauto).
      pose proof Hs as Hs'. apply ascending_mid in Hs' as (?&?&Hbl&Hab&_).
      assert (below cmp k k' = true) as Hb.
      { unfold allbelow in Hbl. rewrite Forall_forall in Hbl. by apply (Hbl (k, v)). }
      assert (present cmp k (elements r) = false) as Hpr.
      { apply (present_allabove cmp dom); eauto.
        apply (allabove_trans cmp dom ORD _ k' k); eauto. }
      assert (present cmp k (elements l) = true) as Hpl.
      { apply existsb_exists. exists (k, v). split; [by apply elem_of_list_In|].
        by apply (same_refl cmp dom). }
      do 3 eexists. split_and!; [reflexivity|..].
      + rewrite lookup_app_l; [done|lia].
      + simpl. by rewrite Hel.
      + constructor; auto using shape_refl.
      + simpl. split_and!; [done|by apply (lens_absent k)|].
        rewrite Hel, Hn, sumw_present, sumw_absent, W_diff;
          eauto using not_same_lt. unfold one. lia.
    - destruct (IHr (i - Z.of_nat (length (elements l)) - 1))
        as (r'&k&v&->&Hlk&Hel&Hsh&Hln); eauto; [lia|]. simpl.
      assert (dom k) as Hk.
      { assert (alldom (elements r)) as Hdl by eauto.
        pose proof (Forall_lookup_1 _ _ _ _ Hdl Hlk). done. }
      assert ((k, v) ∈ elements r) as Hin by (eapply elem_of_list_lookup_2; eauto).
      pose proof Hs as Hs'. apply ascending_mid in Hs' as (?&?&Hbl&Hab&_).
      assert (below cmp k' k = true) as Hb.
      { unfold allabove in Hab. rewrite Forall_forall in Hab. by apply (Hab (k, v)). }
      assert (present cmp k (elements l) = false) as Hpl.
      { apply (present_allbelow cmp dom); eauto.
        apply (allbelow_trans cmp dom ORD _ k' k); eauto. }
      assert (present cmp k (elements r) = true) as Hpr.
      { apply existsb_exists. exists (k, v). split; [by apply elem_of_list_In|].
        by apply (same_refl cmp dom). }
      do 3 eexists. split_and!; [reflexivity|..].
      + rewrite lookup_app_r by lia.
        replace (Z.to_nat i - length (elements l))%nat with
          (S (Z.to_nat (i - Z.of_nat (length (elements l)) - 1))) by lia. done.
      + simpl. by rewrite Hel.
      + constructor; auto using shape_refl.
      + simpl. split_and!; [by apply (lens_absent k)|done|].
        rewrite Hel, Hn, sumw_absent, sumw_present, W_diff;
          eauto using not_same_gt. unfold one. lia.
    - assert (i = Z.of_nat (length (elements l))) as -> by lia.
      pose proof Hs as Hs'. apply ascending_mid in Hs' as (?&?&Hbl&Hab&_).
      assert (present cmp k' (elements r) = false) as Hpr
        by (apply (present_allabove cmp dom); eauto).
      assert (present cmp k' (elements l) = false) as Hpl
        by (apply (present_allbelow cmp dom); eauto).
      do 3 eexists. split_and!; [reflexivity|..].
      + rewrite Nat2Z.id. by apply list_lookup_middle.
      + done.
      + constructor; auto using shape_refl.
      + simpl. split_and!; [by apply (lens_absent k')..|].
        rewrite !sumw_absent, W_same by auto using (same_refl cmp dom ORD).
        unfold one in Hn. lia.
  Qed.
End proof.

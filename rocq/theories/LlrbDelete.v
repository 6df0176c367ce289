(** Deletion from the LLRB tree: no panic, contents, sizes, colours. *)
From Coq Require Import Sorted.
From stdpp Require Import prelude list.
From Verif Require Import Spec SpecFacts Llrb LlrbProof.
Open Scope Z_scope.

Local Arguments fixUp : simpl never.
Local Arguments moveRedLeft : simpl never.
Local Arguments moveRedRight : simpl never.

Section proof.
  Context {K V : Type}.
  Variable cmp : K → K → option Z.
  Variable dom : K → Prop.
  Hypothesis ORD : total_order cmp dom.
  Implicit Types (t l r a b : tree K V) (k : K) (v : V) (m : list (K * V)).
  Notation alldom := (alldom dom).
  Notation W := (W cmp).

  Hint Constructors wf wfr wfll wf3 wf3r : core.
  Hint Resolve asc_l asc_r dom_l dom_r : core.

  Lemma bothBlack_3 n t : wf3 n t → bothBlack t = LRet false.
  Proof. inversion 1 as [?????? H1 H2]; subst. inversion H1; subst. done. Qed.
  Lemma bothBlack_2 n l k v r s : wf n l → bothBlack (T BLACK l k v r s) = LRet true.
  Proof. intros H. unfold bothBlack. simpl. by rewrite (wf_isBlack _ _ H). Qed.
  Lemma bothBlack_r n t : wfr n t → bothBlack t = LRet false.
  Proof. by inversion 1. Qed.

  (** black trees of positive height are 2-nodes or 3-nodes *)
  Lemma wf_S n t : wf (S n) t →
    wf3 n t ∨ ∃ l k v r s, t = T BLACK l k v r s ∧ wf n l ∧ wf n r.
  Proof. inversion 1; subst; [right; eauto 10|left; auto]. Qed.
  Lemma wf3_wf n t : wf3 n t → wf (S n) t.
  Proof. inversion 1 as [?????? H1 H2]; subst. inversion H1; subst. auto. Qed.

  Lemma moveRedLeft_spec (m : nat) c ll lk lv lr ls k v r n :
    wf m ll → wf m lr → wf (S m) r →
    ∃ c1 l1 k1 v1 r1 n1,
      moveRedLeft (T c (T BLACK ll lk lv lr ls) k v r n) = LRet (T c1 l1 k1 v1 r1 n1) ∧
      similar (T c (T BLACK ll lk lv lr ls) k v r n) (T c1 l1 k1 v1 r1 n1) ∧
      (∃ rest, elements l1 = elements (T BLACK ll lk lv lr ls) ++ rest) ∧
      ((c1 = negb c ∧ wfr m l1 ∧ wfr m r1) ∨ (c1 = c ∧ wf3 m l1 ∧ wf (S m) r1)).
  Proof.
    intros Hll Hlr [H3|(rl&rk&rv&rr&rs&->&Hrl&Hrr)]%wf_S.
    - inversion H3 as [? rl rk rv rr rs Hrl Hrr]; subst.
      inversion Hrl as [? a ak av b s Ha Hb]; subst.
      do 6 eexists. split_and!.
      + unfold moveRedLeft. simpl. reflexivity.
      + split.
        * simpl. repeat (rewrite <-app_assoc; simpl). done.
        * intros w. simpl. intros ((?&?&->)&((?&?&->)&?&->)&->).
          rewrite !(lens_tlen w) by done. rewrite !sumw_app. simpl.
          rewrite ?sumw_app. simpl. split_and!; auto; lia.
      + simpl. eexists ((k, v) :: elements a). by rewrite <-app_assoc.
      + right. rewrite negb_involutive. auto 10.
    - do 6 eexists. split_and!.
      + unfold moveRedLeft. simpl. rewrite (wf_isRed _ _ Hrl). reflexivity.
      + by split.
      + exists []. simpl. by rewrite app_nil_r.
      + left. auto.
  Qed.

  Lemma moveRedRight_spec (m : nat) c l k v rl rk rv rr rs n :
    wf m rl → wf m rr → wf (S m) l →
    ∃ c1 l1 k1 v1 r1 n1,
      moveRedRight (T c l k v (T BLACK rl rk rv rr rs) n) = LRet (T c1 l1 k1 v1 r1 n1) ∧
      similar (T c l k v (T BLACK rl rk rv rr rs) n) (T c1 l1 k1 v1 r1 n1) ∧
      ((c1 = negb c ∧ wfr m l1 ∧ wfr m r1 ∧ k1 = k ∧ v1 = v ∧ elements l1 = elements l ∧
          elements r1 = elements (T BLACK rl rk rv rr rs)) ∨
       (c1 = c ∧ wf (S m) l1 ∧
         (∃ a b s, r1 = T BLACK a k v b s ∧ wf m a ∧ wfr m b ∧
            elements l = elements l1 ++ (k1, v1) :: elements a ∧
            elements b = elements (T BLACK rl rk rv rr rs)))).
  Proof.
    intros Hrl Hrr [H3|(ll&lk&lv&lr&ls&->&Hll&Hlr)]%wf_S.
    - inversion H3 as [? ll lk lv lr ls Hll Hlr]; subst.
      inversion Hll as [? a ak av b s Ha Hb]; subst.
      do 6 eexists. split_and!.
      + unfold moveRedRight. simpl. reflexivity.
      + split.
        * simpl. repeat (rewrite <-app_assoc; simpl). done.
        * intros w. simpl. intros (((?&?&->)&?&->)&(?&?&->)&->).
          rewrite !(lens_tlen w) by done. rewrite !sumw_app. simpl.
          rewrite ?sumw_app. simpl. split_and!; auto; lia.
      + right. rewrite negb_involutive. split_and!; auto.
        do 3 eexists. split_and!; [reflexivity|..]; auto.
    - do 6 eexists. split_and!.
      + unfold moveRedRight. simpl. rewrite (wf_isRed _ _ Hll). reflexivity.
      + by split.
      + left. split_and!; auto.
  Qed.

  Lemma deleteMin_spec fuel : ∀ t n, (length (elements t) ≤ fuel)%nat → lens one t →
    (wfr n t ∨ wf3 n t) →
    ∃ t' k v, deleteMin fuel t = LRet (t', k, v) ∧
      elements t = (k, v) :: elements t' ∧ lens one t' ∧
      (wfr n t → wf n t' ∨ wfr n t') ∧ (wf3 n t → wf (S n) t').
  Proof.
    induction fuel as [|fuel IH]; intros t n Hlen Hl Hw.
    { destruct Hw as [H|H]; inversion H; subst; simpl in Hlen;
        rewrite app_length in Hlen; simpl in Hlen; lia. }
    assert (∀ c1 l1 k1 v1 r1 n1, similar t (T c1 l1 k1 v1 r1 n1) → ∀ m : nat,
      (wfr m l1 ∨ wf3 m l1) →
      ∃ l2 t' k v, (let! '(l2, mk, mv) := deleteMin fuel l1 in
                let! t2 := fixUp (T c1 l2 k1 v1 r1 (n1 - 1)) in
                LRet (t2, mk, mv)) = LRet (t', k, v) ∧
        elements t = (k, v) :: elements t' ∧ lens one t' ∧
        fixUp (T c1 l2 k1 v1 r1 (n1 - 1)) = LRet t' ∧
        (wfr m l1 → wf m l2 ∨ wfr m l2) ∧ (wf3 m l1 → wf (S m) l2)) as Hstep.
    { intros c1 l1 k1 v1 r1 n1 [He Hsl] m Hl1. simpl in He.
      specialize (Hsl _ Hl). simpl in Hsl. destruct Hsl as (Hsl1&Hsr1&Hn1).
      destruct (IH l1 m) as (l2&k&v&->&Hel&Hll2&?&?); auto.
      { rewrite <-He, app_length in Hlen. simpl in Hlen. lia. }
      cbn [lbind]. destruct (fixUp_total c1 l2 k1 v1 r1 (n1 - 1)) as (t'&Hf&He'&Hl').
      rewrite Hf. cbn [lbind]. exists l2, t', k, v. split_and!; auto.
      - rewrite <-He, He', Hel. done.
      - apply Hl'. simpl. split_and!; auto. rewrite Hn1, Hel. simpl. unfold one. lia. }
    destruct Hw as [Hw|Hw].
    - inversion Hw as [? l k v r s Hwl Hwr]; subst. destruct n as [|m].
      { inversion Hwl; subst. inversion Hwr; subst. simpl. do 3 eexists.
        split_and!; try done; auto. by inversion 1. }
      apply wf_S in Hwl as [Hwl|(ll&lk&lv&lr&ls&->&Hll&Hlr)].
      + destruct (Hstep RED l k v r s (similar_refl _) m) as (l2&t'&k0&v0&Heq&?&?&Hf&?&Hc); auto.
        exists t', k0, v0. split_and!; auto; [|destruct l; [inversion Hwl|]; simpl|by inversion 1].
        * inversion Hwl as [? ll lk lv lr ls Hll Hlr]; subst. simpl. rewrite <-Heq.
          inversion Hll; subst. done.
        * intros _. destruct (fixUp_color (S m) _ _ _ _ _ _ _ Hf) as (_&_&_&_&F5&_&_); auto.
      + destruct (moveRedLeft_spec m RED ll lk lv lr ls k v r s)
          as (c1&l1&k1&v1&r1&n1&Hmv&Hsim&_&Hcol); auto.
        destruct (Hstep c1 l1 k1 v1 r1 n1 Hsim m) as (l2&t'&k0&v0&Heq&?&?&Hf&Hc1&Hc2).
        { naive_solver. }
        exists t', k0, v0. split_and!; auto; [| |by inversion 1].
        * cbn [deleteMin]. rewrite (bothBlack_2 m) by done. cbn [lbind]. rewrite Hmv.
          cbn [lbind]. done.
        * intros _. destruct Hcol as [(->&Hl1&Hr1)|(->&Hl1&Hr1)].
          -- destruct (fixUp_color m _ _ _ _ _ _ _ Hf) as (_&F2&_). auto.
          -- destruct (fixUp_color (S m) _ _ _ _ _ _ _ Hf) as (_&_&_&_&F5&_&_); auto.
    - inversion Hw as [? l k v r s Hwl Hwr]; subst.
      destruct (Hstep BLACK l k v r s (similar_refl _) n) as (l2&t'&k0&v0&Heq&?&?&Hf&?&Hc); auto.
      exists t', k0, v0. split_and!; auto; [|by inversion 1|].
      + inversion Hwl as [? ll lk lv lr ls Hll Hlr]; subst. simpl. by rewrite <-Heq.
      + intros _. destruct (fixUp_color n _ _ _ _ _ _ _ Hf) as (_&_&F3&_); auto.
  Qed.

  (** removal around a pivot *)
  Lemma present_rank k m : dom k → alldom m → ascending cmp m → present cmp k m = true →
    (rank cmp k m < length m)%nat.
  Proof using ORD.
    intros Hk. induction m as [|p m IH]; [done|]. intros Hd Hs Hp.
    apply alldom_cons in Hd as [??]. apply ascending_cons in Hs as [? Ha].
    rewrite rank_cons. rewrite present_cons in Hp. destruct (same cmp k p.1) eqn:Hsame.
    - rewrite (same_not_below' cmp dom ORD), (rank_allabove cmp dom ORD); auto; simpl; [lia|].
      apply (allabove_same cmp dom ORD m p.1 k); auto. by apply (same_sym cmp dom ORD).
    - simpl in Hp. apply IH in Hp; auto. simpl. destruct (below _ _ _); lia.
  Qed.
  Lemma s_remove_lt i m p m' : (i < length m)%nat →
    s_remove i (m ++ p :: m') = s_remove i m ++ p :: m'.
  Proof.
    intros. unfold s_remove. rewrite take_app_le, drop_app_le by lia.
    by rewrite <-app_assoc.
  Qed.
  Lemma s_remove_gt i m p m' :
    s_remove (length m + 1 + i) (m ++ p :: m') = m ++ p :: s_remove i m'.
  Proof.
    unfold s_remove. rewrite take_app_ge, drop_app_ge by lia.
    replace (length m + 1 + i - length m)%nat with (S i) by lia.
    replace (S (length m + 1 + i) - length m)%nat with (S (S i)) by lia.
    simpl. by rewrite <-app_assoc.
  Qed.
  Definition rm k m := s_remove (rank cmp k m) m.
  Lemma rm_lt k m p m' : dom k → alldom (m ++ p :: m') → ascending cmp (m ++ p :: m') →
    below cmp k p.1 = true → present cmp k m = true →
    rm k (m ++ p :: m') = rm k m ++ p :: m'.
  Proof using ORD.
    intros. unfold rm. destruct (pivot_lt cmp dom ORD m m' p k) as (_&->&_); auto.
    apply s_remove_lt. apply present_rank; eauto.
  Qed.
  Lemma rm_gt k m p m' : dom k → alldom (m ++ p :: m') → ascending cmp (m ++ p :: m') →
    below cmp p.1 k = true →
    rm k (m ++ p :: m') = m ++ p :: rm k m'.
  Proof using ORD.
    intros. unfold rm. destruct (pivot_gt cmp dom ORD m m' p k) as (_&->&_); auto.
    apply s_remove_gt.
  Qed.
  Lemma rm_eq k m p m' : dom k → alldom (m ++ p :: m') → ascending cmp (m ++ p :: m') →
    same cmp k p.1 = true → rm k (m ++ p :: m') = m ++ m'.
  Proof using ORD.
    intros. unfold rm. destruct (pivot_eq cmp dom ORD m m' p k) as (_&_&->&_); auto.
    apply s_remove_mid.
  Qed.
  Lemma present_lt k m p m' : dom k → alldom (m ++ p :: m') → ascending cmp (m ++ p :: m') →
    present cmp k m = true → below cmp k p.1 = true.
  Proof using ORD.
    intros Hk Hd Hs Hp. pose proof (dom_m dom _ _ _ Hd).
    destruct (cmp_cases cmp dom ORD k p.1) as (c&_&[[??]|[[??]|[??]]]); auto.
    - exfalso. destruct (pivot_eq cmp dom ORD m m' p k) as (Hb&_); auto.
      rewrite (present_allbelow cmp dom ORD) in Hp; eauto. done.
    - exfalso. destruct (pivot_gt cmp dom ORD m m' p k) as (Hb&_); auto.
      apply allbelow_app in Hb as [Hb _].
      rewrite (present_allbelow cmp dom ORD) in Hp; eauto. done.
  Qed.

  Lemma fixUp_blacken c l k v r n t' :
    fixUp (T c l k v r n) = LRet t' →
    ∃ t'', fixUp (T BLACK l k v r n) = LRet t'' ∧ blacken t' = blacken t''.
  Proof.
    unfold fixUp. intros H.
    destruct r as [|[] rl rk rv rr rn]; simpl in *.
    - destruct l as [|[] [|[] ?????] ?? lr ?]; simpl in *; simplify_eq; simpl; eauto.
    - destruct rl as [|[] rll ?? rlr ?]; destruct l as [|[] ?????]; destruct rr as [|[] ?????];
        simpl in *; simplify_eq; eauto.
    - destruct l as [|[] [|[] ?????] ?? lr ?]; simpl in *; simplify_eq; simpl; eauto.
  Qed.
  Lemma wf_blacken n t : wf n t ∨ wfr n t → ∃ n', wf n' (blacken t).
  Proof.
    intros [H|H]; inversion H; subst; simpl; eauto.
  Qed.

  Definition result fuel t key t' :=
    delete cmp fuel t key = LRet (t', false) ∧ elements t' = rm key (elements t) ∧ lens one t'.

  Lemma delete_spec fuel : ∀ t key, dom key → alldom (elements t) → ascending cmp (elements t) →
    present cmp key (elements t) = true → lens (W key) t → (length (elements t) ≤ fuel)%nat →
    ∀ n,
    ((∃ c l k v r s, t = T c l k v r s ∧ wf n l ∧ wf n r) →
       ∃ t', result fuel t key t' ∧ (∃ n', wf n' (blacken t')) ∧
             (wfr n t → wf n t' ∨ wfr n t')) ∧
    (wf3 n t → ∃ t', result fuel t key t' ∧ wf (S n) t') ∧
    ((∃ l k v r s, t = T BLACK l k v r s ∧ wf n l ∧ wfr n r ∧ below cmp key k = false) →
       ∃ t', result fuel t key t' ∧ wf (S n) t').
  Proof using ORD.
    induction fuel as [|fuel IH]; intros t key Hk Hd Hs Hp Hl Hlen n.
    { destruct t; [done|]. simpl in Hlen. rewrite app_length in Hlen. simpl in Hlen. lia. }
    assert (∀ c1 l1 k1 v1 r1 n1 l2, similar t (T c1 l1 k1 v1 r1 n1) →
      present cmp key (elements l1) = true → result fuel l1 key l2 →
      ∃ t', (let! '(l2, err) := delete cmp fuel l1 key in
             if (err : bool) then LRet (T c1 l2 k1 v1 r1 n1, true)
             else let! t2 := fixUp (T c1 l2 k1 v1 r1 n1) in LRet (t2, false)) = LRet (t', false) ∧
        fixUp (T c1 l2 k1 v1 r1 n1) = LRet t' ∧ elements t' = rm key (elements t) ∧
        lens one t') as Hleft.
    { intros c1 l1 k1 v1 r1 n1 l2 [He Hsl] Hpl (Hres&Hel&Hll). simpl in He.
      specialize (Hsl _ Hl). simpl in Hsl. destruct Hsl as (Hsl1&Hsr1&Hn1).
      rewrite Hres. cbn [lbind].
      destruct (fixUp_total c1 l2 k1 v1 r1 n1) as (t'&Hf&He'&Hl').
      rewrite Hf. cbn [lbind]. exists t'. rewrite <-He in Hd, Hs, Hp |- *.
      assert (below cmp key k1 = true) by
        (eapply (present_lt key (elements l1) (k1, v1)); eauto).
      destruct (pivot_lt cmp dom ORD (elements l1) (elements r1) (k1, v1) key) as (Ha&_&_); auto.
      apply allabove_cons in Ha as [_ Ha].
      assert (present cmp key (elements r1) = false) as Hpr
        by (apply (present_allabove cmp dom); eauto).
      assert (dom k1) by (apply (dom_m dom _ _ _ Hd)).
      split_and!; auto.
      - rewrite rm_lt, <-Hel by (eauto). by rewrite He'.
      - apply Hl'. simpl. split_and!; auto.
        + by apply (lens_absent cmp key).
        + rewrite Hn1, (W_diff cmp), (sumw_absent cmp key (elements r1)),
            (sumw_present cmp dom ORD key (elements l1));
            eauto using not_same_lt. rewrite !sumw_one, Hel. unfold rm, s_remove.
          pose proof (present_rank key (elements l1)) as Hrk.
          rewrite app_length, take_length, drop_length. unfold one.
          specialize (Hrk Hk ltac:(eauto) ltac:(eauto) Hpl). lia. }
    assert (∀ c2 l2 k2 v2 r2 n2 cr2 (m : nat), similar t (T c2 l2 k2 v2 r2 n2) →
      cmp key k2 = Some cr2 →
      (cr2 = 0 ∧ (wfr m r2 ∨ wf3 m r2)) ∨
      (0 < cr2 ∧ (wfr m r2 ∨ wf3 m r2 ∨ ∃ l k v r s, r2 = T BLACK l k v r s ∧
          wf m l ∧ wfr m r ∧ below cmp key k = false)) →
      ∃ t' k3 v3 r3,
        (if cr2 =? 0 then
           let! '(r3, mk, mv) := deleteMin fuel r2 in
           let! t3 := fixUp (T c2 l2 mk mv r3 n2) in
           LRet (t3, false)
         else
           let! '(r3, err) := delete cmp fuel r2 key in
           if (err : bool) then LRet (T c2 l2 k2 v2 r3 n2, true)
           else let! t3 := fixUp (T c2 l2 k2 v2 r3 n2) in LRet (t3, false)) = LRet (t', false) ∧
        fixUp (T c2 l2 k3 v3 r3 n2) = LRet t' ∧ elements t' = rm key (elements t) ∧
        lens one t' ∧ (wfr m r2 → wf m r3 ∨ wfr m r3) ∧
        (wf3 m r2 ∨ wf3r m r2 → wf (S m) r3)) as Hright.
    { intros c2 l2 k2 v2 r2 n2 cr2 m [He Hsl] Hcmp Hcase. simpl in He.
      specialize (Hsl _ Hl). simpl in Hsl. destruct Hsl as (Hsl1&Hsr1&Hn1).
      rewrite <-He in Hd, Hs, Hp |- *. rewrite <-He in Hlen.
      assert (dom k2) by (apply (dom_m dom _ _ _ Hd)).
      rewrite app_length in Hlen. simpl in Hlen.
      destruct (cmp_cases cmp dom ORD key k2) as (c'&Hc'&Hcc); auto.
      assert (c' = cr2) as -> by congruence.
      destruct Hcase as [[-> Hw]|[Hgt Hw]].
      - destruct Hcc as [[??]|[[_ Hsame]|[??]]]; [lia| |lia].
        destruct (pivot_eq cmp dom ORD (elements l2) (elements r2) (k2, v2) key)
          as (Hal&Har&_&_); auto.
        assert (present cmp key (elements r2) = false) as Hpr
          by (apply (present_allabove cmp dom); eauto).
        assert (present cmp key (elements l2) = false) as Hpl
          by (apply (present_allbelow cmp dom); eauto).
        apply (lens_absent cmp) in Hsr1; [|done].
        simpl. destruct (deleteMin_spec fuel r2 m) as (r3&mk&mv&->&Her&Hlr&?&?); auto; [lia|].
        cbn [lbind]. destruct (fixUp_total c2 l2 mk mv r3 n2) as (t'&Hf&He'&Hl').
        rewrite Hf. cbn [lbind]. exists t', mk, mv, r3. split_and!; auto.
        + rewrite rm_eq by eauto. rewrite He'. simpl. by rewrite Her.
        + apply Hl'. simpl. split_and!; auto.
          * by apply (lens_absent cmp key).
          * rewrite Hn1, (W_same cmp), !(sumw_absent cmp), !sumw_one, Her; auto.
            simpl. unfold one. lia.
        + intros [Hw'|Hw']; auto. exfalso. destruct Hw as [Hw|Hw]; inversion Hw; subst.
          * by inversion Hw'.
          * inversion Hw'; subst.
            match goal with H : wfr _ ?x, H' : wf _ ?x |- _ => by inversion H; subst; inversion H' end.
      - destruct Hcc as [[??]|[[? Hsame]|[_ Hgt']]]; [lia|lia|].
        rewrite (proj2 (Z.eqb_neq cr2 0)) by lia.
        destruct (pivot_gt cmp dom ORD (elements l2) (elements r2) (k2, v2) key)
          as (Ha&_&Hp'); auto.
        rewrite Hp' in Hp. apply allbelow_app in Ha as [Ha _].
        assert (present cmp key (elements l2) = false) as Hpl
          by (apply (present_allbelow cmp dom); eauto).
        destruct (IH r2 key Hk ltac:(eauto) ltac:(eauto) Hp Hsr1 ltac:(lia) m) as (I1&I2&I3).
        assert (∃ r3, result fuel r2 key r3 ∧ (wfr m r2 → wf m r3 ∨ wfr m r3) ∧
           (wf3 m r2 ∨ wf3r m r2 → wf (S m) r3)) as (r3&(Hres&Her&Hlr)&Hcol1&Hcol2).
        { destruct Hw as [Hw|[Hw|Hw]].
          - destruct I1 as (r3&?&_&?); [inversion Hw; subst; eauto 12|].
            exists r3. split_and!; auto.
            inversion Hw; subst. intros [Hx|Hx]; by inversion Hx.
          - destruct I2 as (r3&?&?); [done|]. exists r3. split_and!; auto.
            inversion Hw; subst. by inversion 1.
          - destruct I3 as (r3&?&?); [done|]. exists r3. split_and!; auto.
            destruct Hw as (?&?&?&?&?&->&_). by inversion 1. }
        rewrite Hres. cbn [lbind].
        destruct (fixUp_total c2 l2 k2 v2 r3 n2) as (t'&Hf&He'&Hl').
        rewrite Hf. cbn [lbind]. exists t', k2, v2, r3. split_and!; auto.
        + rewrite rm_gt, <-Her by eauto. by rewrite He'.
        + apply Hl'. simpl. split_and!; auto.
          * by apply (lens_absent cmp key).
          * rewrite Hn1, (W_diff cmp), (sumw_absent cmp key (elements l2)),
              (sumw_present cmp dom ORD key (elements r2));
              eauto using not_same_gt. rewrite !sumw_one, Her. unfold rm, s_remove.
            pose proof (present_rank key (elements r2)) as Hrk.
            rewrite app_length, take_length, drop_length. unfold one.
            specialize (Hrk Hk ltac:(eauto) ltac:(eauto) Hp). lia. }
    split_and!.
    - intros (c&l&k&v&r&s&->&Hwl&Hwr).
      (* it suffices to know the colour facts for a RED / BLACK root via fixUp *)
      assert (∀ c' l' k' v' r' n' t', fixUp (T c' l' k' v' r' n') = LRet t' →
        (∀ t'', fixUp (T BLACK l' k' v' r' n') = LRet t'' → ∃ n', wf n' t'' ∨ wfr n' t'') →
        ∃ n', wf n' (blacken t')) as Hbl.
      { intros c' l' k' v' r' n' t' Hf Hcol.
        destruct (fixUp_blacken _ _ _ _ _ _ _ Hf) as (t''&Hf''&->).
        destruct (Hcol _ Hf'') as [n'' Hn'']. by eapply wf_blacken. }
      simpl in Hd, Hs, Hp. assert (dom k) by (apply (dom_m dom _ _ _ Hd)).
      destruct n as [|m].
      { inversion Hwl; subst. inversion Hwr; subst. simpl in Hp.
        rewrite orb_false_r in Hp. exists E. split_and!; [split_and!|..]; auto.
        - simpl. apply same_spec in Hp. rewrite Hp. simpl. done.
        - simpl. change [(k, v)] with ([] ++ (k, v) :: []). rewrite rm_eq; auto.
        - done.
        - exists 0%nat. constructor. }
      destruct (cmp_cases cmp dom ORD key k) as (cr&Hcmp&Hcc); auto.
      destruct Hcc as [[Hlt Hb]|Hge].
      + (* go left *)
        destruct (pivot_lt cmp dom ORD (elements l) (elements r) (k, v) key) as (_&_&Hpp); auto.
        rewrite Hpp in Hp.
        simpl in Hl. destruct Hl as (Hll&Hlr&Hls).
        simpl in Hlen. rewrite app_length in Hlen. simpl in Hlen.
        apply wf_S in Hwl as [Hwl|(ll&lk&lv&lr&ls&->&Hwll&Hwlr)].
        * destruct (IH l key Hk ltac:(eauto) ltac:(eauto) Hp ltac:(eauto) ltac:(lia) m)
            as (_&I2&_).
          destruct (I2 Hwl) as (l2&Hres&Hwl2).
          destruct (Hleft c l k v r s l2) as (t'&Heq&Hf&?&?); auto using similar_refl.
          exists t'. split_and!; [split_and!| |]; auto.
          -- cbn [delete]. rewrite Hcmp, (proj2 (Z.ltb_lt cr 0)) by lia.
             rewrite (bothBlack_3 m) by done. cbn [lbind]. done.
          -- eapply Hbl; [done|]. intros t'' Hf''.
             destruct (fixUp_color (S m) _ _ _ _ _ _ _ Hf'') as (_&_&F3&_);
                 exists (S (S m)); left; apply F3; auto.
          -- inversion 1; subst.
             destruct (fixUp_color (S m) _ _ _ _ _ _ _ Hf) as (_&_&_&_&F5&_&_); auto.
        * destruct (moveRedLeft_spec m c ll lk lv lr ls k v r s)
            as (c1&l1&k1&v1&r1&n1&Hmv&Hsim&[rest Hpre]&Hcol); auto.
          assert (present cmp key (elements l1) = true) as Hpl1.
          { rewrite Hpre, present_app, Hp. done. }
          pose proof (proj1 Hsim) as Hel1. simpl in Hel1.
          pose proof (proj2 Hsim (W key)) as Hlen1. simpl in Hlen1.
          destruct Hlen1 as (Hll1&_&_); [auto|].
          assert (alldom (elements l1) ∧ ascending cmp (elements l1) ∧
                  (length (elements l1) ≤ fuel)%nat) as (?&?&?).
          { simpl in Hd, Hs, Hlen. rewrite <-Hel1 in Hd, Hs. split_and!; eauto.
            pose proof (f_equal length Hel1) as Hle.
            rewrite !app_length in Hle, Hlen. simpl in Hle, Hlen.
            rewrite !app_length in Hle. simpl in Hle. lia. }
          destruct (IH l1 key Hk ltac:(eauto) ltac:(eauto) Hpl1 Hll1 ltac:(lia) m)
            as (I1&I2&_).
          assert (∃ l2, result fuel l1 key l2 ∧ (wfr m l1 → wf m l2 ∨ wfr m l2) ∧
            (wf3 m l1 → wf (S m) l2)) as (l2&Hres&Hc1&Hc2).
          { destruct Hcol as [(_&Hw&_)|(_&Hw&_)].
            - destruct I1 as (l2&?&_&?); [inversion Hw; subst; eauto 12|].
              exists l2. split_and!; auto. inversion Hw; subst. by inversion 1.
            - destruct I2 as (l2&?&?); [done|]. exists l2. split_and!; auto.
              inversion Hw; subst. by inversion 1. }
          destruct (Hleft c1 l1 k1 v1 r1 n1 l2) as (t'&Heq&Hf&?&?); auto.
          exists t'. split_and!; [split_and!| |]; auto.
          -- cbn [delete]. rewrite Hcmp, (proj2 (Z.ltb_lt cr 0)) by lia.
             rewrite (bothBlack_2 m) by done. cbn [lbind]. rewrite Hmv. cbn [lbind]. done.
          -- eapply Hbl; [done|]. intros t'' Hf''. destruct Hcol as [(?&?&?)|(?&?&?)].
             ++ destruct (fixUp_color m _ _ _ _ _ _ _ Hf'') as (_&F2&_); exists (S m); apply F2; auto.
             ++ destruct (fixUp_color (S m) _ _ _ _ _ _ _ Hf'') as (_&_&F3&_);
                 exists (S (S m)); left; apply F3; auto.
          -- inversion 1; subst. destruct Hcol as [(->&?&?)|(->&?&?)].
             ++ destruct (fixUp_color m _ _ _ _ _ _ _ Hf) as (_&F2&_); eauto.
             ++ destruct (fixUp_color (S m) _ _ _ _ _ _ _ Hf) as (_&_&_&_&F5&_&_); auto.
      + (* go right *)
        assert (0 ≤ cr ∧ below cmp key k = false) as [Hcr Hnb].
        { destruct Hge as [[-> ?]|[??]]; (split; [lia|]).
          - by apply (same_not_below cmp dom).
          - by apply (below_asym cmp dom ORD). }
        assert (isRed l = false) as Hlred by (by eapply wf_isRed).
        pose proof Hwr as Hwr0.
        apply wf_S in Hwr as [Hwr|(rl&rk&rv&rr&rs&->&Hwrl&Hwrr)].
        * destruct (Hright c l k v r s cr m) as (t'&k3&v3&r3&Heq&Hf&?&?&_&Hc2);
            auto using similar_refl.
          { destruct Hge as [[-> ?]|[??]]; auto. }
          exists t'. split_and!; [split_and!| |]; auto.
          -- cbn [delete]. rewrite Hcmp, (proj2 (Z.ltb_ge cr 0)) by lia.
             rewrite Hlred. cbn [lbind getRight]. rewrite (bothBlack_3 m) by done. cbn [lbind].
             rewrite Heq. inversion Hwr; subst. done.
          -- eapply Hbl; [done|]. intros t'' Hf''.
             destruct (fixUp_color (S m) _ _ _ _ _ _ _ Hf'') as (_&_&F3&_);
                 exists (S (S m)); left; apply F3; auto.
          -- inversion 1; subst.
             destruct (fixUp_color (S m) _ _ _ _ _ _ _ Hf) as (_&_&_&_&F5&_&_); auto.
        * destruct (moveRedRight_spec m c l k v rl rk rv rr rs s)
            as (c1&l1&k1&v1&r1&n1&Hmv&Hsim&Hcol); auto.
          assert (∃ cr1, cmp key k1 = Some cr1 ∧
            ((cr1 = 0 ∧ (wfr m r1 ∨ wf3 m r1)) ∨
             (0 < cr1 ∧ (wfr m r1 ∨ wf3 m r1 ∨ ∃ l k v r s, r1 = T BLACK l k v r s ∧
             wf m l ∧ wfr m r ∧ below cmp key k = false)))) as (cr1&Hcmp1&Hcase).
          { destruct Hcol as [(->&Hw1&Hw2&->&->&_)|(->&Hw1&a&b&sb&->&Ha&Hb&Hela&_)].
            - exists cr. split; [done|]. destruct Hge as [[-> ?]|[??]]; auto.
            - rewrite Hela in Hd, Hs. rewrite <-app_assoc in Hd, Hs. simpl in Hd, Hs.
              assert (dom k1) by (apply (dom_m dom _ _ _ Hd)).
              assert (below cmp k1 k = true) as Hk1k.
              { apply ascending_mid in Hs as (_&_&_&Hab&_).
                apply Forall_app in Hab as [_ Hab%Forall_cons]. apply Hab. }
              assert (below cmp k1 key = true) as Hk1.
              { destruct Hge as [[-> ?]|[??]].
                - rewrite (below_same_r cmp dom ORD key k k1); auto.
                - apply (below_trans cmp dom ORD k1 k key); auto. }
              apply (below_flip cmp dom ORD) in Hk1 as (cr1&?&?); auto.
              exists cr1. split; [done|]. right. split; [done|]. right. right.
              do 5 eexists. split_and!; eauto. }
          destruct (Hright c1 l1 k1 v1 r1 n1 cr1 m) as (t'&k3&v3&r3&Heq&Hf&?&?&Hc1&Hc2); auto.
          exists t'. split_and!; [split_and!| |]; auto.
          -- cbn [delete]. rewrite Hcmp, (proj2 (Z.ltb_ge cr 0)) by lia.
             rewrite Hlred. cbn [lbind getRight]. rewrite (bothBlack_2 m) by done. cbn [lbind].
             rewrite Hmv. cbn [lbind cmpNode]. rewrite Hcmp1. done.
          -- eapply Hbl; [done|]. intros t'' Hf''.
             destruct Hcol as [(->&Hw1&Hw2&->&->&_)|(->&Hw1&a&b&sb&->&Ha&Hb&Hela&_)].
             ++ destruct (fixUp_color m _ _ _ _ _ _ _ Hf'') as (_&F2&_); exists (S m); apply F2; auto.
             ++ destruct (fixUp_color (S m) _ _ _ _ _ _ _ Hf'') as (_&_&F3&_);
                 exists (S (S m)); left; apply F3; auto.
          -- inversion 1; subst.
             destruct Hcol as [(->&Hw1&Hw2&->&->&_)|(->&Hw1&a&b&sb&->&Ha&Hb&Hela&_)].
             ++ destruct (fixUp_color m _ _ _ _ _ _ _ Hf) as (_&F2&_); eauto.
             ++ destruct (fixUp_color (S m) _ _ _ _ _ _ _ Hf) as (_&_&_&_&F5&_&_).
                right. apply F5; auto.
    - inversion 1 as [? l k v r s Hwl Hwr]; subst.
      simpl in Hd, Hs, Hp. assert (dom k) by (apply (dom_m dom _ _ _ Hd)).
      destruct (cmp_cases cmp dom ORD key k) as (cr&Hcmp&Hcc); auto.
      destruct Hcc as [[Hlt Hb]|Hge].
      + destruct (pivot_lt cmp dom ORD (elements l) (elements r) (k, v) key) as (_&_&Hpp); auto.
        rewrite Hpp in Hp.
        simpl in Hl. destruct Hl as (Hll&Hlr&Hls).
        simpl in Hlen. rewrite app_length in Hlen. simpl in Hlen.
        destruct (IH l key Hk ltac:(eauto) ltac:(eauto) Hp ltac:(eauto) ltac:(lia) n)
            as (I1&_&_).
        destruct I1 as (l2&Hres&_&Hc); [inversion Hwl; subst; eauto 12|].
        destruct (Hleft BLACK l k v r s l2) as (t'&Heq&Hf&?&?); auto using similar_refl.
        exists t'. split_and!; [split_and!|]; auto.
        * cbn [delete]. rewrite Hcmp, (proj2 (Z.ltb_lt cr 0)) by lia.
          rewrite (bothBlack_r n) by done. cbn [lbind]. done.
        * destruct (fixUp_color n _ _ _ _ _ _ _ Hf) as (_&_&F3&_); eauto.
      + inversion Hwl as [? a ak av b sb Ha Hb]; subst.
        destruct (rotateRight (T BLACK (T RED a ak av b sb) k v r s)) as [t1| |] eqn:Hrot;
          [|done..].
        pose proof (rotateRight_similar _ _ Hrot) as Hsim. simpl in Hrot.
        injection Hrot as <-.
        assert (dom ak).
        { simpl in Hd. rewrite <-app_assoc in Hd. apply (dom_m dom _ _ _ Hd). }
        assert (below cmp ak key = true) as Hk1.
        { assert (below cmp ak k = true) as Hak.
          { simpl in Hs. rewrite <-app_assoc in Hs.
            apply ascending_mid in Hs as (_&_&_&Hab&_).
            apply Forall_app in Hab as [_ Hab%Forall_cons]. apply Hab. }
          destruct Hge as [[-> ?]|[??]].
          - rewrite (below_same_r cmp dom ORD key k ak); auto.
          - apply (below_trans cmp dom ORD ak k key); auto. }
        apply (below_flip cmp dom ORD) in Hk1 as (cr1&Hcmp1&?); auto.
        match type of Hsim with similar _ (T ?c1 ?l1 ?k1 ?v1 ?r1 ?n1) =>
          destruct (Hright c1 l1 k1 v1 r1 n1 cr1 n) as (t'&k3&v3&r3&Heq&Hf&?&?&Hc1&_); auto end.
        exists t'. split_and!; [split_and!|]; auto.
        * cbn [delete]. rewrite Hcmp.
          rewrite (proj2 (Z.ltb_ge cr 0)) by (destruct Hge as [[-> ?]|[??]]; lia).
          cbn [isRed]. unfold RED at 1. cbn [rotateRight lbind cmpNode getRight].
          rewrite Hcmp1. cbn [bothBlack isBlack negb RED]. cbn. rewrite <-Heq. done.
        * destruct (fixUp_color n _ _ _ _ _ _ _ Hf) as (_&_&_&F4&_); eauto.
    - intros (l&k&v&r&s&->&Hwl&Hwr&Hnb).
      simpl in Hd, Hs, Hp. assert (dom k) by (apply (dom_m dom _ _ _ Hd)).
      destruct (cmp_cases cmp dom ORD key k) as (cr&Hcmp&Hcc); auto.
      destruct Hcc as [[Hlt Hb]|Hge]; [congruence|].
      destruct (Hright BLACK l k v r s cr n) as (t'&k3&v3&r3&Heq&Hf&?&?&Hc1&_);
        auto using similar_refl.
      { destruct Hge as [[-> ?]|[??]]; auto. }
      exists t'. split_and!; [split_and!|]; auto.
      + cbn [delete]. rewrite Hcmp.
        rewrite (proj2 (Z.ltb_ge cr 0)) by (destruct Hge as [[-> ?]|[??]]; lia).
        rewrite (wf_isRed _ _ Hwl). cbn [lbind getRight].
        rewrite (bothBlack_r n) by done. cbn [lbind]. inversion Hwr; subst. done.
      + destruct (fixUp_color n _ _ _ _ _ _ _ Hf) as (_&_&_&F4&_); eauto.
  Qed.
End proof.

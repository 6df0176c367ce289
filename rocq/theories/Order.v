(** * Order of the keys and separators in a B+Tree

    Models no code. *)
From Coq Require Import ssreflect Sorted.
From stdpp Require Import prelude list.
From Verif Require Import Spec SpecFacts BTree Codec Ghost.
Open Scope Z_scope.

Lemma SS_app {A} (R : A → A → Prop) a b :
  StronglySorted R (a ++ b) ↔ StronglySorted R a ∧ StronglySorted R b ∧ ∀ x y, x ∈ a → y ∈ b → R x y.
Proof.
  induction a as [|x a IH]; cbn.
  - split; [|tauto]. intros H. split_and!; [constructor|done|]. by intros ?? ?%elem_of_nil.
  - split.
    + intros [H1 H2]%StronglySorted_inv. apply IH in H1 as (Ha & Hb & Hab).
      apply Forall_app in H2 as [H2 H3]. split_and!; [by constructor|done|].
      intros x' y [->|Hx]%elem_of_cons Hy; [|by auto]. rewrite Forall_forall in H3. by auto.
    + intros ([H1 H2]%StronglySorted_inv & Hb & Hab). constructor.
      * apply IH. split_and!; [done|done|]. intros. apply Hab; [by right|done].
      * apply Forall_app. split; [done|]. apply Forall_forall. intros. apply Hab; [by left|done].
Qed.
Lemma SS_sub {A} (R : A → A → Prop) a b : sublist a b → StronglySorted R b → StronglySorted R a.
Proof.
  induction 1 as [|x a b Hs IH|x a b Hs IH]; intros H; [done|..];
    apply StronglySorted_inv in H as [H1 H2]; [|by auto].
  constructor; [by auto|]. by eapply sublist_Forall'.
Qed.

Section order.
  Context {K V : Type}.
  Variable cmp : K → K → option Z.
  Variable dom : K → Prop.
  Variable domV : V → Prop.
  Hypothesis ORD : total_order cmp dom.
  Notation below := (below cmp).
  Notation tok := (tok K V).
  Implicit Types (k : K) (ks : list K) (css : list (list tok)) (ts a b : list tok) (m l : list (K * V)).

  Lemma below_le_trans x y z : dom x → dom y → dom z → below x y = true → below z y = false → below x z = true.
  Proof.
    intros Hx Hy Hz H1 H2. destruct (cmp_cases cmp dom ORD y z Hy Hz) as (c & _ & [[_ H]|[[_ H]|[_ H]]]).
    - by apply (below_trans cmp dom ORD _ y).
    - rewrite -(below_same_r cmp dom ORD y z); auto.
    - congruence.
  Qed.
  Lemma le_below_trans x y z : dom x → dom y → dom z → below y x = false → below y z = true → below x z = true.
  Proof.
    intros Hx Hy Hz H1 H2. destruct (cmp_cases cmp dom ORD x y Hx Hy) as (c & _ & [[_ H]|[[_ H]|[_ H]]]).
    - by apply (below_trans cmp dom ORD _ y).
    - rewrite (below_same_l cmp dom ORD x y); auto.
    - congruence.
  Qed.

  Definition tlt (a b : tok) : Prop :=
    match a, b with
    | TS x, TI y _ => below y x = false
    | _, _ => below (tkey a) (tkey b) = true
    end.
  Definition dtok (a : tok) : Prop := match a with TI k v => dom k ∧ domV v | TS k => dom k end.
  Lemma dtok_key (a : tok) : dtok a → dom (tkey a).
  Proof. destruct a; cbn; tauto. Qed.
  Definition good (ts : list tok) : Prop := StronglySorted tlt ts ∧ Forall dtok ts.
  Lemma good_app a b : good (a ++ b) ↔ good a ∧ good b ∧ ∀ x y, x ∈ a → y ∈ b → tlt x y.
  Proof. unfold good. rewrite SS_app Forall_app. tauto. Qed.
  Lemma good_sub a b : sublist a b → good b → good a.
  Proof. intros Hs [H1 H2]. split; [by eapply SS_sub|by eapply sublist_Forall']. Qed.
  Lemma tlt_trans x y z : dtok x → dtok y → dtok z → tlt x y → tlt y z → tlt x z.
  Proof.
    intros Hx%dtok_key Hy%dtok_key Hz%dtok_key. destruct x, y, z; cbn in *; intros H1 H2;
      try (by eapply (below_trans cmp dom ORD _ k0));
      try (by eapply (below_le_trans _ k0)); try (by eapply (le_below_trans _ k0)).
    - apply (below_asym cmp dom ORD); [done..|]. by eapply (le_below_trans _ k0).
    - apply (below_asym cmp dom ORD); [done..|]. by eapply (below_le_trans _ k0).
  Qed.
  Lemma good_leaf m : good (itoks m) ↔ ascending cmp m ∧ Forall (λ p, dom p.1 ∧ domV p.2) m.
  Proof.
    unfold good, itoks. rewrite Forall_fmap. apply and_iff_compat_l || idtac.
    enough (StronglySorted tlt ((λ p, TI p.1 p.2) <$> m) ↔ ascending cmp m) as -> by done.
    induction m as [|p m IH]; cbn; [split; constructor|]. split.
    - intros [H1 H2]%StronglySorted_inv. constructor; [by apply IH|]. by rewrite Forall_fmap in H2.
    - intros [H1 H2]%StronglySorted_inv. constructor; [by apply IH|]. by rewrite Forall_fmap.
  Qed.
  Lemma good_items ts : good ts → ascending cmp (titems ts) ∧ Forall (λ p, dom p.1 ∧ domV p.2) (titems ts).
  Proof.
    induction ts as [|x ts IH]; intros [H1 H2]; [split; constructor|].
    apply StronglySorted_inv in H1 as [H1 H3]. apply Forall_cons in H2 as [H2 H4].
    destruct IH as [IH1 IH2]; [done|]. destruct x as [k v|k]; [|done].
    change (titems (TI k v :: ts)) with ((k, v) :: titems ts). split.
    - constructor; [done|]. apply Forall_forall. intros [k' v'] Hin.
      apply elem_of_list_omap in Hin as ([k2 v2|k2] & Hin & [= -> ->]).
      rewrite Forall_forall in H3. by apply (H3 _ Hin).
    - by constructor.
  Qed.
  Lemma good_asc ts : good ts → ascending cmp (titems ts).
  Proof. apply good_items. Qed.
  Lemma good_alldom ts : good ts → alldom dom (titems ts).
  Proof. intros [_ H]%good_items. eapply Forall_impl; [done|]. by intros ? []. Qed.

  (** separators of one node *)
  Definition ksorted (ks : list K) : Prop := StronglySorted (λ x y, below x y = true) ks ∧ Forall dom ks.
  Lemma ts_in_tpost (x : K) ks css : x ∈ ks → length ks = length css → TS x ∈ tpost (V:=V) ks css.
  Proof.
    revert css. induction ks as [|k ks IH]; intros [|c css] Hx Hl; simplify_eq/=; [by apply elem_of_nil in Hx|].
    change (tpost (k :: ks) (c :: css)) with ([TS k] ++ c ++ tpost ks css).
    apply elem_of_cons in Hx as [->|Hx]; [set_solver|]. rewrite !elem_of_app. right. right. by apply IH.
  Qed.
  Lemma good_tpost ks css : length ks = length css → good (tpost ks css) → ksorted ks.
  Proof.
    revert css. induction ks as [|k ks IH]; intros [|c css] Hl; simplify_eq/=; [split; constructor|].
    change (tpost (k :: ks) (c :: css)) with ([TS k] ++ c ++ tpost ks css).
    rewrite !good_app. intros (H1 & (H2 & H3 & H4) & H5). destruct (IH css Hl H3) as [IH1 IH2]. split.
    - constructor; [done|]. apply Forall_forall. intros x Hx. 
      apply (H5 (TS k) (TS x)); [set_solver|]. apply elem_of_app. right. by apply ts_in_tpost.
    - constructor; [|done]. destruct H1 as [_ H1]. by apply Forall_cons in H1 as [? _].
  Qed.
  Lemma good_seps ks css : length css = S (length ks) → good (inter ks css) → ksorted ks.
  Proof.
    destruct css as [|c css]; [done|]. intros [= Hl]. cbn. rewrite good_app. intros (_ & H & _).
    by eapply good_tpost.
  Qed.
  Lemma good_kid ka la c kb lb : length ka = length la → good (inter (ka ++ kb) (la ++ c :: lb)) → good c.
  Proof. intros H. rewrite inter_mid // !good_app. tauto. Qed.
  Lemma ksorted_app (a b : list K) : ksorted (a ++ b) ↔ ksorted a ∧ ksorted b ∧ ∀ x y, x ∈ a → y ∈ b → below x y = true.
  Proof. unfold ksorted. rewrite SS_app Forall_app. tauto. Qed.
  Lemma ksorted_asc {W} (ks : list K) (vs : list W) : ksorted ks → ascending cmp (zip ks vs).
  Proof.
    revert vs. induction ks as [|k ks IH]; intros [|v vs] [H1 H2]; try constructor.
    - apply StronglySorted_inv in H1 as [H1 H3]. apply Forall_cons in H2 as [H2 H4]. by apply IH.
    - apply StronglySorted_inv in H1 as [H1 H3]. apply Forall_forall. intros [x w] Hin.
      apply elem_of_zip_l in Hin. rewrite Forall_forall in H3. by apply H3.
  Qed.

  Lemma asc_keys {W} (f : K * V → K * W) m : (∀ p, (f p).1 = p.1) → ascending cmp m → ascending cmp (f <$> m).
  Proof.
    intros Hf. induction m as [|p m IH]; cbn; intros H; [constructor|]. apply StronglySorted_inv in H as [H1 H2].
    constructor; [by apply IH|]. rewrite Forall_fmap. eapply Forall_impl; [exact H2|]. intros q Hq. cbn. by rewrite !Hf.
  Qed.
  (** inserting between two halves of a sorted list *)
  Lemma insert_mid {W} k (v : W) (m l : list (K * W)) : dom k → alldom dom (m ++ l) →
    allbelow cmp m k → allabove cmp k l →
    present cmp k (m ++ l) = false ∧ rank cmp k (m ++ l) = length m ∧
    s_insert cmp k v (m ++ l) = m ++ (k, v) :: l.
  Proof.
    intros Hk [Hm Hl]%alldom_app Hb Ha. split_and!.
    - rewrite present_app (present_allbelow cmp dom ORD) // (present_allabove cmp dom ORD) //.
    - rewrite rank_app rank_allbelow // (rank_allabove cmp dom ORD) //.
    - unfold s_insert. rewrite rank_app rank_allbelow // (rank_allabove cmp dom ORD) // Nat.add_0_r.
      rewrite take_app drop_app. done.
  Qed.
  Lemma insert_asc {W} k (v : W) (m l : list (K * W)) : alldom dom (m ++ (k, v) :: l) →
    ascending cmp (m ++ (k, v) :: l) →
    present cmp k (m ++ l) = false ∧ s_insert cmp k v (m ++ l) = m ++ (k, v) :: l.
  Proof.
    intros Hd Ha. apply ascending_mid in Ha as (_ & _ & Hb & Ha & _). cbn in *.
    apply alldom_app in Hd as [Hm [Hk Hl]%alldom_cons]. cbn in Hk.
    destruct (insert_mid k v m l) as (? & _ & ?); [done| |done..]. by apply alldom_app.
  Qed.
  Lemma insert_sep {W} k (v : W) ka kb va vb : length ka = length va → ksorted (ka ++ k :: kb) →
    dom k ∧ present cmp k (zip (ka ++ kb) (va ++ vb)) = false ∧
    s_insert cmp k v (zip (ka ++ kb) (va ++ vb)) = zip (ka ++ k :: kb) (va ++ v :: vb).
  Proof.
    intros Hl Hk. rewrite !zip_with_app //. cbn.
    assert (dom k) as Hd. { destruct Hk as [_ Hk]. apply Forall_app in Hk as [_ Hk]. by apply Forall_cons in Hk as [? _]. }
    split; [done|]. apply insert_asc.
    - apply alldom_app. destruct Hk as [_ Hk]. apply Forall_app in Hk as [Ha [_ Hb]%Forall_cons].
      assert (∀ (ks : list K) (vs : list W), Forall dom ks → alldom dom (zip ks vs)) as Hz.
      { intros ks vs Hks. apply Forall_forall. intros [x w] Hin. apply elem_of_zip_l in Hin.
        rewrite Forall_forall in Hks. by apply Hks. }
      split; [by apply Hz|]. apply alldom_cons. split; [done|by apply Hz].
    - change (ascending cmp (zip ka va ++ zip (k :: kb) (v :: vb))). rewrite -zip_with_app //. by apply ksorted_asc.
  Qed.

  (** ** Searching for a key *)
  (** tokens left / right of where [k] belongs *)
  Definition cutL k ts : Prop := Forall (λ x, match x with TI y _ => below y k = true | TS y => below k y = false end) ts.
  Definition cutR k ts : Prop := Forall (λ x, below k (tkey x) = true) ts.
  Lemma cutL_app k a b : cutL k (a ++ b) ↔ cutL k a ∧ cutL k b.
  Proof. apply Forall_app. Qed.
  Lemma cutR_app k a b : cutR k (a ++ b) ↔ cutR k a ∧ cutR k b.
  Proof. apply Forall_app. Qed.
  Lemma cutL_items k ts : cutL k ts → allbelow cmp (titems ts) k.
  Proof.
    intros H. apply Forall_forall. intros [x w] Hin.
    apply elem_of_list_omap in Hin as ([k2 v2|k2] & Hin & [= -> ->]).
    unfold cutL in H. rewrite Forall_forall in H. by apply (H _ Hin).
  Qed.
  Lemma cutR_items k ts : cutR k ts → allabove cmp k (titems ts).
  Proof.
    intros H. apply Forall_forall. intros [x w] Hin.
    apply elem_of_list_omap in Hin as ([k2 v2|k2] & Hin & [= -> ->]).
    unfold cutR in H. rewrite Forall_forall in H. by apply (H _ Hin).
  Qed.
  Lemma cutL_tpre k ka la : dom k → length ka = length la → good (tpre ka la) →
    Forall (λ x, below k x = false) ka → cutL k (tpre ka la).
  Proof.
    intros Hk. revert la. induction ka as [|x ka IH]; intros [|c la] Hl Hg Hka; simplify_eq/=; [constructor|].
    change (tpre (x :: ka) (c :: la)) with ((c ++ [TS x]) ++ tpre ka la) in *.
    apply Forall_cons in Hka as [Hx Hka].
    rewrite !good_app in Hg. destruct Hg as ((Hc & [_ Hx'] & Hcx) & Hg & _).
    apply Forall_cons in Hx' as [Hx' _]. cbn in Hx'.
    rewrite !cutL_app. split_and!; [|by constructor|by apply IH].
    apply Forall_forall. intros y Hy. specialize (Hcx y (TS x) Hy ltac:(set_solver)).
    destruct Hc as [_ Hc]. rewrite Forall_forall in Hc. specialize (Hc y Hy). apply dtok_key in Hc.
    destruct y as [y v|y]; cbn in *.
    - eapply (below_le_trans _ x); eauto.
    - apply (below_asym cmp dom ORD); [done..|]. eapply (below_le_trans _ x); eauto.
  Qed.
  Lemma cutR_tpost k kb lb : dom k → length kb = length lb → good (tpost kb lb) →
    Forall (λ x, below k x = true) kb → cutR k (tpost kb lb).
  Proof.
    intros Hk. revert lb. induction kb as [|x kb IH]; intros [|c lb] Hl Hg Hkb; simplify_eq/=; [constructor|].
    change (tpost (x :: kb) (c :: lb)) with ([TS x] ++ c ++ tpost kb lb) in *.
    apply Forall_cons in Hkb as [Hx Hkb].
    rewrite !good_app in Hg. destruct Hg as ([_ Hx'] & (Hc & Hg & _) & Hxc).
    apply Forall_cons in Hx' as [Hx' _]. cbn in Hx'.
    rewrite !cutR_app. split_and!; [by constructor| |by apply IH].
    apply Forall_forall. intros y Hy. specialize (Hxc (TS x) y ltac:(set_solver) ltac:(set_solver)).
    destruct Hc as [_ Hc]. rewrite Forall_forall in Hc. specialize (Hc y Hy). apply dtok_key in Hc.
    destruct y as [y v|y]; cbn in *.
    - eapply (below_le_trans _ x); eauto.
    - eapply (below_trans cmp dom ORD _ x); eauto.
  Qed.
  (** the number of separators not above [k] splits them *)
  Lemma seps_split {W} k (ks : list K) (vs : list W) : dom k → ksorted ks → length ks = length vs →
    let els := zip ks vs in
    let j := if present cmp k els then S (rank cmp k els) else rank cmp k els in
    (j ≤ length ks)%nat ∧ Forall (λ x, below k x = false) (take j ks) ∧ Forall (λ x, below k x = true) (drop j ks).
  Proof.
    intros Hk. revert vs. induction ks as [|x ks IH]; intros [|v vs] [H1 H2] Hl; simplify_eq; [split_and!; constructor|].
    apply StronglySorted_inv in H1 as [H1 H3]. apply Forall_cons in H2 as [H2 H4].
    cbn [zip zip_with]. specialize (IH vs (conj H1 H4) Hl). cbv zeta in IH.
    rewrite present_cons rank_cons. cbn [fst].
    assert (alldom dom (zip ks vs)) as Hd.
    { apply Forall_forall. intros [y w] Hin. apply elem_of_zip_l in Hin. rewrite Forall_forall in H4. by apply H4. }
    assert (below x k = false → Forall (λ y, below k y = true) ks ∧ present cmp k (zip ks vs) = false ∧ rank cmp k (zip ks vs) = 0%nat) as Hrest.
    { intros Hx. assert (Forall (λ y, below k y = true) ks) as Hks.
      { apply Forall_forall. intros y Hy. apply (le_below_trans _ x); [done|done|exact (proj1 (Forall_forall _ _) H4 y Hy)|done|exact (proj1 (Forall_forall _ _) H3 y Hy)]. }
      assert (allabove cmp k (zip ks vs)) as Ha.
      { apply Forall_forall. intros [y w] Hin. apply elem_of_zip_l in Hin. rewrite Forall_forall in Hks. by apply Hks. }
      split_and!; [done|by apply (present_allabove cmp dom ORD)|by apply (rank_allabove cmp dom ORD)]. }
    destruct (cmp_cases cmp dom ORD k x Hk H2) as (c & _ & [[_ H]|[[_ H]|[_ H]]]).
    - destruct Hrest as (Hks & Hp & Hr); [by apply (below_asym cmp dom ORD)|].
      rewrite Hp Hr (below_not_same cmp dom k x) // (below_asym cmp dom ORD k x) //. cbn.
      split_and!; [lia|constructor|]. by constructor.
    - assert (below x k = false) as Hx by by apply (same_not_below' cmp dom ORD).
      destruct Hrest as (Hks & Hp & Hr); [done|].
      rewrite Hp Hr H Hx. cbn. split_and!; [lia| |done]. constructor; [|constructor]. by apply (same_not_below cmp dom).
    - rewrite H (below_not_same' cmp dom ORD) //. cbn [orb]. destruct IH as (IH1 & IH2 & IH3).
      assert (below k x = false) by by apply (below_asym cmp dom ORD).
      destruct (present cmp k (zip ks vs)); cbn [Nat.add take drop length];
        (split_and!; [lia|by constructor|done]).
  Qed.

  Lemma rank_lt {W} k (m : list (K * W)) : dom k → alldom dom m → ascending cmp m → present cmp k m = true → (rank cmp k m < length m)%nat.
  Proof.
    intros Hk Hd' Ha Hp. induction m as [|[x v] l IH]; [done|]. rewrite present_cons in Hp. rewrite rank_cons. cbn in *.
    apply alldom_cons in Hd' as [Hx Hd']. cbn in Hx. apply ascending_cons in Ha as [Ha Hab]. cbn in Hab.
    destruct (same cmp k x) eqn:Hs.
    - rewrite (same_not_below' cmp dom ORD) // (rank_allabove cmp dom ORD) //; [lia|].
      eapply (allabove_same cmp dom ORD _ x); try done. by apply (same_sym cmp dom ORD).
    - specialize (IH Hd' Ha Hp). destruct (below x k); lia.
  Qed.

  (** ** The calls, reduced to one leaf *)
  Section leaf.
    Context (k : K) (pre post : list tok) (kvs : list (K * V)).
    Hypothesis (Hk : dom k) (Hg : good (pre ++ itoks kvs ++ post)) (HL : cutL k pre) (HR : cutR k post).
    Let P := titems pre.
    Let R := titems post.
    Let Hpre : alldom dom P. Proof. apply good_app in Hg as [H _]. by apply good_alldom. Qed.
    Let Hpost : alldom dom R. Proof. apply good_app in Hg as [_ [H _]]. apply good_app in H as [_ [H _]]. by apply good_alldom. Qed.
    Let HP : allbelow cmp P k := cutL_items k pre HL.
    Let HR' : allabove cmp k R := cutR_items k post HR.
    Lemma ctx_present : present cmp k (P ++ kvs ++ R) = present cmp k kvs.
    Proof.
      rewrite !present_app (present_allbelow cmp dom ORD k P) // (present_allabove cmp dom ORD k R) //. by rewrite orb_false_r.
    Qed.
    Lemma ctx_rank : rank cmp k (P ++ kvs ++ R) = (length P + rank cmp k kvs)%nat.
    Proof. rewrite !rank_app (rank_allbelow cmp k P) // (rank_allabove cmp dom ORD k R) //. lia. Qed.
    Lemma ctx_lookup : s_lookup cmp k (P ++ kvs ++ R) = s_lookup cmp k kvs.
    Proof.
      unfold s_lookup. rewrite ctx_present ctx_rank. destruct (present cmp k kvs) eqn:Hp; [|done].
      rewrite lookup_app_r; [|lia]. rewrite (Nat.add_comm (length _)) Nat.add_sub.
      apply good_app in Hg as [_ [[H _]%good_app _]]. apply good_leaf in H as [Ha Hd].
      rewrite lookup_app_l //. apply rank_lt; [done| |done|done].
      eapply Forall_impl; [exact Hd|by intros ? []].
    Qed.
    Lemma ctx_insert v : s_insert cmp k v (P ++ kvs ++ R) = P ++ s_insert cmp k v kvs ++ R.
    Proof.
      unfold s_insert. rewrite ctx_rank. pose proof (rank_le cmp k kvs).
      rewrite take_add_app // drop_add_app //.
      rewrite take_app_le // drop_app_le //. by rewrite -!app_assoc.
    Qed.
  End leaf.
  Lemma mid_remove {A B} (P R : list (A * B)) kvs i : (i < length kvs)%nat →
    s_remove (length P + i) (P ++ kvs ++ R) = P ++ s_remove i kvs ++ R.
  Proof.
    intros Hi. unfold s_remove. rewrite -Nat.add_succ_r take_add_app // drop_add_app //.
    rewrite take_app_le; [|lia]. rewrite drop_app_le; [|lia]. by rewrite -!app_assoc.
  Qed.
  Lemma mid_set {A B} (P R : list (A * B)) kvs i v : (i < length kvs)%nat →
    s_set (length P + i) v (P ++ kvs ++ R) = P ++ s_set i v kvs ++ R.
  Proof.
    intros Hi. unfold s_set. rewrite alter_app_r. f_equal. by rewrite alter_app_l.
  Qed.
  Lemma mid_index {A B} (P R : list (A * B)) kvs i : (i < length kvs)%nat →
    at_index (Z.of_nat (length P + i)) (P ++ kvs ++ R) = kvs !! i.
  Proof.
    intros Hi. unfold at_index. destruct (Z.ltb_spec (Z.of_nat (length P + i)) 0); [lia|].
    rewrite Nat2Z.id lookup_app_r; [|lia]. rewrite (Nat.add_comm (length _)) Nat.add_sub lookup_app_l //.
  Qed.

  (** ** Modifications *)
  Lemma good_add a b k v : good (a ++ b) → dom k → domV v → cutL k a → cutR k b → good (a ++ TI k v :: b).
  Proof.
    intros ([Ha Hda] & [Hb Hdb] & Hab)%good_app Hk Hv HL HR. split.
    - apply SS_app. split_and!; [done| |].
      + constructor; [done|]. eapply Forall_impl; [exact HR|]. by intros [].
      + intros x y Hx [->|Hy]%elem_of_cons; [|by auto].
        apply (proj1 (Forall_forall _ _) HL) in Hx. by destruct x.
    - apply Forall_app. split; [done|]. constructor; [done|done].
  Qed.
  Lemma itoks_app m l : itoks (m ++ l) = itoks m ++ itoks l.
  Proof. apply fmap_app. Qed.
  Lemma cutL_itoks k m : allbelow cmp m k → cutL k (itoks m).
  Proof. intros H. unfold cutL, itoks. rewrite Forall_fmap. done. Qed.
  Lemma cutR_itoks k m : allabove cmp k m → cutR k (itoks m).
  Proof. intros H. unfold cutR, itoks. rewrite Forall_fmap. done. Qed.
  Lemma good_insert a m b k v : good (a ++ itoks m ++ b) → dom k → domV v → cutL k a → cutR k b →
    present cmp k m = false → good (a ++ itoks (s_insert cmp k v m) ++ b).
  Proof.
    intros Hg Hk Hv HL HR Hp. unfold s_insert. rewrite itoks_app. cbn [itoks fmap list_fmap].
    pose proof Hg as (_ & (Hm & _ & _)%good_app & _)%good_app. apply good_leaf in Hm as [Hasc Hd].
    destruct (take_rank_split cmp dom ORD k m) as [H1 H2]; [done| |done|done|].
    { eapply Forall_impl; [exact Hd|by intros ? []]. }
    rewrite -app_assoc app_assoc. apply good_add; [|done|done|..].
    - rewrite -{1}(take_drop (rank cmp k m) m) itoks_app -!app_assoc in Hg. rewrite -!app_assoc. done.
    - apply cutL_app. split; [done|by apply cutL_itoks].
    - apply cutR_app. split; [by apply cutR_itoks|done].
  Qed.
  Lemma good_set a m b i v : good (a ++ itoks m ++ b) → domV v → good (a ++ itoks (s_set i v m) ++ b).
  Proof.
    intros Hg Hv. apply good_app in Hg as (Ha & Hg & Hag). apply good_app in Hg as (Hm & Hb & Hmb).
    assert (∀ x, x ∈ itoks (s_set i v m) → ∃ y, y ∈ itoks m ∧ ∃ k w w', x = TI k w ∧ y = TI k w') as Hx.
    { intros x Hx. unfold itoks in Hx. apply elem_of_list_fmap in Hx as ([k w] & -> & Hin). cbn.
      assert (k ∈ m.*1) as Hk. { rewrite -(fmap_fst_set i v m). by apply (elem_of_list_fmap_1 fst) in Hin. }
      apply elem_of_list_fmap in Hk as ([k' w'] & -> & Hin'). exists (TI k' w'). split; [|eauto 10].
      by apply (elem_of_list_fmap_1 (λ p, TI p.1 p.2)) in Hin'. }
    apply good_app. split_and!; [done|apply good_app; split_and!; [|done|]|].
    - apply good_leaf in Hm as [Hm Hd]. apply good_leaf. split; [by apply ascending_set|].
      apply Forall_lookup. intros j [k w] Hj. unfold s_set in Hj. destruct (decide (i = j)) as [->|Hne].
      + rewrite list_lookup_alter in Hj. destruct (m !! j) as [[k' w']|] eqn:Hm'; simplify_eq/=.
        by apply (Forall_lookup_1 _ _ _ _ Hd) in Hm' as [? ?].
      + rewrite list_lookup_alter_ne // in Hj. by apply (Forall_lookup_1 _ _ _ _ Hd) in Hj.
    - intros x y (x' & Hx' & k & w & w' & -> & ->)%Hx Hy. by apply (Hmb _ _ Hx' Hy).
    - intros y x Hy [(x' & Hx' & k & w & w' & -> & ->)%Hx|Hxb]%elem_of_app.
      + specialize (Hag y (TI k w') Hy ltac:(set_solver)). by destruct y.
      + apply Hag; set_solver.
  Qed.
  Lemma good_sep a x w k v b : good (a ++ TI x w :: TI k v :: b) → good (a ++ TI x w :: TS k :: TI k v :: b).
  Proof.
    rewrite !(cons_middle (TI x w)) !(app_assoc a). intros Hg.
    pose proof Hg as ([Ha Hda] & [Hb Hdb] & Hab)%good_app.
    apply StronglySorted_inv in Hb as [Hb Hkb]. pose proof Hdb as [[Hk Hv] Hdb']%Forall_cons.
    assert (∀ y, y ∈ a ++ [TI x w] → tlt y (TS k)) as Hl.
    { intros y [Hy| ->%elem_of_list_singleton]%elem_of_app.
      - apply (tlt_trans _ (TI x w)).
        + apply Forall_app in Hda as [Hda _]. exact (proj1 (Forall_forall _ _) Hda y Hy).
        + apply Forall_app in Hda as [_ Hda]. by apply Forall_cons in Hda as [? _].
        + done.
        + apply SS_app in Ha as (_ & _ & Ha). apply Ha; set_solver.
        + apply (Hab (TI x w) (TI k v)); set_solver.
      - apply (Hab (TI x w) (TI k v)); set_solver. }
    split.
    - apply SS_app. split_and!; [done| |].
      + constructor; [by constructor|]. constructor.
        * by apply (below_irrefl cmp dom ORD).
        * apply Forall_forall. intros y Hy. pose proof (proj1 (Forall_forall _ _) Hkb y Hy) as Hlt.
          pose proof (proj1 (Forall_forall _ _) Hdb' y Hy) as Hdy%dtok_key. destruct y; cbn in *; [|done].
          by apply (below_asym cmp dom ORD).
      + intros y z Hy [->|Hz]%elem_of_cons; [by apply Hl|by apply Hab].
    - apply Forall_app. split; [done|]. constructor; [done|done].
  Qed.
  (** a separator between two items may be replaced *)
  Lemma good_unsep a x b : good (a ++ TS x :: b) → good (a ++ b).
  Proof.
    apply good_sub. apply sublist_app; [done|]. by apply sublist_cons.
  Qed.
End order.

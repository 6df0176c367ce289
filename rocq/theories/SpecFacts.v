(** Facts about the specification (sorted association lists). *)
From Coq Require Import Sorted.
From stdpp Require Import prelude list.
From Verif Require Import Spec.
Open Scope Z_scope.

Section order.
  Context {K V : Type}.
  Variable cmp : K → K → option Z.
  Variable dom : K → Prop.
  Hypothesis ORD : total_order cmp dom.

  Notation below := (below cmp).
  Notation same := (same cmp).
  Implicit Types (k x y z : K) (m l : list (K * V)).

  Lemma below_spec x y : below x y = true ↔ ∃ c, cmp x y = Some c ∧ c < 0.
  Proof.
    unfold Spec.below. destruct (cmp x y) as [c|].
    - rewrite Z.ltb_lt. naive_solver.
    - naive_solver.
  Qed.
  Lemma same_spec x y : same x y = true ↔ cmp x y = Some 0.
  Proof.
    unfold Spec.same. destruct (cmp x y) as [c|].
    - rewrite Z.eqb_eq. naive_solver.
    - naive_solver.
  Qed.

  Lemma below_flip x y : dom x → dom y →
    below x y = true ↔ ∃ c, cmp y x = Some c ∧ 0 < c.
  Proof using ORD.
    intros Hx Hy. rewrite below_spec. split.
    - intros (c & Hc & ?). destruct (to_antisym _ _ ORD x y c Hx Hy Hc) as (c' & ? & ?).
      exists c'. split; [done|]. lia.
    - intros (c & Hc & ?). destruct (to_antisym _ _ ORD y x c Hy Hx Hc) as (c' & ? & ?).
      exists c'. split; [done|]. lia.
  Qed.
  Lemma same_sym x y : dom x → dom y → same x y = true → same y x = true.
  Proof using ORD.
    intros Hx Hy. rewrite !same_spec. intros Hc.
    destruct (to_antisym _ _ ORD x y 0 Hx Hy Hc) as (c' & Heq & ?).
    rewrite Heq. f_equal. lia.
  Qed.
  Lemma same_refl x : dom x → same x x = true.
  Proof using ORD.
    intros Hx. destruct (to_total _ _ ORD x x Hx Hx) as [c Hc].
    destruct (to_antisym _ _ ORD x x c Hx Hx Hc) as (c' & Heq & ?).
    rewrite same_spec. rewrite Hc. f_equal. assert (c = c') by congruence. lia.
  Qed.
  Lemma below_irrefl x : dom x → below x x = false.
  Proof using ORD.
    intros Hx. pose proof (same_refl x Hx) as Hs. apply same_spec in Hs.
    unfold Spec.below. by rewrite Hs.
  Qed.

  (** the order as a preorder *)
  Let le x y := ∃ c, cmp x y = Some c ∧ c ≤ 0.
  Lemma le_trans' x y z : dom x → dom y → dom z → le x y → le y z → le x z.
  Proof using ORD.
    intros Hx Hy Hz (c1&?&?) (c2&?&?).
    destruct (to_trans _ _ ORD x y z c1 c2) as (c3&?&?); auto. exists c3; auto.
  Qed.
  Lemma not_le x y : dom x → dom y → ¬ le x y ↔ below y x = true.
  Proof using ORD.
    intros Hx Hy. rewrite below_flip by done. split.
    - intros Hn. destruct (to_total _ _ ORD x y Hx Hy) as [c Hc].
      exists c. split; [done|]. destruct (decide (0 < c)); [done|].
      destruct Hn. exists c. split; [done|lia].
    - intros (c&Hc&?) (c'&Hc'&?). assert (c = c') by congruence. lia.
  Qed.
  Lemma le_cases x y : dom x → dom y → le x y ↔ below x y = true ∨ same x y = true.
  Proof using ORD.
    intros Hx Hy. rewrite below_spec, same_spec. split.
    - intros (c&Hc&?). destruct (decide (c = 0)) as [->|]; [by right|left].
      exists c. split; [done|lia].
    - intros [(c&?&?)|?]; [exists c|exists 0]; split; try done; lia.
  Qed.
  Lemma le_dec x y : dom x → dom y → le x y ∨ below y x = true.
  Proof using ORD.
    intros Hx Hy. destruct (to_total _ _ ORD x y Hx Hy) as [c Hc].
    destruct (decide (c ≤ 0)); [left; exists c; auto|right].
    apply below_flip; [done..|]. exists c. split; [done|lia].
  Qed.

  Lemma below_trans x y z : dom x → dom y → dom z →
    below x y = true → below y z = true → below x z = true.
  Proof using ORD.
    intros Hx Hy Hz H1 H2. apply not_le; [done..|]. intros Hzx.
    apply not_le in H1; [|done..]. apply H1. apply le_trans' with z; auto.
    apply le_cases; auto.
  Qed.
  Lemma below_same_l x y z : dom x → dom y → dom z →
    same x y = true → below x z = below y z.
  Proof using ORD.
    intros Hx Hy Hz Hs. apply eq_bool_prop_intro. split; intros H%Is_true_true;
      apply Is_true_true; apply not_le; try done; intros Hle.
    - apply not_le in H; [|done..]. apply H. apply le_trans' with y; auto.
      apply le_cases; auto. right. by apply same_sym.
    - apply not_le in H; [|done..]. apply H. apply le_trans' with x; auto.
      apply le_cases; auto.
  Qed.
  Lemma below_same_r x y z : dom x → dom y → dom z →
    same x y = true → below z x = below z y.
  Proof using ORD.
    intros Hx Hy Hz Hs. apply eq_bool_prop_intro. split; intros H%Is_true_true;
      apply Is_true_true; apply not_le; try done; intros Hle.
    - apply not_le in H; [|done..]. apply H. apply le_trans' with y; auto.
      apply le_cases; auto.
    - apply not_le in H; [|done..]. apply H. apply le_trans' with x; auto.
      apply le_cases; auto. right. by apply same_sym.
  Qed.
  Lemma below_not_same x y : dom x → dom y → below x y = true → same x y = false.
  Proof.
    intros Hx Hy (c&Hc&?)%below_spec. unfold Spec.same. rewrite Hc.
    apply Z.eqb_neq. lia.
  Qed.
  Lemma below_not_same' x y : dom x → dom y → below y x = true → same x y = false.
  Proof using ORD.
    intros Hx Hy (c&Hc&?)%below_flip; [|done..]. unfold Spec.same. rewrite Hc.
    apply Z.eqb_neq. lia.
  Qed.
  Lemma below_asym x y : dom x → dom y → below x y = true → below y x = false.
  Proof using ORD.
    intros Hx Hy (c&Hc&?)%below_flip; [|done..]. unfold Spec.below. rewrite Hc.
    apply Z.ltb_ge. lia.
  Qed.
  Lemma same_not_below x y : dom x → dom y → same x y = true → below x y = false.
  Proof. intros Hx Hy Hs%same_spec. unfold Spec.below. by rewrite Hs. Qed.
  Lemma same_not_below' x y : dom x → dom y → same x y = true → below y x = false.
  Proof using ORD. intros. apply same_not_below; auto using same_sym. Qed.
  Lemma same_trans x y z : dom x → dom y → dom z →
    same x y = true → same y z = true → same x z = true.
  Proof using ORD.
    intros Hx Hy Hz H1 H2.
    assert (le x z) as [Hb|?]%le_cases; auto.
    { apply le_trans' with y; auto; apply le_cases; auto. }
    assert (le z x) as Hle.
    { apply le_trans' with y; auto; apply le_cases; auto using same_sym. }
    by apply not_le in Hb.
  Qed.

  (** three-way case analysis on a comparison result *)
  Lemma cmp_cases x y : dom x → dom y → ∃ c, cmp x y = Some c ∧
    ((c < 0 ∧ below x y = true) ∨ (c = 0 ∧ same x y = true) ∨ (0 < c ∧ below y x = true)).
  Proof using ORD.
    intros Hx Hy. destruct (to_total _ _ ORD x y Hx Hy) as [c Hc]. exists c. split; [done|].
    destruct (decide (c < 0)); [left|right; destruct (decide (c = 0)) as [->|]; [left|right]].
    - split; [done|]. apply below_spec; eauto.
    - split; [done|]. by apply same_spec.
    - split; [lia|]. apply below_flip; [done..|]. exists c. split; [done|lia].
  Qed.

  (** ** Lists *)
  Definition alldom m : Prop := Forall (λ p, dom p.1) m.
  Definition allbelow m k : Prop := Forall (λ p, below p.1 k = true) m.
  Definition allabove k m : Prop := Forall (λ p, below k p.1 = true) m.

  Lemma alldom_app m l : alldom (m ++ l) ↔ alldom m ∧ alldom l.
  Proof. unfold alldom, allbelow, allabove. by rewrite Forall_app. Qed.
  Lemma alldom_cons p m : alldom (p :: m) ↔ dom p.1 ∧ alldom m.
  Proof. unfold alldom, allbelow, allabove. by rewrite Forall_cons. Qed.
  Lemma allbelow_app m l k : allbelow (m ++ l) k ↔ allbelow m k ∧ allbelow l k.
  Proof. unfold alldom, allbelow, allabove. by rewrite Forall_app. Qed.
  Lemma allabove_app m l k : allabove k (m ++ l) ↔ allabove k m ∧ allabove k l.
  Proof. unfold alldom, allbelow, allabove. by rewrite Forall_app. Qed.
  Lemma allbelow_cons p m k : allbelow (p :: m) k ↔ below p.1 k = true ∧ allbelow m k.
  Proof. unfold alldom, allbelow, allabove. by rewrite Forall_cons. Qed.
  Lemma allabove_cons p m k : allabove k (p :: m) ↔ below k p.1 = true ∧ allabove k m.
  Proof. unfold alldom, allbelow, allabove. by rewrite Forall_cons. Qed.

  Lemma ascending_app m l :
    ascending cmp (m ++ l) ↔
    ascending cmp m ∧ ascending cmp l ∧ Forall (λ p, Forall (λ q, below p.1 q.1 = true) l) m.
  Proof.
    unfold ascending. induction m as [|p m IH]; simpl.
    - split; [intros; split_and!; auto; constructor|naive_solver].
    - rewrite Forall_cons. split.
      + intros [Hs Hf]%StronglySorted_inv. apply IH in Hs as (?&?&?).
        apply Forall_app in Hf as [??]. split_and!; auto. by constructor.
      + intros ([??]%StronglySorted_inv&?&?&?). constructor; [by apply IH|].
        by apply Forall_app.
  Qed.
  Lemma ascending_cons p m :
    ascending cmp (p :: m) ↔ ascending cmp m ∧ allabove p.1 m.
  Proof.
    unfold ascending. split; [apply StronglySorted_inv|]. intros [??]. by constructor.
  Qed.
  Lemma ascending_nil : ascending (V:=V) cmp [].
  Proof. constructor. Qed.

  Lemma ascending_mid m p l :
    ascending cmp (m ++ p :: l) ↔
    ascending cmp m ∧ ascending cmp l ∧ allbelow m p.1 ∧ allabove p.1 l ∧
    Forall (λ a : K * V, Forall (λ q, below a.1 q.1 = true) l) m.
  Proof.
    rewrite ascending_app, ascending_cons. split.
    - intros (?&[??]&Hf). split_and!; auto; eapply Forall_impl; try exact Hf; simpl;
        intros ?; rewrite Forall_cons; naive_solver.
    - intros (?&?&Hb&?&Hf). split_and!; auto.
      unfold allbelow in Hb. rewrite Forall_forall in Hb, Hf |- *.
      intros x Hx. constructor; auto.
  Qed.

  Lemma allbelow_trans m x y : alldom m → dom x → dom y →
    allbelow m x → below x y = true → allbelow m y.
  Proof using ORD.
    intros Hd ?? Hb ?. unfold allbelow, alldom in *. rewrite Forall_forall in *.
    intros p Hp. apply (below_trans p.1 x y); auto.
  Qed.
  Lemma allabove_trans m x y : alldom m → dom x → dom y →
    allabove x m → below y x = true → allabove y m.
  Proof using ORD.
    intros Hd ?? Hb ?. unfold allabove, alldom in *. rewrite Forall_forall in *.
    intros p Hp. apply (below_trans y x p.1); auto.
  Qed.
  Lemma allbelow_same m x y : alldom m → dom x → dom y →
    allbelow m x → same x y = true → allbelow m y.
  Proof using ORD.
    intros Hd ?? Hb ?. unfold allbelow, alldom in *. rewrite Forall_forall in *.
    intros p Hp. rewrite <-(below_same_r x y); auto.
  Qed.
  Lemma allabove_same m x y : alldom m → dom x → dom y →
    allabove x m → same x y = true → allabove y m.
  Proof using ORD.
    intros Hd ?? Hb ?. unfold allabove, alldom in *. rewrite Forall_forall in *.
    intros p Hp. rewrite <-(below_same_l x y); auto.
  Qed.

  (** rank *)
  Lemma rank_nil k : rank (V:=V) cmp k [] = 0%nat.
  Proof. done. Qed.
  Lemma rank_app k m l : rank cmp k (m ++ l) = (rank cmp k m + rank cmp k l)%nat.
  Proof. unfold rank. by rewrite filter_app, app_length. Qed.
  Lemma rank_cons k p m :
    rank cmp k (p :: m) = ((if below p.1 k then 1 else 0) + rank cmp k m)%nat.
  Proof.
    unfold rank. rewrite filter_cons. destruct (below p.1 k) eqn:E.
    - rewrite decide_True by done. done.
    - rewrite decide_False by congruence. done.
  Qed.
  Lemma rank_allbelow k m : allbelow m k → rank cmp k m = length m.
  Proof.
    induction 1 as [|p m Hp _ IH]; [done|]. rewrite rank_cons, Hp, IH. done.
  Qed.
  Lemma rank_allabove k m : dom k → alldom m → allabove k m → rank cmp k m = 0%nat.
  Proof using ORD.
    intros Hk Hd. induction 1 as [|p m Hp _ IH]; [done|].
    apply alldom_cons in Hd as [??].
    rewrite rank_cons, (below_asym k p.1), IH; auto.
  Qed.
  Lemma rank_le k m : (rank cmp k m ≤ length m)%nat.
  Proof. apply filter_length. Qed.

  (** present *)
  Lemma present_app k m l : present cmp k (m ++ l) = present cmp k m || present cmp k l.
  Proof. apply existsb_app. Qed.
  Lemma present_cons k p m : present cmp k (p :: m) = same k p.1 || present cmp k m.
  Proof. done. Qed.
  Lemma present_allbelow k m : dom k → alldom m → allbelow m k → present cmp k m = false.
  Proof using ORD.
    intros Hk Hd. induction 1 as [|p m Hp _ IH]; [done|].
    apply alldom_cons in Hd as [??].
    rewrite present_cons, below_not_same', IH; auto.
  Qed.
  Lemma present_allabove k m : dom k → alldom m → allabove k m → present cmp k m = false.
  Proof using ORD.
    intros Hk Hd. induction 1 as [|p m Hp _ IH]; [done|].
    apply alldom_cons in Hd as [??].
    rewrite present_cons, below_not_same, IH; auto.
  Qed.

  (** navigating around a pivot *)
  Section pivot.
    Variables (m l : list (K * V)) (p : K * V) (k : K).
    Hypothesis (Hk : dom k) (Hd : alldom (m ++ p :: l)) (Hs : ascending cmp (m ++ p :: l)).

    Lemma pivot_lt : below k p.1 = true →
      allabove k (p :: l) ∧
      rank cmp k (m ++ p :: l) = rank cmp k m ∧
      present cmp k (m ++ p :: l) = present cmp k m.
    Proof using ORD Hk Hd Hs.
      intros Hb. apply ascending_mid in Hs as (?&?&?&?&?).
      apply alldom_app in Hd as [? [??]%alldom_cons].
      assert (allabove k (p :: l)).
      { apply allabove_cons. split; [done|]. apply allabove_trans with p.1; auto. }
      split; [done|]. rewrite rank_app, present_app, (rank_allabove k (p :: l)), (present_allabove k (p :: l));
        auto; try (apply alldom_cons; auto).
      rewrite orb_false_r. auto with lia.
    Qed.
    Lemma pivot_gt : below p.1 k = true →
      allbelow (m ++ [p]) k ∧
      rank cmp k (m ++ p :: l) = (length m + 1 + rank cmp k l)%nat ∧
      present cmp k (m ++ p :: l) = present cmp k l.
    Proof using ORD Hk Hd Hs.
      intros Hb. apply ascending_mid in Hs as (?&?&?&?&?).
      apply alldom_app in Hd as [? [??]%alldom_cons].
      assert (allbelow m k) by (apply allbelow_trans with p.1; auto).
      split.
      { apply allbelow_app; split; [done|]. apply allbelow_cons. split; [done|]. constructor. }
      rewrite rank_app, rank_cons, present_app, present_cons, Hb, (rank_allbelow k m),
        (present_allbelow k m), below_not_same'; auto. simpl. auto with lia.
    Qed.
    Lemma pivot_eq : same k p.1 = true →
      allbelow m k ∧ allabove k l ∧
      rank cmp k (m ++ p :: l) = length m ∧
      present cmp k (m ++ p :: l) = true.
    Proof using ORD Hk Hd Hs.
      intros Hb. apply ascending_mid in Hs as (?&?&?&?&?).
      apply alldom_app in Hd as [? [??]%alldom_cons].
      assert (allbelow m k) by (apply allbelow_same with p.1; auto using same_sym).
      assert (allabove k l) by (apply allabove_same with p.1; auto using same_sym).
      split_and!; [done..| |].
      - rewrite rank_app, rank_cons, (rank_allbelow k m), (rank_allabove k l), same_not_below'; auto with lia.
      - by rewrite present_app, present_cons, Hb, orb_true_r.
    Qed.
  End pivot.

  (** s_insert and friends around a boundary *)
  Lemma take_rank_split k m :
    dom k → alldom m → ascending cmp m → present cmp k m = false →
    allbelow (take (rank cmp k m) m) k ∧ allabove k (drop (rank cmp k m) m).
  Proof using ORD.
    intros Hk. induction m as [|p m IH]; intros Hd Hs Hp; [by split; constructor|].
    apply alldom_cons in Hd as [??]. apply ascending_cons in Hs as [? Hab].
    rewrite present_cons in Hp. apply orb_false_iff in Hp as [Hp1 Hp2].
    rewrite rank_cons. destruct (below p.1 k) eqn:Hb; simpl.
    - destruct IH; auto. split; [|done]. apply allbelow_cons. auto.
    - assert (below k p.1 = true) as Hb'.
      { destruct (cmp_cases k p.1) as (c&?&[[??]|[[??]|[??]]]); auto; congruence. }
      rewrite rank_allabove; auto; [|by apply allabove_trans with p.1]. simpl.
      split; [constructor|]. apply allabove_cons. split; [done|].
      by apply allabove_trans with p.1.
  Qed.

  Lemma ascending_insert k v m :
    dom k → alldom m → ascending cmp m → present cmp k m = false →
    ascending cmp (s_insert cmp k v m).
  Proof using ORD.
    intros Hk Hd Hs Hp. unfold s_insert.
    destruct (take_rank_split k m) as [H1 H2]; auto.
    rewrite <-(take_drop (rank cmp k m) m) in Hs at 1.
    apply ascending_app in Hs as (?&?&?).
    apply ascending_mid. split_and!; auto.
  Qed.
  Lemma alldom_insert k v m : dom k → alldom m → alldom (s_insert cmp k v m).
  Proof.
    intros Hk Hd. rewrite <-(take_drop (rank cmp k m) m) in Hd at 1.
    apply alldom_app in Hd as [??]. apply alldom_app. split; [done|].
    by apply alldom_cons.
  Qed.
  Lemma length_insert k v m : length (s_insert cmp k v m) = S (length m).
  Proof.
    unfold s_insert. rewrite app_length. simpl. rewrite <-Nat.add_succ_comm. simpl.
    rewrite <-app_length, take_drop. done.
  Qed.

  Lemma sublist_Forall' {A} (P : A → Prop) (m l : list A) :
    sublist m l → Forall P l → Forall P m.
  Proof. induction 1; rewrite ?Forall_cons; naive_solver. Qed.
  Lemma ascending_sublist m l : sublist m l → ascending cmp l → ascending cmp m.
  Proof.
    induction 1 as [|p m l Hs IH|p m l Hs IH]; auto.
    - rewrite !ascending_cons. intros [? Hf]. split; [auto|].
      by eapply sublist_Forall'.
    - rewrite ascending_cons. naive_solver.
  Qed.
  Lemma s_remove_sublist i m : sublist (s_remove i m) m.
  Proof.
    unfold s_remove. rewrite <-(take_drop i m) at 3.
    apply sublist_app; [done|].
    replace (S i) with (i + 1)%nat by lia. rewrite <-drop_drop.
    apply sublist_drop.
  Qed.
  Lemma ascending_remove i m : ascending cmp m → ascending cmp (s_remove i m).
  Proof. apply ascending_sublist, s_remove_sublist. Qed.
  Lemma alldom_remove i m : alldom m → alldom (s_remove i m).
  Proof. intros. eapply sublist_Forall'; [apply s_remove_sublist|done]. Qed.
  Lemma s_remove_mid m p l : s_remove (length m) (m ++ p :: l) = m ++ l.
  Proof.
    unfold s_remove. rewrite take_app. f_equal.
    replace (m ++ p :: l) with ((m ++ [p]) ++ l) by by rewrite <-app_assoc.
    replace (S (length m)) with (length (m ++ [p])) by (rewrite app_length; simpl; lia).
    apply drop_app.
  Qed.

  Lemma fmap_fst_set i v m : (s_set i v m).*1 = m.*1.
  Proof.
    unfold s_set. revert i. induction m as [|p m IH]; intros [|i]; simpl; f_equal; auto.
    apply IH.
  Qed.
  Lemma Forall_fst (P : K → Prop) m : Forall (λ p, P p.1) m ↔ Forall P m.*1.
  Proof. by rewrite Forall_fmap. Qed.
  Lemma ascending_fst m l : m.*1 = l.*1 → ascending cmp m → ascending cmp l.
  Proof.
    revert l. induction m as [|p m IH]; intros [|q l]; simpl; try done.
    intros [= Hp Hm]. rewrite !ascending_cons, <-Hp. intros [? Hf]. split; [auto|].
    unfold allabove in *. apply (Forall_fst (λ x, below p.1 x = true)).
    change (m.*1 = l.*1) in Hm. rewrite <-Hm. by apply Forall_fst.
  Qed.
  Lemma alldom_fst m l : m.*1 = l.*1 → alldom m → alldom l.
  Proof.
    intros Hm. unfold alldom. intros. apply Forall_fst. rewrite <-Hm. by apply Forall_fst.
  Qed.
  Lemma ascending_set i v m : ascending cmp m → ascending cmp (s_set i v m).
  Proof. apply ascending_fst. by rewrite fmap_fst_set. Qed.
  Lemma alldom_set i v m : alldom m → alldom (s_set i v m).
  Proof. apply alldom_fst. by rewrite fmap_fst_set. Qed.

  (** every call keeps the map sorted *)
  Lemma spec_call_ok m c :
    alldom m → ascending cmp m → Forall dom (call_keys c) →
    alldom (spec_call cmp m c).1 ∧ ascending cmp (spec_call cmp m c).1.
  Proof using ORD.
    intros Hd Hs Hk. destruct c; simpl in *;
      repeat (match goal with |- context [match ?x with _ => _ end] =>
                destruct x eqn:?; simpl end);
      try (apply Forall_cons in Hk as [Hk _]);
      split; auto using alldom_insert, ascending_insert, alldom_set, ascending_set,
        alldom_remove, ascending_remove.
  Qed.

  Lemma at_index_mid m p l : at_index (Z.of_nat (length m)) (m ++ p :: l) = Some p.
  Proof.
    unfold at_index. rewrite (proj2 (Z.ltb_ge _ _)) by lia.
    rewrite Nat2Z.id. by apply list_lookup_middle.
  Qed.
  Lemma at_index_Some i m p : at_index i m = Some p ↔
    0 ≤ i ∧ m !! Z.to_nat i = Some p.
  Proof.
    unfold at_index. destruct (i <? 0) eqn:E.
    - apply Z.ltb_lt in E. naive_solver lia.
    - apply Z.ltb_ge in E. naive_solver.
  Qed.
  Lemma at_index_None i m : at_index i m = None ↔ i < 0 ∨ Z.of_nat (length m) ≤ i.
  Proof.
    unfold at_index. destruct (i <? 0) eqn:E.
    - apply Z.ltb_lt in E. naive_solver lia.
    - apply Z.ltb_ge in E. rewrite lookup_ge_None. lia.
  Qed.
End order.

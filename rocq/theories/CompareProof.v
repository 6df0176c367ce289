From stdpp Require Import prelude list.
From Verif Require Import Spec Compare.
Open Scope Z_scope.

Lemma cmp3_three_way a b : three_way Z.lt a b (cmp3 a b).
Proof.
  unfold three_way, cmp3.
  destruct (Z.ltb_spec a b); [|destruct (Z.eqb_spec a b)]; lia.
Qed.

Lemma lex_refl a : lex_compare a a = 0.
Proof. induction a; simpl; [done|]. rewrite Z.ltb_irrefl. done. Qed.
Lemma lex_zero a : ∀ b, lex_compare a b = 0 → a = b.
Proof.
  induction a as [|x a IH]; intros [|y b]; simpl; try done.
  destruct (Z.ltb_spec x y); [done|]. destruct (Z.ltb_spec y x); [done|].
  intros ?%IH. subst. f_equal. lia.
Qed.
Lemma lex_neg a : ∀ b, lex_compare a b < 0 ↔ lex_lt a b.
Proof.
  unfold lex_lt. induction a as [|x a IH]; intros [|y b]; simpl.
  - split; [lia|]. intros [(p&?&?&?&?&Hp&_)|(?&?&?)]; [by destruct p|done].
  - split; [|lia]. intros _. right. eauto.
  - split; [lia|]. intros [(p&?&?&?&?&_&Hp&_)|(?&?&?)]; [by destruct p|done].
  - destruct (Z.ltb_spec x y); [|destruct (Z.ltb_spec y x)].
    + split; [|lia]. intros _. left. exists [], x, a, y, b. done.
    + split; [lia|]. intros [([|z p]&?&?&?&?&?&?&?)|(?&?&?)]; simplify_eq/=; lia.
    + assert (x = y) as -> by lia. rewrite IH. split.
      * intros [(p&x'&a'&y'&b'&->&->&?)|(x'&b'&->)].
        -- left. exists (y :: p), x', a', y', b'. done.
        -- right. exists x', b'. done.
      * intros [([|z p]&x'&a'&y'&b'&?&?&?)|(x'&b'&?)]; simplify_eq/=; [lia| |].
        -- left. exists p, x', a', y', b'. done.
        -- right. eauto.
Qed.
Lemma lex_anti a : ∀ b, lex_compare b a = - lex_compare a b.
Proof.
  induction a as [|x a IH]; intros [|y b]; simpl; try done.
  destruct (Z.ltb_spec x y), (Z.ltb_spec y x); try lia; auto.
Qed.
Lemma lex_trans a : ∀ b c, lex_compare a b ≤ 0 → lex_compare b c ≤ 0 → lex_compare a c ≤ 0.
Proof.
  induction a as [|x a IH]; intros [|y b] [|z c]; simpl; try lia.
  destruct (Z.ltb_spec x y), (Z.ltb_spec y x), (Z.ltb_spec y z), (Z.ltb_spec z y),
    (Z.ltb_spec x z), (Z.ltb_spec z x); try lia. eauto.
Qed.
Lemma lex_three_way a b : three_way lex_lt a b (lex_compare a b).
Proof.
  split_and!.
  - apply lex_neg.
  - split; [apply lex_zero|]. intros ->. apply lex_refl.
  - rewrite <-lex_neg, lex_anti. lia.
Qed.

Lemma cmp3_order (mk : Z → key) (cmp : key → key → option Z) :
  (∀ a b, cmp (mk a) (mk b) = Some (cmp3 a b)) → total_order cmp (λ k, ∃ z, k = mk z).
Proof.
  intros H. split.
  - intros x y [a ->] [b ->]. rewrite H. eauto.
  - intros x y c [a ->] [b ->]. rewrite !H. intros [= <-]. eexists. split; [done|].
    unfold cmp3. destruct (Z.ltb_spec a b), (Z.ltb_spec b a), (Z.eqb_spec a b), (Z.eqb_spec b a);
      simpl; lia.
  - intros x y z c1 c2 [a ->] [b ->] [c ->]. rewrite !H. intros [= <-] [= <-] H1 H2.
    eexists. split; [done|]. revert H1 H2. unfold cmp3.
    destruct (Z.ltb_spec a b), (Z.ltb_spec b c), (Z.ltb_spec a c),
      (Z.eqb_spec a b), (Z.eqb_spec b c), (Z.eqb_spec a c); lia.
Qed.
Lemma lex_order (mk : list Z → key) (cmp : key → key → option Z) :
  (∀ a b, cmp (mk a) (mk b) = Some (lex_compare a b)) → total_order cmp (λ k, ∃ z, k = mk z).
Proof.
  intros H. split.
  - intros x y [a ->] [b ->]. rewrite H. eauto.
  - intros x y c [a ->] [b ->]. rewrite !H. intros [= <-]. eexists. split; [done|].
    rewrite lex_anti. lia.
  - intros x y z c1 c2 [a ->] [b ->] [c ->]. rewrite !H. intros [= <-] [= <-] H1 H2.
    eexists. split; [done|]. eauto using lex_trans.
Qed.

Lemma u16_order : total_order CompareUint16 is_u16.
Proof. by apply cmp3_order. Qed.
Lemma u32_order : total_order CompareUint32 is_u32.
Proof. by apply cmp3_order. Qed.
Lemma u64_order : total_order CompareUint64 is_u64.
Proof. by apply cmp3_order. Qed.
Lemma string_order : total_order CompareString is_string.
Proof. by apply lex_order. Qed.
Lemma bytes_order : total_order CompareByteSlice is_bytes.
Proof. by apply lex_order. Qed.

Lemma builtin_three_way :
  (∀ a b, ∃ r, CompareUint16 (KU16 a) (KU16 b) = Some r ∧ three_way Z.lt a b r) ∧
  (∀ a b, ∃ r, CompareUint32 (KU32 a) (KU32 b) = Some r ∧ three_way Z.lt a b r) ∧
  (∀ a b, ∃ r, CompareUint64 (KU64 a) (KU64 b) = Some r ∧ three_way Z.lt a b r) ∧
  (∀ a b, ∃ r, CompareString (KString a) (KString b) = Some r ∧ three_way lex_lt a b r) ∧
  (∀ a b, ∃ r, CompareByteSlice (KBytes a) (KBytes b) = Some r ∧ three_way lex_lt a b r).
Proof.
  split_and!; intros a b; eexists; (split; [done|]); auto using cmp3_three_way, lex_three_way.
Qed.

(** ** CompareInt *)
Lemma wrap64_small z : - 2 ^ 63 ≤ z < 2 ^ 63 → wrap64 z = z.
Proof. intros. unfold wrap64. rewrite Z.mod_small by lia. lia. Qed.
Lemma wrap64_range z : - 2 ^ 63 ≤ wrap64 z < 2 ^ 63.
Proof. unfold wrap64. pose proof (Z.mod_pos_bound (z + 2 ^ 63) (2 ^ 64)). lia. Qed.

(** exactly when the difference fits in 64 bits is the answer right *)
Lemma int_exact a b : - 2 ^ 63 ≤ a < 2 ^ 63 → - 2 ^ 63 ≤ b < 2 ^ 63 →
  ∃ r, CompareInt (KInt a) (KInt b) = Some r ∧
    (three_way Z.lt a b r ↔ - 2 ^ 63 ≤ a - b < 2 ^ 63).
Proof.
  intros Ha Hb. eexists. split; [done|]. unfold three_way. split.
  - intros (H1&H2&H3). unfold wrap64 in *.
    destruct (Z.lt_ge_cases (a - b) (- 2 ^ 63)); [exfalso|].
    { replace (a - b + 2 ^ 63) with (a - b + 2 ^ 63 + 2 ^ 64 + (-1) * 2 ^ 64) in * by lia.
      rewrite Z.mod_add, Z.mod_small in * by lia. lia. }
    destruct (Z.lt_ge_cases (a - b) (2 ^ 63)); [lia|exfalso].
    replace (a - b + 2 ^ 63) with (a - b + 2 ^ 63 - 2 ^ 64 + 1 * 2 ^ 64) in * by lia.
    rewrite Z.mod_add, Z.mod_small in * by lia. lia.
  - intros H. rewrite wrap64_small by done. lia.
Qed.

Definition small_int k := ∃ z, k = KInt z ∧ - 2 ^ 62 ≤ z < 2 ^ 62.
Lemma int_order : total_order CompareInt small_int.
Proof.
  split.
  - intros x y [a [-> ?]] [b [-> ?]]. simpl. eauto.
  - intros x y c [a [-> ?]] [b [-> ?]]. simpl. intros [= <-]. eexists. split; [done|].
    rewrite !wrap64_small by lia. lia.
  - intros x y z c1 c2 [a [-> ?]] [b [-> ?]] [c [-> ?]]. simpl. intros [= <-] [= <-].
    rewrite !wrap64_small by lia. intros. eexists. split; [done|].
    lia.
Qed.

(** ** CompareTime *)
Definition wall_time k := ∃ w, k = KTime (GoTime w None).
Definition mono_time k := ∃ w m, k = KTime (GoTime w (Some m)).
Lemma time_order_wall : total_order CompareTime wall_time.
Proof.
  split.
  - intros x y [a ->] [b ->]. simpl. eauto.
  - intros x y c [a ->] [b ->]. simpl. intros [= <-]. eexists. split; [done|].
    unfold time_before, time_after. simpl. destruct (Z.ltb_spec a b), (Z.ltb_spec b a); lia.
  - intros x y z c1 c2 [a ->] [b ->] [c ->]. simpl. intros [= <-] [= <-].
    intros H1 H2. eexists. split; [done|]. revert H1 H2.
    unfold time_before, time_after. simpl.
    destruct (Z.ltb_spec a b), (Z.ltb_spec b a), (Z.ltb_spec b c), (Z.ltb_spec c b),
      (Z.ltb_spec a c), (Z.ltb_spec c a); lia.
Qed.
Lemma time_order_mono : total_order CompareTime mono_time.
Proof.
  split.
  - intros x y (?&a&->) (?&b&->). simpl. eauto.
  - intros x y c (?&a&->) (?&b&->). simpl. intros [= <-]. eexists. split; [done|].
    unfold time_before, time_after. simpl. destruct (Z.ltb_spec a b), (Z.ltb_spec b a); lia.
  - intros x y z c1 c2 (?&a&->) (?&b&->) (?&c&->). simpl. intros [= <-] [= <-].
    intros H1 H2. eexists. split; [done|]. revert H1 H2.
    unfold time_before, time_after. simpl.
    destruct (Z.ltb_spec a b), (Z.ltb_spec b a), (Z.ltb_spec b c), (Z.ltb_spec c b),
      (Z.ltb_spec a c), (Z.ltb_spec c a); lia.
Qed.

Lemma foreign :
  (∀ a b, CompareInt a b = None ↔ ¬ (is_int a ∧ is_int b)) ∧
  (∀ a b, CompareUint16 a b = None ↔ ¬ (is_u16 a ∧ is_u16 b)) ∧
  (∀ a b, CompareUint32 a b = None ↔ ¬ (is_u32 a ∧ is_u32 b)) ∧
  (∀ a b, CompareUint64 a b = None ↔ ¬ (is_u64 a ∧ is_u64 b)) ∧
  (∀ a b, CompareString a b = None ↔ ¬ (is_string a ∧ is_string b)) ∧
  (∀ a b, CompareByteSlice a b = None ↔ ¬ (is_bytes a ∧ is_bytes b)) ∧
  (∀ a b, CompareTime a b = None ↔ ¬ (is_time a ∧ is_time b)).
Proof.
  unfold is_int, is_u16, is_u32, is_u64, is_string, is_bytes, is_time.
  split_and!; intros [] []; simpl; split; try done; try naive_solver.
Qed.

(** * Damaged storage

    Models no code; what loadNode does with bytes that postNode did not write. *)
From Coq Require Import ssreflect.
From stdpp Require Import prelude list gmap.
From iris.bi Require Import bi.
From iris.proofmode Require Import proofmode.
From Verif Require Import Spec SpecFacts Llrb LlrbApi BTree HProp Lru Wp Kv Codec Ghost Order PsTree Rep Load Api Open Pres Machine World Disk Picture Client Hist Seat History Footprint Sample Format.
Open Scope Z_scope.

(** [b] is [e] cut short *)
Definition cutoff (b e : bytes) : Prop := ∃ x, x ≠ [] ∧ e = b ++ x.

(** UnpackKey and UnpackValue fail on a packed key or value that is cut short *)
Definition wary {K V} (cb : callbacks K V) (dom : K → Prop) (domV : V → Prop) : Prop :=
  (∀ k b, dom k → cutoff b (pk cb k) → cb_unpackK cb b = None) ∧
  (∀ v b, domV v → cutoff b (pv cb v) → cb_unpackV cb b = None).
(** whatever bytes they get, they do not consume more bytes than there are, and
    keys they return can be compared *)
Definition tame {K V} (cb : callbacks K V) (dom : K → Prop) : Prop :=
  total_order (cb_cmp cb) dom ∧
  (∀ b k n, cb_unpackK cb b = Some (k, n) → dom k ∧ (n ≤ length b)%nat) ∧
  (∀ b v n, cb_unpackV cb b = Some (v, n) → (n ≤ length b)%nat).

Section damage.
  Context {K V : Type}.
  Variable cb : callbacks K V.
  Variable dom : K → Prop.
  Variable domV : V → Prop.
  Hypothesis WF : wf_cb cb dom domV.
  Notation M := (M K V).
  Notation snode := (snode K V).
  Notation hProp := (hProp K V).
  Notation cmp := (cb_cmp cb).
  Notation fine := (fine dom domV).
  Notation write := (write cb).
  Notation read := (read cb).

  (** ** Blocks cut short *)
  Lemma cutoff_app b e1 e2 : cutoff b (e1 ++ e2) → cutoff b e1 ∨ ∃ b', b = e1 ++ b' ∧ cutoff b' e2.
  Proof.
    intros (x & Hx & H). apply app_eq_inv in H as [(k & -> & ->)|(k & -> & ->)].
    - destruct k as [|z k]; [|left; by exists (z :: k)]. right. exists []. rewrite !app_nil_r. split; [done|]. by exists e2.
    - right. exists k. split; [done|]. by exists x.
  Qed.
  Lemma cutoff_nil b : ¬ cutoff b [].
  Proof. intros (x & Hx & H). symmetry in H. by apply app_eq_nil in H as [_ ->]. Qed.
  Lemma cutoff_length b e : cutoff b e → (length b < length e)%nat.
  Proof. intros (x & Hx & ->). rewrite app_length. destruct x; [done|]. cbn. lia. Qed.
  Lemma unle_short n b : (length b < n)%nat → unle n b = None.
  Proof. revert b. induction n as [|n IH]; intros [|z b] H; cbn in *; [lia|lia|done|]. rewrite IH //. lia. Qed.
  Lemma unle_cut z b : cutoff b (u64 z) → unle 8 b = None.
  Proof. intros H%cutoff_length. rewrite u64_length in H. by apply unle_short. Qed.
  Lemma readRef_cut p b : refgood p → cutoff b (enc_ref p) → readRef b = None.
  Proof.
    intros [(Hp1 & Hp2 & Hp3) Hp4] H. unfold enc_ref in H. unfold readRef.
    apply cutoff_app in H as [H|(b1 & -> & H)]; [by rewrite (unle_cut _ _ H)|]. rewrite unle_u64; [|unfold fits; lia].
    apply cutoff_app in H as [H|(b2 & -> & H)]; [by rewrite (unle_cut _ _ H)|]. rewrite unle_u64; [|unfold fits; lia].
    apply cutoff_app in H as [H|(b3 & -> & H)]; [by rewrite (unle_cut _ _ H)|]. rewrite unle_u64; [|unfold fits; lia].
    by rewrite (unle_cut _ _ H).
  Qed.
  Section wary.
    Hypothesis WA : wary cb dom domV.
    Lemma readKey_cut k b : dom k → cutoff b (pk cb k) → readKey cb b = None.
    Proof using WA. intros Hk H. unfold readKey. by rewrite (proj1 WA k b Hk H). Qed.
    Lemma readVal_cut v b : domV v → cutoff b (pv cb v) → readVal cb b = None.
    Proof using WA. intros Hk H. unfold readVal. by rewrite (proj2 WA v b Hk H). Qed.
    Lemma readLeaf_cut kvs b : Forall (λ p, dom p.1 ∧ domV p.2) kvs → cutoff b (mjoin (enc_kv cb <$> kvs)) → readLeaf cb (length kvs) b = None.
    Proof using WA WF.
      intros HF. revert b. induction HF as [|[k v] kvs [Hk Hv] _ IH]; intros b H; [by apply cutoff_nil in H|].
      cbn [length readLeaf fmap list_fmap mjoin list_join] in *. unfold enc_kv in H at 1. cbn [fst snd] in *. rewrite -app_assoc in H.
      apply cutoff_app in H as [H|(b1 & -> & H)]; [by rewrite (readKey_cut k)|]. rewrite (readKey_ok cb dom domV WF) //.
      apply cutoff_app in H as [H|(b2 & -> & H)]; [by rewrite (readVal_cut v)|]. rewrite (readVal_ok cb dom domV WF) //. by rewrite IH.
    Qed.
    Lemma readInner_cut krs b : Forall (λ p, dom p.1 ∧ refgood p.2) krs → cutoff b (mjoin (enc_kref cb <$> krs)) → readInner cb (length krs) b = None.
    Proof using WA WF.
      intros HF. revert b. induction HF as [|[k [l i]] krs [Hk Hr] _ IH]; intros b H; [by apply cutoff_nil in H|].
      cbn [length readInner fmap list_fmap mjoin list_join] in *. unfold enc_kref in H at 1. cbn [fst snd] in *. rewrite -app_assoc in H.
      apply cutoff_app in H as [H|(b1 & -> & H)]; [by rewrite (readKey_cut k)|]. rewrite (readKey_ok cb dom domV WF) //.
      apply cutoff_app in H as [H|(b2 & -> & H)]; [by rewrite (readRef_cut (l, i))|]. rewrite readRef_ok //. by rewrite IH.
    Qed.
    Theorem read_cut n b : fine n → cutoff b (write n) → read b = None.
    Proof using WA WF.
      destruct n as [z mx bo]. intros (Hz & Hm & Hb) H. cbn [sn_items sn_max sn_body] in *. unfold Format.write in H. unfold Format.read. cbn [sn_items sn_max sn_body] in *.
      apply cutoff_app in H as [H|(b1 & -> & H)]; [by rewrite (unle_cut _ _ H)|]. rewrite unle_u64 //.
      destruct b1 as [|b11 [|b12 b1]]; [done..|]. destruct H as (x & Hx & H). cbn [app] in H. injection H as <- <- H.
      assert (cutoff b1 (enc_mx mx ++ match bo with Leaf kvs => u64 (Z.of_nat (length kvs)) ++ mjoin (enc_kv cb <$> kvs)
        | Inner r krs => u64 (1 + Z.of_nat (length krs)) ++ enc_ref r ++ mjoin (enc_kref cb <$> krs) | Hollow => u64 0 end)) as HC by by exists x.
      clear x Hx H. apply cutoff_app in HC as [HC|(b2 & -> & HC)].
      { destruct mx as [m|]; [|by apply cutoff_nil in HC]. cbn [isS bool_byte enc_mx] in *. cbn [negb Z.eqb]. by rewrite (unle_cut _ _ HC). }
      assert ((if negb (bool_byte (isS mx) =? 0) then match unle 8 (enc_mx mx ++ b2) with Some (m, b) => Some (Some m, b) | None => None end else Some (None, enc_mx mx ++ b2)) = Some (mx, b2)) as ->.
      { destruct mx as [m|]; cbn [isS bool_byte enc_mx app]; [|done]. rewrite unle_u64 //. }
      enough (readBody cb (negb (bool_byte match bo with Leaf _ => true | _ => false end =? 0)) b2 = None) as -> by done.
      unfold readBody. destruct bo as [kvs|r krs|]; cbn [bool_byte negb Z.eqb].
      - destruct Hb as [Hl Hd]. apply cutoff_app in HC as [HC|(b3 & -> & HC)]; [by rewrite (unle_cut _ _ HC)|].
        rewrite unle_u64 // Nat2Z.id readLeaf_cut //.
      - destruct Hb as (Hl & Hr & Hd). apply cutoff_app in HC as [HC|(b3 & -> & HC)]; [by rewrite (unle_cut _ _ HC)|].
        rewrite unle_u64 //. destruct (Z.eqb_spec (1 + Z.of_nat (length krs)) 0); [lia|].
        apply cutoff_app in HC as [HC|(b4 & -> & HC)]; [by rewrite (readRef_cut r)|]. rewrite readRef_ok //.
        replace (Z.to_nat (1 + Z.of_nat (length krs) - 1)) with (length krs) by lia. by rewrite readInner_cut.
      - by rewrite (unle_cut _ _ HC).
    Qed.
  End wary.
  (** ** Blocks with something behind *)
  Theorem read_long n x : fine n → x ≠ [] → read (write n ++ x) = None.
  Proof using WF.
    destruct n as [z mx bo]. intros (Hz & Hm & Hb) Hx. cbn [sn_items sn_max sn_body] in *. unfold Format.read, Format.write. cbn [sn_items sn_max sn_body].
    rewrite -!app_assoc unle_u64 //. cbn [app].
    set (e := match bo with Leaf _ => _ | _ => _ end ++ x).
    assert ((if negb (bool_byte (isS mx) =? 0) then match unle 8 (enc_mx mx ++ e) with Some (m, b) => Some (Some m, b) | None => None end else Some (None, enc_mx mx ++ e)) = Some (mx, e)) as ->.
    { destruct mx as [m|]; cbn [isS bool_byte enc_mx app]; [|done]. rewrite unle_u64 //. }
    subst e. destruct x as [|x0 x]; [done|]. destruct bo as [kvs|r krs|]; unfold readBody.
    - destruct Hb as [Hl Hd]. rewrite -!app_assoc unle_u64 //. cbn [bool_byte negb Z.eqb]. rewrite Nat2Z.id (readLeaf_ok cb dom domV WF) //.
    - destruct Hb as (Hl & Hr & Hd). rewrite -!app_assoc unle_u64 //. cbn [bool_byte negb Z.eqb].
      destruct (Z.eqb_spec (1 + Z.of_nat (length krs)) 0); [lia|]. rewrite readRef_ok //.
      replace (Z.to_nat (1 + Z.of_nat (length krs) - 1)) with (length krs) by lia.
      rewrite (readInner_ok cb dom domV WF) //.
    - rewrite unle_u64 //.
  Qed.

  (** ** Loading whatever bytes there are *)
  (** of any node of a tree that is in use *)
  Lemma block_cut hi s t m : wary cb dom domV → history cb dom domV hi s → contents (after cmp hi) t = Some m →
    ∃ mn ca S h g, pictured cb dom domV s t mn ca S h g ∧ items (strip g) = m ∧
      ∀ ir g' l e b, part true g ir g' → gloc g' = Some l → disk s !! l = Some e → cutoff b e ∨ cutoff e b → read b = None.
  Proof using WF.
    intros WA Hh Hm. destruct (history_blocks cb dom domV WF hi s t m Hh Hm) as (mn & ca & S' & h & g & HP & Hi & HB).
    exists mn, ca, S', h, g. split; [done|]. split; [done|]. intros ir g' l e b Hp Hl He Hbe.
    destruct (HB ir g' l Hp Hl) as (e' & x & He' & _ & Hf & -> & _). assert (e = write x) as -> by congruence.
    destruct Hbe as [H|(y & Hy & ->)]; [by eapply read_cut|by apply read_long].
  Qed.
  Section any.
    Variable domA : K → Prop.
    Hypothesis TA : tame cb domA.
    Let ORD := proj1 TA.
    Notation TT := (λ _, True%I : hProp).
    Lemma readKey_tame b k b' : readKey cb b = Some (k, b') → domA k.
    Proof using TA. unfold readKey, cut. destruct (cb_unpackK cb b) as [[k' n]|] eqn:H; [|done]. case_bool_decide; [|done]. intros [= <- <-]. by eapply (proj1 (proj2 TA)). Qed.
    Lemma wp_anyKey io b Q : (∀ k b' (_ : readKey cb b = Some (k, b')), Q (k, b')) ⊢ wp io (unpackKeyM cb b) Q TT.
    Proof using TA.
      iIntros "H". unfold unpackKeyM. destruct (cb_unpackK cb b) as [[k n]|] eqn:Hu; [|iApply wp_fail; done].
      pose proof (proj2 (proj1 (proj2 TA) _ _ _ Hu)) as Hn. unfold slice. rewrite decide_True //. iApply wp_bind. iApply wp_ret. iApply wp_ret.
      assert (readKey cb b = Some (k, drop n b)) as HX by by unfold readKey, cut; rewrite Hu bool_decide_true.
      iApply ("H" $! _ _ HX).
    Qed.
    Lemma wp_anyVal io b Q : (∀ k b' (_ : readVal cb b = Some (k, b')), Q (k, b')) ⊢ wp io (unpackValM cb b) Q TT.
    Proof using TA.
      iIntros "H". unfold unpackValM. destruct (cb_unpackV cb b) as [[k n]|] eqn:Hu; [|iApply wp_fail; done].
      pose proof (proj2 (proj2 TA) _ _ _ Hu) as Hn. unfold slice. rewrite decide_True //. iApply wp_bind. iApply wp_ret. iApply wp_ret.
      assert (readVal cb b = Some (k, drop n b)) as HX by by unfold readVal, cut; rewrite Hu bool_decide_true.
      iApply ("H" $! _ _ HX).
    Qed.
    Lemma wp_anyU64 io b Q : (∀ z b' (_ : unle 8 b = Some (z, b')), Q (z, b')) ⊢ wp (K:=K) (V:=V) io (unpackU64 b) Q TT.
    Proof. iIntros "H". unfold unpackU64. destruct (unle 8 b) as [[z b']|]; [|iApply wp_fail; done]. iApply wp_ret. by iApply ("H" $! _ _ eq_refl). Qed.
    Lemma wp_anyRef io b Q : (∀ l i b' (_ : readRef b = Some (l, i, b')), Q (l, i, b')) ⊢ wp (K:=K) (V:=V) io (unpackRef b) Q TT.
    Proof.
      iIntros "H". unfold unpackRef, readRef. iApply wp_bind. iApply wp_anyU64. iIntros (z1 b1 ->).
      iApply wp_bind. iApply wp_anyU64. iIntros (z2 b2 ->). iApply wp_bind. iApply wp_anyU64. iIntros (z3 b3 ->).
      iApply wp_bind. iApply wp_anyU64. iIntros (z4 b4 ->). iApply wp_ret. by iApply ("H" $! _ _ _ eq_refl).
    Qed.
    Lemma loadLeaf_any io n cnt : ∀ b els r kv Q, b_kv r = Some kv → iskv cb domA els kv →
      isN n r -∗ (∀ kvs b' kv' (_ : readLeaf cb cnt b = Some (kvs, b')), isN n (set_kv (Some kv') r) -∗ Q b') -∗
      wp io (loadLeaf cb cnt n b) Q TT.
    Proof using TA.
      induction cnt as [|cnt IH]; intros b els r kv Q Hr Hkv; cbn [loadLeaf readLeaf]; iIntros "HN H".
      { iApply wp_ret. iApply ("H" $! [] b kv eq_refl). destruct r; cbn in *; by rewrite -Hr. }
      iApply wp_bind. iApply wp_anyKey. iIntros (k b1 Hk). rewrite Hk. iApply wp_bind. iApply wp_anyVal. iIntros (v b2 ->).
      pose proof (readKey_tame _ _ _ Hk) as Hd. iApply wp_bind. destruct (present cmp k els) eqn:Hp.
      - iApply wp_bind. iApply (wp_kvOf with "HN"); [done|]. iIntros "HN". destruct Hkv as [Hi <-].
        destruct (Put_spec cmp domA ORD kv k (VUser v) Hi Hd) as (t' & a & Hput & Hi' & Hc). cbn in Hc. rewrite Hp in Hc. simplify_eq.
        rewrite Hput. iApply wp_bind. iApply wp_ret. iApply wp_bind. iApply (wp_modN with "HN"). iIntros "HN". iApply wp_ret.
        iApply wp_bind. iApply wp_fail; done.
      - iApply (wp_kvPut cb domA ORD _ _ _ kv els with "HN"); [done..|]. iIntros (kv' Hkv') "HN". iApply wp_bind. iApply wp_logicOk.
        iApply (IH b2 _ _ kv' with "HN"); [done|done|]. iIntros (kvs b' kv2 Hl) "HN". rewrite Hl. iApply ("H" $! _ b' kv2 eq_refl with "HN").
    Qed.
    Definition child (p : K * bval V) : hProp := (∃ c r x, <affine> ⌜p.2 = VNode c⌝ ∗ isN c r ∗ isP c x)%I.
    Lemma children_kids els : ([∗ list] p ∈ els, child p) ⊢ ∃ kids : list kid, <affine> ⌜els.*2 = VNode <$> kids.*1⌝ ∗
      ([∗ list] p ∈ kids, isN p.1 p.2) ∗ ([∗ list] p ∈ kids, ∃ x, isP p.1 x).
    Proof.
      induction els as [|[k v] els IH]; cbn; [iIntros "_"; iExists []; cbn; auto|]. rewrite IH. iIntros "[(%c & %r & %x & %H & HN & HP) (%kids & %Hk & HNs & HPs)]".
      cbn in H. iExists ((c, r) :: kids). cbn. iFrame. iSplit; [iPureIntro; by rewrite H Hk|]. by iExists x.
    Qed.
    Lemma child_insert k v els : child (k, v) -∗ ([∗ list] p ∈ els, child p) -∗ [∗ list] p ∈ s_insert cmp k v els, child p.
    Proof.
      iIntros "H Hs". unfold s_insert. rewrite -{1}(take_drop (rank cmp k els) els) !big_sepL_app. cbn. iDestruct "Hs" as "[$ $]". done.
    Qed.
    Lemma loadInner_any io t T n cnt : ∀ b els r kv Q, b_kv r = Some kv → iskv cb domA els kv →
      isR t T -∗ isN n r -∗ ([∗ list] p ∈ els, child p) -∗
      (∀ krs b' kv' els' (_ : readInner cb cnt b = Some (krs, b') ∧ iskv cb domA els' kv'), isR t T -∗ isN n (set_kv (Some kv') r) -∗ ([∗ list] p ∈ els', child p) -∗ Q b') -∗
      wp io (loadInner cb cnt t n b) Q TT.
    Proof using TA.
      induction cnt as [|cnt IH]; intros b els r kv Q Hr Hkv; cbn [loadInner readInner]; iIntros "HR HN Hs H".
      { iApply wp_ret. iApply ("H" $! [] b kv els (conj eq_refl Hkv) with "HR [HN] Hs"). destruct r; cbn in *; by rewrite -Hr. }
      iApply wp_bind. iApply wp_anyKey. iIntros (k b1 Hk). rewrite Hk. iApply wp_bind. iApply wp_anyRef. iIntros (l i b2 ->).
      pose proof (readKey_tame _ _ _ Hk) as Hd. iApply wp_bind. iApply wp_newNode. iIntros (c) "HC HP HT". iApply wp_bind.
      destruct (present cmp k els) eqn:Hp.
      - iApply wp_bind. iApply (wp_kvOf with "HN"); [done|]. iIntros "HN". destruct Hkv as [Hi <-].
        destruct (Put_spec cmp domA ORD kv k (VNode c) Hi Hd) as (t' & a & Hput & Hi' & Hc). cbn in Hc. rewrite Hp in Hc. injection Hc as Hc ->.
        rewrite Hput. iApply wp_bind. iApply wp_ret. iApply (wp_modN with "HN"). iIntros "HN".
        iApply wp_bind. iApply (wp_initNodeAsEvicted with "HR HT"). iIntros "HR HT".
        iApply (IH b2 _ _ t' with "HR HN Hs"); [done|by split|]. iIntros (krs b' kv2 els2 [Hl Hk2]) "HR HN Hs".
        rewrite Hl. iApply ("H" $! _ b' kv2 els2 (conj eq_refl Hk2) with "HR HN Hs").
      - iApply (wp_kvPut_ cb domA ORD _ _ _ kv els with "HN"); [done..|]. iIntros (kv' Hkv') "HN".
        iApply wp_bind. iApply (wp_initNodeAsEvicted with "HR HT"). iIntros "HR HT".
        iDestruct (child_insert k (VNode c) els with "[HC HP] Hs") as "Hs". { iExists c, _, _. by iFrame. }
        iApply (IH b2 _ _ kv' with "HR HN Hs"); [done|done|]. iIntros (krs b' kv2 els2 [Hl Hk2]) "HR HN Hs".
        rewrite Hl. iApply ("H" $! _ b' kv2 els2 (conj eq_refl Hk2) with "HR HN Hs").
    Qed.
    Lemma loadNode_any t T n r b : isR t T -∗ isN n r -∗ isT n noLRU -∗ isD (b_loc r) b -∗
      wp true (loadNode cb t n) (λ _, ⌜is_Some (read b)⌝) TT.
    Proof using TA.
      iIntros "HR HN HT HD". iApply wp_bind. iApply (wp_getN with "HN"). iIntros "HN". iApply wp_bind.
      iApply (wp_GetNode with "HD"). iSplit; [|auto]. iIntros "HD".
      iApply wp_bind. iApply (wp_modN with "HN"). iIntros "HN".
      iApply wp_bind. iApply wp_bind. iApply wp_anyU64. iIntros (items b0 Hb0).
      destruct b0 as [|rb [|lb b1]]; [iApply wp_fail; done..|]. iApply wp_ret.
      iApply wp_bind. iApply (wp_modN with "HN"). iIntros "HN".
      iApply wp_bind. iApply (wp_modN with "HN"). iIntros "HN".
      iApply wp_bind. iApply (wp_modN with "HN"). iIntros "HN".
      iApply wp_bind.
      iAssert (∀ Q : bytes → hProp, (∀ mx b2 T' (_ : (if negb (rb =? 0) then match unle 8 b1 with Some (m, b) => Some (Some m, b) | None => None end else Some (None, b1)) = Some (mx, b2)),
         isR t T' -∗ Q b2) -∗ wp true (if negb (rb =? 0) then
         bind (unpackU64 b1) (λ '(max, payload),
         bind (modT t (λ T, Tree (max / 2) max (t_root T) (t_stale T) (t_cache T))) (λ _ : unit, ret payload))
        else ret b1) Q TT)%I with "[HR]" as "Hmax".
      { iIntros (Q) "H". destruct (negb (rb =? 0)).
        - iApply wp_bind. iApply wp_anyU64. iIntros (m b2 ->). iApply wp_bind. iApply (wp_modT with "HR"). iIntros "HR". iApply wp_ret.
          iApply ("H" $! _ _ _ eq_refl with "HR").
        - iApply wp_ret. iApply ("H" $! _ _ _ eq_refl with "HR"). }
      iApply "Hmax". iIntros (mx b2 T' Hmx) "HR". iApply wp_bind.
      set (r0 := set_leaf _ _). assert (b_kv r0 = Some E) as Hr0 by done.
      iAssert (∀ Q : bytes → hProp, (∀ bo b3 r' (_ : readBody cb (negb (lb =? 0)) b2 = Some (bo, b3)), isR t T' -∗ isN n r' -∗ Q b3) -∗
        wp true (if negb (lb =? 0) then
         bind (unpackU64 b2) (λ '(cnt, payload),
         bind (loadLeaf cb (Z.to_nat cnt) n payload) (λ payload,
         bind (modN n (set_psroot None)) (λ _ : unit, ret payload)))
       else
         bind (unpackU64 b2) (λ '(cnt, payload),
         if cnt =? 0 then
           bind (modN n (set_left None)) (λ _ : unit, ret payload)
         else
           bind (unpackRef payload) (λ '(l, items, payload),
           bind (newNode (refNode t n l items)) (λ c,
           bind (modN n (set_left (Some c))) (λ _ : unit,
           bind (initNodeAsEvicted t c) (λ _ : unit,
           bind (loadInner cb (Z.to_nat (cnt - 1)) t n payload) (λ payload,
           bind (ignoreErr (arrangePrefixSumTree n)) (λ _ : unit,
           ret payload)))))))) Q TT)%I with "[HR HN]" as "Hbody".
      { iIntros (Q) "H". unfold readBody. destruct (negb (lb =? 0)).
        - iApply wp_bind. iApply wp_anyU64. iIntros (cnt b3 ->). iApply wp_bind.
          iApply (loadLeaf_any with "HN"); [done|apply iskv_E|]. iIntros (kvs b4 kv ->) "HN".
          iApply wp_bind. iApply (wp_modN with "HN"). iIntros "HN". iApply wp_ret. iApply ("H" $! _ _ _ eq_refl with "HR HN").
        - iApply wp_bind. iApply wp_anyU64. iIntros (cnt b3 ->). destruct (cnt =? 0).
          { iApply wp_bind. iApply (wp_modN with "HN"). iIntros "HN". iApply wp_ret. iApply ("H" $! _ _ _ eq_refl with "HR HN"). }
          iApply wp_bind. iApply wp_anyRef. iIntros (l i b4 ->). iApply wp_bind. iApply wp_newNode. iIntros (c) "HC HP HTc".
          iApply wp_bind. iApply (wp_modN with "HN"). iIntros "HN".
          iApply wp_bind. iApply (wp_initNodeAsEvicted with "HR HTc"). iIntros "HR HTc".
          iApply wp_bind. iApply (loadInner_any _ _ _ _ _ _ [] with "HR HN []"); [done|apply iskv_E|done|].
          iIntros (krs b5 kv els [-> Hkv]) "HR HN Hs". iApply wp_bind. iApply wp_ignoreErr.
          rewrite children_kids. iDestruct "Hs" as (kids Hk) "[HNs HPs]".
          assert (length els = length kids) as Hlen.
          { apply (f_equal length) in Hk. by rewrite !fmap_length in Hk. }
          iApply (arrange_spec cb domA true n _ kv els.*1 ((c, refNode t n l i) :: kids) with "HN [HC HNs] [HP HPs]"); [done| |done| |..].
          { unfold kels, kvals. cbn. rewrite -Hk zip_fst_snd //. }
          { cbn. by rewrite fmap_length Hlen. }
          { cbn. iFrame. }
          { cbn. iFrame. by iExists _. }
          iIntros (bb _) "HN _ _". iApply wp_ret. iApply ("H" $! _ _ _ eq_refl with "HR HN"). }
      iApply "Hbody". iIntros (bo b3 r' Hbo) "HR HN". destruct b3; [|iApply wp_fail; done].
      iApply wp_bind. iApply (wp_modN with "HN"). iIntros "HN".
      iApply (wp_markNodeClean _ _ _ _ _ noLRU with "HR HN [HT]").
      { unfold ctagof. destruct (t_cache T'); iExact "HT". }
      iIntros "HR HN HT". iPureIntro. unfold Format.read. rewrite Hb0 Hmx Hbo. by eexists.
    Qed.
    Lemma bt_Old_any l ca b : isD l b -∗ wp true (bt_Old cb l ca) (λ _, ⌜is_Some (read b)⌝) TT.
    Proof using TA.
      iIntros "HD". iApply wp_bind. iApply wp_newTree. iIntros (t) "HR". iApply wp_bind. iApply wp_newNode. iIntros (n) "HN HP HT".
      iApply wp_bind. iApply (wp_modT with "HR"). iIntros "HR". iApply wp_bind. iApply (wp_initNodeAsEvicted with "HR HT"). iIntros "HR HT".
      iApply wp_bind. iApply (wp_wand with "[HR HN HT HD]"). { iApply (loadNode_any with "HR HN HT HD"). }
      iSplit; [|auto]. iIntros (_) "H". by iApply wp_ret.
    Qed.
    Notation st := (st K V).
    Definition isKD (k : rkey) : bool := match k with KD _ => true | _ => false end.
    Lemma view_disk (s : st) D σ : views s σ → ∃ σ', views (set_disk D s) σ'.
    Proof.
      intros Hv. exists (dmap (set_disk D s) ∪ filter (λ p, isKD p.1 = false) σ).
      intros k. pose proof (Hv k) as Hk. pose proof (dmap_look (set_disk D s) k) as Hd.
      assert (viewf (set_disk D s) k = match k with KD l => RD <$> D !! l | _ => viewf s k end) as -> by by destruct k.
      destruct (isKD k) eqn:E.
      - destruct k as [n|n|n|l|t]; try done. cbn in Hd. destruct (D !! l) as [b|] eqn:El; cbn [fmap option_fmap option_map] in *.
        + symmetry. by apply lookup_union_Some_l.
        + rewrite lookup_union_r //. symmetry. apply map_filter_lookup_None. by right.
      - assert (match k with KD l => RD <$> D !! l | _ => viewf s k end = σ !! k) as -> by by destruct k.
        rewrite lookup_union_r; [|by destruct k].
        destruct (σ !! k) eqn:E2; symmetry; [by apply map_filter_lookup_Some|apply map_filter_lookup_None; by left].
    Qed.
    (** a state reached by legal calls, with anything on storage *)
    Theorem open_any hi (s : st) D l b ca : history cb dom domV hi s → D !! l = Some b →
      match exec cb (OldTree l ca) (set_disk D s) with
      | ORet r s' => (∃ t, r = RTree t) ∧ ∃ x, read b = Some x
      | OErr _ _ => True
      | OStop w _ => w ≠ Panic ∧ w ≠ Fuel
      end.
    Proof using TA WF.
      intros Hh Hl. destruct (hist_facts cb dom domV WF hi s Hh) as (_ & _ & HW). destruct HW as [HI _ _ _ _ (σ0 & Hv0 & _)].
      destruct (view_disk s D σ0 Hv0) as (σ & Hv).
      assert (Inv (set_disk D s)) as HI'. { destruct HI as [[L HL] ????]. split; try done. exists L. by eapply lru_ext. }
      assert (σ !! KD l = Some (RD b)) as Hk. { rewrite -Hv. cbn. by rewrite Hl. }
      assert (wp true (exec cb (OldTree l ca)) (λ r, ⌜(∃ t, r = RTree t) ∧ is_Some (read b)⌝%I : hProp) (λ _, True%I) {[KD l := RD b]}) as Hwp.
      { eapply (hmono (isD l b)).
        - cbn [exec]. iIntros "HD". iApply wp_bind. iApply (wp_wand with "[HD]"). { iApply (bt_Old_any with "HD"). }
          iSplit; [|auto]. iIntros (t) "H". iApply wp_ret. iDestruct "H" as %H. iPureIntro. split; [by eexists|done].
        - exists ∅. split_and!; [done|apply lookup_empty|apply alldrop_empty]. }
      apply wp_run in Hwp. specialize (Hwp (base.delete (KD l) σ) (set_disk D s)).
      assert (({[KD l := RD b]} : gmap rkey (rval K V)) ∪ base.delete (KD l) σ = σ) as HU.
      { rewrite -insert_union_singleton_l insert_delete //. }
      rewrite HU in Hwp. specialize (Hwp ltac:(apply map_disjoint_singleton_l, lookup_delete) Hv HI').
      destruct (exec cb (OldTree l ca) (set_disk D s)) as [r s'|e s'|w s'].
      - destruct Hwp as (_ & σ' & _ & _ & _ & H1 & [x H2]). split; [done|]. by exists x.
      - done.
      - destruct w; done.
    Qed.
    (** the root block of a stored tree, cut short or with more bytes behind it *)
    Theorem open_cut hi (s : st) t m l D b e ca : wary cb dom domV → history cb dom domV hi s →
      contents (after cmp hi) t = Some m → status (after cmp hi) t = Some (Stored l) →
      disk s !! l = Some e → D !! l = Some b → cutoff b e ∨ cutoff e b →
      match exec cb (OldTree l ca) (set_disk D s) with
      | ORet _ _ => False
      | OErr _ _ => True
      | OStop w _ => w ≠ Panic ∧ w ≠ Fuel
      end.
    Proof using TA WF.
      intros WA Hh Hm Hst He Hl Hbe. pose proof (open_any hi s D l b ca Hh Hl) as HO.
      destruct (tree_shape cb dom domV WF hi s t m Hh Hm) as (mn & ca' & S' & h & g & HP & _ & _ & _ & Hg & _). rewrite Hst in Hg.
      destruct (node_block cb dom domV WF s t mn ca' S' h g true g l HP (part_self _ _) Hg) as (e' & x & He' & _ & Hf & -> & _).
      assert (e = write x) as -> by congruence.
      assert (read b = None) as Hr.
      { destruct Hbe as [H|(y & Hy & ->)]; [by eapply read_cut|by apply read_long]. }
      destruct (exec cb (OldTree l ca) (set_disk D s)) as [r s'|e s'|w s']; [|done|done].
      destruct HO as (_ & y & Hy). congruence.
    Qed.
  End any.
End damage.

(** the sample callbacks *)
Lemma unle_len n b z r : unle n b = Some (z, r) → (n ≤ length b)%nat.
Proof. intros H. destruct (decide (n ≤ length b)%nat); [done|]. rewrite unle_short in H; [done|lia]. Qed.
Lemma z_wary : wary z_cb fits fits.
Proof. split; intros k b _ H; cbn in *; unfold z_unpack; unfold pk, pv in H; cbn in H; by rewrite (unle_cut _ _ H). Qed.
Lemma z_tame : tame z_cb (λ _, True).
Proof.
  assert (∀ b k n, z_unpack b = Some (k, n) → (n ≤ length b)%nat) as U.
  { intros b k n. unfold z_unpack. destruct (unle 8 b) as [[z r]|] eqn:E; [|done]. intros [= <- <-]. by eapply unle_len. }
  split; [|split].
  - split.
    + intros x y _ _. by eexists.
    + intros x y c _ _ [= <-]. eexists. split; [done|]. rewrite -Z.sgn_opp. f_equal. lia.
    + intros x y z c1 c2 _ _ _ [= <-] [= <-] H1 H2. eexists. split; [done|]. lia.
  - intros b k n H. split; [done|]. by eapply U.
  - intros b k n H. by eapply U.
Qed.

(** * The memory of several trees, in disjoint parts

    Every cell of memory and every stored block belongs to one family of
    versions, to a tree that is just being made by one thread, or is garbage.
    A step of a thread changes its own part only.  Models no code. *)
From Coq Require Import ssreflect.
From stdpp Require Import prelude functions list gmap.
From Verif Require Import Spec BTree HProp Lru Wp Pres Local Machine World Threads Wpt.
Open Scope Z_scope.

Inductive part := PG | PF (i : nat) | PT (j : nat).
Global Instance part_dec : EqDecision part.
Proof. solve_decision. Defined.

Section parts.
  Context {K V : Type}.
  Notation heap := (gmap rkey (rval K V)).
  Notation st := (st K V).
  Notation M := (M K V).
  Notation post A := (A → list bool → heap → Prop).
  Implicit Types (σ τ G : heap) (s : st) (P : part → heap) (X : loc → Prop).

  (** the cache cell of a node goes with the node *)
  Definition paired σ : Prop := ∀ n, is_Some (σ !! KT n) ↔ is_Some (σ !! KN n).
  (** all nodes belong to tree [t] *)
  Definition home (t : tid) σ : Prop := ∀ n r, σ !! KN n = Some (RN r) → b_tree r = t.
  Record cut P σ : Prop := Cut {
    cut_disj a b : a ≠ b → P a ##ₘ P b;
    cut_all k v : σ !! k = Some v ↔ ∃ a, P a !! k = Some v }.
  Lemma cut_sub P σ a : cut P σ → P a ⊆ σ.
  Proof. intros H. apply map_subseteq_spec. intros k v Hk. apply (cut_all _ _ H). by exists a. Qed.
  Lemma cut_rest P σ a b : cut P σ → b ≠ a → P b ⊆ σ ∖ P a.
  Proof.
    intros H Hb. apply map_subseteq_spec. intros k v Hk. apply lookup_difference_Some. split; [by eapply lookup_weaken, cut_sub|].
    pose proof (cut_disj _ _ H _ _ Hb) as Hd. by apply (map_disjoint_Some_l _ _ _ _ Hd Hk).
  Qed.
  Lemma cut_split P σ a : cut P σ → P a ∪ (σ ∖ P a) = σ.
  Proof. intros H. apply map_difference_union. by apply cut_sub. Qed.
  Lemma cut_upd P σ a τ : cut P σ → τ ##ₘ σ ∖ P a → cut (<[a := τ]> P) (τ ∪ (σ ∖ P a)).
  Proof.
    intros H Hd. split.
    - intros b c Hbc. destruct (decide (b = a)) as [->|Hb]; [|destruct (decide (c = a)) as [->|Hc]].
      + rewrite fn_lookup_insert fn_lookup_insert_ne //. eapply map_disjoint_weaken_r; [exact Hd|]. by apply cut_rest.
      + rewrite fn_lookup_insert fn_lookup_insert_ne //. symmetry. eapply map_disjoint_weaken_r; [exact Hd|]. by apply cut_rest.
      + rewrite !fn_lookup_insert_ne //. by apply (cut_disj _ _ H).
    - intros k v. rewrite lookup_union_Some //. split.
      + intros [Hk|Hk]; [exists a; by rewrite fn_lookup_insert|]. apply lookup_difference_Some in Hk as [Hk Hn].
        apply (cut_all _ _ H) in Hk as [b Hb]. exists b. rewrite fn_lookup_insert_ne //. intros ->. congruence.
      + intros [b Hb]. destruct (decide (b = a)) as [->|Hne]; [rewrite fn_lookup_insert in Hb; by left|].
        rewrite fn_lookup_insert_ne // in Hb. right. by eapply lookup_weaken, cut_rest.
  Qed.
  (** move [τ2] from one part to another *)
  Lemma cut_move P σ a b τ1 τ2 : cut P σ → a ≠ b → P a = τ1 ∪ τ2 → τ1 ##ₘ τ2 → cut (<[a := τ1]> (<[b := P b ∪ τ2]> P)) σ.
  Proof.
    intros H Hab Ha Hd. pose proof (cut_disj _ _ H) as HD.
    assert (∀ c, P c ##ₘ P a → P c ##ₘ τ1 ∧ P c ##ₘ τ2) as Hs by (intros c; rewrite Ha; apply map_disjoint_union_r).
    assert (∀ c, c ≠ a → <[a := τ1]> (<[b := P b ∪ τ2]> P) c ##ₘ τ1) as H1.
    { intros c Hc. rewrite fn_lookup_insert_ne //. destruct (decide (c = b)) as [->|Hcb].
      - rewrite fn_lookup_insert. apply map_disjoint_union_l. split; [by apply Hs, HD|done].
      - rewrite fn_lookup_insert_ne //. by apply Hs, HD. }
    split.
    - intros c d Hcd. destruct (decide (c = a)) as [->|Hc]; [rewrite {1}fn_lookup_insert; symmetry; by apply H1|].
      destruct (decide (d = a)) as [->|Hd']; [rewrite (fn_lookup_insert _ a); by apply H1|].
      rewrite !(fn_lookup_insert_ne _ a) //. destruct (decide (c = b)) as [->|Hcb]; [|destruct (decide (d = b)) as [->|Hdb]].
      + rewrite fn_lookup_insert fn_lookup_insert_ne //. apply map_disjoint_union_l. split; [by apply HD|]. symmetry. by apply Hs, HD.
      + rewrite fn_lookup_insert fn_lookup_insert_ne //. apply map_disjoint_union_r. split; [by apply HD|]. by apply Hs, HD.
      + rewrite !fn_lookup_insert_ne //. by apply HD.
    - intros k v. rewrite (cut_all _ _ H). destruct (Hs b) as [_ Hb2]; [by apply HD|]. split.
      + intros [c Hc]. destruct (decide (c = a)) as [->|Hca].
        * rewrite Ha in Hc. apply lookup_union_Some in Hc as [Hc|Hc]; [exists a; by rewrite fn_lookup_insert| |done].
          exists b. rewrite fn_lookup_insert_ne // fn_lookup_insert. by apply lookup_union_Some_r.
        * exists c. rewrite fn_lookup_insert_ne //. destruct (decide (c = b)) as [->|Hcb]; [|by rewrite fn_lookup_insert_ne].
          rewrite fn_lookup_insert. by apply lookup_union_Some_l.
      + intros [c Hc]. destruct (decide (c = a)) as [->|Hca].
        * rewrite fn_lookup_insert in Hc. exists a. rewrite Ha. by apply lookup_union_Some_l.
        * rewrite fn_lookup_insert_ne // in Hc. destruct (decide (c = b)) as [->|Hcb]; [|rewrite fn_lookup_insert_ne // in Hc; by exists c].
          rewrite fn_lookup_insert in Hc. apply lookup_union_Some in Hc as [Hc|Hc]; [by exists b| |done].
          exists a. rewrite Ha. by apply lookup_union_Some_r.
  Qed.

  (** a state and its parts *)
  Record sok P s : Prop := SOk {
    so_view : ∃ σ, views s σ ∧ cut P σ;
    so_inv : Inv s;
    so_dom : base.dom (cells s) = base.dom (nodes s);
    so_pair a : paired (P a);
    so_low n r : nodes s !! n = Some r → (b_tree r < fresh s)%positive }.
  Lemma so_disj P s a b : sok P s → a ≠ b → P a ##ₘ P b.
  Proof. intros [(σ & _ & H) _ _ _ _]. apply (cut_disj _ _ H). Qed.
  Lemma so_within P s a : sok P s → within (P a) s.
  Proof. intros [(σ & Hv & H) _ _ _ _] k v Hk. rewrite Hv. by eapply lookup_weaken, cut_sub. Qed.
  Lemma so_find P s k v : sok P s → viewf s k = Some v → ∃ a, P a !! k = Some v.
  Proof. intros [(σ & Hv & H) _ _ _ _] Hk. rewrite Hv in Hk. by apply (cut_all _ _ H). Qed.
  Lemma so_one P s a b k v v' : sok P s → P a !! k = Some v → P b !! k = Some v' → a = b.
  Proof.
    intros H Ha Hb. destruct (decide (a = b)) as [|Hne]; [done|]. pose proof (so_disj _ _ _ _ H Hne) as Hd.
    by rewrite (map_disjoint_Some_l _ _ _ _ Hd Ha) in Hb.
  Qed.
  Lemma so_node P s a n r : sok P s → P a !! KN n = Some r → ∃ r', r = RN r' ∧ nodes s !! n = Some r'.
  Proof. intros H Hk. apply (so_within _ _ a H) in Hk. cbn in Hk. destruct (nodes s !! n) as [r'|]; [|done]. injection Hk as <-. eauto. Qed.

  (** the part [a] became [τ] *)
  Record moved P s a t X io s' τ : Prop := Moved {
    mv_ok : sok (<[a := τ]> P) s';
    mv_local : local X t s s';
    mv_quiet : quiet io s s';
    mv_home : home t (P a) → home t τ;
    mv_dle : dle X (P a) τ }.
  Lemma move_intro P s a t X io s' τ σ : sok P s → views s σ → cut P σ →
    (∀ n r, nodes s !! n = None → nodes s' !! n = Some r → (t < fresh s')%positive) → local X t s s' → quiet io s s' → Inv s' →
    τ ##ₘ σ ∖ P a → views s' (τ ∪ (σ ∖ P a)) → moved P s a t X io s' τ.
  Proof.
    intros HS Hv Hc Ht HL Hq HI Hd Hv'. pose proof (cut_upd _ _ _ _ Hc Hd) as Hc'.
    assert (bounded s) as Hb by (intros n r; apply (so_inv _ _ HS)).
    assert (base.dom (cells s') = base.dom (nodes s')) as Hdom by (apply (g_same _ _ _ (l_grow _ _ _ _ HL)), HS).
    assert (∀ n k, (k = KN n ∨ k = KT n) → is_Some (τ !! k) → is_Some (τ !! KN n) ∧ is_Some (τ !! KT n)) as Hp.
    { assert (∀ n, n ∈ base.dom (nodes s') → ∃ b, is_Some (<[a := τ]> P b !! KN n)) as HN.
      { intros n Hn. apply elem_of_dom in Hn as [r Hr]. specialize (Hv' (KN n)). cbn in Hv'. rewrite Hr in Hv'. symmetry in Hv'.
        apply (cut_all _ _ Hc') in Hv' as [b Hb']. exists b. by rewrite Hb'. }
      assert (∀ n, n ∈ base.dom (nodes s') → ∃ b, is_Some (<[a := τ]> P b !! KT n)) as HT.
      { intros n Hn. rewrite -Hdom in Hn. apply elem_of_dom in Hn as [r Hr]. specialize (Hv' (KT n)). cbn in Hv'. rewrite Hr in Hv'. symmetry in Hv'.
        apply (cut_all _ _ Hc') in Hv' as [b Hb']. exists b. by rewrite Hb'. }
      intros n k Hk Hs.
      assert (n ∈ base.dom (nodes s')) as Hn.
      { destruct Hs as [v Hs]. apply (lookup_union_Some_l _ (σ ∖ P a)) in Hs. rewrite -Hv' in Hs. destruct Hk as [->| ->]; cbn in Hs.
        - destruct (nodes s' !! n) eqn:E; [|done]. by eapply elem_of_dom_2.
        - destruct (cells s' !! n) eqn:E; [|done]. rewrite -Hdom. by eapply elem_of_dom_2. }
      assert (∀ b k', (k' = KN n ∨ k' = KT n) → is_Some (<[a := τ]> P b !! k') → b = a) as Hone.
      { intros b k' Hk' Hs'. destruct (decide (b = a)) as [|Hb']; [done|]. rewrite fn_lookup_insert_ne // in Hs'.
        pose proof (so_pair _ _ HS b n) as Hpr.
        assert (is_Some (P b !! k)) as [v Hv2] by (destruct Hk as [->| ->], Hk' as [->| ->]; tauto).
        destruct Hs as [v' Hs]. pose proof (cut_disj _ _ Hc' _ _ Hb') as Hdd. rewrite fn_lookup_insert fn_lookup_insert_ne // in Hdd.
        by rewrite (map_disjoint_Some_l _ _ _ _ Hdd Hv2) in Hs. }
      destruct (HN n Hn) as [b Hb1]. assert (b = a) as -> by (by eapply Hone; [left|]).
      destruct (HT n Hn) as [b Hb2]. assert (b = a) as -> by (by eapply Hone; [right|]).
      rewrite fn_lookup_insert in Hb1. by rewrite fn_lookup_insert in Hb2. }
    split; [split|..]; try done.
    - by eexists.
    - intros b. destruct (decide (b = a)) as [->|Hb']; [|rewrite fn_lookup_insert_ne //; apply HS]. rewrite fn_lookup_insert.
      intros n. split; intros Hs; [apply (Hp n (KT n))|apply (Hp n (KN n))]; auto.
    - intros n r' Hr'. pose proof (l_fresh _ _ _ _ HL) as Hf. destruct (nodes s !! n) as [r|] eqn:Hr.
      + destruct (l_home _ _ _ _ HL n r Hb Hr) as (r2 & Hr2 & He). rewrite Hr' in Hr2. injection Hr2 as <-. rewrite He.
        pose proof (so_low _ _ HS _ _ Hr). lia.
      + rewrite (l_new _ _ _ _ HL n r' Hb Hr Hr'). by eapply Ht.
    - intros Hh n r' Hr'. pose proof (lookup_union_Some_l _ (σ ∖ P a) _ _ Hr') as Hr2. rewrite -Hv' in Hr2. cbn in Hr2.
      destruct (nodes s' !! n) as [r1|] eqn:Hr1; [|done]. injection Hr2 as ->.
      destruct (nodes s !! n) as [r|] eqn:Hr; [|by eapply (l_new _ _ _ _ HL)].
      destruct (l_home _ _ _ _ HL n r Hb Hr) as (r2 & Hr2 & He). rewrite Hr1 in Hr2. injection Hr2 as <-. rewrite He.
      destruct (so_find _ _ (KN n) (RN r) HS) as [b Hb']; [cbn; by rewrite Hr|].
      destruct (decide (b = a)) as [->|Hba]; [by eapply Hh|]. exfalso.
      pose proof (cut_disj _ _ Hc' _ _ Hba) as Hdd. rewrite fn_lookup_insert fn_lookup_insert_ne // in Hdd.
      by rewrite (map_disjoint_Some_l _ _ _ _ Hdd Hb') in Hr'.
    - eapply (grow_dle X s s' _ _ (σ ∖ P a)); [|rewrite (cut_split _ _ _ Hc); done|done|by apply HL].
      apply map_disjoint_difference_r. by apply cut_sub.
  Qed.

  (** one step of the thread that works on part [a] *)
  Lemma part_step0 {A} P s a G io (p : M A) cbs (Q : post A) (E : post err) σp σk X t : sok P s → P a = σp ∪ σk → σp ##ₘ σk → G ⊆ P PG → a ≠ PG →
    wpt G io p cbs Q E σp → local X t s (sst (sstep p s)) →
    (∀ n r, nodes s !! n = None → nodes (sst (sstep p s)) !! n = Some r → (t < fresh (sst (sstep p s)))%positive) →
    match sstep p s with
    | SMore p' s' => ∃ σp', σp' ##ₘ σk ∧ moved P s a t X io s' (σp' ∪ σk) ∧ wpt G io p' (cbs ++ made s s') Q E σp'
    | SRet r s' => ∃ σp', σp' ##ₘ σk ∧ moved P s a t X io s' (σp' ∪ σk) ∧ Q r (cbs ++ made s s') σp'
    | SErr e s' => ∃ σp', σp' ##ₘ σk ∧ moved P s a t X io s' (σp' ∪ σk) ∧ E e (cbs ++ made s s') σp'
    | SStop Panic _ | SStop Fuel _ => False
    | SStop Env s' | SStop Crash s' => io = true ∧ local X t s s' ∧ (∀ b, b ≠ a → keeps (P b) s') ∧ keeps σk s'
    end.
  Proof.
    intros HS Ha Hd HG HaG Hw HL Ht. pose proof HS as [(σ & Hv & Hc) HI _ _ _].
    pose proof (cut_split _ _ a Hc) as Hsp.
    assert (P a ##ₘ σ ∖ P a) as Hda by (apply map_disjoint_difference_r; by apply cut_sub).
    assert (σp ##ₘ σ ∖ P a ∧ σk ##ₘ σ ∖ P a) as [Hdp Hdk] by (rewrite {1}Ha in Hda; by apply map_disjoint_union_l).
    set (σf := σk ∪ (σ ∖ P a)).
    assert (σp ##ₘ σf) as Hdf by by apply map_disjoint_union_r_2.
    assert (views s (σp ∪ σf)) as Hvf. { unfold σf. rewrite map_union_assoc -Ha Hsp. done. }
    assert (G ⊆ σf) as HGf.
    { etrans; [exact HG|]. etrans; [apply (cut_rest _ _ a PG Hc); done|]. by apply map_union_subseteq_r. }
    pose proof (wpt_sstep G io p cbs Q E σp σf s Hw Hdf HGf Hvf HI) as HP.
    assert (∀ s' σp', local X t s s' → (∀ n r, nodes s !! n = None → nodes s' !! n = Some r → (t < fresh s')%positive) →
      quiet io s s' → σp' ##ₘ σf → views s' (σp' ∪ σf) → Inv s' → σp' ##ₘ σk ∧ moved P s a t X io s' (σp' ∪ σk)) as HM.
    { intros s' σp' HL1 Ht1 Hq Hd' Hv' HI'. apply map_disjoint_union_r in Hd' as [Hd1 Hd2]. split; [done|].
      eapply (move_intro P s a t X io s' _ σ); [done..| |]; [by apply map_disjoint_union_l_2|]. rewrite -map_union_assoc. exact Hv'. }
    destruct (sstep p s) as [p' s'|r s'|e s'|[] s']; cbn in HL, Ht; try done.
    - destruct HP as (Hq & σp' & Hd' & Hv' & HI' & Hw'). destruct (HM s' σp' HL Ht Hq Hd' Hv' HI') as [H1 H2]. by exists σp'.
    - destruct HP as (Hq & σp' & Hd' & Hv' & HI' & Hw'). destruct (HM s' σp' HL Ht Hq Hd' Hv' HI') as [H1 H2]. by exists σp'.
    - destruct HP as (Hq & σp' & Hd' & Hv' & HI' & Hw'). destruct (HM s' σp' HL Ht Hq Hd' Hv' HI') as [H1 H2]. by exists σp'.
    - destruct HP as [-> HK]. split_and!; [done|done| |].
      + intros b Hb l blk Hk. apply HK. apply lookup_union_Some_r; [done|]. by eapply lookup_weaken, (cut_rest _ _ a b Hc).
      + intros l blk Hk. apply HK. by apply lookup_union_Some_l.
    - destruct HP as [-> HK]. split_and!; [done|done| |].
      + intros b Hb l blk Hk. apply HK. apply lookup_union_Some_r; [done|]. by eapply lookup_weaken, (cut_rest _ _ a b Hc).
      + intros l blk Hk. apply HK. by apply lookup_union_Some_l.
  Qed.
  Lemma part_step {A} P s a G io (p : M A) cbs (Q : post A) (E : post err) σp σk X t : sok P s → P a = σp ∪ σk → σp ##ₘ σk → G ⊆ P PG → a ≠ PG →
    wpt G io p cbs Q E σp → locals X t p → (t < fresh s)%positive →
    match sstep p s with
    | SMore p' s' => ∃ σp', σp' ##ₘ σk ∧ moved P s a t X io s' (σp' ∪ σk) ∧ wpt G io p' (cbs ++ made s s') Q E σp' ∧ locals X t p'
    | SRet r s' => ∃ σp', σp' ##ₘ σk ∧ moved P s a t X io s' (σp' ∪ σk) ∧ Q r (cbs ++ made s s') σp'
    | SErr e s' => ∃ σp', σp' ##ₘ σk ∧ moved P s a t X io s' (σp' ∪ σk) ∧ E e (cbs ++ made s s') σp'
    | SStop Panic _ | SStop Fuel _ => False
    | SStop Env s' | SStop Crash s' => io = true ∧ local X t s s' ∧ (∀ b, b ≠ a → keeps (P b) s') ∧ keeps σk s'
    end.
  Proof.
    intros HS Ha Hd HG HaG Hw Hl Ht. destruct (locals_sstep X t p s Hl) as [HL HL'].
    pose proof (part_step0 P s a G io p cbs Q E σp σk X t HS Ha Hd HG HaG Hw HL) as H.
    feed pose proof H as H'; [intros n r _ _; pose proof (l_fresh _ _ _ _ HL); lia|].
    destruct (sstep p s) as [p' s'|r s'|e s'|[] s']; try done. destruct H' as (σp' & ? & ? & ?). by exists σp'.
  Qed.

  (** a piece of one part goes to another *)
  Lemma paired_union σ1 σ2 : paired σ1 → paired σ2 → paired (σ1 ∪ σ2).
  Proof.
    intros H1 H2 n. assert (∀ k, is_Some ((σ1 ∪ σ2) !! k) ↔ is_Some (σ1 !! k) ∨ is_Some (σ2 !! k)) as Hu.
    { intros k. rewrite lookup_union. destruct (σ1 !! k), (σ2 !! k); cbn; unfold is_Some; naive_solver. }
    rewrite !Hu. specialize (H1 n). specialize (H2 n). tauto.
  Qed.
  Lemma sok_move P s a b τ1 τ2 : sok P s → a ≠ b → P a = τ1 ∪ τ2 → τ1 ##ₘ τ2 → paired τ1 → paired τ2 →
    sok (<[a := τ1]> (<[b := P b ∪ τ2]> P)) s.
  Proof.
    intros [(σ & Hv & Hc) HI HD HP HL] Hab Ha Hd H1 H2. split; [|done|done| |done].
    - exists σ. split; [done|]. by apply cut_move.
    - intros c. destruct (decide (c = a)) as [->|Hca]; [by rewrite fn_lookup_insert|]. rewrite fn_lookup_insert_ne //.
      destruct (decide (c = b)) as [->|Hcb]; [rewrite fn_lookup_insert; by apply paired_union|by rewrite fn_lookup_insert_ne].
  Qed.
End parts.

(** * The node cache: its lists, and the updates of them

    [lists s clean dirty] reads the two lists off a state, pointer by pointer,
    without mention of how they are kept.  The updates are the five functions
    of btree.go:2014-2430 through which all of the package changes the lists. *)
From Coq Require Import ssreflect.
From stdpp Require Import prelude list gmap.
From Verif Require Import Spec Llrb BTree HProp Lru Wp.
Open Scope Z_scope.
Local Open Scope general_if_scope.

Section cache.
  Context {K V : Type}.
  Notation st := (st K V).
  Notation M := (M K V).
  Implicit Types (s : st) (n : nid) (t : tid) (c d L : list nid).

  (** btree.go:1040-1052: Stats copies six fields of the cache *)
  Record stats := Stats { st_low : Z; st_high : Z; st_clean : Z; st_dirty : Z; st_hits : Z; st_misses : Z }.
  Definition cache_Stats : M stats :=
    bind getCache (λ c : cacherec, ret (Stats (c_low c) (c_high c) (qitems (c_clean c)) (qitems (c_dirty c)) (c_hits c) (c_misses c))).

  (** [L] is a doubly linked list, from head to tail, and its length is right *)
  Record listed s (q : lruq) (x : ctag) L : Prop := Listed {
    li_head : qhead q = head L;
    li_tail : qtail q = last L;
    li_items : qitems q = Z.of_nat (length L);
    li_nodup : NoDup L;
    li_cell i n : L !! i = Some n → cells s !! n = Some (Cell x (L !! S i) (match i with O => None | S j => L !! j end)) }.
  Record lists s (clean dirty : list nid) : Prop := Lists {
    ls_clean : listed s (c_clean (cache s)) cleanLRU clean;
    ls_dirty : listed s (c_dirty (cache s)) dirtyLRU dirty;
    ls_disj n : n ∈ clean → n ∉ dirty;
    ls_none n x : cells s !! n = Some x → n ∉ clean → n ∉ dirty → x = Cell noLRU None None }.

  Lemma seg_at cs (b : bool) L : ∀ p nx, seg cs b p L nx ↔
    ∀ i n, L !! i = Some n → cs !! n = Some (Cell (side b) (match L !! S i with Some m => Some m | None => nx end) (match i with O => p | S j => L !! j end)).
  Proof.
    induction L as [|m L IH]; intros p nx; [by split|]. cbn [seg]. rewrite IH. split.
    - intros [H1 H2] [|i] n Hi; cbn in Hi.
      + injection Hi as <-. rewrite H1. cbn. by destruct L.
      + rewrite (H2 _ _ Hi). done.
    - intros H. split.
      + rewrite (H 0%nat m eq_refl). cbn. by destruct L.
      + intros i n Hi. rewrite (H (S i) n Hi). done.
  Qed.
  Definition pair_of (c d : list nid) (b : bool) : list nid := if b then d else c.
  Lemma lists_lru s c d : lists s c d ↔ lru s (pair_of c d).
  Proof.
    assert (∀ (b : bool) L p q, (∀ i n, L !! i = Some n → cells s !! n = Some (Cell (side b) (match L !! S i with Some m => Some m | None => None end) (match i with O => p | S j => q j end))) ↔
      (∀ i n, L !! i = Some n → cells s !! n = Some (Cell (side b) (L !! S i) (match i with O => p | S j => q j end)))) as Hopt.
    { intros b L p q. split; intros H i n Hi; rewrite (H i n Hi); by destruct (L !! S i). }
    split.
    - intros [[A1 A2 A3 A4 A5] [B1 B2 B3 B4 B5] C D]. split; try by intros [].
      + intros [|]; apply seg_at; intros i n Hi; [rewrite (B5 i n Hi)|rewrite (A5 i n Hi)]; by destruct (_ !! S i).
      + intros [|] m; cbn; [intros H1 H2; by apply (C m)|apply C].
      + intros m x Hx H1 H2 _. by apply (D m).
    - intros [H1 H2 H3 H4 H5 H6 H7]. split.
      + specialize (H1 false); specialize (H2 false); specialize (H3 false); specialize (H4 false); specialize (H5 false). split; try done.
        by apply (Hopt false c None (λ j, c !! j)), seg_at.
      + specialize (H1 true); specialize (H2 true); specialize (H3 true); specialize (H4 true); specialize (H5 true). split; try done.
        by apply (Hopt true d None (λ j, d !! j)), seg_at.
      + intros n Hn. by apply (H6 false n Hn).
      + intros n x Hx Hc Hd. apply (H7 n x Hx Hc Hd). by intros [].
  Qed.
  Lemma lru_lists s (L : bool → list nid) : lru s L → lists s (L false) (L true).
  Proof.
    intros H. apply lists_lru. destruct H as [H1 H2 H3 H4 H5 H6 H7]. split; try done.
    - intros [|]; [apply (H1 true)|apply (H1 false)].
    - intros [|]; [apply (H2 true)|apply (H2 false)].
    - intros [|]; [apply (H3 true)|apply (H3 false)].
    - intros [|]; [apply (H4 true)|apply (H4 false)].
    - intros [|]; [apply (H5 true)|apply (H5 false)].
    - intros [|] m; [apply (H6 true)|apply (H6 false)].
  Qed.
  (** a state has only one pair of lists *)
  Lemma listed_inj s q x L L' : listed s q x L → listed s q x L' → L = L'.
  Proof.
    intros [A1 A2 A3 A4 A5] [B1 B2 B3 B4 B5]. apply list_eq. intros i. induction i as [|i IH].
    - rewrite -!head_lookup. congruence.
    - destruct (L !! i) as [n|] eqn:Hi.
      + pose proof (A5 _ _ Hi) as H1. symmetry in IH. pose proof (B5 _ _ IH) as H2. congruence.
      + symmetry in IH. rewrite !lookup_ge_None_2 //; [apply lookup_ge_None_1 in IH|apply lookup_ge_None_1 in Hi]; lia.
  Qed.
  Lemma lists_inj s c d c' d' : lists s c d → lists s c' d' → c = c' ∧ d = d'.
  Proof. intros [A1 A2 _ _] [B1 B2 _ _]. split; by eapply listed_inj. Qed.
  Lemma Inv_lists s : Inv s → ∃ c d, lists s c d.
  Proof. intros [[L HL] _ _ _ _]. exists (L false), (L true). by apply lru_lists. Qed.
  Lemma lists_stats s c d : lists s c d → ∃ x, cache_Stats s = ORet x s ∧ st_clean x = Z.of_nat (length c) ∧ st_dirty x = Z.of_nat (length d).
  Proof. intros [A B _ _]. eexists. split; [done|]. cbn. by rewrite (li_items _ _ _ _ A) (li_items _ _ _ _ B). Qed.

  (** ** Updates *)
  Inductive mark := MUsed | MClean | MDirty | MEvicted | MDiscarded.
  (** btree.go:2014-2430 *)
  Definition do_mark (m : mark) (t : tid) (n : nid) : M unit :=
    match m with
    | MUsed => markNodeUsed t n
    | MClean => markNodeClean t n
    | MDirty => markNodeDirty t n
    | MEvicted => markNodeEvicted t n
    | MDiscarded => markNodeToBeDiscarded t n
    end.
  (** what they should do to the two lists, least recently used first *)
  Definition without n L : list nid := filter (λ m, m ≠ n) L.
  Definition marked (cd : list nid * list nid) (m : mark) (n : nid) : list nid * list nid :=
    let '(c, d) := cd in
    match m with
    | MUsed => (if bool_decide (n ∈ c) then without n c ++ [n] else c, if bool_decide (n ∈ d) then without n d ++ [n] else d)
    | MClean => (without n c ++ [n], without n d)
    | MDirty => (without n c, without n d ++ [n])
    | MEvicted | MDiscarded => (without n c, without n d)
    end.
  Definition must_be_listed (m : mark) : bool := match m with MClean | MDirty => false | _ => true end.
  Lemma without_rm n L : without n L = rm n L.
  Proof. done. Qed.

  Lemma lru_ext' s s' (L : bool → list nid) : lru s L → cells s' = cells s → (∀ b, qof b (cache s') = qof b (cache s)) → lru s' L.
  Proof. intros [] Hc Hca. split; rewrite ?Hc; try done; intros d; rewrite Hca; done. Qed.
  Lemma lists_ext s s' c d : lists s c d → cells s' = cells s → (∀ b, qof b (cache s') = qof b (cache s)) → lists s' c d.
  Proof. intros H%lists_lru Hc Hq. apply lists_lru. by eapply lru_ext'. Qed.
  Lemma lists_of s (L : bool → list nid) c d : lru s L → L false = c → L true = d → lists s c d.
  Proof. intros H%lru_lists <- <-. done. Qed.
  Lemma lists_tag s c d n x : lists s c d → cells s !! n = Some x → match ctg x with noLRU => n ∉ c ∧ n ∉ d | cleanLRU => n ∈ c | dirtyLRU => n ∈ d end.
  Proof. intros H%lists_lru Hx. pose proof (lru_ontag _ _ _ _ H Hx) as Ho. by destruct (ctg x). Qed.
  Lemma split_in n L : NoDup L → n ∈ L → ∃ L1 L2, L = L1 ++ n :: L2 ∧ without n L = L1 ++ L2.
  Proof.
    intros Hd Hn. apply elem_of_list_split in Hn as (L1 & L2 & ->). exists L1, L2. split; [done|].
    apply NoDup_app in Hd as (H1 & H2 & H3). apply NoDup_cons in H3 as [H3 _].
    apply rm_mid; [|done]. intros H. apply (H2 n H). left.
  Qed.
  Lemma lists_nodup s c d : lists s c d → NoDup c ∧ NoDup d.
  Proof. intros [A B _ _]. split; [apply A|apply B]. Qed.

  (** each primitive *)
  Lemma append_lists s c d (b : bool) n x : lists s c d → cells s !! n = Some x → ctg x = noLRU →
    ∃ s', lruAppend b n s = ORet tt s' ∧ lru_frame s s' ∧ n ∉ c ∧ n ∉ d ∧ lists s' (if b then c else c ++ [n]) (if b then d ++ [n] else d).
  Proof.
    intros H Hx Ht. pose proof (lists_tag _ _ _ _ _ H Hx) as Ho. rewrite Ht in Ho. destruct Ho as [Hc Hd].
    pose proof (ls_none _ _ _ H _ _ Hx Hc Hd) as ->. apply lists_lru in H.
    destruct (lruAppend_spec s _ b n H Hx) as (s' & Hr & Hf & L' & HL & H1 & H2); [by destruct b..|].
    exists s'. split_and!; try done. destruct b; cbn in H1, H2; by eapply lists_of.
  Qed.
  Lemma tail_lists s c d (b : bool) n x : lists s c d → cells s !! n = Some x → ctg x = side b →
    ∃ s', lruToTail b n s = ORet tt s' ∧ lru_frame s s' ∧ (if b then n ∈ d else n ∈ c) ∧ lists s' (if b then c else without n c ++ [n]) (if b then without n d ++ [n] else d).
  Proof.
    intros H Hx Ht. pose proof (lists_tag _ _ _ _ _ H Hx) as Ho. rewrite Ht in Ho. destruct (lists_nodup _ _ _ H) as [Nc Nd]. apply lists_lru in H.
    destruct b; cbn in Ho; [destruct (split_in n d Nd Ho) as (L1 & L2 & HL & Hw)|destruct (split_in n c Nc Ho) as (L1 & L2 & HL & Hw)]; rewrite Hw.
    - destruct (lruToTail_spec s _ true n L1 L2 H HL) as (s' & Hr & Hf & L' & HL' & H1 & H2). exists s'. split_and!; try done.
      eapply lists_of; [done..|]. by rewrite -app_assoc.
    - destruct (lruToTail_spec s _ false n L1 L2 H HL) as (s' & Hr & Hf & L' & HL' & H1 & H2). exists s'. split_and!; try done.
      eapply lists_of; [done| |done]. by rewrite -app_assoc.
  Qed.
  Lemma move_lists s c d (b : bool) n x : lists s c d → cells s !! n = Some x → ctg x = side b →
    ∃ s', bind (lruTake b n) (λ _ : unit, lruGive (negb b) n) s = ORet tt s' ∧ lru_frame s s' ∧ (if b then n ∈ d ∧ n ∉ c else n ∈ c ∧ n ∉ d) ∧
      lists s' (if b then c ++ [n] else without n c) (if b then without n d else d ++ [n]).
  Proof.
    intros H Hx Ht. pose proof (lists_tag _ _ _ _ _ H Hx) as Ho. rewrite Ht in Ho. destruct (lists_nodup _ _ _ H) as [Nc Nd].
    pose proof (ls_disj _ _ _ H n) as Hdis. apply lists_lru in H.
    assert (∃ L1 L2, pair_of c d b = L1 ++ n :: L2 ∧ without n (pair_of c d b) = L1 ++ L2) as (L1 & L2 & HL & Hw).
    { destruct b; cbn in Ho |- *; by apply split_in. }
    destruct (lru_cell _ _ _ _ _ _ _ H HL) as (_ & Hn1 & Hn2 & Hn3 & _).
    destruct (lruTake_spec s _ b n L1 L2 H HL) as (s' & Hrun & [pv Hc'] & Hfr & L' & HL' & H1 & H2).
    destruct (lruGive_spec s' L' (negb b) n _ pv HL' Hc') as (s2 & Hrun2 & Hfr2 & L2' & HL2 & H3 & H4).
    { by rewrite H2. }
    { rewrite negb_involutive H1. set_solver. }
    rewrite negb_involutive in H4.
    exists s2. split_and!.
    - cbn [run bind]. by rewrite Hrun.
    - destruct Hfr as (cs & ca & -> & Hdom & ? & ? & ? & ? & ?), Hfr2 as (cs2 & ca2 & -> & Hdom2 & ? & ? & ? & ? & ?).
      exists cs2, ca2. cbn in *. split_and!; try done; by etrans.
    - destruct b; cbn in Ho; naive_solver.
    - destruct b; unfold pair_of in *; cbn [negb] in *; (eapply lists_of; [exact HL2|congruence..]).
  Qed.
  Lemma remove_lists s c d (b : bool) n x : lists s c d → cells s !! n = Some x → ctg x = side b →
    ∃ s', lruRemove b n s = ORet tt s' ∧ lru_frame s s' ∧ (if b then n ∈ d ∧ n ∉ c else n ∈ c ∧ n ∉ d) ∧
      lists s' (if b then c else without n c) (if b then without n d else d).
  Proof.
    intros H Hx Ht. pose proof (lists_tag _ _ _ _ _ H Hx) as Ho. rewrite Ht in Ho. destruct (lists_nodup _ _ _ H) as [Nc Nd].
    pose proof (ls_disj _ _ _ H n) as Hdis. apply lists_lru in H.
    assert (∃ L1 L2, pair_of c d b = L1 ++ n :: L2 ∧ without n (pair_of c d b) = L1 ++ L2) as (L1 & L2 & HL & Hw).
    { destruct b; cbn in Ho |- *; by apply split_in. }
    destruct (lruRemove_spec s _ b n L1 L2 H HL) as (s' & Hr & Hf & L' & HL' & H1 & H2).
    exists s'. split_and!; [done|done|destruct b; cbn in Ho; naive_solver|].
    destruct b; unfold pair_of in *; cbn [negb] in *; (eapply lists_of; [exact HL'|congruence..]).
  Qed.
  Lemma without_id n L : n ∉ L → without n L = L.
  Proof. apply rm_not_in. Qed.

  (** the rest of each update leaves the lists alone *)
  Definition aloof s s' : Prop := cells s' = cells s ∧ cache s' = cache s ∧ ∀ t, t_cache <$> trees s' !! t = t_cache <$> trees s !! t.
  Lemma aloof_refl s : aloof s s.
  Proof. done. Qed.
  Lemma aloof_trans s1 s2 s3 : aloof s1 s2 → aloof s2 s3 → aloof s1 s3.
  Proof. intros (?&?&H) (?&?&H'). split_and!; [congruence..|]. intros t. by rewrite H' H. Qed.
  Lemma modN_aloof n f s : match modN n f s with ORet _ s' => is_Some (nodes s !! n) ∧ aloof s s' ∧ (∀ n', is_Some (nodes s !! n') → is_Some (nodes s' !! n')) | OErr _ _ => False | OStop x _ => x = Panic ∧ nodes s !! n = None end.
  Proof.
    cbn. destruct (nodes s !! n) as [r|] eqn:E; [|done]. split; [by eexists|]. split; [done|]. cbn [nodes set_nodes].
    intros n' [r' Hr']. destruct (decide (n' = n)) as [->|]; [by rewrite lookup_insert; eexists|]. by rewrite lookup_insert_ne // Hr'.
  Qed.
  Lemma place_aloof t n s : is_Some (trees s !! t) → is_Some (nodes s !! n) → ∃ s', placeNodeOnStale t n s = ORet tt s' ∧ aloof s s' ∧ (∀ n', is_Some (nodes s !! n') → is_Some (nodes s' !! n')).
  Proof.
    intros [T HT] [r Hr]. unfold placeNodeOnStale, getN, bind; cbn [run]. rewrite Hr. destruct (_ =? 0); [by eexists; split_and!|].
    unfold modT, getT, bind; cbn [run]. rewrite HT. cbn. unfold modN, getN, bind; cbn [run]. cbn. rewrite Hr. eexists. split; [done|]. split; [split_and!; [done|done|]|].
    - intros t'. cbn. destruct (decide (t' = t)) as [->|]; [by rewrite lookup_insert HT|]. by rewrite lookup_insert_ne.
    - intros n' [r' Hr']. cbn. destruct (decide (n' = n)) as [->|]; [by rewrite lookup_insert; eexists|]. by rewrite lookup_insert_ne // Hr'.
  Qed.
  Definition has s (t : tid) (n : nid) : Prop :=
    (∃ T, trees s !! t = Some T ∧ t_cache T = true) ∧ is_Some (nodes s !! n) ∧ is_Some (cells s !! n).
  Definition hasall s s' : Prop := ∀ t n, has s t n → has s' t n.
  Lemma aloof_has s s' : aloof s s' → (∀ n', is_Some (nodes s !! n') → is_Some (nodes s' !! n')) → hasall s s'.
  Proof.
    intros (Hc & _ & Ht) Hn t n ((T & HT & HTc) & H1 & H2). split_and!; [|by apply Hn|by rewrite Hc].
    specialize (Ht t). rewrite HT in Ht. cbn in Ht. apply fmap_Some in Ht as (T' & HT' & Hx). exists T'. by rewrite -Hx.
  Qed.
  Lemma frame_has s s' : lru_frame s s' → hasall s s'.
  Proof.
    intros (cs & ca & -> & Hd & _) t n (H1 & H2 & H3). split_and!; [done|done|]. cbn.
    apply elem_of_dom. rewrite Hd. by apply elem_of_dom.
  Qed.
  Lemma when_in t m s n : has s t n → whenCache t m s = m s.
  Proof. intros ((T & HT & Hc) & _). unfold whenCache, getT, bind; cbn [run]. by rewrite HT Hc. Qed.
  Lemma kick_ok b s c d : lists s c d → ∃ s', kickDrainer b s = ORet tt s' ∧ lists s' c d ∧ hasall s s'.
  Proof.
    intros HL. eexists. split; [done|]. split; [|by intros t n]. eapply lists_ext; [done|done|]. intros b'. cbn. by destruct (_ && _), b'.
  Qed.
  Definition found (m : mark) (cd : list nid * list nid) n : Prop := must_be_listed m = true → n ∈ cd.1 ∨ n ∈ cd.2.
  Global Instance found_dec m cd n : Decision (found m cd n).
  Proof. unfold found. apply _. Qed.
  Lemma mark_run m t n s c d : lists s c d → has s t n →
    if decide (found m (c, d) n) then ∃ s', do_mark m t n s = ORet tt s' ∧ lists s' (marked (c, d) m n).1 (marked (c, d) m n).2 ∧ hasall s s'
    else ∃ s', do_mark m t n s = OStop Panic s'.
  Proof.
    intros HL Hh. pose proof Hh as (_ & [r Hr] & [x Hx]).
    assert (∀ s1, lists s1 c d → has s1 t n → if decide (n ∈ c ∨ n ∈ d) then ∃ s', markNodeEvicted t n s1 = ORet tt s' ∧ lists s' (without n c) (without n d) ∧ hasall s1 s'
      else ∃ s', markNodeEvicted t n s1 = OStop Panic s') as Hev.
    { intros s1 HL1 Hh1. pose proof Hh1 as (_ & _ & [x1 Hx1]). pose proof (lists_tag _ _ _ _ _ HL1 Hx1) as Ho.
      unfold markNodeEvicted. rewrite (when_in _ _ _ _ Hh1). unfold getC, bind; cbn [run]. rewrite Hx1. destruct (ctg x1) eqn:Ht.
      - rewrite decide_False; [|tauto]. by eexists.
      - rewrite decide_True; [|by left]. destruct (remove_lists _ _ _ false _ _ HL1 Hx1 Ht) as (s' & Hs' & Hf & Hn & HL'). exists s'. split_and!; [done| |by apply frame_has].
        rewrite (without_id n d); [|apply Hn]. done.
      - rewrite decide_True; [|by right]. destruct (remove_lists _ _ _ true _ _ HL1 Hx1 Ht) as (s' & Hs' & Hf & Hn & HL'). exists s'. split_and!; [done| |by apply frame_has].
        rewrite (without_id n c); [|apply Hn]. done. }
    pose proof (lists_tag _ _ _ _ _ HL Hx) as Ho.
    assert (must_be_listed m = true → found m (c, d) n ↔ n ∈ c ∨ n ∈ d) as Hfd by (unfold found; cbn; naive_solver).
    assert (must_be_listed m = false → found m (c, d) n) as Hfd' by (unfold found; by intros ->).
    destruct m; cbn [do_mark marked].
    - (* Used *) unfold markNodeUsed. rewrite (when_in _ _ _ _ Hh). unfold getC, bind; cbn [run]. rewrite Hx. specialize (Hfd eq_refl). destruct (ctg x) eqn:Ht.
      + rewrite decide_False; [|naive_solver]. by eexists.
      + rewrite decide_True; [|by apply Hfd; left]. rewrite (bool_decide_true (n ∈ c)) // (bool_decide_false (n ∈ d)); [|by apply (ls_disj _ _ _ HL)]. destruct (tail_lists _ _ _ false _ _ HL Hx Ht) as (s' & Hs' & Hf & Hn & HL'). exists s'. split_and!; [done|done|by apply frame_has].
      + rewrite decide_True; [|by apply Hfd; right]. assert (n ∉ c). { intros Hc. by eapply (ls_disj _ _ _ HL). }
        rewrite (bool_decide_false (n ∈ c)) // (bool_decide_true (n ∈ d)) //. destruct (tail_lists _ _ _ true _ _ HL Hx Ht) as (s' & Hs' & Hf & Hn & HL'). exists s'. split_and!; [done|done|by apply frame_has].
    - (* Clean *) rewrite decide_True; [|by apply Hfd']. unfold markNodeClean. pose proof (modN_aloof n (set_dirty false) s) as HM. unfold bind; cbn [run].
      destruct (modN n (set_dirty false) s) as [[] s1|e s1|x1 s1]; [|done|by destruct HM as [_ HM]; rewrite Hr in HM].
      destruct HM as (_ & Ha & Hn). pose proof (aloof_has _ _ Ha Hn) as Hhas. pose proof (Hhas _ _ Hh) as Hh1. destruct Ha as (Ac & Aca & _).
      assert (lists s1 c d) as HL1. { eapply lists_ext; [done|done|]. by rewrite Aca. }
      rewrite (when_in _ _ _ _ Hh1). unfold getC, bind; cbn [run]. rewrite Ac Hx.
      assert (cells s1 !! n = Some x) as Hx1 by by rewrite Ac.
      destruct (ctg x) eqn:Ht.
      + destruct (append_lists _ _ _ false _ _ HL1 Hx1 Ht) as (s2 & Hs2 & Hf & N1 & N2 & HL2). unfold bind; cbn [run]. rewrite Hs2.
        destruct (kick_ok false _ _ _ HL2) as (s3 & Hs3 & HL3 & Hk). exists s3. split; [done|]. cbn. rewrite !without_id //. split; [done|].
        intros t' n' H'. by apply Hk, (frame_has _ _ Hf), Hhas.
      + destruct (tail_lists _ _ _ false _ _ HL1 Hx1 Ht) as (s2 & Hs2 & Hf & N1 & HL2). unfold bind; cbn [run]. rewrite Hs2.
        destruct (kick_ok false _ _ _ HL2) as (s3 & Hs3 & HL3 & Hk). exists s3. split; [done|]. cbn.
        rewrite (without_id n d); [|by apply (ls_disj _ _ _ HL)]. split; [done|].
        intros t' n' H'. by apply Hk, (frame_has _ _ Hf), Hhas.
      + destruct (move_lists _ _ _ true _ _ HL1 Hx1 Ht) as (s2 & Hs2 & Hf & N1 & HL2).
        change (negb true) with false in Hs2. cbn [side] in Hs2. unfold bind in Hs2. rewrite Hs2.
        destruct (kick_ok false _ _ _ HL2) as (s3 & Hs3 & HL3 & Hk). exists s3. split; [done|]. cbn.
        rewrite (without_id n c); [|apply N1]. split; [done|].
        intros t' n' H'. by apply Hk, (frame_has _ _ Hf), Hhas.
    - (* Dirty *) rewrite decide_True; [|by apply Hfd']. unfold markNodeDirty. pose proof (modN_aloof n (set_dirty true) s) as HM. unfold bind; cbn [run].
      destruct (modN n (set_dirty true) s) as [[] s1|e s1|x1 s1]; [|done|by destruct HM as [_ HM]; rewrite Hr in HM].
      destruct HM as (_ & Ha & Hn). pose proof (aloof_has _ _ Ha Hn) as Hhas0. pose proof (Hhas0 _ _ Hh) as Hh0.
      pose proof Hh0 as ((T0 & HT0 & _) & Hn0 & _).
      destruct (place_aloof t n s1) as (s1' & Hs1' & Ha' & Hn'); [by eexists|done|].
      unfold bind; cbn [run]. rewrite Hs1'. pose proof (aloof_has _ _ Ha' Hn') as Hhas1. pose proof (Hhas1 _ _ Hh0) as Hh1.
      pose proof (aloof_trans _ _ _ Ha Ha') as (Ac & Aca & _). clear Ha Ha' Hn' Hn Hs1' HT0 Hn0.
      assert (hasall s s1') as Hhas by (intros t' n' H'; by apply Hhas1, Hhas0). clear Hhas0 Hhas1 Hh0 s1. rename s1' into s1.
      assert (lists s1 c d) as HL1. { eapply lists_ext; [done|done|]. by rewrite Aca. }
      rewrite (when_in _ _ _ _ Hh1). unfold getC, bind; cbn [run]. rewrite Ac Hx.
      assert (cells s1 !! n = Some x) as Hx1 by by rewrite Ac.
      destruct (ctg x) eqn:Ht.
      + destruct (append_lists _ _ _ true _ _ HL1 Hx1 Ht) as (s2 & Hs2 & Hf & N1 & N2 & HL2). exists s2. split; [done|]. cbn. rewrite !without_id //. split; [done|].
        intros t' n' H'. by apply (frame_has _ _ Hf), Hhas.
      + destruct (move_lists _ _ _ false _ _ HL1 Hx1 Ht) as (s2 & Hs2 & Hf & N1 & HL2). exists s2. split; [done|]. cbn.
        rewrite (without_id n d); [|apply N1]. split; [done|].
        intros t' n' H'. by apply (frame_has _ _ Hf), Hhas.
      + destruct (tail_lists _ _ _ true _ _ HL1 Hx1 Ht) as (s2 & Hs2 & Hf & N1 & HL2). exists s2. split; [done|]. cbn.
        rewrite (without_id n c); [|intros Hc; by eapply (ls_disj _ _ _ HL)]. split; [done|].
        intros t' n' H'. by apply (frame_has _ _ Hf), Hhas.
    - (* Evicted *) specialize (Hev s HL Hh). specialize (Hfd eq_refl). 
      destruct (decide (n ∈ c ∨ n ∈ d)); [rewrite decide_True; [exact Hev|by apply Hfd]|rewrite decide_False; [exact Hev|naive_solver]].
    - (* Discarded *) pose proof Hh as ((T0 & HT0 & _) & Hn0 & _).
      destruct (place_aloof t n s) as (s1 & Hs1 & Ha & Hn); [by eexists|done|].
      pose proof (aloof_has _ _ Ha Hn) as Hhas. destruct Ha as (Ac & Aca & _).
      assert (lists s1 c d) as HL1. { eapply lists_ext; [done|done|]. by rewrite Aca. }
      specialize (Hev s1 HL1 (Hhas _ _ Hh)). unfold markNodeToBeDiscarded, bind; cbn [run]. rewrite Hs1. specialize (Hfd eq_refl).
      destruct (decide (n ∈ c ∨ n ∈ d)); [rewrite decide_True; [|by apply Hfd]|rewrite decide_False; [exact Hev|naive_solver]].
      destruct Hev as (s' & ? & ? & Hk). exists s'. split_and!; [done..|]. intros t' n' H'. by apply Hk, Hhas.
  Qed.

  (** any sequence of updates *)
  Notation update := (mark * tid * nid)%type.
  Fixpoint do_marks (us : list update) : M unit :=
    match us with [] => ret tt | (m, t, n) :: us => bind (do_mark m t n) (λ _ : unit, do_marks us) end.
  Fixpoint markeds (cd : list nid * list nid) (us : list update) : list nid * list nid :=
    match us with [] => cd | (m, t, n) :: us => markeds (marked cd m n) us end.
  Fixpoint founds (cd : list nid * list nid) (us : list update) : Prop :=
    match us with [] => True | (m, t, n) :: us => found m cd n ∧ founds (marked cd m n) us end.
  Theorem marks_run us : ∀ s c d, lists s c d → Forall (λ u, has s u.1.2 u.2) us →
    (founds (c, d) us → ∃ s', do_marks us s = ORet tt s' ∧ lists s' (markeds (c, d) us).1 (markeds (c, d) us).2) ∧
    (¬ founds (c, d) us → ∃ s', do_marks us s = OStop Panic s').
  Proof.
    induction us as [|[[m t] n] us IH]; intros s c d HL Hh; cbn [do_marks markeds founds].
    - split; [by eexists|naive_solver].
    - apply Forall_cons in Hh as [Hh Hhs]. cbn in Hh. pose proof (mark_run m t n s c d HL Hh) as HM. case_decide as Hf.
      + destruct HM as (s1 & Hs1 & HL1 & Hk). unfold bind; cbn [run]. rewrite Hs1. destruct (marked (c, d) m n) as [c1 d1].
        destruct (IH s1 c1 d1 HL1) as [H1 H2]. { eapply Forall_impl; [exact Hhs|]. intros u Hu. by apply Hk. }
        split; [intros [_ HX]; by apply H1|]. intros HX. apply H2. naive_solver.
      + destruct HM as (s1 & Hs1). unfold bind; cbn [run]. rewrite Hs1. split; [naive_solver|]. intros _. by eexists.
  Qed.
  (** ** Least recently used first *)
  (** the last update of [b] comes after the last update of [a] *)
  Definition later (us : list update) (a b : nid) : Prop :=
    ∃ us1 u us2, us = us1 ++ u :: us2 ∧ u.2 = b ∧ a ≠ b ∧ a ∉ us2.*2.
  Fixpoint ord (R : nid → nid → Prop) L : Prop :=
    match L with [] => True | a :: L => Forall (R a) L ∧ ord R L end.
  Lemma ord_at R L : ord R L → ∀ i j a b, (i < j)%nat → L !! i = Some a → L !! j = Some b → R a b.
  Proof.
    induction L as [|x L IH]; intros HL i j a b Hij Hi Hj; [done|]. destruct HL as [H1 H2]. destruct j as [|j]; [lia|]. cbn in Hj.
    destruct i as [|i]; cbn in Hi.
    - injection Hi as <-. rewrite Forall_forall in H1. apply H1. by eapply elem_of_list_lookup_2.
    - eapply (IH H2 i j); [lia|done|done].
  Qed.
  Lemma ord_snoc R L x : ord R L → Forall (λ a, R a x) L → ord R (L ++ [x]).
  Proof.
    induction L as [|y L IH]; cbn; [by repeat constructor|]. intros [H1 H2] [H3 H4]%Forall_cons. split; [|by apply IH].
    apply Forall_app. split; [done|]. by constructor.
  Qed.
  Lemma ord_without (R R' : nid → nid → Prop) n L : (∀ a b, a ≠ n → R a b → R' a b) → ord R L → ord R' (without n L).
  Proof.
    intros HR. induction L as [|y L IH]; [done|]. intros [H1 H2]. unfold without. rewrite filter_cons. case_decide as Hy; [|by apply IH].
    split; [|by apply IH]. apply Forall_forall. intros b Hb. apply elem_of_list_filter in Hb as [_ Hb]. rewrite Forall_forall in H1. by apply HR, H1.
  Qed.
  Lemma ord_away (R R' : nid → nid → Prop) n L : (∀ a b, a ≠ n → R a b → R' a b) → n ∉ L → ord R L → ord R' L.
  Proof. intros HR Hn H. rewrite -(without_id n L Hn). by eapply ord_without. Qed.
  Lemma markeds_snoc us cd m t n : markeds cd (us ++ [(m, t, n)]) = marked (markeds cd us) m n.
  Proof. revert cd. induction us as [|[[m' t'] n'] us IH]; intros cd; [done|]. cbn. apply IH. Qed.
  Theorem markeds_order us : ord (later us) (markeds ([], []) us).1 ∧ ord (later us) (markeds ([], []) us).2.
  Proof.
    induction us as [|[[m t] n] us [IHc IHd]] using rev_ind; [done|]. rewrite markeds_snoc. destruct (markeds ([], []) us) as [c d]. cbn in IHc, IHd.
    assert (∀ a b, a ≠ n → later us a b → later (us ++ [(m, t, n)]) a b) as HR.
    { intros a b Ha (us1 & u & us2 & -> & H1 & H2 & H3). exists us1, u, (us2 ++ [(m, t, n)]). rewrite -app_assoc. split_and!; try done.
      rewrite fmap_app. set_solver. }
    assert (∀ a, a ≠ n → later (us ++ [(m, t, n)]) a n) as Hl.
    { intros a Ha. exists us, (m, t, n), []. split_and!; try done. cbn. apply not_elem_of_nil. }
    assert (∀ L, ord (later us) L → ord (later (us ++ [(m, t, n)])) (without n L)) as Hw by (intros L; by apply ord_without).
    assert (∀ L, ord (later us) L → ord (later (us ++ [(m, t, n)])) (without n L ++ [n])) as Hws.
    { intros L HL. apply ord_snoc; [by apply Hw|]. apply Forall_forall. intros a Ha. apply elem_of_list_filter in Ha as [Ha _]. by apply Hl. }
    destruct m; cbn [marked].
    - cbn. split; case_bool_decide; auto; by eapply ord_away.
    - cbn. auto.
    - cbn. auto.
    - cbn. auto.
    - cbn. auto.
  Qed.
End cache.

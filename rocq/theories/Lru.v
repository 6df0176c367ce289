(** * The clean and dirty LRU lists of the node cache

    Proofs about [lruAppend], [lruToTail], [lruTake], [lruGive] and
    [lruRemove] of BTree.v (btree.go:2014-2430): the pointers of the cache
    elements always form two disjoint doubly linked lists. *)
From Coq Require Import ssreflect.
From stdpp Require Import prelude list gmap.
From Verif Require Import Spec Llrb BTree.
Open Scope Z_scope.

Definition hd_or (L : list nid) (o : option nid) : option nid := match L with [] => o | m :: _ => Some m end.
(** [seg cs d p L nx]: the cells of [L] are linked in that order, all with the
    tag of list [d]; the first points back to [p], the last forward to [nx] *)
Fixpoint seg (cs : gmap nid cell) (d : bool) (p : option nid) (L : list nid) (nx : option nid) : Prop :=
  match L with
  | [] => True
  | n :: L => cs !! n = Some (Cell (side d) (hd_or L nx) p)
              ∧ seg cs d (Some n) L nx
  end.
Definition last_or (p : option nid) (L : list nid) : option nid := match last L with Some m => Some m | None => p end.

Lemma last_or_snoc p L n : last_or p (L ++ [n]) = Some n.
Proof. unfold last_or. by rewrite last_snoc. Qed.
Lemma last_or_None L : last_or None L = last L.
Proof. unfold last_or. by destruct (last L). Qed.
Lemma seg_app cs d L1 L2 : ∀ p nx,
  seg cs d p (L1 ++ L2) nx ↔ seg cs d p L1 (hd_or L2 nx) ∧ seg cs d (last_or p L1) L2 nx.
Proof.
  induction L1 as [|n L1 IH]; intros p nx; cbn; [tauto|].
  rewrite IH. replace (last_or (Some n) L1) with (last_or p (n :: L1)); last first.
  { unfold last_or. destruct L1 as [|a L1]; [done|]. rewrite last_cons_cons.
    destruct (last (a :: L1)) eqn:E; [done|]. by apply last_None in E. }
  destruct L1; cbn; tauto.
Qed.
Lemma seg_insert cs d L n c : n ∉ L → ∀ p nx, seg (<[n := c]> cs) d p L nx ↔ seg cs d p L nx.
Proof.
  induction L as [|m L IH]; intros Hn p nx; cbn; [done|].
  apply not_elem_of_cons in Hn as [Hne Hn]. rewrite IH // lookup_insert_ne //.
Qed.
Lemma seg_lookup cs d L n : ∀ p nx, seg cs d p L nx → n ∈ L → ∃ c, cs !! n = Some c ∧ ctg c = side d.
Proof.
  induction L as [|m L IH]; intros p nx; [by intros _ ?%elem_of_nil|].
  cbn. intros [? ?] [->|?]%elem_of_cons; eauto.
Qed.

(** remove from a list *)
Definition rm (n : nid) (L : list nid) : list nid := filter (λ m, m ≠ n) L.
Lemma rm_not_in n L : n ∉ L → rm n L = L.
Proof.
  intros H. induction L as [|m L IH]; [done|]. apply not_elem_of_cons in H as [??].
  unfold rm in *. rewrite filter_cons_True; [done|]. by rewrite IH.
Qed.
Lemma rm_mid n L1 L2 : n ∉ L1 → n ∉ L2 → rm n (L1 ++ n :: L2) = L1 ++ L2.
Proof.
  intros H1 H2. apply rm_not_in in H1, H2. unfold rm in *.
  rewrite filter_app filter_cons_False; [tauto|]. by rewrite H1 H2.
Qed.
Lemma elem_of_rm n L m : m ∈ rm n L ↔ m ≠ n ∧ m ∈ L.
Proof. unfold rm. by rewrite elem_of_list_filter. Qed.

Section lru.
  Context {K V : Type}.
  Implicit Types s : st K V.

  (** [L false] is the clean list, [L true] the dirty list, least recently
      used first *)
  Record lruX s (L : bool → list nid) (ex : nid → Prop) : Prop := {
    lru_head d : qhead (qof d (cache s)) = head (L d);
    lru_tail d : qtail (qof d (cache s)) = last (L d);
    lru_items d : qitems (qof d (cache s)) = Z.of_nat (length (L d));
    lru_seg d : seg (cells s) d None (L d) None;
    lru_nodup d : NoDup (L d);
    lru_disj d m : m ∈ L d → m ∉ L (negb d);
    lru_none m c : cells s !! m = Some c → m ∉ L false → m ∉ L true → ¬ ex m → c = Cell noLRU None None;
  }.
  (** [lruX]: except for the pointers of [ex] nodes, which are on no list *)
  Definition lru s L := lruX s L (λ _, False).

  (** [s'] differs from [s] only in the list pointers and the list heads *)
  Definition lru_frame s s' : Prop :=
    ∃ cs c, s' = set_cells cs (set_cache c s) ∧ dom cs = dom (cells s) ∧
      c_low c = c_low (cache s) ∧ c_high c = c_high (cache s) ∧ c_drainer c = c_drainer (cache s) ∧
      c_hits c = c_hits (cache s) ∧ c_misses c = c_misses (cache s).

  Lemma qof_setq d q c : qof d (setq d q c) = q.
  Proof. by destruct d. Qed.
  Lemma qof_setq_ne d q c : qof (negb d) (setq d q c) = qof (negb d) c.
  Proof. by destruct d. Qed.
  Lemma setq_setq d q q' c : setq d q (setq d q' c) = setq d q c.
  Proof. by destruct d. Qed.
  Lemma setq_misc d q c : c_low (setq d q c) = c_low c ∧ c_high (setq d q c) = c_high c ∧
    c_drainer (setq d q c) = c_drainer c ∧ c_hits (setq d q c) = c_hits c ∧ c_misses (setq d q c) = c_misses c.
  Proof. by destruct d. Qed.

  Lemma alter_insert_eq (cs : gmap nid cell) g a c : cs !! a = Some c → alter g a cs = <[a := g c]> cs.
  Proof.
    intros H. apply map_eq. intros i. destruct (decide (i = a)) as [->|].
    - by rewrite lookup_alter H lookup_insert.
    - by rewrite lookup_alter_ne // lookup_insert_ne.
  Qed.
  (** execution, one primitive at a time *)
  Lemma getQ_step {B} d (f : lruq → M K V B) s : bind (getQ d) f s = f (qof d (cache s)) s.
  Proof. done. Qed.
  Lemma modQ_end d g s : modQ d g s = ORet tt (set_cache (setq d (g (qof d (cache s))) (cache s)) s).
  Proof. done. Qed.
  Lemma modQ_step {B} d g (f : unit → M K V B) s :
    bind (modQ d g) f s = f tt (set_cache (setq d (g (qof d (cache s))) (cache s)) s).
  Proof. done. Qed.
  Lemma getC_step {B} n c (f : cell → M K V B) s : cells s !! n = Some c → bind (getC n) f s = f c s.
  Proof. intros H. cbn. by rewrite H. Qed.
  Lemma modC_end n g s c : cells s !! n = Some c →
    modC n g s = ORet tt (set_cells (<[n := g c]> (cells s)) s).
  Proof. intros H. cbn. by rewrite H. Qed.
  Lemma modC_step {B} n g c (f : unit → M K V B) s : cells s !! n = Some c →
    bind (modC n g) f s = f tt (set_cells (<[n := g c]> (cells s)) s).
  Proof. intros H. cbn. by rewrite H. Qed.
  Lemma putNext_end p o n s c : p = Some n → cells s !! n = Some c →
    putNext p o s = ORet tt (set_cells (<[n := setNext o c]> (cells s)) s).
  Proof. intros -> H. cbn. by rewrite H. Qed.
  Lemma putNext_step {B} p o n c (f : unit → M K V B) s : p = Some n → cells s !! n = Some c →
    bind (putNext p o) f s = f tt (set_cells (<[n := setNext o c]> (cells s)) s).
  Proof. intros -> H. cbn. by rewrite H. Qed.
  Lemma putPrev_step {B} p o n c (f : unit → M K V B) s : p = Some n → cells s !! n = Some c →
    bind (putPrev p o) f s = f tt (set_cells (<[n := setPrev o c]> (cells s)) s).
  Proof. intros -> H. cbn. by rewrite H. Qed.

  Lemma set_cache_cache x y s : set_cache x (set_cache y s) = set_cache x s.
  Proof. done. Qed.
  Lemma set_cells_cells x y s : set_cells x (set_cells y s) = set_cells x s.
  Proof. done. Qed.
  Lemma set_cache_cells x y s : set_cache x (set_cells y s) = set_cells y (set_cache x s).
  Proof. done. Qed.
  Local Ltac look := cbn [cells cache set_cells set_cache];
    repeat first [rewrite lookup_insert | rewrite lookup_insert_ne; [by auto|]]; (done || eassumption).
  Local Ltac tidy := cbn [cells cache set_cells set_cache]; rewrite ?qof_setq ?qof_setq_ne ?setq_setq ?set_cache_cells ?set_cells_cells ?set_cache_cache;
    cbn [qhead qtail qitems setHead setTail setItems decItems incItems setNext setPrev setTag ctg cnext cprev].
  Local Ltac step :=
    first [ rewrite getQ_step | rewrite modQ_step | rewrite modQ_end
          | erewrite getC_step; [|look] | erewrite modC_step; [|look] | erewrite modC_end; [|look]
          | erewrite putNext_step; [|tidy; by eauto|look] | erewrite putPrev_step; [|tidy; by eauto|look]
          | erewrite putNext_end; [|tidy; by eauto|look] ]; tidy.

  (** goals about [seg] after an operation *)
  Local Ltac segs :=
    rewrite ?seg_app; cbn [seg hd_or app head last]; rewrite ?last_or_snoc;
    split_and?; try done;
    match goal with
    | |- _ !! _ = Some _ =>
        repeat first [rewrite lookup_insert | rewrite lookup_insert_ne; [by auto|]];
        cbv [setNext setPrev setTag ctg cnext cprev]; rewrite ?last_or_None; try done
    | |- seg _ _ _ _ _ => repeat (apply seg_insert; [by auto|]); try done
    end.

  (** rebuild the invariant after an operation on list [d] *)
  Lemma lru_intro s L d cs' q' X ex ex' : lruX s L ex →
    dom cs' = dom (cells s) →
    qhead q' = head X → qtail q' = last X → qitems q' = Z.of_nat (length X) →
    seg cs' d None X None → NoDup X → (∀ m, m ∈ X → m ∉ L (negb d)) →
    seg cs' (negb d) None (L (negb d)) None →
    (∀ m c, cs' !! m = Some c → m ∉ X → m ∉ L (negb d) → ¬ ex' m → c = Cell noLRU None None) →
    let s' := set_cells cs' (set_cache (setq d q' (cache s)) s) in
    lru_frame s s' ∧ ∃ L', lruX s' L' ex' ∧ L' d = X ∧ L' (negb d) = L (negb d).
  Proof.
    intros HL Hdom H1 H2 H3 H4 H5 H6 H7 H8 s'. split.
    { exists cs', (setq d q' (cache s)). split_and!; try done; by destruct d. }
    exists (λ b, if eqb b d then X else L b).
    assert (eqb (negb d) d = false) as He by by destruct d.
    split_and!; [|by rewrite eqb_reflx|by rewrite He].
    split.
    - intros d'. destruct (decide (d' = d)) as [->|Hne].
      + rewrite eqb_reflx /s' /= qof_setq //.
      + assert (d' = negb d) as -> by by destruct d, d'. rewrite He /s' /= qof_setq_ne. apply HL.
    - intros d'. destruct (decide (d' = d)) as [->|Hne].
      + rewrite eqb_reflx /s' /= qof_setq //.
      + assert (d' = negb d) as -> by by destruct d, d'. rewrite He /s' /= qof_setq_ne. apply HL.
    - intros d'. destruct (decide (d' = d)) as [->|Hne].
      + rewrite eqb_reflx /s' /= qof_setq //.
      + assert (d' = negb d) as -> by by destruct d, d'. rewrite He /s' /= qof_setq_ne. apply HL.
    - intros d'. destruct (decide (d' = d)) as [->|Hne].
      + rewrite eqb_reflx //.
      + assert (d' = negb d) as -> by by destruct d, d'. rewrite He //.
    - intros d'. destruct (decide (d' = d)) as [->|Hne].
      + rewrite eqb_reflx //.
      + assert (d' = negb d) as -> by by destruct d, d'. rewrite He. apply HL.
    - intros d' m. destruct (decide (d' = d)) as [->|Hne].
      + rewrite eqb_reflx He. apply H6.
      + assert (d' = negb d) as -> by by destruct d, d'. rewrite He negb_involutive eqb_reflx.
        intros Hm HX. by apply (H6 m).
    - intros m c Hc. simpl in Hc. destruct d; simpl; intros; by eapply H8.
  Qed.

  Lemma lru_none' s L ex d m c : lruX s L ex → cells s !! m = Some c →
    m ∉ L d → m ∉ L (negb d) → ¬ ex m → c = Cell noLRU None None.
  Proof. intros HL Hc H1 H2. destruct d; by eapply (lru_none _ _ _ HL). Qed.

  Lemma lru_cell s L ex d n L1 L2 : lruX s L ex → L d = L1 ++ n :: L2 →
    cells s !! n = Some (Cell (side d) (head L2) (last L1)) ∧ n ∉ L1 ∧ n ∉ L2 ∧ n ∉ L (negb d)
    ∧ NoDup (L1 ++ L2) ∧ seg (cells s) d None L1 (Some n) ∧ seg (cells s) d (Some n) L2 None.
  Proof.
    intros HL Heq. pose proof (lru_seg _ _ _ HL d) as Hs. rewrite Heq in Hs.
    apply seg_app in Hs as [Hs1 [Hc Hs2]].
    pose proof (lru_nodup _ _ _ HL d) as Hnd. rewrite Heq in Hnd.
    apply NoDup_app in Hnd as (Hnd1 & Hnd2 & Hnd3). apply NoDup_cons in Hnd3 as [Hn2 Hnd3].
    split_and!.
    - rewrite Hc. unfold last_or. by destruct L2, (last L1).
    - intros H. apply (Hnd2 n H). by left.
    - done.
    - apply (lru_disj _ _ _ HL). rewrite Heq. set_solver.
    - apply NoDup_app. split_and!; [done| |done]. intros x Hx Hx2. apply (Hnd2 x Hx). by right.
    - done.
    - done.
  Qed.

  Local Ltac domok := rewrite ?dom_insert_L; try done;
    repeat match goal with H : cells _ !! _ = Some _ |- _ => apply elem_of_dom_2 in H end; set_solver.

  (** add a node at the end: shared by lruAppend and lruGive *)
  Lemma lru_snoc s L ex d n (cs' : gmap nid cell) q' c0 : lruX s L ex →
    n ∉ L d → n ∉ L (negb d) → (∀ m, ex m → m = n) →
    cells s !! n = Some c0 →
    cs' = <[n := Cell (side d) None (last (L d))]>
            (match last (L d) with Some a => alter (setNext (Some n)) a (cells s) | None => cells s end) →
    qhead q' = head (L d ++ [n]) → qtail q' = Some n → qitems q' = Z.of_nat (length (L d) + 1) →
    let s' := set_cells cs' (set_cache (setq d q' (cache s)) s) in
    lru_frame s s' ∧ ∃ L', lru s' L' ∧ L' d = L d ++ [n] ∧ L' (negb d) = L (negb d).
  Proof.
    intros HL Hd Hd' Hex Hc0 -> Hqh Hqt Hqi.
    pose proof (lru_seg _ _ _ HL d) as Hs. pose proof (lru_nodup _ _ _ HL d) as Hnd.
    pose proof (lru_disj _ _ _ HL d) as Hdj. pose proof (λ m c, lru_none' _ _ _ d m c HL) as Hno.
    apply (lru_intro _ _ _ _ _ _ ex); try done.
    - destruct (last (L d)) as [a|] eqn:Hla.
      + rewrite dom_insert_L dom_alter_L. apply elem_of_dom_2 in Hc0. set_solver.
      + rewrite dom_insert_L. apply elem_of_dom_2 in Hc0. set_solver.
    - by rewrite last_snoc.
    - by rewrite app_length.
    - destruct (last (L d)) as [a|] eqn:Hla.
      + apply last_Some in Hla as [L1 Hla].
        destruct (lru_cell _ _ _ _ _ _ _ HL Hla) as (Hca & Ha1 & _ & Ha3 & Hnd' & Hs1 & _).
        rewrite Hla in Hd. apply not_elem_of_app in Hd as [Hd1 Hd2].
        assert (n ≠ a) as Hna by set_solver. rewrite Hla.
        rewrite (alter_insert_eq _ _ _ _ Hca).
        segs.
      + apply last_None in Hla. rewrite Hla /=. split; [|done]. by rewrite lookup_insert.
    - apply NoDup_app. split_and!; [done|set_solver|apply NoDup_singleton].
    - intros m [Hm| ->%elem_of_list_singleton]%elem_of_app; [|done]. by apply Hdj.
    - apply seg_insert; [done|]. destruct (last (L d)) as [a|] eqn:Hla; [|apply HL].
      apply last_Some in Hla as [L1 Hla].
      destruct (lru_cell _ _ _ _ _ _ _ HL Hla) as (Hca & Ha1 & _ & Ha3 & Hnd' & Hs1 & _).
      rewrite (alter_insert_eq _ _ _ _ Hca). apply seg_insert; [done|]. apply HL.
    - intros m c. destruct (decide (m = n)) as [->|Hne]; [set_solver|].
      rewrite lookup_insert_ne //. intros Hc Hm Hm' _.
      apply not_elem_of_app in Hm as [Hm _].
      apply (Hno m); [|done|done|naive_solver].
      destruct (last (L d)) as [a|] eqn:Hla; [|done].
      apply last_Some in Hla as [L1 Hla]. rewrite lookup_alter_ne // in Hc. intros ->. apply Hm. rewrite Hla. apply elem_of_app. right. by left.
  Qed.

  Lemma lruAppend_spec s L d n : lru s L → cells s !! n = Some (Cell noLRU None None) →
    n ∉ L d → n ∉ L (negb d) →
    ∃ s', lruAppend d n s = ORet tt s' ∧ lru_frame s s' ∧
      ∃ L', lru s' L' ∧ L' d = L d ++ [n] ∧ L' (negb d) = L (negb d).
  Proof.
    intros HL Hn Hd Hd'.
    pose proof (lru_items _ _ _ HL d) as Hi.
    pose proof (lru_head _ _ _ HL d) as Hh. pose proof (lru_tail _ _ _ HL d) as Htl.
    unfold lruAppend. step. rewrite Hi.
    destruct (last (L d)) as [a|] eqn:Hla.
    - assert (n ≠ a) as Hna. { apply last_Some in Hla as [L1 Hla]. intros ->. apply Hd. rewrite Hla. apply elem_of_app. right. by left. }
      assert (∃ ca, cells s !! a = Some ca) as [ca Hca].
      { apply last_Some in Hla as [L1 Hla]. apply (lru_cell _ _ _ _ _ _ _ HL) in Hla as (Hca & _). by eauto. }
      assert (length (L d) ≠ 0%nat) as Hlen by by destruct (L d).
      destruct (Z.eqb_spec (Z.of_nat (length (L d))) 0); [lia|].
      rewrite Htl. repeat step. eexists. split; [done|].
      eapply lru_snoc; try done.
      + rewrite Hla (alter_insert_eq _ _ _ _ Hca) (insert_commute _ a n) // insert_insert //.
      + rewrite /= Hh. by destruct (L d).
      + rewrite /= Hi. lia.
    - apply last_None in Hla.
      destruct (Z.eqb_spec (Z.of_nat (length (L d))) 0) as [_|Hx]; [|by rewrite Hla in Hx].
      repeat step. eexists. split; [done|].
      eapply lru_snoc; try done; rewrite ?Hla //.
  Qed.

  Lemma seg_cons cs d p n L nx : seg cs d p (n :: L) nx ↔
    cs !! n = Some (Cell (side d) (hd_or L nx) p) ∧ seg cs d (Some n) L nx.
  Proof. done. Qed.
  Lemma hd_or_cons x X nx : hd_or (x :: X) nx = Some x.
  Proof. done. Qed.
  Lemma hd_or_nil nx : hd_or [] nx = nx.
  Proof. done. Qed.
  Lemma hd_or_app L x X nx : hd_or (L ++ x :: X) nx = hd_or L (Some x).
  Proof. by destruct L. Qed.
  Lemma NoDup_mid {A} (l1 l2 : list A) x : NoDup (l1 ++ x :: l2) → x ∉ l1 ∧ x ∉ l2 ∧ NoDup l1 ∧ NoDup l2.
  Proof.
    intros (H1 & H2 & H3)%NoDup_app. apply NoDup_cons in H3 as [H3 H4]. split_and!; try done.
    intros Hx. apply (H2 x Hx). by left.
  Qed.
  Lemma NoDup_cross {A} (l1 l2 : list A) x : NoDup (l1 ++ l2) → x ∈ l2 → x ∉ l1.
  Proof. intros (H1 & H2 & H3)%NoDup_app Hx Hx'. by apply (H2 x). Qed.
  Local Ltac nes := repeat match goal with
    | H : _ ∉ _ ++ _ |- _ => apply not_elem_of_app in H as (? & ?)
    | H : _ ∉ _ :: _ |- _ => apply not_elem_of_cons in H as (? & ?)
    | H : ?x ∉ [] |- _ => clear H
    | H : seg _ _ _ (_ ++ _) _ |- _ => apply seg_app in H as (? & ?)
    | H : seg _ _ _ (_ :: _) _ |- _ => apply seg_cons in H as (? & ?)
    end; cbn [app head last] in *;
    repeat match goal with
    | H : context [last_or _ (_ ++ [_])] |- _ => rewrite last_or_snoc in H
    | H : context [last_or None _] |- _ => rewrite last_or_None in H
    | H : context [hd_or (_ ++ _ :: _) _] |- _ => rewrite hd_or_app in H
    | H : context [hd_or (_ :: _) _] |- _ => rewrite hd_or_cons in H
    | H : context [hd_or [] _] |- _ => rewrite hd_or_nil in H
    | H : context [last (_ ++ [_])] |- _ => rewrite last_snoc in H
    | H : context [last (_ :: _ ++ [_])] |- _ => rewrite app_comm_cons last_snoc in H
    end.

  (** positions of the neighbours [a], [b] and of the tail [z] *)
  Lemma snoc_case (L : list nid) : L = [] ∨ ∃ l a, L = l ++ [a].
  Proof. destruct L as [|x L _] using rev_ind; eauto. Qed.

  (** what remains to be shown after an operation on the list [L1 ++ n :: L2] *)
  Lemma lru_intro2 s L ex ex' d n L1 L2 cs' q' X : lruX s L ex → L d = L1 ++ n :: L2 →
    dom cs' = dom (cells s) → 
    (∀ m, m ∉ L1 → m ∉ L2 → m ≠ n → cs' !! m = cells s !! m) →
    qhead q' = head X → qtail q' = last X → qitems q' = Z.of_nat (length X) →
    seg cs' d None X None → X ≡ₚ L1 ++ L2 ++ [n] ∨ (X ≡ₚ L1 ++ L2 ∧ (ex' n ∨ cs' !! n = Some (Cell noLRU None None))) →
    (∀ m, ex m → ex' m) →
    let s' := set_cells cs' (set_cache (setq d q' (cache s)) s) in
    lru_frame s s' ∧ ∃ L', lruX s' L' ex' ∧ L' d = X ∧ L' (negb d) = L (negb d).
  Proof.
    intros HL Heq Hdom Hcs Hqh Hqt Hqi Hs HX Hex s'.
    pose proof (lru_disj _ _ _ HL d) as Hdj. pose proof (lru_nodup _ _ _ HL d) as Hnd. rewrite Heq in Hnd.
    assert (∀ m, m ∈ X → m ∈ L d) as HXL.
    { intros m Hm. rewrite Heq. destruct HX as [->|[-> _]] in Hm; rewrite !elem_of_app ?elem_of_cons in Hm |- *; try set_solver. }
    eapply lru_intro; try done.
    - assert (NoDup (L1 ++ L2 ++ [n])) as Hnd'.
      { assert (L1 ++ L2 ++ [n] ≡ₚ L1 ++ n :: L2) as -> by by rewrite (Permutation_app_comm L2 [n]). done. }
      destruct HX as [->|[-> _]]; [done|]. rewrite app_assoc in Hnd'. by apply NoDup_app in Hnd' as [? _].
    - intros m Hm. by apply Hdj, HXL.
    - assert (∀ p l nx, (∀ m, m ∈ l → m ∈ L (negb d)) → seg (cells s) (negb d) p l nx → seg cs' (negb d) p l nx) as Hseg.
      { intros p l. revert p. induction l as [|m l IH]; intros p nx Hl; [done|]. cbn. intros [Hc Hr]. split.
        - rewrite Hcs //.
          all: intros Hm; apply (Hdj m); [rewrite Heq|apply Hl; by left]; set_solver.
        - apply IH; [|done]. intros m' ?. apply Hl. by right. }
      apply Hseg; [done|]. apply HL.
    - intros m c Hc Hm Hm' He.
      destruct (decide (m = n)) as [->|Hne].
      { destruct HX as [Hp|[_ [?|?]]]; [|done|congruence]. exfalso. apply Hm. rewrite Hp. set_solver. }
      assert (m ∉ L1 ∧ m ∉ L2) as [Hm1 Hm2].
      { destruct HX as [Hp|[Hp _]]; rewrite Hp in Hm; set_solver. }
      rewrite Hcs // in Hc. eapply (lru_none' _ _ _ d _ _ HL); [done| |done|naive_solver].
      rewrite Heq. set_solver.
  Qed.

  Local Ltac segs2 :=
    repeat (rewrite -app_comm_cons || rewrite -app_assoc);
    repeat (rewrite seg_app || rewrite seg_cons);
    cbn [app]; rewrite ?hd_or_app ?hd_or_cons ?hd_or_nil ?last_or_snoc ?last_or_None;
    split_and?; try done;
    match goal with
    | |- _ !! _ = Some _ =>
        repeat first [rewrite lookup_insert | rewrite lookup_insert_ne; [by auto|]];
        cbv [setNext setPrev setTag ctg cnext cprev]; rewrite ?last_or_None; try done
    | |- seg _ _ _ _ _ => repeat (apply seg_insert; [by auto|]); try done
    end.
  Local Ltac others := intros ? ? ? ?; cbn; nes; repeat (rewrite lookup_insert_ne; [by auto|]); done.
  Local Ltac lens := repeat (cbn [length app] || rewrite app_length); lia.
  Local Ltac fin HL Heq n A B X :=
    eexists; split; [done|];
    eapply (lru_intro2 _ _ _ _ _ n A B _ _ X HL Heq);
    [domok|others|try done..].
  Lemma lruToTail_spec s L d n L1 L2 : lru s L → L d = L1 ++ n :: L2 →
    ∃ s', lruToTail d n s = ORet tt s' ∧ lru_frame s s' ∧
      ∃ L', lru s' L' ∧ L' d = L1 ++ L2 ++ [n] ∧ L' (negb d) = L (negb d).
  Proof.
    intros HL Heq.
    pose proof (lru_items _ _ _ HL d) as Hi. pose proof (lru_head _ _ _ HL d) as Hh.
    pose proof (lru_tail _ _ _ HL d) as Htl. rewrite Heq in Htl Hh Hi.
    pose proof (lru_nodup _ _ _ HL d) as Hnd. rewrite Heq in Hnd.
    destruct (lru_cell _ _ _ _ _ _ _ HL Heq) as (Hc & Hn1 & Hn2 & Hn3 & _ & Hs1 & Hs2).
    rewrite last_app /= in Htl.
    unfold lruToTail. step.
    destruct L2 as [|b L2].
    { simpl in Htl. rewrite Htl. destruct (decide (Some n = Some n)); [|done]. eexists. split; [done|].
      split. { exists (cells s), (cache s). by destruct s. }
      exists L. rewrite Heq. done. }
    destruct (snoc_case L1) as [->|(Lp & a & ->)]; destruct (snoc_case L2) as [->|(Lm & z & ->)].
    - nes. rewrite Htl. destruct (decide (Some b = Some n)); [congruence|].
      repeat step. rewrite Hh. destruct (decide _); [|done]. repeat step. 
      fin HL Heq n ([] : list nid) [b] [b; n].
      + cbn. segs.
      + by left.
    - assert (b ∉ Lm ∧ b ≠ z ∧ z ∉ Lm) as (?&?&?).
      { apply NoDup_cons in Hnd as [_ Hnd]. apply NoDup_cons in Hnd as [? Hnd]. apply NoDup_mid in Hnd as (?&?&?&?). nes. done. }
      nes. rewrite Htl. destruct (decide (Some z = Some n)); [congruence|].
      repeat step. rewrite Hh. destruct (decide _); [|done]. repeat step. 
      fin HL Heq n ([] : list nid) (b :: Lm ++ [z]) ((b :: Lm ++ [z]) ++ [n]).
      + by rewrite last_snoc.
      + rewrite /= Hi. lens.
      + segs2.
      + by left.
    - assert (a ∉ Lp ∧ a ≠ b ∧ b ∉ Lp) as (?&?&?).
      { rewrite -!app_assoc /= in Hnd.
        assert (b ∉ Lp) by (eapply NoDup_cross; [done|set_solver +]).
        apply NoDup_mid in Hnd as (?&?&?&?). nes. done. }
      assert (Some n ≠ head ((Lp ++ [a]) ++ [n; b])) by (nes; destruct Lp; cbn; nes; congruence).
      nes. rewrite Htl. destruct (decide (Some b = Some n)); [congruence|].
      repeat step. rewrite Hh. destruct (decide _); [done|]. repeat step.
      fin HL Heq n (Lp ++ [a]) [b] ((Lp ++ [a]) ++ [b; n]).
      + rewrite /= Hh. by destruct Lp.
      + by rewrite last_app.
      + rewrite /= Hi. lens.
      + segs2.
      + by left.
    - assert (a ∉ Lp ∧ a ≠ b ∧ b ∉ Lp ∧ a ∉ Lm ∧ a ≠ z ∧ z ∉ Lp ∧ b ∉ Lm ∧ b ≠ z ∧ z ∉ Lm) as (?&?&?&?&?&?&?&?&?).
      { rewrite -!app_assoc /= in Hnd.
        assert (b ∉ Lp) by (eapply NoDup_cross; [done|set_solver +]).
        assert (z ∉ Lp) by (eapply NoDup_cross; [done|set_solver +]).
        apply NoDup_mid in Hnd as (?&?&?&Hnd). 
        apply NoDup_cons in Hnd as [_ Hnd]. apply NoDup_cons in Hnd as [? Hnd]. apply NoDup_mid in Hnd as (?&?&?&?).
        nes. done. }
      assert (Some n ≠ head ((Lp ++ [a]) ++ n :: b :: Lm ++ [z])) by (nes; destruct Lp; cbn; nes; congruence).
      nes. rewrite Htl. destruct (decide (Some z = Some n)); [congruence|].
      repeat step. rewrite Hh. destruct (decide _); [done|]. repeat step.
      fin HL Heq n (Lp ++ [a]) (b :: Lm ++ [z]) ((Lp ++ [a]) ++ (b :: Lm ++ [z]) ++ [n]).
      + rewrite /= Hh. by destruct Lp.
      + by rewrite app_assoc last_snoc.
      + rewrite /= Hi. lens.
      + segs2.
      + by left.
  Qed.

  Lemma cells_id c s : set_cache c s = set_cells (cells s) (set_cache c s).
  Proof. by destruct s. Qed.
  Local Ltac fin2 HL Heq n A B X :=
    eapply (lru_intro2 _ _ _ _ _ n A B _ _ X HL Heq);
    [domok|others|try done..].
  Lemma last_ne (n b : nid) L o : n ≠ b → n ∉ L → Some n ≠ match last (b :: L) with Some y => Some y | None => o end.
  Proof.
    intros H1 H2. destruct (last (b :: L)) as [z|] eqn:Hz; [|by apply last_None in Hz].
    apply last_Some in Hz as [X Hx]. intros [= <-]. destruct X as [|? X]; simplify_eq/=. set_solver.
  Qed.
  (** [n] is off the lists but still has its tag and a stale back pointer *)
  Lemma lruTake_spec s L d n L1 L2 : lru s L → L d = L1 ++ n :: L2 →
    ∃ s', lruTake d n s = ORet tt s' ∧ (∃ pv, cells s' !! n = Some (Cell (side d) None pv)) ∧ lru_frame s s' ∧ 
      ∃ L', lruX s' L' (eq n) ∧ L' d = L1 ++ L2 ∧ L' (negb d) = L (negb d).
  Proof.
    intros HL Heq.
    pose proof (lru_items _ _ _ HL d) as Hi. pose proof (lru_head _ _ _ HL d) as Hh.
    pose proof (lru_tail _ _ _ HL d) as Htl. rewrite Heq in Htl Hh Hi.
    pose proof (lru_nodup _ _ _ HL d) as Hnd. rewrite Heq in Hnd.
    destruct (lru_cell _ _ _ _ _ _ _ HL Heq) as (Hc & Hn1 & Hn2 & Hn3 & _ & Hs1 & Hs2).
    rewrite last_app /= in Htl.
    unfold lruTake. step. step.
    destruct (snoc_case L1) as [->|(Lp & a & ->)]; destruct L2 as [|b L2].
    - nes. rewrite ?last_snoc Htl Hh. destruct (decide (Some n = Some n)); [|done]. repeat step.
      eexists. split; [done|]. split; [by eauto|].
      rewrite cells_id.
      fin2 HL Heq n ([] : list nid) ([] : list nid) ([] : list nid).
      right. split; [done|by left].
    - assert (b ∉ L2) by (apply NoDup_cons in Hnd as [_ Hnd]; by apply NoDup_cons in Hnd as [? Hnd]).
      nes. rewrite ?last_snoc Htl Hh. destruct (decide (Some n = Some n)); [|done].
      destruct (decide _) as [Hx|Hx].
      { exfalso. eapply (last_ne n b L2); by eauto. }
      repeat step.
      eexists. split; [done|]. split; [exists None; look|].
      fin2 HL Heq n ([] : list nid) (b :: L2) (b :: L2).
      + cbn [qtail decItems setItems setHead]. rewrite Htl. by destruct (last (b :: L2)).
      + rewrite /= Hi. lens.
      + segs2.
      + right. split; [done|by left].
    - assert (a ∉ Lp) by (rewrite -app_assoc in Hnd; by apply NoDup_mid in Hnd as (?&?&?)).
      assert (Some n ≠ head ((Lp ++ [a]) ++ [n])) by (nes; destruct Lp; cbn; nes; congruence).
      nes. rewrite ?last_snoc Htl Hh. destruct (decide _); [done|]. destruct (decide (Some n = Some n)); [|done]. repeat step.
      eexists. split; [done|]. split; [eexists; look|].
      fin2 HL Heq n (Lp ++ [a]) ([] : list nid) ((Lp ++ [a]) ++ []).
      + rewrite /= Hh. by destruct Lp.
      + by rewrite app_nil_r last_snoc.
      + rewrite /= Hi. lens.
      + rewrite app_nil_r. segs2.
      + right. split; [done|by left].
    - assert (a ∉ Lp ∧ a ≠ b ∧ b ∉ Lp ∧ a ∉ L2 ∧ b ∉ L2) as (?&?&?&?&?).
      { rewrite -!app_assoc /= in Hnd.
        assert (b ∉ Lp) by (eapply NoDup_cross; [done|set_solver +]).
        apply NoDup_mid in Hnd as (?&?&?&Hnd). 
        apply NoDup_cons in Hnd as [_ Hnd]. apply NoDup_cons in Hnd as [? Hnd]. nes. done. }
      assert (Some n ≠ head ((Lp ++ [a]) ++ n :: b :: L2)) by (nes; destruct Lp; cbn; nes; congruence).
      nes. rewrite ?last_snoc Htl Hh. destruct (decide _); [done|].
      destruct (decide _) as [Hx|Hx].
      { exfalso. eapply (last_ne n b L2); by eauto. }
      repeat step.
      eexists. split; [done|]. split; [eexists; look|].
      fin2 HL Heq n (Lp ++ [a]) (b :: L2) ((Lp ++ [a]) ++ b :: L2).
      + rewrite /= Hh. by destruct Lp.
      + cbn [qtail decItems setItems setHead]. rewrite Htl last_app last_snoc. by destruct (last (b :: L2)).
      + rewrite /= Hi. lens.
      + segs2.
      + right. split; [done|by left].
  Qed.

  Lemma lruGive_spec s L d n tg pv : lruX s L (eq n) → cells s !! n = Some (Cell tg None pv) →
    n ∉ L d → n ∉ L (negb d) →
    ∃ s', lruGive d n s = ORet tt s' ∧ lru_frame s s' ∧
      ∃ L', lru s' L' ∧ L' d = L d ++ [n] ∧ L' (negb d) = L (negb d).
  Proof.
    intros HL Hn Hd Hd'.
    pose proof (lru_items _ _ _ HL d) as Hi.
    pose proof (lru_head _ _ _ HL d) as Hh. pose proof (lru_tail _ _ _ HL d) as Htl.
    unfold lruGive. step. rewrite Hi.
    destruct (last (L d)) as [a|] eqn:Hla.
    - assert (n ≠ a) as Hna. { apply last_Some in Hla as [L1 Hla]. intros ->. apply Hd. rewrite Hla. apply elem_of_app. right. by left. }
      assert (∃ ca, cells s !! a = Some ca) as [ca Hca].
      { apply last_Some in Hla as [L1 Hla]. apply (lru_cell _ _ _ _ _ _ _ HL) in Hla as (Hca & _). by eauto. }
      assert (length (L d) ≠ 0%nat) as Hlen by by destruct (L d).
      destruct (Z.eqb_spec (Z.of_nat (length (L d))) 0); [lia|].
      rewrite Htl. repeat step. eexists. split; [done|].
      eapply lru_snoc; try done.
      + rewrite Hla (alter_insert_eq _ _ _ _ Hca) insert_insert (insert_commute _ a n) //.
      + rewrite /= Hh. by destruct (L d).
      + rewrite /= Hi. lia.
    - apply last_None in Hla.
      destruct (Z.eqb_spec (Z.of_nat (length (L d))) 0) as [_|Hx]; [|by rewrite Hla in Hx].
      repeat step. eexists. split; [done|].
      eapply lru_snoc; try done; rewrite ?Hla // insert_insert //.
  Qed.

  Lemma lruRemove_spec s L d n L1 L2 : lru s L → L d = L1 ++ n :: L2 →
    ∃ s', lruRemove d n s = ORet tt s' ∧ lru_frame s s' ∧ 
      ∃ L', lru s' L' ∧ L' d = L1 ++ L2 ∧ L' (negb d) = L (negb d).
  Proof.
    intros HL Heq.
    pose proof (lru_items _ _ _ HL d) as Hi. pose proof (lru_head _ _ _ HL d) as Hh.
    pose proof (lru_tail _ _ _ HL d) as Htl. rewrite Heq in Htl Hh Hi.
    pose proof (lru_nodup _ _ _ HL d) as Hnd. rewrite Heq in Hnd.
    destruct (lru_cell _ _ _ _ _ _ _ HL Heq) as (Hc & Hn1 & Hn2 & Hn3 & _ & Hs1 & Hs2).
    rewrite last_app /= in Htl.
    unfold lruRemove. step. step.
    destruct (snoc_case L1) as [->|(Lp & a & ->)]; destruct L2 as [|b L2].
    - nes. rewrite ?last_snoc Htl Hh. destruct (decide (Some n = Some n)); [|done]. repeat step.
      eexists. split; [done|].
      fin2 HL Heq n ([] : list nid) ([] : list nid) ([] : list nid).
      + rewrite /= Hi. lens.
      + right. split; [done|right; look].
    - assert (b ∉ L2) by (apply NoDup_cons in Hnd as [_ Hnd]; by apply NoDup_cons in Hnd as [? Hnd]).
      nes. rewrite ?last_snoc Htl Hh. destruct (decide (Some n = Some n)); [|done].
      destruct (decide _) as [Hx|Hx].
      { exfalso. eapply (last_ne n b L2); by eauto. }
      repeat step.
      eexists. split; [done|].
      fin2 HL Heq n ([] : list nid) (b :: L2) (b :: L2).
      + cbn [qtail decItems setItems setHead]. rewrite Htl. by destruct (last (b :: L2)).
      + rewrite /= Hi. lens.
      + segs2.
      + right. split; [done|right; look].
    - assert (a ∉ Lp) by (rewrite -app_assoc in Hnd; by apply NoDup_mid in Hnd as (?&?&?)).
      assert (Some n ≠ head ((Lp ++ [a]) ++ [n])) by (nes; destruct Lp; cbn; nes; congruence).
      nes. rewrite ?last_snoc Htl Hh. destruct (decide _); [done|]. destruct (decide (Some n = Some n)); [|done]. repeat step.
      eexists. split; [done|].
      fin2 HL Heq n (Lp ++ [a]) ([] : list nid) ((Lp ++ [a]) ++ []).
      + rewrite /= Hh. by destruct Lp.
      + by rewrite app_nil_r last_snoc.
      + rewrite /= Hi. lens.
      + rewrite app_nil_r. segs2.
      + right. split; [done|right; look].
    - assert (a ∉ Lp ∧ a ≠ b ∧ b ∉ Lp ∧ a ∉ L2 ∧ b ∉ L2) as (?&?&?&?&?).
      { rewrite -!app_assoc /= in Hnd.
        assert (b ∉ Lp) by (eapply NoDup_cross; [done|set_solver +]).
        apply NoDup_mid in Hnd as (?&?&?&Hnd). 
        apply NoDup_cons in Hnd as [_ Hnd]. apply NoDup_cons in Hnd as [? Hnd]. nes. done. }
      assert (Some n ≠ head ((Lp ++ [a]) ++ n :: b :: L2)) by (nes; destruct Lp; cbn; nes; congruence).
      nes. rewrite ?last_snoc Htl Hh. destruct (decide _); [done|].
      destruct (decide _) as [Hx|Hx].
      { exfalso. eapply (last_ne n b L2); by eauto. }
      repeat step.
      eexists. split; [done|].
      fin2 HL Heq n (Lp ++ [a]) (b :: L2) ((Lp ++ [a]) ++ b :: L2).
      + rewrite /= Hh. by destruct Lp.
      + cbn [qtail decItems setItems setHead]. rewrite Htl last_app last_snoc. by destruct (last (b :: L2)).
      + rewrite /= Hi. lens.
      + segs2.
      + right. split; [done|right; look].
  Qed.
End lru.

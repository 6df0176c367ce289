(** * Several threads that share one LLRB map

    Every method of an LLRB tree takes the tree's mutex with its first step and
    releases it when it returns ([tree.Lock(); defer tree.Unlock()]), with one
    exception: Reset (llrb_tree.go:456-458) takes no lock.  Here a call is cut
    into its accesses to the field tree.root, the only thing that a call which
    holds the mutex shares with a Reset; between any two of them other threads
    may run.

    Simplifications:
    - a step is one access to tree.root, together with the work on nodes that
      follows it: nodes are reached through that field only, so no other thread
      can use them meanwhile;
    - until the root returned by insert or delete is stored, the field still
      points to the old root node, whose fields may have changed; the only
      thing that can happen to the field before it is overwritten is a Reset, so
      here it keeps the tree as it was;
    - a read or a write of the field is atomic;
    - Compare does not call the same map again;
    - Dump is left out;
    - an uncaught panic ends the process. *)
From Coq Require Import ssreflect Sorted.
From stdpp Require Import prelude list.
From Verif Require Import Spec SpecFacts Llrb LlrbSpec LlrbProof LlrbDelete LlrbApi LlrbProps Compare CompareProof.
Open Scope Z_scope.

(** What is left to do of a call: to return an answer, or to access tree.root,
    which leaves a new tree and the rest of the call. *)
Inductive prog (K V : Type) :=
  | Fin (a : answer K V)
  | Root (f : tree K V → lo (tree K V * prog K V)).
Arguments Fin {_ _}. Arguments Root {_ _}.

Section code.
  Context {K V : Type}.
  Variable cmp : K → K → option Z.
  Notation tree := (tree K V).
  Notation prog := (prog K V).
  Notation op := (llrb_op K V).

  (** [tree.root.color = BLACK], an access that panics if the field is nil
      (llrb_tree.go:223, 249, 448) *)
  Definition paint (a : answer K V) : prog :=
    Root (λ t, match t with E => LPanic | _ => LRet (blacken t, Fin a) end).
  (** [if nil != tree.root { tree.root.color = BLACK }] (llrb_tree.go:222-224, 248-250) *)
  Definition paintIf (a : answer K V) : prog :=
    Root (λ t, match t with E => LRet (t, Fin a) | _ => LRet (t, paint a) end).
  (** llrb_tree.go:436-454: read at 440, written at 446, read at 447 and 448 *)
  Definition p_Put (k : K) (v : V) : prog :=
    Root (λ t,
      let! '(updatedRoot, ok, err) := insert cmp t k v in
      if (err : bool) then LRet (updatedRoot, Fin (RErr ok))
      else if (ok : bool) then
        LRet (t, Root (λ _, LRet (updatedRoot, Root (λ t1,
          let! t2 := postInsertAdjustLen cmp t1 k in LRet (t2, paint (ROk true))))))
      else LRet (updatedRoot, Fin (ROk false))).
  (** [tree.root, err = tree.delete(tree.root, key)] and what follows
      (llrb_tree.go:217-228, 244-252) *)
  Definition p_delete (key : K) : prog :=
    Root (λ t,
      match t with
      | E => LPanic
      | _ =>
          let! '(t2, err) := delete cmp (budget t) t key in
          LRet (t, Root (λ _, LRet (t2, if (err : bool) then Fin (RErr true) else paintIf (ROk true))))
      end).
  (** llrb_tree.go:202-229: read twice at 206, then at 215, 217 *)
  Definition p_DeleteByIndex (i : Z) : prog :=
    if i <? 0 then Fin (ROk false)
    else Root (λ t,
      match t with
      | E => LRet (t, Fin (ROk false))
      | _ => LRet (t, Root (λ t,
          match t with
          | E => LPanic
          | T _ _ _ _ _ n =>
              if n <=? i then LRet (t, Fin (ROk false))
              else LRet (t, Root (λ t,
                let! '(t1, key) := preDeleteByIndexAdjustLen t i in LRet (t1, p_delete key)))
          end))
      end).
  (** llrb_tree.go:231-253: read at 235, 244 *)
  Definition p_DeleteByKey (key : K) : prog :=
    Root (λ t,
      let '(t1, ok, err) := preDeleteByKeyAdjustLen cmp t key in
      LRet (t1, if (err : bool) then Fin (RErr ok) else if (ok : bool) then p_delete key else Fin (ROk false))).
  (** llrb_tree.go:340-353: read at 346 and 349 *)
  Definition p_Len : prog :=
    Root (λ t,
      match t with
      | E => LRet (t, Fin (RLen 0))
      | _ => LRet (t, Root (λ t, match t with E => LPanic | T _ _ _ _ _ n => LRet (t, Fin (RLen n)) end))
      end).
  (** The other methods access the field once (llrb_tree.go:46, 126, 261, 308, 361,
      405, 457; llrb_validate.go:12). *)
  Definition program (o : op) : prog :=
    match o with
    | LCall (CPut k v) => p_Put k v
    | LCall (CDeleteByIndex i) => p_DeleteByIndex i
    | LCall (CDeleteByKey k) => p_DeleteByKey k
    | LCall CLen => p_Len
    | _ => Root (λ t, let! '(t', a) := llrb_step cmp t o in LRet (t', Fin a))
    end.
  (** llrb_tree.go:456-458: the one method that takes no lock *)
  Definition takes_lock (o : op) : bool := match o with LReset => false | _ => true end.

  (** ** Threads.  The mutex is taken when a running call has taken it. *)
  Inductive lthread := Idle | Waits (o : op) | Runs (o : op) (p : prog).
  Record lconfig := LConfig { lc_root : tree; lc_ths : list lthread }.
  (** what a user sees *)
  Inductive event :=
    | Call (j : nat) (o : op) | Return (j : nat) (o : op) (a : answer K V) | Panics (j : nat) (o : op).
  Definition holder (x : lthread) : Prop := match x with Runs o _ => takes_lock o = true | _ => False end.
  Definition mutex_taken (ths : list lthread) : Prop := ∃ j x, ths !! j = Some x ∧ holder x.

  (** [rule ths o]: what the program promises when it begins [o] *)
  Variable rule : list lthread → op → Prop.
  Inductive lstep : lconfig → option event → lconfig → Prop :=
    | l_call t ths j o : ths !! j = Some Idle →
        lstep (LConfig t ths) (Some (Call j o)) (LConfig t (<[j := Waits o]> ths))
    | l_start t ths j o : ths !! j = Some (Waits o) → (takes_lock o = true → ¬ mutex_taken ths) → rule ths o →
        lstep (LConfig t ths) None (LConfig t (<[j := Runs o (program o)]> ths))
    | l_root t ths j o f t' p : ths !! j = Some (Runs o (Root f)) → f t = LRet (t', p) →
        lstep (LConfig t ths) None (LConfig t' (<[j := Runs o p]> ths))
    | l_return t ths j o a : ths !! j = Some (Runs o (Fin a)) →
        lstep (LConfig t ths) (Some (Return j o a)) (LConfig t (<[j := Idle]> ths))
    (** a nil pointer is followed: the process ends *)
    | l_panic t ths j o f : ths !! j = Some (Runs o (Root f)) → f t = LPanic →
        lstep (LConfig t ths) (Some (Panics j o)) (LConfig t []).
  Inductive lruns : lconfig → list event → lconfig → Prop :=
    | r_nil cf : lruns cf [] cf
    | r_silent cf cf1 h cf2 : lstep cf None cf1 → lruns cf1 h cf2 → lruns cf h cf2
    | r_seen cf e cf1 h cf2 : lstep cf (Some e) cf1 → lruns cf1 h cf2 → lruns cf (e :: h) cf2.
  (** [n] threads and a new map *)
  Definition begin (n : nat) : lconfig := LConfig NewLLRBTree (replicate n Idle).
End code.
Arguments Idle {_ _}. Arguments Waits {_ _}. Arguments Runs {_ _}. Arguments LConfig {_ _}.
Arguments lc_root {_ _}. Arguments lc_ths {_ _}. Arguments Call {_ _}. Arguments Return {_ _}. Arguments Panics {_ _}.
Arguments lthread : clear implicits. Arguments lconfig : clear implicits. Arguments event : clear implicits.

(** ** The specification: a sorted list and calls that happen all at once, at some
    moment between the call and its return.  Nobody panics. *)
Section spec.
  Context {K V : Type}.
  Variable cmp : K → K → option Z.
  Inductive phase := Resting | Called (o : llrb_op K V) | Happened (o : llrb_op K V) (a : answer K V).
  (** [at_once ps m h]: with threads in phases [ps] and a map with contents [m], the
      calls and answers [h] are possible if every call happens all at once *)
  Inductive at_once : list phase → list (K * V) → list (event K V) → Prop :=
    | a_nil ps m : at_once ps m []
    | a_call ps m j o h : ps !! j = Some Resting → at_once (<[j := Called o]> ps) m h → at_once ps m (Call j o :: h)
    | a_happens ps m j o h : ps !! j = Some (Called o) →
        at_once (<[j := Happened o (spec_llrb_step cmp m o).2]> ps) (spec_llrb_step cmp m o).1 h → at_once ps m h
    | a_return ps m j o a h : ps !! j = Some (Happened o a) → at_once (<[j := Resting]> ps) m h → at_once ps m (Return j o a :: h).
  (** [h] of [n] threads that share a new map *)
  Definition atomic_calls (n : nat) (h : list (event K V)) : Prop := at_once (replicate n Resting) [] h.

  (** the calls that look at tree.root more than once *)
  Definition looks_again (o : llrb_op K V) : bool :=
    match o with LCall (CPut _ _ | CDeleteByIndex _ | CDeleteByKey _ | CLen) => true | _ => false end.
  Definition keys_of (dom : K → Prop) (_ : list (lthread K V)) (o : llrb_op K V) : Prop := Forall dom (op_keys o).
  (** Reset does not run together with one of those *)
  Definition apart (dom : K → Prop) (ths : list (lthread K V)) (o : llrb_op K V) : Prop :=
    Forall dom (op_keys o) ∧
    ∀ j o' p, ths !! j = Some (Runs o' p) →
      (o = LReset → looks_again o' = false) ∧ (looks_again o = true → o' ≠ LReset).
End spec.
Arguments phase : clear implicits.

(** ** Proofs *)
Section proof.
  Context {K V : Type}.
  Variable cmp : K → K → option Z.
  Variable dom : K → Prop.
  Hypothesis ORD : total_order cmp dom.
  Notation tree := (tree K V).
  Notation prog := (prog K V).
  Notation op := (llrb_op K V).
  Notation thread := (lthread K V).
  Notation phase := (phase K V).

  (** a call that nobody disturbs *)
  Fixpoint solo (p : prog) (t : tree) : lo (tree * answer K V) :=
    match p with
    | Fin a => LRet (t, a)
    | Root f => match f t with LRet (t', p') => solo p' t' | LPanic => LPanic | LFuel => LFuel end
    end.
  Lemma pre_ne (t : tree) i t1 key : preDeleteByIndexAdjustLen t i = LRet (t1, key) → t1 ≠ E.
  Proof.
    destruct t as [|c l k v r n]; [done|]. cbn. destruct (_ <? _); [|destruct (_ <? _)].
    - destruct (preDeleteByIndexAdjustLen l i) as [[]| |]; cbn; congruence.
    - destruct (preDeleteByIndexAdjustLen r _) as [[]| |]; cbn; congruence.
    - congruence.
  Qed.
  Lemma prek_ne (t : tree) k t1 err : preDeleteByKeyAdjustLen cmp t k = (t1, true, err) → t1 ≠ E.
  Proof.
    destruct t as [|c l k' v r n]; [done|]. cbn. destruct (cmp k k') as [cr|]; [|congruence].
    destruct (cr <? 0); [|destruct (0 <? cr); [|congruence]].
    - destruct (preDeleteByKeyAdjustLen cmp l k) as [[? []] []]; congruence.
    - destruct (preDeleteByKeyAdjustLen cmp r k) as [[? []] []]; congruence.
  Qed.
  Lemma post_ne (t : tree) k t1 : postInsertAdjustLen cmp t k = LRet t1 → t1 ≠ E.
  Proof.
    destruct t as [|c l k' v r n]; [done|]. cbn. destruct (cmp k k') as [cr|]; [|congruence].
    destruct (cr <? 0); [|destruct (0 <? cr); [|congruence]].
    - destruct (postInsertAdjustLen cmp l k); cbn; congruence.
    - destruct (postInsertAdjustLen cmp r k); cbn; congruence.
  Qed.
  Lemma solo_delete t k : t ≠ E → solo (p_delete cmp k) t =
    (let! '(t2, err) := delete cmp (budget t) t k in
     if (err : bool) then LRet (t2, RErr true) else LRet (blacken t2, ROk true)).
  Proof.
    destruct t as [|c l k' v r n]; [done|]. intros _. cbn [p_delete solo].
    destruct (delete cmp _ _ _) as [[t2 []]| |]; [done| |done..]. cbn. by destruct t2.
  Qed.
  Definition one (o : op) : prog := Root (λ t, let! '(t', a) := llrb_step cmp t o in LRet (t', Fin a)).
  Lemma solo_one o t : solo (one o) t = llrb_step cmp t o.
  Proof. cbn [one solo]. by destruct (llrb_step cmp t o) as [[]| |]. Qed.
  Lemma program_one o : looks_again o = false → program cmp o = one o.
  Proof. destruct o as [[]| |]; done. Qed.
  Lemma solo_program o t : solo (program cmp o) t = llrb_step cmp t o.
  Proof.
    destruct (looks_again o) eqn:Eo; [|by rewrite program_one // solo_one].
    destruct o as [c| |]; [|done..]. destruct c as [k v| | | | |k|i| | |]; try done; cbn [program llrb_step llrb_call].
    - cbn [p_Put solo]. unfold Put. destruct (insert cmp t k v) as [[[u ok] err]| |]; [|done..]. cbn [lbind].
      destruct err; [done|]. destruct ok; [|done]. cbn [solo].
      destruct (postInsertAdjustLen cmp u k) as [t2| |] eqn:E2; [|done..]. cbn [lbind paint solo].
      pose proof (post_ne _ _ _ E2). by destruct t2.
    - cbn [p_DeleteByKey solo]. unfold DeleteByKey.
      destruct (preDeleteByKeyAdjustLen cmp t k) as [[t1 ok] err] eqn:E1. destruct err; [done|]. destruct ok; [|done].
      apply solo_delete. by eapply prek_ne.
    - unfold p_DeleteByIndex, DeleteByIndex. destruct (i <? 0) eqn:Ei; [destruct t; done|].
      destruct t as [|c l k v r n]; [done|]. cbn [solo]. cbn [orb]. destruct (n <=? i); [done|]. cbn [solo].
      destruct (preDeleteByIndexAdjustLen _ i) as [[t1 key]| |] eqn:E1; [|done..]. cbn [lbind].
      apply solo_delete. by eapply pre_ne.
    - by destruct t.
  Qed.

  (** *** The code does what the specification does *)
  Definition fits (x : thread) (ph : phase) : Prop :=
    match x with
    | Idle => ph = Resting
    | Waits o => ph = Called o
    | Runs o p => Forall dom (op_keys o) ∧
        if looks_again o then ph = Called o
        else (p = one o ∧ ph = Called o) ∨ (∃ a, p = Fin a ∧ ph = Happened o a)
    end.
  Definition busy (ths : list thread) (j : nat) (o : op) (p : prog) : Prop :=
    ths !! j = Some (Runs o p) ∧ looks_again o = true.
  Record sim (cf : lconfig K V) (ps : list phase) (m : list (K * V)) : Prop := Sim {
    s_each : Forall2 fits (lc_ths cf) ps;
    s_lock j k x y : lc_ths cf !! j = Some x → lc_ths cf !! k = Some y → holder x → holder y → j = k;
    s_apart j k o p p' : busy (lc_ths cf) j o p → lc_ths cf !! k ≠ Some (Runs LReset p');
    s_root :
      (∃ j o p t' a, busy (lc_ths cf) j o p ∧ solo p (lc_root cf) = LRet (t', a) ∧ inv cmp dom t' ∧
         (elements t', a) = spec_llrb_step cmp m o) ∨
      ((∀ j o p, ¬ busy (lc_ths cf) j o p) ∧ inv cmp dom (lc_root cf) ∧ elements (lc_root cf) = m)
  }.
  Lemma looks_locks (o : op) : looks_again o = true → takes_lock o = true.
  Proof. by destruct o. Qed.
  Lemma unlocked (o : op) : takes_lock o = false → o = LReset.
  Proof. by destruct o. Qed.
  (** while a thread runs that looks at the root once, the root is what it should be *)
  Lemma at_rest cf ps m j o p : sim cf ps m → lc_ths cf !! j = Some (Runs o p) → looks_again o = false →
    (∀ j o p, ¬ busy (lc_ths cf) j o p) ∧ inv cmp dom (lc_root cf) ∧ elements (lc_root cf) = m.
  Proof.
    intros H Hj Ho. destruct (s_root _ _ _ H) as [(k & o' & p' & t' & a & Hk & _)|H']; [|done]. exfalso.
    destruct (takes_lock o) eqn:El.
    - assert (j = k) as <-.
      { eapply (s_lock _ _ _ H); [exact Hj|apply Hk|done|]. cbn. apply looks_locks, Hk. }
      destruct Hk as [Hk Hk1]. rewrite Hj in Hk. injection Hk as <- <-. by rewrite Ho in Hk1.
    - apply unlocked in El as ->. by eapply (s_apart _ _ _ H).
  Qed.
  Lemma busy_insert ths j x k o p : busy (<[j := x]> ths) k o p →
    (j = k ∧ x = Runs o p ∧ looks_again o = true) ∨ (j ≠ k ∧ busy ths k o p).
  Proof. intros [H1 H2]. apply list_lookup_insert_Some in H1 as [(-> & -> & _)|[H1 H3]]; [by left|right]. by split. Qed.
  Lemma insert_cases (ths : list thread) j x k y : <[j := x]> ths !! k = Some y → (j = k ∧ x = y) ∨ (j ≠ k ∧ ths !! k = Some y).
  Proof. intros [(? & ? & _)|H]%list_lookup_insert_Some; auto. Qed.
  Lemma fits_at cf ps m j x : sim cf ps m → lc_ths cf !! j = Some x → ∃ ph, ps !! j = Some ph ∧ fits x ph.
  Proof. intros H Hj. by eapply Forall2_lookup_l in Hj; [|apply H]. Qed.

  Lemma step_sim cf ps m e cf' : sim cf ps m → lstep cmp (apart dom) cf e cf' →
    ∃ ps' m', sim cf' ps' m' ∧ ∀ h, at_once cmp ps' m' h → at_once cmp ps m (option_list e ++ h).
  Proof using ORD.
    intros H Hs. destruct Hs as [t ths j o Hj|t ths j o Hj Hm Hr|t ths j o f t' p Hj Hf|t ths j o a Hj|t ths j o f Hj Hf].
    - (* the call is made *)
      destruct (fits_at _ _ _ _ _ H Hj) as (ph & Hp & ->). exists (<[j := Called o]> ps), m. split.
      + destruct H as [H1 H2 H3 H4]. cbn in *. constructor; cbn.
        * by apply Forall2_insert.
        * intros a b x y [[-> <-]|[_ Ha]]%insert_cases [[-> <-]|[_ Hb]]%insert_cases; cbn; try done. by apply H2.
        * intros a b o' p p' [(-> & ? & _)|[_ Ha]]%busy_insert [[-> Hb]|[_ Hb]]%insert_cases; try done. by eapply H3.
        * destruct H4 as [(k & o' & p & t' & a & Hk & H4)|[H4 H5]]; [left|right].
          -- exists k, o', p, t', a. split; [|done]. split; [|apply Hk]. rewrite list_lookup_insert_ne; [|apply Hk]. intros <-.
             destruct Hk; congruence.
          -- split; [|done]. intros k o' p [(-> & ? & _)|[_ Ha]]%busy_insert; [done|]. by eapply H4.
      + intros h Hh. by eapply a_call.
    - (* it begins *)
      destruct (fits_at _ _ _ _ _ H Hj) as (ph & Hp & ->). destruct Hr as [Hk Hr]. exists ps, m. split; [|done].
      destruct H as [H1 H2 H3 H4]. cbn in *.
      assert (∀ k o' p, ¬ busy ths k o' p) as Hb.
      { intros k o' p [Hb1 Hb2]. destruct (takes_lock o) eqn:El.
        - apply Hm; [done|]. exists k, (Runs o' p). split; [done|]. by apply looks_locks.
        - apply unlocked in El as ->. destruct (Hr _ _ _ Hb1) as [Hr1 _]. rewrite Hr1 in Hb2; done. }
      assert (inv cmp dom t ∧ elements t = m) as [Hi He].
      { destruct H4 as [(k & o' & p & t' & a & Hk' & _)|[_ H4]]; [|done]. by apply Hb in Hk'. }
      constructor; cbn.
      + rewrite -(list_insert_id ps j (Called o)) //. apply Forall2_insert; [done|]. cbn. split; [done|].
        destruct (looks_again o) eqn:Eo; [done|]. left. split; [|done]. by apply program_one.
      + intros a b x y [[-> <-]|[_ Ha]]%insert_cases [[-> <-]|[_ Hb']]%insert_cases; cbn; try done; intros Hx Hy.
        * exfalso. apply Hm; [done|]. by exists b, y.
        * exfalso. apply Hm; [done|]. by exists a, x.
        * by eapply H2.
      + intros a b o' p p' [(-> & [= <- <-] & Ho)|[_ Ha]]%busy_insert [[-> Hb']|[_ Hb']]%insert_cases; try by apply Hb in Ha.
        * injection Hb' as -> _. done.
        * destruct (Hr _ _ _ Hb') as [_ Hr2]. by destruct Hr2.
      + destruct (looks_again o) eqn:Eo; [left|right].
        * destruct (llrb_step_spec cmp dom ORD t o Hi Hk) as (t' & a & Ht & Hi' & Hs).
          exists j, o, (program cmp o), t', a. split_and!; [|by rewrite solo_program|done|by rewrite -He].
          split; [|done]. apply list_lookup_insert. by eapply lookup_lt_Some.
        * split; [|done]. intros k o' p [(-> & [= <- <-] & Ho)|[_ Ha]]%busy_insert; [congruence|]. by apply Hb in Ha.
    - (* an access to the root *)
      destruct (fits_at _ _ _ _ _ H Hj) as (ph & Hp & [Hk Hph]).
      destruct (looks_again o) eqn:Eo.
      + exists ps, m. split; [|done]. destruct H as [H1 H2 H3 H4]. cbn in *. subst ph. constructor; cbn.
        * rewrite -(list_insert_id ps j (Called o)) //. apply Forall2_insert; [done|]. cbn. by rewrite Eo.
        * intros a b x y [[-> <-]|[Hn Ha]]%insert_cases [[-> <-]|[Hn' Hb']]%insert_cases; cbn; try done; intros Hx Hy.
          -- eapply (H2 _ _ _ _ Hj Hb'); done.
          -- eapply (H2 _ _ _ _ Ha Hj); done.
          -- by eapply H2.
        * intros a b o' p1 p2 [(-> & [= <- <-] & Ho)|[_ Ha]]%busy_insert [[-> Hb']|[_ Hb']]%insert_cases; try done.
          -- injection Hb' as -> _. done.
          -- exact (H3 _ _ _ _ _ (conj Hj Ho) Hb').
          -- injection Hb' as -> _. done.
          -- by eapply H3.
        * left. destruct H4 as [(k & o' & p' & t2 & a & [Hk1 Hk2] & Hs & Hi & H4)|[H4 _]]; [|by destruct (H4 _ _ _ (conj Hj Eo))].
          assert (j = k) as <-. { eapply (H2 _ _ _ _ Hj Hk1); cbn; by apply looks_locks. }
          rewrite Hj in Hk1. injection Hk1 as <- <-. cbn in Hs. rewrite Hf in Hs.
          exists j, o, p, t2, a. split_and!; [|done..]. split; [|done]. apply list_lookup_insert. by eapply lookup_lt_Some.
      + destruct (at_rest _ _ _ _ _ _ H Hj Eo) as (Hb & Hi & He). cbn in Hb, Hi, He.
        destruct Hph as [[Hone ->]|(a & Hfin & _)]; [|done]. injection Hone as ->.
        destruct (llrb_step_spec cmp dom ORD t o Hi Hk) as (t2 & a & Ht & Hi' & Hs). rewrite Ht in Hf. cbn in Hf. injection Hf as <- <-.
        rewrite He in Hs. exists (<[j := Happened o a]> ps), (elements t2). split.
        * destruct H as [H1 H2 H3 H4]. cbn in *. constructor; cbn.
          -- apply Forall2_insert; [done|]. cbn. rewrite Eo. split; [done|]. right. by exists a.
          -- intros b c x y [[-> <-]|[Hn Ha]]%insert_cases [[-> <-]|[Hn' Hb']]%insert_cases; cbn; try done; intros Hx Hy.
             ++ eapply (H2 _ _ _ _ Hj Hb'); done.
             ++ eapply (H2 _ _ _ _ Ha Hj); done.
             ++ by eapply H2.
          -- intros b c o' p1 p2 [(-> & [= <- <-] & Ho)|[_ Ha]]%busy_insert; [congruence|]. by apply Hb in Ha.
          -- right. split; [|done]. intros k o' p1 [(-> & [= <- <-] & Ho)|[_ Ha]]%busy_insert; [congruence|]. by apply Hb in Ha.
        * intros h Hh. cbn. eapply a_happens; [done|]. by rewrite -Hs.
    - (* it returns *)
      destruct (fits_at _ _ _ _ _ H Hj) as (ph & Hp & [Hk Hph]).
      destruct (looks_again o) eqn:Eo.
      + subst ph. destruct H as [H1 H2 H3 H4]. cbn in *.
        destruct H4 as [(k & o' & p' & t2 & b & [Hk1 Hk2] & Hs & Hi & H4)|[H4 _]]; [|by destruct (H4 _ _ _ (conj Hj Eo))].
        assert (j = k) as <-. { eapply (H2 _ _ _ _ Hj Hk1); cbn; by apply looks_locks. }
        rewrite Hj in Hk1. injection Hk1 as <- <-. cbn in Hs. injection Hs as <- <-.
        exists (<[j := Resting]> (<[j := Happened o a]> ps)), (elements t). split.
        * rewrite list_insert_insert. constructor; cbn.
          -- by apply Forall2_insert.
          -- intros b c x y [[-> <-]|[Hn Ha]]%insert_cases [[-> <-]|[Hn' Hb']]%insert_cases; cbn; try done. by eapply H2.
          -- intros b c o' p1 p2 [(-> & ? & Ho)|[_ Ha]]%busy_insert [[-> Hb']|[_ Hb']]%insert_cases; try done. by eapply H3.
          -- right. split; [|done]. intros k o' p1 [(-> & ? & Ho)|[Hn [Ha Ha']]]%busy_insert; [done|].
             apply Hn. eapply (H2 _ _ _ _ Hj Ha); cbn; by apply looks_locks.
        * intros h Hh. cbn. eapply a_happens; [done|]. rewrite -H4. cbn. eapply a_return; [|done].
          apply list_lookup_insert. by eapply lookup_lt_Some.
      + destruct (at_rest _ _ _ _ _ _ H Hj Eo) as (Hb & Hi & He). cbn in Hb, Hi, He.
        destruct Hph as [[Hone ->]|(b & [= <-] & ->)]; [done|].
        exists (<[j := Resting]> ps), m. split.
        * destruct H as [H1 H2 H3 H4]. cbn in *. constructor; cbn.
          -- by apply Forall2_insert.
          -- intros b c x y [[-> <-]|[Hn Ha]]%insert_cases [[-> <-]|[Hn' Hb']]%insert_cases; cbn; try done. by eapply H2.
          -- intros b c o' p1 p2 [(-> & ? & Ho)|[_ Ha]]%busy_insert [[-> Hb']|[_ Hb']]%insert_cases; try done. by eapply H3.
          -- right. split; [|done]. intros k o' p1 [(-> & ? & Ho)|[Hn Ha]]%busy_insert; [done|]. by apply Hb in Ha.
        * intros h Hh. cbn. by eapply a_return.
    - (* no panic *)
      exfalso. destruct (fits_at _ _ _ _ _ H Hj) as (ph & Hp & [Hk Hph]).
      destruct (looks_again o) eqn:Eo.
      + destruct H as [H1 H2 H3 H4]. cbn in *.
        destruct H4 as [(k & o' & p' & t2 & b & [Hk1 Hk2] & Hs & Hi & H4)|[H4 _]]; [|by destruct (H4 _ _ _ (conj Hj Eo))].
        assert (j = k) as <-. { eapply (H2 _ _ _ _ Hj Hk1); cbn; by apply looks_locks. }
        rewrite Hj in Hk1. injection Hk1 as <- <-. cbn in Hs. by rewrite Hf in Hs.
      + destruct (at_rest _ _ _ _ _ _ H Hj Eo) as (Hb & Hi & He). cbn in Hb, Hi, He.
        destruct Hph as [[Hone _]|(b & ? & _)]; [|done]. injection Hone as ->.
        destruct (llrb_step_spec cmp dom ORD t o Hi Hk) as (t2 & b & Ht & _). by rewrite Ht in Hf.
  Qed.
  Lemma sim_begin n : sim (begin n) (replicate n Resting) [].
  Proof.
    constructor; cbn.
    - apply Forall2_replicate. done.
    - intros j k x y [-> _]%lookup_replicate. done.
    - intros j k o p p' [[? _]%lookup_replicate _]. done.
    - right. split_and!; [|apply inv_E|done]. intros j o p [[? _]%lookup_replicate _]. done.
  Qed.
  Lemma runs_sim cf h cf' : lruns cmp (apart dom) cf h cf' → ∀ ps m, sim cf ps m →
    at_once cmp ps m h ∧ ∃ ps' m', sim cf' ps' m'.
  Proof using ORD.
    induction 1 as [cf|cf cf1 h cf2 Hs _ IH|cf e cf1 h cf2 Hs _ IH]; intros ps m H.
    - split; [constructor|]. by exists ps, m.
    - destruct (step_sim _ _ _ _ _ H Hs) as (ps1 & m1 & H1 & Ha). destruct (IH _ _ H1) as [IH1 IH2].
      split; [|done]. by apply (Ha h).
    - destruct (step_sim _ _ _ _ _ H Hs) as (ps1 & m1 & H1 & Ha). destruct (IH _ _ H1) as [IH1 IH2].
      split; [|done]. by apply (Ha h).
  Qed.
  Lemma shared_atomic n (h : list (event K V)) cf : lruns cmp (apart dom) (begin n) h cf → atomic_calls cmp n h.
  Proof using ORD. intros H. by destruct (runs_sim _ _ _ H _ _ (sim_begin n)). Qed.

  (** *** Nobody gets stuck *)
  Definition can_move (cf : lconfig K V) (j : nat) : Prop :=
    match lc_ths cf !! j with
    | Some (Waits o) => takes_lock o = true → ¬ mutex_taken (lc_ths cf)
    | Some (Runs _ (Fin _)) => True
    | Some (Runs _ (Root f)) => ∃ t p, f (lc_root cf) = LRet (t, p)
    | _ => False
    end.
  Lemma running_moves cf ps m j o p : sim cf ps m → lc_ths cf !! j = Some (Runs o p) → can_move cf j.
  Proof using ORD.
    intros H Hj. unfold can_move. rewrite Hj. destruct p as [a|f]; [done|].
    destruct (fits_at _ _ _ _ _ H Hj) as (ph & Hp & [Hk Hph]).
    destruct (looks_again o) eqn:Eo.
    - destruct H as [H1 H2 H3 H4]. cbn in *.
      destruct H4 as [(k & o' & p' & t2 & b & [Hk1 Hk2] & Hs & Hi & H4)|[H4 _]]; [|by destruct (H4 _ _ _ (conj Hj Eo))].
      assert (j = k) as <-. { eapply (H2 _ _ _ _ Hj Hk1); cbn; by apply looks_locks. }
      rewrite Hj in Hk1. injection Hk1 as <- <-. cbn in Hs. destruct (f (lc_root cf)) as [[t p]| |]; [|done..]. by eexists _, _.
    - destruct (at_rest _ _ _ _ _ _ H Hj Eo) as (Hb & Hi & He).
      destruct Hph as [[Hone _]|(b & ? & _)]; [|done]. injection Hone as ->.
      destruct (llrb_step_spec cmp dom ORD (lc_root cf) o Hi Hk) as (t2 & b & Ht & _). rewrite Ht. by eexists _, _.
  Qed.
  Lemma shared_no_deadlock n (h : list (event K V)) cf j x : lruns cmp (apart dom) (begin n) h cf →
    lc_ths cf !! j = Some x → x ≠ Idle →
    can_move cf j ∨ ∃ o k y, x = Waits o ∧ takes_lock o = true ∧ lc_ths cf !! k = Some y ∧ holder y ∧ can_move cf k.
  Proof using ORD.
    intros H Hj Hx. destruct (runs_sim _ _ _ H _ _ (sim_begin n)) as (_ & ps & m & Hs).
    destruct x as [|o|o p]; [done| |left; by eapply running_moves].
    destruct (takes_lock o) eqn:El; [|left; unfold can_move; rewrite Hj El; done].
    assert (∀ y : thread, Decision (holder y)) as Hdec.
    { intros [| |o' p']; [exact (right (λ H, H))..|]. cbn. apply bool_eq_dec. }
    destruct (decide (Exists holder (lc_ths cf))) as [He|He].
    - right. apply Exists_exists in He as (y & [k Hk]%elem_of_list_lookup & Hy). destruct y as [| |o' p']; [done..|].
      exists o, k, (Runs o' p'). split_and!; [done..|]. by eapply running_moves.
    - left. unfold can_move. rewrite Hj. intros _ (k & y & Hk & Hy). apply He, Exists_exists.
      exists y. split; [by eapply elem_of_list_lookup_2|done].
  Qed.
End proof.
Lemma shared_calls_end {K V : Type} (ps : nat → prog K V) : (∀ n, ∃ f t t', ps n = Root f ∧ f t = LRet (t', ps (S n))) → False.
Proof.
  intros H. assert (∀ (p : prog K V) n, p = ps n → False) as Hall; [|by apply (Hall (ps O) O)].
  fix IH 1. intros [a|f] n E.
  - destruct (H n) as (f & t & t' & Hn & _). congruence.
  - destruct (H n) as (f' & t & t' & Hn & Hf). rewrite Hn in E. injection E as E.
    assert (match f t with LRet (_, p) => ∀ n, p = ps n → False | _ => True end) as HI.
    { destruct (f t) as [[t1 p1]| |]; [exact (IH p1)|exact I..]. }
    rewrite E Hf in HI. by eapply HI.
Qed.

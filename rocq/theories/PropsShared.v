(** * Property theorems: an LLRB map that threads share (C61)

    [lruns cmp rule (begin n) h cf]: [n] threads share a new LLRB map; they made the
    calls and got the answers [h], and are now as [cf] says.  Between any two
    accesses of a call to the root of the tree, other threads may run.  [rule]
    says which calls the program begins.  [atomic_calls cmp n h]: the same calls
    with the same answers, on a plain sorted list, where each call happens all at
    once at some moment between the call and its return, and nobody panics. *)
From Coq Require Import ssreflect Sorted.
From stdpp Require Import prelude list.
From Verif Require Import Spec SpecFacts Llrb LlrbSpec LlrbProof LlrbDelete LlrbApi LlrbProps Compare CompareProof LlrbThreads.
Open Scope Z_scope.

(** ** Runs that are given by a schedule.  Not part of any statement. *)
Section play.
  Context {K V : Type}.
  Variable cmp : K → K → option Z.
  Variable rule : list (lthread K V) → llrb_op K V → Prop.
  Variable okb : list (lthread K V) → llrb_op K V → bool.
  Hypothesis OK : ∀ ths o, okb ths o = true → rule ths o.
  Definition holderb (x : lthread K V) : bool := match x with Runs o _ => takes_lock o | _ => false end.
  (** thread [j] goes on; if it is idle, with a call of [oo] *)
  Definition move (cf : lconfig K V) (x : nat * option (llrb_op K V)) : option (option (event K V) * lconfig K V) :=
    let '(j, oo) := x in let '(LConfig t ths) := cf in
    match ths !! j with
    | Some Idle => match oo with Some o => Some (Some (Call j o), LConfig t (<[j := Waits o]> ths)) | None => None end
    | Some (Waits o) =>
        if (negb (takes_lock o) || negb (existsb holderb ths)) && okb ths o
        then Some (None, LConfig t (<[j := Runs o (program cmp o)]> ths)) else None
    | Some (Runs o (Fin a)) => Some (Some (Return j o a), LConfig t (<[j := Idle]> ths))
    | Some (Runs o (Root f)) =>
        match f t with
        | LRet (t', p) => Some (None, LConfig t' (<[j := Runs o p]> ths))
        | LPanic => Some (Some (Panics j o), LConfig t [])
        | LFuel => None
        end
    | None => None
    end.
  Lemma move_step cf x e cf' : move cf x = Some (e, cf') → lstep cmp rule cf e cf'.
  Proof using OK.
    destruct x as [j oo], cf as [t ths]. cbn. destruct (ths !! j) as [[|o|o [a|f]]|] eqn:Hj; [..|done].
    - destruct oo as [o|]; [|done]. intros [= <- <-]. by constructor.
    - destruct (_ && _) eqn:Hb; [|done]. intros [= <- <-]. apply andb_true_iff in Hb as [Hb Ho].
      constructor; [done| |by apply OK]. intros Hl (k & x & Hk & Hx). rewrite Hl in Hb. cbn in Hb.
      apply negb_true_iff in Hb. assert (existsb holderb ths = true); [|congruence].
      apply existsb_exists. exists x. split; [by eapply elem_of_list_In, elem_of_list_lookup_2|]. by destruct x.
    - intros [= <- <-]. by constructor.
    - destruct (f t) as [[t' p]| |] eqn:Hf; [..|done]; intros [= <- <-]; by econstructor.
  Qed.
  Fixpoint play (cf : lconfig K V) (xs : list (nat * option (llrb_op K V))) : option (list (event K V) * lconfig K V) :=
    match xs with
    | [] => Some ([], cf)
    | x :: xs =>
        match move cf x with
        | None => None
        | Some (e, cf1) => match play cf1 xs with None => None | Some (h, cf2) => Some (option_list e ++ h, cf2) end
        end
    end.
  Lemma play_runs xs cf h cf' : play cf xs = Some (h, cf') → lruns cmp rule cf h cf'.
  Proof using OK.
    revert cf h. induction xs as [|x xs IH]; intros cf h; cbn; [intros [= <- <-]; constructor|].
    destruct (move cf x) as [[e cf1]|] eqn:Hm; [|done]. destruct (play cf1 xs) as [[h1 cf2]|] eqn:Hp; [|done].
    intros [= <- <-]. apply move_step in Hm. apply IH in Hp. destruct e as [e|]; cbn; by econstructor.
  Qed.
  (** what is seen of a run *)
  Definition seen xs n : option (list (event K V)) := fst <$> play (begin n) xs.
  Lemma seen_runs xs n h : seen xs n = Some h → ∃ cf, lruns cmp rule (begin n) h cf.
  Proof using OK.
    unfold seen. destruct (play (begin n) xs) as [[h1 cf]|] eqn:Hp; [|done]. intros [= <-]. exists cf. by eapply play_runs.
  Qed.
End play.
Definition int_key (k : key) : bool := match k with KInt z => (- 2 ^ 62 <=? z) && (z <? 2 ^ 62) | _ => false end.
Lemma int_keys (ks : list key) : forallb int_key ks = true → Forall small_int ks.
Proof.
  intros H. apply Forall_forall. intros k Hk%elem_of_list_In. eapply forallb_forall in H; [|done].
  destruct k as [z| | | | | | |]; try done. cbn in H. apply andb_true_iff in H as [H1%Z.leb_le H2%Z.ltb_lt]. by exists z.
Qed.
Definition keysb (ths : list (lthread key Z)) (o : llrb_op key Z) : bool := forallb int_key (op_keys o).
Lemma keysb_ok ths o : keysb ths o = true → keys_of small_int ths o.
Proof. apply int_keys. Qed.
Definition reset (o : llrb_op key Z) : bool := match o with LReset => true | _ => false end.
Definition apartb (ths : list (lthread key Z)) (o : llrb_op key Z) : bool :=
  forallb int_key (op_keys o) &&
  forallb (λ x, match x with Runs o' _ => negb (reset o && looks_again o') && negb (looks_again o && reset o') | _ => true end) ths.
Lemma apartb_ok ths o : apartb ths o = true → apart small_int ths o.
Proof.
  intros [H1 H2]%andb_true_iff. split; [by apply int_keys|]. intros j o' p Hj.
  eapply forallb_forall in H2; [|by eapply elem_of_list_In, elem_of_list_lookup_2]. cbn in H2.
  apply andb_true_iff in H2 as [H2 H3]. split.
  - intros ->. by destruct (looks_again o').
  - intros Hl ->. by rewrite Hl in H3.
Qed.
Definition put (k v : Z) : llrb_op key Z := LCall (CPut (KInt k) v).
Definition get (k : Z) : llrb_op key Z := LCall (CGetByKey (KInt k)).
Definition del (k : Z) : llrb_op key Z := LCall (CDeleteByKey (KInt k)).
(** [n] steps of thread [j]; a call of [o] by it that nobody disturbs *)
Definition on (j : nat) (n : nat) : list (nat * option (llrb_op key Z)) := replicate n (j, None).
Definition calls (j : nat) (o : llrb_op key Z) (n : nat) : list (nat * option (llrb_op key Z)) := (j, Some o) :: on j n.

(** A search for the moments at which the calls of a history happen.  Not part
    of any statement: used to show that there are none. *)
Definition sameb (a b : answer key Z) : bool :=
  match a, b with
  | ROk x, ROk y => bool_decide (x = y) | RValue x, RValue y => bool_decide (x = y) | RLen x, RLen y => x =? y
  | _, _ => true
  end.
Lemma sameb_refl a : sameb a a = true.
Proof. destruct a; cbn; rewrite ?bool_decide_true ?Z.eqb_refl; done. Qed.
Section search.
  Variable cmp : key → key → option Z.
  Fixpoint search (n : nat) (ps : list (phase key Z)) (m : list (key * Z)) (h : list (event key Z)) : bool :=
    match n with
    | O => true
    | S n =>
        match h with
        | [] => true
        | Call j o :: h => match ps !! j with Some Resting => search n (<[j := Called o]> ps) m h | _ => false end
        | Return j o a :: h => match ps !! j with Some (Happened _ b) => sameb a b && search n (<[j := Resting]> ps) m h | _ => false end
        | Panics _ _ :: _ => false
        end ||
        existsb (λ j, match ps !! j with
          | Some (Called o) => search n (<[j := Happened o (spec_llrb_step cmp m o).2]> ps) (spec_llrb_step cmp m o).1 h
          | _ => false end) (seq 0 (length ps))
    end.
  Lemma search_finds ps m h : at_once cmp ps m h → ∀ n, search n ps m h = true.
  Proof.
    induction 1 as [ps m|ps m j o h Hj _ IH|ps m j o h Hj _ IH|ps m j o a h Hj _ IH]; intros [|n]; cbn [search]; try done.
    - by rewrite Hj IH.
    - apply orb_true_iff. right. apply existsb_exists. exists j. split; [|by rewrite Hj].
      apply in_seq. apply lookup_lt_Some in Hj. lia.
    - by rewrite Hj sameb_refl IH.
  Qed.
End search.

(** C61: each call of a thread happens all at once.  Refuted: Reset takes no lock, so it
    can run in the middle of a Put, which then brings back everything that was
    in the map.  Nobody panics, but no order of the calls explains the answers: a
    key is found after the Reset that was stored before it and not since. *)
Definition lost : list (event key Z) :=
  [Call 0 (put 1 10); Return 0 (put 1 10) (ROk true);
   Call 0 (put 2 20); Call 1 LReset; Return 1 LReset (ROk true); Return 0 (put 2 20) (ROk true);
   Call 1 (get 1); Return 1 (get 1) (RValue (Some 10))].
Theorem C61_shared_map_refuted : ∃ cf,
  lruns CompareInt (keys_of small_int) (begin 2) lost cf ∧ ¬ atomic_calls CompareInt 2 lost.
Proof.
  destruct (seen_runs CompareInt (keys_of small_int) keysb keysb_ok
    (calls 0 (put 1 10) 6 ++ calls 0 (put 2 20) 2 ++ calls 1 LReset 3 ++ on 0 4 ++ calls 1 (get 1) 3) 2 lost) as [cf Hcf]; [by vm_compute|].
  exists cf. split; [exact Hcf|]. unfold atomic_calls, lost. cbn [replicate]. intros H.
  by apply (search_finds _ _ _ _) with (n := 40%nat) in H; vm_compute in H.
Qed.
Print Assumptions C61_shared_map_refuted.
(** and calls panic: a Put, a delete or Len finds the root gone that was there a
    moment ago *)
Definition ends_badly (o : llrb_op key Z) : list (event key Z) :=
  [Call 0 (put 2 20); Return 0 (put 2 20) (ROk true); Call 0 o; Call 1 LReset; Return 1 LReset (ROk true); Panics 0 o].
Theorem C61_panic_refuted : ∀ o, o ∈ [put 1 10; del 2; LCall (CDeleteByIndex 0); LCall CLen] →
  ∃ cf, lruns CompareInt (keys_of small_int) (begin 2) (ends_badly o) cf.
Proof.
  intros o Ho. rewrite !elem_of_cons elem_of_nil in Ho.
  pose (sched k := calls 0 (put 2 20) 6 ++ calls 0 o (1 + k) ++ calls 1 LReset 3 ++ on 0 1).
  destruct Ho as [->|[->|[->|[->|[]]]]];
    [apply (seen_runs _ _ keysb keysb_ok (sched 2%nat))|apply (seen_runs _ _ keysb keysb_ok (sched 1%nat))..]; by vm_compute.
Qed.
Print Assumptions C61_panic_refuted.

(** C61 with the rule that no Reset runs together with a Put, a delete or Len ([apart]):
    it may run together with every other call.  The answers are those of calls
    that happen all at once, and no call panics. *)
Theorem C61_shared_map_partial :
  ∀ (K V : Type) (cmp : K → K → option Z) (dom : K → Prop), total_order cmp dom →
  ∀ n (h : list (event K V)) cf, lruns cmp (apart dom) (begin n) h cf → atomic_calls cmp n h.
Proof. exact @shared_atomic. Qed.
Print Assumptions C61_shared_map_partial.
(** a thread that has made a call can go on, or waits for a thread that can go on *)
Theorem C61_no_deadlock_partial :
  ∀ (K V : Type) (cmp : K → K → option Z) (dom : K → Prop), total_order cmp dom →
  ∀ n (h : list (event K V)) cf j x, lruns cmp (apart dom) (begin n) h cf →
  lc_ths cf !! j = Some x → x ≠ Idle →
  can_move cf j ∨ ∃ o k y, x = Waits o ∧ takes_lock o = true ∧ lc_ths cf !! k = Some y ∧ holder y ∧ can_move cf k.
Proof. exact @shared_no_deadlock. Qed.
Print Assumptions C61_no_deadlock_partial.
(** and no call goes on for ever, whatever the others do to the root *)
Theorem C61_calls_end : ∀ (K V : Type) (ps : nat → prog K V),
  (∀ n, ∃ f t t', ps n = Root f ∧ f t = LRet (t', ps (S n))) → False.
Proof. exact @shared_calls_end. Qed.
Print Assumptions C61_calls_end.
(** three threads: a Reset in the middle of a lookup, which still finds the key; a
    Put and a delete that overlap in time; a call that waits for the mutex *)
Definition mixed : list (event key Z) :=
  [Call 0 (put 1 10); Return 0 (put 1 10) (ROk true); Call 1 (get 1); Call 2 LReset; Return 2 LReset (ROk true);
   Return 1 (get 1) (RValue (Some 10)); Call 0 (put 3 30); Call 1 (del 3); Return 0 (put 3 30) (ROk true);
   Call 2 (get 3); Return 1 (del 3) (ROk true); Call 0 (put 5 50)].
Definition mix : list (nat * option (llrb_op key Z)) :=
  calls 0 (put 1 10) 6 ++ calls 1 (get 1) 2 ++ calls 2 LReset 3 ++ on 1 1 ++
  calls 0 (put 3 30) 3 ++ calls 1 (del 3) 0 ++ on 0 3 ++ calls 2 (get 3) 0 ++ on 1 6 ++ calls 0 (put 5 50) 3.
Example C61_nonvacuous : total_order CompareInt small_int ∧
  ∃ cf, lruns CompareInt (apart small_int) (begin 3) mixed cf ∧
    lc_ths cf !! 2%nat = Some (Waits (get 3)) ∧ (∃ p, lc_ths cf !! 0%nat = Some (Runs (put 5 50) p)).
Proof.
  split; [exact int_order|].
  assert (match play CompareInt apartb (begin 3) mix with
    | Some (h, cf) => h = mixed ∧ lc_ths cf !! 2%nat = Some (Waits (get 3)) ∧
        match lc_ths cf !! 0%nat with Some (Runs o _) => o = put 5 50 | _ => False end
    | None => False end) as H by by vm_compute.
  destruct (play CompareInt apartb (begin 3) mix) as [[h cf]|] eqn:Hp; [|destruct H].
  destruct H as (-> & H2 & H0). exists cf.
  split_and!; [eapply play_runs; [exact apartb_ok|exact Hp]|done|].
  destruct (lc_ths cf !! 0%nat) as [[| |o p]|]; try done. subst o. by exists p.
Qed.

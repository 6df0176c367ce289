(** * Several threads

    Any number of threads call the package at the same time.  A call is carried
    out one step at a time (a step: one access to a node, to a tree, one
    stretch under the mutex of the node cache, one callback), and between any
    two steps the other threads, among them the background drainer, may take
    any number of steps of their own.  What keeps them apart are the locks, and
    only those: every call on a tree first takes the lock of that tree and
    releases it with its last step (btree.go: [tree.Lock(); defer
    tree.Unlock()] in every entry point except FetchLocation); the drainer
    takes the lock of the tree of the node it evicts (btree.go:2506-2520).

    Simplifications:
    - a stretch under the mutex of the node cache is one step, since everything
      that touches the lists takes that mutex and none of it waits for anything
      else while it holds it;
    - a callback is one step, and does not call the same tree again;
    - NewBPlusTree and OldBPlusTree take no lock; nobody else can have the new
      handle before they return, which is modelled as holding its lock. *)
From Coq Require Import ssreflect.
From stdpp Require Import prelude list gmap.
From Verif Require Import Spec BTree Machine.
Open Scope Z_scope.

(** ** One step of a program *)
Section step.
  Context {K V : Type}.
  Notation st := (st K V).
  Notation M := (M K V).
  Inductive sres (A : Type) :=
    | SMore (p : M A) (s : st) | SRet (a : A) (s : st) | SErr (e : err) (s : st) | SStop (w : stop) (s : st).
  Global Arguments SMore {_}. Global Arguments SRet {_}. Global Arguments SErr {_}. Global Arguments SStop {_}.
  Fixpoint sstep {A} (m : M A) : st → sres A :=
    match m in BTree.M _ _ A return st → sres A with
    | Act f => λ s, match f s with ORet a s => SRet a s | OErr e s => SErr e s | OStop w s => SStop w s end
    | Bind m f => λ s,
        match sstep m s with
        | SMore p s => SMore (Bind p f) s | SRet a s => SMore (f a) s
        | SErr e s => SErr e s | SStop w s => SStop w s
        end
    | Try m h => λ s,
        match sstep m s with
        | SMore p s => SMore (Try p h) s | SRet a s => SRet a s
        | SErr e s => SMore (h e) s | SStop w s => SStop w s
        end
    end.

  (** taking steps until the end, undisturbed, is what [run] computes *)
  Inductive goes {A} : M A → st → out K V A → Prop :=
    | go_more m s p s' o : sstep m s = SMore p s' → goes p s' o → goes m s o
    | go_ret m s a s' : sstep m s = SRet a s' → goes m s (ORet a s')
    | go_err m s e s' : sstep m s = SErr e s' → goes m s (OErr e s')
    | go_stop m s w s' : sstep m s = SStop w s' → goes m s (OStop w s').
  Lemma goes_bind {A B} (m : M A) (f : A → M B) s o : goes m s o → (∀ a s, goes (f a) s (f a s)) →
    goes (Bind m f) s (match o with ORet a s => f a s | OErr e s => OErr e s | OStop w s => OStop w s end).
  Proof.
    intros H Hf. induction H as [m s p s' o H _ IH|m s a s' H|m s e s' H|m s w s' H].
    - eapply go_more; [cbn; by rewrite H|exact IH].
    - eapply go_more; [cbn; by rewrite H|apply Hf].
    - apply go_err. cbn. by rewrite H.
    - apply go_stop. cbn. by rewrite H.
  Qed.
  Lemma goes_try {A} (m : M A) (h : err → M A) s o : goes m s o → (∀ e s, goes (h e) s (h e s)) →
    goes (Try m h) s (match o with ORet a s => ORet a s | OErr e s => h e s | OStop w s => OStop w s end).
  Proof.
    intros H Hf. induction H as [m s p s' o H _ IH|m s a s' H|m s e s' H|m s w s' H].
    - eapply go_more; [cbn; by rewrite H|exact IH].
    - apply go_ret. cbn. by rewrite H.
    - eapply go_more; [cbn; by rewrite H|apply Hf].
    - apply go_stop. cbn. by rewrite H.
  Qed.
  Lemma goes_run {A} (m : M A) s : goes m s (m s).
  Proof.
    revert s. induction m as [A f|A B m IHm f IHf|A m IHm h IHh]; intros s; cbn [run].
    - destruct (f s) eqn:E; [apply go_ret|apply go_err|apply go_stop]; cbn; by rewrite E.
    - by apply goes_bind.
    - pose proof (goes_try m h s (m s) (IHm s) IHh) as H. by destruct (m s).
  Qed.
  Lemma goes_fun {A} (m : M A) s o o' : goes m s o → goes m s o' → o = o'.
  Proof. intros H. revert o'. induction H; intros o'; inversion 1; subst; try congruence. apply IHgoes. congruence. Qed.
  (** what is left of a program after one of its steps *)
  Definition rem {A} (p m : M A) : Prop := ∃ s s', sstep m s = SMore p s'.
  Lemma rem_wf {A} (m : M A) : Acc rem m.
  Proof.
    induction m as [A f|A B m IHm f IHf|A m IHm h IHh].
    - constructor. intros p (s & s' & H). cbn in H. by destruct (f s).
    - induction IHm as [m _ IH]. constructor. intros p (s & s' & H). cbn in H.
      destruct (sstep m s) as [p1 s1|a s1|e s1|w s1] eqn:E; simplify_eq; [|by auto]. apply IH. by exists s, s'.
    - induction IHm as [m _ IH]. constructor. intros p (s & s' & H). cbn in H.
      destruct (sstep m s) as [p1 s1|a s1|e s1|w s1] eqn:E; simplify_eq; [|by auto]. apply IH. by exists s, s'.
  Qed.
End step.

(** ** Threads *)
(** [Runs c t p cbs]: in the middle of [c], on tree [t]; [p] is left to do, and
    [cbs] are the callbacks made so far *)
Inductive thread (K V : Type) :=
  | Idle | Waits (c : cmd K V) | Runs (c : cmd K V) (t : tid) (p : M K V (result K V)) (cbs : list bool).
Arguments Idle {_ _}. Arguments Waits {_ _}. Arguments Runs {_ _}.
Record config (K V : Type) := Config { cf_st : st K V; cf_ths : list (thread K V) }.
Arguments Config {_ _}. Arguments cf_st {_ _}. Arguments cf_ths {_ _}.
(** what can be seen: thread [j] makes a call, the call gets its lock, returns,
    returns an error; the process dies, inside a callback of thread [j] or
    anywhere *)
Inductive label (K V : Type) :=
  | LCall (j : nat) (c : cmd K V) | LStart (j : nat) (c : cmd K V) | LStep (j : nat)
  | LDone (j : nat) (c : cmd K V) (r : result K V) (cbs : list bool)
  | LFailed (j : nat) (c : cmd K V) (e : err) (cbs : list bool)
  | LDied (j : nat) (c : cmd K V) | LKilled.
Arguments LCall {_ _}. Arguments LStart {_ _}. Arguments LStep {_ _}. Arguments LDone {_ _}. Arguments LFailed {_ _}.
Arguments LDied {_ _}. Arguments LKilled {_ _}.

Section threads.
  Context {K V : Type}.
  Variable cb : callbacks K V.
  Notation st := (st K V).
  Notation M := (M K V).
  Notation cmd := (cmd K V).
  Notation thread := (thread K V).
  Notation config := (config K V).

  (** the tree a call is about *)
  Definition tree_of (s : st) (c : cmd) : option tid :=
    match c with
    | MapCall t _ | Flush t _ | Purge t _ | Touch t | TouchItem t _ | Prune t | Discard t
    | LayoutReport t | DimensionsReport t | Validate t | Dump t | FetchLocation t => Some t
    | DrainEvict n => b_tree <$> nodes s !! n
    | NewTree _ _ | OldTree _ _ | Forget _ | UpdateLimits _ _ | DrainSelect => None
    end.
  (** btree.go:820-826: the one call on a tree that takes no lock *)
  Definition locks (c : cmd) : bool := match c with FetchLocation _ => false | _ => true end.
  (** calls that make a tree; calls that are one step *)
  Definition makes (c : cmd) : bool := match c with NewTree _ _ | OldTree _ _ => true | _ => false end.
  Definition short (c : cmd) : bool := match c with Forget _ | UpdateLimits _ _ | DrainSelect => true | _ => false end.

  Definition on (t : tid) (x : thread) : Prop := match x with Runs _ t' _ _ => t' = t | _ => False end.
  (** the lock of tree [t] is taken *)
  Definition holds_lock (t : tid) (x : thread) : Prop := match x with Runs c t' _ _ => t' = t ∧ locks c = true | _ => False end.
  Definition locked (ths : list thread) (t : tid) : Prop := ∃ j x, ths !! j = Some x ∧ holds_lock t x.

  Inductive cstep : config → label K V → config → Prop :=
    | c_call s ths j c : ths !! j = Some Idle →
        cstep (Config s ths) (LCall j c) (Config s (<[j := Waits c]> ths))
    (** the call gets its lock *)
    | c_start s ths j c t : ths !! j = Some (Waits c) → tree_of s c = Some t → (locks c = true → ¬ locked ths t) →
        cstep (Config s ths) (LStart j c) (Config s (<[j := Runs c t (exec cb c) []]> ths))
    (** a tree is made: its handle is the next free one *)
    | c_make s ths j c p s' : ths !! j = Some (Waits c) → makes c = true → sstep (exec cb c) s = SMore p s' →
        cstep (Config s ths) (LStart j c) (Config s' (<[j := Runs c (fresh s) p (made s s')]> ths))
    | c_step s ths j c t p cbs p' s' : ths !! j = Some (Runs c t p cbs) → sstep p s = SMore p' s' →
        cstep (Config s ths) (LStep j) (Config s' (<[j := Runs c t p' (cbs ++ made s s')]> ths))
    (** the last step; the lock is released *)
    | c_done s ths j c t p cbs r s' : ths !! j = Some (Runs c t p cbs) → sstep p s = SRet r s' →
        cstep (Config s ths) (LDone j c r (cbs ++ made s s')) (Config s' (<[j := Idle]> ths))
    | c_failed s ths j c t p cbs e s' : ths !! j = Some (Runs c t p cbs) → sstep p s = SErr e s' →
        cstep (Config s ths) (LFailed j c e (cbs ++ made s s')) (Config s' (<[j := Idle]> ths))
    (** a call that is a single step *)
    | c_short s ths j c r s' : ths !! j = Some (Waits c) → short c = true → exec cb c s = ORet r s' →
        cstep (Config s ths) (LDone j c r (made s s')) (Config s' (<[j := Idle]> ths))
    (** the end of the process, and a new one with new threads on the same storage *)
    | c_died s ths j c t p cbs s' lo hi n : ths !! j = Some (Runs c t p cbs) → sstep p s = SStop Crash s' →
        cstep (Config s ths) (LDied j c) (Config (reboot lo hi s') (replicate n Idle))
    | c_killed s ths lo hi n :
        cstep (Config s ths) LKilled (Config (reboot lo hi s) (replicate n Idle)).
End threads.

(** ** The specification: calls happen one at a time, in the order in which
    they return *)
Section spec.
  Context {K V : Type}.
  Variable cb : callbacks K V.
  Notation cmp := (cb_cmp cb).
  Variable dom : K → Prop.
  Variable domV : V → Prop.
  Notation world := (world K V).
  Notation label := (label K V).
  Notation thread := (thread K V).
  (** Prune and Discard give up the older versions as soon as they begin *)
  Definition begin (w : world) (c : cmd K V) : world :=
    match c with Prune t => upd w t forget | Discard t => upd w t forget_all | _ => w end.
  Definition cnext (w : world) (l : label) : world :=
    match l with
    | LCall _ _ | LStep _ => w
    | LStart _ c => begin w c
    | LDone _ c r cbs => next_done cmp w c r cbs
    | LFailed _ c _ _ => next_failed w c
    | LDied _ _ | LKilled => restart w
    end.
  Definition cafter (h : list label) : world := foldl cnext world0 h.
  (** What a program may do.  A call must be allowed ([legal]) at the moment it
      gets its lock.  What no lock protects is up to the program: FetchLocation
      is not called while another call uses the tree (it may run together with
      the drainer and with other FetchLocations), no version is opened twice at
      the same time, and a handle is not dropped while it is still in use. *)
  Definition fetches (t : tid) (x : thread) : Prop := match x with Runs (FetchLocation t') _ _ _ => t' = t | _ => False end.
  Definition drains (x : thread) : Prop := match x with Runs (DrainEvict _) _ _ _ => True | _ => False end.
  Definition allowed (w : world) (ths : list thread) (l : label) : Prop :=
    match l with
    | LStart j c => legal dom domV w c ∧
        match c with
        | FetchLocation t => ∀ k x, ths !! k = Some x → on t x → fetches t x ∨ drains x
        | OldTree l _ => ∀ k l' a t p cbs, ths !! k = Some (Runs (OldTree l' a) t p cbs) → fst <$> fam_at w l' ≠ fst <$> fam_at w l
        | MapCall t _ | Flush t _ | Purge t _ | Touch t | TouchItem t _ | Prune t | Discard t
        | LayoutReport t | DimensionsReport t | Validate t | Dump t =>
            ∀ k x, ths !! k = Some x → ¬ fetches t x
        | _ => True
        end
    | LDone j (Forget t) _ _ => legal dom domV w (Forget t) ∧ ∀ k x, ths !! k = Some x → ¬ on t x
    | _ => True
    end.
  Definition cright (w : world) (l : label) : Prop :=
    match l with
    | LDone _ c r cbs => right_result cmp w c r cbs
    | LFailed _ c e cbs => right_error w c e cbs
    | LDied _ c => ¬ silent w c
    | _ => True
    end.
  Fixpoint calls_right (w : world) (h : list label) : Prop :=
    match h with [] => True | l :: h => cright w l ∧ calls_right (cnext w l) h end.

  (** Every life of a program with threads in which the rules were kept. *)
  Inductive reach : list label → config K V → Prop :=
    | reach_boot lo hi o n : reach [] (Config (boot lo hi o) (replicate n Idle))
    | reach_step h cf l cf' : reach h cf → cstep cb cf l cf' → allowed (cafter h) (cf_ths cf) l → reach (h ++ [l]) cf'.
End spec.

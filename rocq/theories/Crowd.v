(** * What the clients of several threads see

    Small definitions, independent of the model, used in the statements about
    threads.  No code is modelled here. *)
From Coq Require Import ssreflect.
From stdpp Require Import prelude list gmap.
From Verif Require Import Spec BTree Machine Client Threads.
Open Scope Z_scope.

Section crowd.
  Context {K V : Type}.
  Variable cb : callbacks K V.
  Notation label := (label K V).
  Notation event := (event K V).
  Notation world := (world K V).
  Notation thread := (thread K V).
  Notation config := (config K V).
  Implicit Types (w : world) (l : label) (h : list label) (t : tid).

  (** what came back, in the order in which it came back *)
  Definition event_of l : option event :=
    match l with
    | LDone _ c r cbs => Some (Done c r cbs)
    | LFailed _ c e cbs => Some (Failed c e cbs)
    | LDied _ c => Some (Died c)
    | LKilled => Some Restart
    | LCall _ _ | LStart _ _ | LStep _ => None
    end.
  Definition returns h : list event := omap event_of h.
  (** which tree gives up its older versions: Prune or Discard began or ended *)
  Definition drops l : option tid :=
    match l with
    | LStart _ (Prune t) | LStart _ (Discard t) => Some t
    | _ => event_of l ≫= gives_up
    end.
  Fixpoint keeps_all (i : nat) w h : Prop :=
    match h with
    | [] => True
    | l :: h => (∀ t, drops l = Some t → ¬ handle_of w i t) ∧ keeps_all i (cnext cb w l) h
    end.
  (** the thread that moves *)
  Definition mover l : option nat :=
    match l with LStart j _ | LStep j | LDone j _ _ _ | LFailed j _ _ _ | LDied j _ => Some j | LCall _ _ | LKilled => None end.
  (** Thread [j] can go on by itself: there is a next step, or it is inside a
      callback that never returns (the model's [Env]: storage that keeps no
      promise). *)
  Definition can_move (cf : config) (j : nat) : Prop :=
    (∃ l cf', cstep cb cf l cf' ∧ mover l = Some j) ∨
    ∃ c t p cbs s', cf_ths cf !! j = Some (Runs c t p cbs) ∧ sstep p (cf_st cf) = SStop Env s'.
  (** a call of thread [j] begins or ends *)
  Definition edge (j : nat) l : Prop :=
    match l with
    | LCall k _ | LDone k _ _ _ | LFailed k _ _ _ => k = j
    | LDied _ _ | LKilled => True
    | LStart _ _ | LStep _ => False
    end.
  (** FetchLocation, which takes no lock, at any time: [reach] (Threads.v)
      without the rules about it. *)
  Variable dom : K → Prop.
  Variable domV : V → Prop.
  Definition allowed_free w (ths : list thread) l : Prop :=
    match l with
    | LStart j c => legal dom domV w c ∧
        match c with
        | OldTree l _ => ∀ k (lo : loc) a t p cbs, ths !! k = Some (Runs (OldTree lo a) t p cbs) → fst <$> fam_at w lo ≠ fst <$> fam_at w l
        | _ => True
        end
    | LDone j (Forget t) _ _ => legal dom domV w (Forget t) ∧ ∀ k x, ths !! k = Some x → ¬ on t x
    | _ => True
    end.
  Inductive free : list label → config → Prop :=
    | free_boot lo hi o n : free [] (Config (boot lo hi o) (replicate n Idle))
    | free_step h cf l cf' : free h cf → cstep cb cf l cf' → allowed_free (cafter cb h) (cf_ths cf) l → free (h ++ [l]) cf'.
  Lemma reach_free h cf : reach cb dom domV h cf → free h cf.
  Proof.
    induction 1 as [lo hi o n|h cf l cf' _ IH Hst Hal]; [constructor|]. eapply free_step; [done|done|].
    destruct l; try done. destruct Hal as [Hl Hc]. split; [done|]. by destruct c.
  Qed.
  (** what is said about results when FetchLocation may return anything *)
  Definition fetch_call (c : cmd K V) : bool := match c with FetchLocation _ => true | _ => false end.
  Definition fetcher (x : thread) : Prop := match x with Runs c _ _ _ => fetch_call c = true | _ => False end.
  Definition right_free w l : Prop := match l with LDone _ (FetchLocation _) _ _ => True | _ => cright cb w l end.
  Fixpoint all_right w h : Prop := match h with [] => True | l :: h => right_free w l ∧ all_right (cnext cb w l) h end.
End crowd.

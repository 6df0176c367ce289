(** * Property theorems: keys that Compare rejects (C49, C50)

    [alien cb dom k] (Foreign.v): Compare fails for [k] and any key the program
    uses otherwise.  [with_key k c] (Strangers.v): [c] is Put, GetByKey,
    PatchByKey, DeleteByKey, BisectLeft or BisectRight with the key [k].
    [carries_on cb dom domV w s] (Strangers.v): whatever the program does from
    state [s] on, within the rules, every call answers as it should in the world
    [w] (Machine.v: which trees there are, what is in them and what is stored). *)
From Coq Require Import ssreflect.
From stdpp Require Import prelude list gmap.
From Verif Require Import Spec BTree Wp Codec Machine Client Sample Runs Foreign Strangers.
Open Scope Z_scope.

(** ** C49 *)
(** On a tree with entries the call fails, with the error of Compare unless a
    storage callback failed.  Nothing the program sees later depends on the call:
    the world is as before, except that after PatchByKey it is the world after a
    failed Touch, in which the tree's contents and all that is stored are the
    same, but the next Flush may find something to write. *)
Theorem C49_foreign_key :
  ∀ (K V : Type) (cb : callbacks K V) (dom : K → Prop) (domV : V → Prop), wf_cb cb dom domV →
  ∀ hi s t m k (c : call K V), history cb dom domV hi s → contents (after (cb_cmp cb) hi) t = Some m → m ≠ [] →
  alien cb dom k → with_key k c →
  match exec cb (MapCall t c) s with
  | ORet _ _ => False
  | OErr e s' => (e = ECmp ∨ e = EIO ∧ true ∈ made s s') ∧
      carries_on cb dom domV (match c with
        | CPatchByKey _ _ => next (cb_cmp cb) (after (cb_cmp cb) hi) (Failed (Touch t) EIO [true])
        | _ => after (cb_cmp cb) hi end) s'
  | OStop Crash s' => ∀ lo hi', carries_on cb dom domV (next (cb_cmp cb) (after (cb_cmp cb) hi) Restart) (reboot lo hi' s')
  | OStop Env _ => True
  | OStop _ _ => False
  end.
Proof. exact @stranger. Qed.
Print Assumptions C49_foreign_key.
(** The world after a failed Touch has the contents and the stored versions of
    the world before. *)
Theorem C49_touch_keeps :
  ∀ (K V : Type) (cmp : K → K → option Z) (w : world K V) t,
  let w' := next cmp w (Failed (Touch t) EIO [true]) in
  (∀ t', contents w' t' = contents w t') ∧ ∀ l, stored_version w' l = stored_version w l.
Proof. exact @touch_keeps. Qed.
Print Assumptions C49_touch_keeps.

(** twelve entries in a tree of three levels, stored; the number 2^64 is no key.
    Every call with it fails and a Get afterwards finds its entry. *)
Definition alien_key : Z := 2 ^ 64.
Definition cmds (l : list (option (cmd Z Z))) : list (cmd Z Z) := omap id l.
Definition runX := pplay [] (cmds (twelve ++ [Some (Flush one true); on1 (CPut 13 130)])).
Example C49_nonvacuous : ∃ h s m, history p_cb fits fits h s ∧ contents (after p_cmp h) one = Some m ∧ length m = 13%nat ∧
  wf_cb p_cb fits fits ∧ alien p_cb fits alien_key ∧
  Forall (λ c, with_key alien_key c ∧ outcome (exec p_cb (MapCall one c) s) = inr (inl ECmp) ∧
      outcome (exec p_cb (MapCall one (CGetByKey 9)) (end_st (exec p_cb (MapCall one c) s))) = inl (RAns (RValue (Some 90))))
    [CPut alien_key 1; CGetByKey alien_key; CPatchByKey alien_key 1; CDeleteByKey alien_key; CBisectLeft alien_key; CBisectRight alien_key].
Proof.
  eexists. exists (final runX). eexists. split_and!.
  - apply pplay_is; [by vm_compute|reflexivity].
  - by vm_compute.
  - by vm_compute.
  - exact p_wf.
  - apply p_alien. by vm_compute.
  - repeat apply List.Forall_cons; try apply List.Forall_nil; (split; [reflexivity|split; by vm_compute]).
Qed.

(** ** C50 *)
(** A call that Compare rejects can leave a tree that was stored in full with
    something to write: PatchByKey does, on a tree of one node.  (GetByKey with
    the same key does not.) *)
Definition runY := pplay [] (cmds [Some (NewTree 4 true); on1 (CPut 1 10); on1 (CPut 2 20); Some (Flush one false)]).
Theorem C50_refused_call_keeps_stored_refuted : ∃ h s s1 s2 l1 l2,
  history p_cb fits fits h s ∧ alien p_cb fits alien_key ∧
  exec p_cb (FetchLocation one) s = ORet (RLoc l1) s ∧ 
  exec p_cb (MapCall one (CPatchByKey alien_key 1)) s = OErr ECmp s1 ∧
  exec p_cb (Flush one false) s1 = ORet (RLoc l2) s2 ∧ l1 ≠ l2 ∧ made s1 s2 ≠ [] ∧
  (∃ s3 s4, exec p_cb (MapCall one (CGetByKey alien_key)) s = OErr ECmp s3 ∧
    exec p_cb (Flush one false) s3 = ORet (RLoc l1) s4 ∧ made s3 s4 = []).
Proof.
  eexists. exists (final runY).
  exists (end_st (exec p_cb (MapCall one (CPatchByKey alien_key 1)) (final runY))).
  exists (end_st (exec p_cb (Flush one false) (end_st (exec p_cb (MapCall one (CPatchByKey alien_key 1)) (final runY))))).
  eexists. eexists. split_and!.
  - apply pplay_is; [by vm_compute|reflexivity].
  - apply p_alien. by vm_compute.
  - vm_compute. reflexivity.
  - apply outcome_err. by vm_compute.
  - apply outcome_ret. by vm_compute.
  - by vm_compute.
  - by vm_compute.
  - exists (end_st (exec p_cb (MapCall one (CGetByKey alien_key)) (final runY))).
    exists (end_st (exec p_cb (Flush one false) (end_st (exec p_cb (MapCall one (CGetByKey alien_key)) (final runY))))). split_and!.
    + apply outcome_err. by vm_compute.
    + apply outcome_ret. by vm_compute.
    + by vm_compute.
Qed.
Print Assumptions C50_refused_call_keeps_stored_refuted.

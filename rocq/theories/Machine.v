(** * Histories of a running program, and what they should look like

    [steps] is every possible life of a program that uses the package: any
    sequence of calls on any number of trees sharing one cache, background
    evictions in between, failing callbacks, and the process dying at any
    callback or between calls.  [world] is a small specification of the same
    thing: families of versions of plain sorted lists.

    The definitions in this file model no code of their own; [exec] only names
    the entry points of BTree.v. *)
From Coq Require Import ssreflect.
From stdpp Require Import prelude list gmap.
From Verif Require Import Spec BTree.
Open Scope Z_scope.

(** ** Everything that can be asked of the package *)
Inductive cmd (K V : Type) :=
  | NewTree (max : Z) (attach : bool)
  | OldTree (l : loc) (attach : bool)
  | MapCall (t : tid) (c : call K V)
  | Flush (t : tid) (andPurge : bool)
  | Purge (t : tid) (full : bool)
  | Touch (t : tid)
  | TouchItem (t : tid) (i : Z)
  | Prune (t : tid)
  | Discard (t : tid)
  | LayoutReport (t : tid)
  | DimensionsReport (t : tid)
  | Validate (t : tid)
  | Dump (t : tid)
  | FetchLocation (t : tid)
  (** the program drops the handle *)
  | Forget (t : tid)
  | UpdateLimits (low high : Z)
  (** one round of the background drainer: under the cache lock it selects a
      node, later, under that node's tree lock, it evicts it *)
  | DrainSelect
  | DrainEvict (n : nid).
Arguments NewTree {_ _}. Arguments OldTree {_ _}. Arguments MapCall {_ _}.
Arguments Flush {_ _}. Arguments Purge {_ _}. Arguments Touch {_ _}. Arguments TouchItem {_ _}.
Arguments Prune {_ _}. Arguments Discard {_ _}. Arguments LayoutReport {_ _}.
Arguments DimensionsReport {_ _}. Arguments Validate {_ _}. Arguments Dump {_ _}. Arguments FetchLocation {_ _}. Arguments Forget {_ _}.
Arguments UpdateLimits {_ _}. Arguments DrainSelect {_ _}. Arguments DrainEvict {_ _}.

Inductive result (K V : Type) :=
  | RTree (t : tid) | RAns (a : answer K V) | RLoc (l : loc) | RUnit | RPos (i : Z)
  | RLayout (r : report) | RDim (d : dimensions) | RValid (ok : bool) | RVictim (n : option nid)
  | RDump (ls : list (dline K V)).
Arguments RTree {_ _}. Arguments RAns {_ _}. Arguments RLoc {_ _}. Arguments RUnit {_ _}.
Arguments RPos {_ _}. Arguments RLayout {_ _}. Arguments RDim {_ _}. Arguments RValid {_ _}.
Arguments RVictim {_ _}. Arguments RDump {_ _}.

(** What was seen of one call: it returned, returned an error, or the process
    died inside it; [cbs] lists the storage callbacks it made, [true] for each
    one that failed. *)
Inductive event (K V : Type) :=
  | Done (c : cmd K V) (r : result K V) (cbs : list bool)
  | Failed (c : cmd K V) (e : err) (cbs : list bool)
  | Died (c : cmd K V)
  (** the process died, or was stopped, between two calls *)
  | Restart.
Arguments Done {_ _}. Arguments Failed {_ _}. Arguments Died {_ _}. Arguments Restart {_ _}.

Section machine.
  Context {K V : Type}.
  Variable cb : callbacks K V.
  Notation st := (st K V).
  Notation M := (M K V).
  Notation "'let*' x := m 'in' e" := (bind m (fun x => e))
    (at level 200, x name, m at level 100, e at level 200, right associativity).

  Definition exec (c : cmd K V) : M (result K V) :=
    match c with
    | NewTree max attach => let* t := bt_New max attach in ret (RTree t)
    | OldTree l attach => let* t := bt_Old cb l attach in ret (RTree t)
    | MapCall t c => let* a := bt_call cb t c in ret (RAns a)
    | Flush t ap => let* l := bt_Flush cb t ap in ret (RLoc l)
    | Purge t full => let* _ := bt_Purge t full in ret RUnit
    | Touch t => let* _ := bt_Touch cb t in ret RUnit
    | TouchItem t i => let* j := bt_TouchItem cb t i in ret (RPos j)
    | Prune t => let* _ := bt_Prune t in ret RUnit
    | Discard t => let* _ := bt_Discard cb t in ret RUnit
    | LayoutReport t => let* r := bt_FetchLayoutReport cb t in ret (RLayout r)
    | DimensionsReport t => let* d := bt_FetchDimensionsReport cb t in ret (RDim d)
    | Validate t => let* ok := bt_Validate cb t in ret (RValid ok)
    | Dump t => let* x := bt_Dump cb t in ret (RDump x.1)
    | FetchLocation t => let* l := bt_FetchLocation t in ret (RLoc l)
    | Forget _ => ret RUnit
    | UpdateLimits low high => let* _ := cache_UpdateLimits low high in ret RUnit
    | DrainSelect => let* n := drainerSelect in ret (RVictim n)
    | DrainEvict n => let* _ := drainerEvict n in ret RUnit
    end.

  (** the callbacks made between two states *)
  Definition made (s s' : st) : list bool :=
    (λ i, ch_fail (orc s i)) <$> seq (iocount s) (iocount s' - iocount s).
  (** A new process: nothing in memory, a new cache, the same storage.  The
      callback the old process died at is not part of the new one's life. *)
  Definition reboot (low high : Z) (s : st) : st :=
    St ∅ ∅ ∅ ∅ (newCache low high) (disk s) (orc s) (S (iocount s)) (fresh s).
  Definition boot (low high : Z) (o : nat → choice) : st :=
    St ∅ ∅ ∅ ∅ (newCache low high) ∅ o 0 1.

  Inductive steps : st → list (event K V) → st → Prop :=
    | steps_nil s : steps s [] s
    | steps_done s c r s1 h s' : exec c s = ORet r s1 → steps s1 h s' →
        steps s (Done c r (made s s1) :: h) s'
    | steps_failed s c e s1 h s' : exec c s = OErr e s1 → steps s1 h s' →
        steps s (Failed c e (made s s1) :: h) s'
    | steps_died s c s1 low high h s' : exec c s = OStop Crash s1 → steps (reboot low high s1) h s' →
        steps s (Died c :: h) s'
    | steps_restart s low high h s' : steps (reboot low high s) h s' → steps s (Restart :: h) s'.
End machine.

(** of the lines of a Dump: the entries, and where the nodes it shows are
    stored *)
Definition printed {K V} (ls : list (dline K V)) : list (K * V) :=
  omap (λ x, match x with DItem _ k v => Some (k, v) | _ => None end) ls.
Definition shown {K V} (ls : list (dline K V)) : list loc :=
  omap (λ x, match x with DNode _ l _ _ _ _ => if lnum l =? 0 then None else Some l | _ => None end) ls.

(** ** The specification *)
Section spec.
  Context {K V : Type}.
  Variable cmp : K → K → option Z.
  Variable dom : K → Prop.
  Variable domV : V → Prop.
  Notation items := (list (K * V)).

  (** is the tree, as it is now, stored somewhere?  [Unsure]: a Touch failed
      half way *)
  Inductive cond := Stored (l : loc) | Modified | Unsure.
  (** a tree in use; [lv_broken]: a call failed in a way the package does not
      recover from, so the tree must not be used any more in this process *)
  Record live := Live { lv_tree : tid; lv_items : items; lv_cond : cond; lv_broken : bool }.
  (** what else of a tree may be left: [Exact]: nothing, all its life has been
      in one process and one handle; [Tidy]: blocks on storage that no tree
      refers to; [Lost]: also nodes in memory of a handle that was dropped *)
  Inductive rest := Exact | Tidy | Lost.
  Definition loosen (x : rest) : rest := match x with Exact => Tidy | _ => x end.
  (** all versions of one tree: the one in use, if any, and those stored by
      Flush, by location *)
  Record family := Family { fm_min : Z; fm_live : option live; fm_snaps : gmap loc items; fm_rest : rest }.
  Record world := World { w_fams : list family; w_chosen : gset nid }.
  Definition world0 : world := World [] ∅.

  Definition has_tree (t : tid) (f : family) : Prop :=
    match fm_live f with Some lv => lv_tree lv = t | None => False end.
  Global Instance has_tree_dec t f : Decision (has_tree t f).
  Proof. unfold has_tree. destruct (fm_live f); apply _. Defined.
  Definition has_snap (l : loc) (f : family) : Prop := is_Some (fm_snaps f !! l).
  (** the family of a tree in use, of a stored version *)
  Definition fam_of (w : world) (t : tid) : option (nat * family) := list_find (has_tree t) (w_fams w).
  Definition fam_at (w : world) (l : loc) : option (nat * family) := list_find (has_snap l) (w_fams w).

  Definition set_fam (i : nat) (f : family) (w : world) : world := World (<[i := f]> (w_fams w)) (w_chosen w).
  Definition upd (w : world) (t : tid) (F : family → live → family) : world :=
    match fam_of w t with
    | Some (i, f) => match fm_live f with Some lv => set_fam i (F f lv) w | None => w end
    | None => w
    end.
  Definition set_cond (x : cond) (f : family) (lv : live) : family :=
    Family (fm_min f) (Some (Live (lv_tree lv) (lv_items lv) x (lv_broken lv))) (fm_snaps f) (fm_rest f).
  Definition set_items (m : items) (x : cond) (f : family) (lv : live) : family :=
    Family (fm_min f) (Some (Live (lv_tree lv) m x (lv_broken lv))) (fm_snaps f) (fm_rest f).
  Definition break (f : family) (lv : live) : family :=
    Family (fm_min f) (Some (Live (lv_tree lv) (lv_items lv) (lv_cond lv) true)) (fm_snaps f) (fm_rest f).
  (** Prune and Discard give up the older versions *)
  Definition current (lv : live) : gmap loc items :=
    match lv_cond lv with Stored l => {[ l := lv_items lv ]} | _ => ∅ end.
  Definition forget (f : family) (lv : live) : family := Family (fm_min f) (fm_live f) (current lv) (fm_rest f).
  Definition forget_all (f : family) (lv : live) : family := Family (fm_min f) (fm_live f) ∅ (fm_rest f).

  Definition is_delete (c : call K V) : bool :=
    match c with CDeleteByKey _ | CDeleteByIndex _ => true | _ => false end.
  (** Does a call that returned [a] leave the tree modified?  (PatchByKey marks
      nodes as modified even when the key is absent.) *)
  Definition modifies (c : call K V) (a : answer K V) : bool :=
    match c, a with
    | CPatchByKey _ _, _ => true
    | (CPut _ _ | CPatchByIndex _ _ | CDeleteByKey _ | CDeleteByIndex _), ROk ok => ok
    | _, _ => false
    end.

  (** *** What each event does to the world *)
  Definition close (f : family) : family := Family (fm_min f) None (fm_snaps f) Tidy.
  Definition restart (w : world) : world := World (close <$> w_fams w) ∅.
  Definition next_done (w : world) (c : cmd K V) (r : result K V) (cbs : list bool) : world :=
    match c, r with
    | NewTree max _, RTree t =>
        World (w_fams w ++ [Family (max / 2) (Some (Live t [] Modified false)) ∅ Exact]) (w_chosen w)
    | OldTree l _, RTree t =>
        match fam_at w l with
        | Some (i, f) =>
            set_fam i (Family (fm_min f) (Some (Live t (default [] (fm_snaps f !! l)) (Stored l) false)) (fm_snaps f) (loosen (fm_rest f))) w
        | None => w
        end
    | MapCall t c, _ =>
        upd w t (λ f lv, let '(m, a) := spec_call cmp (lv_items lv) c in
                         set_items m (if modifies c a then Modified else lv_cond lv) f lv)
    | Flush t _, RLoc l =>
        upd w t (λ f lv, Family (fm_min f) (Some (Live (lv_tree lv) (lv_items lv) (Stored l) (lv_broken lv)))
                           (<[l := lv_items lv]> (fm_snaps f)) (fm_rest f))
    | Touch t, _ => upd w t (set_cond Modified)
    | TouchItem t i, _ =>
        upd w t (λ f lv, set_cond (if i <? Z.of_nat (length (lv_items lv)) then Modified else lv_cond lv) f lv)
    | Prune t, _ => upd w t forget
    | Discard t, _ =>
        upd w t (λ f lv, if existsb id cbs then break (forget_all f lv) lv
                         else Family (fm_min f) None ∅ (fm_rest f))
    | Forget t, _ => upd w t (λ f lv, Family (fm_min f) None (fm_snaps f) Lost)
    | DrainSelect, RVictim (Some n) => World (w_fams w) ({[n]} ∪ w_chosen w)
    | _, _ => w
    end.
  Definition next_failed (w : world) (c : cmd K V) : world :=
    match c with
    | MapCall t c => if is_delete c then upd w t break else w
    | Touch t => upd w t (λ f lv, set_cond (match lv_cond lv with Modified => Modified | _ => Unsure end) f lv)
    | Prune t => upd w t (λ f lv, break (forget f lv) lv)
    | Discard t => upd w t (λ f lv, break (forget_all f lv) lv)
    | _ => w
    end.
  Definition next (w : world) (e : event K V) : world :=
    match e with
    | Done c r cbs => next_done w c r cbs
    | Failed c _ _ => next_failed w c
    | Died c =>
        restart (match c with Prune t => upd w t forget | Discard t => upd w t forget_all | _ => w end)
    | Restart => restart w
    end.
  Definition after (h : list (event K V)) : world := foldl next world0 h.

  (** *** What a program may ask for *)
  Definition usable (w : world) (t : tid) (f : family) (lv : live) : Prop :=
    ∃ i, fam_of w t = Some (i, f) ∧ fm_live f = Some lv ∧ lv_broken lv = false.
  Definition unbroken (f : family) : Prop := fm_rest f ≠ Lost ∧ ∀ lv, fm_live f = Some lv → lv_broken lv = false.
  Definition legal (w : world) (c : cmd K V) : Prop :=
    match c with
    | NewTree max _ => 4 ≤ max ∧ Z.even max = true
    | OldTree l _ => ∃ i f, fam_at w l = Some (i, f) ∧ fm_live f = None
    | MapCall t c => (∃ f lv, usable w t f lv) ∧ Forall dom (call_keys c) ∧
        match c with CPut _ v | CPatchByKey _ v | CPatchByIndex _ v => domV v | _ => True end
    | TouchItem t i => (∃ f lv, usable w t f lv) ∧ 0 ≤ i
    | Flush t _ | Purge t _ | Touch t | Prune t | Discard t | LayoutReport t
    | DimensionsReport t | Validate t | Dump t | FetchLocation t => ∃ f lv, usable w t f lv
    | Forget t => is_Some (fam_of w t)
    | UpdateLimits _ _ | DrainSelect => True
    | DrainEvict n => n ∈ w_chosen w ∧ Forall unbroken (w_fams w)
    end.
  Definition legal_event (w : world) (e : event K V) : Prop :=
    match e with Done c _ _ | Failed c _ _ | Died c => legal w c | Restart => True end.
  (** every call of the history was allowed when it was made *)
  Fixpoint obeys (w : world) (h : list (event K V)) : Prop :=
    match h with [] => True | e :: h => legal_event w e ∧ obeys (next w e) h end.

  (** *** What must come back *)
  Definition right_result (w : world) (c : cmd K V) (r : result K V) (cbs : list bool) : Prop :=
    match c with
    | NewTree _ _ => ∃ t, r = RTree t ∧ fam_of w t = None ∧ cbs = []
    | OldTree _ _ => ∃ t, r = RTree t ∧ fam_of w t = None
    | MapCall t c => ∀ f lv, usable w t f lv → r = RAns (spec_call cmp (lv_items lv) c).2
    | Flush t _ => ∀ f lv, usable w t f lv →
        ∃ l, r = RLoc l ∧ match lv_cond lv with Stored l' => l = l' ∧ cbs = [] | _ => True end ∧
          ∀ j g m, w_fams w !! j = Some g → fm_snaps g !! l = Some m → fam_of w t = Some (j, g) ∧ m = lv_items lv
    | Purge t full => r = RUnit ∧ cbs = [] ∧ ∀ f lv, usable w t f lv → full = true → lv_cond lv ≠ Modified
    | Touch _ | Prune _ | Discard _ => r = RUnit
    | TouchItem t i => ∀ f lv, usable w t f lv →
        ∃ j, r = RPos j ∧ if i <? Z.of_nat (length (lv_items lv)) then i < j ≤ Z.of_nat (length (lv_items lv)) else j = 0
    | LayoutReport t => ∃ R, r = RLayout R
    | DimensionsReport t => ∀ f lv, usable w t f lv →
        ∃ height : nat, r = RDim (Dimensions (fm_min f) (2 * fm_min f) (Z.of_nat (length (lv_items lv))) (Z.of_nat height)) ∧
          (1 ≤ height)%nat ∧ (height = 1%nat ∨ 2 * fm_min f ^ (Z.of_nat height - 1) ≤ Z.of_nat (length (lv_items lv)))
    | Validate t => r = RValid true
    | Dump t => ∀ f lv, usable w t f lv →
        ∃ ls, r = RDump ls ∧ printed ls `sublist_of` lv_items lv ∧ (true ∉ cbs → printed ls = lv_items lv)
    | FetchLocation t => ∀ f lv, usable w t f lv →
        ∃ l, r = RLoc l ∧ cbs = [] ∧ match lv_cond lv with Stored l' => l = l' | Modified => l = noloc | Unsure => True end
    | Forget _ => r = RUnit ∧ cbs = []
    | UpdateLimits _ _ => r = RUnit ∧ cbs = []
    | DrainSelect => ∃ n, r = RVictim n ∧ cbs = []
    | DrainEvict _ => r = RUnit ∧ cbs = []
    end.
  (** calls that use no storage callback *)
  Definition silent (w : world) (c : cmd K V) : Prop :=
    match c with
    | NewTree _ _ | Purge _ _ | FetchLocation _ | Forget _ | UpdateLimits _ _ | DrainSelect | DrainEvict _ => True
    | Flush t _ => ∃ f lv l, usable w t f lv ∧ lv_cond lv = Stored l
    | _ => False
    end.
  (** the only errors are those of a failed callback, and Purge(true) of a tree
      with unsaved changes *)
  Definition right_error (w : world) (c : cmd K V) (e : err) (cbs : list bool) : Prop :=
    match c with
    | NewTree _ _ | FetchLocation _ | Forget _ | UpdateLimits _ _ | DrainSelect | DrainEvict _ => False
    | Purge t full => e = ELogic ∧ full = true ∧ cbs = [] ∧ ∀ f lv, usable w t f lv → ∀ l, lv_cond lv ≠ Stored l
    | _ => e = EIO ∧ true ∈ cbs ∧ ¬ silent w c
    end.
  Definition right (w : world) (e : event K V) : Prop :=
    match e with
    | Done c r cbs => right_result w c r cbs
    | Failed c e cbs => right_error w c e cbs
    | Died c => ¬ silent w c
    | Restart => True
    end.
  Fixpoint all_right (w : world) (h : list (event K V)) : Prop :=
    match h with [] => True | e :: h => right w e ∧ all_right (next w e) h end.
End spec.
Arguments live : clear implicits.
Arguments family : clear implicits.
Arguments world : clear implicits.

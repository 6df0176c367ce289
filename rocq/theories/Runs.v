(** * Concrete histories

    Used to show that the hypotheses of the property theorems are satisfiable,
    and for counterexamples.  Models no code. *)
From Coq Require Import ssreflect.
From stdpp Require Import prelude list gmap.
From Verif Require Import Spec BTree Machine Client Sample.
Open Scope Z_scope.

Definition one : tid := 1%positive.
Definition two : tid := 7%positive.
Definition on2 (c : call Z Z) : option (cmd Z Z) := Some (MapCall two c).
Definition twelve : list (option (cmd Z Z)) := Some (NewTree 4 true) :: puts [5;1;9;3;7;2;8;6;4;10;11;12].
Definition twelve_items : list (Z * Z) := (λ k, (k, 10 * k)) <$> [1;2;3;4;5;6;7;8;9;10;11;12].
(** splits, a Flush, evictions, merges, patches, and all kinds of maintenance *)
Definition runA := play [] [] (twelve ++
  [Some (Flush one true); on1 (CDeleteByKey 5); on1 (CGetByIndex 3); on1 (CBisectLeft 20); on1 (CBisectRight 5);
   Some (Purge one false); on1 (CPatchByKey 7 77); on1 (CGetByKey 7); Some (Validate one); Some (DimensionsReport one);
   on1 (CDeleteByIndex 0); on1 (CPut 9 1); on1 CLen; Some (Flush one false); Some (FetchLocation one);
   Some (TouchItem one 0); Some (Prune one)]).
(** the process dies inside the second Flush; the first one is opened again *)
Definition runB := play [] [10%nat] (twelve ++
  [Some (Flush one true); on1 (CDeleteByKey 5); on1 (CPut 20 20); Some (Flush one false);
   Some (OldTree (5, 0, 178) true); Some (MapCall 12%positive (CGetByKey 5)); Some (MapCall 12%positive CLen);
   Some (DimensionsReport 12%positive)]).
(** a failed Put, a failed Touch and a failed Flush *)
Definition runC := play [5;6;9]%nat [] (twelve ++
  [Some (Flush one true); on1 (CPut 20 200); Some (Touch one); on1 (CGetByKey 9); on1 (CPut 21 210); Some (Flush one false); on1 (CGetByKey 21)]).
(** two trees; the first one is damaged by a failed delete *)
Definition runD := play [7]%nat [] (twelve ++
  [Some (NewTree 6 true); on2 (CPut 3 3); on2 (CPut 4 4); Some (Flush one true); Some (Flush two false);
   Some (UpdateLimits 0 1); Some DrainSelect; on1 (CDeleteByKey 3);
   on2 (CPut 5 5); on2 (CGetByKey 4); on2 CLen]).
(** the same calls with and without evictions before them *)
Definition runE := play [] [] (twelve ++ [Some (Flush one false); Some (UpdateLimits 1 2)] ++
  [Some DrainSelect; Some (DrainEvict 2%positive); Some (Purge one true)] ++ [on1 (CGetByKey 5); on1 (CDeleteByKey 2); on1 CLen]).
Definition runE' := play [] [] (twelve ++ [Some (Flush one false); Some (UpdateLimits 1 2)] ++
  [on1 (CGetByKey 5); on1 (CDeleteByKey 2); on1 CLen]).
(** two Flushes, then Prune *)
Definition runP := play [] [] (twelve ++ [Some (Flush one true); on1 (CDeleteByKey 5); Some (Flush one false); Some (Prune one); None]).
(** a Flush, then calls that change nothing *)
Definition runF := play [] [] (twelve ++ [Some (Flush one true); on1 (CGetByKey 5); on1 (CPut 5 1); Some (Purge one true); on1 (CDeleteByKey 70); Some (Validate one)]).

(** a delete that fails while it restructures the tree *)
Definition fourteen : list (option (cmd Z Z)) :=
  Some (NewTree 4 true) :: puts [1;2;3;4;5;6;7;8;9;10;11;12;13;14] ++ [Some (Flush one true)].
Definition runG := play [14%nat] [] fourteen.
Definition runG1 := exec z_cb (MapCall one (CDeleteByKey 3)) (final runG).
Definition runG2 := exec z_cb (Purge one false) (end_st runG1).
Definition runG3 := exec z_cb (MapCall one (CGetByKey 4)) (end_st runG2).
Definition runH := play [14%nat] [] (fourteen ++ [on1 (CDeleteByKey 3); Some (Forget one)]).
(** Prune before the changes are stored *)
Definition runI := play [] [] (twelve ++ [Some (Flush one true); on1 (CPut 20 200); Some (Prune one); None]).
(** a failed Prune *)
Definition runJ := play [6%nat] [] (twelve ++ [Some (Flush one false); Some (Touch one)]).
Definition runJ1 := exec z_cb (Prune one) (final runJ).
Definition runJ2 := exec z_cb (Prune one) (end_st runJ1).
Definition runK := play [12%nat] [] (twelve ++ [Some (Flush one false); Some (Touch one); Some (Flush one false); Some (Prune one); Some (Forget one)]).
(** failed Discards *)
Definition runL := play [5%nat] [] (twelve ++ [Some (Flush one true)]).
Definition runL1 := exec z_cb (Discard one) (final runL).
Definition runM := play [10%nat] [] (twelve ++ [Some (Flush one true)]).
Definition runM1 := exec z_cb (Discard one) (final runM).
Definition runM2 := exec z_cb (Discard one) (end_st runM1).

(** a witness in normal form *)
Tactic Notation "give" uconstr(x) := let y := eval vm_compute in x in exists y.
(** [Forall P l] for a computed list [l] *)
Ltac each := vm_compute; repeat first [apply Forall_nil_2|apply Forall_cons_2]; intuition (congruence || discriminate).
(** [keeps_versions] of a list without Prune and Discard *)
Ltac kept := cbn [keeps_versions]; repeat match goal with |- _ ∧ _ => split end; first [exact I|by intros ? [=]].

(** two stored versions, then Touch, Flush and Prune *)
Definition runQ := play [] [] (twelve ++ [Some (Flush one true); on1 (CDeleteByKey 5); Some (Flush one false)]).
Definition runQ1 := exec z_cb (Touch one) (final runQ).
Definition runQ2 := exec z_cb (Flush one false) (end_st runQ1).
Definition runQ3 := exec z_cb (Prune one) (end_st runQ2).
(** a sweep of TouchItem calls instead of Touch *)
Definition runR0 := exec z_cb (TouchItem one 0) (final runQ).
Definition runR1 := exec z_cb (TouchItem one 3) (end_st runR0).
Definition runR2 := exec z_cb (TouchItem one 5) (end_st runR1).
Definition runR3 := exec z_cb (TouchItem one 7) (end_st runR2).
(** reports, with one modified leaf *)
Definition runS := play [] [] (twelve ++ [Some (Flush one true); on1 (CPatchByKey 5 1)]).
Definition runS1 := exec z_cb (LayoutReport one) (final runS).
Definition runS2 := exec z_cb (DimensionsReport one) (final runS).
(** two trees, both stored and changed since *)
Definition runT := play [] [] (twelve ++ [Some (NewTree 6 true); on2 (CPut 3 3); on2 (CPut 4 4); Some (Flush one true); Some (Flush two false); on1 (CDeleteByKey 5); on2 (CPut 5 5)]).
Definition runT1 := exec z_cb (Flush one true) (final runT).
Definition runT2 := exec z_cb (Prune one) (end_st runT1).
Definition runT3 := exec z_cb (Discard one) (final runT).
Definition runU := play [] [] (twelve ++ [Some (NewTree 6 true); on2 (CPut 3 3); on2 (CPut 4 4); Some (Flush one true); Some (Flush two false); on1 (CDeleteByKey 5); on2 (CPut 5 5); Some (Discard two); Some (Discard one)]).
(** two trees in the cache, and more nodes in it than it should have *)
Definition runDrain := play [] [] (twelve ++
  [Some (NewTree 6 true); on2 (CPut 3 3); on2 (CPut 4 4); Some (Flush one false); Some (Flush two false); on2 (CPut 5 5); on1 (CGetByKey 5);
   Some (UpdateLimits 3 4); Some DrainSelect]).
(** a Discard that could not read a node, and one that could not discard one either *)
Definition runSpin := play [7%nat] [] (twelve ++ [Some (NewTree 6 true); on2 (CPut 3 3); Some (Flush one true); Some (Discard one); Some (UpdateLimits 0 1); Some DrainSelect]).
Definition runSpin1 := exec z_cb (DrainEvict 4%positive) (final runSpin).
Definition runPanic := play [7%nat; 8%nat] [] (twelve ++ [Some (NewTree 6 true); on2 (CPut 3 3); Some (Flush one true); Some (Discard one); Some (UpdateLimits 0 1); Some DrainSelect]).
Definition runPanic1 := exec z_cb (DrainEvict 4%positive) (final runPanic).

(** damaged storage: the root block cut short, and with a byte more; two leaves
    exchanged; an inner node without children as the root *)
Definition rootQ : bytes := default [] (disk (final runQ) !! (11, 0, 178)).
Definition onQ (D : gmap loc bytes) := exec z_cb (OldTree (11, 0, 178) true) (set_disk D (final runQ)).
Definition runQc := onQ (<[(11, 0, 178) := take 138 rootQ]> (disk (final runQ))).
Definition runQl := onQ (<[(11, 0, 178) := rootQ ++ [0]]> (disk (final runQ))).
Definition newQ : tid := 11%positive.
Definition blockQ l : bytes := default [] (disk (final runQ) !! l).
Definition runV0 := onQ (<[(10, 0, 50) := blockQ (3, 0, 50)]> (<[(3, 0, 50) := blockQ (10, 0, 50)]> (disk (final runQ)))).
Definition runV1 := exec z_cb (Validate newQ) (end_st runV0).
Definition runV2 := exec z_cb (MapCall newQ (CGetByIndex 3)) (end_st runV1).
Definition runV3 := exec z_cb (MapCall newQ (CGetByKey 7)) (end_st runV2).
Definition hollow : bytes := u64 0 ++ [1; 0] ++ u64 4 ++ u64 0.
Definition runW0 := onQ (<[(11, 0, 178) := hollow]> (disk (final runQ))).
Definition runW1 := exec z_cb (MapCall newQ (CGetByKey 7)) (end_st runW0).
Definition runW2 := exec z_cb (MapCall newQ (CPut 7 7)) (end_st runW0).
Definition runW3 := exec z_cb (Validate newQ) (end_st runW0).

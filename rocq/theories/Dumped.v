(** * Dump over histories

    Models no code. *)
From Coq Require Import ssreflect.
From stdpp Require Import prelude list gmap.
From iris.bi Require Import bi.
From iris.proofmode Require Import proofmode.
From Verif Require Import Spec SpecFacts BTree HProp Lru Wp Kv Codec Ghost Order PsTree Rep Load Search Update Plug Insert Borrow Merge Rebal Api Walk Touch Maint Report Open Dumps Blame Pres Machine Still World Client Sample Disk Picture Hist Seat History Footprint.
Open Scope Z_scope.

Section dumped.
  Context {K V : Type}.
  Variable cb : callbacks K V.
  Variable dom : K → Prop.
  Variable domV : V → Prop.
  Hypothesis WF : wf_cb cb dom domV.
  Notation cmp := (cb_cmp cb).
  Notation st := (st K V).
  Notation gt := (gt K V).
  Notation history := (history cb dom domV).
  Notation after := (after cmp).
  Notation pictured := (pictured cb dom domV).
  Implicit Types (s : st) (g : gt) (l : loc) (t : tid).

  Theorem dump_exact hi s t m mn ca S h g r s' : history hi s → contents (after hi) t = Some m → pictured s t mn ca S h g →
    exec cb (Dump t) s = ORet r s' →
    ∃ ls, r = RDump ls ∧ printed ls `sublist_of` m ∧ Machine.shown ls `sublist_of` locs g ∧
      (true ∉ made s s' → printed ls = m ∧ Machine.shown ls = locs g) ∧
      ∃ g', pictured s' t mn ca S h g' ∧ strip g' = strip g ∧ locs g' = locs g.
  Proof using WF.
    intros HH Hm HP He. assert (legal dom domV (after hi) (Dump t)) as Hl by by eapply legal_call.
    destruct (hist_pic cb dom domV WF _ _ _ _ _ _ _ _ _ HH Hm HP) as (i & f & lv & root & σ & σf & Hon & Hits & -> & HS).
    destruct (hist_facts cb dom domV WF _ _ HH) as (_ & _ & HW). pose proof HS as [H1 H2 H3 H4 H5 H6 H7 H8].
    assert (cleanok g) as Hok by (eapply own_cleanok, HS). assert (pend g = []) as Hpe by (eapply tk_pend, HS).
    pose proof (bt_Dump_spec cb dom domV WF (mnof f) H1 t ca root S h g H2) as Hwp.
    pose proof (blames_run true _ _ _ _ _ ltac:(apply (entails_holds _ _ _ Hwp); exact H5) (bl_bt_Dump cb t) σf s H7 H8 (wi_inv _ _ _ _ _ HW)) as HB.
    pose proof (seat_run _ _ _ _ _ _ _ _ _ _ _ _ _ _ _ _ _ _ _ _ HW HS Hwp) as HR.
    cbn [exec] in He. rewrite run_bind in He. destruct (bt_Dump cb t s) as [x s1|e s1|w s1]; [|done..]. cbn in He. injection He as <- <-.
    destruct HR as (σ' & Hd & Hv & HX). apply holds_affine in HX as [((Hs1 & Hs2) & Hs3 & Hs4) (g' & HX)].
    apply holds_affine in HX as [[Ht' Hvw] HX]. pose proof (seat_moved _ _ _ _ _ _ _ _ _ _ _ _ _ _ _ _ _ _ _ _ _ _ HS Ht' HX Hd Hv) as [M1 M2 M3 M4 M5 M6].
    assert (pend g' = []) as Hpe' by (eapply tk_pend, M2).
    exists x.1. rewrite -Hits -H3 (locs_vw _ Hok Hpe). split_and!; [done..| |].
    - intros Hn. destruct x.2 as [e|] eqn:E; [|by apply Hs3]. rewrite (Hs4 e eq_refl) in HB. exfalso. by apply Hn, HB.
    - exists g'. split_and!; [done|by apply vw_strip|]. by rewrite locs_vw // Hvw.
  Qed.
  Theorem dump_ends h s t m : history h s → contents (after h) t = Some m →
    match exec cb (Dump t) s with
    | ORet r s' => ∃ ls, r = RDump ls ∧ (true ∉ made s s' → printed ls = m)
    | OErr e s' => e = EIO ∧ true ∈ made s s'
    | OStop x _ => x = Crash ∨ x = Env
    end.
  Proof using WF.
    intros HH Hm. pose proof (proj1 (contents_usable _ _ _) Hm) as (f & lv & Hu & Hits).
    pose proof (call_ends cb dom domV WF _ _ (Dump t) HH (usable_of _ _ _ Hm)) as HE.
    destruct (exec cb (Dump t) s) as [r s'|[] s'|[] s']; try done; try (by left); try by right.
    - destruct (HE f lv Hu) as (ls & -> & _ & Hall). exists ls. split; [done|]. by rewrite -Hits.
    - by split; [|apply HE].
    - by destruct HE as (? & [=] & _).
  Qed.
End dumped.

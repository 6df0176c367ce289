(** * Calls with keys that Compare rejects, over histories

    Models no code. *)
From Coq Require Import ssreflect.
From stdpp Require Import prelude list gmap.
From iris.bi Require Import bi.
From iris.proofmode Require Import proofmode.
From Verif Require Import Spec SpecFacts BTree HProp Lru Wp Kv Codec Ghost Order PsTree Rep Load Search Update Plug Insert Borrow Merge Rebal Api Walk Touch Maint Report Open Foreign Pres Machine Still World Client Sample Disk Picture Hist History.
Open Scope Z_scope.

(** [c] is a call with the key [k] *)
Definition with_key {K V} (k : K) (c : call K V) : Prop :=
  match c with CPut x _ | CGetByKey x | CPatchByKey x _ | CDeleteByKey x | CBisectLeft x | CBisectRight x => x = k | _ => False end.
(** from state [s] on, whatever a program does within the rules, every answer is
    the one that belongs to the world [w] *)
Definition carries_on {K V} (cb : callbacks K V) (dom : K → Prop) (domV : V → Prop) (w : world K V) (s : st K V) : Prop :=
  ∀ h s', steps cb s h s' → obeys (cb_cmp cb) dom domV w h → all_right (cb_cmp cb) w h.

Section strangers.
  Context {K V : Type}.
  Variable cb : callbacks K V.
  Variable dom : K → Prop.
  Variable domV : V → Prop.
  Hypothesis WF : wf_cb cb dom domV.
  Notation cmp := (cb_cmp cb).
  Notation st := (st K V).
  Notation history := (history cb dom domV).
  Notation after := (after cmp).
  Notation next := (next cmp).
  Notation winv := (winv cb dom domV).
  Notation carries_on := (carries_on cb dom domV).
  Implicit Types (s : st) (t : tid).

  Lemma winv_on w s : winv w s → carries_on w s.
  Proof using WF. intros HW h s' Hst Ho. by destruct (hist_ok cb dom domV WF w s h s' Hst HW Ho). Qed.
  Theorem stranger hi s t m k (c : call K V) : history hi s → contents (after hi) t = Some m → m ≠ [] → alien cb dom k → with_key k c →
    match exec cb (MapCall t c) s with
    | ORet _ _ => False
    | OErr e s' => (e = ECmp ∨ e = EIO ∧ true ∈ made s s') ∧
        carries_on (match c with CPatchByKey _ _ => next (after hi) (Failed (Touch t) EIO [true]) | _ => after hi end) s'
    | OStop Crash s' => ∀ lo hi', carries_on (next (after hi) Restart) (reboot lo hi' s')
    | OStop Env _ => True
    | OStop _ _ => False
    end.
  Proof using WF.
    intros HH Hm Hne Hal Hk. destruct (hist_facts cb dom domV WF _ _ HH) as (_ & _ & HW).
    pose proof (proj1 (contents_usable _ _ _) Hm) as (f & lv & Hu & Hits). destruct (ot_usable _ _ _ _ Hu) as [i Hon].
    set x := (match lv_cond lv with Modified => Modified | _ => Unsure end).
    set oe := TOut (lv_items lv) (if patch c then x else lv_cond lv) (fm_snaps f) false.
    unshelve epose proof (tree_step cb dom domV true (after hi) s t i f lv (bt_call cb t c) (λ _, False) (λ _, oe) (λ e, e = EIO ∨ e = ECmp) oe HW Hon _ _ _ _) as HT.
    { intros ca root S h g Hmn Ht Hi Hc. rewrite (call_alien cb dom domV WF (mnof f) Hmn t ca k Hal c root S h g Ht); [|by rewrite Hi Hits|by destruct c].
      iIntros "W". iApply (wp_wand with "W"). iSplit; [by iIntros|]. iIntros (e) "(%He & %S' & %g' & %HX & A & B)". destruct HX as (Ht' & Hs & Hv).
      iSplitR; [done|]. iApply (mk_out with "[$A $B]"); [done|by rewrite Hs|]. destruct Hv as [Hv|[-> Hv]].
      - pose proof (condok_vw _ _ _ Hv Hc) as Hc'. unfold x. destruct (patch c); [|done]. by destruct (lv_cond lv).
      - unfold x. by destruct (lv_cond lv). }
    { intros X. apply gr_bt_call. }
    { done. }
    { apply snapok_same. }
    unfold tree_post in HT. unfold exec, bind; cbn [BTree.run]. destruct (bt_call cb t c s) as [a s'|e s'|[] s']; try done.
    - by destruct HT as (_ & [] & _).
    - destruct HT as (Hq & Hca & He & HI). split.
      + destruct He as [->| ->]; [right|by left]. split; [done|by apply made_fail].
      + apply winv_on. pose proof (out_same (after hi) t i f lv Hon) as HE. unfold outfam, same_out in HE. cbn in HE.
        destruct c; cbn in Hk; try done; cbn [patch] in oe; unfold oe, outfam in HI; cbn in HI; try by rewrite HE in HI.
        cbn [Machine.next next_failed]. rewrite (ot_upd _ _ _ _ _ _ Hon) /set_cond. destruct Hon as [_ _ ->]. done.
    - destruct HT as [_ HT]. intros lo hi'. by apply winv_on.
  Qed.
End strangers.

Lemma touch_contents {K V} (cmp : K → K → option Z) (w : world K V) t t' : contents (next cmp w (Failed (Touch t) EIO [true])) t' = contents w t'.
Proof.
  cbn [next next_failed]. set F := (λ (f : family K V) (lv : live K V), _).
  assert (tame F) as HT. { intros f lv lv' H. cbn. intros H'. by simplify_eq. }
  destruct (decide (t = t')) as [<-|Hne]; [|by apply contents_upd_other].
  destruct (fam_of w t) as [[i f]|] eqn:E; [|by unfold upd; rewrite E].
  destruct (fm_live f) as [lv|] eqn:El; [|by unfold upd; rewrite E El].
  unfold contents. rewrite (upd_own w t i f lv F _ E El eq_refl eq_refl) E El. done.
Qed.
Lemma find_same {K V} l i (f f' : family K V) fs : fs !! i = Some f → fm_snaps f' = fm_snaps f →
  match list_find (has_snap l) (<[i := f']> fs) with Some (_, x) => fm_snaps x !! l | None => None end =
  match list_find (has_snap l) fs with Some (_, x) => fm_snaps x !! l | None => None end.
Proof.
  intros Hi Hs. revert i Hi. induction fs as [|a fs IH]; intros [|i] Hi; try done.
  - injection Hi as ->. cbn. assert (has_snap l f' ↔ has_snap l f) as HE by (unfold has_snap; by rewrite Hs). case_decide; case_decide; [by rewrite Hs|tauto|tauto|done].
  - cbn. case_decide; [done|]. specialize (IH i Hi). destruct (list_find _ (<[i:=f']> fs)) as [[]|], (list_find _ fs) as [[]|]; done.
Qed.
Lemma touch_stored {K V} (cmp : K → K → option Z) (w : world K V) t l : stored_version (next cmp w (Failed (Touch t) EIO [true])) l = stored_version w l.
Proof.
  cbn [next next_failed]. unfold upd. destruct (fam_of w t) as [[i f]|] eqn:E; [|done].
  destruct (fm_live f) as [lv|] eqn:El; [|done]. apply fam_of_Some in E as (Hi & _). by apply (find_same l i f).
Qed.
Lemma touch_keeps {K V} (cmp : K → K → option Z) (w : world K V) t :
  let w' := next cmp w (Failed (Touch t) EIO [true]) in (∀ t', contents w' t' = contents w t') ∧ ∀ l, stored_version w' l = stored_version w l.
Proof. split; intros; [apply touch_contents|apply touch_stored]. Qed.

(** ** A client whose Compare rejects numbers that are not 64-bit unsigned

    (as a Compare callback does that is given a key of the wrong type:
    api.go:29-70).  Used for examples. *)
Definition p_cmp (a b : Z) : option Z := if u64b a && u64b b then Some (a - b) else None.
Definition p_cb : callbacks Z Z := Callbacks p_cmp z_pack z_unpack z_pack z_unpack.
Lemma fits_u64b z : fits z → u64b z = true.
Proof. unfold u64b, fits. intros H. apply andb_true_intro. lia. Qed.
Lemma p_wf : wf_cb p_cb fits fits.
Proof.
  destruct z_wf as [[O1 O2 O3] P1 P2]. split; [|done|done]. cbn in *. unfold p_cmp. split.
  - intros x y Hx Hy. by rewrite !fits_u64b.
  - intros x y c Hx Hy. rewrite !fits_u64b //. exact (O2 x y c Hx Hy).
  - intros x y z c1 c2 Hx Hy Hz. rewrite !fits_u64b //. exact (O3 x y z c1 c2 Hx Hy Hz).
Qed.
Lemma p_alien k : u64b k = false → alien p_cb fits k.
Proof. intros H k0 _. cbn. unfold p_cmp. by rewrite H. Qed.
Fixpoint prun (w : world Z Z) (s : st Z Z) (cs : list (cmd Z Z)) : option (list (event Z Z) * st Z Z) :=
  match cs with
  | [] => Some ([], s)
  | c :: cs =>
      if allowed w c then
        match exec p_cb c s with
        | ORet r s1 => let e := Done c r (made s s1) in
            match prun (next p_cmp w e) s1 cs with Some (h, s') => Some (e :: h, s') | None => None end
        | _ => None
        end
      else None
  end.
Lemma prun_ok cs : ∀ w s h s', prun w s cs = Some (h, s') → steps p_cb s h s' ∧ obeys p_cmp fits fits w h.
Proof.
  induction cs as [|c cs IH]; intros w s h s' H; cbn in H.
  - injection H as <- <-. split; [constructor|done].
  - destruct (allowed w c) eqn:Ha; [|done]. apply allowed_ok in Ha. destruct (exec p_cb c s) as [r s1| |] eqn:E; try done.
    destruct (prun _ s1 cs) as [[h1 s2]|] eqn:R; [|done]. injection H as <- <-. destruct (IH _ _ _ _ R). split; [by constructor|done].
Qed.
Definition pplay (fails : list nat) (cs : list (cmd Z Z)) := prun world0 (boot 3 8 (storage fails [])) cs.
Lemma pplay_is f cs h : plays (pplay f cs) = true → events (pplay f cs) = h → history p_cb fits fits h (final (pplay f cs)).
Proof.
  intros H <-. unfold plays, events, final in *. destruct (pplay f cs) as [[h s]|] eqn:E; [|done]. exists 3, 8, (storage f []). by eapply prun_ok.
Qed.

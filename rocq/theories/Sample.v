(** * Running the model

    A concrete client (64-bit unsigned keys and values in little-endian) and an
    executable form of [steps] and [obeys], used to show that the hypotheses of
    the property theorems are met by real runs, and to exhibit failing runs.
    Models no code. *)
From Coq Require Import ssreflect.
From stdpp Require Import prelude list gmap.
From Verif Require Import Spec SpecFacts BTree Wp Codec Machine Client.
Open Scope Z_scope.

(** every life of a program that obeys the rules *)
Definition history {K V} (cb : callbacks K V) (dom : K → Prop) (domV : V → Prop) (h : list (event K V)) (s : st K V) : Prop :=
  ∃ low high o, steps cb (boot low high o) h s ∧ obeys (cb_cmp cb) dom domV world0 h.

Definition z_cmp (a b : Z) : option Z := Some (a - b).
Definition z_pack (z : Z) : option bytes := Some (u64 z).
Definition z_unpack (b : bytes) : option (Z * nat) :=
  match unle 8 b with Some (z, _) => Some (z, 8%nat) | None => None end.
Definition z_cb : callbacks Z Z := Callbacks z_cmp z_pack z_unpack z_pack z_unpack.
Lemma z_wf : wf_cb z_cb fits fits.
Proof.
  split.
  - split.
    + intros x y _ _. by eexists.
    + intros x y c _ _ [= <-]. eexists. split; [done|]. rewrite -Z.sgn_opp. f_equal. lia.
    + intros x y z c1 c2 _ _ _ [= <-] [= <-] H1 H2. eexists. split; [done|]. lia.
  - intros k Hk. exists (u64 k). split; [done|]. intros rest. cbn. unfold z_unpack. by rewrite unle_u64.
  - intros k Hk. exists (u64 k). split; [done|]. intros rest. cbn. unfold z_unpack. by rewrite unle_u64.
Qed.

Definition in_use (w : world Z Z) t : bool :=
  match fam_of w t with
  | Some (_, f) => match fm_live f with Some lv => negb (lv_broken lv) | None => false end
  | None => false
  end.
Definition u64b (z : Z) : bool := (0 <=? z) && (z <? 2 ^ 64).
Definition sound (f : family Z Z) : bool :=
  match fm_rest f with Lost => false | _ => true end &&
  match fm_live f with Some lv => negb (lv_broken lv) | None => true end.
Definition allowed (w : world Z Z) (c : cmd Z Z) : bool :=
  match c with
  | NewTree max _ => (4 <=? max) && Z.even max
  | OldTree l _ => match fam_at w l with Some (_, f) => match fm_live f with None => true | _ => false end | None => false end
  | MapCall t c => in_use w t && forallb u64b (call_keys c) &&
      match c with CPut _ v | CPatchByKey _ v | CPatchByIndex _ v => u64b v | _ => true end
  | TouchItem t i => in_use w t && (0 <=? i)
  | Flush t _ | Purge t _ | Touch t | Prune t | Discard t | LayoutReport t
  | DimensionsReport t | Validate t | Dump t | FetchLocation t => in_use w t
  | Forget t => match fam_of w t with Some _ => true | None => false end
  | UpdateLimits _ _ | DrainSelect => true
  | DrainEvict n => bool_decide (n ∈ w_chosen w) && forallb sound (w_fams w)
  end.
Lemma in_use_ok w t : in_use w t = true → ∃ f lv, usable w t f lv.
Proof.
  unfold in_use. destruct (fam_of w t) as [[i f]|] eqn:E; [|done]. destruct (fm_live f) as [lv|] eqn:Hl; [|done].
  destruct (lv_broken lv) eqn:Hb; [done|]. intros _. exists f, lv, i. done.
Qed.
Lemma u64b_ok z : u64b z = true → fits z.
Proof. unfold u64b, fits. intros [? ?]%andb_prop. lia. Qed.
Lemma sound_ok f : sound f = true → unbroken f.
Proof.
  unfold sound, unbroken. intros [H1 H2]%andb_prop. split; [by destruct (fm_rest f)|].
  intros lv Hl. rewrite Hl in H2. by destruct (lv_broken lv).
Qed.
Lemma allowed_ok w c : allowed w c = true → legal fits fits w c.
Proof.
  destruct c; cbn; try (by apply in_use_ok); try done.
  - intros [? ?]%andb_prop. split; [lia|done].
  - destruct (fam_at w l) as [[i f]|]; [|done]. destruct (fm_live f) eqn:E; [done|]. intros _. by exists i, f.
  - intros [[H1 H2]%andb_prop H3]%andb_prop. split_and!; [by apply in_use_ok| |].
    + apply Forall_forall. intros k Hk. apply u64b_ok. rewrite forallb_forall in H2. apply H2. by apply elem_of_list_In.
    + destruct c; try done; by apply u64b_ok.
  - intros [? ?]%andb_prop. split; [by apply in_use_ok|lia].
  - by destruct (fam_of w t).
  - intros [H1 H2]%andb_prop. split; [by apply bool_decide_eq_true in H1|].
    apply Forall_forall. intros k Hk. apply sound_ok. rewrite forallb_forall in H2. apply H2. by apply elem_of_list_In.
Qed.

(** [None]: the process is stopped and started again *)
Fixpoint run (low high : Z) (w : world Z Z) (s : st Z Z) (cs : list (option (cmd Z Z))) : option (list (event Z Z) * st Z Z) :=
  match cs with
  | [] => Some ([], s)
  | None :: cs =>
      match run low high (next z_cmp w Restart) (reboot low high s) cs with
      | Some (h, s') => Some (Restart :: h, s') | None => None end
  | Some c :: cs =>
      if allowed w c then
        match exec z_cb c s with
        | ORet r s1 => let e := Done c r (made s s1) in
            match run low high (next z_cmp w e) s1 cs with Some (h, s') => Some (e :: h, s') | None => None end
        | OErr er s1 => let e := Failed c er (made s s1) in
            match run low high (next z_cmp w e) s1 cs with Some (h, s') => Some (e :: h, s') | None => None end
        | OStop Crash s1 => let e := Died c in
            match run low high (next z_cmp w e) (reboot low high s1) cs with Some (h, s') => Some (e :: h, s') | None => None end
        | _ => None
        end
      else None
  end.
Lemma run_ok low high cs : ∀ w s h s', run low high w s cs = Some (h, s') → steps z_cb s h s' ∧ obeys z_cmp fits fits w h.
Proof.
  induction cs as [|[c|] cs IH]; intros w s h s' H; cbn in H.
  - injection H as <- <-. split; [constructor|done].
  - destruct (allowed w c) eqn:Ha; [|done]. apply allowed_ok in Ha.
    destruct (exec z_cb c s) as [r s1|e s1|[] s1] eqn:E; try done.
    + destruct (run _ _ _ s1 cs) as [[h1 s2]|] eqn:R; [|done]. injection H as <- <-. destruct (IH _ _ _ _ R). split; [by constructor|done].
    + destruct (run _ _ _ s1 cs) as [[h1 s2]|] eqn:R; [|done]. injection H as <- <-. destruct (IH _ _ _ _ R). split; [by constructor|done].
    + destruct (run _ _ _ (reboot low high s1) cs) as [[h1 s2]|] eqn:R; [|done]. injection H as <- <-. destruct (IH _ _ _ _ R). split; [by econstructor|done].
  - destruct (run _ _ _ (reboot low high s) cs) as [[h1 s2]|] eqn:R; [|done]. injection H as <- <-. destruct (IH _ _ _ _ R). split; [by econstructor|done].
Qed.

(** a storage that hands out object numbers 1, 2, 3, ...; the callbacks in
    [fails] fail, the process dies at those in [crashes] *)
Definition storage (fails crashes : list nat) : nat → choice := λ n,
  Choice (existsb (Nat.eqb n) crashes) (existsb (Nat.eqb n) fails) (1 + Z.of_nat n) 0 0.
Definition play (fails crashes : list nat) (cs : list (option (cmd Z Z))) : option (list (event Z Z) * st Z Z) :=
  run 3 8 world0 (boot 3 8 (storage fails crashes)) cs.
Definition events (x : option (list (event Z Z) * st Z Z)) : list (event Z Z) := match x with Some (h, _) => h | None => [] end.
Definition final (x : option (list (event Z Z) * st Z Z)) : st Z Z := match x with Some (_, s) => s | None => boot 0 0 (storage [] []) end.
Definition plays (x : option (list (event Z Z) * st Z Z)) : bool := match x with Some _ => true | None => false end.
Lemma play_history f c cs : plays (play f c cs) = true → history z_cb fits fits (events (play f c cs)) (final (play f c cs)).
Proof.
  unfold plays, events, final. destruct (play f c cs) as [[h s]|] eqn:E; [|done]. intros _. exists 3, 8, (storage f c). by eapply run_ok.
Qed.
(** calls on the tree with handle 1 *)
Definition on1 (c : call Z Z) : option (cmd Z Z) := Some (MapCall 1%positive c).
Definition puts (l : list Z) : list (option (cmd Z Z)) := (λ k, on1 (CPut k (10 * k))) <$> l.

(** the outcome of a call without the state *)
Definition outcome {A} (o : out Z Z A) : A + (err + stop) :=
  match o with ORet a _ => inl a | OErr e _ => inr (inl e) | OStop x _ => inr (inr x) end.
Definition end_st {A} (o : out Z Z A) : st Z Z := match o with ORet _ s | OErr _ s | OStop _ s => s end.
Lemma outcome_ret {A} (o : out Z Z A) a : outcome o = inl a → o = ORet a (end_st o).
Proof. by destruct o; intros [= ->]. Qed.
Lemma outcome_err {A} (o : out Z Z A) e : outcome o = inr (inl e) → o = OErr e (end_st o).
Proof. by destruct o; intros [= ->]. Qed.
Lemma outcome_stop {A} (o : out Z Z A) x : outcome o = inr (inr x) → o = OStop x (end_st o).
Proof. by destruct o; intros [= ->]. Qed.
Lemma play_is f c cs h : plays (play f c cs) = true → events (play f c cs) = h → history z_cb fits fits h (final (play f c cs)).
Proof. intros H <-. by apply play_history. Qed.
Lemma play_split f c cs h1 h2 : plays (play f c cs) = true → events (play f c cs) = h1 ++ h2 →
  history z_cb fits fits (h1 ++ h2) (final (play f c cs)).
Proof. apply play_is. Qed.

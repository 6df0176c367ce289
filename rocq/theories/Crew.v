(** * Running threads

    An executable form of [reach] (Threads.v), used to show that the hypotheses
    of the property theorems are met by real schedules, and to exhibit a
    failing one.  Models no code. *)
From Coq Require Import ssreflect.
From stdpp Require Import prelude list gmap.
From Verif Require Import Spec SpecFacts BTree Wp Codec Machine Client Threads Crowd Sample Runs.
Open Scope Z_scope.

Notation thread := (thread Z Z).
Notation config := (config Z Z).
Notation label := (label Z Z).
Definition fetchesb (t : tid) (x : thread) : bool := match x with Runs (FetchLocation t') _ _ _ => Pos.eqb t' t | _ => false end.
Definition drainsb (x : thread) : bool := match x with Runs (DrainEvict _) _ _ _ => true | _ => false end.
Definition onb (t : tid) (x : thread) : bool := match x with Runs _ t' _ _ => Pos.eqb t' t | _ => false end.
Definition lockb (t : tid) (x : thread) : bool := match x with Runs c t' _ _ => Pos.eqb t' t && locks c | _ => false end.
Definition opensb (w : world Z Z) (l : loc) (x : thread) : bool :=
  match x with Runs (OldTree l' _) _ _ _ => bool_decide (fst <$> fam_at w l' = fst <$> fam_at w l) | _ => false end.
Definition lone (w : world Z Z) (ths : list thread) (l : label) : bool :=
  match l with
  | LStart j (FetchLocation t) => forallb (λ x, negb (onb t x) || fetchesb t x || drainsb x) ths
  | LStart j (OldTree l _) => forallb (λ x, negb (opensb w l x)) ths
  | LStart j (MapCall t _ | Flush t _ | Purge t _ | Touch t | TouchItem t _ | Prune t | Discard t
    | LayoutReport t | DimensionsReport t | Validate t | Dump t) => forallb (λ x, negb (fetchesb t x)) ths
  | LDone j (Forget t) _ _ => forallb (λ x, negb (onb t x)) ths
  | _ => true
  end.
Definition lone_free (w : world Z Z) (ths : list thread) (l : label) : bool :=
  match l with
  | LStart j (OldTree l _) => forallb (λ x, negb (opensb w l x)) ths
  | LDone j (Forget t) _ _ => forallb (λ x, negb (onb t x)) ths
  | _ => true
  end.
Definition may (w : world Z Z) (l : label) : bool :=
  match l with
  | LStart j c => allowed w c
  | LDone j (Forget t) _ _ => allowed w (Forget t)
  | _ => true
  end.
Lemma may_ok w ths l : may w l = true → lone w ths l = true → Threads.allowed fits fits w ths l.
Proof.
  intros H1 H2. destruct l as [j c|j c|j|j c r cbs|j c e cbs|j c|]; try done.
  - split; [by apply allowed_ok|].
    assert (∀ p : thread → bool, forallb p ths = true → ∀ k x, ths !! k = Some x → p x = true) as Hf.
    { intros p Hp k x Hk. rewrite forallb_forall in Hp. apply Hp, elem_of_list_In. by eapply elem_of_list_lookup_2. }
    destruct c; try done; cbn in H2; intros k x Hk; try (specialize (Hf _ H2 _ _ Hk); cbn in Hf);
      try (intros Hx; destruct x as [| |[] t' p cbs]; try done; cbn in *; subst; by rewrite Pos.eqb_refl in Hf).
    + intros t p cbs Hx E. specialize (Hf _ H2 _ _ Hx). cbn in Hf. by rewrite bool_decide_true in Hf.
    + intros Hx. destruct x as [| |c t' p cbs]; try done. cbn in Hx, Hf. subst. rewrite Pos.eqb_refl in Hf. cbn in Hf.
      apply orb_prop in Hf as [Hf|Hf]; [left|right]; destruct c; try done. cbn. by apply Pos.eqb_eq.
  - destruct c; try done. split; [by apply (allowed_ok w (Forget t))|]. intros k x Hk Hx. cbn in H2. rewrite forallb_forall in H2.
    specialize (H2 x ltac:(apply elem_of_list_In; by eapply elem_of_list_lookup_2)). destruct x as [| |c' t' p' cbs']; try done. cbn in *. subst. by rewrite Pos.eqb_refl in H2.
Qed.
Lemma may_free w ths l : may w l = true → lone_free w ths l = true → allowed_free fits fits w ths l.
Proof.
  intros H1 H2. destruct l as [j c|j c|j|j c r cbs|j c e cbs|j c|]; try done.
  - split; [by apply allowed_ok|]. destruct c; try done. cbn in H2. intros k lo a0 t p cbs Hx E. rewrite forallb_forall in H2.
    specialize (H2 _ (proj1 (elem_of_list_In _ _) (elem_of_list_lookup_2 _ _ _ Hx))). cbn in H2. by rewrite bool_decide_true in H2.
  - destruct c; try done. split; [by apply (allowed_ok w (Forget t))|]. intros k x Hk Hx. cbn in H2. rewrite forallb_forall in H2.
    specialize (H2 x ltac:(apply elem_of_list_In; by eapply elem_of_list_lookup_2)). destruct x as [| |c' t' p' cbs']; try done. cbn in *. subst. by rewrite Pos.eqb_refl in H2.
Qed.

(** ** Schedules *)
(** thread [j] makes a call; thread [j] takes up to [n] steps (until its call returns); the process is killed *)
Inductive move := Call (j : nat) (c : cmd Z Z) | Go (j : nat) (n : nat) | Kill.
(** the next step of thread [j] *)
Definition advance (cf : config) (j : nat) : option (label * config) :=
  let '(Config s ths) := cf in
  match ths !! j with
  | Some (Waits c) =>
      if short c then
        match exec z_cb c s with ORet r s' => Some (LDone j c r (made s s'), Config s' (<[j := Idle]> ths)) | _ => None end
      else if makes c then
        match sstep (exec z_cb c) s with SMore p s' => Some (LStart j c, Config s' (<[j := Runs c (fresh s) p (made s s')]> ths)) | _ => None end
      else match tree_of s c with
        | Some t => if locks c && existsb (lockb t) ths then None
                    else Some (LStart j c, Config s (<[j := Runs c t (exec z_cb c) []]> ths))
        | None => None
        end
  | Some (Runs c t p cbs) =>
      match sstep p s with
      | SMore p' s' => Some (LStep j, Config s' (<[j := Runs c t p' (cbs ++ made s s')]> ths))
      | SRet r s' => Some (LDone j c r (cbs ++ made s s'), Config s' (<[j := Idle]> ths))
      | SErr e s' => Some (LFailed j c e (cbs ++ made s s'), Config s' (<[j := Idle]> ths))
      | SStop Crash s' => Some (LDied j c, Config (reboot 3 8 s') (replicate (length ths) Idle))
      | SStop _ _ => None
      end
  | _ => None
  end.
Lemma advance_ok cf j l cf' : advance cf j = Some (l, cf') → cstep z_cb cf l cf'.
Proof.
  destruct cf as [s ths]. cbn. destruct (ths !! j) as [[|c|c t p cbs]|] eqn:Hj; try done.
  - destruct (short c) eqn:Hs.
    { destruct (exec z_cb c s) eqn:E; [|done..]. intros [= <- <-]. by constructor. }
    destruct (makes c) eqn:Hm.
    { destruct (sstep (exec z_cb c) s) eqn:E; [|done..]. intros [= <- <-]. by apply c_make. }
    destruct (tree_of s c) as [t|] eqn:Ht; [|done]. destruct (locks c && existsb (lockb t) ths) eqn:Hl; [done|].
    intros [= <- <-]. apply c_start; [done|done|]. intros Hlk (k & x & Hk & Hx). rewrite Hlk in Hl. cbn in Hl.
    assert (existsb (lockb t) ths = true); [|congruence]. apply existsb_exists. exists x. split; [apply elem_of_list_In; by eapply elem_of_list_lookup_2|].
    destruct x as [| |c' t' p' cbs']; try done. destruct Hx as [-> Hx]. cbn. by rewrite Pos.eqb_refl Hx.
  - destruct (sstep p s) as [p' s'|a s'|e s'|[] s'] eqn:E; try done; intros [= <- <-]; by econstructor.
Qed.
Notation outcome := (option (list label * config)).
(** [strict]: with all the rules; otherwise without those about FetchLocation *)
Definition check (strict : bool) (w : world Z Z) (ths : list thread) (l : label) : bool := may w l && (if strict then lone w ths l else lone_free w ths l).
Fixpoint going (strict : bool) (n : nat) (j : nat) (w : world Z Z) (cf : config) (k : world Z Z → config → outcome) : outcome :=
  match n with
  | O => k w cf
  | S n => match cf_ths cf !! j with
           | Some Idle => k w cf
           | _ => match advance cf j with
             | Some (l, cf') => if check strict w (cf_ths cf) l
                 then match going strict n j (cnext z_cb w l) cf' k with Some (h, cf') => Some (l :: h, cf') | None => None end else None
             | None => None
             end
           end
  end.
Fixpoint sched (strict : bool) (w : world Z Z) (cf : config) (ms : list move) : outcome :=
  match ms with
  | [] => Some ([], cf)
  | Call j c :: ms =>
      match cf_ths cf !! j with
      | Some Idle => match sched strict w (Config (cf_st cf) (<[j := Waits c]> (cf_ths cf))) ms with
                     | Some (h, cf') => Some (LCall j c :: h, cf') | None => None end
      | _ => None
      end
  | Go j n :: ms => going strict n j w cf (λ w cf, sched strict w cf ms)
  | Kill :: ms =>
      match sched strict (cnext z_cb w LKilled) (Config (reboot 3 8 (cf_st cf)) (replicate (length (cf_ths cf)) Idle)) ms with
      | Some (h, cf') => Some (LKilled :: h, cf') | None => None end
  end.

Definition lives (strict : bool) := if strict then Threads.reach z_cb fits fits else free z_cb fits fits.
Lemma lives_step b h cf l cf' : lives b h cf → cstep z_cb cf l cf' → check b (cafter z_cb h) (cf_ths cf) l = true → lives b (h ++ [l]) cf'.
Proof.
  intros H Hst [H1 H2]%andb_prop. destruct b.
  - eapply reach_step; [exact H|done|]. by apply may_ok.
  - eapply free_step; [exact H|done|]. by apply may_free.
Qed.
Lemma cafter_snoc h l : cafter z_cb (h ++ [l]) = cnext z_cb (cafter z_cb h) l.
Proof. unfold cafter. by rewrite foldl_app. Qed.
Lemma going_ok b n j k : (∀ h cf h' cf', lives b h cf → k (cafter z_cb h) cf = Some (h', cf') → lives b (h ++ h') cf') →
  ∀ h cf h' cf', lives b h cf → going b n j (cafter z_cb h) cf k = Some (h', cf') → lives b (h ++ h') cf'.
Proof.
  intros Hk. induction n as [|n IH]; intros h cf h' cf' H Hg; [by eapply Hk|]. cbn in Hg.
  assert (match advance cf j with
    | Some (l, cf') => if check b (cafter z_cb h) (cf_ths cf) l
        then match going b n j (cnext z_cb (cafter z_cb h) l) cf' k with Some (h, cf') => Some (l :: h, cf') | None => None end else None
    | None => None end = Some (h', cf') → lives b (h ++ h') cf') as Ha.
  { clear Hg. intros Hg. destruct (advance cf j) as [[l cf1]|] eqn:E; [|done]. destruct (check b (cafter z_cb h) (cf_ths cf) l) eqn:Hc; [|done].
    rewrite -cafter_snoc in Hg. destruct (going _ _ _ _ _ _) as [[h1 cf2]|] eqn:Hh; [|done]. injection Hg as <- <-.
    rewrite cons_middle app_assoc. eapply IH; [|exact Hh]. eapply lives_step; [done|by eapply advance_ok|done]. }
  destruct (cf_ths cf !! j) as [[]|]; try by apply Ha. by eapply Hk.
Qed.
Lemma sched_ok b ms : ∀ h cf h' cf', lives b h cf → sched b (cafter z_cb h) cf ms = Some (h', cf') → lives b (h ++ h') cf'.
Proof.
  induction ms as [|[j c|j n|] ms IH]; intros h cf h' cf' H Hs; cbn in Hs.
  - injection Hs as <- <-. by rewrite app_nil_r.
  - destruct (cf_ths cf !! j) as [[]|] eqn:Hj; try done. destruct (sched _ _ _ ms) as [[h1 cf1]|] eqn:E; [|done]. injection Hs as <- <-.
    rewrite cons_middle app_assoc. eapply IH; [|rewrite cafter_snoc; exact E]. destruct cf as [s ths].
    eapply lives_step; [exact H|by constructor|]. unfold check. cbn. by destruct b.
  - eapply going_ok; [|done|exact Hs]. exact IH.
  - destruct (sched _ _ _ ms) as [[h1 cf1]|] eqn:E; [|done]. injection Hs as <- <-.
    rewrite cons_middle app_assoc. eapply IH; [|rewrite cafter_snoc; exact E]. destruct cf as [s ths].
    eapply lives_step; [exact H|by constructor|]. unfold check. cbn. by destruct b.
Qed.
(** [n] threads, with the storage of Sample.v *)
Definition perform (strict : bool) (fails crashes : list nat) (n : nat) (ms : list move) : outcome :=
  sched strict world0 (Config (boot 3 8 (storage fails crashes)) (replicate n Idle)) ms.
Definition labels (x : outcome) : list label := match x with Some (h, _) => h | None => [] end.
Definition ending (x : outcome) : config := match x with Some (_, cf) => cf | None => Config (boot 0 0 (storage [] [])) [] end.
Definition performs (x : outcome) : bool := match x with Some _ => true | None => false end.
Lemma perform_lives b f c n ms : performs (perform b f c n ms) = true → lives b (labels (perform b f c n ms)) (ending (perform b f c n ms)).
Proof.
  unfold performs, labels, ending. destruct (perform b f c n ms) as [[h cf]|] eqn:E; [|done]. intros _.
  eapply (sched_ok b ms [] (Config (boot 3 8 (storage f c)) (replicate n Idle))); [|exact E]. destruct b; constructor.
Qed.
Lemma perform_is f c n ms h : performs (perform true f c n ms) = true → labels (perform true f c n ms) = h →
  Threads.reach z_cb fits fits h (ending (perform true f c n ms)).
Proof. intros H <-. exact (perform_lives true f c n ms H). Qed.
Lemma perform_free f c n ms h : performs (perform false f c n ms) = true → labels (perform false f c n ms) = h →
  free z_cb fits fits h (ending (perform false f c n ms)).
Proof. intros H <-. exact (perform_lives false f c n ms H). Qed.

(** reading the result *)
Definition doing (o : option thread) : option (cmd Z Z * tid) := match o with Some (Runs c t _ _) => Some (c, t) | _ => None end.
Definition waiting (o : option thread) : option (cmd Z Z) := match o with Some (Waits c) => Some c | _ => None end.
Lemma doing_ok o c t : doing o = Some (c, t) → ∃ p cbs, o = Some (Runs c t p cbs).
Proof. destruct o as [[]|]; intros [= -> ->]. eauto. Qed.
Lemma waiting_ok o c : waiting o = Some c → o = Some (Waits c).
Proof. destruct o as [[]|]; by intros [= ->]. Qed.
Fixpoint keeps_allb (i : nat) (w : world Z Z) (h : list label) : bool :=
  match h with
  | [] => true
  | l :: h => match drops l with Some t => bool_decide (fst <$> fam_of w t ≠ Some i) | None => true end && keeps_allb i (cnext z_cb w l) h
  end.
Lemma keeps_allb_ok i h : ∀ w, keeps_allb i w h = true → keeps_all z_cb i w h.
Proof.
  induction h as [|l h IH]; intros w H; [done|]. cbn in H. apply andb_prop in H as [H1 H2]. split; [|by apply IH].
  intros t Ht. rewrite Ht in H1. by apply bool_decide_eq_true in H1.
Qed.
Lemma free_split f c n ms a l : let x := perform false f c n ms in performs x = true → labels x !! a = Some l →
  free z_cb fits fits (take a (labels x) ++ l :: drop (S a) (labels x)) (ending x).
Proof. intros x H Hl. rewrite (take_drop_middle _ _ _ Hl). by apply perform_free. Qed.
Lemma free_split2 f c n ms a l b l' : let x := perform false f c n ms in performs x = true →
  labels x !! a = Some l → drop (S a) (labels x) !! b = Some l' →
  free z_cb fits fits (take a (labels x) ++ l :: take b (drop (S a) (labels x)) ++ l' :: drop (S b) (drop (S a) (labels x))) (ending x).
Proof. intros x H Hl Hl'. rewrite (take_drop_middle (drop (S a) (labels x)) _ _ Hl'). by apply free_split. Qed.
(** the next step of the thread is a panic *)
Definition panics (cf : config) (j : nat) : bool :=
  match cf_ths cf !! j with Some (Runs _ _ p _) => match sstep p (cf_st cf) with SStop Panic _ => true | _ => false end | _ => false end.
Lemma panics_ok cf j c t : doing (cf_ths cf !! j) = Some (c, t) → panics cf j = true →
  ∃ p cbs s', cf_ths cf !! j = Some (Runs c t p cbs) ∧ sstep p (cf_st cf) = SStop Panic s'.
Proof.
  intros (p & cbs & H)%doing_ok Hp. unfold panics in Hp. rewrite H in Hp. destruct (sstep p (cf_st cf)) as [| | |[] s'] eqn:E; try done. by exists p, cbs, s'.
Qed.

(** ** Schedules *)
Definition full (j : nat) (cs : list (cmd Z Z)) : list move := cs ≫= λ c, [Call j c; Go j 2000].
Definition put1 (k : Z) : cmd Z Z := MapCall one (CPut k (10 * k)).
Definition eight : tid := 8%positive.
(** two trees, the first one stored *)
Definition settle : list move :=
  full 0 (NewTree 4 true :: (put1 <$> [1;2;3;4;5;6;7;8;9;10;11;12]) ++ [Flush one false; NewTree 4 true]).
(** Thread 1 is in the middle of a Put on the first tree; thread 0 and the
    drainer (thread 2) wait for that tree; thread 3 is in the middle of a Put on
    the other tree; thread 4 is in the middle of FetchLocation on the first. *)
Definition bustle : list move := settle ++
  [Call 1 (put1 13); Go 1 12; Call 0 (MapCall one CLen); Call 2 DrainSelect; Go 2 1; Call 2 (DrainEvict 2%positive);
   Call 3 (MapCall eight (CPut 1 1)); Go 3 10; Call 4 (FetchLocation one); Go 4 5; Go 1 5].
(** all of them finish; a Flush is in progress and another Put waits *)
Definition onward : list move := bustle ++
  [Go 3 2000; Go 1 2000; Go 2 3; Go 4 2000; Go 2 2000; Go 0 2000;
   Call 0 (MapCall one (CGetByKey 5)); Go 0 2000; Call 1 (Flush one false); Go 1 20; Call 0 (put1 14)].
Definition bustling := perform false [] [] 5 bustle.
Definition going_on := perform false [] [] 5 onward.
(** the process dies inside that Flush, and the tree is opened again *)
Definition reopen : list move := full 3 [OldTree (6, 0, 218) true; MapCall 13%positive (CGetByKey 5); MapCall 13%positive CLen].
Definition reopening := perform false [] [8%nat] 5 (onward ++ [Go 1 2000] ++ reopen).
(** FetchLocation is interrupted by two calls on the same tree, or by Discard *)
Definition tearing : list move := full 0 (NewTree 4 true :: (put1 <$> [1;2;3]) ++ [Flush one false]) ++
  [Call 1 (FetchLocation one); Go 1 5] ++ full 0 [MapCall one (CDeleteByKey 3); Flush one false] ++ [Go 1 20].
Definition torn := perform false [] [] 2 tearing.
Definition discarding : list move := full 0 [NewTree 4 true; put1 1] ++ [Call 1 (FetchLocation one); Go 1 4] ++ full 0 [Discard one] ++ [Go 1 1].
Definition discarded := perform false [] [] 2 discarding.
(** FetchLocation of a stored tree while the drainer evicts from it *)
Definition resting : list move := settle ++
  [Call 2 DrainSelect; Go 2 1; Call 2 (DrainEvict 2%positive); Go 2 4; Call 1 (FetchLocation one); Go 1 5; Go 2 3; Go 1 2000].
Definition rested := perform true [] [] 3 resting.

(** * What reading does to the lists of the cache

    [went t c d us s s']: from [s], with the lists [c] (clean) and [d] (dirty),
    to [s'] the nodes [us] of tree [t] were visited: those in memory were marked
    used, the others were read and marked clean.  Models no code. *)
From Coq Require Import ssreflect.
From stdpp Require Import prelude list gmap.
From Verif Require Import Spec SpecFacts Llrb BTree Lru Wp Codec Pres Machine World Hist History Cache CacheHist Cost.
From Verif Require Sample.
Open Scope Z_scope.
Local Open Scope general_if_scope.

Global Instance mark_dec : EqDecision mark.
Proof. solve_decision. Defined.

Section recent.
  Context {K V : Type}.
  Variable cb : callbacks K V.
  Variable t : tid.
  Notation st := (st K V).
  Notation M := (M K V).
  Notation bval := (bval V).
  Notation llrb := (tree K bval).
  Notation update := (mark * tid * nid)%type.
  Implicit Types (s : st) (n : nid) (us : list update).

  (** what leads from a node to its children *)
  Definition link (r : bnode K V) : bool * bool * option llrb * option nid := (b_loaded r, b_leaf r, b_kv r, b_left r).
  Definition fr s : Prop := (∀ n r, nodes s !! n = Some r → (n < fresh s)%positive) ∧ (∀ n r, cells s !! n = Some r → (n < fresh s)%positive).
  Notation blank := (Cell noLRU None None).

  (** ** Reading the memory only *)
  Definition same {A} (m : M A) : Prop := ∀ s, match m s with ORet _ s' => s' = s | _ => True end.
  Lemma sa_ret {A} (a : A) : same (ret a).
  Proof. done. Qed.
  Lemma sa_fail {A} e : same (A:=A) (fail e).
  Proof. done. Qed.
  Lemma sa_panic {A} : same (A:=A) panic.
  Proof. done. Qed.
  Lemma sa_nofuel {A} : same (A:=A) nofuel.
  Proof. done. Qed.
  Lemma sa_bind {A B} (m : M A) (f : A → M B) : same m → (∀ a, same (f a)) → same (bind m f).
  Proof. intros Hm Hf s. rewrite run_bind. specialize (Hm s). destruct (m s) as [a s1|e s1|w s1]; [|done..]. subst. apply Hf. Qed.
  Lemma sa_getN n : same (getN n).
  Proof. intros s. cbn. by destruct (_ !! _). Qed.
  Lemma sa_getP n : same (getP n).
  Proof. intros s. cbn. by destruct (_ !! _). Qed.
  Lemma sa_getT n : same (getT n).
  Proof. intros s. cbn. by destruct (_ !! _). Qed.
  Lemma sa_getC n : same (getC n).
  Proof. intros s. cbn. by destruct (_ !! _). Qed.
  Create HintDb sa discriminated.
  Local Hint Resolve sa_ret sa_fail sa_panic sa_nofuel sa_getN sa_getP sa_getT : sa.
  Ltac sa1 :=
    match goal with
    | |- same (bind _ _) => apply sa_bind; [|intros ?]
    | H : ∀ _, same _ |- same _ => apply H
    | |- same (match ?x with _ => _ end) => destruct x
    | _ => solve [auto with sa nocore]
    end.
  Ltac sa := repeat sa1.
  Lemma sa_deref o : same (deref o).
  Proof. unfold deref. sa. Qed.
  Lemma sa_lift {A} (m : lo A) : same (lift m).
  Proof. unfold lift. sa. Qed.
  Local Hint Resolve sa_deref sa_lift : sa.
  Lemma sa_kvOf n : same (kvOf n).
  Proof. unfold kvOf. sa. Qed.
  Local Hint Resolve sa_kvOf : sa.
  Lemma sa_kvGet n i : same (kvGet n i).
  Proof. unfold kvGet. sa. Qed.
  Lemma sa_kvLen n : same (kvLen n).
  Proof. unfold kvLen. sa. Qed.
  Lemma sa_kvBisectLeft n k : same (kvBisectLeft cb n k).
  Proof. unfold kvBisectLeft. sa. Qed.
  Lemma sa_kvBisectRight n k : same (kvBisectRight cb n k).
  Proof. unfold kvBisectRight. sa. Qed.
  Lemma sa_kvGetKey n k : same (kvGetKey cb n k).
  Proof. unfold kvGetKey. sa. Qed.
  Lemma sa_compareM a b : same (compareM cb a b).
  Proof. unfold compareM. sa. Qed.
  Lemma sa_asNode v : same (asNode (K:=K) (V:=V) v).
  Proof. unfold asNode. sa. Qed.
  Lemma sa_asUser v : same (asUser (K:=K) (V:=V) v).
  Proof. unfold asUser. sa. Qed.
  Local Hint Resolve sa_kvGet sa_kvLen sa_kvBisectLeft sa_kvBisectRight sa_kvGetKey sa_compareM sa_asNode sa_asUser : sa.
  Lemma sa_findChild n k : same (findChild cb n k).
  Proof. unfold findChild. sa. Qed.
  Lemma sa_leftSum p : same (leftSum (K:=K) (V:=V) p).
  Proof. unfold leftSum. sa. Qed.
  Local Hint Resolve sa_findChild sa_leftSum : sa.
  Lemma sa_climb : ∀ fuel n acc, same (climb (K:=K) (V:=V) fuel n acc).
  Proof. induction fuel as [|? IH]; intros; cbn [climb]; sa. Qed.
  Lemma sa_unclimb : ∀ stack n delta, same (unclimb (K:=K) (V:=V) n stack delta).
  Proof. induction stack as [|? ? IH]; intros; cbn [unclimb]; sa. Qed.
  Local Hint Resolve sa_climb sa_unclimb : sa.
  Lemma sa_childOffset fuel n m delta : same (childOffset (K:=K) (V:=V) fuel n m delta).
  Proof. unfold childOffset. sa. Qed.
  Lemma sa_walkPs : ∀ fuel n i, same (walkPs (K:=K) (V:=V) fuel n i).
  Proof. induction fuel as [|? IH]; intros; cbn [walkPs]; sa. Qed.
  Lemma sa_rootOf t' : same (rootOf (K:=K) (V:=V) t').
  Proof. unfold rootOf. sa. Qed.
  Local Hint Resolve sa_childOffset sa_walkPs sa_rootOf : sa.
  Lemma same_ret {A} (m : M A) s a s' : same m → m s = ORet a s' → s' = s.
  Proof. intros Hm H. specialize (Hm s). by rewrite H in Hm. Qed.

  (** ** Loading node [x] *)
  Record beside (x : nid) s s' : Prop := Beside {
    be_fr : fr s → fr s';
    be_old n c : cells s !! n = Some c → cells s' !! n = Some c;
    be_new n c : fr s → cells s !! n = None → cells s' !! n = Some c → c = blank;
    be_cache : cache s' = cache s;
    be_trees t' : (λ T, (t_cache T, t_root T)) <$> trees s' !! t' = (λ T, (t_cache T, t_root T)) <$> trees s !! t';
    be_nodes n r : fr s → n ≠ x → nodes s !! n = Some r → ∃ r', nodes s' !! n = Some r' ∧ link r' = link r }.
  Lemma beside_refl x s : beside x s s.
  Proof. split; try done; [naive_solver congruence|]. intros n r. by eauto. Qed.
  Lemma beside_trans x s1 s2 s3 : beside x s1 s2 → beside x s2 s3 → beside x s1 s3.
  Proof.
    intros [A1 A2 A3 A4 A5 A6] [B1 B2 B3 B4 B5 B6]. split.
    - naive_solver.
    - naive_solver.
    - intros n c Hf Hn Hc. destruct (cells s2 !! n) as [c2|] eqn:E; [|by eapply B3; eauto]. rewrite (B2 _ _ E) in Hc. injection Hc as <-. by eapply A3.
    - congruence.
    - intros t'. by rewrite B5 A5.
    - intros n r Hf Hn (r2 & H2 & E2)%A6; [|done..]. destruct (B6 n r2) as (r3 & H3 & E3); [by apply A1|done..|]. exists r3. split; [done|congruence].
  Qed.
  Definition bes {A} (x : nid) (m : M A) : Prop := ∀ s, match m s with ORet _ s' | OErr _ s' => beside x s s' | OStop _ _ => True end.
  Section load.
  Variable x : nid.
  Lemma be_same {A} (m : M A) : (∀ s, match m s with ORet _ s' | OErr _ s' => s' = s | _ => True end) → bes x m.
  Proof. intros Hm s. specialize (Hm s). destruct (m s); [subst; apply beside_refl..|done]. Qed.
  Lemma be_ret {A} (a : A) : bes x (ret a).
  Proof. by apply be_same. Qed.
  Lemma be_fail {A} e : bes (A:=A) x (fail e).
  Proof. by apply be_same. Qed.
  Lemma be_panic {A} : bes (A:=A) x panic.
  Proof. by apply be_same. Qed.
  Lemma be_envbad {A} : bes (A:=A) x envbad.
  Proof. by apply be_same. Qed.
  Lemma be_nofuel {A} : bes (A:=A) x nofuel.
  Proof. by apply be_same. Qed.
  Lemma be_bind {A B} (m : M A) (f : A → M B) : bes x m → (∀ a, bes x (f a)) → bes x (bind m f).
  Proof.
    intros Hm Hf s. rewrite run_bind. specialize (Hm s). destruct (m s) as [a s1|e s1|w s1]; [|done..].
    specialize (Hf a s1). destruct (f a s1); [by eapply beside_trans..|done].
  Qed.
  Lemma be_ignoreErr m : bes x m → bes x (ignoreErr m).
  Proof. intros Hm s. unfold ignoreErr. cbn [run]. specialize (Hm s). by destruct (m s) as [a s1|e s1|w s1]. Qed.
  Lemma be_getN n : bes x (getN n).
  Proof. apply be_same. intros s. cbn. by destruct (_ !! _). Qed.
  Lemma be_getP n : bes x (getP n).
  Proof. apply be_same. intros s. cbn. by destruct (_ !! _). Qed.
  Lemma be_getT n : bes x (getT n).
  Proof. apply be_same. intros s. cbn. by destruct (_ !! _). Qed.
  Lemma be_modN f : bes x (modN x f).
  Proof.
    intros s. cbn. destruct (nodes s !! x) as [r|] eqn:E; [|done]. split; try done; cbn; [|naive_solver congruence|].
    - intros [F1 F2]. split; [|done]. cbn. intros n r'. destruct (decide (n = x)) as [->|]; [intros _; by eapply F1|]. rewrite lookup_insert_ne //. apply F1.
    - intros n r' _ Hn Hr. exists r'. by rewrite lookup_insert_ne.
  Qed.
  Lemma be_modP n f : bes x (modP n f).
  Proof. intros s. cbn. destruct (pss s !! n) as [r|] eqn:E; [|done]. split; try done; cbn; [naive_solver congruence|]. intros n' r'. by eauto. Qed.
  Lemma be_modT t' f : (∀ T, t_cache (f T) = t_cache T ∧ t_root (f T) = t_root T) → bes x (modT t' f).
  Proof.
    intros Hf s. cbn. destruct (trees s !! t') as [T|] eqn:E; [|done]. split; try done; cbn; [naive_solver congruence| |].
    - intros t2. destruct (decide (t2 = t')) as [->|]; [|by rewrite lookup_insert_ne]. rewrite lookup_insert E /=. by destruct (Hf T) as [-> ->].
    - intros n' r'. by eauto.
  Qed.
  Lemma be_GetNode l : bes x (GetNode l).
  Proof.
    intros s. cbn. destruct (ch_crash _); [done|]. destruct (ch_fail _).
    { split; try done; cbn; [naive_solver congruence|]. intros n' r'. by eauto. }
    destruct (disk s !! l); (split; try done; cbn; [naive_solver congruence|]; intros n' r'; by eauto).
  Qed.
  Create HintDb be discriminated.
  Local Hint Resolve be_ret be_fail be_panic be_envbad be_nofuel be_getN be_getP be_getT be_modN be_modP be_GetNode : be.
  Ltac be1 :=
    match goal with
    | |- bes _ (bind _ _) => apply be_bind; [|intros ?]
    | |- bes _ (ignoreErr _) => apply be_ignoreErr
    | H : ∀ _, bes _ _ |- bes _ _ => apply H
    | |- bes _ (match ?x with _ => _ end) => destruct x
    | _ => solve [auto with be nocore]
    end.
  Ltac be := repeat be1.
  Lemma be_deref o : bes x (deref o).
  Proof. unfold deref. be. Qed.
  Lemma be_lift {A} (m : lo A) : bes x (lift m).
  Proof. unfold lift. be. Qed.
  Local Hint Resolve be_deref be_lift : be.
  Lemma be_kvOf n : bes x (kvOf n).
  Proof. unfold kvOf. be. Qed.
  Local Hint Resolve be_kvOf : be.
  Lemma be_kvGet n i : bes x (kvGet n i).
  Proof. unfold kvGet. be. Qed.
  Lemma be_kvLen n : bes x (kvLen n).
  Proof. unfold kvLen. be. Qed.
  Lemma be_kvSet tr : bes x (kvSet x tr).
  Proof. unfold kvSet. be. Qed.
  Local Hint Resolve be_kvGet be_kvLen be_kvSet : be.
  Lemma be_kvPut k v : bes x (kvPut cb x k v).
  Proof. unfold kvPut. be. Qed.
  Local Hint Resolve be_kvPut : be.
  Lemma be_kvPut_ k v : bes x (kvPut_ cb x k v).
  Proof. unfold kvPut_. be. Qed.
  Lemma be_asNode v : bes x (asNode (K:=K) (V:=V) v).
  Proof. unfold asNode. be. Qed.
  Lemma be_logicOk b : bes x (logicOk (K:=K) (V:=V) b).
  Proof. unfold logicOk. be. Qed.
  Lemma be_logicSome {A} (o : option A) : bes x (logicSome (K:=K) (V:=V) o).
  Proof. unfold logicSome. be. Qed.
  Lemma be_unpackU64 b : bes x (unpackU64 (K:=K) (V:=V) b).
  Proof. unfold unpackU64. be. Qed.
  Local Hint Resolve be_kvPut_ be_asNode be_logicOk be_logicSome be_unpackU64 : be.
  Lemma be_unpackNode b : bes x (unpackNode (K:=K) (V:=V) b).
  Proof. unfold unpackNode. be. Qed.
  Lemma be_unpackRef b : bes x (unpackRef (K:=K) (V:=V) b).
  Proof. unfold unpackRef. be. Qed.
  Lemma be_slice (i : nat) b : bes x (slice (K:=K) (V:=V) i b).
  Proof. unfold slice. be. Qed.
  Local Hint Resolve be_unpackNode be_unpackRef be_slice : be.
  Lemma be_unpackKeyM b : bes x (unpackKeyM cb b).
  Proof. unfold unpackKeyM. be. Qed.
  Lemma be_unpackValM b : bes x (unpackValM cb b).
  Proof. unfold unpackValM. be. Qed.
  Local Hint Resolve be_unpackKeyM be_unpackValM : be.
  Lemma be_loadLeaf : ∀ cnt b, bes x (loadLeaf cb cnt x b).
  Proof. induction cnt as [|? IH]; intros; cbn [loadLeaf]; be. Qed.
  Lemma be_arrangeRec : ∀ fuel sl, bes x (arrangeRec (K:=K) (V:=V) fuel sl).
  Proof. induction fuel as [|? IH]; intros; cbn [arrangeRec]; be. Qed.
  Lemma be_arrangeInit : ∀ ix n, bes x (arrangeInit (K:=K) (V:=V) n ix).
  Proof. induction ix as [|? ? IH]; intros; cbn [arrangeInit]; be. Qed.
  Local Hint Resolve be_loadLeaf be_arrangeRec be_arrangeInit : be.
  Lemma be_arrange : bes x (arrangePrefixSumTree (K:=K) (V:=V) x).
  Proof. unfold arrangePrefixSumTree. be. Qed.
  Local Hint Resolve be_arrange : be.
  (** a child that is not in memory *)
  Lemma new_run r s : fr s → ∃ s', newNode r s = ORet (fresh s) s' ∧ beside x s s' ∧ cells s' !! fresh s = Some blank.
  Proof.
    intros [F1 F2]. eexists. split; [done|]. split; [|by cbn; rewrite lookup_insert].
    assert (nodes s !! fresh s = None) as N1. { destruct (nodes s !! fresh s) eqn:E; [|done]. apply F1 in E. lia. }
    assert (cells s !! fresh s = None) as N2. { destruct (cells s !! fresh s) eqn:E; [|done]. apply F2 in E. lia. }
    split; try done; cbn.
    - intros _. split; cbn; intros n c; (destruct (decide (n = fresh s)) as [->|]; [intros _; lia|]); rewrite lookup_insert_ne //; intros H; [apply F1 in H|apply F2 in H]; lia.
    - intros n c Hc. rewrite lookup_insert_ne //. intros <-. by rewrite N2 in Hc.
    - intros n c _ Hn. destruct (decide (n = fresh s)) as [->|]; [rewrite lookup_insert; congruence|]. rewrite lookup_insert_ne // Hn. done.
    - intros n r' _ _ Hr. exists r'. rewrite lookup_insert_ne //. intros <-. by rewrite N1 in Hr.
  Qed.
  Lemma be_child {A} r (g : nid → M unit) (h : nid → M A) : (∀ m, bes x (g m)) → (∀ m, bes x (h m)) →
    ∀ s, fr s → match bind (newNode r) (λ m, bind (g m) (λ _, bind (initNodeAsEvicted t m) (λ _, h m))) s with ORet _ s' | OErr _ s' => beside x s s' | OStop _ _ => True end.
  Proof.
    intros Hg Hh s Hf. rewrite run_bind. destruct (new_run r s Hf) as (s1 & -> & H1 & C1). rewrite run_bind.
    specialize (Hg (fresh s) s1). destruct (g (fresh s) s1) as [[] s2|e s2|w s2]; [|by eapply beside_trans|done].
    pose proof (be_old _ _ _ Hg _ _ C1) as C2. rewrite run_bind. unfold initNodeAsEvicted. rewrite run_bind. cbn [run getT].
    destruct (trees s2 !! t) as [T|] eqn:HT; [|done].
    assert (beside x s s2) as H2 by by eapply beside_trans. clear H1 Hg.
    destruct (t_cache T).
    - cbn [run modC]. rewrite C2. cbn beta iota. rewrite insert_id //.
      replace (set_cells (cells s2) s2) with s2 by by destruct s2.
      specialize (Hh (fresh s) s2). destruct (h (fresh s) s2); [by eapply beside_trans..|done].
    - cbn [run ret]. specialize (Hh (fresh s) s2). destruct (h (fresh s) s2); [by eapply beside_trans..|done].
  Qed.
  (** the same, for what starts with new nodes numbered above the old ones *)
  Definition besf {A} (m : M A) : Prop := ∀ s, fr s → match m s with ORet _ s' | OErr _ s' => beside x s s' | OStop _ _ => True end.
  Lemma bf {A} (m : M A) : bes x m → besf m.
  Proof. intros Hm s _. apply Hm. Qed.
  Lemma bf_bind {A B} (m : M A) (f : A → M B) : besf m → (∀ a, besf (f a)) → besf (bind m f).
  Proof.
    intros Hm Hf s HF. rewrite run_bind. specialize (Hm s HF). destruct (m s) as [a s1|e s1|w s1]; [|done..].
    specialize (Hf a s1 (be_fr _ _ _ Hm HF)). destruct (f a s1); [by eapply beside_trans..|done].
  Qed.
  Lemma bf_child {A} r (g : nid → M unit) (h : nid → M A) : (∀ m, bes x (g m)) → (∀ m, besf (h m)) →
    besf (bind (newNode r) (λ m, bind (g m) (λ _, bind (initNodeAsEvicted t m) (λ _, h m)))).
  Proof.
    intros Hg Hh s Hf.
    assert (bind (newNode r) (λ m, bind (g m) (λ _, bind (initNodeAsEvicted t m) (λ _, h m))) s =
      match bind (newNode r) (λ m, bind (g m) (λ _, bind (initNodeAsEvicted t m) (λ _, ret m))) s with ORet m s1 => h m s1 | OErr e s1 => OErr e s1 | OStop w s1 => OStop w s1 end) as ->.
    { rewrite !run_bind. destruct (newNode r s) as [m s1|e s1|w s1]; [|done..]. rewrite !run_bind. destruct (g m s1) as [[] s2|e s2|w s2]; [|done..].
      generalize (initNodeAsEvicted (K:=K) (V:=V) t m). intros mm. rewrite !run_bind. by destruct (mm s2) as [[] s3|e s3|w s3]. }
    pose proof (be_child r g (λ m, ret m) Hg (λ m, be_ret m) s Hf) as HC.
    destruct (bind (newNode r) _ s) as [m s1|e s1|w s1]; [|done..]. specialize (Hh m s1 (be_fr _ _ _ HC Hf)).
    destruct (h m s1); [by eapply beside_trans..|done].
  Qed.
  Lemma bf_loadInner : ∀ cnt b, besf (loadInner cb cnt t x b).
  Proof.
    induction cnt as [|? IH]; intros; cbn [loadInner]; [apply bf; be|].
    apply bf_bind; [apply bf; be|intros [k b1]]. apply bf_bind; [apply bf; be|intros [[l items] b2]].
    apply (bf_child _ (λ m, kvPut_ cb x k (VNode m)) (λ _, loadInner cb cnt t x b2)); [intros m; be|done].
  Qed.
  (** all of [loadNode] but its last step *)
  Lemma loadNode_cut s s' : loadNode cb t x s = ORet tt s' → fr s → ∃ s1, beside x s s1 ∧ (∃ r, nodes s1 !! x = Some r ∧ b_loaded r = true) ∧ markNodeClean t x s1 = ORet tt s'.
  Proof.
    unfold loadNode. intros H Hf.
    assert (∀ (A : Type) (m : M A) (f : A → M unit) s0, bind m f s0 = ORet tt s' → fr s0 → beside x s s0 → besf m → ∃ a s1, m s0 = ORet a s1 ∧ f a s1 = ORet tt s' ∧ fr s1 ∧ beside x s s1) as HB.
    { intros A m f s0 (a & s1 & H1 & H2)%bind_ret HF HS Hm. exists a, s1. specialize (Hm s0 HF). rewrite H1 in Hm. split_and!; [done|done|by apply (be_fr _ _ _ Hm)|by eapply beside_trans]. }
    pose proof (beside_refl x s) as HS. revert HS Hf H. generalize s at 2 3 4. intros s0 HS HF H.
    Ltac go HB H HF HS y := let s1 := fresh "s" in let E := fresh in
      apply HB in H as (y & s1 & E & H & HF' & HS'); [|exact HF|exact HS|apply bf; be]; clear E HF HS; rename HF' into HF; rename HS' into HS.
    go HB H HF HS r. go HB H HF HS b. go HB H HF HS u. go HB H HF HS w. destruct w as [[[items isroot] isleaf] payload].
    go HB H HF HS u1. go HB H HF HS u2. go HB H HF HS u3.
    apply HB in H as (p1 & s8 & _ & H & HF' & HS'); [|done|done|]; [clear HF HS|apply bf; destruct isroot; be; by apply be_modT].
    apply HB in H as (p2 & s9 & _ & H & HF & HS); [|done|done|]; [clear HF' HS'|].
    2:{ destruct isleaf; [apply bf; be|]. apply bf_bind; [apply bf; be|intros [cnt p3]]. destruct (cnt =? 0); [apply bf; be|].
        apply bf_bind; [apply bf; be|intros [[l it] p4]]. apply (bf_child _ (λ m, modN x (set_left (Some m))) (λ _, bind _ _)); [intros m; be|]. intros m.
        apply bf_bind; [apply bf_loadInner|intros p5]. apply bf; be. }
    destruct p2; [|done]. apply HB in H as (u4 & s10 & H1 & H & HF' & HS'); [|done|done|apply bf; be].
    exists s10. split_and!; [done| |done]. revert H1. cbn. destruct (nodes s9 !! x) as [r9|]; [|done]. intros [= _ <-]. eexists. cbn. by rewrite lookup_insert.
  Qed.
  End load.

  (** ** Visits *)
  Definition kind (u : update) : mark := u.1.1.
  Definition hits us : Z := Z.of_nat (length (filter (λ u, kind u = MUsed) us)).
  Definition misses us : Z := Z.of_nat (length (filter (λ u, kind u = MClean) us)).
  Record went (c d : list nid) us s s' : Prop := Went {
    we_fr : fr s';
    we_attached : attached t s' = true;
    we_lists : lists s' (markeds (c, d) us).1 (markeds (c, d) us).2;
    we_kinds : Forall (λ u, (kind u = MUsed ∨ kind u = MClean) ∧ u.1.2 = t) us;
    we_hits : c_hits (cache s') = c_hits (cache s) + hits us;
    we_misses : c_misses (cache s') = c_misses (cache s) + misses us;
    we_listed n : n ∈ us.*2 → n ∈ (markeds (c, d) us).1 ∨ n ∈ (markeds (c, d) us).2;
    we_loaded n : n ∈ us.*2 → ∃ r, nodes s' !! n = Some r ∧ b_loaded r = true;
    we_nodes n r : nodes s !! n = Some r → b_loaded r = true → ∃ r', nodes s' !! n = Some r' ∧ link r' = link r }.
  Lemma markeds_app us us' cd : markeds cd (us ++ us') = markeds (markeds cd us) us'.
  Proof. revert cd. induction us as [|[[m t'] n] us IH]; intros cd; [done|]. cbn. apply IH. Qed.
  Lemma markeds_keep us : Forall (λ u, (kind u = MUsed ∨ kind u = MClean) ∧ u.1.2 = t) us → ∀ cd n, n ∈ cd.1 ∨ n ∈ cd.2 → n ∈ (markeds cd us).1 ∨ n ∈ (markeds cd us).2.
  Proof.
    induction 1 as [|[[m t'] x] us [Hm _] _ IH]; intros [c d] n Hn; [done|]. cbn [markeds]. apply IH. unfold kind in Hm. cbn in Hm, Hn |- *.
    destruct (decide (n = x)) as [->|Hne]; destruct Hm as [->| ->]; cbn; unfold without; repeat case_bool_decide; rewrite ?elem_of_app ?elem_of_list_singleton ?elem_of_list_filter; tauto.
  Qed.
  Lemma went_trans c d us us' s1 s2 s3 : went c d us s1 s2 → went (markeds (c, d) us).1 (markeds (c, d) us).2 us' s2 s3 → went c d (us ++ us') s1 s3.
  Proof.
    intros [A1 A2 A3 A4 A5 A6 A9 A7 A8] [B1 B2 B3 B4 B5 B6 B9 B7 B8]. rewrite -surjective_pairing in B3, B9.
    assert (∀ n r, nodes s2 !! n = Some r → b_loaded r = true → ∃ r', nodes s3 !! n = Some r' ∧ b_loaded r' = true) as HK.
    { intros n r Hn Hr. destruct (B8 n r Hn Hr) as (r' & H' & E). exists r'. split; [done|]. injection E as -> _. done. }
    split; try done.
    - by rewrite markeds_app.
    - by apply Forall_app.
    - unfold hits in *. rewrite filter_app app_length. lia.
    - unfold misses in *. rewrite filter_app app_length. lia.
    - intros n. rewrite fmap_app markeds_app. intros [H%A9|H]%elem_of_app; [by apply markeds_keep|by apply B9].
    - intros n. rewrite fmap_app. intros [(r & H & Hr)%A7|H]%elem_of_app; [by eapply HK|by apply B7].
    - intros n r Hn Hr. destruct (A8 n r Hn Hr) as (r2 & H2 & E2). assert (b_loaded r2 = true) as L2 by by injection E2 as -> _.
      destruct (B8 n r2 H2 L2) as (r3 & H3 & E3). exists r3. split; [done|congruence].
  Qed.
  Lemma has_at s n : attached t s = true → is_Some (nodes s !! n) → is_Some (cells s !! n) → has s t n.
  Proof. unfold attached. intros Ha Hn Hc. split; [|done]. destruct (trees s !! t) as [T|]; [|done]. by exists T. Qed.
  Lemma beside_lists x s s' c d : fr s → beside x s s' → lists s c d → lists s' c d.
  Proof.
    intros HF [B1 B2 B3 B4 B5 B6] HL. destruct HL as [A1 A2 A3 A4]. split; rewrite ?B4.
    - destruct A1. split; try done. intros i n Hi. by apply B2, li_cell.
    - destruct A2. split; try done. intros i n Hi. by apply B2, li_cell.
    - done.
    - intros n y Hy H1 H2. destruct (cells s !! n) as [y'|] eqn:E; [|by eapply B3]. rewrite (B2 _ _ E) in Hy. injection Hy as <-. by eapply A4.
  Qed.
  Lemma when_run s m : attached t s = true → whenCache t m s = m s.
  Proof. unfold attached, whenCache. intros Ha. rewrite run_bind. cbn [run getT]. destruct (trees s !! t) as [T|]; [|done]. cbn in Ha. by rewrite Ha. Qed.
  (** a mark that returns *)
  Lemma mark_ret m n s s' c d : lists s c d → has s t n → do_mark m t n s = ORet tt s' →
    lists s' (marked (c, d) m n).1 (marked (c, d) m n).2 ∧ found m (c, d) n.
  Proof.
    intros HL Hh H. pose proof (mark_run m t n s c d HL Hh) as HM. destruct (decide (found m (c, d) n)).
    - destruct HM as (s1 & H1 & H2 & H3). rewrite H in H1. by injection H1 as <-.
    - destruct HM as (s1 & H1). by rewrite H in H1.
  Qed.
  (** marks touch no node, except that marking clean clears the dirty flag *)
  Definition light {A} (m : M A) : Prop := ∀ s, match m s with ORet _ s' => nodes s' = nodes s ∧ trees s' = trees s ∧ fresh s' = fresh s ∧ (∀ n, is_Some (cells s' !! n) → is_Some (cells s !! n)) | _ => True end.
  Lemma li_bind {A B} (m : M A) (f : A → M B) : light m → (∀ a, light (f a)) → light (bind m f).
  Proof.
    intros Hm Hf s. rewrite run_bind. specialize (Hm s). destruct (m s) as [a s1|e s1|w s1]; [|done..].
    specialize (Hf a s1). destruct (f a s1); [|done..]. destruct Hm as (? & ? & ? & Hm), Hf as (? & ? & ? & Hf). split_and!; [congruence..|]. intros n Hn. by apply Hm, Hf.
  Qed.
  Lemma li_ret {A} (a : A) : light (ret a).
  Proof. done. Qed.
  Lemma li_panic {A} : light (A:=A) panic.
  Proof. done. Qed.
  Lemma li_getC n : light (getC n).
  Proof. intros s. cbn. by destruct (_ !! _). Qed.
  Lemma li_modC n f : light (modC n f).
  Proof.
    intros s. cbn. destruct (cells s !! n) eqn:E; [|done]. split_and!; [done..|]. intros n'. cbn.
    destruct (decide (n' = n)) as [->|]; [rewrite lookup_insert E; by eauto|]. by rewrite lookup_insert_ne.
  Qed.
  Lemma li_getCache : light getCache.
  Proof. done. Qed.
  Lemma li_modCache f : light (modCache f).
  Proof. done. Qed.
  Lemma li_getT n : light (getT n).
  Proof. intros s. cbn. by destruct (_ !! _). Qed.
  Create HintDb li discriminated.
  Local Hint Resolve li_ret li_panic li_getC li_modC li_getCache li_modCache li_getT : li.
  Ltac li := repeat match goal with
    | |- light (bind _ _) => apply li_bind; [|intros ?]
    | |- light (match ?x with _ => _ end) => destruct x
    | |- light (atomic ?m) => change (light m)
    | _ => solve [auto with li nocore]
    end.
  Lemma li_deref o : light (deref o).
  Proof. unfold deref. li. Qed.
  Lemma li_getQ b : light (getQ b).
  Proof. unfold getQ. li. Qed.
  Lemma li_modQ b f : light (modQ b f).
  Proof. unfold modQ. li. Qed.
  Local Hint Resolve li_deref li_getQ li_modQ : li.
  Lemma li_putNext p o : light (putNext p o).
  Proof. unfold putNext. li. Qed.
  Lemma li_putPrev p o : light (putPrev p o).
  Proof. unfold putPrev. li. Qed.
  Local Hint Resolve li_putNext li_putPrev : li.
  Lemma li_lruAppend b n : light (lruAppend b n).
  Proof. unfold lruAppend. li. Qed.
  Lemma li_lruToTail b n : light (lruToTail b n).
  Proof. unfold lruToTail. li. Qed.
  Lemma li_lruTake b n : light (lruTake b n).
  Proof. unfold lruTake. li. Qed.
  Lemma li_lruGive b n : light (lruGive b n).
  Proof. unfold lruGive. li. Qed.
  Lemma li_kickDrainer b : light (kickDrainer b).
  Proof. unfold kickDrainer. li. Qed.
  Local Hint Resolve li_lruAppend li_lruToTail li_lruTake li_lruGive li_kickDrainer : li.
  Lemma li_markNodeUsed n : light (markNodeUsed t n).
  Proof. unfold markNodeUsed, whenCache. li. Qed.
  Lemma li_incCacheHits : light (incCacheHits t).
  Proof. unfold incCacheHits, whenCache. li. Qed.
  Lemma li_incCacheMisses : light (incCacheMisses t).
  Proof. unfold incCacheMisses, whenCache. li. Qed.
  Lemma clean_light n s s' : attached t s = true → markNodeClean t n s = ORet tt s' → is_Some (cells s !! n) ∧ ∃ r, nodes s !! n = Some r ∧ nodes s' = <[n := set_dirty false r]> (nodes s) ∧ trees s' = trees s ∧ fresh s' = fresh s ∧ (∀ n, is_Some (cells s' !! n) → is_Some (cells s !! n)).
  Proof.
    unfold markNodeClean. intros Ha. rewrite run_bind. cbn [run modN]. destruct (nodes s !! n) as [r|] eqn:E; [|done].
    rewrite when_run //. set s1 := set_nodes _ _. rewrite run_bind. intros H.
    assert (is_Some (cells s1 !! n)) as Hc. { revert H. cbn [run getC]. destruct (cells s1 !! n); [by eauto|done]. } split; [exact Hc|]. exists r. split; [done|].
    destruct (getC n s1) as [x s2|e s2|w s2] eqn:EC; [|done..].
    apply (same_ret _ _ _ _ (sa_getC n)) in EC as EQ. subst s2.
    assert (light (bind (match ctg x with noLRU => lruAppend false n | cleanLRU => lruToTail false n | dirtyLRU => bind (lruTake true n) (λ _ : unit, lruGive false n) end) (λ _ : unit, kickDrainer (K:=K) (V:=V) false))) as HX by li.
    specialize (HX s1). unfold bind in HX, H. rewrite H in HX. destruct HX as (-> & -> & -> & HX). done.
  Qed.
  Lemma attached_eq s s' : trees s' = trees s → attached t s' = attached t s.
  Proof. unfold attached. by intros ->. Qed.
  Lemma fr_light s s' : fr s → nodes s' = nodes s → fresh s' = fresh s → (∀ n, is_Some (cells s' !! n) → is_Some (cells s !! n)) → fr s'.
  Proof.
    intros [F1 F2] Hn Hf Hc. split; intros n r; rewrite Hf ?Hn; [apply F1|]. intros H. destruct (Hc n) as [y Hy]; [by eauto|]. by eapply F2.
  Qed.
  Lemma went_visit n s s' c d : visit cb true t n s = ORet tt s' → fr s → attached t s = true → lists s c d →
    ∃ u, u.2 = n ∧ went c d [u] s s' .
  Proof.
    unfold visit. intros H HF Ha HL. apply bind_ret in H as (r & s0 & H0 & H).
    assert (s0 = s) as ->. { revert H0. cbn. destruct (_ !! _); [congruence|done]. }
    assert (nodes s !! n = Some r) as Hr. { revert H0. cbn. destruct (_ !! _); [congruence|done]. } clear H0.
    destruct (b_loaded r) eqn:Hl.
    - apply bind_ret in H as ([] & s1 & H1 & H2). exists (MUsed, t, n). split; [done|].
      pose proof (li_incCacheHits s) as L1. rewrite H1 in L1. destruct L1 as (N1 & T1 & F1 & C1).
      unfold incCacheHits in H1. rewrite when_run // in H1. cbn in H1. injection H1 as H1.
      assert (lists s1 c d) as HL1. { eapply lists_ext; [exact HL|by subst s1|]. subst s1. by intros []. }
      assert (attached t s1 = true) as Ha1 by by rewrite (attached_eq _ _ T1).
      assert (is_Some (cells s1 !! n)) as Hc. { revert H2. unfold markNodeUsed. rewrite when_run // run_bind. cbn [run getC]. destruct (cells s1 !! n); [by eauto|done]. }
      destruct (mark_ret MUsed n s1 s' c d HL1) as [HL' Hall]; [apply has_at; [done|rewrite N1; by eauto|done]|done|].
      pose proof (li_markNodeUsed n s1) as L2. rewrite H2 in L2. destruct L2 as (N2 & T2 & F2 & C2).
      assert (calm t (markNodeUsed (K:=K) (V:=V) t n)) as Hcalm by apply ca_markNodeUsed.
      destruct (calm_inv _ _ _ (calm_ret _ _ _ _ _ Hcalm H2)) as (_ & X1 & X2 & _).
      split.
      + eapply (fr_light s1); [eapply (fr_light s); try done; congruence|done..].
      + by rewrite (attached_eq _ _ T2).
      + done.
      + constructor; [|done]. split; [by left|done].
      + rewrite X1. subst s1. done.
      + rewrite X2. subst s1. unfold hits, misses. rewrite ?filter_cons ?filter_nil. repeat case_decide; try done; cbn; lia.
      + intros n' ->%elem_of_list_singleton. cbn. destruct (Hall eq_refl) as [Hin|Hin]; cbn in Hin; rewrite (bool_decide_true _ Hin); [left|right]; apply elem_of_app; right; by left.
      + intros n' ->%elem_of_list_singleton. exists r. by rewrite N2 N1.
      + intros n' r' Hn' _. exists r'. by rewrite N2 N1.
    - apply bind_ret in H as ([] & s1 & H1 & H2). exists (MClean, t, n). split; [done|].
      pose proof (li_incCacheMisses s) as L1. rewrite H1 in L1. destruct L1 as (N1 & T1 & F1 & C1).
      unfold incCacheMisses in H1. rewrite when_run // in H1. cbn in H1. injection H1 as H1.
      assert (lists s1 c d) as HL1. { eapply lists_ext; [exact HL|by subst s1|]. subst s1. by intros []. }
      assert (attached t s1 = true) as Ha1 by by rewrite (attached_eq _ _ T1).
      assert (fr s1) as HF1 by (eapply (fr_light s); try done; congruence).
      destruct (loadNode_cut n s1 s' H2 HF1) as (s2 & B2 & (r2 & Hr2 & Hl2) & H3).
      assert (attached t s2 = true) as Ha2. { revert Ha1. unfold attached. pose proof (be_trees _ _ _ B2 t) as Ht. destruct (trees s1 !! t), (trees s2 !! t); try done. cbn in *. congruence. }
      assert (lists s2 c d) as HL2 by by eapply beside_lists.
      destruct (clean_light n s2 s' Ha2 H3) as (Hc & r3 & Hr3 & N3 & T3 & F3 & C3).
      destruct (mark_ret MClean n s2 s' c d HL2) as [HL' Hall]; [apply has_at; [done|by eauto|done]|done|].
      assert (calm t (markNodeClean (K:=K) (V:=V) t n)) as Hcalm by apply ca_markNodeClean.
      destruct (calm_inv _ _ _ (calm_ret _ _ _ _ _ Hcalm H3)) as (_ & X1 & X2 & _).
      rewrite Hr2 in Hr3. injection Hr3 as <-.
      split.
      + destruct (be_fr _ _ _ B2 HF1) as [Q1 Q2]. split; intros n' r'; rewrite F3.
        * rewrite N3. destruct (decide (n' = n)) as [->|]; [intros _; by eapply Q1|]. rewrite lookup_insert_ne //. apply Q1.
        * intros Hy. destruct (C3 n') as [y' Hy']; [by eauto|]. by eapply Q2.
      + by rewrite (attached_eq _ _ T3).
      + done.
      + constructor; [|done]. split; [by right|done].
      + rewrite X1 (be_cache _ _ _ B2). subst s1. unfold hits, misses. rewrite ?filter_cons ?filter_nil. repeat case_decide; try done; cbn; lia.
      + rewrite X2 (be_cache _ _ _ B2). subst s1. unfold hits, misses. rewrite ?filter_cons ?filter_nil. repeat case_decide; try done; cbn; lia.
      + intros n' ->%elem_of_list_singleton. left. cbn. apply elem_of_app. right. by left.
      + intros n' ->%elem_of_list_singleton. eexists. rewrite N3 lookup_insert. by split.
      + intros n' r' Hn' Hl'. assert (n' ≠ n) as Hne by (intros ->; rewrite Hr in Hn'; congruence).
        rewrite -N1 in Hn'. destruct (be_nodes _ _ _ B2 n' r' HF1 Hne Hn') as (r4 & Hr4 & E4). exists r4. by rewrite N3 lookup_insert_ne.
  Qed.

  (** ** Descents *)
  (** [m] is a child of [n], which is in memory *)
  Definition child s n (m : nid) : Prop := ∃ r, nodes s !! n = Some r ∧ b_loaded r = true ∧ b_leaf r = false ∧
    (b_left r = Some m ∨ ∃ tr k, b_kv r = Some tr ∧ (k, VNode m) ∈ elements tr).
  Definition leaf s n : Prop := ∃ r, nodes s !! n = Some r ∧ b_loaded r = true ∧ b_leaf r = true.
  (** from [n] down to a leaf *)
  Inductive down s : nid → list nid → Prop :=
    | down_leaf n : leaf s n → down s n [n]
    | down_step n m ns : child s n m → down s m ns → down s n (n :: ns).
  Lemma we_leaf c d us s s' n : went c d us s s' → leaf s n → leaf s' n.
  Proof. intros HW (r & Hr & Hl & Hf). destruct (we_nodes _ _ _ _ _ HW _ _ Hr Hl) as (r' & H' & E). exists r'. injection E as E1 E2 _ _. by rewrite E1 E2. Qed.
  Lemma we_child c d us s s' n m : went c d us s s' → child s n m → child s' n m.
  Proof.
    intros HW (r & Hr & Hl & Hf & Hm). destruct (we_nodes _ _ _ _ _ HW _ _ Hr Hl) as (r' & H' & E). exists r'. injection E as E1 E2 E3 E4.
    rewrite E1 E2 E3 E4. done.
  Qed.
  Lemma walk_in (tr : llrb) : ∀ i j kv, walkIndex tr i j = LRet kv → kv ∈ elements tr.
  Proof.
    induction tr as [|col l IHl k v r IHr n]; intros i j kv; cbn [walkIndex elements]; [done|].
    destruct (_ =? _); [intros [= <-]; set_solver|]. destruct (_ <? _).
    - destruct l as [|c1 l1 k1 v1 r1 n1]; [done|]. intros H%IHl. set_solver.
    - destruct r as [|c1 l1 k1 v1 r1 n1]; [done|]. intros H%IHr. set_solver.
  Qed.
  Lemma kvGet_in n i s k v s' : kvGet n i s = ORet (Some (k, v)) s' → ∃ r tr, nodes s !! n = Some r ∧ b_kv r = Some tr ∧ (k, v) ∈ elements tr.
  Proof.
    unfold kvGet, kvOf. intros (tr & s1 & (r & s2 & H1 & H2)%bind_ret & (a & s3 & H3 & H4)%bind_ret)%bind_ret.
    exists r, tr. revert H1. cbn. destruct (nodes s !! n) as [r'|]; [|done]. intros [= -> ->]. split; [done|].
    revert H2. destruct (b_kv r) as [tr'|]; [|done]. intros [= -> ->]. split; [done|].
    revert H3. unfold lift, GetByIndex. destruct tr as [|c l k' v' r' n']; [by intros [= <- <-]; cbn in H4|].
    destruct (_ || _); [by intros [= <- <-]; cbn in H4|]. destruct (walkIndex _ _ _) as [kv| |] eqn:E; [|done..].
    intros [= <- <-]. cbn in H4. injection H4 as -> _. by eapply walk_in.
  Qed.
  Lemma findChild_child n key s m o s' r : findChild cb n key s = ORet (m, o) s' → nodes s !! n = Some r → b_loaded r = true → b_leaf r = false → child s n m.
  Proof.
    unfold findChild. intros (o1 & s1 & H1 & H)%bind_ret Hr Hl Hf. pose proof (same_ret _ _ _ _ (sa_kvGet n 0) H1) as ->.
    apply bind_ret in H as (r' & s2 & H2 & H). pose proof (same_ret _ _ _ _ (sa_getN n) H2) as ->.
    assert (r' = r) as ->. { revert H2. cbn. rewrite Hr. congruence. }
    assert (∀ l s3 o', deref (b_left r) s = ORet l s3 → ret (K:=K) (V:=V) (l, o') s3 = ORet (m, o) s' → child s n m) as HD.
    { intros l s3 o' H3 [= -> -> ->]. exists r. split_and!; [done..|]. left. revert H3. unfold deref. destruct (b_left r); [|done]. by intros [= ->]. }
    destruct o1 as [[mk v]|]; [|apply bind_ret in H as (l & s3 & H3 & H4); by eapply HD].
    apply bind_ret in H as (c & s3 & H3 & H). pose proof (same_ret _ _ _ _ (sa_compareM key mk) H3) as ->.
    destruct (c <? 0); [apply bind_ret in H as (l & s3 & H4 & H5); by eapply HD|].
    apply bind_ret in H as ([i ?] & s4 & H4 & H). pose proof (same_ret _ _ _ _ (sa_kvBisectLeft n key) H4) as ->.
    apply bind_ret in H as (o2 & s5 & H5 & H). pose proof (same_ret _ _ _ _ (sa_kvGet n i) H5) as ->.
    destruct o2 as [[k2 v2]|]; [|done]. destruct (kvGet_in _ _ _ _ _ _ H5) as (r5 & tr & Hr5 & Ht & Hin). rewrite Hr in Hr5. injection Hr5 as <-.
    apply bind_ret in H as (c2 & s6 & H6 & [= -> _ _]). exists r. split_and!; [done..|]. right. exists tr, k2. split; [done|].
    revert H6. destruct v2; cbn; [done|]. by intros [= ->].
  Qed.
  (** what a descent that returns did *)
  Definition trip (P : st → nid → list nid → Prop) c d n s s' : Prop := ∃ us, went c d us s s' ∧ head us.*2 = Some n ∧ P s' n us.*2.
  Lemma visit_head n s s' c d : visit cb true t n s = ORet tt s' → fr s → attached t s = true → lists s c d →
    ∃ u r, u.2 = n ∧ went c d [u] s s' ∧ nodes s' !! n = Some r ∧ b_loaded r = true.
  Proof.
    intros H HF Ha HL. destruct (went_visit _ _ _ _ _ H HF Ha HL) as (u & Hu & HW).
    destruct (we_loaded _ _ _ _ _ HW n) as (r & Hr & Hl); [cbn; rewrite Hu; left|]. by exists u, r.
  Qed.
  Lemma trip_key key : ∀ fuel n stack s n' stack' s' c d, descendKey cb fuel true t n stack key s = ORet (n', stack') s' → fr s → attached t s = true → lists s c d →
    trip down c d n s s'.
  Proof.
    induction fuel as [|fuel IH]; intros n stack s n' stack' s' c d; cbn [descendKey]; [done|].
    intros ([] & s1 & H1 & H)%bind_ret HF Ha HL. destruct (visit_head _ _ _ _ _ H1 HF Ha HL) as (u & r & Hu & HW & Hr & Hl).
    apply bind_ret in H as (r' & s2 & H2 & H). pose proof (same_ret _ _ _ _ (sa_getN n) H2) as ->.
    assert (r' = r) as ->. { revert H2. cbn. rewrite Hr. congruence. } clear H2.
    destruct (b_leaf r) eqn:Hf.
    { injection H as -> -> ->. exists [u]. cbn. rewrite Hu. split_and!; [done..|]. constructor. by exists r. }
    apply bind_ret in H as ([m o] & s3 & H3 & H). pose proof (same_ret _ _ _ _ (sa_findChild n key) H3) as ->.
    apply findChild_child with (r := r) in H3; [|done..].
    destruct (IH _ _ _ _ _ _ _ _ H (we_fr _ _ _ _ _ HW) (we_attached _ _ _ _ _ HW) (we_lists _ _ _ _ _ HW)) as (us & HW' & Hh & Hd).
    exists (u :: us). split_and!; [by eapply (went_trans c d [u] us)|by cbn; rewrite Hu|]. cbn. rewrite Hu. apply down_step with m; [by eapply we_child|done].
  Qed.
  Lemma trip_dim : ∀ fuel n dim s dim' s' c d, dimLoop cb fuel t n dim s = ORet dim' s' → fr s → attached t s = true → lists s c d →
    trip down c d n s s'.
  Proof.
    induction fuel as [|fuel IH]; intros n dim s dim' s' c d; cbn [dimLoop]; [done|].
    intros ([] & s1 & H1 & H)%bind_ret HF Ha HL. destruct (visit_head _ _ _ _ _ H1 HF Ha HL) as (u & r & Hu & HW & Hr & Hl).
    apply bind_ret in H as (r' & s2 & H2 & H). pose proof (same_ret _ _ _ _ (sa_getN n) H2) as ->.
    assert (r' = r) as ->. { revert H2. cbn. rewrite Hr. congruence. } clear H2.
    apply bind_ret in H as (T & s2 & H2 & H). pose proof (same_ret _ _ _ _ (sa_getT t) H2) as ->. cbv zeta in H.
    destruct (b_leaf r) eqn:Hf.
    { injection H as _ ->. exists [u]. cbn. rewrite Hu. split_and!; [done..|]. constructor. by exists r. }
    apply bind_ret in H as (m & s3 & H3 & H). pose proof (same_ret _ _ _ _ (sa_deref _) H3) as ->.
    assert (child s1 n m) as Hc. { exists r. split_and!; [done..|]. left. revert H3. unfold deref. destruct (b_left r); [|done]. by intros [= ->]. }
    destruct (IH _ _ _ _ _ _ _ H (we_fr _ _ _ _ _ HW) (we_attached _ _ _ _ _ HW) (we_lists _ _ _ _ _ HW)) as (us & HW' & Hh & Hd).
    exists (u :: us). split_and!; [by eapply (went_trans c d [u] us)|by cbn; rewrite Hu|]. cbn. rewrite Hu. apply down_step with m; [by eapply we_child|done].
  Qed.
  (** ** Calls *)
  Definition root s n : Prop := ∃ T, trees s !! t = Some T ∧ t_root T = Some n.
  Lemma root_of s n s' : rootOf t s = ORet n s' → s' = s ∧ root s n.
  Proof.
    intros H. split; [by apply (same_ret _ _ _ _ (sa_rootOf t) H)|]. revert H. unfold rootOf. rewrite run_bind. cbn [run getT].
    unfold root. destruct (trees s !! t) as [T|]; [|done]. unfold deref. destruct (t_root T) eqn:E; [|done]. intros [= -> _]. by exists T.
  Qed.
  Lemma then_same {A B} P c d n s (m : M A) (f : A → M B) b s' : (∀ a s1, m s = ORet a s1 → trip P c d n s s1) → (∀ a, same (f a)) → bind m f s = ORet b s' → trip P c d n s s'.
  Proof. intros Hm Hf (a & s1 & H1 & H2)%bind_ret. pose proof (same_ret _ _ _ _ (Hf a) H2) as ->. by eapply Hm. Qed.
  Lemma fuel_run {A} (F : nat → M A) s : with_fuel F s = F (fuel_at s) s.
  Proof. done. Qed.
  Theorem get_trip key s a s' c d : exec cb (MapCall t (CGetByKey key)) s = ORet a s' → Inv s → attached t s = true → lists s c d →
    ∃ n, root s n ∧ trip down c d n s s'.
  Proof.
    intros H [_ I1 _ I2 _] Ha HL. cbn [exec bt_call] in H. apply bind_ret in H as (a1 & s1 & H & [= _ <-]). unfold bt_GetByKey in H. rewrite fuel_run in H.
    apply bind_ret in H as (n & s2 & [-> Hn]%root_of & H). exists n. split; [done|].
    eapply then_same, H; [|intros [n1 ?]; sa]. intros [n1 st1] s3 H3. by eapply trip_key.
  Qed.
  Theorem dim_trip s a s' c d : exec cb (DimensionsReport t) s = ORet a s' → Inv s → attached t s = true → lists s c d →
    ∃ n, root s n ∧ trip down c d n s s'.
  Proof.
    intros H [_ I1 _ I2 _] Ha HL. cbn [exec] in H. apply bind_ret in H as (a1 & s1 & H & [= _ <-]). unfold bt_FetchDimensionsReport in H. rewrite fuel_run in H.
    apply bind_ret in H as (n & s2 & [-> Hn]%root_of & H). exists n. split; [done|]. by eapply trip_dim.
  Qed.
  Definition others (ns L : list nid) : list nid := filter (λ n, n ∉ ns) L.
  Lemma others_snoc ns n L : others (ns ++ [n]) L = filter (λ m, m ≠ n) (others ns L).
  Proof. unfold others. rewrite list_filter_filter. apply list_filter_iff. intros m. rewrite not_elem_of_app not_elem_of_cons elem_of_nil. tauto. Qed.
  Lemma others_no ns n L : n ∉ others ns L → others (ns ++ [n]) L = others ns L.
  Proof. intros Hn. rewrite others_snoc. by apply (without_id n). Qed.
  Lemma visited_last us : Forall (λ u, (kind u = MUsed ∨ kind u = MClean) ∧ u.1.2 = t) us → ∀ c d, ∃ cs ds,
    markeds (c, d) us = (others us.*2 c ++ cs, others us.*2 d ++ ds) ∧ Forall (.∈ us.*2) cs ∧ Forall (.∈ us.*2) ds.
  Proof.
    induction us as [|[[m t'] n] us IH] using rev_ind; intros HF c d.
    { exists [], []. cbn. rewrite !app_nil_r.
      assert (∀ L, others [] L = L) as HO. { induction L as [|x L IH]; [done|]. unfold others in *. rewrite filter_cons_True ?IH //. apply not_elem_of_nil. } by rewrite !HO. }
    apply Forall_app in HF as [HF [[Hm _] _]%Forall_cons]. unfold kind in Hm. cbn in Hm. destruct (IH HF c d) as (cs & ds & E & Hc & Hd).
    rewrite markeds_snoc E fmap_app. cbn [fmap list_fmap]. cbn [snd].
    assert (∀ L, Forall (.∈ us.*2) L → Forall (.∈ us.*2 ++ [n]) (without n L)) as HW.
    { intros L HL. apply Forall_forall. intros x [_ Hx]%elem_of_list_filter. rewrite Forall_forall in HL. apply elem_of_app. left. by apply HL. }
    assert (∀ L, Forall (.∈ us.*2) L → Forall (.∈ us.*2 ++ [n]) L) as HW'.
    { intros L HL. eapply Forall_impl; [done|]. intros x Hx. apply elem_of_app. by left. }
    assert (∀ L, Forall (.∈ us.*2) L → Forall (.∈ us.*2 ++ [n]) (without n L ++ [n])) as HS.
    { intros L HL. apply Forall_app. split; [by apply HW|]. constructor; [|done]. apply elem_of_app. right. by left. }
    assert (∀ L X, without n (others us.*2 L ++ X) = others (us.*2 ++ [n]) L ++ without n X) as HO.
    { intros L X. unfold without. rewrite filter_app others_snoc. done. }
    destruct Hm as [->| ->]; cbn [marked].
    - case_bool_decide as H1; case_bool_decide as H2.
      + exists (without n cs ++ [n]), (without n ds ++ [n]). rewrite !HO -!app_assoc. auto.
      + exists (without n cs ++ [n]), ds. rewrite !HO -!app_assoc (others_no _ _ d); [auto|]. intros H. apply H2, elem_of_app. by left.
      + exists cs, (without n ds ++ [n]). rewrite !HO -!app_assoc (others_no _ _ c); [auto|]. intros H. apply H1, elem_of_app. by left.
      + exists cs, ds. rewrite !others_no; [auto|..]; intros H; [apply H2|apply H1]; apply elem_of_app; by left.
    - exists (without n cs ++ [n]), (without n ds). rewrite !HO -!app_assoc. auto.
  Qed.

  (** the nodes visited, [ns], and what becomes of the lists *)
  Lemma trip_lists P c d n s s' : trip P c d n s s' → ∃ ns cs ds, P s' n ns ∧ head ns = Some n ∧
    lists s' (filter (λ m, m ∉ ns) c ++ cs) (filter (λ m, m ∉ ns) d ++ ds) ∧ (∀ m, m ∈ ns ↔ m ∈ cs ∨ m ∈ ds) ∧
    c_hits (cache s') + c_misses (cache s') = c_hits (cache s) + c_misses (cache s) + Z.of_nat (length ns).
  Proof.
    intros (us & HW & Hh & HP). destruct (visited_last us (we_kinds _ _ _ _ _ HW) c d) as (cs & ds & E & Hc & Hd).
    exists us.*2, cs, ds. split_and!; [done|done| | |].
    - pose proof (we_lists _ _ _ _ _ HW) as HL. rewrite E in HL. done.
    - intros m. split; [|rewrite !Forall_forall in Hc, Hd; intros [H|H]; [by apply Hc|by apply Hd]].
      intros Hm. pose proof (we_listed _ _ _ _ _ HW m Hm) as H. rewrite E in H. cbn in H.
      destruct H as [[H|H]%elem_of_app|[H|H]%elem_of_app]; [|by left| |by right]; apply elem_of_list_filter in H as [H _]; by exfalso; apply H.
    - rewrite (we_hits _ _ _ _ _ HW) (we_misses _ _ _ _ _ HW) fmap_length. pose proof (we_kinds _ _ _ _ _ HW) as HK. clear -HK. unfold hits, misses.
      induction HK as [|u us [Hu _] _ IH]; [cbn; lia|]. rewrite !filter_cons. destruct Hu as [Hu|Hu]; rewrite Hu; repeat case_decide; try done; cbn [length] in *; lia.
  Qed.
End recent.

Section hist.
  Context {K V : Type}.
  Variable cb : callbacks K V.
  Variable dom : K → Prop.
  Variable domV : V → Prop.
  Hypothesis WF : wf_cb cb dom domV.
  Notation st := (st K V).
  Implicit Types (s : st).
  Notation history := (Sample.history cb dom domV).
  (** the calls that visit one node on each level, and mark it used *)
  Inductive looks (t : tid) : cmd K V → result K V → Prop :=
    | looks_key k a : looks t (MapCall t (CGetByKey k)) a
    | looks_index i kv : looks t (MapCall t (CGetByIndex i)) (RAns (RItem (Some kv)))
    | looks_left k a : looks t (MapCall t (CBisectLeft k)) a
    | looks_right k a : looks t (MapCall t (CBisectRight k)) a
    | looks_dim a : looks t (DimensionsReport t) a.
  Lemma hist_Inv hi s : history hi s → Inv s.
  Proof. intros H. destruct (hist_facts cb dom domV WF hi s H) as (_ & _ & HW). apply HW. Qed.
  Lemma att s t T : trees s !! t = Some T → t_cache T = true → attached t s = true.
  Proof. unfold attached. by intros -> <-. Qed.
  Theorem used_path hi s t T c d cmd a s' : history hi s → trees s !! t = Some T → t_cache T = true → lists s c d →
    cmd = DimensionsReport t ∨ (∃ k, cmd = MapCall t (CGetByKey k)) → exec cb cmd s = ORet a s' →
    ∃ n ns cs ds, t_root T = Some n ∧ down s' n ns ∧
      lists s' (filter (λ m, m ∉ ns) c ++ cs) (filter (λ m, m ∉ ns) d ++ ds) ∧ (∀ m, m ∈ ns ↔ m ∈ cs ∨ m ∈ ds).
  Proof.
    intros HH HT Hc HL Hcmd H. pose proof (hist_Inv _ _ HH) as HI. pose proof (att _ _ _ HT Hc) as Ha.
    assert (∃ n, root t s n ∧ trip t down c d n s s') as (n & (T' & HT' & Hn) & HTr).
    { destruct Hcmd as [->|[k ->]]; [by eapply dim_trip|by eapply get_trip]. }
    rewrite HT in HT'. injection HT' as <-. destruct (trip_lists _ _ _ _ _ _ _ HTr) as (ns & cs & ds & HP & _ & HL' & Hm & _). by exists n, ns, cs, ds.
  Qed.
End hist.

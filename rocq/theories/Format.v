(** * The stored form of a node

    A pure reader and writer for blocks, put together from the same pieces as
    loadNode and postNode (BTree.v), for the round-trip theorem.  [read] gives
    [None] where loadNode returns an error or panics. *)
From Coq Require Import ssreflect.
From stdpp Require Import prelude list gmap.
From iris.bi Require Import bi.
From iris.proofmode Require Import proofmode.
From Verif Require Import Spec SpecFacts BTree HProp Lru Wp Kv Codec Ghost Order Rep Api Open Pres Machine World Disk Picture Client Hist Seat History Footprint Sample Aside.
Open Scope Z_scope.

(** what a block says: the item count, the capacity if it is a root, and the
    entries of a leaf, or the first child and the others with their keys.  The
    format also has inner nodes without children; no tree has such a node. *)
Inductive body (K V : Type) :=
  | Leaf (kvs : list (K * V))
  | Inner (first : loc * Z) (rest : list (K * (loc * Z)))
  | Hollow.
Arguments Leaf {_ _}. Arguments Inner {_ _}. Arguments Hollow {_ _}.
Record snode (K V : Type) := SNode { sn_items : Z; sn_max : option Z; sn_body : body K V }.
Arguments SNode {_ _}. Arguments sn_items {_ _}. Arguments sn_max {_ _}. Arguments sn_body {_ _}.

Section format.
  Context {K V : Type}.
  Variable cb : callbacks K V.
  Variable dom : K → Prop.
  Variable domV : V → Prop.
  Hypothesis WF : wf_cb cb dom domV.
  Notation M := (M K V).
  Notation snode := (snode K V).

  (** btree.go:2876-3053, the bytes handed to PutNode *)
  Definition write (n : snode) : bytes :=
    u64 (sn_items n) ++ [bool_byte (isS (sn_max n)); bool_byte (match sn_body n with Leaf _ => true | _ => false end)] ++
    enc_mx (sn_max n) ++
    match sn_body n with
    | Leaf kvs => u64 (Z.of_nat (length kvs)) ++ mjoin (enc_kv cb <$> kvs)
    | Inner r krs => u64 (1 + Z.of_nat (length krs)) ++ enc_ref r ++ mjoin (enc_kref cb <$> krs)
    | Hollow => u64 0
    end.

  (** btree.go:2717-2874, the reading of the bytes got from GetNode *)
  Definition cut {A} (o : option (A * nat)) (b : bytes) : option (A * bytes) :=
    match o with Some (a, n) => if bool_decide (n ≤ length b)%nat then Some (a, drop n b) else None | None => None end.
  Definition readKey (b : bytes) := cut (cb_unpackK cb b) b.
  Definition readVal (b : bytes) := cut (cb_unpackV cb b) b.
  Definition readRef (b : bytes) : option (loc * Z * bytes) :=
    match unle 8 b with Some (n, b) =>
    match unle 8 b with Some (o, b) =>
    match unle 8 b with Some (l, b) =>
    match unle 8 b with Some (i, b) => Some ((n, o, l), i, b) | None => None end | None => None end | None => None end | None => None end.
  Fixpoint readLeaf (cnt : nat) (b : bytes) : option (list (K * V) * bytes) :=
    match cnt with
    | O => Some ([], b)
    | S cnt =>
        match readKey b with Some (k, b) =>
        match readVal b with Some (v, b) =>
        match readLeaf cnt b with Some (kvs, b) => Some ((k, v) :: kvs, b) | None => None end | None => None end | None => None end
    end.
  Fixpoint readInner (cnt : nat) (b : bytes) : option (list (K * (loc * Z)) * bytes) :=
    match cnt with
    | O => Some ([], b)
    | S cnt =>
        match readKey b with Some (k, b) =>
        match readRef b with Some (l, i, b) =>
        match readInner cnt b with Some (krs, b) => Some ((k, (l, i)) :: krs, b) | None => None end | None => None end | None => None end
    end.
  Definition readBody (leaf : bool) (b : bytes) : option (body K V * bytes) :=
    match unle 8 b with
    | None => None
    | Some (cnt, b) =>
        if leaf then match readLeaf (Z.to_nat cnt) b with Some (kvs, b) => Some (Leaf kvs, b) | None => None end
        else if cnt =? 0 then Some (Hollow, b)
        else
          match readRef b with
          | Some (l, i, b) => match readInner (Z.to_nat (cnt - 1)) b with Some (krs, b) => Some (Inner (l, i) krs, b) | None => None end
          | None => None
          end
    end.
  Definition read (b : bytes) : option snode :=
    match unle 8 b with
    | Some (items, r :: l :: b) =>
        match (if negb (r =? 0) then match unle 8 b with Some (m, b) => Some (Some m, b) | None => None end else Some (None, b)) with
        | Some (mx, b) => match readBody (negb (l =? 0)) b with Some (bo, []) => Some (SNode items mx bo) | _ => None end
        | None => None
        end
    | _ => None
    end.

  (** nodes whose numbers fit in 64 bits and whose keys and values the callbacks can handle *)
  Definition fine (n : snode) : Prop :=
    fits (sn_items n) ∧ mxfit (sn_max n) ∧
    match sn_body n with
    | Leaf kvs => fits (Z.of_nat (length kvs)) ∧ Forall (λ p, dom p.1 ∧ domV p.2) kvs
    | Inner r krs => fits (1 + Z.of_nat (length krs)) ∧ refgood r ∧ Forall (λ p, dom p.1 ∧ refgood p.2) krs
    | Hollow => True
    end.

  Lemma cut_ok {A} (a : A) b rest : cut (Some (a, length b)) (b ++ rest) = Some (a, rest).
  Proof. unfold cut. rewrite bool_decide_true; [by rewrite drop_app|]. rewrite app_length. lia. Qed.
  Lemma readKey_ok k rest : dom k → readKey (pk cb k ++ rest) = Some (k, rest).
  Proof using WF. intros H. unfold readKey. rewrite (proj2 (pk_ok cb dom domV WF k H)). apply cut_ok. Qed.
  Lemma readVal_ok v rest : domV v → readVal (pv cb v ++ rest) = Some (v, rest).
  Proof using WF. intros H. unfold readVal. rewrite (proj2 (pv_ok cb dom domV WF v H)). apply cut_ok. Qed.
  Lemma readRef_ok p rest : refgood p → readRef (enc_ref p ++ rest) = Some (p.1, p.2, rest).
  Proof.
    destruct p as [[[a b] c] z]. unfold refgood, enc_ref, locok, lnum, loff, llen. cbn. intros [(?&?&?) ?]. rewrite -!app_assoc. unfold readRef.
    rewrite !unle_u64 //. unfold fits. lia.
  Qed.
  Lemma readLeaf_ok kvs rest : Forall (λ p, dom p.1 ∧ domV p.2) kvs → readLeaf (length kvs) (mjoin (enc_kv cb <$> kvs) ++ rest) = Some (kvs, rest).
  Proof using WF.
    induction 1 as [|[k v] kvs [Hk Hv] _ IH]; [done|]. cbn [length readLeaf fmap list_fmap mjoin list_join].
    unfold enc_kv at 1. cbn [fst snd]. rewrite -!app_assoc readKey_ok // readVal_ok // IH //.
  Qed.
  Lemma readInner_ok krs rest : Forall (λ p, dom p.1 ∧ refgood p.2) krs → readInner (length krs) (mjoin (enc_kref cb <$> krs) ++ rest) = Some (krs, rest).
  Proof using WF.
    induction 1 as [|[k [l i]] krs [Hk Hr] _ IH]; [done|]. cbn [length readInner fmap list_fmap mjoin list_join].
    unfold enc_kref at 1. cbn [fst snd]. rewrite -!app_assoc readKey_ok // readRef_ok // IH //.
  Qed.
  Theorem read_write n : fine n → read (write n) = Some n.
  Proof using WF.
    destruct n as [z mx bo]. intros (Hz & Hm & Hb). cbn [sn_items sn_max sn_body] in *. unfold read, write. cbn [sn_items sn_max sn_body].
    rewrite unle_u64 //. cbn [app].
    set (e := match bo with Leaf _ => _ | _ => _ end).
    assert ((if negb (bool_byte (isS mx) =? 0) then match unle 8 (enc_mx mx ++ e) with Some (m, b) => Some (Some m, b) | None => None end else Some (None, enc_mx mx ++ e)) = Some (mx, e)) as ->.
    { destruct mx as [m|]; cbn [isS bool_byte enc_mx app]; [|done]. rewrite unle_u64 //. }
    subst e. destruct bo as [kvs|r krs|]; unfold readBody.
    - destruct Hb as [Hl Hd]. rewrite unle_u64 //. cbn [bool_byte negb Z.eqb]. rewrite Nat2Z.id. 
      by rewrite -(app_nil_r (mjoin _)) readLeaf_ok.
    - destruct Hb as (Hl & Hr & Hd). rewrite unle_u64 //. cbn [bool_byte negb Z.eqb].
      destruct (Z.eqb_spec (1 + Z.of_nat (length krs)) 0); [lia|]. rewrite readRef_ok //.
      replace (Z.to_nat (1 + Z.of_nat (length krs) - 1)) with (length krs) by lia.
      rewrite -(app_nil_r (mjoin _)) readInner_ok //. by destruct r.
    - rewrite -(app_nil_r (u64 0)) unle_u64 //.
  Qed.

  (** the pieces are those of BTree.v *)
  Lemma read_key b (s : st K V) : unpackKeyM cb b s = match readKey b with
    | Some x => ret x s
    | None => match cb_unpackK cb b with Some _ => panic s | None => fail EPack s end end.
  Proof.
    unfold unpackKeyM, readKey, cut. destruct (cb_unpackK cb b) as [[k n]|]; [|done]. unfold slice, bind; cbn [run].
    by case_bool_decide; [rewrite decide_True|rewrite decide_False].
  Qed.
  Lemma read_val b (s : st K V) : unpackValM cb b s = match readVal b with
    | Some x => ret x s
    | None => match cb_unpackV cb b with Some _ => panic s | None => fail EPack s end end.
  Proof.
    unfold unpackValM, readVal, cut. destruct (cb_unpackV cb b) as [[k n]|]; [|done]. unfold slice, bind; cbn [run].
    by case_bool_decide; [rewrite decide_True|rewrite decide_False].
  Qed.
  Lemma read_ref b (s : st K V) : unpackRef b s = match readRef b with Some x => ret x s | None => fail EPack s end.
  Proof.
    unfold unpackRef, readRef, unpackU64. rewrite run_bind. destruct (unle 8 b) as [[n b1]|]; [|done]. urun.
    destruct (unle 8 b1) as [[o b2]|]; [|done]. urun. destruct (unle 8 b2) as [[l b3]|]; [|done]. urun.
    by destruct (unle 8 b3) as [[i b4]|].
  Qed.

  (** ** The nodes of a tree and their blocks *)
  Notation gt := (gt K V).
  Notation dt := (dt K V).
  (** [part ir g ir' g']: [g'] is a node of [g], with what lies below it; [ir]
      and [ir'] say which of the two is the root of the whole tree.  Nodes that
      are not in memory count too. *)
  Inductive part : bool → gt → bool → gt → Prop :=
    | part_self ir g : part ir g ir g
    | part_child ir n st ks cs c ir' g' : c ∈ cs → part false c ir' g' → part ir (GI n st ks cs) ir' g'
    | part_below ir n l ks ds d ir' g' : d ∈ ds → part false (GD n d) ir' g' → part ir (GD n (DI l ks ds)) ir' g'.
  (** what the block of a node should say *)
  Definition inner_of (items : Z) (mx : option Z) (ks : list K) (refs : list (loc * Z)) : option snode :=
    match refs with r :: refs => Some (SNode items mx (Inner r (zip ks refs))) | [] => None end.
  Definition form (mx : Z) (ir : bool) (g : gt) : option snode :=
    let mx := if ir then Some mx else None in
    match g with
    | GD _ (DL _ kvs) | GL _ _ kvs => Some (SNode (Z.of_nat (length kvs)) mx (Leaf kvs))
    | GD _ (DI l ks ds) => inner_of (csz (dstrip (DI l ks ds))) mx ks ((λ d, (dloc d, csz (dstrip d))) <$> ds)
    | GI _ _ ks cs => inner_of (csz (strip g)) mx ks ((λ c, (default noloc (gloc c), csz (strip c))) <$> cs)
    end.

  Lemma imaged_form D h mx (ir : bool) n d : imaged cb D h (if ir then Some mx else None) d → Forall (dtok dom domV) (toks (dstrip d)) →
    ∃ x, form mx ir (GD n d) = Some x ∧ fine x ∧ D (dloc d) = Some (write x).
  Proof.
    destruct h as [|h], d as [l kvs|l ks ds]; try done.
    - intros (H1 & H2 & H3 & H4) G. cbn in G. unfold itoks in G. rewrite Forall_fmap in G.
      eexists. split; [done|]. split; [|exact H1]. split; [exact H4|]. split; [exact H3|]. by split.
    - intros (H1 & H2 & H3 & H4 & H5 & H6 & H7) G. apply toks_inner in G as [Gk _]; [|by rewrite !fmap_length].
      pose proof (imaged_refs _ _ _ _ H7) as R. unfold form.
      change ((λ d, (dloc d, csz (dstrip d))) <$> ds) with (dref <$> ds).
      destruct ds as [|d0 ds]; [done|]. cbn in H6. rewrite fmap_cons in H1, R |- *. apply Forall_cons in R as [R1 R2].
      assert (length (zip ks (dref <$> ds)) = length ks) as L by (rewrite zip_with_length fmap_length; lia).
      eexists. split; [done|]. split.
      + split; [exact H4|]. split; [exact H3|]. cbn [sn_body]. rewrite L. split; [done|]. split; [done|]. by apply Forall_zip.
      + cbn [enc_inner'] in H1. rewrite H1. f_equal. 
  Qed.
  Lemma image_form mx ir n g d : image g = Some d → form mx ir g = form mx ir (GD n d).
  Proof.
    destruct g as [n' d'|n' st kvs|n' st ks cs].
    - by intros [= ->].
    - destruct st; try done. by intros [= <-].
    - intros H. pose proof (image_strip _ _ H) as HS. cbn in H. destruct st as [l| | | |]; try done. apply fmap_Some in H as (ds & H & ->). unfold form. rewrite HS. f_equal.
      apply mapM_Some in H. clear -H. induction H as [|c d cs ds H _ IH]; [done|].
      rewrite !fmap_cons IH (image_gloc _ _ H) (image_strip _ _ H) //.
  Qed.
  Lemma imaged_part D mx ir g ir' g' : part ir g ir' g' → ∀ h n d, g = GD n d →
    imaged cb D h (if ir then Some mx else None) d → Forall (dtok dom domV) (toks (dstrip d)) →
    ∃ h' n' d', g' = GD n' d' ∧ imaged cb D h' (if ir' then Some mx else None) d' ∧ Forall (dtok dom domV) (toks (dstrip d')).
  Proof.
    induction 1 as [ir g|ir n st ks cs c ir' g' Hc _ IH|ir n l ks ds d ir' g' Hd _ IH]; intros h n0 d0 Hg HI HG.
    - subst g. by exists h, n0, d0.
    - done.
    - injection Hg as <- <-. destruct h; [done|]. destruct HI as (_ & _ & _ & _ & _ & Hl & HI).
      cbn in HG. apply toks_inner in HG as [_ HG]; [|by rewrite !fmap_length].
      rewrite !Forall_fmap in HG. rewrite !Forall_forall in HG, HI. eapply IH; [done|by apply HI|by apply HG].
  Qed.
  Lemma shown_part s t mx ir g ir' g' : part ir g ir' g' → ∀ h par,
    shown cb s t mx h par ir g → Forall (dtok dom domV) (toks (strip g)) →
    Forall (dtok dom domV) (toks (strip g')) ∧ (is_Some (gloc g') → ∃ d h', image g' = Some d ∧ imaged cb (λ l, disk s !! l) h' (if ir' then Some mx else None) d).
  Proof.
    induction 1 as [ir g|ir n st ks cs c ir' g' Hc _ IH|ir n l ks ds d ir' g' Hd Hp _]; intros h par HS HG.
    - split; [done|]. intros [l Hl]. destruct g as [n d'|n st kvs|n st ks cs].
      + exists d', h. split; [done|]. destruct h; by destruct HS as [_ HS].
      + destruct h; [|done]. destruct HS as [_ HS]. destruct st; try done. destruct HS as (d' & Hd' & HI). by exists d', 0%nat.
      + destruct h; [done|]. destruct HS as (_ & _ & _ & HS). destruct st; try done. destruct HS as (d' & Hd' & HI). by exists d', (S h).
    - destruct h; [done|]. destruct HS as (_ & Hl & HS & _). cbn in HG. apply toks_inner in HG as [_ HG]; [|by rewrite !fmap_length].
      rewrite !Forall_fmap in HG. rewrite !Forall_forall in HG, HS. eapply IH; [by apply HS|by apply HG].
    - assert (imaged cb (λ l, disk s !! l) h (if ir then Some mx else None) (DI l ks ds)) as HI by by destruct h; destruct HS.
      destruct (imaged_part (λ l, disk s !! l) mx ir _ ir' g' (part_below _ _ _ _ _ _ _ _ Hd Hp) h n _ eq_refl HI HG) as (h' & n' & d' & -> & H1 & H2).
      split; [done|]. intros _. by exists d', h'.
  Qed.
  (** Every node of a tree that is marked as stored has a block that says
      exactly what the node is, and reading the block gives the node back. *)
  Theorem node_block s t mn ca S h g ir g' l :
    pictured cb dom domV s t mn ca S h g → part true g ir g' → gloc g' = Some l →
    ∃ b x, disk s !! l = Some b ∧ form (2 * Z.of_nat mn) ir g' = Some x ∧ fine x ∧ b = write x ∧ read b = Some x.
  Proof using WF.
    intros HP Hp Hl. destruct (shown_part s t _ _ _ _ _ Hp h None (pc_shown _ _ _ _ _ _ _ _ _ _ HP) (pc_dom _ _ _ _ _ _ _ _ _ _ HP)) as [HG HI].
    destruct HI as (d & h' & Hd & HI'); [by eexists|].
    assert (dloc d = l) as Hdl. { pose proof (image_gloc _ _ Hd). congruence. }
    rewrite (image_strip _ _ Hd) in HG.
    destruct (imaged_form _ h' _ ir 1%positive d HI' HG) as (x & Hx & Hf & Hb). rewrite Hdl in Hb.
    exists (write x), x. rewrite (image_form _ _ 1%positive _ _ Hd) Hb. split; [done|]. split; [done|]. split; [done|]. split; [done|]. by apply read_write.
  Qed.
  Lemma write_inj n n' : fine n → fine n' → write n = write n' → n = n'.
  Proof using WF. intros H H' HE. apply (inj Some). rewrite -(read_write n H) -(read_write n' H') HE //. Qed.
  Lemma history_blocks hi s t m : history cb dom domV hi s → contents (after (cb_cmp cb) hi) t = Some m →
    ∃ mn ca S h g, pictured cb dom domV s t mn ca S h g ∧ items (strip g) = m ∧
      ∀ ir g' l, part true g ir g' → gloc g' = Some l →
      ∃ b x, disk s !! l = Some b ∧ form (2 * Z.of_nat mn) ir g' = Some x ∧ fine x ∧ b = write x ∧ read b = Some x.
  Proof using WF.
    intros Hh Hm. destruct (tree_shape cb dom domV WF hi s t m Hh Hm) as (mn & ca & S & h & g & HP & _ & Hi & _).
    exists mn, ca, S, h, g. split; [done|]. split; [done|]. intros ir g' l. by apply (node_block s t mn ca S h g).
  Qed.
End format.

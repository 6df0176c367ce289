(** * Model of llrb_tree.go, llrb_tree_api.go and llrb_validate.go

    The Go code updates nodes in place.  Every LLRB node has exactly one
    owner (its parent or the tree), so in-place update is modelled by
    returning the new node.  A nil dereference is the outcome [LPanic].
    [LFuel] (recursion budget exhausted) is proved unreachable.
    Not modelled: the per-tree mutex (every call is atomic).  Dump is in LlrbDump.v. *)
From stdpp Require Import prelude list.
From Verif Require Import Spec.
Open Scope Z_scope.

(** Outcome of a function that may dereference nil. *)
Inductive lo (A : Type) := LRet (a : A) | LPanic | LFuel.
Arguments LRet {_} _.
Arguments LPanic {_}.
Arguments LFuel {_}.

Definition lbind {A B} (m : lo A) (f : A → lo B) : lo B :=
  match m with LRet a => f a | LPanic => LPanic | LFuel => LFuel end.
Notation "'let!' x := m 'in' e" := (lbind m (fun x => e))
  (at level 200, x name, m at level 100, e at level 200, right associativity).
Notation "'let!' ' x := m 'in' e" := (lbind m (fun x => e))
  (at level 200, x strict pattern, m at level 100, e at level 200, right associativity).

(** llrb_tree.go:19-22 *)
Definition RED : bool := true.
Definition BLACK : bool := false.

Section llrb.
  Context {K V : Type}.
  Variable cmp : K → K → option Z.

  (** llrb_tree.go:24-31 llrbNodeStruct; [E] is a nil pointer.
      Go int sizes are unbounded integers here (a tree never holds 2^63
      nodes). *)
  Inductive tree :=
    | E
    | T (color : bool) (left : tree) (key : K) (value : V) (right : tree) (len : Z).

  (** [if nil != node { node.len } else { 0 }], the idiom used throughout
      (e.g. llrb_tree.go:56-59) *)
  Definition tlen (t : tree) : Z := match t with E => 0 | T _ _ _ _ _ n => n end.

  (** In-order contents.  Not in the code: used by the specification, and as
      the recursion budget of [delete]. *)
  Fixpoint elements (t : tree) : list (K * V) :=
    match t with
    | E => []
    | T _ l k v r _ => elements l ++ (k, v) :: elements r
    end.

  (** llrb_tree.go:694-708 *)
  Definition isRed (t : tree) : bool := match t with E => false | T c _ _ _ _ _ => c end.
  Definition isBlack (t : tree) : bool := match t with E => true | T c _ _ _ _ _ => negb c end.

  (** [node.left] with [node] nil panics *)
  Definition getLeft (t : tree) : lo tree := match t with E => LPanic | T _ l _ _ _ _ => LRet l end.
  Definition getRight (t : tree) : lo tree := match t with E => LPanic | T _ _ _ _ r _ => LRet r end.

  Definition flipColor (t : tree) : lo tree :=
    match t with E => LPanic | T c l k v r n => LRet (T (negb c) l k v r n) end.

  (** llrb_tree.go:710-714 *)
  Definition colorFlip (t : tree) : lo tree :=
    match t with
    | E => LPanic
    | T c l k v r n =>
        let! l' := flipColor l in
        let! r' := flipColor r in
        LRet (T (negb c) l' k v r' n)
    end.

  (** llrb_tree.go:716-741 *)
  Definition rotateLeft (t : tree) : lo tree :=
    match t with
    | T oc ol ok ov (T nc nl nk nv nr nn) on =>
        let nodesTransferred := tlen nl in
        let on' := on - nn + nodesTransferred in
        let nn' := nn - nodesTransferred + on' in
        LRet (T oc (T RED ol ok ov nl on') nk nv nr nn')
    | _ => LPanic
    end.

  (** llrb_tree.go:743-768 *)
  Definition rotateRight (t : tree) : lo tree :=
    match t with
    | T oc (T nc nl nk nv nr nn) ok ov or on =>
        let nodesTransferred := tlen nr in
        let on' := on - nn + nodesTransferred in
        let nn' := nn - nodesTransferred + on' in
        LRet (T oc nl nk nv (T RED nr ok ov or on') nn')
    | _ => LPanic
    end.

  (** llrb_tree.go:770-782 *)
  Definition moveRedLeft (t : tree) : lo tree :=
    let! t1 := colorFlip t in
    match t1 with
    | E => LPanic
    | T c l k v r n =>
        let! rl := getLeft r in
        if isRed rl then
          let! r' := rotateRight r in
          let! t2 := rotateLeft (T c l k v r' n) in
          colorFlip t2
        else LRet t1
    end.

  (** llrb_tree.go:784-795 *)
  Definition moveRedRight (t : tree) : lo tree :=
    let! t1 := colorFlip t in
    match t1 with
    | E => LPanic
    | T c l k v r n =>
        let! ll := getLeft l in
        if isRed ll then
          let! t2 := rotateRight t1 in
          colorFlip t2
        else LRet t1
    end.

  (** llrb_tree.go:797-811 *)
  Definition fixUp (t : tree) : lo tree :=
    match t with
    | E => LPanic
    | T _ _ _ _ r _ =>
        let! t1 := (if isRed r then rotateLeft t else LRet t) in
        let! l1 := getLeft t1 in
        let! t2 :=
          (if isRed l1 then
             let! ll1 := getLeft l1 in
             if isRed ll1 then rotateRight t1 else LRet t1
           else LRet t1) in
        let! l2 := getLeft t2 in
        let! r2 := getRight t2 in
        if isRed l2 && isRed r2 then colorFlip t2 else LRet t2
    end.

  (** llrb_tree.go:462-523: result [(newNexusNode, ok, err)].  When err or
      !ok, the code does not assign the child pointer; the node returned here
      is the old node with whatever the recursive call left in the child. *)
  Fixpoint insert (t : tree) (k : K) (v : V) : lo (tree * bool * bool) :=
    match t with
    | E => LRet (T RED E k v E 0, true, false)
    | T c l k' v' r n =>
        match cmp k k' with
        | None => LRet (t, false, true)
        | Some cr =>
            if cr <? 0 then
              let! '(l', ok, err) := insert l k v in
              if (err : bool) then LRet (T c l' k' v' r n, false, true)
              else if (ok : bool) then
                let! t' := fixUp (T c l' k' v' r n) in LRet (t', true, false)
              else LRet (T c l' k' v' r n, false, false)
            else if 0 <? cr then
              let! '(r', ok, err) := insert r k v in
              if (err : bool) then LRet (T c l k' v' r' n, false, true)
              else if (ok : bool) then
                let! t' := fixUp (T c l k' v' r' n) in LRet (t', true, false)
              else LRet (T c l k' v' r' n, false, false)
            else LRet (t, false, false)
        end
    end.

  (** llrb_tree.go:525-546.  The error of a recursive call is ignored by the
      code and so is the error returned to Put. *)
  Fixpoint postInsertAdjustLen (t : tree) (k : K) : lo tree :=
    match t with
    | E => LPanic
    | T c l k' v' r n =>
        let n' := n + 1 in
        match cmp k k' with
        | None => LRet (T c l k' v' r n')
        | Some cr =>
            if cr <? 0 then
              let! l' := postInsertAdjustLen l k in LRet (T c l' k' v' r n')
            else if 0 <? cr then
              let! r' := postInsertAdjustLen r k in LRet (T c l k' v' r' n')
            else LRet (T c l k' v' r n')
        end
    end.

  (** llrb_tree.go:548-566: returns the node and the key found *)
  Fixpoint preDeleteByIndexAdjustLen (t : tree) (i : Z) : lo (tree * K) :=
    match t with
    | E => LPanic
    | T c l k v r n =>
        let n' := n - 1 in
        let nodesOnLeft := tlen l in
        if i <? nodesOnLeft then
          let! '(l', key) := preDeleteByIndexAdjustLen l i in
          LRet (T c l' k v r n', key)
        else if nodesOnLeft <? i then
          let! '(r', key) := preDeleteByIndexAdjustLen r (i - nodesOnLeft - 1) in
          LRet (T c l k v r' n', key)
        else LRet (T c l k v r n', k)
    end.

  (** llrb_tree.go:568-607: returns the node, ok and err *)
  Fixpoint preDeleteByKeyAdjustLen (t : tree) (key : K) : tree * bool * bool :=
    match t with
    | E => (E, false, false)
    | T c l k v r n =>
        match cmp key k with
        | None => (t, false, true)
        | Some cr =>
            if cr <? 0 then
              let '(l', ok, err) := preDeleteByKeyAdjustLen l key in
              if (err : bool) then (T c l' k v r n, ok, true)
              else if (ok : bool) then (T c l' k v r (n - 1), ok, false)
              else (T c l' k v r n, ok, false)
            else if 0 <? cr then
              let '(r', ok, err) := preDeleteByKeyAdjustLen r key in
              if (err : bool) then (T c l k v r' n, ok, true)
              else if (ok : bool) then (T c l k v r' (n - 1), ok, false)
              else (T c l k v r' n, ok, false)
            else (T c l k v r (n - 1), true, false)
        end
    end.

  (** [isBlack(x) && isBlack(x.left)]: the second operand dereferences x.
      (llrb_tree.go:619, 643, 679) *)
  Definition bothBlack (x : tree) : lo bool :=
    if isBlack x then
      let! xl := getLeft x in LRet (isBlack xl)
    else LRet false.

  (** llrb_tree.go:668-690.  Recursion budget: [fuel]. *)
  Fixpoint deleteMin (fuel : nat) (t : tree) : lo (tree * K * V) :=
    match fuel with
    | O => LFuel
    | S fuel =>
        match t with
        | E => LPanic
        | T _ E k v _ _ => LRet (E, k, v)
        | T _ (T _ _ _ _ _ _ as l) _ _ _ _ =>
            let! b := bothBlack l in
            let! t1 := (if (b : bool) then moveRedLeft t else LRet t) in
            match t1 with
            | E => LPanic
            | T c1 l1 k1 v1 r1 n1 =>
                let! '(l2, mk, mv) := deleteMin fuel l1 in
                let! t2 := fixUp (T c1 l2 k1 v1 r1 (n1 - 1)) in
                LRet (t2, mk, mv)
            end
        end
    end.

  (** [compareResult, compareErr = tree.Compare(key, newNexusNode.Key)] *)
  Definition cmpNode (key : K) (t : tree) : lo (option Z) :=
    match t with E => LPanic | T _ _ k _ _ _ => LRet (cmp key k) end.

  (** llrb_tree.go:609-666.  Result: [(newNexusNode, err)].  On error the
      partially restructured node is returned, exactly as the code does. *)
  Fixpoint delete (fuel : nat) (t : tree) (key : K) : lo (tree * bool) :=
    match fuel with
    | O => LFuel
    | S fuel =>
        match t with
        | E => LPanic
        | T c l k v r n =>
            match cmp key k with
            | None => LRet (t, true)
            | Some cr =>
                if cr <? 0 then
                  let! b := bothBlack l in
                  let! t1 := (if (b : bool) then moveRedLeft t else LRet t) in
                  match t1 with
                  | E => LPanic
                  | T c1 l1 k1 v1 r1 n1 =>
                      let! '(l2, err) := delete fuel l1 key in
                      if (err : bool) then LRet (T c1 l2 k1 v1 r1 n1, true)
                      else
                        let! t2 := fixUp (T c1 l2 k1 v1 r1 n1) in LRet (t2, false)
                  end
                else
                  let! '(t1, cr1) :=
                    (if isRed l then
                       let! t' := rotateRight t in
                       let! o := cmpNode key t' in LRet (t', o)
                     else LRet (t, Some cr)) in
                  match cr1 with
                  | None => LRet (t1, true)
                  | Some cr1 =>
                      let! r1 := getRight t1 in
                      match r1 with
                      | E => if cr1 =? 0 then LRet (E, false)
                             else LPanic (* isBlack(nil) && nil.left *)
                      | T _ _ _ _ _ _ =>
                          let! b := bothBlack r1 in
                          let! '(t2, cr2) :=
                            (if (b : bool) then
                               let! t' := moveRedRight t1 in
                               let! o := cmpNode key t' in LRet (t', o)
                             else LRet (t1, Some cr1)) in
                          match cr2 with
                          | None => LRet (t2, true)
                          | Some cr2 =>
                              match t2 with
                              | E => LPanic
                              | T c2 l2 k2 v2 r2 n2 =>
                                  if cr2 =? 0 then
                                    let! '(r3, mk, mv) := deleteMin fuel r2 in
                                    let! t3 := fixUp (T c2 l2 mk mv r3 n2) in
                                    LRet (t3, false)
                                  else
                                    let! '(r3, err) := delete fuel r2 key in
                                    if (err : bool) then LRet (T c2 l2 k2 v2 r3 n2, true)
                                    else
                                      let! t3 := fixUp (T c2 l2 k2 v2 r3 n2) in
                                      LRet (t3, false)
                              end
                          end
                      end
                  end
            end
        end
    end.

  (** [tree.root.color = BLACK] *)
  Definition blacken (t : tree) : tree :=
    match t with E => E | T _ l k v r n => T BLACK l k v r n end.

  (** recursion budget for [delete] on [t]: its number of nodes *)
  Definition budget (t : tree) : nat := length (elements t).

  (** ** API functions.  Each returns the new root and the answer. *)

  (** llrb_tree.go:436-454.  When insert fails, tree.root still points to the
      old root node, i.e. to what insert returned. *)
  Definition Put (t : tree) (k : K) (v : V) : lo (tree * answer K V) :=
    let! '(updatedRoot, ok, err) := insert t k v in
    if (err : bool) then LRet (updatedRoot, RErr ok)
    else if (ok : bool) then
      let! t1 := postInsertAdjustLen updatedRoot k in
      LRet (blacken t1, ROk true)
    else LRet (updatedRoot, ROk false).

  (** llrb_tree.go:202-229 *)
  Definition DeleteByIndex (t : tree) (i : Z) : lo (tree * answer K V) :=
    match t with
    | E => LRet (E, ROk false)
    | T _ _ _ _ _ n =>
        if (i <? 0) || (n <=? i) then LRet (t, ROk false)
        else
          let! '(t1, key) := preDeleteByIndexAdjustLen t i in
          let! '(t2, err) := delete (budget t1) t1 key in
          if (err : bool) then LRet (t2, RErr true)
          else LRet (blacken t2, ROk true)
    end.

  (** llrb_tree.go:231-253 *)
  Definition DeleteByKey (t : tree) (key : K) : lo (tree * answer K V) :=
    let '(t1, ok, err) := preDeleteByKeyAdjustLen t key in
    if (err : bool) then LRet (t1, RErr ok)
    else if (ok : bool) then
      let! '(t2, err) := delete (budget t1) t1 key in
      if (err : bool) then LRet (t2, RErr true)
      else LRet (blacken t2, ROk true)
    else LRet (t1, ROk false).

  (** llrb_tree.go:278-296 (and 376-394): the loop, entered at [node] with
      [nodeIndex] already computed for it; returns the node reached. *)
  Fixpoint walkIndex (t : tree) (nodeIndex index : Z) : lo (K * V) :=
    match t with
    | E => LPanic
    | T _ l k v r _ =>
        if nodeIndex =? index then LRet (k, v)
        else if index <? nodeIndex then
          match l with
          | E => LPanic
          | T _ _ _ _ lr _ => walkIndex l (nodeIndex - tlen lr - 1) index
          end
        else
          match r with
          | E => LPanic
          | T _ rl _ _ _ _ => walkIndex r (nodeIndex + tlen rl + 1) index
          end
    end.

  (** llrb_tree.go:255-302 *)
  Definition GetByIndex (t : tree) (i : Z) : lo (answer K V) :=
    match t with
    | E => LRet (RItem None)
    | T _ l _ _ _ n =>
        if (i <? 0) || (n <=? i) then LRet (RItem None)
        else let! kv := walkIndex t (tlen l) i in LRet (RItem (Some kv))
    end.

  (** llrb_tree.go:304-338 *)
  Fixpoint GetByKey (t : tree) (key : K) : answer K V :=
    match t with
    | E => RValue None
    | T _ l k v r _ =>
        match cmp key k with
        | None => RErr false
        | Some cr =>
            if cr <? 0 then GetByKey l key
            else if 0 <? cr then GetByKey r key
            else RValue (Some v)
        end
    end.

  (** llrb_tree.go:340-353 *)
  Definition Len (t : tree) : Z := tlen t.

  (** llrb_tree.go:376-396: walk to the node, then [node.Value = value] *)
  Fixpoint patchIndex (t : tree) (nodeIndex index : Z) (v : V) : lo tree :=
    match t with
    | E => LPanic
    | T c l k v0 r n =>
        if nodeIndex =? index then LRet (T c l k v r n)
        else if index <? nodeIndex then
          match l with
          | E => LPanic
          | T _ _ _ _ lr _ =>
              let! l' := patchIndex l (nodeIndex - tlen lr - 1) index v in
              LRet (T c l' k v0 r n)
          end
        else
          match r with
          | E => LPanic
          | T _ rl _ _ _ _ =>
              let! r' := patchIndex r (nodeIndex + tlen rl + 1) index v in
              LRet (T c l k v0 r' n)
          end
    end.

  (** llrb_tree.go:355-399 *)
  Definition PatchByIndex (t : tree) (i : Z) (v : V) : lo (tree * answer K V) :=
    match t with
    | E => LRet (E, ROk false)
    | T _ l _ _ _ n =>
        if (i <? 0) || (n <=? i) then LRet (t, ROk false)
        else let! t' := patchIndex t (tlen l) i v in LRet (t', ROk true)
    end.

  (** llrb_tree.go:401-434 *)
  Fixpoint PatchByKey (t : tree) (key : K) (v : V) : tree * answer K V :=
    match t with
    | E => (E, ROk false)
    | T c l k v0 r n =>
        match cmp key k with
        | None => (t, RErr false)
        | Some cr =>
            if cr <? 0 then
              let '(l', a) := PatchByKey l key v in (T c l' k v0 r n, a)
            else if 0 <? cr then
              let '(r', a) := PatchByKey r key v in (T c l k v0 r' n, a)
            else (T c l k v r n, ROk true)
        end
    end.

  (** llrb_tree.go:67-119: the BisectLeft loop at [node] with [nodeIndex]
      already computed for it *)
  Fixpoint bisectLeftLoop (t : tree) (nodeIndex : Z) (key : K) : lo (answer K V) :=
    match t with
    | E => LPanic
    | T _ l k _ r _ =>
        match cmp key k with
        | None => LRet (RErr false)
        | Some cr =>
            if cr =? 0 then LRet (RIndex nodeIndex true)
            else if cr <? 0 then
              match l with
              | E => LRet (RIndex (nodeIndex - 1) false)
              | T _ _ _ _ lr _ => bisectLeftLoop l (nodeIndex - tlen lr - 1) key
              end
            else
              match r with
              | E => LRet (RIndex nodeIndex false)
              | T _ rl _ _ _ _ => bisectLeftLoop r (nodeIndex + tlen rl + 1) key
              end
        end
    end.

  (** llrb_tree.go:42-120 *)
  Definition BisectLeft (t : tree) (key : K) : lo (answer K V) :=
    match t with
    | E => LRet (RIndex (-1) false)
    | T _ l _ _ _ _ => bisectLeftLoop t (tlen l) key
    end.

  (** llrb_tree.go:147-199 *)
  Fixpoint bisectRightLoop (t : tree) (nodeIndex : Z) (key : K) : lo (answer K V) :=
    match t with
    | E => LPanic
    | T _ l k _ r _ =>
        match cmp key k with
        | None => LRet (RErr false)
        | Some cr =>
            if cr =? 0 then LRet (RIndex nodeIndex true)
            else if cr <? 0 then
              match l with
              | E => LRet (RIndex nodeIndex false)
              | T _ _ _ _ lr _ => bisectRightLoop l (nodeIndex - tlen lr - 1) key
              end
            else
              match r with
              | E => LRet (RIndex (nodeIndex + 1) false)
              | T _ rl _ _ _ _ => bisectRightLoop r (nodeIndex + tlen rl + 1) key
              end
        end
    end.

  (** llrb_tree.go:122-200 *)
  Definition BisectRight (t : tree) (key : K) : lo (answer K V) :=
    match t with
    | E => LRet (RIndex 0 false)
    | T _ l _ _ _ _ => bisectRightLoop t (tlen l) key
    end.

  (** llrb_tree.go:456-458 *)
  Definition Reset (t : tree) : tree := E.

  (** llrb_validate.go:17-50 (node.validate): [true] = no error *)
  Fixpoint validate (t : tree) : bool :=
    match t with
    | E => true
    | T _ l _ _ r n =>
        validate l && validate r && (1 + tlen l + tlen r =? n)
    end.

  (** llrb_tree_api.go:16-19 *)
  Definition NewLLRBTree : tree := E.

  (** Dispatch of a SortedMap call. *)
  Definition llrb_call (t : tree) (c : call K V) : lo (tree * answer K V) :=
    match c with
    | CPut k v => Put t k v
    | CGetByKey k => LRet (t, GetByKey t k)
    | CGetByIndex i => let! a := GetByIndex t i in LRet (t, a)
    | CPatchByKey k v => LRet (PatchByKey t k v)
    | CPatchByIndex i v => PatchByIndex t i v
    | CDeleteByKey k => DeleteByKey t k
    | CDeleteByIndex i => DeleteByIndex t i
    | CBisectLeft k => let! a := BisectLeft t k in LRet (t, a)
    | CBisectRight k => let! a := BisectRight t k in LRet (t, a)
    | CLen => LRet (t, RLen (Len t))
    end.

  (** All methods of the LLRBTree interface (common_api.go:173-186 and
      llrb_tree_api.go:6-9) except Dump. *)
  Inductive llrb_op := LCall (c : call K V) | LReset | LValidate.

  (** Validate answers [ROk true] when it returns no error. *)
  Definition llrb_step (t : tree) (o : llrb_op) : lo (tree * answer K V) :=
    match o with
    | LCall c => llrb_call t c
    | LReset => LRet (Reset t, ROk true)
    | LValidate => LRet (t, ROk (validate t))
    end.

  (** A history of calls on one tree. *)
  Fixpoint llrb_run (t : tree) (os : list llrb_op)
      : lo (tree * list (answer K V)) :=
    match os with
    | [] => LRet (t, [])
    | o :: os =>
        let! '(t1, a) := llrb_step t o in
        let! '(t2, as_) := llrb_run t1 os in
        LRet (t2, a :: as_)
    end.

  (** The loop of GetByKey (llrb_tree.go:304-338) again, returning the number
      of Compare calls it makes. *)
  Fixpoint GetByKey_compares (t : tree) (key : K) : nat :=
    match t with
    | E => 0
    | T _ l k v r _ =>
        S match cmp key k with
          | None => 0
          | Some cr =>
              if cr <? 0 then GetByKey_compares l key
              else if 0 <? cr then GetByKey_compares r key
              else 0
          end
    end.
  (** The loops of BisectLeft and BisectRight (llrb_tree.go:67-119, 147-199)
      follow the same path with one Compare call per node. *)
  Fixpoint Bisect_compares (t : tree) (key : K) : nat :=
    match t with
    | E => 0
    | T _ l k v r _ =>
        S match cmp key k with
          | None => 0
          | Some cr =>
              if cr =? 0 then 0
              else if cr <? 0 then Bisect_compares l key
              else Bisect_compares r key
          end
    end.
End llrb.

Arguments tree : clear implicits.
Arguments llrb_op : clear implicits.

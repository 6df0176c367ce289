(** * Model of btree.go, btree_api.go, btree_validate.go and btree_dump.go

    The Go heap is explicit.  A node pointer is a [nid]; a nil pointer is
    [None]; following a nil or dangling pointer is a [Panic].  The
    fields of a Go [btreeNodeStruct] are spread over three maps with the same
    key (plain fields, prefix-sum fields, cache element fields); nothing else
    about the struct changes.

    Simplifications (also listed in DESIGN.md):
    - here each API call, and each eviction by the drainer, is a program that
      runs alone; Threads.v runs the same programs interleaved, with the locks;
    - uint64/int counters in memory are unbounded integers; integers that are
      written to storage are checked to fit ([limit]);
    - one node cache, to which each tree is attached or not;
    - the results other than err of a call that returns an error are dropped;
    - the text of errors is dropped (only its kind is kept);
    - of what Dump prints, pointers, the prefix-sum fields and the cache's own
      fields are dropped, and DumpKey and DumpValue are taken to succeed. *)
From stdpp Require Import prelude list gmap.
From Verif Require Import Spec Llrb.
Open Scope Z_scope.

Definition nid := positive.
Definition tid := positive.
Definition bytes := list Z.
(** (objectNumber, objectOffset, objectLength); btree.go:91-95 *)
Definition loc : Type := Z * Z * Z.
Definition noloc : loc := (0, 0, 0).
Definition lnum (l : loc) : Z := l.1.1.
Definition loff (l : loc) : Z := l.1.2.
Definition llen (l : loc) : Z := l.2.

(** Kinds of errors: a storage callback failed, Compare failed, a pack/unpack
    step failed, or one of the code's own "Logic error" checks fired. *)
Inductive err := EIO | ECmp | EPack | ELogic.

(** Client callbacks (btree_api.go:40-49) that are functions of their
    arguments; GetNode, PutNode and DiscardNode act on the state's [disk]. *)
Record callbacks (K V : Type) := Callbacks {
  cb_cmp : K → K → option Z;
  cb_packK : K → option bytes;
  cb_unpackK : bytes → option (K * nat);
  cb_packV : V → option bytes;
  cb_unpackV : bytes → option (V * nat);
}.
Arguments Callbacks {_ _}.
Arguments cb_cmp {_ _}.
Arguments cb_packK {_ _}.
Arguments cb_unpackK {_ _}.
Arguments cb_packV {_ _}.
Arguments cb_unpackV {_ _}.

(** What happens at one storage callback: the process dies before it
    ([ch_crash]), it fails, or it succeeds; PutNode stores at the given number
    and offset; [ch_pick] resolves Go's random map iteration order in Prune. *)
Record choice := Choice {
  ch_crash : bool; ch_fail : bool; ch_num : Z; ch_off : Z; ch_pick : nat }.

(** Why a run stopped without returning: a Go panic; recursion budget
    exhausted (proved unreachable); the environment left the modelled world
    (PutNode returned a location that is in use or not representable, or a
    count exceeds 2^64); the process died at a storage callback. *)
Inductive stop := Panic | Fuel | Env | Crash.

(** btree.go:16-20 *)
Inductive ctag := noLRU | cleanLRU | dirtyLRU.
Global Instance ctag_eq_dec : EqDecision ctag.
Proof. solve_decision. Defined.

(** btree.go:22-26 *)
Record cell := Cell { ctg : ctag; cnext : option nid; cprev : option nid }.
(** head, tail and items of one LRU list; btree.go:34-39 *)
Record lruq := Lruq { qhead : option nid; qtail : option nid; qitems : Z }.
(** btree.go:28-43 *)
Record cacherec := Cache {
  c_low : Z; c_high : Z; c_clean : lruq; c_dirty : lruq;
  c_drainer : bool; c_hits : Z; c_misses : Z }.
(** prefix-sum fields; btree.go:60-65 *)
Record psrec := Ps { psitems : Z; pskv : Z; pspar : option nid; psl : option nid; psr : option nid }.
(** btree.go:96-107; [t_cache]: is [nodeCache] non-nil; [t_stale]:
    staleOnDiskReferencesList, a Go map used as a set *)
Record treerec := Tree {
  t_min : Z; t_max : Z; t_root : option nid; t_stale : list loc; t_cache : bool }.

(** little-endian uint64 (cstruct.Pack of a uint64, OnDiskByteOrder) *)
Fixpoint le (n : nat) (z : Z) : bytes :=
  match n with O => [] | S n => z mod 256 :: le n (z / 256) end.
Fixpoint unle (n : nat) (b : bytes) : option (Z * bytes) :=
  match n with
  | O => Some (0, b)
  | S n =>
      match b with
      | [] => None
      | x :: b => match unle n b with Some (z, r) => Some (x + 256 * z, r) | None => None end
      end
  end.
Definition u64 (z : Z) : bytes := le 8 z.
Definition bool_byte (b : bool) : Z := if b then 1 else 0.

Section btree.
  Context {K V : Type}.
  Variable cb : callbacks K V.
  Notation cmp := (cb_cmp cb).

  (** A value of a node's kvLLRB: the client's, or a child pointer *)
  Inductive bval := VUser (v : V) | VNode (n : nid).
  Notation llrb := (tree K bval).

  (** btree.go:45-59 *)
  Record bnode := Node {
    b_loc : loc; b_items : Z; b_loaded : bool; b_dirty : bool; b_root : bool; b_leaf : bool;
    b_tree : tid; b_parent : option nid; b_kv : option llrb;
    b_left : option nid; b_psroot : option nid }.

  Definition set_loc (l : loc) (r : bnode) : bnode :=
    Node l (b_items r) (b_loaded r) (b_dirty r) (b_root r) (b_leaf r) (b_tree r) (b_parent r) (b_kv r) (b_left r) (b_psroot r).
  Definition set_items (z : Z) (r : bnode) : bnode :=
    Node (b_loc r) z (b_loaded r) (b_dirty r) (b_root r) (b_leaf r) (b_tree r) (b_parent r) (b_kv r) (b_left r) (b_psroot r).
  Definition set_loaded (b : bool) (r : bnode) : bnode :=
    Node (b_loc r) (b_items r) b (b_dirty r) (b_root r) (b_leaf r) (b_tree r) (b_parent r) (b_kv r) (b_left r) (b_psroot r).
  Definition set_dirty (b : bool) (r : bnode) : bnode :=
    Node (b_loc r) (b_items r) (b_loaded r) b (b_root r) (b_leaf r) (b_tree r) (b_parent r) (b_kv r) (b_left r) (b_psroot r).
  Definition set_root (b : bool) (r : bnode) : bnode :=
    Node (b_loc r) (b_items r) (b_loaded r) (b_dirty r) b (b_leaf r) (b_tree r) (b_parent r) (b_kv r) (b_left r) (b_psroot r).
  Definition set_leaf (b : bool) (r : bnode) : bnode :=
    Node (b_loc r) (b_items r) (b_loaded r) (b_dirty r) (b_root r) b (b_tree r) (b_parent r) (b_kv r) (b_left r) (b_psroot r).
  Definition set_parent (p : option nid) (r : bnode) : bnode :=
    Node (b_loc r) (b_items r) (b_loaded r) (b_dirty r) (b_root r) (b_leaf r) (b_tree r) p (b_kv r) (b_left r) (b_psroot r).
  Definition set_kv (t : option llrb) (r : bnode) : bnode :=
    Node (b_loc r) (b_items r) (b_loaded r) (b_dirty r) (b_root r) (b_leaf r) (b_tree r) (b_parent r) t (b_left r) (b_psroot r).
  Definition set_left (p : option nid) (r : bnode) : bnode :=
    Node (b_loc r) (b_items r) (b_loaded r) (b_dirty r) (b_root r) (b_leaf r) (b_tree r) (b_parent r) (b_kv r) p (b_psroot r).
  Definition set_psroot (p : option nid) (r : bnode) : bnode :=
    Node (b_loc r) (b_items r) (b_loaded r) (b_dirty r) (b_root r) (b_leaf r) (b_tree r) (b_parent r) (b_kv r) (b_left r) p.

  (** The whole state: heap of nodes, trees, cache, storage. *)
  Record st := St {
    nodes : gmap nid bnode; pss : gmap nid psrec; cells : gmap nid cell;
    trees : gmap tid treerec; cache : cacherec; disk : gmap loc bytes;
    orc : nat → choice; iocount : nat; fresh : positive }.

  Definition set_nodes x (s : st) := St x (pss s) (cells s) (trees s) (cache s) (disk s) (orc s) (iocount s) (fresh s).
  Definition set_pss x (s : st) := St (nodes s) x (cells s) (trees s) (cache s) (disk s) (orc s) (iocount s) (fresh s).
  Definition set_cells x (s : st) := St (nodes s) (pss s) x (trees s) (cache s) (disk s) (orc s) (iocount s) (fresh s).
  Definition set_trees x (s : st) := St (nodes s) (pss s) (cells s) x (cache s) (disk s) (orc s) (iocount s) (fresh s).
  Definition set_cache x (s : st) := St (nodes s) (pss s) (cells s) (trees s) x (disk s) (orc s) (iocount s) (fresh s).
  Definition set_disk x (s : st) := St (nodes s) (pss s) (cells s) (trees s) (cache s) x (orc s) (iocount s) (fresh s).
  Definition set_iocount x (s : st) := St (nodes s) (pss s) (cells s) (trees s) (cache s) (disk s) (orc s) x (fresh s).
  Definition set_fresh x (s : st) := St (nodes s) (pss s) (cells s) (trees s) (cache s) (disk s) (orc s) (iocount s) x.

  (** Outcome of a run: a result, an error return, or no return at all; with
      the state reached. *)
  Inductive out (A : Type) :=
    | ORet (a : A) (s : st) | OErr (e : err) (s : st) | OStop (w : stop) (s : st).
  Arguments ORet {_}.
  Arguments OErr {_}.
  Arguments OStop {_}.
  (** Programs.  [Act f] is one indivisible step; between the steps of one
      program those of others may run (Threads.v).  [Bind] is sequencing, and
      [Try m h] runs [h] on the error [m] returned. *)
  Inductive M : Type → Type :=
    | Act {A} (f : st → out A) : M A
    | Bind {A B} (m : M A) (f : A → M B) : M B
    | Try {A} (m : M A) (h : err → M A) : M A.
  (** a run without interruption *)
  Fixpoint run {A} (m : M A) : st → out A :=
    match m in M A return st → out A with
    | Act f => f
    | Bind m f => λ s,
        match run m s with
        | ORet a s => run (f a) s | OErr e s => OErr e s | OStop w s => OStop w s
        end
    | Try m h => λ s, match run m s with OErr e s => run (h e) s | o => o end
    end.
  Coercion run : M >-> Funclass.
  (** [m] under the mutex of the node cache (btree.go: every stretch between
      [nodeCache.Lock()] and [nodeCache.Unlock()]): nobody else that takes the
      mutex runs in between, so it is one step *)
  Definition atomic {A} (m : M A) : M A := Act (run m).

  Definition ret {A} (a : A) : M A := Act (λ s, ORet a s).
  Definition bind {A B} (m : M A) (f : A → M B) : M B := Bind m f.
  Definition fail {A} (e : err) : M A := Act (λ s, OErr e s).
  Definition panic {A} : M A := Act (λ s, OStop Panic s).
  Definition nofuel {A} : M A := Act (λ s, OStop Fuel s).
  Definition envbad {A} : M A := Act (λ s, OStop Env s).
  (** a call whose returned error the code does not look at *)
  Definition ignoreErr (m : M unit) : M unit := Try m (λ _, ret tt).
  Notation "'let*' x := m 'in' e" := (bind m (fun x => e))
    (at level 200, x name, m at level 100, e at level 200, right associativity).
  Notation "'let*' ' x := m 'in' e" := (bind m (fun x => e))
    (at level 200, x strict pattern, m at level 100, e at level 200, right associativity).
  Notation "m ;; e" := (bind m (fun _ : unit => e))
    (at level 100, e at level 200, right associativity, format "m ;;  '/' e").

  (** ** Access to the heap *)
  Definition deref (o : option nid) : M nid := match o with Some n => ret n | None => panic end.
  Definition getN (n : nid) : M bnode := Act (λ s,
    match nodes s !! n with Some r => ORet r s | None => OStop Panic s end).
  Definition modN (n : nid) (f : bnode → bnode) : M unit := Act (λ s,
    match nodes s !! n with
    | Some r => ORet tt (set_nodes (<[n := f r]> (nodes s)) s) | None => OStop Panic s end).
  Definition getP (n : nid) : M psrec := Act (λ s,
    match pss s !! n with Some r => ORet r s | None => OStop Panic s end).
  Definition modP (n : nid) (f : psrec → psrec) : M unit := Act (λ s,
    match pss s !! n with
    | Some r => ORet tt (set_pss (<[n := f r]> (pss s)) s) | None => OStop Panic s end).
  Definition getC (n : nid) : M cell := Act (λ s,
    match cells s !! n with Some r => ORet r s | None => OStop Panic s end).
  Definition modC (n : nid) (f : cell → cell) : M unit := Act (λ s,
    match cells s !! n with
    | Some r => ORet tt (set_cells (<[n := f r]> (cells s)) s) | None => OStop Panic s end).
  Definition getT (t : tid) : M treerec := Act (λ s,
    match trees s !! t with Some r => ORet r s | None => OStop Panic s end).
  Definition modT (t : tid) (f : treerec → treerec) : M unit := Act (λ s,
    match trees s !! t with
    | Some r => ORet tt (set_trees (<[t := f r]> (trees s)) s) | None => OStop Panic s end).
  Definition getCache : M cacherec := Act (λ s, ORet (cache s) s).
  Definition modCache (f : cacherec → cacherec) : M unit := Act (λ s,
    ORet tt (set_cache (f (cache s)) s)).

  (** allocation of a [btreeNodeStruct] whose prefix-sum and cache fields are
      zero *)
  Definition newNode (r : bnode) : M nid := Act (λ s,
    let n := fresh s in
    ORet n (set_fresh (Pos.succ n)
      (set_nodes (<[n := r]> (nodes s))
        (set_pss (<[n := Ps 0 0 None None None]> (pss s))
          (set_cells (<[n := Cell noLRU None None]> (cells s)) s))))).

  (** allocation of a [btreeTreeStruct] *)
  Definition newTree (T : treerec) : M tid := Act (λ s,
    let t := fresh s in
    ORet t (set_fresh (Pos.succ t) (set_trees (<[t := T]> (trees s)) s))).

  Fixpoint forM {A} (l : list A) (f : A → M unit) : M unit :=
    match l with [] => ret tt | x :: l => f x ;; forM l f end.
  (** [for i := lo; i < lo + n; i++] *)
  Definition range (n : Z) : list Z := Z.of_nat <$> seq 0 (Z.to_nat n).

  (** Recursion budget for an API call: more than the number of nodes in
      memory and in storage *)
  Definition with_fuel {A} (f : nat → M A) : M A :=
    let* fuel := Act (λ s, ORet (S (size (nodes s) + size (disk s))) s) in f fuel.

  (** ** Storage callbacks

      One call: the process may die, the call may fail, or it takes effect. *)
  Definition callback {A} (f : choice → st → out A) : M A := Act (λ s,
    let c := orc s (iocount s) in
    let s' := set_iocount (S (iocount s)) s in
    if ch_crash c then OStop Crash s
    else if ch_fail c then OErr EIO s'
    else f c s').
  Definition GetNode (l : loc) : M bytes := callback (λ c s,
    match disk s !! l with Some b => ORet b s | None => OErr EIO s end).
  (** A well-behaved client stores the bytes at a location not in use, with
      a non-zero object number. *)
  Definition PutNode (b : bytes) : M (Z * Z) := callback (λ c s,
    let l : loc := (ch_num c, ch_off c, Z.of_nat (length b)) in
    if (0 <? ch_num c) && (ch_num c <? 2 ^ 64) && (0 <=? ch_off c) && (ch_off c <? 2 ^ 64)
       && (Z.of_nat (length b) <? 2 ^ 64)
    then match disk s !! l with
         | Some _ => OStop Env s
         | None => ORet (ch_num c, ch_off c) (set_disk (<[l := b]> (disk s)) s)
         end
    else OStop Env s).
  Definition DiscardNode (l : loc) : M unit := callback (λ c s,
    match disk s !! l with
    | Some _ => ORet tt (set_disk (base.delete l (disk s)) s)
    | None => OErr EIO s
    end).
  Definition limit (z : Z) : M unit := if z <? 2 ^ 64 then ret tt else envbad.

  (** ** kvLLRB accessors (calls on the node's LLRBTree) *)
  Definition lift {A} (m : lo A) : M A :=
    match m with LRet a => ret a | LPanic => panic | LFuel => nofuel end.
  Definition kvOf (n : nid) : M llrb :=
    let* r := getN n in match b_kv r with Some t => ret t | None => panic end.
  Definition kvLen (n : nid) : M Z := let* t := kvOf n in ret (Len t).
  Definition kvGet (n : nid) (i : Z) : M (option (K * bval)) :=
    let* t := kvOf n in
    let* a := lift (GetByIndex t i) in
    match a with RItem o => ret o | _ => fail ECmp end.
  Definition kvSet (n : nid) (t : llrb) : M unit := modN n (set_kv (Some t)).
  (** Put with its results; an error leaves whatever Put left in the tree *)
  Definition kvPut (n : nid) (k : K) (v : bval) : M bool :=
    let* t := kvOf n in
    let* '(t', a) := lift (Put cmp t k v) in
    kvSet n t' ;;
    match a with ROk ok => ret ok | _ => fail ECmp end.
  (** Put whose results the code ignores *)
  Definition kvPut_ (n : nid) (k : K) (v : bval) : M unit :=
    let* t := kvOf n in
    let* '(t', _) := lift (Put cmp t k v) in
    kvSet n t'.
  Definition kvDelIndex (n : nid) (i : Z) : M bool :=
    let* t := kvOf n in
    let* '(t', a) := lift (DeleteByIndex cmp t i) in
    kvSet n t' ;;
    match a with ROk ok => ret ok | _ => fail ECmp end.
  Definition kvDelKey (n : nid) (k : K) : M bool :=
    let* t := kvOf n in
    let* '(t', a) := lift (DeleteByKey cmp t k) in
    kvSet n t' ;;
    match a with ROk ok => ret ok | _ => fail ECmp end.
  Definition kvBisectLeft (n : nid) (k : K) : M (Z * bool) :=
    let* t := kvOf n in
    let* a := lift (BisectLeft cmp t k) in
    match a with RIndex i f => ret (i, f) | _ => fail ECmp end.
  Definition kvBisectRight (n : nid) (k : K) : M (Z * bool) :=
    let* t := kvOf n in
    let* a := lift (BisectRight cmp t k) in
    match a with RIndex i f => ret (i, f) | _ => fail ECmp end.
  Definition kvGetKey (n : nid) (k : K) : M (option bval) :=
    let* t := kvOf n in
    match GetByKey cmp t k with RValue o => ret o | _ => fail ECmp end.
  Definition compareM (a b : K) : M Z := match cmp a b with Some c => ret c | None => fail ECmp end.
  (** [x.( *btreeNodeStruct)] *)
  Definition asNode (v : bval) : M nid := match v with VNode n => ret n | VUser _ => panic end.
  (** [if !ok { err = "Logic error ..." }] *)
  Definition logicOk (b : bool) : M unit := if b then ret tt else fail ELogic.
  Definition logicSome {A} (o : option A) : M A := match o with Some a => ret a | None => fail ELogic end.

  (** ** LRU lists (btree.go:1990-2430), pointer by pointer.  [d] selects the
      list: [false] clean, [true] dirty. *)
  Definition side (d : bool) : ctag := if d then dirtyLRU else cleanLRU.
  Definition qof (d : bool) (c : cacherec) : lruq := if d then c_dirty c else c_clean c.
  Definition setq (d : bool) (q : lruq) (c : cacherec) : cacherec :=
    if d then Cache (c_low c) (c_high c) (c_clean c) q (c_drainer c) (c_hits c) (c_misses c)
    else Cache (c_low c) (c_high c) q (c_dirty c) (c_drainer c) (c_hits c) (c_misses c).
  Definition getQ (d : bool) : M lruq := let* c := getCache in ret (qof d c).
  Definition modQ (d : bool) (f : lruq → lruq) : M unit := modCache (λ c, setq d (f (qof d c)) c).
  Definition setHead (h : option nid) (q : lruq) := Lruq h (qtail q) (qitems q).
  Definition setTail (t : option nid) (q : lruq) := Lruq (qhead q) t (qitems q).
  Definition setItems (i : Z) (q : lruq) := Lruq (qhead q) (qtail q) i.
  Definition decItems (q : lruq) := setItems (qitems q - 1) q.
  Definition incItems (q : lruq) := setItems (qitems q + 1) q.
  Definition setNext (o : option nid) (c : cell) := Cell (ctg c) o (cprev c).
  Definition setPrev (o : option nid) (c : cell) := Cell (ctg c) (cnext c) o.
  Definition setTag (t : ctag) (c : cell) := Cell t (cnext c) (cprev c).
  (** [p.nextBTreeNode = o], [p] possibly nil *)
  Definition putNext (p : option nid) (o : option nid) : M unit := let* n := deref p in modC n (setNext o).
  Definition putPrev (p : option nid) (o : option nid) : M unit := let* n := deref p in modC n (setPrev o).

  (** place at the MRU end; btree.go:2080-2092, 2182-2194 *)
  Definition lruAppend (d : bool) (n : nid) : M unit :=
    let* q := getQ d in
    if qitems q =? 0 then
      modQ d (setHead (Some n)) ;; modQ d (setTail (Some n)) ;; modQ d (setItems 1) ;;
      modC n (setTag (side d))
    else
      modC n (setPrev (qtail q)) ;;
      putNext (qtail q) (Some n) ;;
      modQ d (setTail (Some n)) ;; modQ d incItems ;;
      modC n (setTag (side d)).

  (** move to the MRU end of its own list; btree.go:2023-2042 (and 2045-2064,
      2095-2114, 2243-2262) *)
  Definition lruToTail (d : bool) (n : nid) : M unit :=
    let* q := getQ d in
    if decide (qtail q = Some n) then ret tt
    else
      let* c := getC n in
      if decide (qhead q = Some n) then
        modQ d (setHead (cnext c)) ;;
        putPrev (cnext c) None ;;
        modC n (setPrev (qtail q)) ;;
        modC n (setNext None) ;;
        putNext (qtail q) (Some n) ;;
        modQ d (setTail (Some n))
      else
        putNext (cprev c) (cnext c) ;;
        putPrev (cnext c) (cprev c) ;;
        modC n (setNext None) ;;
        modC n (setPrev (qtail q)) ;;
        putNext (qtail q) (Some n) ;;
        modQ d (setTail (Some n)).

  (** take off list [d] before a move to the other list; btree.go:2117-2139,
      2197-2219 *)
  Definition lruTake (d : bool) (n : nid) : M unit :=
    let* q := getQ d in
    let* c := getC n in
    if decide (qhead q = Some n) then
      if decide (qtail q = Some n) then
        modQ d (setHead None) ;; modQ d (setTail None) ;; modQ d (setItems 0)
      else
        modQ d (setHead (cnext c)) ;;
        putPrev (cnext c) None ;;
        modQ d decItems ;;
        modC n (setNext None)
    else if decide (qtail q = Some n) then
      modQ d (setTail (cprev c)) ;;
      putNext (cprev c) None ;;
      modQ d decItems
    else
      putNext (cprev c) (cnext c) ;;
      putPrev (cnext c) (cprev c) ;;
      modQ d decItems ;;
      modC n (setNext None).

  (** put at the MRU end of list [d] after [lruTake]; btree.go:2142-2155,
      2222-2235 *)
  Definition lruGive (d : bool) (n : nid) : M unit :=
    let* q := getQ d in
    if qitems q =? 0 then
      modC n (setTag (side d)) ;;
      modC n (setPrev None) ;;
      modQ d (setHead (Some n)) ;; modQ d (setTail (Some n)) ;; modQ d (setItems 1)
    else
      modC n (setTag (side d)) ;;
      modC n (setPrev (qtail q)) ;;
      putNext (qtail q) (Some n) ;;
      modQ d (setTail (Some n)) ;; modQ d incItems.

  (** remove from list [d]; btree.go:2274-2305, 2308-2339, 2358-2389,
      2392-2423 *)
  Definition lruRemove (d : bool) (n : nid) : M unit :=
    let* q := getQ d in
    let* c := getC n in
    if decide (qhead q = Some n) then
      if decide (qtail q = Some n) then
        modQ d (setHead None) ;; modQ d (setTail None) ;; modQ d decItems ;;
        modC n (setTag noLRU)
      else
        modQ d (setHead (cnext c)) ;;
        putPrev (cnext c) None ;;
        modQ d decItems ;;
        modC n (setTag noLRU) ;; modC n (setNext None)
    else if decide (qtail q = Some n) then
      modQ d (setTail (cprev c)) ;;
      putNext (cprev c) None ;;
      modQ d decItems ;;
      modC n (setTag noLRU) ;; modC n (setPrev None)
    else
      putNext (cprev c) (cnext c) ;;
      putPrev (cnext c) (cprev c) ;;
      modQ d decItems ;;
      modC n (setTag noLRU) ;; modC n (setNext None) ;; modC n (setPrev None).

  (** [if nil != tree.nodeCache { tree.nodeCache.Lock() ... tree.nodeCache.Unlock() }] *)
  Definition whenCache (t : tid) (m : M unit) : M unit :=
    let* r := getT t in if t_cache r then atomic m else ret tt.

  (** btree.go:1990-1996; takes no mutex *)
  Definition initNodeAsEvicted (t : tid) (n : nid) : M unit :=
    let* r := getT t in if t_cache r then modC n (λ _, Cell noLRU None None) else ret tt.
  (** btree.go:1998-2004 *)
  Definition incCacheHits (t : tid) : M unit :=
    whenCache t (modCache (λ c, Cache (c_low c) (c_high c) (c_clean c) (c_dirty c) (c_drainer c) (c_hits c + 1) (c_misses c))).
  (** btree.go:2006-2012 *)
  Definition incCacheMisses (t : tid) : M unit :=
    whenCache t (modCache (λ c, Cache (c_low c) (c_high c) (c_clean c) (c_dirty c) (c_drainer c) (c_hits c) (c_misses c + 1))).

  (** btree.go:2014-2070 *)
  Definition markNodeUsed (t : tid) (n : nid) : M unit :=
    whenCache t (
      let* c := getC n in
      match ctg c with
      | noLRU => panic
      | cleanLRU => lruToTail false n
      | dirtyLRU => lruToTail true n
      end).

  (** [go btreeNodeCacheDrainer()] when above the high limit;
      btree.go:2162-2165, 1058-1061.  The goroutine's own steps are
      [drainerSelect] and [drainerEvict]. *)
  Definition kickDrainer (needClean : bool) : M unit :=
    modCache (λ c,
      if negb (c_drainer c) && (negb needClean || (0 <? qitems (c_clean c)))
         && (c_high c <? qitems (c_clean c) + qitems (c_dirty c))
      then Cache (c_low c) (c_high c) (c_clean c) (c_dirty c) true (c_hits c) (c_misses c)
      else c).

  (** btree.go:2072-2168 *)
  Definition markNodeClean (t : tid) (n : nid) : M unit :=
    modN n (set_dirty false) ;;
    whenCache t (
      let* c := getC n in
      match ctg c with
      | noLRU => lruAppend false n
      | cleanLRU => lruToTail false n
      | dirtyLRU => lruTake true n ;; lruGive false n
      end ;;
      kickDrainer false).

  (** btree.go:2432-2457 *)
  Definition placeNodeOnStale (t : tid) (n : nid) : M unit :=
    let* r := getN n in
    if llen (b_loc r) =? 0 then ret tt
    else
      modT t (λ T, Tree (t_min T) (t_max T) (t_root T)
                     (if decide (b_loc r ∈ t_stale T) then t_stale T else b_loc r :: t_stale T)
                     (t_cache T)) ;;
      modN n (set_loc noloc).

  (** btree.go:2170-2264 *)
  Definition markNodeDirty (t : tid) (n : nid) : M unit :=
    modN n (set_dirty true) ;;
    placeNodeOnStale t n ;;
    whenCache t (
      let* c := getC n in
      match ctg c with
      | noLRU => lruAppend true n
      | cleanLRU => lruTake false n ;; lruGive true n
      | dirtyLRU => lruToTail true n
      end).

  (** btree.go:2266-2346 *)
  Definition markNodeEvicted (t : tid) (n : nid) : M unit :=
    whenCache t (
      let* c := getC n in
      match ctg c with
      | noLRU => panic
      | cleanLRU => lruRemove false n
      | dirtyLRU => lruRemove true n
      end).

  (** btree.go:2348-2430 *)
  Definition markNodeToBeDiscarded (t : tid) (n : nid) : M unit :=
    placeNodeOnStale t n ;;
    markNodeEvicted t n.

  (** ** Prefix-sum trees *)

  (** btree.go:2585-2602; [fuel]: at least the length of the slice *)
  Fixpoint arrangeRec (fuel : nat) (slice : list nid) : M nid :=
    match fuel with
    | O => nofuel
    | S fuel =>
        let mid := Nat.div2 (length slice) in
        match slice !! mid with
        | None => panic
        | Some m =>
            (if decide (0 < mid)%nat then
               let* l := arrangeRec fuel (take mid slice) in
               modP m (λ p, Ps (psitems p) (pskv p) (pspar p) (Some l) (psr p)) ;;
               modP l (λ p, Ps (psitems p) (pskv p) (Some m) (psl p) (psr p)) ;;
               let* pl := getP l in
               modP m (λ p, Ps (psitems p + psitems pl) (pskv p) (pspar p) (psl p) (psr p))
             else ret tt) ;;
            (if decide (mid + 1 < length slice)%nat then
               let* r := arrangeRec fuel (drop (mid + 1) slice) in
               modP m (λ p, Ps (psitems p) (pskv p) (pspar p) (psl p) (Some r)) ;;
               modP r (λ p, Ps (psitems p) (pskv p) (Some m) (psl p) (psr p)) ;;
               let* pr := getP r in
               modP m (λ p, Ps (psitems p + psitems pr) (pskv p) (pspar p) (psl p) (psr p))
             else ret tt) ;;
            ret m
        end
    end.

  (** body of the loop btree.go:2620-2638: initialise the children at kv
      indices [is]; returns them in order *)
  Fixpoint arrangeInit (n : nid) (is : list Z) : M (list nid) :=
    match is with
    | [] => ret []
    | i :: is =>
        let* o := kvGet n i in
        let* '(_, v) := logicSome o in
        let* c := asNode v in
        let* cr := getN c in
        modP c (λ _, Ps (b_items cr) i None None None) ;;
        let* cs := arrangeInit n is in
        ret (c :: cs)
    end.

  (** btree.go:2604-2646 *)
  Definition arrangePrefixSumTree (n : nid) : M unit :=
    let* len := kvLen n in
    let* r := getN n in
    let* l := deref (b_left r) in
    let* lr := getN l in
    modP l (λ _, Ps (b_items lr) (-1) None None None) ;;
    let* cs := arrangeInit n (range len) in
    let* m := arrangeRec (S (length cs)) (l :: cs) in
    modN n (set_psroot (Some m)) ;;
    let* pm := getP m in
    modN n (set_items (psitems pm)).

  (** btree.go:2648-2661 *)
  Fixpoint rearrangeToRoot (fuel : nat) (t : tid) (n : nid) : M unit :=
    match fuel with
    | O => nofuel
    | S fuel =>
        arrangePrefixSumTree n ;;
        markNodeDirty t n ;;
        let* r := getN n in
        if b_root r then ret tt
        else let* p := deref (b_parent r) in rearrangeToRoot fuel t p
    end.

  (** the loop btree.go:2678-2690 *)
  Fixpoint bumpLoop (fuel : nat) (n : nid) (delta : Z) : M unit :=
    match fuel with
    | O => nofuel
    | S fuel =>
        modP n (λ p, Ps (psitems p + delta) (pskv p) (pspar p) (psl p) (psr p)) ;;
        let* p := getP n in
        match pspar p with None => ret tt | Some m => bumpLoop fuel m delta end
    end.

  (** btree.go:2663-2693 *)
  Fixpoint updateRec (fuel0 fuel : nat) (t : tid) (n : nid) (delta : Z) : M unit :=
    match fuel with
    | O => nofuel
    | S fuel =>
        modN n (λ r, set_items (b_items r + delta) r) ;;
        markNodeDirty t n ;;
        let* r := getN n in
        if b_root r then ret tt
        else
          bumpLoop fuel0 n delta ;;
          let* p := deref (b_parent r) in
          updateRec fuel0 fuel t p delta
    end.

  (** btree.go:2695-2715.  The callers ignore the returned error. *)
  Definition updatePrefixSumTreeLeafToRoot (fuel : nat) (t : tid) (n : nid) : M unit :=
    let* r := getN n in
    if b_leaf r then
      let* len := kvLen n in
      let delta := len - b_items r in
      if delta =? 0 then ret tt else updateRec fuel fuel t n delta
    else ret tt.

  (** ** Loading and posting nodes *)

  (** cstruct.Unpack of a uint64 *)
  Definition unpackU64 (b : bytes) : M (Z * bytes) :=
    match unle 8 b with Some p => ret p | None => fail EPack end.
  (** cstruct.Unpack of onDiskNodeStruct (btree.go:78-88): Items, Root, Leaf,
      and the remaining bytes as Payload *)
  Definition unpackNode (b : bytes) : M (Z * bool * bool * bytes) :=
    let* '(items, b) := unpackU64 b in
    match b with
    | r :: l :: payload => ret (items, negb (r =? 0), negb (l =? 0), payload)
    | _ => fail EPack
    end.
  (** cstruct.Unpack of onDiskReferenceToNodeStruct (btree.go:71-76) *)
  Definition unpackRef (b : bytes) : M (loc * Z * bytes) :=
    let* '(n, b) := unpackU64 b in
    let* '(o, b) := unpackU64 b in
    let* '(l, b) := unpackU64 b in
    let* '(i, b) := unpackU64 b in
    ret ((n, o, l), i, b).
  (** [payload[n:]] panics beyond the end *)
  Definition slice (n : nat) (b : bytes) : M bytes :=
    if decide (n ≤ length b)%nat then ret (drop n b) else panic.
  Definition unpackKeyM (b : bytes) : M (K * bytes) :=
    match cb_unpackK cb b with
    | Some (k, n) => let* b := slice n b in ret (k, b)
    | None => fail EPack
    end.
  Definition unpackValM (b : bytes) : M (V * bytes) :=
    match cb_unpackV cb b with
    | Some (v, n) => let* b := slice n b in ret (v, b)
    | None => fail EPack
    end.

  (** the loop btree.go:2765-2788 *)
  Fixpoint loadLeaf (cnt : nat) (n : nid) (b : bytes) : M bytes :=
    match cnt with
    | O => ret b
    | S cnt =>
        let* '(k, b) := unpackKeyM b in
        let* '(v, b) := unpackValM b in
        let* ok := kvPut n k (VUser v) in
        logicOk ok ;;
        loadLeaf cnt n b
    end.
  (** a child known by its on-disk reference; btree.go:2813-2822, 2845-2854.
      The code copies [node.tree], which is the tree loading the node. *)
  Definition refNode (t : tid) (n : nid) (l : loc) (items : Z) : bnode :=
    Node l items false false false false t (Some n) None None None.
  (** the loop btree.go:2828-2859 *)
  Fixpoint loadInner (cnt : nat) (t : tid) (n : nid) (b : bytes) : M bytes :=
    match cnt with
    | O => ret b
    | S cnt =>
        let* '(k, b) := unpackKeyM b in
        let* '(l, items, b) := unpackRef b in
        let* c := newNode (refNode t n l items) in
        kvPut_ n k (VNode c) ;;
        initNodeAsEvicted t c ;;
        loadInner cnt t n b
    end.

  (** btree.go:2717-2874 *)
  Definition loadNode (t : tid) (n : nid) : M unit :=
    let* r := getN n in
    let* b := GetNode (b_loc r) in
    modN n (set_kv (Some E)) ;;
    let* '(items, isroot, isleaf, payload) := unpackNode b in
    modN n (set_items items) ;;
    modN n (set_root isroot) ;;
    modN n (set_leaf isleaf) ;;
    let* payload :=
      (if (isroot : bool) then
         let* '(max, payload) := unpackU64 payload in
         modT t (λ T, Tree (max / 2) max (t_root T) (t_stale T) (t_cache T)) ;;
         ret payload
       else ret payload) in
    let* payload :=
      (if (isleaf : bool) then
         let* '(cnt, payload) := unpackU64 payload in
         let* payload := loadLeaf (Z.to_nat cnt) n payload in
         modN n (set_psroot None) ;;
         ret payload
       else
         let* '(cnt, payload) := unpackU64 payload in
         if cnt =? 0 then
           modN n (set_left None) ;; ret payload
         else
           let* '(l, items, payload) := unpackRef payload in
           let* c := newNode (refNode t n l items) in
           modN n (set_left (Some c)) ;;
           initNodeAsEvicted t c ;;
           let* payload := loadInner (Z.to_nat (cnt - 1)) t n payload in
           ignoreErr (arrangePrefixSumTree n) ;;
           ret payload) in
    match payload with
    | _ :: _ => fail ELogic
    | [] =>
        modN n (set_loaded true) ;;
        markNodeClean t n
    end.

  (** cstruct.Pack of a uint64 *)
  Definition packU64 (z : Z) : M bytes := limit z ;; ret (u64 z).
  Definition packKeyM (k : K) : M bytes := match cb_packK cb k with Some b => ret b | None => fail EPack end.
  Definition packValM (v : V) : M bytes := match cb_packV cb v with Some b => ret b | None => fail EPack end.
  (** cstruct.Pack of onDiskReferenceToNodeStruct for child [c];
      btree.go:2981-2995, 3023-3033.  Refuses a dirty child. *)
  Definition packRef (c : nid) : M bytes :=
    let* r := getN c in
    if b_dirty r then fail ELogic
    else
      limit (b_items r) ;;
      ret (u64 (lnum (b_loc r)) ++ u64 (loff (b_loc r)) ++ u64 (llen (b_loc r)) ++ u64 (b_items r)).
  (** [value] given to the client's PackValue is the client's own value *)
  Definition asUser (v : bval) : M V := match v with VUser v => ret v | VNode _ => panic end.
  (** the loop btree.go:2920-2943 *)
  Fixpoint postLeaf (n : nid) (is : list Z) : M bytes :=
    match is with
    | [] => ret []
    | i :: is =>
        let* o := kvGet n i in
        let* '(k, v) := logicSome o in
        let* bk := packKeyM k in
        let* v := asUser v in
        let* bv := packValM v in
        let* rest := postLeaf n is in
        ret (bk ++ bv ++ rest)
    end.
  (** the loop btree.go:2974-3035 for i >= 1; [is] are the kv indices i-1 *)
  Fixpoint postInner (n : nid) (is : list Z) : M bytes :=
    match is with
    | [] => ret []
    | i :: is =>
        let* o := kvGet n i in
        let* '(k, v) := logicSome o in
        let* bk := packKeyM k in
        let* c := asNode v in
        let* br := packRef c in
        let* rest := postInner n is in
        ret (bk ++ br ++ rest)
    end.

  (** btree.go:2876-3053 *)
  Definition postNode (t : tid) (n : nid) : M unit :=
    let* r := getN n in
    if negb (b_dirty r) then ret tt
    else
      let* T := getT t in
      let* bmax := (if b_root r then packU64 (t_max T) else ret []) in
      let* body :=
        (if b_leaf r then
           let* len := kvLen n in
           let* blen := packU64 len in
           let* rest := postLeaf n (range len) in
           ret (blen ++ rest)
         else
           let* len := kvLen n in
           match b_left r with
           | None => logicOk (len =? 0) ;; packU64 0
           | Some l =>
               let* blen := packU64 (1 + len) in
               let* bl := packRef l in
               let* rest := postInner n (range len) in
               ret (blen ++ bl ++ rest)
           end) in
      limit (b_items r) ;;
      let buf := u64 (b_items r) ++ [bool_byte (b_root r); bool_byte (b_leaf r)] ++ bmax ++ body in
      let* '(num, off) := PutNode buf in
      modN n (set_loc (num, off, Z.of_nat (length buf))) ;;
      markNodeClean t n.

  (** ** Walks over the whole tree *)

  (** [for i := 0; i < numIndices; i++ { child = kvLLRB.GetByIndex(i); f(child) }],
      shared by discardNode, flushNode, purgeNode, touchNode,
      updateLayoutReport and validate *)
  Definition forChildren (n : nid) (f : nid → M unit) : M unit :=
    let* len := kvLen n in
    forM (range len) (λ i,
      let* o := kvGet n i in
      let* '(_, v) := logicSome o in
      let* c := asNode v in
      f c).
  (** [if nil != node.nonLeafLeftChild { f(node.nonLeafLeftChild) }] *)
  Definition forLeft (n : nid) (f : nid → M unit) : M unit :=
    let* r := getN n in match b_left r with None => ret tt | Some l => f l end.

  (** [tree.markNodeEvicted(node); node.kvLLRB = nil; ...]; btree.go:1918-1926,
      1976-1984 *)
  Definition evictNode (t : tid) (n : nid) : M unit :=
    markNodeEvicted t n ;;
    modN n (set_kv None) ;;
    modN n (set_left None) ;;
    modN n (set_psroot None) ;;
    modN n (set_loaded false).

  (** btree.go:1872-1930 *)
  Fixpoint flushNode (fuel : nat) (t : tid) (n : nid) (andPurge : bool) : M unit :=
    match fuel with
    | O => nofuel
    | S fuel =>
        let* r := getN n in
        if negb (b_loaded r) then ret tt
        else
          (if b_leaf r then ret tt
           else
             forLeft n (λ c, flushNode fuel t c andPurge) ;;
             forChildren n (λ c, flushNode fuel t c andPurge)) ;;
          let* r := getN n in
          (if b_dirty r then postNode t n else ret tt) ;;
          (if andPurge then evictNode t n else ret tt)
    end.

  (** btree.go:1932-1988 *)
  Fixpoint purgeNode (fuel : nat) (t : tid) (n : nid) (full : bool) : M unit :=
    match fuel with
    | O => nofuel
    | S fuel =>
        let* r := getN n in
        if negb (b_loaded r) then ret tt
        else if full && b_dirty r then fail ELogic
        else
          (if b_leaf r then ret tt
           else
             forLeft n (λ c, purgeNode fuel t c full) ;;
             forChildren n (λ c, purgeNode fuel t c full)) ;;
          let* r := getN n in
          if b_dirty r then ret tt else evictNode t n
    end.

  (** [if node.loaded { incCacheHits; [markNodeUsed] } else { incCacheMisses;
      loadNode }], at the head of most loops (e.g. btree.go:119-128);
      [mark]: does this caller call markNodeUsed *)
  Definition visit (mark : bool) (t : tid) (n : nid) : M unit :=
    let* r := getN n in
    if b_loaded r then
      incCacheHits t ;; (if mark then markNodeUsed t n else ret tt)
    else
      incCacheMisses t ;; loadNode t n.

  (** btree.go:2523-2571 *)
  Fixpoint touchNode (fuel : nat) (t : tid) (n : nid) : M unit :=
    match fuel with
    | O => nofuel
    | S fuel =>
        visit false t n ;;
        markNodeDirty t n ;;
        let* r := getN n in
        if b_leaf r then ret tt
        else
          forLeft n (λ c, touchNode fuel t c) ;;
          forChildren n (λ c, touchNode fuel t c)
    end.

  (** btree.go:2573-2583 *)
  Fixpoint touchLoadedNodeToRoot (fuel : nat) (t : tid) (n : nid) : M unit :=
    match fuel with
    | O => nofuel
    | S fuel =>
        markNodeDirty t n ;;
        let* r := getN n in
        if b_root r then ret tt
        else let* p := deref (b_parent r) in touchLoadedNodeToRoot fuel t p
    end.

  (** btree.go:1091-1139 *)
  Fixpoint discardNode (fuel : nat) (t : tid) (n : nid) : M unit :=
    match fuel with
    | O => nofuel
    | S fuel =>
        visit false t n ;;
        let* r := getN n in
        (if b_leaf r then ret tt
         else
           forLeft n (λ c, discardNode fuel t c) ;;
           forChildren n (λ c, discardNode fuel t c)) ;;
        markNodeToBeDiscarded t n
    end.

  (** [for staleOnDiskReference = range tree.staleOnDiskReferencesList]:
      btree.go:1076-1081.  The storage's choice picks the next one. *)
  Fixpoint discardAll (fuel : nat) (ls : list loc) : M unit :=
    match ls with
    | [] => ret tt
    | l0 :: _ =>
        match fuel with
        | O => nofuel
        | S fuel =>
            let* pick := Act (λ s, ORet (ch_pick (orc s (iocount s))) s) in
            let i := Nat.modulo pick (length ls) in
            DiscardNode (default l0 (ls !! i)) ;;
            discardAll fuel (base.delete i ls)
        end
    end.

  (** btree.go:1067-1089 *)
  Definition pruneWhileLocked (t : tid) : M unit :=
    let* T := getT t in
    discardAll (length (t_stale T)) (t_stale T) ;;
    modT t (λ T, Tree (t_min T) (t_max T) (t_root T) [] (t_cache T)).

  (** LayoutReport, btree_api.go:16 *)
  Definition report := gmap Z Z.
  (** btree.go:3055-3117 *)
  Fixpoint updateLayoutReport (fuel : nat) (t : tid) (n : nid) (rep : report) : M report :=
    match fuel with
    | O => nofuel
    | S fuel =>
        let* r0 := getN n in
        (if b_loaded r0 then ret tt else loadNode t n) ;;
        let* r := getN n in
        let rep := if lnum (b_loc r) =? 0 then rep
                   else <[lnum (b_loc r) := default 0 (rep !! lnum (b_loc r)) + llen (b_loc r)]> rep in
        let* rep :=
          (if b_leaf r then ret rep
           else
             match b_left r with
             | None => fail ELogic
             | Some l =>
                 let* rep := updateLayoutReport fuel t l rep in
                 let* len := kvLen n in
                 (fix loop (is : list Z) (rep : report) : M report :=
                    match is with
                    | [] => ret rep
                    | i :: is =>
                        let* o := kvGet n i in
                        let* '(_, v) := logicSome o in
                        let* c := asNode v in
                        let* rep := updateLayoutReport fuel t c rep in
                        loop is rep
                    end) (range len) rep
             end) in
        (if b_loaded r0 then ret tt else purgeNode fuel t n true) ;;
        ret rep
    end.

  (** ** Insertion *)

  (** a node created by insertHere; btree.go:1170-1188, 1259-1278 *)
  Definition freshNode (t : tid) (items : Z) (isroot isleaf : bool) (parent : option nid)
      (left : option nid) : bnode :=
    Node noloc items true true isroot isleaf t parent (Some E) left None.

  (** the loop btree.go:1190-1244; returns the last splitKey *)
  Fixpoint splitLoop (fuel : nat) (t : tid) (n m : nid) (len : Z) : M K :=
    match fuel with
    | O => nofuel
    | S fuel =>
        let* o := kvGet n (len - 1) in
        let* '(k, v) := logicSome o in
        let* ok := kvDelIndex n (len - 1) in
        logicOk ok ;;
        let len := len - 1 in
        let* r := getN n in
        let* T := getT t in
        if b_leaf r then
          modN n (λ r, set_items (b_items r - 1) r) ;;
          modN m (λ r, set_items (b_items r + 1) r) ;;
          let* ok := kvPut m k v in
          logicOk ok ;;
          if t_min T =? len then ret k else splitLoop fuel t n m len
        else
          let* c := asNode v in
          modN c (set_parent (Some m)) ;;
          let* cr := getN c in
          modN n (λ r, set_items (b_items r - b_items cr) r) ;;
          modN m (λ r, set_items (b_items r + b_items cr) r) ;;
          if t_min T =? len then
            modN m (set_left (Some c)) ;; ret k
          else
            let* ok := kvPut m k v in
            logicOk ok ;;
            splitLoop fuel t n m len
    end.

  (** btree.go:1141-1310 *)
  Fixpoint insertHere (fuel0 fuel : nat) (t : tid) (n : nid) (k : K) (v : bval) : M unit :=
    match fuel with
    | O => nofuel
    | S fuel =>
        kvPut_ n k v ;;
        let* r := getN n in
        (if b_leaf r then updatePrefixSumTreeLeafToRoot fuel0 t n else ret tt) ;;
        let* len := kvLen n in
        let* T := getT t in
        if len <=? t_max T then ret tt
        else
          let* r := getN n in
          let* m := newNode (freshNode t 0 false (b_leaf r) (b_parent r) None) in
          let* sk := splitLoop (S (Z.to_nat len)) t n m len in
          (if b_leaf r then ret tt
           else arrangePrefixSumTree n ;; arrangePrefixSumTree m) ;;
          (if b_root r then
             modN n (set_root false) ;;
             let* rn := getN n in
             let* rm := getN m in
             let* p := newNode (freshNode t (b_items rn + b_items rm) true false None (Some n)) in
             modT t (λ T, Tree (t_min T) (t_max T) (Some p) (t_stale T) (t_cache T)) ;;
             modN n (set_parent (Some p)) ;;
             modN m (set_parent (Some p)) ;;
             kvPut_ p sk (VNode m) ;;
             initNodeAsEvicted t m ;;
             markNodeDirty t m ;;
             initNodeAsEvicted t p ;;
             markNodeDirty t p
           else
             let* p := deref (b_parent r) in
             insertHere fuel0 fuel t p sk (VNode m) ;;
             initNodeAsEvicted t m ;;
             markNodeDirty t m) ;;
          let* r := getN n in
          let* p := deref (b_parent r) in
          rearrangeToRoot fuel0 t p
    end.

  (** ** Deletion *)

  (** borrow from the left sibling; btree.go:1386-1485 *)
  Definition borrowLeft (t : tid) (n p l : nid) (pi len : Z) : M unit :=
    modN l (λ r, set_items (b_items r - 1) r) ;;
    modN n (λ r, set_items (b_items r + 1) r) ;;
    let* r := getN n in
    (if b_leaf r then
       let* o := kvGet l (len - 1) in
       let* '(mk, mv) := logicSome o in
       let* ok := kvDelIndex l (len - 1) in logicOk ok ;;
       let* ok := kvPut n mk mv in logicOk ok ;;
       let* ok := kvDelIndex p pi in logicOk ok ;;
       let* ok := kvPut p mk (VNode n) in logicOk ok
     else
       let* o := kvGet l (len - 1) in
       let* '(mk, mv) := logicSome o in
       let* mn := asNode mv in
       let* ok := kvDelIndex l (len - 1) in logicOk ok ;;
       let* o := kvGet p pi in
       let* '(pk, _) := logicSome o in
       let* ok := kvDelIndex p pi in logicOk ok ;;
       let* nl := deref (b_left r) in
       let* ok := kvPut n pk (VNode nl) in logicOk ok ;;
       modN mn (set_parent (Some n)) ;;
       modN n (set_left (Some mn)) ;;
       let* ok := kvPut p mk (VNode n) in logicOk ok ;;
       ignoreErr (arrangePrefixSumTree l) ;;
       ignoreErr (arrangePrefixSumTree n)) ;;
    ignoreErr (arrangePrefixSumTree p) ;;
    markNodeDirty t l.

  (** borrow from the right sibling; btree.go:1523-1626 *)
  Definition borrowRight (t : tid) (n p q : nid) (pi : Z) : M unit :=
    modN n (λ r, set_items (b_items r + 1) r) ;;
    modN q (λ r, set_items (b_items r - 1) r) ;;
    let* r := getN n in
    (if b_leaf r then
       let* o := kvGet q 0 in
       let* '(mk, mv) := logicSome o in
       let* ok := kvDelIndex q 0 in logicOk ok ;;
       let* ok := kvPut n mk mv in logicOk ok ;;
       let* o := kvGet q 0 in
       let* '(sk, _) := logicSome o in
       let* ok := kvDelIndex p (pi + 1) in logicOk ok ;;
       let* ok := kvPut p sk (VNode q) in logicOk ok
     else
       let* o := kvGet q 0 in
       let* '(sk, nv) := logicSome o in
       let* ok := kvDelIndex q 0 in logicOk ok ;;
       let* o := kvGet p (pi + 1) in
       let* '(pk, _) := logicSome o in
       let* ok := kvDelIndex p (pi + 1) in logicOk ok ;;
       let* qr := getN q in
       let* mn := deref (b_left qr) in
       let* nl := asNode nv in
       modN q (set_left (Some nl)) ;;
       modN mn (set_parent (Some n)) ;;
       let* ok := kvPut n pk (VNode mn) in logicOk ok ;;
       let* ok := kvPut p sk (VNode q) in logicOk ok ;;
       ignoreErr (arrangePrefixSumTree n) ;;
       ignoreErr (arrangePrefixSumTree q)) ;;
    ignoreErr (arrangePrefixSumTree p) ;;
    markNodeDirty t q.

  (** the loops btree.go:1660-1681 and 1757-1778: move the entries of [src]
      at indices [is] to [dst] *)
  Fixpoint moveAll (dst src : nid) (is : list Z) : M unit :=
    match is with
    | [] => ret tt
    | i :: is =>
        let* o := kvGet src i in
        let* '(k, v) := logicSome o in
        match v with VNode c => modN c (set_parent (Some dst)) | VUser _ => ret tt end ;;
        let* ok := kvPut dst k v in
        logicOk ok ;;
        moveAll dst src is
    end.

  (** merge [src] into its left neighbour [dst]; [si] is the kv index of [src]
      in the parent [p]; btree.go:1631-1724 (src = rebalanceNode, whose Put of
      the separator is unchecked) and 1726-1821 (src = rightSiblingNode).
      [chk] tells the two apart; [rec] is the recursive rebalanceHere on the
      parent. *)
  Definition mergeNodes (t : tid) (dst src p : nid) (si : Z) (chk : bool)
      (rec : M unit) : M unit :=
    let* rs := getN src in
    modN dst (λ r, set_items (b_items r + b_items rs) r) ;;
    let* o := kvGet p si in
    let* '(sk, _) := logicSome o in
    let* rd := getN dst in
    (if b_leaf (if chk then rd else rs) then ret tt
     else
       let* sl := deref (b_left rs) in
       modN sl (set_parent (Some dst)) ;;
       if chk then let* ok := kvPut dst sk (VNode sl) in logicOk ok
       else kvPut_ dst sk (VNode sl)) ;;
    let* cnt := kvLen src in
    moveAll dst src (range cnt) ;;
    let* plen := kvLen p in
    let* rp := getN p in
    (if b_root rp && (plen =? 1) then
       let* T := getT t in
       let* rt := deref (t_root T) in
       markNodeToBeDiscarded t rt ;;
       modN dst (set_root true) ;;
       modN dst (set_parent None) ;;
       modT t (λ T, Tree (t_min T) (t_max T) (Some dst) (t_stale T) (t_cache T)) ;;
       (if b_leaf rd then ret tt else ignoreErr (arrangePrefixSumTree dst))
     else
       let* ok := kvDelIndex p si in logicOk ok ;;
       (if b_leaf rd then ret tt else ignoreErr (arrangePrefixSumTree dst)) ;;
       ignoreErr (arrangePrefixSumTree p) ;;
       rec) ;;
    markNodeToBeDiscarded t src ;;
    markNodeDirty t dst.

  (** the left sibling, if any; btree.go:1353-1384 *)
  Definition leftSibling (t : tid) (p : nid) (pi : Z) : M (option nid) :=
    if pi =? -1 then ret None
    else
      let* l :=
        (if pi =? 0 then let* rp := getN p in deref (b_left rp)
         else
           let* o := kvGet p (pi - 1) in
           let* '(_, v) := logicSome o in
           asNode v) in
      visit true t l ;;
      ret (Some l).
  (** the right sibling, if any; btree.go:1489-1521 *)
  Definition rightSibling (t : tid) (p : nid) (pi : Z) : M (option nid) :=
    let* plen := kvLen p in
    if plen - 1 =? pi then ret None
    else
      let* o := kvGet p (pi + 1) in
      let* '(_, v) := logicSome o in
      let* q := asNode v in
      visit true t q ;;
      ret (Some q).

  (** btree.go:1312-1870; the head of [stack] is the last element of
      parentIndexStack *)
  Fixpoint rebalanceHere (fuel : nat) (t : tid) (n : nid) (stack : list Z) : M unit :=
    match fuel with
    | O => nofuel
    | S fuel =>
        let* r := getN n in
        if b_root r then ret tt
        else
          let* len := kvLen n in
          let* T := getT t in
          if t_min T <=? len then ret tt
          else
            match stack with
            | [] => panic
            | pi :: stack =>
                (* parentNode is dereferenced below, where its first field
                   is used *)
                let* p := deref (b_parent r) in
                let* ol := leftSibling t p pi in
                let* donor :=
                  match ol with
                  | None => ret None
                  | Some l =>
                      let* llen := kvLen l in
                      ret (if t_min T <? llen then Some (l, llen) else None)
                  end in
                match donor with
                | Some (l, llen) => borrowLeft t n p l pi llen
                | None =>
                    let* oq := rightSibling t p pi in
                    let* donor :=
                      match oq with
                      | None => ret None
                      | Some q =>
                          let* qlen := kvLen q in
                          ret (if t_min T <? qlen then Some q else None)
                      end in
                    match donor with
                    | Some q => borrowRight t n p q pi
                    | None =>
                        match ol, oq with
                        | Some l, _ =>
                            mergeNodes t l n p pi false (rebalanceHere fuel t p stack)
                        | None, Some q =>
                            mergeNodes t n q p (pi + 1) true (rebalanceHere fuel t p stack)
                        | None, None => fail ELogic
                        end
                    end
                end
            end
    end.

  (** ** Searching *)

  (** choose the child for [key] in inner node [n]; e.g. btree.go:575-605.
      The second result is what DeleteByKey pushes on parentIndexStack. *)
  Definition findChild (n : nid) (key : K) : M (nid * option Z) :=
    let* o := kvGet n 0 in
    let* r := getN n in
    match o with
    | Some (minKey, _) =>
        let* c := compareM key minKey in
        if c <? 0 then
          let* l := deref (b_left r) in ret (l, Some (-1))
        else
          let* '(i, _) := kvBisectLeft n key in
          let* o := kvGet n i in
          match o with
          | Some (_, v) => let* c := asNode v in ret (c, Some i)
          | None => panic (* type assertion on a nil Value *)
          end
    | None => let* l := deref (b_left r) in ret (l, None)
    end.

  (** the loops of DeleteByKey (429-492), GetByKey (563-611), PatchByKey
      (699-747) and Put (756-817) down to the leaf; [stack] is DeleteByKey's
      parentIndexStack, last element first *)
  Fixpoint descendKey (fuel : nat) (mark : bool) (t : tid) (n : nid) (stack : list Z) (key : K)
      : M (nid * list Z) :=
    match fuel with
    | O => nofuel
    | S fuel =>
        visit mark t n ;;
        let* r := getN n in
        if b_leaf r then ret (n, stack)
        else
          let* '(c, o) := findChild n key in
          descendKey fuel mark t c (match o with Some i => i :: stack | None => stack end) key
    end.

  (** [if nil != x.prefixSumLeftChild { x.prefixSumLeftChild.prefixSumItems }
      else 0] *)
  Definition leftSum (p : psrec) : M Z :=
    match psl p with None => ret 0 | Some l => let* q := getP l in ret (psitems q) end.

  (** climb to the root of the prefix-sum tree; btree.go:184-197.  The head of
      [acc] is the last element of rightChildBoolStack. *)
  Fixpoint climb (fuel : nat) (c : nid) (acc : list bool) : M (nid * list bool) :=
    match fuel with
    | O => nofuel
    | S fuel =>
        let* pc := getP c in
        let* q := deref (pspar pc) in
        let* pq := getP q in
        let acc := (if decide (psl pq = Some c) then false else true) :: acc in
        match pspar pq with None => ret (q, acc) | Some _ => climb fuel q acc end
    end.
  (** and back down, adding what lies to the left; btree.go:199-211 *)
  Fixpoint unclimb (c : nid) (stack : list bool) (delta : Z) : M (nid * Z) :=
    match stack with
    | [] => ret (c, delta)
    | b :: stack =>
        let* pc := getP c in
        if (b : bool) then
          let* ls := leftSum pc in
          let* rc := getN c in
          let* c' := deref (psr pc) in
          unclimb c' stack (delta + ls + b_items rc)
        else
          let* c' := deref (psl pc) in
          unclimb c' stack delta
    end.

  (** number of items in the children before [c] of node [n];
      btree.go:171-217.  Returns the child reached. *)
  Definition childOffset (fuel : nat) (n c : nid) (delta : Z) : M (nid * Z) :=
    let* r := getN n in
    if decide (Some c = b_psroot r) then
      let* pc := getP c in
      let* ls := leftSum pc in
      ret (c, delta + ls)
    else
      let* '(top, stack) := climb fuel c [] in
      let* '(c', delta) := unclimb top stack delta in
      let* pc := getP c' in
      let* ls := leftSum pc in
      ret (c', delta + ls).

  (** the loops of BisectLeft (118-224) and BisectRight (234-340) down to the
      leaf *)
  Fixpoint descendBisect (fuel0 fuel : nat) (t : tid) (n : nid) (delta : Z) (key : K) : M (nid * Z) :=
    match fuel with
    | O => nofuel
    | S fuel =>
        visit true t n ;;
        let* r := getN n in
        if b_leaf r then ret (n, delta)
        else
          let* '(c, o) := findChild n key in
          match o with
          | Some i =>
              if i =? -1 then descendBisect fuel0 fuel t c delta key
              else
                let* '(c', delta) := childOffset fuel0 n c delta in
                descendBisect fuel0 fuel t c' delta key
          | None => descendBisect fuel0 fuel t c delta key
          end
    end.

  (** the loop over the prefix-sum tree, e.g. btree.go:395-413; returns the
      child containing index [i] of the subtree and the remaining index *)
  Fixpoint walkPs (fuel : nat) (c : nid) (i : Z) : M (nid * Z) :=
    match fuel with
    | O => nofuel
    | S fuel =>
        let* pc := getP c in
        let* ls := leftSum pc in
        let* rc := getN c in
        if i <? ls then let* l := deref (psl pc) in walkPs fuel l i
        else if i <? ls + b_items rc then ret (c, i - ls)
        else let* r := deref (psr pc) in walkPs fuel r (i - (ls + b_items rc))
    end.

  (** the loops of DeleteByIndex (366-414), GetByIndex (514-554), PatchByIndex
      (653-690) and TouchItem (955-1001) down to the leaf.  [stack] is
      DeleteByIndex's parentIndexStack. *)
  Fixpoint descendIndex (fuel0 fuel : nat) (mark : bool) (t : tid) (n : nid) (i : Z) (stack : list Z)
      : M (nid * Z * list Z) :=
    match fuel with
    | O => nofuel
    | S fuel =>
        visit mark t n ;;
        let* r := getN n in
        if b_leaf r then ret (n, i, stack)
        else
          let* m := deref (b_psroot r) in
          let* '(c, i) := walkPs fuel0 m i in
          let* pc := getP c in
          descendIndex fuel0 fuel mark t c i (pskv pc :: stack)
    end.

  (** ** API functions *)

  Definition rootOf (t : tid) : M nid := let* T := getT t in deref (t_root T).

  (** btree.go:111-225 *)
  Definition bt_BisectLeft (t : tid) (key : K) : M (answer K V) := with_fuel (λ fuel,
    let* rt := rootOf t in
    let* '(n, delta) := descendBisect fuel fuel t rt 0 key in
    let* '(i, found) := kvBisectLeft n key in
    ret (RIndex (delta + i) found)).
  (** btree.go:227-341 *)
  Definition bt_BisectRight (t : tid) (key : K) : M (answer K V) := with_fuel (λ fuel,
    let* rt := rootOf t in
    let* '(n, delta) := descendBisect fuel fuel t rt 0 key in
    let* '(i, found) := kvBisectRight n key in
    ret (RIndex (delta + i) found)).

  (** btree.go:343-415 *)
  Definition bt_DeleteByIndex (t : tid) (i : Z) : M (answer K V) := with_fuel (λ fuel,
    let* rt := rootOf t in
    let* r := getN rt in
    if (i <? 0) || (b_items r <=? i) then ret (ROk false)
    else
      let* '(n, i, stack) := descendIndex fuel fuel true t rt i [] in
      let* _ := kvDelIndex n i in
      markNodeDirty t n ;;
      updatePrefixSumTreeLeafToRoot fuel t n ;;
      rebalanceHere fuel t n stack ;;
      ret (ROk true)).

  (** btree.go:417-493 *)
  Definition bt_DeleteByKey (t : tid) (key : K) : M (answer K V) := with_fuel (λ fuel,
    let* rt := rootOf t in
    let* '(n, stack) := descendKey fuel true t rt [] key in
    let* ok := kvDelKey n key in
    (if (ok : bool) then
       markNodeDirty t n ;;
       updatePrefixSumTreeLeafToRoot fuel t n ;;
       rebalanceHere fuel t n stack
     else ret tt) ;;
    ret (ROk ok)).

  (** btree.go:495-555 *)
  Definition bt_GetByIndex (t : tid) (i : Z) : M (answer K V) := with_fuel (λ fuel,
    let* rt := rootOf t in
    let* r := getN rt in
    if (i <? 0) || (b_items r <=? i) then ret (RItem None)
    else
      let* '(n, i, _) := descendIndex fuel fuel true t rt i [] in
      let* o := kvGet n i in
      (* the ok of the leaf's GetByIndex is ignored, true is returned *)
      match o with
      | Some (k, v) => let* v := asUser v in ret (RItem (Some (k, v)))
      | None => panic
      end).

  (** btree.go:557-612 *)
  Definition bt_GetByKey (t : tid) (key : K) : M (answer K V) := with_fuel (λ fuel,
    let* rt := rootOf t in
    let* '(n, _) := descendKey fuel true t rt [] key in
    let* o := kvGetKey n key in
    match o with
    | Some v => let* v := asUser v in ret (RValue (Some v))
    | None => ret (RValue None)
    end).

  (** btree.go:614-632 *)
  Definition bt_Len (t : tid) : M (answer K V) :=
    let* rt := rootOf t in
    visit false t rt ;;
    let* r := getN rt in
    ret (RLen (b_items r)).

  (** btree.go:634-691 *)
  Definition bt_PatchByIndex (t : tid) (i : Z) (v : V) : M (answer K V) := with_fuel (λ fuel,
    let* rt := rootOf t in
    let* r := getN rt in
    if (i <? 0) || (b_items r <=? i) then ret (ROk false)
    else
      let* '(n, i, _) := descendIndex fuel fuel true t rt i [] in
      touchLoadedNodeToRoot fuel t n ;;
      let* tr := kvOf n in
      let* '(tr', _) := lift (PatchByIndex tr i (VUser v)) in
      kvSet n tr' ;;
      ret (ROk true)).

  (** btree.go:693-748 *)
  Definition bt_PatchByKey (t : tid) (key : K) (v : V) : M (answer K V) := with_fuel (λ fuel,
    let* rt := rootOf t in
    let* '(n, _) := descendKey fuel false t rt [] key in
    touchLoadedNodeToRoot fuel t n ;;
    let* tr := kvOf n in
    let '(tr', a) := PatchByKey cmp tr key (VUser v) in
    kvSet n tr' ;;
    match a with ROk ok => ret (ROk ok) | _ => fail ECmp end).

  (** btree.go:750-818 *)
  Definition bt_Put (t : tid) (key : K) (v : V) : M (answer K V) := with_fuel (λ fuel,
    let* rt := rootOf t in
    let* '(n, _) := descendKey fuel false t rt [] key in
    let* o := kvGetKey n key in
    match o with
    | Some _ => ret (ROk false)
    | None => insertHere fuel fuel t n key (VUser v) ;; ret (ROk true)
    end).

  (** btree.go:820-826.  The three numbers are read one after the other, each
      from what is the root at that moment, and without the tree lock. *)
  Definition bt_FetchLocation (t : tid) : M loc :=
    let* rt := rootOf t in let* r := getN rt in let a := lnum (b_loc r) in
    let* rt := rootOf t in let* r := getN rt in let b := loff (b_loc r) in
    let* rt := rootOf t in let* r := getN rt in let c := llen (b_loc r) in
    ret (a, b, c).

  (** btree.go:828-837 *)
  Definition bt_FetchLayoutReport (t : tid) : M report := with_fuel (λ fuel,
    let* rt := rootOf t in updateLayoutReport fuel t rt ∅).

  (** btree_api.go:18-23 *)
  Record dimensions := Dimensions { dim_min : Z; dim_max : Z; dim_items : Z; dim_height : Z }.
  (** the loop btree.go:850-878 *)
  Fixpoint dimLoop (fuel : nat) (t : tid) (n : nid) (dim : dimensions) : M dimensions :=
    match fuel with
    | O => nofuel
    | S fuel =>
        visit true t n ;;
        let* r := getN n in
        let* T := getT t in
        let dim := if b_root r then Dimensions (t_min T) (t_max T) (b_items r) 1 else dim in
        if b_leaf r then ret dim
        else
          let* l := deref (b_left r) in
          dimLoop fuel t l (Dimensions (dim_min dim) (dim_max dim) (dim_items dim) (dim_height dim + 1))
    end.
  (** btree.go:839-879 *)
  Definition bt_FetchDimensionsReport (t : tid) : M dimensions := with_fuel (λ fuel,
    let* rt := rootOf t in dimLoop fuel t rt (Dimensions 0 0 0 0)).

  (** btree.go:881-900 *)
  Definition bt_Flush (t : tid) (andPurge : bool) : M loc := with_fuel (λ fuel,
    let* rt := rootOf t in
    flushNode fuel t rt andPurge ;;
    let* r := getN rt in
    ret (b_loc r)).
  (** btree.go:902-909 *)
  Definition bt_Purge (t : tid) (full : bool) : M unit := with_fuel (λ fuel,
    let* rt := rootOf t in purgeNode fuel t rt full).
  (** btree.go:911-918 *)
  Definition bt_Touch (t : tid) : M unit := with_fuel (λ fuel,
    let* rt := rootOf t in touchNode fuel t rt).
  (** btree.go:920-1002; returns nextItemIndexToTouch *)
  Definition bt_TouchItem (t : tid) (i : Z) : M Z := with_fuel (λ fuel,
    let* rt := rootOf t in
    let* r := getN rt in
    if b_items r =? 0 then ret 0
    else if b_items r <=? i then ret 0
    else
      let* '(n, net, _) := descendIndex fuel fuel false t rt i [] in
      touchLoadedNodeToRoot fuel t n ;;
      let* len := kvLen n in
      ret (i + (len - net))).
  (** btree.go:1004-1009 *)
  Definition bt_Prune (t : tid) : M unit := pruneWhileLocked t.
  (** btree.go:1011-1038 *)
  Definition bt_Discard (t : tid) : M unit := with_fuel (λ fuel,
    let* rt := rootOf t in
    ignoreErr (discardNode fuel t rt) ;;
    pruneWhileLocked t ;;
    modT t (λ T, Tree (t_min T) (t_max T) None [] false)).

  Definition set_rootptr (n : option nid) (T : treerec) : treerec :=
    Tree (t_min T) (t_max T) n (t_stale T) (t_cache T).
  (** btree_api.go:93-146.  Returns the new tree. *)
  Definition bt_New (max : Z) (attach : bool) : M tid :=
    let min := max / 2 in
    if (max <? 4) || negb (2 * min =? max) then panic
    else
      let* t := newTree (Tree min max None [] attach) in
      let* rt := newNode (Node noloc 0 true true true true t None (Some E) None None) in
      modT t (set_rootptr (Some rt)) ;;
      initNodeAsEvicted t rt ;;
      markNodeDirty t rt ;;
      ret t.

  (** btree_api.go:148-195.  On an error the code returns the half-made tree
      together with the error; clients must not use it. *)
  Definition bt_Old (l : loc) (attach : bool) : M tid :=
    let* t := newTree (Tree 0 0 None [] attach) in
    let* rt := newNode (Node l 0 false false true true t None None None None) in
    modT t (set_rootptr (Some rt)) ;;
    initNodeAsEvicted t rt ;;
    loadNode t rt ;;
    ret t.

  (** btree_validate.go:144-180; [None] as argument is a nil pointer *)
  Fixpoint validatePrefixSum (fuel : nat) (o : option nid) : M bool :=
    match fuel with
    | O => nofuel
    | S fuel =>
        let* n := deref o in
        let* r := getN n in
        let* p := getP n in
        let exp := b_items r in
        let* '(exp, bad) :=
          match psl p with
          | None => ret (exp, false)
          | Some l =>
              let* pl := getP l in
              if decide (pspar pl = Some n) then
                (* its error is overwritten below *)
                let* _ := validatePrefixSum fuel (Some l) in
                ret (exp + psitems pl, false)
              else ret (exp + psitems pl, true)
          end in
        if (bad : bool) then ret false
        else
          let* '(exp, bad) :=
            match psr p with
            | None => ret (exp, false)
            | Some q =>
                let* pq := getP q in
                if decide (pspar pq = Some n) then
                  (* the code validates the LEFT child again *)
                  let* ok := validatePrefixSum fuel (psl p) in
                  ret (exp + psitems pq, negb ok)
                else ret (exp + psitems pq, true)
            end in
          if (bad : bool) then ret false
          else ret (exp =? psitems p)
    end.

  (** btree_validate.go:17-142.  [true] = no error; GetNode's error is an
      error outcome.  The call loads through [node.tree]; here [t], the tree
      being validated, which is the same for every node reached. *)
  Fixpoint validateNode (fuel0 fuel : nat) (t : tid) (n : nid) : M bool :=
    match fuel with
    | O => nofuel
    | S fuel =>
        let* r0 := getN n in
        (if b_loaded r0 then ret tt else loadNode t n) ;;
        let* r := getN n in
        let* T := getT (b_tree r) in
        let* tr := kvOf n in
        let len := Len tr in
        if b_leaf r then
          ret (validate tr && (len =? b_items r)
               && (b_root r || (t_min T <=? len)) && (len <=? t_max T))
        else
          let* '(ok, sum) :=
            match b_left r with
            | None => ret (true, 0)
            | Some l =>
                let* rl := getN l in
                if decide (b_parent rl = Some n) then
                  let* ok := validateNode fuel0 fuel t l in
                  let* rl := getN l in
                  ret (ok, b_items rl)
                else ret (false, 0)
            end in
          if negb (ok && validate tr && (b_root r || (t_min T <=? len)) && (len <=? t_max T))
          then ret false
          else
            let* '(ok, sum) :=
              (fix loop (is : list Z) (sum : Z) : M (bool * Z) :=
                 match is with
                 | [] => ret (true, sum)
                 | i :: is =>
                     let* o := kvGet n i in
                     match o with
                     | None => ret (false, sum)
                     | Some (_, v) =>
                         let* c := asNode v in
                         let* rc := getN c in
                         if decide (b_parent rc = Some n) then
                           let* ok := validateNode fuel0 fuel t c in
                           if (ok : bool) then
                             let* rc := getN c in
                             loop is (sum + b_items rc)
                           else ret (false, sum)
                         else ret (false, sum)
                     end
                 end) (range len) sum in
            if negb ok || negb (sum =? b_items r) then ret false
            else
              match b_psroot r with
              | None => ret false
              | Some m =>
                  let* pm := getP m in
                  match pspar pm with
                  | Some _ => ret false
                  | None =>
                      if negb (sum =? psitems pm) then ret false
                      else validatePrefixSum fuel0 (Some m)
                  end
              end
    end.
  (** btree_validate.go:8-15 *)
  Definition bt_Validate (t : tid) : M bool := with_fuel (λ fuel,
    let* rt := rootOf t in validateNode fuel fuel t rt).

  (** ** Dump *)

  (** What is printed of a node (btree_dump.go:84-91): which one, its location,
      items and flags; and of an entry (150-160): its place in the node, its
      key, and its value or the child it points to.  The pointers, the
      prefix-sum fields (93-125) and the cache's fields (12-39, 58-82) are
      printed too, but not recorded here.  Instead of the strings that DumpKey
      and DumpValue make of them, a line carries the key and the value. *)
  Inductive dline :=
    | DNode (n : nid) (l : loc) (items : Z) (dirty isroot isleaf : bool)
    | DItem (i : Z) (k : K) (v : V)
    | DSep (i : Z) (k : K) (c : nid).
  (** the lines printed, and the error of a child that was dropped, if any: the
      code does not keep it, it is recorded to be able to talk about it *)
  Definition dump : Type := list dline * option err.
  Definition dcat (x y : dump) : dump := (x.1 ++ y.1, match x.2 with Some e => Some e | None => y.2 end).
  (** btree_dump.go:50-168.  DumpKey and DumpValue (145-149, 152-156) are taken
      to succeed. *)
  Fixpoint dumpNode (fuel : nat) (t : tid) (n : nid) : M dump :=
    match fuel with
    | O => nofuel
    | S fuel =>
        (* btree_dump.go:130 and 161: the error is ignored *)
        let child c := Try (dumpNode fuel t c) (λ e, ret ([], Some e)) in
        let* r0 := getN n in
        (if b_loaded r0 then ret tt else loadNode t n) ;;
        let* r := getN n in
        let head := [DNode n (b_loc r) (b_items r) (b_dirty r) (b_root r) (b_leaf r)] in
        let* x :=
          (if b_leaf r then ret (head, None)
           else match b_left r with
                | None => ret (head, None)
                | Some c => let* y := child c in ret (dcat (head, None) y)
                end) in
        let* len := kvLen n in
        (fix loop (is : list Z) (x : dump) : M dump :=
           match is with
           | [] => ret x
           | i :: is =>
               let* o := kvGet n i in
               match o with
               | None => (* DumpKey(nil) *) panic
               | Some (k, v) =>
                   if b_leaf r then
                     let* u := asUser v in loop is (dcat x ([DItem i k u], None))
                   else
                     let* c := asNode v in
                     let* y := child c in
                     loop is (dcat (dcat x ([DSep i k c], None)) y)
               end
           end) (range len) x
    end.
  (** btree_dump.go:8-48 *)
  Definition bt_Dump (t : tid) : M dump := with_fuel (λ fuel,
    let* rt := rootOf t in dumpNode fuel t rt).

  (** ** The cache's own API and the drainer *)

  (** btree_api.go:65-80 *)
  Definition newCache (low high : Z) : cacherec :=
    Cache low high (Lruq None None 0) (Lruq None None 0) false 0 0.
  (** btree.go:1054-1063 *)
  Definition cache_UpdateLimits (low high : Z) : M unit :=
    atomic (
      modCache (λ c, Cache low high (c_clean c) (c_dirty c) (c_drainer c) (c_hits c) (c_misses c)) ;;
      kickDrainer true).

  (** first half of a drainer round, under the cache lock; btree.go:2489-2505.
      [None]: the drainer exits. *)
  Definition drainerSelect : M (option nid) := atomic (
    let* c := getCache in
    let stop := modCache (λ c, Cache (c_low c) (c_high c) (c_clean c) (c_dirty c) false (c_hits c) (c_misses c)) in
    if (qitems (c_clean c) =? 0)
       || (qitems (c_clean c) + qitems (c_dirty c) <=? c_low c)
    then stop ;; ret None
    else match qhead (c_clean c) with
         | None => stop ;; ret None
         | Some n => ret (Some n)
         end).
  (** second half, under the lock of the node's tree; btree.go:2507-2520.  Any
      number of calls may happen in between. *)
  Definition drainerEvict (n : nid) : M unit := with_fuel (λ fuel,
    let* c := getC n in
    let* r := getN n in
    if decide (ctg c = cleanLRU) then
      Try (purgeNode fuel (b_tree r) n true) (λ _, panic (* panic(err) *))
    else ret tt).

  (** The ten SortedMap calls *)
  Definition bt_call (t : tid) (c : call K V) : M (answer K V) :=
    match c with
    | CPut k v => bt_Put t k v
    | CGetByKey k => bt_GetByKey t k
    | CGetByIndex i => bt_GetByIndex t i
    | CPatchByKey k v => bt_PatchByKey t k v
    | CPatchByIndex i v => bt_PatchByIndex t i v
    | CDeleteByKey k => bt_DeleteByKey t k
    | CDeleteByIndex i => bt_DeleteByIndex t i
    | CBisectLeft k => bt_BisectLeft t k
    | CBisectRight k => bt_BisectRight t k
    | CLen => bt_Len t
    end.
End btree.

Arguments dline : clear implicits.
Arguments dump : clear implicits.
Arguments DNode {_ _}.
Arguments DItem {_ _}.
Arguments DSep {_ _}.
Arguments bval : clear implicits.
Arguments bnode : clear implicits.
Arguments st : clear implicits.
Arguments out : clear implicits.
Arguments M : clear implicits.
Arguments ORet {_ _ _}.
Arguments OErr {_ _ _}.
Arguments OStop {_ _ _}.

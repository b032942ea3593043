(** PartModel.v -- model of src/partition.h and src/partition.c. *)
From Coq Require Import List Arith ZArith QArith.
From Verif Require Import Base.
Import ListNotations.
Local Open Scope nat_scope.

Section Model.
Context {A : Type} {ops : NumOps A}.

(** src/partition.h 44-50, struct AdjaArray. *)
Record adja := mkAdja {
  aN : nat; aE : nat;
  aidx : list nat;       (* idx, N+1 entries *)
  anb : list nat;        (* neighbors, 2E+1 entries *)
  astr : list A          (* strength, 2E+1 entries *)
}.

(** src/partition.h 60-66, struct Node.  [prev]/[next] point to another Node of the same
    partition, modelled by its position in the [nodes] array. *)
Record node := mkNode {
  nid : nat; nstr : A; nmod : nat; nprev : option nat; nnext : option nat
}.

(** src/partition.h 74-80, struct Module. *)
Record module := mkModule {
  mid : nat; msize : nat; mstr : A; mfirst : option nat; mlast : option nat
}.

(** src/partition.h 85-91, struct Partition.  The arrays of pointers [nodes] and [modules] hold distinct
    heap objects, so they are modelled as arrays of objects. *)
Record partition := mkPart {
  pN : nat; pM : nat; pnempty : nat;
  pmods : list module; pnodes : list node
}.

(** Field writes. *)
Definition set_nprev (o : option nat) (n : node) := mkNode (nid n) (nstr n) (nmod n) o (nnext n).
Definition set_nnext (o : option nat) (n : node) := mkNode (nid n) (nstr n) (nmod n) (nprev n) o.
Definition set_nmod (m : nat) (n : node) := mkNode (nid n) (nstr n) m (nprev n) (nnext n).
Definition set_nstr (x : A) (n : node) := mkNode (nid n) x (nmod n) (nprev n) (nnext n).
Definition set_mid (x : nat) (m : module) := mkModule x (msize m) (mstr m) (mfirst m) (mlast m).
Definition set_msize (x : nat) (m : module) := mkModule (mid m) x (mstr m) (mfirst m) (mlast m).
Definition set_mstr (x : A) (m : module) := mkModule (mid m) (msize m) x (mfirst m) (mlast m).
Definition set_mfirst (x : option nat) (m : module) := mkModule (mid m) (msize m) (mstr m) x (mlast m).
Definition set_mlast (x : option nat) (m : module) := mkModule (mid m) (msize m) (mstr m) (mfirst m) x.

Definition set_nempty (x : nat) (p : partition) := mkPart (pN p) (pM p) x (pmods p) (pnodes p).
Definition set_nodes (x : list node) (p : partition) := mkPart (pN p) (pM p) (pnempty p) (pmods p) x.
Definition set_mods (x : list module) (p : partition) := mkPart (pN p) (pM p) (pnempty p) x (pnodes p).

(** [part->nodes[i]->field = ...] and [part->modules[m]->field = ...]. *)
Definition upd_node (p : partition) (i : nat) (f : node -> node) : res partition :=
  do nd <- get (pnodes p) i; Ok (set_nodes (upd (pnodes p) i (f nd)) p).
Definition upd_mod (p : partition) (m : nat) (f : module -> module) : res partition :=
  do md <- get (pmods p) m; Ok (set_mods (upd (pmods p) m (f md)) p).

(** [node->next] read through a pointer. *)
Definition next_of (p : partition) (i : nat) : res (option nat) :=
  do nd <- get (pnodes p) i; Ok (nnext nd).

(** src/partition.c 10-25, CreateAdjaArray (allocation always succeeds). *)
Definition CreateAdjaArray (N E : nat) : adja :=
  mkAdja N E (upd (repeat 0 (N + 1)) N (2 * E)) (repeat 0 (2 * E + 1)) (repeat n0 (2 * E + 1)).

(** src/partition.c 44-84, CreatePartition.  The array [modules] is allocated with N entries
    (line 56) while lines 72-82 write M entries: M > N is an out-of-bounds write. *)
Definition CreatePartition (N M : nat) : res partition :=
  do _ <- check (M <=? N) UB_oob;
  Ok (mkPart N M M
        (map (fun i => mkModule i 0 n0 None None) (seq 0 M))
        (map (fun i => mkNode i n0 0 None None) (seq 0 N))).

(** src/partition.c 110-130, one link of the copy: [copy->nodes[part->...->id]]. *)
Definition copy_link (p : partition) (o : option nat) : res (option nat) :=
  match o with
  | None => Ok None
  | Some j => do nd <- get (pnodes p) j;
              do _ <- check (nid nd <? pN p) UB_oob;
              Ok (Some (nid nd))
  end.

(** src/partition.c 89-132, CopyPartitionStruct. *)
Definition CopyPartitionStruct (p : partition) : res partition :=
  do c <- CreatePartition (pN p) (pM p);
  let c := set_nempty (pnempty p) c in
  (* lines 97-101 *)
  do c <- foldM (fun c i =>
            do nd <- get (pnodes p) i;
            upd_node c i (fun x => mkNode (nid nd) (nstr nd) (nmod nd) (nprev x) (nnext x)))
          c (seq 0 (pN p));
  (* lines 104-108 *)
  do c <- foldM (fun c i =>
            do md <- get (pmods p) i;
            upd_mod c i (fun x => mkModule (mid md) (msize md) (mstr md) (mfirst x) (mlast x)))
          c (seq 0 (pM p));
  (* lines 111-120 *)
  do c <- foldM (fun c i =>
            do nd <- get (pnodes p) i;
            do nx <- copy_link p (nnext nd);
            do pv <- copy_link p (nprev nd);
            do c <- upd_node c i (set_nnext nx);
            upd_node c i (set_nprev pv))
          c (seq 0 (pN p));
  (* lines 121-130 *)
  foldM (fun c i =>
            do md <- get (pmods p) i;
            do fi <- copy_link p (mfirst md);
            do la <- copy_link p (mlast md);
            do c <- upd_mod c i (set_mfirst fi);
            upd_mod c i (set_mlast la))
          c (seq 0 (pM p)).

(** The C idiom [for (i = adj->idx[x]; i < adj->idx[x+1]; i++) body(i)]. *)
Definition row_fold {S} (adj : adja) (x : nat) (body : S -> nat -> res S) (s : S) : res S :=
  do a <- get (aidx adj) x;
  do b <- get (aidx adj) (x + 1);
  foldM body s (seq a (b - a)).

(** src/partition.c 264-270: first entry of the row of [x] that names [y], else 0. *)
Fixpoint find_edge (adj : adja) (y : nat) (is : list nat) : res A :=
  match is with
  | [] => Ok n0
  | i :: is' =>
      do k <- get (anb adj) i;
      if k =? y then get (astr adj) i else find_edge adj y is'
  end.
Definition edge_value (adj : adja) (x y : nat) : res A :=
  do a <- get (aidx adj) x;
  do b <- get (aidx adj) (x + 1);
  find_edge adj y (seq a (b - a)).

(** src/partition.c 248-286, PartitionModularity. *)
Definition PartitionModularity (p : partition) (adj : adja) (diagonal_term : bool) : res A :=
  let fuel := length (pnodes p) in
  do q <- foldM (fun q mod_ =>
      do md <- get (pmods p) mod_;
      walkM (fun _ i => next_of p i)
        (fun q i =>
           do nd1 <- get (pnodes p) i;
           walkM (fun _ j => next_of p j)
             (fun q j =>
                do nd2 <- get (pnodes p) j;
                do aij <- edge_value adj (nid nd1) (nid nd2);
                Ok (nadd q (nmul (nofnat 2) (nsub aij (nmul (nstr nd1) (nstr nd2))))))
             fuel (nnext nd1) q)
        fuel (mfirst md) q)
    n0 (seq 0 (pM p));
  if diagonal_term then
    foldM (fun q i => do nd <- get (pnodes p) i; Ok (nsub q (nmul (nstr nd) (nstr nd))))
          q (seq 0 (pN p))
  else Ok q.

(** src/partition.c 313-320: collect the ids of the empty modules and null their slots. *)
Definition compress_collect (p : partition) : res (list (option module) * list nat * nat) :=
  foldM (fun '(mods, eid, j) i =>
           do o <- get mods i;
           do md <- deref o;
           if msize md =? 0 then
             do eid' <- set eid j i;
             do mods' <- set mods i None;
             Ok (mods', eid', j + 1)
           else Ok (mods, eid, j))
        (map Some (pmods p), repeat 0 (pnempty p), 0) (seq 0 (pM p)).

(** src/partition.c 326-335, body of the descending loop for index [i].  The moved Module object is
    reachable from two slots until line 341; the upper one is dropped, so the model copies the object. *)
Definition compress_move (eid : list nat) (st : list (option module) * list node * nat) (i : nat)
  : res (list (option module) * list node * nat) :=
  let '(mods, nodes, j) := st in
  do o <- get mods i;
  match o with
  | None => Ok (mods, nodes, j)
  | Some md =>
      do nodes' <- walkM (fun nds c => do nd <- get nds c; Ok (nnext nd))
                    (fun nds c => do nd <- get nds c; do e <- get eid j; Ok (upd nds c (set_nmod e nd)))
                    (length nodes) (mfirst md) nodes;
      do e <- get eid j;
      do mods' <- set mods e (Some (set_mid e md));
      Ok (mods', nodes', j + 1)
  end.

(** src/partition.c 292-347, CompressPartition.  [i] is unsigned, so for M = 0 the test [i >= M] never fails
    and after i = 0 the loop reads modules[UINT_MAX].  A null slot copied at line 340
    would be dereferenced by the next user; the model reports it at once. *)
Definition CompressPartition (p : partition) : res partition :=
  if pnempty p =? 0 then Ok p else
  do _ <- check (pnempty p <=? pM p) Wrap;
  let M := pM p - pnempty p in
  do (mods, eid, _) <- compress_collect p;
  do (mods, nodes, _) <- foldM (compress_move eid) (mods, pnodes p, 0) (rev (seq M (pM p - M)));
  do _ <- check (0 <? M) UB_oob;
  do newm <- foldM (fun acc i => do o <- get mods i; do md <- deref o; Ok (acc ++ [md]))
               [] (seq 0 M);
  Ok (mkPart (pN p) M 0 newm nodes).

(** src/partition.c 173-178, strengthToModule: row-major table indexed [i + N*mod]. *)
Definition strength_table (p : partition) (adj : adja) : res (list A) :=
  let N := aN adj in let M := pM p in
  foldM (fun tab i =>
    row_fold adj i (fun tab j =>
      do k <- get (anb adj) j;
      do nd <- get (pnodes p) k;
      do old <- get tab (i + N * nmod nd);
      do s <- get (astr adj) j;
      set tab (i + N * nmod nd) (nadd old s)) tab)
    (repeat n0 (N * M)) (seq 0 N).

(** src/partition.c 182-210, within-module z-scores.  Division of the mean of an empty module (0/0)
    is whatever [ndiv] gives. *)
Definition connectivity_of (p : partition) (adj : adja) (tab : list A) : res (list A) :=
  let N := aN adj in let M := pM p in
  do mean <- foldM (fun mean i =>
      do nd <- get (pnodes p) i;
      do x <- get tab (i + N * nmod nd);
      do m <- get mean (nmod nd);
      set mean (nmod nd) (nadd m x)) (repeat n0 M) (seq 0 N);
  do mean <- foldM (fun mean j =>
      do md <- get (pmods p) j; do m <- get mean j;
      set mean j (ndiv m (nofnat (msize md)))) mean (seq 0 M);
  do std <- foldM (fun std i =>
      do nd <- get (pnodes p) i;
      do x <- get tab (i + N * nmod nd);
      do m <- get mean (nmod nd);
      do s <- get std (nmod nd);
      set std (nmod nd) (nadd s (nmul (nsub x m) (nsub x m)))) (repeat n0 M) (seq 0 N);
  do std <- foldM (fun std j =>
      do md <- get (pmods p) j; do s <- get std j;
      set std j (nsqrt (ndiv s (nofnat (msize md))))) std (seq 0 M);
  foldM (fun conn i =>
      do nd <- get (pnodes p) i;
      do x <- get tab (i + N * nmod nd);
      do m <- get mean (nmod nd);
      do s <- get std (nmod nd);
      set conn i (if neqb s n0 then n0 else ndiv (nsub x m) s))
    (repeat n0 N) (seq 0 N).

(** src/partition.c 213-230, participation; [init] is the caller's array on entry. *)
Definition participation_of (p : partition) (adj : adja) (tab : list A) (init : list A) : res (list A) :=
  let N := aN adj in let M := pM p in
  foldM (fun part i =>
      do a <- get (aidx adj) i;
      do b <- get (aidx adj) (i + 1);
      if a =? b then set part i n0
      else
        do (part, strength) <- foldM (fun '(part, strength) j =>
            do x <- get tab (i + N * j);
            do pi <- get part i;
            do part' <- set part i (nadd pi (nmul x x));
            Ok (part', nadd strength x)) (part, n0) (seq 0 M);
        do pi <- get part i;
        set part i (nsub n1 (ndiv pi (nmul strength strength))))
    init (seq 0 N).

(** src/partition.c 159-236, PartitionRolesMetrics; returns the two output arrays. *)
Definition PartitionRolesMetrics (p : partition) (adj : adja) (participation_in : list A)
  : res (list A * list A) :=
  do tab <- strength_table p adj;
  do conn <- connectivity_of p adj tab;
  do part <- participation_of p adj tab participation_in;
  Ok (conn, part).

(** src/partition.c 355-376, GetRole. *)
Definition GetRole (P z : A) : nat :=
  if nltb z (nofQ (5 # 2)%Q) then
    if nltb P (nofQ (5 # 100)%Q) then 0
    else if nltb P (nofQ (62 # 100)%Q) then 1
    else if nltb P (nofQ (8 # 10)%Q) then 2
    else 3
  else
    if nltb P (nofQ (3 # 10)%Q) then 4
    else if nltb P (nofQ (75 # 100)%Q) then 5
    else 6.

End Model.

Arguments adja : clear implicits.
Arguments node : clear implicits.
Arguments module : clear implicits.
Arguments partition : clear implicits.

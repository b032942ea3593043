(** HeapModel.v -- partitions as separate heap objects: allocation, deep copy, move, merge and free of src/partition.c and
    src/movements.c on a heap of addressed objects.  This is the level at which aliasing between two partitions can be
    expressed; HeapProof.v relates it to the array-of-objects model of PartModel.v and MoveModel.v. *)
From Coq Require Import List Arith Bool.
From Verif Require Import Base PartModel.
Import ListNotations.
Local Open Scope nat_scope.

Section Heap.
Context {A : Type} {ops : NumOps A}.

(** src/partition.h 60-91.  One heap object per malloc.  In a [CNode] or [CMod] the pointer fields (prev, next, first, last)
    hold addresses; a [CPart] holds N, M, nempty and the addresses of its two pointer arrays. *)
Inductive cell :=
| CNode (n : node A)
| CMod (m : module A)
| CArr (l : list nat)
| CPart (N M ne : nat) (nodes modules : nat)
| CFreed.

(** An address is a position in the heap; malloc appends (it never fails and never reuses an address). *)
Definition heap := list cell.
Definition malloc (c : cell) (h : heap) : nat * heap := (length h, h ++ [c]).

Definition h_get (h : heap) (a : nat) : res cell :=
  match nth_error h a with Some CFreed => Err UB_free | Some c => Ok c | None => Err UB_oob end.
Definition h_node (h : heap) (a : nat) : res (node A) :=
  do c <- h_get h a; match c with CNode n => Ok n | _ => Err UB_oob end.
Definition h_mod (h : heap) (a : nat) : res (module A) :=
  do c <- h_get h a; match c with CMod m => Ok m | _ => Err UB_oob end.
Definition h_arr (h : heap) (a : nat) : res (list nat) :=
  do c <- h_get h a; match c with CArr l => Ok l | _ => Err UB_oob end.
Definition h_part (h : heap) (a : nat) : res (nat * nat * nat * nat * nat) :=
  do c <- h_get h a; match c with CPart N M ne x y => Ok (N, M, ne, x, y) | _ => Err UB_oob end.
Definition h_upd_node (a : nat) (f : node A -> node A) (h : heap) : res heap :=
  do n <- h_node h a; Ok (upd h a (CNode (f n))).
Definition h_upd_mod (a : nat) (f : module A -> module A) (h : heap) : res heap :=
  do m <- h_mod h a; Ok (upd h a (CMod (f m))).
Definition h_set_nempty (r : nat) (v : nat) (h : heap) : res heap :=
  do (N, M, _, x, y) <- h_part h r; Ok (upd h r (CPart N M v x y)).

(** [part->nodes[i]] and [part->modules[m]]. *)
Definition h_nodeptr (h : heap) (r i : nat) : res nat :=
  do (_, _, _, x, _) <- h_part h r; do l <- h_arr h x; get l i.
Definition h_modptr (h : heap) (r m : nat) : res nat :=
  do (_, _, _, _, y) <- h_part h r; do l <- h_arr h y; get l m.
Definition h_nempty (h : heap) (r : nat) : res nat := do (_, _, ne, _, _) <- h_part h r; Ok ne.

(** src/partition.c 60-71 and 72-82: allocate the nodes and the modules; returns their addresses in order. *)
Fixpoint alloc_cells (cs : list cell) (h : heap) : list nat * heap :=
  match cs with
  | [] => ([], h)
  | c :: cs' => let '(a, h) := malloc c h in let '(l, h) := alloc_cells cs' h in (a :: l, h)
  end.

(** src/partition.c 44-84, CreatePartition.  The pointer arrays are filled while the objects are allocated; the model
    allocates the objects and then stores the arrays.  M > N overflows the array of module pointers. *)
Definition h_CreatePartition (N M : nat) (h : heap) : res (nat * heap) :=
  do _ <- check (M <=? N) UB_oob;
  let '(ns, h) := alloc_cells (map (fun i => CNode (mkNode i n0 0 None None)) (seq 0 N)) h in
  let '(ms, h) := alloc_cells (map (fun i => CMod (mkModule i 0 n0 None None)) (seq 0 M)) h in
  let '(x, h) := malloc (CArr ns) h in
  let '(y, h) := malloc (CArr ms) h in
  let '(r, h) := malloc (CPart N M M x y) h in
  Ok (r, h).

(** src/partition.c 112-129: [copy->nodes[part->...->id]] or NULL. *)
Definition h_copy_link (h : heap) (c : nat) (o : option nat) : res (option nat) :=
  match o with
  | None => Ok None
  | Some a => do n <- h_node h a; do b <- h_nodeptr h c (nid n); Ok (Some b)
  end.

(** src/partition.c 89-132, CopyPartitionStruct. *)
Definition h_CopyPartitionStruct (r : nat) (h : heap) : res (nat * heap) :=
  do (N, M, ne, _, _) <- h_part h r;
  do (c, h) <- h_CreatePartition N M h;
  do h <- h_set_nempty c ne h;
  do h <- foldM (fun h i =>
     do a <- h_nodeptr h r i; do n <- h_node h a; do b <- h_nodeptr h c i;
     h_upd_node b (fun x => mkNode (nid n) (nstr n) (nmod n) (nprev x) (nnext x)) h) h (seq 0 N);
  do h <- foldM (fun h i =>
     do a <- h_modptr h r i; do m <- h_mod h a; do b <- h_modptr h c i;
     h_upd_mod b (fun x => mkModule (mid m) (msize m) (mstr m) (mfirst x) (mlast x)) h) h (seq 0 M);
  do h <- foldM (fun h i =>
     do a <- h_nodeptr h r i; do n <- h_node h a; do b <- h_nodeptr h c i;
     do nx <- h_copy_link h c (nnext n);
     do h <- h_upd_node b (set_nnext nx) h;
     do pv <- h_copy_link h c (nprev n);
     h_upd_node b (set_nprev pv) h) h (seq 0 N);
  do h <- foldM (fun h i =>
     do a <- h_modptr h r i; do m <- h_mod h a; do b <- h_modptr h c i;
     do fi <- h_copy_link h c (mfirst m);
     do h <- h_upd_mod b (set_mfirst fi) h;
     do la <- h_copy_link h c (mlast m);
     h_upd_mod b (set_mlast la) h) h (seq 0 M);
  Ok (c, h).

(** src/movements.c 101-147, ChangeModule, statement by statement. *)
Definition h_ChangeModule (nodeId newId r : nat) (h : heap) : res heap :=
  do a <- h_nodeptr h r nodeId;
  do nd <- h_node h a;
  do om <- h_modptr h r (nmod nd);
  do nm <- h_modptr h r newId;
  do newm <- h_mod h nm;
  do h <- h_upd_node a (set_nmod (mid newm)) h;                              (* 111 *)
  do h <- h_upd_mod om (fun m => set_mstr (nsub (mstr m) (nstr nd)) m) h;    (* 114 *)
  do oldm <- h_mod h om;
  do sz <- dec (msize oldm);
  do h <- h_upd_mod om (set_msize sz) h;                                     (* 115 *)
  do h <- (if sz =? 0 then do ne <- h_nempty h r; h_set_nempty r (ne + 1) h else Ok h);   (* 116-119 *)
  do newm <- h_mod h nm;
  do h <- (if msize newm =? 0 then do ne <- h_nempty h r; do ne <- dec ne; h_set_nempty r ne h else Ok h);  (* 120-122 *)
  do h <- h_upd_mod nm (fun m => set_mstr (nadd (mstr m) (nstr nd)) m) h;    (* 123 *)
  do h <- h_upd_mod nm (fun m => set_msize (msize m + 1) m) h;               (* 124 *)
  do nd <- h_node h a;
  do h <- match nprev nd with                                                (* 130-133 *)
          | Some b => h_upd_node b (set_nnext (nnext nd)) h
          | None => h_upd_mod om (set_mfirst (nnext nd)) h
          end;
  do nd <- h_node h a;
  do h <- match nnext nd with                                                (* 134-137 *)
          | Some b => h_upd_node b (set_nprev (nprev nd)) h
          | None => h_upd_mod om (set_mlast (nprev nd)) h
          end;
  do newm <- h_mod h nm;
  do h <- h_upd_node a (set_nnext (mfirst newm)) h;                          (* 140 *)
  do h <- h_upd_node a (set_nprev None) h;                                   (* 141 *)
  do h <- match mfirst newm with                                             (* 142-145 *)
          | Some b => h_upd_node b (set_nprev (Some a)) h
          | None => h_upd_mod nm (set_mlast (Some a)) h
          end;
  h_upd_mod nm (set_mfirst (Some a)) h.                                      (* 146 *)

(** src/movements.c 160-199, MergeModules.  The walk over the smaller module visits at most as many nodes as there are
    heap objects. *)
Definition h_MergeModules (id1 id2 r : nat) (h : heap) : res heap :=
  do a1 <- h_modptr h r id1; do m1 <- h_mod h a1;
  do a2 <- h_modptr h r id2; do m2 <- h_mod h a2;
  if (msize m1 =? 0) || (msize m2 =? 0) then Ok h
  else
  let '(small, large) := if msize m2 <? msize m1 then (a2, a1) else (a1, a2) in
  do sm <- h_mod h small;
  do lg <- h_mod h large;
  do h <- walkM (fun h a => do n <- h_node h a; Ok (nnext n)) (fun h a => h_upd_node a (set_nmod (mid lg)) h)
            (length h) (mfirst sm) h;                                        (* 181-182 *)
  do ne <- h_nempty h r;
  do h <- h_set_nempty r (ne + 1) h;                                         (* 185 *)
  do sm <- h_mod h small;
  do h <- h_upd_mod large (fun m => set_msize (msize m + msize sm) m) h;     (* 188 *)
  do h <- h_upd_mod small (set_msize 0) h;                                   (* 189 *)
  do sm <- h_mod h small;
  do h <- h_upd_mod large (fun m => set_mstr (nadd (mstr m) (mstr sm)) m) h; (* 190 *)
  do h <- h_upd_mod small (set_mstr n0) h;                                   (* 191 *)
  do sm <- h_mod h small;
  do lg <- h_mod h large;
  do lf <- deref (mfirst lg);
  do h <- h_upd_node lf (set_nprev (mlast sm)) h;                            (* 194 *)
  do sl <- deref (mlast sm);
  do h <- h_upd_node sl (set_nnext (mfirst lg)) h;                           (* 195 *)
  do h <- h_upd_mod large (set_mfirst (mfirst sm)) h;                        (* 196 *)
  do h <- h_upd_mod small (set_mlast None) h;                                (* 197 *)
  h_upd_mod small (set_mfirst None) h.                                       (* 198 *)

(** free(a): the object must be live. *)
Definition h_free (a : nat) (h : heap) : res heap := do _ <- h_get h a; Ok (upd h a CFreed).

(** src/partition.c 137-148, FreePartition. *)
Definition h_FreePartition (r : nat) (h : heap) : res heap :=
  do (N, M, _, x, y) <- h_part h r;
  do h <- foldM (fun h i => do a <- h_nodeptr h r i; h_free a h) h (seq 0 N);
  do h <- foldM (fun h i => do a <- h_modptr h r i; h_free a h) h (seq 0 M);
  do h <- h_free x h;
  do h <- h_free y h;
  h_free r h.
End Heap.
Arguments cell : clear implicits.
Arguments heap : clear implicits.

(** BfsModel.v -- model of the breadth-first lists of src/graph.c and of the routines built on them.

    The list is the Gallina list of its entries; the header is position "before the first".  A pointer to an entry is its
    position, and entries are only added at the end.  [None] stands for a pointer to the header.  The field [last] of the
    header always points to the last entry. *)
From Coq Require Import List Arith Bool QArith.
From Verif Require Import Base IoModel GraphModel.
Import ListNotations.
Local Open Scope nat_scope.

(** src/graph.h 64-81, struct node_bfs and struct pred. *)
Record bent := mkB { bd : nat; bref : nat; bpred : list (option nat) }.
Record bfs := mkQ { bq : list bent; bsize : nat }.

Section Bfs.
Context {A : Type} {ops : NumOps A}.

(** src/graph.c 83-97, CreateHeaderList. *)
Definition CreateHeaderList : bfs := mkQ [] 0.

(** src/graph.c 1021-1034, GetBFS: the position of the first entry for [node] from position [pos] on. *)
Fixpoint GetBFS (node pos : nat) (l : list bent) : option nat :=
  match l with
  | [] => None
  | e :: l' => if bref e =? node then Some pos else GetBFS node (pos + 1) l'
  end.

(** src/graph.c 1039-1050, AddPredecessor. *)
Definition AddPredecessor (q : bfs) (x : nat) (p : option nat) : res bfs :=
  do e <- get (bq q) x;
  do l <- set (bq q) x (mkB (bd e) (bref e) (bpred e ++ [p]));
  Ok (mkQ l (bsize q)).

(** src/graph.c 1086-1122, Enqueue. *)
Definition Enqueue (st : net A * bfs) (node : nat) (predecessor : option nat) (dist : nat) : res (net A * bfs) :=
  let '(g, q) := st in
  do n <- get g node;
  if gstate n =? 0 then
    do g <- set g node (set_gstate 1 n);
    Ok (g, mkQ (bq q ++ [mkB dist node [predecessor]]) (bsize q + 1))
  else
    let start := match predecessor with None => 0 | Some x => x end in
    match GetBFS node start (skipn start (bq q)) with
    | None => Ok (g, q)
    | Some x =>
        do e <- get (bq q) x;
        if bd e =? dist then do q <- AddPredecessor q x predecessor; Ok (g, q) else Ok (g, q)
    end.

(** src/graph.c 1127-1137, EnqueueAdjaList; [lp] is the position of an entry. *)
Definition EnqueueAdjaList (st : net A * bfs) (lp : nat) (d : nat) : res (net A * bfs) :=
  let '(g, q) := st in
  do e <- get (bq q) lp;
  do n <- get g (bref e);
  foldM (fun st l => do k <- deref (lref l); Enqueue st k (Some lp) d) (g, q) (gadj n).

(** src/graph.c 1205-1216, RenewQueue.  [lp] counts the entries up to and including the one pointed to, so it is also the
    position of the next one.  Fuel: one unit per entry. *)
Fixpoint RenewQueue (fuel : nat) (st : net A * bfs) (lp d : nat) : res (net A * bfs * nat) :=
  match fuel with
  | 0 => Err Diverge
  | S f =>
      match nth_error (bq (snd st)) lp with
      | None => Ok (st, lp)
      | Some e =>
          if bd e =? d then do st <- EnqueueAdjaList st lp (d + 1); RenewQueue f st (lp + 1) d
          else Ok (st, lp)
      end
  end.

(** src/graph.c 1179-1200 and 1221-1229, Dequeue and ClearList: all entries are released and uncounted. *)
Definition ClearList (q : bfs) : res bfs := do k <- foldM (fun k _ => dec k) (bsize q) (bq q); Ok (mkQ [] k).

(** The loop shared by lines 1644-1651, 1709-1716 and 2451-2455: the layers are added one by one until none is new.
    [act d k] is done after each layer, with [d] already incremented and [k] new nodes.  Returns the last [size_ant]. *)
Fixpoint layers {S} (act : S -> nat -> nat -> res S) (fuel : nat) (s : S) (st : net A * bfs) (lp d : nat)
  : res (S * (net A * bfs) * nat) :=
  match fuel with
  | 0 => Err Diverge
  | Datatypes.S f =>
      let size_ant := bsize (snd st) in
      do (st, lp) <- RenewQueue (length (fst st) + 1) st lp d;
      let d := d + 1 in
      do s <- (if bsize (snd st) =? size_ant then Ok s else act s d (bsize (snd st) - size_ant));
      if bsize (snd st) =? size_ant then Ok (s, st, size_ant) else layers act f s st lp d
  end.

(** src/graph.c 2432-2465, IsGraphConnected.  The empty network dereferences a null pointer. *)
Definition IsGraphConnected (g : net A) : res (bool * net A) :=
  let N := CountNodes g in
  let g := ResetNodesState g in
  do _ <- check (negb (N =? 0)) UB_null;
  do st <- Enqueue (g, CreateHeaderList) 0 None 0;
  do (_, st, size_ant) <- layers (fun s _ _ => Ok s) (N + 1) tt st 0 0;
  do _ <- ClearList (snd st);
  Ok (size_ant =? N, fst st).

(** The size of the histograms: 10000. *)
Definition HIST : nat := 100 * 100.

(** [histogram[d] += (double)k / (double)nodes]. *)
Definition hist_add (nodes : nat) (h : list A) (d k : nat) : res (list A) :=
  do x <- get h d; set h d (nadd x (ndiv (nofnat k) (nofnat nodes))).

(** src/graph.c 1635-1664: the histogram of distances from every node, [None] if some node is not reached from another one
    and [all] is set. *)
Definition histograms (all : bool) (g : net A) : res (option (list A) * net A) :=
  let nodes := CountNodes g in
  do (h, g, _) <- foldM (fun '(h, g, q) i =>
    match h with
    | None => Ok (None, g, q)
    | Some h =>
        let g := ResetNodesState g in
        do st <- Enqueue (g, q) i None 0;
        do (h, st, _) <- layers (hist_add nodes) (nodes + 1) h st 0 0;
        let full := bsize (snd st) =? nodes in
        do q <- ClearList (snd st);
        if all && negb full then Ok (None, fst st, q) else Ok (Some h, fst st, q)
    end) (Some (repeat n0 HIST), g, CreateHeaderList) (seq 0 nodes);
  Ok (h, g).

(** src/graph.c 1615-1674, AveragePathLength. *)
Definition AveragePathLength (g : net A) : res (A * net A) :=
  let nodes := CountNodes g in
  do (oh, g) <- histograms true g;
  match oh with
  | None => Ok (nofQ (-1 # 1), g)
  | Some h =>
      do av <- foldM (fun av i =>
        do x <- get h i;
        if neqb x n0 then Ok av else Ok (nadd av (ndiv (nmul (nofnat i) x) (nofnat (nodes - 1))))) n0 (seq 0 HIST);
      Ok (av, g)
  end.

(** src/graph.c 1680-1733, AverageInverseDistance.  The product i * (nodes - 1) is taken without overflow. *)
Definition AverageInverseDistance (g : net A) : res (A * net A) :=
  let nodes := CountNodes g in
  do (oh, g) <- histograms false g;
  match oh with
  | None => Err Diverge (* not reached: without [all] there is always a histogram *)
  | Some h =>
      do av <- foldM (fun av i =>
        do x <- get h i;
        if neqb x n0 then Ok av else Ok (nadd av (ndiv x (nofnat (i * (nodes - 1)))))) n0 (seq 0 HIST);
      Ok (av, g)
  end.
End Bfs.

(** StatModel.v -- model of the statistics of networks in src/graph.c: degrees, clustering, assortativity.

    Counts are ints in C; they are natural numbers here (no overflow).  Releasing the lists is left out where nothing is
    read afterwards. *)
From Coq Require Import List Arith Bool QArith.
From Verif Require Import Base IoModel GraphModel BfsModel.
Import ListNotations.
Local Open Scope nat_scope.

Section Stat.
Context {A : Type} {ops : NumOps A}.

(** src/graph.c 1406-1415, AverageDegree. *)
Definition AverageDegree (g : net A) (symmetric : bool) : res (A * net A) :=
  do (t, g) <- TotalNLinks g symmetric;
  Ok (ndiv (nofnat (if symmetric then 2 * t else t)) (nofnat (CountNodes g)), g).

(** src/graph.c 1424-1438, AverageSquaredDegree.  The division is one of ints. *)
Definition AverageSquaredDegree (g : net A) : res (A * net A) :=
  do (k2sum, g) <- foldM (fun '(t, g) i => do (k, g) <- NodeDegree g i; Ok (t + k * k, g)) (0, g) (seq 0 (length g));
  do _ <- check (negb (length g =? 0)) DivZero;
  Ok (nofnat (Nat.div k2sum (length g)), g).

(** src/graph.c 1179-1200, Dequeue: the first entry leaves the list.  The predecessors of the others, which would count positions
    from the old start, are not used afterwards. *)
Definition Dequeue (q : bfs) : res (nat * bfs) :=
  match bq q with
  | [] => Err UB_null
  | e :: l => do k <- dec (bsize q); Ok (bref e, mkQ l k)
  end.

(** src/graph.c 1066-1081, CountPredecessors.  The header has no node. *)
Definition CountPredecessors (e : bent) : nat := match bpred e with None :: _ => 0 | l => length l end.

(** src/graph.c 1739-1753, SumCommonLinks. *)
Definition SumCommonLinks (g : net A) (i : nat) : res nat :=
  do n <- get g i;
  foldM (fun sum l => do j <- deref (lref l); do m <- get g j; Ok (if gstate m =? 1 then sum + 1 else sum)) 0 (gadj n).

(** src/graph.c 1758-1769, CalculateLinksBetweenNeig. *)
Definition CalculateLinksBetweenNeig (q : bfs) (g : net A) : res nat :=
  foldM (fun sum e => do k <- SumCommonLinks g (bref e); Ok (sum + k)) 0 (bq q).

(** src/graph.c 1797-1803, 1844-1850 and 1961-1967: the neighbours of node [i] are marked and listed. *)
Definition neig_list (st : net A * bfs) (i : nat) : res (net A * bfs) :=
  let '(g, q) := st in
  do st <- Enqueue (ResetNodesState g, q) i None 0;
  do (st, _) <- RenewQueue (length g + 1) st 0 0;
  do (_, q) <- Dequeue (snd st);
  Ok (fst st, q).

(** src/graph.c 1775-1816, ClusteringCoefficient. *)
Definition ClusteringCoefficient (g : net A) : res (A * net A) :=
  do (c, nodes, g, _) <- foldM (fun '(c, nodes, g, q) i =>
    do (g, q) <- neig_list (g, q) i;
    let k := bsize q in
    do (c, nodes, g) <-
      (if 1 <? k then
         do g <- upd_node g i (set_gstate 0);
         do cv <- CalculateLinksBetweenNeig q g;
         Ok (nadd c (ndiv (nofnat cv) (nofnat (k * (k - 1)))), nodes, g)
       else Ok (c, nodes - 1, g));
    do q <- ClearList q;
    Ok (c, nodes, g, q)) (n0, CountNodes g, g, CreateHeaderList) (seq 0 (CountNodes g));
  Ok (ndiv c (nofnat nodes), g).

(** src/graph.c 1823-1863, ClusteringCoefficient2. *)
Definition ClusteringCoefficient2 (g : net A) : res (A * net A) :=
  do (tri, ctr, g, _) <- foldM (fun '(tri, ctr, g, q) i =>
    do (g, q) <- neig_list (g, q) i;
    let k := bsize q in
    do (tri, ctr, g) <-
      (if 1 <? k then
         do g <- upd_node g i (set_gstate 0);
         do cv <- CalculateLinksBetweenNeig q g;
         Ok (tri + cv, ctr + k * (k - 1), g)
       else Ok (tri, ctr, g));
    do q <- ClearList q;
    Ok (tri, ctr, g, q)) (0, 0, g, CreateHeaderList) (seq 0 (CountNodes g));
  Ok (ndiv (nofnat tri) (nofnat ctr), g).

(** src/graph.c 1946-1979, OneNodeClusteringCoefficient. *)
Definition OneNodeClusteringCoefficient (g : net A) (i : nat) : res (A * net A) :=
  do (g, q) <- neig_list (g, CreateHeaderList) i;
  let k := bsize q in
  if 1 <? k then
    do g <- upd_node g i (set_gstate 0);
    do cv <- CalculateLinksBetweenNeig q g;
    Ok (ndiv (nofnat cv) (nmul (nofnat k) (nofnat (k - 1))), g)
  else Ok (nofQ (-1 # 1), g).

(** src/graph.c 1905-1909 and 2019-2022: past the entries at distance less than 2, counting them. *)
Fixpoint first_neighbors (l : list bent) (k1 : nat) : res (list bent * nat) :=
  match l with
  | [] => Err UB_null
  | e :: l' => if bd e <? 2 then first_neighbors l' (k1 + 1) else Ok (l, k1)
  end.

(** src/graph.c 1903-1922 and 2016-2031: the numbers of first and second neighbours, and the count of squares.
    [(list->next)->next] is the entry after the first. *)
Definition square_counts (q : bfs) : res (nat * nat * nat) :=
  match bq q with
  | [] => Err UB_null
  | _ :: l =>
      do (pl, k1) <- first_neighbors l 0;
      let '(k2, cv) := fold_left (fun '(k2, cv) e => let npre := CountPredecessors e in (k2 + 1, cv + npre * (npre - 1))) pl (0, 0) in
      Ok (k1, k2, cv)
  end.

(** src/graph.c 1869-1941, SquareClustering.  Printing is left out. *)
Definition SquareClustering (g : net A) : res (A * net A) :=
  let totnodes := CountNodes g in
  do r <- foldM (fun r i =>
    match r with
    | (Some _, _, _, _, _) => Ok r
    | (None, c, nodes, g, q) =>
        do st <- Enqueue (ResetNodesState g, q) i None 0;
        if bsize (snd st) <? totnodes then
          do (st, lp) <- RenewQueue (length g + 1) st 0 0;
          do (c, nodes, st) <-
            (if bsize (snd st) <? totnodes then
               do (st, lp) <- RenewQueue (length g + 1) st lp 1;
               do (k1, k2, cv) <- square_counts (snd st);
               if 1 <? k1 then Ok (nadd c (ndiv (nofnat cv) (nofnat (k2 * k1 * (k1 - 1)))), nodes, st)
               else Ok (c, nodes - 1, st)
             else Ok (c, nodes - 1, st));
          do q <- ClearList (snd st);
          Ok (None, c, nodes, fst st, q)
        else Ok (Some (nofQ (-1 # 1)), c, nodes, fst st, snd st)
    end) (None, n0, totnodes, g, CreateHeaderList) (seq 0 totnodes);
  let '(ret, c, nodes, g, _) := r in
  match ret with Some x => Ok (x, g) | None => Ok (ndiv c (nofnat nodes), g) end.

(** src/graph.c 1984-2046, OneNodeSquareClustering. *)
Definition OneNodeSquareClustering (g : net A) (i : nat) : res (A * net A) :=
  do (k, g) <- NodeDegree g i;
  if k =? 0 then Ok (nofQ (-1 # 1), g)
  else
  do st <- Enqueue (ResetNodesState g, CreateHeaderList) i None 0;
  do (st, lp) <- RenewQueue (length g + 1) st 0 0;
  let sizeant := bsize (snd st) in
  do (st, lp) <- RenewQueue (length g + 1) st lp 1;
  if bsize (snd st) =? sizeant then Ok (nofQ (-3 # 1), fst st)
  else
  do (k1, k2, cv) <- square_counts (snd st);
  if k1 <=? 1 then Ok (nofQ (-2 # 1), fst st)
  else Ok (ndiv (nofnat cv) (nmul (nmul (nofnat k2) (nofnat k1)) (nofnat (k1 - 1))), fst st).

(** src/graph.c 2364-2409, Assortativity. *)
Definition Assortativity (g : net A) : res (A * net A) :=
  do (deg, M, g) <- foldM (fun '(deg, M, g) i =>
    do n <- get g i;
    do (k, g) <- NodeDegree g i;
    do deg <- set deg (gnum n) k;
    Ok (deg, M + k, g)) (repeat 0 (CountNodes g), 0, g) (seq 0 (CountNodes g));
  do (jk, jpk, j2pk2) <- foldM (fun acc n =>
    foldM (fun '(jk, jpk, j2pk2) l =>
      do j <- deref (lref l);
      do m <- get g j;
      do x <- get deg (gnum n);
      do y <- get deg (gnum m);
      Ok (jk + x * y, jpk + (x + y), j2pk2 + (x * x + y * y))) acc (gadj n)) (0, 0, 0) g;
  let mu := ndiv (nofnat jpk) (nofnat (2 * M)) in
  Ok (ndiv (nsub (ndiv (nofnat jk) (nofnat M)) (nmul mu mu)) (nsub (ndiv (nofnat j2pk2) (nofnat (2 * M))) (nmul mu mu)), g).

(** src/graph.c 2414-2426, CalculateKnn. *)
Definition CalculateKnn (g : net A) (i : nat) : res (A * net A) :=
  do n <- get g i;
  do (tot, k, g) <- foldM (fun '(tot, k, g) l =>
    do j <- deref (lref l);
    do (d, g) <- NodeDegree g j;
    Ok (tot + d, k + 1, g)) (0, 0, g) (gadj n);
  Ok (ndiv (nofnat tot) (nofnat k), g).
End Stat.

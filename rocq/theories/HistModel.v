(** HistModel.v -- src/graph.c: the printed histograms of distances. *)
From Coq Require Import List Arith Bool QArith.
From Verif Require Import Base IoModel GraphModel BfsModel.
Import ListNotations.
Local Open Scope nat_scope.

Section Hist.
Context {A : Type} {ops : NumOps A}.

(** src/graph.c 1531-1537 and 1593-1600: a row for every entry that is not 0, the average and the sum; [nodes - 1] is 0 for the empty network, which has no
    rows. *)
Definition hist_row (nodes : nat) (h : list A) (st : list (nat * A) * A * A) (i : nat) : res (list (nat * A) * A * A) :=
  let '(rows, av, norm) := st in
  do x <- get h i;
  if neqb x n0 then Ok st
  else
    let f := ndiv x (nofnat (nodes - 1)) in
    Ok (rows ++ [(i, f)], nadd av (ndiv (nmul (nofnat i) x) (nofnat (nodes - 1))), nadd norm f).
(** src/graph.c 1483-1545, FPrintDistanceHistogram.  The result is what is printed: the rows, the average distance, the normalisation and z.  The
    progress that goes to the standard output and the table of pairs, which is not used, are left out. *)
Definition FPrintDistanceHistogram (g : net A) : res (list (nat * A) * A * A * A * net A) :=
  let nodes := CountNodes g in
  do (oh, g) <- histograms false g;
  match oh with
  | None => Err Diverge (* not reached: without [all] there is always a histogram *)
  | Some h =>
      do (rows, av, norm) <- foldM (hist_row nodes h) ([], n0, n0) (seq 0 HIST);
      do z <- get h 1;
      Ok (rows, av, norm, z, g)
  end.
(** [histogram[d] += (double)k]. *)
Definition hist_plus (h : list A) (d k : nat) : res (list A) := do x <- get h d; set h d (nadd x (nofnat k)).
(** src/graph.c 1550-1608, FPrintDistanceHistogramFromNode.  The result is what is printed: the average distance and z. *)
Definition FPrintDistanceHistogramFromNode (g : net A) (orinode : nat) : res (A * A * net A) :=
  let nodes := CountNodes g in
  do (h, g, _) <- foldM (fun '(h, g, q) i =>
      do n <- get g i;
      if gnum n =? orinode then
        let g := ResetNodesState g in
        do st <- Enqueue (g, q) i None 0;
        do (h, st, _) <- layers hist_plus (nodes + 1) h st 0 0;
        do q <- ClearList (snd st);
        Ok (h, fst st, q)
      else Ok (h, g, q)) (repeat n0 HIST, g, CreateHeaderList) (seq 0 nodes);
  do (rows, av, norm) <- foldM (hist_row nodes h) ([], n0, n0) (seq 0 HIST);
  do z <- get h 1;
  Ok (av, z, g).
End Hist.

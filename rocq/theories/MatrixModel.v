(** MatrixModel.v -- model of src/matrix.c: adjacency and Laplacian matrices.  The spectrum (calls into GSL) is left out. *)
From Coq Require Import List Arith ZArith.
From Verif Require Import Base MatLib IoModel GraphModel.
Import ListNotations.
Local Open Scope nat_scope.

Section Matrix.
Context {A : Type} {ops : NumOps A}.

(** src/matrix.c 22-46, AdjacencyMat. *)
Definition AdjacencyMat (g : net A) : res (list (list Z)) :=
  let nnod := CountNodes g in
  let m := repeat (repeat 0%Z nnod) nnod in
  foldM (fun m i =>
    do p <- get g i;
    foldM (fun m l => do k <- deref (lref l); do r <- get g k; set2 m (gnum p) (gnum r) 1%Z) m (gadj p)) m (seq 0 nnod).

(** src/matrix.c 51-79, LaplacianMat.  The null result for a network with self links is [None]. *)
Definition LaplacianMat (g : net A) : res (option (list (list Z)) * net A) :=
  let nnod := CountNodes g in
  do m <- AdjacencyMat g;
  foldM (fun '(om, g) i =>
    match om with
    | None => Ok (None, g)
    | Some m =>
        do x <- get2 m i i;
        if (0 <? x)%Z then Ok (None, g)
        else
        do (k, g) <- NodeDegree g i;
        do m <- set2 m i i (Z.of_nat k);
        do m <- foldM (fun m j =>
          do x <- get2 m i j;
          do m <- set2 m i j (- x)%Z;
          do y <- get2 m j i;
          set2 m j i (- y)%Z) m (seq (i + 1) (nnod - (i + 1)));
        Ok (Some m, g)
    end) (Some m, g) (seq 0 nnod).
End Matrix.

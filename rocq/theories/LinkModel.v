(** LinkModel.v -- model of RemoveRandomLinks and AddRandomLinks (src/graph.c).

    gsl_rng_uniform_int(gen, n) returns an index below n; the model takes the list of returned indices as input. *)
From Coq Require Import List Arith Bool.
From Verif Require Import Base Num GraphModel.
Import ListNotations.
Local Open Scope nat_scope.

Section Link.
Context {A : Type} {ops : NumOps A}.
Notation one := (@n1 A ops).

(** src/graph.c 938-941: draw until a link is hit that is not marked yet. *)
Fixpoint mark_one (tl : list bool) (ds : list nat) : res (list bool * list nat) :=
  match ds with
  | [] => Err RngOut
  | n1 :: ds =>
      do b <- get tl n1;
      if b then mark_one tl ds else do tl <- set tl n1 true; Ok (tl, ds)
  end.

(** src/graph.c 948-964, the links of node [p]; [k] is the number of links before the one looked at (n->next), [cnt] is linkCounter. *)
Fixpoint remove_marked (fuel : nat) (tl : list bool) (symmetric : bool) (p k cnt : nat) (g : net A) : res (nat * net A) :=
  do n <- get g p;
  match nth_error (gadj n) k with
  | None => Ok (cnt, g)
  | Some l =>
      match fuel with
      | O => Err Diverge
      | S fuel =>
          do j <- deref (lref l);
          do m <- get g j;
          if (gnum n <=? gnum m) || negb symmetric then
            do b <- get tl cnt;
            if b then do g <- RemoveLink g p j symmetric; remove_marked fuel tl symmetric p k (cnt + 1) g
            else remove_marked fuel tl symmetric p (k + 1) (cnt + 1) g
          else remove_marked fuel tl symmetric p (k + 1) cnt g
      end
  end.

(** src/graph.c 920-968, RemoveRandomLinks.  The fuel of the loop over the links of a node is the number of its links. *)
Definition RemoveRandomLinks (g : net A) (nLinks : nat) (symmetric : bool) (ds : list nat) : res (net A * list nat) :=
  do (total, g) <- TotalNLinks g symmetric;
  do (tl, ds) <- foldM (fun '(tl, ds) _ => mark_one tl ds) (repeat false total, ds) (seq 0 nLinks);
  do (_, g) <- foldM (fun '(cnt, g) p => do n <- get g p; remove_marked (length (gadj n)) tl symmetric p 0 cnt g) (0, g) (seq 0 (length g));
  Ok (g, ds).

(** src/graph.c 996-1001: draw two nodes until they are different and not linked; link them. *)
Fixpoint add_one (nlist : list (option nat)) (g : net A) (ds : list nat) : res (net A * list nat) :=
  match ds with
  | n1 :: n2 :: ds =>
      do v1 <- get nlist n1;
      do v2 <- get nlist n2;
      do again <- (if n1 =? n2 then Ok true else do i <- deref v1; do j <- deref v2; IsThereLink g i j);
      if again then add_one nlist g ds
      else
        do i <- deref v1;
        do j <- deref v2;
        do (_, g) <- AddAdjacency g i j false false one 0;
        do (_, g) <- AddAdjacency g j i false false one 0;
        Ok (g, ds)
  | _ => Err RngOut
  end.

(** src/graph.c 975-1007, AddRandomLinks.  The argument symmetric_sw is not used. *)
Definition AddRandomLinks (g : net A) (nLinks : nat) (symmetric : bool) (ds : list nat) : res (net A * list nat) :=
  do nlist <- foldM (fun nl p => do n <- get g p; set nl (gnum n) (Some p)) (repeat None (CountNodes g)) (seq 0 (length g));
  foldM (fun '(g, ds) _ => add_one nlist g ds) (g, ds) (seq 0 nLinks).
End Link.

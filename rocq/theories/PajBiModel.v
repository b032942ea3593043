(** PajBiModel.v -- src/bipartite.c: two-sided networks in Pajek format. *)
From Coq Require Import List Arith Bool Ascii.
From Verif Require Import Base IoModel GraphModel NetModel BipartModel.
Import ListNotations.
Local Open Scope nat_scope.

Section PajBi.
Context {A : Type} {ops : NumOps A}.

(** The lines of the file: the number of vertices, the number of those on the first side, a number and a label for each vertex, and two numbers and perhaps a weight for each link. *)
Record pajek2 := mkPaj2 { p2_count : nat; p2_first : nat; p2_nodes : list (nat * label); p2_links : list (nat * nat * option A) }.
(** src/bipartite.c 763-785: the nodes of one side; [shift] is 0 or S1. *)
Definition pajek2_nodes (g : net A) (shift : nat) (s : list nat) : res (list (nat * label)) :=
  mapM (fun i => do n <- get g i; Ok (gnum n + shift + 1, glabel n)) s.
(** src/bipartite.c 792-802: the links of one node of the first side. *)
Definition pajek2_rows (g : net A) (S1 : nat) (weighted : bool) (i : nat) : res (list (nat * nat * option A)) :=
  do n <- get g i;
  mapM (fun l => do j <- deref (lref l); do m <- get g j; Ok (gnum n + 1, gnum m + S1 + 1, if weighted then Some (lweight l) else None)) (gadj n).
(** src/bipartite.c 742-807, FPrintPajekFileBipart.  The coordinates are not modelled (coor_sw is 0); the file can be opened; the conversion of the numbers to text is not modelled. *)
Definition FPrintPajekFileBipart (b : binet A) (weighted : bool) : res pajek2 :=
  let S1 := length (bset1 b) in
  let S2 := length (bset2 b) in
  do nodes1 <- pajek2_nodes (bmem b) 0 (bset1 b);
  do nodes2 <- pajek2_nodes (bmem b) S1 (bset2 b);
  do rows <- mapM (pajek2_rows (bmem b) S1 weighted) (bset1 b);
  Ok (mkPaj2 (S1 + S2) S1 (nodes1 ++ nodes2) (concat rows)).
End PajBi.
Arguments pajek2 : clear implicits.

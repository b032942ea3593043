(** PajModel.v -- src/graph.c: networks in Pajek format and the list of degrees. *)
From Coq Require Import List Arith Bool Ascii.
From Verif Require Import Base IoModel GraphModel NetModel.
Import ListNotations.
Local Open Scope nat_scope.

Section Paj.
Context {A : Type} {ops : NumOps A}.

(** The lines of a file in Pajek format: the number of vertices, a number and a label for each, the title Arcs or Edges, and two numbers and perhaps a weight for each link. *)
Record pajek := mkPaj { pj_count : nat; pj_nodes : list (nat * label); pj_arcs : bool; pj_links : list (nat * nat * option A) }.
(** src/graph.c 706-720: the links of one node. *)
Definition pajek_rows (g : net A) (weighted symmetric : bool) (i : nat) : res (list (nat * nat * option A)) :=
  do n <- get g i;
  do rows <- mapM (fun l =>
    do j <- deref (lref l);
    do m <- get g j;
    Ok (if negb symmetric || (gnum n <=? gnum m) then [(gnum n + 1, gnum m + 1, if weighted then Some (lweight l) else None)] else [])) (gadj n);
  Ok (concat rows).
(** src/graph.c 672-727, FPrintPajekFile.  The coordinates of the nodes are not modelled (coor_sw is 0); the file can be opened; the conversion of the numbers to text is not modelled. *)
Definition FPrintPajekFile (g : net A) (weighted symmetric : bool) : res pajek :=
  do rows <- mapM (pajek_rows g weighted symmetric) (seq 0 (length g));
  Ok (mkPaj (CountNodes g) (map (fun n => (gnum n + 1, glabel n)) g) (negb symmetric) (concat rows)).
(** src/graph.c 623-628, FPrintDegrees: the label and the degree of each node; degrees are cached. *)
Definition FPrintDegrees (g : net A) : res (list (label * nat) * net A) :=
  foldM (fun '(out, g) i => do n <- get g i; do (d, g) <- NodeDegree g i; Ok (out ++ [(glabel n, d)], g)) ([], g) (seq 0 (length g)).
End Paj.
Arguments pajek : clear implicits.

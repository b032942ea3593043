(** NodeModel.v -- src/bipartite.c: removing a node; statistics of the participation coefficients. *)
From Coq Require Import List Arith ZArith Bool QArith.
From Verif Require Import Base Num IoModel GraphModel GroupModel NetModel ToolsModel BipartModel.
Import ListNotations.
Local Open Scope nat_scope.

Section Node.
Context {A : Type} {ops : NumOps A}.
Implicit Types (g : net A) (b : binet A).

(** src/bipartite.c 390-392: walk to the node with the label; running off the list dereferences a null pointer. *)
Fixpoint find_label g (lab : label) (s : list nat) (k : nat) : res nat :=
  match s with
  | [] => Err UB_null
  | i :: s' => do n <- get g i; if label_eqb (glabel n) lab then Ok k else find_label g lab s' (k + 1)
  end.
(** src/bipartite.c 395-399: remove the first link until there is none.  What is printed is left out, with the degree that
    NodeDegree stores in the node that is about to go. *)
Fixpoint unlink_all (fuel : nat) (p : nat) g : res (net A) :=
  match fuel with
  | 0 => Err Diverge
  | S f =>
      do n <- get g p;
      match gadj n with
      | [] => Ok g
      | l :: _ => do j <- deref (lref l); do g <- RemoveLink g p j true; unlink_all f p g
      end
  end.
(** src/bipartite.c 406-412: renumber the nodes of the list. *)
Definition renumber g (s : list nat) : res (net A) :=
  do (g, _) <- foldM (fun '(g, c) i => do g <- upd_node g i (set_gnum c); Ok (g, c + 1)) (g, 0) s;
  Ok g.
(** src/bipartite.c 415-424: the numbers in the links of the other list. *)
Definition relink1 g (l : link A) : res (link A) :=
  do j <- deref (lref l);
  do m <- get g j;
  Ok (mkLink (gnum m) (llabel l) (lstatus l) (lref l) (lbtw l) (lweight l)).
Definition relink g (s : list nat) : res (net A) :=
  foldM (fun g i => do n <- get g i; do ls <- mapM (relink1 g) (gadj n); set g i (set_gadj ls n)) g s.
(** src/bipartite.c 402-403: the node is released.  The memory of the model holds the nodes of the two lists and nothing else: the cell
    goes, and the places after it move down by one. *)
Definition drop {B} (k : nat) (l : list B) : list B := firstn k l ++ skipn (k + 1) l.
Definition down (p i : nat) : nat := if i <? p then i else i - 1.
Definition set_lref (r : option nat) (l : link A) : link A := mkLink (lnode l) (llabel l) (lstatus l) r (lbtw l) (lweight l).
Definition free_node (p : nat) g : net A :=
  map (fun n => set_gadj (map (fun l => set_lref (option_map (down p) (lref l)) l) (gadj n)) n) (drop p g).

(** src/bipartite.c 378-427, RemoveNodeBipart.  [first]: set is 1; the node is released at the end and not before the renumbering, which does not
    touch it. *)
Definition remove_side g (lab : label) (s o : list nat) : res (net A * list nat * list nat) :=
  do k <- find_label g lab s 0;
  do p <- get s k;
  do n <- get g p;
  do g <- unlink_all (length (gadj n) + 1) p g;
  let s := drop k s in
  do g <- renumber g s;
  do g <- relink g o;
  Ok (free_node p g, map (down p) s, map (down p) o).
Definition RemoveNodeBipart b (lab : label) (first : bool) : res (binet A) :=
  if first then do (g, s, o) <- remove_side (bmem b) lab (bset1 b) (bset2 b); Ok (mkBi g s o)
  else do (g, s, o) <- remove_side (bmem b) lab (bset2 b) (bset1 b); Ok (mkBi g o s).

(** src/bipartite.c 1072-1101, StatisticsParticipationCoefficientBipart of the list [side]: mean, standard deviation, minimum and maximum.
    The entries of a new table are not set: [None]. *)
Definition set_yet (o : option A) : res A := match o with Some x => Ok x | None => Err UB_uninit end.
Definition StatisticsParticipationCoefficientBipart g (side : list nat) : res (A * A * A * A) :=
  let N := length side in
  do ps <- foldM (fun ps i => do n <- get g i; do P <- ParticipationCoefficientBipart g side i; set ps (gnum n) (Some P)) (repeat None N) side;
  do ps <- mapM set_yet ps;
  do m <- mean ps N;
  do s <- stddev ps N;
  do mi <- min_d ps N;
  do ma <- max_d ps N;
  Ok (m, s, mi, ma).
End Node.

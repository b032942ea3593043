(** GraphModel.v -- model of src/graph.c, construction and inspection of networks.

    A network is the list of its nodes in the order of the C list (the header node is implicit).  A pointer to a node is its
    position in that list; nodes are only ever added at the end.  The adjacency list of a node (whose header cell is
    implicit) is the list of its links in order.  Coordinates and the scratch fields ivar1 and trans are left out. *)
From Coq Require Import List Arith Ascii Bool QArith.
From Verif Require Import Base IoModel.
Import ListNotations.
Local Open Scope nat_scope.

Section Graph.
Context {A : Type} {ops : NumOps A}.

(** src/graph.h 42-50, struct node_lis.  [lref] is null for soft links. *)
Record link := mkLink { lnode : nat; llabel : label; lstatus : nat; lref : option nat; lbtw : A; lweight : A }.

(** src/graph.h 18-34, struct node_gra.  [ggroup] is None for -1. *)
Record gnode := mkNode {
  glabel : label; gnum : nat; gstate : nat; gadj : list link; ggroup : option nat; gdvar : A; gdeg : nat; gstr : A }.

Definition net := list gnode.

Definition set_gstate v n := mkNode (glabel n) (gnum n) v (gadj n) (ggroup n) (gdvar n) (gdeg n) (gstr n).
Definition set_gadj v n := mkNode (glabel n) (gnum n) (gstate n) v (ggroup n) (gdvar n) (gdeg n) (gstr n).
Definition set_ggroup v n := mkNode (glabel n) (gnum n) (gstate n) (gadj n) v (gdvar n) (gdeg n) (gstr n).
Definition set_gdvar v n := mkNode (glabel n) (gnum n) (gstate n) (gadj n) (ggroup n) v (gdeg n) (gstr n).
Definition set_gdeg v n := mkNode (glabel n) (gnum n) (gstate n) (gadj n) (ggroup n) (gdvar n) v (gstr n).
Definition set_gstr v n := mkNode (glabel n) (gnum n) (gstate n) (gadj n) (ggroup n) (gdvar n) (gdeg n) v.
Definition set_gnum v n := mkNode (glabel n) v (gstate n) (gadj n) (ggroup n) (gdvar n) (gdeg n) (gstr n).
(** [n->degree = 0; n->strength = 0]. *)
Definition reset_cache n := mkNode (glabel n) (gnum n) (gstate n) (gadj n) (ggroup n) (gdvar n) 0 n0.

Definition upd_node (g : net) (i : nat) (f : gnode -> gnode) : res net := do n <- get g i; set g i (f n).

(** src/graph.c 49-76, CreateNodeGraph.  The number follows that of the last node; the header has number -1.  The label is
    copied to a buffer of 100 characters. *)
Definition CreateNodeGraph (g : net) (l : label) : res (nat * net) :=
  do l <- store_label l;
  let num := match rev g with [] => 0 | n :: _ => gnum n + 1 end in
  Ok (length g, g ++ [mkNode l num 0 [] None (nofQ (-1 # 1)) 0 n0]).

Definition eq_ref (o : option nat) (j : nat) : bool := match o with Some k => k =? j | None => false end.

(** src/graph.c 137-165: walk to the link to [j], or to the end.  Returns the new list and the return value. *)
Fixpoint add_link (add_weight : bool) (w : A) (new : link) (j : nat) (ls : list link) : list link * bool :=
  match ls with
  | [] => ([new], true)
  | l :: ls' =>
      if eq_ref (lref l) j then
        if add_weight then (mkLink (lnode l) (llabel l) (lstatus l) (lref l) (lbtw l) (nadd (lweight l) w) :: ls', true)
        else (ls, false)
      else let '(ls', r) := add_link add_weight w new j ls' in (l :: ls', r)
  end.

(** src/graph.c 119-170, AddAdjacency(node1 = i, node2 = j).  The label of node2 fits the new buffer because it sits in one
    of the same size. *)
Definition AddAdjacency (g : net) (i j : nat) (auto_link add_weight : bool) (w : A) (status : nat) : res (bool * net) :=
  if (i =? j) && negb auto_link then Ok (false, g)
  else
  do g <- upd_node g i reset_cache;
  do g <- upd_node g j reset_cache;
  do n <- get g i;
  do m <- get g j;
  let '(ls, r) := add_link add_weight w (mkLink (gnum m) (glabel m) status (Some j) n0 w) j (gadj n) in
  do g <- set g i (set_gadj ls n);
  Ok (r, g).

(** src/graph.c 460-467: unlink the first link to [j]; running off the list dereferences a null pointer. *)
Fixpoint del_link (j : nat) (ls : list link) : res (list link) :=
  match ls with
  | [] => Err UB_null
  | l :: ls' => if eq_ref (lref l) j then Ok ls' else do r <- del_link j ls'; Ok (l :: r)
  end.

(** src/graph.c 444-479, RemoveLink. *)
Definition RemoveLink (g : net) (i j : nat) (symmetric : bool) : res net :=
  do g <- upd_node g i reset_cache;
  do g <- upd_node g j reset_cache;
  do n <- get g i;
  do ls <- del_link j (gadj n);
  do g <- set g i (set_gadj ls n);
  if symmetric && negb (i =? j) then
    do m <- get g j;
    do ls <- del_link i (gadj m);
    set g j (set_gadj ls m)
  else Ok g.

(** src/graph.c 742-748, GetNode: the search runs off the list if there is no such number. *)
Fixpoint find_num (num : nat) (pos : nat) (g : list gnode) : res nat :=
  match g with
  | [] => Err UB_null
  | n :: g' => if gnum n =? num then Ok pos else find_num num (pos + 1) g'
  end.
Definition GetNode (num : nat) (g : net) : res nat := find_num num 0 g.

(** src/graph.c 776-784, GetLink. *)
Fixpoint find_link (num : nat) (ls : list link) : res link :=
  match ls with
  | [] => Err UB_null
  | l :: ls' => if lnode l =? num then Ok l else find_link num ls'
  end.
Definition GetLink (g : net) (i num : nat) : res link := do n <- get g i; find_link num (gadj n).

(** src/graph.c 806-818, IsThereLink. *)
Definition IsThereLink (g : net) (i j : nat) : res bool := do n <- get g i; Ok (existsb (fun l => eq_ref (lref l) j) (gadj n)).

(** src/graph.c 824-836, IsThereLinkSoft. *)
Definition IsThereLinkSoft (g : net) (i num : nat) : res bool := do n <- get g i; Ok (existsb (fun l => lnode l =? num) (gadj n)).

(** src/graph.c 1373-1380, CountNodes. *)
Definition CountNodes (g : net) : nat := length g.

(** src/graph.c 1388-1396, NodeDegree: the count is cached in the node. *)
Definition NodeDegree (g : net) (i : nat) : res (nat * net) :=
  do n <- get g i;
  if (gdeg n =? 0) && negb (length (gadj n) =? 0)
  then do g <- set g i (set_gdeg (gdeg n + length (gadj n)) n); Ok (gdeg n + length (gadj n), g)
  else Ok (gdeg n, g).

(** src/graph.c 1447-1460, TotalNLinks. *)
Definition TotalNLinks (g : net) (symmetric : bool) : res (nat * net) :=
  do (t, g) <- foldM (fun '(t, g) i => do (k, g) <- NodeDegree g i; Ok (t + k, g)) (0, g) (seq 0 (length g));
  Ok (if symmetric then Nat.div t 2 else t, g).

(** src/graph.c 1468-1477, NodeStrength. *)
Definition NodeStrength (g : net) (i : nat) : res (A * net) :=
  do n <- get g i;
  if neqb (gstr n) n0 && negb (length (gadj n) =? 0)
  then let s := fold_left (fun s l => nadd s (lweight l)) (gadj n) (gstr n) in
       do g <- set g i (set_gstr s n); Ok (s, g)
  else Ok (gstr n, g).

(** src/graph.c 1241-1246, ResetNodesState. *)
Definition ResetNodesState (g : net) : net := map (set_gstate 0) g.

(** ceil of a non-negative double, as an int. *)
Definition nceil (x : A) : nat := let k := nfloor x in if neqb (nofnat k) x then k else k + 1.

(** src/graph.c 1306-1317: the links whose origin has the larger number, in order of the walk. *)
Definition link_list (g : net) : res (list (nat * nat)) :=
  foldM (fun acc i =>
    do n <- get g i;
    foldM (fun acc l => if lnode l <? gnum n then do j <- deref (lref l); Ok (acc ++ [(i, j)]) else Ok acc) acc (gadj n))
    [] (seq 0 (length g)).

(** src/graph.c 1324-1341: the two nested do-while loops redraw both links until the four ends differ and neither new link
    exists.  Every round takes three draws, so the number of draws bounds the rounds.  The checks on the same ends are made
    at the same place. *)
Fixpoint pick_links (fuel : nat) (g : net) (ls : list (nat * nat)) (nlink : nat) (ds : list A)
  : res (nat * nat * nat * nat * nat * nat * list A) :=
  match fuel with
  | 0 => Err RngOut
  | S f =>
      do (u1, ds) <- draw ds;
      let t1 := nfloor (nmul u1 (nofnat nlink)) in
      do (n1, n2) <- get ls t1;
      do (u2, ds) <- draw ds;
      let t2 := nfloor (nmul u2 (nofnat nlink)) in
      do (u3, ds) <- draw ds;
      do (a, b) <- get ls t2;
      let '(n3, n4) := if nltb u3 (nofQ (1 # 2)) then (b, a) else (a, b) in
      if (n3 =? n1) || (n3 =? n2) || (n4 =? n1) || (n4 =? n2) then pick_links f g ls nlink ds
      else
      do m4 <- get g n4;
      do x <- IsThereLinkSoft g n1 (gnum m4);
      if x then pick_links f g ls nlink ds
      else
      do m3 <- get g n3;
      do y <- IsThereLinkSoft g n2 (gnum m3);
      if y then pick_links f g ls nlink ds
      else Ok (t1, t2, n1, n2, n3, n4, ds)
  end.

(** src/graph.c 1343-1349 (weight 1) and src/bipartite.c 706-711 (weight 0): n1-n2 and n3-n4 become n1-n4 and n3-n2. *)
Definition switch_ends (g : net) (n1 n2 n3 n4 : nat) (w : A) : res net :=
  do g <- RemoveLink g n1 n2 true;
  do g <- RemoveLink g n3 n4 true;
  do (_, g) <- AddAdjacency g n1 n4 false false w 1;
  do (_, g) <- AddAdjacency g n4 n1 false false w 1;
  do (_, g) <- AddAdjacency g n3 n2 false false w 1;
  do (_, g) <- AddAdjacency g n2 n3 false false w 1;
  Ok g.

(** src/graph.c 1322-1355, one switch. *)
Definition switch_once (st : net * list (nat * nat) * list A) (nlink : nat) : res (net * list (nat * nat) * list A) :=
  let '(g, ls, ds) := st in
  do (t1, t2, n1, n2, n3, n4, ds) <- pick_links (length ds + 1) g ls nlink ds;
  do g <- switch_ends g n1 n2 n3 n4 (nofQ (1 # 1));
  do ls <- set ls t1 (n1, n4);
  do ls <- set ls t2 (n3, n2);
  Ok (g, ls, ds).

(** src/graph.c 1287-1361, RandomizeSymmetricNetwork.  The arrays hold [nlink] pairs: writing more is out of bounds. *)
Definition RandomizeSymmetricNetwork (g : net) (times : A) (ds : list A) : res (net * list A) :=
  do (nlink, g) <- TotalNLinks g true;
  do (u, ds) <- draw ds;
  let niter := nceil (nadd (nmul times (nofnat nlink)) u) in
  do ls <- link_list g;
  do _ <- check (length ls <=? nlink) UB_oob;
  do (g, _, ds) <- foldM (fun st _ => switch_once st nlink) (g, ls, ds) (seq 0 niter);
  Ok (g, ds).

(** src/graph.c 2985-2996, CommonNeighbors. *)
Definition CommonNeighbors (g : net) (i j : nat) : res nat :=
  do n <- get g i;
  foldM (fun c l => do k <- deref (lref l); do b <- IsThereLink g k j; Ok (if b then c + 1 else c)) 0 (gadj n).

(** src/graph.c 3003-3031, JaccardIndex.  k1 and k2 are ints; they are decremented only when the link is there. *)
Definition JaccardIndex (g : net) (i j : nat) : res (A * net) :=
  do (k1, g) <- NodeDegree g i;
  do (k2, g) <- NodeDegree g j;
  do n <- get g i;
  do (c, k1, k2) <- foldM (fun '(c, k1, k2) l =>
      do k <- deref (lref l);
      if k =? j then do k1 <- dec k1; do k2 <- dec k2; Ok (c, k1, k2)
      else do b <- IsThereLink g k j; Ok (if b then c + 1 else c, k1, k2)) (0, k1, k2) (gadj n);
  if c =? 0 then Ok (n0, g) else Ok (ndiv (nofnat c) (nofnat (k1 + k2 - c)), g).

(** src/graph.c 3039-3078, TopologicalOverlap. *)
Definition TopologicalOverlap (g : net) (i j : nat) : res (A * net) :=
  do (k1, g) <- NodeDegree g i;
  do (k2, g) <- NodeDegree g j;
  let '(minim, p, node) := if k1 <? k2 then (k1, i, j) else (k2, j, i) in
  do n <- get g p;
  do c <- foldM (fun c l =>
      do k <- deref (lref l);
      if k =? node then Ok (c + 1)
      else do b <- IsThereLinkSoft g node (lnode l); Ok (if b then c + 1 else c)) 0 (gadj n);
  Ok (ndiv (nofnat c) (nofnat minim), g).
End Graph.
Arguments link : clear implicits.
Arguments gnode : clear implicits.
Arguments net : clear implicits.

(** GenModel.v -- model of src/models.c, generators of random networks.

    The random numbers of gsl_rng_uniform are a list that is consumed from the front; what is left is part of the result. *)
From Coq Require Import List Arith Ascii Bool.
From Verif Require Import Base IoModel GraphModel.
Import ListNotations.
Local Open Scope nat_scope.

(** The conversion %d of sprintf for a number that is not negative: the decimal digits without leading zeros.  The first
    argument bounds the number of digits. *)
Definition digit (k : nat) : ascii := ascii_of_nat (48 + k).
Fixpoint digits (fuel n : nat) : list ascii :=
  match fuel with
  | 0 => []
  | S fuel => if n <? 10 then [digit n] else digits fuel (n / 10) ++ [digit (n mod 10)]
  end.
Definition sprintf_d (n : nat) : label := digits (S n) n.

Section Gen.
Context {A : Type} {ops : NumOps A}.

(** src/models.c 22-40, EmptyGraph. *)
Definition EmptyGraph (N : nat) : res (net A) :=
  foldM (fun g node1 => do (_, g) <- CreateNodeGraph g (sprintf_d (node1 + 1)); Ok g) [] (seq 0 N).

(** src/models.c 61-62, [last = nodeList[node1] = CreateNodeGraph(last, label)].  [last] is the last node of the list. *)
Definition new_node (st : net A * list (option nat)) (node1 : nat) : res (net A * list (option nat)) :=
  let '(g, nodeList) := st in
  do (k, g) <- CreateNodeGraph g (sprintf_d (node1 + 1));
  do nodeList <- set nodeList node1 (Some k);
  Ok (g, nodeList).

(** src/models.c 69-70: both halves of a link between two nodes of the array. *)
Definition link_both (g : net A) (nodeList : list (option nat)) (node1 node2 : nat) : res (net A) :=
  do a <- get nodeList node1; do a <- deref a;
  do b <- get nodeList node2; do b <- deref b;
  do (_, g) <- AddAdjacency g a b false false n0 0;
  do (_, g) <- AddAdjacency g b a false false n0 0;
  Ok g.

(** src/models.c 66-72, one pair of nodes of ERGraph. *)
Definition er_pair (nodeList : list (option nat)) (p : A) (st : net A * list A) (node1 node2 : nat) : res (net A * list A) :=
  let '(g, ds) := st in
  do (u, ds) <- draw ds;
  if nltb u p then do g <- link_both g nodeList node1 node2; Ok (g, ds) else Ok (g, ds).

(** src/models.c 48-78, ERGraph. *)
Definition ERGraph (N : nat) (p : A) (ds : list A) : res (net A * list A) :=
  do (g, nodeList) <- foldM new_node ([], repeat None N) (seq 0 N);
  foldM (fun st node1 => foldM (fun st node2 => er_pair nodeList p st node1 node2) st (seq (node1 + 1) (N - (node1 + 1)))) (g, ds) (seq 0 N).

(** src/models.c 120-123, the do-while loop: draw from the list until a node comes up that is not linked to [node1]. *)
Fixpoint pa_pick (g : net A) (nodeList : list (option nat)) (paList : list nat) (norm node1 : nat) (ds : list A) : res (nat * list A) :=
  match ds with
  | [] => Err RngOut
  | u :: ds =>
      do node2 <- get paList (nfloor (nmul u (nofnat norm)));
      do a <- get nodeList node1; do a <- deref a;
      do b <- get nodeList node2; do b <- deref b;
      do t <- IsThereLink g a b;
      if t then pa_pick g nodeList paList norm node1 ds else Ok (node2, ds)
  end.

(** src/models.c 107-108 and 126-127: [paList[norm++] = node1; paList[norm++] = node2]. *)
Definition pa_push (paList : list nat) (norm node1 node2 : nat) : res (list nat * nat) :=
  do paList <- set paList norm node1;
  do paList <- set paList (norm + 1) node2;
  Ok (paList, norm + 2).

(** src/models.c 100-110, a node of the core: linked to all earlier nodes. *)
Definition pa_core (st : net A * list (option nat) * (list nat * nat)) (node1 : nat) : res (net A * list (option nat) * (list nat * nat)) :=
  let '(g, nodeList, pa) := st in
  do (g, nodeList) <- new_node (g, nodeList) node1;
  do (g, pa) <- foldM (fun '(g, (paList, norm)) node2 =>
      do g <- link_both g nodeList node1 node2;
      do pa <- pa_push paList norm node1 node2;
      Ok (g, pa)) (g, pa) (seq 0 node1);
  Ok (g, nodeList, pa).

(** src/models.c 118-128, one more link of a new node. *)
Definition pa_link (nodeList : list (option nat)) (node1 : nat) (st : net A * (list nat * nat) * list A) (n : nat) :
  res (net A * (list nat * nat) * list A) :=
  let '(g, (paList, norm), ds) := st in
  do (node2, ds) <- pa_pick g nodeList paList norm node1 ds;
  do g <- link_both g nodeList node1 node2;
  do pa <- pa_push paList norm node1 node2;
  Ok (g, pa, ds).

(** src/models.c 114-129, a node after the core. *)
Definition pa_node (m : nat) (st : net A * list (option nat) * (list nat * nat) * list A) (node1 : nat) :
  res (net A * list (option nat) * (list nat * nat) * list A) :=
  let '(g, nodeList, pa, ds) := st in
  do (g, nodeList) <- new_node (g, nodeList) node1;
  do (g, pa, ds) <- foldM (pa_link nodeList node1) (g, pa, ds) (seq 0 m);
  Ok (g, nodeList, pa, ds).

(** src/models.c 86-135, PAGraph.  Both arrays come from calloc. *)
Definition PAGraph (N m : nat) (ds : list A) : res (net A * list A) :=
  let paList := repeat 0 (2 * N * m) in
  do (g, nodeList, pa) <- foldM pa_core ([], repeat None N, (paList, 0)) (seq 0 m);
  do (g, _, _, ds) <- foldM (pa_node m) (g, nodeList, pa, ds) (seq m (N - m));
  Ok (g, ds).

(** src/models.c 167-169, a node of group [i]. *)
Definition block_node (i : nat) (st : net A * list (option nat)) (node1 : nat) : res (net A * list (option nat)) :=
  do (g, nodeList) <- new_node st node1;
  do last <- get nodeList node1; do last <- deref last;
  do g <- upd_node g last (set_ggroup (Some i));
  Ok (g, nodeList).

(** src/models.c 165-172, the nodes of group [i]. *)
Definition block_group (gsize : list nat) (st : net A * list (option nat) * nat) (i : nat) : res (net A * list (option nat) * nat) :=
  let '(g, nodeList, N) := st in
  do k <- get gsize i;
  do (g, nodeList) <- foldM (block_node i) (g, nodeList) (seq N k);
  Ok (g, nodeList, N + k).

(** A group number as an index; -1 is outside every array. *)
Definition index_of (o : option nat) : res nat := match o with Some k => Ok k | None => Err UB_oob end.

(** src/models.c 187-191, one pair of nodes of UndirectedBlockGraph. *)
Definition block_pair (nodeList : list (option nat)) (q : list (list A)) (st : net A * list A) (node1 node2 : nat) : res (net A * list A) :=
  let '(g, ds) := st in
  do (u, ds) <- draw ds;
  do a <- get nodeList node1; do a <- deref a; do n <- get g a;
  do b <- get nodeList node2; do b <- deref b; do n' <- get g b;
  do g1 <- index_of (ggroup n); do g2 <- index_of (ggroup n');
  do row <- get q g1; do x <- get row g2;
  if nltb u x then do g <- link_both g nodeList node1 node2; Ok (g, ds) else Ok (g, ds).

(** src/models.c 150-200, UndirectedBlockGraph.  The verbose output of lines 177-186 is left out. *)
Definition UndirectedBlockGraph (ngroup : nat) (gsize : list nat) (q : list (list A)) (ds : list A) : res (net A * list A) :=
  do N <- foldM (fun N i => do k <- get gsize i; Ok (N + k)) 0 (seq 0 ngroup);
  do (g, nodeList, N) <- foldM (block_group gsize) ([], repeat None N, 0) (seq 0 ngroup);
  foldM (fun st node1 => foldM (fun st node2 => block_pair nodeList q st node1 node2) st (seq (node1 + 1) (N - (node1 + 1)))) (g, ds) (seq 0 N).

(** src/models.c 219-225, the sizes and the row of the matrix for group [g1]. *)
Definition gn_row (ngroup gsize : nat) (kin kout : A) (st : list (list A) * list nat) (g1 : nat) : res (list (list A) * list nat) :=
  let '(q, gsizes) := st in
  do gsizes <- set gsizes g1 gsize;
  do row <- get q g1;
  do row <- set row g1 (ndiv kin (nsub (nofnat gsize) n1));
  do row <- foldM (fun row g2 => set row g2 (ndiv kout (nofnat (gsize * (ngroup - 1))))) row (seq (g1 + 1) (ngroup - (g1 + 1)));
  do q <- set q g1 row;
  Ok (q, gsizes).

(** src/models.c 207-230, GirvanNewmanGraph.  The matrix comes from allocate_d_mat (src/tools.c 113-135), filled with zeros;
    only the entries on and above the diagonal are written. *)
Definition GirvanNewmanGraph (ngroup gsize : nat) (kin kout : A) (ds : list A) : res (net A * list A) :=
  do (q, gsizes) <- foldM (gn_row ngroup gsize kin kout) (repeat (repeat n0 ngroup) ngroup, repeat 0 ngroup) (seq 0 ngroup);
  UndirectedBlockGraph ngroup gsizes q ds.
End Gen.

(** BtwModel.v -- model of the betweenness of nodes and links, src/graph.c 2055-2359.

    Stacks and queues are the lists they implement (C24): a stack with its top first, a queue with its front first.
    Distances are ints with -1 for "not found"; numbers of shortest paths are ints and overflow at 2^31 (outcome [Wrap]).
    Allocation and release of the arrays, stacks and queues of each source are left out. *)
From Coq Require Import List Arith ZArith QArith Bool.
From Verif Require Import Base IoModel GraphModel BfsModel ToolsModel.
Import ListNotations.
Local Open Scope nat_scope.

Section Model.
Context {A : Type} {ops : NumOps A}.

(** The arrays d, sigma and P and the queue Q of CalculateNodeBetweenness. *)
Record search := mkSearch { bdist : list Z; bsigma : list Z; bP : list (list nat); bQ : list nat }.
Definition INT_MAX : Z := 2147483647.

(** src/graph.c 2290-2301: one neighbour [w] of [v]. *)
Definition btw_link (g : net A) (v : nat) (st : search) (l : link A) : res search :=
  do w <- deref (lref l);
  do wn <- get g w;
  do vn <- get g v;
  do dw <- get (bdist st) (gnum wn);
  do dv <- get (bdist st) (gnum vn);
  do st <- (if (dw <? 0)%Z then do d <- set (bdist st) (gnum wn) (dv + 1)%Z; Ok (mkSearch d (bsigma st) (bP st) (bQ st ++ [w])) else Ok st);
  do dw <- get (bdist st) (gnum wn);
  do dv <- get (bdist st) (gnum vn);
  if (dw =? dv + 1)%Z then
    do sw <- get (bsigma st) (gnum wn);
    do sv <- get (bsigma st) (gnum vn);
    do _ <- check (sw + sv <=? INT_MAX)%Z Wrap;
    do sg <- set (bsigma st) (gnum wn) (sw + sv)%Z;
    do pw <- get (bP st) (gnum wn);
    do P <- set (bP st) (gnum wn) (pw ++ [v]);
    Ok (mkSearch (bdist st) sg P (bQ st))
  else Ok st.

(** src/graph.c 2285-2303: the search from one source; [stk] is the stack.  A node is found at most once, so [fuel] = number of
    nodes + 1 is enough. *)
Fixpoint btw_search (fuel : nat) (g : net A) (st : search) (stk : list nat) : res (search * list nat) :=
  match fuel with
  | O => Err Diverge
  | Datatypes.S f =>
      match bQ st with
      | [] => Ok (st, stk)
      | v :: Q =>
          do n <- get g v;
          do st <- foldM (btw_link g v) (mkSearch (bdist st) (bsigma st) (bP st) Q) (gadj n);
          btw_search f g st (v :: stk)
      end
  end.

(** src/graph.c 2308-2311: one predecessor [v] of [w]. *)
Definition btw_pred (g : net A) (sg : list Z) (w : nat) (delta : list A) (v : nat) : res (list A) :=
  do vn <- get g v;
  do wn <- get g w;
  do dv <- get delta (gnum vn);
  do dw <- get delta (gnum wn);
  do sv <- get sg (gnum vn);
  do sw <- get sg (gnum wn);
  set delta (gnum vn) (nadd dv (ndiv (nmul (nadd n1 dw) (nofQ (sv # 1))) (nofQ (sw # 1)))).

(** src/graph.c 2306-2314: the node on top of the stack. *)
Definition btw_pop (s : nat) (st : search) (gd : net A * list A) (w : nat) : res (net A * list A) :=
  let '(g, delta) := gd in
  do wn <- get g w;
  do pw <- get (bP st) (gnum wn);
  do delta <- foldM (btw_pred g (bsigma st) w) delta pw;
  do sn <- get g s;
  do dw <- get delta (gnum wn);
  if gnum wn =? gnum sn then Ok (g, delta)
  else do g <- upd_node g w (fun n => set_gdvar (nadd (gdvar n) dw) n); Ok (g, delta).

(** src/graph.c 2265-2322: one source. *)
Definition btw_source (g : net A) (s : nat) : res (net A) :=
  let nnod := CountNodes g in
  do sn <- get g s;
  do sg <- set (repeat 0%Z nnod) (gnum sn) 1%Z;
  do d <- set (repeat (-1)%Z nnod) (gnum sn) 0%Z;
  do (st, stk) <- btw_search (nnod + 1) g (mkSearch d sg (repeat [] nnod) [s]) [];
  do (g, _) <- foldM (btw_pop s st) (g, repeat n0 nnod) stk;
  Ok g.

(** src/graph.c 2246-2323, CalculateNodeBetweenness.  The results are in the field dvar1 of the nodes. *)
Definition CalculateNodeBetweenness (g : net A) : res (net A) :=
  foldM btw_source (map (set_gdvar n0) g) (seq 0 (CountNodes g)).

(** src/graph.c 2331-2359, NodeBetweennessStatistics: mean, standard deviation, minimum and maximum. *)
Definition NodeBetweennessStatistics (g : net A) : res (A * A * A * A * net A) :=
  let nnod := CountNodes g in
  do g <- CalculateNodeBetweenness g;
  do b <- foldM (fun b n => set b (gnum n) (gdvar n)) (repeat n0 nnod) g;
  do m <- mean b nnod;
  do s <- stddev b nnod;
  do mi <- min_d b nnod;
  do ma <- max_d b nnod;
  Ok (m, s, mi, ma, g).
End Model.

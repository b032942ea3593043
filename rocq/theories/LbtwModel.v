(** LbtwModel.v -- src/graph.c: the betweenness of the links; src/bipartite.c: the modularity from a table. *)
From Coq Require Import List Arith Bool QArith.
From Verif Require Import Base IoModel GraphModel BfsModel StatModel GroupModel MatLib.
Import ListNotations.
Local Open Scope nat_scope.

Section Links.
Context {A : Type} {ops : NumOps A}.

(** src/graph.c 2120-2123 and 2125-2128: the first link to the number [k]; there is no check for the end of the list. *)
Fixpoint add_to_link (k : nat) (x : A) (ls : list (link A)) : res (list (link A)) :=
  match ls with
  | [] => Err UB_null
  | l :: ls' =>
      if lnode l =? k then Ok (mkLink (lnode l) (llabel l) (lstatus l) (lref l) (nadd (lbtw l) x) (lweight l) :: ls')
      else do ls' <- add_to_link k x ls'; Ok (l :: ls')
  end.
Definition set_gadj (ls : list (link A)) (n : gnode A) : gnode A :=
  mkNode (glabel n) (gnum n) (gstate n) ls (ggroup n) (gdvar n) (gdeg n) (gstr n).
Definition add_btw (g : net A) (i k : nat) (x : A) : res (net A) :=
  do n <- get g i;
  do ls <- add_to_link k x (gadj n);
  set g i (set_gadj ls n).

(** src/graph.c 2116-2130: one predecessor of the entry [e]; the header has no node. *)
Definition lb_pred (q : list bent) (e : bent) (n_pred : nat) (st : net A * list A) (ppre : option nat) : res (net A * list A) :=
  let '(g, bet) := st in
  do k <- deref ppre;
  do pe <- get q k;
  do pn <- get g (bref pe);
  do ln <- get g (bref e);
  do x <- get bet (gnum ln);
  do y <- get bet (gnum pn);
  do bet <- set bet (gnum pn) (nadd y (ndiv x (nofnat n_pred)));
  do x <- get bet (gnum ln);
  do g <- add_btw g (bref e) (gnum pn) (ndiv x (nofnat n_pred));
  do g <- add_btw g (bref pe) (gnum ln) (ndiv x (nofnat n_pred));
  Ok (g, bet).
(** src/graph.c 2112-2132: the entries from the last one back, [es], to one without predecessors.  The header itself has none and is not a place to stop. *)
Fixpoint lb_back (q es : list bent) (st : net A * list A) : res (net A * list A) :=
  match es with
  | [] => Err UB_null
  | e :: es' =>
      let n_pred := CountPredecessors e in
      if n_pred =? 0 then Ok st
      else do st <- foldM (lb_pred q e n_pred) st (bpred e); lb_back q es' st
  end.
(** src/graph.c 2055-2139, CalculateLinkBetweenness. *)
Definition clear_btw (g : net A) : net A :=
  map (fun n => set_gadj (map (fun l => mkLink (lnode l) (llabel l) (lstatus l) (lref l) n0 (lweight l)) (gadj n)) n) g.
Definition lb_source (ocupacio : list A) (st : net A * bfs) (i : nat) : res (net A * bfs) :=
  let '(g, q) := st in
  let g := ResetNodesState g in
  do st <- Enqueue (g, q) i None 0;
  do (_, st, _) <- layers (fun s _ _ => Ok s) (CountNodes g + 1) tt st 0 0;
  let '(g, q) := st in
  do (g, _) <- lb_back (bq q) (rev (bq q)) (g, ocupacio);
  do q <- ClearList q;
  Ok (g, q).
Definition CalculateLinkBetweenness (g : net A) : res (net A) :=
  do ocupacio <- foldM (fun o n => set o (gnum n) n1) (repeat n0 (CountNodes g)) g;
  do (g, _) <- foldM (lb_source ocupacio) (clear_btw g, CreateHeaderList) (seq 0 (CountNodes g));
  Ok g.

(** src/bipartite.c 932-950, ModularityBipartWeightedFast.  The network is not used. *)
Fixpoint fast_pairs (mat : list (list A)) (q : A) (ls : list (link A)) : res A :=
  match ls with
  | [] => Ok q
  | l :: ls' =>
      do q <- foldM (fun q l' => do x <- get2 mat (lnode l) (lnode l'); Ok (nadd q x)) q ls';
      fast_pairs mat q ls'
  end.
Definition ModularityBipartWeightedFast (P : gpart A) (swwmat : list (list A)) : res A :=
  foldM (fun q G => fast_pairs swwmat q (pnodes G)) n0 P.
End Links.

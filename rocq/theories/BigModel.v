(** BigModel.v -- src/graph.c: the link of largest betweenness. *)
From Coq Require Import List Arith Bool QArith.
From Verif Require Import Base IoModel GraphModel BfsModel StatModel LbtwModel.
Import ListNotations.
Local Open Scope nat_scope.

Section Big.
Context {A : Type} {ops : NumOps A}.

(** A pointer to a link is the node that keeps it and the number it has: the first link of that node with the number. *)
Definition btw_value (g : net A) (i k : nat) : res A :=
  do n <- get g i;
  match find (fun l => lnode l =? k) (gadj n) with Some l => Ok (lbtw l) | None => Err UB_null end.
(** src/graph.c 2207-2229: one predecessor of the entry [e].  [big] is the pointer to the link, [out] the two numbers in n1 and n2, [None] if they are not set. *)
Definition big_pred (q : list bent) (e : bent) (n_pred : nat) (st : net A * list A * option (nat * nat) * option (nat * nat)) (ppre : option nat)
  : res (net A * list A * option (nat * nat) * option (nat * nat)) :=
  let '(g, bet, big, out) := st in
  do k <- deref ppre;
  do pe <- get q k;
  do pn <- get g (bref pe);
  do ln <- get g (bref e);
  do x <- get bet (gnum ln);
  do y <- get bet (gnum pn);
  do bet <- set bet (gnum pn) (nadd y (ndiv x (nofnat n_pred)));
  do x <- get bet (gnum ln);
  do g <- add_btw g (bref e) (gnum pn) (ndiv x (nofnat n_pred));
  do v <- btw_value g (bref e) (gnum pn);
  do larger <- match big with None => Ok true | Some (i, k) => do w <- btw_value g i k; Ok (nltb w v) end;
  let big := if larger then Some (bref e, gnum pn) else big in
  let out := if larger then Some (gnum pn, gnum ln) else out in
  do g <- add_btw g (bref pe) (gnum ln) (ndiv x (nofnat n_pred));
  Ok (g, bet, big, out).
(** src/graph.c 2203-2232: the entries from the last one back. *)
Fixpoint big_back (q es : list bent) (st : net A * list A * option (nat * nat) * option (nat * nat)) : res (net A * list A * option (nat * nat) * option (nat * nat)) :=
  match es with
  | [] => Err UB_null
  | e :: es' =>
      let n_pred := CountPredecessors e in
      if n_pred =? 0 then Ok st
      else do st <- foldM (big_pred q e n_pred) st (bpred e); big_back q es' st
  end.
(** src/graph.c 2146-2239, CalculateBiggestLinkBetweenness.  The result is the network and the numbers n1 and n2; the empty network has no first node. *)
Definition big_source (ocupacio : list A) (st : net A * bfs * option (nat * nat) * option (nat * nat)) (i : nat) : res (net A * bfs * option (nat * nat) * option (nat * nat)) :=
  let '(g, q, big, out) := st in
  let g := ResetNodesState g in
  do st <- Enqueue (g, q) i None 0;
  do (_, st, _) <- layers (fun s _ _ => Ok s) (CountNodes g + 1) tt st 0 0;
  let '(g, q) := st in
  do (g, _, big, out) <- big_back (bq q) (rev (bq q)) (g, ocupacio, big, out);
  do q <- ClearList q;
  Ok (g, q, big, out).
Definition CalculateBiggestLinkBetweenness (g : net A) : res (net A * option (nat * nat)) :=
  do ocupacio <- foldM (fun o n => set o (gnum n) n1) (repeat n0 (CountNodes g)) g;
  let g := clear_btw g in
  do first <- deref (hd_error g);
  let big := match gadj first with [] => None | l :: _ => Some (0, lnode l) end in
  do (g, _, _, out) <- foldM (big_source ocupacio) (g, CreateHeaderList, big, None) (seq 0 (CountNodes g));
  Ok (g, out).
End Big.

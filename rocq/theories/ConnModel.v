(** ConnModel.v -- model of the functions of src/graph.c that find connected sets.

    The breadth-first lists are those of BfsModel.v.  Networks are positions in a list; [c] is the copy root_cop.  The arrays
    selected and this_net are lists of truth values. *)
From Coq Require Import List Arith Bool ZArith.
From Verif Require Import Base IoModel GraphModel BfsModel NetModel.
Import ListNotations.
Local Open Scope nat_scope.

Section Conn.
Context {A : Type} {ops : NumOps A}.

(** src/graph.c 1142-1173, DequeueOne: the entry behind [one] is released.  As in BfsModel.v an entry is counted by the number of
    entries up to it.  If the entry was the last one, the field [last] of the header is set to [one], which is then the last. *)
Definition DequeueOne (q : bfs) (one : nat) : res bfs :=
  do _ <- get (bq q) one;
  do k <- dec (bsize q);
  Ok (mkQ (firstn one (bq q) ++ skipn (one + 1) (bq q)) k).

(** src/graph.c 2490-2503.  Fuel: one unit per layer. *)
Fixpoint connected_layers (fuel : nat) (st : net A * bfs) (lp d : nat) (cluslis : list bool) : res (bool * (net A * bfs)) :=
  match fuel with
  | 0 => Err Diverge
  | S f =>
      let size_ant := bsize (snd st) in
      do (st, lp) <- RenewQueue (length (fst st) + 1) st lp d;
      do found <- foldM (fun (found : bool) e => if found then Ok true else do n <- get (fst st) (bref e); get cluslis (gnum n)) false (skipn lp (bq (snd st)));
      if found then Ok (true, st)
      else if bsize (snd st) =? size_ant then Ok (false, st) else connected_layers f st lp (d + 1) cluslis
  end.
(** src/graph.c 2470-2508, AreConnectedList. *)
Definition AreConnectedList (g : net A) (v : nat) (cluslis : list bool) : res (bool * net A) :=
  do st <- Enqueue (ResetNodesState g, CreateHeaderList) v None 0;
  do (r, st) <- connected_layers (length g + 1) st 0 0 cluslis;
  do _ <- ClearList (snd st);
  Ok (r, fst st).

(** The first node of [g], from position [pos] on, that is not selected; running off the list dereferences a null pointer. *)
Fixpoint first_left (g : net A) (selected : list bool) (pos : nat) : res nat :=
  match g with
  | [] => Err UB_null
  | n :: g => do b <- get selected (gnum n); if b then first_left g selected (pos + 1) else Ok pos
  end.

(** What a search works on: root, root_cop, the list, this_net, selected and anod; [S] is the set under construction. *)
Record scan (T : Type) := mkScan { sg : net A; sc : net A; sq : bfs; this_net : list bool; selected : list bool; anod : nat; set_of : T }.
Arguments mkScan {T}. Arguments sg {T}. Arguments sc {T}. Arguments sq {T}. Arguments this_net {T}. Arguments selected {T}. Arguments anod {T}. Arguments set_of {T}.

Section Search.
Context {T : Type} (act : net A -> T -> nat -> res T).

(** A node joins the set: lines 2567-2569, 2659-2664, 2763-2767 and 2938-2945. *)
Definition join (x : scan T) (v : nat) : res (scan T) :=
  do n <- get (sg x) v;
  do s <- act (sg x) (set_of x) v;
  do tn <- set (this_net x) (gnum n) true;
  do se <- set (selected x) (gnum n) true;
  Ok (mkScan (sg x) (sc x) (sq x) tn se (anod x + 1) s).

(** src/graph.c 2562-2572, 2652-2667 and 2934-2949: the new entries are kept if the set can be reached from them.  Fuel: one
    unit per entry. *)
Fixpoint sift (fuel : nat) (lp2 : nat) (x : scan T) : res (scan T) :=
  match nth_error (bq (sq x)) lp2 with
  | None => Ok x
  | Some e =>
      match fuel with
      | 0 => Err Diverge
      | S f =>
          do n <- get (sg x) (bref e);
          do v <- GetNode (gnum n) (sc x);
          do (r, c) <- AreConnectedList (sc x) v (this_net x);
          let x := mkScan (sg x) c (sq x) (this_net x) (selected x) (anod x) (set_of x) in
          if r then do x <- join x (bref e); sift f (lp2 + 1) x
          else do q <- DequeueOne (sq x) lp2; sift f lp2 (mkScan (sg x) (sc x) q (this_net x) (selected x) (anod x) (set_of x))
      end
  end.
(** src/graph.c 2762-2769 and 2796-2803: all new entries are kept. *)
Definition keep (lp2 : nat) (x : scan T) : res (scan T) := foldM (fun x e => join x (bref e)) x (skipn lp2 (bq (sq x))).

(** src/graph.c 2558-2574, 2648-2669, 2757-2771, 2791-2805 and 2928-2951.  Fuel: one unit per layer.  Returns the position in the
    list and the layer too. *)
Fixpoint grow (strong : bool) (fuel : nat) (x : scan T) (lp d : nat) : res (scan T * nat * nat) :=
  match fuel with
  | 0 => Err Diverge
  | S f =>
      let size_ant := bsize (sq x) in
      do (st, lp) <- RenewQueue (length (sg x) + 1) (sg x, sq x) lp d;
      let x := mkScan (fst st) (sc x) (snd st) (this_net x) (selected x) (anod x) (set_of x) in
      do x <- (if strong then sift (length (bq (sq x))) lp x else keep lp x);
      if bsize (sq x) =? size_ant then Ok (x, lp, d + 1) else grow strong f x lp (d + 1)
  end.

(** src/graph.c 2543-2556, 2629-2646, 2736-2755 and 2905-2926: a new set with the first node left. *)
Definition begin_set (x : scan T) (empty : T) : res (nat * scan T) :=
  do p <- first_left (sg x) (selected x) 0;
  do n <- get (sg x) p;
  do se <- set (selected x) (gnum n) true;
  let tn := repeat false (length (this_net x)) in
  do (g, q) <- Enqueue (ResetNodesState (sg x), sq x) p None 0;
  do s <- act g empty p;
  do tn <- set tn (gnum n) true;
  Ok (p, mkScan g (sc x) q tn se (anod x + 1) s).
End Search.

(** src/graph.c 2542-2580: the loop of CountStronglyConnectedSets.  Fuel: one unit per set. *)
Fixpoint count_sets (fuel : nat) (nnod : nat) (x : scan unit) (nclus : nat) : res (nat * net A) :=
  match fuel with
  | 0 => Err Diverge
  | S f =>
      do (_, x) <- begin_set (fun _ s _ => Ok s) x tt;
      do (x, _, _) <- grow (fun _ s _ => Ok s) true (nnod + 1) x 0 0;
      do q <- ClearList (sq x);
      let x := mkScan (sg x) (sc x) q (this_net x) (selected x) (anod x) tt in
      if anod x <? nnod then count_sets f nnod x (nclus + 1) else Ok (nclus + 1, sg x)
  end.
(** src/graph.c 2513-2588, CountStronglyConnectedSets. *)
Definition CountStronglyConnectedSets (g : net A) : res (nat * net A) :=
  let nnod := CountNodes g in
  do c <- CopyNetwork g;
  count_sets (nnod + 1) nnod (mkScan g c CreateHeaderList (repeat false nnod) (repeat false nnod) 0 tt) 0.

(** A copy of a node, with soft links, is put at the end of a network: lines 2643-2645, 2659-2661, 2752-2754, 2763-2765.  The links
    are copied from the node of that number. *)
Definition put_node (g : net A) (loc : net A) (v : nat) : res (net A) :=
  do n <- get g v;
  do (i, loc) <- CreateNodeGraph loc (glabel n);
  do j <- GetNode (gnum n) g;
  do m <- get g j;
  upd_node loc i (fun t => CopyAdjacencyList m (set_gnum (gnum n) t)).
(** src/graph.c 2671-2673 and 2811-2813. *)
Definition finish_set (loc : net A) : res (net A) :=
  do loc <- RewireAdjacencyByLabel (CleanAdjacencies loc);
  RenumberNodes loc.

(** src/graph.c 2628-2692: the loop of GetLargestStronglyConnectedSet.  [giant] is NULL before the first set. *)
Fixpoint strong_sets (fuel : nat) (nnod : nat) (thres : Z) (x : scan (net A)) (maxS : nat) (giant : option (net A)) : res (option (net A) * net A) :=
  match fuel with
  | 0 => Err Diverge
  | S f =>
      do (_, x) <- begin_set put_node x [];
      do (x, _, _) <- grow put_node true (nnod + 1) x 0 0;
      do loc <- finish_set (set_of x);
      do q <- ClearList (sq x);
      let x := mkScan (sg x) (sc x) q (this_net x) (selected x) (anod x) [] in
      let '(maxS, giant, stop) := if maxS <? CountNodes loc then (CountNodes loc, Some loc, (nnod / 2 <? CountNodes loc) || (thres <? Z.of_nat (CountNodes loc))%Z) else (maxS, giant, false) in
      if stop then Ok (giant, sg x) else if anod x <? nnod then strong_sets f nnod thres x maxS giant else Ok (giant, sg x)
  end.
(** src/graph.c 2595-2701, GetLargestStronglyConnectedSet. *)
Definition GetLargestStronglyConnectedSet (g : net A) (thres : Z) : res (option (net A) * net A) :=
  let nnod := CountNodes g in
  do c <- CopyNetwork g;
  strong_sets (nnod + 1) nnod thres (mkScan g c CreateHeaderList (repeat false nnod) (repeat false nnod) 0 []) 0 None.

(** src/graph.c 2776-2808: the nodes behind [p] from which the set can be reached, with what can be reached from them. *)
Definition back_set (nnod : nat) (x : scan (net A)) (lp d p : nat) : res (scan (net A)) :=
  do (x, _, _) <- foldM (fun '(x, lp, d) p3 =>
    do n <- get (sg x) p3;
    do v <- GetNode (gnum n) (sc x);
    do (r, c) <- AreConnectedList (sc x) v (this_net x);
    let x := mkScan (sg x) c (sq x) (this_net x) (selected x) (anod x) (set_of x) in
    do b <- get (selected x) (gnum n);
    if r && negb b then
      do x <- join put_node x p3;
      do (g, q) <- Enqueue (sg x, sq x) p3 None d;
      grow put_node false (nnod + 1) (mkScan g (sc x) q (this_net x) (selected x) (anod x) (set_of x)) lp d
    else Ok (x, lp, d)) (x, lp, d) (seq (p + 1) (length (sg x) - (p + 1)));
  Ok x.
(** src/graph.c 2736-2833: the loop of GetLargestWeaklyConnectedSet. *)
Fixpoint weak_sets (fuel : nat) (nnod : nat) (thres : Z) (x : scan (net A)) (maxS : nat) (giant : option (net A)) : res (option (net A) * net A) :=
  match fuel with
  | 0 => Err Diverge
  | S f =>
      do (p, x) <- begin_set put_node x [];
      do (x, lp, d) <- grow put_node false (nnod + 1) x 0 0;
      do x <- back_set nnod x lp d p;
      do loc <- finish_set (set_of x);
      do q <- ClearList (sq x);
      let x := mkScan (sg x) (sc x) q (this_net x) (selected x) (anod x) [] in
      let '(maxS, giant, stop) := if maxS <? CountNodes loc then (CountNodes loc, Some loc, (nnod / 2 <? CountNodes loc) || (thres <? Z.of_nat (CountNodes loc))%Z) else (maxS, giant, false) in
      if stop then Ok (giant, sg x) else if anod x <? nnod then weak_sets f nnod thres x maxS giant else Ok (giant, sg x)
  end.
(** src/graph.c 2703-2841, GetLargestWeaklyConnectedSet. *)
Definition GetLargestWeaklyConnectedSet (g : net A) (thres : Z) : res (option (net A) * net A) :=
  let nnod := CountNodes g in
  do c <- CopyNetwork g;
  weak_sets (nnod + 1) nnod thres (mkScan g c CreateHeaderList (repeat false nnod) (repeat false nnod) 0 []) 0 None.

(** src/graph.c 2845-2863, ClearAdjacencies: links are dropped by the number they carry. *)
Definition ClearAdjacencies (g : net A) (in_net : list bool) : res (net A) :=
  mapM (fun n =>
    do ls <- foldM (fun ls l => do b <- get in_net (lnode l); Ok (if b then ls ++ [l] else ls)) [] (gadj n);
    Ok (set_gadj ls n)) g.
(** src/graph.c 2922-2925 and 2938-2942: the state is copied too. *)
Definition put_state (g : net A) (loc : net A) (v : nat) : res (net A) :=
  do n <- get g v;
  do (i, loc) <- CreateNodeGraph loc (glabel n);
  do j <- GetNode (gnum n) g;
  do m <- get g j;
  upd_node loc i (fun t => CopyAdjacencyList m (set_gstate (gstate m) (set_gnum (gnum m) t))).
(** src/graph.c 2904-2961: the loop of GetAllConnectedSets; [out] is net_list. *)
Fixpoint all_sets (fuel : nat) (nnod : nat) (x : scan (net A)) (out : list (option (net A))) (num : nat) : res (nat * list (option (net A)) * net A) :=
  match fuel with
  | 0 => Err Diverge
  | S f =>
      do (_, x) <- begin_set put_state x [];
      do (x, _, _) <- grow put_state true (nnod + 1) x 0 0;
      do loc <- ClearAdjacencies (set_of x) (this_net x);
      do loc <- RewireAdjacencyByLabel loc;
      do out <- set out num (Some loc);
      do q <- ClearList (sq x);
      let x := mkScan (sg x) (sc x) q (this_net x) (selected x) (anod x) [] in
      if anod x <? nnod then all_sets f nnod x out (num + 1) else Ok (num + 1, out, sg x)
  end.
(** src/graph.c 2885: MAX_SIZE_NET = 10001. *)
Definition MAX_SIZE_NET : nat := 100 * 100 + 1.
(** src/graph.c 2868-2968, GetAllConnectedSets. *)
Definition GetAllConnectedSets (g : net A) (out : list (option (net A))) : res (nat * list (option (net A)) * net A) :=
  do c <- CopyNetwork g;
  all_sets (CountNodes g + 1) (CountNodes g) (mkScan g c CreateHeaderList (repeat false MAX_SIZE_NET) (repeat false MAX_SIZE_NET) 0 []) out 0.
End Conn.

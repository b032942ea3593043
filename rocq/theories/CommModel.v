(** CommModel.v -- model of src/modules.c, SAGroupSplit and SACommunityIdent: communities by simulated annealing (legacy).

    Integers do not overflow.  Release of memory and what is printed are left out. *)
From Coq Require Import List Arith ZArith Bool QArith.
From Verif Require Import Base IoModel GraphModel BfsModel GroupModel NetModel ModulesModel MissModel.
Import ListNotations.
Local Open Scope nat_scope.

Section Comm.
Context {A : Type} {ops : NumOps A}.

(** The term of a group in the energy: 2 in / L - (tot + in)^2 / L^2, for integers in and k = tot + in. *)
Definition share_of (inn k L : Z) : A := nsub (ndiv (zA (2 * inn)) (zA L)) (ndiv (nmul (zA k) (zA k)) (nmul (zA L) (zA L))).
Definition term_of (G : grp A) (dk din L : Z) : A := share_of (pin G + din) (ptot G + pin G + dk) L.
(** src/modules.c 2210-2238 and 2418-2445: the change of energy when node [i] moves from group [a] to group [b]; NodeDegree is
    called, so the network may change. *)
Definition move_gain (g : net A) (Go Gn : grp A) (i : nat) (L : Z) : res (A * net A) :=
  do inold <- NLinksToGroup g i (plabel Go);
  do innew <- NLinksToGroup g i (plabel Gn);
  do (nlink, g) <- NodeDegree g i;
  let d := nsub n0 (term_of Go 0 0 L) in
  let d := nsub d (term_of Gn 0 0 L) in
  let d := nadd d (term_of Go (- Z.of_nat nlink) (- Z.of_nat inold) L) in
  Ok (nadd d (term_of Gn (Z.of_nat nlink) (Z.of_nat innew) L), g).
(** src/modules.c 2241 and 2448, 2489: the Metropolis rule; a random number is drawn if the energy would drop. *)
Definition climbs (d T : A) (ds : list A) : res (bool * list A) :=
  if nleb n0 d then Ok (true, ds) else do (u, ds) <- draw ds; Ok (nltb u (nexp (ndiv d T)), ds).

(** * SAGroupSplit *)

(** src/modules.c 2156-2158: draw numbers of groups until one differs from [o].  ceil of a number that is not negative. *)
Fixpoint redraw_ceil (n o : nat) (ds : list A) : res (nat * list A) :=
  match ds with
  | [] => Err RngOut
  | u :: ds => let x := nceil (nmul u (nofnat n)) in if x =? o then redraw_ceil n o ds else Ok (x, ds)
  end.
(** src/modules.c 2153-2171: merge groups until two are left.  Number 0 is the header of the partition, which has no list of
    nodes: merging it, or something into it, follows a null pointer. *)
Definition pos_of (k : nat) : res nat := match k with 0 => Err UB_null | S k => Ok k end.
Fixpoint merge_down (todo : nat) (st : net A * gpart A) (ngroups : nat) (ds : list A) : res (net A * gpart A * list A) :=
  match todo with
  | 0 => Ok (st, ds)
  | S todo =>
      do (u, ds) <- draw ds;
      let g1 := nceil (nmul u (nofnat ngroups)) in
      do (g2, ds) <- redraw_ceil ngroups g1 ds;
      do a <- pos_of g1;
      do b <- pos_of g2;
      do st <- MergeGroups st a b;
      merge_down todo (fst st, CompressPart (snd st)) (ngroups - 1) ds
  end.
(** src/modules.c 2185-2193: every node goes to one of two groups. *)
Definition place_half (st : net A * gpart A * nat * list A) (i : nat) : res (net A * gpart A * nat * list A) :=
  let '(g, P, total, ds) := st in
  do (d, g) <- NodeDegree g i;
  do (u, ds) <- draw ds;
  do gp <- AddNodeToGroup (g, P) (nfloor (nmul u (nofnat 2))) i;
  Ok (gp, total + d, ds).
(** src/modules.c 2202-2244: one attempt to move a node to the other group. *)
Definition split_move (nnod : nat) (T : A) (L : Z) (st : net A * gpart A * list A) (_ : nat) : res (net A * gpart A * list A) :=
  let '(g, P, ds) := st in
  do (u, ds) <- draw ds;
  let i := nfloor (nmul u (nofnat nnod)) in
  do n <- get g i;
  do o <- (match ggroup n with Some o => Ok o | None => Err UB_oob end);
  let w := if o =? 0 then 1 else 0 in
  do Go <- get P o;
  do Gn <- get P w;
  do (d, g) <- move_gain g Go Gn i L;
  do (acc, ds) <- climbs d T ds;
  if acc : bool then do (_, gp) <- MoveNode (g, P) i o w; Ok (gp, ds) else Ok (g, P, ds).
(** src/modules.c 2198-2248: while T > Tf. *)
Fixpoint split_cool (fuel nnod : nat) (Tf Ts T : A) (L : Z) (st : net A * gpart A * list A) : res (net A * gpart A * list A) :=
  if nltb Tf T then
    match fuel with
    | 0 => Err Diverge
    | S f => do st <- foldM (split_move nnod T L) st (seq 0 nnod); split_cool f nnod Tf Ts (nmul T Ts) L st
    end
  else Ok st.
(** src/modules.c 2112-2258, SAGroupSplit, for the list of nodes of a group; the partition of the new network is returned, whose
    nodes are gone, so that only the labels of its cells are of use. *)
Definition SAGroupSplit (g : net A) (cells : list (link A)) (Ti Tf Ts : A) (cluster_sw : bool) (ds : list A) : res (gpart A * list A) :=
  do c <- BuildNetFromGroup g cells;
  do (c, split) <- ClustersPartition c;
  let ngroups := NGroups split in
  do (use, ds) <- (if cluster_sw && (1 <? ngroups) then do (u, ds) <- draw ds; Ok (nltb u (nofQ (1 # 2)), ds) else Ok (false, ds));
  if use : bool then
    do (_, split, ds) <- merge_down (ngroups - 2) (c, split) ngroups ds;
    Ok (split, ds)
  else
    let c := ResetNetGroup c in
    let split := snd (CreateGroup (snd (CreateGroup [] 0)) 1) in
    do (c, split, total, ds) <- foldM place_half (c, split, 0, ds) (seq 0 (length c));
    let L := Nat.div total 2 in
    if 0 <? L then do (_, split, ds) <- split_cool (length ds + 1) (length c) Tf Ts Ti (Z.of_nat L) (c, split, ds); Ok (split, ds)
    else Ok (split, ds).

(** * SACommunityIdent *)

(** The variables of the annealing: the network, the partition, the array of pointers to groups by label, the energy, and the
    random numbers still to come. *)
Record sa := mkSA { snet : net A; spart : gpart A; sgl : list (option nat); sE : A; sds : list A }.
Definition group_at (st : sa) (lab : nat) : res nat := do k <- get (sgl st) lab; deref k.
Definition label_of_node (st : sa) (nlist : list (option nat)) (k : nat) : res (nat * nat) :=
  do p <- get nlist k;
  do p <- deref p;
  do n <- get (snet st) p;
  do o <- (match ggroup n with Some o => Ok o | None => Err UB_oob end);
  Ok (p, o).

(** src/modules.c 2335-2357: the initial groups, one for each node, or [ngroup] of them filled at random.  The totals of the
    degrees are summed. *)
Definition start_own (st : net A * gpart A * list (option nat) * list (option nat) * nat) (i : nat)
  : res (net A * gpart A * list (option nat) * list (option nat) * nat) :=
  let '(g, P, gl, nlist, total) := st in
  do n <- get g i;
  let '(k, P) := CreateGroup P (gnum n) in
  do gl <- set gl (gnum n) (Some k);
  do nlist <- set nlist (gnum n) (Some i);
  do (g, P) <- AddNodeToGroup (g, P) k i;
  do (d, g) <- NodeDegree g i;
  Ok (g, P, gl, nlist, total + d).
Definition start_random (ngroup : nat) (st : net A * gpart A * list (option nat) * list (option nat) * nat * list A) (i : nat)
  : res (net A * gpart A * list (option nat) * list (option nat) * nat * list A) :=
  let '(g, P, gl, nlist, total, ds) := st in
  do n <- get g i;
  do nlist <- set nlist (gnum n) (Some i);
  do (u, ds) <- draw ds;
  do k <- get gl (nfloor (nmul u (nofnat ngroup)));
  do k <- deref k;
  do (g, P) <- AddNodeToGroup (g, P) k i;
  do (d, g) <- NodeDegree g i;
  Ok (g, P, gl, nlist, total + d, ds).
(** [own] is initial_sw == 'o' (otherwise 'r').  Returns also the number of groups. *)
Definition sa_start (g : net A) (own : bool) (ngroup : nat) (ds : list A)
  : res (net A * gpart A * list (option nat) * list (option nat) * nat * nat * list A) :=
  let nnod := CountNodes g in
  let g := ResetNetGroup g in
  if own then
    do (g, P, gl, nlist, total) <- foldM start_own (g, [], repeat None nnod, repeat None nnod, 0) (seq 0 (length g));
    Ok (g, P, gl, nlist, nnod, total, ds)
  else
    do (gl, P) <- foldM (fun '(gl, P) i => let '(k, P) := CreateGroup P i in do gl <- set gl i (Some k); Ok (gl, P)) (repeat None ngroup, []) (seq 0 ngroup);
    do (g, P, gl, nlist, total, ds) <- foldM (start_random ngroup) (g, P, gl, repeat None nnod, 0, ds) (seq 0 (length g));
    Ok (g, P, gl, nlist, ngroup, total, ds).

Section Round.
Variables nnod ngroup : nat.
Variable nlist : list (option nat).
Variable L : Z.
Variables Ti T : A.

(** src/modules.c 2411-2451: an individual move. *)
Definition sa_move (st : sa) (_ : nat) : res sa :=
  do (u, ds) <- draw (sds st);
  do (i, o) <- label_of_node st nlist (nfloor (nmul u (nofnat nnod)));
  do (w, ds) <- redraw ngroup o ds;
  do ko <- group_at st o;
  do kw <- group_at st w;
  do Go <- get (spart st) ko;
  do Gw <- get (spart st) kw;
  do (d, g) <- move_gain (snet st) Go Gw i L;
  do (acc, ds) <- climbs d T ds;
  if acc : bool then
    do (_, gp) <- MoveNode (g, spart st) i ko kw;
    Ok (mkSA (fst gp) (snd gp) (sgl st) (nadd (sE st) d) ds)
  else Ok (mkSA g (spart st) (sgl st) (sE st) ds).

(** src/modules.c 2463-2466: draw nodes until one is not in group [a]. *)
Fixpoint other_group (st : sa) (a : nat) (ds : list A) : res (nat * list A) :=
  match ds with
  | [] => Err RngOut
  | u :: ds =>
      do (_, b) <- label_of_node st nlist (nfloor (nmul u (nofnat nnod)));
      if a =? b then other_group st a ds else Ok (b, ds)
  end.
(** src/modules.c 2469-2486 and 2522-2542: the change of energy when two groups are merged. *)
Definition merge_gain (g : net A) (P : gpart A) (k1 k2 : nat) : res A :=
  do nlink <- NG2GLinks g P k1 k2;
  do G1 <- get P k1;
  do G2 <- get P k2;
  let d := nsub n0 (term_of G1 0 0 L) in
  let d := nsub d (term_of G2 0 0 L) in
  Ok (nadd d (nsub (ndiv (nmul (nofQ (2 # 1)) (zA (pin G1 + pin G2 + Z.of_nat nlink))) (zA L))
                   (ndiv (nmul (zA (ptot G1 + pin G1 + ptot G2 + pin G2)) (zA (ptot G1 + pin G1 + ptot G2 + pin G2))) (nmul (zA L) (zA L))))).
(** src/modules.c 2459-2493: a merge. *)
Definition sa_merge (st : sa) : res sa :=
  do (u, ds) <- draw (sds st);
  do (_, a) <- label_of_node st nlist (nfloor (nmul u (nofnat nnod)));
  do ka <- group_at st a;
  do Ga <- get (spart st) ka;
  if (psize Ga <? Z.of_nat nnod)%Z then
    do (b, ds) <- other_group st a ds;
    do kb <- group_at st b;
    do d <- merge_gain (snet st) (spart st) ka kb;
    do (acc, ds) <- climbs d T ds;
    if acc : bool then
      do gp <- MergeGroups (snet st, spart st) ka kb;
      Ok (mkSA (fst gp) (snd gp) (sgl st) (nadd (sE st) d) ds)
    else Ok (mkSA (snet st) (spart st) (sgl st) (sE st) ds)
  else Ok (mkSA (snet st) (spart st) (sgl st) (sE st) ds).
(** src/modules.c 2496-2553: a split.  The dictionary of labels was made from the same nodes, whose labels do not change. *)
Definition move_cell (ka ke : nat) (gp : net A * gpart A) (l : link A) : res (net A * gpart A) :=
  do i <- deref (GetNodeDict (llabel l) (fst gp));
  do (_, gp) <- MoveNode gp i ka ke;
  Ok gp.
Definition sa_split (st : sa) : res sa :=
  do (u, ds) <- draw (sds st);
  do (_, a) <- label_of_node st nlist (nfloor (nmul u (nofnat nnod)));
  match GetEmptyGroup (spart st) with
  | None => Ok (mkSA (snet st) (spart st) (sgl st) (sE st) ds)
  | Some k =>
      do Ge <- get (spart st) k;
      do ka <- group_at st a;
      do ke <- group_at st (plabel Ge);
      do Ga <- get (spart st) ka;
      do (split, ds) <- SAGroupSplit (snet st) (pnodes Ga) Ti T (nofQ (95 # 100)) true ds;
      do half <- (match split with [] => Err UB_null | H :: _ => Ok (pnodes H) end);
      do gp <- foldM (move_cell ka ke) (snet st, spart st) half;
      do d <- merge_gain (fst gp) (snd gp) ka ke;
      do (back, ds) <- (if nltb n0 d then do (u, ds) <- draw ds; Ok (nltb (nexp (ndiv (nopp d) T)) u, ds) else Ok (false, ds));
      if back : bool then
        do gp <- MergeGroups gp ka ke;
        Ok (mkSA (fst gp) (snd gp) (sgl st) (sE st) ds)
      else Ok (mkSA (fst gp) (snd gp) (sgl st) (nsub (sE st) d) ds)
  end.
(** src/modules.c 2408-2555: all moves at one temperature. *)
Definition sa_round (collective : bool) (cicle1 cicle2 : nat) (st : sa) : res sa :=
  do st <- foldM sa_move st (seq 0 cicle1);
  if collective then foldM (fun st _ => do st <- sa_merge st; sa_split st) st (seq 0 cicle2) else Ok st.
End Round.

(** src/modules.c 2579-2580: the pointers to the groups of the copy. *)
Definition remap (gl : list (option nat)) (P : gpart A) : res (list (option nat)) :=
  foldM (fun gl k => do G <- get P k; set gl (plabel G) (Some k)) gl (seq 0 (length P)).
(** src/modules.c 2597-2604: save the partition if it is better than the best one so far. *)
Definition sa_best (st : sa) (best : option (gpart A)) (bestE : A) : res (sa * option (gpart A) * A) :=
  if nltb bestE (sE st) then
    do (g, B) <- CopyPartition (snet st) (spart st);
    do (g, P) <- MapPartToNet (g, spart st);
    Ok (mkSA g P (sgl st) (sE st) (sds st), Some B, sE st)
  else Ok (st, best, bestE).
(** src/modules.c 2558-2591: the counter of rounds without a change; back to the best partition if all but done. *)
Definition eps : A := nofQ (1 # 1000000).
Definition sa_count (st : sa) (best : option (gpart A)) (bestE ant : A) (count : nat) : res (sa * nat) :=
  if nltb (ndiv (nabs (nsub (sE st) ant)) (nabs ant)) eps || nltb (nabs ant) eps then
    if (count + 1 =? 25) && nltb (nadd (sE st) eps) bestE then
      do B <- deref best;
      do (g, P) <- CopyPartition (snet st) B;
      do gl <- remap (sgl st) P;
      do (g, P) <- MapPartToNet (g, P);
      Ok (mkSA g P gl bestE (sds st), 0)
    else Ok (st, count + 1)
  else Ok (st, 0).
(** src/modules.c 2378-2623: the loop over the temperatures.  Returns also the best partition. *)
Fixpoint sa_loop (fuel nnod ngroup : nat) (nlist : list (option nat)) (L : Z) (Ti Tf Ts : A) (collective : bool) (cicle1 cicle2 : nat)
    (T ant : A) (count : nat) (best : option (gpart A)) (bestE : A) (st : sa) : res (sa * nat * option (gpart A) * A) :=
  if nltb Tf T && (count <? 25) then
    match fuel with
    | 0 => Err Diverge
    | S f =>
        do st <- sa_round nnod ngroup nlist L Ti T collective cicle1 cicle2 st;
        do (st, count) <- sa_count st best bestE ant count;
        let ant := sE st in
        do (st, best, bestE) <- sa_best st best bestE;
        sa_loop f nnod ngroup nlist L Ti Tf Ts collective cicle1 cicle2 (nmul T Ts) ant count best bestE st
    end
  else Ok (st, count, best, bestE).
(** src/modules.c 2364-2372: numbers of moves at each temperature. *)
Definition cycles (fac : A) (k least : nat) : nat :=
  let x := nmul fac (nofnat k) in if nltb x (nofnat least) then least else nfloor x.
(** src/modules.c 2279-2633, SACommunityIdent.  RemovePartition follows a null pointer if there is no best partition. *)
Definition SACommunityIdent (g : net A) (Ti Tf Ts fac : A) (ngroup : nat) (own collective : bool) (ds : list A) : res (net A * gpart A * list A) :=
  let nnod := CountNodes g in
  do (g, P, gl, nlist, ngroup, total, ds) <- sa_start g own ngroup ds;
  do (st, _, best, _) <- sa_loop (length ds + 1) nnod ngroup nlist (Z.of_nat total) Ti Tf Ts collective (cycles fac (nnod * nnod) 10) (cycles fac nnod 2)
                           Ti n0 0 None (nofQ (-100 # 1)) (mkSA g P gl (Modularity P) ds);
  do _ <- deref best;
  Ok (snet st, CompressPart (spart st), sds st).
End Comm.
Arguments sa A : clear implicits.

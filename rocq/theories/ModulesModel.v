(** ModulesModel.v -- model of src/modules.c, partitions as a whole: mapping to a network, modularity, copies, clusters, roles,
    files and comparisons.  See GroupModel.v for the data.

    A cell made by AddNodeToGroupSoft has node = -1 and ref = NULL in C; here its [lref] is None and its [lnode] is 0, and
    reading its number as an array index is an out-of-bounds access. *)
From Coq Require Import List Arith Ascii ZArith Bool QArith.
From Verif Require Import Base PartModel IoModel GraphModel BfsModel GroupModel.
Import ListNotations.
Local Open Scope nat_scope.

Section Modules.
Context {A : Type} {ops : NumOps A}.

(** (double)z of an int. *)
Definition zA (z : Z) : A := nofQ (inject_Z z).

(** src/modules.c 1797-1815, Modularity.  The ints do not overflow. *)
Definition Modularity (P : gpart A) : A :=
  let links2 := fold_left (fun s G => (s + (ptot G + pin G))%Z) P 0%Z in
  fold_left (fun m G =>
    nadd m (nsub (ndiv (zA (2 * pin G)) (zA links2))
                 (ndiv (nmul (zA (pin G + ptot G)) (zA (pin G + ptot G))) (nmul (zA links2) (zA links2))))) P n0.

(** src/modules.c 1822-1840, ModularityWeight. *)
Definition ModularityWeight (P : gpart A) : A :=
  let links2 := fold_left (fun s G => nadd s (nadd (ptotW G) (pinW G))) P n0 in
  fold_left (fun m G =>
    nadd m (nsub (ndiv (nmul (nofQ (2 # 1)) (pinW G)) links2)
                 (ndiv (nmul (nadd (pinW G) (ptotW G)) (nadd (pinW G) (ptotW G))) (nmul links2 links2)))) P n0.

(** src/graph.c 350-367 and 755-771, MakeLabelDict and GetNodeDict: the search tree holds one entry per label, which points to
    the last node with that label.  (The tree itself is the one of tsearch and tfind.) *)
Fixpoint last_label (lab : label) (pos : nat) (g : net A) : option nat :=
  match g with
  | [] => None
  | n :: g' => match last_label lab (pos + 1) g' with
               | Some k => Some k
               | None => if label_eqb (glabel n) lab then Some pos else None
               end
  end.
Definition GetNodeDict (lab : label) (g : net A) : option nat := last_label lab 0 g.

(** src/modules.c 1255-1266: point the cells of a group to the network. *)
Definition map_cell (lab : nat) (st : net A * list (link A)) (l : link A) : res (net A * list (link A)) :=
  let '(g, cells) := st in
  do i <- deref (GetNodeDict (llabel l) g);
  do n <- get g i;
  do g <- set g i (set_ggroup (Some lab) n);
  Ok (g, cells ++ [mkLink (gnum n) (llabel l) (lstatus l) (Some i) (lbtw l) (lweight l)]).
Definition map_group (g : net A) (G : grp A) : res (net A * grp A) :=
  do (g, cells) <- foldM (map_cell (plabel G)) (g, []) (pnodes G);
  Ok (g, mkGroup (plabel G) (psize G) 0 0 0 n0 n0 n0 cells).

(** src/modules.c 1270-1287: count the links of a group.  The division of the int inlinks rounds towards 0. *)
Definition count_cell (lab : nat) (st : net A * Z * Z * A * A) (l : link A) : res (net A * Z * Z * A * A) :=
  let '(g, tot, inn, totW, inW) := st in
  do i <- deref (lref l);
  do (d, g) <- NodeDegree g i;
  do k <- NLinksToGroup g i lab;
  do (s, g) <- NodeStrength g i;
  do w <- StrengthToGroup g i lab;
  Ok (g, (tot + Z.of_nat d)%Z, (inn + Z.of_nat k)%Z, nadd totW s, nadd inW w).
Definition count_group (g : net A) (G : grp A) : res (net A * grp A) :=
  do (g, tot, inn, totW, inW) <- foldM (count_cell (plabel G)) (g, ptot G, pin G, ptotW G, pinW G) (pnodes G);
  let inn := Z.quot inn 2 in
  let tot := (tot - inn)%Z in
  let inW := ndiv inW (nofQ (2 # 1)) in
  let totW := nsub totW inW in
  Ok (g, mkGroup (plabel G) (psize G) tot inn (tot - inn) totW inW (nsub totW inW) (pnodes G)).

(** src/modules.c 1231-1294, MapPartToNet. *)
Definition MapPartToNet (st : net A * gpart A) : res (net A * gpart A) :=
  let '(g, P) := st in
  let g := ResetNetGroup g in
  do (g, P) <- foldM (fun '(g, Q) G => do (g, G) <- map_group g G; Ok (g, Q ++ [G])) (g, []) P;
  foldM (fun '(g, Q) G => do (g, G) <- count_group g G; Ok (g, Q ++ [G])) (g, []) P.

(** src/modules.c 999-1025, CopyGroup (a group without offspring), and 1034-1049, CopyPartition. *)
Definition CopyGroup (g : net A) (Q : gpart A) (G : grp A) : res (net A * gpart A) :=
  let '(k, Q) := CreateGroup Q (plabel G) in
  foldM (fun st l => do i <- deref (lref l); AddNodeToGroup st k i) (g, Q) (pnodes G).
Definition CopyPartition (g : net A) (P : gpart A) : res (net A * gpart A) :=
  foldM (fun '(g, Q) G => CopyGroup g Q G) (g, []) P.

(** src/modules.c 182-208, CreateEquiNPartition.  [p] is the pointer into the list of nodes: the number of nodes passed, or
    None once it is null. *)
Definition equi_step (N k : nat) (sp : (net A * gpart A) * option nat) (_ : nat) : res ((net A * gpart A) * option nat) :=
  let '(st, p) := sp in
  do c <- deref p;
  if c <? N then do st <- AddNodeToGroup st k c; Ok (st, Some (c + 1)) else Ok (st, None).
Definition equi_group (N gsize : nat) (sp : (net A * gpart A) * option nat) (i : nat) : res ((net A * gpart A) * option nat) :=
  let '(st, p) := sp in
  let '(k, Q) := CreateGroup (snd st) i in
  foldM (equi_step N k) ((fst st, Q), p) (seq 0 gsize).
Definition CreateEquiNPartition (g : net A) (gsize : nat) : res (net A * gpart A) :=
  do _ <- check (negb (gsize =? 0)) DivZero;
  let ngroups := Nat.div (CountNodes g) gsize in
  do (st, _) <- foldM (equi_group (length g) gsize) ((g, []), Some 0) (seq 0 (ngroups + 1));
  Ok (fst st, CompressPart (snd st)).

(** src/modules.c 247-283, CreatePartitionFromInGroup.  [glist] maps a label to the position of its group. *)
Definition CreatePartitionFromInGroup (g : net A) : res (net A * gpart A) :=
  let maxNGroup := fold_left (fun m n => match ggroup n with Some x => if m <? x then x else m | None => m end) g 0 in
  do (st, _) <- foldM (fun '(st, glist) i =>
    do n <- get (fst st) i;
    match ggroup n with
    | None => Err UB_oob
    | Some x =>
        do o <- get glist x;
        match o with
        | Some k => do st <- AddNodeToGroup st k i; Ok (st, glist)
        | None =>
            let '(k, Q) := CreateGroup (snd st) x in
            do glist <- set glist x (Some k);
            do st <- AddNodeToGroup (fst st, Q) k i; Ok (st, glist)
        end
    end) ((g, []), repeat None (maxNGroup + 1)) (seq 0 (length g));
  Ok st.

(** src/modules.c 1424-1489, ClustersPartition.  [cluster_layers] is the loop of lines 1463-1477. *)
Fixpoint cluster_layers (fuel : nat) (k : nat) (st : net A * gpart A) (q : bfs) (lp d anod : nat) : res (net A * gpart A * bfs * nat) :=
  match fuel with
  | 0 => Err Diverge
  | S f =>
      let size_ant := bsize q in
      do (gq, lp) <- RenewQueue (length (fst st) + 1) (fst st, q) lp d;
      let '(g, q) := gq in
      do st <- foldM (fun st e => AddNodeToGroup st k (bref e)) (g, snd st) (skipn lp (bq q));
      let anod := anod + length (skipn lp (bq q)) in
      if bsize q =? size_ant then Ok (st, q, anod) else cluster_layers f k st q lp (d + 1) anod
  end.
(** The first node from position [from] on that has no group; running off the list dereferences a null pointer. *)
Fixpoint find_free (g : net A) (pos : nat) : option nat :=
  match g with
  | [] => None
  | n :: g' => match ggroup n with None => Some pos | Some _ => find_free g' (pos + 1) end
  end.
Fixpoint clusters (fuel : nat) (st : net A * gpart A) (q : bfs) (from anod : nat) : res (net A * gpart A) :=
  match fuel with
  | 0 => Err Diverge
  | S f =>
      let '(g, P) := st in
      do p <- deref (find_free (skipn from g) from);
      let '(k, P) := CreateGroup P (length P) in
      do st <- AddNodeToGroup (g, P) k p;
      do (g, q) <- Enqueue (ResetNodesState (fst st), q) p None 0;
      do (st, q, anod) <- cluster_layers (length g + 1) k (g, snd st) q 0 0 (anod + 1);
      do q <- ClearList q;
      if anod <? CountNodes g then clusters f st q (p + 1) anod else Ok st
  end.
Definition ClustersPartition (g : net A) : res (net A * gpart A) :=
  clusters (length g + 1) (ResetNetGroup g, []) CreateHeaderList 0 0.

(** src/modules.c 415-443, AddNodeToGroupSoft. *)
Definition AddNodeToGroupSoft (P : gpart A) (k : nat) (lab : label) : res (gpart A) :=
  do lab <- store_label lab;
  do G <- get P k;
  set P k (mkGroup (plabel G) (psize G + 1) (ptot G) (pin G) (pout G) (ptotW G) (pinW G) (poutW G)
             (pnodes G ++ [mkLink 0 lab 0 None n0 n0])).

(** src/modules.c 1530-1564, FPrintPartition in list mode. *)
Definition separator : list ascii := ["/"; "/"; "/"]%char.
Definition FPrintPartition (P : gpart A) : list ascii :=
  flat_map (fun G => if (0 <? psize G)%Z then flat_map (fun l => llabel l ++ [nl]) (pnodes G) ++ separator ++ [nl] else []) P.

(** src/modules.c 143-174, FCreatePartition.  [fscanf(inF, "%s\n", label)] reads a word and skips the blanks behind it; at the
    end of the file it leaves the label as it is, so that the inner loop then never ends.  feof becomes true when a read meets
    the end of the file.  Before the first read the label is uninitialised. *)
Definition scan_word (s : list ascii) : option (label * list ascii) :=
  match scan_s s with Some (w, s) => Some (w, snd (span is_space s)) | None => None end.
Fixpoint read_group (fuel : nat) (P : gpart A) (k : nat) (lab : label) (s : list ascii) : res (gpart A * list ascii) :=
  match fuel with
  | 0 => Err Diverge
  | S f =>
      if label_eqb lab separator then Ok (P, s)
      else do P <- AddNodeToGroupSoft P k lab;
           match scan_word s with
           | None => Err Diverge
           | Some (lab, s) => do lab <- store_label lab; read_group f P k lab s
           end
  end.
Fixpoint read_partition (fuel : nat) (P : gpart A) (s : list ascii) (last : option label) : res (gpart A) :=
  match fuel with
  | 0 => Err Diverge
  | S f =>
      let '(k, P) := CreateGroup P (length P) in
      do (lab, s) <- match scan_word s with
                     | Some (lab, s) => do lab <- store_label lab; Ok (lab, s)
                     | None => match last with Some lab => Ok (lab, []) | None => Err UB_uninit end
                     end;
      do (P, s) <- read_group (length s + 2) P k lab s;
      match s with [] => Ok P | _ => read_partition f P s (Some separator) end
  end.
Definition FCreatePartition (file : list ascii) : res (gpart A) := read_partition (length file + 1) [] file None.

(** src/modules.c 1688-1781, CorrectlyClassified.  The arrays have PartitionSize(refpart) cells. *)
Definition label_at (v : list Z) (z : Z) : res Z := if (z <? 0)%Z then Err UB_oob else get v (Z.to_nat z).
Definition node_at (v : list Z) (l : link A) : res Z := match lref l with None => Err UB_oob | Some _ => get v (lnode l) end.
Fixpoint drop_doubles (max_score map : list Z) (act : gpart A) : res (list Z) :=
  match act with
  | [] => Ok map
  | G1 :: rest =>
      do map <- foldM (fun map G2 =>
        do a <- get map (plabel G1);
        do b <- get map (plabel G2);
        if (a =? b)%Z then
          do x <- get max_score (plabel G1);
          do y <- get max_score (plabel G2);
          if (y <? x)%Z then set map (plabel G2) (-1)%Z else set map (plabel G1) (-1)%Z
        else Ok map) map rest;
      drop_doubles max_score map rest
  end.
Definition cc_group (group : list Z) (G : grp A) : res (list Z) :=
  foldM (fun group l => match lref l with None => Err UB_oob | Some _ => set group (lnode l) (Z.of_nat (plabel G)) end) group (pnodes G).
Definition cc_score (group : list Z) (score : list Z) (l : link A) : res (list Z) :=
  do x <- node_at group l; do y <- label_at score x; set score (Z.to_nat x) (y + 1)%Z.
Definition cc_best (G2 : grp A) (st : list Z * list Z * list Z) (G1 : grp A) : res (list Z * list Z * list Z) :=
  let '(score, max_score, map) := st in
  do s <- get score (plabel G1);
  do m <- get max_score (plabel G2);
  do (max_score, map) <- (if (m <? s)%Z then
       do max_score <- set max_score (plabel G2) s;
       do map <- set map (plabel G2) (Z.of_nat (plabel G1)); Ok (max_score, map) else Ok (max_score, map));
  do score <- set score (plabel G1) 0%Z;
  Ok (score, max_score, map).
Definition cc_map (ref : gpart A) (group : list Z) (st : list Z * list Z * list Z) (G2 : grp A) : res (list Z * list Z * list Z) :=
  let '(score, max_score, map) := st in
  do score <- foldM (cc_score group) score (pnodes G2);
  foldM (cc_best G2) (score, max_score, map) ref.
Definition cc_node (group : list Z) (m : Z) (correct : Z) (l : link A) : res Z :=
  do x <- node_at group l; Ok (if (x =? m)%Z then (correct + 1)%Z else correct).
Definition cc_count (group map : list Z) (st : Z * Z) (G2 : grp A) : res (Z * Z) :=
  let '(nnod, correct) := st in
  let nnod := (nnod + psize G2)%Z in
  do m <- get map (plabel G2);
  if (-1 <? m)%Z then do correct <- foldM (cc_node group m) correct (pnodes G2); Ok (nnod, correct)
  else Ok (nnod, correct).
Definition CorrectlyClassified (ref act : gpart A) : res A :=
  let nnod := PartitionSize ref in
  do _ <- check (0 <=? nnod)%Z UB_oob;
  let cells := Z.to_nat nnod in
  do group <- foldM cc_group (repeat (-1)%Z cells) ref;
  do (score, max_score, map) <- foldM (cc_map ref group) (repeat 0%Z cells, repeat 0%Z cells, repeat (-1)%Z cells) act;
  do map <- drop_doubles max_score map act;
  do (nnod, correct) <- foldM (cc_count group map) (nnod, 0%Z) act;
  Ok (ndiv (zA correct) (zA nnod)).

(** src/modules.c 855-866, NLinksToGroupByNum, for a label that may be -1. *)
Definition same_group (a b : option nat) : bool := match a, b with Some x, Some y => x =? y | None, None => true | _, _ => false end.
Definition NLinksToGroupByNum (g : net A) (i : nat) (lab : option nat) : res nat :=
  do n <- get g i;
  foldM (fun c l => do j <- deref (lref l); do m <- get g j; Ok (if same_group (ggroup m) lab then c + 1 else c)) 0 (gadj n).

(** src/modules.c 1857-1876, ParticipationCoefficient. *)
Definition ParticipationCoefficient (g : net A) (i : nat) : res (A * net A) :=
  do (nlink, g) <- NodeDegree g i;
  if nlink =? 0 then Ok (n0, g)
  else
    do n <- get g i;
    do P <- foldM (fun P l =>
      do j <- deref (lref l); do m <- get g j;
      do k <- NLinksToGroupByNum g i (ggroup m);
      Ok (nadd P (ndiv (nofnat k) (nofnat (nlink * nlink))))) n0 (gadj n);
    Ok (nsub n1 P, g).

(** src/modules.c 1889-1913, WeightedParticipationCoefficient. *)
Definition WeightedParticipationCoefficient (g : net A) (i : nat) (P : gpart A) : res (A * net A) :=
  do (strength, g) <- NodeStrength g i;
  let squared_st := nmul strength strength in
  do (nlink, g) <- NodeDegree g i;
  if nlink =? 0 then Ok (n0, g)
  else
    do s <- foldM (fun s G => do w <- StrengthToGroup g i (plabel G); Ok (nadd s (ndiv (nmul w w) squared_st))) n0 P;
    Ok (nsub n1 s, g).

(** src/modules.c 1920-1953 and 1960-1998, WithinModuleRelativeDegree and WithinModuleRelativeStrength, once the group has been
    found; [to] is NLinksToGroup or StrengthToGroup. *)
Definition zscore_in (to : nat -> res A) (i : nat) (G : grp A) : res A :=
  do (kmean, k2mean) <- foldM (fun '(km, k2) l => do j <- deref (lref l); do x <- to j; Ok (nadd km x, nadd k2 (nmul x x))) (n0, n0) (pnodes G);
  let kmean := ndiv kmean (zA (psize G)) in
  let k2mean := ndiv k2mean (zA (psize G)) in
  let kstd := nsqrt (nsub k2mean (nmul kmean kmean)) in
  if neqb kstd n0 then Ok n0 else do x <- to i; Ok (ndiv (nsub x kmean) kstd).
Definition WithinModuleRelativeDegree (g : net A) (i : nat) (G : grp A) : res A :=
  zscore_in (fun j => do k <- NLinksToGroup g j (plabel G); Ok (nofnat k)) i G.
Definition WithinModuleRelativeStrength (g : net A) (i : nat) (G : grp A) : res A :=
  zscore_in (fun j => StrengthToGroup g j (plabel G)) i G.

(** src/modules.c 2007-2044, CatalogRoleIdent.  (WithinModuleRelativeDegree is called with the group itself, which carries the
    label of the node.) *)
Definition CatalogRoleIdent (g : net A) (mod_ : gpart A) : res (net A * gpart A * gpart A) :=
  do (g, mod_) <- MapPartToNet (g, mod_);
  let roles := fold_left (fun Q i => snd (CreateGroup Q i)) (seq 0 7) [] in
  do (g, roles) <- foldM (fun '(g, roles) G =>
    foldM (fun '(g, roles) l =>
      do i <- deref (lref l);
      do (P, g) <- ParticipationCoefficient g i;
      do z <- WithinModuleRelativeDegree g i G;
      do n <- get g i;
      do roles <- AddNodeToGroupSoft roles (GetRole P z) (glabel n);
      Ok (g, roles)) (g, roles) (pnodes G)) (g, roles) mod_;
  do (g, roles) <- MapPartToNet (g, roles);
  Ok (g, roles, mod_).
End Modules.

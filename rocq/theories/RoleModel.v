(** RoleModel.v -- model of the remaining functions of src/modules.c: the operations on groups that do not count links, the two
    other ways to map a partition to a network, the removal of the links of groups, the statistics and block model of a
    partition, and the roles of the nodes by strength.

    Products and sums of ints are unbounded.  Representation as in GroupModel.v and ModulesModel.v. *)
From Coq Require Import List Arith ZArith Ascii Bool QArith.
From Verif Require Import Base PartModel ToolsModel IoModel GraphModel NetModel GroupModel ModulesModel.
Import ListNotations.
Local Open Scope nat_scope.

Section Roles.
Context {A : Type} {ops : NumOps A}.

(** src/modules.c 217-239, CreateEquiNPartitionSoft; [show] is the conversion "%d" of sprintf. *)
Definition CreateEquiNPartitionSoft (show : nat -> label) (ngroups gsize : nat) : res (gpart A) :=
  foldM (fun P i =>
    let '(k, P) := CreateGroup P i in
    foldM (fun P j => AddNodeToGroupSoft P k (show (j + i * gsize + 1))) P (seq 0 gsize)) [] (seq 0 ngroups).

(** src/modules.c 379-408, AddNodeToGroupFast. *)
Definition AddNodeToGroupFast (st : net A * gpart A) (k i : nat) : res (net A * gpart A) :=
  let '(g, P) := st in
  do G <- get P k;
  do n <- get g i;
  let cells := pnodes G ++ [mkLink (gnum n) (glabel n) 0 (Some i) n0 n0] in
  do P <- set P k (mkGroup (plabel G) (psize G + 1) (ptot G) (pin G) (pout G) (ptotW G) (pinW G) (poutW G) cells);
  do g <- upd_node g i (set_ggroup (Some (plabel G)));
  Ok (g, P).
(** src/modules.c 498-522, RemoveNodeFromGroupFast. *)
Definition RemoveNodeFromGroupFast (st : net A * gpart A) (k i : nat) : res (bool * (net A * gpart A)) :=
  let '(g, P) := st in
  do G <- get P k;
  match rm_cell i (pnodes G) with
  | None => Ok (false, (g, P))
  | Some cells =>
      do P <- set P k (mkGroup (plabel G) (psize G - 1) (ptot G) (pin G) (pout G) (ptotW G) (pinW G) (poutW G) cells);
      Ok (true, (g, P))
  end.
(** src/modules.c 550-558, MoveNodeFast. *)
Definition MoveNodeFast (st : net A * gpart A) (i old new : nat) : res (bool * (net A * gpart A)) :=
  do (r, st) <- RemoveNodeFromGroupFast st old i;
  if r then do st <- AddNodeToGroupFast st new i; Ok (true, st) else Ok (false, st).
(** src/modules.c 983-991, MergeGroupsFast. *)
Fixpoint merge_fast (fuel : nat) (st : net A * gpart A) (g1 g2 : nat) : res (net A * gpart A) :=
  match fuel with
  | 0 => Err Diverge
  | S f =>
      do G <- get (snd st) g1;
      match pnodes G with
      | [] => Ok st
      | c :: _ => do i <- deref (lref c); do (_, st) <- MoveNodeFast st i g1 g2; merge_fast f st g1 g2
      end
  end.
Definition MergeGroupsFast (st : net A * gpart A) (g1 g2 : nat) : res (net A * gpart A) :=
  do G <- get (snd st) g1;
  merge_fast (length (pnodes G) + 1) st g1 g2.

(** src/modules.c 671-685, RemoveWithinGroupLinks; 692-711, RemoveBetweenGroupLinks; 1497-1512, RemoveInterGroupLinks.
    RemoveLink releases the cell [nei] of the list that is being walked, and the condition of the loop then reads nei->next:
    [walk_links] ends in UB_free there.  [drop] says for which links RemoveLink is called. *)
Definition walk_links (drop : gnode A -> gnode A -> bool) (sw : bool) (g : net A) (i : nat) : res (net A) :=
  do n <- get g i;
  foldM (fun g l =>
    do j <- deref (lref l);
    do n <- get g i;
    do m <- get g j;
    if drop n m then do _ <- RemoveLink g i j sw; Err UB_free else Ok g) g (gadj n).
Definition other_group (n m : gnode A) : bool := negb (same_group (ggroup n) (ggroup m)).
Definition RemoveWithinGroupLinks (g : net A) (G : grp A) (sw : bool) : res (net A) :=
  foldM (fun g l => do i <- deref (lref l); walk_links (fun _ _ => true) sw g i) g (pnodes G).
Definition RemoveBetweenGroupLinks (g : net A) (P : gpart A) (sw : bool) : res (net A) :=
  foldM (fun g G => foldM (fun g l => do i <- deref (lref l); walk_links other_group sw g i) g (pnodes G)) g P.
Definition RemoveInterGroupLinks (g : net A) : res (net A) :=
  foldM (walk_links other_group false) g (seq 0 (length g)).

(** src/modules.c 723-810, BlockModel: the rows that are printed.  [bij] keeps its value when the type is none of the five.
    (NG2GLinks is evaluated here also for the entries that do not use it; list_sw is not used by the program.) *)
Inductive bm_type := BM_n | BM_f | BM_p | BM_e | BM_z | BM_other.
Definition bm_count (g : net A) (P : gpart A) : res (Z * Z) :=
  foldM (fun '(nodes, links) k1 =>
    do G1 <- get P k1;
    if (0 <? psize G1)%Z then
      do links <- foldM (fun links k2 =>
        do G2 <- get P k2;
        if (0 <? psize G2)%Z then do x <- NG2GLinks g P k1 k2; Ok (links + Z.of_nat x)%Z else Ok links)
        (links + pin G1)%Z (seq (S k1) (length P - S k1));
      Ok ((nodes + psize G1)%Z, links)
    else Ok (nodes, links)) (0%Z, 0%Z) (seq 0 (length P)).
Definition bm_value (g : net A) (P : gpart A) (type_sw : bm_type) (links : Z) (prob : A) (k1 k2 : nat) (bij : A) : res A :=
  do G1 <- get P k1;
  do G2 <- get P k2;
  do x <- NG2GLinks g P k1 k2;
  let between := if k1 =? k2 then zA (pin G1) else nofnat x in
  let s1 := psize G1 in
  let s2 := psize G2 in
  let pairs := if k1 =? k2 then ndiv (zA (s1 * (s1 - 1))) (nofQ (2 # 1)) else zA (s1 * s2) in
  match type_sw with
  | BM_n => Ok between
  | BM_f => Ok (ndiv between (zA links))
  | BM_p => Ok (ndiv (nofnat x) (if k1 =? k2 then zA (s1 * (s1 - 1)) else zA (s1 * s2)))
  | BM_e => Ok (nsub (ndiv between (zA links)) (ndiv (zA ((pin G1 + ptot G1) * (pin G2 + ptot G2))) (zA (4 * links * links))))
  | BM_z =>
      let av := nmul prob pairs in
      let sig := nsqrt (nmul (nmul pairs prob) (nsub n1 prob)) in
      Ok (ndiv (nsub between av) sig)
  | BM_other => Ok bij
  end.
Definition BlockModel (g : net A) (P : gpart A) (type_sw : bm_type) : res (list (nat * nat * A)) :=
  do (nodes, links) <- bm_count g P;
  let prob := ndiv (nmul (nofQ (2 # 1)) (zA links)) (zA (nodes * (nodes - 1))) in
  do (_, rows) <- foldM (fun st k1 =>
    do G1 <- get P k1;
    if (0 <? psize G1)%Z then
      foldM (fun '(bij, rows) k2 =>
        do G2 <- get P k2;
        if (0 <? psize G2)%Z then
          do bij <- bm_value g P type_sw links prob k1 k2 bij;
          Ok (bij, rows ++ [(plabel G1 + 1, plabel G2 + 1, bij)])
        else Ok (bij, rows)) st (seq 0 (length P))
    else Ok st) (n0, []) (seq 0 (length P));
  Ok rows.

(** src/modules.c 1148-1180, GroupSizeStatistics. *)
Definition GroupSizeStatistics (P : gpart A) : res (A * A * A * A) :=
  let nGroups := NNonEmptyGroups P in
  do (sizes, _) <- foldM (fun '(sizes, c) G =>
    if (0 <? psize G)%Z then do sizes <- set sizes c (zA (psize G)); Ok (sizes, c + 1) else Ok (sizes, c))
    (repeat n0 nGroups, 0) P;
  do theMean <- mean sizes nGroups;
  do theStddev <- stddev sizes nGroups;
  do theMin <- min_d sizes nGroups;
  do theMax <- max_d sizes nGroups;
  Ok (theMean, theStddev, theMin, theMax).

(** src/modules.c 1301-1367, MapPartToNetFast: the first half of MapPartToNet. *)
Definition MapPartToNetFast (st : net A * gpart A) : res (net A * gpart A) :=
  let '(g, P) := st in
  foldM (fun '(g, Q) G => do (g, G) <- map_group g G; Ok (g, Q ++ [G])) (ResetNetGroup g, []) P.

(** src/modules.c 1376-1416, MapPartToNetSoft: the cells of the groups are left alone.  A label that is not in the network makes
    tfind return a null pointer, which is dereferenced. *)
Definition MapPartToNetSoft (st : net A * gpart A) : res (net A * gpart A) :=
  let '(g, P) := st in
  foldM (fun '(g, Q) G =>
    do g <- foldM (fun g l =>
      do i <- deref (ModulesModel.GetNodeDict (llabel l) g);
      upd_node g i (set_ggroup (Some (plabel G)))) g (pnodes G);
    Ok (g, Q ++ [mkGroup (plabel G) (psize G) 0 0 0 n0 n0 n0 (pnodes G)])) (ResetNetGroup g, []) P.

(** src/modules.c 1573-1587, FPrintPajekPartitionFile: the number of nodes and the number on every line (inGroup is -1 for a node
    without a group). *)
Definition FPrintPajekPartitionFile (g : net A) : nat * list nat :=
  (length g, map (fun n => match ggroup n with Some x => x + 1 | None => 0 end) g).

(** src/modules.c 2056-2093, CatalogRoleIdentStrength (the partition is mapped before the roles are made, as in
    CatalogRoleIdent). *)
Definition CatalogRoleIdentStrength (g : net A) (mod_ : gpart A) : res (net A * gpart A * gpart A) :=
  do (g, mod_) <- MapPartToNet (g, mod_);
  let roles := fold_left (fun Q i => snd (CreateGroup Q i)) (seq 0 7) [] in
  do (g, roles) <- foldM (fun '(g, roles) G =>
    foldM (fun '(g, roles) l =>
      do i <- deref (lref l);
      do (P, g) <- WeightedParticipationCoefficient g i mod_;
      do z <- WithinModuleRelativeStrength g i G;
      do n <- get g i;
      do roles <- AddNodeToGroupSoft roles (GetRole P z) (glabel n);
      Ok (g, roles)) (g, roles) (pnodes G)) (g, roles) mod_;
  do (g, roles) <- MapPartToNet (g, roles);
  Ok (g, roles, mod_).
End Roles.

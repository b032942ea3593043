(** ScoreModel.v -- model of src/missing.c, lines 712-1286: what is computed from the scores of the links and from the
    sampled partitions.

    Everything said in MissModel.v about log, gsl_sf_lnchoose, gsl_sf_lnfact, MutualInformation and CalculateDecay holds here.
    [x] is what the fresh array n2gList holds (None: not initialised).  The numbers of iterations written in the code (10000,
    100 and 1000) are parameters.  What is printed and the release of memory are left out. *)
From Coq Require Import List Arith ZArith Bool QArith.
From Verif Require Import Base MatLib IoModel GraphModel NetModel GenModel GroupModel ModulesModel ToolsModel MissModel.
Import ListNotations.
Local Open Scope nat_scope.

Section Score.
Context {A : Type} {ops : NumOps A}.
Variable logf : nat -> A.
Variable lnchoose : nat -> nat -> A.
Variable lnfact : nat -> A.
Variable mutual : gpart A -> gpart A -> A.
Variable decay_of : nat -> nat -> A -> nat -> A -> A.
Variables lcsize lfsize : nat.
Variable x : option Z.

(** LinkScore(net, 0.0, nIter, gen, 'q'): the scores, the network with the groups the sampler left in its nodes, and the
    random numbers to come. *)
Definition scores_of (g : net A) (nIter : nat) (ds : list A) : res (list (list A) * net A * list A) :=
  do (m, st) <- LinkScore_on logf lnchoose lnfact mutual decay_of lcsize lfsize n0 g (repeat x (length g)) nIter ds;
  Ok (m, mnet st, mds st).

(** src/missing.c 728-733 and 1056-1060: nlist[p->num] = p. *)
Definition node_list (g : net A) : res (list (option nat)) :=
  foldM (fun nlist '(pos, n) => set nlist (gnum n) (Some pos)) (repeat None (length g)) (combine (seq 0 (length g)) g).
Definition node_at (nlist : list (option nat)) (i : nat) : res nat := do a <- get nlist i; deref a.

(** The double loop over the pairs i < j. *)
Definition over_pairs {S} (nnod : nat) (f : S -> nat -> nat -> res S) (s : S) : res S :=
  foldM (fun s i => foldM (fun s j => f s i j) s (seq (i + 1) (nnod - (i + 1)))) s (seq 0 nnod).

(** src/missing.c 717-757, SBMError, with [reps] iterations of the sampler. *)
Definition err_pair (g : net A) (nlist : list (option nat)) (m : list (list A)) (s : A) (i j : nat) : res A :=
  do a <- node_at nlist i;
  do b <- node_at nlist j;
  do there <- IsThereLink g a b;
  do p <- get2 m i j;
  if there : bool then Ok (nadd s (nmul (nsub n1 p) (nsub n1 p))) else Ok (nadd s (nmul p p)).
Definition SBMError (reps : nat) (g : net A) (ds : list A) : res (A * net A * list A) :=
  let nnod := length g in
  do (m, g, ds) <- scores_of g reps ds;
  do nlist <- node_list g;
  do s <- over_pairs nnod (err_pair g nlist m) n0;
  Ok (nsqrt (ndiv s (nofnat (Nat.div (nnod * (nnod - 1)) 2))), g, ds).

(** src/missing.c 765-790, SBMStructureScore.  The randomised network is randomised again at each repetition. *)
Definition structure_rep (reps : nat) (s : net A * list A * list A) (_ : nat) : res (net A * list A * list A) :=
  let '(r, errs, ds) := s in
  do (r, ds) <- RandomizeSymmetricNetwork r (nofQ (100 # 1)) ds;
  do (e, r, ds) <- SBMError reps r ds;
  Ok (r, errs ++ [e], ds).
Definition SBMStructureScore (reps : nat) (g : net A) (nrep : nat) (ds : list A) : res (A * net A * list A) :=
  do (ori, g, ds) <- SBMError reps g ds;
  do r <- CopyNetwork g;
  do (_, errs, ds) <- foldM (structure_rep reps) (r, [], ds) (seq 0 nrep);
  do m <- mean errs nrep;
  do s <- stddev errs nrep;
  Ok (ndiv (nsub m ori) s, g, ds).

(** src/missing.c 798-839, NetFromSBMScores.  The walk over both networks stops at the end of the new one. *)
Definition rename_node (g : net A) (s : net A * list (option nat)) (i : nat) : res (net A * list (option nat)) :=
  let '(h, nlist) := s in
  do n <- match nth_error g i with Some n => Ok n | None => Err UB_null end;
  do l <- store_label (glabel n);
  do m <- get h i;
  do h <- set h i (mkNode l (gnum m) (gstate m) (gadj m) (ggroup m) (gdvar m) (gdeg m) (gstr m));
  do nlist <- set nlist (gnum m) (Some i);
  Ok (h, nlist).
Definition NetFromSBMScores (reps : nat) (g : net A) (ds : list A) : res (net A * net A * list A) :=
  let nnod := length g in
  do (m, g, ds) <- scores_of g reps ds;
  do h <- EmptyGraph nnod;
  do (h, nlist) <- foldM (rename_node g) (h, repeat None nnod) (seq 0 (length h));
  do h <- over_pairs nnod (fun h i j => do p <- get2 m i j; if nltb (nofQ (1 # 2)) p then link_both h nlist i j else Ok h) h;
  Ok (h, g, ds).

(** The preliminaries of src/missing.c 878-950 and 1158-1228, the same as in LinkScore: groups, random placement, table of
    links, decorrelation step, thermalisation. *)
Definition sampler (linC : A) (g : net A) (ds : list A) : res (list (option nat) * list (option nat) * nat * mc A) :=
  let nnod := length g in
  let tabf := InitializeTable lnfact lfsize in
  do (nlist, glist, st) <- mc_setup logf lnchoose lnfact lcsize linC g (repeat x nnod) ds;
  do (decor, st) <- GetDecorrelationStep logf lnchoose lnfact mutual decay_of lcsize lfsize linC nnod nlist glist tabf st;
  do st <- ThermalizeLinkScoreMC logf lnchoose lnfact lcsize lfsize linC nnod nlist glist tabf decor st;
  Ok (nlist, glist, decor, st).
Definition mc_step (linC : A) (g : net A) (nlist glist : list (option nat)) (factor : nat) (st : mc A) : res (mc A) :=
  LinkScoreMCStep logf lnchoose lnfact lcsize lfsize linC (length g) nlist glist (InitializeTable lnfact lfsize) factor st.
(** H = 0 (not in debug mode). *)
Definition reset_H (st : mc A) : mc A := mkMC (mnet st) (mpart st) n0 (mG2G st) (mn2g st) (mtab st) (mds st).
Definition set_np (g : net A) (P : gpart A) (st : mc A) : mc A := mkMC g P (mH st) (mG2G st) (mn2g st) (mtab st) (mds st).

(** src/missing.c 1131-1286, PartitionSampling.  Every sample is saved as a copy and the partition is mapped to the network
    again. *)
Definition take_sample (linC : A) (g : net A) (nlist glist : list (option nat)) (factor : nat) (s : mc A * list (gpart A)) (_ : nat) : res (mc A * list (gpart A)) :=
  let '(st, acc) := s in
  do st <- mc_step linC g nlist glist factor st;
  do (h, Q) <- CopyPartition (mnet st) (mpart st);
  do (h, P) <- MapPartToNet (h, mpart st);
  Ok (set_np h P st, acc ++ [Q]).
Definition PartitionSampling (linC : A) (g : net A) (nIter burnin : nat) (thinning : A) (ds : list A) : res (list (gpart A) * mc A) :=
  do (nlist, glist, decor, st) <- sampler linC g ds;
  do st <- foldM (fun st _ => mc_step linC g nlist glist decor st) st (seq 0 burnin);
  do (st, acc) <- foldM (take_sample linC g nlist glist (nfloor (nmul (nofnat decor) thinning))) (reset_H st, []) (seq 0 nIter);
  Ok (acc, st).

(** src/missing.c 983-1016: one pair of terms of the contributions of a partition. *)
Definition ns_terms (c : A * A) (r lObs lTar : Z) : res (A * A) :=
  do r1 <- nat_of r;
  do lo <- nat_of lObs;
  do lt <- nat_of lTar;
  let '(tar, obs) := c in
  let common := nsub (nadd (logf (r1 + 1)) (lnchoose r1 lo)) (logf (2 * r1 + 1)) in
  Ok (nadd tar (nsub common (lnchoose (2 * r1) (lo + lt))), nadd obs (nsub common (lnchoose (2 * r1) (2 * lo)))).
(** src/missing.c 1001-1017: the group at [k2], after the group at [k1]. *)
Definition ns_other (G2G : list (list Z)) (P : gpart A) (h : net A) (Q : gpart A) (k1 : nat) (G1 : grp A) (c : A * A) (k2 : nat) : res (A * A) :=
  do G2 <- get P k2;
  do _ <- match nth_error Q k2 with Some _ => Ok tt | None => Err UB_null end;
  if (0 <? psize G2)%Z then
    do lObs <- get2 G2G (plabel G1) (plabel G2);
    do lTar <- NG2GLinks h Q k1 k2;
    ns_terms c (psize G1 * psize G2) lObs (Z.of_nat lTar)
  else Ok c.
Definition ns_group (G2G : list (list Z)) (P : gpart A) (h : net A) (Q : gpart A) (c : A * A) (k : nat) : res (A * A) :=
  do G <- get P k;
  do T <- match nth_error Q k with Some T => Ok T | None => Err UB_null end;
  if (0 <? psize G)%Z then
    do c <- ns_terms c (Z.quot (psize G * (psize G - 1)) 2) (pin G) (pin T);
    foldM (ns_other G2G P h Q k G) c (seq (k + 1) (length P - (k + 1)))
  else Ok c.
(** src/missing.c 957-1024: one sample.  The state is the sampler, the target network, contribBase, scoreTar, scoreObs. *)
Definition ns_sample (linC : A) (g : net A) (nlist glist : list (option nat)) (decor : nat) (s : mc A * net A * option A * A * A) (_ : nat) : res (mc A * net A * option A * A * A) :=
  let '(st, tar, base, scoreTar, scoreObs) := s in
  do st <- mc_step linC g nlist glist decor st;
  do (h, Q) <- CopyPartition (mnet st) (mpart st);
  do (tar, Q) <- MapPartToNet (tar, Q);
  do (h, P) <- MapPartToNet (h, mpart st);
  do (contribTar, contribObs) <- foldM (ns_group (mG2G st) P tar Q) (n0, n0) (seq 0 (length P));
  let b := match base with Some b => b | None => contribObs end in
  Ok (set_np h P st, tar, Some b, nadd scoreTar (nexp (nsub contribTar b)), nadd scoreObs (nexp (nsub contribObs b))).
(** src/missing.c 849-1035, NetworkScore, for two networks that share no node. *)
Definition NetworkScore (linC : A) (tar g : net A) (nIter : nat) (ds : list A) : res (A * net A * net A * list A) :=
  do (nlist, glist, decor, st) <- sampler linC g ds;
  do (st, tar, _, scoreTar, scoreObs) <- foldM (ns_sample linC g nlist glist decor) (reset_H st, tar, None, n0, n0) (seq 0 nIter);
  Ok (ndiv (ndiv scoreTar (nofnat nIter)) (ndiv scoreObs (nofnat nIter)), tar, mnet st, mds st).

(** src/missing.c 1076-1096: the missing link with the largest score and the link with the smallest.  n1Add, n2Add, n1Remove
    and n2Remove keep the values of an earlier round; they are None before they are first set. *)
Definition pick_state : Type := (A * option (nat * nat)) * (A * option (nat * nat)).
Definition pick_pair (net1 : net A) (nlist : list (option nat)) (m : list (list A)) (s : pick_state) (i j : nat) : res pick_state :=
  let '((mx, add), (mn, rem)) := s in
  do a <- node_at nlist i;
  do b <- node_at nlist j;
  do p <- get2 m i j;
  do there <- IsThereLink net1 a b;
  let up := if nltb mx p && negb there then (p, Some (a, b)) else (mx, add) in
  let down := if nltb p mn && there then (p, Some (a, b)) else (mn, rem) in
  Ok (up, down).
Definition chosen (o : option (nat * nat)) : res (nat * nat) := match o with Some p => Ok p | None => Err UB_uninit end.
Definition exchange (net1 : net A) (add rem : nat * nat) (status : nat) : res (net A) :=
  do (_, net1) <- AddAdjacency net1 (fst add) (snd add) false false (nofQ (1 # 1)) status;
  do (_, net1) <- AddAdjacency net1 (snd add) (fst add) false false (nofQ (1 # 1)) status;
  RemoveLink net1 (fst rem) (snd rem) true.
(** src/missing.c 1072-1118, the inner loop: until five changes in a row are rejected. *)
Fixpoint rec_inner (fuel : nat) (few : nat) (nnod : nat) (nlist : list (option nat)) (m : list (list A)) (old : A) (changed : bool) (rejected : nat)
    (add rem : option (nat * nat)) (net1 obs : net A) (ds : list A) : res (A * bool * option (nat * nat) * option (nat * nat) * net A * net A * list A) :=
  match fuel with
  | 0 => Err Diverge
  | S f =>
      do (up, down) <- over_pairs nnod (pick_pair net1 nlist m) ((n0, add), (n1, rem));
      let add := snd up in
      let rem := snd down in
      do pa <- chosen add;
      do pr <- chosen rem;
      do net1 <- exchange net1 pa pr 2;
      do (new, net1, obs, ds) <- NetworkScore n0 net1 obs few ds;
      if nltb old new then rec_inner f few nnod nlist m new true 0 add rem net1 obs ds
      else
        do net1 <- exchange net1 pr pa 3;
        if rejected + 1 <? 5 then rec_inner f few nnod nlist m old changed (rejected + 1) add rem net1 obs ds
        else Ok (old, changed, add, rem, net1, obs, ds)
  end.
(** src/missing.c 1066-1120, the outer loop: until no change is accepted. *)
Fixpoint rec_outer (fuel : nat) (few some : nat) (nlist : list (option nat)) (old : A) (add rem : option (nat * nat)) (net1 obs : net A) (ds : list A) : res (net A * net A * list A) :=
  match fuel with
  | 0 => Err Diverge
  | S f =>
      do (m, net1, ds) <- scores_of net1 some ds;
      do (old, changed, add, rem, net1, obs, ds) <- rec_inner (length ds + 6) few (length obs) nlist m old false 0 add rem net1 obs ds;
      if changed : bool then rec_outer f few some nlist old add rem net1 obs ds else Ok (net1, obs, ds)
  end.
(** src/missing.c 1044-1123, NetReconstruct, with [few] iterations for the score of a network and [some] for the scores of
    the links.  The result is the reconstructed network and the observed one with the groups left in it. *)
Definition NetReconstruct (few some : nat) (obs : net A) (ds : list A) : res (net A * net A * list A) :=
  do net1 <- CopyNetwork obs;
  do nlist <- node_list net1;
  do (old, net1, obs, ds) <- NetworkScore n0 net1 obs few ds;
  rec_outer (length ds + 1) few some nlist old None None net1 obs ds.
End Score.

(** SAModel.v -- model of src/sannealing.c. *)
From Coq Require Import List Arith ZArith QArith.
From Verif Require Import Base PartModel MoveModel.
Import ListNotations.
Local Open Scope nat_scope.

Section Model.
Context {A : Type} {ops : NumOps A}.

(** src/sannealing.c 24. *)
Definition EPSILON_MOD : A := nofQ (1 # 1000000)%Q.

(** The index [floor(gsl_rng_uniform(gen) * n)]. *)
Definition rng_index (u : A) (n : nat) : nat := nfloor (nmul u (nofnat n)).

(** The test [(dE >= 0) || (gsl_rng_uniform(gen) < exp(dE/T))] of lines 88, 113, 176 and 288;
    a number is drawn only if dE >= 0 fails. *)
Definition metropolis (dE T : A) (ds : list A) : res (bool * list A) :=
  if nleb n0 dE then Ok (true, ds)
  else do (u, ds) <- draw ds; Ok (nltb u (nexp (ndiv dE T)), ds).

(** src/sannealing.c 78-80. *)
Fixpoint pick_newg (M oldg : nat) (ds : list A) : res (nat * list A) :=
  match ds with
  | [] => Err RngOut
  | u :: ds => let newg := rng_index u M in
               if newg =? oldg then pick_newg M oldg ds else Ok (newg, ds)
  end.

(** src/sannealing.c 102-105. *)
Fixpoint pick_other (p : partition A) (g1 : nat) (ds : list A) : res (nat * list A) :=
  match ds with
  | [] => Err RngOut
  | u :: ds => do nd <- get (pnodes p) (rng_index u (pN p));
               if nmod nd =? g1 then pick_other p g1 ds else Ok (nmod nd, ds)
  end.

(** src/sannealing.c 130-133. *)
Fixpoint pick_split (p : partition A) (ds : list A) : res (nat * list A) :=
  match ds with
  | [] => Err RngOut
  | u :: ds => do nd <- get (pnodes p) (rng_index u (pN p));
               do md <- get (pmods p) (nmod nd);
               if msize md =? 1 then pick_split p ds else Ok (nmod nd, ds)
  end.

(** src/sannealing.c 122-127: first empty module; [empty] stays uninitialised if there is none. *)
Fixpoint first_empty (mods : list (module A)) (j : nat) : res nat :=
  match mods with
  | [] => Err UB_uninit
  | md :: mods => if msize md =? 0 then Ok j else first_empty mods (j + 1)
  end.

(** src/sannealing.c 74-92, one individual movement.  The pair is the partition and the energy E. *)
Definition individual_move (adj : adja A) (T : A) (st : partition A * A) (ds : list A)
  : res (partition A * A * list A) :=
  let '(p, E) := st in
  do (u, ds) <- draw ds;
  let target := rng_index u (pN p) in
  do nd <- get (pnodes p) target;
  do (newg, ds) <- pick_newg (pM p) (nmod nd) ds;
  do dE <- dEChangeModule target newg p adj;
  do (ok, ds) <- metropolis dE T ds;
  if ok then do p <- ChangeModule target newg p; Ok (p, nadd E dE, ds)
  else Ok (p, E, ds).

(** src/sannealing.c 99-117, the merge half of a collective movement.
    [part->nempty < part->M-1] is an unsigned comparison; M >= 1 always, so M-1 does not wrap. *)
Definition merge_move (adj : adja A) (T : A) (st : partition A * A) (ds : list A)
  : res (partition A * A * list A) :=
  let '(p, E) := st in
  do (u, ds) <- draw ds;
  do nd <- get (pnodes p) (rng_index u (pN p));
  let g1 := nmod nd in
  do M1 <- dec (pM p);
  if pnempty p <? M1 then
    do (g2, ds) <- pick_other p g1 ds;
    do dE <- dEMergeModules g1 g2 p adj;
    do (ok, ds) <- metropolis dE T ds;
    if ok then do p <- MergeModules g1 g2 p; Ok (p, nadd E dE, ds)
    else Ok (p, E, ds)
  else Ok (p, E, ds).

(** src/sannealing.c 274-301, the cooling loop of SplitModuleSA.  Every round draws at least one number, so
    [fuel] = 1 + number of draws left never runs out before the draws do. *)
Fixpoint split_sa_loop (target empty N : nat) (Tf Ts : A) (limit : nat) (indices : list nat)
         (adj : adja A) (fuel : nat) (T : A) (nochange : nat) (p : partition A) (ds : list A)
  : res (partition A * list A) :=
  match fuel with
  | O => Err RngOut
  | S f =>
    if nltb Tf T then
      do (u, ds) <- draw ds;
      do nodeid <- get indices (rng_index u N);
      do nd <- get (pnodes p) nodeid;
      let newg := if nmod nd =? target then empty else target in
      do dE <- dEChangeModule nodeid newg p adj;
      do (ok, ds) <- metropolis dE T ds;
      do p <- (if ok then ChangeModule nodeid newg p else Ok p);
      let dE := if ok then dE else n0 in
      if nltb (nabs dE) EPSILON_MOD then
        if limit <? nochange + 1 then Ok (p, ds)
        else split_sa_loop target empty N Tf Ts limit indices adj f (nmul T Ts) (nochange + 1) p ds
      else split_sa_loop target empty N Tf Ts limit indices adj f (nmul T Ts) 0 p ds
    else Ok (p, ds)
  end.

(** src/sannealing.c 265-266: list the members of the target module.  [indices] has
    modules[target]->size cells. *)
Definition list_members (p : partition A) (first : option nat) (N : nat) : res (list nat) :=
  do (ind, _) <- walkM (fun _ i => next_of p i)
      (fun '(ind, k) i => do nd <- get (pnodes p) i; do ind <- set ind k (nid nd); Ok (ind, k + 1))
      (length (pnodes p)) first (repeat 0 N, 0);
  Ok ind.

(** src/sannealing.c 269-272: random split. *)
Definition random_split (empty : nat) (indices : list nat) (p : partition A) (ds : list A)
  : res (partition A * list A) :=
  foldM (fun '(p, ds) i =>
      do (u, ds) <- draw ds;
      if nltb u (nofQ (1 # 2)%Q) then do p <- ChangeModule i empty p; Ok (p, ds) else Ok (p, ds))
    (p, ds) indices.

(** src/sannealing.c 246-304, SplitModuleSA (calloc succeeds). *)
Definition SplitModuleSA (target empty : nat) (Ti Tf Ts : A) (limit : nat)
           (p : partition A) (adj : adja A) (ds : list A) : res (partition A * list A) :=
  do tm <- get (pmods p) target;
  let N := msize tm in
  do indices <- list_members p (mfirst tm) N;
  do (p, ds) <- random_split empty indices p ds;
  split_sa_loop target empty N Tf Ts limit indices adj (S (length ds)) Ti 0 p ds.

(** src/sannealing.c 120-187, the split half of a collective movement. *)
Definition split_move (adj : adja A) (Ti T proba : A) (limit : nat) (st : partition A * A) (ds : list A)
  : res (partition A * A * list A) :=
  let '(p, E) := st in
  if pnempty p =? 0 then Ok (p, E, ds) else
  do empty <- first_empty (pmods p) 0;
  do (target, ds) <- pick_split p ds;
  do (u, ds) <- draw ds;
  do (ncomponent, p, ds) <-
     (if nltb u proba then SplitModuleByComponent target empty p adj ds else Ok (1, p, ds));
  do (p, ds) <-
     (if ncomponent =? 1 then SplitModuleSA target empty Ti T (nofQ (95 # 100)%Q) limit p adj ds
      else Ok (p, ds));
  do tm <- get (pmods p) target;
  do em <- get (pmods p) empty;
  if (msize tm =? 0) || (msize em =? 0) then Ok (p, E, ds)
  else
    do d <- dEMergeModules target empty p adj;
    let dE := nopp d in
    do (ok, ds) <- metropolis dE T ds;
    if ok then Ok (p, nadd E dE, ds)
    else do p <- MergeModules target empty p; Ok (p, E, ds).

(** [k] repetitions of a movement. *)
Fixpoint repeatM {S D} (f : S -> D -> res (S * D)) (k : nat) (s : S) (d : D) : res (S * D) :=
  match k with
  | O => Ok (s, d)
  | Datatypes.S k' => do (s, d) <- f s d; repeatM f k' s d
  end.

(** src/sannealing.c 96-188, one collective movement. *)
Definition collective_move (adj : adja A) (Ti T proba : A) (limit : nat) (st : partition A * A) (ds : list A)
  : res (partition A * A * list A) :=
  do (p, E, ds) <- merge_move adj T st ds;
  split_move adj Ti T proba limit (p, E) ds.

(** State of the temperature loop.  [sbestE] = None stands for the initial -infinity. *)
Record sastate := mkSA {
  spart : partition A;
  sE : A;
  sprevE : A;
  sbest : option (partition A);
  sbestE : option A;
  snochange : nat
}.

(** src/sannealing.c 191-192. *)
Definition no_change (E prevE : A) : bool :=
  (nltb (ndiv (nabs (nsub E prevE)) (nabs prevE)) EPSILON_MOD) || (nltb (nabs prevE) EPSILON_MOD).

(** src/sannealing.c 190-221, end of a temperature step.  [inl] = break. *)
Definition sa_checkpoint (limit : nat) (st : sastate) : res (sastate + sastate) :=
  let E := sE st in
  if no_change E (sprevE st) then
    let nc := snochange st + 1 in
    if nc =? limit then
      if match sbestE st with None => true | Some b => nleb b (nadd E EPSILON_MOD) end
      then Ok (inl (mkSA (spart st) E (sprevE st) (sbest st) (sbestE st) nc))
      else
        do b <- deref (sbestE st);
        do bp <- deref (sbest st);
        do p <- CopyPartitionStruct bp;
        Ok (inr (mkSA p b b (sbest st) (sbestE st) 0))
    else Ok (inr (mkSA (spart st) E E (sbest st) (sbestE st) nc))
  else if match sbestE st with None => true | Some b => nltb b E end then
    do c <- CopyPartitionStruct (spart st);
    Ok (inr (mkSA (spart st) E E (Some c) (Some E) 0))
  else Ok (inr (mkSA (spart st) E E (sbest st) (sbestE st) (snochange st))).

(** src/sannealing.c 71-223, the temperature loop.  Every step makes at least one individual movement, which draws a
    number, so [fuel] = 1 + number of draws never runs out before the draws do. *)
Fixpoint sa_loop (adj : adja A) (nind ncol : nat) (Ti Tf Ts proba : A) (limit : nat)
         (fuel : nat) (T : A) (st : sastate) (ds : list A) : res (sastate * list A) :=
  match fuel with
  | O => Err RngOut
  | S f =>
    if nltb Tf T then
      do ((p, E), ds) <- repeatM (individual_move adj T) nind (spart st, sE st) ds;
      do ((p, E), ds) <- repeatM (collective_move adj Ti T proba limit) ncol (p, E) ds;
      do r <- sa_checkpoint limit (mkSA p E (sprevE st) (sbest st) (sbestE st) (snochange st));
      match r with
      | inl st => Ok (st, ds)
      | inr st => sa_loop adj nind ncol Ti Tf Ts proba limit f (nmul T Ts) st ds
      end
    else Ok (st, ds)
  end.

(** src/sannealing.c 60-67: numbers of movements per temperature (N*N without 32-bit wrap; the wrap is treated in
    a separate model). *)
Definition individual_movements (fac : A) (N : nat) : nat :=
  let x := nmul fac (nofnat (N * N)) in if nltb x (nofnat 10) then 10 else nfloor x.
Definition collective_movements (fac : A) (N : nat) : nat :=
  let x := nmul fac (nofnat N) in if nltb x (nofnat 2) then 2 else nfloor x.

(** src/sannealing.c 39-230, GeneralSA: the new value of *ppart ([None] = null pointer) and the best energy. *)
Definition GeneralSA (p : partition A) (adj : adja A) (fac Ti Tf Ts proba : A) (limit : nat) (ds : list A)
  : res (option (partition A) * option A * list A) :=
  do (st, ds) <- sa_loop adj (individual_movements fac (pN p)) (collective_movements fac (pN p))
                    Ti Tf Ts proba limit (S (length ds)) Ti
                    (mkSA p n0 n0 None None 0) ds;
  Ok (sbest st, sbestE st, ds).

End Model.

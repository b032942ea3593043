(** FillModel.v -- model of src/fillpartitions.c. *)
From Coq Require Import List Arith ZArith QArith.
From Verif Require Import Base PartModel.
Import ListNotations.
Local Open Scope nat_scope.

Section Model.
Context {A : Type} {ops : NumOps A}.

(** One edge (nd_in[i], nd_out[i], weight[i]). *)
Definition edge := (nat * nat * A)%type.

(** src/fillpartitions.c 42-48: weight sum, strengths and degrees. *)
Definition ela_count (es : list edge) (p : partition A) (degree : list nat)
  : res (A * partition A * list nat) :=
  foldM (fun '(ws, p, deg) '(a, b, w) =>
      do p <- upd_node p a (fun nd => set_nstr (nadd (nstr nd) w) nd);
      do p <- upd_node p b (fun nd => set_nstr (nadd (nstr nd) w) nd);
      do da <- get deg a;
      do deg <- set deg a (da + 1);
      do db <- get deg b;
      do deg <- set deg b (db + 1);
      Ok (nadd ws w, p, deg)) (n0, p, degree) es.

(** src/fillpartitions.c 60-64: row starts and normalised strengths. *)
Definition ela_index (N : nat) (ws : A) (degree : list nat) (adj : adja A) (p : partition A)
  : res (adja A * partition A) :=
  do (idx, p, _) <- foldM (fun '(idx, p, pos) i =>
      do idx <- set idx i pos;
      do d <- get degree i;
      do p <- upd_node p i (fun nd => set_nstr (ndiv (nstr nd) ws) nd);
      Ok (idx, p, pos + d)) (aidx adj, p, 0) (seq 0 N);
  Ok (mkAdja (aN adj) (aE adj) idx (anb adj) (astr adj), p).

(** [idx_in] and [idx_out] are int in C, so a negative difference would be an invalid index. *)
Definition sub_index (a b : nat) : res nat := if b <=? a then Ok (a - b) else Err UB_oob.

(** src/fillpartitions.c 74-88: fill the two directions of every edge. *)
Definition ela_fill (es : list edge) (ws : A) (degree : list nat) (adj : adja A) : res (adja A) :=
  do (nb, st, _) <- foldM (fun '(nb, st, deg) '(a, b, w) =>
      do ia <- get (aidx adj) (a + 1);
      do da <- get deg a;
      do idx_in <- sub_index ia da;
      do ib <- get (aidx adj) (b + 1);
      do db <- get deg b;
      do idx_out <- sub_index ib db;
      do nb <- set nb idx_in b;
      do st <- set st idx_in (ndiv w ws);
      do nb <- set nb idx_out a;
      do st <- set st idx_out (ndiv w ws);
      do da <- get deg a;
      do da <- dec da;
      do deg <- set deg a da;
      do db <- get deg b;
      do db <- dec db;
      do deg <- set deg b db;
      Ok (nb, st, deg)) (anb adj, astr adj, degree) es;
  Ok (mkAdja (aN adj) (aE adj) (aidx adj) nb st).

(** src/fillpartitions.c 27-100, EdgeListToAdjaArray. The first E = adj->E entries of the edge arrays are
    used; the model passes exactly those. *)
Definition EdgeListToAdjaArray (es : list edge) (adj : adja A) (p : partition A) (normalize : bool)
  : res (adja A * partition A) :=
  do (ws, p, deg) <- ela_count es p (repeat 0 (aN adj));
  let ws := nmul ws (nofnat 2) in
  let ws := if normalize then ws else n1 in
  do (adj, p) <- ela_index (aN adj) ws deg adj p;
  do adj <- ela_fill es ws deg adj;
  Ok (adj, p).

(** src/fillpartitions.c 288-303 (also src/io.c 272-287): append node [i] to module [j]. *)
Definition append_node (p : partition A) (i j : nat) : res (partition A) :=
  do md <- get (pmods p) j;
  do nd <- get (pnodes p) i;
  if msize md =? 0 then
    do ne <- dec (pnempty p);
    let p := set_nempty ne p in
    do p <- upd_node p i (set_nmod j);
    do p <- upd_mod p j (set_msize 1);
    do p <- upd_mod p j (set_mstr (nstr nd));
    do p <- upd_mod p j (set_mfirst (Some i));
    upd_mod p j (set_mlast (Some i))
  else
    do p <- upd_node p i (set_nmod j);
    do p <- upd_mod p j (fun m => set_msize (msize m + 1) m);
    do p <- upd_mod p j (fun m => set_mstr (nadd (mstr m) (nstr nd)) m);
    do la <- deref (mlast md);
    do p <- upd_node p la (set_nnext (Some i));
    do md <- get (pmods p) j;
    do p <- upd_node p i (set_nprev (mlast md));
    upd_mod p j (set_mlast (Some i)).

(** src/fillpartitions.c 270-306, AssignNodesToModules.  [gsl_rng_uniform_int] returns an index below M; the
    model takes the list of returned indices as input. *)
Definition AssignNodesToModules (p : partition A) (ds : list nat) : res (partition A * list nat) :=
  if pN p =? pM p then
    do p <- foldM (fun p i =>
        do nd <- get (pnodes p) i;
        do p <- upd_node p i (set_nmod i);
        do p <- upd_mod p i (set_msize 1);
        do p <- upd_mod p i (set_mstr (nstr nd));
        do p <- upd_mod p i (set_mfirst (Some i));
        upd_mod p i (set_mlast (Some i)))
      (set_nempty 0 p) (seq 0 (pN p));
    Ok (p, ds)
  else
    foldM (fun '(p, ds) i =>
        do (j, ds) <- draw ds;
        do p <- append_node p i j;
        Ok (p, ds)) (p, ds) (seq 0 (pN p)).

End Model.

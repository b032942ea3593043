(** ToolsModel.v -- model of src/tools.c: tables of logarithms, small statistics, combinatorics, counting lines.

    The functions log, gsl_sf_lnfact, gsl_sf_lnchoose and gsl_sf_lngamma are parameters of the definitions that call them.
    Allocation always succeeds; the functions that only release memory are left out. *)
From Coq Require Import List Arith ZArith QArith Ascii.
From Verif Require Import Base MatLib IoModel.
Import ListNotations.
Local Open Scope nat_scope.

Section Tools.
Context {A : Type} {ops : NumOps A}.

(** src/tools.c 208-217, geometric_dist_val. *)
Fixpoint geometric_dist_val (p : A) (ds : list A) : res (nat * list A) :=
  match ds with
  | [] => Err RngOut
  | u :: ds => if nltb p u then do (v, ds) <- geometric_dist_val p ds; Ok (v + 1, ds) else Ok (0, ds)
  end.

(** src/tools.c 232-242, mean. *)
Definition mean (data : list A) (N : nat) : res A :=
  do m <- foldM (fun m i => do x <- get data i; Ok (nadd m x)) n0 (seq 0 N);
  Ok (ndiv m (nofnat N)).

(** src/tools.c 249-269, stddev. *)
Definition stddev (data : list A) (N : nat) : res A :=
  do (m, m2) <- foldM (fun '(m, m2) i => do x <- get data i; Ok (nadd m x, nadd m2 (nmul x x))) (n0, n0) (seq 0 N);
  let m := ndiv m (nofnat N) in
  let m2 := ndiv m2 (nofnat N) in
  if nltb n0 (nsub m2 (nmul m m)) then Ok (nsqrt (nsub m2 (nmul m m))) else Ok n0.

(** src/tools.c 276-287, max, and 294-305, min. *)
Definition max_d (data : list A) (N : nat) : res A :=
  do m <- get data 0;
  foldM (fun m i => do x <- get data i; Ok (if nltb m x then x else m)) m (seq 1 (N - 1)).
Definition min_d (data : list A) (N : nat) : res A :=
  do m <- get data 0;
  foldM (fun m i => do x <- get data i; Ok (if nltb x m then x else m)) m (seq 1 (N - 1)).

(** src/tools.c 319-326, fact.  A negative argument recurses without end; a product outside the range of a 64-bit long int
    is an overflow, reported as [Wrap]. *)
Fixpoint fact_nat (a : nat) : res Z :=
  match a with
  | 0 => Ok 1%Z
  | S b => do r <- fact_nat b; let p := (Z.of_nat a * r)%Z in do _ <- check (p <? 2 ^ 63)%Z Wrap; Ok p
  end.
Definition fact_long (a : Z) : res Z := if (a <? 0)%Z then Err Diverge else fact_nat (Z.to_nat a).

(** src/tools.c 334-350, Choose.  [n/2] truncates towards zero. *)
Definition Choose (n k : Z) : A :=
  if (n <? k)%Z then n0
  else
  let k := if (Z.quot n 2 <? k)%Z then (n - k)%Z else k in
  let accum := fold_left (fun acc i => nmul acc (ndiv (nofnat (Z.to_nat (n - k + Z.of_nat i))) (nofnat i))) (seq 1 (Z.to_nat k)) n1 in
  nofnat (nfloor (nadd accum (nofQ (1 # 2)))).

(** src/tools.c 369-381, InitializeFastLogChoose, and 403-416, FastLogChoose. *)
Definition InitializeFastLogChoose (size : nat) : list (list A) := repeat (repeat (nofQ (-1 # 1)) size) size.
Definition FastLogChoose (lnchoose : nat -> nat -> A) (r l : nat) (tab : list (list A)) (size : nat) : res (A * list (list A)) :=
  if r <? size then
    do x <- get2 tab r l;
    do tab <- (if nltb x n0 then set2 tab r l (lnchoose r l) else Ok tab);
    do x <- get2 tab r l;
    Ok (x, tab)
  else Ok (lnchoose r l, tab).

(** src/tools.c 423-434 and 457-464, InitializeFastLog and FastLog; 472-483 and 506-513, InitializeFastLogFact and
    FastLogFact; 520-531 and 554-561, InitializeFastLogGamma and FastLogGamma: the same code for three functions [f] (for the
    last one [f i] is gsl_sf_lngamma(i+x)). *)
Definition InitializeTable (f : nat -> A) (size : nat) : list A := map f (seq 0 size).
Definition FastTable (f : nat -> A) (r : nat) (tab : list A) (size : nat) : res A :=
  if r <? size then get tab r else Ok (f r).

(** src/tools.c 570-582, InitializeHarmonicList. *)
Definition InitializeHarmonicList (size : nat) : res (list A) :=
  do t <- set (repeat n0 size) 0 n0;
  foldM (fun t i => do x <- get t (i - 1); set t i (nadd x (ndiv (nofQ (1 # 1)) (nofnat i)))) t (seq 1 (size - 1)).
End Tools.

(** fgets with a buffer of [cap] + 1 characters: at most [cap] characters, up to and including a newline. *)
Fixpoint fgets (cap : nat) (s : list ascii) : list ascii * list ascii :=
  match cap, s with
  | 0, _ => ([], s)
  | _, [] => ([], [])
  | S cap, c :: s => if ascii_eqb c nl then ([c], s) else let '(a, b) := fgets cap s in (c :: a, b)
  end.

(** src/tools.c 608-621, CountLinesInFile.  The file exists; [fuel] bounds the number of readings. *)
Fixpoint count_lines (fuel n : nat) (s : list ascii) : res nat :=
  match fuel with
  | 0 => Err Diverge
  | S f => match fgets 999 s with ([], _) => Ok n | (_, s) => count_lines f (n + 1) s end
  end.
Definition CountLinesInFile (file : list ascii) : res nat := count_lines (length file + 1) 0 file.

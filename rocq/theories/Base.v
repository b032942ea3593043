(** Base.v -- outcomes, memory access and arithmetic shared by all models.

    Nothing here models a particular C function; these are the conventions every
    model file uses (see DESIGN.md, section 1). *)
From Coq Require Import List Arith ZArith QArith.
Import ListNotations.
Local Open Scope nat_scope.

(** What can go wrong in a C run that the model keeps apart from a normal return. *)
Inductive err :=
| UB_null      (* dereference of a null pointer *)
| UB_oob       (* access outside an allocated array *)
| UB_uninit    (* read of memory that was never written *)
| UB_free      (* access to freed memory *)
| Wrap         (* unsigned subtraction below zero *)
| DivZero      (* integer division by zero *)
| Diverge      (* a pointer walk that visits more cells than exist: the C loop is infinite *)
| RngOut.      (* the finite list of random draws given to the run is used up *)

Inductive res (A : Type) : Type :=
| Ok (a : A)
| Err (e : err).
Arguments Ok {A} a.
Arguments Err {A} e.

Definition bind {A B} (m : res A) (f : A -> res B) : res B :=
  match m with Ok a => f a | Err e => Err e end.

Notation "'do' x <- m ; f" := (bind m (fun x => f))
  (at level 200, x pattern, m at level 100, f at level 200, right associativity).

Definition check (b : bool) (e : err) : res unit := if b then Ok tt else Err e.

(** Array read [l[i]] and write [l[i] = v]. *)
Definition get {A} (l : list A) (i : nat) : res A :=
  match nth_error l i with Some a => Ok a | None => Err UB_oob end.

Fixpoint upd {A} (l : list A) (i : nat) (v : A) : list A :=
  match l, i with
  | [], _ => []
  | _ :: l', O => v :: l'
  | a :: l', S i' => a :: upd l' i' v
  end.

Definition set {A} (l : list A) (i : nat) (v : A) : res (list A) :=
  if i <? length l then Ok (upd l i v) else Err UB_oob.

(** Dereference of a nullable pointer. *)
Definition deref {A} (o : option A) : res A :=
  match o with Some a => Ok a | None => Err UB_null end.

(** [x--] on an unsigned variable. *)
Definition dec (n : nat) : res nat :=
  match n with O => Err Wrap | S n' => Ok n' end.

(** Counted loop over a list of loop indices. *)
Fixpoint foldM {S X} (f : S -> X -> res S) (s : S) (l : list X) : res S :=
  match l with
  | [] => Ok s
  | x :: l' => do s' <- f s x; foldM f s' l'
  end.

(** [for (c = first; c != NULL; c = next(c)) body(c)].  The body may change the state; the link
    is read after the body, as in C.  [fuel] bounds the number of cells; a walk over an
    acyclic list never needs more cells than are allocated. *)
Fixpoint walkM {S} (next_of : S -> nat -> res (option nat)) (body : S -> nat -> res S)
         (fuel : nat) (cur : option nat) (s : S) : res S :=
  match cur with
  | None => Ok s
  | Some i =>
      match fuel with
      | O => Err Diverge
      | Datatypes.S f => do s' <- body s i; do nx <- next_of s' i; walkM next_of body f nx s'
      end
  end.

(** Arithmetic of the C type [double], left abstract.  Theorems about shapes and counters hold for every
    instance; exact identities use the instance [Qc_ops] of file Num.v. *)
Class NumOps (A : Type) := {
  n0 : A;
  n1 : A;
  nadd : A -> A -> A;
  nsub : A -> A -> A;
  nmul : A -> A -> A;
  ndiv : A -> A -> A;
  nopp : A -> A;
  nabs : A -> A;
  nltb : A -> A -> bool;
  nleb : A -> A -> bool;
  neqb : A -> A -> bool;
  nofQ : Q -> A;        (* a decimal constant of the source text *)
  nofnat : nat -> A;    (* conversion from an integer type *)
  nfloor : A -> nat;    (* (unsigned) floor(x) for x >= 0 *)
  nexp : A -> A;
  nsqrt : A -> A
}.

(** One random number from the generator (gsl_rng_uniform). *)
Definition draw {A} (ds : list A) : res (A * list A) :=
  match ds with [] => Err RngOut | u :: ds' => Ok (u, ds') end.

(** Num.v -- the exact instance of [NumOps] (canonical rationals) and the IEEE-754 binary64 instance
    (SpecFloat of the standard library, no axioms). *)
From Coq Require Import List Arith ZArith QArith Qcanon Qround Lia Floats.SpecFloat.
From Verif Require Import Base.
Import ListNotations.
Local Open Scope nat_scope.

(** Exact arithmetic.  exp and sqrt are not rational functions: they are parameters, so a theorem about
    [Qc_ops ex sq] holds for every choice (in particular for any approximation). *)
Definition Qc_ltb (a b : Qc) : bool := match Qccompare a b with Lt => true | _ => false end.
Definition Qc_leb (a b : Qc) : bool := match Qccompare a b with Gt => false | _ => true end.
Definition Qc_of_nat (n : nat) : Qc := Q2Qc (inject_Z (Z.of_nat n)).
Definition Qc_abs (a : Qc) : Qc := if Qc_ltb a 0%Qc then Qcopp a else a.

Definition Qc_ops (ex sq : Qc -> Qc) : NumOps Qc := {|
  n0 := 0%Qc; n1 := 1%Qc;
  nadd := Qcplus; nsub := Qcminus; nmul := Qcmult; ndiv := Qcdiv; nopp := Qcopp;
  nabs := Qc_abs;
  nltb := Qc_ltb; nleb := Qc_leb;
  neqb := fun a b => if Qc_eq_dec a b then true else false;
  nofQ := Q2Qc;
  nofnat := Qc_of_nat;
  nfloor := fun x => Z.to_nat (Qfloor (this x));
  nexp := ex; nsqrt := sq
|}.

(** IEEE-754 binary64, round to nearest even (SpecFloat).  Used only for concrete witnesses. *)
Definition sf_prec : Z := 53%Z.
Definition sf_emax : Z := 1024%Z.
Definition sf_of_Z (z : Z) : spec_float :=
  binary_normalize sf_prec sf_emax z 0 false.
Definition sf_ltb (a b : spec_float) : bool :=
  match SFcompare a b with Some Lt => true | _ => false end.
Definition sf_leb (a b : spec_float) : bool :=
  match SFcompare a b with Some Lt | Some Eq => true | _ => false end.
Definition sf_eqb (a b : spec_float) : bool :=
  match SFcompare a b with Some Eq => true | _ => false end.
Definition sf_floor (x : spec_float) : nat :=
  match x with
  | S754_finite false m e =>
      match e with
      | Z0 => Pos.to_nat m
      | Zpos k => Pos.to_nat (Pos.shiftl m (Npos k))
      | Zneg k => Z.to_nat (Z.shiftr (Zpos m) (Zpos k))
      end
  | _ => 0
  end.

Definition SF_ops (ex : spec_float -> spec_float) : NumOps spec_float := {|
  n0 := S754_zero false; n1 := sf_of_Z 1;
  nadd := SFadd sf_prec sf_emax; nsub := SFsub sf_prec sf_emax;
  nmul := SFmul sf_prec sf_emax; ndiv := SFdiv sf_prec sf_emax; nopp := SFopp;
  nabs := SFabs;
  nltb := sf_ltb; nleb := sf_leb; neqb := sf_eqb;
  nofQ := fun q => SFdiv sf_prec sf_emax (sf_of_Z (Qnum q)) (sf_of_Z (Zpos (Qden q)));
  nofnat := fun n => sf_of_Z (Z.of_nat n);
  nfloor := sf_floor;
  nexp := ex; nsqrt := SFsqrt sf_prec sf_emax
|}.

(** Basic facts about the exact comparison functions. *)
Lemma Qc_ltb_true a b : Qc_ltb a b = true <-> (a < b)%Qc.
Proof.
  unfold Qc_ltb. rewrite (Qclt_alt a b). destruct (a ?= b)%Qc; split; congruence.
Qed.
Lemma Qc_ltb_false a b : Qc_ltb a b = false <-> (b <= a)%Qc.
Proof.
  unfold Qc_ltb. rewrite (Qcge_alt a b). destruct (a ?= b)%Qc; split; congruence.
Qed.
Lemma Qc_leb_true a b : Qc_leb a b = true <-> (a <= b)%Qc.
Proof.
  unfold Qc_leb. rewrite (Qcle_alt a b). destruct (a ?= b)%Qc; split; congruence.
Qed.
Lemma Qc_leb_false a b : Qc_leb a b = false <-> (b < a)%Qc.
Proof.
  unfold Qc_leb. rewrite (Qcgt_alt a b). destruct (a ?= b)%Qc; split; congruence.
Qed.

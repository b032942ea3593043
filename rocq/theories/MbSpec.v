(** MbSpec.v -- the samplers of src/multiblock.c and src/only_deg.c, stated on sets of nodes. *)
From Coq Require Import List Arith ZArith Bool QArith Qcanon.
From Verif Require Import Base Num ListLib NatSum QcSum GraphModel GraphSpec GroupModel GroupSpec MissSpec MbModel.
Import ListNotations.
Local Open Scope nat_scope.

(** 1/(a+1) + ... + 1/b. *)
Definition hsum (a b : nat) : Qc := Qsum (fun i => 1 / Qc_of_nat i)%Qc (seq (a + 1) (b - a)).

Section MbSpec.
Variable ln : Qc -> Qc.
Variable lnchoose : nat -> nat -> Qc.
Variable lnfact : nat -> Qc.
Variable linC : Qc.
Variable kd : kind.

(** The logarithm of the number of ways to combine two partitions: tabulated below 150 groups, a formula above. *)
Definition degeneracy (n : nat) : Qc :=
  if n <? 150 then Q2Qc (nth n (match kd with OD => LOGDEGENERACY_OD | _ => LOGDEGENERACY end) 0%Q)
  else (Q2Qc (14681 # 10000) * Qc_of_nat n * (ln (Qc_of_nat n) - 1))%Qc.

(** The term of [l] links among [r] pairs. *)
Definition mb_cost (r l : nat) : Qc :=
  (ln (Qc_of_nat (r + 1)) + lnchoose r l - match kd with AND => ln (hsum l (r + 1)) | OR => ln (hsum (r - l) (r + 1)) | OD => 0 end)%Qc.
Definition mb_energy (g : net Qc) (M : groups) : Qc :=
  (linC * Qc_of_nat (filled M)
   + Qsum (fun k => let S := nth_members M k in if nonempty S then mb_cost (choose2 (length S)) (links_in g S) else 0) (seq 0 (length M))
   + pair_sum (length M) (fun k l => let S := nth_members M k in let T := nth_members M l in
       if nonempty S && nonempty T then mb_cost (length S * length T) (across g S T) else 0)
   - lnfact (length g - filled M) - degeneracy (filled M))%Qc.

(** What one partition adds to the score of a pair of nodes, when [l] of the [r] pairs of their groups are linked. *)
Definition ratio (a r : nat) : Qc := (Qc_of_nat (a + 1) * hsum (a + 1) (r + 2) / (Qc_of_nat (r + 2) * hsum a (r + 1)))%Qc.
Definition mb_share (r l : nat) : Qc :=
  match kd with AND => ratio l r | OR => ratio (r - l) r | OD => (Qc_of_nat (l + 1) / Qc_of_nat (r + 2))%Qc end.
Definition mb_score (g : net Qc) (M : groups) (i j : nat) : Qc :=
  let S := mates M i in
  let T := mates M j in
  if mem j S then mb_share (choose2 (length S)) (links_in g S) else mb_share (length S * length T) (across g S T).
End MbSpec.

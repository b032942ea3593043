(** Fuel.v -- the fuel of the two annealing loops is only a formality: every round consumes a random number, so any
    larger amount of fuel gives the same outcome. *)
From Coq Require Import List Arith Lia Bool.
From Verif Require Import Base ListLib PartModel MoveModel SAModel.
Import ListNotations.
Local Open Scope nat_scope.

Section Fuel.
Context {A : Type} {ops : NumOps A}.
Implicit Types (p : partition A) (ds : list A).

(** A run that returns has consumed at least [k] of the draws [ds]. *)
Definition uses {X} (k : nat) ds (m : res (X * list A)) : Prop :=
  forall x ds', m = Ok (x, ds') -> length ds' + k <= length ds.

Ltac bnd H := match type of H with
  | bind ?m _ = Ok _ => let x := fresh "x" in let E := fresh "E" in destruct m as [x|] eqn:E; cbn [bind] in H; [|discriminate]
  | (if ?b then _ else _) = Ok _ => let E := fresh "B" in destruct b eqn:E
  | Ok _ = Ok _ => injection H as <- <- || injection H as <-
  | Err _ = Ok _ => discriminate
  end.
Ltac bnds H := repeat bnd H.

Lemma uses_draw ds : uses 1 ds (draw ds).
Proof. intros x ds' H. destruct ds; cbn in *; inversion H; subst; lia. Qed.

Lemma uses_metropolis dE T ds : uses 0 ds (metropolis dE T ds).
Proof.
  intros x ds' H. unfold metropolis in H. bnd H; [bnds H; lia|]. bnd H. destruct x0 as [u d]. injection H as <- <-.
  apply uses_draw in E. lia.
Qed.

Lemma uses_pick_newg M o ds : uses 0 ds (pick_newg M o ds).
Proof.
  induction ds as [|u ds IH]; intros x ds' H; cbn [pick_newg] in H; [discriminate|].
  destruct (_ =? _); [apply IH in H; cbn; lia|]. injection H as <- <-. cbn; lia.
Qed.

Lemma uses_pick_other p g ds : uses 0 ds (pick_other p g ds).
Proof.
  induction ds as [|u ds IH]; intros x ds' H; cbn [pick_other] in H; [discriminate|]. bnd H.
  destruct (_ =? _); [apply IH in H; cbn; lia|]. injection H as <- <-. cbn; lia.
Qed.

Lemma uses_pick_split p ds : uses 0 ds (pick_split p ds).
Proof.
  induction ds as [|u ds IH]; intros x ds' H; cbn [pick_split] in H; [discriminate|]. bnd H. bnd H.
  destruct (_ =? _); [apply IH in H; cbn; lia|]. injection H as <- <-. cbn; lia.
Qed.

Lemma uses_individual adj T st ds : uses 1 ds (individual_move adj T st ds).
Proof.
  intros x ds' H. unfold individual_move in H. destruct st as [p E0]. bnd H. destruct x0 as [u d1]. bnd H. bnd H. destruct x1 as [g d2].
  bnd H. bnd H. destruct x2 as [ok d3]. apply uses_draw in E. apply uses_pick_newg in E2. apply uses_metropolis in E4.
  destruct ok.
  - bnd H. injection H as <- <-. lia.
  - injection H as <- <-. lia.
Qed.

Lemma uses_merge adj T st ds : uses 1 ds (merge_move adj T st ds).
Proof.
  intros x ds' H. unfold merge_move in H. destruct st as [p E0]. bnd H. destruct x0 as [u d1]. bnd H. bnd H. apply uses_draw in E.
  bnd H; [|injection H as <- <-; lia]. bnd H. destruct x2 as [g d2]. bnd H. bnd H. destruct x3 as [ok d3].
  apply uses_pick_other in E3. apply uses_metropolis in E5.
  destruct ok.
  - bnd H. injection H as <- <-. lia.
  - injection H as <- <-. lia.
Qed.

Lemma uses_pick_side c ds : uses 0 ds (pick_side c ds).
Proof.
  intros x ds' H. unfold pick_side in H. repeat bnd H; try lia. destruct x0 as [u d]. apply uses_draw in E. injection H as <- <-. lia.
Qed.

Lemma uses_split_walk target p adj fuel cur c st ds : uses 0 ds (split_walk target p adj fuel cur c st ds).
Proof.
  revert cur c st ds. induction fuel as [|fuel IH]; intros cur c st ds x ds' H; destruct cur as [n|]; cbn [split_walk] in H;
    try (injection H as <- <-; lia); bnd H; try (injection H as <- <-; lia); try discriminate.
  bnd H. bnd H. bnd H. destruct x2 as [[c1 st1] d1]. apply IH in H.
  enough (length d1 <= length ds) by lia.
  bnd E1; [injection E1 as <- <- <-; lia|].
  bnd E1. cbv zeta in E1. bnd E1. destruct x3 as [side d2]. bnd E1. bnd E1. injection E1 as <- <- <-. apply uses_pick_side in E3. lia.
Qed.

Lemma uses_split_components t e p adj ds : uses 0 ds (SplitModuleByComponent t e p adj ds).
Proof.
  intros x ds' H. unfold SplitModuleByComponent in H. bnd H. bnd H. destruct x1 as [[c st] d]. bnd H. injection H as <- <-.
  now apply uses_split_walk in E0.
Qed.

Lemma uses_random_split e ind p ds : uses 0 ds (random_split e ind p ds).
Proof.
  unfold random_split. revert p ds. induction ind as [|i ind IH]; intros p ds x ds' H; cbn [foldM] in H.
  - injection H as <- <-. lia.
  - bnd H. destruct x0 as [p1 d1]. apply IH in H. bnd E. destruct x0 as [u d2]. apply uses_draw in E0.
    bnd E; [bnd E|]; injection E as <- <-; lia.
Qed.

Lemma uses_split_loop t e N Tf Ts limit ind adj fuel T nc p ds : uses 0 ds (split_sa_loop t e N Tf Ts limit ind adj fuel T nc p ds).
Proof.
  revert T nc p ds. induction fuel as [|fuel IH]; intros T nc p ds x ds' H; cbn [split_sa_loop] in H; [discriminate|].
  bnd H; [|injection H as <- <-; lia]. bnd H. destruct x0 as [u d1]. apply uses_draw in E. bnd H. bnd H. cbv zeta in H. bnd H. bnd H.
  destruct x3 as [ok d2]. apply uses_metropolis in E3. bnd H.
  destruct (nltb _ EPSILON_MOD); [destruct (limit <? nc + 1)|]; try (apply IH in H; lia).
  injection H as <- <-. lia.
Qed.

(** Any two amounts of fuel above the number of draws give the same outcome. *)
Theorem split_sa_fuel t e N Tf Ts limit ind adj f1 f2 T nc p ds : length ds < f1 -> length ds < f2 ->
  split_sa_loop t e N Tf Ts limit ind adj f1 T nc p ds = split_sa_loop t e N Tf Ts limit ind adj f2 T nc p ds.
Proof.
  revert f2 T nc p ds. induction f1 as [|f1 IH]; intros f2 T nc p ds H1 H2; [lia|]. destruct f2 as [|f2]; [lia|].
  cbn [split_sa_loop]. destruct (nltb Tf T); auto.
  destruct (draw ds) as [[u d1]|] eqn:Ed; cbn [bind]; auto. apply uses_draw in Ed.
  destruct (get ind (rng_index u N)) as [nodeid|]; cbn [bind]; auto.
  destruct (get (pnodes p) nodeid) as [nd|]; cbn [bind]; auto. cbv zeta.
  destruct (dEChangeModule _ _ _ _) as [dE|]; cbn [bind]; auto.
  destruct (metropolis dE T d1) as [[ok d2]|] eqn:Em; cbn [bind]; auto. apply uses_metropolis in Em.
  destruct (if ok then _ else _) as [q|]; cbn [bind]; auto.
  destruct (nltb _ EPSILON_MOD); [destruct (limit <? nc + 1); auto|]; apply IH; lia.
Qed.

Lemma uses_SplitSA t e Ti Tf Ts limit p adj ds : uses 0 ds (SplitModuleSA t e Ti Tf Ts limit p adj ds).
Proof.
  intros x ds' H. unfold SplitModuleSA in H. bnd H. cbv zeta in H. bnd H. bnd H. destruct x2 as [q d1].
  apply uses_random_split in E1. apply uses_split_loop in H. lia.
Qed.

Lemma uses_split_move adj Ti T proba limit st ds : uses 0 ds (split_move adj Ti T proba limit st ds).
Proof.
  intros x ds' H. unfold split_move in H. destruct st as [p E0]. bnd H; [injection H as <- <-; lia|]. bnd H. bnd H.
  destruct x1 as [t d1]. apply uses_pick_split in E1. bnd H. destruct x1 as [u d2]. apply uses_draw in E2. bnd H. destruct x1 as [[nc p1] d3].
  assert (length d3 <= length d2).
  { bnd E3; [apply uses_split_components in E3; lia|injection E3 as <- <- <-; lia]. }
  bnd H. destruct x1 as [p2 d4].
  assert (length d4 <= length d3).
  { bnd E4; [apply uses_SplitSA in E4; lia|injection E4 as <- <-; lia]. }
  bnd H. bnd H. bnd H; [injection H as <- <-; lia|]. bnd H. cbv zeta in H. bnd H. destruct x4 as [ok d5]. apply uses_metropolis in E8.
  destruct ok; [|bnd H]; injection H as <- <-; lia.
Qed.

Lemma uses_collective adj Ti T proba limit st ds : uses 1 ds (collective_move adj Ti T proba limit st ds).
Proof.
  intros x ds' H. unfold collective_move in H. bnd H. destruct x0 as [[p E1] d1]. apply uses_merge in E. apply uses_split_move in H. lia.
Qed.

Lemma uses_repeat {S} (f : S -> list A -> res (S * list A)) k c : (forall s ds, uses c ds (f s ds)) ->
  forall s ds, uses (k * c) ds (repeatM f k s ds).
Proof.
  intros Hf. induction k as [|k IH]; intros s ds x ds' H; cbn [repeatM] in H.
  - injection H as <- <-. lia.
  - bnd H. destruct x0 as [s1 d1]. apply Hf in E. apply IH in H. simpl. lia.
Qed.

(** The temperature loop likewise, whenever a temperature step makes at least one movement. *)
Theorem sa_fuel adj nind ncol Ti Tf Ts proba limit f1 f2 T st ds : 0 < nind + ncol -> length ds < f1 -> length ds < f2 ->
  sa_loop adj nind ncol Ti Tf Ts proba limit f1 T st ds = sa_loop adj nind ncol Ti Tf Ts proba limit f2 T st ds.
Proof.
  intros Hn. revert f2 T st ds. induction f1 as [|f1 IH]; intros f2 T st ds H1 H2; [lia|]. destruct f2 as [|f2]; [lia|].
  cbn [sa_loop]. destruct (nltb Tf T); auto.
  destruct (repeatM (individual_move adj T) _ _ _) as [[[p1 E1] d1]|] eqn:R1; cbn [bind]; auto.
  apply (uses_repeat _ _ 1 (uses_individual adj T)) in R1.
  destruct (repeatM (collective_move adj Ti T proba limit) _ _ _) as [[[p2 E2] d2]|] eqn:R2; cbn [bind]; auto.
  apply (uses_repeat _ _ 1 (uses_collective adj Ti T proba limit)) in R2.
  destruct (sa_checkpoint _ _) as [[st'|st']|]; cbn [bind]; auto. apply IH; lia.
Qed.

(** Running out of fuel is never the reason for [RngOut] in GeneralSA: with any more fuel the outcome is the same. *)
Theorem GeneralSA_fuel p adj fac Ti Tf Ts proba limit ds f :
  0 < individual_movements fac (pN p) + collective_movements fac (pN p) -> length ds < f ->
  GeneralSA p adj fac Ti Tf Ts proba limit ds =
  (do (st, ds) <- sa_loop adj (individual_movements fac (pN p)) (collective_movements fac (pN p))
                    Ti Tf Ts proba limit f Ti (mkSA p n0 n0 None None 0) ds;
   Ok (sbest st, sbestE st, ds)).
Proof.
  intros Hn Hf. unfold GeneralSA. now rewrite (sa_fuel adj _ _ Ti Tf Ts proba limit (S (length ds)) f) by auto.
Qed.

End Fuel.

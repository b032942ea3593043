(** EnergyForm.v -- dEChangeModule and dEMergeModules never fail on valid input, and what they add up, for every
    arithmetic. *)
From Coq Require Import List Arith Lia Bool.
From Verif Require Import Base ListLib PartModel MoveModel PartSpec AdjSpec PartInv.
Import ListNotations.
Local Open Scope nat_scope.

Section Form.
Context {A : Type} {ops : NumOps A}.
Implicit Types p : partition A.

(** The module number of node [j] (0 if out of range). *)
Definition gof p (j : nat) : nat := match group p j with Some m => m | None => 0 end.

Lemma gof_node p j nd : nth_error (pnodes p) j = Some nd -> gof p j = nmod nd.
Proof. intros H. unfold gof, group. now rewrite H. Qed.

Lemma foldM_pure {S X} (f : S -> X -> res S) (g : S -> X -> S) l : forall s,
  (forall s x, In x l -> f s x = Ok (g s x)) -> foldM f s l = Ok (fold_left g l s).
Proof.
  induction l as [|x l IH]; intros s H; simpl; auto. rewrite H by (simpl; auto). cbn [bind]. apply IH.
  intros; apply H; simpl; auto.
Qed.

Lemma row_fold_pure {S} (adj : adja A) N i (body : S -> nat -> res S) (g : S -> nat * A -> S) s :
  adj_ok adj N -> i < N ->
  (forall s k j w, nth_error (anb adj) k = Some j -> nth_error (astr adj) k = Some w -> j < N ->
     In (j, w) (row adj i) -> body s k = Ok (g s (j, w))) ->
  row_fold adj i body s = Ok (fold_left g (row adj i) s).
Proof.
  intros H Hi Hb. rewrite (row_fold_eq adj N i body (fun s x => Ok (g s x)) s); auto.
  apply foldM_pure. auto.
Qed.

Definition dE_links p (old new : nat) (dE : A) (x : nat * A) : A :=
  if gof p (fst x) =? old then nsub dE (snd x)
  else if gof p (fst x) =? new then nadd dE (snd x) else dE.

Lemma dEChangeModule_form p ls adj n m nd : WF p ls -> adj_ok adj (pN p) ->
  nth_error (pnodes p) n = Some nd -> m < pM p ->
  exists mo mn, nth_error (pmods p) (nmod nd) = Some mo /\ nth_error (pmods p) m = Some mn /\
  dEChangeModule n m p adj =
    Ok (nmul (nofnat 2) (nadd (fold_left (dE_links p (nmod nd) m) (row adj n) n0)
         (nmul (nstr nd) (nsub (nsub (mstr mo) (nstr nd)) (mstr mn))))).
Proof.
  intros W HA En Hm. pose proof (wf_range _ _ W _ _ En) as Ho.
  destruct (wf_module _ _ _ W Ho) as (mo & Eo & _). destruct (wf_module _ _ _ W Hm) as (mn & Em & _).
  exists mo, mn. splits; auto. unfold dEChangeModule.
  rewrite (get_ok _ _ _ En). cbn [bind]. rewrite (get_ok _ _ _ Eo). cbn [bind]. rewrite (get_ok _ _ _ Em). cbn [bind].
  rewrite (row_fold_pure adj (pN p) n _ (dE_links p (nmod nd) m)); auto.
  - rewrite <- (wf_N _ _ W). eapply nth_lt; eauto.
  - intros s k j w Ej Ew Hj _. rewrite (get_ok _ _ _ Ej). cbn [bind].
    destruct (wf_node _ _ _ W Hj) as (nj & Enj & _). rewrite (get_ok _ _ _ Enj). cbn [bind].
    rewrite (get_ok _ _ _ Ew). cbn [bind]. unfold dE_links. cbn [fst snd]. rewrite (gof_node _ _ _ Enj).
    destruct (nmod nj =? nmod nd); auto. destruct (nmod nj =? m); auto.
Qed.

Definition dE_into p (large : nat) (dE : A) (x : nat * A) : A :=
  if gof p (fst x) =? large then nadd dE (snd x) else dE.

Lemma dEMergeModules_form p ls adj a b : WF p ls -> adj_ok adj (pN p) -> a < pM p -> b < pM p ->
  exists ma mb, nth_error (pmods p) a = Some ma /\ nth_error (pmods p) b = Some mb /\
  let '(small, large) := if length (ls b) <? length (ls a) then (b, a) else (a, b) in
  dEMergeModules a b p adj =
    Ok (nmul (nofnat 2) (nsub (fold_left (fun dE i => fold_left (dE_into p large) (row adj i) dE) (ls small) n0)
          (nmul (mstr ma) (mstr mb)))).
Proof.
  intros W HA Ha Hb. destruct (wf_module _ _ _ W Ha) as (ma & Ea & _ & Sa & Fa & _ & Da).
  destruct (wf_module _ _ _ W Hb) as (mb & Eb & _ & Sb & Fb & _ & Db).
  exists ma, mb. splits; auto.
  destruct (if length (ls b) <? length (ls a) then (b, a) else (a, b)) as [small large] eqn:Esl.
  unfold dEMergeModules. rewrite (get_ok _ _ _ Ea). cbn [bind]. rewrite (get_ok _ _ _ Eb). cbn [bind].
  rewrite Sa, Sb.
  assert (exists ms, (if length (ls b) <? length (ls a) then (mb, a) else (ma, b)) = (ms, large) /\
            mfirst ms = hd_error (ls small) /\ dll (pnodes p) None (ls small) None) as (ms & -> & Fs & Ds).
  { destruct (length (ls b) <? length (ls a)); injection Esl as <- <-; eauto. }
  rewrite Fs.
  assert (L : length (ls small) <= length (pnodes p)).
  { rewrite (wf_N _ _ W). apply NoDup_bound; [apply (wf_nodup _ _ W)|]. intros x Hx. eapply wf_in_lt; eauto. }
  destruct (walkM_list (fun (_ : A) i => next_of p i)
      (fun dE i => do nd <- get (pnodes p) i;
         row_fold adj (nid nd) (fun dE k => do j <- get (anb adj) k; do nj <- get (pnodes p) j;
           if nmod nj =? large then do s <- get (astr adj) k; Ok (nadd dE s) else Ok dE) dE)
      (fun done dE => dE = fold_left (fun dE i => fold_left (dE_into p large) (row adj i) dE) done n0)
      (ls small) (length (pnodes p)) n0 L eq_refl) as (dE & E & EQ).
  - intros done i rest s El ->. rewrite El in Ds. destruct (dll_node _ _ _ _ Ds) as (nd & End & _ & Enx).
    assert (Hi : i < pN p). { rewrite <- (wf_N _ _ W). eapply nth_lt; eauto. }
    eexists. splits.
    + rewrite (get_ok _ _ _ End). cbn [bind]. rewrite (wf_nid _ _ W _ _ End).
      apply (row_fold_pure adj (pN p) i _ (dE_into p large)); auto.
      intros s k j w Ej Ew Hj _. rewrite (get_ok _ _ _ Ej). cbn [bind].
      destruct (wf_node _ _ _ W Hj) as (nj & Enj & _). rewrite (get_ok _ _ _ Enj). cbn [bind].
      rewrite (get_ok _ _ _ Ew). cbn [bind]. unfold dE_into. cbn [fst snd]. rewrite (gof_node _ _ _ Enj).
      destruct (nmod nj =? large); auto.
    + rewrite fold_left_app. reflexivity.
    + unfold next_of. rewrite (get_ok _ _ _ End). cbn [bind]. now rewrite Enx.
  - rewrite E. cbn [bind]. rewrite EQ. reflexivity.
Qed.

End Form.

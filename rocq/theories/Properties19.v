(** Properties19.v -- connected sets: C92 to C98. *)
From Coq Require Import List Arith Lia ZArith Bool QArith Qcanon.
From Verif Require Import Base Num ListLib IoModel GraphModel GraphSpec GraphProof BfsModel BfsProof NetModel NetSpec Refute UnitNet ConnModel ConnSpec ConnProof ConnSearch ConnSets ConnMain.
Import ListNotations.
Local Open Scope nat_scope.

Section Conn.
Context {A : Type} {ops : NumOps A}.
Implicit Types g : net A.

(** C92: the answer is yes exactly if a node of the set, other than the one asked about, can be reached. *)
Theorem C92_reach g v cluslis : wf_net g -> v < length g -> length g <= length cluslis ->
  exists b g', AreConnectedList g v cluslis = Ok (b, g') /\ same_but_state g g' /\ (b = true <-> exists u, u <> v /\ reachable g v u /\ nth u cluslis false = true).
Proof. intros W. exact (are_connected_list g g v cluslis W eq_refl). Qed.

(** C93: the number of strongly connected sets is counted. *)
Theorem C93_count g : wf_net g -> NoDup (map glabel g) -> (forall n, In n g -> length (glabel n) < 100) -> g <> [] ->
  exists n g' Ms, CountStronglyConnectedSets g = Ok (n, g') /\ same_but_state g g' /\ strong_sets_of g Ms /\ n = length Ms.
Proof. intros W. exact (count_strong g W). Qed.
Theorem C93_empty : CountStronglyConnectedSets (@nil (gnode A)) = Err UB_null.
Proof. reflexivity. Qed.

(** C94: the largest strongly connected set is returned as a network of its own, or one with more than [thres] nodes. *)
Theorem C94_largest g thres : wf_net g -> NoDup (map glabel g) -> (forall n, In n g -> length (glabel n) < 100) -> g <> [] ->
  exists M loc g', GetLargestStronglyConnectedSet g thres = Ok (Some loc, g') /\ same_but_state g g' /\ induced g M loc /\ strong_set g M /\
    ((thres < Z.of_nat (length M))%Z \/ forall M', strong_set g M' -> length M' <= length M).
Proof. intros W D L. exact (largest_strong g W D L thres). Qed.

(** C95: the same of the weakly connected sets of undirected networks, which are the strongly connected ones. *)
Theorem C95_weak g thres : undirected g -> NoDup (map glabel g) -> (forall n, In n g -> length (glabel n) < 100) -> g <> [] ->
  exists M loc g', GetLargestWeaklyConnectedSet g thres = Ok (Some loc, g') /\ same_but_state g g' /\ induced g M loc /\ strong_set g M /\
    ((thres < Z.of_nat (length M))%Z \/ forall M', strong_set g M' -> length M' <= length M).
Proof. intros U D L. exact (largest_weak g (un_wf g U) D L thres U). Qed.

(** C97: in undirected networks every connected set is listed once, with its nodes; only the set of node 0 keeps its links. *)
Theorem C97_all g out : undirected g -> NoDup (map glabel g) -> (forall n, In n g -> length (glabel n) < 100) -> g <> [] -> length g <= 100 * 100 + 1 -> length g <= length out ->
  exists n out' g' Ms, GetAllConnectedSets g out = Ok (n, out', g') /\ same_but_state g g' /\ strong_sets_of g Ms /\ n = length Ms /\ length out' = length out /\
    (forall i M, nth_error Ms i = Some M -> exists loc, nth_error out' i = Some (Some loc) /\ part_of g M (mem 0 M) loc) /\
    (forall i, length Ms <= i -> nth_error out' i = nth_error out i).
Proof. intros U D L. exact (all_connected g (un_wf g U) D L out U). Qed.
(** In a directed network with a link out of the strongly connected set of node 0 a null pointer is dereferenced. *)
Theorem C97_crash g out a b : wf_net g -> NoDup (map glabel g) -> (forall n, In n g -> length (glabel n) < 100) -> length g <= 100 * 100 + 1 -> 0 < length g ->
  mutual g 0 a -> In b (nbrs g a) -> ~ mutual g 0 b -> GetAllConnectedSets g out = Err UB_null.
Proof. intros W D L. exact (all_crash g W D L out a b). Qed.
End Conn.

(** Concrete cases. *)
#[local] Instance ops19 : NumOps Qc := Qc_ops ex0 sq0.
(** A directed triangle with a tail and a node behind it; two separate pairs and a lone node. *)
Definition arcs19 : list (list nat) := [[1]; [2; 3]; [0]; [4]; []].
Definition rows19 : list (list nat) := [[2]; []; [0]; [4]; [3; 5]; [4]].
Lemma unit_labels rows : NoDup (map glabel (unit_net (A := Qc) rows)).
Proof.
  unfold unit_net. rewrite map_map. cbn [glabel unit_node]. apply FinFun.Injective_map_NoDup; [|apply seq_NoDup]. intros x y E. apply (f_equal (@length _)) in E. unfold name_of in E. rewrite !repeat_length in E. auto.
Qed.
Example net19 : wf_net (unit_net (A := Qc) arcs19) /\ undirected (unit_net (A := Qc) rows19) /\ (forall n, In n (unit_net (A := Qc) rows19) \/ In n (unit_net (A := Qc) arcs19) -> length (glabel n) < 100).
Proof. split; [apply unit_wf; reflexivity|]. split; [apply unit_undirected; reflexivity|]. intros n [H|H]; cbn in H; repeat destruct H as [<-|H]; try destruct H; cbn; lia. Qed.
Example count19 : match CountStronglyConnectedSets (unit_net (A := Qc) arcs19) with Ok (n, _) => n = 3 | Err _ => False end /\ match CountStronglyConnectedSets (unit_net (A := Qc) rows19) with Ok (n, _) => n = 3 | Err _ => False end.
Proof. vm_compute. auto. Qed.
Definition rows_of (r : res (option (net Qc) * net Qc)) : option (list (nat * list nat)) :=
  match r with Ok (Some c, _) => Some (map (fun i => (match nth_error c i with Some n => length (glabel n) | None => 0 end, nbrs c i)) (seq 0 (length c))) | _ => None end.
Example largest19 : rows_of (GetLargestStronglyConnectedSet (unit_net (A := Qc) arcs19) 100) = Some [(0, [1]); (1, [2]); (2, [0])] /\
  rows_of (GetLargestWeaklyConnectedSet (unit_net (A := Qc) rows19) 100) = Some [(3, [1]); (4, [0; 2]); (5, [1])] /\
  rows_of (GetLargestWeaklyConnectedSet (unit_net (A := Qc) rows19) 1) = Some [(0, [1]); (2, [0])].
Proof. vm_compute. auto. Qed.
Definition lists_of (r : res (nat * list (option (net Qc)) * net Qc)) : option (list (list (nat * list nat))) :=
  match r with Ok (n, out, _) => Some (map (fun o => match o with Some c => map (fun i => (match nth_error c i with Some n => gnum n | None => 0 end, nbrs c i)) (seq 0 (length c)) | None => [] end) (firstn n out)) | Err _ => None end.
Example all19 : lists_of (GetAllConnectedSets (unit_net (A := Qc) rows19) (repeat None 6)) = Some [[(0, [1]); (2, [0])]; [(1, [])]; [(3, []); (4, []); (5, [])]] /\
  lists_of (GetAllConnectedSets (unit_net (A := Qc) arcs19) (repeat None 6)) = None.
Proof. vm_compute. auto. Qed.

(** C96 is false: in directed networks the set returned need not be closed under links in either direction. *)
Definition C96_statement : Prop := forall (g g' loc : net Qc) thres, wf_net g -> NoDup (map glabel g) -> (forall n, In n g -> length (glabel n) < 100) ->
  GetLargestWeaklyConnectedSet g thres = Ok (Some loc, g') -> exists M, induced g M loc /\ forall a b, In a M -> (In b M <-> joined g a b).
Theorem C96_weak_directed_refuted : ~ C96_statement.
Proof.
  intros H. set (g := unit_net (A := Qc) [[]; [3]; [0; 3]; []]). destruct (GetLargestWeaklyConnectedSet g 100) as [[[loc|] g']|e] eqn:E; [|vm_compute in E; discriminate|vm_compute in E; discriminate].
  assert (W : wf_net g) by (apply unit_wf; reflexivity). assert (L : forall n, In n g -> length (glabel n) < 100) by (intros n Hn; cbn in Hn; repeat destruct Hn as [<-|Hn]; try destruct Hn; cbn; lia).
  destruct (H g g' loc 100%Z W (unit_labels _) L E) as (M & I & HM).
  assert (X : length loc = 3) by (revert E; vm_compute; intros E; injection E as <- <-; reflexivity). assert (LM : length M = 3) by (pose proof (f_equal (@length _) (in_labels _ _ _ I)) as EL; rewrite !map_length in EL; lia).
  assert (J02 : joined g 0 2) by (apply joined_in with 0; [constructor; cbn; lia|cbn; auto]). assert (J03 : joined g 0 3) by (eapply joined_out; [exact J02|cbn; auto]). assert (J01 : joined g 0 1) by (eapply joined_in; [exact J03|cbn; auto]).
  destruct M as [|a M]; [discriminate|]. assert (Ha : In a (a :: M)) by (left; auto).
  assert (La : joined g a a) by (apply HM; auto). assert (Ra : forall i j, joined g i j -> i < 4 /\ j < 4).
  { assert (Hn : forall i j, In j (nbrs g i) -> i < 4 /\ j < 4) by (intros i j Hj; apply (nbrs_lt g i j W) in Hj; exact Hj). intros i j J. induction J as [i Hi|i j k J IH Hk|i j k J IH Hk]; [split; exact Hi| |]; apply Hn in Hk; tauto. }
  assert (J0 : forall v, v < 4 -> joined g 0 v) by (intros v Hv; destruct v as [|[|[|[|v]]]]; auto; [constructor; cbn; lia|lia]).
  assert (Tr : forall j k, joined g j k -> forall i, joined g i j -> joined g i k) by (intros j k J; induction J as [j Hj|j m k J IH Hk|j m k J IH Hk]; intros i Ji; [exact Ji|apply joined_out with m; auto|apply joined_in with m; auto]).
  assert (Sy : forall i j, joined g i j -> joined g j i).
  { assert (Hn : forall i j, In j (nbrs g i) -> i < 4 /\ j < 4) by (intros i j Hj; apply (nbrs_lt g i j W) in Hj; exact Hj). intros i j J. induction J as [i Hi|i j k J IH Hk|i j k J IH Hk]; [constructor; auto| |]; pose proof (Hn _ _ Hk) as [L1 L2]; (eapply Tr; [exact IH|]); [eapply joined_in; [|exact Hk]|eapply joined_out; [|exact Hk]]; constructor; cbn; lia. }
  assert (I4 : incl (seq 0 4) (a :: M)) by (intros v Hv; apply in_seq in Hv; apply (HM a v Ha); eapply Tr; [apply J0; lia|]; apply Sy, J0; apply (Ra _ _ La)).
  apply NoDup_incl_length in I4; [rewrite seq_length in I4; lia|apply seq_NoDup].
Qed.

(** C98 is false: the sets listed do not carry the links between their nodes. *)
Definition C98_statement : Prop := forall (g g' : net Qc) n out out' i loc, undirected g -> NoDup (map glabel g) -> (forall n, In n g -> length (glabel n) < 100) -> length g <= length out ->
  GetAllConnectedSets g out = Ok (n, out', g') -> i < n -> nth_error out' i = Some (Some loc) ->
  forall x y nx ny, nth_error loc x = Some nx -> nth_error loc y = Some ny -> weight loc x y = weight g (gnum nx) (gnum ny).
Theorem C98_links_refuted : ~ C98_statement.
Proof.
  intros H. set (g := unit_net (A := Qc) [[1]; [0]; [3]; [2]]). destruct (GetAllConnectedSets g (repeat None 4)) as [[[n out'] g']|e] eqn:E; [|vm_compute in E; discriminate].
  assert (U : undirected g) by (apply unit_undirected; reflexivity). assert (L : forall n, In n g -> length (glabel n) < 100) by (intros m Hn; cbn in Hn; repeat destruct Hn as [<-|Hn]; try destruct Hn; cbn; lia).
  assert (X : n = 2 /\ exists loc a b, nth_error out' 1 = Some (Some loc) /\ nth_error loc 0 = Some a /\ nth_error loc 1 = Some b /\ gnum a = 2 /\ gnum b = 3 /\ gadj a = []).
  { revert E. vm_compute. intros E. injection E as <- <- <-. split; auto. do 3 eexists. repeat split; reflexivity. }
  destruct X as (-> & loc & a & b & E1 & E2 & E3 & E4 & E5 & E6). specialize (H g g' 2 (repeat None 4) out' 1 loc U (unit_labels _) L (le_n 4) E (le_n 2) E1 0 1 a b E2 E3). rewrite E4, E5 in H. unfold weight at 1 in H. rewrite E2, E6 in H. vm_compute in H. discriminate H.
Qed.

Print Assumptions C92_reach.
Print Assumptions C93_count.
Print Assumptions C93_empty.
Print Assumptions C94_largest.
Print Assumptions C95_weak.
Print Assumptions C96_weak_directed_refuted.
Print Assumptions C97_all.
Print Assumptions C97_crash.
Print Assumptions C98_links_refuted.

(** Properties11.v -- random generators of networks: C34, C66. *)
From Coq Require Import List Arith ZArith Lia Bool QArith Qcanon.
From Coq Require Import Strings.Ascii.
From Verif Require Import Base Num ListLib IoModel GraphModel GraphSpec GraphProof EdgeListExact EdgeListProof RolesBounds GenModel GenSpec GenProof GenPA GenBlock SAProof Refute.
Import ListNotations.
Local Open Scope nat_scope.
Local Open Scope list_scope.

Section Generic.
Context {A : Type} {ops : NumOps A}.
Implicit Types (g : net A).

(** C34: an empty graph has the nodes 1 .. N and no links. *)
Theorem C34_empty N : writable N -> exists g, EmptyGraph N = Ok g /\ undirected g /\ named g N /\ (forall i, nbrs g i = []).
Proof. exact (EmptyGraph_spec N). Qed.

(** C34: ERGraph takes one draw per pair, in order, and links the pair exactly if the draw is below [p]. *)
Theorem C34_er N (p : A) ds : writable N ->
  if length ds <? length (upper N) then ERGraph N p ds = Err RngOut else
  exists g, ERGraph N p ds = Ok (g, skipn (length (upper N)) ds) /\ undirected g /\ named g N /\ weightless g /\
    (forall r i j u, nth_error (upper N) r = Some (i, j) -> nth_error ds r = Some u -> (In j (nbrs g i) <-> nltb u p = true)).
Proof. exact (ERGraph_spec N p ds). Qed.
(** [upper N] is every pair once. *)
Theorem C34_pairs N : NoDup (upper N) /\ (forall i j, In (i, j) (upper N) <-> i < j < N) /\ 2 * length (upper N) = N * (N - 1).
Proof. exact (conj (upper_NoDup N) (conj (upper_In N) (upper_length N))). Qed.

(** C34: the same for the block model, with the entry of the matrix for the groups of the two nodes. *)
Theorem C34_block ngroup gsize q ds : let gs := blocks ngroup gsize in let N := length gs in
  ngroup <= length gsize -> writable N -> covers q gs ->
  if length ds <? length (upper N) then UndirectedBlockGraph ngroup gsize q ds = Err RngOut else
  exists g, UndirectedBlockGraph ngroup gsize q ds = Ok (g, skipn (length (upper N)) ds) /\ undirected g /\ named g N /\ weightless g /\
    map ggroup g = map Some gs /\
    (forall r i j u a b, nth_error (upper N) r = Some (i, j) -> nth_error ds r = Some u -> nth_error gs i = Some a -> nth_error gs j = Some b ->
       exists x, entry q a b = Some x /\ (In j (nbrs g i) <-> nltb u x = true)).
Proof. exact (Block_spec ngroup gsize q ds). Qed.

(** C34: the benchmark of Girvan and Newman: nodes i and j are in the same group if i / gsize = j / gsize. *)
Theorem C34_gn ngroup gsize (kin kout : A) ds : let N := ngroup * gsize in writable N ->
  if length ds <? length (upper N) then GirvanNewmanGraph ngroup gsize kin kout ds = Err RngOut else
  exists g, GirvanNewmanGraph ngroup gsize kin kout ds = Ok (g, skipn (length (upper N)) ds) /\ undirected g /\ named g N /\ weightless g /\
    (forall i nd, nth_error g i = Some nd -> ggroup nd = Some (i / gsize)) /\
    (forall r i j u, nth_error (upper N) r = Some (i, j) -> nth_error ds r = Some u ->
       (In j (nbrs g i) <-> nltb u (if i / gsize =? j / gsize then ndiv kin (nsub (nofnat gsize) n1) else ndiv kout (nofnat (gsize * (ngroup - 1)))) = true)).
Proof. exact (GN_spec ngroup gsize kin kout ds). Qed.

(** C34: preferential attachment: for every sequence of draws in range the run makes no error other than running out of
    draws, and gives a simple network with a full core and between 1 and m links back from every later node. *)
Theorem C34_pa N m (ds : list A) : writable N -> 1 <= m <= N -> Forall good_pick ds ->
  safe (PAGraph N m ds) (fun '(g, ds') => undirected g /\ named g N /\ weightless g /\ (forall a b, a < m -> b < m -> a <> b -> In b (nbrs g a)) /\
    forall i, m <= i < N -> 1 <= length (earlier g i) <= m).
Proof. exact (PAGraph_spec N m ds). Qed.
Theorem C34_pa_zero N (ds : list A) : writable N -> exists g, PAGraph N 0 ds = Ok (g, ds) /\ undirected g /\ named g N /\ forall i, nbrs g i = [].
Proof. exact (PA_zero N ds). Qed.
(** C34: a core larger than the network is written outside the array of nodes. *)
Theorem C34_pa_oob N m (ds : list A) : writable m -> N < m -> PAGraph N m ds = Err UB_oob.
Proof. exact (PA_oob N m ds). Qed.
End Generic.

Section Exact.
Variables ex sq : Qc -> Qc.
#[local] Instance ops11 : NumOps Qc := Qc_ops ex sq.

(** C34: with draws in [0,1), no links for p <= 0 and all links for p >= 1. *)
Theorem C34_er_none N p ds g ds' : writable N -> Forall (fun u => 0 <= u /\ u < 1)%Qc ds -> (p <= 0)%Qc -> ERGraph N p ds = Ok (g, ds') -> forall i, nbrs g i = [].
Proof.
  exact (fun HN F Hp => ERGraph_none N p ds g ds' HN (Forall_impl _ (fun u Hu => proj2 (Qc_ltb_false u p) (Qcle_trans _ _ _ Hp (proj1 Hu))) F)).
Qed.
Theorem C34_er_all N p ds g ds' : writable N -> Forall (fun u => 0 <= u /\ u < 1)%Qc ds -> (1 <= p)%Qc -> ERGraph N p ds = Ok (g, ds') ->
  forall i j, i < N -> j < N -> i <> j -> In j (nbrs g i).
Proof.
  exact (fun HN F Hp => ERGraph_all N p ds g ds' HN (Forall_impl _ (fun u Hu => proj2 (Qc_ltb_spec u p) (Qclt_le_trans _ _ _ (proj2 Hu) Hp)) F)).
Qed.
(** C34: numbers in [0,1) are draws in range. *)
Theorem C34_draws (u : Qc) : (0 <= u)%Qc -> (u < 1)%Qc -> good_pick u.
Proof. exact (good_pick_Qc ex sq u). Qed.
(** C34: from every pair of sizes some sequence of draws in [0,1) completes the run. *)
Theorem C34_pa_ends N m : writable N -> 1 <= m <= N -> exists us g, Forall (fun u => 0 <= u /\ u < 1)%Qc us /\ forall ds, PAGraph N m (us ++ ds) = Ok (g, ds).
Proof. exact (PA_live _ N m (pick_Qc ex sq)). Qed.

(** C66: "each added node gets m links" is false for every m >= 2: a node that draws itself loses the link. *)
Theorem C66_exactly_m_refuted N m : writable N -> 2 <= m < N -> exists us g, Forall (fun u => 0 <= u /\ u < 1)%Qc us /\ PAGraph N m us = Ok (g, []) /\ length (earlier g (N - 1)) <> m.
Proof.
  exact (fun HN Hm => let '(ex_intro _ us (ex_intro _ g (conj F (conj E D)))) :=
    PAGraph_lazy _ N m (pick_Qc ex sq) HN (conj (Nat.le_trans _ _ _ (le_S _ _ (le_n 1)) (proj1 Hm)) (proj2 Hm)) in
    ex_intro _ us (ex_intro _ g (conj F (conj E (fun Q => Nat.lt_irrefl 1 (eq_ind m (fun k => 1 < k) (proj1 Hm) 1 (eq_trans (eq_sym Q) D))))))).
Qed.
End Exact.

(** ** Examples *)
#[local] Instance ops0' : NumOps Qc := Qc_ops ex0 sq0.

Example writable_100 : writable 100.
Proof. exists 3. split; [lia|]. apply Nat.ltb_lt. reflexivity. Qed.
Example ds11_ok : Forall (fun u => 0 <= u /\ u < 1)%Qc [qq (1 # 3); qq (1 # 2); qq 0; qq (3 # 4)].
Proof. repeat (apply Forall_cons; [split; [vm_compute; congruence|reflexivity]|]). constructor. Qed.

(** Pairs (0,1), (0,2), (0,3), (1,2), (1,3), (2,3). *)
Definition draws6 : list Qc := [qq (1 # 4); qq (3 # 4); qq (1 # 2); qq (1 # 8); qq (7 # 8); qq 0; qq (1 # 3)].
Example er4 : match ERGraph 4 (qq (1 # 2)) draws6 with Ok (g, ds) => (map (nbrs g) (seq 0 4), map glabel g, length ds) | Err _ => ([], [], 0) end =
  ([[1]; [0; 2]; [1; 3]; [2]], map (fun c => [c]) ["1"; "2"; "3"; "4"]%char, 1).
Proof. vm_compute. reflexivity. Qed.
Example er4_short : ERGraph 4 (qq (1 # 2)) (firstn 5 draws6) = Err RngOut.
Proof. vm_compute. reflexivity. Qed.

Definition q11 : list (list Qc) := [[qq 1; qq (1 # 2)]; [qq 0; qq 0]].
Example block_covers : covers q11 (blocks 2 [1; 3]) /\ 2 <= length [1; 3] /\ writable (length (blocks 2 [1; 3])).
Proof.
  splits; [|simpl; lia|exists 1; split; [lia|]; simpl; lia]. intros i j a b Hij Ea Eb. change (blocks 2 [1; 3]) with [0; 1; 1; 1] in *.
  assert (Ha : a = 0 \/ a = 1) by (apply nth_error_In in Ea; simpl in Ea; intuition). assert (Hb : b = 0 \/ b = 1) by (apply nth_error_In in Eb; simpl in Eb; intuition).
  destruct Ha, Hb; subst; discriminate.
Qed.
Example block4 : match UndirectedBlockGraph 2 [1; 3] q11 draws6 with Ok (g, _) => (map (nbrs g) (seq 0 4), map ggroup g) | Err _ => ([], []) end =
  ([[1]; [0]; []; []], [Some 0; Some 1; Some 1; Some 1]).
Proof. vm_compute. reflexivity. Qed.
Example gn4 : match GirvanNewmanGraph 2 2 (qq 1) (qq 1) draws6 with Ok (g, _) => (map (nbrs g) (seq 0 4), map ggroup g) | Err _ => ([], []) end =
  ([[1]; [0; 2]; [1; 3]; [2]], [Some 0; Some 0; Some 1; Some 1]).
Proof. vm_compute. reflexivity. Qed.

(** Four nodes, m = 2: the third chooses itself the second time. *)
Example pa4 : match PAGraph 4 2 [qq 0; qq (1 # 2); qq 0; qq (1 # 8); qq (1 # 3)] with Ok (g, ds) => (map (nbrs g) (seq 0 4), map (earlier g) (seq 0 4), length ds) | Err _ => ([], [], 0) end =
  ([[1; 3]; [0; 2; 3]; [1]; [1; 0]], [[]; [0]; [1]; [1; 0]], 1).
Proof. vm_compute. reflexivity. Qed.

Print Assumptions C34_empty.
Print Assumptions C34_er.
Print Assumptions C34_pairs.
Print Assumptions C34_block.
Print Assumptions C34_gn.
Print Assumptions C34_pa.
Print Assumptions C34_pa_zero.
Print Assumptions C34_pa_oob.
Print Assumptions C34_er_none.
Print Assumptions C34_er_all.
Print Assumptions C34_draws.
Print Assumptions C34_pa_ends.
Print Assumptions C66_exactly_m_refuted.

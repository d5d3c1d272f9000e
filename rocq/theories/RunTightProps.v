(** Generated by tools/mkprops.py from tools/props/RunTightProps.spec: the property theorems. *)
Require Import Reals List Bool Arith ZArith Permutation.
From Verif Require Import RVec Num Sums DomModel DomMoreModel LipModel MatLib GeoModel SampModel SampMoreModel ProjModel OptModel RunTight SubModel InitTight.
Import ListNotations.
Local Open Scope R_scope.

Local Open Scope R_scope.

(** C85: the domains visited *)
Theorem C85_domains : forall Ls Xhat slack corner u empty order vertices idx gen, Xhat <> [] ->
  exists T, seq_maximin Ls Xhat slack corner u empty order vertices idx gen = seq_select Ls Xhat slack (drawn gen 0 T) /\ (length T <= 100)%nat /\
    (forall t, In t T -> In (fst t) idx /\ chain_spec empty order vertices (fst t) (snd t)) /\ ForallOrdPairs (fun a b => ~ same_use a b) T /\
    (length T = 100%nat \/ enough Ls Xhat slack gen 0 [] T \/ forall i, In i idx -> exists t cs, In t T /\ chain_spec empty order vertices i cs /\ same_use t (i, cs)).
Proof. exact seq_domains. Qed.
Print Assumptions C85_domains.

Example C85_domains_case : let vertices := [[[1]]; [[2]; [3]]] in let order := fun _ : list nat => [1%nat; O] in
  chain_spec (fun _ => false) order vertices [O; 1%nat] [(1%nat, [3]); (O, [1])] /\ chain_spec (fun _ => false) order vertices [O; O] [(1%nat, [2]); (O, [1])] /\
  ~ same_use ([O; 1%nat], [(1%nat, [3]); (O, [1])]) ([O; O], [(1%nat, [2]); (O, [1])]) /\ [[0]] <> ([] : mat).
Proof. exact domains_case. Qed.

(** C81: when the iteration stops *)
Theorem C81_stops : forall n L verts cc xtol X, X <> [] -> let step := fun X => map (fun k => cc (owned L X (verts X) k)) (seq 0 (length X)) in
  exists k, (k <= n)%nat /\ lloyd n L verts cc xtol X = times k step X /\ ((0 < n)%nat -> (0 < k)%nat) /\
    (forall j, (S j < k)%nat -> exists i, (i < length X)%nat /\ xtol <= edist (nth i (times (S j) step X) []) (nth i (times j step X) [])) /\
    ((k < n)%nat -> forall i, (i < length X)%nat -> edist (nth i (times k step X) []) (nth i (times (k - 1) step X) []) < xtol).
Proof. exact lloyd_stops. Qed.
Print Assumptions C81_stops.

Example C81_stops_case : [[1]] <> ([] : mat) /\ lloyd 5 [[1]] (fun _ => []) (fun _ => [0]) (1 / 2) [[1]] = [[0]] /\ edist [0] [1] = 1 /\ edist [0] [0] = 0.
Proof. exact lloyd_stops_case. Qed.

(** C125: the filling sweeps of projection_sample *)
Theorem C125_sweeps : forall n vv X, X <> [] -> let N := length X in let sweep := fun X => fst (pf_sweep vv N X) in
  exists k, (k <= n)%nat /\ pf_loop n vv N X = times k sweep X /\ ((0 < n)%nat -> (0 < k)%nat) /\
    (forall j, (S j < k)%nat -> exists i, (i < N)%nat /\ / 1000000 <= change (times j sweep X) (times (S j) sweep X) i) /\
    ((k < n)%nat -> forall i, (i < N)%nat -> change (times (k - 1) sweep X) (times k sweep X) i < / 1000000).
Proof. exact fill_sweeps_stop. Qed.
Print Assumptions C125_sweeps.

Example C125_sweeps_case : [[1]] <> ([] : mat) /\ change [[1]] [[0]] 0 = 1 /\ pf_sweep (fun _ _ _ => [0]) 1 [[1]] = ([[0]], 1) /\ / 1000000 <= 1.
Proof. exact fill_sweeps_case. Qed.

(** C49: the status without iterations *)
Theorem C49_no_iterations : forall n f F gs ls verbose tol0 tolx maxiter x0 x i, gauss_newton n f F gs ls verbose tol0 tolx maxiter x0 = Some (x, i) ->
  (i = Some 4%nat <-> maxiter = O) /\ (maxiter = O -> x = x0).
Proof. exact gn_no_iterations. Qed.
Print Assumptions C49_no_iterations.

Example C49_no_iterations_case : gauss_newton 1 (fun x => x) (fun _ => [[1]]) (fun _ y => Some y) (fun _ _ _ => None) true 1 1 0 [3] = Some ([3], Some 4%nat).
Proof. exact no_iterations_case. Qed.

(** C52: the norm *)
Theorem C52_linf : forall x, (forall a, In a x -> Rabs a <= linf x) /\ (x <> [] -> exists a, In a x /\ linf x = Rabs a) /\ (x = [] -> linf x = 0).
Proof. exact linf_is_max. Qed.
Print Assumptions C52_linf.

Example C52_linf_case : linf [1; -3; 2] = Rabs (-3).
Proof. exact linf_case. Qed.

(** C89: where gradients are estimated *)
Theorem C89_queries : forall perm svd1 m X f G n_grads,
  Permutation (perm (length X)) (seq 0 (length X)) -> length X = length f ->
  ((n_grads <= length G)%nat \/ (length X <= m)%nat -> forall llg, initialize_subspace perm llg svd1 (Some (mkArr m X)) (Some f) (Some (mkArr m G)) n_grads = Some (svd1 G)) /\
  ((length G < n_grads)%nat -> (m < length X)%nat -> exists idx, NoDup idx /\ (forall i, In i idx -> (i < length X)%nat) /\ length idx = Nat.min (n_grads - length G) (length X) /\
     forall llg, (llg X f (map (fun i => nth i X []) idx) = None -> initialize_subspace perm llg svd1 (Some (mkArr m X)) (Some f) (Some (mkArr m G)) n_grads = None) /\
       (forall est, llg X f (map (fun i => nth i X []) idx) = Some est -> initialize_subspace perm llg svd1 (Some (mkArr m X)) (Some f) (Some (mkArr m G)) n_grads = Some (svd1 (G ++ est)))).
Proof. exact init_queries. Qed.
Print Assumptions C89_queries.

Example C89_queries_case : Permutation ([2; 0; 1]%nat) (seq 0 (length [[0]; [1]; [2]])) /\ length [[0]; [1]; [2]] = length [1; 3; 5] /\
  initialize_subspace (fun _ => [2; 0; 1]%nat) (fun _ _ _ => None) (fun A => A) (Some (mkArr 1 [[0]; [1]; [2]])) (Some [1; 3; 5]) (Some (mkArr 1 [[2]])) 1 = Some [[2]] /\
  initialize_subspace (fun _ => [2; 0; 1]%nat) (fun _ _ Xt => Some Xt) (fun A => A) (Some (mkArr 1 [[0]; [1]; [2]])) (Some [1; 3; 5]) (Some (mkArr 1 [[7]])) 2 = Some [[7]; [2]].
Proof. exact init_queries_case. Qed.

(** Generated by tools/mkprops.py from tools/props/PsoProps.spec: the property theorems. *)
Require Import Reals List Bool Arith ZArith.
From Verif Require Import RVec Num Sums DomModel DomMoreModel LipModel SampModel GeoModel SampMoreModel MinimaxProofs MmcTight PsoModel PsoProofs.
Import ListNotations.
Local Open Scope R_scope.

Local Open Scope R_scope.

(** C153: clustering with a swarm of designs *)
Theorem C153_best_partial : forall maxiter N n L X a o rw Xs, (0 < maxiter)%nat -> Xs <> [] ->
  let S := pso_scored maxiter 0 N n (length Xs) L X a o rw (mkSwarm Xs Xs (repeat None (length Xs)) (nth 0 Xs [], None)) in
  exists D, pso maxiter N n L X a o rw Xs = (D, Some (mm_dist L D X)) /\ In D S /\ forall Z, In Z S -> mm_dist L D X <= mm_dist L Z X.
Proof. exact pso_best_partial. Qed.
Print Assumptions C153_best_partial.

Example C153_best_case : (0 < 3)%nat /\ [[[0]; [1/2]]; [[1/2]; [1]]] <> [].
Proof. exact best_case. Qed.

Theorem C153_initial_refuted : exists L X o Xs D d, pso 1 1 1 L X dflt o true Xs = (D, Some d) /\ (exists X0, In X0 Xs /\ mm_dist L X0 X < d) /\ q_center 2 1 L (fun it => o_center o it 0).
Proof. exact pso_initial_refuted. Qed.
Print Assumptions C153_initial_refuted.

Theorem C153_box_partial : forall l u N n L X a o rw maxiter Xs, oracles_ok l u N n a o -> Xs <> [] -> Forall (good l u N n) Xs ->
  good l u N n (fst (pso maxiter N n L X a o rw Xs)) /\ Forall (good l u N n) (pso_scored maxiter 0 N n (length Xs) L X a o rw (mkSwarm Xs Xs (repeat None (length Xs)) (nth 0 Xs [], None))).
Proof. exact pso_box_partial. Qed.
Print Assumptions C153_box_partial.

Example C153_box_case : oracles_ok [0] [1] 2 1 dflt or1 /\ [[[0]; [1/2]]; [[1/2]; [1]]] <> [] /\ Forall (good [0] [1] 2 1) [[[0]; [1/2]]; [[1/2]; [1]]].
Proof. exact box_case. Qed.

Theorem C153_domain_refuted : exists L X o Xs, Forall tri X /\ Forall (Forall tri) Xs /\ (forall it k Y x, In (o_center o it k Y x) X) /\ (forall it k, Forall tri (o_Z o it k)) /\ (forall it, Forall tri (o_new o it)) /\
  (forall D, o_lsa o D = [O]) /\ (forall it k t i j, 0 < o_u o it k t i j < 1) /\ length X = 1%nat /\ ~ Forall tri (fst (pso 1 1 2 L X dflt o true Xs)).
Proof. exact pso_domain_refuted. Qed.
Print Assumptions C153_domain_refuted.

Theorem C153_convex_partial : forall H N n L X a o rw maxiter Xs, (0 < n)%nat -> (forall it k, weights_ok N n a (o_u o it k)) -> (forall it k t i j, o_u o it k t i j = o_u o it k t i O) ->
  (forall it k Y x, halfspaces n H x -> halfspaces n H (o_center o it k Y x)) -> (forall it k, gin (halfspaces n H) N (o_Z o it k)) -> (forall it, gin (halfspaces n H) N (o_new o it)) -> lsa_ok N (o_lsa o) -> Xs <> [] -> Forall (gin (halfspaces n H) N) Xs ->
  gin (halfspaces n H) N (fst (pso maxiter N n L X a o rw Xs)) /\ Forall (gin (halfspaces n H) N) (pso_scored maxiter 0 N n (length Xs) L X a o rw (mkSwarm Xs Xs (repeat None (length Xs)) (nth 0 Xs [], None))).
Proof. exact pso_convex_partial. Qed.
Print Assumptions C153_convex_partial.

Example C153_convex_case : exists H o Xs, (forall x, halfspaces 2 H x <-> tri x) /\ (forall it k, weights_ok 1 2 dflt (o_u o it k)) /\ (forall it k t i j, o_u o it k t i j = o_u o it k t i O) /\ (forall it k Y x, halfspaces 2 H x -> halfspaces 2 H (o_center o it k Y x)) /\ lsa_ok 1 (o_lsa o) /\ Xs <> [] /\ Forall (gin (halfspaces 2 H) 1) Xs.
Proof. exact convex_case. Qed.

Theorem C153_init : forall N L s Xt, (0 < N)%nat -> pso_init N L s Xt = s :: map (fun j => nth 0 (Xt j) []) (seq 1 (N - 1)).
Proof. exact init_first. Qed.
Print Assumptions C153_init.

Example C153_init_case : (0 < 3)%nat /\ pso_init 3 [[1]] [0] (fun j => [[INR j]; [5]]) = [[0]; [INR 1]; [INR 2]].
Proof. exact init_case. Qed.

Theorem C153_init_refuted : exists L s Xt x, In x (Xt 1%nat) /\ pso_init 2 L s Xt = [s; s] /\ 0 < mind L [s] x.
Proof. exact init_refuted. Qed.
Print Assumptions C153_init_refuted.

Theorem C153_no_iterations : forall N n L X a o rw Xs, pso 0 N n L X a o rw Xs = (nth 0 Xs [], None).
Proof. exact pso_none. Qed.
Print Assumptions C153_no_iterations.

(** the particles: own best designs, replacement of the worst *)
Theorem C153_local : forall maxiter N n L X a o rw Xs k, (0 < maxiter)%nat -> (k < length Xs)%nat ->
  let st0 := mkSwarm Xs Xs (repeat None (length Xs)) (nth 0 Xs [], None) in
  let S := scored_of k maxiter 0 N n (length Xs) L X a o rw st0 in
  let st := pso_loop maxiter 0 N n (length Xs) L X a o rw st0 in
  exists D, nth k (w_loc st) [] = D /\ nth k (w_sc st) None = Some (mm_dist L D X) /\ In D S /\ forall Z, In Z S -> mm_dist L D X <= mm_dist L Z X.
Proof. exact pso_local. Qed.
Print Assumptions C153_local.

Example C153_local_case : (0 < 3)%nat /\ (1 < length [[[0]; [1/2]]; [[1/2]; [1]]])%nat.
Proof. exact local_case. Qed.

Theorem C153_replaced : forall N n p L X a o it st, (0 < p)%nat -> length (w_X st) = p -> length (w_loc st) = p -> length (w_sc st) = p ->
  let s1 := pso_round N n p L X a o false it st in let s2 := pso_round N n p L X a o true it st in
  exists k, (k < p)%nat /\ (forall j, (j < p)%nat -> le_inf (nth j (w_sc s1) None) (nth k (w_sc s1) None)) /\ nth k (w_X s2) [] = o_new o it /\ (forall j, j <> k -> nth j (w_X s2) [] = nth j (w_X s1) []) /\ w_loc s2 = w_loc s1 /\ w_sc s2 = w_sc s1 /\ w_glob s2 = w_glob s1.
Proof. exact pso_replaced. Qed.
Print Assumptions C153_replaced.

Example C153_replaced_case : worst [Some 1; Some 4; Some 2] = 1%nat /\ worst [Some 1; None; None] = 1%nat.
Proof. exact replaced_case. Qed.

(** Generated by tools/mkprops.py from tools/props/HullConvProps.spec: the property theorems. *)
Require Import Reals List Bool Arith ZArith.
From Verif Require Import RVec Num DomModel DomSpec DomMoreModel LipModel LipProofs HullProofs MatLib SpecProofs PartialProofs VoronoiProofs GeoModel HullConvModel HullConvProofs HullConvMore HullBasis HullConvCases SweepProofs SolveCases.
Import ListNotations.
Local Open Scope R_scope.

Local Open Scope R_scope.

(** C69: conversion of a hull to inequalities, all branches of _hull_to_linineq *)
Theorem C69_exact : forall svd qr qhull m X r, Forall (fun x => length x = m) X -> X <> [] -> conv_ok svd qr qhull m X -> hull_to_linineq svd qr qhull m X = Some r ->
  Forall (fun a => length a = m) (hd_A r) /\ length (hd_A r) = length (hd_b r) /\ Forall (fun a => length a = m) (hd_Aeq r) /\ length (hd_Aeq r) = length (hd_beq r) /\
  (forall x, length x = m -> (sat_ineq (hd_A r) (hd_b r) 0 x /\ sat_eq0 (hd_Aeq r) (hd_beq r) x <-> convex_comb X m x)) /\
  (forall v, In v (hd_vert r) -> In v X) /\ forall x, In x X -> convex_comb (hd_vert r) m x.
Proof. exact hull_to_linineq_exact. Qed.
Print Assumptions C69_exact.

Theorem C69_returns : forall svd qr qhull m X, Forall (fun x => length x = m) X -> conv_ok svd qr qhull m X -> (exists x y, In x X /\ In y X /\ x <> y) -> exists r, hull_to_linineq svd qr qhull m X = Some r.
Proof. exact hull_to_linineq_returns. Qed.
Print Assumptions C69_returns.

Theorem C69_to_linineq : forall svd qr qhull h d, hull_wf h -> hX h <> [] -> conv_ok svd qr qhull (dim (hcon h)) (hX h) -> to_linineq svd qr qhull h = Some d ->
  dom_wf d /\ dim d = dim (hcon h) /\ forall x, length x = dim (hcon h) -> (member d x <-> convex_comb (hX h) (dim (hcon h)) x /\ sat_ineq (dA (hcon h)) (db (hcon h)) 0 x /\ sat_eq0 (dAeq (hcon h)) (dbeq (hcon h)) x /\ sat_quad (quads (hcon h)) 0 x).
Proof. exact to_linineq_exact. Qed.
Print Assumptions C69_to_linineq.

Theorem C69_domain : forall svd qr qhull h d x, hull_wf h -> hX h <> [] -> no_bounds (hcon h) -> conv_ok svd qr qhull (dim (hcon h)) (hX h) -> to_linineq svd qr qhull h = Some d -> (member d x <-> hull_member h x).
Proof. exact to_linineq_member. Qed.
Print Assumptions C69_domain.

Theorem C69_oracles : forall m X, Forall (fun x => length x = m) X -> exists svd qr qhull, let sv := svd (centred m X) in let V := big_rows (fst sv) (snd sv) in let Y := map (mv (firstn (length V) (qr V))) X in
  svd_rows m (centred m X) sv /\ qr_ok m V (qr V) /\ qhull_ok (length V) Y (qhull Y).
Proof. exact conv_oracles_exist. Qed.
Print Assumptions C69_oracles.

Theorem C69_thin_refuted : exists svd qr qhull m X r x, Forall (fun x => length x = m) X /\ svd_rows m (centred m X) (svd (centred m X)) /\
  (let V := big_rows (fst (svd (centred m X))) (snd (svd (centred m X))) in qr_ok m V (qr V)) /\ (forall Y, qhull Y = ([], [])) /\
  hull_to_linineq svd qr qhull m X = Some r /\ In x X /\ ~ sat_eq0 (hd_Aeq r) (hd_beq r) x.
Proof. exact thin_refuted. Qed.
Print Assumptions C69_thin_refuted.

Theorem C69_near_refuted : exists svd m X, Forall (fun x => length x = m) X /\ select (unique_mask X) X = X /\ svd_rows m (centred m X) (svd (centred m X)) /\ (exists x y, In x X /\ In y X /\ x <> y) /\
  forall qr qhull, hull_to_linineq svd qr qhull m X = None.
Proof. exact near_refuted. Qed.
Print Assumptions C69_near_refuted.

Example C69_square_case : Forall (fun x => length x = 2%nat) sqX /\ sqX <> [] /\ conv_ok sq_svd (fun _ => I2) (fun _ => (sq_eqs, [0; 1; 2; 3]%nat)) 2 sqX /\
  exists r, hull_to_linineq sq_svd (fun _ => I2) (fun _ => (sq_eqs, [0; 1; 2; 3]%nat)) 2 sqX = Some r /\ hd_b r = [1; 1; 1; 1] /\ hd_Aeq r = [] /\ hd_vert r = sqX /\ hd_A r = map (fun e => lincomb 2 I2 (fst e)) sq_eqs.
Proof. exact sq_conv. Qed.

Example C69_segment_case : exists d, to_linineq sg_svd (fun _ => I2) (fun _ => ([], [])) sg_h = Some d /\ dA d = [vscale 1 [1; 0]; vscale (-1) [1; 0]] /\ db d = [1; 1] /\ dAeq d = [[0; 1]] /\ dbeq d = [0] /\
  hull_wf sg_h /\ hX sg_h <> [] /\ no_bounds (hcon sg_h) /\ conv_ok sg_svd (fun _ => I2) (fun _ => ([], [])) (dim (hcon sg_h)) (hX sg_h) /\ member d [1/2; 0] /\ ~ member d [1/2; 1].
Proof. exact sg_to_linineq. Qed.

Example C69_returns_case : Forall (fun x => length x = 2%nat) sgX /\ conv_ok sg_svd (fun _ => I2) (fun _ => ([], [])) 2 sgX /\ (exists x y, In x sgX /\ In y sgX /\ x <> y).
Proof. exact sg_returns. Qed.

(** C123: constraints handed to the convex solvers *)
Theorem C123_linear : forall d x, dom_wf d -> length x = dim d -> (build_lin d x <-> member d x).
Proof. exact build_lin_exact. Qed.
Print Assumptions C123_linear.

Theorem C123_tensor : forall ds x, Forall dom_wf ds -> length x = fold_right (fun d n => (dim d + n)%nat) 0%nat ds ->
  (build_tensor (map (fun d => (dim d, build_lin d)) ds) x <-> exists xs, Forall2 member ds xs /\ x = concat xs).
Proof. exact build_tensor_exact. Qed.
Print Assumptions C123_tensor.

Theorem C123_hull_raises : forall h, length (hX h) <> dim (hcon h) -> build_hull h = None.
Proof. exact build_hull_raises. Qed.
Print Assumptions C123_hull_raises.

Theorem C123_hull_refuted : exists h f, hull_wf h /\ build_hull h = Some f /\ (exists x, hull_member h x /\ ~ f x) /\ (exists x, f x /\ ~ hull_member h x).
Proof. exact build_hull_refuted. Qed.
Print Assumptions C123_hull_refuted.

Example C123_tensor_case : exists ds x, Forall dom_wf ds /\ length x = fold_right (fun d n => (dim d + n)%nat) 0%nat ds /\ build_tensor (map (fun d => (dim d, build_lin d)) ds) x /\ length ds = 2%nat.
Proof. exact sq_build. Qed.

Example C123_linear_case : dom_wf usq /\ length [1/2; 1] = dim usq /\ build_lin usq [1/2; 1].
Proof. exact usq_build. Qed.

(** C124: equality basis of a hull *)
Theorem C124_projection : forall svd qr orth m Aeq X p, Forall (fun x => length x = m) X -> X <> [] -> Forall (fun a => length a = m) Aeq -> basis_ok svd qr orth m Aeq X -> length p = m ->
  let p' := proj_out (hull_eq_basis svd qr orth m Aeq X) p in
  admissible m Aeq X p' /\ (forall w, admissible m Aeq X w -> dot (vsub p p') w = 0) /\ (admissible m Aeq X p -> p' = p).
Proof. exact hull_eq_basis_projects. Qed.
Print Assumptions C124_projection.

Theorem C124_differences : forall svd qr orth h x y, hull_wf h -> hX h <> [] -> basis_ok svd qr orth (dim (hcon h)) (dAeq (hcon h)) (hX h) -> hull_member h x -> hull_member h y ->
  proj_out (hull_eq_basis svd qr orth (dim (hcon h)) (dAeq (hcon h)) (hX h)) (vsub y x) = vsub y x.
Proof. exact basis_keeps_differences. Qed.
Print Assumptions C124_differences.

Theorem C124_oracles : forall m Aeq X, Forall (fun x => length x = m) X -> Forall (fun a => length a = m) Aeq -> exists svd qr orth,
  let sv := svd (centred m X) in let V := big_rows (fst sv) (snd sv) in
  svd_rows m (centred m X) sv /\ qr_ok m V (qr V) /\ (forall C, Forall (fun c => length c = m) C -> In C [Aeq; match Aeq with [] => [] | _ => orth Aeq end ++ skipn (length V) (qr V)] -> orth_sp m C (orth C)).
Proof. exact basis_oracles_exist. Qed.
Print Assumptions C124_oracles.

Example C124_case : basis_ok sg_svd (fun _ => I2) sg_orth 2 [] sgX /\ hull_eq_basis sg_svd (fun _ => I2) sg_orth 2 [] sgX = [[0; 1]] /\ proj_out (hull_eq_basis sg_svd (fun _ => I2) sg_orth 2 [] sgX) [3; 4] = [3; 0].
Proof. exact sg_basis. Qed.

(** Generated by tools/mkprops.py from tools/props/FillProps.spec: the property theorems. *)
Require Import Reals List Bool Arith ZArith.
From Verif Require Import RVec Num Sums DomModel DomSpec DomProofs DomMoreModel SweepProofs HullProofs HullIneqProofs LipModel LipProofs MatLib GrassLib SampModel PigeonLib LatinProofs PoissonProofs PoissonCases DesignProofs CoffeeProofs GeoModel GeoProofs VoronoiProofs WalkProofs VoronoiCases FillModel FillProofs FillCases.
Import ListNotations.
Local Open Scope R_scope.

Local Open Scope R_scope.

(** C133: the estimate of the fill distance *)
Theorem C133_attained : forall m lrank L A b Aeq Xhat qr ords X0, walk_pre m L A b Aeq Xhat qr ords (fun _ => vzero m) -> Forall (inP m A b) X0 -> X0 <> [] ->
  exists d x0 x, fill_estimate m lrank L A b Aeq Xhat qr ords X0 = Some d /\ In x0 X0 /\ inP m A b x /\ (forall a, In a Aeq -> dot a x = dot a x0) /\
    (forall xh, In xh Xhat -> d <= Ldist L x xh) /\ exists xh, In xh Xhat /\ Ldist L x xh = d.
Proof. exact est_attained. Qed.
Print Assumptions C133_attained.

Example C133_case : walk_pre 1 [[1]] tA wb [] wX tqr word (fun _ => vzero 1) /\ Forall (inP 1 tA wb) [[1]] /\ fill_estimate 1 1 [[1]] tA wb [] wX tqr word [[1]] = Some 5.
Proof. exact fill_est_case. Qed.

Theorem C133_below_exact : forall m lrank L A b Linv hsi inside Xhat qr ords X0, walk_pre m L A b [] Xhat qr ords (fun _ => vzero m) -> Forall (inP m A b) X0 -> X0 <> [] ->
  inverse_of m L Linv -> Forall (inP m A b) Xhat -> (forall x, inP m A b x -> inside x = true) ->
  (forall k, (k < length Xhat)%nat -> hsi_ok m (hs_rows m A b L Linv Xhat k) (hsi (hs_rows m A b L Linv Xhat k))) ->
  exists d, fill_estimate m lrank L A b [] Xhat qr ords X0 = Some d /\
    d <= fill_dist L Xhat (voronoi_vertex m A b L Linv hsi inside Xhat) + fro L * (INR (length (vor_all m A b L Linv hsi Xhat)) * atol).
Proof. exact est_le_exact. Qed.
Print Assumptions C133_below_exact.

Example C133_below_exact_case : inverse_of 1 [[1]] [[1]] /\ Forall (inP 1 tA wb) wX /\ (forall k, (k < length wX)%nat -> hsi_ok 1 (hs_rows 1 tA wb [[1]] [[1]] wX k) (whsi (hs_rows 1 tA wb [[1]] [[1]] wX k))).
Proof. exact fill_est_le_case. Qed.

Theorem C133_starts_partial : forall m lrank L A b Aeq Xhat qr ords X0 Dm, walk_pre m L A b Aeq Xhat qr ords (fun _ => vzero m) -> Forall (inP m A b) X0 -> X0 <> [] ->
  (forall x y, inP m A b x -> inP m A b y -> edist x y <= Dm) ->
  (forall x0 i, In x0 X0 -> (i < fe_steps m lrank Aeq)%nat -> clean_step m L A b Aeq Xhat qr false ords (fun _ => vzero m) i (vv_walk i 0 m L A b Aeq Xhat qr false ords (fun _ => vzero m) x0)) ->
  exists d, fill_estimate m lrank L A b Aeq Xhat qr ords X0 = Some d /\ forall x0, In x0 X0 -> vmin (map (fun xh => Ldist L x0 xh) Xhat) <= d.
Proof. exact est_starts. Qed.
Print Assumptions C133_starts_partial.

Example C133_starts_case : (forall x y, inP 1 tA wb x -> inP 1 tA wb y -> edist x y <= 10) /\
  (forall x0 i, In x0 [[1]] -> (i < fe_steps 1 1 [])%nat -> clean_step 1 [[1]] tA wb [] wX tqr false word (fun _ => vzero 1) i (vv_walk i 0 1 [[1]] tA wb [] wX tqr false word (fun _ => vzero 1) x0)).
Proof. exact fill_est_starts_case. Qed.

Theorem C133_starts_refuted : exists m lrank L A b Aeq Xhat qr ords X0 x0, walk_pre m L A b Aeq Xhat qr ords (fun _ => vzero m) /\ Forall (inP m A b) X0 /\ In x0 X0 /\
  0 < vmin (map (fun xh => Ldist L x0 xh) Xhat) /\ fill_estimate m lrank L A b Aeq Xhat qr ords X0 = Some 0.
Proof. exact est_starts_refuted. Qed.
Print Assumptions C133_starts_refuted.

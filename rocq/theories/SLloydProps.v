(** Generated by tools/mkprops.py from tools/props/SLloydProps.spec: the property theorems. *)
Require Import Reals List Bool Arith ZArith.
From Verif Require Import RVec Num Sums DomModel DomSpec DomProofs DomMoreModel SweepProofs HullProofs HullIneqProofs LipModel LipProofs MatLib GrassLib SampModel PigeonLib LatinProofs PoissonProofs PoissonCases DesignProofs CoffeeProofs GeoModel GeoProofs VoronoiProofs WalkProofs SampMoreModel MinimaxProofs LloydProofs SLloydModel SLloydProofs SLloydCases.
Import ListNotations.
Local Open Scope R_scope.

Local Open Scope R_scope.

(** a walk started in the cell of a node ends in the cell of that node, and in the domain *)
Theorem C144_walk_keeps : forall m L A b Aeq Xhat qr rnd ords gs n x0 j, walk_pre m L A b Aeq Xhat qr ords gs -> inP m A b x0 ->
  (forall i, (i < n)%nat -> sharp_step m L A b Aeq Xhat qr rnd ords gs i (vv_walk i 0 m L A b Aeq Xhat qr rnd ords gs x0)) ->
  nearest L Xhat j x0 -> nearest L Xhat j (vv_walk n 0 m L A b Aeq Xhat qr rnd ords gs x0).
Proof. exact walk_keeps. Qed.
Print Assumptions C144_walk_keeps.

Example C144_walk_keeps_ex : nearest I2 pX 1 (vv_walk 2 0 2 I2 qA qb [] pX qr2 true (ord2 pX) (fun _ => [1; 0]) [3 / 4; 3 / 4]).
Proof. exact ex_keeps. Qed.

Theorem C144_rows_inside : forall m L A b Aeq qr ords gs Xhat S, (forall i, (i < length S)%nat -> walk_pre m L A b Aeq Xhat qr (ords Xhat) (gs i)) -> Forall (inP m A b) S ->
  Forall (inP m A b) (vv_rows m L A b Aeq qr ords gs Xhat S).
Proof. exact rows_inside. Qed.
Print Assumptions C144_rows_inside.

Theorem C144_rows_keep : forall m L A b Aeq qr ords gs Xhat S k, (forall i, (i < length S)%nat -> walk_pre m L A b Aeq Xhat qr (ords Xhat) (gs i)) -> Forall (inP m A b) S -> Forall (nearest L Xhat k) S ->
  (forall i j, (i < length S)%nat -> (j < m - length Aeq)%nat -> sharp_step m L A b Aeq Xhat qr true (ords Xhat) (gs i) j (vv_walk j 0 m L A b Aeq Xhat qr true (ords Xhat) (gs i) (nth i S []))) ->
  Forall (nearest L Xhat k) (vv_rows m L A b Aeq qr ords gs Xhat S).
Proof. exact rows_keep. Qed.
Print Assumptions C144_rows_keep.

(** a perturbed copy of a node is nearest to that node if the other nodes are farther than twice the perturbation *)
Theorem C144_nudge_nearest : forall m L Xhat k g, Forall (fun x => length x = m) Xhat -> (k < length Xhat)%nat -> length g = m ->
  (forall z, In z Xhat -> z = nth k Xhat [] \/ 2 * (/ 10000000 * norm2 (mv L g)) <= Ldist L (nth k Xhat []) z) -> nearest L Xhat k (vadd (nth k Xhat []) (vscale (/ 10000000) g)).
Proof. exact nudge_nearest. Qed.
Print Assumptions C144_nudge_nearest.

Example C144_nudge_nearest_ex : nearest I2 pX 0 (vadd [1 / 2; 1 / 2] (vscale (/ 10000000) [1; 1])).
Proof. exact ex_nudge. Qed.

(** the vertices of a pass *)
Theorem C144_update_inside : forall (P : vec -> Prop) m L vv draws Xhat X0,
  (forall c S, Forall P S -> Forall P (vv c Xhat S)) -> Forall P X0 -> (forall k, (k < length Xhat)%nat -> Forall P (nudge (nth k Xhat []) (draws k))) ->
  Forall P (update_sample m L vv draws Xhat X0).
Proof. exact update_inside. Qed.
Print Assumptions C144_update_inside.

Theorem C144_update_owns : forall m L vv draws Xhat X0, (0 < m)%nat ->
  (forall k, (k < length Xhat)%nat -> exists v, In v (vv (S k) Xhat (nudge (nth k Xhat []) (draws k))) /\ nearest L Xhat k v) -> apart (found m L vv draws Xhat X0) ->
  forall k, (k < length Xhat)%nat -> owned L Xhat (update_sample m L vv draws Xhat X0) k <> [].
Proof. exact update_owns. Qed.
Print Assumptions C144_update_owns.

Example C144_update_owns_ex : forall k, (k < 1)%nat -> owned I2 wX wV k <> [].
Proof. exact ex_owns. Qed.

(** the printed estimate is at most the fill distance if the vertices lie in the domain *)
Theorem C144_estimate : forall (P : vec -> Prop) L Xhat V F, V <> [] -> Forall P V -> (forall x, P x -> mind L Xhat x <= F) -> fill_dist L Xhat V <= F.
Proof. exact estimate_le. Qed.
Print Assumptions C144_estimate.

Example C144_estimate_ex : fill_dist I2 [[0; 0]] corners4 <= sqrt (1 * 1 + 1 * 1).
Proof. exact ex_estimate. Qed.

(** designs *)
Theorem C144_design : forall (P : vec -> Prop) n it m L upd cc xtol Xhat V X es, cc_dom P cc -> Forall P Xhat ->
  sl_loop n it m (length Xhat) L upd cc (fun x => x) xtol Xhat V = Some (X, es) -> length X = length Xhat /\ Forall P X.
Proof. exact sl_design. Qed.
Print Assumptions C144_design.

Theorem C144_step : forall (P : vec -> Prop) m L cc Xhat V Xn, cc_opt P L cc -> Xhat <> [] -> Forall P Xhat -> V <> [] -> sl_new m (length Xhat) L cc (fun x => x) Xhat V = Some Xn ->
  fill_dist L Xn V <= (1 + rtol) * fill_dist L Xhat V + atol.
Proof. exact sl_found. Qed.
Print Assumptions C144_step.

Example C144_step_ex : exists Xn, sl_new 2 1 I2 (fun _ => [1 / 2; 1 / 2]) (fun x => x) [[0; 0]] corners4 = Some Xn /\ Xn = [[1 / 2; 1 / 2]] /\ fill_dist I2 Xn corners4 < fill_dist I2 [[0; 0]] corners4.
Proof. exact ex_found. Qed.

Theorem C144_full : forall (P : vec -> Prop) n it m L verts cc xtol Xhat V, cc_dom P cc -> Forall P Xhat -> Xhat <> [] ->
  (forall X k, X <> [] -> Forall P X -> (k < length X)%nat -> owned L X (verts X) k <> []) ->
  exists es, sl_loop n it m (length Xhat) L (fun _ X _ => verts X) cc (fun x => x) xtol Xhat V = Some (lloyd n L verts cc xtol Xhat, es).
Proof. exact sl_full. Qed.
Print Assumptions C144_full.

Theorem C144_estimates : forall n it m M L upd cc store xtol Xhat V X es k, sl_loop n it m M L upd cc store xtol Xhat V = Some (X, es) -> (k < length es)%nat ->
  exists Xk esk Vk, sl_loop k it m M L upd cc store xtol Xhat V = Some (Xk, esk) /\ length esk = k /\ (k = O -> Vk = V) /\ nth k es 0 = fill_dist L Xk (upd (it + k)%nat Xk Vk).
Proof. exact sl_estimates. Qed.
Print Assumptions C144_estimates.

Theorem C144_dispatch_full : forall (P : vec -> Prop) full maxiter m L vfull vv draws cc xtol X0 V0, cc_dom P cc -> Forall P X0 -> X0 <> [] -> full = FullTrue \/ (full = FullNone /\ (m < 3)%nat) ->
  (forall X k, X <> [] -> Forall P X -> (k < length X)%nat -> owned L X (vfull X) k <> []) ->
  minimax_lloyd None full maxiter m (length X0) L vfull vv draws cc (fun x => x) xtol X0 V0 = Some (lloyd maxiter L vfull cc xtol X0).
Proof. exact lloyd_full. Qed.
Print Assumptions C144_dispatch_full.

Theorem C144_dispatch_sampled : forall oned full maxiter m M L vfull vfull' vv draws cc store xtol X0 V0, full = FullFalse \/ (full = FullNone /\ (3 <= m)%nat) ->
  minimax_lloyd oned full maxiter m M L vfull vv draws cc store xtol X0 V0 = minimax_lloyd oned full maxiter m M L vfull' vv draws cc store xtol X0 V0.
Proof. exact lloyd_sampled. Qed.
Print Assumptions C144_dispatch_sampled.

Theorem C144_dispatch_1d : forall Y full maxiter m M L vfull vv draws cc store xtol X0 V0, minimax_lloyd (Some Y) full maxiter m M L vfull vv draws cc store xtol X0 V0 = Some Y.
Proof. exact lloyd_1d. Qed.
Print Assumptions C144_dispatch_1d.

Example C144_dispatch_ex : forall vv draws, exists es,
  sl_loop 1 0 2 1 I2 (fun _ _ _ => corners4) (fun _ => [1 / 2; 1 / 2]) (fun x => x) 1 [[0; 0]] [] = Some ([[1 / 2; 1 / 2]], es) /\ es = [fill_dist I2 [[0; 0]] corners4] /\
  minimax_lloyd None FullTrue 1 2 1 I2 (fun _ => corners4) vv draws (fun _ => [1 / 2; 1 / 2]) (fun x => x) 1 [[0; 0]] [] = Some [[1 / 2; 1 / 2]].
Proof. exact ex_estimates. Qed.

Theorem C144_result : forall (P : vec -> Prop) oned full maxiter m L vfull vv draws cc xtol X0 V0 X, cc_dom P cc -> Forall P X0 ->
  (forall Y, oned = Some Y -> length Y = length X0 /\ Forall P Y) ->
  minimax_lloyd oned full maxiter m (length X0) L vfull vv draws cc (fun x => x) xtol X0 V0 = Some X -> length X = length X0 /\ Forall P X.
Proof. exact lloyd_result. Qed.
Print Assumptions C144_result.

Theorem C144_errors : forall oned full maxiter m M L vfull vv draws cc store xtol X0 V0, oned = None -> full = FullOther \/ ((length X0 < M)%nat /\ maxiter <> O) ->
  minimax_lloyd oned full maxiter m M L vfull vv draws cc store xtol X0 V0 = None.
Proof. exact lloyd_errors. Qed.
Print Assumptions C144_errors.

Theorem C144_rows_zero : forall m M L cc store Xhat V Xn k, sl_new m M L cc store Xhat V = Some Xn -> (M <= k < length Xhat)%nat -> nth k Xn [] = repeat 0 m.
Proof. exact sl_rows_zero. Qed.
Print Assumptions C144_rows_zero.

(** what fails *)
Theorem C144_outside_refuted : exists (m : nat) L A b qr ords gs draws cc Xhat X0 F,
  (walk_pre m L A b [] Xhat qr (ords Xhat) gs) /\ Forall (inP m A b) Xhat /\ Forall (inP m A b) X0 /\ (forall k, length (draws k) = (2 * m)%nat /\ Forall (fun g => length g = m) (draws k)) /\
  (forall x, inP m A b x -> mind L Xhat x <= F) /\
  let V := update_sample m L (fun _ => vv_rows m L A b [] qr ords (fun _ => gs)) draws Xhat X0 in
  (exists v, In v V /\ ~ inP m A b v) /\ F < fill_dist L Xhat V /\
  (forall k, (k < length Xhat)%nat -> let W := owned L Xhat V k in W <> [] /\ inP m A b (cc W) /\ forall z, inP m A b z -> radius L W (cc W) <= radius L W z) /\
  exists Xn, sl_new m (length Xhat) L cc (fun x => x) Xhat V = Some Xn /\ Forall (inP m A b) Xn /\ exists x, inP m A b x /\ F < mind L Xn x.
Proof. exact outside_refuted. Qed.
Print Assumptions C144_outside_refuted.

Theorem C144_unowned_refuted : exists (m : nat) L A b qr ords gs draws Xhat X0,
  walk_pre m L A b [] Xhat qr (ords Xhat) gs /\ Forall (inP m A b) Xhat /\ Forall (inP m A b) X0 /\ (forall k, length (draws k) = (2 * m)%nat) /\
  (forall k s, (k < length Xhat)%nat -> In s (nudge (nth k Xhat []) (draws k)) -> inP m A b s /\ nearest L Xhat k s) /\
  let V := update_sample m L (fun _ => vv_rows m L A b [] qr ords (fun _ => gs)) draws Xhat X0 in
  (exists k, (k < length Xhat)%nat /\ owned L Xhat V k = []) /\ forall cc store, sl_new m (length Xhat) L cc store Xhat V = None.
Proof. exact unowned_refuted. Qed.
Print Assumptions C144_unowned_refuted.

Theorem C144_integer_refuted : exists (P : vec -> Prop) m L V cc Xhat F, Forall P Xhat /\ Forall P V /\
  (let W := owned L Xhat V 0 in P (cc W) /\ forall z, P z -> radius L W (cc W) <= radius L W z) /\
  (forall n upd xtol V0, n <> O -> 0 < xtol -> (forall it X V, upd it X V = corners4) -> exists es, sl_loop n 0 m 1 L upd cc store_int xtol Xhat V0 = Some (Xhat, es)) /\
  (exists Xn, sl_new m 1 L cc (fun x => x) Xhat V = Some Xn /\ (forall x, P x -> mind L Xn x <= F)) /\ exists x, P x /\ F < mind L Xhat x.
Proof. exact integer_refuted. Qed.
Print Assumptions C144_integer_refuted.

Theorem C144_rows_refuted : exists (P : vec -> Prop) m M L V cc Xhat Xn, (M < length Xhat)%nat /\ Forall P Xhat /\ Forall P V /\ (forall W, P (cc W)) /\
  sl_new m M L cc (fun x => x) Xhat V = Some Xn /\ ~ Forall P Xn.
Proof. exact rows_refuted. Qed.
Print Assumptions C144_rows_refuted.

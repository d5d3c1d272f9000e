(** Generated by tools/mkprops.py from tools/props/LipOptProps.spec: the property theorems. *)
Require Import Reals List Bool Arith ZArith.
From Verif Require Import RVec Num Sums DomModel DomMoreModel SweepProofs HullProofs MatLib SpecProofs LipModel LipProofs LipConstProofs ProjProofs ProjGradProofs GrassLib LipFitProofs SdpProofs LipOpt LipOpt2 LipOptEx.
Import ListNotations.
Local Open Scope R_scope.

Local Open Scope R_scope.

(** C138: minimisers of the Lipschitz matrix program *)
Theorem C138_solvable : forall m X fX grads eps, Forall (dimP m) X -> Forall (dimP m) grads -> ((exists H, best m X fX grads eps H) <-> same_only X fX eps).
Proof. exact best_exists. Qed.
Print Assumptions C138_solvable.

Example C138_solvable_case : Forall (dimP 2) tri_X /\ same_only tri_X tri_f 0.
Proof. exact ex_best_exists. Qed.

Theorem C138_scale : forall m X fX grads eps s H, 0 < s -> sq m H ->
  (best m X (vscale (/ s) fX) (map (vscale (/ s)) grads) (eps / s) H <-> best m X fX grads eps (mscale (s ^ 2) H)).
Proof. exact best_scale. Qed.
Print Assumptions C138_scale.

Theorem C138_shift : forall m X fX grads eps c a H, length c = m -> Forall (dimP m) X -> length fX = length X ->
  (best m (map (vadd c) X) (map (Rplus a) fX) grads eps H <-> best m X fX grads eps H).
Proof. exact best_shift. Qed.
Print Assumptions C138_shift.

Theorem C138_rotate : forall m Q X fX grads eps H, onb m Q -> Forall (dimP m) X -> Forall (dimP m) grads -> best m X fX grads eps H ->
  best m (map (mv Q) X) fX (map (mv Q) grads) eps (congr Q H) /\ forall x, length x = m -> quad (congr Q H) (mv Q x) = quad H x.
Proof. exact best_rotate. Qed.
Print Assumptions C138_rotate.

Example C138_rotate_case : onb 2 [[0; 1]; [-1; 0]] /\ best 2 tri_X tri_f [] 0 [[1; 0]; [0; 1 - 1]] /\ congr [[0; 1]; [-1; 0]] [[1; 0]; [0; 1 - 1]] = [[0; 0]; [0; 1]].
Proof. exact ex_best_rotate. Qed.

Theorem C138_monotone : forall m X fX grads eps X' fX' grads' eps' H H', length fX = length X -> eps' <= eps -> incl grads grads' ->
  best m X fX grads eps H -> best m (X ++ X') (fX ++ fX') grads' eps' H' -> trace H <= trace H'.
Proof. exact best_monotone. Qed.
Print Assumptions C138_monotone.

Example C138_monotone_case : best 2 two_X two_f [] 0 [[/ 4; / 4]; [/ 4; / 4]] /\ best 2 (two_X ++ [[1; -1]]) (two_f ++ [1]) [] 0 [[/ 3; 0]; [0; 1 - / 3]] /\ trace [[/ 4; / 4]; [/ 4; / 4]] = / 2 /\ trace [[/ 3; 0]; [0; 1 - / 3]] = 1.
Proof. exact ex_best_monotone. Qed.

Theorem C138_kernel : forall m X fX grads eps H v, Forall (dimP m) X -> best m X fX grads eps H -> length v = m ->
  (forall i j, (i < j < length X)%nat -> eps < Rabs (vget fX i - vget fX j) -> dot v (vsub (nth i X []) (nth j X [])) = 0) ->
  (forall g, In g grads -> dot v g = 0) -> mv H v = vzero m.
Proof. exact best_kernel. Qed.
Print Assumptions C138_kernel.

Example C138_kernel_case : length [3; 4] = 2%nat /\ best 2 [] [] [[3; 4]] 0 [[9; 12]; [12; 16]] /\ (forall g, In g [[3; 4]] -> dot [-4; 3] g = 0) /\ mv [[9; 12]; [12; 16]] [-4; 3] = vzero 2.
Proof. exact ex_best_single. Qed.

Theorem C138_ridge : forall m W cs H v, Forall (dimP m) W -> Forall (fun c => length c = length W) cs -> best m [] [] (map (lincomb m W) cs) 0 H -> length v = m -> mv W v = vzero (length W) -> mv H v = vzero m.
Proof. exact best_ridge. Qed.
Print Assumptions C138_ridge.

Example C138_ridge_case : Forall (dimP 2) [[1; 2]] /\ Forall (fun c => length c = length [[1; 2]]) [[1]; [3]] /\ best 2 [] [] (map (lincomb 2 [[1; 2]]) [[1]; [3]]) 0 [[9; 18]; [18; 36]] /\ mv [[1; 2]] [2; -1] = vzero (length [[1; 2]]).
Proof. exact ex_best_ridge. Qed.

Theorem C138_samples_refuted : exists X fX h H, Forall (dimP 2) X /\ (forall i, (i < length X)%nat -> vget fX i = h (vget (nth i X []) 0)) /\ best 2 X fX [] 0 H /\ mv H [0; 1] <> [0; 0].
Proof. exact best_samples_refuted. Qed.
Print Assumptions C138_samples_refuted.

Theorem C138_constant : forall m X fX grads eps H l, Forall (dimP m) X -> Forall (dimP m) grads -> best m X fX grads eps H -> least (lip_ok X fX grads eps) l ->
  l * l <= trace H <= INR m * (l * l).
Proof. exact best_constant. Qed.
Print Assumptions C138_constant.

Theorem C138_one_dimension : forall X fX grads eps H l, Forall (dimP 1) X -> Forall (dimP 1) grads -> best 1 X fX grads eps H -> least (lip_ok X fX grads eps) l -> H = [[l * l]].
Proof. exact best_one. Qed.
Print Assumptions C138_one_dimension.

Example C138_constant_case : Forall (dimP 2) two_X /\ best 2 two_X two_f [] 0 [[/ 4; / 4]; [/ 4; / 4]] /\ least (lip_ok two_X two_f [] 0) (/ sqrt 2) /\ trace [[/ 4; / 4]; [/ 4; / 4]] = / sqrt 2 * / sqrt 2.
Proof. exact ex_best_constant. Qed.

Theorem C138_single_gradient : forall m g H, length g = m -> (best m [] [] [g] 0 H <-> H = outer g g).
Proof. exact best_single. Qed.
Print Assumptions C138_single_gradient.

Theorem C138_gradients_upper : forall m grads H, Forall (dimP m) grads -> best m [] [] grads 0 H -> trace H <= vsum (map norm2sq grads).
Proof. exact best_grads_upper. Qed.
Print Assumptions C138_gradients_upper.

Theorem C138_gradients_orthogonal : forall m X fX grads eps H, Forall (dimP m) grads -> sdp_H m X fX grads eps H ->
  (forall a b, (a < length grads)%nat -> (b < length grads)%nat -> a <> b -> dot (nth a grads []) (nth b grads []) = 0) -> (forall g, In g grads -> 0 < norm2 g) ->
  vsum (map norm2sq grads) <= trace H.
Proof. exact best_grads_orthogonal. Qed.
Print Assumptions C138_gradients_orthogonal.

Theorem C138_active_subspace : forall m X fX grads eps H w, Forall (dimP m) grads -> sdp_H m X fX grads eps H -> length w = length grads -> Forall (fun a => 0 <= a) w -> vsum w = 1 -> loewner m (spec m w grads) H.
Proof. exact feasible_active. Qed.
Print Assumptions C138_active_subspace.

Example C138_gradients_case : sdp_H 2 [] [] [[1; 0]; [0; 2]] 0 [[1; 0]; [0; 4]] /\ (forall a b, (a < 2)%nat -> (b < 2)%nat -> a <> b -> dot (nth a [[1; 0]; [0; 2]] []) (nth b [[1; 0]; [0; 2]] []) = 0) /\
  vsum [/ 2; / 2] = 1 /\ vsum (map norm2sq [[1; 0]; [0; 2]]) = 5.
Proof. exact ex_best_orthogonal. Qed.

Theorem C138_convex : forall m X fX grads eps G H t, 0 <= t <= 1 -> best m X fX grads eps G -> best m X fX grads eps H -> best m X fX grads eps (madd (mscale t G) (mscale (1 - t) H)).
Proof. exact best_convex. Qed.
Print Assumptions C138_convex.

Theorem C138_unique_refuted : exists X fX h G H, Forall (dimP 2) X /\ (forall i, (i < length X)%nat -> vget fX i = h (vget (nth i X []) 0)) /\
  best 2 X fX [] 0 G /\ best 2 X fX [] 0 H /\ eigh_post 2 G ([0; 1], [[0; 1]; [1; 0]]) /\ eigh_post 2 H ([0; 1], [[1; 0]; [0; 1]]).
Proof. exact best_unique_refuted. Qed.
Print Assumptions C138_unique_refuted.

Theorem C138_fit_H : forall m eigh H X fX grads s, eigh_post m H (eigh H) -> sq m H -> msym m H -> psd m H -> signs_live m eigh H (map (vscale (/ s)) grads) -> snd (fst (lm_fit eigh H X fX grads s)) = mscale (s ^ 2) H.
Proof. exact fit_H. Qed.
Print Assumptions C138_fit_H.

Theorem C138_fit : forall m eigh X fX grads eps s H, eigh_post m H (eigh H) -> 0 < s -> best m X (vscale (/ s) fX) (map (vscale (/ s)) grads) (eps / s) H -> signs_live m eigh H (map (vscale (/ s)) grads) ->
  best m X fX grads eps (snd (fst (lm_fit eigh H X fX grads s))).
Proof. exact fit_best. Qed.
Print Assumptions C138_fit.

Theorem C138_zero_column : forall m eigh X fX grads eps s H k, eigh_post m H (eigh H) -> 0 < s -> sdp_H m X (vscale (/ s) fX) (map (vscale (/ s)) grads) (eps / s) H -> grads <> [] -> Forall (dimP m) grads -> (k < m)%nat ->
  vget (fst (eigh H)) k = 0 -> nth (m - 1 - k) (fst (fst (lm_fit eigh H X fX grads s))) [] = vzero m.
Proof. exact fit_zero_column. Qed.
Print Assumptions C138_zero_column.

Theorem C138_not_orthonormal : forall m eigh X fX grads eps s H v, eigh_post m H (eigh H) -> 0 < s -> best m X (vscale (/ s) fX) (map (vscale (/ s)) grads) (eps / s) H -> grads <> [] -> Forall (dimP m) X -> Forall (dimP m) grads ->
  length v = m -> 0 < norm2sq v -> (forall i j, (i < j < length X)%nat -> eps < Rabs (vget fX i - vget fX j) -> dot v (vsub (nth i X []) (nth j X [])) = 0) -> (forall g, In g grads -> dot v g = 0) ->
  exists k, (k < m)%nat /\ nth k (fst (fst (lm_fit eigh H X fX grads s))) [] = vzero m.
Proof. exact fit_not_orthonormal. Qed.
Print Assumptions C138_not_orthonormal.

Example C138_fit_case : eigh_post 2 [[1; 0]; [0; 0]] (fit_eigh [[1; 0]; [0; 0]]) /\ best 2 [] (vscale (/ 5) []) (map (vscale (/ 5)) [[5; 0]]) (0 / 5) [[1; 0]; [0; 0]] /\ signs_live 2 fit_eigh [[1; 0]; [0; 0]] (map (vscale (/ 5)) [[5; 0]]) /\
  dot [0; 1] [5; 0] = 0 /\ 0 < norm2sq [0; 1].
Proof. exact ex_fit_best. Qed.

Theorem C138_U_refuted : exists eigh grads H, eigh_post 2 H (eigh H) /\ best 2 [] [] grads 0 H /\ signs_live 2 eigh H grads /\
  fst (fst (lm_fit eigh H [] [] grads 1)) = [[1; 0]; [0; 0]] /\ snd (fst (lm_fit eigh H [] [] grads 1)) = [[1; 0]; [0; 0]].
Proof. exact fit_U_refuted. Qed.
Print Assumptions C138_U_refuted.

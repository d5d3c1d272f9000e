(** Generated by tools/mkprops.py from tools/props/GpPredProps.spec: the property theorems. *)
Require Import Reals List Bool Arith ZArith Permutation.
From Verif Require Import RVec Num Sums DomModel DomMoreModel BasisModel MatLib SpecProofs LipModel GrassLib SubModel GpModel GpKernel GpProofs GpFit GpLml GpCases GpPred GpOrder GpPredCases.
Import ListNotations.
Local Open Scope R_scope.

Local Open Scope R_scope.

(** C148: the fitted predictor as a function of its data *)
Theorem C148_linear : forall eigh tol tau B X y1 y2 L a b x, length y1 = length X -> length y2 = length X ->
  eigh_post (length X + gp_n B) (gp_block tau B X L) (eigh (gp_block tau B X L)) ->
  gp_eval B X L (gp_weights eigh tol tau B X (vadd (vscale a y1) (vscale b y2)) L) x =
  a * gp_eval B X L (gp_weights eigh tol tau B X y1 L) x + b * gp_eval B X L (gp_weights eigh tol tau B X y2 L) x.
Proof. exact pred_linear. Qed.
Print Assumptions C148_linear.

Theorem C148_trend_added : forall opt eigh tol tau degree st dexpm m X y L0 c, let B := gp_basis degree m X in 0 <= tol -> 0 < tau -> length y = length X -> length c = gp_n B ->
  (forall ell, let A := gp_block tau B X (make_L st m ell) in eigh_post (length X + gp_n B) A (eigh A) /\ kept tol (length X + gp_n B) (eigh A)) ->
  let f := gp_fit opt eigh tol tau degree st dexpm m X y L0 in let f' := gp_fit opt eigh tol tau degree st dexpm m X (add_trend B X y c) L0 in
  fst f' = fst f /\ (forall i, (i < length X)%nat -> gp_predict degree m X f' (nth i X []) = gp_predict degree m X f (nth i X []) + dot (gp_v B (nth i X [])) c) /\
  (unisolvent B X -> forall x, gp_predict degree m X f' x = gp_predict degree m X f x + dot (gp_v B x) c).
Proof. exact fit_shift. Qed.
Print Assumptions C148_trend_added.

Theorem C148_translate : forall opt eigh tol tau degree st dexpm t X y L0, Forall (fun x => length x = length t) X -> X <> [] ->
  let f := gp_fit opt eigh tol tau degree st dexpm (length t) X y L0 in let f' := gp_fit opt eigh tol tau degree st dexpm (length t) (translate t X) y L0 in
  f' = f /\ forall x, length x = length t -> gp_predict degree (length t) (translate t X) f' (vadd t x) = gp_predict degree (length t) X f x.
Proof. exact fit_translate. Qed.
Print Assumptions C148_translate.

Theorem C148_isometry : forall opt eigh tol tau dexpm m h X y L0, isometry m h -> Forall (fun x => length x = m) X ->
  let f := gp_fit opt eigh tol tau None GConst dexpm m X y L0 in let f' := gp_fit opt eigh tol tau None GConst dexpm m (map h X) y L0 in
  f' = f /\ forall x, length x = m -> gp_predict None m (map h X) f' (h x) = gp_predict None m X f x.
Proof. exact fit_isometry. Qed.
Print Assumptions C148_isometry.

Theorem C148_order : forall eigh tol tau degree m X y X' y' L, 0 <= tol -> 0 < tau -> length y = length X -> length y' = length X' -> Permutation (combine X y) (combine X' y') ->
  let B := gp_basis degree m X in let B' := gp_basis degree m X' in
  eigh_post (length X + gp_n B) (gp_block tau B X L) (eigh (gp_block tau B X L)) -> kept tol (length X + gp_n B) (eigh (gp_block tau B X L)) ->
  eigh_post (length X' + gp_n B') (gp_block tau B' X' L) (eigh (gp_block tau B' X' L)) -> kept tol (length X' + gp_n B') (eigh (gp_block tau B' X' L)) ->
  unisolvent B X -> forall x, gp_eval B' X' L (gp_weights eigh tol tau B' X' y' L) x = gp_eval B X L (gp_weights eigh tol tau B X y L) x.
Proof. exact pred_order. Qed.
Print Assumptions C148_order.

Theorem C148_far : forall B X L w x delta, length (fst w) = length X -> 0 <= delta -> (forall i, (i < length X)%nat -> delta * delta <= gk_d L x (nth i X [])) ->
  Rabs (gp_eval B X L w x - dot (gp_v B x) (snd w)) <= exp (- / 2 * (delta * delta)) * rsum (length X) (fun i => Rabs (vget (fst w) i)).
Proof. exact pred_far. Qed.
Print Assumptions C148_far.

Theorem C148_more_samples : forall e e' tol L X Z x, 0 <= tol -> eigh_post (length X) (gp_K L X) e -> eigh_post (length (X ++ Z)) (gp_K L (X ++ Z)) e' ->
  (forall k, (k < length (X ++ Z))%nat -> tol < vget (fst e') k \/ vget (fst e') k = 0) ->
  gp_cov e' tol L (X ++ Z) x <= gp_cov e tol L X x.
Proof. exact cov_more. Qed.
Print Assumptions C148_more_samples.

Theorem C148_units_refuted : exists eigh tol tau X y s ell1 ell2, 0 < tol /\ 0 < tau /\ length y = length X /\ 0 < s /\
  (forall ell, In ell [ell1; ell2] -> let A := gp_Kt tau (gp_K (make_L GConst 1 ell) X) in eigh_post (length X) A (eigh A) /\ forall k, (k < length X)%nat -> tol < vget (fst (eigh A)) k) /\
  gp_lml eigh tol tau None GConst 1 X y ell2 < gp_lml eigh tol tau None GConst 1 X y ell1 /\
  gp_lml eigh tol tau None GConst 1 X (vscale s y) ell1 < gp_lml eigh tol tau None GConst 1 X (vscale s y) ell2.
Proof. exact units_refuted. Qed.
Print Assumptions C148_units_refuted.

Theorem C148_documented_refuted : exists eigh tol tau X y L x, 0 < tol /\ 0 < tau /\ length y = length X /\ eigh_post (length X) (gp_Kt tau (gp_K L X)) (eigh (gp_Kt tau (gp_K L X))) /\
  let w := gp_weights eigh tol tau None X y L in gp_eval None X L w x <> documented None X L w x.
Proof. exact documented_refuted. Qed.
Print Assumptions C148_documented_refuted.

Example C148_trend_added_case : forall opt dexpm L0 x,
  gp_predict (Some 0%nat) 1 gX (gp_fit opt eigh3g (/ 10) (/ 10) (Some 0%nat) GConst dexpm 1 gX [9; 12] L0) x = gp_predict (Some 0%nat) 1 gX (gp_fit opt eigh3g (/ 10) (/ 10) (Some 0%nat) GConst dexpm 1 gX [2; 5] L0) x + 7.
Proof. exact shift_case. Qed.

Example C148_translate_case : forall opt dexpm y L0, gp_predict (Some 0%nat) 1 [[10]; [11]] (gp_fit opt eigh3g (/ 10) (/ 10) (Some 0%nat) GConst dexpm 1 [[10]; [11]] y L0) [12] =
  gp_predict (Some 0%nat) 1 gX (gp_fit opt eigh3g (/ 10) (/ 10) (Some 0%nat) GConst dexpm 1 gX y L0) [2].
Proof. exact translate_case. Qed.

Example C148_isometry_case : isometry 2 turn /\ map turn [[1; 2]; [3; 5]] = [[-2; 1]; [-5; 3]] /\ ~ isometry 2 (fun x => [2 * vget x 0; vget x 1]).
Proof. exact isometry_case. Qed.

Example C148_order_case : Permutation (combine gX [2; 5]) (combine [[1]; [0]] [5; 2]) /\ forall x,
  gp_eval (gp_basis (Some 0%nat) 1 [[1]; [0]]) [[1]; [0]] [[exp 0]] (gp_weights eigh3g (/ 10) (/ 10) (gp_basis (Some 0%nat) 1 [[1]; [0]]) [[1]; [0]] [5; 2] [[exp 0]]) x =
  gp_eval (gp_basis (Some 0%nat) 1 gX) gX [[exp 0]] (gp_weights eigh3g (/ 10) (/ 10) (gp_basis (Some 0%nat) 1 gX) gX [2; 5] [[exp 0]]) x.
Proof. exact order_case. Qed.

Example C148_far_case : (forall i, (i < length gX)%nat -> 4 * 4 <= gk_d [[1]] [5] (nth i gX [])) /\
  Rabs (gp_eval None gX [[1]] ([1; -2], []) [5]) <= exp (- (8)) * 3.
Proof. exact far_case. Qed.

Example C148_more_case : eigh_post 1 (gp_K [[1]] [[0]]) ([1], [[1]]) /\ gp_cov (eigh2 (gp_K [[1]] ([[0]] ++ [[1]]))) (/ 10) [[1]] ([[0]] ++ [[1]]) [1] < gp_cov ([1], [[1]]) (/ 10) [[1]] [[0]] [1].
Proof. exact more_case. Qed.

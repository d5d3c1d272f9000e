(** Generated by tools/mkprops.py from tools/props/FixProps.spec: the property theorems. *)
Require Import Reals List Bool Arith ZArith.
From Verif Require Import RVec Num Sums DomModel DomMoreModel SweepProofs HullProofs HullIneqProofs Deriv ArnoldiMoreProofs BasisModel IndexProofs PolyProofs MatLib SpecProofs GrassLib LipModel LipFitProofs PartialProofs SubModel ActiveProofs RidgeModel RidgeProofs TrajProofs PolySpan VarproLib VarproProofs VarproCases GnStep RidgeFitProofs RidgeAffine RidgeFinish FinishCases OptModel OptProofs SeqProofs SolveFit RFitModel RFitProofs RFitMore RFitEx FixModel FixProofs.
Import ListNotations.
Local Open Scope R_scope.

Local Open Scope R_scope.

(** C157: PolynomialRidgeApproximation.fit_fixed_subspace *)
Theorem C157_returns : forall fitc svd1 m n rot X us, (exists r, fit_fixed fitc svd1 m n rot X us = Some r) <-> length us = n /\ Forall (fun u => length u = m) us.
Proof. exact fixed_returns. Qed.
Print Assumptions C157_returns.

Theorem C157_correct : forall fitc svd1 m n d p bd rot X f us vs B c, fixed_ok fitc svd1 m n d p bd X f us -> Forall (fun x => length x = m) X -> length f = length X -> fit_fixed fitc svd1 m n rot X us = Some (vs, (B, c)) ->
  (rot = false \/ forall u, In u vs -> u <> vzero m) ->
  length vs = n /\ same_span m us vs /\ (orthonormal us -> orthonormal vs) /\ (rot = false -> vs = us) /\ basis_ok B n /\ tb_deg B = d /\ length c = length (indices B) /\ on_side bd X f (ridge_eval B c vs) /\
  forall B' n' us' c', basis_ok B' n' -> (tb_deg B' <= d)%nat -> length us' = n' -> (forall u, In u us' -> spans m us u) ->
    length c' = length (indices B') -> on_side bd X f (ridge_eval B' c' us') -> misfit p X f (ridge_eval B c vs) <= misfit p X f (ridge_eval B' c' us').
Proof. exact fixed_correct. Qed.
Print Assumptions C157_correct.

Example C157_correct_case : fixed_ok lf (fun _ => [[1]]) 2 1 2 Ninf NoBound zX f1 e2U /\ Forall (fun x => length x = 2%nat) zX /\ length f1 = length zX /\ fit_fixed lf (fun _ => [[1]]) 2 1 true zX e2U = Some (e2U, (gB, [0; / 2; 0])) /\
  (forall u, In u e2U -> u <> vzero 2) /\ misfit Ninf zX f1 (ridge_eval gB [0; / 2; 0] e2U) = 0.
Proof. exact fixed_case. Qed.

Theorem C157_span_only : forall fitc svd1 m n d p bd rot rot' X f us us' vs B c vs' B' c', fixed_ok fitc svd1 m n d p bd X f us -> same_span m us us' -> Forall (fun x => length x = m) X -> length f = length X ->
  fit_fixed fitc svd1 m n rot X us = Some (vs, (B, c)) -> fit_fixed fitc svd1 m n rot' X us' = Some (vs', (B', c')) -> (rot = false \/ forall u, In u vs -> u <> vzero m) -> (rot' = false \/ forall u, In u vs' -> u <> vzero m) ->
  misfit p X f (ridge_eval B c vs) = misfit p X f (ridge_eval B' c' vs').
Proof. exact fixed_span_only. Qed.
Print Assumptions C157_span_only.

Example C157_span_case : same_span 2 e2U gU /\ e2U <> gU /\ fit_fixed lf (fun _ => [[1]]) 2 1 false zX gU = Some (gU, (gB, [0; / 1; 0])) /\ fixed_ok lf (fun _ => [[1]]) 2 1 2 Ninf NoBound zX f1 e2U.
Proof. exact fixed_span_case. Qed.

Theorem C157_orthonormal_refuted : exists fitc svd1 X f us, (forall rot, exists B c, fixed_ok fitc svd1 2 1 2 Ninf NoBound X f us /\ independent 2 us /\ pr_enough 2 1 2 (length X) = true /\ fit_fixed fitc svd1 2 1 rot X us = Some (us, (B, c))) /\ ~ orthonormal us.
Proof. exact fixed_orthonormal_refuted. Qed.
Print Assumptions C157_orthonormal_refuted.

Theorem C157_determined_refuted : exists fitc svd1 X f us B c B' c', fixed_ok fitc svd1 2 1 2 Ninf NoBound X f us /\ pr_enough 2 1 2 (length X) = false /\ (forall rot, fit_fixed fitc svd1 2 1 rot X us = Some (us, (B, c))) /\
  basis_ok B' 1 /\ tb_deg B' = 2%nat /\ length c' = length (indices B') /\ misfit Ninf X f (ridge_eval B' c' us) <= misfit Ninf X f (ridge_eval B c us) /\ exists x, length x = 2%nat /\ ridge_eval B' c' us x <> ridge_eval B c us x.
Proof. exact fixed_determined_refuted. Qed.
Print Assumptions C157_determined_refuted.

Theorem C157_columns : forall fitc svd1 m n d p bd X f us vs B c, fixed_ok fitc svd1 m n d p bd X f us -> fit_fixed fitc svd1 m n true X us = Some (vs, (B, c)) ->
  length vs = n /\ (forall v, In v vs -> spans m us v) /\ exists ws, length ws = n /\ same_span m us ws /\ ((n <= 1)%nat -> ws = us) /\
  forall k, (k < n)%nat -> nth k ws [] <> vzero m -> let slope := profile_slopes (fst (fitc ws)) (snd (fitc ws)) (map (mv us) X) k in
    (nth k vs [] = vzero m <-> slope = 0) /\ (0 < slope -> nth k vs [] = nth k ws []) /\ (slope < 0 -> nth k vs [] = vscale (-1) (nth k ws [])).
Proof. exact fixed_columns. Qed.
Print Assumptions C157_columns.

Theorem C157_erases : forall fitc svd1 p bd vs B c, fixed_ok fitc svd1 2 1 2 p bd zX zf gU -> fit_fixed fitc svd1 2 1 true zX gU = Some (vs, (B, c)) ->
  vs = [[0; 0]] /\ (forall x y, length x = 2%nat -> length y = 2%nat -> ridge_eval B c vs x = ridge_eval B c vs y) /\ 0 < misfit p zX zf (ridge_eval B c vs) /\
  exists B' c', fit_fixed fitc svd1 2 1 false zX gU = Some (gU, (B', c')) /\ misfit p zX zf (ridge_eval B' c' gU) = 0.
Proof. exact fixed_erases. Qed.
Print Assumptions C157_erases.

Example C157_erases_case : fixed_ok sqf (fun _ => [[1]]) 2 1 2 Ninf NoBound zX zf gU /\ exists vs B c, fit_fixed sqf (fun _ => [[1]]) 2 1 true zX gU = Some (vs, (B, c)).
Proof. exact fixed_erases_case. Qed.

(** Generated by tools/mkprops.py from tools/props/DensProps.spec: the property theorems. *)
Require Import Reals List Bool Arith ZArith.
From Verif Require Import RVec Num Sums MatLib GrassLib SpecProofs DomModel DomSpec DomProofs DomMoreModel QuadProofs PredModel CholProofs RandModel RandProofs CholAlg DensModel DensProofs DensRand DensVol DensCases.
Import ListNotations.
Local Open Scope R_scope.

Local Open Scope R_scope.

(** C137: densities integrate to one; volume *)
Theorem C137_integral_unique : forall l u f g I J, Forall2 Rle l u -> (forall x, Forall2 Rle l x -> Forall2 Rle x u -> f x = g x) -> is_iint l u f I -> is_iint l u g J -> I = J.
Proof. exact is_iint_unique. Qed.
Print Assumptions C137_integral_unique.

Theorem C137_uniform : forall l u tol, Forall2 Rlt l u -> 0 <= tol -> is_iint l u (unif_pdf (ubox l u) l u tol) 1.
Proof. exact unif_integral. Qed.
Print Assumptions C137_uniform.

Theorem C137_uniform_tolerance : forall l u tol, Forall2 Rlt l u -> 0 <= tol ->
  is_iint (map (fun a => a - tol) l) (map (fun b => b + tol) u) (unif_pdf (ubox l u) l u tol) (vprod (widths (map (fun a => a - tol) l) (map (fun b => b + tol) u)) / vprod (widths l u)) /\
  (0 < tol -> l <> [] -> 1 < vprod (widths (map (fun a => a - tol) l) (map (fun b => b + tol) u)) / vprod (widths l u)) /\
  forall x, length x = length l -> ~ (Forall2 Rle (map (fun a => a - tol) l) x /\ Forall2 Rle x (map (fun b => b + tol) u)) -> unif_pdf (ubox l u) l u tol x = 0.
Proof. exact unif_integral_tol. Qed.
Print Assumptions C137_uniform_tolerance.

Example C137_uniform_case : Forall2 Rlt [0; -1] [2; 3] /\ unif_pdf (ubox [0; -1] [2; 3]) [0; -1] [2; 3] (1/10) [1; 0] = 1 / 8 /\ unif_pdf (ubox [0; -1] [2; 3]) [0; -1] [2; 3] (1/10) [3; 0] = 0 /\
  vprod (widths (map (fun a => a - 1/10) [0; -1]) (map (fun b => b + 1/10) [2; 3])) / vprod (widths [0; -1] [2; 3]) = 924 / 800.
Proof. exact unif_case. Qed.

Theorem C137_uniform_divisor : forall l u, Forall2 Rle l u -> (vprod (widths l u) = 0 <-> exists i, (i < length l)%nat /\ vget l i = vget u i).
Proof. exact unif_divisor. Qed.
Print Assumptions C137_uniform_divisor.

Example C137_uniform_divisor_case : Forall2 Rle [0; 1] [2; 1] /\ vprod (widths [0; 1] [2; 1]) = 0.
Proof. exact unif_divisor_case. Qed.

Theorem C137_normal : forall chol tinv isf det mu v t tol, chol_spec chol -> tinv_spec tinv -> det_spec det -> 0 < v -> t < 1 -> 0 <= tol -> 0 < isf t 1%nat -> is_int phi (- sqrt (isf t 1%nat)) (sqrt (isf t 1%nat)) (1 - t) -> let d := normal_new chol tinv isf [mu] [[v]] (Some t) in
  is_int (fun x => normal_pdf det d tol [x]) (mu - sqrt v * sqrt (isf t 1%nat)) (mu + sqrt v * sqrt (isf t 1%nat)) 1 /\ (forall x, sqrt v * (sqrt (isf t 1%nat) + tol) < Rabs (x - mu) -> normal_pdf det d tol [x] = 0).
Proof. exact normal_integral. Qed.
Print Assumptions C137_normal.

Example C137_normal_case : exists t, 0 < t < 1 /\ chol_spec cholesky /\ tinv_spec tri_inv /\ det_spec det_chol /\ let isf := fun (_ : R) (_ : nat) => 1 in is_int phi (- sqrt (isf t 1%nat)) (sqrt (isf t 1%nat)) (1 - t) /\
  is_int (fun x => normal_pdf det_chol (normal_new cholesky tri_inv isf [3] [[4]] (Some t)) (1/100) [x]) 1 5 1.
Proof. exact normal_integral_case. Qed.

Theorem C137_lognormal : forall mean cov offset scaling nlb nub t lo hi, 0 < cov -> 0 < scaling -> nlb <= nub -> is_int (normal_density mean cov) nlb nub (1 - t) -> logn_lb offset scaling (Some (nlb, nub)) = Fin lo -> logn_ub offset scaling (Some (nlb, nub)) = Fin hi ->
  is_int (logn_pdf mean cov offset scaling) lo hi (scaling / sqrt cov * (1 - t)).
Proof. exact logn_integral. Qed.
Print Assumptions C137_lognormal.

Example C137_lognormal_case : exists t, 0 < t < 1 /\ is_int (normal_density 0 1) (-1) 1 (1 - t).
Proof. exact logn_case. Qed.

Theorem C137_lognormal_truncated_refuted : exists mean cov offset scaling nlb nub t lo hi I, 0 < cov /\ 0 < scaling /\ scaling * scaling = cov /\ nlb < nub /\ 0 < t < 1 /\ is_int (normal_density mean cov) nlb nub (1 - t) /\
  logn_lb offset scaling (Some (nlb, nub)) = Fin lo /\ logn_ub offset scaling (Some (nlb, nub)) = Fin hi /\ is_int (logn_pdf mean cov offset scaling) lo hi I /\ I < 1 /\ forall x, hi < x -> 0 < logn_pdf mean cov offset scaling x.
Proof. exact logn_truncated_refuted. Qed.
Print Assumptions C137_lognormal_truncated_refuted.

Theorem C137_volume_box : forall d l u nlb nub tol Xt, is_box_domain d = true -> lb d = map Fin l -> ub d = map Fin u -> Forall2 Rle l u ->
  exists v, volume d nlb nub tol Xt = Fin v /\ is_iint l u (fun _ => 1) v.
Proof. exact vol_box. Qed.
Print Assumptions C137_volume_box.

Example C137_volume_box_case : exists v, volume (mkDom LinQuad 2 [Fin 0; Fin (-1)] [Fin 2; Fin 3] [] [] [] [] []) [] [] 0 [] = Fin v /\ is_iint [0; -1] [2; 3] (fun _ => 1) v /\ v = 8.
Proof. exact vol_box_case. Qed.

Theorem C137_box_set : forall d, dom_wf d -> is_box_domain d = true -> forall x, member d x <-> length x = dim d /\ sat_bounds (lb d) (ub d) 0 x.
Proof. exact box_set. Qed.
Print Assumptions C137_box_set.

Theorem C137_weights_sum : forall N v, (1 <= N)%nat -> exists w, mc_weights_num N (Fin v) = map Fin w /\ length w = N /\ vsum w = v /\ forall r, In r w -> r = v / INR N.
Proof. exact weights_sum. Qed.
Print Assumptions C137_weights_sum.

Example C137_weights_case : is_box_domain (mkDom LinQuad 2 [Fin 0; Fin (-1)] [Fin 2; Fin 3] [] [] [] [] []) = true /\ is_box_domain tri = false /\ mc_weights_num 4 (Fin 8) = [Fin (1 / INR 4 * 8); Fin (1 / INR 4 * 8); Fin (1 / INR 4 * 8); Fin (1 / INR 4 * 8)].
Proof. exact box_weights_case. Qed.

Theorem C137_volume_sampled : forall d l u tol Xt, is_box_domain d = false -> Forall2 Rle l u -> Xt <> [] -> exists v, volume d (map Fin l) (map Fin u) tol Xt = Fin v /\ 0 <= v <= vprod (widths l u) /\
  v = INR (count_inside d tol Xt) / INR (length Xt) * vprod (widths l u) /\ (Forall2 Rlt l u -> (v = vprod (widths l u) <-> forall x, In x Xt -> inside1 d x tol = true) /\ (v = 0 <-> forall x, In x Xt -> inside1 d x tol = false)).
Proof. exact vol_mc. Qed.
Print Assumptions C137_volume_sampled.

Example C137_volume_sampled_case : is_box_domain tri = false /\ Forall2 Rlt [0; 0] [1; 1] /\ volume tri (map Fin [0; 0]) (map Fin [1; 1]) 0 triX = Fin (1 / 2).
Proof. exact vol_mc_case. Qed.

Theorem C137_volume_unbounded : forall d nlb nub tol Xt N, is_box_domain d = true -> Forall2 (fun a b => nltb a b = true) (lb d) (ub d) -> (exists i, (i < length (lb d))%nat /\ (is_inf (nth i (lb d) NaN) = true \/ is_inf (nth i (ub d) NaN) = true)) -> (1 <= N)%nat ->
  volume d nlb nub tol Xt = PInf /\ forall w, In w (mc_weights_num N (volume d nlb nub tol Xt)) -> w = PInf.
Proof. exact vol_unbounded. Qed.
Print Assumptions C137_volume_unbounded.

Example C137_volume_unbounded_case : is_box_domain (mkDom Box 2 [Fin 0; NInf] [Fin 2; PInf] [] [] [] [] []) = true /\ Forall2 (fun a b => nltb a b = true) [Fin 0; NInf] [Fin 2; PInf].
Proof. exact vol_unbounded_case. Qed.

Theorem C137_normal_weights_infinite : forall mean Linv nlb nub tol Xt N, mean <> [] -> (1 <= N)%nat -> volume (normal_dom mean Linv None) nlb nub tol Xt = PInf /\ forall w, In w (mc_weights_num N (volume (normal_dom mean Linv None) nlb nub tol Xt)) -> w = PInf.
Proof. exact vol_normal_infinite. Qed.
Print Assumptions C137_normal_weights_infinite.

Theorem C137_volume_equality : forall d l u tol Xt, dom_wf d -> dcls d <> Point -> is_box_domain d = false -> Forall2 Rle l u -> Xt <> [] ->
  (forall x, In x Xt -> exists k a c, nth_error (dAeq d) k = Some a /\ nth_error (dbeq d) k = Some c /\ tol <= Rabs (dot a x - c)) ->
  volume d (map Fin l) (map Fin u) tol Xt = Fin 0 /\ forall N f X v, volume d (map Fin l) (map Fin u) tol Xt = Fin v -> mc_rule N v f X = 0.
Proof. exact vol_equality. Qed.
Print Assumptions C137_volume_equality.

Theorem C137_equality_refuted : exists d l u tol Xt, dom_wf d /\ Forall2 Rlt l u /\ 0 < tol /\ Xt <> [] /\ Forall (fun x => Forall2 Rle l x /\ Forall2 Rle x u) Xt /\ (exists x y, member d x /\ member d y /\ x <> y) /\
  volume d (map Fin l) (map Fin u) tol Xt = Fin 0 /\ forall N f X v, volume d (map Fin l) (map Fin u) tol Xt = Fin v -> mc_rule N v f X = 0.
Proof. exact mc_equality_refuted. Qed.
Print Assumptions C137_equality_refuted.

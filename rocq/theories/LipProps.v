(** Generated by tools/mkprops.py from tools/props/LipProps.spec: the property theorems. *)
Require Import Reals List Bool Arith ZArith Permutation.
From Verif Require Import RVec Num Sums NormProofs DomMoreModel MatLib SpecProofs LipModel LipProofs LipConstProofs ProjProofs ProjGradProofs GrassLib LipFitProofs SdpProofs LipMoreProofs PartialProofs MoreCases LipTight.
Import ListNotations.
Local Open Scope R_scope.

Local Open Scope R_scope.

(** C26: soundness of the uncertainty interval *)
Theorem C26_sound : forall (P : vec -> Prop) m L eps f X x, (forall z, P z -> length z = m) -> lipschitz_on P L (slack eps) f ->
  Forall P X -> P x -> 0 <= slack eps -> within (f x) (unc1 L eps (combine X (map f X)) x).
Proof. exact unc_sound. Qed.
Print Assumptions C26_sound.

Theorem C26_rows : forall L eps X fX Xt i, (i < length Xt)%nat ->
  length (fst (uncertainty L eps X fX Xt)) = length Xt /\ length (snd (uncertainty L eps X fX Xt)) = length Xt /\
  (nth i (fst (uncertainty L eps X fX Xt)) NaN, nth i (snd (uncertainty L eps X fX Xt)) NaN) = unc1 L eps (combine X fX) (nth i Xt []).
Proof. exact unc_rows. Qed.
Print Assumptions C26_rows.

Theorem C26_sharp : forall m L D x v, consistent m L D -> length x = m ->
  within v (unc1 L None D x) ->
  exists g : vec -> R, lipschitz_on (dimP m) L 0 g /\ (forall d, In d D -> g (fst d) = snd d) /\ g x = v.
Proof. exact unc_sharp. Qed.
Print Assumptions C26_sharp.

Example C26_case : lipschitz_on (dimP 1) [[2]] 0 exf /\ Forall (dimP 1) [[0]; [1]] /\ dimP 1 [2].
Proof. exact ex_lip. Qed.

(** C27: collapse, monotonicity *)
Theorem C27_collapse : forall m L eps D d, consistent m L D -> In d D ->
  unc1 L eps D (fst d) = (Fin (snd d - slack eps), Fin (snd d + slack eps)).
Proof. exact unc_collapse. Qed.
Print Assumptions C27_collapse.

Theorem C27_monotone : forall L eps D D' x, (forall d, In d D -> In d D') ->
  nleb (fst (unc1 L eps D x)) (fst (unc1 L eps D' x)) = true /\ nleb (snd (unc1 L eps D' x)) (snd (unc1 L eps D x)) = true.
Proof. exact unc_monotone. Qed.
Print Assumptions C27_monotone.

Theorem C27_nonempty_iff_consistent : forall m L D, Forall (fun d => length (fst d) = m) D ->
  (consistent m L D <-> forall x, length x = m -> nleb (fst (unc1 L None D x)) (snd (unc1 L None D x)) = true).
Proof. exact unc_nonempty_iff. Qed.
Print Assumptions C27_nonempty_iff_consistent.

Example C27_case_interval : unc1 [[2]] (Some 1) [([0], 0); ([1], 1)] [2] = (Fin (-2), Fin 4).
Proof. exact ex_unc. Qed.

Example C27_case_consistent : consistent 1 [[2]] exdata /\ In ([3], 0) exdata.
Proof. exact ex_consistent. Qed.

Example C27_case_inconsistent : ~ consistent 1 [[2]] [([0], 0); ([1], 3)] /\ Forall (fun d : vec * R => length (fst d) = 1%nat) [([0], 0); ([1], 3)].
Proof. exact ex_inconsistent. Qed.

(** C28: Lipschitz approximation *)
Theorem C28_lipschitz : forall m L X fX y, X <> [] -> length y = length X ->
  exists g : vec -> R, (forall x, approx_eval L X fX y x = Fin (g x)) /\ lipschitz_on (dimP m) L 0 g.
Proof. exact approx_lipschitz. Qed.
Print Assumptions C28_lipschitz.

Theorem C28_constraints : forall m L X y, Forall (dimP m) X -> length y = length X ->
  (compat_con L X y <-> consistent m L (combine X y)).
Proof. exact compat_con_iff. Qed.
Print Assumptions C28_constraints.

Theorem C28_interpolates : forall nrm m L X fX y i, Forall (dimP m) X -> length fX = length X -> compat_spec nrm L X fX y ->
  (i < length X)%nat -> approx_eval L X fX y (nth i X []) = Fin (vget y i).
Proof. exact approx_interpolates. Qed.
Print Assumptions C28_interpolates.

Theorem C28_reproduces : forall nrm m L X fX y, is_norm_at0 nrm -> Forall (dimP m) X -> length fX = length X -> X <> [] ->
  consistent m L (combine X fX) -> compat_spec nrm L X fX y -> y = fX /\ approx_eps y fX = 0.
Proof. exact approx_reproduces. Qed.
Print Assumptions C28_reproduces.

Theorem C28_error : forall (P : vec -> Prop) m L X f y x, (forall z, P z -> length z = m) -> lipschitz_on P L 0 f -> Forall P X -> X <> [] -> P x -> length y = length X ->
  exists lo hi g, unc1 L (Some (approx_eps y (map f X))) (combine X y) x = (Fin lo, Fin hi) /\ approx_eval L X (map f X) y x = Fin g /\
    lo <= f x <= hi /\ Rabs (f x - g) <= (hi - lo) / 2.
Proof. exact approx_error. Qed.
Print Assumptions C28_error.

Theorem C28_optimal : forall m L D x c, consistent m L D -> D <> [] -> length x = m ->
  exists g : vec -> R, lipschitz_on (dimP m) L 0 g /\ (forall d, In d D -> g (fst d) = snd d) /\
    (vmin (uvals L D x) - vmax (lvals L D x)) / 2 <= Rabs (g x - c).
Proof. exact approx_optimal. Qed.
Print Assumptions C28_optimal.

Theorem C28_empty : forall L fX x, approx_eval L [] fX [] x = NaN.
Proof. exact approx_empty. Qed.
Print Assumptions C28_empty.

Example C28_case_within : within 2 (unc1 [[2]] None exdata [2]) /\ length [2] = 1%nat.
Proof. exact ex_within. Qed.

Example C28_case : compat_spec norm1 [[2]] [[0]; [1]] [0; 3] [/ 2; 5 / 2] /\ ~ consistent 1 [[2]] (combine [[0]; [1]] [0; 3]).
Proof. exact ex_compat. Qed.

(** C29: scalar Lipschitz constant *)
Theorem C29_least : forall eps X fX grads, (length X <> 1)%nat -> apart X -> (eps <> None -> 0 < lip_scale fX grads) ->
  exists l, lc_fit eps X fX grads = Some (Fin l) /\ least (lip_ok X fX grads (slack eps / lip_scale fX grads)) l.
Proof. exact lc_fit_least. Qed.
Print Assumptions C29_least.

Theorem C29_exact : forall X fX grads, (length X <> 1)%nat -> apart X ->
  exists l, lc_fit None X fX grads = Some (Fin l) /\ least (lip_ok X fX grads 0) l.
Proof. exact lc_fit_exact. Qed.
Print Assumptions C29_exact.

Theorem C29_feasible_small_scale : forall e X fX grads, (length X <> 1)%nat -> apart X -> 0 <= e -> 1 <= lip_scale fX grads ->
  exists l, lc_fit (Some e) X fX grads = Some (Fin l) /\ lip_ok X fX grads e l.
Proof. exact lc_fit_feasible_small_scale. Qed.
Print Assumptions C29_feasible_small_scale.

Theorem C29_scale : forall fX grads, fX <> [] -> grads <> [] ->
  (forall i j, (i < length fX)%nat -> (j < length fX)%nat -> vget fX i - vget fX j <= lip_scale fX grads) /\ (forall g, In g grads -> norm2 g <= lip_scale fX grads) /\
  forall s, (forall i j, (i < length fX)%nat -> (j < length fX)%nat -> vget fX i - vget fX j <= s) -> (forall g, In g grads -> norm2 g <= s) -> lip_scale fX grads <= s.
Proof. exact lip_scale_least. Qed.
Print Assumptions C29_scale.

Example C29_case : apart [[0]; [1]].
Proof. exact ex_apart. Qed.

Example C29_scale_case : lip_scale [0; 4] [[6]; [1]] = 6.
Proof. exact scale_case. Qed.

Theorem C29_single_refuted : exists X fX, length X = 1%nat /\ length fX = 1%nat /\ least (lip_ok X fX [] 0) 0 /\ forall eps grads, lc_fit eps X fX grads = None.
Proof. exact lc_single_refuted. Qed.
Print Assumptions C29_single_refuted.

Theorem C29_epsilon_large_refuted : exists X fX e, (length X = 2)%nat /\ apart X /\ 0 <= e /\ least (lip_ok X fX [] e) 3 /\ lc_fit (Some e) X fX [] = Some (Fin (15 / 4)).
Proof. exact lc_eps_large_refuted. Qed.
Print Assumptions C29_epsilon_large_refuted.

Theorem C29_epsilon_small_refuted : exists X fX grads e l, (length X = 2)%nat /\ apart X /\ 0 <= e /\ 0 < lip_scale fX grads /\ lc_fit (Some e) X fX grads = Some (Fin l) /\ ~ lip_ok X fX grads e l.
Proof. exact lc_eps_small_refuted. Qed.
Print Assumptions C29_epsilon_small_refuted.

(** C30: project_evals *)
Theorem C30_terminates_feasible : forall m H X fX fuel, sq m H -> Forall (dimP m) X -> apart X -> (2 <= length X)%nat -> (length X * (length X - 1) / 2 < fuel)%nat ->
  exists H', project_evals fuel H X fX = Ret H' /\ sq m H' /\ loewner m H H' /\ eval_ok X fX pe_tol H'.
Proof. exact project_evals_correct. Qed.
Print Assumptions C30_terminates_feasible.

Theorem C30_keeps : forall m H X fX fuel H', sq m H -> Forall (dimP m) X -> apart X -> (2 <= length X)%nat -> (length X * (length X - 1) / 2 < fuel)%nat ->
  project_evals fuel H X fX = Ret H' -> forall x, length x = m -> quad H x <= quad H' x.
Proof. exact project_evals_keeps. Qed.
Print Assumptions C30_keeps.

Theorem C30_fixed : forall m H X fX fuel, Forall (dimP m) X -> apart X -> length X <> 1%nat -> (0 < fuel)%nat -> eval_ok X fX pe_tol H -> project_evals fuel H X fX = Ret H.
Proof. exact project_evals_fixed. Qed.
Print Assumptions C30_fixed.

Theorem C30_idempotent : forall m H X fX fuel, sq m H -> Forall (dimP m) X -> apart X -> length X <> 1%nat -> (length X * (length X - 1) / 2 < fuel)%nat ->
  exists H', project_evals fuel H X fX = Ret H' /\ forall fuel', (0 < fuel')%nat -> project_evals fuel' H' X fX = Ret H'.
Proof. exact project_evals_idempotent. Qed.
Print Assumptions C30_idempotent.

Example C30_fixed_case : (forall H fX, project_evals 1 H [] fX = Ret H) /\ eval_ok [[0]; [1]] [0; 2] pe_tol [[5]] /\ project_evals 9 [[5]] [[0]; [1]] [0; 2] = Ret [[5]].
Proof. exact fixed_case. Qed.

Example C30_case : sq 1 [[1]] /\ Forall (dimP 1) [[0]; [1]] /\ apart [[0]; [1]] /\ project_evals 3 [[1]] [[0]; [1]] [0; 2] = Ret [[4]].
Proof. exact ex_project. Qed.

Theorem C30_exact_refuted : exists H X fX, sq 1 H /\ apart X /\ (length X = 2)%nat /\ (forall n, project_evals (S n) H X fX = Ret H) /\ ~ eval_ok X fX 0 H.
Proof. exact project_evals_exact_refuted. Qed.
Print Assumptions C30_exact_refuted.

Theorem C30_duplicate_refuted : exists H X fX, sq 1 H /\ (forall n, project_evals (S n) H X fX = Ret H) /\ ~ eval_ok X fX (/ 2) H.
Proof. exact project_evals_dup_refuted. Qed.
Print Assumptions C30_duplicate_refuted.

Theorem C30_nan_refuted : exists H X fX, sq 1 H /\ forall n, project_evals (S n) H X fX = AllNaN.
Proof. exact project_evals_nan_refuted. Qed.
Print Assumptions C30_nan_refuted.

Theorem C30_single_refuted : exists X fX, length X = 1%nat /\ forall n H, project_evals (S n) H X fX = Raised.
Proof. exact project_evals_single_refuted. Qed.
Print Assumptions C30_single_refuted.

(** C31: project_grads *)
Theorem C31_feasible_monotone : forall m dist eigh H grads fuel, dist_ok m dist -> eigh_ok m eigh -> sq m H -> msym m H -> Forall (dimP m) grads -> (length grads < fuel)%nat ->
  exists H', project_grads fuel dist eigh H grads = Ret H' /\ sq m H' /\ msym m H' /\ loewner m H H' /\ forall g, In g grads -> loewner m (outer g g) H'.
Proof. exact project_grads_correct. Qed.
Print Assumptions C31_feasible_monotone.

Example C31_case : dist_ok 1 dist1 /\ eigh_ok 1 eigh1 /\ sq 1 [[1]] /\ msym 1 [[1]] /\ project_grads 3 dist1 eigh1 [[1]] [[2]; [-3]] = Ret [[9]].
Proof. exact ex_project_grads. Qed.

Theorem C31_slow_refuted : exists H g e, eigh_post 2 (mscale (-1) H) e /\ loewner 2 (outer g g) H /\ forall brenth eigh feps n, brenth_signs brenth -> eigh (mscale (-1) H) = e -> 0 < feps < 1 -> project_grads (S n) (dist_grad_slow brenth eigh feps) eigh H [g] = Raised.
Proof. exact project_grads_slow_refuted. Qed.
Print Assumptions C31_slow_refuted.

(** C32: coordinate subspaces *)
Theorem C32_sorted : forall argsort s c, argsort_ok argsort -> c_U c = None -> exists U c', coord_U argsort (coord_fit s c) = (Some U, c') /\ sorted_coords s U /\ onb (length s) U.
Proof. exact coord_U_sorted. Qed.
Print Assumptions C32_sorted.

Example C32_case : argsort_ok isort.
Proof. exact isort_ok. Qed.

Theorem C32_refit_refuted : exists s1 s2, length s1 = length s2 /\ forall argsort, argsort_ok argsort ->
  let c1 := snd (coord_U argsort (coord_fit s1 coord_init)) in exists U c2, coord_U argsort (coord_fit s2 c1) = (Some U, c2) /\ ~ sorted_coords s2 U.
Proof. exact coord_U_refit_refuted. Qed.
Print Assumptions C32_refit_refuted.

Example C32_given_L_raises : forall argsort, coord_U argsort coord_init = (None, coord_init).
Proof. exact coord_U_given_refuted. Qed.

(** C56: signs *)
Theorem C56_samples : forall us X fX k, (k < length us)%nat ->
  length (fix_signs us X fX []) = length us /\
  (nth k (fix_signs us X fX []) [] = nth k us [] \/ nth k (fix_signs us X fX []) [] = vscale (-1) (nth k us [])) /\
  0 <= slope_sum (nth k (fix_signs us X fX []) []) X fX.
Proof. exact fix_signs_samps. Qed.
Print Assumptions C56_samples.

Theorem C56_monotone : forall us X fX k, (k < length us)%nat -> Forall (dimP (length (nth k us []))) X ->
  (increasing_along (nth k us []) X fX -> nth k (fix_signs us X fX []) [] = nth k us []) /\
  (decreasing_along (nth k us []) X fX -> spread_along (nth k us []) X -> nth k (fix_signs us X fX []) [] = vscale (-1) (nth k us [])).
Proof. exact fix_signs_monotone. Qed.
Print Assumptions C56_monotone.

Theorem C56_gradients : forall us X fX grads k, grads <> [] -> (k < length us)%nat ->
  length (fix_signs us X fX grads) = length us /\
  0 <= mean_slope (nth k (fix_signs us X fX grads) []) grads /\
  (mean_slope (nth k us []) grads <> 0 -> nth k (fix_signs us X fX grads) [] = nth k us [] \/ nth k (fix_signs us X fX grads) [] = vscale (-1) (nth k us [])) /\
  (mean_slope (nth k us []) grads = 0 -> Forall (fun a => a = 0) (nth k (fix_signs us X fX grads) [])).
Proof. exact fix_signs_grads. Qed.
Print Assumptions C56_gradients.

Theorem C56_gradients_refuted : exists us grads, onb 1 us /\ length grads = 2%nat /\ fix_signs us [] [] grads = [[0]].
Proof. exact fix_signs_grads_refuted. Qed.
Print Assumptions C56_gradients_refuted.

Example C56_monotone_case : decreasing_along [1] [[0]; [1]; [3]] [0; -1; -3] /\ spread_along [1] [[0]; [1]; [3]] /\ increasing_along [1] [[0]; [1]; [3]] [2; 4; 5].
Proof. exact monotone_case. Qed.

Example C56_samples_case : fix_signs [[1]] [[0]; [1]; [3]] [0; -1; -3] [] = [[-1]].
Proof. exact signs_samples_case. Qed.

Example C56_gradients_case : mean_slope [1] [[-1]; [-3]] <> 0 /\ fix_signs [[1]] [] [] [[-1]; [-3]] = [[-1]].
Proof. exact signs_grads_case. Qed.

(** C73: distance to the sample constraints *)
Theorem C73_distance : forall m H X fX k, sq m H -> Forall (dimP m) X -> apart X -> (k < length (pairs (length X)))%nat ->
  exists d, nth k (dist_eval H X fX) NaN = Fin d /\
  let p := pair_p X (fst (nth k (pairs (length X)) (0, 0)%nat)) (snd (nth k (pairs (length X)) (0, 0)%nat)) in
  let df2 := pair_df2 fX (fst (nth k (pairs (length X)) (0, 0)%nat)) (snd (nth k (pairs (length X)) (0, 0)%nat)) in
  (0 <= d <-> df2 <= quad H p) /\
  (forall E, sq m E -> quad (madd H E) p = df2 -> Rabs d <= frob E) /\
  (exists E, sq m E /\ msym m E /\ quad (madd H E) p = df2 /\ frob E = Rabs d).
Proof. exact dist_eval_correct. Qed.
Print Assumptions C73_distance.

Example C73_case : sq 1 [[4]] /\ Forall (dimP 1) [[0]; [1]; [3]] /\ apart [[0]; [1]; [3]] /\ dist_eval [[4]] [[0]; [1]; [3]] [0; 3; 3] = [Fin (-5); Fin 3; Fin 4].
Proof. exact dist_case. Qed.

(** C74: distance to the gradient constraints *)
Theorem C74_secular : forall m brenth eigh feps H g d, (1 <= m)%nat -> brenth_sound brenth -> eigh_ok m eigh -> 0 < feps < 1 -> sq m H -> msym m H -> psd m H -> length g = m ->
  dist_grad_slow brenth eigh feps H g = Some d -> lam_min m H g d.
Proof. exact dist_slow_correct. Qed.
Print Assumptions C74_secular.

Theorem C74_sign : forall m H g d, lam_min m H g d -> (0 <= d <-> loewner m (outer g g) H).
Proof. exact dist_slow_sign. Qed.
Print Assumptions C74_sign.

Theorem C74_total : forall m brenth eigh feps H g, (1 <= m)%nat -> brenth_total brenth -> eigh_ok m eigh -> 0 < feps < 1 -> sq m H -> msym m H -> length g = m ->
  let e := eigh (mscale (-1) H) in last (fst e) 0 < 0 -> feps * - last (fst e) 0 <= (dot (last (snd e) []) g) ^ 2 ->
  exists d, dist_grad_slow brenth eigh feps H g = Some d.
Proof. exact dist_slow_total. Qed.
Print Assumptions C74_total.

Example C74_case : eigh_post 2 (mscale (-1) [[1; 0]; [0; 2]]) ([-2; -1], [[0; 1]; [1; 0]]).
Proof. exact ex_eigh2. Qed.

Theorem C74_refuted : exists H g e, sq 2 H /\ msym 2 H /\ length g = 2%nat /\ eigh_post 2 (mscale (-1) H) e /\ psd 2 H /\ loewner 2 (outer g g) H /\ forall brenth eigh feps, brenth_signs brenth -> eigh (mscale (-1) H) = e -> 0 < feps < 1 -> dist_grad_slow brenth eigh feps H g = None.
Proof. exact dist_slow_refuted. Qed.
Print Assumptions C74_refuted.

Theorem C74_singular_refuted : exists H g e, sq 2 H /\ psd 2 H /\ eigh_post 2 (mscale (-1) H) e /\ forall brenth eigh feps, brenth_signs brenth -> eigh (mscale (-1) H) = e -> 0 < feps < 1 -> dist_grad_slow brenth eigh feps H g = None.
Proof. exact dist_slow_singular_refuted. Qed.
Print Assumptions C74_singular_refuted.

(** C75: LipschitzMatrix._fit *)
Theorem C75_constraints : forall m eigh H X fX grads scale eps, eigh_ok m eigh -> 0 < scale -> Forall (dimP m) X -> Forall (dimP m) grads ->
  builder_ok m X (vscale (/ scale) fX) (map (vscale (/ scale)) grads) (eps / scale) H -> signs_fine eigh H grads scale ->
  let L := snd (lm_fit eigh H X fX grads scale) in
  (forall i j, (i < j < length X)%nat -> Rabs (vget fX i - vget fX j) <= norm2 (mv L (vsub (nth i X []) (nth j X []))) + eps) /\
  (forall g x, In g grads -> length x = m -> Rabs (dot g x) <= norm2 (mv L x)).
Proof. exact lm_fit_constraints. Qed.
Print Assumptions C75_constraints.

Theorem C75_root : forall m eigh H X fX grads scale, eigh_ok m eigh -> 0 < scale -> sq m H -> msym m H -> signs_fine eigh H grads scale -> forall x, length x = m ->
  let r := lm_fit eigh H X fX grads scale in
  norm2sq (mv (snd r) x) = quad (snd (fst r)) x /\ 0 <= quad (snd (fst r)) x /\ scale ^ 2 * quad H x <= quad (snd (fst r)) x /\ (psd m H -> quad (snd (fst r)) x = scale ^ 2 * quad H x) /\ onb m (fst (fst r)).
Proof. exact lm_fit_root. Qed.
Print Assumptions C75_root.

Theorem C75_diagonal : forall h scale k, 0 < scale -> (k < length h)%nat ->
  length (fst (dlm_fit h scale)) = length h /\ length (snd (dlm_fit h scale)) = length h /\
  vget (snd (dlm_fit h scale)) k * vget (snd (dlm_fit h scale)) k = vget (fst (dlm_fit h scale)) k /\
  0 <= vget (snd (dlm_fit h scale)) k /\
  scale ^ 2 * vget h k <= vget (fst (dlm_fit h scale)) k /\
  (0 <= vget h k -> vget (fst (dlm_fit h scale)) k = scale ^ 2 * vget h k).
Proof. exact dlm_fit_correct. Qed.
Print Assumptions C75_diagonal.

Theorem C75_scale : forall fX grads, (fX = [] \/ grads = [] \/ (exists i j, (i < length fX)%nat /\ (j < length fX)%nat /\ vget fX i <> vget fX j) \/ exists g, In g grads /\ 0 < norm2 g) -> 0 < lip_scale fX grads.
Proof. exact lip_scale_pos. Qed.
Print Assumptions C75_scale.

Example C75_case : eigh_ok 1 eigh1 /\ builder_ok 1 [[0]; [1]] (vscale (/ 4) [0; 4]) (map (vscale (/ 4)) [[2]]) (1 / 4) [[1]] /\ signs_fine eigh1 [[1]] [[2]] 4.
Proof. exact ex_fit_case. Qed.

Theorem C75_sign_refuted : exists grads H, builder_ok 1 [] [] grads 0 H /\ lip_scale [] grads = 1 /\ eigh_ok 1 eigh1 /\ lm_fit eigh1 H [] [] grads 1 = ([[0]], [[0]], [[0]]) /\
  ~ (forall g, In g grads -> Rabs (dot g [1]) <= norm2 (mv (snd (lm_fit eigh1 H [] [] grads 1)) [1])).
Proof. exact lm_fit_sign_refuted. Qed.
Print Assumptions C75_sign_refuted.

(** C76: semidefinite program *)
Theorem C76_members : forall full m, Forall (good_E m) (sdp_basis full m).
Proof. exact sdp_basis_members. Qed.
Print Assumptions C76_members.

Theorem C76_count : forall m, (2 * length (sdp_basis true m) = m * (m + 1))%nat /\ length (sdp_basis false m) = m.
Proof. exact sdp_basis_count. Qed.
Print Assumptions C76_count.

Theorem C76_spans : forall m A, sq m A -> msym m A -> exists al, length al = length (sdp_basis true m) /\ mcomb m al (sdp_basis true m) = A.
Proof. exact sdp_basis_span. Qed.
Print Assumptions C76_spans.

Theorem C76_diagonal : forall m al i j, length al = m -> (i < m)%nat -> (j < m)%nat -> mget (mcomb m al (sdp_basis false m)) i j = if Nat.eqb i j then vget al i else 0.
Proof. exact sdp_basis_diag. Qed.
Print Assumptions C76_diagonal.

Theorem C76_objective : forall full m al, length al = length (sdp_basis full m) ->
  dot (map trace (sdp_basis full m)) al = trace (mcomb m al (sdp_basis full m)) /\ vsum al = trace (mcomb m al (sdp_basis full m)).
Proof. exact sdp_objective. Qed.
Print Assumptions C76_objective.

Theorem C76_feasible_iff : forall full m X fX grads eps al, 0 <= eps -> Forall (dimP m) X -> Forall (dimP m) grads -> same_only X fX eps ->
  (sdp_feasible m (sdp_basis full m) X fX grads eps al <-> sdp_H m X fX grads eps (mcomb m al (sdp_basis full m))).
Proof. exact sdp_feasible_iff. Qed.
Print Assumptions C76_feasible_iff.

Theorem C76_optimal : forall m X fX grads eps al, 0 <= eps -> Forall (dimP m) X -> Forall (dimP m) grads -> same_only X fX eps -> length al = length (sdp_basis true m) ->
  sdp_feasible m (sdp_basis true m) X fX grads eps al ->
  (forall be, length be = length (sdp_basis true m) -> sdp_feasible m (sdp_basis true m) X fX grads eps be -> dot (map trace (sdp_basis true m)) al <= dot (map trace (sdp_basis true m)) be) ->
  sdp_H m X fX grads eps (mcomb m al (sdp_basis true m)) /\
  forall G, sdp_H m X fX grads eps G -> trace (mcomb m al (sdp_basis true m)) <= trace G.
Proof. exact sdp_optimal. Qed.
Print Assumptions C76_optimal.

Example C76_case : Forall (dimP 1) [[0]; [1]] /\ same_only [[0]; [1]] [0; 1] 0 /\ length [1] = length (sdp_basis true 1) /\ sdp_feasible 1 (sdp_basis true 1) [[0]; [1]] [0; 1] [[/ 2]] 0 [1] /\
  forall be, length be = length (sdp_basis true 1) -> sdp_feasible 1 (sdp_basis true 1) [[0]; [1]] [0; 1] [[/ 2]] 0 be -> dot (map trace (sdp_basis true 1)) [1] <= dot (map trace (sdp_basis true 1)) be.
Proof. exact ex_sdp. Qed.

Theorem C76_duplicate_refuted : exists X fX, Forall (dimP 1) X /\ (forall H, ~ sdp_H 1 X fX [] 0 H) /\ exists i j, (i < j < length X)%nat /\ norm2 (vsub (nth i X []) (nth j X [])) = 0.
Proof. exact sdp_duplicate_refuted. Qed.
Print Assumptions C76_duplicate_refuted.

(** C77: bounds over a domain *)
Theorem C77_gradient : forall m L D x k v, Forall (dimP m) L -> Forall (fun d => length (fst d) = m) D -> length x = m -> length v = m -> (k < length D)%nat ->
  0 < Ldist L x (fst (nth k D ([], 0))) ->
  derivable_pt_lim (fun t => vget (lowerb L D (vadd x (vscale t v))) k) 0 (dot (nth k (bound_grad m L D x) []) v) /\
  derivable_pt_lim (fun t => vget (upperb L D (vadd x (vscale t v))) k) 0 (dot (nth k (bound_grad m L D x) []) v).
Proof. exact bound_grad_correct. Qed.
Print Assumptions C77_gradient.

Theorem C77_gradient_zero : forall m L D x k v, Forall (dimP m) L -> (k < length D)%nat -> Ldist L x (fst (nth k D ([], 0))) = 0 -> dot (nth k (bound_grad m L D x) []) v = 0.
Proof. exact bound_grad_zero. Qed.
Print Assumptions C77_gradient_zero.

Theorem C77_attained : forall (P : vec -> Prop) mmx L D X0, (forall f x0, In x0 X0 -> P (mmx f x0)) -> X0 <> [] ->
  exists lb ub, unc_domain mmx L D X0 = Some (lb, ub) /\
  (exists x, P x /\ lb = vmax (map (fun d => snd d - Ldist L x (fst d)) D)) /\
  (exists x, P x /\ ub = vmin (map (fun d => snd d + Ldist L x (fst d)) D)).
Proof. exact unc_domain_attained. Qed.
Print Assumptions C77_attained.

Theorem C77_starts : forall mmx L D X0 lb ub, (forall x0, In x0 X0 -> vmax (lowerb L D (mmx (lowerb L D) x0)) <= vmax (lowerb L D x0)) ->
  (forall x0, In x0 X0 -> vmax (upperb L D (mmx (upperb L D) x0)) <= vmax (upperb L D x0)) -> D <> [] ->
  unc_domain mmx L D X0 = Some (lb, ub) -> forall x0, In x0 X0 -> lb <= vmax (map (fun d => snd d - Ldist L x0 (fst d)) D) /\ vmin (map (fun d => snd d + Ldist L x0 (fst d)) D) <= ub.
Proof. exact unc_domain_starts. Qed.
Print Assumptions C77_starts.

Example C77_case : Forall (dimP 1) [[2]] /\ Forall (fun d : vec * R => length (fst d) = 1%nat) [([0], 5)] /\ 0 < Ldist [[2]] [3] (fst (nth 0 [([0], 5)] ([], 0))) /\
  bound_grad 1 [[2]] [([0], 5)] [3] = [[-2]].
Proof. exact ex_bound_grad. Qed.

Theorem C77_epsilon_refuted : exists L D e x, 0 < e /\
  unc_domain (fun _ x0 => x0) L D [x] = Some (-1, 1) /\ unc1 L (Some e) D x = (Fin (-2), Fin 2).
Proof. exact unc_domain_epsilon_refuted. Qed.
Print Assumptions C77_epsilon_refuted.

(** C78: PartialLipschitzMatrix *)
Theorem C78_root : forall m us q w alpha x, Forall (dimP m) us -> orthonormal us -> (length us <= m)%nat -> qr_ok m us q -> length w = length us -> Forall (fun a => 0 <= a) w -> 0 <= alpha -> length x = m ->
  norm2sq (mv (pl_L m q w alpha) x) = quad (pl_H m us w alpha) x /\ 0 <= quad (pl_H m us w alpha) x.
Proof. exact pl_root. Qed.
Print Assumptions C78_root.

Theorem C78_fit : forall eigh m us J alpha X fX grads scale us' w a, eigh_ok (length us) eigh -> Forall (dimP m) us -> orthonormal us -> sq (length us) J -> msym (length us) J -> psd (length us) J ->
  pl_signs_fine eigh m us J grads scale -> pl_fit eigh m us J alpha X fX grads scale = (us', w, a) ->
  length us' = length us /\ Forall (dimP m) us' /\ orthonormal us' /\ length w = length us /\ Forall (fun b => 0 <= b) w /\
  forall x, length x = m -> quad (pl_H m us' w a) x = scale ^ 2 * (quad J (mv us x) + alpha * (dot x x - dot (mv us x) (mv us x))).
Proof. exact pl_fit_correct. Qed.
Print Assumptions C78_fit.

Theorem C78_constraints : forall eigh m us J alpha X fX grads scale eps us' w a q, eigh_ok (length us) eigh -> Forall (dimP m) us -> orthonormal us -> (length us <= m)%nat -> 0 < scale -> Forall (dimP m) X ->
  pl_feasible m us X (vscale (/ scale) fX) (map (vscale (/ scale)) grads) (eps / scale) J alpha ->
  pl_signs_fine eigh m us J grads scale -> pl_fit eigh m us J alpha X fX grads scale = (us', w, a) -> qr_ok m us' q ->
  let L := pl_L m q w a in
  (forall i j, (i < j < length X)%nat -> Rabs (vget fX i - vget fX j) <= norm2 (mv L (vsub (nth i X []) (nth j X []))) + eps) /\
  (forall g x, In g grads -> length x = m -> Rabs (dot g x) <= norm2 (mv L x)).
Proof. exact pl_fit_constraints. Qed.
Print Assumptions C78_constraints.

Theorem C78_optimize_monotone : forall (D : Type) (descent : list vec -> mat * R -> option D) small step fixedU ob tol (P : list vec -> Prop) maxiter U0 U Ja,
  (forall U d t, P U -> descent U (fixedU U) = Some d -> P (step U d t)) -> P U0 -> pl_optimize maxiter descent small step fixedU ob tol U0 = Some (U, Ja) ->
  P U /\ Ja = fixedU U /\ ob Ja <= ob (fixedU U0).
Proof. exact pl_optimize_monotone. Qed.
Print Assumptions C78_optimize_monotone.

Theorem C78_geodesic : forall m us ds ys s zs t, Forall (dimP m) us -> orthonormal us -> length ds = length us -> svd_post m ds ys s zs -> (forall u d, In u us -> In d ds -> dot u d = 0) ->
  orthonormal (pl_geo m us ys s zs t) /\ length (pl_geo m us ys s zs t) = length us /\ Forall (dimP m) (pl_geo m us ys s zs t) /\ pl_geo m us ys s zs 0 = us.
Proof. exact pl_geo_manifold. Qed.
Print Assumptions C78_geodesic.

Theorem C78_linearization : forall us J alpha ups Jp alphap x, length ups = length us -> sq (length us) J -> msym (length us) J -> sq (length us) Jp -> msym (length us) Jp ->
  derivable_pt_lim (pl_path us J alpha ups Jp alphap x) 0 (pl_lin_grad us J alpha ups Jp alphap x).
Proof. exact pl_lin_true. Qed.
Print Assumptions C78_linearization.

Theorem C78_linearization_when : forall us J alpha ups Jp alphap y, length ups = length us -> length J = length us -> (alpha = 0 \/ mv J (mv us y) = mv us y) ->
  pl_lin us J alpha ups Jp alphap y = pl_lin_grad us J alpha ups Jp alphap y.
Proof. exact pl_lin_when. Qed.
Print Assumptions C78_linearization_when.

Theorem C78_objective : forall eigh m us J alpha X fX grads scale us' w a, eigh_ok (length us) eigh -> Forall (dimP m) us -> orthonormal us -> sq (length us) J -> msym (length us) J -> psd (length us) J ->
  pl_signs_fine eigh m us J grads scale -> pl_fit eigh m us J alpha X fX grads scale = (us', w, a) -> trace (pl_H m us' w a) = scale ^ 2 * pl_obj m (length us) (J, alpha).
Proof. exact pl_fit_trace. Qed.
Print Assumptions C78_objective.

Theorem C78_search : forall step fixedU ob obj n k t last, (k < n)%nat -> (forall i, (i < k)%nat -> obj <= ob (fixedU (step (t / 10 ^ i)))) -> ob (fixedU (step (t / 10 ^ k))) < obj ->
  pl_search n step fixedU ob obj t last = (step (t / 10 ^ k), fixedU (step (t / 10 ^ k))).
Proof. exact pl_search_first. Qed.
Print Assumptions C78_search.

Theorem C78_progress : forall (D : Type) (descent : list vec -> mat * R -> option D) small step fixedU ob tol maxiter U0 U Ja d k,
  descent U0 (fixedU U0) = Some d -> small d = false -> (k < 10)%nat -> ob (fixedU (step U0 d (1 / 10 ^ k))) < ob (fixedU U0) ->
  pl_optimize (S maxiter) descent small step fixedU ob tol U0 = Some (U, Ja) -> ob Ja < ob (fixedU U0).
Proof. exact pl_optimize_progress. Qed.
Print Assumptions C78_progress.

Example C78_case : eigh_ok 1 eigh1 /\ Forall (dimP 2) [[1; 0]] /\ orthonormal [[1; 0]] /\ pl_feasible 2 [[1; 0]] [[0; 0]; [1; 1]] (vscale (/ 1) [0; 1]) (map (vscale (/ 1)) [[1; 0]]) (0 / 1) [[1]] 0 /\
  pl_signs_fine eigh1 2 [[1; 0]] [[1]] [[1; 0]] 1 /\ pl_fit eigh1 2 [[1; 0]] [[1]] 0 [[0; 0]; [1; 1]] [0; 1] [[1; 0]] 1 = ([[1; 0]], [1], 0) /\ qr_ok 2 [[1; 0]] [[1; 0]; [0; 1]].
Proof. exact ex_pl. Qed.

Example C78_progress_case : let fixedU := fun U : list vec => ([[ (mget U 0 0 - 1 / 100) ^ 2 ]], 0) in let ob := fun Ja : mat * R => mget (fst Ja) 0 0 in let step := fun (_ : list vec) (_ : unit) (t : R) => [[t]] in
  (forall i, (i < 2)%nat -> ob (fixedU [[0]]) <= ob (fixedU (step [[0]] tt (1 / 10 ^ i)))) /\ ob (fixedU (step [[0]] tt (1 / 10 ^ 2))) < ob (fixedU [[0]]) /\
  exists U Ja, pl_optimize 1 (fun _ _ => Some tt) (fun _ => false) step fixedU ob (/ 10) [[0]] = Some (U, Ja) /\ U = [[/ 100]].
Proof. exact progress_case. Qed.

Example C78_svd_case : svd_post 2 [[0; 3]] [[0; 1]] [3] [[1]] /\ forall u d, In u [[1; 0]] -> In d [[0; 3]] -> dot u d = 0.
Proof. exact ex_svd. Qed.

Theorem C78_linearization_refuted : exists us J alpha ups Jp alphap y, length ups = length us /\ sq (length us) J /\ msym (length us) J /\ sq (length us) Jp /\ msym (length us) Jp /\
  (forall u d, In u us -> In d ups -> dot u d = 0) /\ pl_lin us J alpha ups Jp alphap y = 0 /\ derivable_pt_lim (pl_path us J alpha ups Jp alphap y) 0 2.
Proof. exact pl_lin_refuted. Qed.
Print Assumptions C78_linearization_refuted.

Theorem C78_epsilon_refuted : exists X fX us, Forall (dimP 1) X /\ onb 1 us /\ sdp_H 1 X fX [] 1 [[0]] /\
  forall J alpha, pl_feasible 1 us X fX [] 1 J alpha -> 1 <= pl_obj 1 1 (J, alpha).
Proof. exact pl_epsilon_refuted. Qed.
Print Assumptions C78_epsilon_refuted.

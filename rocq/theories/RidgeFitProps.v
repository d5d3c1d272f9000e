(** Generated by tools/mkprops.py from tools/props/RidgeFitProps.spec: the property theorems. *)
Require Import Reals List Bool Arith ZArith ZArith.
From Verif Require Import RVec Num Sums DomModel DomMoreModel SweepProofs HullProofs HullIneqProofs Deriv MatLib SpecProofs BasisModel IndexProofs PolyProofs LipModel LipFitProofs GrassLib SubModel ActiveProofs RidgeModel RidgeProofs TrajProofs PolySpan VarproLib VarproProofs GnStep VarproCases RidgeFitProofs RidgeAffine RidgeFinish FinishCases RidgeFitCases RidgeDim.
Import ListNotations.
Local Open Scope R_scope.

Local Open Scope R_scope.

(** C60: bounds *)
Theorem C60_ridge_bound : forall B us p bd X f c, coef_returns p bd (length (indices B)) (vp_V B us X) f c -> length f = length X ->
  (bd = Lower -> forall i, (i < length X)%nat -> ridge_eval B c us (nth i X []) <= vget f i) /\
  (bd = Upper -> forall i, (i < length X)%nat -> vget f i <= ridge_eval B c us (nth i X [])) /\
  (forall c', length c' = length (indices B) ->
     (bd = Lower -> forall i, (i < length X)%nat -> ridge_eval B c' us (nth i X []) <= vget f i) ->
     (bd = Upper -> forall i, (i < length X)%nat -> vget f i <= ridge_eval B c' us (nth i X [])) ->
     fit_obj p (vsub (map (ridge_eval B c us) X) f) <= fit_obj p (vsub (map (ridge_eval B c' us) X) f)).
Proof. exact ridge_coef_bound. Qed.
Print Assumptions C60_ridge_bound.

Theorem C60_affine_side : forall p bd m X f b, Forall (fun x => length x = m) X -> length f = length X -> aff_b_returns p bd m X f b ->
  exists g e, best_affine p (opposite bd) m X (aff_f f) g e /\ aff_U m X b = vscale (/ norm2 g) g.
Proof. exact affine_fit_spec. Qed.
Print Assumptions C60_affine_side.

Theorem C60_affine_bound_refuted : exists m X f b, Forall (fun x => length x = m) X /\ length f = length X /\ aff_b_returns N2 Lower m X f b /\ aff_U m X b = [0; 1] /\
  (exists g e, best_affine N2 Lower m X f g e) /\ forall g e, best_affine N2 Lower m X f g e -> g = [1; 0].
Proof. exact affine_bound_refuted. Qed.
Print Assumptions C60_affine_bound_refuted.

Example C60_case : coef_returns Ninf Lower (length (indices exB)) (vp_V exB [[1; 0]] exX) [-1; 1; 1; -1] [-1; 0].
Proof. exact coef_case. Qed.

(** C92: _finish *)
Theorem C92_unique : forall B B' m n n' us us' X f c c', basis_ok B n -> basis_ok B' n' -> tb_deg B' = tb_deg B -> length us = n -> length us' = n' -> Forall (fun u => length u = m) us -> Forall (fun u => length u = m) us' ->
  same_span m us us' -> Forall (fun x => length x = m) X -> length f = length X -> injective_V B us X -> ls_opt (length (indices B)) (vp_V B us X) f c -> ls_opt (length (indices B')) (vp_V B' us' X) f c' ->
  forall x, length x = m -> ridge_eval B c us x = ridge_eval B' c' us' x.
Proof. exact ridge_fit_unique. Qed.
Print Assumptions C92_unique.

Theorem C92_finish : forall fitc svd1 d m X f us us1, finish_pre fitc svd1 m X us us1 -> Forall (fun x => length x = m) X -> length f = length X -> fit_contract d m X f us fitc -> injective_V (fst (fitc us)) us X ->
  let r := finish fitc svd1 m true X us in
  length (fst r) = length us /\ Forall (fun u => length u = m) (fst r) /\ orthonormal (fst r) /\ same_span m us (fst r) /\
  forall x, length x = m -> ridge_eval (fst (snd r)) (snd (snd r)) (fst r) x = ridge_eval (fst (fitc us)) (snd (fitc us)) us x.
Proof. exact finish_correct. Qed.
Print Assumptions C92_finish.

Theorem C92_slope : forall fitc svd1 d m X f u, finish_pre fitc svd1 m X [u] [u] -> Forall (fun x => length x = m) X -> length f = length X -> fit_contract d m X f [u] fitc -> injective_V (fst (fitc [u])) [u] X ->
  let r := finish fitc svd1 m true X [u] in 0 < profile_slopes (fst (snd r)) (snd (snd r)) (map (mv (fst r)) X) 0.
Proof. exact finish_slope. Qed.
Print Assumptions C92_slope.

Theorem C92_stale_refuted : exists d m X f us svd1, (exists fitc, fit_contract d m X f us fitc) /\ forall fitc, fit_contract d m X f us fitc ->
  finish_pre fitc svd1 m X us (map (lincomb m us) (svd1 [])) /\
  left_sv (length us) (map (poly_grad (fst (fitc us)) (snd (fitc us))) (map (mv us) X)) (svd1 (map (poly_grad (fst (fitc us)) (snd (fitc us))) (map (mv us) X))) /\
  let r := finish fitc svd1 m true X us in
  forall k, (k < length us)%nat -> profile_slopes (fst (snd r)) (snd (snd r)) (map (mv (fst r)) X) k < 0.
Proof. exact finish_stale_refuted. Qed.
Print Assumptions C92_stale_refuted.

Theorem C92_zero_slope_refuted : exists d m X f us, (exists fitc, fit_contract d m X f us fitc /\ injective_V (fst (fitc us)) us X) /\ Forall (fun u => length u = m) us /\ orthonormal us /\
  forall fitc svd1, fit_contract d m X f us fitc -> fst (finish fitc svd1 m true X us) = [vzero m].
Proof. exact finish_zero_refuted. Qed.
Print Assumptions C92_zero_slope_refuted.

Example C92_case : exists fitc svd1 d m X f us us1, (1 < length us)%nat /\ finish_pre fitc svd1 m X us us1 /\ Forall (fun x : vec => length x = m) X /\ length f = length X /\ fit_contract d m X f us fitc /\ injective_V (fst (fitc us)) us X.
Proof. exact finish_case. Qed.

Example C92_slope_case : exists fitc svd1 d m X f u, finish_pre fitc svd1 m X [u] [u] /\ Forall (fun x => length x = m) X /\ length f = length X /\ fit_contract d m X f [u] fitc /\ injective_V (fst (fitc [u])) [u] X /\
  fst (finish fitc svd1 m true X [u]) = [vscale (-1) u].
Proof. exact finish_slope_case. Qed.

(** C93: alternating fit *)
Theorem C93_jacobian : forall B m n us ds X f c dc a, fam_ok (tb_fam B) -> tb_dim B = n -> (1 <= n)%nat -> length us = n -> length ds = n -> Forall (fun u => length u = m) us -> Forall (fun u => length u = m) ds -> Forall (fun x => length x = m) X ->
  length f = length X -> length c = length (indices B) -> length dc = length (indices B) -> (a < length X)%nat ->
  derivable_pt_lim (fun t => vget (pr_residual B (line us ds t) X f (vadd c (vscale t dc))) a) 0 (vget (lincomb (length X) (pr_jac B us m X c) (flat m ds ++ dc)) a).
Proof. exact pr_jac_correct. Qed.
Print Assumptions C93_jacobian.

Theorem C93_constraints_one : forall m u p, length u = m -> (m <= length p)%nat -> pr_constraints m [u] p <-> tangent [u] (unflat m 1 p).
Proof. exact constraints_one. Qed.
Print Assumptions C93_constraints_one.

Theorem C93_constraints_refuted : exists m us p q, orthonormal us /\ Forall (fun u => length u = m) us /\ length p = (m * 2)%nat /\ length q = (m * 2)%nat /\
  tangent us (unflat m 2 p) /\ ~ pr_constraints m us p /\ pr_constraints m us q /\ ~ tangent us (unflat m 2 q).
Proof. exact constraints_refuted. Qed.
Print Assumptions C93_constraints_refuted.

Example C93_case : fam_ok (tb_fam fB) /\ tb_dim fB = 2%nat /\ length fE = 2%nat /\ Forall (fun u : vec => length u = 2%nat) fE /\ Forall (fun x : vec => length x = 2%nat) fX /\ length (map fq fX) = length fX /\ length [0; 0; 0; 1; 0; 2] = length (indices fB).
Proof. exact pr_jac_case. Qed.

Example C93_constraints_case : pr_constraints 3 [[1; 0; 0]] [0; 2; 3] /\ ~ pr_constraints 3 [[1; 0; 0]] [1; 2; 3].
Proof. exact constraints_case. Qed.

(** C95: number of samples *)
Theorem C95_count : forall m n d, (true_n_param m n d <= pr_n_param m n d)%Z /\ (pr_n_param m n d = true_n_param m n d <-> (n <= 1)%nat).
Proof. exact n_param_count. Qed.
Print Assumptions C95_count.

Theorem C95_enough_rows : forall m n d M, (2 <= d)%nat -> pr_enough m n d M = true -> (m * n <= M)%nat.
Proof. exact enough_for_svd. Qed.
Print Assumptions C95_enough_rows.

Theorem C95_count_refuted : exists m n d M, (n < m)%nat /\ (true_n_param m n d <= Z.of_nat M)%Z /\ pr_enough m n d M = false.
Proof. exact n_param_refuted. Qed.
Print Assumptions C95_count_refuted.

Theorem C95_dimension : forall m d n f, (1 <= n)%nat -> is_ridge m d n f -> is_ridge m d (pr_dim d n) f.
Proof. exact pr_dim_enough. Qed.
Print Assumptions C95_dimension.

Theorem C95_dimension_least : forall m d n, (1 <= n <= m)%nat -> exists f, is_ridge m d n f /\ forall k, (k < pr_dim d n)%nat -> ~ is_ridge m d k f.
Proof. exact pr_dim_least. Qed.
Print Assumptions C95_dimension_least.

Example C95_case : pr_enough 3 2 2 9 = true /\ pr_enough 3 1 2 5 = true /\ pr_enough 3 1 2 4 = false.
Proof. exact n_param_case. Qed.

Example C95_dimension_case : pr_dim 1 3 = 1%nat /\ pr_dim 2 3 = 3%nat /\ pr_dim 0 3 = 0%nat /\ is_ridge 3 1 3 (fun x => 5 + dot [1; 2; 3] x) /\ is_ridge 3 1 1 (fun x => 5 + dot [1; 2; 3] x).
Proof. exact pr_dim_case. Qed.

(** C96: fixed subspace *)
Theorem C96_jacobian : forall (basis : list vec -> tbasis) (coef : list vec -> vec) m uf uc us ds X f ys s zs a,
  let nf := length uf in let n := length us in let J := fun t => pv_join m uf uc (line us ds t) in
  length ds = n -> Forall (fun u => length u = m) uf -> Forall (fun u => length u = m) uc -> Forall (fun u => length u = length uc) us -> Forall (fun u => length u = length uc) ds -> Forall (fun x => length x = m) X -> length f = length X -> (a < length X)%nat ->
  near (fun t => basis_ok (basis (J t)) (nf + n) /\ tb_deg (basis (J t)) = tb_deg (basis (J 0)) /\ ls_opt (length (indices (basis (J t)))) (vp_V (basis (J t)) (J t) X) f (coef (J t))) ->
  svd_mat (length X) (length (indices (basis (J 0)))) (vp_V (basis (J 0)) (J 0) X) ys s zs -> (forall k, (k < length s)%nat -> vget s k <> 0) ->
  derivable_pt_lim (fun t => vget (vp_residual (vp_V (basis (J t)) (J t) X) f (coef (J t))) a) 0
    (dot (pv_jac_row m nf n uc (map (fun col => vget col a) (vp_jac (basis (J 0)) (J 0) m X ys s zs (coef (J 0)) (vp_residual (vp_V (basis (J 0)) (J 0) X) f (coef (J 0)))))) (flat (length uc) ds)).
Proof. exact fixed_jacobian_correct. Qed.
Print Assumptions C96_jacobian.

Theorem C96_join : forall m uf uc us, Forall (fun u => length u = m) uf -> Forall (fun u => length u = m) uc -> orthonormal (uf ++ uc) -> Forall (fun u => length u = length uc) us -> orthonormal us ->
  orthonormal (pv_join m uf uc us) /\ (forall x, spans m uf x -> spans m (pv_join m uf uc us) x).
Proof. exact fixed_join. Qed.
Print Assumptions C96_join.

Theorem C96_vector_init_raises : forall X f v, length (arows X) <> 1%nat -> In v (pv_values f) -> check_sample_inputs (Some X) (Some v) None = None.
Proof. exact vector_init_raises. Qed.
Print Assumptions C96_vector_init_raises.

Example C96_case : let J := fun t => pv_join 3 hUf hUc (line [[1; 0]] [[0; 1]] t) in
  orthonormal (hUf ++ hUc) /\ near (fun t => basis_ok hB (length hUf + 1) /\ tb_deg hB = tb_deg hB /\ ls_opt (length (indices hB)) (vp_V hB (J t) hX) hF (hC (J t))) /\
  svd_mat (length hX) (length (indices hB)) (vp_V hB (J 0) hX) hY hS hZ /\ (forall k, (k < length hS)%nat -> vget hS k <> 0) /\
  vget (vp_residual (vp_V hB (J 0) hX) hF (hC (J 0))) 3 = 4.
Proof. exact fixed_case. Qed.

Example C96_vector_init_case : pv_values [1; 2; 3] = [[1]; [2]; [3]] /\ check_sample_inputs (Some (mkArr 2 [[0; 0]; [1; 0]; [0; 1]])) (Some [1; 2; 3]) None <> None /\ check_sample_inputs (Some (mkArr 2 [[0; 0]; [1; 0]; [0; 1]])) (Some [1]) None = None.
Proof. exact vector_init_case. Qed.

(** C97: affine initialization *)
Theorem C97_exact : forall p bd m X a b0 b, Forall (fun x => length x = m) X -> length a = m -> (exists k, vget a k <> 0) ->
  (forall v d, length v = m -> (forall x, In x X -> dot v x + d = 0) -> v = vzero m) ->
  aff_b_returns p bd m X (affine a b0 X) b -> aff_U m X b = vscale (/ norm2 a) a.
Proof. exact affine_exact. Qed.
Print Assumptions C97_exact.

Example C97_case : exists m X a b0 b, Forall (fun x => length x = m) X /\ length a = m /\ (exists k, vget a k <> 0) /\ (forall v d, length v = m -> (forall x, In x X -> dot v x + d = 0) -> v = vzero m) /\ aff_b_returns Ninf Upper m X (affine a b0 X) b /\ aff_U m X b = [3/5; -4/5].
Proof. exact affine_case. Qed.

(** Generated by tools/mkprops.py from tools/props/VarVecProps.spec: the property theorems. *)
Require Import Reals List Bool Arith ZArith.
From Verif Require Import RVec Sums Num DomModel DomMoreModel SweepProofs HullProofs Deriv BasisModel IndexProofs PolyProofs MatLib SpecProofs GrassLib LipModel RidgeModel RidgeProofs SubModel TrajProofs PolySpan VarproLib VarproProofs GnStep RidgeFitProofs ArnoldiProofs ArnoldiMoreProofs PolyfitModel PolyfitProofs LsqAlg VarproCases RidgeFitCases VarAffine VarArnModel VarArnProofs VarArnDeriv VarArnMain VarArnCases VarVecModel VarVecProofs VarVecMain VarVecStep VarVecInst VarVecRank VarVecCases.
Import ListNotations.
Local Open Scope R_scope.

Local Open Scope R_scope.

(** C136: several outputs *)
Theorem C136_best : forall N V fs cs cs', ls_all N V fs cs -> length cs' = length fs -> Forall (fun c => length c = N) cs' -> norm2 (vv_residual V fs cs) <= norm2 (vv_residual V fs cs').
Proof. exact vec_best. Qed.
Print Assumptions C136_best.

Example C136_residual_case : ls_all (length (indices exB)) (vp_V exB [[1; 0]] exX) exFs (exCs [[1; 0]]) /\ vv_residual (vp_V exB [[1; 0]] exX) exFs (exCs [[1; 0]]) = [4; 4; -4; -4; 1; -1; -1; 1] /\
  vv_residual (vp_V exB [[1; 0]] exX) exFs (exCs [[1; 0]]) <> vv_residual (vp_V exB [[1; 0]] exX) exFs [[0; 3]; [0; 0]] /\ same_span 2 [[1; 0]] [[1; 0]].
Proof. exact vec_residual_case. Qed.

Theorem C136_subspace : forall B B' m n n' us us' X fs cs cs', basis_ok B n -> basis_ok B' n' -> tb_deg B' = tb_deg B -> length us = n -> length us' = n' -> Forall (fun u => length u = m) us -> Forall (fun u => length u = m) us' ->
  Forall (fun x => length x = m) X -> Forall (fun f => length f = length X) fs -> same_span m us us' -> ls_all (length (indices B)) (vp_V B us X) fs cs -> ls_all (length (indices B')) (vp_V B' us' X) fs cs' ->
  vv_residual (vp_V B us X) fs cs = vv_residual (vp_V B' us' X) fs cs'.
Proof. exact vec_subspace. Qed.
Print Assumptions C136_subspace.

Example C136_subspace_case : same_span 2 [[1; 0]] [[-1; 0]] /\ ls_all (length (indices exB)) (vp_V exB [[1; 0]] exX) exFs (exCs [[1; 0]]) /\ ls_all (length (indices exB)) (vp_V exB [[-1; 0]] exX) exFs [[0; -3]; [0; -12]] /\
  vv_residual (vp_V exB [[1; 0]] exX) exFs (exCs [[1; 0]]) <> vzero 8.
Proof. exact vec_subspace_case. Qed.

Theorem C136_jacobian : forall (basis : list vec -> tbasis) (coefs : list vec -> list vec) m us ds X fs ys s zs,
  length ds = length us -> Forall (fun u => length u = m) us -> Forall (fun u => length u = m) ds -> Forall (fun x => length x = m) X -> Forall (fun f => length f = length X) fs ->
  near (fun t => let U := line us ds t in basis_ok (basis U) (length us) /\ tb_deg (basis U) = tb_deg (basis us) /\ ls_all (length (indices (basis U))) (vp_V (basis U) U X) fs (coefs U)) ->
  svd_mat (length X) (length (indices (basis us))) (vp_V (basis us) us X) ys s zs -> (forall k, (k < length s)%nat -> vget s k <> 0) ->
  jac_dir (length fs * length X) m (fun U => vv_residual (vp_V (basis U) U X) fs (coefs U)) us ds (vv_jac (basis us) us m X ys s zs fs (coefs us)).
Proof. exact vec_jacobian. Qed.
Print Assumptions C136_jacobian.

Example C136_jacobian_case : near (fun t => let U := line [[1; 0]] [[0; 1]] t in basis_ok exB 1 /\ tb_deg exB = tb_deg exB /\ ls_all (length (indices exB)) (vp_V exB U exX) exFs (exCs U)) /\
  svd_mat (length exX) (length (indices exB)) (vp_V exB [[1; 0]] exX) exY exS exZ /\ (forall k, (k < length exS)%nat -> vget exS k <> 0) /\
  vv_jac exB [[1; 0]] 2 exX exY exS exZ exFs (exCs [[1; 0]]) = exJv /\ derivable_pt_lim (fun t => vget (vv_residual (vp_V exB (line [[1; 0]] [[0; 1]] t) exX) exFs (exCs (line [[1; 0]] [[0; 1]] t))) 4) 0 (-12).
Proof. exact vec_jacobian_case. Qed.

Theorem C136_kernel : forall B m us ds X fs cs ys s zs, basis_ok B (length us) -> Forall (fun u => length u = m) us -> Forall (fun x => length x = m) X -> Forall (fun f => length f = length X) fs -> within m us ds ->
  svd_mat (length X) (length (indices B)) (vp_V B us X) ys s zs -> ls_all (length (indices B)) (vp_V B us X) fs cs ->
  lincomb (length fs * length X) (vv_jac B us m X ys s zs fs cs) (flat m ds) = vzero (length fs * length X).
Proof. exact vec_kernel. Qed.
Print Assumptions C136_kernel.

Theorem C136_arnoldi_residual : forall p m us X fs B' n' us' cs', (forall f, In f fs -> va_pre p m us X f) -> basis_ok B' n' -> tb_deg B' = p -> length us' = n' -> Forall (fun u => length u = m) us' -> same_span m us us' ->
  ls_all (length (indices B')) (vp_V B' us' X) fs cs' -> va_vec_residual p us X fs = Some (vv_residual (vp_V B' us' X) fs cs').
Proof. exact arn_vec_same. Qed.
Print Assumptions C136_arnoldi_residual.

Theorem C136_arnoldi_jacobian : forall p m us X fs, (forall f, In f fs -> va_pre p m us X f) ->
  exists J, va_vec_jac p m us X fs = Some J /\ forall ds, length ds = length us -> Forall (fun u => length u = m) ds -> jac_dir (length fs * length X) m (fun U => getv (va_vec_residual p U X fs)) us ds J.
Proof. exact arn_vec_jacobian. Qed.
Print Assumptions C136_arnoldi_jacobian.

Theorem C136_arnoldi_same_jacobian : forall p m us X fs B ys s zs cs, (forall f, In f fs -> va_pre p m us X f) -> basis_ok B (length us) -> tb_deg B = p ->
  svd_mat (length X) (length (indices B)) (vp_V B us X) ys s zs -> (forall k, (k < length s)%nat -> vget s k <> 0) -> ls_all (length (indices B)) (vp_V B us X) fs cs ->
  va_vec_jac p m us X fs = Some (vv_jac B us m X ys s zs fs cs).
Proof. exact arn_vec_same_jacobian. Qed.
Print Assumptions C136_arnoldi_same_jacobian.

Theorem C136_arnoldi_kernel : forall p m us X fs ds, (forall f, In f fs -> va_pre p m us X f) -> within m us ds -> exists J, va_vec_jac p m us X fs = Some J /\ lincomb (length fs * length X) J (flat m ds) = vzero (length fs * length X).
Proof. exact arn_vec_kernel. Qed.
Print Assumptions C136_arnoldi_kernel.

Example C136_arnoldi_case : (forall f, In f exFs -> va_pre 1 2 [[1; 0]] exX f) /\ va_vec_residual 1 [[1; 0]] exX exFs = Some [4; 4; -4; -4; 1; -1; -1; 1] /\ va_vec_jac 1 2 [[1; 0]] exX exFs = Some exJv /\ within 2 [[1; 0]] [[5; 0]] /\ ~ within 2 [[1; 0]] [[0; 1]].
Proof. exact arn_vec_case. Qed.

Theorem C136_step : forall B m us X fs cs ys s zs yJ sJ zJ, vv_pre B m us X fs cs ys s zs -> orthonormal us ->
  let r := vv_residual (vp_V B us X) fs cs in let J := vv_jac B us m X ys s zs fs cs in
  gn_svd (length fs * length X) (length us) J yJ sJ zJ -> good_step (length fs * length X) m us J r (gn_solve (m * length us) (length us) yJ sJ zJ r).
Proof. exact vec_step. Qed.
Print Assumptions C136_step.

Theorem C136_arnoldi_step : forall p m us X fs yJ sJ zJ, fs <> [] -> (forall f, In f fs -> va_pre p m us X f) -> orthonormal us ->
  exists r J, va_vec_residual p us X fs = Some r /\ va_vec_jac p m us X fs = Some J /\
  (gn_svd (length fs * length X) (length us) J yJ sJ zJ -> good_step (length fs * length X) m us J r (gn_solve (m * length us) (length us) yJ sJ zJ r)).
Proof. exact arn_vec_step. Qed.
Print Assumptions C136_arnoldi_step.

Example C136_step_case : vv_pre exB 2 [[1; 0]] exX exFs (exCs [[1; 0]]) exY exS exZ /\ orthonormal [[1; 0]] /\ vv_jac exB [[1; 0]] 2 exX exY exS exZ exFs (exCs [[1; 0]]) = exJv /\ va_vec_jac 1 2 [[1; 0]] exX exFs = Some exJv /\ gn_svd 8 1 exJv exYv exSv exZv /\
  gn_solve (2 * 1) 1 exYv exSv exZv (vv_residual (vp_V exB [[1; 0]] exX) exFs (exCs [[1; 0]])) = [0; 12/169].
Proof. exact vec_step_case. Qed.

Theorem C136_fixed_jacobian : forall (basis : list vec -> tbasis) (coefs : list vec -> list vec) m uf uc us ds X fs ys s zs, let U0 := pv_join m uf uc us in
  Forall (fun u => length u = m) uf -> Forall (fun u => length u = m) uc -> Forall (fun u => length u = length uc) us -> length ds = length us -> Forall (fun u => length u = length uc) ds -> Forall (fun x => length x = m) X -> Forall (fun f => length f = length X) fs ->
  near (fun t => let U := pv_join m uf uc (line us ds t) in basis_ok (basis U) (length uf + length us) /\ tb_deg (basis U) = tb_deg (basis U0) /\ ls_all (length (indices (basis U))) (vp_V (basis U) U X) fs (coefs U)) ->
  svd_mat (length X) (length (indices (basis U0))) (vp_V (basis U0) U0 X) ys s zs -> (forall k, (k < length s)%nat -> vget s k <> 0) ->
  jac_dir (length fs * length X) (length uc) (fun V => let U := pv_join m uf uc V in vv_residual (vp_V (basis U) U X) fs (coefs U)) us ds
    (pv_fixed (length fs * length X) m (length uf) (length us) uc (vv_jac (basis U0) U0 m X ys s zs fs (coefs U0))).
Proof. exact vec_fixed_jacobian. Qed.
Print Assumptions C136_fixed_jacobian.

Theorem C136_fixed_step : forall B m uf uc us X fs cs ys s zs yJ sJ zJ, let U := pv_join m uf uc us in (1 <= length us)%nat -> Forall (fun u => length u = m) uf -> Forall (fun u => length u = m) uc -> Forall (fun u => length u = length uc) us -> orthonormal us ->
  vv_pre B m U X fs cs ys s zs -> let r := vv_residual (vp_V B U X) fs cs in let J := pv_fixed (length fs * length X) m (length uf) (length us) uc (vv_jac B U m X ys s zs fs cs) in
  gn_svd (length fs * length X) (length us) J yJ sJ zJ -> good_step (length fs * length X) (length uc) us J r (gn_solve (length uc * length us) (length us) yJ sJ zJ r).
Proof. exact vec_fixed_step. Qed.
Print Assumptions C136_fixed_step.

Example C136_fixed_case : let U := fun t => pv_join 3 hUf hUc (line [[1; 0]] [[0; 1]] t) in let J := vv_jac hB (pv_join 3 hUf hUc [[1; 0]]) 3 hX hY hS hZ hFs (hCs (pv_join 3 hUf hUc [[1; 0]])) in
  near (fun t => basis_ok hB (length hUf + 1) /\ tb_deg hB = tb_deg hB /\ ls_all (length (indices hB)) (vp_V hB (U t) hX) hFs (hCs (U t))) /\ (forall k, (k < length hS)%nat -> vget hS k <> 0) /\
  vv_pre hB 3 (pv_join 3 hUf hUc [[1; 0]]) hX hFs (hCs (pv_join 3 hUf hUc [[1; 0]])) hY hS hZ /\ pv_fixed 8 3 (length hUf) 1 hUc J = hJf /\ gn_svd 8 1 hJf hYv exSv exZv /\
  gn_solve (2 * 1) 1 hYv exSv exZv (vv_residual (vp_V hB (pv_join 3 hUf hUc [[1; 0]]) hX) hFs (hCs (pv_join 3 hUf hUc [[1; 0]]))) = [0; 12/169].
Proof. exact vec_fixed_case. Qed.

Theorem C136_arnoldi_fixed_jacobian : forall p m uf uc us X fs, Forall (fun u => length u = m) uf -> Forall (fun u => length u = m) uc -> Forall (fun u => length u = length uc) us -> (forall f, In f fs -> va_pre p m (pv_join m uf uc us) X f) ->
  exists J, va_vec_jac p m (pv_join m uf uc us) X fs = Some J /\ forall ds, length ds = length us -> Forall (fun u => length u = length uc) ds ->
    jac_dir (length fs * length X) (length uc) (fun V => getv (va_vec_residual p (pv_join m uf uc V) X fs)) us ds (pv_fixed (length fs * length X) m (length uf) (length us) uc J).
Proof. exact arn_fixed_jacobian. Qed.
Print Assumptions C136_arnoldi_fixed_jacobian.

Theorem C136_arnoldi_fixed_step : forall p m uf uc us X fs yJ sJ zJ, let U := pv_join m uf uc us in (1 <= length us)%nat -> Forall (fun u => length u = m) uf -> Forall (fun u => length u = m) uc -> Forall (fun u => length u = length uc) us -> orthonormal us ->
  (forall f, In f fs -> va_pre p m U X f) -> exists r J, va_vec_residual p U X fs = Some r /\ va_vec_jac p m U X fs = Some J /\
  let JJ := pv_fixed (length fs * length X) m (length uf) (length us) uc J in
  (gn_svd (length fs * length X) (length us) JJ yJ sJ zJ -> good_step (length fs * length X) (length uc) us JJ r (gn_solve (length uc * length us) (length us) yJ sJ zJ r)).
Proof. exact arn_fixed_step. Qed.
Print Assumptions C136_arnoldi_fixed_step.

Example C136_arnoldi_fixed_case : (forall f, In f hFs -> va_pre 1 3 (pv_join 3 hUf hUc [[1; 0]]) hX f) /\ orthonormal [[1; 0]] /\ exists J, va_vec_jac 1 3 (pv_join 3 hUf hUc [[1; 0]]) hX hFs = Some J /\ pv_fixed 8 3 (length hUf) 1 hUc J = hJf /\ gn_svd 8 1 (pv_fixed 8 3 (length hUf) 1 hUc J) hYv exSv exZv.
Proof. exact arn_fixed_case. Qed.

Theorem C136_rank : forall B m us X fs cs ys s zs yJ sJ zJ, vv_pre B m us X fs cs ys s zs -> aff_indep us X -> svd_thin (length fs * length X) (vv_jac B us m X ys s zs fs cs) yJ sJ zJ ->
  forall i, (length us * (length X - (length us + 1)) <= i < length sJ)%nat -> vget sJ i = 0.
Proof. exact vec_rank. Qed.
Print Assumptions C136_rank.

Theorem C136_few_samples : forall B m us X fs cs ys s zs yJ sJ zJ, vv_pre B m us X fs cs ys s zs -> aff_indep us X -> svd_thin (length fs * length X) (vv_jac B us m X ys s zs fs cs) yJ sJ zJ ->
  (length X <= m)%nat -> (length us < m)%nat -> length sJ = (m * length us)%nat -> exists i, (i < gn_keep (length us) sJ)%nat /\ vget sJ i = 0.
Proof. exact vec_few_samples. Qed.
Print Assumptions C136_few_samples.

Example C136_rank_case : vv_pre exB 4 fwU fwX [exF] [exC [[1; 0]]] exY exS exZ /\ aff_indep fwU fwX /\ svd_thin (length [exF] * length fwX) (vv_jac exB fwU 4 fwX exY exS exZ [exF] [exC [[1; 0]]]) fwY fwS fwZ /\
  (length fwU * (length fwX - (length fwU + 1)) = 2)%nat /\ vget fwS 1 <> 0 /\ vget fwS 2 = 0 /\ gn_keep (length fwU) fwS = 3%nat.
Proof. exact vec_rank_case. Qed.

Example C136_few_case : (length fwX <= 4)%nat /\ (length fwU < 4)%nat /\ length fwS = (4 * length fwU)%nat.
Proof. exact vec_few_case. Qed.

Theorem C136_arnoldi_rank : forall p m us X fs yJ sJ zJ, fs <> [] -> (forall f, In f fs -> va_pre p m us X f) -> aff_indep us X -> exists J, va_vec_jac p m us X fs = Some J /\
  (svd_thin (length fs * length X) J yJ sJ zJ -> forall i, (length us * (length X - (length us + 1)) <= i < length sJ)%nat -> vget sJ i = 0).
Proof. exact arn_vec_rank. Qed.
Print Assumptions C136_arnoldi_rank.

Example C136_arnoldi_rank_case : (forall f, In f [exF] -> va_pre 1 4 fwU fwX f) /\ aff_indep fwU fwX /\ va_vec_jac 1 4 fwU fwX [exF] = Some fwJv /\ svd_thin (length [exF] * length fwX) fwJv fwY fwS fwZ.
Proof. exact arn_rank_case. Qed.

Theorem C136_divides_refuted : exists B m us X fs cs ys s zs yJ sJ zJ, vv_pre B m us X fs cs ys s zs /\ (forall k, (k < length s)%nat -> vget s k <> 0) /\ orthonormal us /\ aff_indep us X /\
  svd_thin (length fs * length X) (vv_jac B us m X ys s zs fs cs) yJ sJ zJ /\ length sJ = (m * length us)%nat /\ (exists i, (i < gn_keep (length us) sJ)%nat /\ vget sJ i = 0) /\ vv_residual (vp_V B us X) fs cs <> vzero (length fs * length X).
Proof. exact vec_divides_refuted. Qed.
Print Assumptions C136_divides_refuted.

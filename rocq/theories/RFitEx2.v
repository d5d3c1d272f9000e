(** Concrete runs of PolynomialRidgeApproximation.fit: Gauss-Newton, the erased direction, the affine case, the square case. *)
Require Import Reals Lra Lia List Bool Arith ZArith.
From Verif Require Import RVec Num Sums DomModel DomMoreModel SweepProofs HullProofs HullIneqProofs Deriv ArnoldiMoreProofs BasisModel IndexProofs PolyProofs MatLib SpecProofs GrassLib LipModel LipFitProofs PartialProofs SubModel ActiveProofs RidgeModel RidgeProofs TrajProofs PolySpan VarproLib VarproProofs VarproCases GnStep RidgeFitProofs RidgeAffine RidgeFinish FinishCases OptModel OptProofs SeqProofs SolveFit RFitModel RFitProofs RFitMore RFitEx.
Import ListNotations.
Local Open Scope R_scope.

(* ---------- Euclidean norm: the data x1, one Gauss-Newton step from e2 to e1 ---------- *)
Lemma norm2_4 : forall a b c d, norm2 [a; b; c; d] = sqrt (a * a + b * b + c * c + d * d).
Proof. intros. unfold norm2, norm2sq. rewrite !dot_cons, !dot_nil_l. f_equal. ring. Qed.
Definition fit_two (us : list vec) : tbasis * vec := (gB, [0; vget (nth 0 us []) 0; 0]).
(** a Jacobian of rank one that is orthogonal to U; kap is chosen so that the first step has the length pi/2 *)
Definition kap : R := 2 / PI.
Lemma kap_pos : 0 < kap. Proof. unfold kap. pose proof PI_RGT_0. apply Rmult_lt_0_compat; [lra|apply Rinv_0_lt_compat; auto]. Qed.
Definition ex_jac (x : vec) : mat := [[- kap * vget x 1; kap * vget x 0]; [0; 0]; [0; 0]; [0; 0]].
Definition ex_svdJ (A : mat) : list vec * vec * list vec :=
  let p := vget (nth 0 A []) 0 / kap in let q := vget (nth 0 A []) 1 / kap in ([[1; 0; 0; 0]; [0; 1; 0; 0]], [kap; 0], [[p; q]; [q; - p]]).
Lemma ex_jac_ok : forall us, good 2 1 us -> jac_ok 2 1 (length zX) us (ex_jac (flat 2 us)) (ex_svdJ (ex_jac (flat 2 us))).
Proof.
  intros us G. destruct (good1 us G) as [c [s [-> H]]]. pose proof kap_pos as K. replace (ex_jac (flat 2 [[c; s]])) with [[- kap * s; kap * c]; [0; 0]; [0; 0]; [0; 0]] by reflexivity.
  replace (ex_svdJ [[- kap * s; kap * c]; [0; 0]; [0; 0]; [0; 0]]) with ([[1; 0; 0; 0]; [0; 1; 0; 0]], [kap; 0], [[- s; c]; [c; s]]) by (unfold ex_svdJ, vget; cbn [nth]; apply f_equal2; [reflexivity|]; repeat (apply f_equal2; [repeat (apply f_equal2; [field; lra|]); reflexivity|]); reflexivity).
  split; [reflexivity|]. split; [repeat constructor|]. split.
  - intros ds [Ld W]. destruct (one_col ds Ld) as [e ->]. destruct (W e (or_introl eq_refl)) as [t [Lt Et]]. destruct t as [|t [|]]; try discriminate Lt. rewrite lincomb1 in Et by auto. subst e. unfold vscale. cbn [map]. replace (flat 2 [[t * c; t * s]]) with [t * c; t * s] by reflexivity.
    unfold mv. cbn [map]. rewrite !dot_cons, !dot_nil_l. unfold vzero. cbn [length zX repeat]. repeat (apply f_equal2; [ring|]). reflexivity.
  - cbn [fst snd]. unfold svd_mat, svd_post. rewrite cols_len. change (2 * 1)%nat with 2%nat. split; auto. split; [repeat constructor|]. split; [intros a b Ha Hb; two a; two b; cbn; rewrite !dot_cons, !dot_nil_l; ring|]. split; auto.
    split; [split; auto; split; [repeat constructor|]; intros a b Ha Hb; two a; two b; cbn; rewrite !dot_cons, !dot_nil_l; lra|].
    intros q Hq. two q; unfold cols, col, vget, lincomb, vmul, vadd, vscale; cbn; repeat (apply f_equal2; [ring|]); reflexivity.
Qed.
Lemma two_opt : forall c s k0 k1 k2, c * c + s * s = 1 -> norm2 (fit_residual (vp_V gB [[c; s]] zX) f1 [0; c; 0]) <= norm2 (fit_residual (vp_V gB [[c; s]] zX) f1 [k0; k1; k2]).
Proof.
  intros c s k0 k1 k2 H. unfold fit_residual. rewrite !ex_V. unfold f1, vsub. cbn [vmap2]. rewrite !norm2_4. apply sqrt_le_1_alt.
  set (t := k1 - c). replace k1 with (c + t) by (unfold t; ring). assert (Hs : s * s = 1 - c * c) by lra.
  match goal with |- ?a <= ?b => cut (0 <= b - a); [lra|] end. match goal with |- 0 <= ?e => replace e with (2 * (t * t) * (c * c + s * s) + 2 * (k0 + k2 * (c * c)) * (k0 + k2 * (c * c)) + 2 * (k0 + k2 * (s * s)) * (k0 + k2 * (s * s)) + 4 * t * (c * (c * c + s * s - 1))) by ring end. rewrite H.
  assert (0 <= t * t) by apply Rle_0_sqr. pose proof (Rle_0_sqr (k0 + k2 * (c * c))) as A. pose proof (Rle_0_sqr (k0 + k2 * (s * s))) as B. unfold Rsqr in A, B. lra.
Qed.
Definition E2 : fit_env := mkEnv fit_two [] [] ex_qr ex_svd (fun _ => [[1]]) ex_jac ex_svdJ (fun _ _ _ => LBad) false (1/10) (1/10) (1/10) 2 1.
Lemma E2_ok : env_ok E2 2 1 2 BasisModel.N2 NoBound zX f1.
Proof.
  split; [|split; [exact ex_qr_ok|split; [exact ex_svd_ok|split; [exact ex_svd1_ok|intros _; exact ex_jac_ok]]]]. intros us G. destruct (good1 us G) as [c [s [-> H]]]. split; [apply gB_ok|]. split; [reflexivity|]. split; [reflexivity|]. intros y Ly. change (length (indices (fst (e_fitc E2 [[c; s]])))) with 3%nat in Ly. destruct (fit_list3 y Ly) as [k0 [k1 [k2 ->]]].
  apply two_opt. auto.
Qed.
Lemma E2_res0 : vp_flat fit_two 2 1 zX f1 [0; 1] = [1; -1; 0; 0].
Proof. unfold vp_flat. change (unflat 2 1 [0; 1]) with [[0; 1]]. cbv zeta. unfold fit_two, vp_residual. cbn [fst snd nth]. unfold vget. cbn [nth]. rewrite ex_V. unfold f1, vsub. cbn. repeat (apply f_equal2; [ring|]). reflexivity. Qed.
Lemma E2_res1 : vp_flat fit_two 2 1 zX f1 [1; 0] = [0; 0; 0; 0].
Proof. unfold vp_flat. change (unflat 2 1 [1; 0]) with [[1; 0]]. cbv zeta. unfold fit_two, vp_residual. cbn [fst snd nth]. unfold vget. cbn [nth]. rewrite ex_V. unfold f1, vsub. cbn. repeat (apply f_equal2; [ring|]). reflexivity. Qed.
Lemma E2_dx : vp_gnsolver ex_svdJ 2 1 (ex_jac [0; 1]) [1; -1; 0; 0] = Some [PI / 2; 0].
Proof.
  pose proof kap_pos as K. unfold vp_gnsolver. replace (ex_svdJ (ex_jac [0; 1])) with ([[1; 0; 0; 0]; [0; 1; 0; 0]], [kap; 0], [[- (1); 0]; [0; 1]]) by (unfold ex_svdJ, ex_jac, vget; cbn [nth]; apply f_equal2; [reflexivity|]; repeat (apply f_equal2; [repeat (apply f_equal2; [field; lra|]); reflexivity|]); reflexivity).
  change (gn_keep 1 [kap; 0]) with 1%nat. cbn [Nat.eqb seq forallb]. unfold vget at 1. cbn [nth]. assert (Z : Reqb kap 0 = false) by (unfold Reqb; destruct (Req_EM_T kap 0); [lra|auto]). rewrite Z. cbn [negb andb]. f_equal. unfold gn_solve. change (gn_keep 1 [kap; 0]) with 1%nat. change (2 * 1)%nat with 2%nat. cbn [firstn seq map nth]. rewrite !dot_cons, !dot_nil_l. unfold vget. cbn [nth]. unfold lincomb, vadd, vscale. cbn. unfold kap. pose proof PI_RGT_0.
  repeat (apply f_equal2; [field; lra|]). reflexivity.
Qed.
Lemma E2_vp : fit_varpro E2 2 1 zX f1 v2 = Some gU.
Proof.
  pose proof kap_pos as K. pose proof PI_RGT_0 as PP. unfold fit_varpro, gauss_newton. cbn [e_fitc e_qr e_svd e_jac e_svdJ e_verbose e_tol e_tolx e_maxiter E2]. change (flat 2 v2) with [0; 1]. cbv zeta. cbn [gn_loop]. unfold gn_body. unfold gn_start at 1 2. cbv zeta. cbn [g_x g_f]. rewrite !E2_res0, E2_dx.
  assert (GR : tmv (2 * 1) (ex_jac [0; 1]) [1; -1; 0; 0] = [- kap; 0]) by (unfold tmv, ex_jac, lincomb, vadd, vscale, vget; cbn; repeat (apply f_equal2; [ring|]); reflexivity).
  unfold gn_start at 1 2 3 4 5 6 7. cbv zeta. cbn [g_x g_f g_grad]. rewrite !E2_res0, !GR. assert (DG : dot [- kap; 0] [PI / 2; 0] = -1) by (rewrite !dot_cons, !dot_nil_l; unfold kap; field; lra). rewrite DG. assert (R1 : Rleb 0 (-1) = false) by (apply Rleb_false; lra). rewrite R1.
  assert (LS : vp_ls E2 2 1 zX f1 [- kap; 0] [PI / 2; 0] [0; 1] = Some ([1; 0], 1, [0; 0; 0; 0])).
  { unfold vp_ls, linesearch_armijo. cbn [e_fitc e_qr e_svd E2]. rewrite DG. cbv zeta. assert (R2 : Rltb 0 (-1) = false) by (apply Rltb_false; lra). rewrite R2, E2_res0. cbn [armijo_loop]. change (unflat 2 1 [0; 1]) with v2. change (unflat 2 1 [PI / 2; 0]) with [[PI / 2; 0]].
    unfold pr_traj. pose proof ex_geo as G. destruct (ex_svd [[PI / 2; 0]]) as [[ys s] zs]. rewrite G, (ex_orth gU gU_good). change (flat 2 gU) with [1; 0]. rewrite E2_res1, !norm2_4.
    assert (R3 : Rltb (sqrt (0 * 0 + 0 * 0 + 0 * 0 + 0 * 0)) (sqrt (1 * 1 + -1 * -1 + 0 * 0 + 0 * 0) + 1 * / 10000 * -1) = true).
    { apply Rltb_true. replace (0 * 0 + 0 * 0 + 0 * 0 + 0 * 0) with 0 by ring. rewrite sqrt_0. replace (1 * 1 + -1 * -1 + 0 * 0 + 0 * 0) with 2 by ring. assert (1 <= sqrt 2) by (rewrite <- sqrt_1 at 1; apply sqrt_le_1_alt; lra). lra. }
    rewrite R3. reflexivity. }
  rewrite LS. assert (INC : Rleb (norm2 [1; -1; 0; 0]) (norm2 [0; 0; 0; 0]) = false) by (apply Rleb_false; rewrite !norm2_4; replace (0 * 0 + 0 * 0 + 0 * 0 + 0 * 0) with 0 by ring; rewrite sqrt_0; apply sqrt_lt_R0; lra). rewrite INC.
  repeat (unfold gn_start; cbv zeta; cbn [g_x g_f g_grad g_ng g_ndx g_fn]). rewrite ?E2_res0, ?GR, ?DG, ?R1, ?INC. cbn [g_x]. repeat match goal with |- context [if Rltb ?a ?b then _ else _] => destruct (Rltb a b) end; reflexivity.
Qed.
Example fit_case_two : env_ok E2 2 1 2 BasisModel.N2 NoBound zX f1 /\ is_two BasisModel.N2 NoBound = true /\ pr_fit E2 2 1 2 BasisModel.N2 NoBound true zX f1 (Some v2) = Fitted gU gB [0; 1; 0] /\ independent 2 (start E2 1 (Some v2)) /\ (forall u, In u gU -> u <> vzero 2) /\
  misfit BasisModel.N2 zX f1 (ridge_eval (fst (e_fitc E2 v2)) (snd (e_fitc E2 v2)) v2) = sqrt 2.
Proof.
  split; [apply E2_ok|]. split; auto. split; [|split; [apply v2_indep|split; [intros u [<-|[]] H; injection H; lra|]]].
  - unfold pr_fit. change (Nat.eqb (length zX) (length f1)) with true. change (pr_enough 2 1 2 (length zX)) with true. cbn [negb Nat.eqb andb]. change (Nat.eqb (length v2) 1 && forallb (fun u => Nat.eqb (length u) 2) v2)%bool with true. cbn [negb is_two]. cbn [e_qr E2]. rewrite (ex_orth v2 v2_good), E2_vp.
    cbn [e_fitc e_svd1 E2]. rewrite E1_finish; [reflexivity|intros; eexists; reflexivity|reflexivity].
  - unfold misfit. rewrite <- pr_residual_map. unfold fit_obj, pr_residual. cbn [e_fitc E2 fit_two fst snd]. unfold v2, vget. cbn [nth]. rewrite ex_V. unfold f1, vsub. cbn [vmap2]. rewrite norm2_4. f_equal. ring.
Qed.

(* ---------- the data x1^2: the perfect direction e1 is erased ---------- *)
Definition fit_sq (us : list vec) : tbasis * vec :=
  let c := vget (nth 0 us []) 0 in let s := vget (nth 0 us []) 1 in
  (gB, if Req_EM_T (c * c) (s * s) then [1 / 2; 0; 0] else [- (s * s) / (c * c - s * s); 0; / (c * c - s * s)]).
Definition E3 : fit_env := mkEnv fit_sq [] [] ex_qr ex_svd (fun _ => [[1]]) ex_jac ex_svdJ (fun _ _ _ => LBad) false (1/10) (1/10) (1/10) 2 2.
Lemma zf_vals : zf = [1; 1; 0; 0]. Proof. unfold zf, zX, gq, vget. cbn. repeat (apply f_equal2; [ring|]). reflexivity. Qed.
Lemma E3_ok : env_ok E3 2 1 2 Ninf NoBound zX zf.
Proof.
  split; [|split; [exact ex_qr_ok|split; [exact ex_svd_ok|split; [exact ex_svd1_ok|intro H; discriminate]]]]. intros us G. destruct (good1 us G) as [c [s [-> H]]]. split; [apply gB_ok|]. split; [reflexivity|]. cbn [e_fitc E3 fit_sq fst snd nth]. unfold vget. cbn [nth]. rewrite zf_vals.
  split; [destruct (Req_EM_T (c * c) (s * s)); reflexivity|]. intros y Ly. change (length (indices gB)) with 3%nat in Ly. destruct (fit_list3 y Ly) as [k0 [k1 [k2 ->]]]. unfold fit_obj. rewrite !vmax_abs. unfold fit_residual. destruct (Req_EM_T (c * c) (s * s)) as [Q|Q].
  - rewrite !ex_V. unfold vsub. cbn [vmap2 length]. set (k := cmax 4 [k0 + k1 * c + k2 * (c * c) - 1; _; _; _]). assert (K : k <= k) by lra. assert (K0 : 0 <= k) by apply cmax_nonneg. unfold k at 1 in K. apply four_abs in K; auto. destruct K as [A [B [C D]]].
    assert (HK : 1 / 2 <= k). { revert A B C D. rewrite Q. unfold Rabs. repeat destruct Rcase_abs; lra. } apply four_abs; [lra|]. replace (1 / 2 + 0 * c + 0 * (c * c) - 1) with (- (1 / 2)) by field. replace (1 / 2 - 0 * c + 0 * (c * c) - 1) with (- (1 / 2)) by field. replace (1 / 2 + 0 * s + 0 * (s * s) - 0) with (1 / 2) by field. replace (1 / 2 - 0 * s + 0 * (s * s) - 0) with (1 / 2) by field. rewrite Rabs_Ropp, Rabs_pos_eq by lra. lra.
  - assert (Z : c * c - s * s <> 0) by lra. replace (vsub (mv (vp_V gB [[c; s]] zX) [- (s * s) / (c * c - s * s); 0; / (c * c - s * s)]) [1; 1; 0; 0]) with (vzero 4).
    + rewrite <- vmax_abs. change (vmax (map Rabs (vzero 4))) with (fit_obj Ninf (vzero 4)). rewrite fit_obj_zero. apply cmax_nonneg.
    + rewrite ex_V. unfold vsub, vzero. cbn. repeat (apply f_equal2; [field; auto|]). reflexivity.
Qed.
Theorem fit_erases_refuted : exists E us B c, env_ok E 2 1 2 Ninf NoBound zX zf /\ pr_fit E 2 1 2 Ninf NoBound true zX zf (Some gU) = Fitted us B c /\ us = [[0; 0]] /\
  misfit Ninf zX zf (ridge_eval (fst (e_fitc E gU)) (snd (e_fitc E gU)) gU) = 0 /\ 0 < misfit Ninf zX zf (ridge_eval B c us).
Proof.
  assert (R : exists us B c, pr_fit E3 2 1 2 Ninf NoBound true zX zf (Some gU) = Fitted us B c).
  { unfold pr_fit. change (Nat.eqb (length zX) (length zf)) with true. change (pr_enough 2 1 2 (length zX)) with true. cbn [negb Nat.eqb andb]. change (Nat.eqb (length gU) 1 && forallb (fun u => Nat.eqb (length u) 2) gU)%bool with true. cbn [negb is_two]. unfold fit_alternating, alt_run, sequential_lp_st. cbn [e_fitc e_qr e_svd e_lp e_tolx e_tol_obj e_verbose e_btmax e_maxiter E3 sls_loop sls_in l_x l_f l_obj l_Delta l_stop l_px l_cv l_hist andb negb orb Nat.eqb]. cbv zeta. eauto. }
  destruct R as [us [B [c R]]]. exists E3, us, B, c. split; [apply E3_ok|]. split; auto. destruct (fit_erases E3 Ninf NoBound us B c E3_ok R) as [A [_ [P _]]]. split; auto. split; auto.
  rewrite (z_exact E3 Ninf NoBound gU E3_ok gU_good (fun x => iff_refl _)) at 1. apply misfit_zero.
Qed.

(* ---------- degree one ---------- *)
Definition fit_line (us : list vec) : tbasis * vec := (lineB, [0; vget (nth 0 us []) 0]).
Definition E4 : fit_env := mkEnv fit_line [1 / 2; 0; 1 / 2] [] ex_qr ex_svd (fun _ => [[1]]) ex_jac ex_svdJ (fun _ _ _ => LBad) false (1/10) (1/10) (1/10) 2 1.
Lemma line_V : forall c s k0 k1, mv (vp_V lineB [[c; s]] zX) [k0; k1] = [k0 + k1 * c; k0 - k1 * c; k0 + k1 * s; k0 - k1 * s].
Proof. intros. unfold vp_V, zX, mv. cbn [map]. rewrite !dot_cons, !dot_nil_l, !lineV, !dot_cons, !dot_nil_l. repeat (apply f_equal2; [ring|]). reflexivity. Qed.
Lemma E4_ok : env_ok E4 2 1 1 BasisModel.N2 NoBound zX f1.
Proof.
  split; [|split; [exact ex_qr_ok|split; [exact ex_svd_ok|split; [exact ex_svd1_ok|intros _; exact ex_jac_ok]]]]. intros us G. destruct (good1 us G) as [c [s [-> H]]]. split; [apply lineB_ok|]. split; [reflexivity|]. split; [reflexivity|]. intros y Ly. change (length (indices (fst (e_fitc E4 [[c; s]])))) with 2%nat in Ly. destruct y as [|k0 [|k1 [|]]]; try discriminate Ly.
  pose proof (two_opt c s k0 k1 0 H) as T. cbn [e_fitc E4 fit_line fst snd nth]. unfold vget. cbn [nth]. unfold fit_obj, fit_residual in *. rewrite !ex_V in T. rewrite !line_V. unfold f1, vsub in *. cbn [vmap2] in *. replace (0 + c * c + 0 * (c * c) - 1) with (0 + c * c - 1) in T by ring. replace (0 - c * c + 0 * (c * c) - -1) with (0 - c * c - -1) in T by ring. replace (0 + c * s + 0 * (s * s) - 0) with (0 + c * s - 0) in T by ring. replace (0 - c * s + 0 * (s * s) - 0) with (0 - c * s - 0) in T by ring. rewrite !Rmult_0_l, !Rplus_0_r in T. exact T.
Qed.
Lemma z_norm : aff_lb 2 zX = [Fin (-1); Fin (-1)] /\ aff_ub 2 zX = [Fin 1; Fin 1].
Proof. unfold aff_lb, aff_ub, zX, vmin, vmax, col, vget. cbn. unfold Rmin, Rmax. split; repeat destruct Rle_dec; repeat f_equal; lra. Qed.
Lemma z_XX : aff_XX 2 zX = [[1; 0; 1]; [-1; 0; 1]; [0; 1; 1]; [0; -1; 1]].
Proof.
  destruct z_norm as [N1 N2]. unfold aff_XX. rewrite N1, N2. unfold zX. cbn [map]. unfold normalize, nslopes, center. cbn. destruct (Req_EM_T 1 (-1)); [lra|]. unfold diag, mv, vget, vsub. cbn. rewrite !dot_cons, !dot_nil_l. repeat (apply f_equal2; [repeat (apply f_equal2; [field|]); reflexivity|]). reflexivity.
Qed.
Lemma z_minmax : vmin f1 = -1 /\ vmax f1 = 1.
Proof. unfold f1, vmin, vmax. cbn. unfold Rmin, Rmax. split; repeat destruct Rle_dec; lra. Qed.
Lemma z_aff_f : aff_f f1 = [1; 0; 1 / 2; 1 / 2].
Proof. destruct z_minmax as [A B]. unfold aff_f. rewrite A, B. unfold f1. cbn [map]. repeat (apply f_equal2; [field|]). reflexivity. Qed.
Example fit_case_affine : env_ok E4 2 1 1 BasisModel.N2 NoBound zX f1 /\ Forall (fun x => length x = 2%nat) zX /\ vmin f1 < vmax f1 /\ aff_b_returns BasisModel.N2 NoBound 2 zX f1 (e_aff E4) /\ norm2 (aff_g 2 zX (e_aff E4)) <> 0 /\
  exists us B c, pr_fit E4 2 1 1 BasisModel.N2 NoBound true zX f1 None = Fitted us B c.
Proof.
  split; [apply E4_ok|]. split; [apply zX_dims|]. split; [destruct z_minmax; lra|]. split; [|split].
  - cbn [aff_b_returns]. rewrite z_XX, z_aff_f. split; [reflexivity|]. intros y _. apply Rle_trans with 0; [|unfold fit_obj; apply norm2_nonneg]. unfold fit_obj, fit_residual. cbn [e_aff E4]. unfold mv. cbn [map]. rewrite !dot_cons, !dot_nil_l. unfold vsub. cbn [vmap2]. rewrite norm2_4. replace (_ + _ + _ + _) with 0 by field. rewrite sqrt_0. lra.
  - destruct z_norm as [N1 N2]. unfold aff_g, aff_s. rewrite N1, N2. intro H. pose proof (norm2_sq (mv (diag (nslopes [Fin (-1); Fin (-1)] [Fin 1; Fin 1])) (removelast (e_aff E4)))) as Q. rewrite H in Q. revert Q. unfold nslopes, norm2sq. cbn. destruct (Req_EM_T 1 (-1)); [lra|]. unfold diag, mv, vget. cbn. rewrite !dot_cons, !dot_nil_l. lra.
  - unfold pr_fit. change (Nat.eqb (length zX) (length f1)) with true. change (pr_enough 2 1 1 (length zX)) with true. cbn [negb Nat.eqb andb]. cbv zeta. eauto.
Qed.

(* ---------- as many directions as variables ---------- *)
Definition sX : mat := [[0]; [1]; [2]].
Definition sF : vec := [0; 1; 4].
Definition E5 : fit_env := mkEnv (fun _ => (gB, [0; 0; 1])) [] [] (fun us => ([[1]], us)) (fun us => ([[1]], [vget (nth 0 us []) 0], [[1]])) (fun _ => [[1]])
  (fun _ => [[0]; [0]; [0]]) (fun _ => ([[1; 0; 0]], [0], [[1]])) (fun _ _ _ => LBad) false (1/10) (1/10) (1/10) 2 1.
Lemma col1 : forall u : vec, length u = 1%nat -> u = [vget u 0]. Proof. intros [|a [|]] L; try discriminate L. reflexivity. Qed.
Example fit_case_square : env_ok E5 1 1 2 BasisModel.N2 NoBound sX sF /\ is_two BasisModel.N2 NoBound = true /\ pr_enough 1 1 2 (length sX) = true /\ independent 1 (start E5 1 (Some [[1]])) /\ (0 < e_maxiter E5)%nat.
Proof.
  assert (O1 : orthonormal [[1]]) by (intros a b Ha Hb; one a; one b; cbn; rewrite !dot_cons, !dot_nil_l; lra).
  split; [|split; [reflexivity|split; [reflexivity|split; [apply orth_indep; [repeat constructor|exact O1]|cbn; lia]]]].
  split; [|split; [|split; [|split]]].
  - intros us [L [F O]]. destruct (one_col us L) as [u ->]. inversion F; subst. pose proof (col1 u H1) as Eu. set (t := vget u 0) in *. rewrite Eu in *. specialize (O 0%nat 0%nat ltac:(cbn; lia) ltac:(cbn; lia)). cbn in O. rewrite !dot_cons, !dot_nil_l in O. split; [apply gB_ok|]. split; [reflexivity|]. split; [reflexivity|]. intros y _.
    apply Rle_trans with 0; [|unfold fit_obj; apply norm2_nonneg]. unfold fit_obj, fit_residual. cbn [e_fitc E5 fst snd]. replace (vsub (mv (vp_V gB [[t]] sX) [0; 0; 1]) sF) with (vzero 3).
    + unfold norm2, norm2sq. rewrite dot_zero_r, sqrt_0. lra.
    + unfold vp_V, sX, mv. cbn [map]. rewrite !dot_cons, !dot_nil_l, !gV, !dot_cons, !dot_nil_l. unfold sF, vsub, vzero. cbn. replace (t * t + 0) with (t * t) in O by ring. repeat (apply f_equal2; [nra|]). reflexivity.
  - intros us L F. destruct (one_col us L) as [u ->]. inversion F; subst. cbn [e_qr E5 fst snd]. split; auto. split; [repeat constructor|]. split; auto. split; auto. intros j Hj. one j. cbn [nth]. split; auto. split; [|intros i Hi; apply nth_overflow; lia]. rewrite (col1 u H1). unfold lincomb, vadd, vscale. cbn. apply f_equal2; [ring|auto].
  - intros us L F. destruct (one_col us L) as [u ->]. inversion F; subst. pose proof (col1 u H1) as Eu. unfold svd_good. cbn [e_svd E5 nth]. unfold svd_post. cbn [length]. split; auto. split; [repeat constructor|]. split; [exact O1|]. split; auto. split; [split; [reflexivity|split; [repeat constructor|exact O1]]|]. intros c Hc. one c. cbn [nth]. rewrite Eu at 1. unfold lincomb, vadd, vscale, vmul, col, vget. cbn. apply f_equal2; [ring|auto].
  - intros G _ _. split; [reflexivity|split; [repeat constructor|exact O1]].
  - intros _ us [L [F O]]. destruct (one_col us L) as [u ->]. split; [reflexivity|]. split; [repeat constructor|]. split.
    + intros ds [Ld W]. destruct (one_col ds Ld) as [e ->]. unfold mv. cbn [e_jac E5 map]. unfold flat. cbn. rewrite !dot_cons, !dot_nil_l. unfold vzero. cbn. repeat (apply f_equal2; [ring|]). reflexivity.
    + cbn [e_jac e_svdJ E5 fst snd]. unfold svd_mat, svd_post. rewrite cols_len. change (1 * 1)%nat with 1%nat. split; auto. split; [repeat constructor|]. split; [intros a b Ha Hb; one a; one b; cbn; rewrite !dot_cons, !dot_nil_l; lra|]. split; auto. split; [split; [reflexivity|split; [repeat constructor|exact O1]]|].
      intros q Hq. one q. unfold cols, col, vget, lincomb, vmul, vadd, vscale. cbn. repeat (apply f_equal2; [ring|]). reflexivity.
Qed.
Theorem fit_square_refuted : exists E X f U0, env_ok E 1 1 2 BasisModel.N2 NoBound X f /\ length f = length X /\ pr_enough 1 1 2 (length X) = true /\ independent 1 (start E 1 (Some U0)) /\ pr_fit E 1 1 2 BasisModel.N2 NoBound true X f (Some U0) = Raises.
Proof.
  destruct fit_case_square as [A [B [C [D F]]]]. exists E5, sX, sF, [[1]]. split; [exact A|]. split; [reflexivity|]. split; [exact C|]. split; [exact D|].
  apply fit_square_raises; auto; [lia|repeat constructor].
Qed.

(* ---------- data of a ridge function on the starting subspace; the solver of the linear programs fails ---------- *)
Definition E6 : fit_env := mkEnv fit_inf [] [] ex_qr ex_svd (fun _ => [[1]]) (fun _ => []) (fun _ => ([], [], [])) (fun _ _ _ => LBad) false (1/10) (1/10) (1/10) 2 2.
Example fit_case_recovers : let f := map (ridge_eval gB [0; 1; 0] gU) zX in f = f1 /\ env_ok E6 2 1 2 Ninf NoBound zX f /\ (forall u, In u gU -> spans 2 (start E6 1 (Some gU)) u) /\ independent 2 (start E6 1 (Some gU)) /\ basis_ok gB 1 /\
  exists us B c, pr_fit E6 2 1 2 Ninf NoBound false zX f (Some gU) = Fitted us B c /\ forall x, In x zX -> ridge_eval B c us x = vget x 0.
Proof.
  assert (EF : map (ridge_eval gB [0; 1; 0] gU) zX = f1) by (unfold ridge_eval, zX, gU, mv, poly_eval, f1; cbn [map]; rewrite !dot_cons, !dot_nil_l, !gV, !dot_cons, !dot_nil_l; repeat (apply f_equal2; [ring|]); reflexivity).
  cbv zeta. rewrite EF. assert (OK : env_ok E6 2 1 2 Ninf NoBound zX f1) by exact E1_ok. assert (IND : independent 2 gU) by (apply orth_indep; apply gU_good). assert (SP : forall u, In u gU -> spans 2 gU u). { intros u [<-|[]]. exact (spans_col 2 gU 0 (proj1 (proj2 gU_good)) ltac:(cbn; lia)). }
  split; auto. split; auto. split; auto. split; auto. split; [apply gB_ok|].
  assert (R : exists us B c, pr_fit E6 2 1 2 Ninf NoBound false zX f1 (Some gU) = Fitted us B c).
  { unfold pr_fit. change (Nat.eqb (length zX) (length f1)) with true. change (pr_enough 2 1 2 (length zX)) with true. cbn [negb Nat.eqb andb]. change (Nat.eqb (length gU) 1 && forallb (fun u => Nat.eqb (length u) 2) gU)%bool with true. cbn [negb is_two]. unfold fit_alternating, alt_run, sequential_lp_st. cbn [e_fitc e_qr e_svd e_lp e_tolx e_tol_obj e_verbose e_btmax e_maxiter E6 sls_loop sls_in l_x l_f l_obj l_Delta l_stop l_px l_cv l_hist andb negb orb Nat.eqb]. cbv zeta. eauto. }
  destruct R as [us [B [c R]]]. exists us, B, c. split; auto. intros x I.
  assert (H := fit_recovers E6 2 1 2 Ninf NoBound false zX (Some gU) us B c gB 1 gU [0; 1; 0]). cbv zeta in H. rewrite EF in H. rewrite (H OK zX_dims R ltac:(lia) IND (or_introl eq_refl) gB_ok ltac:(cbn; lia) eq_refl SP eq_refl x I).
  pose proof zX_dims as D. rewrite Forall_forall in D. specialize (D x I). destruct x as [|a [|b [|]]]; try discriminate D. unfold ridge_eval, gU, mv, poly_eval. cbn [map]. rewrite gV, !dot_cons, !dot_nil_l. unfold vget. cbn. ring.
Qed.
Example fit_case_stored : env_ok E1 2 1 2 Ninf NoBound zX f1 /\ good 2 1 v2 /\ fit_alternating E1 2 1 Ninf NoBound zX f1 v2 = Some gU.
Proof. split; [exact E1_ok|]. split; [exact v2_good|exact E1_alt]. Qed.
Example fit_case_jac : jac_ok 2 1 (length exX) [[1; 0]] (rows_of_cols (length exX) (gn_jac exB 2 [[1; 0]] exX exF (exC [[1; 0]]) exY exS exZ)) (exYJ, exSJ, exZJ).
Proof. destruct step_case as [A [B _]]. apply varpro_jac_contract; auto. Qed.

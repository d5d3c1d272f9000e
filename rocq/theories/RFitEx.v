(** Concrete runs of PolynomialRidgeApproximation.fit meeting the hypotheses of the theorems in RFitProofs.v and RFitMore.v. *)
Require Import Reals Lra Lia List Bool Arith ZArith.
From Verif Require Import RVec Num Sums DomModel DomMoreModel SweepProofs HullProofs HullIneqProofs Deriv ArnoldiMoreProofs BasisModel IndexProofs PolyProofs MatLib SpecProofs GrassLib LipModel LipFitProofs PartialProofs SubModel ActiveProofs RidgeModel RidgeProofs TrajProofs PolySpan VarproLib VarproProofs VarproCases GnStep RidgeFitProofs RidgeAffine RidgeFinish FinishCases OptModel OptProofs SeqProofs SolveFit RFitModel RFitProofs RFitMore.
Import ListNotations.
Local Open Scope R_scope.

(* ---------- one column in the plane: exact QR and SVD ---------- *)
Definition unit1 (u : vec) : vec := if Req_EM_T (norm2 u) 0 then [1; 0] else vscale (/ norm2 u) u.
Definition ex_qr (us : list vec) : list vec * mat := ([unit1 (nth 0 us [])], [[norm2 (nth 0 us [])]]).
Definition ex_svd (us : list vec) : list vec * vec * list vec := ([unit1 (nth 0 us [])], [norm2 (nth 0 us [])], [[1]]).
Lemma norm2_zero2 : forall a b, norm2 [a; b] = 0 -> a = 0 /\ b = 0.
Proof. intros a b H. pose proof (norm2_sq [a; b]) as Q. rewrite H in Q. unfold norm2sq in Q. rewrite !dot_cons, !dot_nil_l in Q. nra. Qed.
Lemma unit1_spec : forall u, length u = 2%nat -> length (unit1 u) = 2%nat /\ dot (unit1 u) (unit1 u) = 1 /\ vscale (norm2 u) (unit1 u) = u.
Proof.
  intros u L. destruct u as [|a [|b [|]]]; try discriminate L. unfold unit1. destruct (Req_EM_T (norm2 [a; b]) 0) as [Z|Z].
  - destruct (norm2_zero2 a b Z) as [-> ->]. split; auto. split; [rewrite !dot_cons, !dot_nil_l; lra|]. rewrite Z. unfold vscale. cbn. repeat (apply f_equal2; [ring|]). reflexivity.
  - split; auto. split.
    + rewrite dot_vscale_l, dot_vscale_r. replace (dot [a; b] [a; b]) with (norm2 [a; b] * norm2 [a; b]) by apply norm2_sq. field. auto.
    + unfold vscale. cbn. repeat (apply f_equal2; [field; auto|]). reflexivity.
Qed.
Lemma lincomb1 : forall u a, length u = 2%nat -> lincomb 2 [u] [a] = vscale a u.
Proof. intros u a L. destruct u as [|x [|y [|]]]; try discriminate L. unfold lincomb, vadd, vscale. cbn. repeat (apply f_equal2; [ring|]). reflexivity. Qed.
Lemma one_col : forall us : list vec, length us = 1%nat -> exists u, us = [u]. Proof. intros [|u [|]] L; try discriminate L. eauto. Qed.
Ltac one a := assert (a = O) by (cbn in *; lia); subst a.
Lemma ex_qr_ok : forall us, length us = 1%nat -> Forall (fun u => length u = 2%nat) us -> qr_post 2 us (fst (ex_qr us)) (snd (ex_qr us)).
Proof.
  intros us L F. destruct (one_col us L) as [u ->]. inversion F; subst. destruct (unit1_spec u H1) as [A [B C]]. unfold ex_qr. cbn [fst snd nth]. split; auto. split; [constructor; auto|]. split; [intros a b Ha Hb; one a; one b; exact B|]. split; auto.
  intros j Hj. one j. split; auto. cbn [nth]. split; [rewrite lincomb1 by auto; auto|]. intros i Hi. unfold vget. destruct i as [|[|]]; [lia|auto|auto].
Qed.
Lemma ex_svd_ok : forall us, length us = 1%nat -> Forall (fun u => length u = 2%nat) us -> svd_good ex_svd 2 us.
Proof.
  intros us L F. destruct (one_col us L) as [u ->]. inversion F; subst. destruct (unit1_spec u H1) as [A [B C]]. unfold svd_good, ex_svd. cbn [nth]. split; auto. split; [constructor; auto|]. split; [intros a b Ha Hb; one a; one b; exact B|]. split; auto.
  split; [split; auto; split; [repeat constructor|]; intros a b Ha Hb; one a; one b; cbn; rewrite !dot_cons, !dot_nil_l; lra|]. intros c Hc. one c. cbn [nth]. replace (vmul [norm2 u] (col [[1]] 0)) with [norm2 u] by (unfold vmul, col, vget; cbn; apply f_equal2; [ring|auto]). rewrite lincomb1 by auto. auto.
Qed.
Lemma good1 : forall us, good 2 1 us -> exists c s, us = [[c; s]] /\ c * c + s * s = 1.
Proof.
  intros us [L [F O]]. destruct (one_col us L) as [u ->]. inversion F; subst. destruct u as [|c [|s [|]]]; try discriminate H1. exists c, s. split; auto. specialize (O 0%nat 0%nat ltac:(cbn; lia) ltac:(cbn; lia)). cbn in O. rewrite !dot_cons, !dot_nil_l in O. lra.
Qed.
Lemma ex_svd1_ok : forall G : mat, length G = length zX -> Forall (fun g => length g = 1%nat) G -> onb 1 [[1]].
Proof. intros G _ _. split; auto. split; [repeat constructor|]. intros a b Ha Hb. one a. one b. cbn. rewrite !dot_cons, !dot_nil_l. lra. Qed.
Lemma fit_list3 : forall c : vec, length c = 3%nat -> exists a b e, c = [a; b; e]. Proof. intros [|a [|b [|e [|]]]] L; try discriminate L. eauto. Qed.
Lemma ex_V : forall c s k0 k1 k2, mv (vp_V gB [[c; s]] zX) [k0; k1; k2] = [k0 + k1 * c + k2 * (c * c); k0 - k1 * c + k2 * (c * c); k0 + k1 * s + k2 * (s * s); k0 - k1 * s + k2 * (s * s)].
Proof. intros. unfold vp_V, zX, mv. cbn [map]. rewrite !dot_cons, !dot_nil_l, !gV, !dot_cons, !dot_nil_l. repeat (apply f_equal2; [ring|]). reflexivity. Qed.
Lemma four_abs : forall a b c d k, 0 <= k -> cmax 4 [a; b; c; d] <= k <-> Rabs a <= k /\ Rabs b <= k /\ Rabs c <= k /\ Rabs d <= k.
Proof.
  intros a b c d k K. split.
  - intro H. pose proof (cmax_ge 4 [a; b; c; d]) as G. pose proof (G 0%nat ltac:(lia)). pose proof (G 1%nat ltac:(lia)). pose proof (G 2%nat ltac:(lia)). pose proof (G 3%nat ltac:(lia)). unfold vget in *. cbn [nth] in *. lra.
  - intros [A [B [C D]]]. apply cmax_le; auto. intros i Hi. unfold vget. destruct i as [|[|[|[|]]]]; cbn [nth]; try lra; lia.
Qed.

(* ---------- sup norm: the data x1, from the direction e2 to the direction e1 ---------- *)
Definition f1 : vec := [1; -1; 0; 0].
Definition slope_inf (c s : R) : R := sgn c / (Rabs c + Rabs s).
Definition fit_inf (us : list vec) : tbasis * vec := (gB, [0; slope_inf (vget (nth 0 us []) 0) (vget (nth 0 us []) 1); 0]).
Lemma abs_pos2 : forall c s, c * c + s * s = 1 -> 0 < Rabs c + Rabs s.
Proof. intros c s H. pose proof (Rabs_pos c). pose proof (Rabs_pos s). destruct (Req_dec c 0) as [->|C]; [assert (s <> 0) by nra; pose proof (Rabs_pos_lt s H2); lra|pose proof (Rabs_pos_lt c C); lra]. Qed.
Lemma inf_value : forall c s, c * c + s * s = 1 -> cmax 4 (fit_residual (vp_V gB [[c; s]] zX) f1 [0; slope_inf c s; 0]) <= Rabs s / (Rabs c + Rabs s).
Proof.
  intros c s H. pose proof (abs_pos2 c s H) as P. assert (NN : 0 <= Rabs s / (Rabs c + Rabs s)) by (apply Rmult_le_pos; [apply Rabs_pos|left; apply Rinv_0_lt_compat; auto]).
  unfold fit_residual. rewrite ex_V. unfold f1, vsub. cbn [vmap2]. set (b := slope_inf c s). assert (BC : b * c = Rabs c / (Rabs c + Rabs s)) by (unfold b, slope_inf, Rdiv; rewrite Rmult_assoc, (Rmult_comm _ c), <- Rmult_assoc, sgn_abs; auto). assert (E1 : b * c - 1 = - (Rabs s / (Rabs c + Rabs s))) by (rewrite BC; field; lra).
  assert (SB : Rabs b <= / (Rabs c + Rabs s)). { unfold b, slope_inf, Rdiv. rewrite Rabs_mult, (Rabs_pos_eq (/ _)) by (left; apply Rinv_0_lt_compat; auto). assert (Rabs (sgn c) <= 1) by (unfold sgn, Rltb; repeat destruct Rlt_dec; rewrite ?Rabs_Ropp, ?Rabs_R0, ?Rabs_R1; try lra; unfold Rabs; destruct Rcase_abs; lra). pose proof (Rinv_0_lt_compat _ P). nra. }
  assert (E2 : Rabs (b * s) <= Rabs s / (Rabs c + Rabs s)) by (rewrite Rabs_mult; pose proof (Rabs_pos s); unfold Rdiv; rewrite Rmult_comm; apply Rmult_le_compat_l; auto).
  apply four_abs; auto. replace (0 + b * c + 0 * (c * c) - 1) with (b * c - 1) by ring. replace (0 - b * c + 0 * (c * c) - -1) with (- (b * c - 1)) by ring. replace (0 + b * s + 0 * (s * s) - 0) with (b * s) by ring. replace (0 - b * s + 0 * (s * s) - 0) with (- (b * s)) by ring. rewrite E1, !Rabs_Ropp, (Rabs_pos_eq (Rabs s / _)) by auto. lra.
Qed.
Lemma inf_lower : forall c s k0 k1 k2, c * c + s * s = 1 -> Rabs s / (Rabs c + Rabs s) <= cmax 4 (fit_residual (vp_V gB [[c; s]] zX) f1 [k0; k1; k2]).
Proof.
  intros c s k0 k1 k2 H. pose proof (abs_pos2 c s H) as P. set (k := cmax 4 _). assert (K0 : 0 <= k) by apply cmax_nonneg. assert (K : k <= k) by lra. unfold k at 1 in K. unfold fit_residual in K. rewrite ex_V in K. unfold f1, vsub in K. cbn [vmap2] in K. apply four_abs in K; auto. destruct K as [A [B [C D]]].
  assert (Q1 : Rabs (k1 * c - 1) <= k) by (replace (k1 * c - 1) with (((k0 + k1 * c + k2 * (c * c) - 1) - (k0 - k1 * c + k2 * (c * c) - -1)) / 2) by field; revert A B; unfold Rabs; repeat destruct Rcase_abs; lra).
  assert (Q2 : Rabs (k1 * s) <= k) by (replace (k1 * s) with (((k0 + k1 * s + k2 * (s * s) - 0) - (k0 - k1 * s + k2 * (s * s) - 0)) / 2) by field; revert C D; unfold Rabs; repeat destruct Rcase_abs; lra).
  assert (T : Rabs s <= Rabs s * Rabs (k1 * c - 1) + Rabs c * Rabs (k1 * s)). { rewrite <- !Rabs_mult. replace s with (c * (k1 * s) - s * (k1 * c - 1)) at 1 by ring. eapply Rle_trans; [apply Rabs_triang|]. rewrite Rabs_Ropp. lra. }
  apply (Rmult_le_reg_r (Rabs c + Rabs s)); auto. unfold Rdiv. rewrite Rmult_assoc, Rinv_l, Rmult_1_r by lra. pose proof (Rabs_pos s). pose proof (Rabs_pos c). nra.
Qed.
Definition ex_lp (x fx : vec) (D : option R) : lp := if Req_EM_T (vget x 0) 0 then LOpt [PI / 2; 0; 0; 0; 0] else LBad.
Definition E1 : fit_env := mkEnv fit_inf [] [] ex_qr ex_svd (fun _ => [[1]]) (fun _ => []) (fun _ => ([], [], [])) ex_lp false (1/10) (1/10) (1/10) 2 2.
Lemma E1_ok : env_ok E1 2 1 2 Ninf NoBound zX f1.
Proof.
  split; [|split; [exact ex_qr_ok|split; [exact ex_svd_ok|split; [exact ex_svd1_ok|intro H; discriminate]]]]. intros us G. destruct (good1 us G) as [c [s [-> H]]]. split; [apply gB_ok|]. split; [reflexivity|]. split; [reflexivity|]. intros y Ly. change (length (indices (fst (e_fitc E1 [[c; s]])))) with 3%nat in Ly. destruct (fit_list3 y Ly) as [k0 [k1 [k2 ->]]].
  unfold fit_obj. rewrite !vmax_abs. assert (LR : forall z, length (fit_residual (vp_V gB [[c; s]] zX) f1 z) = 4%nat) by (intro z; unfold fit_residual; rewrite vsub_length; rewrite mv_length, vp_V_len; reflexivity). cbn [e_fitc E1 fit_inf fst snd]. rewrite !LR. eapply Rle_trans; [apply inf_value; auto|apply inf_lower; auto].
Qed.
Definition v2 : list vec := [[0; 1]].
Lemma v2_good : good 2 1 v2.
Proof. split; auto. split; [repeat constructor|]. intros a b Ha Hb. one a. one b. cbn. rewrite !dot_cons, !dot_nil_l. lra. Qed.
Lemma ex_orth : forall us, good 2 1 us -> orth ex_qr us = us.
Proof. intros us [L [F O]]. apply (orth_keeps ex_qr 2); auto. apply ex_qr_ok; auto. Qed.
Lemma norm_half : norm2 [PI / 2; 0] = PI / 2.
Proof. unfold norm2, norm2sq. rewrite !dot_cons, !dot_nil_l. replace (PI / 2 * (PI / 2) + (0 * 0 + 0)) with (Rsqr (PI / 2)) by (unfold Rsqr; ring). apply sqrt_Rsqr. pose proof PI_RGT_0. lra. Qed.
Lemma unit_half : unit1 [PI / 2; 0] = [1; 0].
Proof. unfold unit1. rewrite norm_half. pose proof PI_RGT_0. destruct (Req_EM_T (PI / 2) 0); [lra|]. unfold vscale. cbn. repeat (apply f_equal2; [field; lra|]). reflexivity. Qed.
(** a step of length pi/2 towards e1 turns e2 into e1 *)
Lemma ex_geo : let '(ys, s, zs) := ex_svd [[PI / 2; 0]] in geo_cols 2 v2 ys s zs 1 = gU.
Proof.
  unfold ex_svd. cbn [nth]. rewrite norm_half, unit_half. unfold geo_cols. change (seq 0 (length v2)) with [0%nat]. cbn [map nth]. unfold vget. cbn [nth]. rewrite Rmult_1_r, cos_PI2, sin_PI2. unfold v2, gU, lincomb, vadd, vscale. cbn. repeat (apply f_equal2; [repeat (apply f_equal2; [ring|]); reflexivity|]). reflexivity.
Qed.
Lemma slope01 : slope_inf 0 1 = 0. Proof. unfold slope_inf. rewrite sgn_0. unfold Rdiv. ring. Qed.
Lemma slope10 : slope_inf 1 0 = 1. Proof. unfold slope_inf. rewrite sgn_pos by lra. rewrite Rabs_R0, Rabs_R1. field. Qed.
Lemma pack_v2 : alt_pack 2 v2 (snd (fit_inf v2)) = [0; 1; 0; 0; 0].
Proof. unfold alt_pack, fit_inf, v2. cbn. unfold vget. cbn. rewrite slope01. reflexivity. Qed.
Lemma pack_gU : alt_pack 2 gU (snd (fit_inf gU)) = [1; 0; 0; 1; 0].
Proof. unfold alt_pack, fit_inf, gU. cbn. unfold vget. cbn. rewrite slope10. reflexivity. Qed.
Lemma E1_step : alt_traj fit_inf ex_qr ex_svd 2 1 [0; 1; 0; 0; 0] [PI / 2; 0; 0; 0; 0] 1 = ([1; 0; 0; 1; 0], gB).
Proof.
  unfold alt_traj. replace (alt_us 2 1 [0; 1; 0; 0; 0]) with v2 by reflexivity. replace (alt_us 2 1 [PI / 2; 0; 0; 0; 0]) with [[PI / 2; 0]] by reflexivity. unfold pr_alt_traj. rewrite (ex_orth v2 v2_good). replace (horiz 2 v2 [[PI / 2; 0]]) with [[PI / 2; 0]].
  - pose proof ex_geo as G. destruct (ex_svd [[PI / 2; 0]]) as [[ys s] zs]. rewrite G, pack_gU. reflexivity.
  - unfold horiz, v2, mv, lincomb, vadd, vscale, vsub. cbn [map]. rewrite !dot_cons, !dot_nil_l. cbn. repeat (apply f_equal2; [repeat (apply f_equal2; [ring|]); reflexivity|]). reflexivity.
Qed.
Lemma E1_res0 : alt_res 2 1 zX f1 gB [0; 1; 0; 0; 0] = [-1; 1; 0; 0].
Proof. unfold alt_res. change (alt_us 2 1 [0; 1; 0; 0; 0]) with [[0; 1]]. change (alt_c 2 1 [0; 1; 0; 0; 0]) with [0; 0; 0]. unfold pr_residual. rewrite ex_V. unfold f1, vsub. cbn. repeat (apply f_equal2; [ring|]). reflexivity. Qed.
Lemma E1_res1 : alt_res 2 1 zX f1 gB [1; 0; 0; 1; 0] = [0; 0; 0; 0].
Proof. unfold alt_res. change (alt_us 2 1 [1; 0; 0; 1; 0]) with [[1; 0]]. change (alt_c 2 1 [1; 0; 0; 1; 0]) with [0; 1; 0]. unfold pr_residual. rewrite ex_V. unfold f1, vsub. cbn. repeat (apply f_equal2; [ring|]). reflexivity. Qed.
Lemma obj0 : linf [-1; 1; 0; 0] = 1. Proof. cbn. unfold Rabs. repeat destruct Rcase_abs; unfold Rmax; repeat destruct Rle_dec; lra. Qed.
Lemma obj1 : linf [0; 0; 0; 0] = 0. Proof. cbn. rewrite Rabs_R0. unfold Rmax. repeat destruct Rle_dec; lra. Qed.
Lemma E1_alt : fit_alternating E1 2 1 Ninf NoBound zX f1 v2 = Some gU.
Proof.
  unfold fit_alternating, alt_run, sequential_lp_st. cbn [e_fitc e_qr e_svd e_lp e_tolx e_tol_obj e_verbose e_btmax e_maxiter E1 alt_norm alt_lb alt_ub]. rewrite pack_v2. change (fst (fit_inf v2)) with gB. rewrite E1_res0. unfold objfun at 1. rewrite obj0.
  cbn [sls_loop sls_in l_x l_f l_obj l_Delta l_stop l_px l_cv l_hist]. unfold ex_lp at 1. unfold vget at 1. cbn [nth]. destruct (Req_EM_T 0 0) as [_|]; [|congruence]. rewrite E1_step.
  assert (AS : all_same (1/10) [0; 1; 0; 0; 0] [1; 0; 0; 1; 0] = false). { unfold all_same. cbn. assert (R : Rleb (Rabs (0 - 1)) (1/10 * Rabs 1) = false) by (apply Rleb_false; rewrite Rabs_R1; replace (0 - 1) with (- (1)) by ring; rewrite Rabs_Ropp, Rabs_R1; lra). rewrite R. reflexivity. }
  rewrite AS, E1_res1. unfold objfun. rewrite obj1. assert (L : Rltb 0 1 = true) by (apply Rltb_true; lra). rewrite L. unfold viol. cbv iota. assert (V : Rleb (Rabs (0 + 0)) (/ 10000000000) = true) by (apply Rleb_true; rewrite Rplus_0_l, Rabs_R0; lra). rewrite V. cbn [andb orb].
  assert (T : Rltb (Rabs (0 - 1)) (1/10) = false) by (apply Rltb_false; replace (0 - 1) with (- (1)) by ring; rewrite Rabs_Ropp, Rabs_R1; lra). rewrite T. cbn [l_x l_f l_obj l_Delta l_stop l_px l_cv l_hist Nat.eqb andb negb orb].
  unfold ex_lp. unfold vget. cbn [nth]. destruct (Req_EM_T 1 0) as [X|_]; [exfalso; lra|]. cbn. reflexivity.
Qed.
Lemma lin_grad1 : forall b a, poly_grad gB [0; b; 0] [a] = [b].
Proof. intros b a. unfold poly_grad, DVrow. change (indices gB) with [[0]; [1]; [2]]%nat. cbn. unfold scale, vget. cbn. unfold prodn. cbn. rewrite !dot_cons, !dot_nil_l. apply f_equal2; [|reflexivity]. replace (DVent gB [a] [1%nat] 0) with 1; [ring|]. unfold DVent. cbn. unfold vget. cbn. rewrite !dot_cons, !dot_nil_l. ring. Qed.
Lemma E1_finish : forall fitc, (forall c s, exists b, fitc [[c; s]] = (gB, [0; b; 0])) -> snd (fitc gU) = [0; 1; 0] -> finish fitc (fun _ => [[1]]) 2 true zX gU = (gU, (gB, [0; 1; 0])).
Proof.
  intros fitc H H1. destruct (H 1 0) as [b Hb]. fold gU in Hb. rewrite Hb in H1. cbn in H1. injection H1 as ->. unfold finish. cbv zeta. change (Nat.ltb 1 (length gU) && true)%bool with false. cbv iota. rewrite Hb. cbn [fst snd]. change (seq 0 (length gU)) with [0%nat]. cbn [map].
  assert (G : map (poly_grad gB [0; 1; 0]) (map (mv gU) zX) = [[1]; [1]; [1]; [1]]) by (unfold zX, mv, gU; cbn [map]; rewrite !lin_grad1; reflexivity). rewrite G. replace (mean (col [[1]; [1]; [1]; [1]] 0)) with 1 by (unfold mean, col, vget, vsum; cbn; field). rewrite sgn_pos by lra.
  replace (scale_cols [1] gU) with gU by (unfold scale_cols, gU, vscale; cbn; repeat (apply f_equal2; [repeat (apply f_equal2; [ring|]); reflexivity|]); reflexivity). rewrite Hb. reflexivity.
Qed.
Lemma v2_indep : independent 2 v2. Proof. apply orth_indep; apply v2_good. Qed.
Lemma E1_fit : pr_fit E1 2 1 2 Ninf NoBound true zX f1 (Some v2) = Fitted gU gB [0; 1; 0].
Proof.
  unfold pr_fit. change (Nat.eqb (length zX) (length f1)) with true. change (pr_enough 2 1 2 (length zX)) with true. cbn [negb Nat.eqb andb]. change (Nat.eqb (length v2) 1 && forallb (fun u => Nat.eqb (length u) 2) v2)%bool with true. cbn [negb is_two]. cbn [e_qr E1]. rewrite (ex_orth v2 v2_good), E1_alt.
  cbn [e_fitc e_svd1 E1]. rewrite E1_finish; [reflexivity|intros; eexists; reflexivity|]. unfold fit_inf, gU, vget. cbn. rewrite slope10. reflexivity.
Qed.
Example fit_case_inf : env_ok E1 2 1 2 Ninf NoBound zX f1 /\ Forall (fun x => length x = 2%nat) zX /\ pr_fit E1 2 1 2 Ninf NoBound true zX f1 (Some v2) = Fitted gU gB [0; 1; 0] /\ ~ (1%nat = 1%nat /\ 2%nat = 1%nat) /\ independent 2 (start E1 1 (Some v2)) /\ (forall u, In u gU -> u <> vzero 2) /\
  misfit Ninf zX f1 (ridge_eval (fst (e_fitc E1 v2)) (snd (e_fitc E1 v2)) v2) = 1 /\ misfit Ninf zX f1 (ridge_eval gB [0; 1; 0] gU) = 0.
Proof.
  split; [apply E1_ok|]. split; [apply zX_dims|]. split; [apply E1_fit|]. split; [lia|]. split; [apply v2_indep|]. split; [intros u [<-|[]] H; injection H; lra|]. unfold misfit. rewrite <- !pr_residual_map. split.
  - assert (Q : pr_residual (fst (e_fitc E1 v2)) v2 zX f1 (snd (e_fitc E1 v2)) = [-1; 1; 0; 0]) by (unfold pr_residual; cbn [e_fitc E1 fit_inf fst snd nth v2]; unfold vget; cbn [nth]; fold v2; unfold v2; rewrite ex_V, slope01; unfold f1, vsub; cbn; repeat (apply f_equal2; [ring|]); reflexivity). rewrite Q. rewrite <- alt_norm_obj. exact obj0.
  - assert (Q : pr_residual gB gU zX f1 [0; 1; 0] = [0; 0; 0; 0]) by (unfold pr_residual, gU; rewrite ex_V; unfold f1, vsub; cbn; repeat (apply f_equal2; [ring|]); reflexivity). rewrite Q. rewrite <- alt_norm_obj. exact obj1.
Qed.

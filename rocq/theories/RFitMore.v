(** PolynomialRidgeApproximation.fit: exact recovery, the affine case, the square case, the Jacobian contract, and the loss of
    a direction by the final sign step. *)
Require Import Reals Lra Lia List Bool Arith ZArith.
From Verif Require Import RVec Num Sums DomModel DomMoreModel SweepProofs HullProofs HullIneqProofs Deriv ArnoldiMoreProofs BasisModel IndexProofs PolyProofs MatLib SpecProofs GrassLib LipModel LipFitProofs PartialProofs SubModel ActiveProofs RidgeModel RidgeProofs TrajProofs PolySpan VarproLib VarproProofs GnStep RidgeFitProofs RidgeAffine RidgeFinish FinishCases OptModel OptProofs SeqProofs SolveFit RFitModel RFitProofs.
Import ListNotations.
Local Open Scope R_scope.

Lemma resid_len : forall (g : vec -> R) X f, length f = length X -> length (vsub (map g X) f) = length X.
Proof. intros. rewrite vsub_length; rewrite map_length; auto. Qed.
Lemma resid_zero : forall (g : vec -> R) X f, length f = length X -> (forall i, (i < length X)%nat -> vget (vsub (map g X) f) i = 0) <-> f = map g X.
Proof.
  intros g X f Lf. split.
  - intro H. apply vec_ext; [rewrite map_length; auto|]. intros i Hi. specialize (H i ltac:(lia)). rewrite vsub_get in H by (rewrite map_length; auto). lra.
  - intros -> i Hi. rewrite vsub_get by auto. ring.
Qed.
Lemma misfit_zero : forall p X g, misfit p X (map g X) g = 0.
Proof.
  intros p X g. unfold misfit. replace (vsub (map g X) (map g X)) with (vzero (length X)); [apply fit_obj_zero|]. apply vec_ext; [unfold vzero; rewrite repeat_length, resid_len; rewrite ?map_length; auto|]. intros i Hi. rewrite vzero_get, vsub_get by auto. ring.
Qed.
Lemma misfit_zero_inv : forall p X f g, length f = length X -> misfit p X f g <= 0 -> f = map g X.
Proof. intros p X f g Lf H. apply resid_zero; auto. intros i Hi. apply (fit_obj_zero_inv p _ H). rewrite resid_len; auto. Qed.
Lemma side_exact : forall bd X g, on_side bd X (map g X) g.
Proof.
  intros bd X g. unfold on_side. assert (Z : forall t, In t (vsub (map g X) (map g X)) -> t = 0). { intros t I. apply (In_nth _ _ 0) in I. destruct I as [i [Hi <-]]. change (vget (vsub (map g X) (map g X)) i = 0). rewrite vsub_get by auto. ring. }
  destruct bd; cbn; auto; apply Forall_forall; intros t I; rewrite (Z t I); lra.
Qed.
Lemma misfit_nonneg : forall p X f g, 0 <= misfit p X f g.
Proof.
  intros [] X f g; unfold misfit, fit_obj; [rewrite vsum_rsum; apply rsum_nonneg; intros i Hi; rewrite map_length in Hi; rewrite (map_get _ Rabs _ i 0) by auto; apply Rabs_pos|apply norm2_nonneg|rewrite vmax_abs; apply cmax_nonneg].
Qed.
(** data from a ridge function of degree at most d on the starting subspace are interpolated *)
Theorem fit_recovers : forall E m n d p bd rot X U0 us B c B' n' us' c', let f := map (ridge_eval B' c' us') X in
  env_ok E m n d p bd X f -> Forall (fun x => length x = m) X -> pr_fit E m n d p bd rot X f U0 = Fitted us B c -> ~ (n = 1%nat /\ d = 1%nat) ->
  independent m (start E n U0) -> (rot = false \/ forall u, In u us -> u <> vzero m) ->
  basis_ok B' n' -> (tb_deg B' <= d)%nat -> length us' = n' -> (forall u, In u us' -> spans m (start E n U0) u) -> length c' = length (indices B') ->
  forall x, In x X -> ridge_eval B c us x = ridge_eval B' c' us' x.
Proof.
  intros E m n d p bd rot X U0 us B c B' n' us' c' f OK FX H ND IND NZ OB' DG Lu' SP Lc' x I. destruct (fit_correct E m n d p bd rot X f U0 us B c OK FX H ND IND NZ) as [_ [_ [_ [_ [_ K]]]]].
  specialize (K B' n' us' c' OB' DG Lu' (or_intror SP) Lc' (side_exact bd X _)). unfold f in K. rewrite misfit_zero in K. apply misfit_zero_inv in K; [|apply map_length].
  apply (In_nth _ _ []) in I. destruct I as [i [Hi <-]]. assert (Q : vget (map (ridge_eval B' c' us') X) i = vget (map (ridge_eval B c us) X) i) by (rewrite K; auto). rewrite !(map_get _ _ X i []) in Q by auto. auto.
Qed.

(* ---------- degree 1 and one direction: _fit_affine ---------- *)
Lemma cmax_scale : forall t k r, cmax k (vscale t r) = Rabs t * cmax k r.
Proof. intros t k r. induction k as [|k IH]; cbn [cmax]; [ring|]. rewrite IH, vscale_get, Rabs_mult. rewrite RmaxRmult by apply Rabs_pos. auto. Qed.
Lemma fit_obj_scale : forall p t r, fit_obj p (vscale t r) = Rabs t * fit_obj p r.
Proof.
  intros [] t r; unfold fit_obj.
  - rewrite !vsum_rsum, !map_length, vscale_length, <- rsum_scal_l. apply rsum_ext. intros i Hi. rewrite !(map_get _ Rabs _ i 0) by (rewrite ?vscale_length; auto). change (nth i (vscale t r) 0) with (vget (vscale t r) i). rewrite vscale_get, Rabs_mult. reflexivity.
  - apply norm2_vscale.
  - rewrite !vmax_abs, vscale_length. apply cmax_scale.
Qed.
Definition lineB : tbasis := mkTB monomials 1 1 NoScale.
Lemma lineB_ok : basis_ok lineB 1.
Proof. split; [apply monomials_ok|]. split; [apply monomials_rec|]. split; auto. split; auto. intros k Hk. cbn. lra. Qed.
Lemma lineV : forall a, Vrow lineB [a] = [1; a].
Proof. intros a. unfold Vrow. change (indices lineB) with [[0]; [1]]%nat. cbn. unfold scale. cbn. unfold vget. cbn. repeat (apply f_equal2; [ring|]). reflexivity. Qed.
(** the affine fit is done on rescaled data and its constant is thrown away; together with the final fit of the coefficients
    the result is still the best of all affine functions *)
Theorem fit_affine_optimal : forall E m p rot X f U0 us B c g e, env_ok E m 1 1 p NoBound X f -> Forall (fun x => length x = m) X -> vmin f < vmax f -> aff_b_returns p NoBound m X f (e_aff E) -> norm2 (aff_g m X (e_aff E)) <> 0 ->
  pr_fit E m 1 1 p NoBound rot X f U0 = Fitted us B c -> length g = m -> good m 1 us /\ misfit p X f (ridge_eval B c us) <= misfit p X f (fun x => dot g x + e).
Proof.
  intros E m p rot X f U0 us B c g e OK FX VV HA NZ H Lg. unfold pr_fit in H. destruct (Nat.eqb_spec (length X) (length f)) as [Lf|]; [|discriminate]. symmetry in Lf. cbn [negb] in H. destruct (pr_enough m 1 1 (length X)); [|discriminate]. cbn [negb Nat.eqb andb] in H. cbv zeta in H. injection H as EU EB EC.
  destruct (affine_fit_spec p NoBound m X f (e_aff E) FX Lf HA) as [h [t [BA EA]]]. assert (EH : aff_U m X (e_aff E) = vscale (/ norm2 (aff_g m X (e_aff E))) (aff_g m X (e_aff E))) by reflexivity.
  assert (BA' : best_affine p NoBound m X (aff_f f) (aff_g m X (e_aff E)) (aff_e m X (e_aff E))).
  { assert (LX : length (aff_XX m X) = length X) by (unfold aff_XX; apply map_length). assert (EV : forall y, length y = (m + 1)%nat -> fit_residual (aff_XX m X) (aff_f f) y = vsub (RidgeAffine.affine (aff_g m X y) (aff_e m X y) X) (aff_f f)) by (intros y Ly; unfold fit_residual, aff_XX; rewrite aff_values by auto; auto).
    cbn in HA. destruct HA as [Lb HA]. split; [apply aff_g_len|]. split; [exact I|]. intros g' e' Lg' _. destruct (aff_repr m X g' e' Lg') as [y [Ly [Gy Ey]]]. specialize (HA y Ly). rewrite !EV, Gy, Ey in HA by auto. exact HA. }
  clear BA EA h t. set (h := aff_g m X (e_aff E)) in *. set (t := aff_e m X (e_aff E)) in *. destruct BA' as [Lh [_ BA]]. set (D := vmax f - vmin f). assert (HD : 0 < D) by (unfold D; lra).
  assert (G : good m 1 us). { rewrite <- EU. split; [reflexivity|]. split; [repeat constructor; rewrite EH, vscale_length; auto|]. intros a b Ha Hb. cbn in Ha, Hb. assert (a = O) by lia. assert (b = O) by lia. subst. cbn. rewrite EH, dot_vscale_l, dot_vscale_r. fold h. assert (Q : dot h h = norm2 h * norm2 h) by (symmetry; apply norm2_sq). rewrite Q. field. auto. }
  split; auto. pose proof OK as [HF _]. destruct (HF us G) as [BO [BD CR]]. rewrite EU in EB, EC. rewrite EB in BO, BD, CR. rewrite EC in CR. pose proof G as [Lu [FU OU]].
  assert (SC : forall g' e', length g' = m -> misfit p X f (fun x => dot g' x + e') = D * fit_obj p (vsub (RidgeAffine.affine (vscale (/ D) g') ((e' - vmin f) / D) X) (aff_f f))).
  { intros g' e' Lg'. unfold misfit. rewrite <- (Rabs_pos_eq D) at 1 by lra. rewrite <- fit_obj_scale. f_equal. assert (L1 : length (aff_f f) = length X) by (unfold aff_f; rewrite map_length; auto).
    apply vec_ext; [rewrite resid_len, vscale_length, vsub_length; rewrite ?affine_len; auto|]. intros i Hi. rewrite resid_len in Hi by auto. rewrite vscale_get, !vsub_get by (rewrite ?map_length, ?affine_len; auto). rewrite affine_get by auto. rewrite (map_get _ _ X i []) by auto.
    unfold aff_f. rewrite (map_get _ _ f i 0) by lia. change (nth i f 0) with (vget f i). rewrite dot_vscale_l. fold D. field. lra. }
  eapply Rle_trans; [apply (coef_beats p NoBound B lineB m 1 1 us us X f c [vmin f + D * t; D * norm2 h] BO lineB_ok); auto|].
  - rewrite BD. cbn. lia.
  - intros u I. apply span_members with (us := us); auto. intro; reflexivity.
  - exact I.
  - replace (misfit p X f (ridge_eval lineB [vmin f + D * t; D * norm2 h] us)) with (misfit p X f (fun x => dot (vscale D h) x + (vmin f + D * t))).
    + rewrite !SC by (rewrite ?vscale_length; auto). apply Rmult_le_compat_l; [lra|]. replace (vscale (/ D) (vscale D h)) with h by (apply vec_ext; [rewrite !vscale_length; auto|]; intros i Hi; rewrite !vscale_get; field; lra). replace ((vmin f + D * t - vmin f) / D) with t by (field; lra). apply BA; [rewrite vscale_length; auto|exact I].
    + unfold misfit. f_equal. f_equal. apply map_ext. intro x. unfold ridge_eval, poly_eval. rewrite <- EU. unfold mv. cbn [map]. rewrite lineV, !dot_cons, !dot_nil_l, EH, !dot_vscale_l. fold h. field. auto.
Qed.

(* ---------- as many directions as variables: no singular value is kept ---------- *)
Theorem fit_square_raises : forall E m d p bd rot X f U0, env_ok E m m d p bd X f -> is_two p bd = true -> length f = length X -> pr_enough m m d (length X) = true -> ~ (m = 1%nat /\ d = 1%nat) ->
  length (start E m U0) = m -> Forall (fun u => length u = m) (start E m U0) -> independent m (start E m U0) -> (0 < e_maxiter E)%nat -> pr_fit E m m d p bd rot X f U0 = Raises.
Proof.
  intros E m d p bd rot X f U0 OK TW Lf EN ND L0 F0 IND MI. unfold pr_fit. fold (start E m U0). rewrite Lf, Nat.eqb_refl, EN. cbn [negb]. assert (AF : (Nat.eqb m 1 && Nat.eqb d 1)%bool = false) by (apply andb_false_iff; rewrite !Nat.eqb_neq; lia). rewrite AF, L0, Nat.eqb_refl.
  assert (FB : forallb (fun u => Nat.eqb (length u) m) (start E m U0) = true) by (apply forallb_forall; intros u I; apply Nat.eqb_eq; rewrite Forall_forall in F0; auto). rewrite FB, TW. cbn [andb negb].
  destruct (good_orth E m m d p bd X f _ OK L0 F0 IND) as [G0 _]. set (us0 := orth (e_qr E) (start E m U0)) in *. pose proof OK as [_ [_ [_ [_ HJ]]]]. destruct (HJ TW us0 G0) as [_ [_ [_ SV]]]. assert (N : fit_varpro E m m X f us0 = None); [|rewrite N; reflexivity].
  unfold fit_varpro, gauss_newton. destruct (e_maxiter E) as [|mi]; [lia|]. cbv zeta. cbn [gn_loop]. unfold gn_body at 1. unfold gn_start at 1 2. cbv zeta. cbn [g_x g_f].
  assert (S : forall r, vp_gnsolver (e_svdJ E) m m (e_jac E (flat m us0)) r = None).
  { intro r. unfold vp_gnsolver. destruct (e_svdJ E (e_jac E (flat m us0))) as [[ys s] zs]. cbn [fst snd] in SV. destruct SV as [_ [_ [_ [Ls _]]]]. rewrite cols_len in Ls. unfold gn_keep. rewrite Ls, Nat.sub_diag. destruct (Nat.eqb m 0); reflexivity. }
  rewrite S. reflexivity.
Qed.

(* ---------- the Jacobian of the variable projection satisfies the contract ---------- *)
Definition rows_of_cols (M : nat) (J : list vec) : mat := map (fun a => map (fun v => vget v a) J) (seq 0 M).
Lemma cols_rows : forall M J, Forall (fun v => length v = M) J -> cols (length J) (rows_of_cols M J) = J.
Proof.
  intros M J F. apply (nth_ext _ _ [] []); [apply cols_len|]. intros j Hj. rewrite cols_len in Hj. unfold cols. rewrite nth_map_seq by auto. assert (LJ : length (nth j J []) = M) by (rewrite Forall_forall in F; apply F, nth_In; auto).
  apply vec_ext; [rewrite col_len; unfold rows_of_cols; rewrite map_length, seq_length; auto|]. intros a Ha. rewrite col_len in Ha. rewrite col_get by auto. unfold rows_of_cols in *. rewrite map_length, seq_length in Ha. rewrite nth_map_seq by auto. rewrite (map_get _ _ J j []) by auto. auto.
Qed.
Theorem varpro_jac_contract : forall B m n us X f c ys s zs sv, gn_pre B m n us X f c ys s zs -> svd_post (length X) (gn_jac B m us X f c ys s zs) (fst (fst sv)) (snd (fst sv)) (snd sv) ->
  jac_ok m n (length X) us (rows_of_cols (length X) (gn_jac B m us X f c ys s zs)) sv.
Proof.
  intros B m n us X f c ys s zs sv P SV. destruct (gn_jac_dims B m n us X f c ys s zs P) as [LJ FJ]. set (J := gn_jac B m us X f c ys s zs) in *. unfold jac_ok. assert (LR : length (rows_of_cols (length X) J) = length X) by (unfold rows_of_cols; rewrite map_length, seq_length; auto).
  assert (FR : Forall (fun a => length a = (m * n)%nat) (rows_of_cols (length X) J)) by (apply Forall_forall; intros a I; unfold rows_of_cols in I; apply in_map_iff in I; destruct I as [k [<- _]]; rewrite map_length; auto).
  split; auto. split; auto. split.
  - intros ds W. rewrite <- (cols_mv (m * n)) by (auto; rewrite flat_len; destruct W as [-> _]; destruct P as [_ [-> _]]; auto). rewrite LR, <- LJ, cols_rows by auto. apply (gn_kernel B m n); auto.
  - unfold svd_mat. rewrite <- LJ, cols_rows by auto. exact SV.
Qed.

(* ---------- a vanishing mean slope: fit throws away a perfect start ---------- *)
Definition zX : mat := [[1; 0]; [-1; 0]; [0; 1]; [0; -1]].
Definition zf : vec := map gq zX.
Lemma gU_good : good 2 1 gU.
Proof. split; auto. split; [repeat constructor|]. intros a b Ha Hb. cbn in Ha, Hb. assert (a = O) by lia. assert (b = O) by lia. subst. cbn. rewrite !dot_cons, !dot_nil_l. lra. Qed.
Lemma zX_dims : Forall (fun x => length x = 2%nat) zX. Proof. repeat constructor. Qed.
Lemma gq_ridge : forall x, length x = 2%nat -> ridge_eval gB [0; 0; 1] gU x = gq x.
Proof. intros x L. destruct x as [|a [|b [|]]]; try discriminate L. unfold ridge_eval, poly_eval, mv, gU. cbn [map]. rewrite gV, !dot_cons, !dot_nil_l. unfold gq, vget. cbn. ring. Qed.
Lemma zf_ridge : zf = map (ridge_eval gB [0; 0; 1] gU) zX.
Proof. unfold zf. apply map_ext_in. intros x I. symmetry. apply gq_ridge. pose proof zX_dims as F. rewrite Forall_forall in F. auto. Qed.
Lemma z_exact : forall E p bd us, env_ok E 2 1 2 p bd zX zf -> good 2 1 us -> same_span 2 gU us -> zf = map (ridge_eval (fst (e_fitc E us)) (snd (e_fitc E us)) us) zX.
Proof.
  intros E p bd us OK G SS. pose proof OK as [HF _]. destruct (HF us G) as [BO [BD CR]]. pose proof G as [Lu [FU OU]]. apply (misfit_zero_inv p); [reflexivity|].
  eapply Rle_trans; [apply (coef_beats p bd _ gB 2 1 1 us gU zX zf _ [0; 0; 1] BO gB_ok); auto|].
  - rewrite BD. cbn. lia.
  - apply span_members; auto. apply gU_good.
  - apply zX_dims.
  - rewrite zf_ridge. apply side_exact.
  - rewrite zf_ridge, misfit_zero. lra.
Qed.
Lemma z_contract : forall E p bd, env_ok E 2 1 2 p bd zX zf -> fit_contract 2 2 zX zf gU (e_fitc E).
Proof.
  intros E p bd OK us L F O SS. change (length gU) with 1%nat in *. assert (G : good 2 1 us) by (split; auto). pose proof OK as [HF _]. destruct (HF us G) as [BO [BD CR]]. split; auto. split; auto. destruct (coef_side p bd _ us zX zf _ eq_refl CR) as [_ Lc]. apply ls_exact; auto.
  rewrite (z_exact E p bd us OK G SS). unfold mv at 1, vp_V. rewrite map_map. apply map_ext. intro x. reflexivity.
Qed.
Lemma z_inj : injective_V gB gU zX.
Proof. apply gV_inj; [right; left; reflexivity|right; right; left; reflexivity| |apply zX_dims]. exists 1. split; [lra|]. split; [lra|]. left. reflexivity. Qed.
Lemma z_finish : forall E p bd, env_ok E 2 1 2 p bd zX zf -> fst (finish (e_fitc E) (e_svd1 E) 2 true zX gU) = [[0; 0]].
Proof.
  intros E p bd OK. pose proof (g_slopes (e_fitc E) zX (z_contract E p bd OK) zX_dims z_inj) as S. unfold finish. change (Nat.ltb 1 (length gU) && true)%bool with false. cbv iota zeta. cbn [fst]. change (seq 0 (length gU)) with [0%nat]. cbn [map]. rewrite slopes_col, S.
  assert (Z : mean (map (fun x => 2 * vget x 0) zX) = 0) by (unfold mean, zX, vsum, vget; cbn; lra). rewrite Z, sgn_0. unfold scale_cols, gU, vscale. cbn. repeat (apply f_equal2; [repeat (apply f_equal2; [ring|]); reflexivity|]). reflexivity.
Qed.
Lemma gn_loop_zero : forall N f F gs ls verbose tol tolx left it s it' s', norm2 (g_f s) = 0 -> gn_loop N F gs ls verbose tol tolx left it s = Some (it', s') -> (forall g d x xn a fn, ls g d x = Some (xn, a, fn) -> fn = f xn) -> g_x s' = g_x s.
Proof.
  intros N f F gs ls verbose tol tolx left. induction left as [|l IH]; intros it s it' s' Z H HL; cbn [gn_loop] in H; [discriminate|].
  assert (K : match gn_body N F gs ls verbose tol tolx s with Exc => True | Next s1 | Brk s1 => g_x s1 = g_x s /\ g_f s1 = g_f s end).
  { unfold gn_body. destruct (gs _ _) as [dx0|]; [|exact I]. destruct (ls _ _ _) as [[[xn a] fn]|]; [|exact I]. cbv zeta. assert (INC : Rleb (norm2 (g_f s)) (norm2 fn) = true) by (apply Rleb_true; rewrite Z; apply norm2_nonneg). rewrite INC. destruct (Rltb _ tol); [auto|]. destruct (Rltb _ tolx); auto. }
  destruct (gn_body N F gs ls verbose tol tolx s) as [|s1|s1]; [discriminate| |injection H as _ <-; apply K]. destruct K as [K1 K2]. destruct l as [|l]; [injection H as _ <-; auto|]. apply IH in H; auto; congruence.
Qed.
Lemma z_opt : forall E p bd us, env_ok E 2 1 2 p bd zX zf -> (if is_two p bd then fit_varpro E 2 1 zX zf gU else fit_alternating E 2 1 p bd zX zf gU) = Some us -> us = gU.
Proof.
  intros E p bd us OK H. assert (SS : same_span 2 gU gU) by (intro; reflexivity). assert (EX : misfit p zX zf (ridge_eval (fst (e_fitc E gU)) (snd (e_fitc E gU)) gU) = 0) by (rewrite (z_exact E p bd gU OK gU_good SS) at 1; apply misfit_zero). destruct (is_two p bd) eqn:TW.
  - unfold fit_varpro in H. destruct (gauss_newton _ _ _ _ _ _ _ _ _ _) as [[x i]|] eqn:GN; [|discriminate]. injection H as <-. assert (XE : x = flat 2 gU); [|rewrite XE; apply (good_flat 2 1 gU gU_good)].
    unfold gauss_newton in GN. destruct (e_maxiter E) as [|mi]; [injection GN as <- _; auto|]. cbv zeta in GN. destruct (gn_loop _ _ _ _ _ _ _ _ _ _) as [[it s]|] eqn:L; [|discriminate]. injection GN as <- _.
    apply (gn_loop_zero _ (vp_flat (e_fitc E) 2 1 zX zf)) in L; auto.
    + unfold gn_start. cbv zeta. cbn [g_f]. rewrite (vp_flat_misfit E 2 1 zX zf gU gU_good eq_refl). destruct p, bd; try discriminate TW. exact EX.
    + intros g q y xn a fn LS. unfold vp_ls in LS. apply armijo_correct in LS. destruct LS as [_ [v [V LS]]]. injection V as <-. destruct LS as [[-> [_ [-> _]]]|[k [_ [_ [_ [K2 _]]]]]]; [auto|]. injection K2 as <-. auto.
  - unfold fit_alternating in H. pose proof (alt_stored_basis E 2 1 2 p bd zX zf gU OK gU_good) as R. destruct (alt_run E 2 1 p bd zX zf gU) as [[s b]|]; [|discriminate]. injection H as <-. cbn [option_map fst] in R. symmetry in R.
    apply (seqlp_correct _ _ _ _ _ _ _ _ _ _ _ _ _ (alt_inv E 2 1)) in R; [|exists gU; split; auto; apply gU_good|intros x fx D q I _; apply (alt_step E 2 1 2 p bd zX zf OK); auto].
    destruct R as [_ [_ [[EQ|[O _]] _]]]; [rewrite EQ; apply alt_us_pack; apply gU_good|]. rewrite alt_fresh_pack, !alt_norm_obj in O by apply gU_good. rewrite pr_residual_map in O. fold (misfit p zX zf (ridge_eval (fst (e_fitc E gU)) (snd (e_fitc E gU)) gU)) in O. rewrite EX in O.
    exfalso. set (r := alt_fresh E 2 1 zX zf (l_x s)) in O. assert (0 <= fit_obj p r) by (destruct p; unfold fit_obj; [rewrite vsum_rsum; apply rsum_nonneg; intros i Hi; rewrite map_length in Hi; rewrite (map_get _ Rabs _ i 0) by auto; apply Rabs_pos|apply norm2_nonneg|rewrite vmax_abs; apply cmax_nonneg]). lra.
Qed.
Lemma zero_dir_const : forall B c x, length x = 2%nat -> ridge_eval B c [[0; 0]] x = poly_eval B c [0].
Proof. intros B c x L. destruct x as [|a [|b [|]]]; try discriminate L. unfold ridge_eval, mv. cbn [map]. rewrite !dot_cons, !dot_nil_l. f_equal. apply f_equal2; [ring|reflexivity]. Qed.
(** with the default rotation, whatever the solvers do: the start fits the data exactly, the result is a constant *)
Theorem fit_erases : forall E p bd us B c, env_ok E 2 1 2 p bd zX zf -> pr_fit E 2 1 2 p bd true zX zf (Some gU) = Fitted us B c ->
  us = [[0; 0]] /\ (forall x y, length x = 2%nat -> length y = 2%nat -> ridge_eval B c us x = ridge_eval B c us y) /\ 0 < misfit p zX zf (ridge_eval B c us) /\ misfit p zX zf (ridge_eval gB [0; 0; 1] gU) = 0.
Proof.
  intros E p bd us B c OK H. destruct (pr_fit_inv _ _ _ _ _ _ _ _ _ _ _ _ _ H) as [_ [_ [_ [_ [us1 [R [EU _]]]]]]]; [lia|]. cbn [start] in R.
  pose proof OK as [_ [HQ _]]. rewrite (orth_keeps (e_qr E) 2 gU) in R by (try apply HQ; auto; apply gU_good). apply (z_opt E p bd us1 OK) in R. subst us1. rewrite (z_finish E p bd OK) in EU. split; auto. rewrite EU. split; [intros; rewrite !zero_dir_const by auto; auto|]. split.
  - pose proof (misfit_nonneg p zX zf (ridge_eval B c [[0; 0]])) as N. destruct (Rle_lt_or_eq_dec _ _ N) as [|Z]; [auto|]. exfalso. assert (Q : zf = map (ridge_eval B c [[0; 0]]) zX) by (apply (misfit_zero_inv p); [reflexivity|lra]).
    unfold zf, zX, gq, vget in Q. cbn [map nth] in Q. rewrite !zero_dir_const in Q by auto. injection Q as Q1 Q2 Q3 Q4. lra.
  - rewrite zf_ridge. apply misfit_zero.
Qed.

(** LipschitzMatrix._fit and DiagonalLipschitzMatrix._fit, sign conventions, basis of the semidefinite program (C56, C75, C76). *)
Require Import Reals Lra Lia List Bool Arith.
From Verif Require Import RVec Num Sums DomMoreModel SweepProofs HullIneqProofs VecTac ArnoldiMoreProofs MatLib SpecProofs LipModel LipProofs LipConstProofs ProjProofs.
Import ListNotations.
Local Open Scope R_scope.

(** ** signs *)
Lemma sgn_pm : forall x, x <> 0 -> sgn x = 1 \/ sgn x = -1.
Proof. intros x H. unfold sgn. destruct (Rltb 0 x) eqn:A; auto. destruct (Rltb x 0) eqn:B; auto. apply Rltb_false in A, B. exfalso. lra. Qed.
Lemma sgn_mul : forall x, sgn x * x = Rabs x.
Proof. intro x. unfold sgn. destruct (Rltb 0 x) eqn:A; [apply Rltb_true in A; rewrite Rabs_right; lra|]. apply Rltb_false in A. destruct (Rltb x 0) eqn:B; [apply Rltb_true in B; rewrite Rabs_left; lra|]. apply Rltb_false in B. replace x with 0 by lra. rewrite Rabs_R0. ring. Qed.
Lemma sgn_0 : sgn 0 = 0.
Proof. unfold sgn. destruct (Rltb 0 0) eqn:A; auto. apply Rltb_true in A. lra. Qed.
Definition pm1 (s : vec) : Prop := Forall (fun a => a = 1 \/ a = -1) s.
Lemma scale_cols_nth : forall s us k, length s = length us -> (k < length us)%nat -> nth k (scale_cols s us) [] = vscale (vget s k) (nth k us []).
Proof. intros s us k L Hk. unfold scale_cols. rewrite (zipw_nth _ _ _ vscale s us k 0 []) by lia. reflexivity. Qed.
Lemma scale_cols_len : forall s us, length s = length us -> length (scale_cols s us) = length us.
Proof. intros. unfold scale_cols. rewrite zipw_length; auto. Qed.
Lemma pm1_get : forall s k, pm1 s -> (k < length s)%nat -> vget s k * vget s k = 1.
Proof. intros s k P Hk. unfold pm1 in P. rewrite Forall_forall in P. assert (I : In (vget s k) s) by (unfold vget; apply nth_In; auto). destruct (P _ I) as [-> | ->]; ring. Qed.
Lemma scale_cols_onb : forall m s us, pm1 s -> length s = m -> onb m us -> onb m (scale_cols s us).
Proof.
  intros m s us P Ls OB. pose proof OB as [LU [F OR]]. split; [rewrite scale_cols_len; lia|]. split.
  - apply Forall_forall. intros u I. apply (In_nth _ _ []) in I. destruct I as [k [Hk <-]]. rewrite scale_cols_len in Hk by lia. rewrite scale_cols_nth by lia. rewrite vscale_length. apply (onb_row m us k OB). lia.
  - intros a b Ha Hb. rewrite scale_cols_len in Ha, Hb by lia. rewrite !scale_cols_nth by lia. rewrite dot_vscale_l, dot_vscale_r. rewrite (OR a b) by auto. destruct (Nat.eqb_spec a b) as [->|]; [|ring]. rewrite Rmult_1_r. apply pm1_get; auto. lia.
Qed.
Lemma signs_samps_pm1 : forall us X fX, pm1 (signs_samps us X fX).
Proof.
  intros us X fX. unfold pm1, signs_samps. apply Forall_forall. intros a I. apply in_map_iff in I. destruct I as [u [<- _]]. apply sgn_pm.
  destruct (Reqb (slope_sum u X fX) 0) eqn:E; [lra|]. apply Reqb_false in E. auto.
Qed.
Definition mean_slope (u : vec) (grads : mat) : R := vsum (map (fun g => dot g u) grads) / INR (length grads).
Lemma signs_grads_pm1 : forall us grads, (forall u, In u us -> mean_slope u grads <> 0) -> pm1 (signs_grads us grads).
Proof. intros us grads N. unfold pm1, signs_grads. apply Forall_forall. intros a I. apply in_map_iff in I. destruct I as [u [<- I]]. apply sgn_pm. apply N. auto. Qed.
Lemma signs_len : forall us X fX grads, length (match grads with [] => signs_samps us X fX | _ => signs_grads us grads end) = length us.
Proof. intros us X fX [|g gs]; [unfold signs_samps|unfold signs_grads]; apply map_length. Qed.
(** with samples only the result is a sign change of each column, and the summed slopes along it are nonnegative *)
Lemma dot_vscale_sum : forall c u X fX, c * c = 1 -> slope_sum (vscale c u) X fX = c * slope_sum u X fX.
Proof.
  intros c u X fX C. unfold slope_sum. generalize (pairs (length X)). induction l as [|ij l IH]; cbn [map]; [change (vsum []) with 0; ring|]. rewrite !vsum_cons, IH. rewrite dot_vscale_l. set (d := dot u _).
  assert (AC : Rabs c = 1) by (destruct (Rcase_abs c); [rewrite Rabs_left by auto; nra|rewrite Rabs_right by auto; nra]).
  rewrite Rabs_mult, AC, Rmult_1_l. destruct (Rltb 0 (Rabs d)) eqn:A; [|ring]. apply Rltb_true in A. assert (D0 : d <> 0) by (intros ->; rewrite Rabs_R0 in A; lra). assert (C0 : c <> 0) by (intros ->; lra).
  assert (IC : / c = c) by (apply (Rmult_eq_reg_l c); [rewrite Rinv_r; auto|auto]). unfold Rdiv at 1. rewrite Rinv_mult, IC. unfold Rdiv. ring.
Qed.
Theorem fix_signs_samps : forall us X fX k, (k < length us)%nat ->
  length (fix_signs us X fX []) = length us /\
  (nth k (fix_signs us X fX []) [] = nth k us [] \/ nth k (fix_signs us X fX []) [] = vscale (-1) (nth k us [])) /\
  0 <= slope_sum (nth k (fix_signs us X fX []) []) X fX.
Proof.
  intros us X fX k Hk. unfold fix_signs. pose proof (signs_samps_pm1 us X fX) as P. set (s := signs_samps us X fX) in *. assert (Ls : length s = length us) by (unfold s, signs_samps; apply map_length).
  split; [apply scale_cols_len; auto|]. rewrite scale_cols_nth by auto. assert (I : In (vget s k) s) by (unfold vget; apply nth_In; lia). unfold pm1 in P. rewrite Forall_forall in P. split.
  - destruct (P _ I) as [-> | ->]; [left|right; auto]. apply vec_ext; [apply vscale_length|]. intros i Hi. rewrite vscale_get. ring.
  - rewrite dot_vscale_sum by (destruct (P _ I) as [-> | ->]; ring). unfold s, signs_samps. rewrite (map_get _ _ us k []) by auto. cbv zeta. destruct (Reqb (slope_sum (nth k us []) X fX) 0) eqn:E.
    + apply Reqb_true in E. rewrite E. lra.
    + rewrite sgn_mul. apply Rabs_pos.
Qed.
(** with gradients the mean slope along each column becomes nonnegative; when it is zero the column is lost *)
Lemma vsum_dot_scale : forall c u gs, vsum (map (fun g => dot g (vscale c u)) gs) = c * vsum (map (fun g => dot g u) gs).
Proof. induction gs as [|g gs IH]; cbn [map]; [change (vsum []) with 0; ring|]. rewrite !vsum_cons, IH, dot_vscale_r. ring. Qed.
Theorem fix_signs_grads : forall us X fX grads k, grads <> [] -> (k < length us)%nat ->
  length (fix_signs us X fX grads) = length us /\
  0 <= mean_slope (nth k (fix_signs us X fX grads) []) grads /\
  (mean_slope (nth k us []) grads <> 0 -> nth k (fix_signs us X fX grads) [] = nth k us [] \/ nth k (fix_signs us X fX grads) [] = vscale (-1) (nth k us [])) /\
  (mean_slope (nth k us []) grads = 0 -> Forall (fun a => a = 0) (nth k (fix_signs us X fX grads) [])).
Proof.
  intros us X fX grads k NE Hk. destruct grads as [|g0 gs]; [congruence|]. unfold fix_signs. set (gr := g0 :: gs) in *. set (s := signs_grads us gr) in *.
  assert (Ls : length s = length us) by (unfold s, signs_grads; apply map_length). split; [apply scale_cols_len; auto|]. rewrite scale_cols_nth by auto.
  assert (G : vget s k = sgn (mean_slope (nth k us []) gr)) by (unfold s, signs_grads; rewrite (map_get _ _ us k []) by auto; reflexivity). rewrite G. set (ms := mean_slope (nth k us []) gr) in *. split; [|split].
  - unfold mean_slope. rewrite vsum_dot_scale. unfold Rdiv. rewrite Rmult_assoc. change (vsum (map (fun g => dot g (nth k us [])) gr) * / INR (length gr)) with ms. rewrite sgn_mul. apply Rabs_pos.
  - intro N. destruct (sgn_pm ms N) as [-> | ->]; [left|right; auto]. apply vec_ext; [apply vscale_length|]. intros i Hi. rewrite vscale_get. ring.
  - intros ->. rewrite sgn_0. apply Forall_forall. intros a I. unfold vscale in I. apply in_map_iff in I. destruct I as [b [<- _]]. ring.
Qed.
(** finding: gradients 1 and -1 give the zero matrix as orthonormal basis *)
Theorem fix_signs_grads_refuted : exists us grads, onb 1 us /\ length grads = 2%nat /\ fix_signs us [] [] grads = [[0]].
Proof.
  exists [[1]], [[1]; [-1]]. split; [apply onb1|]. split; auto. unfold fix_signs, signs_grads. cbn [map scale_cols zipw]. rewrite !vsum_cons. change (vsum []) with 0. rewrite !dot1.
  match goal with |- context [sgn ?t] => replace t with 0 by (unfold Rdiv; ring) end. rewrite sgn_0. cbn [vscale map]. do 2 f_equal. ring.
Qed.

(** ** LipschitzMatrix._fit *)
Lemma rev_get : forall (l : vec) k, (k < length l)%nat -> vget (rev l) k = vget l (length l - 1 - k).
Proof. intros l k Hk. unfold vget. rewrite rev_nth by auto. f_equal. lia. Qed.
Lemma rev_onb : forall m us, onb m us -> onb m (rev us).
Proof.
  intros m us [LU [F OR]]. split; [rewrite rev_length; auto|]. split; [apply Forall_rev; auto|]. intros a b Ha Hb. rewrite rev_length in Ha, Hb. rewrite !rev_nth by auto.
  rewrite (OR (length us - S a)%nat (length us - S b)%nat) by lia. destruct (Nat.eqb_spec (length us - S a) (length us - S b)); destruct (Nat.eqb_spec a b); auto; lia.
Qed.
Lemma rsum_rev : forall n f, rsum n (fun k => f (n - 1 - k)%nat) = rsum n f.
Proof.
  induction n as [|n IH]; intro f; auto. rewrite rsum_S_first. replace (S n - 1 - 0)%nat with n by lia. cbn [rsum]. rewrite Rplus_comm. f_equal. rewrite <- IH. apply rsum_ext. intros k Hk. f_equal. lia.
Qed.
Lemma signs_any_pm1 : forall us X fX gr, (gr = [] \/ forall u, In u us -> mean_slope u gr <> 0) -> pm1 (match gr with [] => signs_samps us X fX | _ :: _ => signs_grads us gr end).
Proof. intros us X fX gr [->|N]; [apply signs_samps_pm1|]. destruct gr; [apply signs_samps_pm1|apply signs_grads_pm1; auto]. Qed.
Section Fit.
Context (m : nat) (eigh : mat -> vec * list vec) (H : mat) (X : mat) (fX : vec) (grads : mat) (scale : R).
Hypothesis EK : eigh_ok m eigh.
Hypothesis SH : sq m H.
Hypothesis MH : msym m H.
Hypothesis PS : 0 < scale.
Definition sgrads : mat := map (vscale (/ scale)) grads.
(** no direction is lost: either there are no gradients, or no mean slope along an eigenvector is zero *)
Definition signs_fine : Prop := grads = [] \/ forall u, In u (snd (eigh H)) -> mean_slope u sgrads <> 0.
Hypothesis SF : signs_fine.
Let e := eigh H.
Let us := rev (snd e).
Let us' := fix_signs us X (vscale (/ scale) fX) sgrads.
Let ew := rev (fst e).
Lemma fit_onb : onb m us'.
Proof.
  destruct (EK H SH MH) as [_ [OB _]]. apply rev_onb in OB. unfold us', fix_signs. change (rev (snd (eigh H))) with us in OB. fold us.
  assert (P : pm1 (match sgrads with [] => signs_samps us X (vscale (/ scale) fX) | _ :: _ => signs_grads us sgrads end)).
  { apply signs_any_pm1. destruct SF as [G|N]; [left; unfold sgrads; rewrite G; reflexivity|right]. intros u I. apply N. unfold us in I. apply in_rev in I. auto. }
  apply scale_cols_onb; auto. rewrite signs_len. destruct OB; auto.
Qed.
Lemma fit_us_dot : forall k x, (k < m)%nat -> dot (nth k us' []) x * dot (nth k us' []) x = dot (nth (m - 1 - k) (snd e) []) x * dot (nth (m - 1 - k) (snd e) []) x.
Proof.
  intros k x Hk. destruct (EK H SH MH) as [_ [OB _]]. fold e in OB. assert (LU : length us = m) by (unfold us; rewrite rev_length; destruct OB; auto).
  unfold us', fix_signs. set (s := match sgrads with [] => _ | _ :: _ => _ end). assert (P : pm1 s).
  { apply signs_any_pm1. destruct SF as [G|N]; [left; unfold sgrads; rewrite G; reflexivity|right]. intros u I. apply N. unfold us in I. apply in_rev in I. auto. }
  assert (Ls : length s = length us) by apply signs_len. rewrite scale_cols_nth by lia. rewrite dot_vscale_l. replace (nth k us []) with (nth (m - 1 - k) (snd e) []) by (unfold us; rewrite rev_nth by (destruct OB; lia); f_equal; destruct OB; lia).
  pose proof (pm1_get s k P ltac:(lia)) as S2. set (d := dot _ x). replace (vget s k * d * (vget s k * d)) with ((vget s k * vget s k) * (d * d)) by ring. rewrite S2. ring.
Qed.
Lemma mapfun_get : forall (f : R -> R) (l : vec) k, (k < length l)%nat -> vget (map f l) k = f (vget l k).
Proof. intros f l k Hk. unfold vget. apply (nth_map_any _ _ f l k 0). auto. Qed.
Lemma ew_len : length ew = m.
Proof. destruct (EK H SH MH) as [L _]. unfold ew. rewrite rev_length. auto. Qed.
Lemma lm_fit_quadH : forall x, length x = m -> quad (snd (fst (lm_fit eigh H X fX grads scale))) x = scale ^ 2 * rsum m (fun k => Rmax (vget (fst e) k) 0 * (dot (nth k (snd e) []) x * dot (nth k (snd e) []) x)).
Proof.
  intros x Hx. unfold lm_fit. cbn [fst snd]. fold e ew us sgrads. fold us'. assert (LH : length H = m) by apply SH. rewrite LH. rewrite quad_mscale. f_equal.
  rewrite (quad_spec_onb m) by (first [apply fit_onb|rewrite map_length; apply ew_len]). rewrite <- (rsum_rev m (fun k => Rmax (vget (fst e) k) 0 * _)). apply rsum_ext. intros k Hk. pose proof ew_len as LW. unfold ew in LW. rewrite rev_length in LW.
  rewrite mapfun_get by (rewrite ew_len; auto). unfold ew. rewrite rev_get by lia. rewrite LW. f_equal. apply fit_us_dot. auto.
Qed.
Lemma lm_fit_normL : forall x, length x = m -> norm2sq (mv (snd (lm_fit eigh H X fX grads scale)) x) = quad (snd (fst (lm_fit eigh H X fX grads scale))) x.
Proof.
  intros x Hx. rewrite lm_fit_quadH by auto. unfold lm_fit. cbn [fst snd]. fold e ew us sgrads. fold us'. assert (LH : length H = m) by apply SH. rewrite LH. rewrite mv_mscale. unfold norm2sq. rewrite dot_vscale_l, dot_vscale_r.
  change (dot (mv ?A x) (mv ?A x)) with (norm2sq (mv A x)). pose proof fit_onb as [LU [F OR]]. rewrite (dot_spec_sq m) by (auto; rewrite map_length, ew_len; auto). rewrite LU.
  replace (scale ^ 2) with (scale * scale) by ring. rewrite Rmult_assoc. f_equal. f_equal. rewrite <- (rsum_rev m (fun k => Rmax (vget (fst e) k) 0 * _)). apply rsum_ext. intros k Hk. pose proof ew_len as LW. unfold ew in LW. rewrite rev_length in LW.
  rewrite mapfun_get by (rewrite ew_len; auto). rewrite sqrt_sqrt by apply Rmax_r. unfold ew. rewrite rev_get by lia. rewrite LW. f_equal. apply fit_us_dot. auto.
Qed.
Lemma lm_fit_above : forall x, length x = m -> scale ^ 2 * quad H x <= quad (snd (fst (lm_fit eigh H X fX grads scale))) x.
Proof.
  intros x Hx. rewrite lm_fit_quadH by auto. apply Rmult_le_compat_l; [nra|]. rewrite (eigh_quad m H e x (EK H SH MH)). apply rsum_le. intros k Hk. apply Rmult_le_compat_r; [apply Rle_0_sqr|apply Rmax_l].
Qed.
Lemma lm_fit_psd : forall x, length x = m -> 0 <= quad (snd (fst (lm_fit eigh H X fX grads scale))) x.
Proof. intros x Hx. rewrite <- lm_fit_normL by auto. apply norm2sq_nonneg. Qed.
(** if the builder's H was already positive semidefinite nothing changes except the scaling *)
Lemma lm_fit_exact : psd m H -> forall x, length x = m -> quad (snd (fst (lm_fit eigh H X fX grads scale))) x = scale ^ 2 * quad H x.
Proof.
  intros P x Hx. rewrite lm_fit_quadH by auto. f_equal. destruct (EK H SH MH) as [Lw [OB [ES SO]]]. rewrite (eigh_quad m H e x (EK H SH MH)). apply rsum_ext. intros k Hk. f_equal. apply Rmax_left.
  pose proof (onb_row m _ k OB Hk) as LR. specialize (P _ LR). rewrite (eigh_quad m H e _ (EK H SH MH)) in P. destruct OB as [LU [F OR]]. change (eigh H) with e in P, OR, LU. rewrite (rsum_single m k) in P; [|auto|].
  - rewrite (OR k k) in P by lia. rewrite Nat.eqb_refl in P. lra.
  - intros j Hj NEj. rewrite (OR j k) by lia. destruct (Nat.eqb_spec j k); [contradiction|ring].
Qed.
End Fit.
(** what the builder guarantees on the scaled data: the constraints of the semidefinite program (lipschitz.py 210-226) *)
Definition builder_ok (m : nat) (X : mat) (fX : vec) (grads : mat) (eps : R) (H : mat) : Prop :=
  sq m H /\ msym m H /\
  (forall i j, (i < j < length X)%nat -> (Rmax (Rabs (vget fX i - vget fX j) - eps) 0) ^ 2 <= quad H (pair_p X i j)) /\
  (forall g, In g grads -> loewner m (outer g g) H).
(** the fitted L satisfies every constraint of the unscaled data: |f_i - f_j| <= |L(x_i - x_j)| + epsilon, |g.x| <= |L x| *)
Theorem lm_fit_constraints : forall m eigh H X fX grads scale eps, eigh_ok m eigh -> 0 < scale -> Forall (dimP m) X -> Forall (dimP m) grads ->
  builder_ok m X (vscale (/ scale) fX) (map (vscale (/ scale)) grads) (eps / scale) H -> signs_fine eigh H grads scale ->
  let L := snd (lm_fit eigh H X fX grads scale) in
  (forall i j, (i < j < length X)%nat -> Rabs (vget fX i - vget fX j) <= norm2 (mv L (vsub (nth i X []) (nth j X []))) + eps) /\
  (forall g x, In g grads -> length x = m -> Rabs (dot g x) <= norm2 (mv L x)).
Proof.
  intros m eigh H X fX grads scale eps EK PS FX FG [SH [MH [B1 B2]]] SF L.
  assert (NL : forall x, length x = m -> scale ^ 2 * quad H x <= norm2sq (mv L x)).
  { intros x Hx. unfold L. rewrite (lm_fit_normL m) by auto. apply (lm_fit_above m); auto. }
  assert (SS : 0 < scale * scale) by nra. split.
  - intros i j Hij. pose proof (pp_len m X FX i j Hij) as LP. specialize (B1 i j Hij). specialize (NL _ LP). rewrite !vscale_get in B1. fold (pair_p X i j). set (p := pair_p X i j) in *. set (df := vget fX i - vget fX j).
    replace (/ scale * vget fX i - / scale * vget fX j) with (/ scale * df) in B1 by (unfold df; ring). rewrite Rabs_mult, (Rabs_right (/ scale)) in B1 by (apply Rle_ge, Rlt_le, Rinv_0_lt_compat; auto).
    pose proof (norm2_nonneg (mv L p)) as N0. destruct (Rle_dec (Rabs df) eps) as [LE|LE]; [lra|]. assert (GT : 0 < Rabs df - eps) by lra.
    assert (E : / scale * Rabs df - eps / scale = (Rabs df - eps) / scale) by (field; lra). rewrite E in B1. rewrite Rmax_left in B1 by (unfold Rdiv; apply Rmult_le_pos; [lra|apply Rlt_le, Rinv_0_lt_compat; auto]).
    assert (Q : (Rabs df - eps) * (Rabs df - eps) <= norm2sq (mv L p)).
    { eapply Rle_trans; [|exact NL]. replace ((Rabs df - eps) * (Rabs df - eps)) with (scale ^ 2 * ((Rabs df - eps) / scale) ^ 2) by (field; lra). apply Rmult_le_compat_l; [nra|]. auto. }
    rewrite <- norm2_sq in Q. assert (Rabs df - eps <= norm2 (mv L p)) by nra. lra.
  - intros g x I Hx. specialize (NL x Hx). specialize (B2 (vscale (/ scale) g) (in_map _ _ _ I) x Hx). rewrite quad_outer, dot_vscale_l in B2.
    assert (Q : dot g x * dot g x <= norm2sq (mv L x)).
    { eapply Rle_trans; [|exact NL]. replace (dot g x * dot g x) with (scale ^ 2 * (/ scale * dot g x * (/ scale * dot g x))) by (field; lra). apply Rmult_le_compat_l; [nra|]. auto. }
    rewrite <- norm2_sq in Q. pose proof (norm2_nonneg (mv L x)). unfold Rabs. destruct (Rcase_abs _); nra.
Qed.
(** L is a square root of H, H is positive semidefinite and equals scale^2 times the builder's matrix when that was *)
Theorem lm_fit_root : forall m eigh H X fX grads scale, eigh_ok m eigh -> 0 < scale -> sq m H -> msym m H -> signs_fine eigh H grads scale -> forall x, length x = m ->
  let r := lm_fit eigh H X fX grads scale in
  norm2sq (mv (snd r) x) = quad (snd (fst r)) x /\ 0 <= quad (snd (fst r)) x /\ scale ^ 2 * quad H x <= quad (snd (fst r)) x /\ (psd m H -> quad (snd (fst r)) x = scale ^ 2 * quad H x) /\ onb m (fst (fst r)).
Proof.
  intros m eigh H X fX grads scale EK PS SH MH SF x Hx r. unfold r. split; [apply (lm_fit_normL m); auto|]. split; [apply (lm_fit_psd m); auto|]. split; [apply (lm_fit_above m); auto|]. split; [intro P; apply (lm_fit_exact m); auto|].
  apply (fit_onb m eigh H X fX grads scale); auto.
Qed.
(** finding: when a mean slope vanishes the fitted H and L lose that direction: gradients 1, -1 give L = 0 *)
Theorem lm_fit_sign_refuted : exists grads H, builder_ok 1 [] [] grads 0 H /\ lip_scale [] grads = 1 /\ eigh_ok 1 eigh1 /\ lm_fit eigh1 H [] [] grads 1 = ([[0]], [[0]], [[0]]) /\
  ~ (forall g, In g grads -> Rabs (dot g [1]) <= norm2 (mv (snd (lm_fit eigh1 H [] [] grads 1)) [1])).
Proof.
  assert (E : lm_fit eigh1 [[1]] [] [] [[1]; [-1]] 1 = ([[0]], [[0]], [[0]])).
  { unfold lm_fit, eigh1, mget, vget. cbn [fst snd nth rev app map length]. unfold fix_signs, signs_grads. cbn [map scale_cols zipw vscale]. rewrite !vsum_cons. change (vsum []) with 0. rewrite !dot1.
    match goal with |- context [sgn ?t] => replace t with 0 by (unfold Rdiv; ring) end. rewrite sgn_0. rewrite Rmult_0_l. cbn. repeat f_equal; ring. }
  exists [[1]; [-1]], [[1]]. split; [|split; [|split; [apply ex_eigh1|split; [exact E|]]]].
  - split; [apply sq1|]. split; [intros i j Hi Hj; assert (i = 0 /\ j = 0)%nat as [-> ->] by lia; auto|]. split; [intros i j Hij; simpl in Hij; lia|]. intros g [<-|[<-|[]]] [|x [|]] Hx; try discriminate; rewrite quad_outer, quad1, dot1; nra.
  - unfold lip_scale. cbn [map vmax fold_left]. rewrite !norm2_1. rewrite (Rabs_left (-1)), (Rabs_right 1) by lra. unfold Rmax. repeat destruct (Rle_dec _ _); lra.
  - rewrite E. cbn [snd]. intro C. specialize (C [1] (or_introl eq_refl)). rewrite dot1 in C. cbn [mv map] in C. rewrite dot1, norm2_1 in C. rewrite Rmult_0_l, Rabs_R0, Rabs_right in C; lra.
Qed.
(** the scale is positive unless the data are constant and all the gradients vanish *)
Theorem lip_scale_pos : forall fX grads, (fX = [] \/ grads = [] \/ (exists i j, (i < length fX)%nat /\ (j < length fX)%nat /\ vget fX i <> vget fX j) \/ exists g, In g grads /\ 0 < norm2 g) -> 0 < lip_scale fX grads.
Proof.
  intros fX grads [->|[->|[[i [j [Hi [Hj D]]]]|[g [I G]]]]]; unfold lip_scale.
  - eapply Rlt_le_trans; [|apply Rmax_l]. lra.
  - eapply Rlt_le_trans; [|apply Rmax_r]. lra.
  - eapply Rlt_le_trans; [|apply Rmax_l]. destruct fX as [|a fX']; [simpl in Hi; lia|]. set (l := a :: fX') in *. destruct (vmax_spec l ltac:(discriminate)) as [M _]. destruct (vmin_spec l ltac:(discriminate)) as [N _].
    assert (I1 : In (vget l i) l) by (unfold vget; apply nth_In; auto). assert (I2 : In (vget l j) l) by (unfold vget; apply nth_In; auto). pose proof (M _ I1). pose proof (M _ I2). pose proof (N _ I1). pose proof (N _ I2). destruct (Rtotal_order (vget l i) (vget l j)) as [?|[?|?]]; lra.
  - eapply Rlt_le_trans; [|apply Rmax_r]. destruct grads as [|g0 gs]; [contradiction|]. destruct (vmax_spec (map norm2 (g0 :: gs)) ltac:(discriminate)) as [M _]. pose proof (M _ (in_map norm2 _ _ I)). lra.
Qed.
Example ex_fit_case : eigh_ok 1 eigh1 /\ builder_ok 1 [[0]; [1]] (vscale (/ 4) [0; 4]) (map (vscale (/ 4)) [[2]]) (1 / 4) [[1]] /\ signs_fine eigh1 [[1]] [[2]] 4.
Proof.
  split; [apply ex_eigh1|]. split; [split; [apply sq1|split; [intros i j Hi Hj; assert (i = 0 /\ j = 0)%nat as [-> ->] by lia; auto|split]]|].
  - intros i j Hij. simpl in Hij. assert (i = 0 /\ j = 1)%nat as [-> ->] by lia. unfold pair_p, vget. cbn [vscale map nth vsub vmap2]. rewrite quad1. replace (/ 4 * 0 - / 4 * 4) with (-1) by field. rewrite Rabs_left by lra. rewrite Rmax_left by lra. lra.
  - intros g [<-|[]] [|x [|]] Hx; try discriminate. cbn [vscale map]. rewrite quad_outer, quad1, dot1. nra.
  - right. intros u [<-|[]]. unfold mean_slope, sgrads. cbn [map vscale length]. rewrite vsum_cons. change (vsum []) with 0. rewrite dot1. replace (INR 1) with 1 by reflexivity. lra.
Qed.

(** ** DiagonalLipschitzMatrix._fit: H = diag(dH), L = diag(dL) with dL^2 = dH >= 0 *)
Definition diag_quad (d : vec) (x : vec) : R := vsum (vmul d (vmul x x)).
Theorem dlm_fit_correct : forall h scale k, 0 < scale -> (k < length h)%nat ->
  length (fst (dlm_fit h scale)) = length h /\ length (snd (dlm_fit h scale)) = length h /\
  vget (snd (dlm_fit h scale)) k * vget (snd (dlm_fit h scale)) k = vget (fst (dlm_fit h scale)) k /\
  0 <= vget (snd (dlm_fit h scale)) k /\
  scale ^ 2 * vget h k <= vget (fst (dlm_fit h scale)) k /\
  (0 <= vget h k -> vget (fst (dlm_fit h scale)) k = scale ^ 2 * vget h k).
Proof.
  intros h scale k PS Hk. unfold dlm_fit. cbn [fst snd]. rewrite !vscale_length, !map_length, !vscale_get. rewrite mapfun_get by (rewrite map_length; auto). rewrite mapfun_get by auto.
  split; auto. split; auto. split; [pose proof (sqrt_sqrt (Rmax (vget h k) 0) (Rmax_r _ _)); set (q := sqrt _) in *; rewrite <- H; ring|]. split; [apply Rmult_le_pos; [lra|apply sqrt_pos]|]. split.
  - apply Rmult_le_compat_l; [nra|apply Rmax_l].
  - intro P. rewrite Rmax_left by auto. auto.
Qed.

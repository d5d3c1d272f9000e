(** The Gauss-Newton step of polyridge.py 519-524 and polyridge_vec.py 22-27: dropping n^2 singular values leaves a step that is
    orthogonal to the current subspace and still solves the linear least squares problem. *)
Require Import Reals Lra Lia List Bool Arith.
From Verif Require Import RVec Num Sums DomModel DomMoreModel SweepProofs HullProofs Deriv BasisModel IndexProofs PolyProofs MatLib SpecProofs GrassLib LipModel LipFitProofs SubModel ActiveProofs RidgeModel RidgeProofs TrajProofs PolySpan VarproLib VarproProofs.
Import ListNotations.
Local Open Scope R_scope.

Lemma svd_apply : forall M J ys s zs q a, svd_post M J ys s zs -> Forall (fun v => length v = M) J -> length q = length J -> (a < M)%nat ->
  vget (lincomb M J q) a = rsum (length J) (fun i => vget s i * dot (nth i zs []) q * vget (nth i ys []) a).
Proof.
  intros M J ys s zs q a [Ly [FY [OY [Ls [OZ E]]]]] FJ Lq Ha. rewrite MatLib.lincomb_get by auto.
  rewrite (rsum_ext _ _ (fun k => rsum (length J) (fun i => vget s i * vget (nth i ys []) a * (vget (nth i zs []) k * vget q k)))).
  - rewrite rsum_swap. apply rsum_ext. intros i Hi. rewrite rsum_scal_l. rewrite (dot_rs (length J)) by (auto; apply (onb_row (length J)); auto). ring.
  - intros k Hk. pose proof OZ as [Lz _]. rewrite E by auto. rewrite MatLib.lincomb_get by (auto; unfold vmul; rewrite vmap2_length; rewrite ?col_len; lia). rewrite Ly, <- rsum_scal_l. apply rsum_ext. intros i Hi. rewrite vmul_get by (rewrite col_len; lia). rewrite col_get by lia. ring.
Qed.
Lemma svd_apply_y : forall M J ys s zs q i, svd_post M J ys s zs -> Forall (fun v => length v = M) J -> length q = length J -> (i < length J)%nat ->
  dot (nth i ys []) (lincomb M J q) = vget s i * dot (nth i zs []) q.
Proof.
  intros M J ys s zs q i SV FJ Lq Hi. pose proof SV as [Ly [FY [OY [Ls [OZ E]]]]]. assert (LY : forall k, (k < length J)%nat -> length (nth k ys []) = M) by (intros k Hk; rewrite Forall_forall in FY; apply FY, nth_In; lia).
  rewrite (dot_rs M) by (auto; apply lincomb_length; auto).
  rewrite (rsum_ext M _ (fun a => rsum (length J) (fun k => vget s k * dot (nth k zs []) q * (vget (nth i ys []) a * vget (nth k ys []) a)))) by (intros a Ha; rewrite (svd_apply M J ys s zs) by auto; rewrite <- rsum_scal_l; apply rsum_ext; intros; ring).
  rewrite rsum_swap. rewrite (rsum_single _ i) by (auto; intros k Hk Nk; rewrite rsum_scal_l, <- (dot_rs M) by auto; rewrite OY by lia; rewrite (proj2 (Nat.eqb_neq i k)) by auto; ring).
  rewrite rsum_scal_l, <- (dot_rs M) by auto. rewrite OY by lia. rewrite Nat.eqb_refl. ring.
Qed.
Lemma gn_dot : forall NN n ys s zs r v, onb NN zs -> length s = NN -> length v = NN -> 
  length (gn_solve NN n ys s zs r) = NN /\ dot v (gn_solve NN n ys s zs r) = - rsum (gn_keep n s) (fun i => / vget s i * dot (nth i ys []) r * dot v (nth i zs [])).
Proof.
  intros NN n ys s zs r v [Lz [FZ OZ]] Ls Lv. unfold gn_solve. set (K := gn_keep n s). assert (HK : (K <= NN)%nat) by (unfold K, gn_keep; destruct (Nat.eqb n 0); lia).
  assert (FF : Forall (fun z => length z = NN) (firstn K zs)) by (apply Forall_forall; intros z I; rewrite Forall_forall in FZ; apply FZ; rewrite <- (firstn_skipn K zs); apply in_or_app; auto).
  assert (LF : length (firstn K zs) = K) by (rewrite firstn_length; lia).
  split; [rewrite vscale_length; apply lincomb_length; auto|]. rewrite dot_vscale_r, (dot_lincomb_r NN) by (auto; rewrite map_length, seq_length; auto). rewrite LF.
  rewrite (rsum_ext K _ (fun i => / vget s i * dot (nth i ys []) r * dot v (nth i zs []))); [ring|]. intros i Hi. rewrite vget_map_seq by auto. rewrite ActiveProofs.firstn_nth by auto. auto.
Qed.
Lemma gn_orth_kernel : forall M J n ys s zs r v, svd_post M J ys s zs -> Forall (fun v => length v = M) J -> (forall i, (i < gn_keep n s)%nat -> vget s i <> 0) -> length v = length J -> lincomb M J v = vzero M ->
  dot v (gn_solve (length J) n ys s zs r) = 0.
Proof.
  intros M J n ys s zs r v SV FJ NZ Lv KV. pose proof SV as [Ly [FY [OY [Ls [OZ E]]]]]. destruct (gn_dot (length J) n ys s zs r v OZ Ls Lv) as [_ ->].
  rewrite rsum_zero; [ring|]. intros i Hi. assert (HK : (i < length J)%nat) by (unfold gn_keep in Hi; destruct (Nat.eqb n 0); lia).
  pose proof (svd_apply_y M J ys s zs v i SV FJ Lv HK) as A. rewrite KV, dot_zero_r in A. assert (Z : dot (nth i zs []) v = 0) by (symmetry in A; apply Rmult_integral in A; destruct A as [A|A]; [exfalso; apply (NZ i); auto|auto]). rewrite (dot_comm v), Z. ring.
Qed.
(** column l of the direction is u_p, the others are zero *)
Definition dirpl (m : nat) (us : list vec) (p l : nat) : list vec := map (fun q => if Nat.eqb q l then nth p us [] else vzero m) (seq 0 (length us)).
Lemma dirpl_len : forall m us p l, length (dirpl m us p l) = length us. Proof. intros. unfold dirpl. rewrite map_length, seq_length. auto. Qed.
Lemma spans_zero : forall m us, Forall (fun u => length u = m) us -> spans m us (vzero m).
Proof.
  intros m us FU. exists (vzero (length us)). split; [apply repeat_length|]. apply vec_ext; [unfold vzero; rewrite repeat_length, lincomb_length; auto|]. intros i Hi. unfold vzero in Hi. rewrite repeat_length in Hi. rewrite vzero_get. rewrite MatLib.lincomb_get by (auto; apply repeat_length). symmetry. apply rsum_zero. intros. rewrite vzero_get. ring.
Qed.
Lemma dirpl_within : forall m us p l, Forall (fun u => length u = m) us -> (p < length us)%nat -> within m us (dirpl m us p l).
Proof.
  intros m us p l FU Hp. split; [apply dirpl_len|]. intros d I. unfold dirpl in I. apply in_map_iff in I. destruct I as [q [<- _]]. destruct (Nat.eqb q l); [apply spans_col; auto|apply spans_zero; auto].
Qed.
Lemma dirpl_ent : forall m us p l q k, (q < length us)%nat -> ent (dirpl m us p l) q k = if Nat.eqb q l then vget (nth p us []) k else 0.
Proof. intros m us p l q k Hq. unfold ent, dirpl. rewrite nth_map_seq by auto. destruct (Nat.eqb q l); auto. apply vzero_get. Qed.
Lemma unflat_len : forall m n q, length (unflat m n q) = n /\ Forall (fun d => length d = m) (unflat m n q).
Proof. intros. unfold unflat. split; [rewrite map_length, seq_length; auto|]. apply Forall_forall. intros d I. apply in_map_iff in I. destruct I as [l [<- _]]. rewrite map_length, seq_length. auto. Qed.
Lemma unflat_ent : forall m n q l k, (l < n)%nat -> (k < m)%nat -> ent (unflat m n q) l k = vget q (k * n + l).
Proof. intros m n q l k Hl Hk. unfold ent, unflat. rewrite nth_map_seq by auto. rewrite vget_map_seq by auto. auto. Qed.
Lemma dirpl_dot : forall m us p l q, Forall (fun u => length u = m) us -> (p < length us)%nat -> (l < length us)%nat -> length q = (m * length us)%nat ->
  dot (flat m (dirpl m us p l)) q = dot (nth p us []) (nth l (unflat m (length us) q) []).
Proof.
  intros m us p l q FU Hp Hl Lq. assert (Lup : length (nth p us []) = m) by (rewrite Forall_forall in FU; apply FU, nth_In; auto). destruct (unflat_len m (length us) q) as [L1 L2].
  assert (LD : length (flat m (dirpl m us p l)) = (m * length us)%nat) by (rewrite flat_len, dirpl_len; auto).
  rewrite (dot_rs (m * length us)) by auto. rewrite rsum_grid. rewrite (dot_rs m) by (auto; rewrite Forall_forall in L2; apply L2, nth_In; lia). apply rsum_ext. intros k Hk.
  rewrite (rsum_single _ l) by (auto; intros i Hi Ni; rewrite <- (dirpl_len m us p l) at 1; rewrite flat_get by (rewrite ?dirpl_len; auto); rewrite dirpl_ent by auto; rewrite (proj2 (Nat.eqb_neq i l)) by auto; ring).
  rewrite <- (dirpl_len m us p l) at 1. rewrite flat_get by (rewrite ?dirpl_len; auto). rewrite dirpl_ent by auto. rewrite Nat.eqb_refl. rewrite <- (unflat_ent m (length us) q l k) by auto. auto.
Qed.
(** what the step is computed from *)
Definition gn_pre (B : tbasis) (m n : nat) (us : list vec) (X : mat) (f c : vec) (ys : list vec) (s : vec) (zs : list vec) : Prop :=
  basis_ok B n /\ length us = n /\ Forall (fun u => length u = m) us /\ Forall (fun x => length x = m) X /\ length f = length X /\
  ls_opt (length (indices B)) (vp_V B us X) f c /\ svd_mat (length X) (length (indices B)) (vp_V B us X) ys s zs.
Definition gn_jac (B : tbasis) (m : nat) (us : list vec) (X : mat) (f c : vec) (ys : list vec) (s : vec) (zs : list vec) : list vec := vp_jac B us m X ys s zs c (vp_residual (vp_V B us X) f c).
Lemma gn_kernel : forall B m n us X f c ys s zs ds, gn_pre B m n us X f c ys s zs -> within m us ds -> lincomb (length X) (gn_jac B m us X f c ys s zs) (flat m ds) = vzero (length X).
Proof.
  intros B m n us X f c ys s zs ds [OB [Lu [FU [FX [Lf [LS SV]]]]]] W. unfold gn_jac. pose proof LS as [Lc _]. apply (jac_kernel B m n); auto.
  - unfold vp_residual. rewrite vsub_length; rewrite ?mv_length, ?vp_V_len; auto.
  - intros e Le. apply (ls_normal (length (indices B))); auto; [apply vp_V_rows|rewrite vp_V_len; auto].
Qed.
Lemma gn_jac_dims : forall B m n us X f c ys s zs, gn_pre B m n us X f c ys s zs -> length (gn_jac B m us X f c ys s zs) = (m * n)%nat /\ Forall (fun v => length v = length X) (gn_jac B m us X f c ys s zs).
Proof.
  intros B m n us X f c ys s zs [OB [Lu [FU [FX [Lf [LS SV]]]]]]. pose proof LS as [Lc _]. unfold gn_jac. split; [rewrite vp_jac_len; subst; auto|]. apply vp_jac_cols; auto. unfold vp_residual. rewrite vsub_length; rewrite ?mv_length, ?vp_V_len; auto.
Qed.
Theorem gn_step_horizontal : forall B m n us X f c ys s zs yJ sJ zJ, gn_pre B m n us X f c ys s zs -> svd_post (length X) (gn_jac B m us X f c ys s zs) yJ sJ zJ -> (forall i, (i < gn_keep n sJ)%nat -> vget sJ i <> 0) ->
  tangent us (unflat m n (gn_solve (m * n) n yJ sJ zJ (vp_residual (vp_V B us X) f c))).
Proof.
  intros B m n us X f c ys s zs yJ sJ zJ P SJ NZ u d Iu Id. destruct (gn_jac_dims B m n us X f c ys s zs P) as [LJ FJ]. pose proof P as [OB [Lu [FU _]]]. subst n.
  apply (In_nth _ _ []) in Iu. destruct Iu as [p [Hp <-]]. destruct (unflat_len m (length us) (gn_solve (m * length us) (length us) yJ sJ zJ (vp_residual (vp_V B us X) f c))) as [L1 L2]. apply (In_nth _ _ []) in Id. destruct Id as [l [Hl <-]]. rewrite L1 in Hl.
  pose proof SJ as [_ [_ [_ [Ls [OZ _]]]]]. rewrite LJ in Ls, OZ. destruct (gn_dot (m * length us) (length us) yJ sJ zJ (vp_residual (vp_V B us X) f c) (vzero (m * length us)) OZ Ls (repeat_length _ _)) as [LG _].
  rewrite <- dirpl_dot by auto. rewrite <- LJ. apply (gn_orth_kernel (length X)); auto; [rewrite flat_len, dirpl_len; auto|]. apply (gn_kernel B m (length us)); auto. apply dirpl_within; auto.
Qed.
(** at most m orthonormal vectors in R^m *)
Lemma orthonormal_count : forall m vs, Forall (fun v => length v = m) vs -> orthonormal vs -> (length vs <= m)%nat.
Proof.
  intros m vs FV OV. apply INR_le. assert (E : rsum m (fun j => rsum (length vs) (fun i => dot (nth i vs []) (unitv m j) * dot (nth i vs []) (unitv m j))) = INR (length vs)).
  { rewrite rsum_swap. rewrite (rsum_ext (length vs) _ (fun _ => 1)); [rewrite rsum_const; ring|]. intros i Hi. assert (Li : length (nth i vs []) = m) by (rewrite Forall_forall in FV; apply FV, nth_In; auto).
    rewrite (rsum_ext m _ (fun j => vget (nth i vs []) j * vget (nth i vs []) j)) by (intros j Hj; rewrite dot_unitv by auto; auto). rewrite <- (dot_rs m) by auto. rewrite OV by auto. rewrite Nat.eqb_refl. auto. }
  rewrite <- E. replace (INR m) with (rsum m (fun _ => 1)) by (rewrite rsum_const; ring). apply rsum_le. intros j Hj. eapply Rle_trans; [apply (bessel m); auto; apply unitv_len|]. rewrite dot_unitv by (auto; apply unitv_len). rewrite unitv_get by auto. rewrite Nat.eqb_refl. lra.
Qed.
Definition dirs (m : nat) (us : list vec) : list vec := map (fun j => flat m (dirpl m us (j / length us) (j mod length us))) (seq 0 (length us * length us)).
Lemma dirs_orthonormal : forall m us, Forall (fun u => length u = m) us -> orthonormal us -> length (dirs m us) = (length us * length us)%nat /\ Forall (fun v => length v = (m * length us)%nat) (dirs m us) /\ orthonormal (dirs m us).
Proof.
  intros m us FU OU. set (n := length us). assert (LD : length (dirs m us) = (n * n)%nat) by (unfold dirs; rewrite map_length, seq_length; auto). split; auto. split.
  - apply Forall_forall. intros v I. unfold dirs in I. apply in_map_iff in I. destruct I as [j [<- _]]. rewrite flat_len, dirpl_len. auto.
  - intros a b Ha Hb. rewrite LD in Ha, Hb. unfold dirs. fold n. rewrite !nth_map_seq by auto. assert (Hn : (n <> 0)%nat) by nia.
    assert (Pa : (a / n < n)%nat) by (apply Nat.div_lt_upper_bound; auto). assert (Pb : (b / n < n)%nat) by (apply Nat.div_lt_upper_bound; auto). assert (Qa : (a mod n < n)%nat) by (apply Nat.mod_upper_bound; auto). assert (Qb : (b mod n < n)%nat) by (apply Nat.mod_upper_bound; auto).
    rewrite dirpl_dot by (auto; rewrite flat_len, dirpl_len; auto). fold n.
    assert (LU : forall k, (k < n)%nat -> length (nth k us []) = m) by (intros k Hk; rewrite Forall_forall in FU; apply FU, nth_In; auto).
    assert (E : nth (a mod n) (unflat m n (flat m (dirpl m us (b / n) (b mod n)))) [] = if Nat.eqb (a mod n) (b mod n) then nth (b / n) us [] else vzero m).
    { destruct (unflat_len m n (flat m (dirpl m us (b / n) (b mod n)))) as [L1 L2]. assert (LL : length (nth (a mod n) (unflat m n (flat m (dirpl m us (b / n) (b mod n)))) []) = m) by (rewrite Forall_forall in L2; apply L2, nth_In; lia).
      apply vec_ext; [rewrite LL; destruct (Nat.eqb (a mod n) (b mod n)); [symmetry; apply LU; auto|symmetry; apply repeat_length]|]. intros k Hk. rewrite LL in Hk.
      pose proof (unflat_ent m n (flat m (dirpl m us (b / n) (b mod n))) (a mod n) k Qa Hk) as U. unfold ent in U. rewrite U. pose proof (flat_get m (dirpl m us (b / n) (b mod n)) k (a mod n) Hk) as G. rewrite dirpl_len in G. fold n in G. rewrite G by auto. rewrite dirpl_ent by auto.
      destruct (Nat.eqb (a mod n) (b mod n)); auto. rewrite vzero_get. auto. }
    rewrite E. destruct (Nat.eqb_spec (a mod n) (b mod n)) as [M1|M1].
    + rewrite OU by auto. destruct (Nat.eqb_spec (a / n) (b / n)) as [M2|M2].
      * assert (a = b) by (rewrite (Nat.div_mod a n Hn), (Nat.div_mod b n Hn), M1, M2; auto). subst b. rewrite Nat.eqb_refl. auto.
      * destruct (Nat.eqb_spec a b); [subst; congruence|auto].
    + rewrite dot_zero_r. destruct (Nat.eqb_spec a b); [subst; congruence|auto].
Qed.
(** the n^2 smallest singular values of the Jacobian are zero *)
Lemma gn_dropped_zero : forall B m n us X f c ys s zs yJ sJ zJ, gn_pre B m n us X f c ys s zs -> orthonormal us -> svd_post (length X) (gn_jac B m us X f c ys s zs) yJ sJ zJ ->
  (forall i j, (i <= j)%nat -> (j < length sJ)%nat -> 0 <= vget sJ j <= vget sJ i) -> forall i, (gn_keep n sJ <= i < length sJ)%nat -> vget sJ i = 0.
Proof.
  intros B m n us X f c ys s zs yJ sJ zJ P OU SJ SO i Hi. destruct (gn_jac_dims B m n us X f c ys s zs P) as [LJ FJ]. pose proof P as [[_ [_ [_ [Hn _]]]] [Lu [FU _]]]. pose proof SJ as [_ [_ [_ [Ls [OZ _]]]]]. rewrite LJ in Ls, OZ.
  destruct (Req_dec (vget sJ i) 0) as [|NZ]; auto. exfalso. assert (SP : forall k, (k <= i)%nat -> vget sJ k <> 0) by (intros k Hk; pose proof (SO k i Hk ltac:(lia)); pose proof (SO i i ltac:(lia) ltac:(lia)); lra).
  assert (KE : gn_keep n sJ = (m * n - n * n)%nat) by (unfold gn_keep; rewrite (proj2 (Nat.eqb_neq n 0)) by lia; rewrite Ls; auto). pose proof (orthonormal_count m us FU OU) as CN. rewrite Lu in CN.
  destruct (dirs_orthonormal m us FU OU) as [LD [FD OD]]. rewrite Lu in LD, FD. set (NN := (m * n)%nat) in *.
  assert (Z0 : forall k j, (k <= i)%nat -> (j < n * n)%nat -> dot (nth j (dirs m us) []) (nth k zJ []) = 0).
  { intros k j Hk Hj. assert (Lv : length (nth j (dirs m us) []) = NN) by (rewrite Forall_forall in FD; apply FD, nth_In; lia).
    assert (KV : lincomb (length X) (gn_jac B m us X f c ys s zs) (nth j (dirs m us) []) = vzero (length X)) by (unfold dirs; rewrite nth_map_seq by (rewrite Lu; auto); apply (gn_kernel B m n); auto; apply dirpl_within; auto; rewrite Lu; apply Nat.div_lt_upper_bound; lia).
    pose proof (svd_apply_y (length X) _ yJ sJ zJ (nth j (dirs m us) []) k SJ FJ ltac:(lia) ltac:(lia)) as A. rewrite KV, dot_zero_r in A. rewrite dot_comm. symmetry in A. apply Rmult_integral in A. destruct A as [A|A]; auto. exfalso. apply (SP k); auto. }
  assert (S1 : rsum NN (fun k => rsum (n * n) (fun j => dot (nth j (dirs m us) []) (nth k zJ []) * dot (nth j (dirs m us) []) (nth k zJ []))) = INR (n * n)).
  { rewrite rsum_swap. rewrite (rsum_ext (n * n) _ (fun _ => 1)); [rewrite rsum_const; ring|]. intros j Hj. assert (Lv : length (nth j (dirs m us) []) = NN) by (rewrite Forall_forall in FD; apply FD, nth_In; lia).
    transitivity (dot (nth j (dirs m us) []) (nth j (dirs m us) [])); [|rewrite OD by lia; rewrite Nat.eqb_refl; auto]. rewrite (parseval_dot NN zJ _ _ OZ Lv Lv). apply rsum_ext. intros k Hk. rewrite (dot_comm (nth k zJ [])). auto. }
  assert (S2 : rsum NN (fun k => rsum (n * n) (fun j => dot (nth j (dirs m us) []) (nth k zJ []) * dot (nth j (dirs m us) []) (nth k zJ []))) <= INR (NN - S i)).
  { replace NN with (S i + (NN - S i))%nat at 1 by lia. rewrite rsum_app. rewrite rsum_zero by (intros k Hk; apply rsum_zero; intros j Hj; rewrite Z0 by (auto; lia); ring). rewrite Rplus_0_l.
    replace (INR (NN - S i)) with (rsum (NN - S i) (fun _ => 1)) by (rewrite rsum_const; ring). apply rsum_le. intros k Hk. assert (Lz : length (nth (S i + k) zJ []) = NN) by (apply onb_row; auto; lia). rewrite <- LD.
    eapply Rle_trans; [apply (bessel NN); auto|]. destruct OZ as [Lz' [_ OZ']]. rewrite OZ' by lia. rewrite Nat.eqb_refl. lra. }
  rewrite S1 in S2. apply INR_le in S2. assert (n * n <= NN)%nat by (unfold NN; nia). lia.
Qed.
Theorem gn_step_minimises : forall B m n us X f c ys s zs yJ sJ zJ q', gn_pre B m n us X f c ys s zs -> orthonormal us -> svd_post (length X) (gn_jac B m us X f c ys s zs) yJ sJ zJ ->
  (forall i j, (i <= j)%nat -> (j < length sJ)%nat -> 0 <= vget sJ j <= vget sJ i) -> (forall i, (i < gn_keep n sJ)%nat -> vget sJ i <> 0) -> length q' = (m * n)%nat ->
  let r := vp_residual (vp_V B us X) f c in let J := gn_jac B m us X f c ys s zs in
  norm2 (vadd r (lincomb (length X) J (gn_solve (m * n) n yJ sJ zJ r))) <= norm2 (vadd r (lincomb (length X) J q')).
Proof.
  intros B m n us X f c ys s zs yJ sJ zJ q' P OU SJ SO NZ Lq r J. destruct (gn_jac_dims B m n us X f c ys s zs P) as [LJ FJ]. fold J in LJ, FJ, SJ. pose proof P as [_ [Lu [FU [FX [Lf _]]]]]. pose proof SJ as [Ly [FY [OY [Ls [OZ _]]]]]. rewrite LJ in Ly, Ls, OZ.
  set (M := length X) in *. set (q := gn_solve (m * n) n yJ sJ zJ r). destruct (gn_dot (m * n) n yJ sJ zJ r (vzero (m * n)) OZ Ls (repeat_length _ _)) as [Lg _]. fold q in Lg.
  assert (Lr : length r = M) by (unfold r, vp_residual; rewrite vsub_length; rewrite ?mv_length, ?vp_V_len; auto). assert (LJq : forall x, length (lincomb M J x) = M) by (intro x; apply lincomb_length; auto).
  set (rho := vadd r (lincomb M J q)). assert (Lrho : length rho = M) by (unfold rho; rewrite vadd_length; rewrite ?LJq; auto).
  assert (LY : forall i, (i < m * n)%nat -> length (nth i yJ []) = M) by (intros i Hi; rewrite Forall_forall in FY; apply FY, nth_In; lia).
  set (e := vsub q' q). assert (Le : length e = (m * n)%nat) by (unfold e; rewrite vsub_length; lia).
  assert (DR : vadd r (lincomb M J q') = vadd rho (lincomb M J e)).
  { assert (L1 : length (vadd r (lincomb M J q')) = M) by (rewrite vadd_length; rewrite ?LJq; auto). assert (L2 : length (vadd rho (lincomb M J e)) = M) by (rewrite vadd_length; rewrite ?LJq; auto). apply vec_ext; [lia|]. intros i Hi. rewrite L1 in Hi. unfold rho. rewrite !vadd_get by (rewrite ?vadd_length, ?LJq; rewrite ?LJq; auto). rewrite !MatLib.lincomb_get by (auto; lia). rewrite Rplus_assoc. f_equal. rewrite <- rsum_plus. apply rsum_ext. intros k Hk. unfold e. rewrite vsub_get by lia. ring. }
  assert (D0 : dot rho (lincomb M J e) = 0).
  { rewrite (dot_rs M) by auto. rewrite (rsum_ext M _ (fun a => rsum (length J) (fun i => vget sJ i * dot (nth i zJ []) e * (vget rho a * vget (nth i yJ []) a)))) by (intros a Ha; rewrite (svd_apply M J yJ sJ zJ) by (auto; lia); rewrite <- rsum_scal_l; apply rsum_ext; intros; ring).
    rewrite rsum_swap. apply rsum_zero. intros i Hi. rewrite rsum_scal_l. rewrite LJ in Hi. rewrite <- (dot_rs M) by auto. destruct (le_lt_dec (gn_keep n sJ) i) as [K|K].
    - rewrite (gn_dropped_zero B m n us X f c ys s zs yJ sJ zJ P OU SJ SO i) by lia. ring.
    - assert (RY : dot rho (nth i yJ []) = 0); [|rewrite RY; ring]. unfold rho. rewrite dot_comm, dot_vadd_r by (rewrite LJq; auto). rewrite (svd_apply_y M J yJ sJ zJ) by (auto; lia).
      unfold q. assert (Lzi : length (nth i zJ []) = (m * n)%nat) by (apply onb_row; auto). destruct (gn_dot (m * n) n yJ sJ zJ r (nth i zJ []) OZ Ls Lzi) as [_ ->]. destruct OZ as [Lz [_ OZ']].
      rewrite (rsum_single _ i) by (auto; intros k Hk Nk; rewrite OZ' by (try lia; unfold gn_keep in Hk; destruct (Nat.eqb n 0); lia); rewrite (proj2 (Nat.eqb_neq i k)) by auto; ring).
      rewrite OZ' by lia. rewrite Nat.eqb_refl. field. apply NZ. auto. }
  rewrite DR. unfold norm2. apply sqrt_le_1_alt. unfold norm2sq. rewrite dot_vadd_l, !dot_vadd_r by (rewrite ?vadd_length, ?LJq; rewrite ?LJq; auto). rewrite (dot_comm (lincomb M J e) rho), D0. pose proof (norm2sq_nonneg (lincomb M J e)) as PP. unfold norm2sq in PP. lra.
Qed.

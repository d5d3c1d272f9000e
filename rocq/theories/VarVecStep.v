(** The Gauss-Newton step (polyridge_vec.py 22-27) for any Jacobian that vanishes on directions within the subspace; a fixed subspace. *)
Require Import Reals Lra Lia List Bool Arith.
From Verif Require Import RVec Num Sums DomModel DomMoreModel SweepProofs HullProofs Deriv BasisModel IndexProofs PolyProofs MatLib SpecProofs GrassLib LipModel LipFitProofs SubModel ActiveProofs RidgeModel RidgeProofs TrajProofs PolySpan VarproLib VarproProofs GnStep RidgeFitProofs ArnoldiProofs ArnoldiMoreProofs PolyfitModel PolyfitProofs LsqAlg ProjGradProofs VarArnModel VarArnProofs VarArnDeriv VarArnMain VarVecModel VarVecProofs VarVecMain.
Import ListNotations.
Local Open Scope R_scope.

(** dimensions of a Jacobian with M rows that vanishes on directions within the subspace *)
Definition jker (M m : nat) (us J : list vec) : Prop :=
  (1 <= length us)%nat /\ Forall (fun u => length u = m) us /\ length J = (m * length us)%nat /\ Forall (fun v => length v = M) J /\ forall ds, within m us ds -> lincomb M J (flat m ds) = vzero M.
Lemma step_horizontal : forall M m us J yJ sJ zJ r, jker M m us J -> svd_post M J yJ sJ zJ -> (forall i, (i < gn_keep (length us) sJ)%nat -> vget sJ i <> 0) ->
  tangent us (unflat m (length us) (gn_solve (m * length us) (length us) yJ sJ zJ r)).
Proof.
  intros M m us J yJ sJ zJ r (Hn & FU & LJ & FJ & KER) SJ NZ u d Iu Id.
  apply (In_nth _ _ []) in Iu. destruct Iu as [p [Hp <-]]. destruct (unflat_len m (length us) (gn_solve (m * length us) (length us) yJ sJ zJ r)) as [L1 L2]. apply (In_nth _ _ []) in Id. destruct Id as [l [Hl <-]]. rewrite L1 in Hl.
  pose proof SJ as [_ [_ [_ [Ls [OZ _]]]]]. rewrite LJ in Ls, OZ. destruct (gn_dot (m * length us) (length us) yJ sJ zJ r (vzero (m * length us)) OZ Ls (repeat_length _ _)) as [LG _].
  rewrite <- dirpl_dot by auto. rewrite <- LJ. apply (gn_orth_kernel M); auto; [rewrite flat_len, dirpl_len; auto|]. apply KER. apply dirpl_within; auto.
Qed.
Lemma step_dropped : forall M m n us J yJ sJ zJ, length us = n -> jker M m us J -> orthonormal us -> svd_post M J yJ sJ zJ ->
  (forall i j, (i <= j)%nat -> (j < length sJ)%nat -> 0 <= vget sJ j <= vget sJ i) -> forall i, (gn_keep n sJ <= i < length sJ)%nat -> vget sJ i = 0.
Proof.
  intros M m n us J yJ sJ zJ Lu (Hn & FU & LJ & FJ & KER) OU SJ SO i Hi. rewrite Lu in Hn, LJ. pose proof SJ as [_ [_ [_ [Ls [OZ _]]]]]. rewrite LJ in Ls, OZ.
  destruct (Req_dec (vget sJ i) 0) as [|NZ]; auto. exfalso. assert (SP : forall k, (k <= i)%nat -> vget sJ k <> 0) by (intros k Hk; pose proof (SO k i Hk ltac:(lia)); pose proof (SO i i ltac:(lia) ltac:(lia)); lra).
  assert (KE : gn_keep n sJ = (m * n - n * n)%nat) by (unfold gn_keep; rewrite (proj2 (Nat.eqb_neq n 0)) by lia; rewrite Ls; auto). pose proof (orthonormal_count m us FU OU) as CN. rewrite Lu in CN.
  destruct (dirs_orthonormal m us FU OU) as [LD [FD OD]]. rewrite Lu in LD, FD. set (NN := (m * n)%nat) in *.
  assert (Z0 : forall k j, (k <= i)%nat -> (j < n * n)%nat -> dot (nth j (dirs m us) []) (nth k zJ []) = 0).
  { intros k j Hk Hj. assert (Lv : length (nth j (dirs m us) []) = NN) by (rewrite Forall_forall in FD; apply FD, nth_In; lia).
    assert (KV : lincomb M J (nth j (dirs m us) []) = vzero M) by (unfold dirs; rewrite nth_map_seq by (rewrite Lu; auto); apply KER; apply dirpl_within; auto; rewrite Lu; apply Nat.div_lt_upper_bound; lia).
    pose proof (svd_apply_y M J yJ sJ zJ (nth j (dirs m us) []) k SJ FJ ltac:(lia) ltac:(lia)) as A. rewrite KV, dot_zero_r in A. rewrite dot_comm. symmetry in A. apply Rmult_integral in A. destruct A as [A|A]; auto. exfalso. apply (SP k); auto. }
  assert (S1 : rsum NN (fun k => rsum (n * n) (fun j => dot (nth j (dirs m us) []) (nth k zJ []) * dot (nth j (dirs m us) []) (nth k zJ []))) = INR (n * n)).
  { rewrite rsum_swap. rewrite (rsum_ext (n * n) _ (fun _ => 1)); [rewrite rsum_const; ring|]. intros j Hj. assert (Lv : length (nth j (dirs m us) []) = NN) by (rewrite Forall_forall in FD; apply FD, nth_In; lia).
    transitivity (dot (nth j (dirs m us) []) (nth j (dirs m us) [])); [|rewrite OD by lia; rewrite Nat.eqb_refl; auto]. rewrite (parseval_dot NN zJ _ _ OZ Lv Lv). apply rsum_ext. intros k Hk. rewrite (dot_comm (nth k zJ [])). auto. }
  assert (S2 : rsum NN (fun k => rsum (n * n) (fun j => dot (nth j (dirs m us) []) (nth k zJ []) * dot (nth j (dirs m us) []) (nth k zJ []))) <= INR (NN - S i)).
  { replace NN with (S i + (NN - S i))%nat at 1 by lia. rewrite rsum_app. rewrite rsum_zero by (intros k Hk; apply rsum_zero; intros j Hj; rewrite Z0 by (auto; lia); ring). rewrite Rplus_0_l.
    replace (INR (NN - S i)) with (rsum (NN - S i) (fun _ => 1)) by (rewrite rsum_const; ring). apply rsum_le. intros k Hk. assert (Lz : length (nth (S i + k) zJ []) = NN) by (apply onb_row; auto; lia). rewrite <- LD.
    eapply Rle_trans; [apply (bessel NN); auto|]. destruct OZ as [Lz' [_ OZ']]. rewrite OZ' by lia. rewrite Nat.eqb_refl. lra. }
  rewrite S1 in S2. apply INR_le in S2. assert (n * n <= NN)%nat by (unfold NN; nia). lia.
Qed.
Lemma step_minimises : forall M m n us J yJ sJ zJ r q', length us = n -> jker M m us J -> length r = M -> orthonormal us -> svd_post M J yJ sJ zJ ->
  (forall i j, (i <= j)%nat -> (j < length sJ)%nat -> 0 <= vget sJ j <= vget sJ i) -> (forall i, (i < gn_keep n sJ)%nat -> vget sJ i <> 0) -> length q' = (m * n)%nat ->
  norm2 (vadd r (lincomb M J (gn_solve (m * n) n yJ sJ zJ r))) <= norm2 (vadd r (lincomb M J q')).
Proof.
  intros M m n us J yJ sJ zJ r q' Lu JK Lr OU SJ SO NZ Lq. pose proof JK as (Hn & FU & LJ & FJ & KER). rewrite Lu in Hn, LJ. pose proof SJ as [Ly [FY [OY [Ls [OZ _]]]]]. rewrite LJ in Ly, Ls, OZ.
  set (q := gn_solve (m * n) n yJ sJ zJ r). destruct (gn_dot (m * n) n yJ sJ zJ r (vzero (m * n)) OZ Ls (repeat_length _ _)) as [Lg _]. fold q in Lg.
  assert (LJq : forall x, length (lincomb M J x) = M) by (intro x; apply lincomb_length; auto).
  set (rho := vadd r (lincomb M J q)). assert (Lrho : length rho = M) by (unfold rho; rewrite vadd_length; rewrite ?LJq; auto).
  assert (LY : forall i, (i < m * n)%nat -> length (nth i yJ []) = M) by (intros i Hi; rewrite Forall_forall in FY; apply FY, nth_In; lia).
  set (e := vsub q' q). assert (Le : length e = (m * n)%nat) by (unfold e; rewrite vsub_length; lia).
  assert (DR : vadd r (lincomb M J q') = vadd rho (lincomb M J e)).
  { assert (L1 : length (vadd r (lincomb M J q')) = M) by (rewrite vadd_length; rewrite ?LJq; auto). assert (L2 : length (vadd rho (lincomb M J e)) = M) by (rewrite vadd_length; rewrite ?LJq; auto). apply vec_ext; [lia|]. intros i Hi. rewrite L1 in Hi. unfold rho. rewrite !vadd_get by (rewrite ?vadd_length, ?LJq; rewrite ?LJq; auto). rewrite !MatLib.lincomb_get by (auto; lia). rewrite Rplus_assoc. f_equal. rewrite <- rsum_plus. apply rsum_ext. intros k Hk. unfold e. rewrite vsub_get by lia. ring. }
  assert (D0 : dot rho (lincomb M J e) = 0).
  { rewrite (dot_rs M) by auto. rewrite (rsum_ext M _ (fun a => rsum (length J) (fun i => vget sJ i * dot (nth i zJ []) e * (vget rho a * vget (nth i yJ []) a)))) by (intros a Ha; rewrite (svd_apply M J yJ sJ zJ) by (auto; lia); rewrite <- rsum_scal_l; apply rsum_ext; intros; ring).
    rewrite rsum_swap. apply rsum_zero. intros i Hi. rewrite rsum_scal_l. rewrite LJ in Hi. rewrite <- (dot_rs M) by auto. destruct (le_lt_dec (gn_keep n sJ) i) as [K|K].
    - rewrite (step_dropped M m n us J yJ sJ zJ Lu JK OU SJ SO i) by lia. ring.
    - assert (RY : dot rho (nth i yJ []) = 0); [|rewrite RY; ring]. unfold rho. rewrite dot_comm, dot_vadd_r by (rewrite LJq; auto). rewrite (svd_apply_y M J yJ sJ zJ) by (auto; lia).
      unfold q. assert (Lzi : length (nth i zJ []) = (m * n)%nat) by (apply onb_row; auto). destruct (gn_dot (m * n) n yJ sJ zJ r (nth i zJ []) OZ Ls Lzi) as [_ ->]. destruct OZ as [Lz [_ OZ']].
      rewrite (rsum_single _ i) by (auto; intros k Hk Nk; rewrite OZ' by (try lia; unfold gn_keep in Hk; destruct (Nat.eqb n 0); lia); rewrite (proj2 (Nat.eqb_neq i k)) by auto; ring).
      rewrite OZ' by lia. rewrite Nat.eqb_refl. field. apply NZ. auto. }
  rewrite DR. unfold norm2. apply sqrt_le_1_alt. unfold norm2sq. rewrite dot_vadd_l, !dot_vadd_r by (rewrite ?vadd_length, ?LJq; rewrite ?LJq; auto). rewrite (dot_comm (lincomb M J e) rho), D0. pose proof (norm2sq_nonneg (lincomb M J e)) as PP. unfold norm2sq in PP. lra.
Qed.

(** the contract of scipy.linalg.svd(J, full_matrices = False), for at least as many rows as columns: sorted, the kept values are not zero *)
Definition gn_svd (M n : nat) (J yJ : list vec) (sJ : vec) (zJ : list vec) : Prop :=
  svd_post M J yJ sJ zJ /\ (forall i j, (i <= j)%nat -> (j < length sJ)%nat -> 0 <= vget sJ j <= vget sJ i) /\ forall i, (i < gn_keep n sJ)%nat -> vget sJ i <> 0.
(** orthogonal to the subspace, and a minimizer of the linearized residual *)
Definition good_step (M m : nat) (us J : list vec) (r q : vec) : Prop :=
  tangent us (unflat m (length us) q) /\ forall q', length q' = (m * length us)%nat -> norm2 (vadd r (lincomb M J q)) <= norm2 (vadd r (lincomb M J q')).
Theorem step_good : forall M m us J yJ sJ zJ r, jker M m us J -> orthonormal us -> gn_svd M (length us) J yJ sJ zJ -> length r = M -> good_step M m us J r (gn_solve (m * length us) (length us) yJ sJ zJ r).
Proof.
  intros M m us J yJ sJ zJ r JK OU (SV & SO & NZ) Lr. split; [apply (step_horizontal M m us J); auto|]. intros q' Lq. apply (step_minimises M m (length us) us J); auto.
Qed.

(* ---------------- a fixed subspace ---------------- *)
Lemma pv_fixed_dims : forall M m nf n uc J, length (pv_fixed M m nf n uc J) = (length uc * n)%nat /\ Forall (fun v => length v = M) (pv_fixed M m nf n uc J).
Proof. intros. split; [unfold pv_fixed; rewrite map_length, seq_length; auto|]. apply Forall_forall. intros v I. unfold pv_fixed in I. apply in_map_iff in I. destruct I as [i [<- _]]. rewrite map_length, seq_length. auto. Qed.
Lemma pv_fixed_apply : forall M m nf uc ds J a, Forall (fun u => length u = m) uc -> Forall (fun u => length u = length uc) ds -> length J = (m * (nf + length ds))%nat -> Forall (fun v => length v = M) J -> (a < M)%nat ->
  vget (lincomb M (pv_fixed M m nf (length ds) uc J) (flat (length uc) ds)) a = vget (lincomb M J (flat m (lift m nf uc ds))) a.
Proof.
  intros M m nf uc ds J a FC FD LJ FJ Ha. destruct (pv_fixed_dims M m nf (length ds) uc J) as [LP FP]. rewrite MatLib.lincomb_get by (auto; rewrite flat_len; lia). rewrite MatLib.lincomb_get by (auto; rewrite flat_len, lift_len; lia).
  pose proof (fixed_chain m nf uc ds (map (fun col => vget col a) J) FC FD ltac:(rewrite map_length; auto)) as C.
  assert (LR : length (pv_jac_row m nf (length ds) uc (map (fun col => vget col a) J)) = (length uc * length ds)%nat) by (unfold pv_jac_row; rewrite map_length, seq_length; auto).
  rewrite (dot_rs (length uc * length ds)) in C by (auto; rewrite flat_len; auto). rewrite (dot_rs (length J)) in C by (rewrite ?map_length, ?flat_len, ?lift_len; lia).
  rewrite LP. transitivity (rsum (length uc * length ds) (fun i => vget (pv_jac_row m nf (length ds) uc (map (fun col => vget col a) J)) i * vget (flat (length uc) ds) i)).
  - apply rsum_ext. intros i Hi. unfold pv_fixed. rewrite nth_map_seq by auto. rewrite vget_map_seq by auto. ring.
  - rewrite C. apply rsum_ext. intros i Hi. rewrite (mapr_get _ _ J i []) by auto. ring.
Qed.
Theorem fixed_dir : forall M m uf uc us ds F J, Forall (fun u => length u = m) uf -> Forall (fun u => length u = m) uc -> Forall (fun u => length u = length uc) us -> length ds = length us -> Forall (fun u => length u = length uc) ds ->
  jac_dir M m F (pv_join m uf uc us) (lift m (length uf) uc ds) J -> jac_dir M (length uc) (fun U => F (pv_join m uf uc U)) us ds (pv_fixed M m (length uf) (length us) uc J).
Proof.
  intros M m uf uc us ds F J FF FC FU Ld FD (LJ & FJ & D). destruct (pv_fixed_dims M m (length uf) (length us) uc J) as [LP FP]. split; auto. split; auto. intros a Ha. rewrite pv_join_len in LJ.
  eapply d_ext; [| |apply (D a Ha)]; [intro t; cbv beta; rewrite pv_join_line by auto; reflexivity|]. rewrite <- Ld. symmetry. rewrite pv_fixed_apply by (auto; rewrite Ld; auto). reflexivity.
Qed.
Lemma lift_within : forall m uf uc us ds, Forall (fun u => length u = m) uf -> Forall (fun u => length u = m) uc -> Forall (fun u => length u = length uc) us -> within (length uc) us ds -> within m (pv_join m uf uc us) (lift m (length uf) uc ds).
Proof.
  intros m uf uc us ds FF FC FU [Ld W]. split; [rewrite lift_len, pv_join_len; lia|]. assert (FJ : Forall (fun u => length u = m) (pv_join m uf uc us)) by (apply pv_join_dims; auto). intros d I. unfold lift in I. apply in_app_or in I. destruct I as [I|I].
  - apply repeat_spec in I. subst d. apply spans_zero; auto.
  - apply in_map_iff in I. destruct I as [d' [<- I]]. destruct (W d' I) as (e & Le & ->). exists (vzero (length uf) ++ e). assert (LL : length (vzero (length uf) ++ e) = length (pv_join m uf uc us)) by (rewrite app_length, pv_join_len; unfold vzero; rewrite repeat_length; lia). split; auto.
    apply vec_ext; [rewrite !lincomb_length; auto|]. intros i Hi. rewrite lincomb_length in Hi by auto. rewrite MatLib.lincomb_get by (auto; apply lincomb_length; auto). rewrite (MatLib.lincomb_get m (pv_join m uf uc us)) by auto. rewrite pv_join_len, rsum_app. rewrite (rsum_zero (length uf)).
    + rewrite Rplus_0_l. rewrite (rsum_ext (length uc) _ (fun k => rsum (length us) (fun j => vget e j * vget (nth j us []) k * vget (nth k uc []) i))).
      * rewrite rsum_swap. apply rsum_ext. intros j Hj. assert (Ej : vget (vzero (length uf) ++ e) (length uf + j) = vget e j). { unfold vget. rewrite app_nth2 by (unfold vzero; rewrite repeat_length; lia). f_equal. unfold vzero. rewrite repeat_length. lia. } rewrite Ej.
        unfold pv_join. rewrite app_nth2 by lia. replace (length uf + j - length uf)%nat with j by lia. rewrite map_lin_nth by auto. rewrite MatLib.lincomb_get by (auto; rewrite Forall_forall in FU; apply FU, nth_In; auto). rewrite <- rsum_scal_l. apply rsum_ext. intros; ring.
      * intros k Hk. rewrite MatLib.lincomb_get by auto. rewrite <- rsum_scal_r. apply rsum_ext. intros; ring.
    + intros k Hk. unfold vget at 1. rewrite app_nth1 by (unfold vzero; rewrite repeat_length; auto). unfold vzero. rewrite nth_repeat. ring.
Qed.
Theorem fixed_jker : forall M m uf uc us J, (1 <= length us)%nat -> Forall (fun u => length u = m) uf -> Forall (fun u => length u = m) uc -> Forall (fun u => length u = length uc) us ->
  jker M m (pv_join m uf uc us) J -> jker M (length uc) us (pv_fixed M m (length uf) (length us) uc J).
Proof.
  intros M m uf uc us J Hn FF FC FU (_ & _ & LJ & FJ & KER). destruct (pv_fixed_dims M m (length uf) (length us) uc J) as [LP FP]. rewrite pv_join_len in LJ. split; auto. split; auto. split; auto. split; auto. intros ds W. pose proof W as [Ld WW].
  assert (FD : Forall (fun d => length d = length uc) ds) by (apply Forall_forall; intros d I; destruct (WW d I) as (e & Le & ->); apply lincomb_length; auto).
  apply vec_ext; [unfold vzero; rewrite repeat_length; apply lincomb_length; auto|]. intros a Ha. rewrite lincomb_length in Ha by auto. rewrite <- Ld. rewrite pv_fixed_apply by (auto; rewrite Ld; auto). rewrite KER by (apply lift_within; auto). reflexivity.
Qed.

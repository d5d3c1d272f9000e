(** Derivatives of log determinants and of the data term along paths of matrices. *)
Require Import Reals List Bool Arith Lra Lia.
From Verif Require Import RVec Num Sums DomModel DomMoreModel BasisModel SweepProofs HullProofs NormProofs FunProofs TensorProofs MatLib SpecProofs LipModel GrassLib SubModel ArnoldiMoreProofs Deriv VarproLib GpModel GpKernel GpProofs GpFit.
Import ListNotations.
Local Open Scope R_scope.

Lemma ln_le : forall x, 0 < x -> ln x <= x - 1.
Proof. intros x Hx. pose proof (exp_ineq1_le (ln x)) as E. rewrite exp_ln in E by auto. lra. Qed.
Lemma ln_diff : forall a b mu, 0 < mu -> mu <= a -> mu <= b -> - ((b - a) * (b - a) / (mu * mu)) <= ln b - ln a - (b - a) / a <= 0.
Proof.
  intros a b mu Hm Ha Hb.
  assert (E : ln b - ln a = ln (b / a)) by (unfold Rdiv; rewrite ln_mult, ln_Rinv by (try apply Rinv_0_lt_compat; lra); ring).
  assert (E' : ln b - ln a = - ln (a / b)) by (unfold Rdiv; rewrite ln_mult, ln_Rinv by (try apply Rinv_0_lt_compat; lra); ring).
  assert (U : ln (b / a) <= b / a - 1) by (apply ln_le; apply Rdiv_lt_0_compat; lra).
  assert (U' : ln (a / b) <= a / b - 1) by (apply ln_le; apply Rdiv_lt_0_compat; lra).
  split.
  - rewrite E'. assert (Q : (b - a) / a - (1 - a / b) = (b - a) * (b - a) * / (a * b)) by (field; lra).
    assert (I : / (a * b) <= / (mu * mu)). { apply Rinv_le_contravar; [nra|]. apply Rmult_le_compat; lra. }
    pose proof (Rmult_le_compat_l _ _ _ (Rle_0_sqr (b - a)) I) as W. unfold Rsqr in W. unfold Rdiv at 1. lra.
  - rewrite E. replace ((b - a) / a) with (b / a - 1) by (field; lra). lra.
Qed.

Definition frob (n : nat) (A B : mat) : R := rsum n (fun i => rsum n (fun j => (mget A i j - mget B i j) * (mget A i j - mget B i j))).
Lemma frob_nonneg : forall n A B, 0 <= frob n A B.
Proof. intros. apply rsum_nonneg. intros. apply rsum_nonneg. intros. apply Rle_0_sqr. Qed.
(** |(A - B) x|^2 <= |A - B|_F^2 |x|^2 *)
Lemma frob_mv : forall n A B x, sq n A -> sq n B -> length x = n -> norm2sq (vsub (mv A x) (mv B x)) <= frob n A B * norm2sq x.
Proof.
  intros n A B x SA SB Lx. assert (LA : length A = n) by apply SA. assert (LB : length B = n) by apply SB.
  unfold norm2sq at 1. rewrite (dot_rs n) by (rewrite vsub_length; rewrite ?mv_length; lia). unfold frob. rewrite <- rsum_scal_r. apply rsum_le. intros i Hi.
  rewrite vsub_get by (rewrite !mv_length; lia). rewrite !mv_get by lia.
  assert (Li : length (nth i A []) = n) by (apply sq_row; auto). assert (Lj : length (nth i B []) = n) by (apply sq_row; auto).
  rewrite <- dot_vsub_l by lia. pose proof (cauchy_schwarz_sq (vsub (nth i A []) (nth i B [])) x ltac:(rewrite vsub_length; lia)) as C.
  eapply Rle_trans; [exact C|]. apply Req_le. f_equal. unfold norm2sq. rewrite (dot_rs n) by (rewrite vsub_length; lia). apply rsum_ext. intros j Hj. rewrite vsub_get by lia. reflexivity.
Qed.

(* ---------------- log determinants ---------------- *)
Section LogDet.
Variables (n : nat) (A B : mat) (ea eb : vec * list vec) (mu : R).
Hypothesis Hmu : 0 < mu.
Hypothesis SA : sq n A.
Hypothesis SB : sq n B.
Hypothesis YB : msym n B.
Hypothesis PA : eigh_post n A ea.
Hypothesis PB : eigh_post n B eb.
Hypothesis GA : forall k, (k < n)%nat -> mu <= vget (fst ea) k.
Hypothesis GB : forall k, (k < n)%nat -> mu <= vget (fst eb) k.
Notation a k := (vget (fst ea) k).
Notation b k := (vget (fst eb) k).
Notation u k := (nth k (snd ea) []).
Notation v k := (nth k (snd eb) []).
Definition ww (k l : nat) : R := dot (u k) (v l) * dot (u k) (v l).
Lemma u_len : forall k, (k < n)%nat -> length (u k) = n. Proof. intros. apply onb_row with (m := n); [apply PA|auto]. Qed.
Lemma v_len : forall k, (k < n)%nat -> length (v k) = n. Proof. intros. apply onb_row with (m := n); [apply PB|auto]. Qed.
Lemma ww_row : forall k, (k < n)%nat -> rsum n (fun l => ww k l) = 1.
Proof.
  intros k Hk. rewrite <- (eig_unit n A ea k PA Hk). rewrite (parseval_dot n (snd eb)) by (try apply PB; apply u_len; auto). apply rsum_ext. intros l Hl. unfold ww. rewrite (dot_comm (u k)). reflexivity.
Qed.
Lemma ww_col : forall l, (l < n)%nat -> rsum n (fun k => ww k l) = 1.
Proof. intros l Hl. rewrite <- (eig_unit n B eb l PB Hl). rewrite (parseval_dot n (snd ea)) by (try apply PA; apply v_len; auto). reflexivity. Qed.
Lemma ww_gap : forall k l, (k < n)%nat -> (l < n)%nat -> ww k l * ((b l - a k) * (b l - a k)) = dot (v l) (vsub (mv B (u k)) (mv A (u k))) * dot (v l) (vsub (mv B (u k)) (mv A (u k))).
Proof.
  intros k l Hk Hl. assert (LA : length A = n) by apply SA. assert (LB : length B = n) by apply SB. rewrite dot_vsub_r by (rewrite !mv_length; lia).
  rewrite (sym_dot n B (v l) (u k)) by (auto using u_len, v_len). rewrite (eig_vec n B eb l PB Hl), (eig_vec n A ea k PA Hk). rewrite !dot_vscale_r. rewrite (dot_comm (v l)). unfold ww. ring.
Qed.
Lemma gap_frob : rsum n (fun k => rsum n (fun l => ww k l * ((b l - a k) * (b l - a k)))) = frob n B A.
Proof.
  assert (LA : length A = n) by apply SA. assert (LB : length B = n) by apply SB.
  rewrite (rsum_ext n _ (fun k => rsum n (fun i => dot (vsub (nth i B []) (nth i A [])) (u k) * dot (vsub (nth i B []) (nth i A [])) (u k)))).
  - rewrite rsum_swap. unfold frob. apply rsum_ext. intros i Hi.
    assert (Li : length (nth i A []) = n) by (apply sq_row; auto). assert (Lj : length (nth i B []) = n) by (apply sq_row; auto).
    transitivity (dot (vsub (nth i B []) (nth i A [])) (vsub (nth i B []) (nth i A []))).
    + rewrite (parseval_dot n (snd ea)) by (try apply PA; rewrite vsub_length; lia). apply rsum_ext. intros k Hk. rewrite (dot_comm (u k)). reflexivity.
    + rewrite (dot_rs n) by (rewrite vsub_length; lia). apply rsum_ext. intros j Hj. rewrite vsub_get by lia. reflexivity.
  - intros k Hk. rewrite (rsum_ext n _ _ (fun l Hl => ww_gap k l Hk Hl)).
    rewrite <- (parseval_dot n (snd eb)) by (try apply PB; rewrite vsub_length; rewrite !mv_length; lia). rewrite (dot_rs n) by (rewrite vsub_length; rewrite !mv_length; lia).
    apply rsum_ext. intros i Hi. rewrite vsub_get by (rewrite !mv_length; lia). rewrite !mv_get by lia. rewrite dot_vsub_l by (rewrite !(sq_row n) by auto; auto). reflexivity.
Qed.
Lemma logdet_close : Rabs (vsum (map ln (fst eb)) - vsum (map ln (fst ea)) - rsum n (fun k => (quad B (u k) - quad A (u k)) / a k)) <= / (mu * mu) * frob n B A.
Proof.
  assert (SL : forall e : vec * list vec, length (fst e) = n -> vsum (map ln (fst e)) = rsum n (fun k => ln (vget (fst e) k))).
  { intros e Le. rewrite vsum_rsum, map_length, Le. apply rsum_ext. intros k Hk. unfold vget. rewrite (nth_indep _ 0 (ln 0)) by (rewrite map_length; lia). apply map_nth. }
  rewrite !SL by first [apply PA | apply PB].
  rewrite (rsum_ext n (fun k => ln (b k)) (fun l => rsum n (fun k => ww k l * ln (b l)))) by (intros l Hl; rewrite rsum_scal_r, ww_col by auto; ring).
  rewrite rsum_swap.
  rewrite (rsum_ext n (fun k => ln (a k)) (fun k => rsum n (fun l => ww k l * ln (a k)))) by (intros l Hl; rewrite rsum_scal_r, ww_row by auto; ring).
  rewrite (rsum_ext n (fun k => (quad B (u k) - quad A (u k)) / a k) (fun k => rsum n (fun l => ww k l * ((b l - a k) / a k)))).
  2:{ intros k Hk. rewrite (eigh_quad n B eb _ PB). rewrite <- (eig_quad n A ea k PA Hk). unfold Rdiv.
      transitivity ((rsum n (fun l => b l * ww k l) - a k * rsum n (fun l => ww k l)) * / a k).
      - rewrite ww_row by auto. rewrite Rmult_1_r. f_equal. f_equal. apply rsum_ext. intros l Hl. unfold ww. rewrite (dot_comm (u k)). reflexivity.
      - rewrite <- rsum_scal_l, <- rsum_minus, <- rsum_scal_r. apply rsum_ext. intros l Hl. ring. }
  rewrite <- !rsum_minus. rewrite (rsum_ext n _ (fun k => rsum n (fun l => ww k l * (ln (b l) - ln (a k) - (b l - a k) / a k)))).
  2:{ intros k Hk. rewrite <- !rsum_minus. apply rsum_ext. intros l Hl. ring. }
  rewrite <- gap_frob, <- rsum_scal_l. eapply Rle_trans; [apply rsum_abs|]. apply rsum_le. intros k Hk. rewrite <- rsum_scal_l. eapply Rle_trans; [apply rsum_abs|]. apply rsum_le. intros l Hl.
  assert (W : 0 <= ww k l) by apply Rle_0_sqr. rewrite Rabs_mult, (Rabs_right (ww k l)) by lra.
  destruct (ln_diff (a k) (b l) mu Hmu (GA k Hk) (GB l Hl)) as [D1 D2].
  replace (/ (mu * mu) * (ww k l * ((b l - a k) * (b l - a k)))) with (ww k l * ((b l - a k) * (b l - a k) / (mu * mu))) by (unfold Rdiv; ring).
  apply Rmult_le_compat_l; auto. rewrite Rabs_left1; lra.
Qed.
End LogDet.

(* ---------------- paths of matrices ---------------- *)
Lemma near_true : forall P : R -> Prop, (forall t, P t) -> near P.
Proof. intros P H. exists 1. split; [lra|auto]. Qed.
Lemma frob_small : forall n (A : R -> mat) dA, (forall i j, (i < n)%nat -> (j < n)%nat -> derivable_pt_lim (fun t => mget (A t) i j) 0 (mget dA i j)) ->
  exists C, 0 <= C /\ near (fun t => frob n (A t) (A 0) <= C * (t * t)).
Proof.
  intros n A dA D. exists (rsum n (fun i => rsum n (fun j => (Rabs (mget dA i j) + 1) * (Rabs (mget dA i j) + 1)))). split.
  - apply rsum_nonneg. intros. apply rsum_nonneg. intros. apply Rle_0_sqr.
  - assert (NR : near (fun t => forall i, (i < n)%nat -> forall j, (j < n)%nat -> Rabs (mget (A t) i j - mget (A 0) i j) <= (Rabs (mget dA i j) + 1) * Rabs t)).
    { apply (near_all n (fun i t => forall j, (j < n)%nat -> Rabs (mget (A t) i j - mget (A 0) i j) <= (Rabs (mget dA i j) + 1) * Rabs t)). intros i Hi.
      apply (near_all n (fun j t => Rabs (mget (A t) i j - mget (A 0) i j) <= (Rabs (mget dA i j) + 1) * Rabs t)). intros j Hj. apply (d_linear (fun t => mget (A t) i j)). apply D; auto. }
    revert NR. apply near_imp. intros t Ht. unfold frob. rewrite <- rsum_scal_r. apply rsum_le. intros i Hi. rewrite <- rsum_scal_r. apply rsum_le. intros j Hj.
    pose proof (Ht i Hi j Hj) as B. pose proof (Rabs_pos (mget (A t) i j - mget (A 0) i j)) as P.
    rewrite <- (Rabs_right (_ * _)) at 1 by (apply Rle_ge, Rle_0_sqr). rewrite Rabs_mult.
    replace ((Rabs (mget dA i j) + 1) * (Rabs (mget dA i j) + 1) * (t * t)) with (((Rabs (mget dA i j) + 1) * Rabs t) * ((Rabs (mget dA i j) + 1) * Rabs t)).
    + apply Rmult_le_compat; auto.
    + assert (T : Rabs t * Rabs t = t * t) by (rewrite <- Rabs_mult, Rabs_right; [auto|apply Rle_ge, Rle_0_sqr]). rewrite <- T. ring.
Qed.
Lemma d_quad : forall n (A : R -> mat) dA x, (forall t, sq n (A t)) -> sq n dA -> length x = n ->
  (forall i j, (i < n)%nat -> (j < n)%nat -> derivable_pt_lim (fun t => mget (A t) i j) 0 (mget dA i j)) -> derivable_pt_lim (fun t => quad (A t) x) 0 (quad dA x).
Proof.
  intros n A dA x SA SD Lx D. rewrite (quad_rs n) by auto.
  eapply d_ext; [intro t; symmetry; apply (quad_rs n); auto|reflexivity|].
  apply (d_rsum n (fun i t => rsum n (fun j => vget x i * vget x j * mget (A t) i j)) (fun i => rsum n (fun j => vget x i * vget x j * mget dA i j))). intros i Hi.
  apply (d_rsum n (fun j t => vget x i * vget x j * mget (A t) i j) (fun j => vget x i * vget x j * mget dA i j)). intros j Hj. apply d_scal. apply D; auto.
Qed.
Theorem logdet_derivative : forall n (A : R -> mat) dA (e : R -> vec * list vec) mu, 0 < mu -> (forall t, sq n (A t)) -> (forall t, msym n (A t)) -> sq n dA ->
  (forall t, eigh_post n (A t) (e t)) -> (forall t k, (k < n)%nat -> mu <= vget (fst (e t)) k) ->
  (forall i j, (i < n)%nat -> (j < n)%nat -> derivable_pt_lim (fun t => mget (A t) i j) 0 (mget dA i j)) ->
  derivable_pt_lim (fun t => vsum (map ln (fst (e t)))) 0 (rsum n (fun k => quad dA (nth k (snd (e 0)) []) / vget (fst (e 0)) k)).
Proof.
  intros n A dA e mu Hmu SA YA SD P G D. destruct (frob_small n A dA D) as [C [HC NC]].
  assert (I : 0 < / (mu * mu)) by (apply Rinv_0_lt_compat; apply Rmult_lt_0_compat; auto).
  apply (d_close (fun t => vsum (map ln (fst (e 0))) + rsum n (fun k => (quad (A t) (nth k (snd (e 0)) []) - quad (A 0) (nth k (snd (e 0)) [])) / vget (fst (e 0)) k)) _ _ (/ (mu * mu) * C)).
  - eapply d_ext; [intro t; reflexivity| |apply d_plus; [apply d_const|]].
    2:{ apply (d_rsum n (fun k t => (quad (A t) (nth k (snd (e 0)) []) - quad (A 0) (nth k (snd (e 0)) [])) / vget (fst (e 0)) k) (fun k => quad dA (nth k (snd (e 0)) []) / vget (fst (e 0)) k)).
        intros k Hk. eapply d_ext; [intro t; cbv beta; unfold Rdiv; apply Rmult_comm| |apply d_scal; apply d_minus; [apply (d_quad n A dA); auto|apply d_const]].
        - unfold Rdiv. ring.
        - apply onb_row with (m := n); [apply P|auto]. }
    ring.
  - apply Rmult_le_pos; lra.
  - revert NC. apply near_imp. intros t Ht.
    pose proof (logdet_close n (A 0) (A t) (e 0) (e t) mu Hmu (SA 0) (SA t) (YA t) (P 0) (P t) (G 0) (G t)) as LC.
    pose proof (Rmult_le_compat_l _ _ _ (Rlt_le _ _ I) Ht) as T. rewrite Rmult_assoc. eapply Rle_trans; [|exact T]. eapply Rle_trans; [|exact LC]. apply Req_le. f_equal. ring.
Qed.

(* ---------------- data term ---------------- *)
Lemma data_close : forall tau L0 L1 X B y w0 w1, 0 < tau -> length y = length X -> length (snd w0) = gp_n B -> length (snd w1) = gp_n B ->
  block_sol tau (gp_K L0 X) (map (gp_v B) X) y w0 -> block_sol tau (gp_K L1 X) (map (gp_v B) X) y w1 ->
  Rabs (dot y (fst w1) - dot y (fst w0) + (quad (gp_Kt tau (gp_K L1 X)) (fst w0) - quad (gp_Kt tau (gp_K L0 X)) (fst w0)))
  <= / tau * norm2sq (fst w0) * frob (length X) (gp_Kt tau (gp_K L1 X)) (gp_Kt tau (gp_K L0 X)).
Proof.
  intros tau L0 L1 X B y w0 w1 Ht Ly Lb0 Lb1 S0 S1. set (n := length X). set (K0 := gp_Kt tau (gp_K L0 X)). set (K1 := gp_Kt tau (gp_K L1 X)).
  pose proof (sol_len tau L0 X B y w0 Ly S0) as La0. pose proof (sol_len tau L1 X B y w1 Ly S1) as La1. fold n in La0, La1.
  assert (SK0 : sq n K0) by (apply gp_Kt_sq, gp_K_sq). assert (SK1 : sq n K1) by (apply gp_Kt_sq, gp_K_sq).
  assert (Y0 : msym n K0) by (apply gp_Kt_sym; [apply gp_K_sq|apply gp_K_sym]). assert (Y1 : msym n K1) by (apply gp_Kt_sym; [apply gp_K_sq|apply gp_K_sym]).
  assert (LK0 : length K0 = n) by apply SK0. assert (LK1 : length K1 = n) by apply SK1.
  set (a0 := fst w0) in *. set (a1 := fst w1) in *.
  (* y tested with any vector orthogonal to the trend *)
  assert (T0 : forall d, length d = n -> (forall p, length p = gp_n B -> rsum n (fun i => vget d i * dot (gp_v B (nth i X [])) p) = 0) -> dot d (mv K0 a0) = dot y d).
  { intros d Ld O. rewrite !(dot_rs n) by (auto; rewrite mv_length; auto). rewrite (rsum_ext n _ (fun i => vget y i * vget d i - vget d i * dot (gp_v B (nth i X [])) (snd w0))).
    - rewrite rsum_minus, O by auto. ring.
    - intros i Hi. unfold K0, a0. rewrite (sol_row tau L0 X B y w0 Ly S0 i Hi). ring. }
  assert (T1 : forall d, length d = n -> (forall p, length p = gp_n B -> rsum n (fun i => vget d i * dot (gp_v B (nth i X [])) p) = 0) -> dot d (mv K1 a1) = dot y d).
  { intros d Ld O. rewrite !(dot_rs n) by (auto; rewrite mv_length; auto). rewrite (rsum_ext n _ (fun i => vget y i * vget d i - vget d i * dot (gp_v B (nth i X [])) (snd w1))).
    - rewrite rsum_minus, O by auto. ring.
    - intros i Hi. unfold K1, a1. rewrite (sol_row tau L1 X B y w1 Ly S1 i Hi). ring. }
  pose proof (sol_orth tau L0 X B y w0 Ly Lb0 S0) as O0. pose proof (sol_orth tau L1 X B y w1 Ly Lb1 S1) as O1. fold n a0 in O0. fold n a1 in O1.
  set (d := vsub a1 a0). assert (Ld : length d = n) by (unfold d; rewrite vsub_length; lia).
  assert (Od : forall p, length p = gp_n B -> rsum n (fun i => vget d i * dot (gp_v B (nth i X [])) p) = 0).
  { intros p Lp. rewrite (rsum_ext n _ (fun i => vget a1 i * dot (gp_v B (nth i X [])) p - vget a0 i * dot (gp_v B (nth i X [])) p)); [|intros i Hi; unfold d; rewrite vsub_get by lia; ring]. rewrite rsum_minus, O0, O1 by auto. ring. }
  set (D := vsub (mv K1 a0) (mv K0 a0)). assert (LD : length D = n) by (unfold D; rewrite vsub_length; rewrite !mv_length; lia).
  set (g := - dot d D).
  assert (Q : quad K1 d = g).
  { unfold quad, d at 2. rewrite mv_vsub by lia. rewrite dot_vsub_r by (rewrite !mv_length; auto). rewrite (T1 d Ld Od). unfold g, D. rewrite dot_vsub_r by (rewrite !mv_length; lia). rewrite (T0 d Ld Od). ring. }
  assert (E : dot y a1 - dot y a0 + (quad K1 a0 - quad K0 a0) = g).
  { rewrite <- (T0 a1 La1 O1). rewrite <- (T1 a0 La0 O0) at 1. rewrite (sym_dot n K1 a0 a1) by auto. unfold g, D, d, quad. rewrite dot_vsub_l by lia. rewrite !dot_vsub_r by (rewrite !mv_length; lia). ring. }
  rewrite E.
  assert (G : tau * norm2sq d <= g). { rewrite <- Q. unfold K1. rewrite (quad_Kt n) by (auto; apply gp_K_sq). pose proof (kernel_psd L1 X d Ld). lra. }
  pose proof (norm2sq_nonneg d) as Nd. pose proof (norm2sq_nonneg D) as ND. assert (G0 : 0 <= g) by (pose proof (Rmult_le_pos _ _ (Rlt_le _ _ Ht) Nd); lra).
  rewrite Rabs_right by lra.
  assert (CS : g * g <= norm2sq d * norm2sq D). { unfold g. replace (- dot d D * - dot d D) with (dot d D * dot d D) by ring. apply cauchy_schwarz_sq. lia. }
  assert (F : norm2sq D <= frob n K1 K0 * norm2sq a0) by (apply frob_mv; auto).
  assert (I : 0 < / tau) by (apply Rinv_0_lt_compat; auto).
  assert (U : g <= / tau * norm2sq D).
  { destruct (Req_dec g 0) as [Z|Z]; [rewrite Z; apply Rmult_le_pos; lra|]. apply (Rmult_le_reg_l g); [lra|]. apply (Rmult_le_reg_l tau); [lra|].
    replace (tau * (g * (/ tau * norm2sq D))) with (g * norm2sq D) by (field; lra).
    pose proof (Rmult_le_compat_l tau _ _ (Rlt_le _ _ Ht) CS). pose proof (Rmult_le_compat_r _ _ _ ND G). lra. }
  pose proof (Rmult_le_compat_l _ _ _ (Rlt_le _ _ I) F). lra.
Qed.

(* ---------------- keeping all eigenvalues is an open condition ---------------- *)
Lemma kept_open : forall n (A : R -> mat) dA (e : R -> vec * list vec) tol, 0 <= tol -> (forall t, sq n (A t)) -> (forall t, eigh_post n (A t) (e t)) ->
  (forall i j, (i < n)%nat -> (j < n)%nat -> derivable_pt_lim (fun t => mget (A t) i j) 0 (mget dA i j)) ->
  (forall k, (k < n)%nat -> tol < Rabs (vget (fst (e 0)) k)) -> near (fun t => forall k, (k < n)%nat -> tol < Rabs (vget (fst (e t)) k)).
Proof.
  intros n A dA e tol Ht SA P D K.
  assert (MU : exists mu, tol < mu /\ forall k, (k < n)%nat -> mu <= Rabs (vget (fst (e 0)) k)).
  { clear -K. set (f := fun k => Rabs (vget (fst (e 0)) k)). change (forall k, (k < n)%nat -> tol < f k) in K. change (exists mu, tol < mu /\ forall k, (k < n)%nat -> mu <= f k). clearbody f. revert K. clear. induction n; intro K; [exists (tol + 1); split; [lra|intros; lia]|].
    destruct IHn as [mu [H1 H2]]; [intros; apply K; lia|]. exists (Rmin mu (f n)). split; [apply Rmin_glb_lt; [auto|apply K; lia]|]. intros k Hk. destruct (Nat.eq_dec k n) as [->|N]; [apply Rmin_r|]. eapply Rle_trans; [apply Rmin_l|apply H2; lia]. }
  destruct MU as [mu [M1 M2]]. destruct (frob_small n A dA D) as [C [HC NC]].
  set (ep := (mu - tol) / 2). assert (He : 0 < ep) by (unfold ep; lra).
  assert (NS : near (fun t => C * (t * t) <= ep * ep)).
  { exists (ep / (C + 1)). assert (HD : 0 < ep / (C + 1)) by (apply Rdiv_lt_0_compat; lra). split.
    - auto.
    - intros t T. set (d0 := ep / (C + 1)) in *. assert (Ed : ep = d0 * (C + 1)) by (unfold d0; field; lra).
      assert (TT : t * t <= d0 * d0). { assert (Ta : Rabs t * Rabs t = t * t) by (rewrite <- Rabs_mult, Rabs_right; [auto|apply Rle_ge, Rle_0_sqr]). rewrite <- Ta. pose proof (Rabs_pos t). apply Rmult_le_compat; lra. }
      rewrite Ed. pose proof (Rmult_le_compat_l C _ _ HC TT). pose proof (Rmult_le_pos _ _ (Rlt_le _ _ HD) (Rlt_le _ _ HD)).
      assert (C <= (C + 1) * (C + 1)) by nra. pose proof (Rmult_le_compat_r _ _ _ H0 H1). lra. }
  pose proof (near_and _ _ NC NS) as NN. revert NN. apply near_imp. intros t [F1 F2] k Hk. cbv beta in F1, F2.
  set (v := nth k (snd (e t)) []). assert (Lv : length v = n) by (apply onb_row with (m := n); [apply P|auto]).
  pose proof (eig_unit n (A t) (e t) k (P t) Hk) as U. fold v in U.
  assert (N1 : norm2 v = 1) by (unfold norm2, norm2sq; rewrite U; apply sqrt_1).
  pose proof (eig_vec n (A t) (e t) k (P t) Hk) as EV. fold v in EV.
  assert (LA : forall s, length (A s) = n) by (intro s; apply SA).
  assert (B0 : mu <= norm2 (mv (A 0) v)).
  { assert (S2 : mu * mu <= norm2sq (mv (A 0) v)).
    { pose proof (P 0) as [L0 [OB [E0 _]]]. rewrite (parseval n (snd (e 0)) (mv (A 0) v)) by (auto; rewrite mv_length; auto).
      apply Rle_trans with (rsum n (fun j => mu * mu * (dot (nth j (snd (e 0)) []) v * dot (nth j (snd (e 0)) []) v))).
      - rewrite rsum_scal_l. rewrite <- (parseval n (snd (e 0)) v) by auto. unfold norm2sq. rewrite U. lra.
      - apply rsum_le. intros j Hj.
        assert (DJ : dot (nth j (snd (e 0)) []) (mv (A 0) v) = vget (fst (e 0)) j * dot (nth j (snd (e 0)) []) v).
        { rewrite <- E0 at 1. destruct OB as [LU [FU OR]]. rewrite mv_spec by (auto; lia).
          assert (LM : length (vmul (fst (e 0)) (mv (snd (e 0)) v)) = length (snd (e 0))) by (rewrite vmul_length; rewrite ?mv_length; lia).
          rewrite <- (mv_get (snd (e 0)) (lincomb n (snd (e 0)) (vmul (fst (e 0)) (mv (snd (e 0)) v)))) by lia. rewrite mv_lincomb_onb by auto. rewrite vmul_get by (rewrite mv_length; lia). rewrite mv_get by lia. reflexivity. }
        rewrite DJ. set (q := dot (nth j (snd (e 0)) []) v). set (l := vget (fst (e 0)) j).
        replace (l * q * (l * q)) with (l * l * (q * q)) by ring. apply Rmult_le_compat_r; [apply Rle_0_sqr|].
        pose proof (M2 j Hj) as M3. fold l in M3. assert (Ta : Rabs l * Rabs l = l * l) by (rewrite <- Rabs_mult, Rabs_right; [auto|apply Rle_ge, Rle_0_sqr]). rewrite <- Ta. apply Rmult_le_compat; lra. }
    unfold norm2. replace mu with (sqrt (mu * mu)) by (apply sqrt_square; lra). apply sqrt_le_1_alt. exact S2. }
  assert (B1 : norm2 (vsub (mv (A t) v) (mv (A 0) v)) <= ep).
  { apply norm2_le_iff; [lra|]. eapply Rle_trans; [apply frob_mv; auto|]. unfold norm2sq. rewrite U. lra. }
  assert (B2 : norm2 (mv (A 0) v) <= norm2 (mv (A t) v) + norm2 (vsub (mv (A t) v) (mv (A 0) v))).
  { replace (mv (A 0) v) with (vadd (mv (A t) v) (vscale (-1) (vsub (mv (A t) v) (mv (A 0) v)))) at 1.
    - eapply Rle_trans; [apply norm2_triangle; rewrite vscale_length, vsub_length; rewrite !mv_length; rewrite ?LA; auto|]. rewrite norm2_vscale. rewrite Rabs_left by lra. lra.
    - apply vec_ext; [rewrite vadd_length; rewrite ?vscale_length, ?vsub_length; rewrite ?mv_length, ?LA; auto|]. intros i Hi.
      rewrite vadd_get by (rewrite vscale_length, vsub_length; rewrite ?mv_length, ?LA; auto). rewrite vscale_get, vsub_get by (rewrite !mv_length, !LA; auto). ring. }
  rewrite EV in B2. rewrite norm2_vscale, N1 in B2. rewrite <- EV in B2. unfold ep in *. lra.
Qed.

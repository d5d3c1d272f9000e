(** Predictions and covariance of the Gaussian process. *)
Require Import Reals List Bool Arith Lra Lia.
From Verif Require Import RVec Num Sums DomModel DomMoreModel BasisModel SweepProofs HullProofs NormProofs FunProofs TensorProofs MatLib SpecProofs LipModel GrassLib SubModel ArnoldiMoreProofs GpModel GpKernel GpProofs.
Import ListNotations.
Local Open Scope R_scope.

(** predictions at the training points; the weights annihilate the trend *)
Theorem gp_interp : forall eigh tol tau B X y L, 0 <= tol -> 0 <= tau -> (0 < tau \/ distinct_pts L X) -> length y = length X ->
  eigh_post (length X + gp_n B) (gp_block tau B X L) (eigh (gp_block tau B X L)) -> kept tol (length X + gp_n B) (eigh (gp_block tau B X L)) ->
  let w := gp_weights eigh tol tau B X y L in
  (forall i, (i < length X)%nat -> gp_eval B X L w (nth i X []) = vget y i - tau * vget (fst w) i) /\
  (forall p, length p = gp_n B -> rsum (length X) (fun i => vget (fst w) i * dot (gp_v B (nth i X [])) p) = 0).
Proof.
  intros eigh tol tau B X y L H1 H2 H3 Ly P K w. destruct (gp_block_sol eigh tol tau B X y L H1 H2 H3 Ly P K) as [[La [S1 S2]] Lb]. fold w in La, S1, S2, Lb. rewrite Ly in *. split.
  - intros i Hi. pose proof (S1 i Hi) as E. rewrite gp_K_row, gp_V_row in E by auto. unfold gp_eval. lra.
  - intros p Lp. rewrite <- (S2 p) by congruence. apply rsum_ext. intros i Hi. rewrite gp_V_row by auto. reflexivity.
Qed.
(** without a trend the block matrix is K + nugget I *)
Lemma block_none : forall tau X L, gp_block tau None X L = gp_Kt tau (gp_K L X).
Proof.
  intros. unfold gp_block. cbn [gp_n gp_v]. unfold gp_A. cbn [seq map]. rewrite app_nil_r.
  assert (LK : length (gp_Kt tau (gp_K L X)) = length (map (fun _ : vec => @nil R) X)) by (rewrite map_length; apply (gp_Kt_sq (length X)), gp_K_sq).
  revert LK. generalize (gp_Kt tau (gp_K L X)). clear. induction X; intros K LK; destruct K; try discriminate; cbn; auto. rewrite app_nil_r. f_equal. apply IHX. cbn in LK. lia.
Qed.
(** no trend and distinct points: every eigenvalue is kept as soon as the nugget is at least the tolerance (the defaults are equal) *)
Theorem gp_interp_plain : forall eigh tol tau X y L, 0 <= tol -> tol <= tau -> distinct_pts L X -> length y = length X ->
  eigh_post (length X) (gp_Kt tau (gp_K L X)) (eigh (gp_Kt tau (gp_K L X))) ->
  let w := gp_weights eigh tol tau None X y L in
  forall i, (i < length X)%nat -> gp_eval None X L w (nth i X []) = vget y i - tau * vget (fst w) i.
Proof.
  intros eigh tol tau X y L H1 H2 D Ly P w i Hi.
  refine (proj1 (gp_interp eigh tol tau None X y L H1 _ (or_intror D) Ly _ _) i Hi); [lra| |]; cbn [gp_n]; rewrite Nat.add_0_r, block_none; auto.
  intros k Hk. left. pose proof (proj2 (Kt_eigs _ _ _ _ P k Hk) D). rewrite Rabs_right; lra.
Qed.

(* ---------------- consequences of the block system ---------------- *)
Section Sol.
Variables (tau : R) (L X : mat) (B : option tbasis) (y : vec) (w : vec * vec).
Hypothesis Ht : 0 <= tau.
Hypothesis Ly : length y = length X.
Hypothesis Lb : length (snd w) = gp_n B.
Hypothesis BS : block_sol tau (gp_K L X) (map (gp_v B) X) y w.
Lemma sol_len : length (fst w) = length X. Proof. destruct BS. congruence. Qed.
Lemma sol_orth : forall p, length p = gp_n B -> rsum (length X) (fun i => vget (fst w) i * dot (gp_v B (nth i X [])) p) = 0.
Proof. intros p Lp. destruct BS as [_ [_ S2]]. rewrite <- (S2 p) by congruence. rewrite Ly. apply rsum_ext. intros i Hi. rewrite gp_V_row by auto. reflexivity. Qed.
Lemma sol_row : forall i, (i < length X)%nat -> vget (mv (gp_Kt tau (gp_K L X)) (fst w)) i = vget y i - dot (gp_v B (nth i X [])) (snd w).
Proof.
  intros i Hi. destruct BS as [La [S1 _]]. rewrite Ly in *. rewrite (mv_Kt (length X)) by (auto using gp_K_sq). rewrite vadd_get by (rewrite mv_length, gp_K_len, vscale_length; auto). rewrite vscale_get.
  rewrite mv_get by (rewrite gp_K_len; auto). pose proof (S1 i Hi) as E. rewrite gp_V_row in E by auto. lra.
Qed.
(** y.alpha does not change when a trend is subtracted ("doesn't matter because alpha in nullspace of V.T") *)
Lemma sol_energy : forall p, length p = gp_n B ->
  rsum (length X) (fun i => (vget y i - dot (gp_v B (nth i X [])) p) * vget (fst w) i) = quad (gp_Kt tau (gp_K L X)) (fst w).
Proof.
  intros p Lp. unfold quad. rewrite (dot_rs (length X)) by (try apply sol_len; rewrite mv_length; apply (gp_Kt_sq (length X)), gp_K_sq).
  rewrite (rsum_ext (length X) (fun i => vget (fst w) i * vget (mv (gp_Kt tau (gp_K L X)) (fst w)) i) (fun i => vget y i * vget (fst w) i - vget (fst w) i * dot (gp_v B (nth i X [])) (snd w))).
  2:{ intros i Hi. rewrite sol_row by auto. ring. }
  rewrite (rsum_ext (length X) (fun i => (vget y i - dot (gp_v B (nth i X [])) p) * vget (fst w) i) (fun i => vget y i * vget (fst w) i - vget (fst w) i * dot (gp_v B (nth i X [])) p)) by (intros; ring).
  rewrite !rsum_minus, !sol_orth by auto. reflexivity.
Qed.
(** training residuals are at most those of any polynomial of the trend *)
Lemma sol_residual : forall p, length p = gp_n B ->
  rsum (length X) (fun i => (tau * vget (fst w) i) * (tau * vget (fst w) i)) <=
  rsum (length X) (fun i => (vget y i - dot (gp_v B (nth i X [])) p) * (vget y i - dot (gp_v B (nth i X [])) p)).
Proof.
  intros p Lp. pose proof (sol_energy p Lp) as E. rewrite (quad_Kt (length X)) in E by (try apply sol_len; apply gp_K_sq). pose proof (kernel_psd L X (fst w) sol_len) as PK.
  set (n := length X) in *. unfold norm2sq in E. rewrite (dot_rs n) in E by apply sol_len.
  set (r := fun i => vget y i - dot (gp_v B (nth i X [])) p) in *. set (a := vget (fst w)) in *.
  change (rsum n (fun i => tau * a i * (tau * a i)) <= rsum n (fun i => r i * r i)).
  pose proof (rsum_nonneg n (fun i => (r i - tau * a i) * (r i - tau * a i)) (fun i _ => Rle_0_sqr (r i - tau * a i))) as SQ.
  rewrite (rsum_ext n (fun i => (r i - tau * a i) * (r i - tau * a i)) (fun i => r i * r i - 2 * tau * (r i * a i) + tau * tau * (a i * a i))) in SQ by (intros; ring).
  rewrite rsum_plus, rsum_minus, !rsum_scal_l in SQ. rewrite (rsum_ext n (fun i => tau * a i * (tau * a i)) (fun i => tau * tau * (a i * a i))) by (intros; ring). rewrite rsum_scal_l.
  change (rsum n (fun i => r i * a i) = quad (gp_K L X) (fst w) + tau * rsum n (fun i => a i * a i)) in E. rewrite E in SQ. pose proof (Rmult_le_pos _ _ Ht PK). lra.
Qed.
(** data from the trend: the weights of the kernel vanish *)
Lemma sol_trend : forall c, length c = gp_n B -> (0 < tau \/ distinct_pts L X) -> (forall i, (i < length X)%nat -> vget y i = dot (gp_v B (nth i X [])) c) ->
  fst w = vzero (length X) /\ forall i, (i < length X)%nat -> dot (gp_v B (nth i X [])) (snd w) = dot (gp_v B (nth i X [])) c.
Proof.
  intros c Lc C E. pose proof (sol_energy c Lc) as Q. rewrite rsum_zero in Q by (intros i Hi; rewrite E by auto; ring).
  assert (Z : fst w = vzero (length X)) by (apply (Kt_zero tau L X); auto using sol_len). split; [exact Z|].
  intros i Hi. pose proof (sol_row i Hi) as R. rewrite Z in R. rewrite mv_get in R by (rewrite (proj1 (gp_Kt_sq (length X) tau (gp_K L X) (gp_K_sq L X))); auto). rewrite dot_zero_r, (E i Hi) in R. lra.
Qed.
(** the trend coefficients solve the generalised least squares problem with weight (K + nugget I)^-1 *)
Lemma sol_gls : forall b a, length b = gp_n B -> length a = length X -> (forall i, (i < length X)%nat -> vget (mv (gp_Kt tau (gp_K L X)) a) i = vget y i - dot (gp_v B (nth i X [])) b) ->
  quad (gp_Kt tau (gp_K L X)) (fst w) <= quad (gp_Kt tau (gp_K L X)) a.
Proof.
  intros b a Lb' La E. set (n := length X) in *. set (Kt := gp_Kt tau (gp_K L X)) in *.
  assert (SK : sq n Kt) by (apply gp_Kt_sq, gp_K_sq). assert (SY : msym n Kt) by (apply gp_Kt_sym; [apply gp_K_sq|apply gp_K_sym]).
  assert (LK : length Kt = n) by apply SK. pose proof sol_len as Lw. fold n in Lw.
  assert (D : dot (fst w) (mv Kt a) = quad Kt (fst w)).
  { transitivity (rsum n (fun i => (vget y i - dot (gp_v B (nth i X [])) b) * vget (fst w) i)); [|apply (sol_energy b); auto]. rewrite (dot_rs n) by (auto; rewrite mv_length; auto). apply rsum_ext. intros i Hi. rewrite E by auto. ring. }
  set (d := vsub a (fst w)). assert (Ld : length d = n) by (unfold d; rewrite vsub_length; lia).
  assert (Q : quad Kt d = quad Kt a - 2 * dot (fst w) (mv Kt a) + quad Kt (fst w)).
  { unfold quad, d. rewrite mv_vsub by lia. rewrite dot_vsub_l by lia. rewrite !dot_vsub_r by (rewrite !mv_length; auto). rewrite (sym_dot n Kt a (fst w)) by auto. ring. }
  assert (0 <= quad Kt d). { unfold Kt. rewrite (quad_Kt n) by (auto; apply gp_K_sq). pose proof (kernel_psd L X d Ld). pose proof (Rmult_le_pos _ _ Ht (norm2sq_nonneg d)). lra. }
  rewrite D in Q. lra.
Qed.
End Sol.

Theorem gp_data_term : forall eigh tol tau B X y L, 0 <= tol -> 0 <= tau -> (0 < tau \/ distinct_pts L X) -> length y = length X ->
  eigh_post (length X + gp_n B) (gp_block tau B X L) (eigh (gp_block tau B X L)) -> kept tol (length X + gp_n B) (eigh (gp_block tau B X L)) ->
  let w := gp_weights eigh tol tau B X y L in
  dot y (fst w) = quad (gp_Kt tau (gp_K L X)) (fst w) /\ 0 <= dot y (fst w) /\
  (forall p, length p = gp_n B -> rsum (length X) (fun i => (vget y i - dot (gp_v B (nth i X [])) p) * vget (fst w) i) = dot y (fst w)) /\
  (forall b a, length b = gp_n B -> length a = length X -> (forall i, (i < length X)%nat -> vget (mv (gp_Kt tau (gp_K L X)) a) i = vget y i - dot (gp_v B (nth i X [])) b) ->
    dot y (fst w) <= quad (gp_Kt tau (gp_K L X)) a).
Proof.
  intros eigh tol tau B X y L H1 H2 H3 Ly P K w. destruct (gp_block_sol eigh tol tau B X y L H1 H2 H3 Ly P K) as [S Lb]. fold w in S, Lb.
  pose proof (sol_len tau L X B y w Ly S) as Lw.
  assert (E : dot y (fst w) = quad (gp_Kt tau (gp_K L X)) (fst w)).
  { rewrite <- (sol_energy tau L X B y w Ly Lb S (vzero (gp_n B))) by (unfold vzero; apply repeat_length). rewrite (dot_rs (length X)) by auto. apply rsum_ext. intros. rewrite dot_zero_r. ring. }
  split; [exact E|]. split.
  - rewrite E. rewrite (quad_Kt (length X)) by (auto; apply gp_K_sq). pose proof (kernel_psd L X _ Lw). pose proof (Rmult_le_pos _ _ H2 (norm2sq_nonneg (fst w))). lra.
  - split; [intros p Lp; rewrite E; apply sol_energy; auto|]. intros b a Lb' La EE. rewrite E. apply (sol_gls tau L X B y w H2 Ly Lb S b a); auto.
Qed.
Theorem gp_residual : forall eigh tol tau B X y L, 0 <= tol -> 0 <= tau -> (0 < tau \/ distinct_pts L X) -> length y = length X ->
  eigh_post (length X + gp_n B) (gp_block tau B X L) (eigh (gp_block tau B X L)) -> kept tol (length X + gp_n B) (eigh (gp_block tau B X L)) ->
  let w := gp_weights eigh tol tau B X y L in
  forall p, length p = gp_n B ->
  rsum (length X) (fun i => (vget y i - gp_eval B X L w (nth i X [])) * (vget y i - gp_eval B X L w (nth i X []))) <=
  rsum (length X) (fun i => (vget y i - dot (gp_v B (nth i X [])) p) * (vget y i - dot (gp_v B (nth i X [])) p)).
Proof.
  intros eigh tol tau B X y L H1 H2 H3 Ly P K w p Lp. destruct (gp_block_sol eigh tol tau B X y L H1 H2 H3 Ly P K) as [S Lb]. fold w in S, Lb.
  destruct (gp_interp eigh tol tau B X y L H1 H2 H3 Ly P K) as [I _]. fold w in I.
  eapply Rle_trans; [|apply (sol_residual tau L X B y w H2 Ly Lb S p Lp)]. apply Req_le. apply rsum_ext. intros i Hi. rewrite I by auto. ring.
Qed.
(** data sampled from a polynomial of the trend: reproduced at the samples, and everywhere when the samples determine the polynomial *)
Theorem gp_trend : forall eigh tol tau B X y L c, 0 <= tol -> 0 <= tau -> (0 < tau \/ distinct_pts L X) -> length y = length X ->
  eigh_post (length X + gp_n B) (gp_block tau B X L) (eigh (gp_block tau B X L)) -> kept tol (length X + gp_n B) (eigh (gp_block tau B X L)) ->
  length c = gp_n B -> (forall i, (i < length X)%nat -> vget y i = dot (gp_v B (nth i X [])) c) ->
  let w := gp_weights eigh tol tau B X y L in
  (forall i, (i < length X)%nat -> gp_eval B X L w (nth i X []) = vget y i) /\
  ((forall p, length p = gp_n B -> (forall i, (i < length X)%nat -> dot (gp_v B (nth i X [])) p = 0) -> p = vzero (gp_n B)) ->
   snd w = c /\ forall x, gp_eval B X L w x = dot (gp_v B x) c).
Proof.
  intros eigh tol tau B X y L c H1 H2 H3 Ly P K Lc E w. destruct (gp_block_sol eigh tol tau B X y L H1 H2 H3 Ly P K) as [S Lb]. fold w in S, Lb.
  destruct (sol_trend tau L X B y w H2 Ly Lb S c Lc H3 E) as [Z T]. unfold gp_eval. rewrite Z. split.
  - intros i Hi. rewrite dot_zero_r, T by auto. rewrite E by auto. ring.
  - intro INJ. assert (Ec : snd w = c).
    { assert (D : vsub (snd w) c = vzero (gp_n B)). { apply INJ; [rewrite vsub_length; congruence|]. intros i Hi. rewrite dot_vsub_r by congruence. rewrite T by auto. ring. }
      apply vec_ext; [congruence|]. intros i Hi. pose proof (f_equal (fun v => vget v i) D) as D'. cbn beta in D'. rewrite vsub_get, vzero_get in D' by congruence. lra. }
    split; [exact Ec|]. intro x. rewrite Ec, dot_zero_r. ring.
Qed.

(* ---------------- covariance ---------------- *)
(** variance of f(x) - sum_i c_i f(x_i) for a process with the kernel gk *)
Definition pred_var (L X : mat) (x c : vec) : R := 1 - 2 * dot (map (gk L x) X) c + quad (gp_K L X) c.
Lemma gk_map_get : forall L X x i, (i < length X)%nat -> vget (map (gk L x) X) i = gk L x (nth i X []). Proof. intros. apply vget_map; auto. Qed.
Lemma pred_var_nonneg : forall L X x c, length c = length X -> 0 <= pred_var L X x c.
Proof.
  intros L X x c Lc. set (n := length X). pose proof (kernel_psd L (x :: X) ((-1) :: c) ltac:(cbn; congruence)) as P.
  rewrite (quad_rs (S n)) in P by first [exact (gp_K_sq L (x :: X)) | cbn; congruence | cbn; unfold n; lia].
  rewrite rsum_S_first in P. rewrite rsum_S_first in P.
  rewrite (rsum_ext n (fun i => vget (-1 :: c) 0 * vget (-1 :: c) (S i) * mget (gp_K L (x :: X)) 0 (S i)) (fun i => - (vget (map (gk L x) X) i * vget c i))) in P.
  2:{ intros i Hi. rewrite gp_K_get by (cbn; unfold n in *; lia). rewrite gk_map_get by auto. change (vget (-1 :: c) 0) with (-1). change (vget (-1 :: c) (S i)) with (vget c i). cbn [nth]. ring. }
  rewrite (rsum_ext n (fun i => rsum (S n) (fun j => vget (-1 :: c) (S i) * vget (-1 :: c) j * mget (gp_K L (x :: X)) (S i) j)) (fun i => - (vget (map (gk L x) X) i * vget c i) + rsum n (fun j => vget c i * vget c j * mget (gp_K L X) i j))) in P.
  2:{ intros i Hi. rewrite rsum_S_first. f_equal.
      - rewrite gp_K_get by (cbn; unfold n in *; lia). rewrite gk_map_get by auto. cbn [nth]. rewrite gk_sym. change (vget (-1 :: c) 0) with (-1). change (vget (-1 :: c) (S i)) with (vget c i). ring.
      - apply rsum_ext. intros j Hj. rewrite !gp_K_get by (cbn; unfold n in *; lia). reflexivity. }
  rewrite gp_K_get in P by (cbn; lia). cbn [nth] in P. rewrite gk_refl in P. rewrite rsum_plus in P. rewrite <- (quad_rs n) in P by (try apply gp_K_sq; auto).
  rewrite !rsum_opp in P. rewrite <- (dot_rs n) in P by (auto; apply map_length). unfold pred_var. change (vget (-1 :: c) 0) with (-1) in P. lra.
Qed.
Definition cov_w (e : vec * list vec) (tol : R) (L X : mat) (x : vec) : vec :=
  lincomb (length X) (snd e) (map (fun k => if Rltb tol (vget (fst e) k) then / vget (fst e) k * dot (nth k (snd e) []) (map (gk L x) X) else 0) (seq 0 (length X))).
Section Cov.
Variables (e : vec * list vec) (tol : R) (L X : mat) (x : vec).
Hypothesis Ht : 0 <= tol.
Hypothesis P : eigh_post (length X) (gp_K L X) e.
Notation n := (length X).
Notation kx := (map (gk L x) X).
Notation v k := (nth k (snd e) []).
Notation ew k := (vget (fst e) k).
Notation z := (cov_w e tol L X x).
Lemma cov_F : Forall (fun u => length u = n) (snd e). Proof. apply P. Qed.
Lemma cov_z_len : length z = n. Proof. apply lincomb_length, cov_F. Qed.
Lemma cov_kz : dot kx z = rsum n (fun k => if Rltb tol (ew k) then / ew k * (dot (v k) kx * dot (v k) kx) else 0).
Proof.
  destruct P as [_ [[LU [F _]] _]]. unfold cov_w. rewrite (dot_lincomb_r n) by (auto; rewrite map_length, seq_length; auto). rewrite LU. apply rsum_ext. intros k Hk.
  rewrite vget_map_seq by auto. rewrite (dot_comm kx). destruct (Rltb tol (ew k)); ring.
Qed.
Lemma cov_vz : forall k, (k < n)%nat -> dot (v k) z = if Rltb tol (ew k) then / ew k * dot (v k) kx else 0.
Proof.
  intros k Hk. destruct P as [_ [[LU [F OR]] _]].
  assert (E : vget (mv (snd e) z) k = dot (v k) z) by (apply mv_get; lia). rewrite <- E. unfold cov_w. rewrite mv_lincomb_onb by (auto; rewrite map_length, seq_length; auto). apply vget_map_seq; auto.
Qed.
Lemma cov_quad : quad (gp_K L X) z = dot kx z.
Proof.
  rewrite (eigh_quad n _ e z P), cov_kz. apply rsum_ext. intros k Hk. rewrite cov_vz by auto. destruct (Rltb tol (ew k)) eqn:T; [|ring]. apply Rltb_true in T. field. lra.
Qed.
Lemma cov_value : gp_cov e tol L X x = pred_var L X x z /\ 1 - dot kx z = pred_var L X x z.
Proof.
  pose proof (pred_var_nonneg L X x z cov_z_len) as NN. assert (E : 1 - dot kx z = pred_var L X x z) by (unfold pred_var; rewrite cov_quad; ring).
  split; [|exact E]. unfold gp_cov. fold z. change (1 - dot kx (lincomb n (snd e) (map (fun k => if Rltb tol (ew k) then / ew k * dot (v k) kx else 0) (seq 0 n)))) with (1 - dot kx z). rewrite E.
  destruct (Rltb (pred_var L X x z) 0) eqn:T; auto. apply Rltb_true in T. lra.
Qed.
Lemma cov_le1 : gp_cov e tol L X x <= 1.
Proof.
  rewrite (proj1 cov_value), <- (proj2 cov_value). assert (0 <= dot kx z); [|lra]. rewrite cov_kz. apply rsum_nonneg. intros k Hk. destruct (Rltb tol (ew k)) eqn:T; [|lra]. apply Rltb_true in T.
  apply Rmult_le_pos; [left; apply Rinv_0_lt_compat; lra|apply Rle_0_sqr].
Qed.
Lemma cov_null : forall k, (k < n)%nat -> ew k = 0 -> dot (v k) kx = 0.
Proof.
  intros k Hk Z. destruct (Req_dec (dot (v k) kx) 0) as [E|E]; auto. exfalso. set (d := dot (v k) kx) in *.
  assert (LK : length (v k) = n) by (apply onb_row with (m := n); [apply P|auto]).
  pose proof (pred_var_nonneg L X x (vscale (/ d) (v k)) ltac:(rewrite vscale_length; auto)) as NN. unfold pred_var, quad in NN.
  rewrite mv_vscale, (eig_vec n _ e k P Hk), Z in NN. rewrite !dot_vscale_r, (dot_comm kx) in NN. fold d in NN. rewrite Rmult_0_l, Rmult_0_r in NN. rewrite Rinv_l in NN by auto. lra.
Qed.
(** the reported value is the least variance of a linear predictor *)
Lemma cov_optimal : (forall k, (k < n)%nat -> tol < ew k \/ ew k = 0) -> forall c, length c = n -> gp_cov e tol L X x <= pred_var L X x c.
Proof.
  intros K c Lc. rewrite (proj1 cov_value), <- (proj2 cov_value). unfold pred_var. rewrite (eigh_quad n _ e c P), cov_kz.
  rewrite (parseval_dot n (snd e) kx c) by (try apply P; auto; apply map_length).
  assert (0 <= rsum n (fun k => (if Rltb tol (ew k) then / ew k * (dot (v k) kx * dot (v k) kx) else 0) - 2 * (dot (v k) kx * dot (v k) c) + ew k * (dot (v k) c * dot (v k) c))).
  { apply rsum_nonneg. intros k Hk. destruct (Rltb tol (ew k)) eqn:T.
    - apply Rltb_true in T. set (p := dot (v k) kx). set (q := dot (v k) c).
      replace (/ ew k * (p * p) - 2 * (p * q) + ew k * (q * q)) with (/ ew k * ((p - ew k * q) * (p - ew k * q))) by (field; lra).
      apply Rmult_le_pos; [left; apply Rinv_0_lt_compat; lra|apply Rle_0_sqr].
    - apply Rltb_false in T. destruct (K k Hk) as [K1|K1]; [lra|]. rewrite (cov_null k Hk K1), K1. lra. }
  rewrite rsum_plus, rsum_minus, rsum_scal_l in H. lra.
Qed.
End Cov.
(** the reported covariance: in [0, 1], the clip never acts *)
Theorem gp_cov_range : forall e tol L X x, 0 <= tol -> eigh_post (length X) (gp_K L X) e ->
  0 <= gp_cov e tol L X x <= 1 /\ exists c, length c = length X /\ gp_cov e tol L X x = pred_var L X x c /\ gp_cov e tol L X x = 1 - dot (map (gk L x) X) c.
Proof.
  intros e tol L X x Ht P. destruct (cov_value e tol L X x Ht P) as [E1 E2]. split; [split|].
  - rewrite E1. apply pred_var_nonneg, cov_z_len; auto.
  - apply cov_le1; auto.
  - exists (cov_w e tol L X x). split; [apply cov_z_len; auto|]. split; [auto|]. rewrite E1, E2. reflexivity.
Qed.
Theorem gp_cov_best : forall e tol L X x, 0 <= tol -> eigh_post (length X) (gp_K L X) e -> (forall k, (k < length X)%nat -> tol < vget (fst e) k \/ vget (fst e) k = 0) ->
  (forall c, length c = length X -> gp_cov e tol L X x <= pred_var L X x c) /\ (exists c, length c = length X /\ gp_cov e tol L X x = pred_var L X x c) /\
  (forall i, (i < length X)%nat -> x = nth i X [] -> gp_cov e tol L X x = 0).
Proof.
  intros e tol L X x Ht P K. pose proof (cov_optimal e tol L X x Ht P K) as O. destruct (gp_cov_range e tol L X x Ht P) as [[R1 R2] [c [Lc [Ec _]]]]. split; [exact O|]. split; [exists c; auto|].
  intros i Hi Ex. set (n := length X) in *. pose proof (O (unitv n i) (unitv_len n i)) as U. unfold pred_var, quad in U. fold n in U.
  rewrite dot_unitv in U by (auto; apply map_length). rewrite (dot_comm (unitv n i)), dot_unitv in U by (auto; rewrite mv_length, gp_K_len; auto).
  rewrite mv_get in U by (rewrite gp_K_len; auto). rewrite gp_K_row in U by auto. rewrite dot_unitv in U by (auto; apply map_length). rewrite !vget_map in U by auto. rewrite Ex in U at 2. rewrite !gk_refl in U. lra.
Qed.

(** Gaussian process: positive definiteness, interpolation, trend, covariance. *)
Require Import Reals List Bool Arith Lra Lia.
From Verif Require Import RVec Num Sums DomModel DomMoreModel BasisModel SweepProofs HullProofs NormProofs FunProofs TensorProofs MatLib SpecProofs LipModel GrassLib SubModel ArnoldiMoreProofs GpModel GpKernel.
Import ListNotations.
Local Open Scope R_scope.

(* ---------------- eigendecompositions ---------------- *)
Lemma eig_vec : forall n A e k, eigh_post n A e -> (k < n)%nat -> mv A (nth k (snd e) []) = vscale (vget (fst e) k) (nth k (snd e) []).
Proof.
  intros n A e k [L [[LU [F OR]] [E _]]] Hk. rewrite <- E. rewrite mv_spec by (auto; lia).
  assert (LK : length (nth k (snd e) []) = n) by (apply onb_row with (m := n); [split; auto|auto]).
  assert (LM : length (vmul (fst e) (mv (snd e) (nth k (snd e) []))) = length (snd e)) by (rewrite vmul_length; rewrite ?mv_length; lia).
  apply vec_ext.
  - rewrite vscale_length, LK. apply lincomb_length; auto.
  - intros i Hi. rewrite lincomb_length in Hi by auto.
    rewrite lincomb_get by auto. rewrite vscale_get. rewrite (rsum_single _ k); [|lia|].
    + rewrite vmul_get by (rewrite mv_length; lia). rewrite mv_get by lia. rewrite (OR k k) by lia. rewrite Nat.eqb_refl. ring.
    + intros j Hj Hn. rewrite vmul_get by (rewrite mv_length; lia). rewrite mv_get by lia. rewrite (OR j k) by lia. destruct (Nat.eqb_spec j k); [lia|]. ring.
Qed.
Lemma eig_unit : forall n A e k, eigh_post n A e -> (k < n)%nat -> dot (nth k (snd e) []) (nth k (snd e) []) = 1.
Proof. intros n A e k [L [[LU [F OR]] _]] Hk. rewrite (OR k k) by lia. rewrite Nat.eqb_refl. reflexivity. Qed.
Lemma eig_quad : forall n A e k, eigh_post n A e -> (k < n)%nat -> vget (fst e) k = quad A (nth k (snd e) []).
Proof. intros n A e k P Hk. unfold quad. rewrite (eig_vec n A e k P Hk), dot_vscale_r, (eig_unit n A e k P Hk). ring. Qed.
Lemma eig_solve_len : forall n A e tol b, eigh_post n A e -> length (eig_solve n e tol b) = n.
Proof. intros n A e tol b [_ [[_ [F _]] _]]. apply lincomb_length; auto. Qed.
Lemma eig_solve_exact : forall n A e tol b, eigh_post n A e -> length b = n -> 0 <= tol ->
  (forall k, (k < n)%nat -> tol < Rabs (vget (fst e) k) \/ dot (nth k (snd e) []) b = 0) -> mv A (eig_solve n e tol b) = b.
Proof.
  intros n A e tol b P Lb Ht K. pose proof P as [L [[LU [F OR]] [E _]]]. unfold eig_solve. set (c := map _ _).
  assert (Lc : length c = length (snd e)) by (unfold c; rewrite map_length, seq_length; lia).
  rewrite <- E. rewrite mv_spec by (auto; lia). rewrite mv_lincomb_onb by auto.
  transitivity (lincomb n (snd e) (mv (snd e) b)); [f_equal|apply onb_expand; [split; auto|auto]]. apply vec_ext; [rewrite vmul_length, mv_length; lia|].
  intros k Hk. rewrite vmul_length in Hk by lia. rewrite L in Hk. rewrite vmul_get by lia. rewrite mv_get by lia. unfold c. rewrite vget_map_seq by auto.
  destruct (Rltb tol (Rabs (vget (fst e) k))) eqn:T.
  - apply Rltb_true in T. assert (vget (fst e) k <> 0). { intro Z. rewrite Z, Rabs_R0 in T. lra. } field. auto.
  - apply Rltb_false in T. destruct (K k Hk) as [K1|K1]; [lra|]. rewrite K1. ring.
Qed.
(** symmetric matrices *)
Lemma sym_dot : forall n A x z, sq n A -> msym n A -> length x = n -> length z = n -> dot x (mv A z) = dot z (mv A x).
Proof.
  intros n A x z SA SY Lx Lz. destruct SA as [LA FA]. rewrite (dot_rs n) by (rewrite ?mv_length; auto). rewrite (dot_rs n z) by (rewrite ?mv_length; auto).
  rewrite (rsum_ext n (fun i => vget x i * vget (mv A z) i) (fun i => rsum n (fun j => vget x i * (mget A i j * vget z j)))).
  2:{ intros i Hi. rewrite mv_get by lia. rewrite (dot_rs n) by (try apply sq_row; auto; split; auto). rewrite <- rsum_scal_l. reflexivity. }
  rewrite (rsum_ext n (fun i => vget z i * vget (mv A x) i) (fun i => rsum n (fun j => vget z i * (mget A i j * vget x j)))).
  2:{ intros i Hi. rewrite mv_get by lia. rewrite (dot_rs n) by (try apply sq_row; auto; split; auto). rewrite <- rsum_scal_l. reflexivity. }
  rewrite rsum_swap. apply rsum_ext. intros i Hi. apply rsum_ext. intros j Hj. rewrite (SY j i) by auto. ring.
Qed.

(* ---------------- the kernel matrix ---------------- *)
Definition pt (L X : mat) (i l : nat) : R := vget (mv L (nth i X [])) l.
(** the transformed sample points are pairwise different *)
Definition distinct_pts (L X : mat) : Prop := forall i j, (i < length X)%nat -> (j < length X)%nat -> i <> j -> mv L (nth i X []) <> mv L (nth j X []).
Lemma gk_dist : forall L x z, gk_d L x z = rsum (length L) (fun l => (vget (mv L x) l - vget (mv L z) l) * (vget (mv L x) l - vget (mv L z) l)).
Proof.
  intros. unfold gk_d, norm2sq. rewrite (dot_rs (length L)) by (rewrite vsub_length; rewrite ?mv_length; auto). apply rsum_ext. intros l Hl. rewrite vsub_get by (rewrite !mv_length; auto). ring.
Qed.
Lemma gk_sym : forall L x z, gk L x z = gk L z x.
Proof. intros. unfold gk. rewrite !gk_dist. f_equal. f_equal. apply rsum_ext. intros. ring. Qed.
Lemma gk_refl : forall L x, gk L x x = 1.
Proof. intros. unfold gk. rewrite gk_dist. rewrite rsum_zero by (intros; ring). rewrite Rmult_0_r. apply exp_0. Qed.
Lemma gp_K_len : forall L X, length (gp_K L X) = length X. Proof. intros. apply map_length. Qed.
Lemma gp_K_row : forall L X i, (i < length X)%nat -> nth i (gp_K L X) [] = map (gk L (nth i X [])) X.
Proof. intros L X i Hi. unfold gp_K. rewrite (nth_indep _ [] (map (gk L []) X)) by (rewrite map_length; auto). rewrite (map_nth (fun x => map (gk L x) X)). reflexivity. Qed.
Lemma vget_map : forall (f : vec -> R) X j, (j < length X)%nat -> vget (map f X) j = f (nth j X []).
Proof. intros f X j Hj. unfold vget. rewrite (nth_indep _ 0 (f [])) by (rewrite map_length; auto). apply map_nth. Qed.
Lemma gp_K_get : forall L X i j, (i < length X)%nat -> (j < length X)%nat -> mget (gp_K L X) i j = gk L (nth i X []) (nth j X []).
Proof. intros. unfold mget. rewrite gp_K_row by auto. apply vget_map; auto. Qed.
Lemma gp_K_sq : forall L X, sq (length X) (gp_K L X).
Proof. intros. split; [apply gp_K_len|]. apply Forall_forall. intros r Hr. apply in_map_iff in Hr. destruct Hr as [x [<- _]]. apply map_length. Qed.
Lemma gp_K_sym : forall L X, msym (length X) (gp_K L X).
Proof. intros L X i j Hi Hj. rewrite !gp_K_get by auto. apply gk_sym. Qed.
Lemma quad_rs : forall n A c, sq n A -> length c = n -> quad A c = rsum n (fun i => rsum n (fun j => vget c i * vget c j * mget A i j)).
Proof.
  intros n A c SA Lc. unfold quad. rewrite (dot_rs n) by (rewrite ?mv_length; destruct SA; auto). apply rsum_ext. intros i Hi.
  rewrite mv_get by (destruct SA; lia). rewrite (dot_rs n) by (try apply sq_row; auto). rewrite <- rsum_scal_l. apply rsum_ext. intros j Hj. unfold mget. ring.
Qed.
Lemma quad_K : forall L X c, length c = length X -> quad (gp_K L X) c = Gk (length X) (length L) (pt L X) (vget c).
Proof.
  intros L X c Lc. rewrite (quad_rs (length X)) by (auto using gp_K_sq). unfold Gk. apply rsum_ext. intros i Hi. apply rsum_ext. intros j Hj.
  rewrite gp_K_get by auto. unfold gk. rewrite gk_dist. reflexivity.
Qed.
Theorem kernel_psd : forall L X c, length c = length X -> 0 <= quad (gp_K L X) c.
Proof. intros. rewrite quad_K by auto. apply gauss_psd. Qed.
Theorem kernel_pd : forall L X c, distinct_pts L X -> length c = length X -> (exists i, vget c i <> 0) -> 0 < quad (gp_K L X) c.
Proof.
  intros L X c D Lc [i Hc]. assert (Hi : (i < length X)%nat). { destruct (le_lt_dec (length X) i); auto. exfalso. apply Hc. apply vget_over. lia. }
  rewrite quad_K by auto. apply gauss_pd; [|exists i; auto].
  intros a b Ha Hb N Z. apply (D a b Ha Hb N). apply norm2sq_zero_eq; [rewrite !mv_length; auto|]. change (gk_d L (nth a X []) (nth b X []) = 0). rewrite gk_dist. exact Z.
Qed.
(** coinciding points: the matrix is singular, so distinctness is needed *)
Theorem kernel_singular : forall L X i j, (i < length X)%nat -> (j < length X)%nat -> i <> j -> mv L (nth i X []) = mv L (nth j X []) ->
  exists c, length c = length X /\ vget c i = 1 /\ quad (gp_K L X) c = 0.
Proof.
  intros L X i j Hi Hj N E. set (n := length X). exists (vsub (unitv n i) (unitv n j)).
  assert (LC : length (vsub (unitv n i) (unitv n j)) = n) by (rewrite vsub_length; rewrite !unitv_len; auto).
  split; [exact LC|]. split.
  { rewrite vsub_get by (rewrite !unitv_len; auto). rewrite !unitv_get by auto. rewrite Nat.eqb_refl. destruct (Nat.eqb_spec i j); [lia|ring]. }
  pose proof (kernel_psd L X _ LC). unfold quad in *.
  assert (Z : mv (gp_K L X) (vsub (unitv n i) (unitv n j)) = vzero n).
  { apply vec_ext; [rewrite mv_length, gp_K_len; unfold vzero; rewrite repeat_length; reflexivity|]. intros k Hk. rewrite mv_length, gp_K_len in Hk. rewrite vzero_get. rewrite mv_get by (rewrite gp_K_len; auto).
    rewrite gp_K_row by auto. rewrite dot_vsub_r by (rewrite !unitv_len; auto). rewrite !dot_unitv by (auto; apply map_length). rewrite !vget_map by auto.
    unfold gk, gk_d. rewrite E. ring. }
  rewrite Z. apply dot_zero_r.
Qed.

(* ---------------- K + nugget I ---------------- *)
Lemma eye_len : forall n, length (eye n) = n.
Proof. intro. unfold eye, diag. rewrite map_length, seq_length, repeat_length. reflexivity. Qed.
Lemma eye_sq : forall n, sq n (eye n).
Proof. intro n. split; [apply eye_len|]. unfold eye, diag. rewrite repeat_length. apply Forall_forall. intros r Hr. apply in_map_iff in Hr. destruct Hr as [i [<- _]]. rewrite map_length, seq_length. reflexivity. Qed.
Lemma repeat_get : forall n (a : R) i, (i < n)%nat -> vget (repeat a n) i = a.
Proof. induction n; intros a i Hi; [lia|]. destruct i; cbn; auto. apply IHn. lia. Qed.
Lemma eye_get : forall n i j, (i < n)%nat -> (j < n)%nat -> mget (eye n) i j = if Nat.eqb i j then 1 else 0.
Proof. intros n i j Hi Hj. unfold mget, eye, diag. rewrite repeat_length. rewrite nth_map_seq by auto. rewrite vget_map_seq by auto. rewrite repeat_get by auto. reflexivity. Qed.
Lemma mv_eye : forall n x, length x = n -> mv (eye n) x = x.
Proof.
  intros n x Lx. unfold eye. rewrite mv_diag by (rewrite repeat_length; auto). apply vec_ext; [rewrite vmul_length; rewrite repeat_length; auto|].
  intros i Hi. rewrite vmul_length, repeat_length in Hi by (rewrite repeat_length; auto). rewrite vmul_get by (rewrite repeat_length; auto). rewrite repeat_get by auto. ring.
Qed.
Lemma gp_Kt_sq : forall n tau K, sq n K -> sq n (gp_Kt tau K).
Proof. intros n tau K SK. unfold gp_Kt. destruct SK as [LK FK]. rewrite LK. apply madd_sq; [split; auto|]. apply mscale_sq, eye_sq. Qed.
Lemma gp_Kt_get : forall n tau K i j, sq n K -> (i < n)%nat -> (j < n)%nat -> mget (gp_Kt tau K) i j = mget K i j + tau * (if Nat.eqb i j then 1 else 0).
Proof. intros n tau K i j SK Hi Hj. unfold gp_Kt. rewrite (proj1 SK). rewrite (mget_madd n) by (auto; apply mscale_sq, eye_sq). rewrite mget_mscale, eye_get by auto. reflexivity. Qed.
Lemma gp_Kt_sym : forall n tau K, sq n K -> msym n K -> msym n (gp_Kt tau K).
Proof. intros n tau K SK SY i j Hi Hj. rewrite !(gp_Kt_get n) by auto. rewrite (SY i j) by auto. rewrite Nat.eqb_sym. reflexivity. Qed.
Lemma mv_Kt : forall n tau K a, sq n K -> length a = n -> mv (gp_Kt tau K) a = vadd (mv K a) (vscale tau a).
Proof. intros n tau K a SK La. unfold gp_Kt. rewrite (proj1 SK). rewrite (mv_madd n) by (auto; apply mscale_sq, eye_sq). rewrite mv_mscale, mv_eye by auto. reflexivity. Qed.
Lemma quad_Kt : forall n tau K a, sq n K -> length a = n -> quad (gp_Kt tau K) a = quad K a + tau * norm2sq a.
Proof. intros n tau K a SK La. unfold quad. rewrite (mv_Kt n) by auto. rewrite dot_vadd_r by (rewrite mv_length, vscale_length; destruct SK; lia). rewrite dot_vscale_r. reflexivity. Qed.
Lemma norm2sq_pos : forall x i, vget x i <> 0 -> 0 < norm2sq x.
Proof.
  intros x i H. destruct (Rle_lt_or_eq_dec 0 (norm2sq x) (norm2sq_nonneg x)) as [P|P]; auto. exfalso. symmetry in P. apply norm2sq_zero in P.
  apply H. destruct (le_lt_dec (length x) i); [apply vget_over; auto|]. rewrite Forall_forall in P. apply P. unfold vget. apply nth_In. auto.
Qed.
Lemma Kt_pd : forall tau L X a, 0 <= tau -> (0 < tau \/ distinct_pts L X) -> length a = length X -> (exists i, vget a i <> 0) -> 0 < quad (gp_Kt tau (gp_K L X)) a.
Proof.
  intros tau L X a Ht C La [i Hi]. rewrite (quad_Kt (length X)) by (auto using gp_K_sq). pose proof (kernel_psd L X a La). pose proof (norm2sq_nonneg a). pose proof (norm2sq_pos a i Hi). destruct C as [C|C].
  - pose proof (Rmult_lt_0_compat _ _ C H1). lra.
  - pose proof (kernel_pd L X a C La (ex_intro _ i Hi)). pose proof (Rmult_le_pos _ _ Ht H0). lra.
Qed.
Lemma Kt_zero : forall tau L X a, 0 <= tau -> (0 < tau \/ distinct_pts L X) -> length a = length X -> quad (gp_Kt tau (gp_K L X)) a = 0 -> a = vzero (length X).
Proof.
  intros tau L X a Ht C La Q. apply vec_ext; [unfold vzero; rewrite repeat_length; auto|]. intros i Hi. rewrite vzero_get. destruct (Req_dec (vget a i) 0) as [E|E]; auto.
  pose proof (Kt_pd tau L X a Ht C La (ex_intro _ i E)). lra.
Qed.
(** eigenvalues of K + nugget I: at least the nugget, more for distinct points; the logarithms and quotients are defined *)
Theorem Kt_eigs : forall tau L X e, eigh_post (length X) (gp_Kt tau (gp_K L X)) e -> forall k, (k < length X)%nat ->
  tau <= vget (fst e) k /\ (distinct_pts L X -> tau < vget (fst e) k).
Proof.
  intros tau L X e P k Hk. pose proof (eig_quad _ _ _ k P Hk) as Q. pose proof (eig_unit _ _ _ k P Hk) as U.
  assert (LK : length (nth k (snd e) []) = length X) by (apply onb_row with (m := length X); [apply P|auto]).
  rewrite (quad_Kt (length X)) in Q by (auto using gp_K_sq). unfold norm2sq in Q. rewrite U in Q. pose proof (kernel_psd L X _ LK). split; [lra|]. intro D.
  assert (NZ : exists i, vget (nth k (snd e) []) i <> 0).
  { destruct (Req_dec (norm2sq (nth k (snd e) [])) 0) as [Z|Z]; [unfold norm2sq in Z; lra|].
    destruct (List.Exists_dec (fun i => vget (nth k (snd e) []) i <> 0) (seq 0 (length X))) as [Ex|Ex].
    - intro i. destruct (Req_EM_T (vget (nth k (snd e) []) i) 0); [right; auto|left; auto].
    - apply Exists_exists in Ex. destruct Ex as [i [_ Hi]]. exists i. auto.
    - exfalso. apply Z. unfold norm2sq. rewrite (dot_rs (length X)) by auto. apply rsum_zero. intros i Hi. destruct (Req_dec (vget (nth k (snd e) []) i) 0) as [E|E]; [rewrite E; ring|].
      exfalso. apply Ex. apply Exists_exists. exists i. split; [apply in_seq; lia|auto]. }
  pose proof (kernel_pd L X _ D LK NZ). lra.
Qed.

(* ---------------- the block system ---------------- *)
Section Block.
Variables (M N : nat) (Kt V : mat).
Hypothesis SK : sq M Kt.
Hypothesis SY : msym M Kt.
Hypothesis LV : length V = M.
Hypothesis FV : Forall (fun r => length r = N) V.
Lemma A_top : length (zipw (@app R) Kt V) = M.
Proof. destruct SK. rewrite zipw_length; lia. Qed.
Lemma A_len : length (gp_A Kt V N) = (M + N)%nat.
Proof. unfold gp_A. rewrite app_length, A_top, map_length, seq_length. reflexivity. Qed.
Lemma A_row_top : forall i, (i < M)%nat -> nth i (gp_A Kt V N) [] = nth i Kt [] ++ nth i V [].
Proof. intros i Hi. unfold gp_A. rewrite app_nth1 by (rewrite A_top; auto). rewrite zipw_nth with (da := []) (db := []) by (destruct SK; lia). reflexivity. Qed.
Lemma A_row_bot : forall j, (j < N)%nat -> nth (M + j) (gp_A Kt V N) [] = col V j ++ vzero N.
Proof. intros j Hj. unfold gp_A. rewrite app_nth2 by (rewrite A_top; lia). rewrite A_top. replace (M + j - M)%nat with j by lia. rewrite nth_map_seq by auto. reflexivity. Qed.
Lemma V_row : forall i, (i < M)%nat -> length (nth i V []) = N.
Proof. intros i Hi. rewrite Forall_forall in FV. apply FV, nth_In. lia. Qed.
Lemma A_sq : sq (M + N) (gp_A Kt V N).
Proof.
  split; [apply A_len|]. apply Forall_forall. intros r Hr. apply In_nth with (d := []) in Hr. destruct Hr as [i [Hi <-]]. rewrite A_len in Hi.
  destruct (le_lt_dec M i) as [G|G].
  - replace i with (M + (i - M))%nat by lia. rewrite A_row_bot by lia. rewrite app_length, col_len. unfold vzero. rewrite repeat_length. lia.
  - rewrite A_row_top by auto. rewrite app_length, V_row by auto. rewrite (sq_row M) by auto. reflexivity.
Qed.
Lemma A_sym : msym (M + N) (gp_A Kt V N).
Proof.
  assert (Z : forall i j, (i < M)%nat -> (j < N)%nat -> mget (gp_A Kt V N) i (M + j) = mget (gp_A Kt V N) (M + j) i).
  { intros i j Hi Hj. unfold mget. rewrite A_row_top, A_row_bot by auto. rewrite vget_app_r by (rewrite (sq_row M) by auto; lia). rewrite (sq_row M) by auto.
    rewrite vget_app_l by (rewrite col_len; lia). rewrite col_get by lia. f_equal. lia. }
  intros i j Hi Hj. destruct (le_lt_dec M i) as [G|G]; destruct (le_lt_dec M j) as [G'|G'].
  - replace i with (M + (i - M))%nat by lia. replace j with (M + (j - M))%nat by lia. unfold mget. rewrite !A_row_bot by lia. rewrite !vget_app_r by (rewrite col_len; lia). rewrite !vzero_get. reflexivity.
  - replace i with (M + (i - M))%nat by lia. symmetry. apply Z; lia.
  - replace j with (M + (j - M))%nat by lia. apply Z; lia.
  - unfold mget. rewrite !A_row_top by auto. rewrite !vget_app_l by (rewrite (sq_row M) by auto; auto). apply SY; auto.
Qed.
Lemma A_mv : forall a c, length a = M -> length c = N -> mv (gp_A Kt V N) (a ++ c) = vadd (mv Kt a) (mv V c) ++ map (fun j => dot (col V j) a) (seq 0 N).
Proof.
  intros a c La Lc. destruct SK as [LK FK].
  assert (LT : length (vadd (mv Kt a) (mv V c)) = M) by (rewrite vadd_length; rewrite ?mv_length; lia).
  apply vec_ext; [rewrite mv_length, A_len, app_length, LT, map_length, seq_length; reflexivity|].
  intros i Hi. rewrite mv_length, A_len in Hi. rewrite mv_get by (rewrite A_len; auto). destruct (le_lt_dec M i) as [G|G].
  - replace i with (M + (i - M))%nat by lia. rewrite A_row_bot by lia. rewrite dot_app by (rewrite col_len; lia). rewrite dot_zero_l.
    rewrite vget_app_r by lia. rewrite LT. replace (M + (i - M) - M)%nat with (i - M)%nat by lia. rewrite vget_map_seq by lia. ring.
  - rewrite A_row_top by auto. rewrite dot_app by (rewrite (sq_row M); auto; lia). rewrite vget_app_l by lia. rewrite vadd_get by (rewrite !mv_length; lia). rewrite !mv_get by lia. reflexivity.
Qed.
(** V c and the columns of V *)
Lemma V_cols : forall a c, length a = M -> length c = N -> dot a (mv V c) = rsum N (fun j => vget c j * dot (col V j) a).
Proof.
  intros a c La Lc. rewrite (dot_rs M) by (rewrite ?mv_length; auto).
  rewrite (rsum_ext M (fun i => vget a i * vget (mv V c) i) (fun i => rsum N (fun j => vget a i * (vget (nth i V []) j * vget c j)))).
  2:{ intros i Hi. rewrite mv_get by lia. rewrite (dot_rs N) by (auto using V_row). rewrite <- rsum_scal_l. reflexivity. }
  rewrite rsum_swap. apply rsum_ext. intros j Hj. rewrite (dot_rs M) by (auto; rewrite col_len; auto). rewrite <- rsum_scal_l. apply rsum_ext. intros i Hi. rewrite col_get by lia. ring.
Qed.
End Block.
(** solution of the block system, the spec of the weights *)
Definition block_sol (tau : R) (K V : mat) (y : vec) (w : vec * vec) : Prop :=
  length (fst w) = length y /\
  (forall i, (i < length y)%nat -> dot (nth i K []) (fst w) + tau * vget (fst w) i + dot (nth i V []) (snd w) = vget y i) /\
  (forall p, length p = length (snd w) -> rsum (length y) (fun i => vget (fst w) i * dot (nth i V []) p) = 0).
(** every eigenvalue of the block matrix is either kept or exactly zero *)
Definition kept (tol : R) (n : nat) (e : vec * list vec) : Prop := forall k, (k < n)%nat -> tol < Rabs (vget (fst e) k) \/ vget (fst e) k = 0.
Definition gp_block (tau : R) (B : option tbasis) (X L : mat) : mat := gp_A (gp_Kt tau (gp_K L X)) (map (gp_v B) X) (gp_n B).
Lemma gp_v_len : forall B x, length (gp_v B x) = gp_n B.
Proof. intros [B|] x; [unfold gp_v, gp_n, Vrow; apply map_length|reflexivity]. Qed.
Lemma gp_V_rows : forall B X, Forall (fun r => length r = gp_n B) (map (gp_v B) X).
Proof. intros. apply Forall_forall. intros r Hr. apply in_map_iff in Hr. destruct Hr as [x [<- _]]. apply gp_v_len. Qed.
Lemma gp_V_row : forall B X i, (i < length X)%nat -> nth i (map (gp_v B) X) [] = gp_v B (nth i X []).
Proof. intros B X i Hi. rewrite (nth_indep _ [] (gp_v B [])) by (rewrite map_length; auto). apply map_nth. Qed.
Lemma split_len : forall M N (x : vec), length x = (M + N)%nat -> length (firstn M x) = M /\ length (skipn M x) = N /\ x = firstn M x ++ skipn M x.
Proof. intros M N x Lx. rewrite firstn_length, skipn_length. split; [lia|split; [lia|]]. symmetry. apply firstn_skipn. Qed.
Lemma app_inj : forall (a b c d : vec), length a = length c -> a ++ b = c ++ d -> a = c /\ b = d.
Proof. induction a; intros b c d Lc E; destruct c; try discriminate; cbn in *; auto. inversion E; subst. destruct (IHa b c d) as [-> ->]; auto. Qed.
Lemma gp_block_sol : forall eigh tol tau B X y L, 0 <= tol -> 0 <= tau -> (0 < tau \/ distinct_pts L X) -> length y = length X ->
  eigh_post (length X + gp_n B) (gp_block tau B X L) (eigh (gp_block tau B X L)) -> kept tol (length X + gp_n B) (eigh (gp_block tau B X L)) ->
  block_sol tau (gp_K L X) (map (gp_v B) X) y (gp_weights eigh tol tau B X y L) /\ length (snd (gp_weights eigh tol tau B X y L)) = gp_n B.
Proof.
  intros eigh tol tau B X y L Htol Htau C Ly P KP. unfold gp_weights. set (M := length X) in *. set (N := gp_n B) in *. set (A := gp_block tau B X L) in *.
  set (V := map (gp_v B) X) in *. change (gp_A (gp_Kt tau (gp_K L X)) V N) with A. set (x := eig_solve (M + N) (eigh A) tol (y ++ vzero N)).
  assert (SK : sq M (gp_Kt tau (gp_K L X))) by (apply gp_Kt_sq, gp_K_sq).
  assert (SY : msym M (gp_Kt tau (gp_K L X))) by (apply gp_Kt_sym; [apply gp_K_sq|apply gp_K_sym]).
  assert (LV : length V = M) by apply map_length. assert (FV : Forall (fun r => length r = N) V) by apply gp_V_rows.
  assert (Lx : length x = (M + N)%nat) by (apply (eig_solve_len (M + N) A); auto).
  destruct (split_len M N x Lx) as [La [Lb Ex]]. cbn [fst snd].
  assert (LZ : length (vzero N) = N) by (unfold vzero; apply repeat_length).
  assert (E : mv A x = y ++ vzero N).
  { apply eig_solve_exact; auto; [rewrite app_length, LZ; lia|]. intros k Hk. destruct (KP k Hk) as [K1|K0]; [left; auto|right].
    pose proof (eig_vec _ _ _ k P Hk) as EV. rewrite K0 in EV.
    assert (LK : length (nth k (snd (eigh A)) []) = (M + N)%nat) by (apply onb_row with (m := (M + N)%nat); [apply P|auto]).
    destruct (split_len M N _ LK) as [L1 [L2 E12]]. set (v := nth k (snd (eigh A)) []) in *. set (a := firstn M v) in *. set (c := skipn M v) in *.
    rewrite E12 in EV at 1. unfold A, gp_block in EV. fold V N in EV. rewrite (A_mv M N) in EV by auto.
    assert (Z : vscale 0 v = vzero M ++ vzero N).
    { apply vec_ext; [rewrite vscale_length, app_length, LZ; unfold vzero; rewrite repeat_length; auto|]. intros i Hi. rewrite vscale_get.
      destruct (le_lt_dec M i); [rewrite vget_app_r by (unfold vzero; rewrite repeat_length; auto)|rewrite vget_app_l by (unfold vzero; rewrite repeat_length; auto)]; rewrite vzero_get; ring. }
    rewrite Z in EV. apply app_inj in EV; [|rewrite vadd_length; rewrite ?mv_length; unfold vzero; rewrite ?repeat_length; destruct SK; lia]. destruct EV as [EV1 EV2].
    assert (Q : quad (gp_Kt tau (gp_K L X)) a = 0).
    { pose proof (f_equal (dot a) EV1) as D. rewrite dot_zero_r, dot_vadd_r in D by (rewrite !mv_length; destruct SK; lia). rewrite (V_cols M N V) in D by auto.
      rewrite rsum_zero in D; [unfold quad; lra|]. intros j Hj. pose proof (f_equal (fun v => vget v j) EV2) as D2. cbn beta in D2. rewrite vget_map_seq, vzero_get in D2 by auto. rewrite D2. ring. }
    apply Kt_zero in Q; auto. rewrite E12. rewrite Q. rewrite dot_app by (unfold vzero; rewrite repeat_length; auto). rewrite dot_zero_l, dot_zero_r. ring. }
  rewrite Ex in E. unfold A, gp_block in E. fold V N in E. rewrite (A_mv M N) in E by auto.
  apply app_inj in E; [|rewrite vadd_length; rewrite ?mv_length; destruct SK; lia]. destruct E as [E1 E2].
  split; [|exact Lb]. split; [cbn; lia|]. cbn [fst snd]. split.
  - intros i Hi. rewrite Ly in Hi. pose proof (f_equal (fun v => vget v i) E1) as D. cbn beta in D. rewrite vadd_get in D by (rewrite !mv_length; destruct SK; lia).
    rewrite (mv_Kt M) in D by (auto; apply gp_K_sq). rewrite vadd_get in D by (rewrite mv_length, gp_K_len, vscale_length; lia). rewrite vscale_get in D. rewrite !mv_get in D by (rewrite ?gp_K_len; lia). exact D.
  - intros p Lp. rewrite Lb in Lp. rewrite Ly. fold M.
    rewrite (rsum_ext M _ (fun i => vget (firstn M x) i * vget (mv V p) i)); [|intros i Hi; rewrite mv_get by lia; reflexivity].
    rewrite <- (dot_rs M) by (auto; rewrite mv_length; auto). rewrite (V_cols M N V) by auto. apply rsum_zero. intros j Hj.
    pose proof (f_equal (fun v => vget v j) E2) as D2. cbn beta in D2. rewrite vget_map_seq, vzero_get in D2 by auto. rewrite D2. ring.
Qed.

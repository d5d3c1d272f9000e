(** The gradient of the marginal likelihood is its derivative, for every structure of L. *)
Require Import Reals List Bool Arith Lra Lia.
From Verif Require Import RVec Num Sums DomModel DomMoreModel BasisModel SweepProofs HullProofs NormProofs FunProofs TensorProofs MatLib SpecProofs LipModel GrassLib SubModel ArnoldiMoreProofs Deriv VarproLib GpModel GpKernel GpProofs GpFit GpGrad.
Import ListNotations.
Local Open Scope R_scope.

(* ---------------- the formula of grad[k] ---------------- *)
Lemma col_quad : forall n A x, sq n A -> length x = n -> rsum n (fun i => vget x i * dot x (col A i)) = quad A x.
Proof.
  intros n A x SA Lx. rewrite (quad_rs n) by auto. rewrite rsum_swap. apply rsum_ext. intros i Hi. rewrite (dot_rs n) by (auto; rewrite col_len; apply SA). rewrite <- rsum_scal_l. apply rsum_ext. intros j Hj.
  rewrite col_get by (destruct SA; lia). unfold mget. ring.
Qed.
Lemma grad_form : forall n e alpha dK, sq n dK -> onb n (snd e) -> length alpha = n ->
  gp_grad e alpha dK = / 2 * rsum n (fun k => quad dK (nth k (snd e) []) / vget (fst e) k) - / 2 * quad dK alpha.
Proof.
  intros n e alpha dK SD OB La. unfold gp_grad. rewrite (proj1 SD). f_equal.
  - f_equal. rewrite rsum_swap. apply rsum_ext. intros k Hk. rewrite <- (col_quad n) by (auto; apply onb_row; auto). unfold Rdiv. rewrite <- rsum_scal_r. apply rsum_ext. intros. ring.
  - rewrite <- (col_quad n dK alpha) by auto. rewrite (dot_rs n) by (auto; rewrite map_length, seq_length; auto). f_equal. apply rsum_ext. intros i Hi. rewrite vget_map_seq by auto. reflexivity.
Qed.

(* ---------------- objective along a path of L ---------------- *)
Theorem obj_path : forall eigh tol tau B X y (Lt : R -> mat) dK, 0 <= tol -> 0 < tau -> length y = length X ->
  (forall t, eigh_post (length X) (gp_Kt tau (gp_K (Lt t) X)) (eigh (gp_Kt tau (gp_K (Lt t) X)))) ->
  (forall t, eigh_post (length X + gp_n B) (gp_block tau B X (Lt t)) (eigh (gp_block tau B X (Lt t)))) ->
  (forall k, (k < length X + gp_n B)%nat -> tol < Rabs (vget (fst (eigh (gp_block tau B X (Lt 0)))) k)) ->
  sq (length X) dK -> (forall i j, (i < length X)%nat -> (j < length X)%nat -> derivable_pt_lim (fun t => gk (Lt t) (nth i X []) (nth j X [])) 0 (mget dK i j)) ->
  derivable_pt_lim (fun t => gp_obj y (fst (gp_weights eigh tol tau B X y (Lt t))) (fst (eigh (gp_Kt tau (gp_K (Lt t) X))))) 0
    (gp_grad (eigh (gp_Kt tau (gp_K (Lt 0) X))) (fst (gp_weights eigh tol tau B X y (Lt 0))) dK).
Proof.
  intros eigh tol tau B X y Lt dK Htol Ht Ly PK PA K0 SD D. set (n := length X) in *. set (N := gp_n B) in *.
  assert (SK : forall t, sq n (gp_Kt tau (gp_K (Lt t) X))) by (intro; apply gp_Kt_sq, gp_K_sq).
  assert (SY : forall t, msym n (gp_Kt tau (gp_K (Lt t) X))) by (intro; apply gp_Kt_sym; [apply gp_K_sq|apply gp_K_sym]).
  assert (DK : forall i j, (i < n)%nat -> (j < n)%nat -> derivable_pt_lim (fun t => mget (gp_Kt tau (gp_K (Lt t) X)) i j) 0 (mget dK i j)).
  { intros i j Hi Hj. eapply d_ext; [intro t; symmetry; rewrite (gp_Kt_get n) by (auto; apply gp_K_sq); rewrite gp_K_get by auto; reflexivity| |apply d_plus; [apply (D i j); auto|apply d_const]]. ring. }
  assert (LV : length (map (gp_v B) X) = n) by apply map_length. assert (FV : Forall (fun r => length r = N) (map (gp_v B) X)) by apply gp_V_rows.
  set (dA := map (fun i => map (fun j => if Nat.ltb i n then if Nat.ltb j n then mget dK i j else 0 else 0) (seq 0 (n + N))) (seq 0 (n + N))).
  assert (KO : near (fun t => forall k, (k < n + N)%nat -> tol < Rabs (vget (fst (eigh (gp_block tau B X (Lt t)))) k))).
  { apply (kept_open (n + N) (fun t => gp_block tau B X (Lt t)) dA (fun t => eigh (gp_block tau B X (Lt t)))); auto.
    - intro t. apply A_sq; auto.
    - intros i j Hi Hj. unfold mget at 2. unfold dA. rewrite nth_map_seq, vget_map_seq by auto. unfold gp_block. fold N. destruct (Nat.ltb_spec i n) as [G|G].
      + destruct (Nat.ltb_spec j n) as [G'|G'].
        * eapply d_ext; [intro t; symmetry; unfold mget at 1; rewrite (A_row_top n N) by auto; rewrite vget_app_l by (rewrite (sq_row n) by auto; auto); reflexivity|reflexivity|apply DK; auto].
        * eapply d_ext; [intro t; symmetry; unfold mget at 1; rewrite (A_row_top n N) by auto; rewrite vget_app_r by (rewrite (sq_row n) by auto; auto); rewrite (sq_row n) by auto; reflexivity|reflexivity|apply d_const].
      + replace i with (n + (i - n))%nat by lia. eapply d_ext; [intro t; symmetry; unfold mget at 1; rewrite (A_row_bot n N) by (auto; lia); reflexivity|reflexivity|apply d_const]. }
  assert (KS : forall t, (forall k, (k < n + N)%nat -> tol < Rabs (vget (fst (eigh (gp_block tau B X (Lt t)))) k)) ->
    block_sol tau (gp_K (Lt t) X) (map (gp_v B) X) y (gp_weights eigh tol tau B X y (Lt t)) /\ length (snd (gp_weights eigh tol tau B X y (Lt t))) = gp_n B).
  { intros t Kt. apply gp_block_sol; auto; try lra. intros k Hk. left. apply Kt. auto. }
  destruct (KS 0 K0) as [S0 Lb0]. set (w0 := gp_weights eigh tol tau B X y (Lt 0)) in *.
  assert (La : length (fst w0) = n) by (apply (sol_len tau (Lt 0) X B y); auto).
  rewrite (grad_form n) by (auto; apply PK). unfold gp_obj.
  eapply d_ext; [intro t; reflexivity| |apply d_plus; [apply d_scal|apply d_scal; apply (logdet_derivative n (fun t => gp_Kt tau (gp_K (Lt t) X)) dK (fun t => eigh (gp_Kt tau (gp_K (Lt t) X))) tau); auto]].
  3:{ intros t k Hk. apply (Kt_eigs tau (Lt t) X); auto. }
  2:{ destruct (frob_small n (fun t => gp_Kt tau (gp_K (Lt t) X)) dK DK) as [C [HC NC]].
      apply (d_close (fun t => dot y (fst w0) - (quad (gp_Kt tau (gp_K (Lt t) X)) (fst w0) - quad (gp_Kt tau (gp_K (Lt 0) X)) (fst w0))) _ (- quad dK (fst w0)) (/ tau * norm2sq (fst w0) * C)).
      - eapply d_ext; [intro t; reflexivity| |apply d_minus; [apply d_const|apply d_minus; [apply (d_quad n (fun t => gp_Kt tau (gp_K (Lt t) X)) dK); auto|apply d_const]]]. ring.
      - apply Rmult_le_pos; [apply Rmult_le_pos; [left; apply Rinv_0_lt_compat; auto|apply norm2sq_nonneg]|auto].
      - generalize (near_and _ _ KO NC). apply near_imp. intros t [T1 T2]. destruct (KS t T1) as [S1 Lb1].
        pose proof (data_close tau (Lt 0) (Lt t) X B y w0 _ Ht Ly Lb0 Lb1 S0 S1) as DC. fold n in DC.
        assert (I : 0 <= / tau * norm2sq (fst w0)) by (apply Rmult_le_pos; [left; apply Rinv_0_lt_compat; auto|apply norm2sq_nonneg]).
        pose proof (Rmult_le_compat_l _ _ _ I T2) as F. rewrite Rmult_assoc. eapply Rle_trans; [|exact F]. eapply Rle_trans; [|exact DC]. apply Req_le. f_equal. ring. }
  lra.
Qed.

(* ---------------- derivative of the kernel ---------------- *)
Lemma gk_path : forall q (Lt : R -> mat) x z dx dz, (forall t, length (Lt t) = q) ->
  (forall l, (l < q)%nat -> derivable_pt_lim (fun t => vget (mv (Lt t) x) l) 0 (dx l)) -> (forall l, (l < q)%nat -> derivable_pt_lim (fun t => vget (mv (Lt t) z) l) 0 (dz l)) ->
  derivable_pt_lim (fun t => gk (Lt t) x z) 0 (- rsum q (fun l => (vget (mv (Lt 0) x) l - vget (mv (Lt 0) z) l) * (dx l - dz l)) * gk (Lt 0) x z).
Proof.
  intros q Lt x z dx dz LL Dx Dz. unfold gk.
  assert (DD : derivable_pt_lim (fun t => gk_d (Lt t) x z) 0 (2 * rsum q (fun l => (vget (mv (Lt 0) x) l - vget (mv (Lt 0) z) l) * (dx l - dz l)))).
  { eapply d_ext; [intro t; symmetry; rewrite gk_dist, LL; reflexivity| |].
    2:{ apply (d_rsum q (fun l t => (vget (mv (Lt t) x) l - vget (mv (Lt t) z) l) * (vget (mv (Lt t) x) l - vget (mv (Lt t) z) l)) (fun l => (dx l - dz l) * (vget (mv (Lt 0) x) l - vget (mv (Lt 0) z) l) + (vget (mv (Lt 0) x) l - vget (mv (Lt 0) z) l) * (dx l - dz l))).
        intros l Hl. apply (d_mult (fun t => vget (mv (Lt t) x) l - vget (mv (Lt t) z) l) (fun t => vget (mv (Lt t) x) l - vget (mv (Lt t) z) l)); apply d_minus; auto. }
    rewrite <- rsum_scal_l. apply rsum_ext. intros. ring. }
  eapply d_ext; [intro t; reflexivity| |apply (d_comp exp (fun t => - / 2 * gk_d (Lt t) x z)); [apply d_scal; exact DD|apply derivable_pt_lim_exp]].
  field.
Qed.
Lemma dK_sq : forall st dexpm m X ell k, sq (length X) (gp_dK st dexpm m X ell k).
Proof.
  intros. assert (G : forall f : vec -> vec -> R, sq (length X) (map (fun x => map (f x) X) X)).
  { intro f. split; [apply map_length|]. apply Forall_forall. intros r Hr. apply in_map_iff in Hr. destruct Hr as [x [<- _]]. apply map_length. }
  destruct st; apply G.
Qed.
Lemma mget_map2 : forall (f : vec -> vec -> R) X i j, (i < length X)%nat -> (j < length X)%nat -> mget (map (fun x => map (f x) X) X) i j = f (nth i X []) (nth j X []).
Proof.
  intros f X i j Hi Hj. unfold mget. rewrite (nth_indep _ [] (map (f []) X)) by (rewrite map_length; auto). rewrite (map_nth (fun x => map (f x) X)). apply vget_map; auto.
Qed.
(** parameters moved in the direction k *)
Definition ell_line (ell : vec) (k : nat) (t : R) : vec := vadd ell (vscale t (unitv (length ell) k)).
Lemma ell_line_len : forall ell k t, length (ell_line ell k t) = length ell.
Proof. intros. unfold ell_line. apply vadd_length. rewrite vscale_length, unitv_len. reflexivity. Qed.
Lemma ell_line_get : forall ell k t j, (j < length ell)%nat -> vget (ell_line ell k t) j = vget ell j + t * (if Nat.eqb j k then 1 else 0).
Proof. intros ell k t j Hj. unfold ell_line. rewrite vadd_get by (rewrite vscale_length, unitv_len; auto). rewrite vscale_get, unitv_get by auto. reflexivity. Qed.
Lemma ell_line_0 : forall ell k, ell_line ell k 0 = ell.
Proof. intros. apply vec_ext; [apply ell_line_len|]. intros i Hi. rewrite ell_line_len in Hi. rewrite ell_line_get by auto. ring. Qed.
(** number of parameters of the structure, shape of the data *)
Definition ell_ok (st : gstruct) (m : nat) (ell : vec) : Prop :=
  match st with GConst | GMult _ => length ell = 1%nat | GDiag => length ell = m | GTril _ => length ell = (m * (m + 1) / 2)%nat end.
(** contract for 'tril': expm has the right shape and dexpm k is its derivative in the direction of the k-th parameter *)
Definition dexp_ok (st : gstruct) (dexpm : nat -> mat) (m : nat) (ell : vec) (k : nat) : Prop :=
  match st with
  | GTril expm => (forall A, sq m A -> sq m (expm A)) /\ sq m (dexpm k) /\
      forall i j, (i < m)%nat -> (j < m)%nat -> derivable_pt_lim (fun t => mget (expm (tril_mat m (ell_line ell k t))) i j) 0 (mget (dexpm k) i j)
  | _ => True
  end.
Lemma d_exp_shift : forall a, derivable_pt_lim (fun t => exp (a + t * 1)) 0 (exp a).
Proof.
  intro a. eapply d_ext; [intro t; reflexivity| |apply (d_comp exp (fun t => a + t * 1) 0 (exp (a + 0 * 1)) 1); [|apply derivable_pt_lim_exp]].
  - rewrite Rmult_0_l, Rplus_0_r. ring.
  - apply (d_ext (fun t => 1 * t + a) (fun t => a + t * 1) 0 1 1); [intro; ring|reflexivity|apply d_lin].
Qed.
Lemma scalar_deriv : forall L0 ell k X i j, length ell = 1%nat -> (k < 1)%nat -> (i < length X)%nat -> (j < length X)%nat ->
  derivable_pt_lim (fun t => gk (mscale (exp (vget (ell_line ell k t) 0)) L0) (nth i X []) (nth j X [])) 0 (mget (gp_dK_scalar (mscale (exp (vget ell 0)) L0) X) i j).
Proof.
  intros L0 ell k X i j Le Hk Hi Hj. assert (k = 0%nat) as -> by lia. unfold gp_dK_scalar. rewrite mget_map2 by auto. set (x := nth i X []). set (z := nth j X []). set (L := mscale (exp (vget ell 0)) L0).
  assert (DL : forall v l, derivable_pt_lim (fun t => vget (mv (mscale (exp (vget (ell_line ell 0 t) 0)) L0) v) l) 0 (vget (mv L v) l)).
  { intros v l. eapply d_ext; [intro t; symmetry; rewrite mv_mscale, vscale_get, ell_line_get by lia; cbn [Nat.eqb]; rewrite Rmult_comm; reflexivity| |apply d_scal, d_exp_shift].
    unfold L. rewrite mv_mscale, vscale_get. ring. }
  assert (E0 : mscale (exp (vget (ell_line ell 0 0) 0)) L0 = L) by (rewrite ell_line_0; reflexivity).
  pose proof (gk_path (length L0) (fun t => mscale (exp (vget (ell_line ell 0 t) 0)) L0) x z (vget (mv L x)) (vget (mv L z)) ltac:(intro; apply map_length) (fun l _ => DL x l) (fun l _ => DL z l)) as P.
  cbv beta in P. rewrite E0 in P. eapply d_ext; [intro t; reflexivity| |exact P]. rewrite gk_dist. replace (length L) with (length L0) by (symmetry; apply map_length). ring.
Qed.
Theorem dK_correct : forall st dexpm m X ell k i j, Forall (fun x => length x = m) X -> ell_ok st m ell -> (k < length ell)%nat -> dexp_ok st dexpm m ell k ->
  (i < length X)%nat -> (j < length X)%nat ->
  derivable_pt_lim (fun t => gk (make_L st m (ell_line ell k t)) (nth i X []) (nth j X [])) 0 (mget (gp_dK st dexpm m X ell k) i j).
Proof.
  intros st dexpm m X ell k i j FX EO Hk DO Hi Hj.
  assert (Lx : forall a, (a < length X)%nat -> length (nth a X []) = m) by (intros a Ha; rewrite Forall_forall in FX; apply FX, nth_In; auto).
  destruct st as [|L0| |expm]; cbn [ell_ok] in EO.
  - apply (scalar_deriv (eye m)); auto. lia.
  - apply (scalar_deriv L0); auto. lia.
  - cbn [make_L gp_dK]. unfold gp_dK_diag. rewrite mget_map2 by auto. set (x := nth i X []). set (z := nth j X []).
    assert (Ydiag : forall (s v : vec) l, length s = m -> length v = m -> (l < m)%nat -> vget (mv (diag (map exp s)) v) l = exp (vget s l) * vget v l).
    { intros s v l Ls Lv Hl. rewrite mv_diag by (rewrite map_length; lia). rewrite vmul_get by (rewrite map_length; lia). f_equal. unfold vget. rewrite (nth_indep _ 0 (exp 0)) by (rewrite map_length; lia). apply map_nth. }
    set (L := diag (map exp ell)).
    assert (DL : forall v l, length v = m -> (l < m)%nat -> derivable_pt_lim (fun t => vget (mv (diag (map exp (ell_line ell k t))) v) l) 0 (if Nat.eqb l k then vget (mv L v) k else 0)).
    { intros v l Lv Hl. destruct (Nat.eqb_spec l k) as [->|N].
      - apply (d_ext (fun t => vget v k * exp (vget ell k + t * 1)) _ 0 (vget v k * exp (vget ell k))); [|unfold L; rewrite Ydiag by auto; ring|apply d_scal, d_exp_shift].
        intro t. rewrite Ydiag by (try rewrite ell_line_len; auto). rewrite ell_line_get by lia. rewrite Nat.eqb_refl. ring.
      - apply (d_ext (fun t => exp (vget ell l) * vget v l) _ 0 0); [|reflexivity|apply d_const].
        intro t. rewrite Ydiag by (try rewrite ell_line_len; auto). rewrite ell_line_get by lia. destruct (Nat.eqb_spec l k); [lia|]. rewrite Rmult_0_r, Rplus_0_r. reflexivity. }
    pose proof (gk_path m (fun t => diag (map exp (ell_line ell k t))) x z (fun l => if Nat.eqb l k then vget (mv L x) k else 0) (fun l => if Nat.eqb l k then vget (mv L z) k else 0)) as P.
    cbv beta in P. rewrite ell_line_0 in P. fold L in P. eapply d_ext; [intro t; reflexivity| |apply P].
    + rewrite (rsum_single m k); [|lia|intros l Hl N; destruct (Nat.eqb_spec l k); [lia|ring]]. rewrite Nat.eqb_refl. ring.
    + intro t. unfold diag. rewrite map_length, seq_length, map_length, ell_line_len. auto.
    + intros l Hl. apply DL; auto. apply Lx; auto.
    + intros l Hl. apply DL; auto. apply Lx; auto.
  - cbn [make_L gp_dK]. unfold gp_dK_tril. rewrite mget_map2 by auto. set (x := nth i X []). set (z := nth j X []). destruct DO as [SE [SD DE]]. set (L := expm (tril_mat m ell)).
    assert (ST : forall s, sq m (tril_mat m s)).
    { intro s. unfold tril_mat. split; [rewrite map_length, seq_length; auto|]. apply Forall_forall. intros r Hr. apply in_map_iff in Hr. destruct Hr as [a [<- _]]. rewrite map_length, seq_length. auto. }
    assert (DL : forall v l, length v = m -> (l < m)%nat -> derivable_pt_lim (fun t => vget (mv (expm (tril_mat m (ell_line ell k t))) v) l) 0 (vget (mv (dexpm k) v) l)).
    { intros v l Lv Hl. assert (F : forall A, sq m A -> vget (mv A v) l = rsum m (fun a => vget v a * mget A l a)).
      { intros A SA. rewrite mv_get by (destruct SA; lia). rewrite (dot_rs m) by (try apply sq_row; auto). apply rsum_ext. intros. unfold mget. ring. }
      eapply d_ext; [intro t; symmetry; apply F; auto|symmetry; apply F; auto|].
      apply (d_rsum m (fun a t => vget v a * mget (expm (tril_mat m (ell_line ell k t))) l a) (fun a => vget v a * mget (dexpm k) l a)). intros a Ha. apply d_scal. apply DE; auto. }
    pose proof (gk_path m (fun t => expm (tril_mat m (ell_line ell k t))) x z (vget (mv (dexpm k) x)) (vget (mv (dexpm k) z))) as P. cbv beta in P. rewrite ell_line_0 in P. fold L in P.
    assert (SL : sq m L) by (apply SE, ST).
    eapply d_ext; [intro t; reflexivity| |apply P].
    + rewrite (dot_rs m) by (rewrite vsub_length; rewrite !mv_length; destruct SL, SD; lia). rewrite Rminus_0_l. f_equal. f_equal. apply rsum_ext. intros l Hl. rewrite !vsub_get by (rewrite !mv_length; auto). reflexivity.
    + intro t. apply (SE _ (ST _)).
    + intros l Hl. apply DL; auto. apply Lx; auto.
    + intros l Hl. apply DL; auto. apply Lx; auto.
Qed.
(** every partial derivative of the objective handed to the optimiser *)
Theorem gp_gradient : forall eigh tol tau B st dexpm m X y ell k, 0 <= tol -> 0 < tau -> length y = length X -> Forall (fun x => length x = m) X ->
  ell_ok st m ell -> (k < length ell)%nat -> dexp_ok st dexpm m ell k ->
  (forall l, length l = length ell -> eigh_post (length X) (gp_Kt tau (gp_K (make_L st m l) X)) (eigh (gp_Kt tau (gp_K (make_L st m l) X)))) ->
  (forall l, length l = length ell -> eigh_post (length X + gp_n B) (gp_block tau B X (make_L st m l)) (eigh (gp_block tau B X (make_L st m l)))) ->
  (forall i, (i < length X + gp_n B)%nat -> tol < Rabs (vget (fst (eigh (gp_block tau B X (make_L st m ell)))) i)) ->
  derivable_pt_lim (fun t => gp_lml eigh tol tau B st m X y (ell_line ell k t)) 0 (gp_lml_grad eigh tol tau B st dexpm m X y ell k).
Proof.
  intros eigh tol tau B st dexpm m X y ell k Htol Ht Ly FX EO Hk DO PK PA KP.
  pose proof (obj_path eigh tol tau B X y (fun t => make_L st m (ell_line ell k t)) (gp_dK st dexpm m X ell k) Htol Ht Ly
    (fun t => PK _ (ell_line_len ell k t)) (fun t => PA _ (ell_line_len ell k t))) as O. cbv beta in O. rewrite ell_line_0 in O.
  apply O; [exact KP|apply dK_sq|]. intros i j Hi Hj. apply dK_correct; auto.
Qed.
(** no trend, distinct points, nugget at least the tolerance: nothing to assume about the eigenvalues *)
Theorem gp_gradient_plain : forall eigh tol tau st dexpm m X y ell k, 0 <= tol -> tol <= tau -> 0 < tau -> length y = length X -> Forall (fun x => length x = m) X ->
  ell_ok st m ell -> (k < length ell)%nat -> dexp_ok st dexpm m ell k -> distinct_pts (make_L st m ell) X ->
  (forall l, length l = length ell -> eigh_post (length X) (gp_Kt tau (gp_K (make_L st m l) X)) (eigh (gp_Kt tau (gp_K (make_L st m l) X)))) ->
  derivable_pt_lim (fun t => gp_lml eigh tol tau None st m X y (ell_line ell k t)) 0 (gp_lml_grad eigh tol tau None st dexpm m X y ell k).
Proof.
  intros eigh tol tau st dexpm m X y ell k H1 H2 H3 Ly FX EO Hk DO D PK. apply gp_gradient; auto; cbn [gp_n]; rewrite Nat.add_0_r.
  - intros l Ll. rewrite block_none. auto.
  - intros i Hi. rewrite block_none. pose proof (proj2 (Kt_eigs _ _ _ _ (PK ell eq_refl) i Hi) D). rewrite Rabs_right; lra.
Qed.
(** distinct samples stay distinct under the invertible structures *)
Theorem distinct_const : forall m X ell, Forall (fun x => length x = m) X -> NoDup X -> distinct_pts (make_L GConst m ell) X.
Proof.
  intros m X ell FX ND i j Hi Hj N E. apply N. apply (proj1 (NoDup_nth X []) ND i j Hi Hj).
  assert (Lx : forall a, (a < length X)%nat -> length (nth a X []) = m) by (intros a Ha; rewrite Forall_forall in FX; apply FX, nth_In; auto).
  cbn [make_L] in E. rewrite !mv_mscale, !mv_eye in E by auto. apply vec_ext; [rewrite !Lx; auto|]. intros l Hl. pose proof (f_equal (fun v => vget v l) E) as El. cbn beta in El. rewrite !vscale_get in El.
  pose proof (exp_pos (vget ell 0)). apply Rmult_eq_reg_l in El; lra.
Qed.
Theorem distinct_diag : forall m X ell, Forall (fun x => length x = m) X -> NoDup X -> length ell = m -> distinct_pts (make_L GDiag m ell) X.
Proof.
  intros m X ell FX ND Le i j Hi Hj N E. apply N. apply (proj1 (NoDup_nth X []) ND i j Hi Hj).
  assert (Lx : forall a, (a < length X)%nat -> length (nth a X []) = m) by (intros a Ha; rewrite Forall_forall in FX; apply FX, nth_In; auto).
  cbn [make_L] in E. rewrite !mv_diag in E by (rewrite map_length, Lx; auto). apply vec_ext; [rewrite !Lx; auto|]. intros l Hl. rewrite Lx in Hl by auto. pose proof (f_equal (fun v => vget v l) E) as El. cbn beta in El.
  rewrite !vmul_get in El by (rewrite map_length, Lx; auto). assert (Ex : vget (map exp ell) l = exp (vget ell l)) by (unfold vget; rewrite (nth_indep _ 0 (exp 0)) by (rewrite map_length; lia); apply map_nth). rewrite Ex in El.
  pose proof (exp_pos (vget ell l)). apply Rmult_eq_reg_l in El; lra.
Qed.

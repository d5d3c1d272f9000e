(** The derivative checks, continued: default steps, least-squares gradients, Jacobians, Hessians and findings. *)
Require Import Reals Lra Lia List Bool Arith.
From Verif Require Import RVec Num Sums DomModel DomMoreModel HullProofs ChebProofs FunModel FunProofs Deriv LipModel ChkModel ChkProofs.
Import ListNotations.
Local Open Scope R_scope.

(* ------------------------------------------------------------------ the default steps *)
Lemma logspace_range : forall a b n h, a <= b -> In h (logspace a b n) -> Rpower 10 a <= h <= Rpower 10 b.
Proof.
  intros a b n h AB H. unfold logspace in H. apply in_map_iff in H. destruct H as (k & <- & Hk). apply in_seq in Hk.
  assert (Q : 0 <= (b - a) * INR k / INR (n - 1) <= b - a).
  { destruct (Nat.eq_dec (n - 1) 0) as [E|E].
    - assert (k = 0)%nat by lia. subst k. simpl. unfold Rdiv. rewrite Rmult_0_r, Rmult_0_l. lra.
    - assert (P : 0 < INR (n - 1)) by (apply lt_0_INR; lia). assert (K : INR k <= INR (n - 1)) by (apply le_INR; lia). pose proof (pos_INR k).
      split; [apply Rmult_le_pos; [apply Rmult_le_pos; lra|left; apply Rinv_0_lt_compat; auto]|].
      apply Rmult_le_reg_r with (INR (n - 1)); auto. unfold Rdiv. rewrite Rmult_assoc, Rinv_l by lra. rewrite Rmult_1_r. apply Rmult_le_compat_l; lra. }
  split; apply Rle_Rpower; lra.
Qed.
Lemma logspace_first : forall a b n, (0 < n)%nat -> In (Rpower 10 a) (logspace a b n).
Proof.
  intros a b n Hn. unfold logspace. apply in_map_iff. exists O. split; [|apply in_seq; lia]. f_equal. simpl. unfold Rdiv. ring.
Qed.
Lemma logspace_last : forall a b n, (1 < n)%nat -> In (Rpower 10 b) (logspace a b n).
Proof.
  intros a b n Hn. unfold logspace. apply in_map_iff. exists (n - 1)%nat. split; [|apply in_seq; lia]. f_equal. field. apply not_0_INR. lia.
Qed.
Lemma rpower_m1 : Rpower 10 (-1) = / 10.
Proof. replace (-1) with (- (1)) by ring. rewrite Rpower_Ropp, Rpower_1 by lra. reflexivity. Qed.
Lemma rpower_neg : forall n, Rpower 10 (- INR n) = / 10 ^ n.
Proof. intros n. rewrite Rpower_Ropp, Rpower_pow by lra. reflexivity. Qed.

(** the default list: a hundred positive steps of at most one tenth, the least is 1e-14, the greatest one tenth *)
Theorem hvec_default_spec : length hvec_default = 100%nat /\ (forall h, In h hvec_default -> / 10 ^ 14 <= h <= / 10) /\
  In (/ 10 ^ 14) hvec_default /\ In (/ 10) hvec_default.
Proof.
  assert (E : Rpower 10 (-14) = / 10 ^ 14) by (rewrite <- rpower_neg; f_equal; simpl; ring).
  split; [unfold hvec_default, logspace; rewrite map_length, seq_length; auto|]. split; [|split].
  - intros h H. apply logspace_range in H; [|lra]. rewrite rpower_m1, E in H. auto.
  - rewrite <- E. apply logspace_first. lia.
  - rewrite <- rpower_m1. apply logspace_last. lia.
Qed.
Theorem hvec_hess_spec : length hvec_hess = 10%nat /\ (forall h, In h hvec_hess -> / 10 ^ 7 <= h <= / 10) /\
  In (/ 10 ^ 7) hvec_hess /\ In (/ 10) hvec_hess.
Proof.
  assert (E : Rpower 10 (-7) = / 10 ^ 7) by (rewrite <- rpower_neg; f_equal; simpl; ring).
  split; [unfold hvec_hess, logspace; rewrite map_length, seq_length; auto|]. split; [|split].
  - intros h H. apply logspace_range in H; [|lra]. rewrite rpower_m1, E in H. auto.
  - rewrite <- E. apply logspace_first. lia.
  - rewrite <- rpower_m1. apply logspace_last. lia.
Qed.

Lemma tiny_pos : forall n, 0 < / 10 ^ n.
Proof. intro n. apply Rinv_0_lt_compat, pow_lt. lra. Qed.
Lemma default_pos : forall h, In h hvec_default -> 0 < h <= / 10.
Proof. intros h H. destruct hvec_default_spec as (_ & B & _). specialize (B h H). pose proof (tiny_pos 14). lra. Qed.
Lemma default_ne : hvec_default <> [].
Proof. intro E. destruct hvec_default_spec as (L & _). rewrite E in L. discriminate. Qed.
Lemma hess_pos : forall h, In h hvec_hess -> 0 < h <= / 10.
Proof. intros h H. destruct hvec_hess_spec as (_ & B & _). specialize (B h H). pose proof (tiny_pos 7). lra. Qed.
Lemma hess_ne : hvec_hess <> [].
Proof. intro E. destruct hvec_hess_spec as (L & _). rewrite E in L. discriminate. Qed.

(** with the default steps *)
Theorem check_derivative_default : forall x obj grad C G, smooth_lines obj x (/ 10) C G -> 0 <= C ->
  exists v, check_derivative x obj grad hvec_default = Some (Fin v) /\
    (forall i, (i < length x)%nat -> Rabs (vget (grad x) i - vget G i) <= v + C / 600) /\
    ((forall i, (i < length x)%nat -> vget (grad x) i = vget G i) -> v <= C * (/ 10 ^ 14 * / 10 ^ 14) / 6).
Proof.
  intros x obj grad C G S PC. destruct (check_derivative_value x obj grad hvec_default default_ne) as (v & V & _).
  - intros h H. apply default_pos in H. lra.
  - exists v. split; auto. split.
    + intros i Hi. replace (C / 600) with (C * (/ 10 * / 10) / 6) by field.
      eapply check_derivative_sound; eauto using default_ne, default_pos.
    + intro E. assert (S' : smooth_lines obj x (/ 10) C (grad x)) by (intros i Hi; rewrite E by auto; auto).
      destruct hvec_default_spec as (_ & _ & H14 & _).
      destruct (check_derivative_complete x obj grad hvec_default (/ 10) C (/ 10 ^ 14) S' default_pos H14 PC) as (w & W & B).
      rewrite V in W. injection W as <-. lra.
Qed.

(** finding: the least deviation over the steps is taken, so a wrong gradient can pass with error zero *)
Definition ex_cube (y : vec) : R := vget y 0 * vget y 0 * vget y 0.
Theorem check_derivative_refuted : exists x obj grad G, partials obj x G /\ length (grad x) = length x /\
  check_derivative x obj grad hvec_default = Some (Fin 0) /\ exists i, (i < length x)%nat /\ / 100 <= Rabs (vget (grad x) i - vget G i).
Proof.
  exists [0], ex_cube, (fun _ => [/ 100]), [0].
  assert (LN : forall t, ex_cube (vadd [0] (vscale t (unit_row_ 1 0))) = t * t * t).
  { intro t. unfold ex_cube, unit_row_. cbn. ring. }
  split; [|split; [reflexivity|split]].
  - split; auto. intros j Hj. simpl in Hj. assert (j = 0)%nat by lia. subst j. simpl length.
    apply d_ext with (f := fun t => t * t * t) (l := (1 * 0 + 0 * 1) * 0 + 0 * 0 * 1); [intro; rewrite LN; auto|cbn; ring|].
    apply (d_mult (fun t => t * t) (fun t => t)); [apply d_mult; apply d_id|apply d_id].
  - destruct (check_derivative_value [0] ex_cube (fun _ => [/ 100]) hvec_default default_ne) as (v & V & P & _ & L).
    + intros h H. apply default_pos in H. lra.
    + rewrite V. do 2 f_equal. destruct L as [L|(i & Hi & L)]; auto. apply Rle_antisym; auto.
      simpl in Hi. assert (i = 0)%nat by lia. subst i. destruct hvec_default_spec as (_ & _ & _ & H1). specialize (L _ H1).
      unfold cdiff, line in L. simpl length in L. rewrite !LN in L. unfold vget in L. cbn [nth] in L.
      replace ((/ 10 * / 10 * / 10 - - / 10 * - / 10 * - / 10) / (2 * / 10) - / 100) with 0 in L by field. rewrite Rabs_R0 in L. auto.
  - exists 0%nat. split; [simpl; lia|]. unfold vget. cbn. rewrite Rminus_0_r, Rabs_right; lra.
Qed.

Lemma jcol_get : forall J i k, (k < length J)%nat -> vget (jcol J i) k = vget (nth k J []) i.
Proof.
  intros J i k Hk. unfold jcol, vget at 1. rewrite (nth_indep _ 0 (vget [] i)) by (rewrite map_length; auto). apply (map_nth (fun row => vget row i)).
Qed.

(* ------------------------------------------------------------------ half the squared norm of a residual *)
Definition half_sq (residual : vec -> vec) (y : vec) : R := / 2 * norm2sq (residual y).

Lemma gradient_err_fin : forall residual g x i h, h <> 0 ->
  gradient_err residual g x i h = Fin (Rabs (cdiff (half_sq residual) x i h - vget g i)).
Proof.
  intros residual g x i h N. unfold gradient_err. rewrite step_dn_up. simpl. destruct (Req_EM_T (2 * h) 0); [lra|].
  unfold cdiff, line, half_sq. fold (step_up x i h). fold (step_up x i (- h)). rewrite !Rmult_1_r, !norm2_sq. unfold nsub; cbn [nopp nadd nabs]. do 2 f_equal. unfold Rdiv. ring.
Qed.

(** check_gradient is check_derivative of half the squared norm, with J^T r in place of the gradient *)
Theorem check_gradient_is : forall x residual jac hvec, (forall h, In h hvec -> h <> 0) ->
  check_gradient x residual jac hvec = check_derivative x (half_sq residual) (fun y => jt_r (jac y) (residual y) (length y)) hvec.
Proof.
  intros x residual jac hvec NZ. unfold check_gradient, check_derivative, chk_loop.
  set (g := jt_r (jac x) (residual x) (length x)).
  assert (E : forall i, pyminl (map (gradient_err residual g x i) hvec) = npmin (map (deriv_err (half_sq residual) g x i) hvec)).
  { intro i.
    rewrite (map_ext_in (gradient_err residual g x i) (fun h => Fin (Rabs (cdiff (half_sq residual) x i h - vget g i)))) by (intros; apply gradient_err_fin; auto).
    rewrite (map_ext_in (deriv_err (half_sq residual) g x i) (fun h => Fin (Rabs (cdiff (half_sq residual) x i h - vget g i)))) by (intros; apply deriv_err_fin; auto).
    apply pyminl_npmin. }
  generalize (Some (Fin 0)). generalize (seq 0 (length x)). induction l as [|i l IH]; intro o; simpl; auto.
  rewrite IH. f_equal. unfold chk_step. rewrite E. auto.
Qed.

(** J^T r is the gradient of half the squared norm when J is the Jacobian *)
Theorem jt_r_gradient : forall residual x J, jacobian residual x J -> partials (half_sq residual) x (jt_r J (residual x) (length x)).
Proof.
  intros residual x J [L D]. split; [unfold jt_r; rewrite map_length, seq_length; auto|]. intros j Hj.
  set (n := length J) in *.
  apply d_ext with (f := fun t => / 2 * rsum n (fun k => vget (residual (vadd x (vscale t (unit_row_ (length x) j)))) k * vget (residual (vadd x (vscale t (unit_row_ (length x) j)))) k))
    (l := / 2 * rsum n (fun k => vget (nth k J []) j * vget (residual x) k + vget (residual x) k * vget (nth k J []) j)).
  - intro t. unfold half_sq, norm2sq. rewrite dot_rsum by auto. rewrite L by apply move_length. reflexivity.
  - unfold jt_r. rewrite vget_map_seq by auto. rewrite dot_rsum by (rewrite map_length, (L x); auto). rewrite map_length. fold n.
    rewrite <- rsum_scal_l. apply rsum_ext. intros k Hk. fold (jcol J j). rewrite jcol_get by auto. field.
  - apply d_scal. apply d_rsum. intros k Hk. destruct (D k Hk) as [_ Dk]. specialize (Dk j Hj).
    pose proof (d_mult _ _ _ _ _ Dk Dk) as M. cbv beta in M. fold (step_up x j 0) in M. rewrite step_up_0 in M. exact M.
Qed.

(** finding: the Jacobian is only seen through J^T r; where the residual vanishes any matrix passes *)
Theorem check_gradient_refuted : exists x residual jac G, jacobian residual x G /\ jac x <> G /\
  check_gradient x residual jac hvec_default = Some (Fin 0).
Proof.
  exists [0], (fun y => [vget y 0]), (fun _ => [[5]]), [[1]]. split; [|split].
  - split; [reflexivity|]. intros k Hk. simpl in Hk. assert (k = 0)%nat by lia. subst k. split; auto. intros j Hj. simpl in Hj. assert (j = 0)%nat by lia. subst j.
    apply d_ext with (f := fun t => t) (l := 1); [intro t; unfold unit_row_, vget; cbn; ring|reflexivity|apply d_id].
  - intro E. injection E. intro. lra.
  - rewrite check_gradient_is by (intros h H; apply default_pos in H; lra).
    destruct (check_derivative_value [0] (half_sq (fun y => [vget y 0])) (fun y => jt_r [[5]] [vget y 0] (length y)) hvec_default default_ne) as (v & V & P & _ & L).
    + intros h H. apply default_pos in H. lra.
    + rewrite V. do 2 f_equal. destruct L as [L|(i & Hi & L)]; auto. apply Rle_antisym; auto.
      simpl in Hi. assert (i = 0)%nat by lia. subst i. destruct hvec_default_spec as (_ & _ & _ & H1). specialize (L _ H1).
      assert (X : forall t, line (half_sq (fun y => [vget y 0])) [0] 0 t = / 2 * (t * t)).
      { intro t. unfold line, half_sq, norm2sq, unit_row_, dot, vget. cbn. field. }
      unfold cdiff in L. rewrite !X in L. unfold jt_r, dot, vget in L. cbn in L.
      match type of L with _ <= Rabs ?e => replace e with 0 in L by field end. rewrite Rabs_R0 in L. auto.
Qed.

(* ------------------------------------------------------------------ Jacobians *)
(** deviation of column i of J from the central difference of the residual *)
Definition jdev (residual : vec -> vec) (J : mat) (x : vec) (i : nat) (h : R) : R :=
  norm2 (map (fun k => cdiff (fun y => vget (residual y) k) x i h - vget (nth k J []) i) (seq 0 (length J))).

Lemma nnorm_fin : forall l, nnorm (map Fin l) = Fin (norm2 l).
Proof.
  intro l. unfold nnorm. replace (existsb is_nan (map Fin l)) with false.
  - replace (forallb is_fin (map Fin l)) with true.
    + f_equal. f_equal. rewrite map_map. simpl. apply map_id.
    + symmetry. apply forallb_forall. intros a H. apply in_map_iff in H. destruct H as (b & <- & _). reflexivity.
  - symmetry. induction l; simpl; auto.
Qed.

Lemma jac_err_fin : forall residual J x i h, h <> 0 -> (forall y, length y = length x -> length (residual y) = length J) ->
  jac_err residual J x i h = Fin (jdev residual J x i h).
Proof.
  intros residual J x i h N L. unfold jac_err, jdev. rewrite <- nnorm_fin. f_equal.
  assert (LU : forall t, length (residual (step_up x i t)) = length J) by (intro t; apply L; apply step_up_length).
  rewrite step_dn_up.
  apply nth_ext with (d := Fin 0) (d' := Fin 0).
  - rewrite zipw_length; unfold jcol; rewrite ?map_length, ?seq_length, vsub_length, LU; rewrite ?LU; auto.
  - intros k Hk. rewrite zipw_length in Hk by (unfold jcol; rewrite map_length, vsub_length; rewrite ?LU; auto).
    rewrite vsub_length in Hk by (rewrite !LU; auto). rewrite LU in Hk.
    rewrite (zipw_nth _ _ _ _ _ _ _ 0 0) by (unfold jcol; rewrite ?map_length, vsub_length; rewrite ?LU; auto).
    rewrite map_map. rewrite nth_map_seq by auto.
    fold (vget (vsub (residual (step_up x i h)) (residual (step_up x i (- h)))) k). rewrite vsub_get by (rewrite !LU; auto).
    simpl. destruct (Req_EM_T (2 * h) 0); [lra|]. simpl. unfold cdiff, line. fold (step_up x i h). fold (step_up x i (- h)).
    fold (vget (jcol J i) k). rewrite jcol_get by auto. f_equal.
Qed.

Lemma jdev_component : forall residual J x i h k, (k < length J)%nat ->
  Rabs (cdiff (fun y => vget (residual y) k) x i h - vget (nth k J []) i) <= jdev residual J x i h.
Proof.
  intros residual J x i h k Hk. unfold jdev. set (l := map _ _).
  assert (E : vget l k = cdiff (fun y => vget (residual y) k) x i h - vget (nth k J []) i) by (unfold l; rewrite vget_map_seq by auto; auto).
  rewrite <- E. assert (LL : length l = length J) by (unfold l; rewrite map_length, seq_length; auto).
  apply Rsqr_incr_0_var; [|apply norm2_nonneg]. rewrite <- Rsqr_abs. unfold Rsqr. rewrite norm2_sq. unfold norm2sq. rewrite dot_rsum by auto.
  rewrite (rsum_split _ k) by lia. assert (0 <= rsum (length l) (fun j => if Nat.eqb j k then 0 else vget l j * vget l j)); [|lra].
  apply rsum_nonneg. intros j Hj. destruct (Nat.eqb j k); [lra|apply Rle_0_sqr].
Qed.

Lemma jdev_bound : forall residual J x i h c, 0 <= c ->
  (forall k, (k < length J)%nat -> Rabs (cdiff (fun y => vget (residual y) k) x i h - vget (nth k J []) i) <= c) ->
  jdev residual J x i h <= sqrt (INR (length J)) * c.
Proof.
  intros residual J x i h c PC B. unfold jdev. apply norm2_le_iff; [apply Rmult_le_pos; auto; apply sqrt_pos|].
  unfold norm2sq. rewrite dot_rsum by auto. rewrite map_length, seq_length.
  replace (sqrt (INR (length J)) * c * (sqrt (INR (length J)) * c)) with (sqrt (INR (length J)) * sqrt (INR (length J)) * (c * c)) by ring.
  rewrite sqrt_sqrt by apply pos_INR. rewrite <- rsum_const. apply rsum_le. intros k Hk. rewrite vget_map_seq by auto.
  specialize (B k Hk). set (a := _ - _) in *. apply (Rsqr_le_abs_1 a c). rewrite (Rabs_right c); lra.
Qed.

(** no zero column: the largest relative column error *)
Theorem check_jacobian_value : forall x residual jac hvec, hvec <> [] -> (forall h, In h hvec -> h <> 0) ->
  (forall y, length y = length x -> length (residual y) = length (jac x)) ->
  (forall i, (i < length x)%nat -> 0 < norm2 (jcol (jac x) i)) ->
  exists v, check_jacobian x residual jac hvec = Some (Fin v) /\ 0 <= v /\
    (forall i, (i < length x)%nat -> exists h, In h hvec /\ jdev residual (jac x) x i h <= v * norm2 (jcol (jac x) i)) /\
    (v = 0 \/ exists i, (i < length x)%nat /\ forall h, In h hvec -> v * norm2 (jcol (jac x) i) <= jdev residual (jac x) x i h).
Proof.
  intros x residual jac hvec NE NZ LR PN. unfold check_jacobian. set (J := jac x) in *.
  assert (M : forall i, map (jac_err residual J x i) hvec = map (fun h => Fin (jdev residual J x i h)) hvec).
  { intro i. apply map_ext_in. intros h Hh. apply jac_err_fin; auto. }
  assert (W : forall i, { v | npmin (map (fun h => Fin (jdev residual J x i h)) hvec) = Some (Fin v) }).
  { intro i. destruct (npmin (map (fun h => Fin (jdev residual J x i h)) hvec)) as [[r| | |]|] eqn:E; [exists r; auto| | | |];
      exfalso; destruct (npmin_spec _ (jdev residual J x i) hvec NE) as [v [V _]]; rewrite E in V; discriminate. }
  destruct (chk_loop_spec (fun i => match pyminl (map (jac_err residual J x i) hvec) with
                     | None => None | Some e => Some (ndivr e (norm2 (jcol J i))) end) (fun i => proj1_sig (W i) / norm2 (jcol J i)) (length x)) as (v & V & P & U & L).
  { intros i Hi. rewrite M, pyminl_npmin. destruct (W i) as [w Hw]. rewrite Hw. simpl. specialize (PN i Hi).
    destruct (Req_EM_T (norm2 (jcol J i)) 0); [lra|reflexivity]. }
  exists v. split; [exact V|]. split; [exact P|]. split.
  - intros i Hi. specialize (U i Hi). specialize (PN i Hi). destruct (W i) as [w Hw]. simpl in U.
    destruct (npmin_spec _ (jdev residual J x i) hvec NE) as (w' & E & _ & h & Hh & E'). rewrite Hw in E. injection E as <-. exists h. split; auto.
    rewrite <- E'. apply (Rmult_le_compat_r (norm2 (jcol J i))) in U; [|lra]. unfold Rdiv in U. rewrite Rmult_assoc, Rinv_l in U by lra. lra.
  - destruct L as [L|[i [Hi L]]]; [left; auto|right]. exists i. split; auto. intros h Hh. specialize (PN i Hi). destruct (W i) as [w Hw]. simpl in L.
    destruct (npmin_spec _ (jdev residual J x i) hvec NE) as (w' & E & B & _). rewrite Hw in E. injection E as <-. rewrite L.
    unfold Rdiv. rewrite Rmult_assoc, Rinv_l by lra. rewrite Rmult_1_r. auto.
Qed.

(** components of the residual are smooth along the coordinate lines with Jacobian entries G *)
Definition smooth_jac (residual : vec -> vec) (x : vec) (H C : R) (G : mat) : Prop :=
  forall k, (k < length G)%nat -> smooth_lines (fun y => vget (residual y) k) x H C (nth k G []).

Theorem check_jacobian_sound : forall x residual jac hvec H C G v, smooth_jac residual x H C G -> hvec <> [] ->
  (forall h, In h hvec -> 0 < h <= H) -> 0 <= C -> length G = length (jac x) ->
  (forall y, length y = length x -> length (residual y) = length (jac x)) ->
  (forall i, (i < length x)%nat -> 0 < norm2 (jcol (jac x) i)) ->
  check_jacobian x residual jac hvec = Some (Fin v) ->
  forall k i, (k < length G)%nat -> (i < length x)%nat ->
  Rabs (vget (nth k (jac x) []) i - vget (nth k G []) i) <= v * norm2 (jcol (jac x) i) + C * (H * H) / 6.
Proof.
  intros x residual jac hvec H C G v S NE B PC LG LR PN E k i Hk Hi.
  destruct (check_jacobian_value x residual jac hvec NE) as (v' & V & _ & U & _); auto.
  { intros h Hh. specialize (B h Hh). lra. }
  rewrite E in V. injection V as <-. destruct (U i Hi) as (h & Hh & D). pose proof (B h Hh) as Bh.
  pose proof (central_error _ H C _ h (S k Hk i Hi) Bh) as T. fold (cdiff (fun y => vget (residual y) k) x i h) in T.
  pose proof (jdev_component residual (jac x) x i h k ltac:(lia)) as K.
  assert (h * h <= H * H) by (apply Rmult_le_compat; lra). assert (C * (h * h) <= C * (H * H)) by (apply Rmult_le_compat_l; auto).
  assert (K' : Rabs (cdiff (fun y => vget (residual y) k) x i h - vget (nth k (jac x) []) i) <= v * norm2 (jcol (jac x) i)) by lra.
  apply Rabs_le_inv in K'. apply Rabs_le_inv in T. apply Rabs_le. lra.
Qed.

Theorem check_jacobian_complete : forall x residual jac hvec H C h, smooth_jac residual x H C (jac x) ->
  (forall h, In h hvec -> 0 < h <= H) -> In h hvec -> 0 <= C ->
  (forall y, length y = length x -> length (residual y) = length (jac x)) ->
  (forall i, (i < length x)%nat -> 0 < norm2 (jcol (jac x) i)) ->
  exists v, check_jacobian x residual jac hvec = Some (Fin v) /\ 0 <= v /\
    (v = 0 \/ exists i, (i < length x)%nat /\ v * norm2 (jcol (jac x) i) <= sqrt (INR (length (jac x))) * (C * (h * h) / 6)).
Proof.
  intros x residual jac hvec H C h S B Hh PC LR PN.
  destruct (check_jacobian_value x residual jac hvec) as (v & V & P & _ & L); auto.
  { intros ->; destruct Hh. } { intros k Hk. specialize (B k Hk). lra. }
  exists v. split; auto. split; auto. destruct L as [L|(i & Hi & L)]; [left; auto|right]. exists i. split; auto.
  eapply Rle_trans; [apply (L h Hh)|]. apply jdev_bound.
  - assert (0 <= C * (h * h)) by (apply Rmult_le_pos; auto; apply Rle_0_sqr). lra.
  - intros k Hk. apply (central_error _ H); auto. apply (S k Hk i Hi).
Qed.

Lemma pymax_nan : forall v, pymax v NaN = v.
Proof. intros [r| | |]; reflexivity. Qed.
Lemma pymax_nan_l : forall v, pymax NaN v = NaN.
Proof. intros [r| | |]; reflexivity. Qed.

(** finding: a column that is zero, of a variable the residual does not depend on, makes the quotient 0/0; Python's max then
    forgets every error found before, so the columns before it are not checked at all *)
Theorem check_jacobian_masked : forall x residual jac1 jac2 hvec k, hvec <> [] -> (forall h, In h hvec -> h <> 0) ->
  (k < length x)%nat -> (forall y, length y = length x -> length (residual y) = length (jac1 x)) -> length (jac2 x) = length (jac1 x) ->
  (forall i, (k <= i < length x)%nat -> jcol (jac1 x) i = jcol (jac2 x) i) ->
  norm2 (jcol (jac1 x) k) = 0 -> (forall h, residual (step_up x k h) = residual x) ->
  check_jacobian x residual jac1 hvec = check_jacobian x residual jac2 hvec.
Proof.
  intros x residual jac1 jac2 hvec k NE NZ Hk LR LJ EQ Z IND.
  set (e := fun (J : mat) i => match pyminl (map (jac_err residual J x i) hvec) with
                     | None => None | Some e => Some (ndivr e (norm2 (jcol J i))) end).
  assert (SOME : forall J i, exists w, e J i = Some w).
  { intros J i. unfold e. destruct hvec; [congruence|]. simpl. eauto. }
  assert (RUN : forall J l a, exists b, fold_left (chk_step (e J)) l (Some a) = Some b).
  { intros J l. induction l as [|i l IH]; intro a; simpl; [eauto|]. destruct (SOME J i) as [w Hw]. rewrite Hw. apply IH. }
  assert (NANk : forall J, length J = length (jac1 x) -> jcol J k = jcol (jac1 x) k -> e J k = Some NaN).
  { intros J LJ' CJ. unfold e. rewrite (map_ext_in _ (fun h => Fin ((fun _ => 0) h))).
    - destruct (npmin_spec _ (fun _ : R => 0) hvec NE) as (w & W & _ & _ & _ & W0). rewrite pyminl_npmin, W, W0, CJ. simpl.
      destruct (Req_EM_T (norm2 (jcol (jac1 x) k)) 0); [|contradiction]. destruct (Req_EM_T 0 0); [reflexivity|congruence].
    - intros h Hh. rewrite jac_err_fin; auto; [|rewrite LJ'; auto]. f_equal. unfold jdev.
      rewrite (map_ext_in _ (fun j => - 1 * vget (jcol (jac1 x) k) j)).
      + replace (map (fun j => - 1 * vget (jcol (jac1 x) k) j) (seq 0 (length J))) with (vscale (- 1) (jcol (jac1 x) k)).
        * rewrite norm2_vscale, Z. ring.
        * apply vec_ext; [rewrite vscale_length; unfold jcol; rewrite !map_length, seq_length; auto|]. intros j Hj.
          rewrite vscale_length in Hj. unfold jcol in Hj at 1. rewrite map_length in Hj. rewrite vscale_get, vget_map_seq by lia. auto.
      + intros j Hj. apply in_seq in Hj. unfold cdiff, line. fold (step_up x k h). fold (step_up x k (- h)). rewrite !IND.
        rewrite <- CJ. rewrite jcol_get by lia. field. auto. }
  assert (TAIL : forall J, length J = length (jac1 x) -> jcol J k = jcol (jac1 x) k ->
    chk_loop (e J) (seq 0 (length x)) = fold_left (chk_step (e J)) (seq (S k) (length x - S k)) (Some NaN)).
  { intros J LJ' CJ. unfold chk_loop. replace (seq 0 (length x)) with (seq 0 k ++ k :: seq (S k) (length x - S k)).
    - rewrite fold_left_app. destruct (RUN J (seq 0 k) (Fin 0)) as [b Hb]. rewrite Hb. simpl. rewrite (NANk J LJ' CJ). rewrite pymax_nan_l. reflexivity.
    - replace (length x) with (k + S (length x - S k))%nat at 2 by lia. rewrite seq_app. reflexivity. }
  unfold check_jacobian. fold (e (jac1 x)). fold (e (jac2 x)). rewrite (TAIL (jac1 x)), (TAIL (jac2 x)); auto; [|symmetry; apply EQ; lia].
  assert (X : forall l o, (forall i, In i l -> jcol (jac1 x) i = jcol (jac2 x) i) -> fold_left (chk_step (e (jac1 x))) l o = fold_left (chk_step (e (jac2 x))) l o).
  { induction l as [|i l IH]; intros o H; simpl; auto. rewrite IH by (intros; apply H; simpl; auto). f_equal. unfold chk_step.
    replace (e (jac2 x) i) with (e (jac1 x) i); auto. unfold e. rewrite (H i) by (simpl; auto).
    replace (map (jac_err residual (jac2 x) x i) hvec) with (map (jac_err residual (jac1 x) x i) hvec); auto.
    apply map_ext. intro h. unfold jac_err. rewrite (H i) by (simpl; auto). auto. }
  apply X. intros i Hi. apply in_seq in Hi. apply EQ. lia.
Qed.

(** a wrong first column goes unnoticed: the result is 0 *)
Definition ex_res (y : vec) : vec := [vget y 0; vget y 2].
Definition ex_jgood (_ : vec) : mat := [[1; 0; 0]; [0; 0; 1]].
Definition ex_jbad (_ : vec) : mat := [[7; 0; 0]; [9; 0; 1]].
Theorem check_jacobian_refuted : exists x residual jac G, jacobian residual x G /\ length (jac x) = length G /\
  check_jacobian x residual jac hvec_default = Some (Fin 0) /\ exists k i, (k < length G)%nat /\ (i < length x)%nat /\ vget (nth k (jac x) []) i <> vget (nth k G []) i.
Proof.
  exists [0; 0; 0], ex_res, ex_jbad, (ex_jgood []).
  split; [|split; [reflexivity|split]].
  - split; [reflexivity|]. intros k Hk. cbn in Hk. split; [destruct k as [|[|k]]; [reflexivity|reflexivity|lia]|]. intros j Hj. cbn in Hj.
    do 2 (destruct k as [|k]; [do 3 (destruct j as [|j]; [
       first [apply d_ext with (f := fun t => t) (l := 1); [intro t; unfold ex_res, unit_row_, vget; cbn; ring|reflexivity|apply d_id]
             |apply d_ext with (f := fun t => 0) (l := 0); [intro t; unfold ex_res, unit_row_, vget; cbn; ring|reflexivity|apply d_const]]|]); lia|]). lia.
  - assert (NZ : forall h, In h hvec_default -> h <> 0) by (intros h H; apply default_pos in H; lra).
    assert (LR : forall y : vec, length y = 3%nat -> length (ex_res y) = 2%nat) by reflexivity.
    unfold check_jacobian. unfold chk_loop. change (seq 0 (length [0; 0; 0])) with [0; 1; 2]%nat.
    set (e := fun i => match pyminl (map (jac_err ex_res (ex_jbad [0; 0; 0]) [0; 0; 0] i) hvec_default) with
                     | None => None | Some e => Some (ndivr e (norm2 (jcol (ex_jbad [0; 0; 0]) i))) end).
    assert (ZD : forall i, (i = 1 \/ i = 2)%nat -> pyminl (map (jac_err ex_res (ex_jbad [0; 0; 0]) [0; 0; 0] i) hvec_default) = Some (Fin 0)).
    { intros i Hi. rewrite (map_ext_in _ (fun h => Fin ((fun _ => 0) h))).
      - destruct (npmin_spec _ (fun _ : R => 0) hvec_default default_ne) as (w & W & _ & _ & _ & W0). rewrite pyminl_npmin, W, W0. auto.
      - intros h Hh. rewrite jac_err_fin; auto. f_equal. unfold jdev. cbn [length ex_jbad seq map].
        assert (QZ : forall a b, a = 0 -> b = 0 -> norm2 [a; b] = 0).
        { intros a b -> ->. unfold norm2, norm2sq. rewrite dot_cons, dot_cons, dot_nil_l. replace (0 * 0 + (0 * 0 + 0)) with 0 by ring. apply sqrt_0. }
        apply NZ in Hh. destruct Hi as [-> | ->]; apply QZ; unfold cdiff, line, ex_res, ex_jbad, unit_row_, vget; cbn; field; auto. }
    assert (E1 : e 1%nat = Some NaN).
    { unfold e. rewrite ZD by auto. cbn [ndivr]. destruct (Req_EM_T (norm2 (jcol (ex_jbad [0; 0; 0]) 1)) 0) as [Y|Y].
      - destruct (Req_EM_T 0 0); [reflexivity|congruence].
      - exfalso. apply Y. unfold jcol, ex_jbad, vget. cbn. unfold norm2, norm2sq. rewrite !dot_cons, dot_nil_l. replace (0 * 0 + (0 * 0 + 0)) with 0 by ring. apply sqrt_0. }
    assert (E2 : e 2%nat = Some (Fin 0)).
    { unfold e. rewrite ZD by auto. cbn [ndivr]. replace (norm2 (jcol (ex_jbad [0; 0; 0]) 2)) with 1.
      - destruct (Req_EM_T 1 0); [lra|]. do 2 f_equal. field.
      - unfold jcol, ex_jbad, vget. cbn. unfold norm2, norm2sq. rewrite !dot_cons, dot_nil_l. replace (0 * 0 + (1 * 1 + 0)) with 1 by ring. symmetry. apply sqrt_1. }
    assert (E0 : exists w, e 0%nat = Some w).
    { unfold e. destruct hvec_default eqn:HD; [destruct (default_ne HD)|]. simpl. eauto. }
    destruct E0 as [w E0]. cbn [fold_left]. unfold chk_step. rewrite E0, E1, E2. rewrite pymax_nan_l, pymax_nan. reflexivity.
  - exists 0%nat, 0%nat. cbn. repeat split; try lia. unfold vget. cbn. lra.
Qed.

(* ------------------------------------------------------------------ Hessians *)
(** the mixed second difference of the specification *)
Definition mixed (f : vec -> R) (x : vec) (i j : nat) (h : R) : R :=
  let F := fun s t => f (step_up (step_up x i s) j t) in
  (F h h - F (- h) h - F h (- h) + F (- h) (- h)) / (4 * (h * h)).

Lemma hess_err_fin : forall obj H x i j h, h <> 0 -> hess_err obj H x i j h = Fin (Rabs (mixed obj x i j h - vget (nth i H []) j)).
Proof.
  intros obj H x i j h N. unfold hess_err. rewrite !step_dn_up.
  assert (P : h * h <> 0) by (apply Rmult_integral_contrapositive_currified; auto).
  cbn [ndivr nsub nopp nadd nabs]. destruct (Req_EM_T (4 * h ^ 2) 0) as [E|E]; [exfalso; simpl in E; apply P; lra|].
  unfold nsub, nopp, nadd, nabs. do 2 f_equal. unfold mixed. cbv zeta. field. auto.
Qed.

Lemma nmin_fold_spec : forall (A : Type) (f : A -> R) (l : list A), l <> [] ->
  exists v, fold_left nmin (map (fun a => Fin (f a)) l) PInf = Fin v /\ (forall a, In a l -> v <= f a) /\ exists a, In a l /\ v = f a.
Proof.
  intros A f l N. destruct (npmin_spec A f l N) as (v & V & B & X). exists v. split; auto.
  destruct l as [|a l]; [congruence|]. simpl in *. injection V as V. exact V.
Qed.

Lemma pymax_fold_spec : forall (A : Type) (e : A -> num) (r : A -> R) (l : list A), (forall a, In a l -> e a = Fin (r a)) ->
  forall m, exists v, fold_left (fun m a => pymax (e a) m) l (Fin m) = Fin v /\ m <= v /\ (forall a, In a l -> r a <= v) /\
   (v = m \/ exists a, In a l /\ v = r a).
Proof.
  induction l as [|a l IH]; intros H m; simpl.
  - exists m. repeat split; auto; [lra|intros a []].
  - rewrite H by (simpl; auto). rewrite pymax_fin. destruct (IH ltac:(intros; apply H; simpl; auto) (Rmax (r a) m)) as (v & V & A1 & A2 & A3).
    pose proof (Rmax_l (r a) m). pose proof (Rmax_r (r a) m). exists v. split; auto. split; [lra|]. split.
    + intros b [B|B]; [subst; lra|auto].
    + destruct A3 as [A3|[b [B A3]]]; [|right; exists b; auto]. unfold Rmax in A3. destruct (Rle_dec (r a) m); [left; auto|right; exists a; auto].
Qed.

Theorem check_hessian_value : forall x obj hess hvec, hvec <> [] -> (forall h, In h hvec -> h <> 0) ->
  exists v, check_hessian_steps x obj hess hvec = Fin v /\ 0 <= v /\
    (forall i j, (i < length x)%nat -> (j < length x)%nat -> exists h, In h hvec /\ Rabs (mixed obj x i j h - vget (nth i (hess x) []) j) <= v) /\
    (v = 0 \/ exists i j, (i < length x)%nat /\ (j < length x)%nat /\ forall h, In h hvec -> v <= Rabs (mixed obj x i j h - vget (nth i (hess x) []) j)).
Proof.
  intros x obj hess hvec NE NZ. unfold check_hessian_steps.
  set (dev := fun ij h => Rabs (mixed obj x (fst ij) (snd ij) h - vget (nth (fst ij) (hess x) []) (snd ij))).
  assert (M : forall ij, map (hess_err obj (hess x) x (fst ij) (snd ij)) hvec = map (fun h => Fin (dev ij h)) hvec).
  { intro ij. apply map_ext_in. intros h Hh. apply hess_err_fin. auto. }
  assert (W : forall ij, { v | fold_left nmin (map (fun h => Fin (dev ij h)) hvec) PInf = Fin v }).
  { intro ij. destruct (fold_left nmin (map (fun h => Fin (dev ij h)) hvec) PInf) as [r| | |] eqn:E; [exists r; auto| | |];
      exfalso; destruct (nmin_fold_spec _ (dev ij) hvec NE) as [v [V _]]; rewrite E in V; discriminate. }
  destruct (pymax_fold_spec _ (fun ij => fold_left nmin (map (hess_err obj (hess x) x (fst ij) (snd ij)) hvec) PInf) (fun ij => proj1_sig (W ij))
     (list_prod (seq 0 (length x)) (seq 0 (length x)))) with (m := 0) as (v & V & P & U & L).
  { intros ij _. rewrite M. destruct (W ij) as [w Hw]. simpl. auto. }
  exists v. split; [exact V|]. split; [exact P|]. split.
  - intros i j Hi Hj. specialize (U (i, j)). assert (Q : In (i, j) (list_prod (seq 0 (length x)) (seq 0 (length x)))) by (apply in_prod; apply in_seq; lia).
    specialize (U Q). destruct (W (i, j)) as [w Hw]. simpl in U.
    destruct (nmin_fold_spec _ (dev (i, j)) hvec NE) as (w' & E & _ & h & Hh & E'). rewrite Hw in E. injection E as <-. exists h. split; auto. unfold dev in *. simpl in *. lra.
  - destruct L as [L|[[i j] [Q L]]]; [left; auto|right]. apply in_prod_iff in Q. destruct Q as [Qi Qj]. apply in_seq in Qi. apply in_seq in Qj.
    exists i, j. split; [lia|]. split; [lia|]. intros h Hh. destruct (W (i, j)) as [w Hw]. simpl in L.
    destruct (nmin_fold_spec _ (dev (i, j)) hvec NE) as (w' & E & B & _). rewrite Hw in E. injection E as <-. rewrite L. apply (B h Hh).
Qed.

(** the mixed second derivative exists near x, is C-Lipschitz at x and equals d there *)
Definition smooth_mixed (F : R -> R -> R) (H C d : R) : Prop :=
  exists Ft Fts, forall s t, - H <= s <= H -> - H <= t <= H ->
    derivable_pt_lim (fun t => F s t) t (Ft s t) /\ derivable_pt_lim (fun s => Ft s t) s (Fts s t) /\ Rabs (Fts s t - d) <= C * (Rabs s + Rabs t).

Lemma mixed_error : forall F H C d h, smooth_mixed F H C d -> 0 < h <= H -> 0 <= C ->
  Rabs ((F h h - F (- h) h - F h (- h) + F (- h) (- h)) / (4 * (h * h)) - d) <= 2 * C * h.
Proof.
  intros F H C d h (Ft & Fts & S) Hh PC.
  destruct (MVT_cor2 (fun t => F h t - F (- h) t) (fun t => Ft h t - Ft (- h) t) (- h) h ltac:(lra)) as (t & E & Ht).
  { intros c Hc. apply d_minus; [apply (S h c); lra|apply (S (- h) c); lra]. }
  destruct (MVT_cor2 (fun s => Ft s t) (fun s => Fts s t) (- h) h ltac:(lra)) as (s & E' & Hs).
  { intros c Hc. apply (S c t); lra. }
  destruct (S s t ltac:(lra) ltac:(lra)) as (_ & _ & B).
  replace ((F h h - F (- h) h - F h (- h) + F (- h) (- h)) / (4 * (h * h))) with (Fts s t).
  - eapply Rle_trans; [apply B|]. assert (Rabs s <= h) by (apply Rabs_le; lra). assert (Rabs t <= h) by (apply Rabs_le; lra).
    replace (2 * C * h) with (C * (h + h)) by ring. apply Rmult_le_compat_l; lra.
  - replace (F h h - F (- h) h - F h (- h) + F (- h) (- h)) with (Fts s t * (4 * (h * h))); [field; lra|].
    replace (F h h - F (- h) h - F h (- h) + F (- h) (- h)) with (F h h - F (- h) h - (F h (- h) - F (- h) (- h))) by ring. rewrite E, E'. ring.
Qed.

Definition smooth_hess (f : vec -> R) (x : vec) (H C : R) (G : mat) : Prop :=
  forall i j, (i < length x)%nat -> (j < length x)%nat -> smooth_mixed (fun s t => f (step_up (step_up x i s) j t)) H C (vget (nth i G []) j).

Theorem check_hessian_complete : forall x obj hess C, smooth_hess obj x (/ 10) C (hess x) -> 0 <= C ->
  exists v, check_hessian x obj hess = Fin v /\ 0 <= v <= 2 * C * / 10 ^ 7.
Proof.
  intros x obj hess C S PC. destruct (check_hessian_value x obj hess hvec_hess hess_ne) as (v & V & P & _ & L).
  - intros h Hh. apply hess_pos in Hh. lra.
  - exists v. split; auto. split; auto. destruct hvec_hess_spec as (_ & _ & H7 & _). destruct L as [->|(i & j & Hi & Hj & L)].
    + apply Rmult_le_pos; [lra|pose proof (tiny_pos 7); lra].
    + eapply Rle_trans; [apply (L _ H7)|]. apply (mixed_error _ (/ 10)); auto. apply hess_pos. auto.
Qed.

Theorem check_hessian_sound : forall x obj hess C G v, smooth_hess obj x (/ 10) C G -> 0 <= C -> check_hessian x obj hess = Fin v ->
  forall i j, (i < length x)%nat -> (j < length x)%nat -> Rabs (vget (nth i (hess x) []) j - vget (nth i G []) j) <= v + C / 5.
Proof.
  intros x obj hess C G v S PC E i j Hi Hj. destruct (check_hessian_value x obj hess hvec_hess hess_ne) as (v' & V & P & U & _).
  - intros h Hh. apply hess_pos in Hh. lra.
  - unfold check_hessian in E. rewrite E in V. injection V as <-. destruct (U i j Hi Hj) as (h & Hh & D). apply hess_pos in Hh.
    pose proof (mixed_error _ (/ 10) C _ h (S i j Hi Hj) Hh PC) as T. change (Rabs (mixed obj x i j h - vget (nth i G []) j) <= 2 * C * h) in T.
    assert (2 * C * h <= C / 5) by (replace (C / 5) with (2 * C * / 10) by field; apply Rmult_le_compat_l; lra).
    apply Rabs_le_inv in D. apply Rabs_le_inv in T. apply Rabs_le. lra.
Qed.

(* ------------------------------------------------------------------ cases *)
(** f(y) = 3 y0^2 + y0 y1, at (1, 2): gradient (8, 1); a wrong second entry 4 is reported as 3 *)
Definition ex_q (y : vec) : R := 3 * (vget y 0 * vget y 0) + vget y 0 * vget y 1.
Lemma ex_q_smooth : smooth_lines ex_q [1; 2] (/ 10) 0 [8; 1].
Proof.
  intros i Hi. cbn in Hi. destruct i as [|[|i]]; [| |lia].
  - exists (fun t => 6 * (1 + t) + 2), (fun t => 6), (fun t => 0). split; [unfold vget; cbn; ring|]. intros t _. rewrite Rabs_R0. repeat split; [| | |lra].
    + apply d_ext with (f := fun t => 3 * ((1 + t) * (1 + t)) + (1 + t) * 2) (l := 3 * ((0 + 1) * (1 + t) + (1 + t) * (0 + 1)) + ((0 + 1) * 2 + (1 + t) * 0));
        [intro s; unfold line, ex_q, unit_row_, vget; cbn; ring|ring|].
      apply d_plus; [apply d_scal, (d_mult (fun t => 1 + t) (fun t => 1 + t)); apply d_plus; try apply d_const; apply d_id|
        apply (d_mult (fun t => 1 + t) (fun t => 2)); [apply d_plus; [apply d_const|apply d_id]|apply d_const]].
    + apply d_ext with (f := fun t => 6 * t + 8) (l := 6); [intro; ring|ring|apply d_lin].
    + apply d_const.
  - exists (fun t => 1), (fun t => 0), (fun t => 0). split; [unfold vget; cbn; ring|]. intros t _. rewrite Rabs_R0. repeat split; [| | |lra]; try apply d_const.
    apply d_ext with (f := fun t => 1 * t + 5) (l := 1); [intro s; unfold line, ex_q, unit_row_, vget; cbn; ring|ring|apply d_lin].
Qed.
Example check_derivative_case : check_derivative [1; 2] ex_q (fun _ => [8; 4]) hvec_default = Some (Fin 3) /\
  check_derivative [1; 2] ex_q (fun _ => [8; 1]) hvec_default = Some (Fin 0).
Proof.
  split.
  - destruct (check_derivative_exact [1; 2] ex_q (fun _ => [8; 4]) hvec_default (/ 10) [8; 1] ex_q_smooth default_ne default_pos) as (v & V & P & U & L).
    rewrite V. do 2 f_equal. pose proof (U 1%nat ltac:(cbn; lia)) as U1. unfold vget in U1. cbn in U1. rewrite Rabs_right in U1 by lra.
    destruct L as [L|(i & Hi & L)]; [lra|]. cbn in Hi. destruct i as [|[|i]]; [| |lia]; unfold vget in L; cbn in L.
    + replace (8 - 8) with 0 in L by ring. rewrite Rabs_R0 in L. lra.
    + rewrite Rabs_right in L by lra. lra.
  - destruct (check_derivative_default [1; 2] ex_q (fun _ => [8; 1]) 0 [8; 1] ex_q_smooth (Rle_refl 0)) as (v & V & _ & B).
    destruct (check_derivative_value [1; 2] ex_q (fun _ => [8; 1]) hvec_default default_ne) as (w & W & P & _); [intros h H; apply default_pos in H; lra|].
    rewrite V in W. injection W as <-. rewrite V. do 2 f_equal. specialize (B ltac:(auto)). lra.
Qed.
(** residual (y0, y2), the exact Jacobian of its two active columns *)
Example check_gradient_case : partials (half_sq ex_res) [3; 1; 4] (jt_r (ex_jgood []) (ex_res [3; 1; 4]) 3) /\
  jt_r (ex_jgood []) (ex_res [3; 1; 4]) 3 = [3; 0; 4].
Proof.
  split.
  - apply (jt_r_gradient ex_res [3; 1; 4]). split; [reflexivity|]. intros k Hk. cbn in Hk. split; [destruct k as [|[|k]]; [reflexivity|reflexivity|lia]|]. intros j Hj. cbn in Hj.
    destruct k as [|[|k]]; [| |lia]; destruct j as [|[|[|j]]]; try lia;
      first [apply d_ext with (f := fun t => 1 * t + 3) (l := 1); [intro t; unfold ex_res, unit_row_, vget; cbn; ring|reflexivity|apply d_lin]
             |apply d_ext with (f := fun t => 1 * t + 4) (l := 1); [intro t; unfold ex_res, unit_row_, vget; cbn; ring|reflexivity|apply d_lin]
             |apply d_ext with (f := fun t => 3) (l := 0); [intro t; unfold ex_res, unit_row_, vget; cbn; ring|reflexivity|apply d_const]
             |apply d_ext with (f := fun t => 4) (l := 0); [intro t; unfold ex_res, unit_row_, vget; cbn; ring|reflexivity|apply d_const]].
  - unfold jt_r, ex_jgood, ex_res, dot, vget. cbn. f_equal; [ring|f_equal; [ring|f_equal; ring]].
Qed.
Lemma ex_col_norm : forall i, (i < 1)%nat -> 0 < norm2 (jcol [[3]; [4]] i).
Proof.
  intros i Hi. assert (i = 0)%nat by lia. subst i. unfold jcol, norm2, norm2sq, dot, vget. cbn. apply sqrt_lt_R0. lra.
Qed.
Example check_jacobian_case : exists v, check_jacobian [2] (fun y => [3 * vget y 0; 4 * vget y 0]) (fun _ => [[3]; [4]]) hvec_default = Some (Fin v) /\ v = 0.
Proof.
  destruct (check_jacobian_complete [2] (fun y => [3 * vget y 0; 4 * vget y 0]) (fun _ => [[3]; [4]]) hvec_default (/ 10) 0 (/ 10)) as (v & V & P & L).
  - intros k Hk i Hi. cbn in Hk, Hi. assert (i = 0)%nat by lia. subst i.
    destruct k as [|[|k]]; [exists (fun _ => 3), (fun _ => 0), (fun _ => 0)|exists (fun _ => 4), (fun _ => 0), (fun _ => 0)|lia];
      (split; [reflexivity|]; intros t _; rewrite Rabs_R0; repeat split; try apply d_const; try lra).
    + apply d_ext with (f := fun t => 3 * t + 6) (l := 3); [intro s; unfold line, unit_row_, vget; cbn; ring|ring|apply d_lin].
    + apply d_ext with (f := fun t => 4 * t + 8) (l := 4); [intro s; unfold line, unit_row_, vget; cbn; ring|ring|apply d_lin].
  - apply default_pos.
  - apply hvec_default_spec.
  - lra.
  - reflexivity.
  - cbn [length]. apply ex_col_norm.
  - exists v. split; auto. destruct L as [L|(i & Hi & L)]; auto. pose proof (ex_col_norm i Hi) as N.
    replace (0 * (/ 10 * / 10) / 6) with 0 in L by field. rewrite Rmult_0_r in L.
    apply Rle_antisym; auto. apply Rmult_le_reg_r with (norm2 (jcol [[3]; [4]] i)); auto. lra.
Qed.
(** f(y) = y0 y1 has Hessian ((0, 1), (1, 0)) *)
Lemma ex_hess_smooth : smooth_hess (fun y => vget y 0 * vget y 1) [5; 7] (/ 10) 0 [[0; 1]; [1; 0]].
Proof.
  intros i j Hi Hj. cbn in Hi, Hj. destruct i as [|[|i]]; [| |lia]; (destruct j as [|[|j]]; [| |lia]).
  - exists (fun s t => 7), (fun s t => 0). intros s t _ _. split; [|split; [apply d_const|unfold vget; cbn; rewrite Rminus_0_r, Rabs_R0; lra]].
    apply d_ext with (f := fun t => 7 * t + (35 + 7 * s)) (l := 7); [intro u; unfold step_up, unit_row_, vget; cbn; ring|ring|apply d_lin].
  - exists (fun s t => 5 + s), (fun s t => 1). intros s t _ _. split; [|split].
    + apply d_ext with (f := fun t => (5 + s) * t + (5 + s) * 7) (l := 5 + s); [intro u; unfold step_up, unit_row_, vget; cbn; ring|ring|apply d_lin].
    + apply d_ext with (f := fun s => 1 * s + 5) (l := 1); [intro; ring|ring|apply d_lin].
    + unfold vget; cbn. replace (1 - 1) with 0 by ring. rewrite Rabs_R0. lra.
  - exists (fun s t => 7 + s), (fun s t => 1). intros s t _ _. split; [|split].
    + apply d_ext with (f := fun t => (7 + s) * t + (7 + s) * 5) (l := 7 + s); [intro u; unfold step_up, unit_row_, vget; cbn; ring|ring|apply d_lin].
    + apply d_ext with (f := fun s => 1 * s + 7) (l := 1); [intro; ring|ring|apply d_lin].
    + unfold vget; cbn. replace (1 - 1) with 0 by ring. rewrite Rabs_R0. lra.
  - exists (fun s t => 5), (fun s t => 0). intros s t _ _. split; [|split; [apply d_const|unfold vget; cbn; rewrite Rminus_0_r, Rabs_R0; lra]].
    apply d_ext with (f := fun t => 5 * t + (35 + 5 * s)) (l := 5); [intro u; unfold step_up, unit_row_, vget; cbn; ring|ring|apply d_lin].
Qed.
Example check_hessian_case : check_hessian [5; 7] (fun y => vget y 0 * vget y 1) (fun _ => [[0; 1]; [1; 0]]) = Fin 0 /\
  exists v, check_hessian [5; 7] (fun y => vget y 0 * vget y 1) (fun _ => [[0; 1]; [4; 0]]) = Fin v /\ 3 <= v.
Proof.
  split.
  - destruct (check_hessian_complete [5; 7] (fun y => vget y 0 * vget y 1) (fun _ => [[0; 1]; [1; 0]]) 0 ex_hess_smooth (Rle_refl 0)) as (v & V & B).
    rewrite V. f_equal. lra.
  - destruct (check_hessian_value [5; 7] (fun y => vget y 0 * vget y 1) (fun _ => [[0; 1]; [4; 0]]) hvec_hess hess_ne) as (v & V & _).
    + intros h H. apply hess_pos in H. lra.
    + exists v. split; auto.
      pose proof (check_hessian_sound [5; 7] (fun y => vget y 0 * vget y 1) (fun _ => [[0; 1]; [4; 0]]) 0 [[0; 1]; [1; 0]] v ex_hess_smooth (Rle_refl 0) V 1%nat 0%nat
        ltac:(cbn; lia) ltac:(cbn; lia)) as B. unfold vget in B. cbn in B. rewrite Rabs_right in B by lra. lra.
Qed.

(** Line search, Gauss-Newton, minimax and sequential LP (C48-C52, C72). *)
Require Import Reals Lra Lia List Bool Arith.
From Verif Require Import RVec Num Sums DomModel DomSpec DomProofs DomMoreModel SweepProofs HullProofs HullIneqProofs VecTac OptModel.
Import ListNotations.
Local Open Scope R_scope.

(* ---------------- Armijo ---------------- *)
(** the Armijo condition at step a *)
Definition accepts (f : vec -> option vec) (traj : vec -> vec -> R -> option vec) (p x0 : vec) (ftol dg fx0n a : R) : Prop :=
  exists x fx, traj x0 p a = Some x /\ f x = Some fx /\ norm2 fx < fx0n + a * ftol * dg.

Lemma armijo_loop_spec : forall f traj p x0 bt ftol dg fx0n it alpha,
  match armijo_loop f traj p x0 bt ftol dg fx0n it alpha with
  | Some (x, a, fx) => exists k, (k < it)%nat /\ a = alpha * bt ^ k /\ traj x0 p a = Some x /\ f x = Some fx /\
      norm2 fx < fx0n + a * ftol * dg /\ forall j, (j < k)%nat -> ~ accepts f traj p x0 ftol dg fx0n (alpha * bt ^ j)
  | None => forall j, (j < it)%nat -> ~ accepts f traj p x0 ftol dg fx0n (alpha * bt ^ j)
  end.
Proof.
  intros f traj p x0 bt ftol dg fx0n it. induction it as [|it IH]; intro alpha; cbn [armijo_loop].
  - intros j Hj. lia.
  - specialize (IH (alpha * bt)).
    destruct (match traj x0 p alpha with Some x => _ | None => None end) as [[[x a] fx]|] eqn:E.
    + destruct (traj x0 p alpha) as [x'|] eqn:T; [|discriminate]. destruct (f x') as [fx'|] eqn:FX; [|discriminate].
      destruct (Rltb _ _) eqn:LT; [|discriminate]. injection E as <- <- <-. apply Rltb_true in LT.
      exists O. simpl. rewrite Rmult_1_r. repeat split; auto; try lia.
    + assert (NA : ~ accepts f traj p x0 ftol dg fx0n alpha).
      { intros [x [fx [A1 [A2 A3]]]]. rewrite A1, A2 in E. apply Rltb_true in A3. rewrite A3 in E. discriminate. }
      destruct (armijo_loop f traj p x0 bt ftol dg fx0n it (alpha * bt)) as [[[x a] fx]|].
      * destruct IH as [k [K1 [K2 [K3 [K4 [K5 K6]]]]]]. exists (S k). split; [lia|]. split; [rewrite K2; simpl; ring|].
        repeat split; auto. intros j Hj. destruct j as [|j]; [simpl; rewrite Rmult_1_r; auto|].
        replace (alpha * bt ^ S j) with (alpha * bt * bt ^ j) by (simpl; ring). apply K6. lia.
      * intros j Hj. destruct j as [|j]; [simpl; rewrite Rmult_1_r; auto|].
        replace (alpha * bt ^ S j) with (alpha * bt * bt ^ j) by (simpl; ring). apply IH. lia.
Qed.

Theorem armijo_correct : forall f traj g p x0 bt ftol maxiter fx0 x a fx,
  linesearch_armijo f traj g p x0 bt ftol maxiter fx0 = Some (x, a, fx) ->
  dot g p <= 0 /\ exists v, (match fx0 with Some w => Some w | None => f x0 end) = Some v /\
  ((x = x0 /\ a = 0 /\ fx = v /\ forall j, (j < maxiter)%nat -> ~ accepts f traj p x0 ftol (dot g p) (norm2 v) (bt ^ j)) \/
   (exists k, (k < maxiter)%nat /\ a = bt ^ k /\ traj x0 p a = Some x /\ f x = Some fx /\
      norm2 fx < norm2 v + a * ftol * dot g p /\ forall j, (j < k)%nat -> ~ accepts f traj p x0 ftol (dot g p) (norm2 v) (bt ^ j))).
Proof.
  intros f traj g p x0 bt ftol maxiter fx0 x a fx E. unfold linesearch_armijo in E. cbv zeta in E.
  destruct (Rltb 0 (dot g p)) eqn:D; [discriminate|]. apply Rltb_false in D. split; auto.
  destruct (match fx0 with Some w => Some w | None => f x0 end) as [v|]; [|discriminate]. exists v. split; auto.
  pose proof (armijo_loop_spec f traj p x0 bt ftol (dot g p) (norm2 v) maxiter 1) as H.
  destruct (armijo_loop f traj p x0 bt ftol (dot g p) (norm2 v) maxiter 1) as [[[x' a'] fx']|].
  - injection E as <- <- <-. right. destruct H as [k [K1 [K2 [K3 [K4 [K5 K6]]]]]]. exists k. rewrite Rmult_1_l in K2.
    repeat split; auto. intros j Hj. rewrite <- (Rmult_1_l (bt ^ j)). auto.
  - injection E as <- <- <-. left. repeat split; auto. intros j Hj. rewrite <- (Rmult_1_l (bt ^ j)). auto.
Qed.

(** the residual never increases, and decreases strictly unless the zero step is returned *)
Theorem armijo_decrease : forall f traj g p x0 bt ftol maxiter v x a fx, 0 <= bt -> 0 <= ftol -> f x0 = Some v ->
  linesearch_armijo f traj g p x0 bt ftol maxiter None = Some (x, a, fx) ->
  f x = Some fx /\ norm2 fx <= norm2 v /\ (x = x0 /\ fx = v \/ norm2 fx < norm2 v).
Proof.
  intros f traj g p x0 bt ftol maxiter v x a fx Hb Hf Hv E. apply armijo_correct in E. destruct E as [D [w [W E]]].
  rewrite Hv in W. injection W as <-. destruct E as [[E1 [E2 [E3 _]]]|[k [K1 [K2 [K3 [K4 [K5 _]]]]]]].
  - subst. repeat split; auto. lra.
  - assert (0 <= a) by (subst a; apply pow_le; auto). assert (0 <= a * ftol) by (apply Rmult_le_pos; auto).
    assert (a * ftol * dot g p <= 0) by nra. (split; [auto|split; [lra|right; lra]]).
Qed.

(* ---------------- Gauss-Newton ---------------- *)
Section GN.
  Variable n : nat.
  Variable f : vec -> vec.
  Variable F : vec -> mat.
  Variable gnsolver : mat -> vec -> option vec.
  Variable ls : vec -> vec -> vec -> option (vec * R * vec).
  Variables tol0 tolx : R.

  (** contract of a line search: it returns the residual at the point it returns *)
  Hypothesis ls_value : forall g d x xn a fn, ls g d x = Some (xn, a, fn) -> fn = f xn.

  Lemma gn_body_inv : forall verbose tol s o, gn_body n F gnsolver ls verbose tol tolx s = o -> g_f s = f (g_x s) ->
    match o with Exc => True | Next s' | Brk s' => g_f s' = f (g_x s') /\ norm2 (g_f s') <= norm2 (g_f s) end.
  Proof.
    intros verbose tol s o E H. subst o. unfold gn_body. destruct (gnsolver _ _) as [dx0|]; auto.
    destruct (ls _ _ _) as [[[xn a] fn]|] eqn:L; auto. apply ls_value in L. cbv zeta.
    destruct (Rleb (norm2 (g_f s)) (norm2 fn)) eqn:I.
    - destruct (Rltb _ tol); simpl; [split; auto; lra|]. destruct (Rltb _ tolx); simpl; split; auto; lra.
    - apply Rleb_false in I. destruct (Rltb _ tol); simpl; [split; auto; lra|]. destruct (Rltb _ tolx); simpl; split; auto; lra.
  Qed.

  Lemma gn_loop_inv : forall verbose tol left it s it' s', gn_loop n F gnsolver ls verbose tol tolx left it s = Some (it', s') ->
    g_f s = f (g_x s) -> g_f s' = f (g_x s') /\ norm2 (g_f s') <= norm2 (g_f s) /\ (it <= it' < it + left)%nat.
  Proof.
    intros verbose tol. induction left as [|l IH]; intros it s it' s' E H; cbn [gn_loop] in E; [discriminate|].
    pose proof (gn_body_inv verbose tol s _ eq_refl H) as B.
    destruct (gn_body n F gnsolver ls verbose tol tolx s) as [|s1|s1]; [discriminate| |].
    - destruct B as [B1 B2]. destruct l as [|l].
      + injection E as <- <-. repeat split; auto; lia.
      + apply IH in E; auto. destruct E as [E1 [E2 E3]]. repeat split; auto; try lia; lra.
    - injection E as <- <-. destruct B. repeat split; auto; lia.
  Qed.

  Theorem gn_monotone : forall verbose maxiter x0 x i, gauss_newton n f F gnsolver ls verbose tol0 tolx maxiter x0 = Some (x, i) ->
    norm2 (f x) <= norm2 (f x0).
  Proof.
    intros verbose maxiter x0 x i E. unfold gauss_newton in E. destruct maxiter as [|k]; [injection E as <- <-; lra|].
    cbv zeta in E. destruct (gn_loop _ _ _ _ _ _ _ _ _ _) as [[it s]|] eqn:L; [|discriminate]. injection E as <- <-.
    apply gn_loop_inv in L; [|reflexivity]. destruct L as [L1 [L2 _]]. rewrite <- L1. exact L2.
  Qed.
End GN.

Section GNStatus.
  Variable n : nat.
  Variable f : vec -> vec.
  Variable F : vec -> mat.
  Variable gnsolver : mat -> vec -> option vec.
  Variable ls : vec -> vec -> vec -> option (vec * R * vec).
  Variables tol0 tolx : R.

  (** a pass that breaks leaves a state whose status is determined *)
  Lemma gn_body_brk : forall verbose tol s s', gn_body n F gnsolver ls verbose tol tolx s = Brk s' ->
    g_ng s' < tol \/ g_ndx s' < tolx \/ norm2 (g_f s') <= norm2 (g_fn s').
  Proof.
    intros verbose tol s s' E. unfold gn_body in E. destruct (gnsolver _ _) as [dx0|]; [|discriminate].
    destruct (ls _ _ _) as [[[xn a] fn]|]; [|discriminate]. cbv zeta in E.
    destruct (Rltb _ tol) eqn:A; [injection E as <-; left; apply Rltb_true in A; exact A|].
    destruct (Rltb _ tolx) eqn:B; [injection E as <-; right; left; apply Rltb_true in B; exact B|].
    destruct (Rleb (norm2 (g_f s)) (norm2 fn)) eqn:C; [|discriminate]. injection E as <-. right; right. apply Rleb_true in C. exact C.
  Qed.

  Lemma gn_loop_status : forall verbose tol maxiter left it s it' s', gn_loop n F gnsolver ls verbose tol tolx left it s = Some (it', s') ->
    (it + left = maxiter)%nat -> exists k, gn_info tol tolx maxiter it' s' = Some k /\ (k <= 3)%nat.
  Proof.
    intros verbose tol maxiter. induction left as [|l IH]; intros it s it' s' E H; cbn [gn_loop] in E; [discriminate|].
    destruct (gn_body n F gnsolver ls verbose tol tolx s) as [|s1|s1] eqn:B; [discriminate| |].
    - destruct l as [|l].
      + injection E as <- <-. unfold gn_info. destruct (Rleb (g_ng s1) tol); [eexists; split; [reflexivity|lia]|].
        destruct (Rleb (g_ndx s1) tolx); [eexists; split; [reflexivity|lia]|].
        destruct (Nat.eqb_spec (S it) maxiter); [|lia]. eexists; split; [reflexivity|lia].
      + eapply IH in E; eauto. lia.
    - injection E as <- <-. apply gn_body_brk in B. unfold gn_info.
      destruct (Rleb (g_ng s1) tol) eqn:A1; [eexists; split; [reflexivity|lia]|].
      destruct (Rleb (g_ndx s1) tolx) eqn:A2; [eexists; split; [reflexivity|lia]|].
      destruct (Nat.eqb (S it) maxiter); [eexists; split; [reflexivity|lia]|].
      apply Rleb_false in A1. apply Rleb_false in A2. destruct B as [B|[B|B]]; [lra|lra|].
      apply Rleb_true in B. rewrite B. eexists; split; [reflexivity|lia].
  Qed.

  Theorem gn_status : forall verbose maxiter x0 x i, gauss_newton n f F gnsolver ls verbose tol0 tolx maxiter x0 = Some (x, i) ->
    exists k, i = Some k /\ (k <= 4)%nat.
  Proof.
    intros verbose maxiter x0 x i E. unfold gauss_newton in E. destruct maxiter as [|k]; [injection E as <- <-; eexists; split; [reflexivity|lia]|].
    cbv zeta in E. destruct (gn_loop _ _ _ _ _ _ _ _ _ _) as [[it s]|] eqn:L; [|discriminate]. injection E as <- <-.
    eapply gn_loop_status in L; eauto. destruct L as [j [L1 L2]]. eexists; split; [exact L1|lia].
  Qed.

  Lemma gn_silent_ng : forall tol left it s it' s', gn_loop n F gnsolver ls false tol tolx left it s = Some (it', s') -> g_ng s' = g_ng s.
  Proof.
    intros tol. induction left as [|l IH]; intros it s it' s' E; cbn [gn_loop] in E; [discriminate|].
    assert (B : match gn_body n F gnsolver ls false tol tolx s with Exc => True | Next s1 | Brk s1 => g_ng s1 = g_ng s end).
    { unfold gn_body. destruct (gnsolver _ _); auto. destruct (ls _ _ _) as [[[xn a] fn]|]; auto. cbv zeta.
      destruct (Rltb _ tol); auto. destruct (Rltb _ tolx); auto. destruct (Rleb _ (norm2 fn)); auto. }
    destruct (gn_body n F gnsolver ls false tol tolx s) as [|s1|s1]; [discriminate| |].
    - destruct l; [injection E as <- <-; auto|]. apply IH in E. congruence.
    - injection E as <- <-. auto.
  Qed.

  (** without printing, convergence of the gradient is never detected after the first iterate *)
  Theorem gn_silent_never_converges : forall maxiter x0 x i, tol0 < 1 -> / 100000000000000 < norm2 (tmv n (F x0) (f x0)) ->
    gauss_newton n f F gnsolver ls false tol0 tolx maxiter x0 = Some (x, i) -> i <> Some O.
  Proof.
    intros maxiter x0 x i T G E. unfold gauss_newton in E. destruct maxiter as [|k]; [injection E as <- <-; discriminate|].
    cbv zeta in E. destruct (gn_loop _ _ _ _ _ _ _ _ _ _) as [[it s]|] eqn:L; [|discriminate]. injection E as <- <-.
    apply gn_silent_ng in L. cbn [gn_start g_ng] in L. unfold gn_info. rewrite L.
    change (g_ng (gn_start n f F x0)) with (norm2 (tmv n (F x0) (f x0))).
    set (ng := norm2 (tmv n (F x0) (f x0))) in *.
    assert (gn_tol tol0 ng < ng) by (unfold gn_tol; apply Rmax_lub_lt; nra).
    destruct (Rleb ng (gn_tol tol0 ng)) eqn:A; [apply Rleb_true in A; lra|].
    destruct (Rleb _ tolx); [discriminate|]. destruct (Nat.eqb _ _); [discriminate|]. destruct (Rleb (norm2 (g_f s)) (norm2 (g_fn s))); intro X; discriminate X.
  Qed.
End GNStatus.

(** with the default line search *)
Lemma default_ls_value : forall f g d x xn a fn, default_ls f g d x = Some (xn, a, fn) -> fn = f xn.
Proof.
  intros f g d x xn a fn E. unfold default_ls in E. eapply armijo_decrease in E; try reflexivity; try lra.
  destruct E as [E _]. congruence.
Qed.

Lemma default_ls_total : forall f g d x, dot g d <= 0 -> exists r, default_ls f g d x = Some r.
Proof.
  intros f g d x H. unfold default_ls, linesearch_armijo. cbv zeta.
  destruct (Rltb 0 (dot g d)) eqn:D; [apply Rltb_true in D; lra|]. destruct (armijo_loop _ _ _ _ _ _ _ _ _ _) as [r|]; eauto.
Qed.

Theorem gn_default_total : forall n f F gnsolver verbose tol0 tolx maxiter x0, (forall A y, gnsolver A y <> None) ->
  exists x k, gauss_newton n f F gnsolver (default_ls f) verbose tol0 tolx maxiter x0 = Some (x, Some k) /\ (k <= 4)%nat /\
    norm2 (f x) <= norm2 (f x0).
Proof.
  intros n f F gnsolver verbose tol0 tolx maxiter x0 HS.
  assert (B : forall tol s, gn_body n F gnsolver (default_ls f) verbose tol tolx s <> Exc).
  { intros tol s. unfold gn_body. destruct (gnsolver _ _) as [dx0|] eqn:G; [|exfalso; eapply HS; eauto].
    set (dx := if Rleb 0 (dot (g_grad s) dx0) then vscale (-1) (g_grad s) else dx0).
    assert (D : dot (g_grad s) dx <= 0).
    { unfold dx. destruct (Rleb 0 (dot (g_grad s) dx0)) eqn:R0.
      - rewrite dot_vscale_r. pose proof (norm2sq_nonneg (g_grad s)) as N. unfold norm2sq in N. lra.
      - apply Rleb_false in R0. lra. }
    destruct (default_ls_total f _ _ (g_x s) D) as [[[xn a] fn] L]. rewrite L. cbv zeta.
    destruct (Rltb _ tol); [discriminate|]. destruct (Rltb _ tolx); [discriminate|]. destruct (Rleb (norm2 (g_f s)) (norm2 fn)); discriminate. }
  assert (LT : forall tol left it s, (0 < left)%nat -> gn_loop n F gnsolver (default_ls f) verbose tol tolx left it s <> None).
  { intro tol. induction left as [|l IH]; intros it s H; [lia|]. cbn [gn_loop]. specialize (B tol s).
    destruct (gn_body _ _ _ _ _ _ _ _) as [|s1|s1]; [congruence| |discriminate]. destruct l; [discriminate|]. apply IH. lia. }
  destruct (gauss_newton n f F gnsolver (default_ls f) verbose tol0 tolx maxiter x0) as [[x i]|] eqn:E.
  - pose proof (gn_status _ _ _ _ _ _ _ _ _ _ _ _ E) as [k [K1 K2]]. subst i. exists x, k. repeat split; auto.
    eapply gn_monotone; [|exact E]. apply default_ls_value.
  - exfalso. unfold gauss_newton in E. destruct maxiter; [discriminate|]. cbv zeta in E.
    destruct (gn_loop _ _ _ _ _ _ _ _ _ _) as [[it s]|] eqn:L; [discriminate|]. eapply LT in L; auto. lia.
Qed.

(** with printing, status 0 means that the gradient at the returned point is small *)
Theorem gn_converged_gradient : forall n f F gnsolver tol0 tolx maxiter x0 x,
  gauss_newton n f F gnsolver (default_ls f) true tol0 tolx maxiter x0 = Some (x, Some O) ->
  norm2 (tmv n (F x) (f x)) <= gn_tol tol0 (norm2 (tmv n (F x0) (f x0))).
Proof.
  intros n f F gnsolver tol0 tolx maxiter x0 x E. unfold gauss_newton in E. destruct maxiter as [|k]; [discriminate|].
  cbv zeta in E. set (tol := gn_tol tol0 (g_ng (gn_start n f F x0))) in *.
  destruct (gn_loop _ _ _ _ _ _ _ _ _ _) as [[it s]|] eqn:L; [|discriminate]. injection E as <- E.
  assert (INV : forall left it s it' s', g_f s = f (g_x s) -> gn_loop n F gnsolver (default_ls f) true tol tolx left it s = Some (it', s') ->
     g_ng s' = norm2 (tmv n (F (g_x s')) (f (g_x s')))).
  { clear. induction left as [|l IH]; intros it s it' s' H E; cbn [gn_loop] in E; [discriminate|].
    assert (B : match gn_body n F gnsolver (default_ls f) true tol tolx s with Exc => True
                | Next s1 | Brk s1 => g_f s1 = f (g_x s1) /\ g_ng s1 = norm2 (tmv n (F (g_x s1)) (f (g_x s1))) end).
    { unfold gn_body. destruct (gnsolver _ _) as [dx0|]; auto. destruct (default_ls f _ _ _) as [[[xn a] fn]|] eqn:LS; auto. cbv zeta.
      unfold default_ls in LS. eapply armijo_decrease in LS; try reflexivity; try lra. destruct LS as [L1 [L2 L3]]. injection L1 as L1.
      destruct (Rleb (norm2 (g_f s)) (norm2 fn)) eqn:I.
      - apply Rleb_true in I. rewrite H in I. destruct L3 as [[L3 L4]|L3]; [|lra]. subst xn.
        destruct (Rltb _ tol); [simpl; split; auto; rewrite L1; auto|]. destruct (Rltb _ tolx); simpl; (split; auto; rewrite L1; auto).
      - destruct (Rltb _ tol); [simpl; split; auto; rewrite L1; auto|]. destruct (Rltb _ tolx); simpl; (split; auto; rewrite L1; auto). }
    destruct (gn_body _ _ _ _ _ _ _ _) as [|s1|s1]; [discriminate| |].
    - destruct B as [B1 B2]. destruct l; [injection E as <- <-; auto|]. eapply IH in E; eauto.
    - injection E as <- <-. apply B. }
  apply INV in L; [|reflexivity]. rewrite <- L. unfold gn_info in E. 
  destruct (Rleb (g_ng s) tol) eqn:A; [apply Rleb_true in A; exact A|].
  destruct (Rleb _ tolx); [discriminate|]. destruct (Nat.eqb _ _); [discriminate|]. destruct (Rleb (norm2 (g_f s)) (norm2 (g_fn s))); discriminate E.
Qed.

(* ---- verbosity changes the result ---- *)
Definition ex_f (x : vec) : vec := x.
Definition ex_F (x : vec) : mat := [[1]].
(** exact least squares step for a 1x1 Jacobian [[1]] *)
Definition ex_solver (A : mat) (y : vec) : option vec := Some (vscale (-1) y).

Lemma norm2_one : forall a, norm2 [a] = Rabs a.
Proof. intro a. unfold norm2, norm2sq. rewrite dot_cons, dot_nil_l, Rplus_0_r. apply sqrt_Rsqr_abs. Qed.

Lemma ex_tmv : forall a, tmv 1 [[1]] [a] = [a].
Proof. intro a. unfold tmv, lincomb, vadd, vscale, vzero. simpl. apply (f_equal (fun t => [t])). ring. Qed.

Lemma ex_ls1 : default_ls ex_f [1] [-1] [1] = Some ([0], 1, [0]).
Proof.
  unfold default_ls, linesearch_armijo. cbv zeta. rewrite dot_cons, dot_nil_l.
  destruct (Rltb 0 (1 * -1 + 0)) eqn:D; [apply Rltb_true in D; lra|].
  cbn [armijo_loop]. unfold trajectory_linear, ex_f. 
  replace (vadd [1] (vscale 1 [-1])) with [0] by (unfold vadd, vscale; simpl; apply (f_equal (fun t => [t])); ring).
  rewrite !norm2_one, Rabs_R0, Rabs_R1. destruct (Rltb 0 (1 + 1 * / 10000 * (1 * -1 + 0))) eqn:E; auto.
  apply Rltb_false in E. lra.
Qed.

Lemma ex_gn_step : forall verbose tol tolx, 0 < tol < 1 -> tolx < 1 ->
  gn_loop 1 ex_F ex_solver (default_ls ex_f) verbose tol tolx 1 0 (gn_start 1 ex_f ex_F [1]) =
  Some (O, mkGn [0] [0] [0] (if verbose then 0 else 1) 1 [0]).
Proof.
  intros verbose tol tolx T1 T2. unfold gn_start, ex_F, ex_f. rewrite ex_tmv, norm2_one, Rabs_R1. cbn [gn_loop]. unfold gn_body.
  cbn [g_x g_f g_grad g_ng]. unfold ex_solver. replace (vscale (-1) [1]) with [-1] by (unfold vscale; simpl; apply (f_equal (fun t => [t])); ring).
  rewrite dot_cons, dot_nil_l. destruct (Rleb 0 (1 * -1 + 0)) eqn:D; [apply Rleb_true in D; lra|].
  change (fun x : list R => x) with ex_f. rewrite ex_ls1. cbv zeta. rewrite !norm2_one, Rabs_R1, Rabs_R0.
  destruct (Rleb 1 0) eqn:I; [apply Rleb_true in I; lra|]. rewrite ex_tmv, norm2_one, Rabs_R0.
  replace (Rabs (-1)) with 1 by (rewrite Rabs_left; lra).
  destruct verbose.
  - destruct (Rltb 0 tol) eqn:A; [reflexivity|apply Rltb_false in A; lra].
  - destruct (Rltb 1 tol) eqn:A; [apply Rltb_true in A; lra|]. destruct (Rltb 1 tolx) eqn:B; [apply Rltb_true in B; lra|]. reflexivity.
Qed.

Lemma ex_tol : gn_tol (/ 10000000000) 1 = / 10000000000.
Proof. unfold gn_tol. rewrite Rmult_1_r. apply Rmax_left. apply Rinv_le_contravar; lra. Qed.

Theorem verbosity_refuted : exists n f F gnsolver tol0 tolx maxiter x0 xs i xv j, tol0 < 1 /\
  gauss_newton n f F gnsolver (default_ls f) false tol0 tolx maxiter x0 = Some (xs, i) /\
  gauss_newton n f F gnsolver (default_ls f) true tol0 tolx maxiter x0 = Some (xv, j) /\ i <> j.
Proof.
  exists 1%nat, ex_f, ex_F, ex_solver, (/ 10000000000), (/ 1000000000000), 1%nat, [1], [0], (Some 2%nat), [0], (Some O).
  assert (T : 0 < / 10000000000 < 1) by lra.
  split; [lra|]. unfold gauss_newton. cbv zeta.
  assert (G : g_ng (gn_start 1 ex_f ex_F [1]) = 1) by (unfold gn_start, ex_F, ex_f; rewrite ex_tmv; simpl; rewrite norm2_one; apply Rabs_R1).
  rewrite G, ex_tol, !ex_gn_step by lra. unfold gn_info. cbn [g_x g_ng g_ndx]. split; [|split].
  - destruct (Rleb 1 (/ 10000000000)) eqn:A; [apply Rleb_true in A; lra|].
    destruct (Rleb 1 (/ 1000000000000)) eqn:B; [apply Rleb_true in B; lra|]. reflexivity.
  - destruct (Rleb 0 (/ 10000000000)) eqn:A; [reflexivity|apply Rleb_false in A; lra].
  - discriminate.
Qed.

(* ---- affine residuals ---- *)
Definition affine (A : mat) (b : vec) (x : vec) : vec := vsub (mv A x) b.

(** the full Gauss-Newton step on an affine residual is accepted when the residual is below 1/(2 ftol) *)
Theorem affine_step_partial : forall A b n x p bt ftol maxiter, Forall (fun r => length r = n) A -> length b = length A -> length x = n -> length p = n ->
  0 < ftol -> (1 <= maxiter)%nat ->
  dot (mv A p) (vadd (mv A p) (affine A b x)) = 0 -> mv A p <> vzero (length A) ->
  norm2 (affine A b x) < 1 / (2 * ftol) ->
  linesearch_armijo (fun y => Some (affine A b y)) (fun x p t => Some (trajectory_linear x p t)) (tmv n A (affine A b x)) p x bt ftol maxiter None =
  Some (vadd x (vscale 1 p), 1, affine A b (vadd x (vscale 1 p))).
Proof.
  intros A b n x p bt ftol maxiter FA Lb Lx Lp Hf Hm NE NZ SM. set (f0 := affine A b x) in *. set (q := mv A p) in *.
  assert (Lf : length f0 = length A) by (unfold f0, affine; rewrite vsub_length; rewrite mv_length; auto).
  assert (Lq : length q = length A) by apply mv_length.
  assert (DG : dot (tmv n A f0) p = - dot q q).
  { unfold tmv. rewrite dot_comm, dot_lincomb by auto. fold q. rewrite dot_vadd_r in NE by congruence. rewrite (dot_comm f0 q). lra. }
  assert (QP : 0 < dot q q).
  { pose proof (norm2sq_nonneg q) as N. unfold norm2sq in N. destruct (Rle_lt_or_eq_dec _ _ N) as [H|H]; auto.
    exfalso. apply NZ. symmetry in H. apply norm2sq_zero in H. apply vec_ext; [unfold vzero; rewrite repeat_length; auto|].
    intros i Hi. rewrite vzero_get. rewrite Forall_forall in H. apply H. unfold vget. apply nth_In; auto. }
  assert (E1 : affine A b (vadd x (vscale 1 p)) = vadd f0 q).
  { unfold affine, f0, affine. rewrite mv_vadd by vlen. rewrite mv_vscale. fold q. vring. }
  assert (N1 : norm2sq (vadd f0 q) = norm2sq f0 - dot q q).
  { unfold norm2sq. rewrite dot_vadd_r, !dot_vadd_l by congruence. rewrite dot_vadd_r in NE by congruence. rewrite (dot_comm f0 q) in *. lra. }
  assert (ST : norm2 (vadd f0 q) < norm2 f0 + 1 * ftol * - dot q q).
  { pose proof (norm2_nonneg f0) as P0. pose proof (norm2_nonneg (vadd f0 q)) as P1. pose proof (norm2_sq f0) as S0. pose proof (norm2_sq (vadd f0 q)) as S1.
    rewrite N1, <- S0 in S1. set (a := norm2 f0) in *. set (r := norm2 (vadd f0 q)) in *. set (d := dot q q) in *.
    assert (A0 : 0 < a) by nra.
    assert (FD : 2 * a * ftol < 1).
    { apply Rmult_lt_reg_r with (/ (2 * ftol)); [apply Rinv_0_lt_compat; lra|]. replace (2 * a * ftol * / (2 * ftol)) with a by (field; lra).
      replace (1 * / (2 * ftol)) with (1 / (2 * ftol)) by (unfold Rdiv; auto). auto. }
    (* r*r = a*a - d, want r < a - ftol d *)
    assert (D2 : d <= a * a) by nra.
    assert (POS : 0 < a - ftol * d). { assert (ftol * d <= ftol * (a * a)) by (apply Rmult_le_compat_l; lra). nra. }
    apply Rnot_le_lt. intro C. assert ((a - ftol * d) * (a - ftol * d) <= r * r) by (apply Rmult_le_compat; lra). nra. }
  unfold linesearch_armijo. cbv zeta. rewrite DG. destruct (Rltb 0 (- dot q q)) eqn:D; [apply Rltb_true in D; lra|].
  fold f0. destruct maxiter as [|k]; [lia|]. cbn [armijo_loop]. unfold trajectory_linear. rewrite E1.
  apply Rltb_true in ST. rewrite ST. auto.
Qed.

(** on the residual f(x) = x the line search rejects every step when started at 1e5, although the
    full step reaches the solution *)
Definition big : R := 100000.
Theorem affine_step_refuted : forall bt maxiter, 0 <= bt ->
  linesearch_armijo (fun y => Some (ex_f y)) (fun x p t => Some (trajectory_linear x p t)) (tmv 1 (ex_F [big]) (ex_f [big])) [- big] [big] bt (/ 10000) maxiter None =
  Some ([big], 0, [big]) /\ ex_f (trajectory_linear [big] [- big] 1) = [0].
Proof.
  intros bt maxiter Hb. split.
  - unfold linesearch_armijo, ex_F, ex_f. rewrite ex_tmv. cbv zeta. rewrite dot_cons, dot_nil_l.
    destruct (Rltb 0 (big * - big + 0)) eqn:D; [apply Rltb_true in D; unfold big in D; lra|].
    pose proof (armijo_loop_spec (fun y => Some y) (fun x p t => Some (trajectory_linear x p t)) [- big] [big] bt (/ 10000) (big * - big + 0) (norm2 [big]) maxiter 1) as H.
    destruct (armijo_loop _ _ _ _ _ _ _ _ _ _) as [[[x a] fx]|]; auto. exfalso.
    destruct H as [k [K1 [K2 [K3 [K4 [K5 _]]]]]]. injection K3 as <-. injection K4 as <-.
    assert (A0 : 0 <= a) by (rewrite K2, Rmult_1_l; apply pow_le; auto). clear K2.
    unfold trajectory_linear, vadd, vscale in K5. simpl in K5. rewrite !norm2_one in K5.
    pose proof (Rle_abs (big + a * - big)). rewrite (Rabs_right big) in K5 by (unfold big; lra). unfold big in *. lra.
  - unfold ex_f, trajectory_linear, vadd, vscale. simpl. apply (f_equal (fun t => [t])). ring.
Qed.

(** consequently gauss_newton with an exact solver does not move *)
Theorem gn_large_refuted : forall verbose tol0 tolx maxiter, exists i,
  gauss_newton 1 ex_f ex_F ex_solver (default_ls ex_f) verbose tol0 tolx maxiter [big] = Some ([big], i).
Proof.
  intros verbose tol0 tolx maxiter. unfold gauss_newton. destruct maxiter as [|k]; [eauto|]. cbv zeta.
  set (tol := gn_tol tol0 _).
  assert (S0 : gn_start 1 ex_f ex_F [big] = mkGn [big] [big] [big] (norm2 [big]) 1 [big]).
  { unfold gn_start, ex_F, ex_f. rewrite ex_tmv. reflexivity. }
  rewrite S0. clearbody tol. cbn [gn_loop]. unfold gn_body. cbn [g_x g_f g_grad g_ng].
  unfold ex_solver. replace (vscale (-1) [big]) with [- big] by (unfold vscale; simpl; apply (f_equal (fun t => [t])); ring).
  rewrite dot_cons, dot_nil_l. destruct (Rleb 0 (big * - big + 0)) eqn:D; [apply Rleb_true in D; unfold big in D; lra|].
  destruct (affine_step_refuted (1/2) 40 ltac:(lra)) as [LS _]. 
  assert (LS' : default_ls ex_f [big] [- big] [big] = Some ([big], 0, [big])).
  { unfold default_ls. rewrite <- LS. unfold ex_F, ex_f. rewrite ex_tmv. reflexivity. }
  rewrite LS'. cbv zeta.
  destruct (Rleb (norm2 [big]) (norm2 [big])) eqn:I; [|apply Rleb_false in I; lra].
  destruct (Rltb _ tol); [cbn [g_x]; eauto|]. destruct (Rltb _ tolx); cbn [g_x]; eauto.
Qed.

Theorem gn_monotone_all : forall n f F gnsolver ls tol0 tolx verbose maxiter x0 x i,
  (forall g d x xn a fn, ls g d x = Some (xn, a, fn) -> fn = f xn) ->
  gauss_newton n f F gnsolver ls verbose tol0 tolx maxiter x0 = Some (x, i) -> norm2 (f x) <= norm2 (f x0).
Proof. intros. eapply gn_monotone; eauto. Qed.

Theorem gn_status_all : forall n f F gnsolver ls tol0 tolx verbose maxiter x0 x i,
  gauss_newton n f F gnsolver ls verbose tol0 tolx maxiter x0 = Some (x, i) -> exists k, i = Some k /\ (k <= 4)%nat.
Proof. intros. eapply gn_status; eauto. Qed.

Theorem gn_silent_all : forall n f F gnsolver ls tol0 tolx maxiter x0 x i,
  tol0 < 1 -> / 100000000000000 < norm2 (tmv n (F x0) (f x0)) ->
  gauss_newton n f F gnsolver ls false tol0 tolx maxiter x0 = Some (x, i) -> i <> Some O.
Proof. intros. eapply gn_silent_never_converges; eauto. Qed.

(** Gradients: Hartmann problem, robot arm, piston. *)
Require Import Reals Lra Lia List Bool Arith.
From Verif Require Import RVec Num Sums Deriv DemoDeriv DemoModel DemoGradA.
Import ListNotations.
Local Open Scope R_scope.

(* ---------------- Hartmann ---------------- *)
Lemma sinh_pos : forall x, 0 < x -> 0 < sinh x.
Proof. intros x H. unfold sinh. pose proof (exp_increasing (- x) x ltac:(lra)). lra. Qed.
Lemma cosh2_sinh2 : forall x, cosh x ^ 2 = 1 + sinh x ^ 2.
Proof. intro x. unfold cosh, sinh. assert (E : exp x * exp (- x) = 1) by (rewrite <- exp_plus; replace (x + - x) with 0 by ring; apply exp_0). nra. Qed.

Lemma u_ave_gradient : forall mu dpdx eta B0, 0 < mu -> 0 < eta -> 0 < B0 ->
  gradient_at u_ave [mu; dpdx; eta; B0] (u_ave_grad [mu; dpdx; eta; B0]).
Proof.
  intros mu dpdx eta B0 Pm Pe PB. unfold u_ave, u_ave_grad, vget. cbn [nth]. unfold u_ave_, u_ave_grad_. cbv zeta.
  assert (PQ : 0 < eta * mu) by (apply Rmult_lt_0_compat; auto). 
  assert (Pq : 0 < sqrt (eta * mu)) by (apply sqrt_lt_R0; auto). assert (QQ : sqrt (eta * mu) * sqrt (eta * mu) = eta * mu) by (apply sqrt_sqrt; lra).
  assert (Pz : 0 < B0 * 1 / sqrt (eta * mu)) by (apply Rdiv_lt_0_compat; lra).
  pose proof (sinh_pos _ Pz) as Ps. pose proof (cosh_pos (B0 * 1 / sqrt (eta * mu))) as Pc. pose proof (cosh2_sinh2 (B0 * 1 / sqrt (eta * mu))) as CS.
  assert (Pt : 0 < tanh (B0 * 1 / sqrt (eta * mu))) by (unfold tanh; apply Rdiv_lt_0_compat; auto).
  apply grad_lit4. intros. cbn [nth]. curves; at0; try lra; try nz.
  cbn [pred INR]. unfold tanh in *. set (q := sqrt (eta * mu)) in *. set (z := B0 * 1 / q) in *. 
  set (s := sinh z) in *. set (c := cosh z) in *. clearbody s c.
  assert (Em : mu = q * q / eta) by (rewrite QQ; field; lra).
  assert (Hc : 1 - (s / c) ^ 2 = 1 / c ^ 2). { replace (1 - (s / c) ^ 2) with ((c ^ 2 - s ^ 2) / c ^ 2) by (field; lra). replace (c ^ 2 - s ^ 2) with 1 by lra. reflexivity. }
  rewrite Hc. clear Hc CS Pt. unfold z in *. clearbody q. subst mu. 
  field. repeat split; try lra; try nz.
Qed.

Lemma Bind_gradient : forall mu dpdx eta B0, 0 < mu -> 0 < eta -> 0 < B0 ->
  gradient_at Bind [mu; dpdx; eta; B0] (Bind_grad [mu; dpdx; eta; B0]).
Proof.
  intros mu dpdx eta B0 Pm Pe PB. unfold Bind, Bind_grad, vget. cbn [nth]. unfold Bind_, Bind_grad_. cbv zeta.
  assert (PQ : 0 < eta * mu) by (apply Rmult_lt_0_compat; auto). 
  assert (Pq : 0 < sqrt (eta * mu)) by (apply sqrt_lt_R0; auto). assert (QQ : sqrt (eta * mu) * sqrt (eta * mu) = eta * mu) by (apply sqrt_sqrt; lra).
  apply grad_lit4. intros. cbn [nth]. curves; at0; try lra; try nz.
  cbn [pred INR]. set (q := sqrt (eta * mu)) in *. set (t := tanh (B0 * 1 / (2 * q))) in *. clearbody t.
  assert (Em : mu = q * q / eta) by (rewrite QQ; field; lra).
  clearbody q. subst mu. 
  field. repeat split; try lra; try nz.
Qed.

(* ---------------- robot arm ---------------- *)
Lemma robot_arm_gradient : forall th1 th2 th3 th4 L1 L2 L3 L4, robot_arm [th1; th2; th3; th4; L1; L2; L3; L4] <> 0 ->
  gradient_at robot_arm [th1; th2; th3; th4; L1; L2; L3; L4] (robot_arm_grad [th1; th2; th3; th4; L1; L2; L3; L4]).
Proof.
  intros th1 th2 th3 th4 L1 L2 L3 L4 N. unfold robot_arm, robot_arm_grad, vget in *. cbn [nth] in *. unfold robot_arm_, robot_arm_grad_ in *. cbv zeta in *.
  pose proof (sin2_cos2 th1) as T1. pose proof (sin2_cos2 (th1 + th2)) as T2. pose proof (sin2_cos2 (th1 + th2 + th3)) as T3. pose proof (sin2_cos2 (th1 + th2 + th3 + th4)) as T4.
  unfold Rsqr in *.
  assert (A2 : th2 = (th1 + th2) - th1) by ring. assert (A3 : th3 = (th1 + th2 + th3) - (th1 + th2)) by ring. assert (A4 : th4 = (th1 + th2 + th3 + th4) - (th1 + th2 + th3)) by ring.
  assert (A23 : th2 + th3 = (th1 + th2 + th3) - th1) by ring. assert (A34 : th3 + th4 = (th1 + th2 + th3 + th4) - (th1 + th2)) by ring.
  assert (A234 : th2 + th3 + th4 = (th1 + th2 + th3 + th4) - th1) by ring.
  assert (C2 := f_equal cos A2). assert (C3 := f_equal cos A3). assert (C4 := f_equal cos A4). assert (C23 := f_equal cos A23). assert (C34 := f_equal cos A34). assert (C234 := f_equal cos A234).
  assert (S2 := f_equal sin A2). assert (S3 := f_equal sin A3). assert (S4 := f_equal sin A4). assert (S23 := f_equal sin A23). assert (S34 := f_equal sin A34). assert (S234 := f_equal sin A234).
  rewrite cos_minus in C2, C3, C4, C23, C34, C234. rewrite sin_minus in S2, S3, S4, S23, S34, S234.
  clear A2 A3 A4 A23 A34 A234.
  rewrite C234, S234, C23, S23, C34, S34, C2, S2, C3, S3, C4, S4. clear C234 S234 C23 S23 C34 S34 C2 S2 C3 S3 C4 S4.
  set (u := L1 * cos th1 + L2 * cos (th1 + th2) + L3 * cos (th1 + th2 + th3) + L4 * cos (th1 + th2 + th3 + th4)) in *.
  set (w := L1 * sin th1 + L2 * sin (th1 + th2) + L3 * sin (th1 + th2 + th3) + L4 * sin (th1 + th2 + th3 + th4)) in *.
  match goal with |- context[sqrt ?X] => match X with context[L1 ^ 2] => replace X with (u ^ 2 + w ^ 2) end end.
  2: { unfold u, w. set (c1 := cos th1) in *. set (c2 := cos (th1 + th2)) in *. set (c3 := cos (th1 + th2 + th3)) in *. set (c4 := cos (th1 + th2 + th3 + th4)) in *.
    set (s1 := sin th1) in *. set (s2 := sin (th1 + th2)) in *. set (s3 := sin (th1 + th2 + th3)) in *. set (s4 := sin (th1 + th2 + th3 + th4)) in *.
    clearbody c1 c2 c3 c4 s1 s2 s3 s4. 
    replace (L1 ^ 2) with (L1 ^ 2 * (s1 * s1 + c1 * c1)) by (rewrite T1; ring). replace (L2 ^ 2) with (L2 ^ 2 * (s2 * s2 + c2 * c2)) by (rewrite T2; ring).
    replace (L3 ^ 2) with (L3 ^ 2 * (s3 * s3 + c3 * c3)) by (rewrite T3; ring). replace (L4 ^ 2) with (L4 ^ 2 * (s4 * s4 + c4 * c4)) by (rewrite T4; ring).
    ring. }
  assert (P : 0 < u ^ 2 + w ^ 2).
  { destruct (Rtotal_order 0 (u ^ 2 + w ^ 2)) as [Q|[Q|Q]]; auto.
    - exfalso. apply N. rewrite <- Q. apply sqrt_0.
    - pose proof (pow2_ge_0 u). pose proof (pow2_ge_0 w). lra. }
  apply grad_lit8. intros. cbn [nth]. curves; at0; [|exact P].
  fold u w. cbn [pred INR]. set (r := sqrt (u ^ 2 + w ^ 2)) in *. clearbody r. clear P. unfold u, w. clear u w.
  set (k1 := cos th1) in *. set (k2 := cos (th1 + th2)) in *. set (k3 := cos (th1 + th2 + th3)) in *. set (k4 := cos (th1 + th2 + th3 + th4)) in *.
  set (s1 := sin th1) in *. set (s2 := sin (th1 + th2)) in *. set (s3 := sin (th1 + th2 + th3)) in *. set (s4 := sin (th1 + th2 + th3 + th4)) in *.
  clearbody k1 k2 k3 k4 s1 s2 s3 s4. 
  replace (L1 + L2 * (k2 * k1 + s2 * s1)) with (L1 * (s1 * s1 + k1 * k1) + L2 * (k2 * k1 + s2 * s1)) by (rewrite T1; ring).
  replace (L1 * (k2 * k1 + s2 * s1) + L2) with (L1 * (k2 * k1 + s2 * s1) + L2 * (s2 * s2 + k2 * k2)) by (rewrite T2; ring).
  match goal with |- context[L1 * (k3 * k1 + s3 * s1) + L2 * (k3 * k2 + s3 * s2) + L3] => 
    replace (L1 * (k3 * k1 + s3 * s1) + L2 * (k3 * k2 + s3 * s2) + L3) with (L1 * (k3 * k1 + s3 * s1) + L2 * (k3 * k2 + s3 * s2) + L3 * (s3 * s3 + k3 * k3)) by (rewrite T3; ring) end.
  match goal with |- context[L1 * (k4 * k1 + s4 * s1) + L2 * (k4 * k2 + s4 * s2) + L3 * (k4 * k3 + s4 * s3) + L4] => 
    replace (L1 * (k4 * k1 + s4 * s1) + L2 * (k4 * k2 + s4 * s2) + L3 * (k4 * k3 + s4 * s3) + L4) with (L1 * (k4 * k1 + s4 * s1) + L2 * (k4 * k2 + s4 * s2) + L3 * (k4 * k3 + s4 * s3) + L4 * (s4 * s4 + k4 * k4)) by (rewrite T4; ring) end.
  field. exact N.
Qed.

Ltac pos := repeat (first [assumption | lra | apply Rdiv_lt_0_compat | apply Rmult_lt_0_compat | apply Rinv_0_lt_compat | apply pow_lt | apply Rplus_lt_0_compat]).
(* ---------------- piston ---------------- *)
Lemma piston_gradient : forall M Sa V0 k P0 Ta T0, 0 < M -> 0 < Sa -> 0 < V0 -> 0 < k -> 0 < P0 -> 0 < Ta -> 0 < T0 ->
  gradient_at piston [M; Sa; V0; k; P0; Ta; T0] (piston_grad [M; Sa; V0; k; P0; Ta; T0]).
Proof.
  intros M Sa V0 k P0 Ta T0 PM PS PV Pk PP PTa PT0. unfold piston, piston_grad, vget. cbn [nth]. unfold piston_, piston_grad_. cbv zeta.
  set (A := P0 * Sa + 19.62 * M - k * V0 / Sa).
  assert (EA : 19.62 * M + P0 * Sa - V0 * k / Sa = A) by (unfold A; field; lra). rewrite EA.
  set (E := 4 * k * P0 * V0 / T0 * Ta).
  assert (EE : 4 * P0 * Ta * V0 * k / T0 = E) by (unfold E; field; lra). rewrite EE.
  assert (PE : 0 < E) by (unfold E; pos).
  replace (E + A ^ 2) with (A ^ 2 + E) by ring. set (Q := sqrt (A ^ 2 + E)).
  pose proof (pow2_ge_0 A) as PA. assert (PX : 0 < A ^ 2 + E) by lra.
  assert (PQ : 0 < Q) by (unfold Q; apply sqrt_lt_R0; auto). assert (QQ : Q * Q = A ^ 2 + E) by (unfold Q; apply sqrt_sqrt; lra).
  assert (EB : - 19.62 * M - P0 * Sa + Q + V0 * k / Sa = Q - A) by (unfold A; decs; field; lra). rewrite EB.
  assert (PB : 0 < Q - A) by nra. set (B := Q - A) in *.
  set (W := 4 * P0 * Ta * V0 * k ^ 2 / (T0 * B ^ 2) + k).
  assert (PW : 0 < W) by (unfold W; pos).
  assert (PR : 0 < M / W) by (apply Rdiv_lt_0_compat; auto).
  set (r := sqrt (M / W)). assert (Pr : 0 < r) by (unfold r; apply sqrt_lt_R0; auto). assert (RR : r * r = M / W) by (unfold r; apply sqrt_sqrt; lra).
  apply grad_lit7. intros c0 c1 c2 c3 c4 c5 c6 v0 v1 v2 v3 v4 v5 v6 X0 D0 X1 D1 X2 D2 X3 D3 X4 D4 X5 D5 X6 D6. cbn [nth].
  pose (fA := fun t => c4 t * c1 t + 19.62 * c0 t - c3 t * c2 t / c1 t). pose (fE := fun t => 4 * c3 t * c4 t * c2 t / c6 t * c5 t).
  pose (a := v4 * Sa + P0 * v1 + 19.62 * v0 - ((v3 * V0 + k * v2) / Sa - k * V0 * v1 / Sa ^ 2)).
  pose (e := 4 * ((v3 * P0 * V0 * Ta + k * v4 * V0 * Ta + k * P0 * v2 * Ta + k * P0 * V0 * v5) / T0 - k * P0 * V0 * Ta * v6 / T0 ^ 2)).
  assert (A0 : fA 0 = A) by (unfold fA, A; at0; auto). assert (E0 : fE 0 = E) by (unfold fE, E; at0; auto).
  assert (DA : derivable_pt_lim fA 0 a).
  { unfold fA. eapply d_ext; [reflexivity| |der]; at0; try lra. unfold a. decs. field. lra. }
  assert (DE : derivable_pt_lim fE 0 e).
  { unfold fE. eapply d_ext; [reflexivity| |der]; at0; try lra. unfold e. field. lra. }
  pose (fQ := fun t => sqrt (fA t ^ 2 + fE t)). pose (q := (A * a + e / 2) / Q).
  assert (Q0 : fQ 0 = Q) by (unfold fQ, Q; rewrite A0, E0; auto).
  assert (DQ : derivable_pt_lim fQ 0 q).
  { unfold fQ. eapply d_ext; [reflexivity| |der]; rewrite ?A0, ?E0; try lra. unfold q. fold Q. cbn [pred INR]. field. lra. }
  pose (fB := fun t => fQ t - fA t). pose (b := q - a).
  assert (B0 : fB 0 = B) by (unfold fB, B; rewrite A0, Q0; auto).
  assert (DB : derivable_pt_lim fB 0 b) by (apply (d_minus fQ fA); auto).
  pose (fW := fun t => c3 t + (c1 t) ^ 2 * (c4 t * c2 t / c6 t) * (c5 t / (c1 t / (2 * c3 t) * fB t) ^ 2)).
  pose (K := k ^ 2 * P0 * V0 * Ta / T0). pose (dK := (2 * k * v3 * P0 * V0 * Ta + k ^ 2 * v4 * V0 * Ta + k ^ 2 * P0 * v2 * Ta + k ^ 2 * P0 * V0 * v5) / T0 - k ^ 2 * P0 * V0 * Ta * v6 / T0 ^ 2).
  pose (w := v3 + 4 * dK / B ^ 2 - 8 * K * b / B ^ 3).
  assert (W0 : fW 0 = W). { unfold fW, W. rewrite B0. at0. field. repeat split; lra. }
  assert (NV : Sa / (2 * k) * B <> 0). { apply Rgt_not_eq. apply Rmult_lt_0_compat; auto. apply Rdiv_lt_0_compat; lra. }
  assert (DW : derivable_pt_lim fW 0 w).
  { unfold fW. eapply d_ext; [reflexivity| |der]; rewrite ?B0; at0; try lra. 2: apply pow_nonzero; auto.
    unfold w, K, dK. cbn [pred INR]. clearbody b B. field. repeat split; lra. }
  apply d_ext with (f := fun t => 2 * PI * sqrt (c0 t / fW t)) (l := PI * r * (v0 / M - w / W)).
  { intro t. reflexivity. }
  2: { eapply d_ext; [reflexivity| |der]; rewrite ?W0; at0; try lra. fold r.
    assert (IR : forall X, X / (2 * r) = X * r * W / (2 * M)). { intro X. assert (EM : M = r * r * W) by (rewrite RR; field; lra). rewrite EM. field. lra. }
    rewrite IR. field. lra. }
  unfold w, dK, K, b, q, a, e. clearbody r W B Q. 
  assert (EA2 : 384.9444 * M + 19.62 * P0 * Sa - 19.62 * V0 * k / Sa = 19.62 * A) by (rewrite <- EA; decs; field; lra). rewrite EA2.
  clearbody A. clear - PM PS PV Pk PP PTa PT0 PQ PB PW. decs. field. repeat split; lra.
Qed.

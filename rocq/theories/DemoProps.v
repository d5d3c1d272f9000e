(** Generated by tools/mkprops.py from tools/props/DemoProps.spec: the property theorems. *)
Require Import Reals List Bool Arith ZArith.
From Verif Require Import RVec Num Sums DomModel NormProofs DomMoreModel MatLib FunModel FunProofs DemoDeriv DemoModel DemoGradA DemoGradB DemoGradC DemoGradD DemoClass DemoDom DemoMore DemoThm DemoCases.
Import ListNotations.
Local Open Scope R_scope.

Local Open Scope R_scope.

(** C102: borehole *)
Theorem C102_gradient : forall x, in_box borehole_lb borehole_ub x -> gradient_at borehole x (borehole_grad x) /\ 0 < borehole x.
Proof. exact borehole_box. Qed.
Print Assumptions C102_gradient.

Theorem C102_formula : forall r_w r T_u H_u T_l H_l L K_w,
  borehole [r_w; r; T_u; H_u; T_l; H_l; L; K_w] = borehole_doc r_w r T_u H_u T_l H_l L K_w.
Proof. exact borehole_formula. Qed.
Print Assumptions C102_formula.

Theorem C102_object : forall kw, object_gradient 0 Borehole (demo_gv [nk borehole_grad]) kw 8 1.
Proof. exact borehole_object. Qed.
Print Assumptions C102_object.

Example C102_case : in_box borehole_lb borehole_ub [0.1; 30000; 70000; 1000; 100; 750; 1500; 10000] /\ unit_cube 8 [0; 0.5; -1; 1; 0.25; -0.75; 0; 1].
Proof. exact borehole_case. Qed.

(** C103: OTL circuit *)
Theorem C103_gradient : forall x, in_box otl_lb otl_ub x -> gradient_at otl_circuit x (otl_circuit_grad x) /\ 0 < otl_circuit x.
Proof. exact otl_box. Qed.
Print Assumptions C103_gradient.

Theorem C103_formula : forall Rb1 Rb2 Rf Rc1 Rc2 beta, 0 < Rb1 -> 0 < Rb2 -> 0 < Rf -> 0 < Rc1 -> 0 < Rc2 -> 0 < beta ->
  otl_circuit [Rb1; Rb2; Rf; Rc1; Rc2; beta] = otl_doc Rb1 Rb2 Rf Rc1 Rc2 beta.
Proof. exact otl_formula. Qed.
Print Assumptions C103_formula.

Theorem C103_object : forall kw, object_gradient 0 OTLCircuit (demo_gv [nk otl_circuit_grad]) kw 6 1.
Proof. exact otl_object. Qed.
Print Assumptions C103_object.

Theorem C103_domain_refuted : exists x, in_box [50; 25; 0.5; 1.2; 0.25; 50] [150; 75; 3; 2.5; 1.2; 300] x /\ ~ in_box otl_lb otl_ub x.
Proof. exact otl_domain_refuted. Qed.
Print Assumptions C103_domain_refuted.

Example C103_case : in_box otl_lb otl_ub [100; 50; 1; 2; 1; 100] /\ unit_cube 6 [0; 0.5; -1; 1; 0.25; -0.75].
Proof. exact otl_case. Qed.

(** C104: piston *)
Theorem C104_gradient : forall M Sa V0 k P0 Ta T0, 0 < M -> 0 < Sa -> 0 < V0 -> 0 < k -> 0 < P0 -> 0 < Ta -> 0 < T0 ->
  gradient_at piston [M; Sa; V0; k; P0; Ta; T0] (piston_grad [M; Sa; V0; k; P0; Ta; T0]).
Proof. exact piston_gradient. Qed.
Print Assumptions C104_gradient.

Theorem C104_formula : forall M S V0 k P0 Ta T0, 0 < T0 ->
  piston [M; S; V0; k; P0; Ta; T0] = piston_doc M S V0 k P0 Ta T0.
Proof. exact piston_formula. Qed.
Print Assumptions C104_formula.

Theorem C104_object : forall kw, object_gradient 0 Piston (demo_gv [nk piston_grad]) kw 7 1.
Proof. exact piston_object. Qed.
Print Assumptions C104_object.

Theorem C104_range : forall M S V0 k P0 Ta T0, 0 < M -> 0 < S -> 0 < V0 -> 0 < k -> 0 < P0 -> 0 < Ta -> 0 < T0 ->
  0 < piston [M; S; V0; k; P0; Ta; T0] < 2 * PI * sqrt (M / k).
Proof. exact piston_range. Qed.
Print Assumptions C104_range.

Example C104_case : in_box piston_lb piston_ub [40; 0.01; 0.004; 2000; 100000; 293; 350] /\ unit_cube 7 [0; 0.5; -1; 1; 0.25; -0.75; 0].
Proof. exact piston_case. Qed.

(** C105: robot arm *)
Theorem C105_gradient : forall th1 th2 th3 th4 L1 L2 L3 L4, robot_arm [th1; th2; th3; th4; L1; L2; L3; L4] <> 0 ->
  gradient_at robot_arm [th1; th2; th3; th4; L1; L2; L3; L4] (robot_arm_grad [th1; th2; th3; th4; L1; L2; L3; L4]).
Proof. exact robot_arm_gradient. Qed.
Print Assumptions C105_gradient.

Theorem C105_formula : forall th1 th2 th3 th4 L1 L2 L3 L4,
  robot_arm [th1; th2; th3; th4; L1; L2; L3; L4] = robot_doc [th1; th2; th3; th4] [L1; L2; L3; L4].
Proof. exact robot_formula. Qed.
Print Assumptions C105_formula.

Theorem C105_object : forall kw z, unit_cube 8 z -> robot_arm (unnormalize (map Fin robot_lb) (map Fin robot_ub) z) <> 0 ->
  object_gradient_at 0 RobotArm (demo_gv [nk robot_arm_grad]) kw 1 z.
Proof. exact robot_object. Qed.
Print Assumptions C105_object.

Theorem C105_bound : forall th1 th2 th3 th4 L1 L2 L3 L4, 0 <= L1 -> 0 <= L2 -> 0 <= L3 -> 0 <= L4 ->
  0 <= robot_arm [th1; th2; th3; th4; L1; L2; L3; L4] <= L1 + L2 + L3 + L4.
Proof. exact robot_bound. Qed.
Print Assumptions C105_bound.

Theorem C105_range : (forall x, in_box robot_lb robot_ub x -> 0 <= robot_arm x <= 4) /\ (exists x, in_box robot_lb robot_ub x /\ robot_arm x = 4) /\ exists x, in_box robot_lb robot_ub x /\ robot_arm x = 0.
Proof. exact robot_range. Qed.
Print Assumptions C105_range.

Theorem C105_rotation : forall a b th2 th3 th4 L1 L2 L3 L4,
  robot_arm [a; th2; th3; th4; L1; L2; L3; L4] = robot_arm [b; th2; th3; th4; L1; L2; L3; L4].
Proof. exact robot_rotation. Qed.
Print Assumptions C105_rotation.

Theorem C105_fold_refuted : (length robot_fold = 8%nat /\ forall i, (i < 8)%nat -> vget robot_lb i < vget robot_fold i < vget robot_ub i) /\
  robot_arm robot_fold = 0 /\ ~ exists g, gradient_at robot_arm robot_fold g.
Proof. exact robot_fold_refuted. Qed.
Print Assumptions C105_fold_refuted.

Example C105_case : unit_cube 8 [-1; -1; -1; -1; 1; 1; 1; 1] /\ robot_arm (unnormalize (map Fin robot_lb) (map Fin robot_ub) [-1; -1; -1; -1; 1; 1; 1; 1]) = 4.
Proof. exact robot_case. Qed.

(** C106: wing weight *)
Theorem C106_gradient : forall x, in_box wing_lb wing_ub x -> gradient_within (/ 10 ^ 14) wing_weight x (wing_weight_grad x).
Proof. exact wing_box. Qed.
Print Assumptions C106_gradient.

Theorem C106_formula : forall Sw Wfw A Lam q lam tc Nz Wdg Wp,
  wing_weight [Sw; Wfw; A; Lam; q; lam; tc; Nz; Wdg; Wp] = wing_doc Sw Wfw A Lam q lam tc Nz Wdg Wp.
Proof. exact wing_formula. Qed.
Print Assumptions C106_formula.

Theorem C106_object : forall kw, object_gradient (/ 10 ^ 14) WingWeight (demo_gv [nk wing_weight_grad]) kw 10 1.
Proof. exact wing_object. Qed.
Print Assumptions C106_object.

Theorem C106_range : forall x, in_box wing_lb wing_ub x -> 0 < vget x 0 * vget x 9 < wing_weight x.
Proof. exact wing_range. Qed.
Print Assumptions C106_range.

Example C106_case : in_box wing_lb wing_ub [170; 250; 8; 5; 20; 0.7; 0.1; 4; 2000; 0.05] /\ unit_cube 10 [0; 0.5; -1; 1; 0.25; -0.75; 0; 1; 1; -1].
Proof. exact wing_case. Qed.

(** C107: Golinski gearbox *)
Theorem C107_gradient : forall x, in_box gol_lb gol_ub x -> forall k f g, nth_error gol_funs k = Some f -> nth_error gol_grads k = Some g -> gradient_within (/ 10 ^ 14) (f nokw) x (g nokw x).
Proof. exact golinski_box. Qed.
Print Assumptions C107_gradient.

Theorem C107_object : forall kw, object_gradient (/ 10 ^ 14) GolinskiGearbox (demo_gv gol_grads) kw 6 12.
Proof. exact golinski_object. Qed.
Print Assumptions C107_object.

Theorem C107_redundant : forall x, in_box gol_lb gol_ub x -> gol_constraint4 x < 0 /\ gol_constraint7 x < 0 /\ gol_constraint9 x < 0.
Proof. exact golinski_redundant. Qed.
Print Assumptions C107_redundant.

Theorem C107_feasible : let x := [3.57; 0.71; 7.4; 7.9; 3.4; 5.3] in
  (forall i, (i < 6)%nat -> vget gol_lb i < vget x i < vget gol_ub i) /\ Forall (fun f => f nokw x < 0) (tl gol_funs) /\ 0 < gol_volume x.
Proof. exact golinski_feasible. Qed.
Print Assumptions C107_feasible.

Example C107_case : in_box gol_lb gol_ub [3; 0.75; 8; 8; 3.5; 5.2] /\ unit_cube 6 [0; 0.5; -1; 1; 0.25; -0.75].
Proof. exact golinski_case. Qed.

(** C108: Hartmann flow *)
Theorem C108_gradient : forall x, in_box hartmann_lb hartmann_ub x -> gradient_at u_ave x (u_ave_grad x) /\ gradient_at Bind x (Bind_grad x).
Proof. exact hartmann_box. Qed.
Print Assumptions C108_gradient.

Theorem C108_object : forall kw, object_gradient 0 HartmannMHD (demo_gv [nk u_ave_grad; nk Bind_grad]) kw 4 2.
Proof. exact hartmann_object. Qed.
Print Assumptions C108_object.

Theorem C108_positive : forall x, in_box hartmann_lb hartmann_ub x -> 0 < u_ave x /\ 0 < Bind x.
Proof. exact hartmann_range. Qed.
Print Assumptions C108_positive.

Example C108_case : in_box hartmann_lb hartmann_ub [0.1; 1; 2; 0.5] /\ unit_cube 4 [0; 0.5; -1; 1].
Proof. exact hartmann_case. Qed.

(** C109: Nowacki beam *)
Theorem C109_gradient : forall kw x, in_box beam_lb beam_ub x -> 0 < kwget kw 2 beam_G -> 0 < kwget kw 3 beam_E -> kwget kw 4 beam_nu < 1 -> kwget kw 1 beam_L <> 0 ->
  forall k f g, nth_error beam_funs k = Some f -> nth_error beam_grads k = Some g -> gradient_at (f kw) x (g kw x).
Proof. exact beam_box. Qed.
Print Assumptions C109_gradient.

Theorem C109_formula : forall F L G E nu b h kw, kw = (fun k => nth_error [F; L; G; E; nu] k) ->
  map (fun f => f kw [b; h]) beam_funs = beam_doc F L G E nu b h.
Proof. exact beam_formula. Qed.
Print Assumptions C109_formula.

Theorem C109_object : forall kw, 0 < kwget (merge BEAM kw) 2 beam_G -> 0 < kwget (merge BEAM kw) 3 beam_E -> kwget (merge BEAM kw) 4 beam_nu < 1 ->
  kwget (merge BEAM kw) 1 beam_L <> 0 -> object_gradient 0 NowackiBeam (demo_gv beam_grads) kw 2 7.
Proof. exact beam_object. Qed.
Print Assumptions C109_object.

Theorem C109_default : object_gradient 0 NowackiBeam (demo_gv beam_grads) nokw 2 7.
Proof. exact beam_default. Qed.
Print Assumptions C109_default.

Theorem C109_values : forall x, in_box beam_lb beam_ub x -> Forall (fun f => 0 < f BEAM x) beam_funs /\
  beam_kw beam_shear_stress BEAM x < 240000000 / 2 /\ beam_kw beam_bending BEAM x = beam_kw beam_bending_stress BEAM x.
Proof. exact beam_values. Qed.
Print Assumptions C109_values.

Theorem C109_feasible : let x := [0.05; 0.25] in in_box beam_lb beam_ub x /\ beam_kw beam_tip_deflect BEAM x <= 0.005 /\ beam_kw beam_bending_stress BEAM x <= 240000000 /\
  beam_kw beam_shear_stress BEAM x <= 240000000 / 2 /\ beam_kw beam_area_ratio BEAM x <= 10 /\ 2 * beam_F <= beam_kw beam_twist_buckling BEAM x.
Proof. exact beam_feasible. Qed.
Print Assumptions C109_feasible.

Example C109_case : let kw := fun k => nth_error [3000; 2] k in kwget (merge BEAM kw) 0 beam_F = 3000 /\ kwget (merge BEAM kw) 1 beam_L = 2 /\
  0 < kwget (merge BEAM kw) 2 beam_G /\ 0 < kwget (merge BEAM kw) 3 beam_E /\ kwget (merge BEAM kw) 4 beam_nu < 1 /\ in_box beam_lb beam_ub [0.02; 0.1].
Proof. exact beam_case. Qed.

(** C110: affine and quadratic functions *)
Theorem C110_affine : forall l c x, length l = length x -> gradient_at (affine_fun l c) x (affine_grad l x).
Proof. exact affine_gradient. Qed.
Print Assumptions C110_affine.

Theorem C110_affine_object : forall l c kw, object_gradient 0 (AffineFunction l c) (demo_gv [nk (affine_grad l)]) kw (length l) 1.
Proof. exact affine_object. Qed.
Print Assumptions C110_affine_object.

Theorem C110_quad_iff : forall Q l c, length Q = length l -> Forall (fun r => length r = length l) Q ->
  ((forall x, length x = length l -> gradient_at (quad_fun Q l c) x (quad_grad Q l x)) <-> symmetric Q).
Proof. exact quad_gradient_iff. Qed.
Print Assumptions C110_quad_iff.

Theorem C110_quad_object : forall Q l c kw, length Q = length l -> Forall (fun r => length r = length l) Q -> symmetric Q ->
  object_gradient 0 (QuadraticFunction Q l c) (demo_gv [nk (quad_grad Q l)]) kw (length l) 1.
Proof. exact quad_object. Qed.
Print Assumptions C110_quad_object.

Theorem C110_quad_refuted : exists Q l c x, length Q = 2%nat /\ Forall (fun r => length r = 2%nat) Q /\ length l = 2%nat /\ length x = 2%nat /\
  quad_grad Q l x = [0; 2] /\ gradient_at (quad_fun Q l c) x [0; 1].
Proof. exact quad_nonsymmetric_refuted. Qed.
Print Assumptions C110_quad_refuted.

Example C110_quad_case : symmetric [[2; 1]; [1; 3]] /\ quad_fun [[2; 1]; [1; 3]] [1; 0] 5 [1; 2] = 24 /\ quad_grad [[2; 1]; [1; 3]] [1; 0] [1; 2] = [9; 14].
Proof. exact quad_case. Qed.

Example C110_affine_case : affine_fun [1; 2] 3 [4; 5] = 17 /\ unit_cube 2 [0.5; -1].
Proof. exact affine_case. Qed.

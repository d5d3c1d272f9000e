(** Model of the analytic test problems in psdr/demos: values, gradients and domains, at one point (the code treats the rows
    of X one by one).  Real arithmetic is exact; decimal constants are the decimal numbers of the source. *)
Require Import Reals List Bool Arith.
From Verif Require Import RVec Num DomModel DomMoreModel FunModel.
Import ListNotations.
Local Open Scope R_scope.

(* ---------------- Borehole, demos/borehole.py ---------------- *)
(** borehole, demos/borehole.py 109-138 *)
Definition borehole_ (r_w r T_u H_u T_l H_l L K_w : R) : R :=
  2 * PI * T_u * (H_u - H_l) / (ln (r / r_w) * (1 + 2 * L * T_u / (ln (r / r_w) * r_w ^ 2 * K_w) + T_u / T_l)).
Definition borehole (x : vec) : R := borehole_ (vget x 0) (vget x 1) (vget x 2) (vget x 3) (vget x 4) (vget x 5) (vget x 6) (vget x 7).
(** borehole_grad, demos/borehole.py 140-179 *)
Definition borehole_grad_ (r_w r T_u H_u T_l H_l L K_w : R) : vec :=
  [- 2 * PI * K_w * T_l * T_u * r_w * (H_l - H_u) * (K_w * T_l * r_w ^ 2 * ln (r / r_w) + K_w * T_u * r_w ^ 2 * ln (r / r_w) + 2 * L * T_l * T_u * (2 * ln (r / r_w) - 1) + 2 * L * T_l * T_u) / ((K_w * T_l * r_w ^ 2 * ln (r / r_w) + K_w * T_u * r_w ^ 2 * ln (r / r_w) + 2 * L * T_l * T_u) ^ 2 * ln (r / r_w));
   2 * PI * K_w ^ 2 * T_l * T_u * r_w ^ 4 * (H_l - H_u) * (T_l + T_u) / (r * (K_w * T_l * r_w ^ 2 * ln (r / r_w) + K_w * T_u * r_w ^ 2 * ln (r / r_w) + 2 * L * T_l * T_u) ^ 2);
   2 * PI * K_w * T_l * r_w ^ 2 * (H_l - H_u) * (- K_w * T_l * r_w ^ 2 * ln (r / r_w) - K_w * T_u * r_w ^ 2 * ln (r / r_w) - 2 * L * T_l * T_u + T_u * (K_w * r_w ^ 2 * ln (r / r_w) + 2 * L * T_l)) / (K_w * T_l * r_w ^ 2 * ln (r / r_w) + K_w * T_u * r_w ^ 2 * ln (r / r_w) + 2 * L * T_l * T_u) ^ 2;
   2 * PI * K_w * T_l * T_u * r_w ^ 2 / (K_w * T_l * r_w ^ 2 * ln (r / r_w) + K_w * T_u * r_w ^ 2 * ln (r / r_w) + 2 * L * T_l * T_u);
   - 2 * PI * K_w ^ 2 * T_u ^ 2 * r_w ^ 4 * (H_l - H_u) * ln (r / r_w) / (K_w * T_l * r_w ^ 2 * ln (r / r_w) + K_w * T_u * r_w ^ 2 * ln (r / r_w) + 2 * L * T_l * T_u) ^ 2;
   - 2 * PI * K_w * T_l * T_u * r_w ^ 2 / (K_w * T_l * r_w ^ 2 * ln (r / r_w) + K_w * T_u * r_w ^ 2 * ln (r / r_w) + 2 * L * T_l * T_u);
   4 * PI * K_w * T_l ^ 2 * T_u ^ 2 * r_w ^ 2 * (H_l - H_u) / (K_w * T_l * r_w ^ 2 * ln (r / r_w) + K_w * T_u * r_w ^ 2 * ln (r / r_w) + 2 * L * T_l * T_u) ^ 2;
   - 4 * PI * L * T_l ^ 2 * T_u ^ 2 * r_w ^ 2 * (H_l - H_u) / (K_w * T_l * r_w ^ 2 * ln (r / r_w) + K_w * T_u * r_w ^ 2 * ln (r / r_w) + 2 * L * T_l * T_u) ^ 2].
Definition borehole_grad (x : vec) : vec := borehole_grad_ (vget x 0) (vget x 1) (vget x 2) (vget x 3) (vget x 4) (vget x 5) (vget x 6) (vget x 7).

(* ---------------- OTL circuit, demos/otl_circuit.py ---------------- *)
(** otl_circuit, demos/otl_circuit.py 63-77 *)
Definition otl_circuit_ (Rb1 Rb2 Rf Rc1 Rc2 beta : R) : R :=
  let Vb1 := 12 * Rb2 / (Rb1 + Rb2) in
  (Vb1 + 0.74) * beta * (Rc2 + 9) / (beta * (Rc2 + 9) + Rf) + 11.35 * Rf / (beta * (Rc2 + 9) + Rf) + 0.74 * Rf * beta * (Rc2 + 9) / ((beta * (Rc2 + 9) + Rf) * Rc1).
Definition otl_circuit (x : vec) : R := otl_circuit_ (vget x 0) (vget x 1) (vget x 2) (vget x 3) (vget x 4) (vget x 5).
(** otl_circuit_grad, demos/otl_circuit.py 79-96 *)
Definition otl_circuit_grad_ (Rb1 Rb2 Rf Rc1 Rc2 beta : R) : vec :=
  [- 12 * Rb2 * beta * (Rc2 + 9) / ((Rb1 + Rb2) ^ 2 * (Rf + beta * (Rc2 + 9)));
   12 * Rb1 * beta * (Rc2 + 9) / ((Rb1 + Rb2) ^ 2 * (Rf + beta * (Rc2 + 9)));
   (- 11.35 * Rc1 * Rf * (Rb1 + Rb2) - Rc1 * beta * (0.74 * Rb1 + 12.74 * Rb2) * (Rc2 + 9) + 11.35 * Rc1 * (Rb1 + Rb2) * (Rf + beta * (Rc2 + 9)) - 0.74 * Rf * beta * (Rb1 + Rb2) * (Rc2 + 9) + 0.74 * beta * (Rb1 + Rb2) * (Rc2 + 9) * (Rf + beta * (Rc2 + 9))) / (Rc1 * (Rb1 + Rb2) * (Rf + beta * (Rc2 + 9)) ^ 2);
   - 0.74 * Rf * beta * (Rc2 + 9) / (Rc1 ^ 2 * (Rf + beta * (Rc2 + 9)));
   beta * (- 11.35 * Rc1 * Rf * (Rb1 + Rb2) - Rc1 * beta * (0.74 * Rb1 + 12.74 * Rb2) * (Rc2 + 9) + Rc1 * (0.74 * Rb1 + 12.74 * Rb2) * (Rf + beta * (Rc2 + 9)) - 0.74 * Rf * beta * (Rb1 + Rb2) * (Rc2 + 9) + 0.74 * Rf * (Rb1 + Rb2) * (Rf + beta * (Rc2 + 9))) / (Rc1 * (Rb1 + Rb2) * (Rf + beta * (Rc2 + 9)) ^ 2);
   (Rc2 + 9) * (- 11.35 * Rc1 * Rf * (Rb1 + Rb2) - Rc1 * beta * (0.74 * Rb1 + 12.74 * Rb2) * (Rc2 + 9) + Rc1 * (0.74 * Rb1 + 12.74 * Rb2) * (Rf + beta * (Rc2 + 9)) - 0.74 * Rf * beta * (Rb1 + Rb2) * (Rc2 + 9) + 0.74 * Rf * (Rb1 + Rb2) * (Rf + beta * (Rc2 + 9))) / (Rc1 * (Rb1 + Rb2) * (Rf + beta * (Rc2 + 9)) ^ 2)].
Definition otl_circuit_grad (x : vec) : vec := otl_circuit_grad_ (vget x 0) (vget x 1) (vget x 2) (vget x 3) (vget x 4) (vget x 5).

(* ---------------- Robot arm, demos/robot_arm.py ---------------- *)
(** robot_arm, demos/robot_arm.py 60-80 *)
Definition robot_arm_ (th1 th2 th3 th4 L1 L2 L3 L4 : R) : R :=
  let u := L1 * cos th1 + L2 * cos (th1 + th2) + L3 * cos (th1 + th2 + th3) + L4 * cos (th1 + th2 + th3 + th4) in
  let v := L1 * sin th1 + L2 * sin (th1 + th2) + L3 * sin (th1 + th2 + th3) + L4 * sin (th1 + th2 + th3 + th4) in
  sqrt (u ^ 2 + v ^ 2).
Definition robot_arm (x : vec) : R := robot_arm_ (vget x 0) (vget x 1) (vget x 2) (vget x 3) (vget x 4) (vget x 5) (vget x 6) (vget x 7).
(** robot_arm_grad, demos/robot_arm.py 82-112 *)
Definition robot_arm_grad_ (th1 th2 th3 th4 L1 L2 L3 L4 : R) : vec :=
  [0 * th1;
   - L1 * (L2 * sin th2 + L3 * sin (th2 + th3) + L4 * sin (th2 + th3 + th4)) / sqrt (L1 ^ 2 + 2 * L1 * L2 * cos th2 + 2 * L1 * L3 * cos (th2 + th3) + 2 * L1 * L4 * cos (th2 + th3 + th4) + L2 ^ 2 + 2 * L2 * L3 * cos th3 + 2 * L2 * L4 * cos (th3 + th4) + L3 ^ 2 + 2 * L3 * L4 * cos th4 + L4 ^ 2);
   - (L1 * L3 * sin (th2 + th3) + L1 * L4 * sin (th2 + th3 + th4) + L2 * L3 * sin th3 + L2 * L4 * sin (th3 + th4)) / sqrt (L1 ^ 2 + 2 * L1 * L2 * cos th2 + 2 * L1 * L3 * cos (th2 + th3) + 2 * L1 * L4 * cos (th2 + th3 + th4) + L2 ^ 2 + 2 * L2 * L3 * cos th3 + 2 * L2 * L4 * cos (th3 + th4) + L3 ^ 2 + 2 * L3 * L4 * cos th4 + L4 ^ 2);
   - L4 * (L1 * sin (th2 + th3 + th4) + L2 * sin (th3 + th4) + L3 * sin th4) / sqrt (L1 ^ 2 + 2 * L1 * L2 * cos th2 + 2 * L1 * L3 * cos (th2 + th3) + 2 * L1 * L4 * cos (th2 + th3 + th4) + L2 ^ 2 + 2 * L2 * L3 * cos th3 + 2 * L2 * L4 * cos (th3 + th4) + L3 ^ 2 + 2 * L3 * L4 * cos th4 + L4 ^ 2);
   (L1 + L2 * cos th2 + L3 * cos (th2 + th3) + L4 * cos (th2 + th3 + th4)) / sqrt (L1 ^ 2 + 2 * L1 * L2 * cos th2 + 2 * L1 * L3 * cos (th2 + th3) + 2 * L1 * L4 * cos (th2 + th3 + th4) + L2 ^ 2 + 2 * L2 * L3 * cos th3 + 2 * L2 * L4 * cos (th3 + th4) + L3 ^ 2 + 2 * L3 * L4 * cos th4 + L4 ^ 2);
   (L1 * cos th2 + L2 + L3 * cos th3 + L4 * cos (th3 + th4)) / sqrt (L1 ^ 2 + 2 * L1 * L2 * cos th2 + 2 * L1 * L3 * cos (th2 + th3) + 2 * L1 * L4 * cos (th2 + th3 + th4) + L2 ^ 2 + 2 * L2 * L3 * cos th3 + 2 * L2 * L4 * cos (th3 + th4) + L3 ^ 2 + 2 * L3 * L4 * cos th4 + L4 ^ 2);
   (L1 * cos (th2 + th3) + L2 * cos th3 + L3 + L4 * cos th4) / sqrt (L1 ^ 2 + 2 * L1 * L2 * cos th2 + 2 * L1 * L3 * cos (th2 + th3) + 2 * L1 * L4 * cos (th2 + th3 + th4) + L2 ^ 2 + 2 * L2 * L3 * cos th3 + 2 * L2 * L4 * cos (th3 + th4) + L3 ^ 2 + 2 * L3 * L4 * cos th4 + L4 ^ 2);
   (L1 * cos (th2 + th3 + th4) + L2 * cos (th3 + th4) + L3 * cos th4 + L4) / sqrt (L1 ^ 2 + 2 * L1 * L2 * cos th2 + 2 * L1 * L3 * cos (th2 + th3) + 2 * L1 * L4 * cos (th2 + th3 + th4) + L2 ^ 2 + 2 * L2 * L3 * cos th3 + 2 * L2 * L4 * cos (th3 + th4) + L3 ^ 2 + 2 * L3 * L4 * cos th4 + L4 ^ 2)].
Definition robot_arm_grad (x : vec) : vec := robot_arm_grad_ (vget x 0) (vget x 1) (vget x 2) (vget x 3) (vget x 4) (vget x 5) (vget x 6) (vget x 7).

(* ---------------- Wing weight, demos/wing_weight.py ---------------- *)
(** ** is Rpower for the non-integer exponents (positive bases). *)
(** wing_weight, demos/wing_weight.py 64-84; [Lam]: the sweep in radians *)
Definition wing_weight_ (Sw Wfw A Lam q lam tc Nz Wdg Wp : R) : R :=
  0.036 * Rpower Sw 0.758 * Rpower Wfw 0.0035 * Rpower (A / (cos Lam) ^ 2) 0.6 * Rpower q 0.006 * Rpower lam 0.04 * Rpower (100 * tc / cos Lam) (- 0.3) * Rpower (Nz * Wdg) 0.49 + Sw * Wp.
Definition wing_weight (x : vec) : R := wing_weight_ (vget x 0) (vget x 1) (vget x 2) (vget x 3 * (PI / 180)) (vget x 4) (vget x 5) (vget x 6) (vget x 7) (vget x 8) (vget x 9).
(** wing_weight_grad, demos/wing_weight.py 86-112 *)
Definition wing_weight_grad_ (Sw Wfw A Lam q lam tc Nz Wdg Wp : R) : vec :=
  [0.00685443569430334 * Rpower Sw (- 0.242) * Rpower Wfw 0.0035 * Rpower lam 0.04 * Rpower q 0.006 * Rpower (A / (cos Lam) ^ 2) 0.6 * Rpower (Nz * Wdg) 0.49 * Rpower (tc / cos Lam) (- 0.3) + 1 * Wp;
   0.0000316497690370207 * Rpower Sw 0.758 * Rpower Wfw (- 0.9965) * Rpower lam 0.04 * Rpower q 0.006 * Rpower (A / (cos Lam) ^ 2) 0.6 * Rpower (Nz * Wdg) 0.49 * Rpower (tc / cos Lam) (- 0.3);
   0.00542567469206069 * Rpower Sw 0.758 * Rpower Wfw 0.0035 * Rpower lam 0.04 * Rpower q 0.006 * Rpower (A / (cos Lam) ^ 2) 0.6 * Rpower (Nz * Wdg) 0.49 * Rpower (tc / cos Lam) (- 0.3) / A;
   PI / 180 * 0.00813851203809104 * Rpower Sw 0.758 * Rpower Wfw 0.0035 * Rpower lam 0.04 * Rpower q 0.006 * Rpower (A / (cos Lam) ^ 2) 0.6 * Rpower (Nz * Wdg) 0.49 * Rpower (tc / cos Lam) (- 0.3) * tan Lam;
   0.0000542567469206069 * Rpower Sw 0.758 * Rpower Wfw 0.0035 * Rpower lam 0.04 * Rpower q (- 0.994) * Rpower (A / (cos Lam) ^ 2) 0.6 * Rpower (Nz * Wdg) 0.49 * Rpower (tc / cos Lam) (- 0.3);
   0.000361711646137379 * Rpower Sw 0.758 * Rpower Wfw 0.0035 * Rpower lam (- 0.96) * Rpower q 0.006 * Rpower (A / (cos Lam) ^ 2) 0.6 * Rpower (Nz * Wdg) 0.49 * Rpower (tc / cos Lam) (- 0.3);
   - 0.00271283734603035 * Rpower Sw 0.758 * Rpower Wfw 0.0035 * Rpower lam 0.04 * Rpower q 0.006 * Rpower (A / (cos Lam) ^ 2) 0.6 * Rpower (Nz * Wdg) 0.49 * Rpower (tc / cos Lam) (- 0.3) / tc;
   0.0044309676651829 * Rpower Sw 0.758 * Rpower Wfw 0.0035 * Rpower lam 0.04 * Rpower q 0.006 * Rpower (A / (cos Lam) ^ 2) 0.6 * Rpower (Nz * Wdg) 0.49 * Rpower (tc / cos Lam) (- 0.3) / Nz;
   0.0044309676651829 * Rpower Sw 0.758 * Rpower Wfw 0.0035 * Rpower lam 0.04 * Rpower q 0.006 * Rpower (A / (cos Lam) ^ 2) 0.6 * Rpower (Nz * Wdg) 0.49 * Rpower (tc / cos Lam) (- 0.3) / Wdg;
   Sw].
Definition wing_weight_grad (x : vec) : vec := wing_weight_grad_ (vget x 0) (vget x 1) (vget x 2) (vget x 3 * (PI / 180)) (vget x 4) (vget x 5) (vget x 6) (vget x 7) (vget x 8) (vget x 9).

(* ---------------- Hartmann, demos/hartmann.py ---------------- *)
(** u_ave, demos/hartmann.py 44-54 *)
Definition u_ave_ (mu dpdx eta B0 : R) : R := let ell := 1 in
  - dpdx * eta / B0 ^ 2 * (1 - B0 * ell / sqrt (eta * mu) / tanh (B0 * ell / sqrt (eta * mu))).
Definition u_ave (x : vec) : R := u_ave_ (vget x 0) (vget x 1) (vget x 2) (vget x 3).
(** u_ave_grad, demos/hartmann.py 56-69 *)
Definition u_ave_grad_ (mu dpdx eta B0 : R) : vec := let ell := 1 in
  [- dpdx * eta * (- B0 ^ 2 * ell ^ 2 * 1 / (eta * mu) / (2 * mu * (sinh (B0 * ell / sqrt (eta * mu))) ^ 2) + B0 * ell / tanh (B0 * ell / sqrt (eta * mu)) / (2 * mu * sqrt (eta * mu))) / B0 ^ 2;
   - eta * (- B0 * ell / tanh (B0 * ell / sqrt (eta * mu)) / sqrt (eta * mu) + 1) / B0 ^ 2;
   - dpdx * eta * (- B0 ^ 2 * ell ^ 2 * 1 / (eta * mu) / (2 * eta * (sinh (B0 * ell / sqrt (eta * mu))) ^ 2) + B0 * ell / tanh (B0 * ell / sqrt (eta * mu)) / (2 * eta * sqrt (eta * mu))) / B0 ^ 2 - dpdx * (- B0 * ell / tanh (B0 * ell / sqrt (eta * mu)) / sqrt (eta * mu) + 1) / B0 ^ 2;
   - dpdx * eta * (B0 * ell ^ 2 * (1 / (eta * mu)) / (sinh (B0 * ell / sqrt (eta * mu))) ^ 2 - ell / tanh (B0 * ell / sqrt (eta * mu)) / sqrt (eta * mu)) / B0 ^ 2 + 2 * dpdx * eta * (- B0 * ell / tanh (B0 * ell / sqrt (eta * mu)) / sqrt (eta * mu) + 1) / B0 ^ 3].
Definition u_ave_grad (x : vec) : vec := u_ave_grad_ (vget x 0) (vget x 1) (vget x 2) (vget x 3).

(** Bind, demos/hartmann.py 72-81 *)
Definition Bind_ (mu dpdx eta B0 : R) : R := let ell := 1 in let mu0 := 1 in
  dpdx * (ell * mu0 / (2 * B0)) * (1 - 2 * sqrt (eta * mu) / (B0 * ell) * tanh (B0 * ell / (2 * sqrt (eta * mu)))).
Definition Bind (x : vec) : R := Bind_ (vget x 0) (vget x 1) (vget x 2) (vget x 3).
(** Bind_grad, demos/hartmann.py 84-98 *)
Definition Bind_grad_ (mu dpdx eta B0 : R) : vec := let ell := 1 in let mu0 := 1 in
  [dpdx * ell * mu0 * ((- (tanh (B0 * ell / (2 * sqrt (eta * mu)))) ^ 2 + 1) / (2 * mu) - sqrt (eta * mu) * tanh (B0 * ell / (2 * sqrt (eta * mu))) / (B0 * ell * mu)) / (2 * B0);
   ell * mu0 * (1 - 2 * sqrt (eta * mu) * tanh (B0 * ell / (2 * sqrt (eta * mu))) / (B0 * ell)) / (2 * B0);
   dpdx * ell * mu0 * ((- (tanh (B0 * ell / (2 * sqrt (eta * mu)))) ^ 2 + 1) / (2 * eta) - sqrt (eta * mu) * tanh (B0 * ell / (2 * sqrt (eta * mu))) / (B0 * ell * eta)) / (2 * B0);
   dpdx * ell * mu0 * (- (- (tanh (B0 * ell / (2 * sqrt (eta * mu)))) ^ 2 + 1) / B0 + 2 * sqrt (eta * mu) * tanh (B0 * ell / (2 * sqrt (eta * mu))) / (B0 ^ 2 * ell)) / (2 * B0) - dpdx * ell * mu0 * (1 - 2 * sqrt (eta * mu) * tanh (B0 * ell / (2 * sqrt (eta * mu))) / (B0 * ell)) / (2 * B0 ^ 2)].
Definition Bind_grad (x : vec) : vec := Bind_grad_ (vget x 0) (vget x 1) (vget x 2) (vget x 3).

(* ---------------- Golinski gearbox, demos/golinski.py; x3 = 17 is fixed by expand_variables (90-115) ---------------- *)
(** golinski_volume, demos/golinski.py 119-125 and 128-138 *)
Definition gol_volume_ (x1 x2 x4 x5 x6 x7 : R) : R := let x3 := 17 in
  0.7854 * x1 * x2 ^ 2 * (3.3333 * x3 ^ 2 + 14.9334 * x3 - 43.0934) - 1.5079 * x1 * (x6 ^ 2 + x7 ^ 2) + 7.477 * (x6 ^ 3 + x7 ^ 3) + 0.7854 * (x4 * x6 ^ 2 + x5 * x7 ^ 2).
Definition gol_volume (x : vec) : R := gol_volume_ (vget x 0) (vget x 1) (vget x 2) (vget x 3) (vget x 4) (vget x 5).
Definition gol_volume_grad_ (x1 x2 x4 x5 x6 x7 : R) : vec := let x3 := 17 in
  [0.7854 * x2 ^ 2 * (3.3333 * x3 ^ 2 + 14.9334 * x3 - 43.0934) - 1.5079 * x6 ^ 2 - 1.5079 * x7 ^ 2;
   1.5708 * x1 * x2 * (3.3333 * x3 ^ 2 + 14.9334 * x3 - 43.0934);
   0.7854 * x6 ^ 2;
   0.7854 * x7 ^ 2;
   - 3.0158 * x1 * x6 + 1.5708 * x4 * x6 + 22.431 * x6 ^ 2;
   - 3.0158 * x1 * x7 + 1.5708 * x5 * x7 + 22.431 * x7 ^ 2].
Definition gol_volume_grad (x : vec) : vec := gol_volume_grad_ (vget x 0) (vget x 1) (vget x 2) (vget x 3) (vget x 4) (vget x 5).

(** golinski_constraint1, demos/golinski.py 141-145 and 147-156 *)
Definition gol_constraint1_ (x1 x2 x4 x5 x6 x7 : R) : R := let x3 := 17 in
  27 / (x1 * x2 ^ 2 * x3) - 1.
Definition gol_constraint1 (x : vec) : R := gol_constraint1_ (vget x 0) (vget x 1) (vget x 2) (vget x 3) (vget x 4) (vget x 5).
Definition gol_constraint1_grad_ (x1 x2 x4 x5 x6 x7 : R) : vec := let x3 := 17 in
  [- 27 / (x1 ^ 2 * x2 ^ 2 * x3);
   - 54 / (x1 * x2 ^ 3 * x3);
   0 * x1;
   0 * x1;
   0 * x1;
   0 * x1].
Definition gol_constraint1_grad (x : vec) : vec := gol_constraint1_grad_ (vget x 0) (vget x 1) (vget x 2) (vget x 3) (vget x 4) (vget x 5).

(** golinski_constraint2, demos/golinski.py 158-162 and 164-174 *)
Definition gol_constraint2_ (x1 x2 x4 x5 x6 x7 : R) : R := let x3 := 17 in
  397.5 / (x1 * x2 ^ 2 * x3 ^ 2) - 1.
Definition gol_constraint2 (x : vec) : R := gol_constraint2_ (vget x 0) (vget x 1) (vget x 2) (vget x 3) (vget x 4) (vget x 5).
Definition gol_constraint2_grad_ (x1 x2 x4 x5 x6 x7 : R) : vec := let x3 := 17 in
  [- 397.5 / (x1 ^ 2 * x2 ^ 2 * x3 ^ 2);
   - 795 / (x1 * x2 ^ 3 * x3 ^ 2);
   0 * x1;
   0 * x1;
   0 * x1;
   0 * x1].
Definition gol_constraint2_grad (x : vec) : vec := gol_constraint2_grad_ (vget x 0) (vget x 1) (vget x 2) (vget x 3) (vget x 4) (vget x 5).

(** golinski_constraint3, demos/golinski.py 176-180 and 182-191 *)
Definition gol_constraint3_ (x1 x2 x4 x5 x6 x7 : R) : R := let x3 := 17 in
  1.93 / (x2 * x3 * x6 ^ 4) * x4 ^ 3 - 1.
Definition gol_constraint3 (x : vec) : R := gol_constraint3_ (vget x 0) (vget x 1) (vget x 2) (vget x 3) (vget x 4) (vget x 5).
Definition gol_constraint3_grad_ (x1 x2 x4 x5 x6 x7 : R) : vec := let x3 := 17 in
  [0 * x1;
   - 1.93 * x4 ^ 3 / (x2 ^ 2 * x3 * x6 ^ 4);
   5.79 * x4 ^ 2 / (x2 * x3 * x6 ^ 4);
   0 * x1;
   - 7.72 * x4 ^ 3 / (x2 * x3 * x6 ^ 5);
   0 * x1].
Definition gol_constraint3_grad (x : vec) : vec := gol_constraint3_grad_ (vget x 0) (vget x 1) (vget x 2) (vget x 3) (vget x 4) (vget x 5).

(** golinski_constraint4, demos/golinski.py 194-198 and 200-209 *)
Definition gol_constraint4_ (x1 x2 x4 x5 x6 x7 : R) : R := let x3 := 17 in
  1.93 / (x2 * x3 * x7 ^ 4) * x5 ^ 3 - 1.
Definition gol_constraint4 (x : vec) : R := gol_constraint4_ (vget x 0) (vget x 1) (vget x 2) (vget x 3) (vget x 4) (vget x 5).
Definition gol_constraint4_grad_ (x1 x2 x4 x5 x6 x7 : R) : vec := let x3 := 17 in
  [0 * x1;
   - 1.93 * x5 ^ 3 / (x2 ^ 2 * x3 * x7 ^ 4);
   0 * x1;
   5.79 * x5 ^ 2 / (x2 * x3 * x7 ^ 4);
   0 * x1;
   - 7.72 * x5 ^ 3 / (x2 * x3 * x7 ^ 5)].
Definition gol_constraint4_grad (x : vec) : vec := gol_constraint4_grad_ (vget x 0) (vget x 1) (vget x 2) (vget x 3) (vget x 4) (vget x 5).

(** golinski_constraint5, demos/golinski.py 212-214 and 216-225 *)
Definition gol_constraint5_ (x1 x2 x4 x5 x6 x7 : R) : R := let x3 := 17 in
  sqrt ((745 * x4 / x2 / x3) ^ 2 + 16900000) / (110 * x6 ^ 3) - 1.
Definition gol_constraint5 (x : vec) : R := gol_constraint5_ (vget x 0) (vget x 1) (vget x 2) (vget x 3) (vget x 4) (vget x 5).
Definition gol_constraint5_grad_ (x1 x2 x4 x5 x6 x7 : R) : vec := let x3 := 17 in
  [0 * x1;
   - 5045.68181818182 * x4 ^ 2 / (x2 ^ 3 * x3 ^ 2 * x6 ^ 3 * sqrt (16900000 + 555025 * x4 ^ 2 / (x2 ^ 2 * x3 ^ 2)));
   5045.68181818182 * x4 / (x2 ^ 2 * x3 ^ 2 * x6 ^ 3 * sqrt (16900000 + 555025 * x4 ^ 2 / (x2 ^ 2 * x3 ^ 2)));
   0 * x1;
   - 0.0272727272727273 * sqrt (16900000 + 555025 * x4 ^ 2 / (x2 ^ 2 * x3 ^ 2)) / x6 ^ 4;
   0 * x1].
Definition gol_constraint5_grad (x : vec) : vec := gol_constraint5_grad_ (vget x 0) (vget x 1) (vget x 2) (vget x 3) (vget x 4) (vget x 5).

(** golinski_constraint6, demos/golinski.py 227-229 and 231-240 *)
Definition gol_constraint6_ (x1 x2 x4 x5 x6 x7 : R) : R := let x3 := 17 in
  sqrt ((745 * x5 / x2 / x3) ^ 2 + 157500000) / (85 * x7 ^ 3) - 1.
Definition gol_constraint6 (x : vec) : R := gol_constraint6_ (vget x 0) (vget x 1) (vget x 2) (vget x 3) (vget x 4) (vget x 5).
Definition gol_constraint6_grad_ (x1 x2 x4 x5 x6 x7 : R) : vec := let x3 := 17 in
  [0 * x1;
   - 6529.70588235294 * x5 ^ 2 / (x2 ^ 3 * x3 ^ 2 * x7 ^ 3 * sqrt (157500000 + 555025 * x5 ^ 2 / (x2 ^ 2 * x3 ^ 2)));
   0 * x1;
   6529.70588235294 * x5 / (x2 ^ 2 * x3 ^ 2 * x7 ^ 3 * sqrt (157500000 + 555025 * x5 ^ 2 / (x2 ^ 2 * x3 ^ 2)));
   0 * x1;
   - 0.0352941176470588 * sqrt (157500000 + 555025 * x5 ^ 2 / (x2 ^ 2 * x3 ^ 2)) / x7 ^ 4].
Definition gol_constraint6_grad (x : vec) : vec := gol_constraint6_grad_ (vget x 0) (vget x 1) (vget x 2) (vget x 3) (vget x 4) (vget x 5).

(** golinski_constraint7, demos/golinski.py 242-244 and 246-255 *)
Definition gol_constraint7_ (x1 x2 x4 x5 x6 x7 : R) : R := let x3 := 17 in
  x2 * x3 / 40 - 1.
Definition gol_constraint7 (x : vec) : R := gol_constraint7_ (vget x 0) (vget x 1) (vget x 2) (vget x 3) (vget x 4) (vget x 5).
Definition gol_constraint7_grad_ (x1 x2 x4 x5 x6 x7 : R) : vec := let x3 := 17 in
  [0 * x1;
   x3 / 40;
   0 * x1;
   0 * x1;
   0 * x1;
   0 * x1].
Definition gol_constraint7_grad (x : vec) : vec := gol_constraint7_grad_ (vget x 0) (vget x 1) (vget x 2) (vget x 3) (vget x 4) (vget x 5).

(** golinski_constraint8, demos/golinski.py 257-259 and 261-270 *)
Definition gol_constraint8_ (x1 x2 x4 x5 x6 x7 : R) : R := let x3 := 17 in
  5 * x2 / x1 - 1.
Definition gol_constraint8 (x : vec) : R := gol_constraint8_ (vget x 0) (vget x 1) (vget x 2) (vget x 3) (vget x 4) (vget x 5).
Definition gol_constraint8_grad_ (x1 x2 x4 x5 x6 x7 : R) : vec := let x3 := 17 in
  [- 5 * x2 / x1 ^ 2;
   5 / x1;
   0 * x1;
   0 * x1;
   0 * x1;
   0 * x1].
Definition gol_constraint8_grad (x : vec) : vec := gol_constraint8_grad_ (vget x 0) (vget x 1) (vget x 2) (vget x 3) (vget x 4) (vget x 5).

(** golinski_constraint9, demos/golinski.py 272-274 and 276-285 *)
Definition gol_constraint9_ (x1 x2 x4 x5 x6 x7 : R) : R := let x3 := 17 in
  x1 / (12 * x2) - 1.
Definition gol_constraint9 (x : vec) : R := gol_constraint9_ (vget x 0) (vget x 1) (vget x 2) (vget x 3) (vget x 4) (vget x 5).
Definition gol_constraint9_grad_ (x1 x2 x4 x5 x6 x7 : R) : vec := let x3 := 17 in
  [1 / (12 * x2);
   - x1 / (12 * x2 ^ 2);
   0 * x1;
   0 * x1;
   0 * x1;
   0 * x1].
Definition gol_constraint9_grad (x : vec) : vec := gol_constraint9_grad_ (vget x 0) (vget x 1) (vget x 2) (vget x 3) (vget x 4) (vget x 5).

(** golinski_constraint24, demos/golinski.py 287-289 and 291-300 *)
Definition gol_constraint24_ (x1 x2 x4 x5 x6 x7 : R) : R := let x3 := 17 in
  (1.5 * x6 + 1.9) / x4 - 1.
Definition gol_constraint24 (x : vec) : R := gol_constraint24_ (vget x 0) (vget x 1) (vget x 2) (vget x 3) (vget x 4) (vget x 5).
Definition gol_constraint24_grad_ (x1 x2 x4 x5 x6 x7 : R) : vec := let x3 := 17 in
  [0 * x1;
   0 * x1;
   - (1.5 * x6 + 1.9) / x4 ^ 2;
   0 * x1;
   1.5 / x4;
   0 * x1].
Definition gol_constraint24_grad (x : vec) : vec := gol_constraint24_grad_ (vget x 0) (vget x 1) (vget x 2) (vget x 3) (vget x 4) (vget x 5).

(** golinski_constraint25, demos/golinski.py 303-305 and 307-317 *)
Definition gol_constraint25_ (x1 x2 x4 x5 x6 x7 : R) : R := let x3 := 17 in
  (1.1 * x7 + 1.9) / x5 - 1.
Definition gol_constraint25 (x : vec) : R := gol_constraint25_ (vget x 0) (vget x 1) (vget x 2) (vget x 3) (vget x 4) (vget x 5).
Definition gol_constraint25_grad_ (x1 x2 x4 x5 x6 x7 : R) : vec := let x3 := 17 in
  [0 * x1;
   0 * x1;
   0 * x1;
   - (1.1 * x7 + 1.9) / x5 ^ 2;
   0 * x1;
   1.1 / x5].
Definition gol_constraint25_grad (x : vec) : vec := gol_constraint25_grad_ (vget x 0) (vget x 1) (vget x 2) (vget x 3) (vget x 4) (vget x 5).

(* ---------------- Nowacki beam, demos/beam.py; the physical constants are parameters ---------------- *)
(** beam_area, demos/beam.py 103-109 and 111-117 *)
Definition beam_area_ (F L G E nu b h : R) : R := b * h.
Definition beam_area (F L G E nu : R) (x : vec) : R := beam_area_ F L G E nu (vget x 0) (vget x 1).
Definition beam_area_grad_ (F L G E nu b h : R) : vec :=
  [h;
   b].
Definition beam_area_grad (F L G E nu : R) (x : vec) : vec := beam_area_grad_ F L G E nu (vget x 0) (vget x 1).

(** beam_bending, demos/beam.py 120-134 and 136-145 *)
Definition beam_bending_ (F L G E nu b h : R) : R := 6 * F * L / (b * h ^ 2).
Definition beam_bending (F L G E nu : R) (x : vec) : R := beam_bending_ F L G E nu (vget x 0) (vget x 1).
Definition beam_bending_grad_ (F L G E nu b h : R) : vec :=
  [- 6 * F * L / (b ^ 2 * h ^ 2);
   - 2 * 6 * F * L / (b * h ^ 3)].
Definition beam_bending_grad (F L G E nu : R) (x : vec) : vec := beam_bending_grad_ F L G E nu (vget x 0) (vget x 1).

(** beam_tip_deflect, demos/beam.py 148-158 and 160-172 *)
Definition beam_tip_deflect_ (F L G E nu b h : R) : R := let Iy := b * h ^ 3 / 12 in F * L ^ 3 / (3 * E * Iy).
Definition beam_tip_deflect (F L G E nu : R) (x : vec) : R := beam_tip_deflect_ F L G E nu (vget x 0) (vget x 1).
Definition beam_tip_deflect_grad_ (F L G E nu b h : R) : vec :=
  [- 4 * F * L ^ 3 / (E * b ^ 2 * h ^ 3);
   - 12 * F * L ^ 3 / (E * b * h ^ 4)].
Definition beam_tip_deflect_grad (F L G E nu : R) (x : vec) : vec := beam_tip_deflect_grad_ F L G E nu (vget x 0) (vget x 1).

(** beam_bending_stress, demos/beam.py 174-184 and 186-198 *)
Definition beam_bending_stress_ (F L G E nu b h : R) : R := 6 * F * L / (b * h ^ 2).
Definition beam_bending_stress (F L G E nu : R) (x : vec) : R := beam_bending_stress_ F L G E nu (vget x 0) (vget x 1).
Definition beam_bending_stress_grad_ (F L G E nu b h : R) : vec :=
  [- 6 * F * L / (b ^ 2 * h ^ 2);
   - 12 * F * L / (b * h ^ 3)].
Definition beam_bending_stress_grad (F L G E nu : R) (x : vec) : vec := beam_bending_stress_grad_ F L G E nu (vget x 0) (vget x 1).

(** beam_shear_stress, demos/beam.py 201-211 and 213-225 *)
Definition beam_shear_stress_ (F L G E nu b h : R) : R := 3 * F / (2 * b * h).
Definition beam_shear_stress (F L G E nu : R) (x : vec) : R := beam_shear_stress_ F L G E nu (vget x 0) (vget x 1).
Definition beam_shear_stress_grad_ (F L G E nu b h : R) : vec :=
  [- 3 * F / (2 * b ^ 2 * h);
   - 3 * F / (2 * b * h ^ 2)].
Definition beam_shear_stress_grad (F L G E nu : R) (x : vec) : vec := beam_shear_stress_grad_ F L G E nu (vget x 0) (vget x 1).

(** beam_area_ratio, demos/beam.py 227-236 and 238-251 *)
Definition beam_area_ratio_ (F L G E nu b h : R) : R := h / b.
Definition beam_area_ratio (F L G E nu : R) (x : vec) : R := beam_area_ratio_ F L G E nu (vget x 0) (vget x 1).
Definition beam_area_ratio_grad_ (F L G E nu b h : R) : vec :=
  [- h / b ^ 2;
   1 / b].
Definition beam_area_ratio_grad (F L G E nu : R) (x : vec) : vec := beam_area_ratio_grad_ F L G E nu (vget x 0) (vget x 1).

(** beam_twist_buckling, demos/beam.py 254-266 and 268-281 *)
Definition beam_twist_buckling_ (F L G E nu b h : R) : R := let I_T := (b ^ 3 * h + b * h ^ 3) / 12 in let I_Z := b ^ 3 * h / 12 in 4 / L ^ 2 * sqrt (G * I_T * E * I_Z / (1 - nu)).
Definition beam_twist_buckling (F L G E nu : R) (x : vec) : R := beam_twist_buckling_ F L G E nu (vget x 0) (vget x 1).
Definition beam_twist_buckling_grad_ (F L G E nu b h : R) : vec :=
  [2 * sqrt 3 * sqrt (E * G * b ^ 3 * h * (b ^ 3 * h / 12 + b * h ^ 3 / 12) / (1 - nu)) * (1 - nu) * (E * G * b ^ 3 * h * (b ^ 2 * h / 4 + h ^ 3 / 12) / (2 * (1 - nu)) + 3 * E * G * b ^ 2 * h * (b ^ 3 * h / 12 + b * h ^ 3 / 12) / (2 * (1 - nu))) / (3 * E * G * L ^ 2 * b ^ 3 * h * (b ^ 3 * h / 12 + b * h ^ 3 / 12));
   2 * sqrt 3 * sqrt (E * G * b ^ 3 * h * (b ^ 3 * h / 12 + b * h ^ 3 / 12) / (1 - nu)) * (1 - nu) * (E * G * b ^ 3 * h * (b ^ 3 / 12 + b * h ^ 2 / 4) / (2 * (1 - nu)) + E * G * b ^ 3 * (b ^ 3 * h / 12 + b * h ^ 3 / 12) / (2 * (1 - nu))) / (3 * E * G * L ^ 2 * b ^ 3 * h * (b ^ 3 * h / 12 + b * h ^ 3 / 12))].
Definition beam_twist_buckling_grad (F L G E nu : R) (x : vec) : vec := beam_twist_buckling_grad_ F L G E nu (vget x 0) (vget x 1).

(* ---------------- Piston, demos/piston.py ---------------- *)
(** piston, demos/piston.py 66-86 *)
Definition piston_ (M Sa V0 k P0 Ta T0 : R) : R :=
  let A := P0 * Sa + 19.62 * M - k * V0 / Sa in
  let V := Sa / (2 * k) * (sqrt (A ^ 2 + 4 * k * P0 * V0 / T0 * Ta) - A) in
  2 * PI * sqrt (M / (k + Sa ^ 2 * (P0 * V0 / T0) * (Ta / V ^ 2))).
Definition piston (x : vec) : R := piston_ (vget x 0) (vget x 1) (vget x 2) (vget x 3) (vget x 4) (vget x 5) (vget x 6).
(** piston_grad, demos/piston.py 88-110; the repeated subexpressions Q, B, W are written out each time in the code *)
Definition piston_grad_ (M Sa V0 k P0 Ta T0 : R) : vec :=
  let Q := sqrt (4 * P0 * Ta * V0 * k / T0 + (19.62 * M + P0 * Sa - V0 * k / Sa) ^ 2) in
  let B := - 19.62 * M - P0 * Sa + Q + V0 * k / Sa in
  let W := 4 * P0 * Ta * V0 * k ^ 2 / (T0 * B ^ 2) + k in
  [2 * PI * sqrt (M / W) * W * (- 2 * M * P0 * Ta * V0 * k ^ 2 * (39.24 - 2 * (384.9444 * M + 19.62 * P0 * Sa - 19.62 * V0 * k / Sa) / Q) / (T0 * W ^ 2 * B ^ 3) + 1 / (2 * W)) / M;
   - 4 * PI * P0 * Ta * V0 * k ^ 2 * sqrt (M / W) * (2 * P0 - (2 * P0 + 2 * V0 * k / Sa ^ 2) * (19.62 * M + P0 * Sa - V0 * k / Sa) / Q + 2 * V0 * k / Sa ^ 2) / (T0 * W * B ^ 3);
   PI * sqrt (M / W) * (- 4 * P0 * Ta * V0 * k ^ 2 * (- 2 * (2 * P0 * Ta * k / T0 - k * (19.62 * M + P0 * Sa - V0 * k / Sa) / Sa) / Q - 2 * k / Sa) / (T0 * B ^ 3) - 4 * P0 * Ta * k ^ 2 / (T0 * B ^ 2)) / W;
   PI * sqrt (M / W) * (- 4 * P0 * Ta * V0 * k ^ 2 * (- 2 * (2 * P0 * Ta * V0 / T0 - V0 * (19.62 * M + P0 * Sa - V0 * k / Sa) / Sa) / Q - 2 * V0 / Sa) / (T0 * B ^ 3) - 8 * P0 * Ta * V0 * k / (T0 * B ^ 2) - 1) / W;
   PI * sqrt (M / W) * (- 4 * P0 * Ta * V0 * k ^ 2 * (2 * Sa - 2 * (Sa * (19.62 * M + P0 * Sa - V0 * k / Sa) + 2 * Ta * V0 * k / T0) / Q) / (T0 * B ^ 3) - 4 * Ta * V0 * k ^ 2 / (T0 * B ^ 2)) / W;
   PI * sqrt (M / W) * (16 * P0 ^ 2 * Ta * V0 ^ 2 * k ^ 3 / (T0 ^ 2 * Q * B ^ 3) - 4 * P0 * V0 * k ^ 2 / (T0 * B ^ 2)) / W;
   PI * sqrt (M / W) * (- 16 * P0 ^ 2 * Ta ^ 2 * V0 ^ 2 * k ^ 3 / (T0 ^ 3 * Q * B ^ 3) + 4 * P0 * Ta * V0 * k ^ 2 / (T0 ^ 2 * B ^ 2)) / W].
Definition piston_grad (x : vec) : vec := piston_grad_ (vget x 0) (vget x 1) (vget x 2) (vget x 3) (vget x 4) (vget x 5) (vget x 6).

(* ---------------- polynomial.py ---------------- *)
(** AffineFunction._func and _func_grad, demos/polynomial.py 35-39, one row *)
Definition affine_fun (linear : vec) (constant : R) (x : vec) : R := dot linear x + constant.
Definition affine_grad (linear : vec) (x : vec) : vec := linear.
(** QuadraticFunction._func and _func_grad, demos/polynomial.py 76-83, one row: (x quad) . x + linear . x + constant, and
    2 x quad + linear; quad has m rows of length m *)
Definition quad_fun (quad : mat) (linear : vec) (constant : R) (x : vec) : R :=
  dot (lincomb (length x) quad x) x + dot linear x + constant.
Definition quad_grad (quad : mat) (linear : vec) (x : vec) : vec := vadd (vscale 2 (lincomb (length x) quad x)) linear.

(* ---------------- the domains ---------------- *)
(** build_borehole_domain, demos/borehole.py 74-87 *)
Definition borehole_lb : vec := [0.05; 100; 63070; 990; 63.1; 700; 1120; 9855].
Definition borehole_ub : vec := [0.15; 50000; 115600; 1110; 116; 820; 1680; 12045].
(** build_otl_circuit_domain, demos/otl_circuit.py 55-61 *)
Definition otl_lb : vec := [50; 25; 0.5; 1.2; 0.25; 50].
Definition otl_ub : vec := [150; 70; 3; 2.5; 1.2; 300].
(** build_robot_arm_domain, demos/robot_arm.py 53-58 *)
Definition robot_lb : vec := [0; 0; 0; 0; 0; 0; 0; 0].
Definition robot_ub : vec := [2 * PI; 2 * PI; 2 * PI; 2 * PI; 1; 1; 1; 1].
(** build_wing_weight_domain, demos/wing_weight.py 55-60 *)
Definition wing_lb : vec := [150; 220; 6; -10; 16; 0.5; 0.08; 2.5; 1700; 0.025].
Definition wing_ub : vec := [200; 300; 10; 10; 45; 1; 0.18; 6; 2500; 0.08].
(** build_hartmann_domain, demos/hartmann.py 32-41 *)
Definition hartmann_lb : vec := [0.05; 0.5; 0.5; 0.1].
Definition hartmann_ub : vec := [0.2; 3; 3; 1].
(** build_golinski_design_domain, demos/golinski.py 320-328 *)
Definition gol_lb : vec := [2.6; 0.7; 7.3; 7.3; 2.9; 5].
Definition gol_ub : vec := [3.6; 0.8; 8.3; 8.3; 3.9; 5.5].
(** build_beam_domain, demos/beam.py 94-101 *)
Definition beam_lb : vec := [0.005; 0.02].
Definition beam_ub : vec := [0.05; 0.25].
(** build_piston_domain, demos/piston.py 58-63 *)
Definition piston_lb : vec := [30; 0.005; 0.002; 1000; 90000; 290; 340].
Definition piston_ub : vec := [60; 0.02; 0.01; 5000; 110000; 296; 360].

(** Function.__init__(funs, domain, grads = grads, vectorized = True, kwargs = kw0) with a box, as called in the __init__ of each
    demo class; every function has one output per row and treats the rows one by one ([demo_gv]: the vectorized gradients) *)
Definition demo_fun (lb ub : vec) (fs : list (kwd -> vec -> R)) (gs : list (kwd -> vec -> vec)) (kw0 : kwd) : func :=
  mkFun (map Fin lb) (map Fin ub) (map (fun f kw x => [f kw x]) fs) (Some (map (fun g kw x => [g kw x]) gs)) None false kw0.
Definition demo_gv (gs : list (kwd -> vec -> vec)) : list (kwd -> mat -> mat) := map (fun g kw X => map (g kw) X) gs.
(** functions without keyword arguments *)
Definition nk {A : Type} (f : vec -> A) : kwd -> vec -> A := fun _ x => f x.

(** class Borehole, demos/borehole.py 59-69, with the deterministic domain *)
Definition Borehole := demo_fun borehole_lb borehole_ub [nk borehole] [nk borehole_grad] nokw.
(** class OTLCircuit, demos/otl_circuit.py 45-50 *)
Definition OTLCircuit := demo_fun otl_lb otl_ub [nk otl_circuit] [nk otl_circuit_grad] nokw.
(** class RobotArm, demos/robot_arm.py 43-48 *)
Definition RobotArm := demo_fun robot_lb robot_ub [nk robot_arm] [nk robot_arm_grad] nokw.
(** class Piston, demos/piston.py 48-53 *)
Definition Piston := demo_fun piston_lb piston_ub [nk piston] [nk piston_grad] nokw.
(** class WingWeight, demos/wing_weight.py 46-50 *)
Definition WingWeight := demo_fun wing_lb wing_ub [nk wing_weight] [nk wing_weight_grad] nokw.
(** class HartmannMHD, demos/hartmann.py 22-26 *)
Definition HartmannMHD := demo_fun hartmann_lb hartmann_ub [nk u_ave; nk Bind] [nk u_ave_grad; nk Bind_grad] nokw.
(** class GolinskiGearbox, demos/golinski.py 56-84 *)
Definition gol_funs : list (kwd -> vec -> R) := [nk gol_volume; nk gol_constraint1; nk gol_constraint2; nk gol_constraint3; nk gol_constraint4;
  nk gol_constraint5; nk gol_constraint6; nk gol_constraint7; nk gol_constraint8; nk gol_constraint9; nk gol_constraint24; nk gol_constraint25].
Definition gol_grads : list (kwd -> vec -> vec) := [nk gol_volume_grad; nk gol_constraint1_grad; nk gol_constraint2_grad; nk gol_constraint3_grad; nk gol_constraint4_grad;
  nk gol_constraint5_grad; nk gol_constraint6_grad; nk gol_constraint7_grad; nk gol_constraint8_grad; nk gol_constraint9_grad; nk gol_constraint24_grad; nk gol_constraint25_grad].
Definition GolinskiGearbox := demo_fun gol_lb gol_ub gol_funs gol_grads nokw.
(** the constants BEAM, demos/beam.py 6-12: keys F, L, G, E, nu are 0 .. 4; also the defaults of the keyword arguments of the
    beam functions *)
Definition beam_F : R := 5000.
Definition beam_L : R := 1.5.
Definition beam_G : R := 86650000000.
Definition beam_E : R := 216620000000.
Definition beam_nu : R := 0.27.
Definition BEAM : kwd := fun k => nth_error [beam_F; beam_L; beam_G; beam_E; beam_nu] k.
Definition kwget (kw : kwd) (k : nat) (default : R) : R := match kw k with Some v => v | None => default end.
Definition beam_kw {A : Type} (f : R -> R -> R -> R -> R -> vec -> A) : kwd -> vec -> A :=
  fun kw => f (kwget kw 0 beam_F) (kwget kw 1 beam_L) (kwget kw 2 beam_G) (kwget kw 3 beam_E) (kwget kw 4 beam_nu).
(** class NowackiBeam, demos/beam.py 72-92 *)
Definition beam_funs : list (kwd -> vec -> R) := [beam_kw beam_area; beam_kw beam_bending; beam_kw beam_tip_deflect; beam_kw beam_bending_stress;
  beam_kw beam_shear_stress; beam_kw beam_area_ratio; beam_kw beam_twist_buckling].
Definition beam_grads : list (kwd -> vec -> vec) := [beam_kw beam_area_grad; beam_kw beam_bending_grad; beam_kw beam_tip_deflect_grad; beam_kw beam_bending_stress_grad;
  beam_kw beam_shear_stress_grad; beam_kw beam_area_ratio_grad; beam_kw beam_twist_buckling_grad].
Definition NowackiBeam := demo_fun beam_lb beam_ub beam_funs beam_grads BEAM.
(** class AffineFunction and class QuadraticFunction, demos/polynomial.py 9-83, with the default box [-1,1]^m *)
Definition AffineFunction (linear : vec) (constant : R) : func :=
  demo_fun (repeat (-1) (length linear)) (repeat 1 (length linear)) [nk (affine_fun linear constant)] [nk (affine_grad linear)] nokw.
Definition QuadraticFunction (quad : mat) (linear : vec) (constant : R) : func :=
  demo_fun (repeat (-1) (length linear)) (repeat 1 (length linear)) [nk (quad_fun quad linear constant)] [nk (quad_grad quad linear)] nokw.

(** Gradients of the test problems with roots, logarithms and hyperbolic functions. *)
Require Import Reals Lra Lia List Bool Arith.
From Verif Require Import RVec Num Sums Deriv DemoDeriv DemoModel DemoGradA.
Import ListNotations.
Local Open Scope R_scope.

(* ---------------- Golinski constraints 5 and 6 ---------------- *)
Lemma gol5_arg : forall x2 x4, x2 <> 0 -> (745 * x4 / x2 / 17) ^ 2 + 16900000 = 16900000 + 555025 * x4 ^ 2 / (x2 ^ 2 * 17 ^ 2).
Proof. intros. field. auto. Qed.
Lemma gol5_exact : forall x1 x2 x4 x5 x6 x7, x2 <> 0 -> x6 <> 0 ->
  gradient_at gol_constraint5 [x1; x2; x4; x5; x6; x7]
   (let r := sqrt ((745 * x4 / x2 / 17) ^ 2 + 16900000) in
    [0; - (555025 / 110) * x4 ^ 2 / (x2 ^ 3 * 17 ^ 2 * x6 ^ 3 * r); 555025 / 110 * x4 / (x2 ^ 2 * 17 ^ 2 * x6 ^ 3 * r); 0; - (3 / 110) * r / x6 ^ 4; 0]).
Proof.
  intros x1 x2 x4 x5 x6 x7 N2 N6. cbv zeta. unfold gol_constraint5, vget. cbn [nth]. unfold gol_constraint5_. cbv zeta.
  pose proof (pow2_ge_0 (745 * x4 / x2 / 17)) as P.
  assert (S0 : sqrt ((745 * x4 / x2 / 17) ^ 2 + 16900000) <> 0) by (apply Rgt_not_eq, sqrt_lt_R0; lra).
  apply grad_lit6. intros. cbn [nth]. curves; at0; try nz. 
  cbn [pred INR].
  set (r := sqrt ((745 * x4 / x2 / 17) ^ 2 + 16900000)) in *. clearbody r. field; auto.
Qed.
Lemma gol6_exact : forall x1 x2 x4 x5 x6 x7, x2 <> 0 -> x7 <> 0 ->
  gradient_at gol_constraint6 [x1; x2; x4; x5; x6; x7]
   (let r := sqrt ((745 * x5 / x2 / 17) ^ 2 + 157500000) in
    [0; - (555025 / 85) * x5 ^ 2 / (x2 ^ 3 * 17 ^ 2 * x7 ^ 3 * r); 0; 555025 / 85 * x5 / (x2 ^ 2 * 17 ^ 2 * x7 ^ 3 * r); 0; - (3 / 85) * r / x7 ^ 4]).
Proof.
  intros x1 x2 x4 x5 x6 x7 N2 N6. cbv zeta. unfold gol_constraint6, vget. cbn [nth]. unfold gol_constraint6_. cbv zeta.
  pose proof (pow2_ge_0 (745 * x5 / x2 / 17)) as P.
  assert (S0 : sqrt ((745 * x5 / x2 / 17) ^ 2 + 157500000) <> 0) by (apply Rgt_not_eq, sqrt_lt_R0; lra).
  apply grad_lit6. intros. cbn [nth]. curves; at0; try nz. 
  cbn [pred INR].
  set (r := sqrt ((745 * x5 / x2 / 17) ^ 2 + 157500000)) in *. clearbody r. field; auto.
Qed.

(** a rounded constant in front of the same expression *)
Lemma rounded_const : forall a b X eps, Rabs (a - b) <= eps * Rabs b -> Rabs (a * X - b * X) <= eps * Rabs (b * X).
Proof.
  intros a b X eps H. replace (a * X - b * X) with ((a - b) * X) by ring. rewrite !Rabs_mult, <- Rmult_assoc.
  apply Rmult_le_compat_r; auto. apply Rabs_pos.
Qed.
Lemma rounded_zero : forall eps, Rabs (0 - 0) <= eps * Rabs 0.
Proof. intros. rewrite Rminus_0_r, Rabs_R0. lra. Qed.

Ltac rnd a b X :=
  match goal with |- Rabs (?g - ?G) <= ?e * _ =>
    replace g with (a * X) by (unfold Rdiv; ring); replace G with (b * X) by (unfold Rdiv; ring); apply rounded_const end.

(* ---------------- beam twist buckling ---------------- *)
Lemma beam_twist_gradient : forall F L G E nu b h, 0 < G -> 0 < E -> nu < 1 -> L <> 0 -> 0 < b -> 0 < h ->
  gradient_at (beam_twist_buckling F L G E nu) [b; h] (beam_twist_buckling_grad F L G E nu [b; h]).
Proof.
  intros F L G E nu b h PG PE Pn NL Pb Ph. unfold beam_twist_buckling, beam_twist_buckling_grad, vget. cbn [nth].
  unfold beam_twist_buckling_, beam_twist_buckling_grad_. cbv zeta.
  set (a := G * ((b ^ 3 * h + b * h ^ 3) / 12) * E * (b ^ 3 * h / 12) / (1 - nu)).
  assert (Pb3 : 0 < b ^ 3) by (apply pow_lt; auto). assert (Ph3 : 0 < h ^ 3) by (apply pow_lt; auto).
  assert (Q1 : 0 < b ^ 3 * h) by (apply Rmult_lt_0_compat; auto). assert (Q2 : 0 < b * h ^ 3) by (apply Rmult_lt_0_compat; auto).
  assert (Pa : 0 < a). { unfold a. apply Rdiv_lt_0_compat; [|lra]. repeat apply Rmult_lt_0_compat; lra. }
  assert (E1 : sqrt (E * G * b ^ 3 * h * (b ^ 3 * h / 12 + b * h ^ 3 / 12) / (1 - nu)) = 2 * sqrt 3 * sqrt a).
  { replace (E * G * b ^ 3 * h * (b ^ 3 * h / 12 + b * h ^ 3 / 12) / (1 - nu)) with ((2 * 2) * 3 * a) by (unfold a; field; lra).
    rewrite sqrt_mult by lra. rewrite sqrt_mult by lra. rewrite sqrt_square by lra. ring. }
  rewrite E1.
  assert (Ps : 0 < sqrt a) by (apply sqrt_lt_R0; auto). assert (SS : sqrt a * sqrt a = a) by (apply sqrt_sqrt; lra).
  assert (S3 : sqrt 3 * sqrt 3 = 3) by (apply sqrt_sqrt; lra).
  apply grad_lit2. intros. cbn [nth]. curves; at0; try lra; [|auto].
  fold a. cbn [pred INR].
  set (s := sqrt a) in *. clearbody s. set (s3 := sqrt 3) in *. clearbody s3.
  replace (2 * s3 * (2 * s3 * s)) with (12 * s) by (transitivity (4 * (s3 * s3) * s); [rewrite S3|]; ring).
  assert (IS : forall X, X / (2 * s) = X * s / (2 * a)). { intro X. rewrite <- SS. field. lra. }
  rewrite IS. unfold a. field. repeat split; try lra.
  all: try (apply Rgt_not_eq; nra).
Qed.

Lemma lt6 : forall P : nat -> Prop, P 0%nat -> P 1%nat -> P 2%nat -> P 3%nat -> P 4%nat -> P 5%nat -> forall i, (i < 6)%nat -> P i.
Proof. intros P H0 H1 H2 H3 H4 H5 i Hi. destruct i as [|[|[|[|[|[|]]]]]]; auto. lia. Qed.

(** constraints 5 and 6 of the gearbox: the constants of the gradient are rounded to 15 digits *)
Lemma gol5_gradient : forall x1 x2 x4 x5 x6 x7, x2 <> 0 -> x6 <> 0 ->
  gradient_within (/ 10 ^ 14) gol_constraint5 [x1; x2; x4; x5; x6; x7] (gol_constraint5_grad [x1; x2; x4; x5; x6; x7]).
Proof.
  intros x1 x2 x4 x5 x6 x7 N2 N6. eexists. split; [apply gol5_exact; auto|]. split; [reflexivity|].
  unfold gol_constraint5_grad, gol_constraint5_grad_. cbv zeta. unfold vget. cbn [nth length]. rewrite gol5_arg by auto.
  set (r := sqrt (16900000 + 555025 * x4 ^ 2 / (x2 ^ 2 * 17 ^ 2))). clearbody r.
  apply lt6; cbn [nth]; rewrite ?Rmult_0_l; try apply rounded_zero.
  - rnd (- 5045.68181818182) (- (555025 / 110)) (x4 ^ 2 / (x2 ^ 3 * 17 ^ 2 * x6 ^ 3 * r)). decs. split_Rabs; lra.
  - rnd (5045.68181818182) (555025 / 110) (x4 / (x2 ^ 2 * 17 ^ 2 * x6 ^ 3 * r)). decs. split_Rabs; lra.
  - rnd (- 0.0272727272727273) (- (3 / 110)) (r / x6 ^ 4). decs. split_Rabs; lra.
Qed.
Lemma gol6_arg : forall x2 x5, x2 <> 0 -> (745 * x5 / x2 / 17) ^ 2 + 157500000 = 157500000 + 555025 * x5 ^ 2 / (x2 ^ 2 * 17 ^ 2).
Proof. intros. field. auto. Qed.
Lemma gol6_gradient : forall x1 x2 x4 x5 x6 x7, x2 <> 0 -> x7 <> 0 ->
  gradient_within (/ 10 ^ 14) gol_constraint6 [x1; x2; x4; x5; x6; x7] (gol_constraint6_grad [x1; x2; x4; x5; x6; x7]).
Proof.
  intros x1 x2 x4 x5 x6 x7 N2 N6. eexists. split; [apply gol6_exact; auto|]. split; [reflexivity|].
  unfold gol_constraint6_grad, gol_constraint6_grad_. cbv zeta. unfold vget. cbn [nth length]. rewrite gol6_arg by auto.
  set (r := sqrt (157500000 + 555025 * x5 ^ 2 / (x2 ^ 2 * 17 ^ 2))). clearbody r.
  apply lt6; cbn [nth]; rewrite ?Rmult_0_l; try apply rounded_zero.
  - rnd (- 6529.70588235294) (- (555025 / 85)) (x5 ^ 2 / (x2 ^ 3 * 17 ^ 2 * x7 ^ 3 * r)). decs. split_Rabs; lra.
  - rnd (6529.70588235294) (555025 / 85) (x5 / (x2 ^ 2 * 17 ^ 2 * x7 ^ 3 * r)). decs. split_Rabs; lra.
  - rnd (- 0.0352941176470588) (- (3 / 85)) (r / x7 ^ 4). decs. split_Rabs; lra.
Qed.

(* ---------------- Borehole ---------------- *)
Lemma borehole_gradient : forall r_w r T_u H_u T_l H_l L K_w, 0 < r_w -> 0 < r -> r_w <> r -> T_l <> 0 -> K_w <> 0 ->
  K_w * T_l * r_w ^ 2 * ln (r / r_w) + K_w * T_u * r_w ^ 2 * ln (r / r_w) + 2 * L * T_l * T_u <> 0 ->
  gradient_at borehole [r_w; r; T_u; H_u; T_l; H_l; L; K_w] (borehole_grad [r_w; r; T_u; H_u; T_l; H_l; L; K_w]).
Proof.
  intros r_w r T_u H_u T_l H_l L K_w Pw Pr Nr NT NK ND.
  unfold borehole, borehole_grad, vget. cbn [nth]. unfold borehole_, borehole_grad_. cbv zeta.
  assert (PQ : 0 < r / r_w) by (apply Rdiv_lt_0_compat; auto).
  assert (NL : ln (r / r_w) <> 0).
  { intro Z. apply Nr. assert (Q : r / r_w = 1) by (apply ln_inv; [auto|lra|rewrite Z, ln_1; auto]).
    apply (f_equal (fun q => q * r_w)) in Q. replace (r / r_w * r_w) with r in Q by (field; lra). lra. }
  assert (NF : ln (r / r_w) * (1 + 2 * L * T_u / (ln (r / r_w) * r_w ^ 2 * K_w) + T_u / T_l) <> 0).
  { replace (ln (r / r_w) * (1 + 2 * L * T_u / (ln (r / r_w) * r_w ^ 2 * K_w) + T_u / T_l))
      with ((K_w * T_l * r_w ^ 2 * ln (r / r_w) + K_w * T_u * r_w ^ 2 * ln (r / r_w) + 2 * L * T_l * T_u) / (r_w ^ 2 * K_w * T_l)) by (field; repeat split; lra).
    intro Z. apply ND. apply (f_equal (fun q => q * (r_w ^ 2 * K_w * T_l))) in Z. rewrite Rmult_0_l in Z. rewrite <- Z. field. repeat split; lra. }
  apply grad_lit8. intros. cbn [nth]. curves; at0; try lra; try nz; try exact PQ; try exact NF.
  cbn [pred INR]. set (l := ln (r / r_w)) in *. clearbody l.
  field. repeat split; try lra; try nz.
Qed.

(** Gradients of the rational test problems: OTL circuit, Golinski gearbox, beam. *)
Require Import Reals Lra Lia List Bool Arith.
From Verif Require Import RVec Num Sums Deriv DemoDeriv DemoModel.
Import ListNotations.
Local Open Scope R_scope.

(** products and powers of nonzero factors *)
Ltac nz := repeat (first [assumption | apply Rmult_integral_contrapositive_currified | apply pow_nonzero | lra]).

Lemma otl_gradient : forall Rb1 Rb2 Rf Rc1 Rc2 beta, Rb1 + Rb2 <> 0 -> Rf + beta * (Rc2 + 9) <> 0 -> Rc1 <> 0 ->
  gradient_at otl_circuit [Rb1; Rb2; Rf; Rc1; Rc2; beta] (otl_circuit_grad [Rb1; Rb2; Rf; Rc1; Rc2; beta]).
Proof.
  intros Rb1 Rb2 Rf Rc1 Rc2 beta N1 N2 N3. unfold otl_circuit, otl_circuit_grad, vget. cbn [nth]. unfold otl_circuit_, otl_circuit_grad_. cbv zeta.
  assert (N4 : beta * (Rc2 + 9) + Rf <> 0) by (rewrite Rplus_comm; auto).
  apply grad_lit6. intros. cbn [nth]. curves; at0; auto. decs. field. auto.
Qed.

Lemma gol_volume_gradient : forall x1 x2 x4 x5 x6 x7, gradient_at gol_volume [x1; x2; x4; x5; x6; x7] (gol_volume_grad [x1; x2; x4; x5; x6; x7]).
Proof.
  intros. unfold gol_volume, gol_volume_grad, vget. cbn [nth]. unfold gol_volume_, gol_volume_grad_. cbv zeta.
  apply grad_lit6. intros. cbn [nth]. curves; at0; try nz; decs; cbn [pred INR]; field; repeat split; nz.
Qed.
Lemma gol_constraint1_gradient : forall x1 x2 x4 x5 x6 x7, x1 <> 0 -> x2 <> 0 -> gradient_at gol_constraint1 [x1; x2; x4; x5; x6; x7] (gol_constraint1_grad [x1; x2; x4; x5; x6; x7]).
Proof.
  intros. unfold gol_constraint1, gol_constraint1_grad, vget. cbn [nth]. unfold gol_constraint1_, gol_constraint1_grad_. cbv zeta.
  apply grad_lit6. intros. cbn [nth]. curves; at0; try nz; decs; cbn [pred INR]; field; repeat split; nz.
Qed.
Lemma gol_constraint2_gradient : forall x1 x2 x4 x5 x6 x7, x1 <> 0 -> x2 <> 0 -> gradient_at gol_constraint2 [x1; x2; x4; x5; x6; x7] (gol_constraint2_grad [x1; x2; x4; x5; x6; x7]).
Proof.
  intros. unfold gol_constraint2, gol_constraint2_grad, vget. cbn [nth]. unfold gol_constraint2_, gol_constraint2_grad_. cbv zeta.
  apply grad_lit6. intros. cbn [nth]. curves; at0; try nz; decs; cbn [pred INR]; field; repeat split; nz.
Qed.
Lemma gol_constraint3_gradient : forall x1 x2 x4 x5 x6 x7, x2 <> 0 -> x6 <> 0 -> gradient_at gol_constraint3 [x1; x2; x4; x5; x6; x7] (gol_constraint3_grad [x1; x2; x4; x5; x6; x7]).
Proof.
  intros. unfold gol_constraint3, gol_constraint3_grad, vget. cbn [nth]. unfold gol_constraint3_, gol_constraint3_grad_. cbv zeta.
  apply grad_lit6. intros. cbn [nth]. curves; at0; try nz; decs; cbn [pred INR]; field; repeat split; nz.
Qed.
Lemma gol_constraint4_gradient : forall x1 x2 x4 x5 x6 x7, x2 <> 0 -> x7 <> 0 -> gradient_at gol_constraint4 [x1; x2; x4; x5; x6; x7] (gol_constraint4_grad [x1; x2; x4; x5; x6; x7]).
Proof.
  intros. unfold gol_constraint4, gol_constraint4_grad, vget. cbn [nth]. unfold gol_constraint4_, gol_constraint4_grad_. cbv zeta.
  apply grad_lit6. intros. cbn [nth]. curves; at0; try nz; decs; cbn [pred INR]; field; repeat split; nz.
Qed.
Lemma gol_constraint7_gradient : forall x1 x2 x4 x5 x6 x7, gradient_at gol_constraint7 [x1; x2; x4; x5; x6; x7] (gol_constraint7_grad [x1; x2; x4; x5; x6; x7]).
Proof.
  intros. unfold gol_constraint7, gol_constraint7_grad, vget. cbn [nth]. unfold gol_constraint7_, gol_constraint7_grad_. cbv zeta.
  apply grad_lit6. intros. cbn [nth]. curves; at0; try nz; decs; cbn [pred INR]; field; repeat split; nz.
Qed.
Lemma gol_constraint8_gradient : forall x1 x2 x4 x5 x6 x7, x1 <> 0 -> gradient_at gol_constraint8 [x1; x2; x4; x5; x6; x7] (gol_constraint8_grad [x1; x2; x4; x5; x6; x7]).
Proof.
  intros. unfold gol_constraint8, gol_constraint8_grad, vget. cbn [nth]. unfold gol_constraint8_, gol_constraint8_grad_. cbv zeta.
  apply grad_lit6. intros. cbn [nth]. curves; at0; try nz; decs; cbn [pred INR]; field; repeat split; nz.
Qed.
Lemma gol_constraint9_gradient : forall x1 x2 x4 x5 x6 x7, x2 <> 0 -> gradient_at gol_constraint9 [x1; x2; x4; x5; x6; x7] (gol_constraint9_grad [x1; x2; x4; x5; x6; x7]).
Proof.
  intros. unfold gol_constraint9, gol_constraint9_grad, vget. cbn [nth]. unfold gol_constraint9_, gol_constraint9_grad_. cbv zeta.
  apply grad_lit6. intros. cbn [nth]. curves; at0; try nz; decs; cbn [pred INR]; field; repeat split; nz.
Qed.
Lemma gol_constraint24_gradient : forall x1 x2 x4 x5 x6 x7, x4 <> 0 -> gradient_at gol_constraint24 [x1; x2; x4; x5; x6; x7] (gol_constraint24_grad [x1; x2; x4; x5; x6; x7]).
Proof.
  intros. unfold gol_constraint24, gol_constraint24_grad, vget. cbn [nth]. unfold gol_constraint24_, gol_constraint24_grad_. cbv zeta.
  apply grad_lit6. intros. cbn [nth]. curves; at0; try nz; decs; cbn [pred INR]; field; repeat split; nz.
Qed.
Lemma gol_constraint25_gradient : forall x1 x2 x4 x5 x6 x7, x5 <> 0 -> gradient_at gol_constraint25 [x1; x2; x4; x5; x6; x7] (gol_constraint25_grad [x1; x2; x4; x5; x6; x7]).
Proof.
  intros. unfold gol_constraint25, gol_constraint25_grad, vget. cbn [nth]. unfold gol_constraint25_, gol_constraint25_grad_. cbv zeta.
  apply grad_lit6. intros. cbn [nth]. curves; at0; try nz; decs; cbn [pred INR]; field; repeat split; nz.
Qed.
Lemma beam_area_gradient : forall F L G E nu b h, gradient_at (beam_area F L G E nu) [b; h] (beam_area_grad F L G E nu [b; h]).
Proof.
  intros. unfold beam_area, beam_area_grad, vget. cbn [nth]. unfold beam_area_, beam_area_grad_. cbv zeta.
  apply grad_lit2. intros. cbn [nth]. curves; at0; try nz; decs; cbn [pred INR]; field; repeat split; nz.
Qed.
Lemma beam_bending_gradient : forall F L G E nu b h, b <> 0 -> h <> 0 -> gradient_at (beam_bending F L G E nu) [b; h] (beam_bending_grad F L G E nu [b; h]).
Proof.
  intros. unfold beam_bending, beam_bending_grad, vget. cbn [nth]. unfold beam_bending_, beam_bending_grad_. cbv zeta.
  apply grad_lit2. intros. cbn [nth]. curves; at0; try nz; decs; cbn [pred INR]; field; repeat split; nz.
Qed.
Lemma beam_tip_deflect_gradient : forall F L G E nu b h, E <> 0 -> b <> 0 -> h <> 0 -> gradient_at (beam_tip_deflect F L G E nu) [b; h] (beam_tip_deflect_grad F L G E nu [b; h]).
Proof.
  intros. unfold beam_tip_deflect, beam_tip_deflect_grad, vget. cbn [nth]. unfold beam_tip_deflect_, beam_tip_deflect_grad_. cbv zeta.
  apply grad_lit2. intros. cbn [nth]. curves; at0; try nz; decs; cbn [pred INR]; field; repeat split; nz.
Qed.
Lemma beam_bending_stress_gradient : forall F L G E nu b h, b <> 0 -> h <> 0 -> gradient_at (beam_bending_stress F L G E nu) [b; h] (beam_bending_stress_grad F L G E nu [b; h]).
Proof.
  intros. unfold beam_bending_stress, beam_bending_stress_grad, vget. cbn [nth]. unfold beam_bending_stress_, beam_bending_stress_grad_. cbv zeta.
  apply grad_lit2. intros. cbn [nth]. curves; at0; try nz; decs; cbn [pred INR]; field; repeat split; nz.
Qed.
Lemma beam_shear_stress_gradient : forall F L G E nu b h, b <> 0 -> h <> 0 -> gradient_at (beam_shear_stress F L G E nu) [b; h] (beam_shear_stress_grad F L G E nu [b; h]).
Proof.
  intros. unfold beam_shear_stress, beam_shear_stress_grad, vget. cbn [nth]. unfold beam_shear_stress_, beam_shear_stress_grad_. cbv zeta.
  apply grad_lit2. intros. cbn [nth]. curves; at0; try nz; decs; cbn [pred INR]; field; repeat split; nz.
Qed.
Lemma beam_area_ratio_gradient : forall F L G E nu b h, b <> 0 -> gradient_at (beam_area_ratio F L G E nu) [b; h] (beam_area_ratio_grad F L G E nu [b; h]).
Proof.
  intros. unfold beam_area_ratio, beam_area_ratio_grad, vget. cbn [nth]. unfold beam_area_ratio_, beam_area_ratio_grad_. cbv zeta.
  apply grad_lit2. intros. cbn [nth]. curves; at0; try nz; decs; cbn [pred INR]; field; repeat split; nz.
Qed.

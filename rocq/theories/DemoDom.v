(** The demo classes on their domains: values and gradients. *)
Require Import Reals Lra Lia List Bool Arith.
From Verif Require Import RVec Num Sums DomModel FunModel FunProofs Deriv DemoDeriv DemoModel DemoGradA DemoGradB DemoGradC DemoGradD DemoClass.
Import ListNotations.
Local Open Scope R_scope.

Lemma ln_ratio_pos : forall a b, 0 < a < b -> 0 < ln (b / a).
Proof. intros a b [P Q]. rewrite <- ln_1. apply ln_increasing; [lra|]. apply (Rmult_lt_reg_r a); auto. field_simplify; lra. Qed.

Lemma borehole_box : forall x, in_box borehole_lb borehole_ub x -> gradient_at borehole x (borehole_grad x) /\ 0 < borehole x.
Proof.
  intros x [Len B]. cbn [length borehole_lb] in Len. destruct x as [|r_w [|r [|T_u [|H_u [|T_l [|H_l [|L [|K_w [|]]]]]]]]]; try discriminate.
  pose proof (B 0%nat ltac:(cbn; lia)) as B0. pose proof (B 1%nat ltac:(cbn; lia)) as B1. pose proof (B 2%nat ltac:(cbn; lia)) as B2. pose proof (B 3%nat ltac:(cbn; lia)) as B3. pose proof (B 4%nat ltac:(cbn; lia)) as B4. pose proof (B 5%nat ltac:(cbn; lia)) as B5. pose proof (B 6%nat ltac:(cbn; lia)) as B6. pose proof (B 7%nat ltac:(cbn; lia)) as B7.
  clear B Len. revert B0 B1 B2 B3 B4 B5 B6 B7. unfold borehole_lb, borehole_ub, vget. cbn [nth]. decs. intros B0 B1 B2 B3 B4 B5 B6 B7.
  assert (PL : 0 < ln (r / r_w)) by (apply ln_ratio_pos; lra). split.
  - apply borehole_gradient; try lra. apply Rgt_not_eq. pos.
  - unfold borehole, vget. cbn [nth]. unfold borehole_. pose proof PI_RGT_0. pos.
Qed.
Lemma otl_box : forall x, in_box otl_lb otl_ub x -> gradient_at otl_circuit x (otl_circuit_grad x) /\ 0 < otl_circuit x.
Proof.
  intros x [Len B]. cbn [length otl_lb] in Len. destruct x as [|Rb1 [|Rb2 [|Rf [|Rc1 [|Rc2 [|beta [|]]]]]]]; try discriminate.
  pose proof (B 0%nat ltac:(cbn; lia)) as B0. pose proof (B 1%nat ltac:(cbn; lia)) as B1. pose proof (B 2%nat ltac:(cbn; lia)) as B2. pose proof (B 3%nat ltac:(cbn; lia)) as B3. pose proof (B 4%nat ltac:(cbn; lia)) as B4. pose proof (B 5%nat ltac:(cbn; lia)) as B5.
  clear B Len. revert B0 B1 B2 B3 B4 B5. unfold otl_lb, otl_ub, vget. cbn [nth]. decs. intros B0 B1 B2 B3 B4 B5.
  assert (P : 0 < beta * (Rc2 + 9)) by pos. split.
  - apply otl_gradient; lra.
  - unfold otl_circuit, vget. cbn [nth]. unfold otl_circuit_. cbv zeta. decs. pos.
Qed.
Lemma piston_box : forall x, in_box piston_lb piston_ub x -> gradient_at piston x (piston_grad x).
Proof.
  intros x [Len B]. cbn [length piston_lb] in Len. destruct x as [|M [|Sa [|V0 [|k [|P0 [|Ta [|T0 [|]]]]]]]]; try discriminate.
  pose proof (B 0%nat ltac:(cbn; lia)) as B0. pose proof (B 1%nat ltac:(cbn; lia)) as B1. pose proof (B 2%nat ltac:(cbn; lia)) as B2. pose proof (B 3%nat ltac:(cbn; lia)) as B3. pose proof (B 4%nat ltac:(cbn; lia)) as B4. pose proof (B 5%nat ltac:(cbn; lia)) as B5. pose proof (B 6%nat ltac:(cbn; lia)) as B6.
  clear B Len. revert B0 B1 B2 B3 B4 B5 B6. unfold piston_lb, piston_ub, vget. cbn [nth]. decs. intros B0 B1 B2 B3 B4 B5 B6.
  apply piston_gradient; lra.
Qed.
Lemma hartmann_box : forall x, in_box hartmann_lb hartmann_ub x -> gradient_at u_ave x (u_ave_grad x) /\ gradient_at Bind x (Bind_grad x).
Proof.
  intros x [Len B]. cbn [length hartmann_lb] in Len. destruct x as [|mu [|dpdx [|eta [|B0 [|]]]]]; try discriminate.
  pose proof (B 0%nat ltac:(cbn; lia)) as BB0. pose proof (B 1%nat ltac:(cbn; lia)) as B1. pose proof (B 2%nat ltac:(cbn; lia)) as B2. pose proof (B 3%nat ltac:(cbn; lia)) as B3.
  clear B Len. revert BB0 B1 B2 B3. unfold hartmann_lb, hartmann_ub, vget. cbn [nth]. decs. intros BB0 B1 B2 B3.
  split; [apply u_ave_gradient|apply Bind_gradient]; lra.
Qed.
Lemma wing_box : forall x, in_box wing_lb wing_ub x -> gradient_within (/ 10 ^ 14) wing_weight x (wing_weight_grad x).
Proof.
  intros x [Len B]. cbn [length wing_lb] in Len. destruct x as [|Sw [|Wfw [|A [|Lam [|q [|lam [|tc [|Nz [|Wdg [|Wp [|]]]]]]]]]]]; try discriminate.
  pose proof (B 0%nat ltac:(cbn; lia)) as B0. pose proof (B 1%nat ltac:(cbn; lia)) as B1. pose proof (B 2%nat ltac:(cbn; lia)) as B2. pose proof (B 3%nat ltac:(cbn; lia)) as B3. pose proof (B 4%nat ltac:(cbn; lia)) as B4. pose proof (B 5%nat ltac:(cbn; lia)) as B5. pose proof (B 6%nat ltac:(cbn; lia)) as B6. pose proof (B 7%nat ltac:(cbn; lia)) as B7. pose proof (B 8%nat ltac:(cbn; lia)) as B8. pose proof (B 9%nat ltac:(cbn; lia)) as B9.
  clear B Len. revert B0 B1 B2 B3 B4 B5 B6 B7 B8 B9. unfold wing_lb, wing_ub, vget. cbn [nth]. decs. intros B0 B1 B2 B3 B4 B5 B6 B7 B8 B9.
  assert (PC : 0 < cos (Lam * (PI / 180))). { pose proof PI_RGT_0. apply cos_gt_0; nra. }
  apply wing_gradient; lra.
Qed.
Lemma beam_box : forall kw x, in_box beam_lb beam_ub x -> 0 < kwget kw 2 beam_G -> 0 < kwget kw 3 beam_E -> kwget kw 4 beam_nu < 1 -> kwget kw 1 beam_L <> 0 ->
  forall k f g, nth_error beam_funs k = Some f -> nth_error beam_grads k = Some g -> gradient_at (f kw) x (g kw x).
Proof.
  intros kw x [L B] PG PE PN NL. cbn [length beam_lb] in L. destruct x as [|b [|h [|]]]; try discriminate.
  pose proof (B 0%nat ltac:(cbn; lia)) as B0. pose proof (B 1%nat ltac:(cbn; lia)) as B1. clear B. revert B0 B1. unfold beam_lb, beam_ub, vget. cbn [nth]. decs. intros B0 B1.
  unfold beam_funs, beam_grads. intros k f g E1 E2.
  destruct k as [|[|[|[|[|[|[|k]]]]]]]; cbn in E1, E2; try (destruct k; discriminate); injection E1 as <-; injection E2 as <-; unfold beam_kw.
  - apply beam_area_gradient.
  - apply beam_bending_gradient; lra.
  - apply beam_tip_deflect_gradient; lra.
  - apply beam_bending_stress_gradient; lra.
  - apply beam_shear_stress_gradient; lra.
  - apply beam_area_ratio_gradient; lra.
  - apply beam_twist_gradient; lra.
Qed.
Lemma golinski_box : forall x, in_box gol_lb gol_ub x -> forall k f g, nth_error gol_funs k = Some f -> nth_error gol_grads k = Some g -> gradient_within (/ 10 ^ 14) (f nokw) x (g nokw x).
Proof.
  intros x [Len B]. cbn [length gol_lb] in Len. destruct x as [|x1 [|x2 [|x4 [|x5 [|x6 [|x7 [|]]]]]]]; try discriminate.
  pose proof (B 0%nat ltac:(cbn; lia)) as B0. pose proof (B 1%nat ltac:(cbn; lia)) as B1. pose proof (B 2%nat ltac:(cbn; lia)) as B2. pose proof (B 3%nat ltac:(cbn; lia)) as B3. pose proof (B 4%nat ltac:(cbn; lia)) as B4. pose proof (B 5%nat ltac:(cbn; lia)) as B5.
  clear B Len. revert B0 B1 B2 B3 B4 B5. unfold gol_lb, gol_ub, vget. cbn [nth]. decs. intros B0 B1 B2 B3 B4 B5.
  unfold gol_funs, gol_grads. intros k f g E1 E2. assert (PE : 0 <= / 10 ^ 14) by lra.
  destruct k as [|[|[|[|[|[|[|[|[|[|[|[|k]]]]]]]]]]]]; cbn in E1, E2; try (destruct k; discriminate); injection E1 as <-; injection E2 as <-; unfold nk.
  - apply gradient_within_exact; auto. apply gol_volume_gradient.
  - apply gradient_within_exact; auto. apply gol_constraint1_gradient; lra.
  - apply gradient_within_exact; auto. apply gol_constraint2_gradient; lra.
  - apply gradient_within_exact; auto. apply gol_constraint3_gradient; lra.
  - apply gradient_within_exact; auto. apply gol_constraint4_gradient; lra.
  - apply gol5_gradient; lra.
  - apply gol6_gradient; lra.
  - apply gradient_within_exact; auto. apply gol_constraint7_gradient.
  - apply gradient_within_exact; auto. apply gol_constraint8_gradient; lra.
  - apply gradient_within_exact; auto. apply gol_constraint9_gradient; lra.
  - apply gradient_within_exact; auto. apply gol_constraint24_gradient; lra.
  - apply gradient_within_exact; auto. apply gol_constraint25_gradient; lra.

Qed.

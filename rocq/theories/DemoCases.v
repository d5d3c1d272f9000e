(** Values of the test problems on their domains, a feasible gearbox and a feasible beam, and cases for the theorems. *)
Require Import Reals Lra Lia List Bool Arith.
From Verif Require Import RVec Num Sums DomModel NormProofs DomMoreModel SweepProofs HullProofs ChebProofs MatLib FunModel FunProofs Deriv DemoDeriv DemoModel DemoGradA DemoGradB DemoGradC DemoGradD DemoClass DemoDom DemoMore DemoThm.
Import ListNotations.
Local Open Scope R_scope.

(** the cycle time of the piston is positive and below the one of the spring alone *)
Lemma piston_range : forall M S V0 k P0 Ta T0, 0 < M -> 0 < S -> 0 < V0 -> 0 < k -> 0 < P0 -> 0 < Ta -> 0 < T0 ->
  0 < piston [M; S; V0; k; P0; Ta; T0] < 2 * PI * sqrt (M / k).
Proof.
  intros M S V0 k P0 Ta T0 HM HS HV Hk HP Ht HT. unfold piston, vget. cbn [nth]. unfold piston_. cbv zeta.
  set (A := P0 * S + _ - _). clearbody A. set (Q := 4 * k * P0 * V0 / T0 * Ta). assert (PQ : 0 < Q) by (unfold Q; pos).
  assert (PV : 0 < sqrt (A ^ 2 + Q) - A).
  { apply Rlt_Rminus. destruct (Rlt_le_dec A 0) as [N|N]; [pose proof (sqrt_pos (A ^ 2 + Q)); lra|].
    rewrite <- (sqrt_square A) at 1 by auto. apply sqrt_lt_1; nra. }
  set (V := S / (2 * k) * (sqrt (A ^ 2 + Q) - A)). assert (P1 : 0 < V) by (unfold V; pos). clearbody V.
  assert (PX : 0 < S ^ 2 * (P0 * V0 / T0) * (Ta / V ^ 2)) by pos. set (X := S ^ 2 * _ * _) in *. clearbody X.
  pose proof PI_RGT_0. assert (P2 : 0 < M / (k + X)) by pos. split.
  - apply Rmult_lt_0_compat; [lra|]. apply sqrt_lt_R0. auto.
  - apply Rmult_lt_compat_l; [lra|]. apply sqrt_lt_1; [lra|apply Rlt_le; pos|]. unfold Rdiv. apply Rmult_lt_compat_l; auto. apply Rinv_lt_contravar; nra.
Qed.
(** the wing is heavier than its paint *)
Lemma wing_range : forall x, in_box wing_lb wing_ub x -> 0 < vget x 0 * vget x 9 < wing_weight x.
Proof.
  intros x [Len B]. cbn [length wing_lb] in Len. destruct x as [|Sw [|Wfw [|A [|Lam [|q [|lam [|tc [|Nz [|Wdg [|Wp [|]]]]]]]]]]]; try discriminate.
  pose proof (B 0%nat ltac:(cbn; lia)) as B0. pose proof (B 9%nat ltac:(cbn; lia)) as B9. clear B. revert B0 B9. unfold wing_lb, wing_ub, vget. cbn [nth]. decs. intros B0 B9.
  unfold wing_weight, vget. cbn [nth]. unfold wing_weight_. split; [pos|].
  match goal with |- _ < ?a + _ => assert (P : 0 < a); [|lra] end. repeat (apply Rmult_lt_0_compat; [|apply exp_pos]). decs. lra.
Qed.
Lemma hartmann_range : forall x, in_box hartmann_lb hartmann_ub x -> 0 < u_ave x /\ 0 < Bind x.
Proof.
  intros x [Len B]. cbn [length hartmann_lb] in Len. destruct x as [|mu [|dpdx [|eta [|B0 [|]]]]]; try discriminate.
  pose proof (B 0%nat ltac:(cbn; lia)) as BB0. pose proof (B 1%nat ltac:(cbn; lia)) as B1. pose proof (B 2%nat ltac:(cbn; lia)) as B2. pose proof (B 3%nat ltac:(cbn; lia)) as B3.
  clear B Len. revert BB0 B1 B2 B3. unfold hartmann_lb, hartmann_ub, vget. cbn [nth]. decs. intros BB0 B1 B2 B3.
  apply hartmann_pos; lra.
Qed.
(** All quantities are positive, the constraint "shear stress at most half the yield stress 240 MPa" holds on the whole domain, and the
    second objective is the fourth quantity. *)
Lemma beam_values : forall x, in_box beam_lb beam_ub x -> Forall (fun f => 0 < f BEAM x) beam_funs /\
  beam_kw beam_shear_stress BEAM x < 240000000 / 2 /\ beam_kw beam_bending BEAM x = beam_kw beam_bending_stress BEAM x.
Proof.
  intros x [L B]. cbn [length beam_lb] in L. destruct x as [|b [|h [|]]]; try discriminate.
  pose proof (B 0%nat ltac:(cbn; lia)) as B0. pose proof (B 1%nat ltac:(cbn; lia)) as B1. clear B. revert B0 B1. unfold beam_lb, beam_ub, vget. cbn [nth]. decs. intros B0 B1.
  assert (PF : beam_F = 5000) by reflexivity. assert (PL : beam_L = 15 * / 10) by (unfold beam_L; decs; reflexivity). assert (PE : 0 < beam_E) by (unfold beam_E; lra).
  assert (PG : 0 < beam_G) by (unfold beam_G; lra). assert (PN : beam_nu = 27 * / 100) by (unfold beam_nu; decs; reflexivity).
  split; [|split].
  - unfold beam_funs, beam_kw, kwget, BEAM. cbn [nth_error]. repeat constructor;
      unfold beam_area, beam_bending, beam_tip_deflect, beam_bending_stress, beam_shear_stress, beam_area_ratio, beam_twist_buckling, vget; cbn [nth];
      unfold beam_area_, beam_bending_, beam_tip_deflect_, beam_bending_stress_, beam_shear_stress_, beam_area_ratio_, beam_twist_buckling_; cbv zeta; try (rewrite ?PF, ?PL; pos; fail).
    cbn [nth_error]. rewrite PL, PN. apply Rmult_lt_0_compat; [pos|]. apply sqrt_lt_R0. pos.
  - unfold beam_kw, kwget, BEAM. cbn [nth_error]. unfold beam_shear_stress, vget. cbn [nth]. unfold beam_shear_stress_. rewrite PF.
    assert (P : 0 < 2 * b * h) by pos. apply (Rmult_lt_reg_r (2 * b * h)); auto. unfold Rdiv at 1. rewrite Rmult_assoc, Rinv_l by lra. nra.
  - reflexivity.
Qed.
(** a design that meets the five documented constraints *)
Lemma beam_feasible : let x := [0.05; 0.25] in in_box beam_lb beam_ub x /\ beam_kw beam_tip_deflect BEAM x <= 0.005 /\ beam_kw beam_bending_stress BEAM x <= 240000000 /\
  beam_kw beam_shear_stress BEAM x <= 240000000 / 2 /\ beam_kw beam_area_ratio BEAM x <= 10 /\ 2 * beam_F <= beam_kw beam_twist_buckling BEAM x.
Proof.
  cbv zeta. unfold beam_kw, kwget, BEAM. cbn [nth_error]. unfold beam_tip_deflect, beam_bending_stress, beam_shear_stress, beam_area_ratio, beam_twist_buckling, vget. cbn [nth].
  unfold beam_tip_deflect_, beam_bending_stress_, beam_shear_stress_, beam_area_ratio_, beam_twist_buckling_. cbv zeta. unfold beam_F, beam_L, beam_G, beam_E, beam_nu. decs.
  split; [split; [reflexivity|]|split; [|split; [|split; [|split]]]]; try lra.
  - unfold beam_lb, beam_ub. cbn [length]. intros i H. do 2 (destruct i as [|i]; [unfold vget; cbn [nth]; decs; lra|]). lia.
  - apply Rle_trans with (4 / (15 * / 10) ^ 2 * sqrt (10000 * 10000)); [rewrite sqrt_square by lra; lra|].
    apply Rmult_le_compat_l; [lra|]. apply sqrt_le_1_alt. lra.
Qed.
(** a gearbox in the interior of the design box that meets all the constraints strictly *)
Lemma golinski_feasible : let x := [3.57; 0.71; 7.4; 7.9; 3.4; 5.3] in
  (forall i, (i < 6)%nat -> vget gol_lb i < vget x i < vget gol_ub i) /\ Forall (fun f => f nokw x < 0) (tl gol_funs) /\ 0 < gol_volume x.
Proof.
  cbv zeta. split; [|split].
  - unfold gol_lb, gol_ub. intros i H. do 6 (destruct i as [|i]; [unfold vget; cbn [nth]; decs; lra|]). lia.
  - unfold gol_funs, nk. cbn [tl].
    assert (K : forall a b, 0 < b -> a < b * b -> sqrt a < b).
    { intros a b P H. rewrite <- (sqrt_square b) by lra. destruct (Rle_lt_dec 0 a); [apply sqrt_lt_1; nra|]. rewrite sqrt_neg_0 by lra. rewrite sqrt_square; lra. }
    repeat constructor;
    unfold gol_constraint1, gol_constraint2, gol_constraint3, gol_constraint4, gol_constraint5, gol_constraint6, gol_constraint7, gol_constraint8, gol_constraint9, gol_constraint24, gol_constraint25, vget; cbn [nth];
    unfold gol_constraint1_, gol_constraint2_, gol_constraint3_, gol_constraint4_, gol_constraint5_, gol_constraint6_, gol_constraint7_, gol_constraint8_, gol_constraint9_, gol_constraint24_, gol_constraint25_; cbv zeta; decs; try lra.
    + match goal with |- sqrt ?a / ?c - 1 < 0 => assert (sqrt a < c) by (apply K; lra); assert (P : 0 < c) by lra; set (s := sqrt a) in *; clearbody s; set (cc := c) in *; clearbody cc end.
      apply (Rmult_lt_reg_r cc); auto. unfold Rdiv. rewrite Rmult_minus_distr_r, Rmult_assoc, Rinv_l by lra. lra.
    + match goal with |- sqrt ?a / ?c - 1 < 0 => assert (sqrt a < c) by (apply K; lra); assert (P : 0 < c) by lra; set (s := sqrt a) in *; clearbody s; set (cc := c) in *; clearbody cc end.
      apply (Rmult_lt_reg_r cc); auto. unfold Rdiv. rewrite Rmult_minus_distr_r, Rmult_assoc, Rinv_l by lra. lra.
  - unfold gol_volume, vget. cbn [nth]. unfold gol_volume_. cbv zeta. decs. lra.
Qed.
(** the documented range of R_b2 is larger than the one of the code *)
Lemma otl_domain_refuted : exists x, in_box [50; 25; 0.5; 1.2; 0.25; 50] [150; 75; 3; 2.5; 1.2; 300] x /\ ~ in_box otl_lb otl_ub x.
Proof.
  exists [100; 72; 1; 2; 1; 100]. split; [split; [reflexivity|]|].
  - cbn [length]. intros i H. do 6 (destruct i as [|i]; [unfold vget; cbn [nth]; decs; lra|]). lia.
  - intros [_ B]. specialize (B 1%nat ltac:(cbn; lia)). revert B. unfold otl_lb, otl_ub, vget. cbn [nth]. lra.
Qed.

(* ---------------- cases ---------------- *)
Ltac boxed := split; [reflexivity|]; cbn [length]; intros i H; do 10 (destruct i as [|i]; [clear H; unfold vget; cbn [nth]; decs; lra|try lia]).
Example borehole_case : in_box borehole_lb borehole_ub [0.1; 30000; 70000; 1000; 100; 750; 1500; 10000] /\ unit_cube 8 [0; 0.5; -1; 1; 0.25; -0.75; 0; 1].
Proof. split; [unfold borehole_lb, borehole_ub|]; boxed. Qed.
Example otl_case : in_box otl_lb otl_ub [100; 50; 1; 2; 1; 100] /\ unit_cube 6 [0; 0.5; -1; 1; 0.25; -0.75].
Proof. split; [unfold otl_lb, otl_ub|]; boxed. Qed.
Example piston_case : in_box piston_lb piston_ub [40; 0.01; 0.004; 2000; 100000; 293; 350] /\ unit_cube 7 [0; 0.5; -1; 1; 0.25; -0.75; 0].
Proof. split; [unfold piston_lb, piston_ub|]; boxed. Qed.
Example wing_case : in_box wing_lb wing_ub [170; 250; 8; 5; 20; 0.7; 0.1; 4; 2000; 0.05] /\ unit_cube 10 [0; 0.5; -1; 1; 0.25; -0.75; 0; 1; 1; -1].
Proof. split; [unfold wing_lb, wing_ub|]; boxed. Qed.
Example hartmann_case : in_box hartmann_lb hartmann_ub [0.1; 1; 2; 0.5] /\ unit_cube 4 [0; 0.5; -1; 1].
Proof. split; [unfold hartmann_lb, hartmann_ub|]; boxed. Qed.
Example golinski_case : in_box gol_lb gol_ub [3; 0.75; 8; 8; 3.5; 5.2] /\ unit_cube 6 [0; 0.5; -1; 1; 0.25; -0.75].
Proof. split; [unfold gol_lb, gol_ub|]; boxed. Qed.
(** a beam of another length *)
Example beam_case : let kw := fun k => nth_error [3000; 2] k in kwget (merge BEAM kw) 0 beam_F = 3000 /\ kwget (merge BEAM kw) 1 beam_L = 2 /\
  0 < kwget (merge BEAM kw) 2 beam_G /\ 0 < kwget (merge BEAM kw) 3 beam_E /\ kwget (merge BEAM kw) 4 beam_nu < 1 /\ in_box beam_lb beam_ub [0.02; 0.1].
Proof.
  cbv zeta. unfold kwget, merge, BEAM. cbn [nth_error]. unfold beam_G, beam_E, beam_nu. decs. do 5 (split; [try reflexivity; lra|]). unfold beam_lb, beam_ub. boxed.
Qed.
(** the stretched arm *)
Example robot_case : unit_cube 8 [-1; -1; -1; -1; 1; 1; 1; 1] /\ robot_arm (unnormalize (map Fin robot_lb) (map Fin robot_ub) [-1; -1; -1; -1; 1; 1; 1; 1]) = 4.
Proof.
  split; [boxed|]. set (x := unnormalize _ _ _). assert (E : x = [0; 0; 0; 0; 1; 1; 1; 1]).
  { unfold x. apply vec_ext; [reflexivity|]. intros i H. rewrite unnormalize_get by (reflexivity || exact H).
    unfold robot_lb, robot_ub in *. cbn in H. pose proof PI_RGT_0.
    do 8 (destruct i as [|i]; [unfold vget; cbn [nth map]; unfold uslope, center_i; destruct Req_EM_T; try lra; field|]). lia. }
  rewrite E. rewrite robot_formula. unfold robot_doc, vget. cbn [rsum nth]. rewrite !Rplus_0_l, cos_0, sin_0.
  match goal with |- sqrt ?a = _ => replace a with (4 * 4) by ring end. apply sqrt_square. lra.
Qed.
Example quad_case : symmetric [[2; 1]; [1; 3]] /\ quad_fun [[2; 1]; [1; 3]] [1; 0] 5 [1; 2] = 24 /\ quad_grad [[2; 1]; [1; 3]] [1; 0] [1; 2] = [9; 14].
Proof.
  split; [|split].
  - intros i j Hi Hj. cbn in Hi, Hj. destruct i as [|[|]], j as [|[|]]; try lia; reflexivity.
  - unfold quad_fun. cbn [length lincomb]. unfold vadd, vscale, vzero. cbn. rewrite ?dot_cons, ?dot_nil_l. ring.
  - unfold quad_grad. cbn [length lincomb]. unfold vadd, vscale, vzero. cbn. f_equal; [ring|f_equal; ring].
Qed.
Example affine_case : affine_fun [1; 2] 3 [4; 5] = 17 /\ unit_cube 2 [0.5; -1].
Proof. split; [|boxed]. unfold affine_fun. rewrite !dot_cons, dot_nil_l. ring. Qed.

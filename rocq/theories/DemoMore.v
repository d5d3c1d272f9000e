(** Further facts: the robot arm, positivity, redundant constraints of the gearbox, affine and quadratic functions. *)
Require Import Reals Lra Lia List Bool Arith.
From Verif Require Import RVec Num Sums DomModel NormProofs DomMoreModel SweepProofs HullProofs ChebProofs MatLib FunModel FunProofs Deriv DemoDeriv DemoModel DemoGradA DemoGradB DemoGradC DemoGradD DemoClass DemoDom.
Import ListNotations.
Local Open Scope R_scope.

(* ---------------- robot arm ---------------- *)
Lemma unit_pair : forall a b c d : R, a * a + b * b = 1 -> c * c + d * d = 1 -> a * c + b * d <= 1.
Proof. intros a b c d H K. pose proof (Rle_0_sqr (a - c)). pose proof (Rle_0_sqr (b - d)). unfold Rsqr in *. nra. Qed.

Lemma robot_bound : forall th1 th2 th3 th4 L1 L2 L3 L4, 0 <= L1 -> 0 <= L2 -> 0 <= L3 -> 0 <= L4 ->
  0 <= robot_arm [th1; th2; th3; th4; L1; L2; L3; L4] <= L1 + L2 + L3 + L4.
Proof.
  intros th1 th2 th3 th4 L1 L2 L3 L4 P1 P2 P3 P4. unfold robot_arm, vget. cbn [nth]. unfold robot_arm_. cbv zeta. split; [apply sqrt_pos|].
  pose proof (sin2_cos2 th1) as T1. pose proof (sin2_cos2 (th1 + th2)) as T2. pose proof (sin2_cos2 (th1 + th2 + th3)) as T3. pose proof (sin2_cos2 (th1 + th2 + th3 + th4)) as T4.
  unfold Rsqr in *.
  set (c1 := cos th1) in *. set (c2 := cos (th1 + th2)) in *. set (c3 := cos (th1 + th2 + th3)) in *. set (c4 := cos (th1 + th2 + th3 + th4)) in *.
  set (s1 := sin th1) in *. set (s2 := sin (th1 + th2)) in *. set (s3 := sin (th1 + th2 + th3)) in *. set (s4 := sin (th1 + th2 + th3 + th4)) in *.
  clearbody c1 c2 c3 c4 s1 s2 s3 s4.
  rewrite <- (sqrt_square (L1 + L2 + L3 + L4)) by lra. apply sqrt_le_1_alt.
  pose proof (unit_pair _ _ _ _ T1 T2) as U12. pose proof (unit_pair _ _ _ _ T1 T3) as U13. pose proof (unit_pair _ _ _ _ T1 T4) as U14.
  pose proof (unit_pair _ _ _ _ T2 T3) as U23. pose proof (unit_pair _ _ _ _ T2 T4) as U24. pose proof (unit_pair _ _ _ _ T3 T4) as U34.
  assert (Q : forall a b u, 0 <= a -> 0 <= b -> u <= 1 -> a * b * u <= a * b) by (intros a b u A B U; assert (0 <= a * b) by (apply Rmult_le_pos; auto); nra).
  pose proof (Q _ _ _ P1 P2 U12). pose proof (Q _ _ _ P1 P3 U13). pose proof (Q _ _ _ P1 P4 U14). pose proof (Q _ _ _ P2 P3 U23). pose proof (Q _ _ _ P2 P4 U24). pose proof (Q _ _ _ P3 P4 U34).
  replace ((L1 * c1 + L2 * c2 + L3 * c3 + L4 * c4) ^ 2 + (L1 * s1 + L2 * s2 + L3 * s3 + L4 * s4) ^ 2)
   with (L1 * L1 * (s1 * s1 + c1 * c1) + L2 * L2 * (s2 * s2 + c2 * c2) + L3 * L3 * (s3 * s3 + c3 * c3) + L4 * L4 * (s4 * s4 + c4 * c4)
    + 2 * (L1 * L2 * (s1 * s2 + c1 * c2)) + 2 * (L1 * L3 * (s1 * s3 + c1 * c3)) + 2 * (L1 * L4 * (s1 * s4 + c1 * c4))
    + 2 * (L2 * L3 * (s2 * s3 + c2 * c3)) + 2 * (L2 * L4 * (s2 * s4 + c2 * c4)) + 2 * (L3 * L4 * (s3 * s4 + c3 * c4))) by ring.
  rewrite T1, T2, T3, T4. lra.
Qed.

(** values on the domain: exactly from 0 to 4 *)
Lemma robot_range : (forall x, in_box robot_lb robot_ub x -> 0 <= robot_arm x <= 4) /\ (exists x, in_box robot_lb robot_ub x /\ robot_arm x = 4) /\ exists x, in_box robot_lb robot_ub x /\ robot_arm x = 0.
Proof.
  pose proof PI_RGT_0 as PP. split; [|split].
  - intros x [L H]. unfold robot_lb in L. cbn in L. destruct x as [|a [|b [|c [|d [|e [|f [|g [|h [|]]]]]]]]]; try discriminate L.
    pose proof (H 4%nat ltac:(cbn; lia)) as H4. pose proof (H 5%nat ltac:(cbn; lia)) as H5. pose proof (H 6%nat ltac:(cbn; lia)) as H6. pose proof (H 7%nat ltac:(cbn; lia)) as H7. unfold robot_lb, robot_ub, vget in H4, H5, H6, H7. cbn [nth] in H4, H5, H6, H7.
    pose proof (robot_bound a b c d e f g h ltac:(lra) ltac:(lra) ltac:(lra) ltac:(lra)). lra.
  - exists [0; 0; 0; 0; 1; 1; 1; 1]. split.
    + split; [reflexivity|]. intros i Hi. cbn in Hi. destruct i as [|[|[|[|[|[|[|[|]]]]]]]]; try lia; unfold robot_lb, robot_ub, vget; cbn [nth]; lra.
    + unfold robot_arm, vget. cbn [nth]. unfold robot_arm_. cbv zeta. rewrite !Rplus_0_r, cos_0, sin_0. replace (_ + _) with (4 * 4) by ring. apply sqrt_square. lra.
  - exists [0; 0; 0; 0; 0; 0; 0; 0]. split.
    + split; [reflexivity|]. intros i Hi. cbn in Hi. destruct i as [|[|[|[|[|[|[|[|]]]]]]]]; try lia; unfold robot_lb, robot_ub, vget; cbn [nth]; lra.
    + unfold robot_arm, vget. cbn [nth]. unfold robot_arm_. cbv zeta. replace (_ + _) with 0 by ring. apply sqrt_0.
Qed.
(** the distance does not depend on the first angle *)
Lemma robot_rotation : forall a b th2 th3 th4 L1 L2 L3 L4,
  robot_arm [a; th2; th3; th4; L1; L2; L3; L4] = robot_arm [b; th2; th3; th4; L1; L2; L3; L4].
Proof.
  assert (K : forall a th2 th3 th4 L1 L2 L3 L4, robot_arm [a; th2; th3; th4; L1; L2; L3; L4] = robot_arm [0; th2; th3; th4; L1; L2; L3; L4]).
  { intros a th2 th3 th4 L1 L2 L3 L4. unfold robot_arm, vget. cbn [nth]. unfold robot_arm_. cbv zeta. f_equal.
    replace (0 + th2) with th2 by ring. replace (a + th2 + th3 + th4) with (a + (th2 + th3 + th4)) by ring. replace (a + th2 + th3) with (a + (th2 + th3)) by ring.
    rewrite !(cos_plus a), !(sin_plus a). rewrite cos_0, sin_0.
    pose proof (sin2_cos2 a) as T. unfold Rsqr in T. set (s := sin a) in *. set (c := cos a) in *. clearbody s c.
    set (X := L1 + L2 * cos th2 + L3 * cos (th2 + th3) + L4 * cos (th2 + th3 + th4)). set (Y := L2 * sin th2 + L3 * sin (th2 + th3) + L4 * sin (th2 + th3 + th4)).
    transitivity ((s * s + c * c) * (X ^ 2 + Y ^ 2)); [unfold X, Y; ring|]. rewrite T. unfold X, Y. ring. }
  intros. rewrite K. symmetry. apply K.
Qed.

(** an interior point of the domain where the arm returns to the origin: no gradient there *)
Lemma abs_not_derivable : forall l, ~ derivable_pt_lim Rabs 0 l.
Proof.
  intros l D. destruct (D (1 / 2) ltac:(lra)) as [d Hd]. destruct d as [d P]. cbn in Hd.
  pose proof (Hd (d / 2) ltac:(lra) ltac:(rewrite Rabs_right; lra)) as A. pose proof (Hd (- (d / 2)) ltac:(lra) ltac:(rewrite Rabs_Ropp, Rabs_right; lra)) as B.
  rewrite !Rplus_0_l, Rabs_R0, !Rminus_0_r in A, B. rewrite Rabs_Ropp in B. rewrite (Rabs_right (d / 2)) in A, B by lra.
  replace (d / 2 / (d / 2)) with 1 in A by (field; lra). replace (d / 2 / - (d / 2)) with (-1) in B by (field; lra).
  revert A B. split_Rabs; lra.
Qed.
Definition robot_fold : vec := [1; PI; 1; PI; / 2; / 2; / 2; / 2].
Lemma robot_fold_refuted :
  (length robot_fold = 8%nat /\ forall i, (i < 8)%nat -> vget robot_lb i < vget robot_fold i < vget robot_ub i) /\
  robot_arm robot_fold = 0 /\ ~ exists g, gradient_at robot_arm robot_fold g.
Proof.
  assert (E : forall t, robot_arm [1; PI; 1; PI; / 2 + t; / 2; / 2; / 2] = Rabs t).
  { intro t. unfold robot_arm, vget. cbn [nth]. unfold robot_arm_. cbv zeta.
    replace (1 + PI + 1 + PI) with (2 + 2 * INR 1 * PI) by (simpl; ring). rewrite cos_period, sin_period.
    replace (1 + PI + 1) with (2 + PI) by ring. rewrite !neg_cos, !neg_sin.
    replace (((/ 2 + t) * cos 1 + / 2 * - cos 1 + / 2 * - cos 2 + / 2 * cos 2) ^ 2 + ((/ 2 + t) * sin 1 + / 2 * - sin 1 + / 2 * - sin 2 + / 2 * sin 2) ^ 2)
      with (t * t * (sin 1 * sin 1 + cos 1 * cos 1)) by ring.
    pose proof (sin2_cos2 1) as T. unfold Rsqr in T. rewrite T, Rmult_1_r. fold (Rsqr t). apply sqrt_Rsqr_abs. }
  pose proof PI_RGT_0. pose proof PI2_1. split; [|split].
  - split; [reflexivity|]. intros i Hi. destruct i as [|[|[|[|[|[|[|[|]]]]]]]]; try lia; unfold robot_lb, robot_fold, robot_ub, vget; cbn [nth]; lra.
  - unfold robot_fold. pose proof (E 0) as E0. rewrite Rplus_0_r, Rabs_R0 in E0. exact E0.
  - intros [g [Lg Hg]]. 
    specialize (Hg (fun i t => vget robot_fold i + (if Nat.eqb i 4 then t else 0)) [0; 0; 0; 0; 1; 0; 0; 0] eq_refl).
    apply (abs_not_derivable (dot g [0; 0; 0; 0; 1; 0; 0; 0])). eapply d_ext; [|reflexivity|apply Hg].
    + intro t. cbn [length robot_fold map seq Nat.eqb]. unfold vget, robot_fold. cbn [nth]. rewrite !Rplus_0_r. apply E.
    + intros i Hi. cbn in Hi. split; [destruct (Nat.eqb i 4); ring|].
      destruct i as [|[|[|[|[|[|[|[|]]]]]]]]; try lia; cbn [Nat.eqb]; unfold vget; cbn [nth]; cbv beta; try apply d_const.
      apply d_ext with (f := fun t => nth 4 robot_fold 0 + t) (l := 0 + 1); [reflexivity|ring|]. apply d_plus; [apply d_const|apply d_id].
Qed.

(* ---------------- Hartmann: positive values ---------------- *)
Lemma tanh_lt : forall z, 0 < z -> 0 < tanh z < z.
Proof.
  intros z P. pose proof (cosh_pos z) as PC. pose proof (sinh_pos z P) as PS.
  assert (K : sinh z < z * cosh z).
  { destruct (MVT_cor2 (fun t => t * cosh t - sinh t) (fun t => t * sinh t) 0 z P) as [c [E [C1 C2]]].
    - intros c Hc. eapply d_ext; [reflexivity| |apply (d_minus (fun t => t * cosh t) sinh); [apply (d_mult (fun t => t) cosh c 1 (sinh c)); [apply d_id|apply derivable_pt_lim_cosh]|apply derivable_pt_lim_sinh]]. ring.
    - cbv beta in E. rewrite sinh_0 in E. pose proof (sinh_pos c C1). assert (0 < c * sinh c * (z - 0)) by pos. lra. }
  unfold tanh. split; [pos|]. apply (Rmult_lt_reg_r (cosh z)); auto. unfold Rdiv. rewrite Rmult_assoc, Rinv_l by lra. lra.
Qed.
Lemma hartmann_pos : forall mu dpdx eta B0, 0 < mu -> 0 < eta -> 0 < B0 -> 0 < dpdx -> 0 < u_ave [mu; dpdx; eta; B0] /\ 0 < Bind [mu; dpdx; eta; B0].
Proof.
  intros mu dpdx eta B0 Pm Pe PB Pd. unfold u_ave, Bind, vget. cbn [nth]. unfold u_ave_, Bind_. cbv zeta.
  assert (PQ : 0 < eta * mu) by pos. assert (Pq : 0 < sqrt (eta * mu)) by (apply sqrt_lt_R0; auto). set (q := sqrt (eta * mu)) in *. clearbody q.
  split.
  - assert (Pz : 0 < B0 * 1 / q) by pos. destruct (tanh_lt _ Pz) as [T1 T2]. set (z := B0 * 1 / q) in *. set (T := tanh z) in *. clearbody T z.
    assert (H : 1 < z / T). { apply (Rmult_lt_reg_r T); auto. unfold Rdiv. rewrite Rmult_assoc, Rinv_l by lra. lra. }
    replace (- dpdx * eta / B0 ^ 2 * (1 - z / T)) with (dpdx * eta / B0 ^ 2 * (z / T - 1)) by (field; lra). pos.
  - assert (Pz : 0 < B0 * 1 / (2 * q)) by pos. destruct (tanh_lt _ Pz) as [T1 T2]. set (T := tanh (B0 * 1 / (2 * q))) in *. clearbody T.
    assert (H : 2 * q / (B0 * 1) * T < 1). { apply (Rmult_lt_reg_l (B0 * 1 / (2 * q))); auto. replace (B0 * 1 / (2 * q) * (2 * q / (B0 * 1) * T)) with T by (field; lra). lra. }
    pos.
Qed.

(* ---------------- gearbox: constraints 4, 7 and 9 never bind ---------------- *)
Lemma golinski_redundant : forall x, in_box gol_lb gol_ub x -> gol_constraint4 x < 0 /\ gol_constraint7 x < 0 /\ gol_constraint9 x < 0.
Proof.
  intros x [Len B]. cbn [length gol_lb] in Len. destruct x as [|x1 [|x2 [|x4 [|x5 [|x6 [|x7 [|]]]]]]]; try discriminate.
  pose proof (B 1%nat ltac:(cbn; lia)) as B1. pose proof (B 0%nat ltac:(cbn; lia)) as B0. pose proof (B 3%nat ltac:(cbn; lia)) as B3. pose proof (B 5%nat ltac:(cbn; lia)) as B5.
  clear B Len. revert B1 B0 B3 B5. unfold gol_lb, gol_ub, gol_constraint4, gol_constraint7, gol_constraint9, vget. cbn [nth]. unfold gol_constraint4_, gol_constraint7_, gol_constraint9_. cbv zeta. decs. intros B1 B0 B3 B5.
  split; [|split].
  - assert (H1 : x5 ^ 3 <= (83 * / 10) ^ 3) by (apply pow_incr; lra). assert (H2 : 5 ^ 4 <= x7 ^ 4) by (apply pow_incr; lra).
    assert (PD : 0 < x2 * 17 * x7 ^ 4) by (assert (0 < x7 ^ 4) by (apply pow_lt; lra); pos).
    assert (H3 : 7 * / 10 * 17 * 625 <= x2 * 17 * x7 ^ 4) by (apply Rmult_le_compat; lra).
    assert (H4 : 193 * / 100 / (x2 * 17 * x7 ^ 4) * x5 ^ 3 < 1); [|lra].
    apply (Rmult_lt_reg_r (x2 * 17 * x7 ^ 4)); auto. replace (193 * / 100 / (x2 * 17 * x7 ^ 4) * x5 ^ 3 * (x2 * 17 * x7 ^ 4)) with (193 * / 100 * x5 ^ 3) by (field; repeat split; lra). lra.
  - lra.
  - assert (H : x1 / (12 * x2) < 1); [|lra]. apply (Rmult_lt_reg_r (12 * x2)); [lra|]. unfold Rdiv. rewrite Rmult_assoc, Rinv_l by lra. lra.
Qed.

(* ---------------- affine and quadratic functions ---------------- *)
Lemma affine_gradient : forall l c x, length l = length x -> gradient_at (affine_fun l c) x (affine_grad l x).
Proof.
  intros l c x L. split; auto. intros cv v Lv H. unfold affine_grad, affine_fun.
  eapply d_ext; [| |apply (d_plus (fun t => rsum (length x) (fun i => vget l i * cv i t)) (fun _ => c) 0 (rsum (length x) (fun i => vget l i * vget v i)) 0); [apply d_rsum|apply d_const]].
  - intro t. rewrite dot_rsum by (rewrite map_length, seq_length; auto). rewrite L. f_equal. apply rsum_ext. intros i Hi. rewrite vget_map_seq by auto. reflexivity.
  - rewrite dot_rsum by congruence. rewrite L. ring.
  - intros i Hi. apply d_scal. apply H. auto.
Qed.

(** the derivative of the quadratic function: x quad + quad x + linear *)
Lemma quad_exact : forall Q l c x, length Q = length x -> Forall (fun r => length r = length x) Q -> length l = length x ->
  gradient_at (quad_fun Q l c) x (vadd (vadd (lincomb (length x) Q x) (mv Q x)) l).
Proof.
  intros Q l c x LQ FQ Ll. set (m := length x) in *.
  assert (LL : forall y, length (lincomb m Q y) = m) by (intro y; apply lincomb_length; auto).
  assert (LM : forall y, length (mv Q y) = m) by (intro y; rewrite mv_length; auto).
  split; [rewrite !vadd_length; rewrite ?LL, ?LM; auto; rewrite vadd_length; rewrite ?LL, ?LM; auto|].
  intros cv v Lv H. fold m.
  assert (E : forall y, length y = m -> quad_fun Q l c y = rsum m (fun j => rsum m (fun i => vget y i * vget (nth i Q []) j) * vget y j) + rsum m (fun i => vget l i * vget y i) + c).
  { intros y Ly. unfold quad_fun. rewrite Ly. rewrite (dot_rsum (lincomb m Q y)) by (rewrite LL; auto). rewrite (dot_rsum l) by congruence. rewrite LL, Ll. do 2 f_equal.
    apply rsum_ext. intros j Hj. rewrite MatLib.lincomb_get by (auto; congruence). rewrite LQ. reflexivity. }
  apply d_ext with (f := fun t => rsum m (fun j => rsum m (fun i => cv i t * vget (nth i Q []) j) * cv j t) + rsum m (fun i => vget l i * cv i t) + c)
    (l := rsum m (fun j => rsum m (fun i => vget v i * vget (nth i Q []) j) * vget x j + rsum m (fun i => vget x i * vget (nth i Q []) j) * vget v j) + rsum m (fun i => vget l i * vget v i) + 0).
  - intro t. symmetry. rewrite E by (rewrite map_length, seq_length; auto). f_equal. f_equal.
    + apply rsum_ext. intros j Hj. rewrite vget_map_seq by auto. f_equal. apply rsum_ext. intros i Hi. rewrite vget_map_seq by auto. reflexivity.
    + apply rsum_ext. intros i Hi. rewrite vget_map_seq by auto. reflexivity.
  - rewrite Rplus_0_r. rewrite dot_rsum by (rewrite !vadd_length; rewrite ?LL, ?LM; auto; rewrite vadd_length; rewrite ?LL, ?LM; auto).
    replace (length (vadd (vadd (lincomb m Q x) (mv Q x)) l)) with m by (rewrite !vadd_length; rewrite ?LL, ?LM; auto; rewrite vadd_length; rewrite ?LL, ?LM; auto).
    rewrite rsum_plus. rewrite (rsum_ext m (fun i => vget (vadd (vadd (lincomb m Q x) (mv Q x)) l) i * vget v i)
      (fun i => (rsum m (fun k => vget x k * vget (nth k Q []) i) * vget v i + rsum m (fun j => vget (nth i Q []) j * vget x j) * vget v i) + vget l i * vget v i)).
    + rewrite !rsum_plus. f_equal. rewrite Rplus_comm. f_equal.
      transitivity (rsum m (fun j => rsum m (fun i => vget v i * vget (nth i Q []) j * vget x j))); [apply rsum_ext; intros; rewrite <- rsum_scal_r; auto|].
      rewrite rsum_swap. apply rsum_ext. intros i Hi. rewrite <- rsum_scal_r. apply rsum_ext. intros j Hj. ring.
    + intros i Hi. rewrite vadd_get by (rewrite vadd_length; rewrite ?LL, ?LM; auto). rewrite vadd_get by (rewrite LL, LM; auto).
      rewrite MatLib.lincomb_get by auto. rewrite LQ. rewrite mv_get by lia. 
      rewrite (dot_rsum (nth i Q [])) by (rewrite Forall_forall in FQ; apply FQ, nth_In; lia).
      replace (length (nth i Q [])) with m by (symmetry; rewrite Forall_forall in FQ; apply FQ, nth_In; lia). ring.
  - assert (Hc : forall i, (i < m)%nat -> cv i 0 = vget x i) by (intros i Hi; apply H; auto). assert (Hd : forall i, (i < m)%nat -> derivable_pt_lim (cv i) 0 (vget v i)) by (intros i Hi; apply H; auto).
    apply d_plus; [apply d_plus|apply d_const].
    + apply d_rsum. intros j Hj. eapply d_ext; [reflexivity| |apply (d_mult (fun t => rsum m (fun i => cv i t * vget (nth i Q []) j)) (cv j) 0); [|apply Hd; auto]].
      2: { apply d_rsum with (df := fun i => vget v i * vget (nth i Q []) j). intros i Hi. eapply d_ext; [intro t; apply Rmult_comm|apply Rmult_comm|apply d_scal, Hd; auto]. }
      cbv beta. rewrite Hc by auto. f_equal. f_equal. apply rsum_ext. intros i Hi. rewrite Hc by auto. reflexivity.
    + apply d_rsum. intros i Hi. apply d_scal, Hd. auto.
Qed.

Definition symmetric (Q : mat) : Prop := forall i j, (i < length Q)%nat -> (j < length Q)%nat -> vget (nth i Q []) j = vget (nth j Q []) i.

Lemma gradient_unique : forall f x g h, gradient_at f x g -> gradient_at f x h -> g = h.
Proof.
  intros f x g h G H. apply gradient_partials in G. apply gradient_partials in H. destruct G as [G1 G2]. destruct H as [H1 H2].
  apply vec_ext; [congruence|]. intros i Hi. eapply d_uniq; [apply G2|apply H2]; lia.
Qed.

(** the gradient of the code is right at every point exactly for symmetric matrices *)
Lemma quad_gradient_iff : forall Q l c, length Q = length l -> Forall (fun r => length r = length l) Q ->
  ((forall x, length x = length l -> gradient_at (quad_fun Q l c) x (quad_grad Q l x)) <-> symmetric Q).
Proof.
  intros Q l c LQ FQ. set (m := length l) in *.
  assert (LL : forall y, length y = m -> length (lincomb m Q y) = m) by (intros y _; apply lincomb_length; auto).
  assert (LM : forall y, length (mv Q y) = m) by (intro y; rewrite mv_length; auto).
  split.
  - intros H i j Hi Hj. rewrite LQ in Hi, Hj. pose (x := unit_row_ m i). assert (Lx : length x = m) by apply unit_row_length.
    pose proof (gradient_unique _ _ _ _ (H x Lx) (quad_exact Q l c x ltac:(congruence) ltac:(rewrite Lx; auto) ltac:(auto))) as E.
    apply (f_equal (fun g => vget g j)) in E. unfold quad_grad in E. rewrite Lx in E.
    rewrite !vadd_get in E by (rewrite ?vadd_length, ?vscale_length, ?LL, ?LM; auto; rewrite LL, LM; auto). rewrite vscale_get in E.
    assert (E1 : vget (lincomb m Q x) j = vget (nth i Q []) j).
    { rewrite MatLib.lincomb_get by (auto; congruence). rewrite (rsum_single _ i); [|lia|].
      - unfold x, unit_row_. rewrite vget_map_seq by auto. rewrite Nat.eqb_refl. ring.
      - intros k Hk N. unfold x, unit_row_. rewrite vget_map_seq by lia. apply Nat.eqb_neq in N. rewrite N. ring. }
    assert (E2 : vget (mv Q x) j = vget (nth j Q []) i).
    { rewrite mv_get by lia. rewrite dot_comm. apply unit_row_dot; auto. rewrite Forall_forall in FQ. apply FQ, nth_In. lia. }
    rewrite E1, E2 in E. lra.
  - intros SQ x Lx. replace (quad_grad Q l x) with (vadd (vadd (lincomb (length x) Q x) (mv Q x)) l); [apply quad_exact; try congruence; rewrite Lx; auto|].
    unfold quad_grad. rewrite Lx. f_equal. apply vec_ext; [rewrite vadd_length, vscale_length; rewrite ?LL, ?LM; auto|].
    intros i Hi. rewrite vadd_length in Hi by (rewrite LL, LM; auto). rewrite LL in Hi by auto. rewrite vadd_get by (rewrite LL, LM; auto). rewrite vscale_get.
    replace (vget (mv Q x) i) with (vget (lincomb m Q x) i); [ring|].
    rewrite MatLib.lincomb_get by (auto; congruence). rewrite mv_get by lia.
    rewrite (dot_rsum (nth i Q [])) by (rewrite Forall_forall in FQ; rewrite Lx; apply FQ, nth_In; lia).
    replace (length (nth i Q [])) with m by (symmetry; rewrite Forall_forall in FQ; apply FQ, nth_In; lia). rewrite LQ.
    apply rsum_ext. intros k Hk. rewrite (SQ i k) by lia. ring.
Qed.
Lemma quad_nonsymmetric_refuted : exists Q l c x, length Q = 2%nat /\ Forall (fun r => length r = 2%nat) Q /\ length l = 2%nat /\ length x = 2%nat /\
  quad_grad Q l x = [0; 2] /\ gradient_at (quad_fun Q l c) x [0; 1].
Proof.
  exists [[0; 1]; [0; 0]], [0; 0], 0, [1; 0]. split; [auto|]. split; [repeat constructor|]. split; [auto|]. split; [auto|]. split.
  - unfold quad_grad. cbn [length lincomb]. unfold vadd, vscale, vzero. cbn. f_equal; [ring|]. f_equal. ring.
  - pose proof (quad_exact [[0; 1]; [0; 0]] [0; 0] 0 [1; 0] eq_refl ltac:(repeat constructor) eq_refl) as H.
    replace (vadd (vadd (lincomb (length [1; 0]) [[0; 1]; [0; 0]] [1; 0]) (mv [[0; 1]; [0; 0]] [1; 0])) [0; 0]) with [0; 1] in H; [apply H|].
    cbn [length lincomb]. unfold mv. cbn [map]. rewrite !dot_cons, !dot_nil_l. unfold vadd, vscale, vzero. cbn. f_equal; [ring|]. f_equal. ring.
Qed.

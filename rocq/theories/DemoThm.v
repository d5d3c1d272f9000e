(** The gradients of the Function objects of psdr/demos in normalized coordinates, documented formulas, values, examples. *)
Require Import Reals Lra Lia List Bool Arith.
From Verif Require Import RVec Num Sums DomModel NormProofs DomMoreModel SweepProofs HullProofs ChebProofs MatLib FunModel FunProofs Deriv DemoDeriv DemoModel DemoGradA DemoGradB DemoGradC DemoGradD DemoClass DemoDom DemoMore.
Import ListNotations.
Local Open Scope R_scope.

(* ---------------- the documented formulas ---------------- *)
(** docstring of Borehole *)
Definition borehole_doc (r_w r T_u H_u T_l H_l L K_w : R) : R :=
  (2 * PI * T_u * (H_u - H_l)) / (ln (r / r_w) * (1 + (2 * L * T_u) / (ln (r / r_w) * r_w ^ 2 * K_w) + T_u / T_l)).
(** docstring of OTLCircuit *)
Definition otl_doc (Rb1 Rb2 Rf Rc1 Rc2 beta : R) : R :=
  (beta * (12 * Rb2 / (Rb1 + Rb2) + 74 / 100) * (Rc2 + 9)) / (beta * (Rc2 + 9) + Rf) + (1135 / 100 * Rf) / (beta * (Rc2 + 9) + Rf)
  + (74 / 100 * Rf * beta * (Rc2 + 9)) / (Rc1 * (beta * (Rc2 + 9) + Rf)).
(** docstring of RobotArm: theta and l are the lists of angles and lengths *)
Definition robot_doc (theta l : vec) : R :=
  let u := rsum 4 (fun i => vget l i * cos (rsum (S i) (vget theta))) in
  let v := rsum 4 (fun i => vget l i * sin (rsum (S i) (vget theta))) in sqrt (u * u + v * v).
(** docstring of WingWeight, the sweep Lam in degrees *)
Definition wing_doc (Sw Wfw A Lam q lam tc Nz Wdg Wp : R) : R :=
  36 / 1000 * Rpower Sw (758 / 1000) * Rpower Wfw (35 / 10000) * Rpower (A / (cos (Lam / 180 * PI) * cos (Lam / 180 * PI))) (6 / 10)
  * Rpower q (6 / 1000) * Rpower lam (4 / 100) * Rpower (100 * tc / cos (Lam / 180 * PI)) (- (3 / 10)) * Rpower (Nz * Wdg) (49 / 100) + Sw * Wp.
(** docstring of Piston *)
Definition piston_doc (M S V0 k P0 Ta T0 : R) : R :=
  let A := P0 * S + 1962 / 100 * M - k * V0 / S in
  let V := S / (2 * k) * (sqrt (A * A + 4 * k * (P0 * V0 / T0) * Ta) - A) in
  2 * PI * sqrt (M / (k + S * S * (P0 * V0 / T0) * (Ta / (V * V)))).
(** docstring of NowackiBeam *)
Definition beam_doc (F L G E nu b h : R) : list R :=
  let IY := b * h ^ 3 / 12 in let IT := (b ^ 3 * h + b * h ^ 3) / 12 in let IZ := b ^ 3 * h / 12 in
  [b * h; 6 * F * L / (b * h ^ 2); F * L ^ 3 / (3 * E * IY); 6 * F * L / (b * h ^ 2); 3 * F / (2 * b * h); h / b;
   4 / L ^ 2 * sqrt (G * IT * E * IZ / (1 - nu))].

Lemma borehole_formula : forall r_w r T_u H_u T_l H_l L K_w,
  borehole [r_w; r; T_u; H_u; T_l; H_l; L; K_w] = borehole_doc r_w r T_u H_u T_l H_l L K_w.
Proof. reflexivity. Qed.
Lemma otl_formula : forall Rb1 Rb2 Rf Rc1 Rc2 beta, 0 < Rb1 -> 0 < Rb2 -> 0 < Rf -> 0 < Rc1 -> 0 < Rc2 -> 0 < beta ->
  otl_circuit [Rb1; Rb2; Rf; Rc1; Rc2; beta] = otl_doc Rb1 Rb2 Rf Rc1 Rc2 beta.
Proof.
  intros. unfold otl_circuit, otl_doc, vget. cbn [nth]. unfold otl_circuit_. cbv zeta. decs.
  assert (0 < beta * (Rc2 + 9)) by pos. field. repeat split; lra.
Qed.
Lemma robot_formula : forall th1 th2 th3 th4 L1 L2 L3 L4,
  robot_arm [th1; th2; th3; th4; L1; L2; L3; L4] = robot_doc [th1; th2; th3; th4] [L1; L2; L3; L4].
Proof.
  intros. unfold robot_arm, robot_doc, vget. cbn [nth rsum]. unfold robot_arm_. cbv zeta. rewrite !Rplus_0_l. f_equal. ring.
Qed.
Lemma wing_formula : forall Sw Wfw A Lam q lam tc Nz Wdg Wp,
  wing_weight [Sw; Wfw; A; Lam; q; lam; tc; Nz; Wdg; Wp] = wing_doc Sw Wfw A Lam q lam tc Nz Wdg Wp.
Proof.
  intros. unfold wing_weight, wing_doc, vget. cbn [nth]. unfold wing_weight_. decs.
  replace (Lam * (PI / 180)) with (Lam / 180 * PI) by field. set (c := cos _). replace (c ^ 2) with (c * c) by ring. unfold Rdiv. replace (- (3 * / 10)) with (-3 * / 10) by field. reflexivity.
Qed.
Lemma piston_formula : forall M S V0 k P0 Ta T0, 0 < T0 ->
  piston [M; S; V0; k; P0; Ta; T0] = piston_doc M S V0 k P0 Ta T0.
Proof.
  intros M S V0 k P0 Ta T0 P. unfold piston, piston_doc, vget. cbn [nth]. unfold piston_. cbv zeta. decs.
  set (A := P0 * S + _ - _). set (A' := P0 * S + 1962 / 100 * M - k * V0 / S). assert (E : A = A') by (unfold A, A'; unfold Rdiv; ring). rewrite E. clearbody A'. clear A E.
  replace (A' ^ 2 + 4 * k * P0 * V0 / T0 * Ta) with (A' * A' + 4 * k * (P0 * V0 / T0) * Ta) by (field; lra).
  set (V := S / (2 * k) * _). replace (V ^ 2) with (V * V) by ring. replace (S ^ 2) with (S * S) by ring. reflexivity.
Qed.
Lemma beam_formula : forall F L G E nu b h kw, kw = (fun k => nth_error [F; L; G; E; nu] k) ->
  map (fun f => f kw [b; h]) beam_funs = beam_doc F L G E nu b h.
Proof. intros F L G E nu b h kw ->. reflexivity. Qed.

(* ---------------- Function objects ---------------- *)
Ltac lits := let i := fresh "i" in let H := fresh "H" in cbn [length]; intros i H;
  do 10 (destruct i as [|i]; [clear H; unfold vget; cbn [nth]; decs; lra|try lia]).
Ltac one := intros k f g E1 E2; destruct k as [|k]; [injection E1 as <-; injection E2 as <-|destruct k; discriminate].

Theorem borehole_object : forall kw, object_gradient 0 Borehole (demo_gv [nk borehole_grad]) kw 8 1.
Proof.
  intro kw. apply (demo_class 0 borehole_lb borehole_ub [nk borehole] [nk borehole_grad] nokw kw); [reflexivity| |reflexivity|].
  - unfold borehole_lb, borehole_ub. lits.
  - intros x Hx. one. apply gradient_within_exact; [lra|]. apply borehole_box. auto.
Qed.
Theorem otl_object : forall kw, object_gradient 0 OTLCircuit (demo_gv [nk otl_circuit_grad]) kw 6 1.
Proof.
  intro kw. apply (demo_class 0 otl_lb otl_ub [nk otl_circuit] [nk otl_circuit_grad] nokw kw); [reflexivity| |reflexivity|].
  - unfold otl_lb, otl_ub. lits.
  - intros x Hx. one. apply gradient_within_exact; [lra|]. apply otl_box. auto.
Qed.
Theorem piston_object : forall kw, object_gradient 0 Piston (demo_gv [nk piston_grad]) kw 7 1.
Proof.
  intro kw. apply (demo_class 0 piston_lb piston_ub [nk piston] [nk piston_grad] nokw kw); [reflexivity| |reflexivity|].
  - unfold piston_lb, piston_ub. lits.
  - intros x Hx. one. apply gradient_within_exact; [lra|]. apply piston_box. auto.
Qed.
Theorem hartmann_object : forall kw, object_gradient 0 HartmannMHD (demo_gv [nk u_ave_grad; nk Bind_grad]) kw 4 2.
Proof.
  intro kw. apply (demo_class 0 hartmann_lb hartmann_ub [nk u_ave; nk Bind] [nk u_ave_grad; nk Bind_grad] nokw kw); [reflexivity| |reflexivity|].
  - unfold hartmann_lb, hartmann_ub. lits.
  - intros x Hx k f g E1 E2. destruct (hartmann_box x Hx) as [A B]. apply gradient_within_exact; [lra|].
    destruct k as [|[|k]]; [injection E1 as <-; injection E2 as <-; exact A|injection E1 as <-; injection E2 as <-; exact B|destruct k; discriminate].
Qed.
Theorem wing_object : forall kw, object_gradient (/ 10 ^ 14) WingWeight (demo_gv [nk wing_weight_grad]) kw 10 1.
Proof.
  intro kw. apply (demo_class (/ 10 ^ 14) wing_lb wing_ub [nk wing_weight] [nk wing_weight_grad] nokw kw); [reflexivity| |reflexivity|].
  - unfold wing_lb, wing_ub. lits.
  - intros x Hx. one. apply wing_box. auto.
Qed.
Theorem golinski_object : forall kw, object_gradient (/ 10 ^ 14) GolinskiGearbox (demo_gv gol_grads) kw 6 12.
Proof.
  intro kw. apply (demo_class (/ 10 ^ 14) gol_lb gol_ub gol_funs gol_grads nokw kw); [reflexivity| |reflexivity|].
  - unfold gol_lb, gol_ub. lits.
  - intros x Hx k f g E1 E2. pose proof (golinski_box x Hx k f g E1 E2) as H.
    assert (N : forall K, f K = f nokw /\ g K = g nokw); [|destruct (N (merge nokw kw)) as [-> ->]; exact H].
    intro K. clear - E1 E2. unfold gol_funs, gol_grads in *. do 12 (destruct k as [|k]; [injection E1 as <-; injection E2 as <-; split; reflexivity|]). destruct k; discriminate.
Qed.
(** the caller may override the constants of the beam by keyword arguments *)
Theorem beam_object : forall kw, 0 < kwget (merge BEAM kw) 2 beam_G -> 0 < kwget (merge BEAM kw) 3 beam_E -> kwget (merge BEAM kw) 4 beam_nu < 1 ->
  kwget (merge BEAM kw) 1 beam_L <> 0 -> object_gradient 0 NowackiBeam (demo_gv beam_grads) kw 2 7.
Proof.
  intros kw PG PE PN NL. apply (demo_class 0 beam_lb beam_ub beam_funs beam_grads BEAM kw); [reflexivity| |reflexivity|].
  - unfold beam_lb, beam_ub. lits.
  - intros x Hx k f g E1 E2. apply gradient_within_exact; [lra|]. apply (beam_box (merge BEAM kw) x Hx PG PE PN NL k f g E1 E2).
Qed.
(** without keyword arguments the constants of BEAM are used *)
Lemma beam_default : object_gradient 0 NowackiBeam (demo_gv beam_grads) nokw 2 7.
Proof. apply beam_object; unfold kwget, merge, nokw, BEAM; cbn [nth_error]; unfold beam_G, beam_E, beam_nu, beam_L; decs; lra. Qed.
Theorem robot_object : forall kw z, unit_cube 8 z -> robot_arm (unnormalize (map Fin robot_lb) (map Fin robot_ub) z) <> 0 ->
  object_gradient_at 0 RobotArm (demo_gv [nk robot_arm_grad]) kw 1 z.
Proof.
  intros kw z Hz N. apply (demo_class_point 0 robot_lb robot_ub [nk robot_arm] [nk robot_arm_grad] nokw kw); [reflexivity| |reflexivity| |exact Hz].
  - pose proof PI_RGT_0. unfold robot_lb, robot_ub. lits.
  - intros x [Lx Bx] E. rewrite <- E in N. clear Bx E. one. apply gradient_within_exact; [lra|]. unfold nk. cbn [length robot_lb] in Lx.
    destruct x as [|th1 [|th2 [|th3 [|th4 [|L1 [|L2 [|L3 [|L4 [|]]]]]]]]]; try discriminate. apply robot_arm_gradient. auto.
Qed.
Lemma repeat_lt : forall m i, (i < m)%nat -> vget (repeat (-1) m) i < vget (repeat 1 m) i.
Proof. intros m i H. unfold vget. rewrite (nth_indep (repeat (-1) m) 0 (-1)), nth_repeat, (nth_indep (repeat 1 m) 0 1), nth_repeat by (rewrite repeat_length; auto). lra. Qed.
Theorem affine_object : forall l c kw, object_gradient 0 (AffineFunction l c) (demo_gv [nk (affine_grad l)]) kw (length l) 1.
Proof.
  intros l c kw. pose proof (demo_class 0 (repeat (-1) (length l)) (repeat 1 (length l)) [nk (affine_fun l c)] [nk (affine_grad l)] nokw kw) as H.
  rewrite !repeat_length in H. apply H; auto.
  - intros i Hi. apply repeat_lt. auto.
  - intros x [Lx _]. rewrite repeat_length in Lx. one. apply gradient_within_exact; [lra|]. apply affine_gradient. auto.
Qed.
Theorem quad_object : forall Q l c kw, length Q = length l -> Forall (fun r => length r = length l) Q -> symmetric Q ->
  object_gradient 0 (QuadraticFunction Q l c) (demo_gv [nk (quad_grad Q l)]) kw (length l) 1.
Proof.
  intros Q l c kw LQ FQ SQ. pose proof (demo_class 0 (repeat (-1) (length l)) (repeat 1 (length l)) [nk (quad_fun Q l c)] [nk (quad_grad Q l)] nokw kw) as H.
  rewrite !repeat_length in H. apply H; auto.
  - intros i Hi. apply repeat_lt. auto.
  - intros x [Lx _]. rewrite repeat_length in Lx. one. apply gradient_within_exact; [lra|]. apply (quad_gradient_iff Q l c LQ FQ); auto.
Qed.

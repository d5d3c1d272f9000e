(** The Hartmann problem: the formulas of demos/hartmann.py against the equations of the flow. *)
Require Import Reals Lra Lia List.
From Verif Require Import RVec DemoModel.
Import ListNotations.
Local Open Scope R_scope.

(** the flow between two walls at y = -1 and y = 1: velocity u, induced field b (mu0 = 1, insulating walls), pressure gradient G.
    u1, u2, b1, b2 are the derivatives *)
Definition hartmann_flow (mu G eta B0 : R) (u u1 u2 b b1 b2 : R -> R) : Prop :=
  (forall y, -1 <= y <= 1 -> derivable_pt_lim u y (u1 y) /\ derivable_pt_lim u1 y (u2 y) /\ derivable_pt_lim b y (b1 y) /\ derivable_pt_lim b1 y (b2 y) /\
     mu * u2 y + B0 * b1 y + G = 0 /\ eta * b2 y + B0 * u1 y = 0) /\ u (-1) = 0 /\ u 1 = 0 /\ b (-1) = 0 /\ b 1 = 0.
(** v is the mean of f over [a, c] *)
Definition mean_on (f : R -> R) (a c v : R) : Prop := exists F, (forall y, a <= y <= c -> derivable_pt_lim F y (f y)) /\ (F c - F a) / (c - a) = v.

(* ---------------- tools ---------------- *)
Lemma dpl_ext : forall f x l l', derivable_pt_lim f x l -> l = l' -> derivable_pt_lim f x l'.
Proof. intros. subst. auto. Qed.
Lemma dl_lin : forall k y, derivable_pt_lim (fun t => k * t) y k.
Proof. intros k y. apply dpl_ext with (k * 1); [|ring]. apply (derivable_pt_lim_scal id k y 1). apply derivable_pt_lim_id. Qed.
Lemma dl_cosh : forall k y, derivable_pt_lim (fun t => cosh (k * t)) y (k * sinh (k * y)).
Proof. intros k y. apply dpl_ext with (sinh (k * y) * k); [|ring]. apply (derivable_pt_lim_comp (fun t => k * t) cosh y k (sinh (k * y))); [apply dl_lin|apply derivable_pt_lim_cosh]. Qed.
Lemma dl_sinh : forall k y, derivable_pt_lim (fun t => sinh (k * t)) y (k * cosh (k * y)).
Proof. intros k y. apply dpl_ext with (cosh (k * y) * k); [|ring]. apply (derivable_pt_lim_comp (fun t => k * t) sinh y k (cosh (k * y))); [apply dl_lin|apply derivable_pt_lim_sinh]. Qed.
Lemma dl_scal : forall c f y l, derivable_pt_lim f y l -> derivable_pt_lim (fun t => c * f t) y (c * l).
Proof. intros c f y l H. exact (derivable_pt_lim_scal f c y l H). Qed.
Lemma dl_plus : forall f g y l m, derivable_pt_lim f y l -> derivable_pt_lim g y m -> derivable_pt_lim (fun t => f t + g t) y (l + m).
Proof. intros f g y l m H K. exact (derivable_pt_lim_plus f g y l m H K). Qed.
Lemma dl_minus : forall f g y l m, derivable_pt_lim f y l -> derivable_pt_lim g y m -> derivable_pt_lim (fun t => f t - g t) y (l - m).
Proof. intros f g y l m H K. exact (derivable_pt_lim_minus f g y l m H K). Qed.
Lemma dl_mult : forall f g y l m, derivable_pt_lim f y l -> derivable_pt_lim g y m -> derivable_pt_lim (fun t => f t * g t) y (l * g y + f y * m).
Proof. intros f g y l m H K. exact (derivable_pt_lim_mult f g y l m H K). Qed.
Lemma dl_const : forall c y, derivable_pt_lim (fun _ => c) y 0.
Proof. intros c y. exact (derivable_pt_lim_const c y). Qed.
Lemma mvt : forall f f' a c, a < c -> (forall y, a <= y <= c -> derivable_pt_lim f y (f' y)) -> exists z, f c - f a = f' z * (c - a) /\ a < z < c.
Proof. intros f f' a c H D. apply (MVT_cor2 f f' a c H D). Qed.

(* ---------------- uniqueness ---------------- *)
Lemma flat : forall f f' a c, a < c -> (forall y, a <= y <= c -> derivable_pt_lim f y (f' y)) -> (forall y, a <= y <= c -> 0 <= f' y) -> f a = f c -> forall y, a <= y <= c -> f y = f a.
Proof.
  intros f f' a c H D P E y Hy. assert (U : forall s t, a <= s -> s <= t -> t <= c -> f s <= f t). { intros s t H1 H2 H3. destruct (Rle_lt_or_eq_dec s t H2) as [Lt|Eq]; [|subst; lra]. destruct (mvt f f' s t Lt) as (z & Ez & Hz); [intros; apply D; lra|]. specialize (P z ltac:(lra)). nra. }
  pose proof (U a y ltac:(lra) ltac:(lra) ltac:(lra)). pose proof (U y c ltac:(lra) ltac:(lra) ltac:(lra)). lra.
Qed.
Lemma flat_der : forall f f' a c, a < c -> (forall y, a <= y <= c -> derivable_pt_lim f y (f' y)) -> (forall y, a <= y <= c -> f y = f a) -> forall y, a < y < c -> f' y = 0.
Proof.
  intros f f' a c H D C y Hy. apply (uniqueness_limite f y); [apply D; lra|]. intros eps He. assert (Hd : 0 < Rmin (y - a) (c - y)) by (apply Rmin_pos; lra). exists (mkposreal _ Hd). intros h Hh Lh. simpl in Lh. pose proof (Rmin_l (y - a) (c - y)). pose proof (Rmin_r (y - a) (c - y)). apply Rabs_def2 in Lh. rewrite (C (y + h)), (C y) by lra. replace ((f a - f a) / h - 0) with 0 by (unfold Rdiv; ring). rewrite Rabs_R0. auto.
Qed.
Lemma zero_flow : forall mu eta B0 u u1 u2 b b1 b2, 0 < mu -> 0 < eta -> hartmann_flow mu 0 eta B0 u u1 u2 b b1 b2 -> forall y, -1 <= y <= 1 -> u y = 0 /\ b y = 0.
Proof.
  intros mu eta B0 u u1 u2 b b1 b2 Hm He (D & E1 & E2 & E3 & E4). set (P := fun y => mu * (u y * u1 y) + eta * (b y * b1 y) + B0 * (u y * b y)). set (P' := fun y => mu * (u1 y * u1 y) + eta * (b1 y * b1 y)).
  assert (DP : forall y, -1 <= y <= 1 -> derivable_pt_lim P y (P' y)).
  { intros y Hy. destruct (D y Hy) as (A & B & C & F & G1 & G2). eapply dpl_ext; [apply dl_plus; [apply dl_plus; [apply dl_scal, dl_mult; eauto|apply dl_scal, dl_mult; eauto]|apply dl_scal, dl_mult; eauto]|]. unfold P'.
    replace (mu * (u1 y * u1 y + u y * u2 y) + eta * (b1 y * b1 y + b y * b2 y) + B0 * (u1 y * b y + u y * b1 y)) with (mu * (u1 y * u1 y) + eta * (b1 y * b1 y) + u y * (mu * u2 y + B0 * b1 y + 0) + b y * (eta * b2 y + B0 * u1 y)) by ring. rewrite G1, G2. ring. }
  assert (PP : forall y, -1 <= y <= 1 -> 0 <= P' y) by (intros y _; unfold P'; pose proof (Rle_0_sqr (u1 y)); pose proof (Rle_0_sqr (b1 y)); unfold Rsqr in *; nra).
  assert (FP : forall y, -1 <= y <= 1 -> P y = P (-1)) by (apply (flat P P' (-1) 1); auto; [lra|unfold P; rewrite E1, E2, E3, E4; ring]).
  assert (Z : forall y, -1 < y < 1 -> u1 y = 0 /\ b1 y = 0).
  { intros y Hy. pose proof (flat_der P P' (-1) 1 ltac:(lra) DP FP y Hy) as Q. unfold P' in Q. pose proof (Rle_0_sqr (u1 y)) as S1. pose proof (Rle_0_sqr (b1 y)) as S2. unfold Rsqr in *. split; apply Rsqr_0_uniq; unfold Rsqr; nra. }
  intros y Hy. destruct (Req_dec y (-1)) as [->|N]; [auto|]. split.
  - destruct (mvt u u1 (-1) y ltac:(lra)) as (z & Ez & Hz); [intros t Ht; apply (D t); lra|]. rewrite (proj1 (Z z ltac:(lra))) in Ez. lra.
  - destruct (mvt b b1 (-1) y ltac:(lra)) as (z & Ez & Hz); [intros t Ht; apply (D t); lra|]. rewrite (proj2 (Z z ltac:(lra))) in Ez. lra.
Qed.
Lemma flow_unique : forall mu G eta B0 u u1 u2 b b1 b2 v v1 v2 c c1 c2, 0 < mu -> 0 < eta -> hartmann_flow mu G eta B0 u u1 u2 b b1 b2 -> hartmann_flow mu G eta B0 v v1 v2 c c1 c2 -> forall y, -1 <= y <= 1 -> u y = v y /\ b y = c y.
Proof.
  intros mu G eta B0 u u1 u2 b b1 b2 v v1 v2 c c1 c2 Hm He (D & A1 & A2 & A3 & A4) (E & B1 & B2 & B3 & B4) y Hy.
  destruct (zero_flow mu eta B0 (fun t => u t - v t) (fun t => u1 t - v1 t) (fun t => u2 t - v2 t) (fun t => b t - c t) (fun t => b1 t - c1 t) (fun t => b2 t - c2 t) Hm He) with (y := y) as [Q1 Q2]; auto; [|split; lra].
  split; [|repeat split; lra]. intros t Ht. destruct (D t Ht) as (D1 & D2 & D3 & D4 & D5 & D6). destruct (E t Ht) as (F1 & F2 & F3 & F4 & F5 & F6). repeat (split; [apply dl_minus; auto|]). split; lra.
Qed.

(* ---------------- the solution ---------------- *)
Section Sol.
Variables mu G eta B0 : R.
Hypothesis Hm : 0 < mu. Hypothesis He : 0 < eta. Hypothesis HB : 0 < B0.
Let k := B0 / sqrt (eta * mu).
Let A := G * eta / B0 ^ 2 * k * cosh k / sinh k.
Let u y := A * (1 - / cosh k * cosh (k * y)).
Let u1 y := - A * k / cosh k * sinh (k * y).
Let u2 y := - A * k ^ 2 / cosh k * cosh (k * y).
Let u3 y := - A * k ^ 3 / cosh k * sinh (k * y).
Let b y := - / B0 * (G * y + mu * u1 y).
Let b1 y := - / B0 * (G + mu * u2 y).
Let b2 y := - / B0 * (mu * u3 y).
Lemma sq_pos : 0 < sqrt (eta * mu). Proof. apply sqrt_lt_R0. apply Rmult_lt_0_compat; auto. Qed.
Lemma k_pos : 0 < k. Proof. unfold k. apply Rdiv_lt_0_compat; auto. apply sq_pos. Qed.
Lemma k_sq : k ^ 2 * (eta * mu) = B0 ^ 2.
Proof. unfold k. pose proof sq_pos. replace (eta * mu) with (sqrt (eta * mu) * sqrt (eta * mu)) at 2 by (apply sqrt_sqrt; nra). field. lra. Qed.
Lemma ch_pos : forall x, 0 < cosh x. Proof. intro x. unfold cosh. pose proof (exp_pos x). pose proof (exp_pos (- x)). lra. Qed.
Lemma sh_pos : forall x, 0 < x -> 0 < sinh x. Proof. intros x H. unfold sinh. pose proof (exp_increasing (- x) x ltac:(lra)). lra. Qed.
Lemma sh_odd : forall x, sinh (- x) = - sinh x. Proof. intro x. unfold sinh. rewrite Ropp_involutive. field. Qed.
Lemma ch_even : forall x, cosh (- x) = cosh x. Proof. intro x. unfold cosh. rewrite Ropp_involutive. field. Qed.
Lemma wall_u1 : mu * u1 1 = - G.
Proof.
  unfold u1, A. rewrite Rmult_1_r. pose proof (ch_pos k). pose proof (sh_pos k k_pos). replace (mu * (- (G * eta / B0 ^ 2 * k * cosh k / sinh k) * k / cosh k * sinh k)) with (- G * (k ^ 2 * (eta * mu)) / B0 ^ 2) by (field; repeat split; lra). rewrite k_sq. field. lra.
Qed.
Lemma u1_odd : forall y, u1 (- y) = - u1 y.
Proof. intro y. unfold u1. replace (k * - y) with (- (k * y)) by ring. rewrite sh_odd. ring. Qed.
Lemma d_u : forall y, derivable_pt_lim u y (u1 y).
Proof. intro y. unfold u. eapply dpl_ext; [apply dl_scal, dl_minus; [apply dl_const|apply dl_scal, dl_cosh]|]. unfold u1. field. pose proof (ch_pos k). lra. Qed.
Lemma d_u1 : forall y, derivable_pt_lim u1 y (u2 y).
Proof. intro y. unfold u1. eapply dpl_ext; [apply dl_scal, dl_sinh|]. unfold u2. field. pose proof (ch_pos k). lra. Qed.
Lemma d_u2 : forall y, derivable_pt_lim u2 y (u3 y).
Proof. intro y. unfold u2. eapply dpl_ext; [apply dl_scal, dl_cosh|]. unfold u3. field. pose proof (ch_pos k). lra. Qed.
Lemma sol_flow : hartmann_flow mu G eta B0 u u1 u2 b b1 b2.
Proof.
  split; [|split; [|split; [|split]]].
  - intros y Hy. split; [apply d_u|]. split; [apply d_u1|]. split; [apply dl_scal, dl_plus; [apply dl_lin|apply dl_scal, d_u1]|]. split; [unfold b1; eapply dpl_ext; [apply dl_scal, dl_plus; [apply dl_const|apply dl_scal, d_u2]|unfold b2; ring]|].
    split; [unfold b1; field; lra|]. unfold b2. assert (E3 : u3 y = k ^ 2 * u1 y) by (unfold u3, u1; field; pose proof (ch_pos k); lra). rewrite E3. replace (eta * (- / B0 * (mu * (k ^ 2 * u1 y))) + B0 * u1 y) with (u1 y * (B0 - (k ^ 2 * (eta * mu)) / B0)) by (field; lra). rewrite k_sq. field. lra.
  - unfold u. replace (k * -1) with (- k) by ring. rewrite ch_even. field. pose proof (ch_pos k). lra.
  - unfold u. rewrite Rmult_1_r. field. pose proof (ch_pos k). lra.
  - unfold b. replace (-1) with (- (1)) by ring. rewrite u1_odd. replace (G * - (1) + mu * - u1 1) with (- (G + mu * u1 1)) by ring. rewrite wall_u1. ring.
  - unfold b. rewrite wall_u1. ring.
Qed.
Lemma sol_mean_u : exists F, (forall y, derivable_pt_lim F y (u y)) /\ (F 1 - F (-1)) / (1 - -1) = u_ave_ mu G eta B0.
Proof.
  pose proof (ch_pos k) as Hc. pose proof k_pos as Hk. pose proof (sh_pos k Hk) as Hs. exists (fun y => A * (1 * y - / cosh k * / k * sinh (k * y))). split.
  - intro y. eapply dpl_ext; [apply dl_scal, dl_minus; [apply dl_lin|apply dl_scal, dl_sinh]|]. unfold u. field. lra.
  - replace (k * -1) with (- k) by ring. rewrite sh_odd, !Rmult_1_r. unfold u_ave_. cbv zeta. replace (B0 * 1 / sqrt (eta * mu)) with k by (unfold k, Rdiv; ring). unfold tanh, A. field. repeat split; lra.
Qed.
Lemma half_tanh : cosh k / sinh k * (1 - / cosh k) = tanh (k / 2).
Proof.
  pose proof (ch_pos k) as Hc. pose proof (sh_pos k k_pos) as Hs. pose proof (ch_pos (k / 2)) as Hc2. assert (Hs2 : 0 < sinh (k / 2)) by (apply sh_pos; pose proof k_pos; lra).
  set (e := exp (k / 2)). assert (Pe : 0 < e) by apply exp_pos. assert (E1 : exp k = e * e) by (unfold e; rewrite <- exp_plus; f_equal; field). assert (E2 : exp (- (k / 2)) = / e) by (unfold e; apply exp_Ropp). assert (E3 : exp (- k) = / e * / e) by (rewrite <- E2, <- exp_plus; f_equal; field).
  assert (H1 : 1 < e). { unfold e. rewrite <- exp_0. apply exp_increasing. pose proof k_pos. lra. }
  unfold tanh. replace (cosh k / sinh k * (1 - / cosh k)) with ((cosh k - 1) / sinh k) by (field; lra).
  assert (X : (cosh k - 1) * cosh (k / 2) = sinh (k / 2) * sinh k) by (unfold sinh, cosh; fold e; rewrite E1, E2, E3; field; lra).
  apply (Rmult_eq_reg_r (sinh k * cosh (k / 2))); [|apply Rgt_not_eq, Rmult_lt_0_compat; auto]. replace ((cosh k - 1) / sinh k * (sinh k * cosh (k / 2))) with ((cosh k - 1) * cosh (k / 2)) by (field; lra). rewrite X. field. lra.
Qed.
Lemma sol_mean_b : exists F, (forall y, derivable_pt_lim F y (b y)) /\ (F 0 - F (-1)) / (0 - -1) = Bind_ mu G eta B0.
Proof.
  pose proof (ch_pos k) as Hc. pose proof k_pos as Hk. pose proof (sh_pos k Hk) as Hs. exists (fun y => - / B0 * (G / 2 * (y * y) + mu * u y)). split.
  - intro y. eapply dpl_ext; [apply dl_scal, dl_plus; [apply dl_scal, (dl_mult id id); apply derivable_pt_lim_id|apply dl_scal, d_u]|]. unfold b, id. field. lra.
  - assert (U1 : u (-1) = 0) by (unfold u; replace (k * -1) with (- k) by ring; rewrite ch_even; field; lra). rewrite U1. assert (U0 : mu * u 0 = G / k * tanh (k / 2)).
    { rewrite <- half_tanh. unfold u. rewrite Rmult_0_r, cosh_0. unfold A. replace (mu * (G * eta / B0 ^ 2 * k * cosh k / sinh k * (1 - / cosh k * 1))) with (G * (k ^ 2 * (eta * mu)) / B0 ^ 2 / k * (cosh k / sinh k * (1 - / cosh k))) by (field; repeat split; lra). rewrite k_sq. field. repeat split; lra. }
    rewrite U0. unfold Bind_. cbv zeta. pose proof sq_pos as Hq. replace (B0 * 1 / (2 * sqrt (eta * mu))) with (k / 2) by (unfold k; field; lra). replace (2 * sqrt (eta * mu) / (B0 * 1)) with (2 / k) by (unfold k; field; lra). field. lra.
Qed.
End Sol.
(** the equations have exactly one solution on [-1, 1], its mean velocity is u_ave and the mean of the induced field over the lower half is Bind *)
Theorem hartmann_equations : forall mu G eta B0, 0 < mu -> 0 < eta -> 0 < B0 ->
  (exists u u1 u2 b b1 b2, hartmann_flow mu G eta B0 u u1 u2 b b1 b2) /\
  forall u u1 u2 b b1 b2, hartmann_flow mu G eta B0 u u1 u2 b b1 b2 -> mean_on u (-1) 1 (u_ave [mu; G; eta; B0]) /\ mean_on b (-1) 0 (Bind [mu; G; eta; B0]).
Proof.
  intros mu G eta B0 Hm He HB. pose proof (sol_flow mu G eta B0 Hm He HB) as S. split; [do 6 eexists; exact S|]. intros u u1 u2 b b1 b2 H. pose proof (flow_unique _ _ _ _ _ _ _ _ _ _ _ _ _ _ _ _ Hm He H S) as Q.
  split; [destruct (sol_mean_u mu G eta B0 Hm He HB) as (F & D & E)|destruct (sol_mean_b mu G eta B0 Hm He HB) as (F & D & E)]; exists F; (split; [|exact E]); intros y Hy; [rewrite (proj1 (Q y ltac:(lra)))|rewrite (proj2 (Q y ltac:(lra)))]; apply D.
Qed.
(** the hypotheses hold on the domain *)
Example hartmann_equations_case : 0 < 0.1 /\ 0 < 1 /\ 0 < 0.5 /\ 0.05 <= 0.1 <= 0.2 /\ 0.1 <= 0.5 <= 1.
Proof. lra. Qed.

(** Integrals of the truncated normal and log-normal densities in one dimension; the estimated volume. *)
Require Import Reals Lra Lia List Bool Arith.
From Verif Require Import RVec Num Sums MatLib GrassLib SpecProofs DomModel DomSpec DomProofs DomMoreModel QuadProofs PredModel CholProofs RandModel RandProofs DensModel DensProofs.
Import ListNotations.
Local Open Scope R_scope.

(** density of the standard normal distribution *)
Definition phi (z : R) : R := exp (- (z * z / 2)) / sqrt (2 * PI).
Lemma s2pi : 0 < sqrt (2 * PI). Proof. apply sqrt_lt_R0. pose proof PI_RGT_0. lra. Qed.
Lemma nd_cont : forall m c x, continuity_pt (normal_density m c) x.
Proof.
  intros m c x. apply derivable_continuous_pt. unfold normal_density. set (k := sqrt (2 * PI * c)). unfold Rdiv. set (k1 := / k). set (k2 := / (2 * c)). reg.
Qed.
Lemma phi_nd : forall z, phi z = normal_density 0 1 z.
Proof. intro z. unfold phi, normal_density. f_equal; [|f_equal; ring]. f_equal. field. Qed.
Lemma phi_cont : forall x, continuity_pt phi x.
Proof. intro x. apply derivable_continuous_pt. unfold phi. set (k := sqrt (2 * PI)). unfold Rdiv. set (k1 := / k). set (k2 := / 2). reg. Qed.
Lemma is_int_ext : forall f g a b I, a <= b -> (forall x, a <= x <= b -> f x = g x) -> is_int f a b I -> is_int g a b I.
Proof.
  intros f g a b I AB E [p <-]. assert (P : Riemann_integrable g a b) by (refine (@Riemann_integrable_ext f g a b _ p); intros x Hx; rewrite Rmin_left, Rmax_right in Hx by auto; auto).
  exists P. apply RiemannInt_P18; auto. intros x Hx. symmetry. apply E. lra.
Qed.
(** scaling and shift *)
Lemma int_affine : forall f a b I mu sg, a <= b -> 0 < sg -> (forall x, continuity_pt f x) -> is_int f a b I -> is_int (fun x => f ((x - mu) / sg) / sg) (mu + sg * a) (mu + sg * b) I.
Proof.
  intros f a b I mu sg AB S C HI. destruct (int_has_antider f a b I AB ltac:(auto) HI) as (G & D & ->).
  assert (IN : forall x, mu + sg * a <= x <= mu + sg * b -> a <= (x - mu) / sg <= b).
  { intros x Hx. split; apply (Rmult_le_reg_r sg); auto; replace ((x - mu) / sg * sg) with (x - mu) by (field; lra); lra. }
  replace (G b - G a) with ((fun x => G ((x - mu) / sg)) (mu + sg * b) - (fun x => G ((x - mu) / sg)) (mu + sg * a)) by (cbv beta; f_equal; [f_equal; field; lra|]; f_equal; f_equal; field; lra).
  assert (DL : forall x, derivable_pt_lim (fun x => (x - mu) / sg) x (1 / sg)).
  { intro x. replace (1 / sg) with ((1 - 0) * / sg) by (unfold Rdiv; ring). unfold Rdiv. apply (derivable_pt_lim_ext (mult_real_fct (/ sg) (fun x => x - mu))); [intro z; unfold mult_real_fct; ring|]. rewrite Rmult_comm. apply derivable_pt_lim_scal. apply (derivable_pt_lim_minus id (fct_cte mu)); [apply derivable_pt_lim_id|apply derivable_pt_lim_const]. }
  apply (int_antider (fun x => f ((x - mu) / sg) / sg) (fun x => G ((x - mu) / sg))); [nra| |].
  - intros x Hx. apply (continuity_pt_mult (fun x => f ((x - mu) / sg)) (fct_cte (/ sg))); [|apply continuity_pt_const; intros ? ?; reflexivity]. apply (continuity_pt_comp (fun x => (x - mu) / sg) f); auto. apply derivable_continuous_pt. exists (1 / sg). apply DL.
  - intros x Hx. replace (f ((x - mu) / sg) / sg) with (f ((x - mu) / sg) * (1 / sg)) by (unfold Rdiv; ring). apply (derivable_pt_lim_comp (fun x => (x - mu) / sg) G); auto.
Qed.
(* ---------------- one-dimensional truncated normal ---------------- *)
Lemma ent1 : forall v, ent [[v]] 0 0 = v. Proof. reflexivity. Qed.
Lemma sq1 : forall L, sq_mat 1 L -> exists s, L = [[s]].
Proof. intros L [A B]. destruct L as [|r [|]]; try discriminate A. inversion B as [|? ? Lr _]; subst. destruct r as [|s [|]]; try discriminate Lr. exists s. auto. Qed.
Lemma normal1 : forall chol tinv v, chol_spec chol -> tinv_spec tinv -> 0 < v -> chol [[v]] = [[sqrt v]] /\ tinv [[sqrt v]] = [[1 / sqrt v]] /\ chol_ok 1 [[v]] [[sqrt v]].
Proof.
  intros chol tinv v CS TS V. assert (SV : 0 < sqrt v) by (apply sqrt_lt_R0; auto). assert (SS : sqrt v * sqrt v = v) by (apply sqrt_sqrt; lra).
  assert (OK : chol_ok 1 [[v]] [[sqrt v]]).
  { split; [split; auto; repeat constructor|]. split; [intros i j Hi Hj HH; lia|]. split; [intros i Hi; replace i with 0%nat by lia; exact SV|]. intros i j Hi Hj. replace i with 0%nat by lia. replace j with 0%nat by lia. cbn. rewrite !dot_cons, !dot_nil_l. unfold ent, vget. cbn. lra. }
  assert (FA : factors 1 [[v]]) by (split; [split; auto; repeat constructor|exists [[sqrt v]]; auto]). pose proof (CS 1%nat _ FA) as C. assert (EC : chol [[v]] = [[sqrt v]]).
  { pose proof C as (SL & _ & P & G). destruct (sq1 _ SL) as [s E]. rewrite E in *. specialize (P 0%nat ltac:(lia)). specialize (G 0%nat 0%nat ltac:(lia) ltac:(lia)). revert P G. unfold ent, vget. cbn. rewrite !dot_cons, !dot_nil_l. intros P G. replace s with (sqrt v); auto. apply sqrt_lem_1; lra. }
  split; auto. split; auto. pose proof (TS 1%nat _ _ OK) as [SI H]. destruct (sq1 _ SI) as [s E]. rewrite E in *. specialize (H [1] eq_refl). revert H. unfold mv. cbn. rewrite !dot_cons, !dot_nil_l. intro H. injection H as H. assert (s * sqrt v = 1) by lra. replace s with (1 / sqrt v); auto. apply (Rmult_eq_reg_r (sqrt v)); [|lra]. rewrite H0. field. lra.
Qed.
Section N1.
  Variables chol tinv : mat -> mat.
  Variable isf : R -> nat -> R.
  Variable det : mat -> R.
  Hypothesis CS : chol_spec chol.
  Hypothesis TS : tinv_spec tinv.
  Hypothesis DS : det_spec det.
  Variables mu v : R.
  Hypothesis V : 0 < v.
  Let sg := sqrt v.
  Lemma n1_sg : 0 < sg. Proof. apply sqrt_lt_R0. auto. Qed.
  Lemma n1_det : Rabs (det [[v]]) = v.
  Proof.
    destruct (normal1 chol tinv v CS TS V) as (_ & _ & OK). rewrite (DS 1%nat [[v]] [[sqrt v]]); auto; [|split; auto; repeat constructor]. cbn [seq map vprod fold_right]. rewrite !ent1. rewrite !Rmult_1_r. rewrite sqrt_sqrt by lra. apply Rabs_right. lra.
  Qed.
  Lemma n1_d2 : forall x t, norm2sq (mv (n_Linv (normal_new chol tinv isf [mu] [[v]] t)) (vsub [x] [mu])) = (x - mu) / sg * ((x - mu) / sg).
  Proof.
    intros x t. destruct (normal1 chol tinv v CS TS V) as (EC & ET & _). unfold normal_new. cbn [n_Linv]. rewrite EC, ET. unfold norm2sq, mv, vsub. cbn. rewrite !dot_cons, !dot_nil_l. unfold sg, Rdiv. ring.
  Qed.
  Lemma n1_pdf : forall x, normal_pdf det (normal_new chol tinv isf [mu] [[v]] None) 0 [x] = phi ((x - mu) / sg) / sg.
  Proof.
    intro x. unfold normal_pdf. rewrite n1_d2. cbn [n_trunc normal_new n_mean n_cov]. rewrite n1_det. cbn [length pow]. rewrite Rmult_1_r. pose proof n1_sg as S. pose proof s2pi as S2.
    rewrite sqrt_mult by (pose proof PI_RGT_0; lra). fold sg. unfold phi. replace (- (1 / 2) * ((x - mu) / sg * ((x - mu) / sg))) with (- ((x - mu) / sg * ((x - mu) / sg) / 2)) by (unfold Rdiv; ring). field. split; lra.
  Qed.
  Lemma n1_inside : forall x t tol, 0 < isf t 1%nat -> (inside1 (ndom_dom (normal_new chol tinv isf [mu] [[v]] (Some t))) [x] tol = true <-> Rabs (x - mu) <= sg * (sqrt (isf t 1%nat) + tol)).
  Proof.
    intros x t tol P. destruct (normal1 chol tinv v CS TS V) as (EC & ET & _). pose proof n1_sg as S. unfold ndom_dom. rewrite (normal_inside 1).
    - cbn [n_mean n_Linv n_clip normal_new length]. rewrite EC, ET. assert (E : norm2 (mv [[1 / sqrt v]] (vsub [x] [mu])) = Rabs (x - mu) / sg).
      { unfold norm2, norm2sq, mv, vsub. cbn. rewrite !dot_cons, !dot_nil_l. rewrite Rplus_0_r. fold (Rsqr (1 / sqrt v * (x - mu) + 0)). rewrite sqrt_Rsqr_abs. rewrite Rplus_0_r, Rabs_mult. rewrite (Rabs_right (1 / sqrt v)); [unfold sg, Rdiv; ring|]. fold sg. apply Rle_ge. apply Rlt_le. apply Rdiv_lt_0_compat; lra. }
      rewrite E. split.
      + intros [_ H]. specialize (H _ eq_refl). apply (Rmult_le_compat_r sg) in H; [|lra]. replace (Rabs (x - mu) / sg * sg) with (Rabs (x - mu)) in H by (field; lra). lra.
      + intro H. split; auto. intros c Hc. injection Hc as <-. apply (Rmult_le_reg_r sg); auto. replace (Rabs (x - mu) / sg * sg) with (Rabs (x - mu)) by (field; lra). lra.
    - reflexivity.
    - cbn [n_Linv normal_new]. rewrite EC, ET. split; [reflexivity|repeat constructor].
    - cbn [n_clip normal_new]. intros c Hc. injection Hc as <-. exact P.
  Qed.
  (** the truncated density has integral one over the truncated domain, and vanishes where isinside refuses *)
  Theorem n1_integral : forall t tol, t < 1 -> 0 <= tol -> 0 < isf t 1%nat -> is_int phi (- sqrt (isf t 1%nat)) (sqrt (isf t 1%nat)) (1 - t) -> let d := normal_new chol tinv isf [mu] [[v]] (Some t) in
    is_int (fun x => normal_pdf det d tol [x]) (mu - sqrt v * sqrt (isf t 1%nat)) (mu + sqrt v * sqrt (isf t 1%nat)) 1 /\ (forall x, sqrt v * (sqrt (isf t 1%nat) + tol) < Rabs (x - mu) -> normal_pdf det d tol [x] = 0).
  Proof.
    intros t tol T1 T0 P HI d. set (c := isf t 1%nat) in *. pose proof n1_sg as S. assert (SC : 0 < sqrt c) by (apply sqrt_lt_R0; auto). fold sg. split.
    - pose proof (int_affine phi (- sqrt c) (sqrt c) (1 - t) mu sg ltac:(lra) S phi_cont HI) as H. replace (mu - sg * sqrt c) with (mu + sg * - sqrt c) by ring. apply (int_scal _ _ _ _ (/ (1 - t))) in H; [| nra |].
      + replace (/ (1 - t) * (1 - t)) with 1 in H by (field; lra). revert H. apply is_int_ext; [nra|]. intros x Hx. unfold normal_pdf. cbn [n_trunc d normal_new]. replace (inside1 (ndom_dom d) [x] tol) with true.
        * rewrite <- n1_pdf. unfold normal_pdf, Rdiv. cbn [n_trunc normal_new n_mean n_cov n_Linv d]. ring.
        * symmetry. apply n1_inside; auto. fold c. assert (Rabs (x - mu) <= sg * sqrt c) by (apply Rabs_le; lra). nra.
      + intros x Hx. apply (continuity_pt_mult (fun x => phi ((x - mu) / sg)) (fct_cte (/ sg))); [|apply continuity_pt_const; intros ? ?; reflexivity]. apply (continuity_pt_comp (fun x => (x - mu) / sg) phi); [|apply phi_cont]. apply (continuity_pt_mult (fun x => x - mu) (fct_cte (/ sg))); [|apply continuity_pt_const; intros ? ?; reflexivity]. apply (continuity_pt_minus id (fct_cte mu)); [apply derivable_continuous_pt; apply derivable_pt_id|apply continuity_pt_const; intros ? ?; reflexivity].
    - intros x Hx. unfold normal_pdf. cbn [n_trunc d normal_new]. destruct (inside1 (ndom_dom d) [x] tol) eqn:E; [|unfold Rdiv; ring]. apply n1_inside in E; auto. fold c in E. lra.
  Qed.
End N1.
Theorem normal_integral : forall chol tinv isf det mu v t tol, chol_spec chol -> tinv_spec tinv -> det_spec det -> 0 < v -> t < 1 -> 0 <= tol -> 0 < isf t 1%nat -> is_int phi (- sqrt (isf t 1%nat)) (sqrt (isf t 1%nat)) (1 - t) -> let d := normal_new chol tinv isf [mu] [[v]] (Some t) in
  is_int (fun x => normal_pdf det d tol [x]) (mu - sqrt v * sqrt (isf t 1%nat)) (mu + sqrt v * sqrt (isf t 1%nat)) 1 /\ (forall x, sqrt v * (sqrt (isf t 1%nat) + tol) < Rabs (x - mu) -> normal_pdf det d tol [x] = 0).
Proof. intros chol tinv isf det mu v t tol CS TS DS V T1 T0 P HI. apply n1_integral; auto. Qed.
(* ---------------- truncated log-normal ---------------- *)
(** the density is not divided by 1 - t; the integral over the truncated domain is (scaling/sqrt(cov)) (1 - t) *)
Theorem logn_integral : forall mean cov offset scaling nlb nub t lo hi, 0 < cov -> 0 < scaling -> nlb <= nub -> is_int (normal_density mean cov) nlb nub (1 - t) -> logn_lb offset scaling (Some (nlb, nub)) = Fin lo -> logn_ub offset scaling (Some (nlb, nub)) = Fin hi ->
  is_int (logn_pdf mean cov offset scaling) lo hi (scaling / sqrt cov * (1 - t)).
Proof.
  intros mean cov o s nlb nub t lo hi C S NB HI EL EU. cbn in EL, EU. injection EL as <-. injection EU as <-. pose proof s2pi as S2. assert (SC : 0 < sqrt cov) by (apply sqrt_lt_R0; auto). assert (SS : sqrt cov * sqrt cov = cov) by (apply sqrt_sqrt; lra).
  destruct (int_has_antider _ _ _ _ NB (fun x _ => nd_cont mean cov x) HI) as (G & D & ->).
  assert (EX : exp nlb <= exp nub) by (destruct NB as [NB| ->]; [apply Rlt_le, exp_increasing; auto|lra]).
  set (g := fun x => ln ((x - o) / s)). set (F := mult_real_fct (s / sqrt cov) (fun x => G (g x))).
  assert (PX : forall x, o + s * exp nlb <= x <= o + s * exp nub -> exp nlb <= (x - o) / s <= exp nub) by (intros x Hx; split; apply (Rmult_le_reg_r s); auto; replace ((x - o) / s * s) with (x - o) by (field; lra); lra).
  assert (PG : forall x, o + s * exp nlb <= x <= o + s * exp nub -> nlb <= g x <= nub).
  { intros x Hx. destruct (PX x Hx) as [A B]. pose proof (exp_pos nlb). pose proof (exp_pos nub). unfold g. rewrite <- (ln_exp nlb), <- (ln_exp nub). split; [destruct A as [A|<-]; [apply Rlt_le, ln_increasing; auto|lra]|destruct B as [B| ->]; [apply Rlt_le, ln_increasing; auto; lra|lra]]. }
  assert (DG : forall x, o + s * exp nlb <= x <= o + s * exp nub -> derivable_pt_lim g x (1 / (x - o))).
  { intros x Hx. destruct (PX x Hx) as [A _]. pose proof (exp_pos nlb). assert (0 < (x - o) / s) by lra. assert (0 < x - o) by (replace (x - o) with ((x - o) / s * s) by (field; lra); nra). replace (1 / (x - o)) with (/ ((x - o) / s) * (/ s)) by (field; lra). apply (derivable_pt_lim_comp (fun x => (x - o) / s) ln); [|apply derivable_pt_lim_ln; auto].
    apply (derivable_pt_lim_ext (mult_real_fct (/ s) (fun x => x - o))); [intro z; unfold mult_real_fct, Rdiv; ring|]. replace (/ s) with (/ s * (1 - 0)) at 2 by ring. apply derivable_pt_lim_scal. apply (derivable_pt_lim_minus id (fct_cte o)); [apply derivable_pt_lim_id|apply derivable_pt_lim_const]. }
  assert (GE : forall y, g (o + s * exp y) = y) by (intro y; unfold g; replace ((o + s * exp y - o) / s) with (exp y) by (field; lra); apply ln_exp).
  assert (FE : s / sqrt cov * (G nub - G nlb) = F (o + s * exp nub) - F (o + s * exp nlb)) by (unfold F, mult_real_fct; rewrite !GE; ring). rewrite FE.
  assert (PD : forall x, o + s * exp nlb <= x <= o + s * exp nub -> logn_pdf mean cov o s x = s / sqrt cov * (normal_density mean cov (g x) * (1 / (x - o)))).
  { intros x Hx. destruct (PX x Hx) as [A _]. pose proof (exp_pos nlb). assert (0 < (x - o) / s) by lra. assert (0 < x - o) by (replace (x - o) with ((x - o) / s * s) by (field; lra); nra). unfold logn_pdf, normal_density. cbv zeta. change (ln ((x - o) / s)) with (g x). rewrite (sqrt_mult (2 * PI) cov) by (pose proof PI_RGT_0; lra). set (E := exp _). replace ((x - o) / s * cov * sqrt (2 * PI)) with ((x - o) / s * (sqrt cov * sqrt cov) * sqrt (2 * PI)) by (rewrite SS; reflexivity). field. repeat split; lra. }
  assert (LE : o + s * exp nlb <= o + s * exp nub) by nra.
  apply (is_int_ext (fun x => s / sqrt cov * (normal_density mean cov (g x) * (1 / (x - o))))); [exact LE|intros x Hx; symmetry; apply PD; auto|]. apply (int_antider _ F); [exact LE| |].
  - intros x Hx. apply (continuity_pt_scal (fun x => normal_density mean cov (g x) * (1 / (x - o))) (s / sqrt cov) x). apply continuity_pt_mult.
    + apply (continuity_pt_comp g (normal_density mean cov)); [|apply nd_cont]. apply derivable_continuous_pt. exists (1 / (x - o)). apply DG; auto.
    + destruct (PX x Hx) as [A _]. pose proof (exp_pos nlb). assert (0 < (x - o) / s) by lra. assert (0 < x - o) by (replace (x - o) with ((x - o) / s * s) by (field; lra); nra). apply (continuity_pt_div (fct_cte 1) (fun x => x - o)); [apply continuity_pt_const; intros ? ?; reflexivity| |lra]. apply (continuity_pt_minus id (fct_cte o)); [apply derivable_continuous_pt, derivable_pt_id|apply continuity_pt_const; intros ? ?; reflexivity].
  - intros x Hx. unfold F. apply derivable_pt_lim_scal. apply (derivable_pt_lim_comp g G); [apply DG; auto|apply D, PG; auto].
Qed.

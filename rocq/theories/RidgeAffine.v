(** polyridge.py _fit_affine: the direction comes from the best affine fit of the data, with the two one-sided bounds
    interchanged. *)
Require Import Reals Lra Lia List Bool Arith.
From Verif Require Import RVec Num Sums DomModel DomMoreModel SweepProofs HullProofs HullIneqProofs NormProofs TensorProofs BasisModel MatLib LipModel GrassLib SubModel RidgeModel RidgeProofs TrajProofs VarproLib VarproProofs RidgeFitProofs.
Import ListNotations.
Local Open Scope R_scope.

(** values of x |-> g.x + e at the samples *)
Definition affine (g : vec) (e : R) (X : mat) : vec := map (fun x => dot g x + e) X.
Lemma affine_len : forall g e X, length (affine g e X) = length X. Proof. intros. apply map_length. Qed.
Lemma affine_get : forall g e X i, (i < length X)%nat -> vget (affine g e X) i = dot g (nth i X []) + e.
Proof. intros. unfold affine. apply (mapr_get _ (fun x => dot g x + e) X i []); auto. Qed.
(** (g, e) is a best fit of f in the norm p among the affine functions on the side [bd] *)
Definition best_affine (p : fnorm) (bd : fbound) (m : nat) (X : mat) (f g : vec) (e : R) : Prop :=
  length g = m /\ fit_con bd (vsub (affine g e X) f) /\
  forall g' e', length g' = m -> fit_con bd (vsub (affine g' e' X) f) -> fit_obj p (vsub (affine g e X) f) <= fit_obj p (vsub (affine g' e' X) f).
Definition opposite (bd : fbound) : fbound := match bd with NoBound => NoBound | Lower => Upper | Upper => Lower end.

Definition aff_s (m : nat) (X : mat) : vec := nslopes (aff_lb m X) (aff_ub m X).
Definition aff_c (m : nat) (X : mat) : vec := center (aff_lb m X) (aff_ub m X).
Definition aff_g (m : nat) (X : mat) (b : vec) : vec := mv (diag (aff_s m X)) (removelast b).
Definition aff_e (m : nat) (X : mat) (b : vec) : R := last b 0 - dot (aff_g m X b) (aff_c m X).
Lemma aff_bounds_len : forall m X, length (aff_lb m X) = m /\ length (aff_ub m X) = m. Proof. intros. unfold aff_lb, aff_ub. rewrite !map_length, seq_length. auto. Qed.
Lemma aff_s_len : forall m X, length (aff_s m X) = m. Proof. intros m X. destruct (aff_bounds_len m X). unfold aff_s. rewrite nslopes_length; lia. Qed.
Lemma aff_c_len : forall m X, length (aff_c m X) = m. Proof. intros m X. destruct (aff_bounds_len m X). unfold aff_c. rewrite center_length; lia. Qed.
Lemma aff_s_nz : forall m X k, (k < m)%nat -> vget (aff_s m X) k <> 0.
Proof.
  intros m X k Hk. destruct (aff_bounds_len m X) as [L1 L2]. unfold aff_s. rewrite nslopes_get by lia. unfold aff_lb, aff_ub. rewrite !nth_map_seq by auto. cbn. destruct (Req_EM_T (vmax (col X k)) (vmin (col X k))); [lra|].
  unfold Rdiv. apply Rmult_integral_contrapositive. split; [lra|apply Rinv_neq_0_compat; lra].
Qed.
Lemma split_last : forall (b : vec) m, length b = (m + 1)%nat -> exists w t, b = w ++ [t] /\ length w = m.
Proof. intros b m L. destruct (exists_last (l := b)) as [w [t ->]]; [intros ->; cbn in L; lia|]. exists w, t. split; auto. rewrite app_length in L. cbn in L. lia. Qed.
Lemma aff_row : forall m X x b, length x = m -> length b = (m + 1)%nat ->
  dot (normalize (aff_lb m X) (aff_ub m X) x ++ [1]) b = dot (aff_g m X b) x + aff_e m X b.
Proof.
  intros m X x b Lx Lb. destruct (split_last b m Lb) as [w [t [-> Lw]]]. destruct (aff_bounds_len m X) as [L1 L2]. unfold aff_e, aff_g. rewrite removelast_last, last_last. rewrite dot_app by (rewrite normalize_length; lia). rewrite dot_cons, dot_nil_l.
  unfold normalize. fold (aff_s m X). fold (aff_c m X). pose proof (aff_s_len m X) as Ls. pose proof (aff_c_len m X) as Lc. assert (Lv : length (vsub x (aff_c m X)) = m) by (rewrite vsub_length; lia). rewrite !mv_diag by lia.
  assert (L3 : length (vmul (aff_s m X) w) = m) by (rewrite vmul_length; lia). assert (L4 : length (vmul (aff_s m X) (vsub x (aff_c m X))) = m) by (rewrite vmul_length; lia).
  rewrite !(dot_rs m) by lia. rewrite (rsum_ext m (fun i => vget (vmul (aff_s m X) (vsub x (aff_c m X))) i * vget w i) (fun i => vget (vmul (aff_s m X) w) i * vget x i - vget (vmul (aff_s m X) w) i * vget (aff_c m X) i)).
  - rewrite rsum_minus. ring.
  - intros i Hi. rewrite !vmul_get by lia. rewrite vsub_get by lia. ring.
Qed.
Lemma aff_repr : forall m X g e, length g = m -> exists b, length b = (m + 1)%nat /\ aff_g m X b = g /\ aff_e m X b = e.
Proof.
  intros m X g e Lg. set (w := map (fun k => vget g k / vget (aff_s m X) k) (seq 0 m)). assert (Lw : length w = m) by (unfold w; rewrite map_length, seq_length; auto). exists (w ++ [e + dot g (aff_c m X)]). split; [rewrite app_length; cbn; lia|].
  assert (G : aff_g m X (w ++ [e + dot g (aff_c m X)]) = g).
  { unfold aff_g. rewrite removelast_last. pose proof (aff_s_len m X) as Ls. rewrite mv_diag by lia. assert (L : length (vmul (aff_s m X) w) = m) by (rewrite vmul_length; lia). apply vec_ext; [lia|]. intros i Hi. rewrite vmul_get by lia. unfold w. rewrite vget_map_seq by lia. field. apply aff_s_nz. lia. }
  split; auto. unfold aff_e. rewrite G, last_last. ring.
Qed.
Lemma aff_values : forall m X Z b, Forall (fun x => length x = m) Z -> length b = (m + 1)%nat ->
  mv (map (fun x => normalize (aff_lb m X) (aff_ub m X) x ++ [1]) Z) b = affine (aff_g m X b) (aff_e m X b) Z.
Proof. intros m X Z b F L. unfold mv, affine. rewrite map_map. apply map_ext_in. intros x I. rewrite Forall_forall in F. apply aff_row; auto. Qed.
Lemma aff_g_len : forall m X b, length (aff_g m X b) = m. Proof. intros. unfold aff_g. rewrite mv_length, diag_length. apply aff_s_len. Qed.

(** what _fit_affine computes: for 'lower' a best affine function above the data, for 'upper' one below *)
Theorem affine_fit_spec : forall p bd m X f b, Forall (fun x => length x = m) X -> length f = length X -> aff_b_returns p bd m X f b ->
  exists g e, best_affine p (opposite bd) m X (aff_f f) g e /\ aff_U m X b = vscale (/ norm2 g) g.
Proof.
  intros p bd m X f b FX Lf H. exists (aff_g m X b), (aff_e m X b). split; [|reflexivity].
  assert (LF : length (aff_f f) = length X) by (unfold aff_f; rewrite map_length; auto). assert (LX : length (aff_XX m X) = length X) by (unfold aff_XX; apply map_length).
  assert (EV : forall y, length y = (m + 1)%nat -> fit_residual (aff_XX m X) (aff_f f) y = vsub (affine (aff_g m X y) (aff_e m X y) X) (aff_f f)) by (intros y Ly; unfold fit_residual, aff_XX; rewrite aff_values by auto; auto).
  assert (K : length b = (m + 1)%nat /\ fit_con (opposite bd) (fit_residual (aff_XX m X) (aff_f f) b) /\ forall y, length y = (m + 1)%nat -> fit_con (opposite bd) (fit_residual (aff_XX m X) (aff_f f) y) -> fit_obj p (fit_residual (aff_XX m X) (aff_f f) b) <= fit_obj p (fit_residual (aff_XX m X) (aff_f f) y)).
  { destruct bd; cbn in H |- *.
    - destruct H as [L H]. split; auto.
    - exact H.
    - destruct H as [L [C H]]. rewrite fit_residual_neg in C by lia. split; auto. split; [apply fit_con_neg; auto|]. intros y Ly Cy. specialize (H y Ly). rewrite !fit_residual_neg, !fit_obj_neg in H by lia. apply H. apply fit_con_neg. auto. }
  destruct K as [Lb [C K]]. split; [apply aff_g_len|]. rewrite EV in C, K by auto. split; auto. intros g' e' Lg' C'. destruct (aff_repr m X g' e' Lg') as [y [Ly [Gy Ey]]]. specialize (K y Ly). rewrite (EV y Ly), Gy, Ey in K. auto.
Qed.

(** zero residual is the only residual of objective zero *)
Lemma fit_obj_zero : forall p n, fit_obj p (vzero n) = 0.
Proof.
  intros p n. assert (E : map Rabs (vzero n) = vzero n) by (unfold vzero; clear; induction n; cbn; rewrite ?IHn, ?Rabs_R0; auto). destruct p; cbn; rewrite ?E.
  - rewrite vsum_rsum. apply rsum_zero. intros. apply vzero_get.
  - unfold norm2, norm2sq. rewrite dot_zero_l. apply sqrt_0.
  - destruct n; [reflexivity|]. assert (NE : vzero (S n) <> []) by discriminate. destruct (vmax_spec (vzero (S n)) NE) as [_ I]. apply repeat_spec in I. auto.
Qed.
Lemma fit_obj_zero_inv : forall p r, fit_obj p r <= 0 -> forall i, (i < length r)%nat -> vget r i = 0.
Proof.
  intros p r H i Hi. assert (P : Rabs (vget r i) <= 0).
  { destruct p; cbn in H.
    - rewrite vsum_rsum, map_length in H. apply Rle_trans with (2 := H). change (vget r i) with (nth i r 0). rewrite <- (mapr_get _ Rabs r i 0) by auto. apply (rsum_term (length r) i (fun k => vget (map Rabs r) k)); auto. intros k Hk. rewrite (mapr_get _ Rabs r k 0) by auto. apply Rabs_pos.
    - assert (Z : norm2sq r <= 0). { rewrite <- norm2_sq. pose proof (norm2_nonneg r). nra. } unfold norm2sq in Z. rewrite (dot_rs (length r)) in Z by auto. assert (S1 : vget r i * vget r i <= rsum (length r) (fun k => vget r k * vget r k)) by (apply (rsum_term (length r) i (fun k => vget r k * vget r k)); auto; intros; apply Rle_0_sqr). assert (Q : vget r i * vget r i <= 0) by lra. assert (vget r i = 0) by nra. rewrite H0, Rabs_R0. lra.
    - destruct (vmax_spec (map Rabs r)) as [B _]; [destruct r; [cbn in Hi; lia|discriminate]|]. apply Rle_trans with (2 := H). apply B. apply in_map_iff. exists (vget r i). split; auto. apply nth_In. auto. }
  pose proof (Rabs_pos (vget r i)). destruct (Req_dec (vget r i) 0) as [E|E]; auto. apply Rabs_pos_lt in E. lra.
Qed.
(** samples of a non-constant affine function: every norm and bound give its direction *)
Theorem affine_exact : forall p bd m X a b0 b, Forall (fun x => length x = m) X -> length a = m -> (exists k, vget a k <> 0) ->
  (forall v d, length v = m -> (forall x, In x X -> dot v x + d = 0) -> v = vzero m) ->
  aff_b_returns p bd m X (affine a b0 X) b -> aff_U m X b = vscale (/ norm2 a) a.
Proof.
  intros p bd m X a b0 b FX La [k0 Ak] SP H. set (f := affine a b0 X) in *. assert (Lf : length f = length X) by apply affine_len. destruct (affine_fit_spec p bd m X f b FX Lf H) as [g [e [[Lg [C B]] ->]]].
  assert (Az : a <> vzero m) by (intros ->; rewrite vzero_get in Ak; lra). assert (X0 : X <> []) by (intros ->; apply Az; apply (SP a 0); auto; intros x []).
  assert (fn : f <> []) by (unfold f, affine; destruct X; [congruence|discriminate]). destruct (vmin_spec f fn) as [M1 I1]. destruct (vmax_spec f fn) as [M2 I2]. set (lo := vmin f) in *. set (hi := vmax f) in *.
  assert (D : lo < hi). { destruct (Rlt_le_dec lo hi) as [Q|Q]; auto. exfalso. apply Az. apply (SP a (b0 - lo)); auto. intros x I. assert (J : In (dot a x + b0) f) by (unfold f, affine; apply in_map_iff; exists x; auto). pose proof (M1 _ J). pose proof (M2 _ J). lra. }
  set (w := / (hi - lo)). assert (W : 0 < w) by (apply Rinv_0_lt_compat; lra).
  assert (FE : aff_f f = affine (vscale w a) (w * (b0 - lo)) X). { unfold aff_f. fold lo hi. unfold f, affine. rewrite map_map. apply map_ext. intro x. rewrite dot_vscale_l. unfold w. field. lra. }
  rewrite FE in *. set (g1 := vscale w a) in *. set (e1 := w * (b0 - lo)) in *. assert (Lg1 : length g1 = m) by (unfold g1; rewrite vscale_length; auto).
  assert (Z : vsub (affine g1 e1 X) (affine g1 e1 X) = vzero (length X)). { assert (L : length (vsub (affine g1 e1 X) (affine g1 e1 X)) = length X) by (rewrite vsub_length; rewrite ?affine_len; auto). apply vec_ext; [unfold vzero; rewrite repeat_length; auto|]. intros i Hi. rewrite vsub_get by auto. rewrite vzero_get. ring. }
  assert (C1 : fit_con (opposite bd) (vzero (length X))) by (destruct bd; cbn; auto; apply Forall_forall; intros t I; apply repeat_spec in I; lra).
  specialize (B g1 e1 Lg1). rewrite Z in B. specialize (B C1). rewrite fit_obj_zero in B. pose proof (fit_obj_zero_inv _ _ B) as R0.
  assert (LR : length (vsub (affine g e X) (affine g1 e1 X)) = length X) by (rewrite vsub_length; rewrite ?affine_len; auto).
  assert (GE : vsub g g1 = vzero m). { apply (SP _ (e - e1)); [rewrite vsub_length; lia|]. intros x I. apply (In_nth _ _ []) in I. destruct I as [i [Hi <-]]. specialize (R0 i ltac:(lia)). rewrite vsub_get in R0 by (rewrite !affine_len; auto). rewrite !affine_get in R0 by auto. rewrite dot_vsub_l by lia. lra. }
  assert (G1 : g = g1). { apply vec_ext; [lia|]. intros i Hi. assert (Q : vget (vsub g g1) i = 0) by (rewrite GE; apply vzero_get). rewrite vsub_get in Q by lia. lra. }
  rewrite G1. unfold g1. rewrite norm2_vscale, (Rabs_right w) by lra. assert (NA : norm2 a <> 0).
  { intro Q. assert (Q2 : norm2 a <= 0) by lra. assert (K : (k0 < length a)%nat) by (destruct (lt_dec k0 (length a)); auto; exfalso; apply Ak; unfold vget; apply nth_overflow; lia). pose proof (fit_obj_zero_inv N2 a Q2 k0 K). lra. }
  apply vec_ext; [rewrite !vscale_length; auto|]. intros i Hi. rewrite !vscale_get. field. split; lra.
Qed.

(** three locations, each sampled twice *)
Definition affX : mat := [[0; 0]; [0; 0]; [1; 0]; [1; 0]; [0; 1]; [0; 1]].
Definition affF : vec := [0; 1; 1; 1; 0; 2].
Lemma aff_norm : forall x y, normalize (aff_lb 2 affX) (aff_ub 2 affX) [x; y] = [2 * x - 1; 2 * y - 1].
Proof.
  intros x y. replace (aff_lb 2 affX) with [Fin 0; Fin 0] by (unfold aff_lb, affX, vmin, col, vget; cbn; unfold Rmin; repeat destruct Rle_dec; repeat f_equal; lra). replace (aff_ub 2 affX) with [Fin 1; Fin 1] by (unfold aff_ub, affX, vmax, col, vget; cbn; unfold Rmax; repeat destruct Rle_dec; repeat f_equal; lra).
  unfold normalize, nslopes, center. cbn. destruct (Req_EM_T 1 0); [lra|]. unfold diag, mv, vget, vsub. cbn. rewrite !dot_cons, !dot_nil_l. repeat (apply f_equal2; [field|]). reflexivity.
Qed.
Lemma aff_XX_ex : aff_XX 2 affX = [[-1; -1; 1]; [-1; -1; 1]; [1; -1; 1]; [1; -1; 1]; [-1; 1; 1]; [-1; 1; 1]].
Proof. unfold aff_XX. unfold affX at 3. cbn [map]. rewrite !aff_norm. cbn [app]. repeat (apply f_equal2; [repeat (apply f_equal2; [lra|]); reflexivity|]). reflexivity. Qed.
Lemma aff_f_ex : aff_f affF = [0; 1/2; 1/2; 1/2; 0; 1].
Proof.
  unfold aff_f. replace (vmin affF) with 0 by (unfold affF, vmin; cbn; unfold Rmin; repeat destruct Rle_dec; lra). replace (vmax affF) with 2 by (unfold affF, vmax; cbn; unfold Rmax; repeat destruct Rle_dec; lra).
  unfold affF. cbn [map]. repeat (apply f_equal2; [lra|]). reflexivity.
Qed.
Lemma six_le : forall a b c d e f a' b' c' d' e' f', a*a + b*b + c*c + d*d + e*e + f*f <= a'*a' + b'*b' + c'*c' + d'*d' + e'*e' + f'*f' -> norm2 [a; b; c; d; e; f] <= norm2 [a'; b'; c'; d'; e'; f'].
Proof. intros. unfold norm2, norm2sq. apply sqrt_le_1_alt. rewrite !dot_cons, !dot_nil_l. lra. Qed.
Lemma six_inv : forall a b c d e f a' b' c' d' e' f', norm2 [a; b; c; d; e; f] <= norm2 [a'; b'; c'; d'; e'; f'] -> a*a + b*b + c*c + d*d + e*e + f*f <= a'*a' + b'*b' + c'*c' + d'*d' + e'*e' + f'*f'.
Proof.
  intros a b c d e f a' b' c' d' e' f' H. pose proof (norm2_sq [a; b; c; d; e; f]) as P. pose proof (norm2_sq [a'; b'; c'; d'; e'; f']) as Q. pose proof (norm2_nonneg [a; b; c; d; e; f]). pose proof (norm2_nonneg [a'; b'; c'; d'; e'; f']).
  unfold norm2sq in P, Q. rewrite !dot_cons, !dot_nil_l in P, Q. assert (norm2 [a; b; c; d; e; f] * norm2 [a; b; c; d; e; f] <= norm2 [a'; b'; c'; d'; e'; f'] * norm2 [a'; b'; c'; d'; e'; f']) by (apply Rmult_le_compat; lra). lra.
Qed.
(** with bound = 'lower' the returned direction is that of the upper bound *)
Theorem affine_bound_refuted : exists m X f b, Forall (fun x => length x = m) X /\ length f = length X /\ aff_b_returns N2 Lower m X f b /\ aff_U m X b = [0; 1] /\
  (exists g e, best_affine N2 Lower m X f g e) /\ forall g e, best_affine N2 Lower m X f g e -> g = [1; 0].
Proof.
  exists 2%nat, affX, affF, [0; 1/4; 3/4]. split; [repeat constructor|]. split; [reflexivity|].
  assert (AV : forall a b e, vsub (affine [a; b] e affX) affF = [e; e - 1; a + e - 1; a + e - 1; b + e; b + e - 2]) by (intros; unfold affine, affX, affF, vsub; cbn [map]; rewrite !dot_cons, !dot_nil_l; cbn; repeat (apply f_equal2; [ring|]); reflexivity).
  split; [|split; [|split]].
  - unfold aff_b_returns, bound_fit_returns. rewrite aff_XX_ex, aff_f_ex. split; [reflexivity|]. assert (RV : forall a b e, fit_residual [[-1; -1; 1]; [-1; -1; 1]; [1; -1; 1]; [1; -1; 1]; [-1; 1; 1]; [-1; 1; 1]] [0; 1/2; 1/2; 1/2; 0; 1] [a; b; e] = [- a - b + e; - a - b + e - 1/2; a - b + e - 1/2; a - b + e - 1/2; - a + b + e; - a + b + e - 1]) by (intros; unfold fit_residual, mv, vsub; cbn [map]; rewrite !dot_cons, !dot_nil_l; cbn; repeat (apply f_equal2; [ring|]); reflexivity).
    split; [rewrite RV; cbn; repeat constructor; lra|]. intros y Ly Cy. destruct y as [|a [|b [|e [|]]]]; try discriminate Ly. rewrite RV in Cy |- *. rewrite RV. cbn in Cy |- *. inversion_clear Cy as [|? ? A1 C1]; inversion_clear C1 as [|? ? A2 C2]; inversion_clear C2 as [|? ? A3 C3]; inversion_clear C3 as [|? ? A4 C4]; inversion_clear C4 as [|? ? A5 C5]; inversion_clear C5 as [|? ? A6 C6]. apply six_le. nra.
  - unfold aff_U. assert (E : mv (diag (nslopes (aff_lb 2 affX) (aff_ub 2 affX))) (removelast [0; 1/4; 3/4]) = [0; 1/2]).
    { replace (aff_lb 2 affX) with [Fin 0; Fin 0] by (unfold aff_lb, affX, vmin, col, vget; cbn; unfold Rmin; repeat destruct Rle_dec; repeat f_equal; lra). replace (aff_ub 2 affX) with [Fin 1; Fin 1] by (unfold aff_ub, affX, vmax, col, vget; cbn; unfold Rmax; repeat destruct Rle_dec; repeat f_equal; lra).
      unfold nslopes. cbn. destruct (Req_EM_T 1 0); [lra|]. unfold diag, mv, vget. cbn. rewrite !dot_cons, !dot_nil_l. repeat (apply f_equal2; [field|]). reflexivity. }
    rewrite E. assert (N : norm2 [0; 1/2] = 1/2) by (unfold norm2, norm2sq; rewrite !dot_cons, !dot_nil_l; replace (0 * 0 + (1 / 2 * (1 / 2) + 0)) with (1/2 * (1/2)) by lra; apply sqrt_square; lra). cbv zeta. rewrite N. unfold vscale. cbn [map]. repeat (apply f_equal2; [field|]). reflexivity.
  - exists [1; 0], 0. split; [reflexivity|]. rewrite AV. split; [cbn; repeat constructor; lra|]. intros g' e' Lg C. destruct g' as [|a [|b [|]]]; try discriminate Lg. rewrite AV in C |- *. cbn in C |- *. inversion_clear C as [|? ? A1 C1]; inversion_clear C1 as [|? ? A2 C2]; inversion_clear C2 as [|? ? A3 C3]; inversion_clear C3 as [|? ? A4 C4]; inversion_clear C4 as [|? ? A5 C5]; inversion_clear C5 as [|? ? A6 C6]. apply six_le. nra.
  - intros g e [Lg [C H]]. destruct g as [|a [|b [|]]]; try discriminate Lg. specialize (H [1; 0] 0 eq_refl). rewrite !AV in H. rewrite AV in C. specialize (H ltac:(cbn; repeat constructor; lra)). cbn in H. apply six_inv in H. cbn in C. inversion_clear C as [|? ? A1 C1]; inversion_clear C1 as [|? ? A2 C2]; inversion_clear C2 as [|? ? A3 C3]; inversion_clear C3 as [|? ? A4 C4]; inversion_clear C4 as [|? ? A5 C5]; inversion_clear C5 as [|? ? A6 C6].
    assert (E0 : e = 0) by nra. subst e. assert (E1 : b = 0) by nra. assert (E2 : a = 1) by nra. subst. reflexivity.
Qed.
(** the hypotheses of [affine_exact] met: five samples of 3 x1 - 4 x2 + 1, upper bound in the maximum norm *)
Example affine_case : exists m X a b0 b, Forall (fun x => length x = m) X /\ length a = m /\ (exists k, vget a k <> 0) /\ (forall v d, length v = m -> (forall x, In x X -> dot v x + d = 0) -> v = vzero m) /\ aff_b_returns Ninf Upper m X (affine a b0 X) b /\ aff_U m X b = [3/5; -4/5].
Proof.
  set (X := [[0; 0]; [1; 0]; [0; 1]; [1; 1]; [1/2; 1/4]]). assert (FX : Forall (fun x => length x = 2%nat) X) by repeat constructor. assert (A0 : exists k, vget [3; -4] k <> 0) by (exists 0%nat; unfold vget; cbn; lra).
  assert (SP : forall v d, length v = 2%nat -> (forall x, In x X -> dot v x + d = 0) -> v = vzero 2). { intros v d L H. destruct v as [|p [|q [|]]]; try discriminate L. pose proof (H _ (or_introl eq_refl)) as H1. pose proof (H _ (or_intror (or_introl eq_refl))) as H2. pose proof (H _ (or_intror (or_intror (or_introl eq_refl)))) as H3. rewrite !dot_cons, !dot_nil_l in H1, H2, H3. unfold vzero. cbn. repeat (apply f_equal2; [lra|]). reflexivity. }
  set (f := affine [3; -4] 1 X). assert (fn : f <> []) by discriminate. set (w := / (vmax f - vmin f)).
  assert (D : vmax f - vmin f <> 0). { assert (vmin f <= -3) by (apply (proj1 (vmin_spec f fn)); unfold f, affine, X; cbn [map]; rewrite !dot_cons, !dot_nil_l; right; right; left; ring). assert (4 <= vmax f) by (apply (proj1 (vmax_spec f fn)); unfold f, affine, X; cbn [map]; rewrite !dot_cons, !dot_nil_l; right; left; ring). lra. }
  destruct (aff_repr 2 X (vscale w [3; -4]) (w * (1 - vmin f)) eq_refl) as [b [Lb [Gb Eb]]].
  assert (RZ : fit_residual (aff_XX 2 X) (aff_f f) b = vzero 5). { unfold fit_residual, aff_XX. rewrite aff_values by auto. rewrite Gb, Eb. unfold aff_f. assert (E : map (fun a => (a - vmin f) / (vmax f - vmin f)) f = affine (vscale w [3; -4]) (w * (1 - vmin f)) X) by (unfold f at 4; unfold affine; rewrite map_map; apply map_ext; intro x; rewrite dot_vscale_l; unfold w; field; auto).
    rewrite E. set (z := affine _ _ X). assert (Lz : length z = 5%nat) by reflexivity. assert (L : length (vsub z z) = 5%nat) by (rewrite vsub_length; auto). apply vec_ext; [rewrite L; reflexivity|]. intros i Hi. rewrite vsub_get by auto. rewrite vzero_get. ring. }
  assert (RB : aff_b_returns Ninf Upper 2 X f b). { unfold aff_b_returns, bound_fit_returns. split; auto. rewrite fit_residual_neg by reflexivity. rewrite RZ. split; [apply fit_con_neg; cbn; repeat constructor; lra|]. intros y Ly Cy. rewrite fit_obj_neg, fit_obj_zero. unfold fit_obj. set (l := map Rabs _). destruct (vmax_spec l ltac:(discriminate)) as [_ I]. unfold l in I at 2. apply in_map_iff in I. destruct I as [t [<- _]]. apply Rabs_pos. }
  exists 2%nat, X, [3; -4], 1, b. repeat (split; [assumption || reflexivity|]). rewrite (affine_exact Ninf Upper 2 X [3; -4] 1 b FX eq_refl A0 SP RB). assert (N : norm2 [3; -4] = 5) by (unfold norm2, norm2sq; rewrite !dot_cons, !dot_nil_l; replace (3 * 3 + (-4 * -4 + 0)) with (5 * 5) by ring; apply sqrt_square; lra). rewrite N. unfold vscale. cbn [map]. repeat (apply f_equal2; [field|]). reflexivity.
Qed.

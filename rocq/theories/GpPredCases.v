(** Gaussian process predictor: concrete cases, units of the data, the documented formula. *)
Require Import Reals List Bool Arith Lra Lia Permutation.
From Verif Require Import RVec Num Sums DomModel DomMoreModel BasisModel SweepProofs HullProofs NormProofs FunProofs TensorProofs MatLib SpecProofs LipModel GrassLib SubModel Deriv VarproLib ArnoldiMoreProofs GpModel GpKernel GpProofs GpFit GpGrad GpLml GpCases GpPred GpOrder.
Import ListNotations.
Local Open Scope R_scope.

(** weights for two points and opposite values, tau = tol = 1/10 *)
Definition kl (l : R) : R := exp (- / 2 * (l * l)).
Lemma kl_pos : forall l, 0 < kl l. Proof. intro. apply exp_pos. Qed.
Lemma two_weights : forall c l, kl l < 1 -> / 10 < 11 / 10 - kl l -> fst (gp_weights eigh2 (/ 10) (/ 10) None gX [c; - c] [[l]]) = [c / (11 / 10 - kl l); - (c / (11 / 10 - kl l))].
Proof.
  intros c l K1 K2. pose proof gr2 as G. pose proof (kl_pos l) as KP. unfold gp_weights. cbn zeta. change (gp_A (gp_Kt (/ 10) (gp_K [[l]] gX)) (map (gp_v None) gX) (gp_n None)) with (gp_block (/ 10) None gX [[l]]).
  rewrite block_none, g_Kt. fold (kl l). cbn [gp_n length gX Nat.add vzero repeat app]. unfold eigh2, eig_solve, mget, vget. cbn [fst snd nth seq map]. set (k := kl l) in *.
  rewrite (proj2 (Rltb_true (/ 10) (Rabs (1 + / 10 - k)))) by (rewrite Rabs_right; lra). rewrite (proj2 (Rltb_true (/ 10) (Rabs (1 + / 10 + k)))) by (rewrite Rabs_right; lra).
  rewrite !dot_cons, !dot_nil_l. unfold lincomb. cbn. apply f_equal2; [|apply f_equal2; [|reflexivity]].
  - replace (c / (11 / 10 - k)) with ((gr * gr) * (2 * c / (11 / 10 - k))) by (rewrite G; field; lra). field. lra.
  - replace (- (c / (11 / 10 - k))) with (- ((gr * gr) * (2 * c / (11 / 10 - k)))) by (rewrite G; field; lra). field. lra.
Qed.
Lemma two_lml : forall c a, let l := exp a in kl l < 1 -> / 10 < 11 / 10 - kl l ->
  gp_lml eigh2 (/ 10) (/ 10) None GConst 1 gX [c; - c] [a] = c * c / (11 / 10 - kl l) + / 2 * (ln (11 / 10 - kl l) + ln (11 / 10 + kl l)).
Proof.
  intros c a l K1 K2. unfold gp_lml. cbn zeta. rewrite g_const. change (vget [a] 0) with a. fold l. rewrite two_weights by auto. rewrite g_Kt. fold (kl l). set (k := kl l) in *.
  unfold eigh2, gp_obj, mget, vget. cbn [fst nth map]. rewrite !dot_cons, dot_nil_l. unfold vsum. cbn [fold_right].
  replace (1 + / 10 - k) with (11 / 10 - k) by lra. replace (1 + / 10 + k) with (11 / 10 + k) by lra. field. lra.
Qed.
(** k = e^{-1/2} for the length scale 1, k = e^{-8} for the length scale 1/4 *)
Lemma k_one : / 2 <= kl (exp 0) <= 2 / 3.
Proof. rewrite exp_0. split; [|apply kk_bounds]. unfold kl. pose proof (exp_ineq1_le (- / 2 * (1 * 1))). lra. Qed.
Lemma k_four : 0 < kl (exp (ln 4)) <= / 9.
Proof.
  rewrite exp_ln by lra. split; [apply kl_pos|]. unfold kl. replace (- / 2 * (4 * 4)) with (- (8)) by field. rewrite exp_Ropp. apply Rinv_le_contravar; [lra|]. pose proof (exp_ineq1_le 8). lra.
Qed.
Lemma ln_upper : forall x, 0 < x -> ln x <= x - 1. Proof. exact ln_le. Qed.
(** the objective prefers the longer length scale for small data and the shorter one for the same data in other units:
    there is no scale parameter, so the fitted distance matrix depends on the units of y *)
Theorem units_refuted : exists eigh tol tau X y s ell1 ell2, 0 < tol /\ 0 < tau /\ length y = length X /\ 0 < s /\
  (forall ell, In ell [ell1; ell2] -> let A := gp_Kt tau (gp_K (make_L GConst 1 ell) X) in eigh_post (length X) A (eigh A) /\ forall k, (k < length X)%nat -> tol < vget (fst (eigh A)) k) /\
  gp_lml eigh tol tau None GConst 1 X y ell2 < gp_lml eigh tol tau None GConst 1 X y ell1 /\
  gp_lml eigh tol tau None GConst 1 X (vscale s y) ell1 < gp_lml eigh tol tau None GConst 1 X (vscale s y) ell2.
Proof.
  exists eigh2, (/ 10), (/ 10), gX, [1; -1], (/ 10), [0], [ln 4]. pose proof k_one as A. pose proof k_four as C.
  split; [lra|]. split; [lra|]. split; [reflexivity|]. split; [lra|]. split; [|split].
  - intros ell Hell. assert (K : 0 < kl (exp (vget ell 0)) <= 2 / 3) by (destruct Hell as [<-|[<-|[]]]; unfold vget; cbn [nth]; lra).
    cbn zeta. rewrite g_const. split; [apply g_eig|]. intros k Hk. rewrite g_Kt. fold (kl (exp (vget ell 0))). destruct k as [|[|k]]; cbn in Hk; try lia; unfold eigh2, mget, vget; cbn [fst nth]; unfold vget in K; lra.
  - change [1; -1] with [1; - (1)]. rewrite !two_lml by lra. set (p := kl (exp 0)) in *. set (q := kl (exp (ln 4))) in *.
    rewrite <- !ln_mult by lra.
    assert (Q1 : 1 * 1 / (11 / 10 - q) <= 1.02) by (apply Rmult_le_reg_r with (11 / 10 - q); [lra|]; unfold Rdiv; rewrite Rmult_assoc, Rinv_l by lra; lra).
    assert (Q2 : 1.66 <= 1 * 1 / (11 / 10 - p)) by (apply Rmult_le_reg_r with (11 / 10 - p); [lra|]; unfold Rdiv; rewrite Rmult_assoc, Rinv_l by lra; lra).
    assert (L1 : ln ((11 / 10 - q) * (11 / 10 + q)) <= 0.21) by (eapply Rle_trans; [apply ln_upper; nra|nra]).
    assert (L2 : - (0.32) <= ln ((11 / 10 - p) * (11 / 10 + p))).
    { pose proof (ln_upper (/ ((11 / 10 - p) * (11 / 10 + p))) ltac:(apply Rinv_0_lt_compat; nra)) as U. rewrite ln_Rinv in U by nra.
      assert (/ ((11 / 10 - p) * (11 / 10 + p)) <= 1.32); [|lra]. rewrite <- (Rinv_inv 1.32). apply Rinv_le_contravar; [lra|]. nra. }
    lra.
  - replace (vscale (/ 10) [1; -1]) with [/ 10; - / 10] by (unfold vscale; cbn [map]; apply f_equal2; [field|apply f_equal2; [field|reflexivity]]).
    rewrite !two_lml by lra. set (p := kl (exp 0)) in *. set (q := kl (exp (ln 4))) in *. rewrite <- !ln_mult by lra.
    assert (Q1 : 0 <= / 10 * / 10 / (11 / 10 - q)) by (apply Rmult_le_pos; [lra|left; apply Rinv_0_lt_compat; lra]).
    assert (Q2 : / 10 * / 10 / (11 / 10 - p) <= 0.03) by (apply Rmult_le_reg_r with (11 / 10 - p); [lra|]; unfold Rdiv; rewrite Rmult_assoc, Rinv_l by lra; lra).
    assert (LL : ln ((11 / 10 - p) * (11 / 10 + p)) <= -0.04) by (eapply Rle_trans; [apply ln_upper; nra|nra]).
    assert (LQ : 0.15 <= ln ((11 / 10 - q) * (11 / 10 + q))).
    { pose proof (ln_upper (/ ((11 / 10 - q) * (11 / 10 + q))) ltac:(apply Rinv_0_lt_compat; nra)) as U. rewrite ln_Rinv in U by nra.
      assert (/ ((11 / 10 - q) * (11 / 10 + q)) <= 0.85); [|lra]. rewrite <- (Rinv_inv 0.85). apply Rinv_le_contravar; [lra|]. nra. }
    lra.
Qed.
(** the class documentation gives the prediction with e^{-|L (x - x_i)|^2}; eval uses half of the exponent *)
Definition documented (B : option tbasis) (X L : mat) (w : vec * vec) (x : vec) : R :=
  rsum (length X) (fun i => vget (fst w) i * exp (- norm2sq (mv L (vsub x (nth i X []))))) + dot (gp_v B x) (snd w).
Theorem documented_refuted : exists eigh tol tau X y L x, 0 < tol /\ 0 < tau /\ length y = length X /\ eigh_post (length X) (gp_Kt tau (gp_K L X)) (eigh (gp_Kt tau (gp_K L X))) /\
  let w := gp_weights eigh tol tau None X y L in gp_eval None X L w x <> documented None X L w x.
Proof.
  exists eigh2, (/ 10), (/ 10), gX, [1; -1], [[1]], [0]. split; [lra|]. split; [lra|]. split; [reflexivity|]. split; [apply g_eig|]. cbn zeta.
  pose proof kk_bounds as K. change kk with (kl 1) in K. unfold gp_eval, documented. change (gp_v None [0]) with (@nil R). rewrite dot_nil_l.
  change [1; -1] with [1; - (1)]. rewrite two_weights by lra. set (k := kl 1) in *. set (a := 1 / (11 / 10 - k)). assert (A : 0 < a) by (unfold a; apply Rmult_lt_0_compat; [lra|apply Rinv_0_lt_compat; lra]).
  cbn [map gX]. rewrite !dot_cons, dot_nil_l. unfold gX. cbn [length rsum nth]. unfold vget. cbn [nth]. unfold gk, gk_d, norm2sq, mv, vsub. cbn [map vmap2]. rewrite !dot_cons, !dot_nil_l.
  replace (- / 2 * ((1 * 0 + 0 - (1 * 0 + 0)) * (1 * 0 + 0 - (1 * 0 + 0)) + 0)) with 0 by ring. replace (- / 2 * ((1 * 0 + 0 - (1 * 1 + 0)) * (1 * 0 + 0 - (1 * 1 + 0)) + 0)) with (- / 2 * (1 * 1)) by ring.
  replace (- ((1 * (0 - 0) + 0) * (1 * (0 - 0) + 0) + 0)) with 0 by ring. replace (- ((1 * (0 - 1) + 0) * (1 * (0 - 1) + 0) + 0)) with (- / 2 * (1 * 1) + - / 2 * (1 * 1)) by field.
  rewrite exp_plus, exp_0. change (exp (- / 2 * (1 * 1))) with k. intro E. assert (Z : a * (k * (1 - k)) = 0) by lra. apply Rmult_integral in Z. destruct Z as [Z|Z]; [lra|]. apply Rmult_integral in Z. lra.
Qed.

(* ---------------- a constant trend: two points, every length scale ---------------- *)
Section Eig3.
Variables (a k : R).
Hypothesis Hk : 0 < k < 1.
Hypothesis Ha : 1 < a <= 2.
Definition e_s : R := a + k.
Definition e_D : R := sqrt (e_s * e_s + 8).
Definition e_p : R := (e_s + e_D) / 2.
Definition e_m : R := (e_s - e_D) / 2.
Definition e_P : R := / sqrt (e_p * e_D).
Definition e_Q : R := / sqrt (- e_m * e_D).
Lemma e_DD : e_D * e_D = e_s * e_s + 8. Proof. unfold e_D. apply sqrt_sqrt. nra. Qed.
Lemma e_Dpos : e_s < e_D /\ 2 < e_D /\ 0 < e_s < 3.
Proof. pose proof e_DD as E. assert (0 <= e_D) by apply sqrt_pos. unfold e_s in *. split; [|split]; nra. Qed.
Lemma e_pos : 0 < e_p /\ e_m < - / 2.
Proof. pose proof e_Dpos as E. pose proof e_DD as F. unfold e_p, e_m. split; [lra|]. assert (e_s + 1 < e_D) by nra. lra. Qed.
Lemma e_PP : e_P * e_P = / (e_p * e_D).
Proof. pose proof e_Dpos. pose proof e_pos. unfold e_P. rewrite <- Rinv_mult. rewrite sqrt_sqrt by nra. reflexivity. Qed.
Lemma e_QQ : e_Q * e_Q = / (- e_m * e_D).
Proof. pose proof e_Dpos. pose proof e_pos. unfold e_Q. rewrite <- Rinv_mult. rewrite sqrt_sqrt by nra. reflexivity. Qed.
Definition e_vecs : mat := [[gr * e_m * e_Q; gr * e_m * e_Q; 2 * gr * e_Q]; [gr; - gr; 0]; [gr * e_p * e_P; gr * e_p * e_P; 2 * gr * e_P]].
Definition e_vals : vec := [e_m; a - k; e_p].
Lemma e_facts : e_m * e_m * (e_Q * e_Q) = - e_m / e_D /\ e_p * e_p * (e_P * e_P) = e_p / e_D /\ e_m * (e_Q * e_Q) = - / e_D /\ e_p * (e_P * e_P) = / e_D /\ e_m * e_p = - (2) /\
  (e_p - e_m) / e_D = 1 /\ (e_p * e_p - e_m * e_m) / e_D = e_s.
Proof.
  pose proof e_Dpos as A. pose proof e_pos as C. pose proof e_DD as F. rewrite e_PP, e_QQ. split; [field; lra|]. split; [field; lra|]. split; [field; lra|]. split; [field; lra|].
  split; [unfold e_m, e_p; nra|]. split; [unfold e_m, e_p; field; lra|]. unfold e_m, e_p. field. lra.
Qed.
Lemma e_onb : onb 3 e_vecs.
Proof.
  pose proof gr2 as G. destruct e_facts as [F1 [F2 [F3 [F4 [F5 [F6 F7]]]]]]. pose proof e_Dpos as A. pose proof e_pos as C.
  assert (N1 : e_m * e_m * (e_Q * e_Q) + 2 * (e_Q * e_Q) = 1).
  { rewrite F1. replace (e_Q * e_Q) with (- / e_D / e_m) by (rewrite <- F3; field; lra). replace 2 with (- (e_m * e_p)) by lra. rewrite <- F6. field. lra. }
  assert (N2 : e_p * e_p * (e_P * e_P) + 2 * (e_P * e_P) = 1).
  { rewrite F2. replace (e_P * e_P) with (/ e_D / e_p) by (rewrite <- F4; field; lra). replace 2 with (- (e_m * e_p)) by lra. rewrite <- F6. field. lra. }
  split; [reflexivity|]. split; [repeat constructor|]. unfold e_vecs.
  intros [|[|[|i]]] [|[|[|j]]] Hi Hj; cbn [length] in *; try lia; cbn [nth Nat.eqb]; rewrite !dot_cons, dot_nil_l.
  - transitivity ((gr * gr) * (2 * (e_m * e_m * (e_Q * e_Q) + 2 * (e_Q * e_Q)))); [ring|]. rewrite N1, G. field.
  - ring.
  - transitivity ((gr * gr) * (e_Q * e_P) * (2 * (e_m * e_p) + 4)); [ring|]. rewrite F5. ring.
  - ring.
  - transitivity (2 * (gr * gr)); [ring|]. rewrite G. field.
  - ring.
  - transitivity ((gr * gr) * (e_Q * e_P) * (2 * (e_m * e_p) + 4)); [ring|]. rewrite F5. ring.
  - ring.
  - transitivity ((gr * gr) * (2 * (e_p * e_p * (e_P * e_P) + 2 * (e_P * e_P)))); [ring|]. rewrite N2, G. field.
Qed.
Lemma e_post : eigh_post 3 [[a; k; 1]; [k; a; 1]; [1; 1; 0]] (e_vals, e_vecs).
Proof.
  pose proof gr2 as G. destruct e_facts as [F1 [F2 [F3 [F4 [F5 [F6 F7]]]]]]. pose proof e_Dpos as A. pose proof e_pos as C.
  assert (S1 : e_m * (e_m * e_m * (e_Q * e_Q)) + e_p * (e_p * e_p * (e_P * e_P)) = a + k) by (rewrite F1, F2; transitivity e_s; [rewrite <- F7; field; lra|reflexivity]).
  assert (S2 : e_m * (e_m * (e_Q * e_Q)) + e_p * (e_p * (e_P * e_P)) = 1) by (rewrite F3, F4, <- F6; field; lra).
  assert (S3 : e_m * (e_Q * e_Q) + e_p * (e_P * e_P) = 0) by (rewrite F3, F4; ring).
  split; [reflexivity|]. split; [exact e_onb|]. cbn [fst snd]. split.
  - unfold e_vals, e_vecs, spec, madd, mscale, outer, mzero, vzero, vadd, vscale. cbn [map repeat zipw vmap2].
    apply f_equal2; [|apply f_equal2; [|apply f_equal2; [|reflexivity]]]; (apply f_equal2; [|apply f_equal2; [|apply f_equal2; [|reflexivity]]]).
    + transitivity ((gr * gr) * ((e_m * (e_m * e_m * (e_Q * e_Q)) + e_p * (e_p * e_p * (e_P * e_P))) + (a - k))); [ring|rewrite S1, G; field].
    + transitivity ((gr * gr) * ((e_m * (e_m * e_m * (e_Q * e_Q)) + e_p * (e_p * e_p * (e_P * e_P))) - (a - k))); [ring|rewrite S1, G; field].
    + transitivity (2 * (gr * gr) * (e_m * (e_m * (e_Q * e_Q)) + e_p * (e_p * (e_P * e_P)))); [ring|rewrite S2, G; field].
    + transitivity ((gr * gr) * ((e_m * (e_m * e_m * (e_Q * e_Q)) + e_p * (e_p * e_p * (e_P * e_P))) - (a - k))); [ring|rewrite S1, G; field].
    + transitivity ((gr * gr) * ((e_m * (e_m * e_m * (e_Q * e_Q)) + e_p * (e_p * e_p * (e_P * e_P))) + (a - k))); [ring|rewrite S1, G; field].
    + transitivity (2 * (gr * gr) * (e_m * (e_m * (e_Q * e_Q)) + e_p * (e_p * (e_P * e_P)))); [ring|rewrite S2, G; field].
    + transitivity (2 * (gr * gr) * (e_m * (e_m * (e_Q * e_Q)) + e_p * (e_p * (e_P * e_P)))); [ring|rewrite S2, G; field].
    + transitivity (2 * (gr * gr) * (e_m * (e_m * (e_Q * e_Q)) + e_p * (e_p * (e_P * e_P)))); [ring|rewrite S2, G; field].
    + transitivity (4 * (gr * gr) * (e_m * (e_Q * e_Q) + e_p * (e_P * e_P))); [ring|rewrite S3; ring].
  - assert (a - k < e_p) by (unfold e_p, e_s in *; lra). intros [|[|[|i]]] [|[|[|j]]] H0; unfold e_vals, vget; cbn [nth]; try lia; lra.
Qed.
Lemma e_kept : / 10 < a - k -> kept (/ 10) 3 (e_vals, e_vecs).
Proof.
  pose proof e_pos as C. pose proof e_Dpos as A. assert (a - k < e_p) by (unfold e_p, e_s in *; lra).
  intros H1 [|[|[|i]]] Hi; try lia; left; unfold e_vals, vget; cbn [fst nth]; [rewrite Rabs_left; lra|rewrite Rabs_right; lra|rewrite Rabs_right; lra].
Qed.
End Eig3.
Definition eigh3g (A : mat) : vec * list vec := (e_vals (mget A 0 0) (mget A 0 1), e_vecs (mget A 0 0) (mget A 0 1)).
Lemma g_block_l : forall tau l, gp_block tau (gp_basis (Some 0%nat) 1 gX) gX [[l]] = [[1 + tau; kl l; 1]; [kl l; 1 + tau; 1]; [1; 1; 0]].
Proof.
  intros tau l. change (gp_basis (Some 0%nat) 1 gX) with (Some gB). unfold gp_block. rewrite g_Kt. fold (kl l). unfold gX. cbn [map]. rewrite !g_v. change (gp_n (Some gB)) with 1%nat. reflexivity.
Qed.
Lemma kl_lt1 : forall x, kl (exp x) < 1.
Proof. intro x. unfold kl. rewrite <- exp_0. apply exp_increasing. pose proof (exp_pos x). nra. Qed.
Lemma g_hyp : forall ell, let A := gp_block (/ 10) (gp_basis (Some 0%nat) 1 gX) gX (make_L GConst 1 ell) in eigh_post (length gX + gp_n (gp_basis (Some 0%nat) 1 gX)) A (eigh3g A) /\ kept (/ 10) (length gX + gp_n (gp_basis (Some 0%nat) 1 gX)) (eigh3g A).
Proof.
  intro ell. cbn zeta. rewrite g_const, g_block_l. pose proof (kl_lt1 (vget ell 0)) as K1. pose proof (kl_pos (exp (vget ell 0))) as K0. set (k := kl (exp (vget ell 0))) in *.
  change (length gX + gp_n (gp_basis (Some 0%nat) 1 gX))%nat with 3%nat. change (eigh3g [[1 + / 10; k; 1]; [k; 1 + / 10; 1]; [1; 1; 0]]) with (e_vals (1 + / 10) k, e_vecs (1 + / 10) k).
  split; [apply e_post; lra|apply e_kept; lra].
Qed.
Lemma g_uni : unisolvent (gp_basis (Some 0%nat) 1 gX) gX.
Proof.
  intros p Lp E. change (gp_basis (Some 0%nat) 1 gX) with (Some gB) in *. change (gp_n (Some gB)) with 1%nat in *. destruct p as [|b [|c p]]; try discriminate. pose proof (E 0%nat ltac:(cbn; lia)) as E0. rewrite g_v, dot_cons, dot_nil_l in E0. unfold vzero. cbn. f_equal. lra.
Qed.
(** every optimiser: the data 2, 5 shifted by 7 *)
Example shift_case : forall opt dexpm L0 x,
  gp_predict (Some 0%nat) 1 gX (gp_fit opt eigh3g (/ 10) (/ 10) (Some 0%nat) GConst dexpm 1 gX [9; 12] L0) x = gp_predict (Some 0%nat) 1 gX (gp_fit opt eigh3g (/ 10) (/ 10) (Some 0%nat) GConst dexpm 1 gX [2; 5] L0) x + 7.
Proof.
  intros opt dexpm L0 x. destruct (fit_shift opt eigh3g (/ 10) (/ 10) (Some 0%nat) GConst dexpm 1 gX [2; 5] L0 [7] ltac:(lra) ltac:(lra) eq_refl eq_refl g_hyp) as [_ [_ S]].
  specialize (S g_uni x). change (gp_basis (Some 0%nat) 1 gX) with (Some gB) in S.
  replace (add_trend (Some gB) gX [2; 5] [7]) with [9; 12] in S.
  - rewrite S. rewrite g_v, dot_cons, dot_nil_l. ring.
  - unfold add_trend, gX. cbn [length seq map nth]. rewrite !g_v, !dot_cons, !dot_nil_l. unfold vget. cbn [nth]. apply f_equal2; [ring|apply f_equal2; [ring|reflexivity]].
Qed.
Example translate_case : forall opt dexpm y L0, gp_predict (Some 0%nat) 1 [[10]; [11]] (gp_fit opt eigh3g (/ 10) (/ 10) (Some 0%nat) GConst dexpm 1 [[10]; [11]] y L0) [12] =
  gp_predict (Some 0%nat) 1 gX (gp_fit opt eigh3g (/ 10) (/ 10) (Some 0%nat) GConst dexpm 1 gX y L0) [2].
Proof.
  intros opt dexpm y L0. destruct (fit_translate opt eigh3g (/ 10) (/ 10) (Some 0%nat) GConst dexpm [10] gX y L0 ltac:(repeat constructor) ltac:(discriminate)) as [_ T]. specialize (T [2] eq_refl).
  replace (translate [10] gX) with [[10]; [11]] in T by (unfold translate, gX, vadd; cbn [map vmap2]; apply f_equal2; [f_equal; lra|apply f_equal2; [f_equal; lra|reflexivity]]).
  replace (vadd [10] [2]) with [12] in T by (unfold vadd; cbn [vmap2]; f_equal; lra). exact T.
Qed.
(** a quarter turn of the plane *)
Definition turn (x : vec) : vec := [- vget x 1; vget x 0].
Example isometry_case : isometry 2 turn /\ map turn [[1; 2]; [3; 5]] = [[-2; 1]; [-5; 3]] /\ ~ isometry 2 (fun x => [2 * vget x 0; vget x 1]).
Proof.
  split; [|split].
  - intros x z Lx Lz. destruct x as [|a [|b [|? ?]]]; try discriminate. destruct z as [|c [|d [|? ?]]]; try discriminate. split; [reflexivity|]. unfold turn, norm2sq, vsub, vget. cbn [vmap2 nth]. rewrite !dot_cons, !dot_nil_l. ring.
  - unfold turn, vget. cbn. reflexivity.
  - intro I. destruct (I [1; 0] [0; 0] eq_refl eq_refl) as [_ E]. unfold norm2sq, vsub, vget in E. cbn [vmap2 nth] in E. rewrite !dot_cons, !dot_nil_l in E. lra.
Qed.
(** the hypotheses of pred_order: two points in both orders *)
Example order_case : Permutation (combine gX [2; 5]) (combine [[1]; [0]] [5; 2]) /\ forall x,
  gp_eval (gp_basis (Some 0%nat) 1 [[1]; [0]]) [[1]; [0]] [[exp 0]] (gp_weights eigh3g (/ 10) (/ 10) (gp_basis (Some 0%nat) 1 [[1]; [0]]) [[1]; [0]] [5; 2] [[exp 0]]) x =
  gp_eval (gp_basis (Some 0%nat) 1 gX) gX [[exp 0]] (gp_weights eigh3g (/ 10) (/ 10) (gp_basis (Some 0%nat) 1 gX) gX [2; 5] [[exp 0]]) x.
Proof.
  assert (PM : Permutation (combine gX [2; 5]) (combine [[1]; [0]] [5; 2])) by apply perm_swap. split; [exact PM|].
  pose proof (g_hyp [0]) as [P K]. rewrite g_const in P, K. change (vget [0] 0) with 0 in P, K.
  assert (E : gp_block (/ 10) (gp_basis (Some 0%nat) 1 [[1]; [0]]) [[1]; [0]] [[exp 0]] = gp_block (/ 10) (gp_basis (Some 0%nat) 1 gX) gX [[exp 0]]).
  { rewrite <- (basis_order (Some 0%nat) 1 gX [[1]; [0]]) by apply perm_swap. rewrite g_block_l. change (gp_basis (Some 0%nat) 1 gX) with (Some gB).
    assert (S : gp_K [[exp 0]] [[1]; [0]] = gp_K [[exp 0]] gX).
    { rewrite g_K. unfold gp_K. cbn [map]. rewrite !gk_refl. assert (Q : gk [[exp 0]] [0] [1] = exp (- / 2 * (exp 0 * exp 0))) by (unfold gk, gk_d, norm2sq, mv, vsub; cbn [map vmap2]; rewrite !dot_cons, !dot_nil_l; f_equal; ring).
      rewrite (gk_sym [[exp 0]] [1] [0]), Q. reflexivity. }
    unfold gp_block. rewrite S, g_Kt. fold (kl (exp 0)). cbn [map]. rewrite !g_v. reflexivity. }
  intro x. apply pred_order; try lra; try reflexivity; auto.
  - rewrite E. exact P.
  - rewrite E. exact K.
  - exact g_uni.
Qed.
(** a distance matrix that separates the points by 4 or more *)
Example far_case : (forall i, (i < length gX)%nat -> 4 * 4 <= gk_d [[1]] [5] (nth i gX [])) /\
  Rabs (gp_eval None gX [[1]] ([1; -2], []) [5]) <= exp (- (8)) * 3.
Proof.
  assert (H : forall i, (i < length gX)%nat -> 4 * 4 <= gk_d [[1]] [5] (nth i gX [])).
  { intros [|[|i]] Hi; cbn in Hi; try lia; unfold gX, gk_d, norm2sq, mv, vsub; cbn [nth map vmap2]; rewrite !dot_cons, !dot_nil_l; lra. }
  split; [exact H|]. pose proof (pred_far None gX [[1]] ([1; -2], []) [5] 4 eq_refl ltac:(lra) H) as F. cbn [fst snd gp_v] in F. rewrite dot_nil_l, Rminus_0_r in F.
  eapply Rle_trans; [exact F|]. unfold gX. cbn [length rsum]. unfold vget. cbn [nth]. rewrite Rabs_R1. rewrite (Rabs_left (-2)) by lra. replace (- / 2 * (4 * 4)) with (- (8)) by field. apply Req_le. ring.
Qed.
(** one sample, then a second one *)
Example more_case : eigh_post 1 (gp_K [[1]] [[0]]) ([1], [[1]]) /\ gp_cov (eigh2 (gp_K [[1]] ([[0]] ++ [[1]]))) (/ 10) [[1]] ([[0]] ++ [[1]]) [1] < gp_cov ([1], [[1]]) (/ 10) [[1]] [[0]] [1].
Proof.
  assert (P : eigh_post 1 (gp_K [[1]] [[0]]) ([1], [[1]])).
  { split; [reflexivity|]. split; [apply onb1|]. split.
    - unfold gp_K. cbn [map]. rewrite gk_refl. unfold spec, madd, mscale, outer, mzero, vzero, vadd, vscale. cbn. f_equal. f_equal. ring.
    - intros [|i] [|j] H; unfold vget; cbn [fst nth]; try lia; lra. }
  split; [exact P|]. change ([[0]] ++ [[1]]) with gX. destruct cov_case as [_ [_ C]]. rewrite C.
  unfold gp_cov. cbn [fst snd map length seq]. unfold vget at 1. cbn [nth]. rewrite (proj2 (Rltb_true (/ 10) 1)) by lra. unfold vget. cbn [nth lincomb]. pose proof kk_bounds as K.
  assert (G : gk [[1]] [1] [0] = kk) by (unfold gk, gk_d, norm2sq, mv, vsub, kk; cbn [map vmap2]; rewrite !dot_cons, !dot_nil_l; f_equal; ring). rewrite G.
  unfold vadd, vscale, vzero. cbn [map repeat vmap2]. rewrite !dot_cons, !dot_nil_l. 
  rewrite !(proj2 (Rltb_true (/ 10) 1)) by lra.
  match goal with |- 0 < (if Rltb ?c 0 then 0 else ?c) => replace c with (1 - kk * kk) by (rewrite ?Rinv_1; ring) end.
  rewrite (proj2 (Rltb_false (1 - kk * kk) 0)) by nra. nra.
Qed.

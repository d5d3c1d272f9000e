(** Concrete cases for the random domains; an exact solver for normal domains; the density of a normalized log-normal domain. *)
Require Import Reals Lra Lia List Bool Arith.
From Verif Require Import RVec Sums Num MatLib GrassLib SpecProofs DomModel DomSpec DomProofs NormProofs DomOpsProofs DomExamples DomMoreModel CvxProofs QuadProofs PredModel PredProofs NbModel NbProofs CholProofs RandModel RandProofs RandBounds CholAlg.
Import ListNotations.
Local Open Scope R_scope.

Lemma norm2sq_pos_p : forall x i, vget x i <> 0 -> 0 < norm2sq x.
Proof.
  intros x i H. destruct (Rle_lt_or_eq_dec 0 (norm2sq x) (norm2sq_nonneg x)) as [P|P]; auto. exfalso. symmetry in P. apply norm2sq_zero in P.
  apply H. destruct (le_lt_dec (length x) i); [apply vget_over; auto|]. rewrite Forall_forall in P. apply P. unfold vget. apply nth_In. auto.
Qed.
(** * the solver contract is met by a closed formula *)
Definition tmul (m : nat) (L : mat) (p : vec) : vec := map (fun k => rsum m (fun i => vget p i * ent L i k)) (seq 0 m).
Definition ell_corner (m : nat) (d : ndom) (p : vec) : answer :=
  match n_clip d with
  | None => UnboundedExc
  | Some c => let q := tmul m (n_L d) p in Pt (vadd (n_mean d) (mv (n_L d) (vscale (sqrt c / norm2 q) q)))
  end.
Lemma tmul_dot : forall m L p w, sq_mat m L -> length p = m -> length w = m -> dot p (mv L w) = dot (tmul m L p) w.
Proof.
  intros m L p w SL Lp Lw. assert (LQ : length (tmul m L p) = m) by (unfold tmul; rewrite map_length, seq_length; auto). rewrite (dot_rs m p) by (auto; apply sq_mv; auto). rewrite (dot_rs m (tmul m L p)) by auto.
  rewrite (rsum_ext m _ (fun i => rsum m (fun k => vget p i * ent L i k * vget w k))). - rewrite rsum_swap. apply rsum_ext. intros k Hk. unfold tmul. rewrite (vget_map_seq (fun k => rsum m (fun i => vget p i * ent L i k))) by auto. rewrite rsum_scal_r. auto.
  - intros i Hi. pose proof SL as [LL _]. rewrite mv_get by lia. rewrite (dot_rs m) by (auto; apply sq_row; auto). rewrite <- rsum_scal_l. apply rsum_ext. intros k Hk. unfold ent. ring.
Qed.
Theorem normal_solver_exists : forall chol tinv isf m mean cov t, chol_spec chol -> tinv_spec tinv -> length mean = m -> factors m cov -> (forall a, t = Some a -> 0 < isf a m) ->
  let d := normal_new chol tinv isf mean cov t in normal_solver m d (fun _ _ p => ell_corner m d p).
Proof.
  intros chol tinv isf m mean cov t CS TS Lm FA IS d nlb nub p L1 L2 Lp (i & Hi & Np). pose proof (CS m cov FA) as C. pose proof (TS m cov _ C) as I. assert (Lm' : length (n_mean d) = m) by auto. assert (SI : sq_mat m (n_Linv d)) by apply I.
  destruct (n_clip d) as [c|] eqn:E; unfold ell_corner; rewrite E; [|left; auto].
  assert (Pc : 0 < c). { unfold d, normal_new in E. cbn [n_clip] in E. destruct t as [a|]; [|discriminate]. injection E as <-. rewrite Lm. apply IS. auto. }
  assert (EM : ndom_dom d = normal_dom mean (tinv (chol cov)) (Some c)) by (unfold ndom_dom; rewrite E; auto).
  pose proof C as (SL & _). set (q := tmul m (n_L d) p). assert (LQ : length q = m) by (unfold q, tmul; rewrite map_length, seq_length; auto).
  assert (TD : forall w, length w = m -> dot p (mv (chol cov) w) = dot q w) by (intros w Lw; apply (tmul_dot m (chol cov)); auto).
  assert (NQ : 0 < norm2sq q). { destruct (Rle_lt_or_eq_dec 0 (norm2sq q) (norm2sq_nonneg q)) as [|Z]; auto. exfalso. assert (D0 : dot p (mv (chol cov) (mv (tinv (chol cov)) p)) = 0). { rewrite TD by (apply sq_mv; apply I). pose proof (cauchy_schwarz_sq q (mv (tinv (chol cov)) p) ltac:(rewrite (sq_mv m) by apply I; auto)) as K. rewrite <- Z in K. nra. }
    rewrite (proj2 I p Lp) in D0. pose proof (norm2sq_pos_p p i Np). unfold norm2sq in *. lra. }
  assert (SQ : sqrt (norm2sq q) * sqrt (norm2sq q) = norm2sq q) by (apply sqrt_sqrt; lra). assert (NP : 0 < norm2 q) by (unfold norm2; apply sqrt_lt_R0; auto).
  set (w0 := vscale (sqrt c / norm2 q) q). assert (LW : length w0 = m) by (unfold w0; rewrite vscale_length; auto).
  assert (N0 : norm2sq w0 = c). { unfold w0, norm2sq. rewrite dot_vscale_l, dot_vscale_r. fold (norm2sq q). rewrite <- SQ. fold (norm2 q). assert (S2 : sqrt c * sqrt c = c) by (apply sqrt_sqrt; lra). rewrite <- S2 at 3. field. lra. }
  set (x0 := vadd (n_mean d) (mv (n_L d) w0)). assert (M0 : member (ndom_dom d) x0) by (rewrite EM; apply (normal_pt_member m mean cov (chol cov)); auto; lra).
  assert (LL : length (mv (chol cov) w0) = m) by (apply sq_mv; auto). assert (LX : length x0 = m) by (unfold x0; rewrite vadd_length; auto; rewrite Lm'; auto).
  assert (O0 : dot p x0 = dot p (n_mean d) + norm2 q * sqrt c). { unfold x0. rewrite dot_vadd_r by (rewrite Lm'; auto). change (n_L d) with (chol cov). rewrite (TD w0 LW). unfold w0. rewrite dot_vscale_r. fold (norm2sq q). rewrite <- SQ. fold (norm2 q). field. lra. }
  assert (MX : forall y, member (ndom_dom d) y -> dot p y <= dot p x0).
  { intros y My. rewrite EM in My. apply normal_member in My. destruct My as [Ly My]. specialize (My c eq_refl). rewrite O0. set (u := mv (tinv (chol cov)) (vsub y mean)) in *. assert (LV : length (vsub y mean) = m) by (rewrite vsub_length; congruence). assert (LU : length u = m) by (apply sq_mv; apply I).
    assert (EY : mv (chol cov) u = vsub y mean) by (apply I; auto). pose proof (TD u LU) as K. rewrite EY, dot_vsub_r in K by congruence. pose proof (cauchy_schwarz q u ltac:(congruence)) as CSu. change (n_mean d) with mean. nra. }
  split; [rewrite E; discriminate|]. destruct (un_onto m d nlb nub Lm' L1 L2 x0 LX) as (z & Lz & Ez). exists z. split; [|symmetry; exact Ez]. split; [apply (nfeasible_member m); auto; rewrite Ez; auto|].
  intros w Fw. assert (Lw : length w = m) by (destruct Fw; congruence). rewrite !(un_obj m d nlb nub) by auto. rewrite Ez. apply (nfeasible_member m) in Fw; auto. specialize (MX _ Fw). lra.
Qed.

(** ** covariance [[4, 6], [6, 25]], truncated where the squared distance reaches 9 *)
Definition ncov : mat := [[4; 6]; [6; 25]].
Definition nfac : mat := [[2; 0]; [3; 4]].
Definition nisf (_ : R) (_ : nat) : R := 9.
Lemma nfac_ok : chol_ok 2 ncov nfac.
Proof.
  split; [split; auto; repeat constructor|]. split; [|split].
  - intros i j Hi Hj H. assert (i = 0%nat) by lia. assert (j = 1%nat) by lia. subst. unfold ent, vget. simpl. auto.
  - intros i Hi. destruct i as [|[|]]; [| |lia]; unfold ent, vget; simpl; lra.
  - intros i j Hi Hj. destruct i as [|[|]]; [| |lia]; (destruct j as [|[|]]; [| |lia]); unfold ent, vget; simpl; rewrite !dot_cons, !dot_nil_l; ring.
Qed.
Lemma ncov_factors : factors 2 ncov.
Proof. split; [split; auto; repeat constructor|]. exists nfac. apply nfac_ok. Qed.
Lemma sqrt_of : forall a b, 0 <= b -> a = b * b -> sqrt a = b.
Proof. intros a b H ->. apply sqrt_square. auto. Qed.
Lemma ncase_bounds : normal_nlb [1; -1] ncov 9 = [Fin (-5); Fin (-16)] /\ normal_nub [1; -1] ncov 9 = [Fin 7; Fin 14].
Proof.
  assert (A : sqrt (9 * ent ncov 0 0) = 6) by (apply sqrt_of; [lra|unfold ent, vget; simpl; ring]). assert (B : sqrt (9 * ent ncov 1 1) = 15) by (apply sqrt_of; [lra|unfold ent, vget; simpl; ring]).
  unfold normal_nlb, normal_nub. cbn [length seq map]. rewrite A, B. unfold vget. cbn [nth]. split; repeat (apply f_equal2; [f_equal; ring|]); auto.
Qed.
Definition nd : ndom := normal_new cholesky tri_inv nisf [1; -1] ncov (Some (1 / 10)).
Definition nd' : ndom := normal_normalized cholesky tri_inv nisf [Fin (-5); Fin (-16)] [Fin 7; Fin 14] nd.
Lemma nd_slopes : nslopes [Fin (-5); Fin (-16)] [Fin 7; Fin 14] = [1 / 6; 1 / 15].
Proof.
  unfold nslopes, zipw, nslope. simpl. destruct (Req_EM_T 7 (-5)); [lra|]. destruct (Req_EM_T 14 (-16)); [lra|]. apply f_equal2; [field|]. apply f_equal2; [field|auto].
Qed.
Example normal_case : chol_spec cholesky /\ tinv_spec tri_inv /\ det_spec det_chol /\ factors 2 ncov /\ 0 < nisf (1 / 10) 2 /\ oriented [Fin (-5); Fin (-16)] [Fin 7; Fin 14] /\
  n_L nd = nfac /\ det_chol ncov = 64 /\
  ent (n_cov nd') 0 0 = 1 / 9 /\ ent (n_cov nd') 0 1 = 1 / 15 /\ ent (n_cov nd') 1 1 = 1 / 9 /\
  (forall tol x, length x = 2%nat -> normal_pdf det_chol nd tol x = 1 / 90 * normal_pdf det_chol nd' tol (normal_normalize [Fin (-5); Fin (-16)] [Fin 7; Fin 14] nd x)) /\
  normal_pdf det_chol nd 0 [1; -1] <> 0.
Proof.
  pose proof cholesky_spec as CS. pose proof tri_inv_spec as TS. pose proof det_chol_spec as DS. pose proof ncov_factors as FA.
  assert (OR : oriented [Fin (-5); Fin (-16)] [Fin 7; Fin 14]). { intros i v w Ev Ew. destruct i as [|[|[|i]]]; simpl in Ev, Ew; try discriminate; injection Ev as <-; injection Ew as <-; lra. }
  assert (NL : n_L nd = nfac) by (apply (chol_unique 2 ncov); [apply CS; auto|apply nfac_ok]).
  assert (DD : det_chol ncov = 64). { rewrite (DS 2%nat ncov nfac (proj1 FA) nfac_ok). unfold vprod, ent, vget. simpl. ring. }
  destruct (normalized_normal cholesky tri_inv nisf det_chol 2 [1; -1] ncov (Some (1 / 10)) [Fin (-5); Fin (-16)] [Fin 7; Fin 14] CS TS DS ltac:(intros; unfold nisf; lra) eq_refl FA eq_refl eq_refl OR) as (_ & CV & _ & PD).
  rewrite nd_slopes in CV, PD. fold nd in CV, PD. fold nd' in CV, PD.
  repeat (split; [solve [auto | unfold nisf; lra | rewrite CV by lia; unfold ent, ncov, vget; simpl; field]|]). split.
  - intros tol x Lx. destruct (PD x Lx) as (_ & _ & P). rewrite P. unfold vprod. simpl. f_equal. field.
  - unfold normal_pdf. assert (EX : inside1 (ndom_dom nd) [1; -1] 0 = true).
    { unfold ndom_dom. apply (normal_inside 2); [reflexivity|apply (TS 2%nat ncov (cholesky ncov)); apply CS; auto|intros c E; injection E as <-; unfold nisf; lra|]. split; auto. intros c E. assert (c = 9) by (unfold nd, normal_new, nisf in E; cbn [n_clip] in E; congruence). subst c.
      assert (Z : vsub [1; -1] (n_mean nd) = [0; 0]) by (unfold nd, normal_new, vsub; simpl; repeat (apply f_equal2; [ring|]); auto). rewrite Z. assert (SI : sq_mat 2 (n_Linv nd)) by (apply (TS 2%nat ncov (cholesky ncov)); apply CS; auto).
      assert (N0 : norm2 (mv (n_Linv nd) [0; 0]) = 0). { destruct SI as [L2 F2]. destruct (n_Linv nd) as [|r [|r' [|]]]; try discriminate. pose proof (Forall_inv F2) as A. pose proof (Forall_inv (Forall_inv_tail F2)) as B. cbv beta in A, B. destruct r as [|a [|b [|]]]; try discriminate. destruct r' as [|a' [|b' [|]]]; try discriminate. unfold norm2, norm2sq, mv. simpl. rewrite !dot_cons, !dot_nil_l. apply sqrt_of; [lra|ring]. }
      rewrite N0. pose proof (sqrt_pos 9). lra. }
    rewrite EX. change (n_trunc nd) with (Some (1 / 10)). cbv iota beta. set (e := exp _). assert (0 < e) by apply exp_pos. set (r := sqrt _). assert (0 < r). { apply sqrt_lt_R0. change (n_cov nd) with ncov. rewrite DD. rewrite Rabs_pos_eq by lra. assert (0 < (2 * PI) ^ length (n_mean nd)) by (apply pow_lt; pose proof PI_RGT_0; lra). nra. }
    assert (0 < e / r / (1 - 1 / 10)) by (apply Rdiv_lt_0_compat; [apply Rdiv_lt_0_compat; auto|lra]). lra.
Qed.
Example normal_unit_case : factors 2 ncov /\ 0 < nisf (1 / 10) 2 /\ normal_nlb [1; -1] ncov 9 = [Fin (-5); Fin (-16)] /\ normal_nub [1; -1] ncov 9 = [Fin 7; Fin 14] /\
  normal_nlb (n_mean nd') (n_cov nd') 9 = [Fin (-1); Fin (-1)] /\ normal_nub (n_mean nd') (n_cov nd') 9 = [Fin 1; Fin 1].
Proof.
  split; [apply ncov_factors|]. split; [unfold nisf; lra|]. destruct ncase_bounds as [B1 B2]. split; auto. split; auto.
  pose proof (normal_normalized_unit cholesky tri_inv nisf 2 [1; -1] ncov (1 / 10) 9 cholesky_spec tri_inv_spec eq_refl ncov_factors eq_refl ltac:(lra)) as H. cbv zeta in H. rewrite B1, B2 in H. fold nd in H. fold nd' in H. destruct H as (H1 & H2 & _). auto.
Qed.
Example normal_bounds_case : normal_solver 2 nd (fun _ _ p => ell_corner 2 nd p) /\
  run (lb (ndom_dom nd)) (ub (ndom_dom nd)) (fun _ _ p => ell_corner 2 nd p) [QUpper; QLower] fresh = [Some [Fin 7; Fin 14]; Some [Fin (-5); Fin (-16)]].
Proof.
  assert (NS : normal_solver 2 nd (fun _ _ p => ell_corner 2 nd p)) by (apply normal_solver_exists; auto; [apply cholesky_spec|apply tri_inv_spec|apply ncov_factors|intros; unfold nisf; lra]). split; auto.
  unfold nd at 1 2. rewrite (normal_code_bounds cholesky tri_inv nisf 2 [1; -1] ncov (Some (1 / 10))); auto; [|apply cholesky_spec|apply tri_inv_spec|apply ncov_factors|intros; unfold nisf; lra].
  destruct ncase_bounds as [B1 B2]. cbn [map]. unfold nisf. rewrite B1, B2. auto.
Qed.
Example factors_case : posdef 2 (ent ncov) /\ ~ factors 2 [[1; 2]; [2; 1]].
Proof.
  split; [apply (factors_posdef 2 ncov nfac nfac_ok)|]. intro F. apply factors_iff in F; [|split; auto; repeat constructor]. destruct F as [_ P]. specialize (P (fun i => match i with O => 1 | _ => -1 end) ltac:(exists 0%nat; split; [lia|lra])). simpl in P. unfold ent, vget in P. simpl in P. lra.
Qed.

(** * LogNormalDomain: the density of the normalized domain *)
Theorem logn_normalized_density : forall d a b, g_trunc d = Some (a, b) -> a < b -> 0 < g_scale d -> 0 < g_cov d ->
  is_logn_density (g_mean d) (g_cov d) (g_off d) (g_scale d) (logn_density d) ->
  let d' := logn_normalized d in
  (is_logn_density (g_mean d') (g_cov d') (g_off d') (g_scale d') (logn_density d') <-> g_scale d * (exp b - exp a) = 2).
Proof.
  intros d a b E AB S CV D d'. destruct (logn_nb_trunc d a b E S AB) as [NB LT]. apply logn_pdf_spec in D; auto.
  assert (SL : nslope (Fin (g_off d + g_scale d * exp a)) (Fin (g_off d + g_scale d * exp b)) = 2 / (g_scale d * (exp b - exp a))). { unfold nslope. destruct (Req_EM_T _ _); [lra|]. f_equal. ring. }
  assert (W : 0 < g_scale d * (exp b - exp a)) by lra. set (k := 2 / (g_scale d * (exp b - exp a))) in *. assert (K : 0 < k) by (apply Rdiv_lt_0_compat; lra).
  assert (E1 : g_scale d' = k * g_scale d) by (unfold d', logn_normalized; rewrite E, NB, SL; auto). assert (E2 : g_cov d' = g_cov d) by (unfold d', logn_normalized; rewrite E, NB; auto).
  unfold logn_density. rewrite (logn_pdf_spec (g_mean d') (g_cov d') (g_off d') (g_scale d')) by (rewrite ?E1, ?E2; auto; apply Rmult_lt_0_compat; auto). rewrite E1, E2, <- D. assert (EP : 0 < exp b - exp a) by (pose proof (exp_increasing a b AB); lra). assert (KW : k * (g_scale d * (exp b - exp a)) = 2) by (unfold k; field; split; lra).
  split; intro H.
  - assert (k * k = 1). { apply Rmult_eq_reg_r with (g_scale d * g_scale d); [|nra]. rewrite <- H at 2. ring. } assert (k = 1) by nra. subst k. rewrite H1 in KW. lra.
  - rewrite H in KW. assert (k = 1) by lra. rewrite H0. ring.
Qed.
Definition lnd : logn := mkLogn 0 1 3 1 (Some (0, ln 2)).
Example logn_case : 0 < g_scale lnd /\ (forall a b, g_trunc lnd = Some (a, b) -> a < b) /\ logn_bounds lnd = (Fin 4, Fin 5) /\ logn_bounds (logn_normalized lnd) = (Fin (-1), Fin 1) /\
  logn_draw lnd (ln (3 / 2)) = 9 / 2 /\ logn_draw (logn_normalized lnd) (ln (3 / 2)) = 0.
Proof.
  assert (L2 : 0 < ln 2) by (rewrite <- ln_1; apply ln_increasing; lra). assert (S : 0 < g_scale lnd) by (simpl; lra). assert (TR : forall a b, g_trunc lnd = Some (a, b) -> a < b) by (intros a b E; injection E as <- <-; auto).
  destruct (logn_normalized_spec lnd S TR) as (DR & BD & _). assert (B0 : logn_bounds lnd = (Fin 4, Fin 5)) by (unfold logn_bounds, lnd; cbn [g_off g_scale g_trunc logn_lb logn_ub]; rewrite exp_0, exp_ln by lra; f_equal; f_equal; ring).
  assert (D0 : logn_draw lnd (ln (3 / 2)) = 9 / 2) by (unfold logn_draw, logn_sample, lnd; cbn [g_off g_scale]; rewrite exp_ln by lra; field).
  split; auto. split; auto. split; auto. split; [apply BD; discriminate|]. split; auto. rewrite DR, D0. unfold logn_normalize, logn_nb. rewrite B0. cbn [norm_lb_i norm_ub_i nslope center_i]. rewrite Rmin_left, Rmax_left by lra. destruct (Req_EM_T 5 4); [lra|]. field.
Qed.
Theorem logn_normalized_refuted : exists d, 0 < g_scale d /\ 0 < g_cov d /\ g_trunc d <> None /\
  is_logn_density (g_mean d) (g_cov d) (g_off d) (g_scale d) (logn_density d) /\
  ~ is_logn_density (g_mean (logn_normalized d)) (g_cov (logn_normalized d)) (g_off (logn_normalized d)) (g_scale (logn_normalized d)) (logn_density (logn_normalized d)).
Proof.
  assert (L2 : 0 < ln 2) by (rewrite <- ln_1; apply ln_increasing; lra). exists lnd. split; [simpl; lra|]. split; [simpl; lra|]. split; [discriminate|].
  assert (D : is_logn_density (g_mean lnd) (g_cov lnd) (g_off lnd) (g_scale lnd) (logn_density lnd)) by (unfold logn_density; apply logn_pdf_spec; simpl; lra). split; auto.
  intro H. apply (logn_normalized_density lnd 0 (ln 2) eq_refl L2) in H; auto; try (simpl; lra). rewrite exp_0, exp_ln in H by lra. simpl in H. lra.
Qed.
